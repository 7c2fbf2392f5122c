(** Schur complements of single matrices, arrowhead and tridiagonal systems. *)
From Coq Require Import Lia List Arith Bool.
From Verif Require Import Base ModelPerm ModelSparsity ModelSymbolic ModelNumeric ModelArrow ModelReg.
From Verif Require Import SpecSymbolic SpecArrow SpecNumeric SpecArrowNum SpecPivot SpecSchur.
From Verif Require Import ProofBase ProofPerm ProofCsr ProofFill ProofDense ProofExact ProofLdl ProofKernel ProofSolve
  ProofMultiply ProofSingle ProofSingleMain ProofArrowSym ProofArrowRows ProofArrowDense ProofArrowProduct ProofArrowSolve ProofArrowMain
  ProofArrowSub ProofChain ProofPropSingle ProofPropArrow ProofPropPivot ProofAgree ProofAgreeArrow ProofPivotMain
  ProofRoundTri ProofDetRun ProofSchur.
Import ListNotations.

Section User.
  Context {F : Type} (O : ops F) (FL : fieldLaws O).
  Local Notation one := (fl_one FL).

  Lemma single_schur mt s n p a vals m reg :
    spOf s n n -> validPerm n p ->
    spOf a n n -> inputOf O m a vals -> coveredSym (entries a) (entries s) n p ->
    exists b, factorizationBlk s p = Ok b /\
      forall L0 D0, length L0 = c_nnz (b_sp b) -> length D0 = n ->
      exists L D, factorize O mt b (Some m) reg (L0, D0) = Ok (L, D) /\
        ((forall k, k < n -> vecAt O D k <> o0 O) ->
         exists E,
           (forall i, i < n -> vecAt O D i = reg (osub O (vecAt O D i) (E (nth i p 0))) i) /\
           let B := fun i j => plusDiag O (symAt O (entries a) vals) E (nth i p 0) (nth j p 0) in
           forall q, q <= n ->
             (exists X, eliminates O n q B X) /\
             forall X, eliminates O n q B X -> forall g h, q <= g -> g < n -> q <= h -> h < n ->
               trailAt O n q (unitAt O one (c_entries (b_sp b)) L) (vecAt O D) g h = schurAt O q B X g h).
  Proof.
    intros HS HP HA HI HC.
    destruct (factorization_identity O FL mt s n p a vals m reg HS HP HA HI HC) as (b & EB & ND & LT & RUN).
    exists b. split; auto. intros L0 D0 N1 N2. destruct (RUN L0 D0 N1 N2) as (L & D & EF & NL & NDD & H).
    exists L, D. split; auto. intros Nz. destruct (H Nz) as (E & HE & ID). exists E. split; auto. intros B.
    apply (schur_main O FL); auto.
    - intros i Hi. unfold unitAt. rewrite Nat.eqb_refl. auto.
    - intros i j Hij Hj. unfold unitAt. destruct (Nat.eqb_spec i j); [lia|].
      apply dense_out. intros H1. apply LT in H1. lia.
    - intros i j Hi Hj. unfold B. rewrite <- ID by auto. reflexivity.
  Qed.

  Lemma arrow_schur mt s ds dt dl dO n m w reg :
    let all := allIdx n ds dt dl dO in
    let N := length all in
    let var := fun i => nth i all (GS 0) in
    arrowDims s ds dt dl dO -> inputArrow O n ds dt dl dO m w -> declaredArrow s n m ->
    exists k, arrowBlocks s = Ok k /\
      forall d0, dataOf k n ds dt dl dO d0 ->
      exists d, arrowFactorize O mt k m reg d0 = Ok d /\
        ((forall g, In g all -> pivotAt O d g <> o0 O) ->
         exists E,
           (forall g, In g all ->
              pivotAt O d g = reg (osub O (pivotAt O d g) (E (permIdx s g))) (localIdx g)) /\
           let B := fun i j => plusDiagG O (matAt O m w) E (permIdx s (var i)) (permIdx s (var j)) in
           forall q, q <= N ->
             (exists X, eliminates O N q B X) /\
             forall X, eliminates O N q B X -> forall g h, q <= g -> g < N -> q <= h -> h < N ->
               trailAt O N q (fun i j => factorAt O one k d (var i) (var j)) (fun i => pivotAt O d (var i)) g h =
               schurAt O q B X g h).
  Proof.
    intros all N var HD IA DA.
    destruct (arrow_reproduces O FL mt s ds dt dl dO n m w reg HD IA DA) as (k & HK & _ & RUN).
    exists k. split; auto. intros d0 DO0. destruct (RUN d0 DO0) as (d & EF & _ & U1 & U0 & H).
    exists d. split; auto. intros Nz. destruct (H Nz) as (E & HE & ID). exists E. split; auto. intros B.
    assert (IN : forall i, i < N -> In (var i) all) by (intros; apply nth_In; auto).
    apply (schur_main O FL); auto.
    - intros i j Hij Hj. apply U0; try (apply IN; lia). apply (gbefore_rank ds dt dl dO n); try (apply IN; lia).
      apply (sorted_nth (rank n ds dt dl) (GS 0) all (all_sorted ds dt dl dO n)); auto.
    - intros i j Hi Hj. unfold B. rewrite <- ID by auto. unfold gldltAt. fold all.
      apply (suml_nth O FL (GS 0)).
  Qed.

  Lemma tri_schur mt a c p dt n A B wA wB reg :
    let all := list_prod (seq 0 (n + 1)) (seq 0 dt) in
    let N := (n + 1) * dt in
    let var := fun i => nth i all (0, 0) in
    spOf a dt dt -> spOf c dt dt -> validPerm dt p ->
    inputTri O n dt A B wA wB -> declaredTri a c n A B ->
    exists k, tridiagonalBlocks a c p = Ok k /\
      forall d0, dataOf k n 0 dt 0 0 d0 ->
      exists d, tridiagonalFactorize O mt k dt A B reg d0 = Ok d /\
        let D := fun i => pivotAt O d (GT (fst (var i)) (snd (var i))) in
        let L := fun i j => factorAt O one k d (GT (fst (var i)) (snd (var i))) (GT (fst (var j)) (snd (var j))) in
        ((forall i, i < N -> D i <> o0 O) ->
         exists E,
           (forall t i, t < n + 1 -> i < dt ->
              pivotAt O d (GT t i) = reg (osub O (pivotAt O d (GT t i)) (E t (nth i p 0))) i) /\
           let M := fun i j => plusDiagT O (triMatAt O A B wA wB) E
                       (fst (var i)) (nth (snd (var i)) p 0) (fst (var j)) (nth (snd (var j)) p 0) in
           forall q, q <= N ->
             (exists X, eliminates O N q M X) /\
             forall X, eliminates O N q M X -> forall g h, q <= g -> g < N -> q <= h -> h < N ->
               trailAt O N q L D g h = schurAt O q M X g h).
  Proof.
    intros all N var SA SC HP IT DT.
    destruct (tri_factorizes O FL mt a c p dt n A B wA wB reg SA SC HP IT DT) as (k & HK & _ & RUN).
    exists k. split; auto. intros d0 DO0. destruct (RUN d0 DO0) as (d & EF & _ & H).
    exists d. split; auto. intros D L Nz.
    assert (LN : length all = N) by (unfold all; rewrite prod_length, !seq_length; auto).
    assert (IN : forall i, i < N -> In (var i) all) by (intros; apply nth_In; lia).
    assert (IV : forall i, i < N -> fst (var i) < n + 1 /\ snd (var i) < dt).
    { intros i Hi. specialize (IN i Hi). destruct (var i) as (t, j). apply in_prod_iff in IN. rewrite !in_seq in IN.
      cbn. lia. }
    assert (NZ : forall t i, t < n + 1 -> i < dt -> pivotAt O d (GT t i) <> o0 O).
    { intros t i Ht Hi. assert (HI : In (t, i) all) by (apply in_prod_iff; rewrite !in_seq; lia).
      destruct (In_nth all (t, i) (0, 0) HI) as (x & Hx & EX). specialize (Nz x ltac:(lia)). unfold D, var in Nz.
      rewrite EX in Nz. exact Nz. }
    destruct (H NZ) as (E & HE & ID & _). exists E. split; auto. intros M.
    destruct (arrow_reproduces O FL mt _ 0 dt 0 0 n _ _ reg (tri_dims a c p dt SA SC HP) (tri_input O n dt A B wA wB IT)
      (tri_declared a c p n dt A B DT)) as (k' & HK' & _ & RUN').
    assert (k' = k) as ->.
    { pose proof (tri_k a c p dt k SA SC HK). congruence. }
    destruct (RUN' d0 DO0) as (d' & EF' & _ & U1 & U0 & _).
    assert (d' = d) as ->.
    { unfold tridiagonalFactorize, numRepetitions in EF. rewrite (do_nts _ _ _ _ _ _ _ DO0) in EF. congruence. }
    assert (TI : forall i, i < N -> In (GT (fst (var i)) (snd (var i))) (allIdx n 0 dt 0 0)).
    { intros i Hi. rewrite allIdx_tri. apply (in_map triRow). apply IN; auto. }
    assert (NT : forall i, i < N -> nth i (allIdx n 0 dt 0 0) (GS 0) = GT (fst (var i)) (snd (var i))).
    { intros i Hi. rewrite allIdx_tri. rewrite (nth_indep _ (GS 0) (triRow (0, 0))) by (rewrite map_length; fold all; lia).
      apply (map_nth triRow). }
    apply (schur_main O FL).
    - intros i Hi. apply U1; auto.
    - intros i j Hij Hj. apply U0; try (apply TI; lia). apply (gbefore_rank 0 dt 0 0 n); try (apply TI; lia).
      rewrite <- !NT by lia.
      apply (sorted_nth (rank n 0 dt 0) (GS 0) _ (all_sorted 0 dt 0 0 n)); auto.
      rewrite allIdx_tri, map_length. fold all. lia.
    - intros i j Hi Hj. unfold M. destruct (IV i Hi), (IV j Hj). rewrite <- ID by auto. unfold gldltAt.
      rewrite (suml_nth O FL (GS 0)). 
      assert (LA : length (allIdx n 0 dt 0 0) = N) by (rewrite allIdx_tri, map_length; exact LN).
      rewrite LA. apply (sumn_ext O). intros x Hx. rewrite NT by auto. reflexivity.
    - exact Nz.
  Qed.
End User.
