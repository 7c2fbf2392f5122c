(** Determinants of single matrices, arrowhead and tridiagonal systems. *)
From Coq Require Import Lia List Arith Bool Permutation Sorted.
From Verif Require Import Base ModelPerm ModelSparsity ModelSymbolic ModelNumeric ModelArrow ModelReg.
From Verif Require Import SpecSymbolic SpecArrow SpecNumeric SpecArrowNum SpecPivot SpecAgree SpecTight SpecLocal SpecDet.
From Verif Require Import ProofBase ProofPerm ProofCsr ProofFill ProofDense ProofExact ProofLdl ProofKernel ProofSolve
  ProofSingle ProofSingleMain ProofArrowSym ProofArrowRows ProofArrowDense ProofArrowProduct
  ProofArrowSolve ProofArrowMain ProofArrowSub ProofChain ProofChainKernel ProofChainArrow
  ProofRoundMain ProofRoundUser ProofRoundTri ProofPropSymbolic ProofPropArrow ProofSign ProofPropSign
  ProofAgree ProofPropAgree ProofAgreeDense ProofAgreeArrow ProofTightNum ProofPropDominant.
From Verif Require Import ProofLocal ProofLocalSingle ProofLocalClass ProofLocalArrow ProofPropPivot ProofDet ProofDetRun.
Import ListNotations.

Section User.
  Context {F : Type} (O : ops F) (FL : fieldLaws O).
  Local Notation one := (fl_one FL).
  Local Notation det := (det O one).
  Local Notation detOf := (detOf O one).
  Local Notation prodn := (prodn O one).
  Local Notation prodOf := (prodOf O one).

  Lemma detOf_map {I J} (f : J -> I) d e l (A : I -> I -> F) :
    detOf d (map f l) A = detOf e l (fun x y => A (f x) (f y)).
  Proof.
    unfold SpecDet.detOf. rewrite map_length. apply (det_ext O FL). intros r c Hr Hc.
    rewrite !(nth_indep (map f l) d (f e)) by (rewrite map_length; auto). rewrite !map_nth. auto.
  Qed.
  Lemma prodOf_map {I J} (f : J -> I) d e l (D : I -> F) :
    prodOf d (map f l) D = prodOf e l (fun x => D (f x)).
  Proof.
    unfold SpecDet.prodOf. rewrite map_length. apply (prodn_ext O FL). intros r Hr.
    rewrite (nth_indep (map f l) d (f e)) by (rewrite map_length; auto). rewrite map_nth. auto.
  Qed.
  Lemma detOf_ext {I} (d : I) l A B : (forall g h, In g l -> In h l -> A g h = B g h) ->
    detOf d l A = detOf d l B.
  Proof. intros H. apply (det_ext O FL). intros r c Hr Hc. apply H; apply nth_In; auto. Qed.
  Lemma detOf_seq n A : detOf 0 (seq 0 n) A = det n A.
  Proof.
    unfold SpecDet.detOf. rewrite seq_length. apply (det_ext O FL). intros r c Hr Hc. rewrite !seq_nth by auto. auto.
  Qed.
  Lemma prodOf_seq n f : prodOf 0 (seq 0 n) f = prodn n f.
  Proof.
    unfold SpecDet.prodOf. rewrite seq_length. apply (prodn_ext O FL). intros r Hr. rewrite !seq_nth by auto. auto.
  Qed.
  Lemma firstn_seq m n : m <= n -> firstn m (seq 0 n) = seq 0 m.
  Proof.
    intros H. replace n with (m + (n - m)) by lia. rewrite seq_app, firstn_app, seq_length.
    rewrite firstn_all2 by (rewrite seq_length; auto). replace (m - m) with 0 by lia. apply app_nil_r.
  Qed.

  Lemma single_det mt s n p a vals m :
    spOf s n n -> validPerm n p ->
    spOf a n n -> inputOf O m a vals -> coveredSym (entries a) (entries s) n p ->
    exists b, factorizationBlk s p = Ok b /\
      forall L0 D0, length L0 = c_nnz (b_sp b) -> length D0 = n ->
      exists L D, factorize O mt b (Some m) regularizationNone (L0, D0) = Ok (L, D) /\
        (* the products of the first pivots are the leading minors in the order of elimination *)
        (forall q, q <= n -> (forall i, S i < q -> vecAt O D i <> o0 O) ->
           prodn q (vecAt O D) =
           det q (fun i j => symAt O (entries a) vals (nth i p 0) (nth j p 0))) /\
        (* the product of all pivots is the determinant of the matrix *)
        ((forall i, S i < n -> vecAt O D i <> o0 O) ->
           prodn n (vecAt O D) = det n (symAt O (entries a) vals)) /\
        (* no pivot is zero exactly if no leading minor is zero *)
        ((forall i, i < n -> vecAt O D i <> o0 O) <->
         (forall q, q <= n ->
            det q (fun i j => symAt O (entries a) vals (nth i p 0) (nth j p 0)) <> o0 O)).
  Proof.
    intros HS HP HA HI HC. destruct (block_ok s n p HS HP) as (b & EB & G). exists b. split; auto.
    intros L0 D0 N1 N2.
    destruct (single_bundle O s n p b HS HP EB mt regularizationNone a vals m L0 D0 HA HI HC N1 N2)
      as (L & D & S & EF & NL & ND & C).
    pose proof (blk_low s n p) as Low.
    pose proof (single_goodRun O b n _ p m a vals L0 D0 L D mt regularizationNone
      (blk_good s n p b HS HP EB) Low (Fill_closed _) HI HA HC N1 N2 EF) as GR.
    set (A := fun i j => symAt O (entries a) vals (nth i p 0) (nth j p 0)) in *.
    assert (M := run_minor O FL Nat.eq_dec (seq 0 n) (fun g => seq 0 g) (fun i => i)).
    assert (Z := run_nonzero O FL Nat.eq_dec (seq 0 n) (fun g => seq 0 g) (fun i => i)).
    assert (BR : forall g k, In g (seq 0 n) -> In k (seq 0 g) <-> In k (seq 0 n) /\ k < g).
    { intros g k. rewrite !in_seq. lia. }
    specialize (M BR (fun g _ => seq_NoDup g 0) (seq_NoDup n 0) (fun g h _ _ E => E) _ _ A _ _ _ GR C 0
      (seq_sorted 0 n) (fun g h _ _ => symAt_perm O (entries a) vals (nth g p 0) (nth h p 0))).
    specialize (Z BR (fun g _ => seq_NoDup g 0) (seq_NoDup n 0) (fun g h _ _ E => E) _ _ A _ _ _ GR C 0
      (seq_sorted 0 n) (fun g h _ _ => symAt_perm O (entries a) vals (nth g p 0) (nth h p 0))).
    exists L, D. split; auto.
    assert (M' : forall q, q <= n -> (forall i, Datatypes.S i < q -> vecAt O D i <> o0 O) ->
      prodn q (vecAt O D) = det q A).
    { intros q Hq Nz. rewrite <- detOf_seq, <- prodOf_seq, <- (firstn_seq q n Hq). symmetry. apply M.
      - rewrite seq_length. auto.
      - intros i Hi. rewrite seq_nth by lia. apply Nz. auto. }
    split; auto. split.
    - intros Nz. rewrite (M' n) by auto. rewrite <- !detOf_seq.
      transitivity (detOf 0 (map (fun i => nth i p 0) (seq 0 n)) (symAt O (entries a) vals)).
      + symmetry. apply (detOf_map (fun i => nth i p 0)).
      + apply (detOf_perm O FL), seq_perm, validPerm_isPerm; auto.
    - split.
      + intros Nz q Hq. rewrite <- detOf_seq, <- (firstn_seq q n Hq). apply Z; [|rewrite seq_length; auto].
        intros g Hg. apply in_seq in Hg. apply Nz. lia.
      + intros H i Hi. apply Z; [|apply in_seq; lia]. intros q Hq. rewrite seq_length in Hq.
        rewrite firstn_seq, detOf_seq by auto. apply H; auto.
  Qed.

  Lemma arrow_det mt s ds dt dl dO n m w :
    let all := allIdx n ds dt dl dO in
    let A := fun g h => matAt O m w (permIdx s g) (permIdx s h) in
    arrowDims s ds dt dl dO -> inputArrow O n ds dt dl dO m w -> declaredArrow s n m ->
    exists k, arrowBlocks s = Ok k /\
      forall d0, dataOf k n ds dt dl dO d0 ->
      exists d, arrowFactorize O mt k m regularizationNone d0 = Ok d /\
        (forall q, q <= length all -> (forall i, S i < q -> pivotAt O d (nth i all (GS 0)) <> o0 O) ->
           prodOf (GS 0) (firstn q all) (pivotAt O d) = detOf (GS 0) (firstn q all) A) /\
        ((forall i, S i < length all -> pivotAt O d (nth i all (GS 0)) <> o0 O) ->
           prodOf (GS 0) all (pivotAt O d) = detOf (GS 0) all (matAt O m w)) /\
        ((forall g, In g all -> pivotAt O d g <> o0 O) <->
         (forall q, q <= length all -> detOf (GS 0) (firstn q all) A <> o0 O)).
  Proof.
    intros all A HD IA DA.
    destruct (arrowBlocks_ok s ds dt dl dO HD) as (k & P0 & HK & _). exists k. split; auto.
    destruct (arrow_bundle O s ds dt dl dO k n HD HK) as (P & AG & AC & AV & RUN).
    intros d0 DO0.
    destruct (RUN mt regularizationNone m w d0 IA DA DO0) as (d & S & EF & DO & C & _).
    pose proof (arrow_goodRun O s ds dt dl dO k P n m w d HD AG AC AV IA DA DO) as GR.
    set (B := symArrow O n (permFun s (matFun O m w))) in *.
    assert (AB : forall g h, B g h = A g h) by (intros; apply (A_mat O s ds dt dl dO n m w IA)).
    assert (BR : forall g h, In g all -> In h (bigL ds dt dl dO n g) <-> In h all /\ rank n ds dt dl h < rank n ds dt dl g).
    { intros g h _. unfold bigL. rewrite filter_In, Nat.ltb_lt. tauto. }
    assert (NB : forall g, In g all -> NoDup (bigL ds dt dl dO n g)).
    { intros g _. apply NoDup_filter, NoDup_allIdx. }
    assert (IJ : forall g h, In g all -> In h all -> rank n ds dt dl g = rank n ds dt dl h -> g = h).
    { intros g h. apply rank_inj. }
    assert (AS : forall g h, In g all -> In h all -> B g h = B h g).
    { intros. rewrite !AB. apply matAt_sym. }
    assert (M := run_minor O FL gidx_eq_dec all (bigL ds dt dl dO n) (rank n ds dt dl) BR NB (NoDup_allIdx _ _ _ _ _) IJ
      _ _ B _ _ _ GR C (GS 0) (all_sorted ds dt dl dO n) AS).
    assert (Z := run_nonzero O FL gidx_eq_dec all (bigL ds dt dl dO n) (rank n ds dt dl) BR NB (NoDup_allIdx _ _ _ _ _) IJ
      _ _ B _ _ _ GR C (GS 0) (all_sorted ds dt dl dO n) AS).
    assert (E : forall l, detOf (GS 0) l B = detOf (GS 0) l A) by (intros; apply detOf_ext; auto).
    exists d. split; auto. split; [|split].
    - intros q Hq Nz. rewrite <- E. symmetry. apply M; auto.
    - intros Nz. pose proof (M (length all) (Nat.le_refl _) Nz) as X. rewrite firstn_all in X. rewrite <- X, E.
      transitivity (detOf (GS 0) (map (permIdx s) all) (matAt O m w)).
      + symmetry. apply (detOf_map (permIdx s)).
      + apply (detOf_perm O FL), permIdx_Permutation; auto.
    - split.
      + intros Nz q Hq. rewrite <- E. apply Z; auto.
      + intros H. apply Z. intros q Hq. rewrite E. auto.
  Qed.

  Lemma tri_det mt a c p dt n A B wA wB :
    let all := list_prod (seq 0 (n + 1)) (seq 0 dt) in
    let M := fun x y => triMatAt O A B wA wB (fst x) (nth (snd x) p 0) (fst y) (nth (snd y) p 0) in
    spOf a dt dt -> spOf c dt dt -> validPerm dt p ->
    inputTri O n dt A B wA wB -> declaredTri a c n A B ->
    exists k, tridiagonalBlocks a c p = Ok k /\
      forall d0, dataOf k n 0 dt 0 0 d0 ->
      exists d, tridiagonalFactorize O mt k dt A B regularizationNone d0 = Ok d /\
        let D := fun x => pivotAt O d (GT (fst x) (snd x)) in
        (forall q, q <= (n + 1) * dt -> (forall i, S i < q -> D (nth i all (0, 0)) <> o0 O) ->
           prodOf (0, 0) (firstn q all) D = detOf (0, 0) (firstn q all) M) /\
        ((forall i, S i < (n + 1) * dt -> D (nth i all (0, 0)) <> o0 O) ->
           prodOf (0, 0) all D =
           detOf (0, 0) all (fun x y => triMatAt O A B wA wB (fst x) (snd x) (fst y) (snd y))) /\
        ((forall t i, t < n + 1 -> i < dt -> D (t, i) <> o0 O) <->
         (forall q, q <= (n + 1) * dt -> detOf (0, 0) (firstn q all) M <> o0 O)).
  Proof.
    intros all M SA SC HP IT DT.
    destruct (arrow_det mt _ 0 dt 0 0 n _ _ (tri_dims a c p dt SA SC HP) (tri_input O n dt A B wA wB IT)
      (tri_declared a c p n dt A B DT)) as (k & HK & RUN).
    exists k. split; [rewrite (tri_blocks a c p dt); auto|]. intros d0 DO0.
    destruct (RUN d0 DO0) as (d & EF & H1 & H2 & H3). exists d.
    split; [unfold tridiagonalFactorize, numRepetitions; rewrite (do_nts _ _ _ _ _ _ _ DO0); auto|].
    intros D. rewrite !allIdx_tri in *. fold all in H1, H2, H3.
    assert (LN : length all = (n + 1) * dt) by (unfold all; rewrite prod_length, !seq_length; auto).
    rewrite map_length, LN in *.
    assert (NT : forall i, i < (n + 1) * dt -> nth i (map triRow all) (GS 0) = triRow (nth i all (0, 0))).
    { intros i Hi. rewrite (nth_indep _ (GS 0) (triRow (0, 0))) by (rewrite map_length, LN; auto).
      apply map_nth. }
    split; [|split].
    - intros q Hq Nz. specialize (H1 q Hq). rewrite firstn_map in H1.
      rewrite (prodOf_map triRow (GS 0) (0, 0)), (detOf_map triRow (GS 0) (0, 0)) in H1. apply H1.
      intros i Hi. rewrite NT by lia. apply Nz; auto.
    - intros Nz. rewrite (prodOf_map triRow (GS 0) (0, 0)), (detOf_map triRow (GS 0) (0, 0)) in H2. apply H2.
      intros i Hi. rewrite NT by lia. apply Nz; auto.
    - split.
      + intros Nz q Hq. destruct H3 as [H3 _].
        assert (X := fun NZ => H3 NZ q Hq). rewrite firstn_map in X.
        rewrite (detOf_map triRow (GS 0) (0, 0)) in X. apply X.
        intros g Hg. apply in_map_iff in Hg. destruct Hg as ((t, i) & <- & Hg). apply in_prod_iff in Hg.
        rewrite !in_seq in Hg. apply Nz; lia.
      + intros H t i Ht Hi. destruct H3 as [_ H3]. apply (H3) with (g := triRow (t, i)).
        * intros q Hq. rewrite firstn_map, (detOf_map triRow (GS 0) (0, 0)). apply (H q Hq).
        * apply in_map, in_prod_iff. rewrite !in_seq. lia.
  Qed.
End User.
