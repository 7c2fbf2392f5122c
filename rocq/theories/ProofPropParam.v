(** Factorize and solve with two number types at once, for every initial content of the objects. *)
From Coq Require Import List Arith Lia Bool Ring Reals.
From Verif Require Import Base ModelPerm ModelSparsity ModelSymbolic ModelNumeric ModelArrow ModelReg.
From Verif Require Import SpecSymbolic SpecArrow SpecNumeric SpecArrowNum SpecReg SpecParam.
From Verif Require Import ProofBase ProofPerm ProofExact ProofArrowSym ProofArrowRows ProofArrowProduct ProofArrowMain.
From Verif Require Import ProofPropSingle ProofPropArrow ProofParam ProofInterval.
Import ListNotations.
Local Open Scope nat_scope.

Lemma list_nth {A B} (R : A -> B -> Prop) l l' i a b : listRel R l l' -> i < length l -> R (nth i l a) (nth i l' b).
Proof.
  intros H. revert i. induction H as [|x y l l' HX HL IH]; intros [|i] Hi; cbn in *; try lia; auto. apply IH. lia.
Qed.

Section Two.
  Context {F G : Type} (OF : ops F) (OG : ops G) (R : F -> G -> Prop).
  Context (OR : opsRel OF OG R).
  Local Notation L := (listRel R).

  (** inputs *)
  Definition valuesOf (m : mat (F:=G)) : list G :=
    map (fun k => match m_val m k with Ok v => v | Err _ => o0 OG end) (seq 0 (nnz (m_sp m))).
  Lemma input_rel m m' a vals : inputOf OF m a vals -> matRel R m m' -> inputOf OG m' a (valuesOf m').
  Proof.
    intros [E N V] [S W]. constructor.
    - congruence.
    - unfold valuesOf. rewrite map_length, seq_length, <- S, E. reflexivity.
    - intros k Hk. unfold valuesOf in *. rewrite map_length, seq_length in Hk. rewrite <- S in *.
      specialize (W k Hk). rewrite V in W by (rewrite N, <- E; exact Hk).
      destruct (m_val m' k) as [v|e] eqn:Ev; [|destruct W].
      set (f := fun k => match m_val m' k with Ok v => v | Err _ => o0 OG end).
      rewrite (nth_indep _ (o0 OG) (f 0)) by (rewrite map_length, seq_length; auto).
      rewrite (map_nth f), seq_nth by auto. cbn [Nat.add]. unfold f. rewrite Ev. reflexivity.
  Qed.
  Lemma matOf_rel m m' nr nc vals : matOf OF m nr nc vals -> matRel R m m' -> matOf OG m' nr nc (valuesOf m').
  Proof.
    intros [S I] H. assert (E : m_sp m' = m_sp m) by (symmetry; apply H). split; rewrite E; auto.
    eapply input_rel; eauto.
  Qed.
  Lemma mats_rel n (ms : list (mat (F:=F))) ms' nr nc w : length ms = n -> (forall t, t < n -> matOf OF (nth t ms noMat) nr nc (nth t w [])) ->
    listRel (matRel R) ms ms' ->
    length ms' = n /\ forall t, t < n -> matOf OG (nth t ms' noMat) nr nc (nth t (map valuesOf ms') []).
  Proof.
    intros N H HR. assert (N' : length ms' = n) by (rewrite <- N; symmetry; apply (list_len _ _ _ HR)).
    split; auto. intros t Ht.
    assert (Ev : nth t (map valuesOf ms') [] = valuesOf (nth t ms' noMat)).
    { rewrite <- (map_nth valuesOf). apply nth_indep. rewrite map_length, N'. exact Ht. }
    rewrite Ev.
    eapply matOf_rel; [apply (H t Ht)|]. apply (list_nth (matRel R)); auto. lia.
  Qed.
  Definition arrowValuesOf (m : arrow_mat (F:=G)) : arrow_vals G :=
    mkVals (valuesOf (a_sd m)) (valuesOf (a_sn m)) (valuesOf (a_so m)) (map valuesOf (a_td m)) (map valuesOf (a_ts m))
      (valuesOf (a_lp m)) (valuesOf (a_ld m)) (valuesOf (a_ln m)) (map valuesOf (a_os m)) (valuesOf (a_od m)).
  Lemma arrow_input_rel n ds dt dl dO m m' w : inputArrow OF n ds dt dl dO m w -> arrowMatRel R m m' ->
    inputArrow OG n ds dt dl dO m' (arrowValuesOf m').
  Proof.
    intros [I1 I2 I3 N4 I4 N5 I5 I6 I7 I8 N9 I9 I10] [R1 R2 R3 R4 R5 R6 R7 R8 R9 R10].
    destruct (mats_rel _ _ _ _ _ _ N4 I4 R4), (mats_rel _ _ _ _ _ _ N5 I5 R5), (mats_rel _ _ _ _ _ _ N9 I9 R9).
    constructor; cbn [arrowValuesOf w_sd w_sn w_so w_td w_ts w_lp w_ld w_ln w_os w_od]; auto; eapply matOf_rel; eauto.
  Qed.
  Lemma tri_input_rel n dt A A' B B' wA wB : inputTri OF n dt A B wA wB -> listRel (matRel R) A A' -> listRel (matRel R) B B' ->
    inputTri OG n dt A' B' (map valuesOf A') (map valuesOf B').
  Proof.
    intros [N1 I1 N2 I2] RA RB. destruct (mats_rel _ _ _ _ _ _ N1 I1 RA), (mats_rel _ _ _ _ _ _ N2 I2 RB).
    constructor; auto.
  Qed.

  (** declared sparsity *)
  Lemma low_rel m m' s : declaredLow m s -> matRel R m m' -> declaredLow m' s.
  Proof. intros H [E _]. unfold declaredLow. rewrite <- E. exact H. Qed.
  Lemma all_rel m m' s : declaredAll m s -> matRel R m m' -> declaredAll m' s.
  Proof. intros H [E _]. unfold declaredAll. rewrite <- E. exact H. Qed.
  Lemma lows_rel n (ms : list (mat (F:=F))) ms' s : length ms = n -> (forall t, t < n -> declaredLow (nth t ms noMat) s) ->
    listRel (matRel R) ms ms' -> forall t, t < n -> declaredLow (nth t ms' noMat) s.
  Proof. intros N H HR t Ht. eapply low_rel; [apply (H t Ht)|]. apply (list_nth (matRel R)); auto. lia. Qed.
  Lemma alls_rel n (ms : list (mat (F:=F))) ms' s : length ms = n -> (forall t, t < n -> declaredAll (nth t ms noMat) s) ->
    listRel (matRel R) ms ms' -> forall t, t < n -> declaredAll (nth t ms' noMat) s.
  Proof. intros N H HR t Ht. eapply all_rel; [apply (H t Ht)|]. apply (list_nth (matRel R)); auto. lia. Qed.
  Lemma declared_rel s n ds dt dl dO m m' w : inputArrow OF n ds dt dl dO m w -> declaredArrow s n m -> arrowMatRel R m m' ->
    declaredArrow s n m'.
  Proof.
    intros IA [D1 D2 D3 D4 D5 D6 D7 D8 D9 D10] [R1 R2 R3 R4 R5 R6 R7 R8 R9 R10].
    pose proof (ia_ntd _ _ _ _ _ _ _ _ IA). pose proof (ia_nts _ _ _ _ _ _ _ _ IA). pose proof (ia_nos _ _ _ _ _ _ _ _ IA).
    constructor; eauto using low_rel, all_rel, lows_rel, alls_rel.
  Qed.
  Lemma declaredTri_rel a b n dt A A' B B' wA wB : inputTri OF n dt A B wA wB -> declaredTri a b n A B ->
    listRel (matRel R) A A' -> listRel (matRel R) B B' -> declaredTri a b n A' B'.
  Proof.
    intros IT [D1 D2] RA RB. pose proof (it_nA _ _ _ _ _ _ _ IT). pose proof (it_nB _ _ _ _ _ _ _ IT).
    split; eauto using lows_rel, alls_rel.
  Qed.

  (** ** one matrix *)
  Lemma single_related mt s n p a vals m m' reg reg' b L0 D0 L0' D0' :
    spOf s n n -> validPerm n p -> factorizationBlk s p = Ok b ->
    spOf a n n -> inputOf OF m a vals -> coveredSym (entries a) (entries s) n p ->
    matRel R m m' -> regRel R reg reg' ->
    length L0 = c_nnz (b_sp b) -> length D0 = n -> length L0' = c_nnz (b_sp b) -> length D0' = n ->
    exists L1 D1 L1' D1',
      factorize OF mt b (Some m) reg (L0, D0) = Ok (L1, D1) /\
      factorize OG mt b (Some m') reg' (L0', D0') = Ok (L1', D1') /\
      length D1 = n /\ L L1 L1' /\ L D1 D1' /\
      forall rhs rhs', L rhs rhs' -> resRel L (solveInPlace OF b (L1, D1) rhs) (solveInPlace OG b (L1', D1') rhs').
  Proof.
    intros HS HP HB HA HI HC HM HG N1 N2 N3 N4.
    pose proof (input_rel m m' a vals HI HM) as HI'.
    destruct (reuse OF mt s n p a vals m reg b L0 D0 (repeat (o0 OF) (c_nnz (b_sp b))) (repeat (o0 OF) n))
      as (L1 & D1 & _ & ND & E1 & E2); auto using repeat_length.
    destruct (reuse OG mt s n p a (valuesOf m') m' reg' b L0' D0' (repeat (o0 OG) (c_nnz (b_sp b))) (repeat (o0 OG) n))
      as (L1' & D1' & _ & _ & E1' & E2'); auto using repeat_length.
    pose proof (factorize_r OF OG R OR mt b (Some m) (Some m') reg reg'
      (repeat (o0 OF) (c_nnz (b_sp b)), repeat (o0 OF) n) (repeat (o0 OG) (c_nnz (b_sp b)), repeat (o0 OG) n)) as Q.
    rewrite E2, E2' in Q. destruct Q as [Q1 Q2]; auto.
    { split; apply list_repeat; apply OR. }
    exists L1, D1, L1', D1'. repeat split; auto. intros rhs rhs' HX. apply solve_r; auto. split; auto.
  Qed.

  (** ** arrowhead *)
  Lemma arrow_related mt s ds dt dl dO k n m m' w reg reg' d0 d0' :
    arrowDims s ds dt dl dO -> arrowBlocks s = Ok k ->
    inputArrow OF n ds dt dl dO m w -> declaredArrow s n m ->
    arrowMatRel R m m' -> regRel R reg reg' ->
    dataOf k n ds dt dl dO d0 -> dataOf k n ds dt dl dO d0' ->
    exists d d',
      arrowFactorize OF mt k m reg d0 = Ok d /\ arrowFactorize OG mt k m' reg' d0' = Ok d' /\
      dataOf k n ds dt dl dO d /\ arrowDataRel R d d' /\
      forall rhs rhs', arrowVecRel R rhs rhs' ->
        resRel (arrowVecRel R) (arrowSolveInPlace OF k d rhs) (arrowSolveInPlace OG k d' rhs').
  Proof.
    intros HD Ek IA DA HM HG DO DO'.
    pose proof (arrow_input_rel n ds dt dl dO m m' w IA HM) as IA'.
    pose proof (declared_rel s n ds dt dl dO m m' w IA DA HM) as DA'.
    destruct (arrow_compiles OF s ds dt dl dO HD) as (k1 & Ek1 & C1).
    destruct (arrow_compiles OG s ds dt dl dO HD) as (k2 & Ek2 & C2).
    assert (k1 = k) by congruence. assert (k2 = k) by congruence. subst k1 k2.
    destruct (C1 n) as ((c & Ec & Dc) & X1). destruct (C2 n) as ((c' & Ec' & Dc') & X2).
    destruct (X1 mt reg m w d0 DO IA DA) as (d & E1 & Dd). destruct (X2 mt reg' m' _ d0' DO' IA' DA') as (d' & E1' & Dd').
    pose proof (arrow_reusable OF s ds dt dl dO k n mt reg m w d0 c HD Ek IA DA DO Dc) as U.
    pose proof (arrow_reusable OG s ds dt dl dO k n mt reg' m' _ d0' c' HD Ek IA' DA' DO' Dc') as U'.
    pose proof (arrowCtor_r OF OG R OR k n) as QC. rewrite Ec, Ec' in QC.
    pose proof (arrowFactorize_r OF OG R OR mt k m m' reg reg' c c' HM HG QC) as Q.
    rewrite <- U, <- U', E1, E1' in Q.
    exists d, d'. do 4 (split; [assumption|]). intros rhs rhs' HX. apply arrowSolve_r; auto.
  Qed.

  (** ** block tridiagonal *)
  Lemma tri_related mt a b p dt n k A A' B B' wA wB reg reg' d0 d0' :
    spOf a dt dt -> spOf b dt dt -> validPerm dt p -> tridiagonalBlocks a b p = Ok k ->
    inputTri OF n dt A B wA wB -> declaredTri a b n A B ->
    listRel (matRel R) A A' -> listRel (matRel R) B B' -> regRel R reg reg' ->
    dataOf k n 0 dt 0 0 d0 -> dataOf k n 0 dt 0 0 d0' ->
    exists d d',
      tridiagonalFactorize OF mt k dt A B reg d0 = Ok d /\ tridiagonalFactorize OG mt k dt A' B' reg' d0' = Ok d' /\
      dataOf k n 0 dt 0 0 d /\ arrowDataRel R d d' /\
      forall rhs rhs', listRel L rhs rhs' ->
        resRel (listRel L) (tridiagonalSolveInPlace OF k d rhs) (tridiagonalSolveInPlace OG k d' rhs').
  Proof.
    intros SA SB HP Ek IT DT RA RB HG DO DO'.
    rewrite (tri_blocks a b p dt SA SB) in Ek.
    destruct (arrow_related mt _ 0 dt 0 0 k n (tridiagonalInput dt A B n) (tridiagonalInput dt A' B' n) _ reg reg' d0 d0'
      (tri_dims a b p dt SA SB HP) Ek (tri_input OF n dt A B wA wB IT) (tri_declared a b p n dt A B DT)
      (triInput_r R dt A A' B B' n RA RB) HG DO DO') as (d & d' & E & E' & Dd & RD & _).
    exists d, d'. unfold tridiagonalFactorize, numRepetitions.
    rewrite (do_nts _ _ _ _ _ _ _ DO), (do_nts _ _ _ _ _ _ _ DO'). do 4 (split; [assumption|]).
    intros rhs rhs' HX. apply triSolve_r; auto.
  Qed.

  (** pivots *)
  Lemma pivot_rel k n ds dt dl dO d d' g : dataOf k n ds dt dl dO d -> arrowDataRel R d d' -> In g (allIdx n ds dt dl dO) ->
    R (pivotAt OF d g) (pivotAt OG d' g).
  Proof.
    intros DD RD Hg. apply in_allIdx in Hg. destruct g as [i|t i|i|i]; cbn [pivotAt]; unfold vecAt.
    - apply (list_nth R); [apply RD|]. destruct (do_sd _ _ _ _ _ _ _ DD). lia.
    - destruct Hg as [Ht Hi]. pose proof (do_ntd _ _ _ _ _ _ _ DD). destruct (do_td _ _ _ _ _ _ _ DD t Ht).
      pose proof (list_nth _ _ _ t ([], []) ([], []) (dr_td _ _ _ RD)) as Q.
      apply (list_nth R); [apply Q; lia|]. lia.
    - apply (list_nth R); [apply RD|]. destruct (do_ld _ _ _ _ _ _ _ DD). lia.
    - apply (list_nth R); [apply RD|]. destruct (do_od _ _ _ _ _ _ _ DD). lia.
  Qed.
End Two.

(** ** C65: lanes *)
Section Lanes.
  Context {I F : Type} (O : ops F).

  Lemma lane_rel (i : I) (v : list (I -> F)) x : listRel (laneOf i) v x -> x = lane i v.
  Proof.
    intros H. induction H as [|f y v x H HL IH]; auto. rewrite IH. cbn [lane map]. rewrite <- H. reflexivity.
  Qed.
  Lemma lane_self (i : I) (v : list (I -> F)) : listRel (laneOf i) v (lane i v).
  Proof. induction v; constructor; auto. reflexivity. Qed.
  Lemma lane_len (i : I) (v : list (I -> F)) : length (lane i v) = length v.
  Proof. apply map_length. Qed.
  Lemma lanes_single mt s n p a vals m reg b L0 D0 :
    spOf s n n -> validPerm n p -> factorizationBlk s p = Ok b ->
    spOf a n n -> inputOf (lanesOps O) m a vals -> coveredSym (entries a) (entries s) n p ->
    length L0 = c_nnz (b_sp b) -> length D0 = n ->
    exists L D, factorize (lanesOps O) mt b (Some m) reg (L0, D0) = Ok (L, D) /\
      forall (i : I) mi regi L0i D0i,
      inputOf O mi a (lane i vals) -> (forall v k, reg v k i = regi (v i) k) ->
      length L0i = c_nnz (b_sp b) -> length D0i = n ->
      factorize O mt b (Some mi) regi (L0i, D0i) = Ok (lane i L, lane i D) /\
      forall rhs x, solveInPlace (lanesOps O) b (L, D) rhs = Ok x ->
        solveInPlace O b (lane i L, lane i D) (lane i rhs) = Ok (lane i x).
  Proof.
    intros HS HP HB HA HI HC N1 N2.
    destruct (reuse (lanesOps O) mt s n p a vals m reg b L0 D0 L0 D0) as (L & D & _ & _ & E & _); auto.
    exists L, D. split; auto. intros i mi regi L0i D0i HI' HG N3 N4.
    assert (HM : matRel (laneOf i) m mi).
    { destruct HI as [E1 M1 V1], HI' as [E2 M2 V2]. split; [congruence|]. intros k Hk. rewrite E1 in Hk.
      unfold nnz in Hk. rewrite <- M1 in Hk. rewrite V1, V2 by (rewrite ?lane_len; auto). cbn [resRel].
      unfold laneOf, lane. rewrite (nth_indep _ (o0 O) (o0 (lanesOps O) i)) by (rewrite map_length; auto).
      rewrite (map_nth (fun f : I -> F => f i)). reflexivity. }
    destruct (single_related (lanesOps O) O (laneOf i) (lanes_lane O i) mt s n p a vals m mi reg regi b L0 D0 L0i D0i)
      as (L1 & D1 & L1' & D1' & E1 & E1' & _ & RL & RD & SO); auto.
    { intros v y k H. unfold laneOf in *. rewrite HG. congruence. }
    assert (L1 = L) by congruence. assert (D1 = D) by congruence. subst L1 D1.
    apply lane_rel in RL, RD. subst L1' D1'. split; auto.
    intros rhs x ES. specialize (SO rhs (lane i rhs) (lane_self i rhs)). rewrite ES in SO.
    destruct (solveInPlace O b (lane i L, lane i D) (lane i rhs)) as [y|e]; [|destruct SO].
    f_equal. apply lane_rel. exact SO.
  Qed.
End Lanes.

(** ** C66: the second number type describes sets of numbers *)
Section Enclosure.
  Context {F G : Type} (OF : ops F) (FL : fieldLaws OF) (OG : ops G) (R : F -> G -> Prop).
  Context (OR : opsRel OF OG R).
  Add Ring FrEncl : (fl_ring FL).

  Lemma none_rel : regRel R regularizationNone regularizationNone.
  Proof. intros x x' i H. exact H. Qed.

  Lemma enclosed mt s n p a vals m m' b L0' D0' L' D' rhs rhs' x' :
    spOf s n n -> validPerm n p -> factorizationBlk s p = Ok b ->
    spOf a n n -> coveredSym (entries a) (entries s) n p ->
    length L0' = c_nnz (b_sp b) -> length D0' = n ->
    factorize OG mt b (Some m') regularizationNone (L0', D0') = Ok (L', D') ->
    (forall k z, k < n -> R z (vecAt OG D' k) -> z <> o0 OF) ->
    solveInPlace OG b (L', D') rhs' = Ok x' ->
    inputOf OF m a vals -> matRel R m m' -> length rhs = n -> listRel R rhs rhs' ->
    exists x, length x = n /\
      (forall i, i < n -> matVec OF n (symAt OF (entries a) vals) x i = vecAt OF rhs i) /\
      (forall y, length y = n ->
         (forall i, i < n -> matVec OF n (symAt OF (entries a) vals) y i = vecAt OF rhs i) -> y = x) /\
      listRel R x x'.
  Proof.
    intros HS HP HB HA HC N3 N4 EF' HZ ES' HI HM NR HR.
    destruct (single_related OF OG R OR mt s n p a vals m m' regularizationNone regularizationNone b
      (repeat (o0 OF) (c_nnz (b_sp b))) (repeat (o0 OF) n) L0' D0') as (L1 & D1 & L1' & D1' & E & E' & ND & _ & RD & SO);
      auto using repeat_length, none_rel.
    assert (EE : (L1', D1') = (L', D')) by congruence.
    assert (L1' = L') by congruence. assert (D1' = D') by congruence. subst L1' D1'. clear EE.
    destruct (solves_none OF FL mt s n p a vals m b (repeat (o0 OF) (c_nnz (b_sp b))) (repeat (o0 OF) n) L1 D1 rhs)
      as (x & ES & NX & H1 & H2); auto using repeat_length.
    { intros k Hk. apply (HZ k); auto. apply (list_nth R); auto. lia. }
    exists x. split; auto. split; auto. split; auto.
    specialize (SO rhs rhs' HR). rewrite ES, ES' in SO. exact SO.
  Qed.

  Lemma arrow_enclosed mt s ds dt dl dO k n m m' w d0' d' rhs rhs' x' :
    arrowDims s ds dt dl dO -> arrowBlocks s = Ok k ->
    dataOf k n ds dt dl dO d0' ->
    arrowFactorize OG mt k m' regularizationNone d0' = Ok d' ->
    (forall g z, In g (allIdx n ds dt dl dO) -> R z (pivotAt OG d' g) -> z <> o0 OF) ->
    arrowSolveInPlace OG k d' rhs' = Ok x' ->
    inputArrow OF n ds dt dl dO m w -> declaredArrow s n m -> arrowMatRel R m m' ->
    vecOf n ds dt dl dO rhs -> arrowVecRel R rhs rhs' ->
    exists x, vecOf n ds dt dl dO x /\
      (forall g, In g (allIdx n ds dt dl dO) ->
         gmatVec OF (allIdx n ds dt dl dO) (matAt OF m w) (gvecAt OF x) g = gvecAt OF rhs g) /\
      (forall y, vecOf n ds dt dl dO y ->
         (forall g, In g (allIdx n ds dt dl dO) ->
            gmatVec OF (allIdx n ds dt dl dO) (matAt OF m w) (gvecAt OF y) g = gvecAt OF rhs g) -> y = x) /\
      arrowVecRel R x x'.
  Proof.
    intros HD Ek DO' EF' HZ ES' IA DA HM VR HR.
    destruct (arrow_compiles OF s ds dt dl dO HD) as (k1 & Ek1 & C1).
    assert (k1 = k) by congruence. subst k1. destruct (C1 n) as ((c & Ec & Dc) & _).
    destruct (arrow_related OF OG R OR mt s ds dt dl dO k n m m' w regularizationNone regularizationNone c d0')
      as (d & d1' & E & E' & Dd & RD & SO); auto using none_rel.
    assert (d1' = d') by congruence. subst d1'.
    destruct (arrow_solves_none OF FL mt s ds dt dl dO k n m w c d rhs HD Ek IA DA Dc E) as (x & ES & VX & H1 & H2); auto.
    { intros g Hg. apply (HZ g); auto. eapply pivot_rel; eauto. }
    exists x. split; auto. split; auto. split; auto.
    specialize (SO rhs rhs' HR). rewrite ES, ES' in SO. exact SO.
  Qed.

  Lemma plusDiagT_0 (A : nat -> nat -> nat -> nat -> F) E t i u j : E t i = o0 OF -> plusDiagT OF A E t i u j = A t i u j.
  Proof. intros H. unfold plusDiagT. destruct ((t =? u) && (i =? j)); auto. rewrite H. ring. Qed.
  Lemma tri_enclosed mt a b p dt n k A A' B B' wA wB d0' d' rhs rhs' x' :
    spOf a dt dt -> spOf b dt dt -> validPerm dt p -> tridiagonalBlocks a b p = Ok k ->
    dataOf k n 0 dt 0 0 d0' ->
    tridiagonalFactorize OG mt k dt A' B' regularizationNone d0' = Ok d' ->
    (forall t i z, t < n + 1 -> i < dt -> R z (pivotAt OG d' (GT t i)) -> z <> o0 OF) ->
    tridiagonalSolveInPlace OG k d' rhs' = Ok x' ->
    inputTri OF n dt A B wA wB -> declaredTri a b n A B -> listRel (matRel R) A A' -> listRel (matRel R) B B' ->
    blocksOf n dt rhs -> listRel (listRel R) rhs rhs' ->
    exists x, blocksOf n dt x /\
      (forall t i, t < n + 1 -> i < dt ->
         triMatVec OF n dt (triMatAt OF A B wA wB) x t i = vecAt OF (nth t rhs []) i) /\
      (forall y, blocksOf n dt y ->
         (forall t i, t < n + 1 -> i < dt ->
            triMatVec OF n dt (triMatAt OF A B wA wB) y t i = vecAt OF (nth t rhs []) i) -> y = x) /\
      listRel (listRel R) x x'.
  Proof.
    intros SA SB HP Ek DO' EF' HZ ES' IT DT RA RB VR HR.
    destruct (tri_factorizes OF FL mt a b p dt n A B wA wB regularizationNone SA SB HP IT DT)
      as (k1 & Ek1 & (c & Ec & Dc) & HF).
    assert (k1 = k) by congruence. subst k1. destruct (HF c Dc) as (d & E & Dd & X).
    destruct (tri_related OF OG R OR mt a b p dt n k A A' B B' wA wB regularizationNone regularizationNone c d0')
      as (d1 & d1' & E1 & E' & Dd1 & RD & SO); auto using none_rel.
    assert (d1' = d') by congruence. assert (d1 = d) by congruence. subst d1 d1'.
    destruct X as (Ed & HE & _ & HS).
    { intros t i Ht Hi. apply (HZ t i); auto. eapply pivot_rel; eauto. apply in_allIdx. auto. }
    assert (E0 : forall t j, t < n + 1 -> j < dt -> Ed t j = o0 OF).
    { intros t j Ht Hj. destruct (isPerm_surj dt p j (validPerm_isPerm dt p HP) Hj) as (i & Hi & <-). specialize (HE t i Ht Hi). unfold regularizationNone in HE.
      set (e := Ed t (nth i p 0)) in *. set (v := pivotAt OF d (GT t i)) in *.
      transitivity (osub OF v (osub OF v e)); [ring|]. rewrite <- HE. ring. }
    assert (EV : forall y t i, t < n + 1 -> i < dt ->
      triMatVec OF n dt (plusDiagT OF (triMatAt OF A B wA wB) Ed) y t i = triMatVec OF n dt (triMatAt OF A B wA wB) y t i).
    { intros y t i Ht Hi. unfold triMatVec. apply sumn_ext. intros u Hu. apply sumn_ext. intros j Hj.
      rewrite plusDiagT_0; auto. }
    destruct (HS rhs VR) as (x & ES & VX & H1 & H2). exists x. split; auto. split; [|split].
    - intros t i Ht Hi. rewrite <- EV by auto. auto.
    - intros y VY HY. apply H2; auto. intros t i Ht Hi. rewrite EV; auto.
    - specialize (SO rhs rhs' HR). rewrite ES, ES' in SO. exact SO.
  Qed.
End Enclosure.

(** ** C65: success does not depend on the numbers *)
Section Outcome.
  Context {F G : Type} (OF : ops F) (OG : ops G).
  Local Notation T := (fun (_ : F) (_ : G) => True).

  Lemma lists_true (l : list F) (l' : list G) : length l = length l' -> listRel T l l'.
  Proof.
    revert l'. induction l as [|a l IH]; intros [|b l'] H; cbn in H; try lia; constructor; auto. apply IH. lia.
  Qed.
  Lemma same_outcome mt b m m' reg reg' x x' v v' :
    matRel T m m' ->
    length (fst x) = length (fst x') -> length (snd x) = length (snd x') -> length v = length v' ->
    resRel (fun y y' => length (fst y) = length (fst y') /\ length (snd y) = length (snd y'))
      (factorize OF mt b (Some m) reg x) (factorize OG mt b (Some m') reg' x') /\
    resRel (fun y y' => length y = length y') (solveInPlace OF b x v) (solveInPlace OG b x' v').
  Proof.
    intros HM N1 N2 N3. pose proof (everything_related OF OG) as OR.
    assert (HX : pairRel (listRel T) (listRel T) x x') by (split; apply lists_true; auto).
    split.
    - pose proof (factorize_r OF OG T OR mt b (Some m) (Some m') reg reg' x x' HM (fun _ _ _ _ => I) HX) as Q.
      destruct (factorize OF mt b (Some m) reg x), (factorize OG mt b (Some m') reg' x'); cbn in *; auto.
      destruct Q as [Q1 Q2]. split; [apply (list_len _ _ _ Q1)|apply (list_len _ _ _ Q2)].
    - pose proof (solve_r OF OG T OR b x x' v v' HX (lists_true v v' N3)) as Q.
      destruct (solveInPlace OF b x v), (solveInPlace OG b x' v'); cbn in *; auto. apply (list_len _ _ _ Q).
  Qed.
  Lemma arrow_same_outcome mt k m m' reg reg' d d' v v' :
    arrowMatRel T m m' -> arrowDataRel T d d' -> arrowVecRel T v v' ->
    resRel (arrowDataRel T) (arrowFactorize OF mt k m reg d) (arrowFactorize OG mt k m' reg' d') /\
    resRel (arrowVecRel T) (arrowSolveInPlace OF k d v) (arrowSolveInPlace OG k d' v').
  Proof.
    intros HM HD HV. pose proof (everything_related OF OG) as OR. split.
    - apply arrowFactorize_r; auto. intros a a' i _. exact I.
    - apply arrowSolve_r; auto.
  Qed.
End Outcome.

(** ** C67: derivatives *)
Section Derivative.
  Lemma derivative mt s n p a vals t m m' b L0' D0' f' rhs rhs' x' :
    spOf s n n -> validPerm n p -> factorizationBlk s p = Ok b ->
    spOf a n n -> coveredSym (entries a) (entries s) n p ->
    inputOf curveOps m a vals -> matRel (tangent t) m m' -> listRel (tangent t) rhs rhs' ->
    length L0' = c_nnz (b_sp b) -> length D0' = n ->
    factorize dualOps mt b (Some m') regularizationNone (L0', D0') = Ok f' ->
    solveInPlace dualOps b f' rhs' = Ok x' ->
    exists x, listRel (tangent t) x x' /\
      forall u mu ru L0 D0, matRel (laneOf u) m mu -> listRel (laneOf u) rhs ru ->
        length L0 = c_nnz (b_sp b) -> length D0 = n ->
        exists f xu, factorize Or mt b (Some mu) regularizationNone (L0, D0) = Ok f /\
          solveInPlace Or b f ru = Ok xu /\ listRel (laneOf u) x xu.
  Proof.
    intros HS HP HB HA HC HI HM HR N1 N2 EF' ES'.
    set (l0 := repeat (o0 curveOps) (c_nnz (b_sp b))). set (dd := repeat (o0 curveOps) n).
    assert (NL : length l0 = c_nnz (b_sp b)) by apply repeat_length.
    assert (ND : length dd = n) by apply repeat_length.
    destruct (single_related curveOps dualOps (tangent t) (curves_tangent t) mt s n p a vals m m'
      regularizationNone regularizationNone b l0 dd L0' D0') as (L1 & D1 & L1' & D1' & E & E' & _ & _ & _ & SO);
      auto using none_rel.
    assert (f' = (L1', D1')) by congruence. subst f'.
    specialize (SO rhs rhs' HR). rewrite ES' in SO.
    destruct (solveInPlace curveOps b (L1, D1) rhs) as [x|e] eqn:ES; [|destruct SO].
    exists x. split; [exact SO|]. intros u mu ru L0 D0 MU RU M1 M2.
    destruct (single_related curveOps Or (laneOf u) (curves_value u) mt s n p a vals m mu
      regularizationNone regularizationNone b l0 dd L0 D0) as (L2 & D2 & L2' & D2' & G & G' & _ & _ & _ & SU);
      auto using none_rel.
    assert (Q : (L2, D2) = (L1, D1)) by congruence. rewrite Q in SU.
    specialize (SU rhs ru RU). rewrite ES in SU.
    destruct (solveInPlace Or b (L2', D2') ru) as [xu|e] eqn:EU; [|destruct SU].
    exists (L2', D2'), xu. auto.
  Qed.

  Lemma arrow_derivative mt s ds dt dl dO k n t m m' w d0' d' rhs rhs' x' :
    arrowDims s ds dt dl dO -> arrowBlocks s = Ok k ->
    inputArrow curveOps n ds dt dl dO m w -> declaredArrow s n m ->
    arrowMatRel (tangent t) m m' -> arrowVecRel (tangent t) rhs rhs' ->
    dataOf k n ds dt dl dO d0' ->
    arrowFactorize dualOps mt k m' regularizationNone d0' = Ok d' ->
    arrowSolveInPlace dualOps k d' rhs' = Ok x' ->
    exists x, arrowVecRel (tangent t) x x' /\
      forall u mu ru d0, arrowMatRel (laneOf u) m mu -> arrowVecRel (laneOf u) rhs ru ->
        dataOf k n ds dt dl dO d0 ->
        exists d xu, arrowFactorize Or mt k mu regularizationNone d0 = Ok d /\
          arrowSolveInPlace Or k d ru = Ok xu /\ arrowVecRel (laneOf u) x xu.
  Proof.
    intros HD Ek IA DA HM HR DO' EF' ES'.
    destruct (arrow_compiles curveOps s ds dt dl dO HD) as (k1 & Ek1 & C1).
    assert (k1 = k) by congruence. subst k1. destruct (C1 n) as ((c & Ec & Dc) & _).
    destruct (arrow_related curveOps dualOps (tangent t) (curves_tangent t) mt s ds dt dl dO k n m m' w
      regularizationNone regularizationNone c d0') as (d1 & d1' & E & E' & _ & _ & SO); auto using none_rel.
    assert (d1' = d') by congruence. subst d1'.
    specialize (SO rhs rhs' HR). rewrite ES' in SO.
    destruct (arrowSolveInPlace curveOps k d1 rhs) as [x|e] eqn:ES; [|destruct SO].
    exists x. split; [exact SO|]. intros u mu ru d0 MU RU DO.
    destruct (arrow_related curveOps Or (laneOf u) (curves_value u) mt s ds dt dl dO k n m mu w
      regularizationNone regularizationNone c d0) as (d2 & d2' & G & G' & _ & _ & SU); auto using none_rel.
    assert (d2 = d1) by congruence. subst d2.
    specialize (SU rhs ru RU). rewrite ES in SU.
    destruct (arrowSolveInPlace Or k d2' ru) as [xu|e] eqn:EU; [|destruct SU].
    exists d2', xu. auto.
  Qed.

  Lemma tri_derivative mt a b p dt n k t A A' B B' wA wB d0' d' rhs rhs' x' :
    spOf a dt dt -> spOf b dt dt -> validPerm dt p -> tridiagonalBlocks a b p = Ok k ->
    inputTri curveOps n dt A B wA wB -> declaredTri a b n A B ->
    listRel (matRel (tangent t)) A A' -> listRel (matRel (tangent t)) B B' ->
    listRel (listRel (tangent t)) rhs rhs' ->
    dataOf k n 0 dt 0 0 d0' ->
    tridiagonalFactorize dualOps mt k dt A' B' regularizationNone d0' = Ok d' ->
    tridiagonalSolveInPlace dualOps k d' rhs' = Ok x' ->
    exists x, listRel (listRel (tangent t)) x x' /\
      forall u Au Bu ru d0, listRel (matRel (laneOf u)) A Au -> listRel (matRel (laneOf u)) B Bu ->
        listRel (listRel (laneOf u)) rhs ru -> dataOf k n 0 dt 0 0 d0 ->
        exists d xu, tridiagonalFactorize Or mt k dt Au Bu regularizationNone d0 = Ok d /\
          tridiagonalSolveInPlace Or k d ru = Ok xu /\ listRel (listRel (laneOf u)) x xu.
  Proof.
    intros SA SB HP Ek IT DT RA RB HR DO' EF' ES'.
    pose proof (tri_dims a b p dt SA SB HP) as HD.
    destruct (arrow_compiles curveOps _ _ _ _ _ HD) as (k1 & Ek1 & C1).
    rewrite <- (tri_blocks a b p dt SA SB) in Ek1.
    assert (k1 = k) by congruence. subst k1. destruct (C1 n) as ((c & Ec & Dc) & _).
    destruct (tri_related curveOps dualOps (tangent t) (curves_tangent t) mt a b p dt n k A A' B B' wA wB
      regularizationNone regularizationNone c d0') as (d1 & d1' & E & E' & _ & _ & SO); auto using none_rel.
    assert (d1' = d') by congruence. subst d1'.
    specialize (SO rhs rhs' HR). rewrite ES' in SO.
    destruct (tridiagonalSolveInPlace curveOps k d1 rhs) as [x|e] eqn:ES; [|destruct SO].
    exists x. split; [exact SO|]. intros u Au Bu ru d0 MA MB RU DO.
    destruct (tri_related curveOps Or (laneOf u) (curves_value u) mt a b p dt n k A Au B Bu wA wB
      regularizationNone regularizationNone c d0) as (d2 & d2' & G & G' & _ & _ & SU); auto using none_rel.
    assert (d2 = d1) by congruence. subst d2.
    specialize (SU rhs ru RU). rewrite ES in SU.
    destruct (tridiagonalSolveInPlace Or k d2' ru) as [xu|e] eqn:EU; [|destruct SU].
    exists d2', xu. auto.
  Qed.
End Derivative.
