(** RegularizationSmallPositiveConstant over the real numbers. *)
From Coq Require Import List Arith Lia Bool Reals Lra Permutation.
From Verif Require Import Base ModelPerm ModelSparsity ModelSymbolic ModelNumeric ModelArrow ModelReg.
From Verif Require Import SpecSymbolic SpecArrow SpecNumeric SpecArrowNum SpecPivot SpecReg.
From Verif Require Import ProofBase ProofPerm ProofLdl ProofSingleMain ProofPropSingle ProofPropArrow
  ProofArrowSym ProofArrowDense ProofArrowProduct ProofArrowMain ProofPivot ProofPivotMain ProofPropPivot ProofReg.
Import ListNotations.
Local Open Scope R_scope.

Section Real.
  Context (eps : R) (Heps : 0 < eps < 1).
  Let reg := regularizationSmallPositiveConstant (realFns eps).
  Let tol := Rpower eps (5/8).
  Let c := Rpower eps (1/2).

  Lemma tol_pos : 0 < tol. Proof. apply exp_pos. Qed.

  Lemma tol_c : tol < c.
  Proof.
    unfold tol, c, Rpower. apply exp_increasing.
    assert (ln eps < 0) by (rewrite <- ln_1; apply ln_increasing; lra). nra.
  Qed.

  Lemma reg_cases t i : (reg t i = t /\ tol <= Rabs t) \/ (reg t i = c /\ Rabs t < tol).
  Proof.
    unfold reg, regularizationSmallPositiveConstant, realFns.
    cbn [fn_abs fn_ltb fn_pow fn_epsilon fn_0625 fn_05]. fold tol c.
    destruct (Rlt_dec (Rabs t) tol); [right; auto|left; split; auto; lra].
  Qed.

  Lemma reg_large t i : tol <= Rabs (reg t i).
  Proof.
    destruct (reg_cases t i) as [[-> H]|[-> H]]; auto.
    pose proof tol_c. pose proof tol_pos. rewrite Rabs_right; lra.
  Qed.

  Lemma reg_change d e i : d = reg (d - e) i ->
    e = 0 \/ (d = c /\ Rabs (d - e) < tol /\ c - tol < e < c + tol).
  Proof.
    intros E. destruct (reg_cases (d - e) i) as [[H1 H2]|[H1 H2]].
    - left. lra.
    - right. split; [lra|]. split; auto. assert (d = c) by lra. subst d.
      apply Rabs_def2 in H2. lra.
  Qed.

  Lemma reg_change_nonneg d e i : d = reg (d - e) i -> 0 <= e.
  Proof. intros E. pose proof tol_c. destruct (reg_change d e i E) as [->|]; lra. Qed.

  Lemma large_nonzero d : tol <= Rabs d -> d <> 0.
  Proof. intros H ->. rewrite Rabs_R0 in H. pose proof tol_pos. lra. Qed.

  Lemma large_inactive d i : tol <= Rabs d -> reg d i = d.
  Proof. intros H. destruct (reg_cases d i) as [[-> _]|[_ H']]; auto. lra. Qed.

  Lemma suml_nonneg {A} (l : list A) f : (forall a, In a l -> 0 <= f a) -> 0 <= suml Or l f.
  Proof.
    induction l as [|a l IH]; cbn [suml fold_right]; intros H; cbn [o0 oadd Or]; [lra|].
    assert (0 <= f a) by (apply H; left; auto).
    assert (0 <= suml Or l f) by (apply IH; intros; apply H; right; auto).
    unfold suml in *. cbn [Or o0 oadd] in *. lra.
  Qed.

  (** positive pivots for a positive semidefinite matrix *)
  Lemma semidef_pivots {I} (all : list I) (rank : I -> nat) (eqd : forall a b : I, {a = b} + {a <> b})
      (ND : NoDup all) (Inj : forall g h, In g all -> In h all -> rank g = rank h -> g = h)
      (Lh A : I -> I -> R) (D E : I -> R) :
    (forall g, In g all -> Lh g g = 1) ->
    (forall g k, In g all -> In k all -> k <> g -> ~ (rank k < rank g)%nat -> Lh g k = 0) ->
    (forall g h, In g all -> In h all -> suml Or all (fun k => Lh g k * D k * Lh h k) =
       if eqd g h then A g h + E g else A g h) ->
    (forall g, In g all -> 0 <= E g) ->
    (forall g, In g all -> D g <> 0) ->
    posSemiDef all A -> forall g, In g all -> 0 < D g.
  Proof.
    intros L1 L0 HA HE HD PS g Hg.
    destruct (pivot_quad Or FLr all rank eqd ND Inj Lh
      (fun g h => if eqd g h then oadd Or (A g h) (E g) else A g h) D g Hg L1 L0 HA) as (x & Q).
    rewrite (quad_plus Or FLr all eqd ND) in Q.
    assert (0 <= D g); [|specialize (HD g Hg); lra].
    rewrite Q. cbn [Or oadd]. specialize (PS x).
    assert (0 <= suml Or all (fun g => omul Or (E g) (omul Or (x g) (x g)))).
    { apply suml_nonneg. intros h Hh. specialize (HE h Hh). cbn [Or omul]. nra. }
    lra.
  Qed.

  (** ** a single matrix *)
  Lemma single_small mt s n p a vals m :
    spOf s n n -> validPerm n p ->
    spOf a n n -> inputOf Or m a vals -> coveredSym (entries a) (entries s) n p ->
    exists b, factorizationBlk s p = Ok b /\
      forall L0 D0, length L0 = c_nnz (b_sp b) -> length D0 = n ->
      exists L D E, factorize Or mt b (Some m) reg (L0, D0) = Ok (L, D) /\
        (forall i, (i < n)%nat -> tol <= Rabs (vecAt Or D i)) /\
        (forall i, (i < n)%nat -> E (nth i p 0%nat) = 0 \/
           (vecAt Or D i = c /\ Rabs (vecAt Or D i - E (nth i p 0%nat)) < tol /\
            c - tol < E (nth i p 0%nat) < c + tol)) /\
        (forall i, (i < n)%nat -> 0 <= E i) /\
        (posSemiDef (seq 0 n) (symAt Or (entries a) vals) ->
           forall i, (i < n)%nat -> 0 < vecAt Or D i) /\
        (forall i j, (i < n)%nat -> (j < n)%nat ->
           ldltAt Or 1 n (c_entries (b_sp b)) L D i j =
           plusDiag Or (symAt Or (entries a) vals) E (nth i p 0%nat) (nth j p 0%nat)) /\
        forall rhs, length rhs = n ->
        exists x, solveInPlace Or b (L, D) rhs = Ok x /\ length x = n /\
          (forall i, (i < n)%nat ->
             matVec Or n (plusDiag Or (symAt Or (entries a) vals) E) x i = vecAt Or rhs i) /\
          (forall x', length x' = n ->
             (forall i, (i < n)%nat ->
                matVec Or n (plusDiag Or (symAt Or (entries a) vals) E) x' i = vecAt Or rhs i) ->
             x' = x).
  Proof.
    intros HS HP HA HI HC.
    destruct (single_regularized Or mt s n p a vals m reg HS HP HA HI HC) as (b & EB & H).
    exists b. split; auto. intros L0 D0 N1 N2. destruct (H L0 D0 N1 N2) as (L & D & EF & HR).
    assert (HT : forall i, (i < n)%nat -> tol <= Rabs (vecAt Or D i)).
    { intros i Hi. destruct (HR i Hi) as (t & ->). apply reg_large. }
    assert (HZ : forall i, (i < n)%nat -> vecAt Or D i <> o0 Or).
    { intros i Hi. apply large_nonzero; auto. }
    destruct (solves Or FLr mt s n p a vals m reg b L0 D0 L D HS HP EB HA HI HC N1 N2 EF HZ)
      as (E & HE & HL & HX).
    assert (E0 : forall i, (i < n)%nat -> 0 <= E (nth i p 0%nat)).
    { intros i Hi. apply (reg_change_nonneg (vecAt Or D i) _ i). apply (HE i Hi). }
    exists L, D, E. split; auto. split; auto. split; [|split; [|split; [|split]]]; auto.
    - intros i Hi. apply (reg_change (vecAt Or D i) _ i). apply (HE i Hi).
    - intros i Hi. destruct (isPerm_surj n p i (validPerm_isPerm n p HP) Hi) as (j & Hj & <-). auto.
    - intros PS.
      assert (NL : length L = c_nnz (b_sp b)).
      { destruct (single_product Or FLr mt s n p b m a vals reg L0 D0 HS HP EB HI HA HC N1 N2)
          as (L' & D' & EF' & NL & _). rewrite EF in EF'. injection EF' as <- <-. auto. }
      intros i Hi.
      apply (semidef_pivots (seq 0 n) (fun i => i) Nat.eq_dec (seq_NoDup n 0) (fun g h _ _ E => E)
        (unitAt Or 1 (c_entries (b_sp b)) L)
        (fun i j => symAt Or (entries a) vals (nth i p 0%nat) (nth j p 0%nat))
        (vecAt Or D) (fun i => E (nth i p 0%nat))).
      + intros g _. exact (unitAt_one Or FLr b L g).
      + intros g k _ _ N Lt. exact (unitAt_low Or FLr s n p b HS HP EB L g k NL N Lt).
      + intros g h Hg Hh. apply in_seq in Hg, Hh. rewrite (suml_seq Or FLr).
        specialize (HL g h ltac:(lia) ltac:(lia)). transitivity (ldltAt Or (fl_one FLr) n (c_entries (b_sp b)) L D g h); [reflexivity|]. rewrite HL.
        rewrite (plusDiag_perm Or n) by (try lia; apply validPerm_isPerm; auto).
        unfold plusDiag. destruct (Nat.eqb_spec g h) as [->|N].
        * destruct (Nat.eq_dec h h); [reflexivity|congruence].
        * destruct (Nat.eq_dec g h); [congruence|reflexivity].
      + intros g Hg. apply in_seq in Hg. apply E0. lia.
      + intros g Hg. apply in_seq in Hg. apply HZ. lia.
      + pose proof (validPerm_isPerm n p HP) as P. destruct (invert_ok n p P) as (q & _ & _ & Hq & _).
        intros x. rewrite (quad_perm Or FLr (seq 0 n) (fun i => nth i p 0%nat) (fun i => nth i q 0%nat)).
        * apply PS.
        * apply seq_perm; auto.
        * intros g Hg. apply in_seq in Hg. apply Hq. lia.
      + apply in_seq. lia.
  Qed.

  Lemma single_small_inactive mt s n p b m a vals L0 D0 L D :
    spOf s n n -> validPerm n p -> factorizationBlk s p = Ok b ->
    spOf a n n -> inputOf Or m a vals -> coveredSym (entries a) (entries s) n p ->
    length L0 = c_nnz (b_sp b) -> length D0 = n ->
    factorize Or mt b (Some m) regularizationNone (L0, D0) = Ok (L, D) ->
    (forall i, (i < n)%nat -> tol <= Rabs (vecAt Or D i)) ->
    factorize Or mt b (Some m) reg (L0, D0) = Ok (L, D).
  Proof.
    intros HS HP HB HA HI HC N1 N2 EF HT.
    apply (single_inactive Or mt s n p b m a vals); auto.
    intros i Hi. apply large_inactive; auto.
  Qed.

  (** ** the arrowhead linked matrix *)
  Lemma arrow_small mt s ds dt dl dO n m w :
    arrowDims s ds dt dl dO -> inputArrow Or n ds dt dl dO m w -> declaredArrow s n m ->
    exists k, arrowBlocks s = Ok k /\
      forall d0, dataOf k n ds dt dl dO d0 ->
      exists d E, arrowFactorize Or mt k m reg d0 = Ok d /\ dataOf k n ds dt dl dO d /\
        (forall g, In g (allIdx n ds dt dl dO) -> tol <= Rabs (pivotAt Or d g)) /\
        (forall g, In g (allIdx n ds dt dl dO) -> E (permIdx s g) = 0 \/
           (pivotAt Or d g = c /\ Rabs (pivotAt Or d g - E (permIdx s g)) < tol /\
            c - tol < E (permIdx s g) < c + tol)) /\
        (forall g, In g (allIdx n ds dt dl dO) -> 0 <= E g) /\
        (posSemiDef (allIdx n ds dt dl dO) (matAt Or m w) ->
           forall g, In g (allIdx n ds dt dl dO) -> 0 < pivotAt Or d g) /\
        (forall g h, In g (allIdx n ds dt dl dO) -> In h (allIdx n ds dt dl dO) ->
           gldltAt Or (allIdx n ds dt dl dO) (factorAt Or 1 k d) (pivotAt Or d) g h =
           plusDiagG Or (matAt Or m w) E (permIdx s g) (permIdx s h)) /\
        forall rhs, vecOf n ds dt dl dO rhs ->
        exists x, arrowSolveInPlace Or k d rhs = Ok x /\ vecOf n ds dt dl dO x /\
          (forall g, In g (allIdx n ds dt dl dO) ->
             gmatVec Or (allIdx n ds dt dl dO) (plusDiagG Or (matAt Or m w) E) (gvecAt Or x) g =
             gvecAt Or rhs g) /\
          (forall x', vecOf n ds dt dl dO x' ->
             (forall g, In g (allIdx n ds dt dl dO) ->
                gmatVec Or (allIdx n ds dt dl dO) (plusDiagG Or (matAt Or m w) E) (gvecAt Or x') g =
                gvecAt Or rhs g) -> x' = x).
  Proof.
    intros HD IA DA.
    destruct (arrowBlocks_ok s ds dt dl dO HD) as (k & P & Ek & AG & AC & AV).
    exists k. split; auto. intros d0 DO.
    destruct (arrow_identity Or FLr s ds dt dl dO k P HD AG AC AV mt n m w reg d0 DO IA DA)
      as (d & EF & DO' & H).
    set (all := allIdx n ds dt dl dO) in *.
    assert (HT : forall g, In g all -> tol <= Rabs (pivotAt Or d g)).
    { intros g Hg. destruct (arrow_pivot_reg Or s ds dt dl dO k n m w HD Ek IA DA mt reg d0 d DO EF g Hg)
        as (t & ->). apply reg_large. }
    assert (HZ : forall g, In g all -> pivotAt Or d g <> o0 Or).
    { intros g Hg. apply large_nonzero; auto. }
    destruct (H HZ) as (E & HE & HP).
    assert (E0 : forall g, In g all -> 0 <= E (permIdx s g)).
    { intros g Hg. apply (reg_change_nonneg (pivotAt Or d g) _ (localIdx g)). apply (HE g Hg). }
    destruct (permIdx_inv s n ds dt dl dO HD) as (q & Q).
    exists d, E. split; auto. split; auto. split; auto. split; [|split; [|split; [|split]]].
    - intros g Hg. apply (reg_change (pivotAt Or d g) _ (localIdx g)). apply (HE g Hg).
    - intros g Hg. destruct (Q g Hg) as (_ & Hq & Eq). rewrite <- Eq. apply E0, Hq.
    - intros PS. destruct (factor_low Or FLr s ds dt dl dO k n HD Ek d DO') as [F1 F0].
      apply (semidef_pivots all (rank n ds dt dl) gidx_eq_dec (NoDup_allIdx n ds dt dl dO)
        (rk_inj ds dt dl dO n) (factorAt Or 1 k d)
        (fun g h => matAt Or m w (permIdx s g) (permIdx s h)) (pivotAt Or d) (fun g => E (permIdx s g))); auto.
      + intros g h Hg Hh.
        transitivity (gldltAt Or all (factorAt Or (fl_one FLr) k d) (pivotAt Or d) g h); [reflexivity|].
        rewrite HP by auto. unfold plusDiagG.
        destruct (gidx_eq_dec (permIdx s g) (permIdx s h)) as [Eq|N], (gidx_eq_dec g h) as [->|N']; auto.
        * apply (permIdx_inj s n ds dt dl dO HD) in Eq; auto. congruence.
        * congruence.
      + intros x. rewrite (quad_perm Or FLr all (permIdx s) q).
        * apply PS.
        * apply permIdx_Permutation; auto.
        * intros h Hh. apply Q; auto.
    - exact HP.
    - intros rhs HV.
      exact (arrow_solve Or FLr s ds dt dl dO k P HD AG AC n d (plusDiagG Or (matAt Or m w) E) rhs
             DO' HV HZ HP).
  Qed.

  Lemma arrow_small_inactive mt s ds dt dl dO k n m w d0 d :
    arrowDims s ds dt dl dO -> arrowBlocks s = Ok k ->
    inputArrow Or n ds dt dl dO m w -> declaredArrow s n m ->
    dataOf k n ds dt dl dO d0 ->
    arrowFactorize Or mt k m regularizationNone d0 = Ok d ->
    (forall g, In g (allIdx n ds dt dl dO) -> tol <= Rabs (pivotAt Or d g)) ->
    arrowFactorize Or mt k m reg d0 = Ok d.
  Proof.
    intros HD Ek IA DA DO EF HT.
    apply (arrow_inactive Or mt s ds dt dl dO k n m w); auto.
    intros g Hg. apply large_inactive; auto.
  Qed.

  (** ** the block tridiagonal matrix *)
  Lemma tri_small mt a b p dt n A B wA wB :
    spOf a dt dt -> spOf b dt dt -> validPerm dt p ->
    inputTri Or n dt A B wA wB -> declaredTri a b n A B ->
    exists k, tridiagonalBlocks a b p = Ok k /\
      forall d0, dataOf k n 0 dt 0 0 d0 ->
      exists d E, tridiagonalFactorize Or mt k dt A B reg d0 = Ok d /\ dataOf k n 0 dt 0 0 d /\
        (forall t i, (t < n + 1)%nat -> (i < dt)%nat -> tol <= Rabs (pivotAt Or d (GT t i))) /\
        (forall t i, (t < n + 1)%nat -> (i < dt)%nat -> E t (nth i p 0%nat) = 0 \/
           (pivotAt Or d (GT t i) = c /\ Rabs (pivotAt Or d (GT t i) - E t (nth i p 0%nat)) < tol /\
            c - tol < E t (nth i p 0%nat) < c + tol)) /\
        (forall t i u j, (t < n + 1)%nat -> (i < dt)%nat -> (u < n + 1)%nat -> (j < dt)%nat ->
           gldltAt Or (allIdx n 0 dt 0 0) (factorAt Or 1 k d) (pivotAt Or d) (GT t i) (GT u j) =
           plusDiagT Or (triMatAt Or A B wA wB) E t (nth i p 0%nat) u (nth j p 0%nat)) /\
        forall rhs, blocksOf n dt rhs ->
        exists x, tridiagonalSolveInPlace Or k d rhs = Ok x /\ blocksOf n dt x /\
          (forall t i, (t < n + 1)%nat -> (i < dt)%nat ->
             triMatVec Or n dt (plusDiagT Or (triMatAt Or A B wA wB) E) x t i =
             vecAt Or (nth t rhs []) i) /\
          (forall x', blocksOf n dt x' ->
             (forall t i, (t < n + 1)%nat -> (i < dt)%nat ->
                triMatVec Or n dt (plusDiagT Or (triMatAt Or A B wA wB) E) x' t i =
                vecAt Or (nth t rhs []) i) -> x' = x).
  Proof.
    intros SA SB HP IT DT.
    destruct (tri_factorizes Or FLr mt a b p dt n A B wA wB reg SA SB HP IT DT) as (k & Ek & _ & H).
    exists k. split; auto. intros d0 DO. destruct (H d0 DO) as (d & EF & DO' & HX).
    pose proof (tri_dims a b p dt SA SB HP) as HD. rewrite (tri_blocks a b p dt) in Ek by auto.
    assert (HT : forall t i, (t < n + 1)%nat -> (i < dt)%nat -> tol <= Rabs (pivotAt Or d (GT t i))).
    { intros t i Ht Hi.
      destruct (arrow_pivot_reg Or _ _ _ _ _ k n _ _ HD Ek (tri_input Or n dt A B wA wB IT)
        (tri_declared a b p n dt A B DT) mt reg d0 d DO) with (g := GT t i) as (v & ->).
      - unfold tridiagonalFactorize, numRepetitions in EF.
        rewrite (do_nts _ _ _ _ _ _ _ DO) in EF. exact EF.
      - apply in_allIdx; auto.
      - apply reg_large. }
    destruct HX as (E & HE & HL & HS).
    { intros t i Ht Hi. apply large_nonzero; auto. }
    exists d, E. split; auto. split; auto. split; auto. split; [|split]; auto.
    intros t i Ht Hi. apply (reg_change (pivotAt Or d (GT t i)) _ i). apply (HE t i Ht Hi).
  Qed.
End Real.
