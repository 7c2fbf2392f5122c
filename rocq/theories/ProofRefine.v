(** Iterative refinement with a regularized factorization. *)
From Coq Require Import Reals Lra Lia List Arith Bool.
From Verif Require Import Base ModelPerm ModelSparsity ModelSymbolic ModelNumeric ModelArrow ModelReg.
From Verif Require Import SpecSymbolic SpecArrow SpecNumeric SpecArrowNum SpecReg SpecPivot SpecRefine.
From Verif Require Import ProofBase ProofPerm ProofExact ProofLdl ProofMultiply ProofRound ProofDomReal ProofArrowSym ProofArrowProduct ProofArrowSolve ProofArrowMultiply ProofArrowMain ProofPropSingle
  ProofPropArrow ProofPropPivot ProofPropDominant ProofRegReal ProofLinear.
Import ListNotations.
Local Open Scope R_scope.
Local Notation rsum := (suml Or).

Section Any.
  Context {I : Type} (all : list I) (M : I -> I -> R) (E : I -> R) (c : R).
  Hypothesis SY : forall g h, In g all -> In h all -> M g h = M h g.
  Hypothesis PS : posSemiDef all M.
  Hypothesis EB : forall g, In g all -> 0 <= E g <= c.
  Local Notation q := (quadForm Or all M).
  Definition rq (z : I -> R) := rsum all (fun g => E g * (z g * z g)).
  Definition ax (z : I -> R) (g : I) := rsum all (fun h => M g h * z h).
  Definition dotp (y z : I -> R) := rsum all (fun g => y g * z g).

  Lemma q_dot z : q z = dotp z (ax z).
  Proof.
    unfold quadForm, dotp, ax. apply rsum_ext. intros g Hg. rewrite <- rsum_scal. apply rsum_ext. intros h Hh.
    change (omul Or) with Rmult. ring.
  Qed.
  Lemma dot_ext y y' z z' : (forall g, In g all -> y g = y' g) -> (forall g, In g all -> z g = z' g) -> dotp y z = dotp y' z'.
  Proof. intros H H'. apply rsum_ext. intros g Hg. rewrite H, H'; auto. Qed.
  Lemma dot_sym y z : dotp y z = dotp z y.
  Proof. apply rsum_ext. intros; ring. Qed.
  Lemma dot_plus y z z' : dotp y (fun g => z g + z' g) = dotp y z + dotp y z'.
  Proof. unfold dotp. rewrite <- rsum_plus. apply rsum_ext. intros; ring. Qed.
  Lemma ax_plus y z g : ax (fun h => y h + z h) g = ax y g + ax z g.
  Proof. unfold ax. rewrite <- rsum_plus. apply rsum_ext. intros; ring. Qed.
  Lemma ax_ext y z g : (forall h, In h all -> y h = z h) -> ax y g = ax z g.
  Proof. intros H. apply rsum_ext. intros h Hh. rewrite H; auto. Qed.
  Lemma q_ext y z : (forall h, In h all -> y h = z h) -> q y = q z.
  Proof. intros H. rewrite !q_dot. apply dot_ext; auto. intros g Hg. apply ax_ext; auto. Qed.
  Lemma rq_ext y z : (forall h, In h all -> y h = z h) -> rq y = rq z.
  Proof. intros H. apply rsum_ext. intros h Hh. rewrite H; auto. Qed.
  Lemma ax_sym y z : dotp y (ax z) = dotp z (ax y).
  Proof.
    rewrite (dot_sym y), (dot_sym z). symmetry.
    exact (sys_sym Or FLr all M z y (ax z) (ax y) SY (fun g _ => eq_refl) (fun g _ => eq_refl)).
  Qed.

  (** one step: (A + E) f = A e, the error becomes e - f *)
  Lemma refine_one e f : (forall g, In g all -> ax f g + E g * f g = ax e g) ->
    let e' := fun g => e g - f g in 2 * q e' + rq e' <= rq e /\ q e' <= q e.
  Proof.
    intros H e'.
    assert (P : forall g, In g all -> e g = e' g + f g) by (intros; unfold e'; ring).
    assert (EQ : forall g, In g all -> ax e g = ax e' g + ax f g) by (intros g Hg; rewrite <- ax_plus; apply ax_ext; auto).
    (* A e' = E f *)
    assert (AE : forall g, In g all -> ax e' g = E g * f g) by (intros g Hg; specialize (H g Hg); rewrite (EQ g Hg) in H; lra).
    assert (Q' : q e' = rsum all (fun g => e' g * (E g * f g))) by (rewrite q_dot; apply dot_ext; auto).
    split.
    - rewrite Q'. unfold rq. rewrite <- rsum_scal, <- rsum_plus. apply rsum_le. intros g Hg. rewrite (P g Hg).
      destruct (EB g Hg) as [E0 _]. pose proof (Rmult_le_pos _ _ E0 (Rle_0_sqr (f g))) as X. unfold Rsqr in X. lra.
    - assert (S : q e = q e' + 2 * rq f + q f).
      { rewrite !q_dot.
        rewrite (dot_ext e e (ax e) (fun g => ax e' g + ax f g)) by auto. rewrite dot_plus.
        rewrite (ax_sym e e'), (ax_sym e f).
        rewrite (dot_ext e' e' (ax e) (fun g => ax e' g + ax f g)) by auto.
        rewrite (dot_ext f f (ax e) (fun g => ax e' g + ax f g)) by auto. rewrite !dot_plus.
        rewrite (ax_sym e' f). rewrite (dot_ext f f (ax e') (fun g => E g * f g)) by auto.
        replace (dotp f (fun g => E g * f g)) with (rq f) by (apply rsum_ext; intros; ring). ring. }
      pose proof (PS f). assert (0 <= rq f); [|lra].
      apply rsum_pos. intros g Hg. apply Rmult_le_pos; [apply EB; auto|apply Rle_0_sqr].
  Qed.

  Context {V : Type} (isV : V -> Prop) (at_ : V -> I -> R).
  Variables (product solve : V -> res V) (sub add : V -> V -> V).
  Hypothesis PR : forall x, isV x -> exists y, product x = Ok y /\ isV y /\ forall g, In g all -> at_ y g = ax (at_ x) g.
  Hypothesis SO : forall b, isV b -> exists y, solve b = Ok y /\ isV y /\
    forall g, In g all -> ax (at_ y) g + E g * at_ y g = at_ b g.
  Hypothesis SU : forall x y, isV x -> isV y -> isV (sub x y) /\ forall g, In g all -> at_ (sub x y) g = at_ x g - at_ y g.
  Hypothesis AD : forall x y, isV x -> isV y -> isV (add x y) /\ forall g, In g all -> at_ (add x y) g = at_ x g + at_ y g.

  Lemma refine_steps rhs xs : isV rhs -> (forall g, In g all -> ax xs g = at_ rhs g) ->
    forall k x0, isV x0 -> exists x, refine product solve sub add rhs k x0 = Ok x /\ isV x /\
      let e0 := fun g => at_ x0 g - xs g in let e := fun g => at_ x g - xs g in
      2 * INR k * q e + rq e <= rq e0 /\ q e <= q e0 /\
      forall lam, 0 < lam -> (forall z, lam * rsum all (fun g => z g * z g) <= q z) ->
        q e <= (c / (2 * lam)) ^ k * q e0.
  Proof.
    intros VR HX. induction k as [|k IH]; intros x0 V0.
    { exists x0. split; auto. split; auto. cbv zeta. cbn [INR pow]. split; [lra|]. split; [lra|]. intros; lra. }
    cbn [refine].
    destruct (PR x0 V0) as (y & EY & VY & HY). rewrite EY. cbn [bind].
    destruct (SU rhs y VR VY) as [VS HS].
    destruct (SO _ VS) as (dx & ED & VD & HD). rewrite ED. cbn [bind].
    destruct (AD x0 dx V0 VD) as [V1 H1].
    destruct (IH _ V1) as (x & EX & VX & I1 & I2 & I3). exists x. split; auto. split; auto.
    cbv zeta in *. set (e0 := fun g => at_ x0 g - xs g). set (e := fun g => at_ x g - xs g) in *.
    set (e1 := fun g => at_ (add x0 dx) g - xs g) in *.
    destruct (refine_one e0 (fun g => - at_ dx g)) as [R1 R2].
    { intros g Hg. specialize (HD g Hg). rewrite (HS g Hg), (HY g Hg), <- (HX g Hg) in HD.
      assert (A1 : ax (fun g => - at_ dx g) g = - ax (at_ dx) g).
      { unfold ax. rewrite <- (Rmult_1_l (rsum all (fun h => M g h * at_ dx h))), Ropp_mult_distr_l, <- rsum_scal.
        apply rsum_ext. intros; ring. }
      assert (A2 : ax (at_ x0) g = ax e0 g + ax xs g).
      { rewrite <- ax_plus. apply ax_ext. intros; unfold e0; ring. }
      rewrite A1. lra. }
    assert (E1 : forall g, In g all -> e1 g = e0 g - - at_ dx g) by (intros g Hg; unfold e1, e0; rewrite H1 by auto; ring).
    cbv zeta in R1, R2. rewrite <- (q_ext e1) in R1, R2 by auto. rewrite <- (rq_ext e1) in R1 by auto.
    split; [|split].
    - rewrite S_INR. lra.
    - lra.
    - intros lam L0 HL. specialize (I3 lam L0 HL). eapply Rle_trans; [exact I3|]. cbn [pow].
      assert (q e1 <= c / (2 * lam) * q e0); [|].
      { assert (0 <= rq e1) by (apply rsum_pos; intros g Hg; apply Rmult_le_pos; [apply EB; auto|apply Rle_0_sqr]).
        assert (rq e0 <= c * rsum all (fun g => e0 g * e0 g)).
        { rewrite <- rsum_scal. apply rsum_le. intros g Hg. apply Rmult_le_compat_r; [apply Rle_0_sqr|apply EB; auto]. }
        specialize (HL e0).
        destruct (Rle_lt_dec 0 c) as [C0|C0].
        - apply Rmult_le_reg_l with (2 * lam); [lra|].
          replace (2 * lam * (c / (2 * lam) * q e0)) with (c * q e0) by (field; lra).
          apply Rle_trans with (lam * (c * rsum all (fun g => e0 g * e0 g))).
          + rewrite Rmult_assoc, (Rmult_comm lam), <- Rmult_assoc, (Rmult_comm lam). apply Rmult_le_compat_r; lra.
          + rewrite <- Rmult_assoc, (Rmult_comm lam c), Rmult_assoc. apply Rmult_le_compat_l; auto.
        - destruct all as [|g l] eqn:EA; [|specialize (EB g (or_introl eq_refl)); lra].
          unfold quadForm. cbn. lra. }
      destruct (Rle_lt_dec 0 c) as [C0|C0].
      + rewrite (Rmult_comm (c / (2 * lam))), Rmult_assoc. apply Rmult_le_compat_l; auto. apply pow_le.
        apply Rmult_le_pos; auto. apply Rlt_le, Rinv_0_lt_compat. lra.
      + destruct all as [|g l] eqn:EA; [|specialize (EB g (or_introl eq_refl)); lra].
        unfold quadForm. cbn. lra.
  Qed.

  Lemma refine_refined rhs xs k x0 : isV rhs -> (forall g, In g all -> ax xs g = at_ rhs g) -> isV x0 ->
    exists x, refine product solve sub add rhs k x0 = Ok x /\ isV x /\
      refined all M c k (fun g => at_ x0 g - xs g) (fun g => at_ x g - xs g).
  Proof.
    intros VR HX V0. destruct (refine_steps rhs xs VR HX k x0 V0) as (x & EX & VX & R1 & R2 & R3). cbv zeta in *.
    exists x. split; auto. split; auto. split; [|split; auto].
    assert (0 <= rq (fun g => at_ x g - xs g)) by (apply rsum_pos; intros g Hg; apply Rmult_le_pos; [apply EB; auto|apply Rle_0_sqr]).
    rewrite <- rsum_scal. eapply Rle_trans; [|apply Rle_trans with (1 := R1)]; [lra|].
    apply rsum_le. intros g Hg. apply Rmult_le_compat_r; [apply Rle_0_sqr|apply EB; auto].
  Qed.
End Any.

Lemma ax_diag {I : Type} (all : list I) (M K : I -> I -> R) (E : I -> R) y g : NoDup all -> In g all ->
  (forall h, In h all -> h <> g -> K g h = M g h) -> K g g = M g g + E g ->
  rsum all (fun h => K g h * y h) = ax all M y g + E g * y g.
Proof.
  intros ND Hg H1 H2. unfold ax.
  assert (S : rsum all (fun h => K g h * y h - M g h * y h) = K g g * y g - M g g * y g).
  { apply (suml_single Or FLr all (fun h => K g h * y h - M g h * y h) g); auto.
    intros h Hh N. rewrite H1 by auto. cbn. ring. }
  rewrite rsum_minus, H2 in S. lra.
Qed.

Lemma map2_len {A : Type} (f : A -> A -> A) x y : length x = length y -> length (map2 f x y) = length x.
Proof. intros H. unfold map2. rewrite map_length, combine_length. lia. Qed.
Lemma map2_nth {A : Type} (f : A -> A -> A) x y i d : length x = length y -> (i < length x)%nat ->
  nth i (map2 f x y) d = f (nth i x d) (nth i y d).
Proof.
  intros H Hi. unfold map2. rewrite (nth_indep _ _ (f (fst (d, d)) (snd (d, d)))) by (rewrite map_length, combine_length; lia).
  rewrite (map_nth (fun ab => f (fst ab) (snd ab))), combine_nth by auto. reflexivity.
Qed.
Lemma map2_at f n x y : length x = n -> length y = n ->
  length (map2 f x y) = n /\ forall i, (i < n)%nat -> vecAt Or (map2 f x y) i = f (vecAt Or x i) (vecAt Or y i).
Proof.
  intros Hx Hy. split; [rewrite map2_len; lia|]. intros i Hi. unfold vecAt. apply map2_nth; lia.
Qed.

(** ** single matrix *)
Theorem single_refine eps mt s n p a vals m b L0 D0 rhs xs x0 k :
  0 < eps < 1 ->
  spOf s n n -> validPerm n p -> factorizationBlk s p = Ok b ->
  spOf a n n -> inputOf Or m a vals -> coveredSym (entries a) (entries s) n p ->
  NoDup (entries a) -> (forall r c, In (r, c) (entries a) -> (c <= r)%nat) ->
  length L0 = c_nnz (b_sp b) -> length D0 = n ->
  posSemiDef (seq 0 n) (symAt Or (entries a) vals) ->
  length rhs = n -> (forall i, (i < n)%nat -> matVec Or n (symAt Or (entries a) vals) xs i = vecAt Or rhs i) ->
  length x0 = n ->
  exists L D x, factorize Or mt b (Some m) (regularizationSmallPositiveConstant (realFns eps)) (L0, D0) = Ok (L, D) /\
    refineSingle Or n m b (L, D) rhs k x0 = Ok x /\ length x = n /\
    refined (seq 0 n) (symAt Or (entries a) vals) (Rpower eps (1/2) + Rpower eps (5/8)) k
      (fun i => vecAt Or x0 i - vecAt Or xs i) (fun i => vecAt Or x i - vecAt Or xs i).
Proof.
  intros HE SP VP EB SA IO CV ND LT N1 N2 PS NR HX N0.
  destruct (single_small eps HE mt s n p a vals m SP VP SA IO CV) as (b' & EB' & HF).
  rewrite EB in EB'. injection EB' as <-.
  destruct (HF L0 D0 N1 N2) as (L & D & E & EF & _ & HB & H0 & _ & _ & HS).
  exists L, D.
  assert (BD : forall i, In i (seq 0 n) -> 0 <= E i <= Rpower eps (1/2) + Rpower eps (5/8)).
  { intros i Hi. apply in_seq in Hi. split; [apply H0; lia|].
    pose proof VP as VP'. apply validPerm_isPerm in VP'. destruct (isPerm_surj n p i VP') as (j & Hj & <-); [lia|].
    pose proof (exp_pos (1 / 2 * ln eps)). pose proof (exp_pos (5 / 8 * ln eps)). unfold Rpower in *.
    destruct (HB j Hj) as [->|(_ & _ & HQ)]; lra. }
  assert (SY : forall g h, In g (seq 0 n) -> In h (seq 0 n) -> symAt Or (entries a) vals g h = symAt Or (entries a) vals h g)
    by (intros g h _ _; unfold symAt; rewrite Nat.max_comm, Nat.min_comm; reflexivity).
  destruct (refine_refined (seq 0 n) (symAt Or (entries a) vals) E (Rpower eps (1/2) + Rpower eps (5/8)) SY PS BD
    (fun x => length x = n) (vecAt Or) (fun x => multiply Or Symmetric m x (repeat (o0 Or) n))
    (solveInPlace Or b (L, D)) (map2 (osub Or)) (map2 (oadd Or))) with (rhs := rhs) (xs := vecAt Or xs) (k := k) (x0 := x0)
    as (x & R1 & R2 & R3); auto.
  - intros x Nx. destruct (multiply_ok Or FLr Symmetric m a vals n n x (repeat (o0 Or) n)) as (y & EM & NY & HY); auto.
    { cbn. apply repeat_length. }
    rewrite repeat_length in NY, HY. exists y. split; auto. split; auto. intros i Hi. apply in_seq in Hi.
    rewrite HY, (vecAt_repeat0 Or) by lia. cbn [colsOf]. unfold ax. rewrite (suml_seq Or FLr). change (o0 Or) with 0. change (oadd Or) with Rplus.
    rewrite Rplus_0_l. apply sumn_ext. intros j Hj. rewrite (kindAt_sym Or FLr); auto. apply (io_len _ _ _ _ IO).
  - intros r Nr. destruct (HS r Nr) as (y & ES & NY & HY & _). exists y. split; auto. split; auto.
    intros i Hi. pose proof Hi as Hi'. apply in_seq in Hi'. rewrite <- HY by lia. unfold matVec.
    rewrite <- (suml_seq Or FLr). symmetry. apply ax_diag; auto; [apply seq_NoDup| |].
    + intros j _ N. unfold plusDiag. destruct (Nat.eqb_spec i j); [congruence|reflexivity].
    + unfold plusDiag. rewrite Nat.eqb_refl. reflexivity.
  - intros x y Nx Ny. destruct (map2_at (osub Or) n x y Nx Ny) as [K1 K2]. split; auto. intros g Hg. apply in_seq in Hg. apply K2. lia.
  - intros x y Nx Ny. destruct (map2_at (oadd Or) n x y Nx Ny) as [K1 K2]. split; auto. intros g Hg. apply in_seq in Hg. apply K2. lia.
  - intros i Hi. apply in_seq in Hi. rewrite <- HX by lia. unfold ax. rewrite (suml_seq Or FLr). reflexivity.
  - exists x. auto.
Qed.

(** ** arrowhead *)
Lemma vecMap2_at f n ds dt dl dO x y : vecOf n ds dt dl dO x -> vecOf n ds dt dl dO y ->
  vecOf n ds dt dl dO (vecMap2 f x y) /\
  forall g, In g (allIdx n ds dt dl dO) -> gvecAt Or (vecMap2 f x y) g = f (gvecAt Or x g) (gvecAt Or y g).
Proof.
  intros [X1 X2 X3 X4 X5] [Y1 Y2 Y3 Y4 Y5].
  assert (T : forall t, (t < n + 1)%nat -> nth t (map2 (map2 f) (v_tri x) (v_tri y)) [] = map2 f (nth t (v_tri x) []) (nth t (v_tri y) []))
    by (intros t Ht; apply map2_nth; lia).
  split.
  - constructor; cbn [vecMap2 v_start v_tri v_link v_outer]; try (rewrite map2_len; lia).
    intros t Ht. rewrite T by auto. rewrite map2_len; [|rewrite Y3 by auto]; apply X3; auto.
  - intros g Hg. apply in_allIdx in Hg. destruct g as [i|t i|i|i]; cbn [gvecAt vecMap2 v_start v_tri v_link v_outer].
    + apply (map2_at f ds); auto.
    + rewrite T by lia. apply (map2_at f dt); try apply X3; try apply Y3; lia.
    + apply (map2_at f dl); auto.
    + apply (map2_at f dO); auto.
Qed.

Theorem arrow_refine eps mt s ds dt dl dO k n m w d0 rhs xs x0 j :
  0 < eps < 1 ->
  arrowDims s ds dt dl dO -> arrowBlocks s = Ok k ->
  inputArrow Or n ds dt dl dO m w -> declaredArrow s n m -> simpleArrow n m -> dataOf k n ds dt dl dO d0 ->
  posSemiDef (allIdx n ds dt dl dO) (matAt Or m w) ->
  vecOf n ds dt dl dO rhs ->
  (forall g, In g (allIdx n ds dt dl dO) ->
     gmatVec Or (allIdx n ds dt dl dO) (matAt Or m w) (gvecAt Or xs) g = gvecAt Or rhs g) ->
  vecOf n ds dt dl dO x0 ->
  exists d x, arrowFactorize Or mt k m (regularizationSmallPositiveConstant (realFns eps)) d0 = Ok d /\
    refineArrow Or n ds dt dl dO m k d rhs j x0 = Ok x /\ vecOf n ds dt dl dO x /\
    refined (allIdx n ds dt dl dO) (matAt Or m w) (Rpower eps (1/2) + Rpower eps (5/8)) j
      (fun g => gvecAt Or x0 g - gvecAt Or xs g) (fun g => gvecAt Or x g - gvecAt Or xs g).
Proof.
  intros HE HD EK IA DA SI DO PS NR HX N0. set (all := allIdx n ds dt dl dO) in *.
  destruct (arrow_small eps HE mt s ds dt dl dO n m w HD IA DA) as (k' & EK' & HF).
  rewrite EK in EK'. injection EK' as <-.
  destruct (HF d0 DO) as (d & E & EF & _ & _ & HB & H0 & _ & _ & HS). fold all in HB, H0, HS.
  exists d.
  assert (BD : forall g, In g all -> 0 <= E g <= Rpower eps (1/2) + Rpower eps (5/8)).
  { intros g Hg. split; [apply H0; auto|].
    destruct (permIdx_inv s n ds dt dl dO HD) as (q & Hq). destruct (Hq g Hg) as (_ & Q1 & Q2).
    pose proof (exp_pos (1 / 2 * ln eps)). pose proof (exp_pos (5 / 8 * ln eps)). unfold Rpower in *.
    specialize (HB (q g) Q1). rewrite Q2 in HB. destruct HB as [->|(_ & _ & HQ)]; lra. }
  destruct (refine_refined all (matAt Or m w) E (Rpower eps (1/2) + Rpower eps (5/8)) (fun g h _ _ => matAt_sym Or m w g h) PS BD
    (vecOf n ds dt dl dO) (gvecAt Or) (fun x => arrowMultiply Or m x (zeroVec Or n ds dt dl dO))
    (arrowSolveInPlace Or k d) (vecMap2 (osub Or)) (vecMap2 (oadd Or))) with (rhs := rhs) (xs := gvecAt Or xs) (k := j) (x0 := x0)
    as (x & R1 & R2 & R3); auto.
  - intros x Nx. destruct (arrow_multiply_ok Or FLr n ds dt dl dO m w x (zeroVec Or n ds dt dl dO) IA Nx (zeroVec_of Or n ds dt dl dO))
      as (y & EM & NY & HY).
    exists y. split; auto. split; auto. intros g Hg. rewrite HY, (zeroVec_at Or) by auto. unfold ax, gmatVec.
    change (o0 Or) with 0. change (oadd Or) with Rplus. rewrite Rplus_0_l. apply rsum_ext. intros h Hh.
    rewrite (product_is_matrix Or FLr n ds dt dl dO m w g h IA SI Hg Hh). reflexivity.
  - intros r Nr. destruct (HS r Nr) as (y & ES & NY & HY & _). exists y. split; auto. split; auto.
    intros g Hg. rewrite <- HY by auto. unfold gmatVec.
    symmetry. apply ax_diag; auto; [apply NoDup_allIdx| |].
    + intros h _ N. unfold plusDiagG. destruct (gidx_eq_dec g h); [congruence|reflexivity].
    + unfold plusDiagG. destruct (gidx_eq_dec g g); [reflexivity|congruence].
  - intros x y Nx Ny. exact (vecMap2_at (osub Or) n ds dt dl dO x y Nx Ny).
  - intros x y Nx Ny. exact (vecMap2_at (oadd Or) n ds dt dl dO x y Nx Ny).
  - exists x. auto.
Qed.

(** ** block tridiagonal *)
Lemma NoDup_prod {A B : Type} (l : list A) (m : list B) : NoDup l -> NoDup m -> NoDup (list_prod l m).
Proof.
  intros Hl Hm. induction Hl as [|a l Na Hl IH]; cbn [list_prod]; [constructor|].
  assert (D : forall y, In y (map (fun y => (a, y)) m) -> ~ In y (list_prod l m)).
  { intros [u v] H H'. apply in_map_iff in H. destruct H as (w & H & _). injection H as <- _. apply in_prod_iff in H'. tauto. }
  assert (N : NoDup (map (fun y => (a, y)) m)).
  { apply FinFun.Injective_map_NoDup; auto. intros u v H. injection H. auto. }
  revert D N. generalize (map (fun y => (a, y)) m). intros k D N. induction N as [|y k Ny N IHN]; cbn [app]; auto. constructor.
  - rewrite in_app_iff. intros [H|H]; [auto|]. apply (D y); [left|]; auto.
  - apply IHN. intros z Hz. apply D. right. auto.
Qed.
Theorem tri_refine eps mt a b p dt n k A B wA wB d0 rhs xs x0 j :
  0 < eps < 1 ->
  spOf a dt dt -> spOf b dt dt -> validPerm dt p -> tridiagonalBlocks a b p = Ok k ->
  inputTri Or n dt A B wA wB -> declaredTri a b n A B -> simpleTri n A B -> dataOf k n 0 dt 0 0 d0 ->
  let rows := list_prod (seq 0 (n + 1)) (seq 0 dt) in
  let M := fun g h => triMatAt Or A B wA wB (fst g) (snd g) (fst h) (snd h) in
  posSemiDef rows M ->
  blocksOf n dt rhs ->
  (forall t i, (t < n + 1)%nat -> (i < dt)%nat ->
     triMatVec Or n dt (triMatAt Or A B wA wB) xs t i = vecAt Or (nth t rhs []) i) ->
  blocksOf n dt x0 ->
  exists d x, tridiagonalFactorize Or mt k dt A B (regularizationSmallPositiveConstant (realFns eps)) d0 = Ok d /\
    refineTri Or n dt A B k d rhs j x0 = Ok x /\ blocksOf n dt x /\
    refined rows M (Rpower eps (1/2) + Rpower eps (5/8)) j
      (fun g => vecAt Or (nth (fst g) x0 []) (snd g) - vecAt Or (nth (fst g) xs []) (snd g))
      (fun g => vecAt Or (nth (fst g) x []) (snd g) - vecAt Or (nth (fst g) xs []) (snd g)).
Proof.
  intros HE SA SB HP EK IT DT ST DO rows M PS NR HX N0.
  destruct (tri_small eps HE mt a b p dt n A B wA wB SA SB HP IT DT) as (k' & EK' & HF).
  rewrite EK in EK'. injection EK' as <-.
  destruct (HF d0 DO) as (d & E & EF & _ & _ & HB & _ & HS).
  exists d.
  assert (IR : forall t i, In (t, i) rows <-> (t < n + 1 /\ i < dt)%nat).
  { intros t i. unfold rows. rewrite in_prod_iff, !in_seq. lia. }
  assert (BD : forall g, In g rows -> 0 <= E (fst g) (snd g) <= Rpower eps (1/2) + Rpower eps (5/8)).
  { intros [t i] Hg. apply IR in Hg. destruct Hg as [Ht Hi]. cbn [fst snd].
    pose proof HP as HP'. apply validPerm_isPerm in HP'. destruct (isPerm_surj dt p i HP' Hi) as (l & Hl & <-).
    pose proof (tol_c eps HE) as TC. pose proof (tol_pos eps). unfold Rpower in *.
    destruct (HB t l Ht Hl) as [->|(_ & _ & HQ)]; lra. }
  assert (SY : forall g h, In g rows -> In h rows -> M g h = M h g).
  { intros g h _ _. unfold M. pose proof (tri_matAt Or n dt A B wA wB g h IT) as T1.
    pose proof (tri_matAt Or n dt A B wA wB h g IT) as T2. rewrite <- T1, <- T2. apply matAt_sym. }
  assert (MP : forall f x y, blocksOf n dt x -> blocksOf n dt y -> blocksOf n dt (map2 (map2 f) x y) /\
    forall g, In g rows -> vecAt Or (nth (fst g) (map2 (map2 f) x y) []) (snd g) =
      f (vecAt Or (nth (fst g) x []) (snd g)) (vecAt Or (nth (fst g) y []) (snd g))).
  { intros f x y [X1 X2] [Y1 Y2].
    assert (T : forall t, (t < n + 1)%nat -> nth t (map2 (map2 f) x y) [] = map2 f (nth t x []) (nth t y []))
      by (intros t Ht; apply map2_nth; lia).
    split; [split|].
    - rewrite map2_len; lia.
    - intros t Ht. rewrite T by auto. rewrite map2_len; [|rewrite Y2 by auto]; apply X2; auto.
    - intros [t i] Hg. apply IR in Hg. destruct Hg as [Ht Hi]. cbn [fst snd]. rewrite T by auto. apply (map2_at f dt); auto. }
  destruct (refine_refined rows M (fun g => E (fst g) (snd g)) (Rpower eps (1/2) + Rpower eps (5/8)) SY PS BD
    (blocksOf n dt) (fun x g => vecAt Or (nth (fst g) x []) (snd g))
    (fun x => multiplyRepeatingBlockTridiagonal Or A B x (repeat (repeat (o0 Or) dt) (n + 1)))
    (tridiagonalSolveInPlace Or k d) (map2 (map2 (osub Or))) (map2 (map2 (oadd Or))))
    with (rhs := rhs) (xs := fun g => vecAt Or (nth (fst g) xs []) (snd g)) (k := j) (x0 := x0)
    as (x & R1 & R2 & R3); auto.
  - intros x [X1 X2]. pose proof IT as IT'. destruct IT' as [T1 T2 T3 T4].
    destruct (tri_multiply_ok Or FLr n dt A B wA wB x (repeat (repeat (o0 Or) dt) (n + 1)))
      as (y & EM & Y1 & Y2 & HY); auto.
    { apply repeat_length. }
    { intros t Ht. rewrite nth_repeat' by auto. apply repeat_length. }
    exists y. split; auto. split; [split; auto|]. intros [t i] Hg. apply IR in Hg. destruct Hg as [Ht Hi]. cbn [fst snd].
    rewrite HY by auto. rewrite nth_repeat' by auto. rewrite (vecAt_repeat0 Or). unfold ax, rows. rewrite (sum_prod Or FLr).
    change (o0 Or) with 0. change (oadd Or) with Rplus. rewrite Rplus_0_l. unfold triMatVec.
    apply sumn_ext. intros u Hu. apply sumn_ext. intros l Hl. unfold M. cbn [fst snd].
    fold (triProductAt Or A B wA wB).
    rewrite (tri_product_is_matrix Or FLr n dt) by auto. reflexivity.
  - intros r Nr. destruct (HS r Nr) as (y & ES & NY & HY & _). exists y. split; auto. split; auto.
    intros [t i] Hg. pose proof Hg as Hg'. apply IR in Hg'. destruct Hg' as [Ht Hi]. cbn [fst snd]. rewrite <- HY by auto. unfold triMatVec.
    pose proof (sum_prod Or FLr (n + 1) dt (fun h => omul Or (plusDiagT Or (triMatAt Or A B wA wB) E t i (fst h) (snd h))
      (vecAt Or (nth (fst h) y []) (snd h)))) as SP. cbn [fst snd] in SP. rewrite <- SP.
    symmetry.
    apply (ax_diag rows M (fun g h => plusDiagT Or (triMatAt Or A B wA wB) E (fst g) (snd g) (fst h) (snd h))
             (fun g => E (fst g) (snd g)) (fun h => vecAt Or (nth (fst h) y []) (snd h)) (t, i)); auto.
    + apply NoDup_prod; apply seq_NoDup.
    + intros [u l] _ N. cbn [fst snd]. unfold plusDiagT, M. cbn [fst snd].
      destruct (Nat.eqb_spec t u), (Nat.eqb_spec i l); subst; try congruence; reflexivity.
    + cbn [fst snd]. unfold plusDiagT, M. cbn [fst snd]. rewrite !Nat.eqb_refl. reflexivity.
  - intros [t i] Hg. apply IR in Hg. destruct Hg as [Ht Hi]. cbn [fst snd]. rewrite <- HX by auto. unfold ax, rows.
    rewrite (sum_prod Or FLr). reflexivity.
  - exists x. auto.
Qed.
