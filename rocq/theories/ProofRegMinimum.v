(** What the solution minimizes when the regularization is used. *)
From Coq Require Import Reals Lra Lia List Arith Bool.
From Verif Require Import Base ModelPerm ModelSparsity ModelSymbolic ModelNumeric ModelArrow ModelReg.
From Verif Require Import SpecSymbolic SpecArrow SpecNumeric SpecArrowNum SpecReg SpecPivot SpecPivotBound SpecMinimize.
From Verif Require Import ProofBase ProofPerm ProofExact ProofLdl ProofMultiply ProofRound ProofDomReal ProofArrowSym ProofArrowDense
  ProofArrowProduct ProofArrowSolve ProofArrowMain ProofPropDominant ProofSingleMain ProofPropSingle
  ProofPropArrow ProofSingle ProofPivot ProofPivotMain ProofPropPivot ProofRegReal ProofLinear ProofRefine ProofPivotBound
  ProofMinimize.
Import ListNotations.
Local Open Scope R_scope.
Local Notation rsum := (suml Or).

Section Any.
  Context {I : Type} (all : list I) (A : I -> I -> R) (E : I -> R) (c : R).
  Hypothesis SY : forall g h, In g all -> In h all -> A g h = A h g.
  Hypothesis PS : posSemiDef all A.
  Hypothesis BD : forall g, In g all -> 0 <= E g <= c.
  Local Notation phi b y := (objective all A b y + weighted all E y / 2).

  Lemma weighted_pos y : 0 <= weighted all E y.
  Proof.
    apply rsum_pos. intros g Hg. apply Rmult_le_pos; [apply BD; auto|]. apply Rle_0_sqr.
  Qed.
  Lemma weighted_le y : weighted all E y <= c * squares all y.
  Proof.
    unfold weighted, squares. rewrite <- rsum_scal. apply rsum_le. intros g Hg.
    apply Rmult_le_compat_r; [apply Rle_0_sqr|apply BD; auto].
  Qed.

  Lemma reg_diff b x y : (forall g, In g all -> ax all A x g + E g * x g = b g) ->
    phi b y - phi b x = quadForm Or all A (fun g => y g - x g) / 2 + weighted all E (fun g => y g - x g) / 2.
  Proof.
    intros H.
    rewrite <- (objective_diff all A SY (fun g => b g - E g * x g) x y) by (intros g Hg; rewrite <- (H g Hg); lra).
    assert (O : forall z, objective all A (fun g => b g - E g * x g) z = objective all A b z + rsum all (fun g => E g * x g * z g)).
    { intros z. unfold objective.
      assert (S : rsum all (fun g => b g * z g) = rsum all (fun g => (b g - E g * x g) * z g) + rsum all (fun g => E g * x g * z g)).
      { rewrite <- rsum_plus. apply rsum_ext. intros; ring. }
      rewrite S. lra. }
    rewrite !O.
    assert (S : weighted all E (fun g => y g - x g) + 2 * rsum all (fun g => E g * x g * y g) =
      weighted all E y + weighted all E x).
    { unfold weighted. rewrite <- rsum_scal, <- !rsum_plus. apply rsum_ext. intros; ring. }
    assert (T : rsum all (fun g => E g * x g * x g) = weighted all E x) by (apply rsum_ext; intros; ring).
    rewrite T. lra.
  Qed.

  Lemma reg_minimum b x : (forall g, In g all -> ax all A x g + E g * x g = b g) ->
    isMinimum (fun y => phi b y) x /\ forall y, objective all A b x <= objective all A b y + c / 2 * squares all y.
  Proof.
    intros H.
    assert (M : isMinimum (fun y => phi b y) x).
    { intros y. pose proof (reg_diff b x y H). pose proof (PS (fun g => y g - x g)). pose proof (weighted_pos (fun g => y g - x g)). lra. }
    split; auto. intros y. specialize (M y). cbn beta in M. pose proof (weighted_pos x). pose proof (weighted_le y). lra.
  Qed.

  (** a vector with the form zero is in the kernel *)
  Lemma semi_kernel d g : quadForm Or all A d = 0 -> In g all -> ax all A d g = 0.
  Proof.
    intros Q Hg. set (v := ax all A d). set (t := dotp all v v).
    assert (T0 : 0 <= t) by (apply rsum_pos; intros; apply Rle_0_sqr).
    assert (H : forall k, 0 <= 2 * (k * t) + quadForm Or all A v).
    { intros k. pose proof (PS (fun h => k * d h + v h)) as P. rewrite (q_plus all A SY) in P.
      assert (AX : forall h, In h all -> ax all A (fun i => k * d i) h = k * v h).
      { intros h _. unfold v, ax. rewrite <- rsum_scal. apply rsum_ext. intros; ring. }
      rewrite (dot_ext all v v (ax all A (fun i => k * d i)) (fun h => k * v h)) in P by auto.
      assert (D : dotp all v (fun h => k * v h) = k * t).
      { unfold t, dotp. rewrite <- rsum_scal. apply rsum_ext. intros; ring. }
      assert (QK : quadForm Or all A (fun i => k * d i) = k * k * quadForm Or all A d).
      { rewrite !(q_dot all A). rewrite (dot_ext all _ (fun i => k * d i) (ax all A (fun i => k * d i)) (fun h => k * v h)) by auto.
        unfold dotp. rewrite <- rsum_scal. apply rsum_ext. intros; unfold v; ring. }
      rewrite D, QK, Q in P. lra. }
    assert (Z : t = 0).
    { destruct (Rle_lt_or_eq_dec 0 t T0) as [L|E0]; auto. specialize (H (- (quadForm Or all A v + 1) / (2 * t))).
      replace (2 * (- (quadForm Or all A v + 1) / (2 * t) * t)) with (- (quadForm Or all A v + 1)) in H by (field; lra). lra. }
    pose proof (rsum_term all (fun h => v h * v h) g (fun h _ => Rle_0_sqr (v h)) Hg) as K.
    change (rsum all (fun h => v h * v h)) with t in K. rewrite Z in K.
    pose proof (Rle_0_sqr (v g)) as K0. unfold Rsqr in K0. fold v. apply Rsqr_0_uniq. unfold Rsqr. lra.
  Qed.

  (** every minimum solves the system *)
  Lemma reg_only b x y : (forall g, In g all -> ax all A x g + E g * x g = b g) ->
    isMinimum (fun y => phi b y) y -> forall g, In g all -> ax all A y g + E g * y g = b g.
  Proof.
    intros H M g Hg. specialize (M x). cbn beta in M. pose proof (reg_diff b x y H) as D.
    set (d := fun h => y h - x h) in *. pose proof (PS d) as P1. pose proof (weighted_pos d) as P2.
    assert (Q : quadForm Or all A d = 0) by lra. assert (W : weighted all E d = 0) by lra.
    pose proof (rsum_term all (fun h => E h * (d h * d h)) g) as K. change (rsum all _) with (weighted all E d) in K.
    assert (EP : forall h, In h all -> 0 <= E h * (d h * d h)).
    { intros h Hh. apply Rmult_le_pos; [apply BD; auto|apply Rle_0_sqr]. }
    specialize (K EP Hg). rewrite W in K. specialize (EP g Hg). cbn beta in *.
    assert (Z : E g * d g = 0).
    { assert (Z2 : E g * (d g * d g) = 0) by lra. apply Rmult_integral in Z2. destruct Z2 as [->|Z2]; [ring|].
      apply Rmult_integral in Z2. destruct Z2 as [->| ->]; ring. }
    rewrite <- (H g Hg). rewrite (ax_ext all A y (fun h => x h + d h)) by (intros; unfold d; lra).
    rewrite ax_plus, (semi_kernel d g Q Hg). unfold d in Z. lra.
  Qed.
End Any.

(** functions as vectors *)
Lemma list_at {B : Type} (f : nat -> B) n i d : (i < n)%nat -> nth i (map f (seq 0 n)) d = f i.
Proof.
  intros H. rewrite (nth_indep _ d (f 0%nat)) by (rewrite map_length, seq_length; auto).
  rewrite map_nth, seq_nth; auto.
Qed.
(** the vector of ctldl/vector/vector_tridiagonal_arrowhead_linked.hpp:5-11 with the values of a function, for the proofs only *)
Definition funVec n ds dt dl dO (y : gidx -> R) : arrow_vec (F:=R) :=
  mkAV (map (fun i => y (GS i)) (seq 0 ds)) (map (fun t => map (fun i => y (GT t i)) (seq 0 dt)) (seq 0 (n + 1)))
    (map (fun i => y (GL i)) (seq 0 dl)) (map (fun i => y (GO i)) (seq 0 dO)).
Lemma fun_vec n ds dt dl dO y : vecOf n ds dt dl dO (funVec n ds dt dl dO y) /\
  forall g, In g (allIdx n ds dt dl dO) -> gvecAt Or (funVec n ds dt dl dO y) g = y g.
Proof.
  assert (T : forall t, (t < n + 1)%nat -> nth t (v_tri (funVec n ds dt dl dO y)) [] = map (fun i => y (GT t i)) (seq 0 dt))
    by (intros t Ht; cbn [funVec v_tri]; exact (list_at (fun t => map (fun i => y (GT t i)) (seq 0 dt)) (n + 1) t _ Ht)).
  split.
  - constructor; cbn [funVec v_start v_link v_outer]; try (cbn [funVec v_tri]; rewrite map_length, seq_length; reflexivity).
    intros t Ht. rewrite T by auto. rewrite map_length, seq_length. reflexivity.
  - intros g Hg. apply in_allIdx in Hg. destruct g as [i|t i|i|i]; cbn [gvecAt]; unfold vecAt.
    + exact (list_at (fun i => y (GS i)) ds i _ Hg).
    + rewrite T by lia. apply (list_at (fun i => y (GT t i)) dt i). lia.
    + exact (list_at (fun i => y (GL i)) dl i _ Hg).
    + exact (list_at (fun i => y (GO i)) dO i _ Hg).
Qed.

(** ** single matrix *)
Theorem single_reg_minimum eps mt s n p a vals m :
  0 < eps < 1 ->
  spOf s n n -> validPerm n p ->
  spOf a n n -> inputOf Or m a vals -> coveredSym (entries a) (entries s) n p ->
  let all := seq 0 n in let A := symAt Or (entries a) vals in
  let c := Rpower eps (1/2) in let tol := Rpower eps (5/8) in
  posSemiDef all A ->
  exists b, factorizationBlk s p = Ok b /\
    forall L0 D0, length L0 = c_nnz (b_sp b) -> length D0 = n ->
    exists L D E, factorize Or mt b (Some m) (regularizationSmallPositiveConstant (realFns eps)) (L0, D0) = Ok (L, D) /\
      (forall i, In i all -> E i = 0 \/ c - tol < E i < c + tol) /\
      forall rhs, length rhs = n ->
      exists x, solveInPlace Or b (L, D) rhs = Ok x /\ length x = n /\
        onlyPoint all (isMinimum (fun y => objective all A (vecAt Or rhs) y + weighted all E y / 2)) (vecAt Or x) /\
        forall y, objective all A (vecAt Or rhs) (vecAt Or x) <= objective all A (vecAt Or rhs) y + (c + tol) / 2 * squares all y.
Proof.
  intros HE SP VP SA IO CV all A c tol PS.
  destruct (single_small eps HE mt s n p a vals m SP VP SA IO CV) as (b & EB & HF). exists b. split; auto. intros L0 D0 N1 N2.
  destruct (HF L0 D0 N1 N2) as (L & D & E & EF & _ & HB & H0 & _ & _ & HS).
  exists L, D, E. split; auto.
  assert (EE : forall i, In i all -> E i = 0 \/ c - tol < E i < c + tol).
  { intros i Hi. apply in_seq in Hi.
    pose proof VP as VP'. apply validPerm_isPerm in VP'. destruct (isPerm_surj n p i VP') as (j & Hj & <-); [lia|].
    destruct (HB j Hj) as [H|(_ & _ & H)]; auto. }
  split; auto.
  assert (BD : forall i, In i all -> 0 <= E i <= c + tol).
  { intros i Hi. pose proof (tol_c eps HE) as TC. pose proof (tol_pos eps) as TP. fold c tol in TC, TP.
    destruct (EE i Hi) as [H|H]; lra. }
  intros rhs NR. destruct (HS rhs NR) as (x & ES & NX & HX & UX). exists x. split; auto. split; auto.
  assert (MV : forall z i, In i all -> matVec Or n (plusDiag Or A E) z i = ax all A (vecAt Or z) i + E i * vecAt Or z i).
  { intros z i Hi. unfold matVec. rewrite <- (suml_seq Or FLr). apply ax_diag; auto; [apply seq_NoDup| |].
    - intros j _ N. unfold plusDiag. destruct (Nat.eqb_spec i j); [congruence|reflexivity].
    - unfold plusDiag. rewrite Nat.eqb_refl. reflexivity. }
  assert (SX : forall i, In i all -> ax all A (vecAt Or x) i + E i * vecAt Or x i = vecAt Or rhs i).
  { intros i Hi. rewrite <- MV by auto. apply in_seq in Hi. apply HX. lia. }
  destruct (reg_minimum all A E (c + tol) (symAt_swap n a vals) PS BD (vecAt Or rhs) (vecAt Or x) SX) as [M1 M2].
  split; [split; auto|auto]. intros y My i Hi.
  pose proof (reg_only all A E (c + tol) (symAt_swap n a vals) PS BD (vecAt Or rhs) (vecAt Or x) y SX My) as SYy.
  assert (VY : forall j, In j all -> vecAt Or (map y all) j = y j).
  { intros j Hj. unfold vecAt, all. apply in_seq in Hj. apply list_at. lia. }
  rewrite <- (VY i Hi). f_equal. apply UX.
  - unfold all. rewrite map_length, seq_length. reflexivity.
  - intros j Hj. assert (Hj' : In j all) by (apply in_seq; lia). rewrite MV by auto.
    rewrite (ax_ext all A (vecAt Or (map y all)) y) by auto. rewrite VY by auto. apply SYy; auto.
Qed.

(** ** arrowhead *)
Theorem arrow_reg_minimum eps mt s ds dt dl dO n m w :
  0 < eps < 1 ->
  arrowDims s ds dt dl dO -> inputArrow Or n ds dt dl dO m w -> declaredArrow s n m ->
  let all := allIdx n ds dt dl dO in let A := matAt Or m w in
  let c := Rpower eps (1/2) in let tol := Rpower eps (5/8) in
  posSemiDef all A ->
  exists k, arrowBlocks s = Ok k /\
    forall d0, dataOf k n ds dt dl dO d0 ->
    exists d E, arrowFactorize Or mt k m (regularizationSmallPositiveConstant (realFns eps)) d0 = Ok d /\
      (forall g, In g all -> E g = 0 \/ c - tol < E g < c + tol) /\
      forall rhs, vecOf n ds dt dl dO rhs ->
      exists x, arrowSolveInPlace Or k d rhs = Ok x /\ vecOf n ds dt dl dO x /\
        onlyPoint all (isMinimum (fun y => objective all A (gvecAt Or rhs) y + weighted all E y / 2)) (gvecAt Or x) /\
        forall y, objective all A (gvecAt Or rhs) (gvecAt Or x) <= objective all A (gvecAt Or rhs) y + (c + tol) / 2 * squares all y.
Proof.
  intros HE HD IA DA all A c tol PS.
  destruct (arrow_small eps HE mt s ds dt dl dO n m w HD IA DA) as (k & EK & HF). exists k. split; auto. intros d0 DO.
  destruct (HF d0 DO) as (d & E & EF & _ & _ & HB & H0 & _ & _ & HS). fold all in HB, H0, HS.
  exists d, E. split; auto.
  assert (EE : forall g, In g all -> E g = 0 \/ c - tol < E g < c + tol).
  { intros g Hg. destruct (permIdx_inv s n ds dt dl dO HD) as (q & Hq). destruct (Hq g Hg) as (_ & Q1 & Q2).
    specialize (HB (q g) Q1). rewrite Q2 in HB. destruct HB as [H|(_ & _ & H)]; auto. }
  split; auto.
  assert (BD : forall g, In g all -> 0 <= E g <= c + tol).
  { intros g Hg. pose proof (tol_c eps HE) as TC. pose proof (tol_pos eps) as TP. fold c tol in TC, TP.
    destruct (EE g Hg) as [H|H]; lra. }
  intros rhs NR. destruct (HS rhs NR) as (x & ES & NX & HX & UX). exists x. split; auto. split; auto.
  assert (SYM : forall g h, In g all -> In h all -> A g h = A h g) by (intros g h _ _; apply matAt_sym).
  assert (MV : forall z g, In g all -> gmatVec Or all (plusDiagG Or A E) (gvecAt Or z) g = ax all A (gvecAt Or z) g + E g * gvecAt Or z g).
  { intros z g Hg. unfold gmatVec. apply ax_diag; auto; [apply NoDup_allIdx| |].
    - intros h _ N. unfold plusDiagG. destruct (gidx_eq_dec g h); [congruence|reflexivity].
    - unfold plusDiagG. destruct (gidx_eq_dec g g); [reflexivity|congruence]. }
  assert (SX : forall g, In g all -> ax all A (gvecAt Or x) g + E g * gvecAt Or x g = gvecAt Or rhs g).
  { intros g Hg. rewrite <- MV by auto. apply HX. auto. }
  destruct (reg_minimum all A E (c + tol) SYM PS BD (gvecAt Or rhs) (gvecAt Or x) SX) as [M1 M2].
  split; [split; auto|auto]. intros y My g Hg.
  pose proof (reg_only all A E (c + tol) SYM PS BD (gvecAt Or rhs) (gvecAt Or x) y SX My) as SYy.
  destruct (fun_vec n ds dt dl dO y) as [NV VY]. fold all in VY.
  rewrite <- (VY g Hg). f_equal. apply UX; auto.
  intros h Hh. rewrite MV by auto. rewrite (ax_ext all A (gvecAt Or (funVec n ds dt dl dO y)) y) by auto.
  rewrite VY by auto. apply SYy; auto.
Qed.

(** ** block tridiagonal *)
Theorem tri_reg_minimum eps mt a b p dt n A B wA wB :
  0 < eps < 1 ->
  spOf a dt dt -> spOf b dt dt -> validPerm dt p ->
  inputTri Or n dt A B wA wB -> declaredTri a b n A B ->
  let rows := list_prod (seq 0 (n + 1)) (seq 0 dt) in
  let M := fun g h => triMatAt Or A B wA wB (fst g) (snd g) (fst h) (snd h) in
  let c := Rpower eps (1/2) in let tol := Rpower eps (5/8) in
  let vec := fun (x : list (list R)) (r : nat * nat) => vecAt Or (nth (fst r) x []) (snd r) in
  posSemiDef rows M ->
  exists k, tridiagonalBlocks a b p = Ok k /\
    forall d0, dataOf k n 0 dt 0 0 d0 ->
    exists d E, tridiagonalFactorize Or mt k dt A B (regularizationSmallPositiveConstant (realFns eps)) d0 = Ok d /\
      (forall r, In r rows -> E r = 0 \/ c - tol < E r < c + tol) /\
      forall rhs, blocksOf n dt rhs ->
      exists x, tridiagonalSolveInPlace Or k d rhs = Ok x /\ blocksOf n dt x /\
        onlyPoint rows (isMinimum (fun y => objective rows M (vec rhs) y + weighted rows E y / 2)) (vec x) /\
        forall y, objective rows M (vec rhs) (vec x) <= objective rows M (vec rhs) y + (c + tol) / 2 * squares rows y.
Proof.
  intros HE SA SB HP IT DT rows M c tol vec PS.
  destruct (tri_small eps HE mt a b p dt n A B wA wB SA SB HP IT DT) as (k & EK & HF). exists k. split; auto. intros d0 DO.
  destruct (HF d0 DO) as (d & E & EF & _ & _ & HB & _ & HS).
  exists d, (fun r => E (fst r) (snd r)). split; auto.
  assert (IR : forall t i, In (t, i) rows <-> (t < n + 1 /\ i < dt)%nat).
  { intros t i. unfold rows. rewrite in_prod_iff, !in_seq. lia. }
  assert (EE : forall r, In r rows -> E (fst r) (snd r) = 0 \/ c - tol < E (fst r) (snd r) < c + tol).
  { intros [t i] Hg. apply IR in Hg. destruct Hg as [Ht Hi]. cbn [fst snd].
    pose proof HP as HP'. apply validPerm_isPerm in HP'. destruct (isPerm_surj dt p i HP' Hi) as (l & Hl & <-).
    destruct (HB t l Ht Hl) as [H|(_ & _ & H)]; auto. }
  split; auto.
  assert (BD : forall r, In r rows -> 0 <= E (fst r) (snd r) <= c + tol).
  { intros r Hg. pose proof (tol_c eps HE) as TC. pose proof (tol_pos eps) as TP. fold c tol in TC, TP.
    destruct (EE r Hg) as [H|H]; lra. }
  assert (SY : forall g h, In g rows -> In h rows -> M g h = M h g).
  { intros g h _ _. unfold M. pose proof (tri_matAt Or n dt A B wA wB g h IT) as T1.
    pose proof (tri_matAt Or n dt A B wA wB h g IT) as T2. rewrite <- T1, <- T2. apply matAt_sym. }
  intros rhs NR. destruct (HS rhs NR) as (x & ES & NX & HX & UX). exists x. split; auto. split; auto.
  set (F := fun r : nat * nat => E (fst r) (snd r)) in *.
  assert (MV : forall z t i, (t < n + 1)%nat -> (i < dt)%nat ->
    triMatVec Or n dt (plusDiagT Or (triMatAt Or A B wA wB) E) z t i = ax rows M (vec z) (t, i) + F (t, i) * vec z (t, i)).
  { intros z t i Ht Hi. assert (Hg : In (t, i) rows) by (apply IR; auto). unfold triMatVec.
    pose proof (sum_prod Or FLr (n + 1) dt (fun h => omul Or (plusDiagT Or (triMatAt Or A B wA wB) E t i (fst h) (snd h))
      (vecAt Or (nth (fst h) z []) (snd h)))) as SP. cbn [fst snd] in SP. rewrite <- SP.
    apply (ax_diag rows M (fun g h => plusDiagT Or (triMatAt Or A B wA wB) E (fst g) (snd g) (fst h) (snd h)) F (vec z) (t, i)); auto.
    - apply NoDup_prod; apply seq_NoDup.
    - intros [u l] _ N. cbn [fst snd]. unfold plusDiagT, M. cbn [fst snd].
      destruct (Nat.eqb_spec t u), (Nat.eqb_spec i l); subst; try congruence; reflexivity.
    - unfold F. cbn [fst snd]. unfold plusDiagT, M. cbn [fst snd]. rewrite !Nat.eqb_refl. reflexivity. }
  assert (SX : forall r, In r rows -> ax rows M (vec x) r + F r * vec x r = vec rhs r).
  { intros [t i] Hg. apply IR in Hg. destruct Hg as [Ht Hi]. rewrite <- MV by auto. apply HX; auto. }
  destruct (reg_minimum rows M F (c + tol) SY PS BD (vec rhs) (vec x) SX) as [M1 M2].
  split; [split; auto|auto]. intros y My r Hr.
  pose proof (reg_only rows M F (c + tol) SY PS BD (vec rhs) (vec x) y SX My) as SYy.
  set (z := map (fun t => map (fun i => y (t, i)) (seq 0 dt)) (seq 0 (n + 1))).
  assert (ZT : forall t, (t < n + 1)%nat -> nth t z [] = map (fun i => y (t, i)) (seq 0 dt)) by (intros t Ht; exact (list_at (fun t => map (fun i => y (t, i)) (seq 0 dt)) (n + 1) t _ Ht)).
  assert (VY : forall r, In r rows -> vec z r = y r).
  { intros [t i] Hg. apply IR in Hg. destruct Hg as [Ht Hi]. unfold vec. cbn [fst snd]. rewrite ZT by auto.
    exact (list_at (fun i => y (t, i)) dt i _ Hi). }
  rewrite <- (VY r Hr). f_equal. apply UX.
  - split; [unfold z; rewrite map_length, seq_length; reflexivity|]. intros t Ht. rewrite ZT by auto.
    rewrite map_length, seq_length. reflexivity.
  - intros t i Ht Hi. assert (Hg : In (t, i) rows) by (apply IR; auto). rewrite MV by auto.
    rewrite (ax_ext rows M (vec z) y) by auto. rewrite VY by auto. apply (SYy (t, i)); auto.
Qed.
