(** Bounds for the pivots and the solutions of matrices with a margin. *)
From Coq Require Import Reals Lra Lia List Arith Bool Permutation.
From Verif Require Import Base ModelPerm ModelSparsity ModelSymbolic ModelNumeric ModelArrow ModelReg.
From Verif Require Import SpecSymbolic SpecArrow SpecNumeric SpecArrowNum SpecReg SpecPivot SpecPivotBound.
From Verif Require Import ProofBase ProofPerm ProofExact ProofLdl ProofMultiply ProofRound ProofDomReal ProofArrowSym ProofArrowDense
  ProofArrowProduct ProofArrowSolve ProofArrowMain ProofPropDominant ProofSingleMain ProofPropSingle
  ProofPropArrow ProofSingle ProofPivot ProofPivotMain ProofPropPivot ProofRegReal ProofLinear ProofRefine.
Import ListNotations.
Local Open Scope R_scope.
Local Notation rsum := (suml Or).

Lemma real_dec (a : R) : {0 < a} + {a = 0} + {0 < - a}.
Proof. destruct (total_order_T 0 a) as [[H|H]|H]; [left; left|left; right|right]; lra. Qed.
Definition OLr : ordLaws FLr :=
  mkOrdLaws R Or FLr (fun a => 0 < a) Rplus_lt_0_compat Rmult_lt_0_compat (Rlt_irrefl 0) real_dec.

Lemma rsum_term {I : Type} (l : list I) f g : (forall h, In h l -> 0 <= f h) -> In g l -> f g <= rsum l f.
Proof.
  induction l as [|a l IH]; intros H Hg; [destruct Hg|]. rewrite rsum_cons.
  assert (0 <= f a) by (apply H; left; auto). assert (0 <= rsum l f) by (apply rsum_pos; intros; apply H; right; auto).
  destruct Hg as [<-|Hg]; [lra|]. assert (f g <= rsum l f); [|lra]. apply IH; auto. intros; apply H; right; auto.
Qed.

Section Any.
  Context {I : Type} (all : list I) (A : I -> I -> R) (P : I -> bool) (lam : R).
  Hypothesis SY : forall g h, In g all -> In h all -> A g h = A h g.
  Local Notation q := (quadForm Or all A).
  Local Notation ax := (ax all A).
  Local Notation dotp := (dotp all).

  Lemma dot_minus y z z' : dotp y (fun g => z g - z' g) = dotp y z - dotp y z'.
  Proof. unfold dotp. rewrite <- rsum_minus. apply rsum_ext. intros; ring. Qed.

  Lemma squares_pos (z : I -> R) : 0 <= squares all z.
  Proof. apply rsum_pos. intros g Hg. apply Rle_0_sqr. Qed.

  (** the entries between the two parts cancel *)
  Lemma signed_form x : quasiDefBy all P A lam ->
    lam * squares all x <= dotp (fun g => if P g then x g else - x g) (ax x).
  Proof.
    intros QD. set (xp := fun g => if P g then x g else 0). set (xm := fun g => if P g then 0 else x g).
    assert (E : dotp (fun g => if P g then x g else - x g) (ax x) = q xp - q xm).
    { rewrite !q_dot.
      rewrite (dot_ext all _ (fun g => xp g - xm g) (ax x) (fun g => ax xp g + ax xm g)).
      - rewrite dot_sym, dot_minus, (dot_sym _ _ xp), (dot_sym _ _ xm), !dot_plus. rewrite (ax_sym all A SY xm xp). ring.
      - intros g _. unfold xp, xm. destruct (P g); ring.
      - intros g _. rewrite <- ax_plus. apply ax_ext. intros h _. unfold xp, xm. destruct (P h); ring. }
    rewrite E. destruct (QD xp) as [H1 _]. destruct (QD xm) as [_ H2].
    assert (S : squares all x = squares all xp + squares all xm).
    { unfold squares. rewrite <- rsum_plus. apply rsum_ext. intros g _. unfold xp, xm. destruct (P g); ring. }
    rewrite S. assert (lam * squares all xp <= q xp).
    { apply H1. intros g _ Hg. unfold xp. rewrite Hg. reflexivity. }
    assert (q xm <= - (lam * squares all xm)).
    { apply H2. intros g _ Hg. unfold xm. rewrite Hg. reflexivity. }
    lra.
  Qed.

  Lemma solution_bound x b : 0 < lam -> quasiDefBy all P A lam -> (forall g, In g all -> ax x g = b g) ->
    lam * lam * squares all x <= squares all b.
  Proof.
    intros L0 QD H. pose proof (signed_form x QD) as S.
    rewrite (dot_ext all _ (fun g => if P g then x g else - x g) _ b) in S by auto.
    assert (T : 2 * lam * dotp (fun g => if P g then x g else - x g) b <= lam * lam * squares all x + squares all b).
    { unfold dotp, squares. rewrite <- !rsum_scal, <- rsum_plus. apply rsum_le. intros g _.
      destruct (P g).
      - pose proof (Rle_0_sqr (lam * x g - b g)) as K. unfold Rsqr in K. lra.
      - pose proof (Rle_0_sqr (lam * x g + b g)) as K. unfold Rsqr in K. lra. }
    assert (lam * (lam * squares all x) <= lam * dotp (fun g => if P g then x g else - x g) b)
      by (apply Rmult_le_compat_l; lra).
    lra.
  Qed.

  Context (rank : I -> nat) (eqd : forall a b : I, {a = b} + {a <> b}) (ND : NoDup all).

  Lemma square_term (x : I -> R) g : In g all -> x g * x g <= squares all x.
  Proof. intros Hg. apply (rsum_term all (fun g => x g * x g)); auto. intros h _. apply Rle_0_sqr. Qed.

  Lemma quasi_chi g t : 0 < lam -> In g all -> quasiDefBy all P A lam ->
    chi Or FLr all rank eqd A g t -> awayFromZero (P g) lam t.
  Proof.
    intros L0 Hg QD (x & X1 & X2 & X3). change (fl_one FLr) with 1 in X1. change (o0 Or) with 0 in *.
    pose proof (signed_form x QD) as S.
    assert (E : dotp (fun g => if P g then x g else - x g) (ax x) = (if P g then x g else - x g) * t).
    { apply (chi_form Or FLr all rank eqd ND A g t x (fun g => if P g then x g else - x g) Hg); auto.
      intros h Hh Hr. rewrite X2 by auto. change (o0 Or) with 0. destruct (P h); ring. }
    rewrite E, X1 in S. pose proof (square_term x g Hg) as T. rewrite X1 in T.
    assert (lam * 1 <= lam * squares all x) by (apply Rmult_le_compat_l; lra).
    unfold awayFromZero. destruct (P g); lra.
  Qed.

  (** the pivot is at most the diagonal entry *)
  Lemma pos_chi g t : In g all -> posSemiDef all A -> chi Or FLr all rank eqd A g t -> t <= A g g.
  Proof.
    intros Hg PS (x & X1 & X2 & X3). change (fl_one FLr) with 1 in X1.
    set (e := fun h : I => if eqd h g then 1 else 0). set (y := fun h => e h - x h).
    assert (EF : forall z, (forall h, In h all -> (rank g < rank h)%nat -> z h = 0) -> dotp z (ax x) = z g * t).
    { intros z Hz. exact (chi_form Or FLr all rank eqd ND A g t x z Hg Hz X3). }
    assert (AE : forall h, ax e h = A h g).
    { intros h. unfold ProofRefine.ax. rewrite (suml_single Or FLr all (fun k => A h k * e k) g); auto.
      - unfold e. destruct (eqd g g); [ring|congruence].
      - intros k _ N. unfold e. cbn. destruct (eqd k g); [congruence|ring]. }
    assert (EE : dotp e (ax e) = A g g).
    { unfold dotp. rewrite (suml_single Or FLr all (fun k => e k * ax e k) g); auto.
      - rewrite AE. unfold e. destruct (eqd g g); [ring|congruence].
      - intros k _ N. unfold e at 1. cbn. destruct (eqd k g); [congruence|ring]. }
    assert (EX : dotp e (ax x) = t).
    { rewrite EF; [unfold e; destruct (eqd g g); [ring|congruence]|].
      intros h _ Hr. unfold e. destruct (eqd h g); [subst; lia|reflexivity]. }
    assert (XX : dotp x (ax x) = t) by (rewrite EF, X1; [ring|auto]).
    assert (Q : q y = A g g - t).
    { rewrite q_dot. rewrite (dot_ext all y y (ax y) (fun h => ax e h - ax x h)); auto.
      - rewrite dot_minus. rewrite (dot_sym all y (ax e)), (dot_sym all y (ax x)). unfold y. rewrite !dot_minus.
        rewrite !(dot_sym all (ax _)). rewrite (ax_sym all A SY x e), EE, EX, XX. ring.
      - intros h _. unfold ProofRefine.ax. rewrite <- rsum_minus. apply rsum_ext. intros k _. unfold y. ring. }
    pose proof (PS y). lra.
  Qed.
End Any.


Lemma pos_is_quasi {I : Type} (all : list I) (A : I -> I -> R) lam : 0 <= lam -> posDefBy all A lam -> quasiDefBy all (fun _ => true) A lam.
Proof.
  intros L0 H z. split; [intros _; apply H|]. intros Z.
  assert (E : quadForm Or all A z = 0).
  { rewrite q_dot. unfold dotp. apply (suml_0 Or FLr). intros g Hg. rewrite (Z g Hg eq_refl). cbn. ring. }
  assert (S : squares all z = 0).
  { unfold squares. apply (suml_0 Or FLr). intros g Hg. rewrite (Z g Hg eq_refl). cbn. ring. }
  rewrite E, S. lra.
Qed.

Section Reorder.
  Context {I : Type} (all : list I) (f q : I -> I) (PF : Permutation (map f all) all)
    (Q : forall g, In g all -> q (f g) = g).

  Lemma squares_perm (x : I -> R) : squares all x = squares all (fun g => x (q g)).
  Proof.
    unfold squares. symmetry. rewrite <- (suml_perm Or FLr _ _ _ PF), (suml_map Or). apply rsum_ext. intros r Hr.
    rewrite !Q by auto. auto.
  Qed.

  Lemma quasiBy_perm P A lam : quasiDefBy all P A lam ->
    quasiDefBy all (fun g => P (f g)) (fun g h => A (f g) (f h)) lam.
  Proof.
    intros H x. rewrite (quad_perm Or FLr all f q PF Q), squares_perm. destruct (H (fun g => x (q g))) as [H1 H2].
    split; intros HZ.
    - apply H1. exact (zero_perm Or all f q PF Q (fun g => P g = false) x HZ).
    - apply H2. exact (zero_perm Or all f q PF Q (fun g => P g = true) x HZ).
  Qed.

  Lemma semi_perm A : posSemiDef all A -> posSemiDef all (fun g h => A (f g) (f h)).
  Proof. intros H x. rewrite (quad_perm Or FLr all f q PF Q). apply H. Qed.
End Reorder.

Lemma away_nonzero P lam t : 0 < lam -> awayFromZero P lam t -> t <> 0 /\ lam <= Rabs t.
Proof.
  unfold awayFromZero. intros L0 H. destruct P.
  - rewrite Rabs_right by lra. lra.
  - rewrite Rabs_left by lra. lra.
Qed.

(** an entry of the factor of a positive definite matrix, from the diagonal of the product *)
Lemma factor_entry {I : Type} (all : list I) (L : I -> R) (D : I -> R) d j :
  rsum all (fun k => L k * D k * L k) = d -> (forall k, In k all -> 0 < D k) -> In j all -> L j * L j * D j <= d.
Proof.
  intros <- HD Hj. replace (L j * L j * D j) with (L j * D j * L j) by ring.
  apply (rsum_term all (fun k => L k * D k * L k)); auto. intros k Hk.
  replace (L k * D k * L k) with (D k * (L k * L k)) by ring. apply Rmult_le_pos; [apply Rlt_le; auto|apply Rle_0_sqr].
Qed.

(** ** single matrix *)
Lemma single_works_by mt s n p a vals m P lam :
  0 < lam ->
  spOf s n n -> validPerm n p ->
  spOf a n n -> inputOf Or m a vals -> coveredSym (entries a) (entries s) n p ->
  quasiDefBy (seq 0 n) P (symAt Or (entries a) vals) lam ->
  exists b, factorizationBlk s p = Ok b /\
    singleWorks Or FLr n p b m a vals mt (fun i t => awayFromZero (P (nth i p 0%nat)) lam t /\
      (posSemiDef (seq 0 n) (symAt Or (entries a) vals) -> t <= symAt Or (entries a) vals (nth i p 0%nat) (nth i p 0%nat))).
Proof.
  intros L0 HS HP HA HI HC QD. destruct (block_ok s n p HS HP) as (b & EB & G). exists b. split; auto.
  pose proof (validPerm_isPerm n p HP) as PP. destruct (invert_ok n p PP) as (q & _ & _ & Hq & _).
  assert (PF : Permutation (map (fun i => nth i p 0%nat) (seq 0 n)) (seq 0 n)) by (apply seq_perm; auto).
  assert (QF : forall g, In g (seq 0 n) -> nth (nth g p 0%nat) q 0%nat = g) by (intros g Hg; apply in_seq in Hg; apply Hq; lia).
  assert (SY : forall g h, In g (seq 0 n) -> In h (seq 0 n) ->
    symAt Or (entries a) vals (nth g p 0%nat) (nth h p 0%nat) = symAt Or (entries a) vals (nth h p 0%nat) (nth g p 0%nat))
    by (intros g h _ _; apply symAt_perm).
  apply (single_good Or FLr (ord_inf Or FLr OLr) s n p b m a vals HS HP EB HA HI HC). intros i t Hi Hc.
  assert (Hi' : In i (seq 0 n)) by (apply in_seq; lia).
  assert (T : awayFromZero (P (nth i p 0%nat)) lam t).
  { refine (quasi_chi (seq 0 n) _ (fun i => P (nth i p 0%nat)) lam SY (fun i => i) Nat.eq_dec (seq_NoDup n 0) i t L0 Hi' _ Hc).
    apply (quasiBy_perm (seq 0 n) (fun i => nth i p 0%nat) (fun i => nth i q 0%nat)); auto. }
  split; [apply (away_nonzero _ _ _ L0 T)|]. split; auto. intros PS.
  refine (pos_chi (seq 0 n) _ SY (fun i => i) Nat.eq_dec (seq_NoDup n 0) i t Hi' _ Hc).
  apply (semi_perm (seq 0 n) (fun i => nth i p 0%nat) (fun i => nth i q 0%nat)); auto.
Qed.

Lemma symAt_swap n a vals : forall g h, In g (seq 0 n) -> In h (seq 0 n) -> symAt Or (entries a) vals g h = symAt Or (entries a) vals h g.
Proof. intros g h _ _. unfold symAt. rewrite Nat.max_comm, Nat.min_comm. reflexivity. Qed.

Theorem single_margin mt s n p a vals m P lam :
  0 < lam ->
  spOf s n n -> validPerm n p ->
  spOf a n n -> inputOf Or m a vals -> coveredSym (entries a) (entries s) n p ->
  quasiDefBy (seq 0 n) P (symAt Or (entries a) vals) lam ->
  exists b, factorizationBlk s p = Ok b /\
    forall L0 D0, length L0 = c_nnz (b_sp b) -> length D0 = n ->
    exists L D, factorize Or mt b (Some m) regularizationNone (L0, D0) = Ok (L, D) /\
      (forall i, (i < n)%nat -> awayFromZero (P (nth i p 0%nat)) lam (vecAt Or D i)) /\
      (forall eps, Rpower eps (5/8) <= lam ->
         factorize Or mt b (Some m) (regularizationSmallPositiveConstant (realFns eps)) (L0, D0) = Ok (L, D)) /\
      forall rhs, length rhs = n ->
      exists x, solveInPlace Or b (L, D) rhs = Ok x /\ length x = n /\
        (forall i, (i < n)%nat -> matVec Or n (symAt Or (entries a) vals) x i = vecAt Or rhs i) /\
        lam * lam * squares (seq 0 n) (vecAt Or x) <= squares (seq 0 n) (vecAt Or rhs).
Proof.
  intros L0 HS HP HA HI HC QD. destruct (single_works_by mt s n p a vals m P lam L0 HS HP HA HI HC QD) as (b & EB & W).
  exists b. split; auto. intros L1 D1 N1 N2. destruct (W L1 D1 N1 N2) as (L & D & EF & GD & _ & SO).
  exists L, D. split; auto. split; [intros i Hi; apply GD; auto|]. split.
  - intros eps HE. apply (single_small_inactive eps mt s n p b m a vals); auto.
    intros i Hi. destruct (away_nonzero _ _ _ L0 (proj1 (GD i Hi))). lra.
  - intros rhs NR. destruct (SO rhs NR) as (x & ES & NX & HX & _). exists x. split; auto. split; auto. split; auto.
    apply (solution_bound (seq 0 n) (symAt Or (entries a) vals) P lam (symAt_swap n a vals)); auto.
    intros i Hi. apply in_seq in Hi. rewrite <- HX by lia. unfold ax. rewrite (suml_seq Or FLr). reflexivity.
Qed.

Theorem single_no_growth mt s n p a vals m lam :
  0 < lam ->
  spOf s n n -> validPerm n p ->
  spOf a n n -> inputOf Or m a vals -> coveredSym (entries a) (entries s) n p ->
  posDefBy (seq 0 n) (symAt Or (entries a) vals) lam ->
  exists b, factorizationBlk s p = Ok b /\
    forall L0 D0, length L0 = c_nnz (b_sp b) -> length D0 = n ->
    exists L D, factorize Or mt b (Some m) regularizationNone (L0, D0) = Ok (L, D) /\
      forall i, (i < n)%nat ->
        let d := symAt Or (entries a) vals (nth i p 0%nat) (nth i p 0%nat) in
        lam <= vecAt Or D i <= d /\
        forall j, (j < n)%nat -> unitAt Or 1 (c_entries (b_sp b)) L i j * unitAt Or 1 (c_entries (b_sp b)) L i j * vecAt Or D j <= d.
Proof.
  intros L0 HS HP HA HI HC QD.
  assert (PS : posSemiDef (seq 0 n) (symAt Or (entries a) vals)).
  { intros z. specialize (QD z). pose proof (squares_pos (seq 0 n) z).
    assert (0 <= lam * squares (seq 0 n) z) by (apply Rmult_le_pos; lra). lra. }
  destruct (single_works_by mt s n p a vals m (fun _ => true) lam L0 HS HP HA HI HC (pos_is_quasi _ _ _ (Rlt_le _ _ L0) QD)) as (b & EB & W).
  exists b. split; auto. intros L1 D1 N1 N2. destruct (W L1 D1 N1 N2) as (L & D & EF & GD & PR & _).
  exists L, D. split; auto. intros i Hi. cbv zeta. split.
  - split; [apply (GD i Hi)|apply (GD i Hi); auto].
  - intros j Hj. specialize (PR i i Hi Hi). unfold ldltAt in PR. rewrite <- (suml_seq Or FLr) in PR.
    apply (factor_entry (seq 0 n) (fun k => unitAt Or 1 (c_entries (b_sp b)) L i k) (vecAt Or D)); [exact PR| |apply in_seq; lia].
    intros k Hk. apply in_seq in Hk. assert (awayFromZero true lam (vecAt Or D k)) by (apply (GD k); lia). cbn in *. lra.
Qed.

(** ** arrowhead *)
Lemma arrow_works_by mt s ds dt dl dO n m w P lam :
  0 < lam ->
  arrowDims s ds dt dl dO -> inputArrow Or n ds dt dl dO m w -> declaredArrow s n m ->
  quasiDefBy (allIdx n ds dt dl dO) P (matAt Or m w) lam ->
  exists k, arrowBlocks s = Ok k /\
    arrowWorks Or FLr s ds dt dl dO k n m w mt (fun g t => awayFromZero (P (permIdx s g)) lam t /\
      (posSemiDef (allIdx n ds dt dl dO) (matAt Or m w) -> t <= matAt Or m w (permIdx s g) (permIdx s g))).
Proof.
  intros L0 HD IA DA QD.
  destruct (arrowBlocks_ok s ds dt dl dO HD) as (k & PP & Ek & _). exists k. split; auto.
  destruct (permIdx_inv s n ds dt dl dO HD) as (q & Q).
  set (all := allIdx n ds dt dl dO) in *.
  assert (PF : Permutation (map (permIdx s) all) all) by (apply permIdx_Permutation; auto).
  assert (QF : forall g, In g all -> q (permIdx s g) = g) by (intros g Hg; apply Q; auto).
  assert (SY : forall g h, In g all -> In h all -> matAt Or m w (permIdx s g) (permIdx s h) = matAt Or m w (permIdx s h) (permIdx s g))
    by (intros g h _ _; apply Apg_sym).
  apply (arrow_good Or FLr (ord_inf Or FLr OLr) s ds dt dl dO k n m w HD Ek IA DA). intros g t Hg Hc.
  assert (T : awayFromZero (P (permIdx s g)) lam t).
  { refine (quasi_chi all _ (fun g => P (permIdx s g)) lam SY (rank n ds dt dl) gidx_eq_dec (NoDup_allIdx n ds dt dl dO) g t L0 Hg _ Hc).
    apply (quasiBy_perm all (permIdx s) q); auto. }
  split; [apply (away_nonzero _ _ _ L0 T)|]. split; auto. intros PS.
  refine (pos_chi all _ SY (rank n ds dt dl) gidx_eq_dec (NoDup_allIdx n ds dt dl dO) g t Hg _ Hc).
  apply (semi_perm all (permIdx s) q); auto.
Qed.

Theorem arrow_margin mt s ds dt dl dO n m w P lam :
  0 < lam ->
  arrowDims s ds dt dl dO -> inputArrow Or n ds dt dl dO m w -> declaredArrow s n m ->
  let all := allIdx n ds dt dl dO in
  quasiDefBy all P (matAt Or m w) lam ->
  exists k, arrowBlocks s = Ok k /\
    forall d0, dataOf k n ds dt dl dO d0 ->
    exists d, arrowFactorize Or mt k m regularizationNone d0 = Ok d /\
      (forall g, In g all -> awayFromZero (P (permIdx s g)) lam (pivotAt Or d g)) /\
      (forall eps, Rpower eps (5/8) <= lam ->
         arrowFactorize Or mt k m (regularizationSmallPositiveConstant (realFns eps)) d0 = Ok d) /\
      forall rhs, vecOf n ds dt dl dO rhs ->
      exists x, arrowSolveInPlace Or k d rhs = Ok x /\ vecOf n ds dt dl dO x /\
        (forall g, In g all -> gmatVec Or all (matAt Or m w) (gvecAt Or x) g = gvecAt Or rhs g) /\
        lam * lam * squares all (gvecAt Or x) <= squares all (gvecAt Or rhs).
Proof.
  intros L0 HD IA DA all QD. destruct (arrow_works_by mt s ds dt dl dO n m w P lam L0 HD IA DA QD) as (k & Ek & W).
  exists k. split; auto. intros d0 D0. destruct (W d0 D0) as (d & EF & D1 & GD & _ & SO).
  exists d. split; auto. split; [intros g Hg; apply GD; auto|]. split.
  - intros eps HE. apply (arrow_small_inactive eps mt s ds dt dl dO k n m w); auto.
    intros g Hg. destruct (away_nonzero _ _ _ L0 (proj1 (GD g Hg))). lra.
  - intros rhs VR. destruct (SO rhs VR) as (x & ES & VX & HX & _). exists x. split; auto. split; auto. split; auto.
    apply (solution_bound all (matAt Or m w) P lam (fun g h _ _ => matAt_sym Or m w g h)); auto.
Qed.

Theorem arrow_no_growth mt s ds dt dl dO n m w lam :
  0 < lam ->
  arrowDims s ds dt dl dO -> inputArrow Or n ds dt dl dO m w -> declaredArrow s n m ->
  let all := allIdx n ds dt dl dO in
  posDefBy all (matAt Or m w) lam ->
  exists k, arrowBlocks s = Ok k /\
    forall d0, dataOf k n ds dt dl dO d0 ->
    exists d, arrowFactorize Or mt k m regularizationNone d0 = Ok d /\
      forall g, In g all ->
        lam <= pivotAt Or d g <= matAt Or m w (permIdx s g) (permIdx s g) /\
        forall h, In h all -> factorAt Or 1 k d g h * factorAt Or 1 k d g h * pivotAt Or d h <= matAt Or m w (permIdx s g) (permIdx s g).
Proof.
  intros L0 HD IA DA all QD.
  assert (PS : posSemiDef all (matAt Or m w)).
  { intros z. specialize (QD z). pose proof (squares_pos all z).
    assert (0 <= lam * squares all z) by (apply Rmult_le_pos; lra). lra. }
  destruct (arrow_works_by mt s ds dt dl dO n m w (fun _ => true) lam L0 HD IA DA (pos_is_quasi _ _ _ (Rlt_le _ _ L0) QD)) as (k & Ek & W).
  exists k. split; auto. intros d0 D0. destruct (W d0 D0) as (d & EF & D1 & GD & PR & _).
  exists d. split; auto. intros g Hg. split.
  - split; [apply (GD g Hg)|apply (GD g Hg); auto].
  - intros h Hh. specialize (PR g g Hg Hg). unfold gldltAt in PR.
    apply (factor_entry all (factorAt Or 1 k d g) (pivotAt Or d)); [exact PR| |auto].
    intros r Hr. assert (awayFromZero true lam (pivotAt Or d r)) by (apply (GD r); auto). cbn in *. lra.
Qed.

(** ** block tridiagonal *)
Lemma tri_squares n dt (x : gidx -> R) :
  squares (allIdx n 0 dt 0 0) x = squares (list_prod (seq 0 (n + 1)) (seq 0 dt)) (fun r => x (triRow r)).
Proof. unfold squares. rewrite allIdx_tri, (suml_map Or). reflexivity. Qed.

Lemma tri_quasi_by n dt A B wA wB P lam : inputTri Or n dt A B wA wB ->
  quasiDefBy (list_prod (seq 0 (n + 1)) (seq 0 dt)) P
    (fun r c => triMatAt Or A B wA wB (fst r) (snd r) (fst c) (snd c)) lam ->
  quasiDefBy (allIdx n 0 dt 0 0) (fun g => P (triPair g)) (matAt Or (tridiagonalInput dt A B n) (triVals n wA wB)) lam.
Proof.
  intros IT QD x. rewrite tri_quad, tri_squares by auto. destruct (QD (fun r => x (triRow r))) as [P1 P2].
  split; intros Hz.
  - apply P1. intros r Hr HR. apply Hz; [rewrite allIdx_tri; apply in_map; auto|]. destruct r. exact HR.
  - apply P2. intros r Hr HR. apply Hz; [rewrite allIdx_tri; apply in_map; auto|]. destruct r. exact HR.
Qed.

Lemma in_triAll n dt t i : (t < n + 1)%nat -> (i < dt)%nat -> In (GT t i) (allIdx n 0 dt 0 0).
Proof. intros Ht Hi. apply in_allIdx. auto. Qed.

Theorem tri_margin mt a b p dt n A B wA wB P lam :
  0 < lam ->
  spOf a dt dt -> spOf b dt dt -> validPerm dt p ->
  inputTri Or n dt A B wA wB -> declaredTri a b n A B ->
  let rows := list_prod (seq 0 (n + 1)) (seq 0 dt) in
  quasiDefBy rows P (fun r c => triMatAt Or A B wA wB (fst r) (snd r) (fst c) (snd c)) lam ->
  exists k, tridiagonalBlocks a b p = Ok k /\
    forall d0, dataOf k n 0 dt 0 0 d0 ->
    exists d, tridiagonalFactorize Or mt k dt A B regularizationNone d0 = Ok d /\
      (forall t i, (t < n + 1)%nat -> (i < dt)%nat -> awayFromZero (P (t, nth i p 0%nat)) lam (pivotAt Or d (GT t i))) /\
      (forall eps, Rpower eps (5/8) <= lam ->
         tridiagonalFactorize Or mt k dt A B (regularizationSmallPositiveConstant (realFns eps)) d0 = Ok d) /\
      forall rhs, blocksOf n dt rhs ->
      exists x, tridiagonalSolveInPlace Or k d rhs = Ok x /\ blocksOf n dt x /\
        (forall t i, (t < n + 1)%nat -> (i < dt)%nat ->
           triMatVec Or n dt (triMatAt Or A B wA wB) x t i = vecAt Or (nth t rhs []) i) /\
        lam * lam * squares rows (fun r => vecAt Or (nth (fst r) x []) (snd r)) <=
        squares rows (fun r => vecAt Or (nth (fst r) rhs []) (snd r)).
Proof.
  intros L0 SA SB HP IT DT rows QD.
  pose proof (tri_dims a b p dt SA SB HP) as HD. pose proof (tri_input Or n dt A B wA wB IT) as IA.
  pose proof (tri_declared a b p n dt A B DT) as DA.
  destruct (arrow_works_by mt _ _ _ _ _ n _ _ (fun g => P (triPair g)) lam L0 HD IA DA
    (tri_quasi_by n dt A B wA wB P lam IT QD)) as (k & Ek & W).
  exists k. assert (Ek' : tridiagonalBlocks a b p = Ok k) by (rewrite (tri_blocks a b p dt); auto). split; auto.
  assert (TW : triWorks Or FLr dt n p k A B wA wB mt (fun t i v => awayFromZero (P (t, nth i p 0%nat)) lam v)).
  { apply (tri_works Or FLr mt a b p); auto.
    - intros t i v H. apply (away_nonzero _ _ _ L0 H).
    - intros d0 D0. destruct (W d0 D0) as (d & EF & D1 & H1 & H2 & H3). exists d. split; auto. split; auto. split; auto.
      intros g Hg. destruct (H1 g Hg) as [H _]. apply in_tri in Hg. destruct Hg as (t & i & -> & _ & _). exact H. }
  intros d0 D0. destruct (TW d0 D0) as (d & EF & D1 & GD & _ & SO). exists d. split; auto. split; auto. split.
  - intros eps HE. revert EF. unfold tridiagonalFactorize, numRepetitions. rewrite (do_nts _ _ _ _ _ _ _ D0). intros EF.
    apply (arrow_small_inactive eps mt _ _ _ _ _ k n _ _ d0 d HD Ek IA DA D0 EF).
    intros g Hg. apply in_tri in Hg. destruct Hg as (t & i & -> & Ht & Hi).
    destruct (away_nonzero _ _ _ L0 (GD t i Ht Hi)). lra.
  - intros rhs VR. destruct (SO rhs VR) as (x & ES & VX & HX & _). exists x. split; auto. split; auto. split; auto.
    apply (solution_bound rows (fun r c => triMatAt Or A B wA wB (fst r) (snd r) (fst c) (snd c)) P lam); auto.
    + intros g h _ _. pose proof (tri_matAt Or n dt A B wA wB g h IT) as T1.
      pose proof (tri_matAt Or n dt A B wA wB h g IT) as T2. rewrite <- T1, <- T2. apply matAt_sym.
    + intros [t i] Hg. apply in_prod_iff in Hg. rewrite !in_seq in Hg. cbn [fst snd]. rewrite <- HX by lia.
      unfold ax, rows. rewrite (sum_prod Or FLr). reflexivity.
Qed.

Theorem tri_no_growth mt a b p dt n A B wA wB lam :
  0 < lam ->
  spOf a dt dt -> spOf b dt dt -> validPerm dt p ->
  inputTri Or n dt A B wA wB -> declaredTri a b n A B ->
  posDefBy (list_prod (seq 0 (n + 1)) (seq 0 dt)) (fun r c => triMatAt Or A B wA wB (fst r) (snd r) (fst c) (snd c)) lam ->
  exists k, tridiagonalBlocks a b p = Ok k /\
    forall d0, dataOf k n 0 dt 0 0 d0 ->
    exists d, tridiagonalFactorize Or mt k dt A B regularizationNone d0 = Ok d /\
      forall t i, (t < n + 1)%nat -> (i < dt)%nat ->
        let e := triMatAt Or A B wA wB t (nth i p 0%nat) t (nth i p 0%nat) in
        lam <= pivotAt Or d (GT t i) <= e /\
        forall u j, (u < n + 1)%nat -> (j < dt)%nat ->
          factorAt Or 1 k d (GT t i) (GT u j) * factorAt Or 1 k d (GT t i) (GT u j) * pivotAt Or d (GT u j) <= e.
Proof.
  intros L0 SA SB HP IT DT QD.
  destruct (arrow_no_growth mt _ _ _ _ _ n _ _ lam L0 (tri_dims a b p dt SA SB HP) (tri_input Or n dt A B wA wB IT)
    (tri_declared a b p n dt A B DT)) as (k & Ek & W).
  { intros z. rewrite tri_quad, tri_squares by auto. apply QD. }
  exists k. split; [rewrite (tri_blocks a b p dt); auto|]. intros d0 D0. destruct (W d0 D0) as (d & EF & H).
  exists d. split.
  { unfold tridiagonalFactorize, numRepetitions. rewrite (do_nts _ _ _ _ _ _ _ D0). exact EF. }
  intros t i Ht Hi. destruct (H (GT t i) (in_triAll n dt t i Ht Hi)) as [H1 H2].
  split; [exact H1|]. intros u j Hu Hj. exact (H2 (GT u j) (in_triAll n dt u j Hu Hj)).
Qed.
