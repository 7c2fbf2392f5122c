(** Larger matrices have larger pivots. *)
From Coq Require Import Reals Lra Lia List Arith Bool Permutation.
From Verif Require Import Base ModelPerm ModelSparsity ModelSymbolic ModelNumeric ModelArrow ModelReg.
From Verif Require Import SpecSymbolic SpecArrow SpecNumeric SpecArrowNum SpecReg SpecPivot SpecMinimize SpecPivotOrder.
From Verif Require Import ProofBase ProofPerm ProofExact ProofLdl ProofMultiply ProofRound ProofDomReal ProofArrowSym ProofArrowDense
  ProofArrowProduct ProofArrowSolve ProofArrowMain ProofPropDominant ProofSingleMain ProofPropSingle
  ProofPropArrow ProofSingle ProofPivot ProofPivotMain ProofPropPivot ProofRegReal ProofLinear ProofRefine ProofPivotBound
  ProofMinimize.
Import ListNotations.
Local Open Scope R_scope.
Local Notation rsum := (suml Or).

Section Any.
  Context {I : Type} (all : list I) (rank : I -> nat) (eqd : forall a b : I, {a = b} + {a <> b}) (ND : NoDup all).
  Local Notation chi := (chi Or FLr all rank eqd).
  Local Notation q := (quadForm Or all).

  (** [x] belongs to the pivot [t] *)
  Lemma pivot_form A g t x z : (forall g h, In g all -> In h all -> A g h = A h g) -> In g all ->
    x g = 1 -> (forall h, In h all -> (rank g < rank h)%nat -> x h = 0) ->
    (forall h, In h all -> (rank h <= rank g)%nat -> rsum all (fun k => A h k * x k) = if eqd h g then t else 0) ->
    z g = 1 -> (forall h, In h all -> (rank g < rank h)%nat -> z h = 0) ->
    q A z = t + q A (fun h => z h - x h).
  Proof.
    intros SY Hg X1 X2 X3 Z1 Z2.
    rewrite (q_ext all A z (fun h => x h + (z h - x h))) by (intros; lra).
    rewrite (q_plus all A SY), (q_dot all A x).
    assert (EF : forall y, (forall h, In h all -> (rank g < rank h)%nat -> y h = 0) -> dotp all y (ax all A x) = y g * t).
    { intros y Hy. exact (chi_form Or FLr all rank eqd ND A g t x y Hg Hy X3). }
    rewrite (EF x X2), (EF (fun h => z h - x h)), X1, Z1; [lra|].
    intros h Hh Hr. rewrite Z2, X2 by auto. lra.
  Qed.

  Lemma chi_le A A' P g t t' :
    (forall g h, In g all -> In h all -> A g h = A h g) -> (forall g h, In g all -> In h all -> A' g h = A' h g) ->
    In g all -> quasiDef OLr all P A -> quasiDef OLr all P A' -> formBelow all A A' ->
    chi A g t -> chi A' g t' -> t <= t'.
  Proof.
    intros SY SY' Hg QD QD' LE (x & X1 & X2 & X3) (y & Y1 & Y2 & Y3).
    change (fl_one FLr) with 1 in *. change (o0 Or) with 0 in *.
    set (z := fun h => if P h then y h else x h).
    assert (Z1 : z g = 1) by (unfold z; destruct (P g); auto).
    assert (Z2 : forall h, In h all -> (rank g < rank h)%nat -> z h = 0) by (intros; unfold z; destruct (P h); auto).
    pose proof (pivot_form A g t x z SY Hg X1 X2 X3 Z1 Z2) as E.
    pose proof (pivot_form A' g t' y z SY' Hg Y1 Y2 Y3 Z1 Z2) as E'.
    assert (S : 0 <= q A (fun h => z h - x h)).
    { destruct (zero_or (fun h => z h - x h) all) as [Z|N]; [rewrite q_zero; auto; lra|].
      destruct (QD _ N) as [K _]. apply Rlt_le, K. intros h _ HP. unfold z. rewrite HP. change (o0 Or) with 0. lra. }
    assert (S' : q A' (fun h => z h - y h) <= 0).
    { destruct (zero_or (fun h => z h - y h) all) as [Z|N]; [rewrite q_zero; auto; lra|].
      destruct (QD' _ N) as [_ K]. cut (0 < - q A' (fun h => z h - y h)); [lra|].
      apply K. intros h _ HP. unfold z. rewrite HP. change (o0 Or) with 0. lra. }
    pose proof (LE z). lra.
  Qed.

  (** larger diagonal entries *)
  Lemma diagonal_below A A' : largerDiagonal all A A' -> formBelow all A A'.
  Proof.
    intros H z. unfold quadForm. apply rsum_le. intros g Hg. apply rsum_le. intros h Hh. cbn.
    destruct (H g h Hg Hh) as [H1 H2]. destruct (eqd g h) as [->|N].
    - specialize (H1 eq_refl). replace (z h * A h h * z h) with (A h h * (z h * z h)) by ring.
      replace (z h * A' h h * z h) with (A' h h * (z h * z h)) by ring.
      apply Rmult_le_compat_r; auto. apply Rle_0_sqr.
    - rewrite (H2 N). lra.
  Qed.
  Lemma below_positive A A' : formBelow all A A' -> positiveDef all A -> positiveDef all A'.
  Proof. intros H PD z NZ. specialize (PD z NZ). specialize (H z). lra. Qed.
End Any.

Lemma below_perm {I : Type} (all : list I) (f q : I -> I) A A' :
  Permutation (map f all) all -> (forall g, In g all -> q (f g) = g) ->
  formBelow all A A' -> formBelow all (fun g h => A (f g) (f h)) (fun g h => A' (f g) (f h)).
Proof. intros PF Q H z. rewrite !(quad_perm Or FLr all f q PF Q). apply H. Qed.

(** ** a single matrix *)
Definition chiOne n p a vals := chi Or FLr (seq 0 n) (fun i => i) Nat.eq_dec
  (fun i j => symAt Or (entries a) vals (nth i p 0%nat) (nth j p 0%nat)).

Lemma single_chi mt s n p a vals m P :
  spOf s n n -> validPerm n p ->
  spOf a n n -> inputOf Or m a vals -> coveredSym (entries a) (entries s) n p ->
  splitDef (seq 0 n) P (symAt Or (entries a) vals) ->
  exists b, factorizationBlk s p = Ok b /\ singleWorks Or FLr n p b m a vals mt (chiOne n p a vals).
Proof.
  intros HS HP HA HI HC PD. destruct (block_ok s n p HS HP) as (b & EB & G). exists b. split; auto.
  pose proof (validPerm_isPerm n p HP) as PP. destruct (invert_ok n p PP) as (q & _ & _ & Hq & _).
  apply (single_good Or FLr (ord_inf Or FLr OLr) s n p b m a vals HS HP EB HA HI HC). intros i t Hi Hc. split; [|exact Hc].
  apply (hasSign_nonzero Or FLr OLr (P (nth i p 0%nat))).
  refine (quasiDef_chi Or FLr OLr (seq 0 n) (fun i => i) Nat.eq_dec (seq_NoDup n 0)
    (fun i => P (nth i p 0%nat)) _ i t _ _ _ Hc).
  - apply in_seq. lia.
  - intros h k _ _. apply symAt_perm.
  - apply (quasiDef_perm Or FLr OLr (seq 0 n) (fun i => nth i p 0%nat) (fun i => nth i q 0%nat)).
    + apply seq_perm; auto.
    + intros g Hg. apply in_seq in Hg. apply Hq. lia.
    + apply split_quasi; auto.
Qed.

Theorem single_order mt mt' s n p a vals m a' vals' m' P :
  spOf s n n -> validPerm n p ->
  spOf a n n -> inputOf Or m a vals -> coveredSym (entries a) (entries s) n p ->
  spOf a' n n -> inputOf Or m' a' vals' -> coveredSym (entries a') (entries s) n p ->
  let all := seq 0 n in let A := symAt Or (entries a) vals in let A' := symAt Or (entries a') vals' in
  splitDef all P A -> splitDef all P A' -> formBelow all A A' ->
  exists b, factorizationBlk s p = Ok b /\
    forall L0 D0 L0' D0', length L0 = c_nnz (b_sp b) -> length D0 = n -> length L0' = c_nnz (b_sp b) -> length D0' = n ->
    exists L D L' D',
      factorize Or mt b (Some m) regularizationNone (L0, D0) = Ok (L, D) /\
      factorize Or mt' b (Some m') regularizationNone (L0', D0') = Ok (L', D') /\
      forall i, (i < n)%nat -> vecAt Or D i <= vecAt Or D' i.
Proof.
  intros HS HP HA HI HC HA' HI' HC' all A A' SD SD' LE.
  destruct (single_chi mt s n p a vals m P HS HP HA HI HC SD) as (b & EB & W).
  destruct (single_chi mt' s n p a' vals' m' P HS HP HA' HI' HC' SD') as (b' & EB' & W').
  rewrite EB in EB'. injection EB' as <-. exists b. split; auto. intros L0 D0 L1 D1 N1 N2 N3 N4.
  destruct (W L0 D0 N1 N2) as (L & D & EF & GD & _). destruct (W' L1 D1 N3 N4) as (L' & D' & EF' & GD' & _).
  exists L, D, L', D'. split; auto. split; auto. intros i Hi.
  pose proof (validPerm_isPerm n p HP) as PP. destruct (invert_ok n p PP) as (q & _ & _ & Hq & _).
  assert (PF : Permutation (map (fun i => nth i p 0%nat) (seq 0 n)) (seq 0 n)) by (apply seq_perm; auto).
  assert (QF : forall g, In g (seq 0 n) -> nth (nth g p 0%nat) q 0%nat = g) by (intros g Hg; apply in_seq in Hg; apply Hq; lia).
  refine (chi_le (seq 0 n) (fun i => i) Nat.eq_dec (seq_NoDup n 0) _ _ (fun i => P (nth i p 0%nat)) i _ _ _ _ _ _ _ _ (GD i Hi) (GD' i Hi)).
  - intros g h _ _. apply symAt_perm.
  - intros g h _ _. apply symAt_perm.
  - apply in_seq. lia.
  - apply (quasiDef_perm Or FLr OLr (seq 0 n) (fun i => nth i p 0%nat) (fun i => nth i q 0%nat) PF QF). apply split_quasi; auto.
  - apply (quasiDef_perm Or FLr OLr (seq 0 n) (fun i => nth i p 0%nat) (fun i => nth i q 0%nat) PF QF). apply split_quasi; auto.
  - apply (below_perm (seq 0 n) (fun i => nth i p 0%nat) (fun i => nth i q 0%nat) A A' PF QF LE).
Qed.

Theorem single_diagonal mt mt' s n p a vals m a' vals' m' :
  spOf s n n -> validPerm n p ->
  spOf a n n -> inputOf Or m a vals -> coveredSym (entries a) (entries s) n p ->
  spOf a' n n -> inputOf Or m' a' vals' -> coveredSym (entries a') (entries s) n p ->
  let all := seq 0 n in let A := symAt Or (entries a) vals in let A' := symAt Or (entries a') vals' in
  positiveDef all A -> largerDiagonal all A A' ->
  exists b, factorizationBlk s p = Ok b /\
    forall L0 D0 L0' D0', length L0 = c_nnz (b_sp b) -> length D0 = n -> length L0' = c_nnz (b_sp b) -> length D0' = n ->
    exists L D L' D',
      factorize Or mt b (Some m) regularizationNone (L0, D0) = Ok (L, D) /\
      factorize Or mt' b (Some m') regularizationNone (L0', D0') = Ok (L', D') /\
      forall i, (i < n)%nat -> 0 < vecAt Or D i <= vecAt Or D' i.
Proof.
  intros HS HP HA HI HC HA' HI' HC' all A A' PD LD. pose proof (diagonal_below all Nat.eq_dec A A' LD) as LE.
  destruct (single_order mt mt' s n p a vals m a' vals' m' (fun _ => true) HS HP HA HI HC HA' HI' HC'
    (pos_split _ _ PD) (pos_split _ _ (below_positive _ _ _ LE PD)) LE) as (b & EB & W).
  destruct (single_quasidef Or FLr OLr mt s n p a vals m (fun _ => true) HS HP HA HI HC (split_quasi _ _ _ (pos_split _ _ PD)))
    as (b' & EB' & W'). rewrite EB in EB'. injection EB' as <-.
  exists b. split; auto. intros L0 D0 L1 D1 N1 N2 N3 N4. destruct (W L0 D0 L1 D1 N1 N2 N3 N4) as (L & D & L' & D' & E1 & E2 & H).
  exists L, D, L', D'. split; auto. split; auto. intros i Hi. split; auto.
  destruct (W' L0 D0 N1 N2) as (L2 & D2 & EF & GD & _). rewrite E1 in EF. injection EF as <- <-. exact (GD i Hi).
Qed.

(** ** arrowhead *)
Definition chiArrow s ds dt dl dO n m w := chi Or FLr (allIdx n ds dt dl dO) (rank n ds dt dl) gidx_eq_dec
  (fun g h => matAt Or m w (permIdx s g) (permIdx s h)).

Lemma arrow_chi mt s ds dt dl dO n m w P :
  arrowDims s ds dt dl dO -> inputArrow Or n ds dt dl dO m w -> declaredArrow s n m ->
  splitDef (allIdx n ds dt dl dO) P (matAt Or m w) ->
  exists k, arrowBlocks s = Ok k /\
    arrowWorks Or FLr s ds dt dl dO k n m w mt (chiArrow s ds dt dl dO n m w).
Proof.
  intros HD IA DA PD.
  destruct (arrowBlocks_ok s ds dt dl dO HD) as (k & PP & Ek & _). exists k. split; auto.
  destruct (permIdx_inv s n ds dt dl dO HD) as (q & Q).
  apply (arrow_good Or FLr (ord_inf Or FLr OLr) s ds dt dl dO k n m w HD Ek IA DA). intros g t Hg Hc. split; [|exact Hc].
  apply (hasSign_nonzero Or FLr OLr (P (permIdx s g))).
  refine (quasiDef_chi Or FLr OLr (allIdx n ds dt dl dO) (rank n ds dt dl) gidx_eq_dec
    (NoDup_allIdx n ds dt dl dO) (fun g => P (permIdx s g)) _ g t Hg _ _ Hc).
  - intros h r _ _. apply Apg_sym.
  - apply (quasiDef_perm Or FLr OLr (allIdx n ds dt dl dO) (permIdx s) q).
    + apply permIdx_Permutation; auto.
    + intros h Hh. apply Q; auto.
    + apply split_quasi; auto.
Qed.

Theorem arrow_order mt mt' s ds dt dl dO n m w m' w' P :
  arrowDims s ds dt dl dO ->
  inputArrow Or n ds dt dl dO m w -> declaredArrow s n m ->
  inputArrow Or n ds dt dl dO m' w' -> declaredArrow s n m' ->
  let all := allIdx n ds dt dl dO in let A := matAt Or m w in let A' := matAt Or m' w' in
  splitDef all P A -> splitDef all P A' -> formBelow all A A' ->
  exists k, arrowBlocks s = Ok k /\
    forall d0 d0', dataOf k n ds dt dl dO d0 -> dataOf k n ds dt dl dO d0' ->
    exists d d',
      arrowFactorize Or mt k m regularizationNone d0 = Ok d /\
      arrowFactorize Or mt' k m' regularizationNone d0' = Ok d' /\
      forall g, In g all -> pivotAt Or d g <= pivotAt Or d' g.
Proof.
  intros HD IA DA IA' DA' all A A' SD SD' LE.
  destruct (arrow_chi mt s ds dt dl dO n m w P HD IA DA SD) as (k & Ek & W).
  destruct (arrow_chi mt' s ds dt dl dO n m' w' P HD IA' DA' SD') as (k' & Ek' & W').
  rewrite Ek in Ek'. injection Ek' as <-. exists k. split; auto. intros d0 d1 D0 D1.
  destruct (W d0 D0) as (d & EF & _ & GD & _). destruct (W' d1 D1) as (d' & EF' & _ & GD' & _).
  exists d, d'. split; auto. split; auto. intros g Hg.
  destruct (permIdx_inv s n ds dt dl dO HD) as (q & Q).
  assert (PF : Permutation (map (permIdx s) all) all) by (apply permIdx_Permutation; auto).
  assert (QF : forall g, In g all -> q (permIdx s g) = g) by (intros h Hh; apply Q; auto).
  refine (chi_le all (rank n ds dt dl) gidx_eq_dec (NoDup_allIdx n ds dt dl dO) _ _ (fun g => P (permIdx s g)) g _ _ _ _ Hg _ _ _
    (GD g Hg) (GD' g Hg)).
  - intros h r _ _. apply Apg_sym.
  - intros h r _ _. apply Apg_sym.
  - apply (quasiDef_perm Or FLr OLr all (permIdx s) q PF QF). apply split_quasi; auto.
  - apply (quasiDef_perm Or FLr OLr all (permIdx s) q PF QF). apply split_quasi; auto.
  - apply (below_perm all (permIdx s) q A A' PF QF LE).
Qed.

Theorem arrow_diagonal mt mt' s ds dt dl dO n m w m' w' :
  arrowDims s ds dt dl dO ->
  inputArrow Or n ds dt dl dO m w -> declaredArrow s n m ->
  inputArrow Or n ds dt dl dO m' w' -> declaredArrow s n m' ->
  let all := allIdx n ds dt dl dO in let A := matAt Or m w in let A' := matAt Or m' w' in
  positiveDef all A -> largerDiagonal all A A' ->
  exists k, arrowBlocks s = Ok k /\
    forall d0 d0', dataOf k n ds dt dl dO d0 -> dataOf k n ds dt dl dO d0' ->
    exists d d',
      arrowFactorize Or mt k m regularizationNone d0 = Ok d /\
      arrowFactorize Or mt' k m' regularizationNone d0' = Ok d' /\
      forall g, In g all -> 0 < pivotAt Or d g <= pivotAt Or d' g.
Proof.
  intros HD IA DA IA' DA' all A A' PD LD. pose proof (diagonal_below all gidx_eq_dec A A' LD) as LE.
  destruct (arrow_order mt mt' s ds dt dl dO n m w m' w' (fun _ => true) HD IA DA IA' DA'
    (pos_split _ _ PD) (pos_split _ _ (below_positive _ _ _ LE PD)) LE) as (k & Ek & W).
  destruct (arrow_quasidef Or FLr OLr mt s ds dt dl dO n m w (fun _ => true) HD IA DA (split_quasi _ _ _ (pos_split _ _ PD)))
    as (k' & Ek' & W'). rewrite Ek in Ek'. injection Ek' as <-.
  exists k. split; auto. intros d0 d1 D0 D1. destruct (W d0 d1 D0 D1) as (d & d' & E1 & E2 & H).
  exists d, d'. split; auto. split; auto. intros g Hg. split; auto.
  destruct (W' d0 D0) as (d2 & EF & _ & GD & _). rewrite E1 in EF. injection EF as <-. exact (GD g Hg).
Qed.

(** ** block tridiagonal *)
Lemma tri_split n dt A B wA wB P : inputTri Or n dt A B wA wB ->
  splitDef (list_prod (seq 0 (n + 1)) (seq 0 dt)) P (fun r c => triMatAt Or A B wA wB (fst r) (snd r) (fst c) (snd c)) ->
  splitDef (allIdx n 0 dt 0 0) (fun g => P (triPair g)) (matAt Or (tridiagonalInput dt A B n) (triVals n wA wB)).
Proof.
  intros IT QD x NZ. rewrite tri_quad by auto. destruct (QD (fun r => x (triRow r)) (tri_nonzero Or n dt x NZ)) as [P1 P2].
  split; intros Hz.
  - apply P1. intros r Hr HR. apply Hz; [rewrite allIdx_tri; apply in_map; auto|]. destruct r. exact HR.
  - apply P2. intros r Hr HR. apply Hz; [rewrite allIdx_tri; apply in_map; auto|]. destruct r. exact HR.
Qed.

Theorem tri_order mt mt' a b p dt n A B wA wB A' B' wA' wB' P :
  spOf a dt dt -> spOf b dt dt -> validPerm dt p ->
  inputTri Or n dt A B wA wB -> declaredTri a b n A B ->
  inputTri Or n dt A' B' wA' wB' -> declaredTri a b n A' B' ->
  let rows := list_prod (seq 0 (n + 1)) (seq 0 dt) in
  let M := fun r c => triMatAt Or A B wA wB (fst r) (snd r) (fst c) (snd c) in
  let M' := fun r c => triMatAt Or A' B' wA' wB' (fst r) (snd r) (fst c) (snd c) in
  splitDef rows P M -> splitDef rows P M' -> formBelow rows M M' ->
  exists k, tridiagonalBlocks a b p = Ok k /\
    forall d0 d0', dataOf k n 0 dt 0 0 d0 -> dataOf k n 0 dt 0 0 d0' ->
    exists d d',
      tridiagonalFactorize Or mt k dt A B regularizationNone d0 = Ok d /\
      tridiagonalFactorize Or mt' k dt A' B' regularizationNone d0' = Ok d' /\
      forall t i, (t < n + 1)%nat -> (i < dt)%nat -> pivotAt Or d (GT t i) <= pivotAt Or d' (GT t i).
Proof.
  intros SA SB HP IT DT IT' DT' rows M M' SD SD' LE.
  destruct (arrow_order mt mt' _ _ _ _ _ n _ _ _ _ (fun g => P (triPair g)) (tri_dims a b p dt SA SB HP)
    (tri_input Or n dt A B wA wB IT) (tri_declared a b p n dt A B DT)
    (tri_input Or n dt A' B' wA' wB' IT') (tri_declared a b p n dt A' B' DT')
    (tri_split n dt A B wA wB P IT SD) (tri_split n dt A' B' wA' wB' P IT' SD')) as (k & Ek & W).
  { intros z. rewrite !tri_quad by auto. apply LE. }
  exists k. split; [rewrite (tri_blocks a b p dt); auto|]. intros d0 d1 D0 D1.
  destruct (W d0 d1 D0 D1) as (d & d' & E1 & E2 & H). exists d, d'.
  split; [unfold tridiagonalFactorize, numRepetitions; rewrite (do_nts _ _ _ _ _ _ _ D0); exact E1|].
  split; [unfold tridiagonalFactorize, numRepetitions; rewrite (do_nts _ _ _ _ _ _ _ D1); exact E2|].
  intros t i Ht Hi. apply H. apply in_triAll; auto.
Qed.

Lemma pair_eq_dec (a b : nat * nat) : {a = b} + {a <> b}.
Proof. decide equality; apply Nat.eq_dec. Qed.

Theorem tri_diagonal mt mt' a b p dt n A B wA wB A' B' wA' wB' :
  spOf a dt dt -> spOf b dt dt -> validPerm dt p ->
  inputTri Or n dt A B wA wB -> declaredTri a b n A B ->
  inputTri Or n dt A' B' wA' wB' -> declaredTri a b n A' B' ->
  let rows := list_prod (seq 0 (n + 1)) (seq 0 dt) in
  let M := fun r c => triMatAt Or A B wA wB (fst r) (snd r) (fst c) (snd c) in
  let M' := fun r c => triMatAt Or A' B' wA' wB' (fst r) (snd r) (fst c) (snd c) in
  positiveDef rows M -> largerDiagonal rows M M' ->
  exists k, tridiagonalBlocks a b p = Ok k /\
    forall d0 d0', dataOf k n 0 dt 0 0 d0 -> dataOf k n 0 dt 0 0 d0' ->
    exists d d',
      tridiagonalFactorize Or mt k dt A B regularizationNone d0 = Ok d /\
      tridiagonalFactorize Or mt' k dt A' B' regularizationNone d0' = Ok d' /\
      forall t i, (t < n + 1)%nat -> (i < dt)%nat -> 0 < pivotAt Or d (GT t i) <= pivotAt Or d' (GT t i).
Proof.
  intros SA SB HP IT DT IT' DT' rows M M' PD LD. pose proof (diagonal_below rows pair_eq_dec M M' LD) as LE.
  destruct (tri_order mt mt' a b p dt n A B wA wB A' B' wA' wB' (fun _ => true) SA SB HP IT DT IT' DT'
    (pos_split _ _ PD) (pos_split _ _ (below_positive _ _ _ LE PD)) LE) as (k & Ek & W).
  destruct (tri_quasidef Or FLr OLr mt a b p dt n A B wA wB (fun _ _ => true) SA SB HP IT DT
    (split_quasi _ _ _ (pos_split _ _ PD))) as (k' & Ek' & W'). rewrite Ek in Ek'. injection Ek' as <-.
  exists k. split; auto. intros d0 d1 D0 D1. destruct (W d0 d1 D0 D1) as (d & d' & E1 & E2 & H).
  exists d, d'. split; auto. split; auto. intros t i Ht Hi. split; auto.
  destruct (W' d0 D0) as (d2 & EF & _ & GD & _). rewrite E1 in EF. injection EF as <-. exact (GD t i Ht Hi).
Qed.
