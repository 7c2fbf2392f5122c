(** Properties C63 and C64: positive definite systems in rounded arithmetic with overflow.
    Every pivot is positive and nothing overflows (C63), and the computed solution is
    close to the exact one (C64). *)
From Coq Require Import ZArith Reals Lra Lia List Arith Bool Psatz.
From Flocq Require Import Core BinarySingleNaN.
From Verif Require Import Base ModelPerm ModelSparsity ModelSymbolic ModelNumeric ModelArrow ModelReg ModelIeee.
From Verif Require Import SpecSymbolic SpecArrow SpecNumeric SpecArrowNum SpecReg SpecRound SpecDominant SpecFlat SpecDomFloat SpecPosFloat.
From Verif Require Import ExampleData ExampleArrow ExamplePivot ExampleIeee.
From Verif Require Import ProofRound ProofArrowProduct ProofArrowSolve ProofIeee ProofPosIeee ProofPosDom ProofPropPosFloat PropSingle PropProduct PropDomFloat.
Import ListNotations.
Local Open Scope R_scope.
Local Notation rsum := (suml Or).

(** ** C63 *)

(** which matrices are positive definite: for example symmetric matrices that are
    dominated by a positive diagonal *)
Theorem C63_dominant_positive :
  forall {I : Type} eqd (all : list I) M th,
  NoDup all ->
  (forall g h, In g all -> In h all -> M g h = M h g) -> (forall g, In g all -> 0 <= M g g) ->
  dominatedBy eqd all M th -> positiveBy all M (1 - th).
Proof. exact @dominated_positive. Qed.
Print Assumptions C63_dominant_positive.

Theorem C63_positive_finite :
  forall {F : Type} (O : ops F) (fin : F -> Prop) (val : F -> R) (u eta Om : R),
  rounding O fin val u eta -> noOverflow O fin val Om ->
  forall mt s n p b a vals m lam amin amax r,
  spOf s n n -> validPerm n p -> factorizationBlk s p = Ok b ->
  spOf a n n -> inputOf O m a vals -> coveredSym (entries a) (entries s) n p ->
  (forall i j, (i < n)%nat -> (j < n)%nat -> fin (symAt O (entries a) vals i j)) ->
  positiveBy (seq 0 n) (fun i j => val (symAt O (entries a) vals i j)) lam ->
  (forall i, (i < n)%nat -> amin <= val (symAt O (entries a) vals i i) <= amax) ->
  (forall i, (i < n)%nat -> (rowCount (c_entries (b_sp b)) i <= r)%nat /\ (colCount (c_entries (b_sp b)) i <= r)%nat) ->
  posFits u eta Om lam amin amax n r ->
  forall L0 D0, length L0 = c_nnz (b_sp b) -> length D0 = n ->
  exists L D, factorize O mt b (Some m) regularizationNone (L0, D0) = Ok (L, D) /\
    (forall v, In v L -> fin v) /\
    (forall i, (i < n)%nat ->
       posPivot fin val lam (symAt O (entries a) vals (nth i p 0%nat) (nth i p 0%nat)) (vecAt O D i)) /\
    forall rhs B, length rhs = n -> (forall v, In v rhs -> fin v /\ Rabs (val v) <= B) ->
      posRhsFits Om lam amin amax n B ->
      exists x, solveInPlace O b (L, D) rhs = Ok x /\ length x = n /\
        forall v, In v x -> fin v /\ lam * amin * Rabs (val v) <= 9 * (INR n * B).
Proof. exact @single_pos_finite. Qed.
Print Assumptions C63_positive_finite.

Theorem C63_arrowhead_positive_finite :
  forall {F : Type} (O : ops F) (fin : F -> Prop) (val : F -> R) (u eta Om : R),
  rounding O fin val u eta -> noOverflow O fin val Om ->
  forall mt s ds dt dl dO k n m w lam amin amax r,
  arrowDims s ds dt dl dO -> arrowBlocks s = Ok k ->
  inputArrow O n ds dt dl dO m w -> declaredArrow s n m ->
  (forall g h, In g (allIdx n ds dt dl dO) -> In h (allIdx n ds dt dl dO) -> fin (matAt O m w g h)) ->
  positiveBy (allIdx n ds dt dl dO) (fun g h => val (matAt O m w g h)) lam ->
  (forall g, In g (allIdx n ds dt dl dO) -> amin <= val (matAt O m w g g) <= amax) ->
  (forall g, In g (allIdx n ds dt dl dO) -> (rowCountG k n g <= r)%nat /\ (colCountG k n g <= r)%nat) ->
  posFits u eta Om lam amin amax (flatDim n ds dt dl dO) r ->
  forall d0, dataOf k n ds dt dl dO d0 ->
  exists d, arrowFactorize O mt k m regularizationNone d0 = Ok d /\
    (forall g h, In g (allIdx n ds dt dl dO) -> In h (allIdx n ds dt dl dO) -> fin (factorAt O (o0 O) k d g h)) /\
    (forall g, In g (allIdx n ds dt dl dO) ->
       posPivot fin val lam (matAt O m w (permIdx s g) (permIdx s g)) (pivotAt O d g)) /\
    forall rhs B, vecOf n ds dt dl dO rhs ->
      (forall g, In g (allIdx n ds dt dl dO) -> fin (gvecAt O rhs g) /\ Rabs (val (gvecAt O rhs g)) <= B) ->
      posRhsFits Om lam amin amax (flatDim n ds dt dl dO) B ->
      exists x, arrowSolveInPlace O k d rhs = Ok x /\ vecOf n ds dt dl dO x /\
        forall g, In g (allIdx n ds dt dl dO) ->
          fin (gvecAt O x g) /\ lam * amin * Rabs (val (gvecAt O x g)) <= 9 * (INR (flatDim n ds dt dl dO) * B).
Proof. exact @arrow_pos_finite. Qed.
Print Assumptions C63_arrowhead_positive_finite.

Theorem C63_tridiagonal_positive_finite :
  forall {F : Type} (O : ops F) (fin : F -> Prop) (val : F -> R) (u eta Om : R),
  rounding O fin val u eta -> noOverflow O fin val Om ->
  forall mt a b p dt n k A B wA wB lam amin amax r,
  spOf a dt dt -> spOf b dt dt -> validPerm dt p -> tridiagonalBlocks a b p = Ok k ->
  inputTri O n dt A B wA wB -> declaredTri a b n A B ->
  let rows := list_prod (seq 0 (n + 1)) (seq 0 dt) in
  let M := fun r c => triMatAt O A B wA wB (fst r) (snd r) (fst c) (snd c) in
  (forall g h, In g rows -> In h rows -> fin (M g h)) ->
  positiveBy rows (fun g h => val (M g h)) lam ->
  (forall g, In g rows -> amin <= val (M g g) <= amax) ->
  (forall t i, In (t, i) rows -> (rowCountG k n (GT t i) <= r)%nat /\ (colCountG k n (GT t i) <= r)%nat) ->
  posFits u eta Om lam amin amax ((n + 1) * dt) r ->
  forall d0, dataOf k n 0 dt 0 0 d0 ->
  exists d, tridiagonalFactorize O mt k dt A B regularizationNone d0 = Ok d /\
    (forall g h, In g (allIdx n 0 dt 0 0) -> In h (allIdx n 0 dt 0 0) -> fin (factorAt O (o0 O) k d g h)) /\
    (forall t i, In (t, i) rows -> posPivot fin val lam (M (t, nth i p 0%nat) (t, nth i p 0%nat)) (pivotAt O d (GT t i))) /\
    forall rhs Bd, blocksOf n dt rhs ->
      (forall t i, In (t, i) rows -> fin (vecAt O (nth t rhs []) i) /\ Rabs (val (vecAt O (nth t rhs []) i)) <= Bd) ->
      posRhsFits Om lam amin amax ((n + 1) * dt) Bd ->
      exists x, tridiagonalSolveInPlace O k d rhs = Ok x /\ blocksOf n dt x /\
        forall t i, In (t, i) rows -> fin (vecAt O (nth t x []) i) /\
           lam * amin * Rabs (val (vecAt O (nth t x []) i)) <= 9 * (INR ((n + 1) * dt) * Bd).
Proof. exact @tri_pos_finite. Qed.
Print Assumptions C63_tridiagonal_positive_finite.

(** ** C64 *)

Theorem C64_positive_error :
  forall {F : Type} (O : ops F) (fin : F -> Prop) (val : F -> R) (u eta Om : R),
  rounding O fin val u eta -> noOverflow O fin val Om ->
  forall mt s n p b a vals m lam amin amax r,
  spOf s n n -> validPerm n p -> factorizationBlk s p = Ok b ->
  spOf a n n -> inputOf O m a vals -> coveredSym (entries a) (entries s) n p ->
  (forall i j, (i < n)%nat -> (j < n)%nat -> fin (symAt O (entries a) vals i j)) ->
  positiveBy (seq 0 n) (fun i j => val (symAt O (entries a) vals i j)) lam ->
  (forall i, (i < n)%nat -> amin <= val (symAt O (entries a) vals i i) <= amax) ->
  (forall i, (i < n)%nat -> (rowCount (c_entries (b_sp b)) i <= r)%nat /\ (colCount (c_entries (b_sp b)) i <= r)%nat) ->
  posFits u eta Om lam amin amax n r ->
  forall L0 D0 L D rhs B x, length L0 = c_nnz (b_sp b) -> length D0 = n ->
  factorize O mt b (Some m) regularizationNone (L0, D0) = Ok (L, D) ->
  length rhs = n -> (forall v, In v rhs -> fin v /\ Rabs (val v) <= B) ->
  posRhsFits Om lam amin amax n B ->
  solveInPlace O b (L, D) rhs = Ok x ->
  exists xs, onlySolution (seq 0 n) (fun i j => val (symAt O (entries a) vals i j)) (fun i => val (vecAt O rhs i)) xs /\
    let M := fun i j => val (symAt O (entries a) vals i j) in
    diagNorm (seq 0 n) M (fun i => val (vecAt O x i) - xs i) <=
    posError u eta lam amin amax n r (diagNorm (seq 0 n) M (fun i => val (vecAt O x i))).
Proof. exact @single_pos_error. Qed.
Print Assumptions C64_positive_error.

Theorem C64_arrowhead_positive_error :
  forall {F : Type} (O : ops F) (fin : F -> Prop) (val : F -> R) (u eta Om : R),
  rounding O fin val u eta -> noOverflow O fin val Om ->
  forall mt s ds dt dl dO k n m w lam amin amax r,
  arrowDims s ds dt dl dO -> arrowBlocks s = Ok k ->
  inputArrow O n ds dt dl dO m w -> declaredArrow s n m ->
  (forall g h, In g (allIdx n ds dt dl dO) -> In h (allIdx n ds dt dl dO) -> fin (matAt O m w g h)) ->
  positiveBy (allIdx n ds dt dl dO) (fun g h => val (matAt O m w g h)) lam ->
  (forall g, In g (allIdx n ds dt dl dO) -> amin <= val (matAt O m w g g) <= amax) ->
  (forall g, In g (allIdx n ds dt dl dO) -> (rowCountG k n g <= r)%nat /\ (colCountG k n g <= r)%nat) ->
  posFits u eta Om lam amin amax (flatDim n ds dt dl dO) r ->
  forall d0 d rhs Bd x, dataOf k n ds dt dl dO d0 ->
  arrowFactorize O mt k m regularizationNone d0 = Ok d ->
  vecOf n ds dt dl dO rhs ->
  (forall g, In g (allIdx n ds dt dl dO) -> fin (gvecAt O rhs g) /\ Rabs (val (gvecAt O rhs g)) <= Bd) ->
  posRhsFits Om lam amin amax (flatDim n ds dt dl dO) Bd ->
  arrowSolveInPlace O k d rhs = Ok x ->
  exists xs, onlySolution (allIdx n ds dt dl dO) (fun g h => val (matAt O m w g h)) (fun g => val (gvecAt O rhs g)) xs /\
    let M := fun g h => val (matAt O m w g h) in
    diagNorm (allIdx n ds dt dl dO) M (fun g => val (gvecAt O x g) - xs g) <=
    posError u eta lam amin amax (flatDim n ds dt dl dO) r
      (diagNorm (allIdx n ds dt dl dO) M (fun g => val (gvecAt O x g))).
Proof. exact @arrow_pos_error. Qed.
Print Assumptions C64_arrowhead_positive_error.

Theorem C64_tridiagonal_positive_error :
  forall {F : Type} (O : ops F) (fin : F -> Prop) (val : F -> R) (u eta Om : R),
  rounding O fin val u eta -> noOverflow O fin val Om ->
  forall mt a b p dt n k A B wA wB lam amin amax r,
  spOf a dt dt -> spOf b dt dt -> validPerm dt p -> tridiagonalBlocks a b p = Ok k ->
  inputTri O n dt A B wA wB -> declaredTri a b n A B ->
  let rows := list_prod (seq 0 (n + 1)) (seq 0 dt) in
  let M := fun r c => triMatAt O A B wA wB (fst r) (snd r) (fst c) (snd c) in
  (forall g h, In g rows -> In h rows -> fin (M g h)) ->
  positiveBy rows (fun g h => val (M g h)) lam ->
  (forall g, In g rows -> amin <= val (M g g) <= amax) ->
  (forall t i, In (t, i) rows -> (rowCountG k n (GT t i) <= r)%nat /\ (colCountG k n (GT t i) <= r)%nat) ->
  posFits u eta Om lam amin amax ((n + 1) * dt) r ->
  forall d0 d rhs Bd x, dataOf k n 0 dt 0 0 d0 ->
  tridiagonalFactorize O mt k dt A B regularizationNone d0 = Ok d ->
  blocksOf n dt rhs ->
  (forall t i, In (t, i) rows -> fin (vecAt O (nth t rhs []) i) /\ Rabs (val (vecAt O (nth t rhs []) i)) <= Bd) ->
  posRhsFits Om lam amin amax ((n + 1) * dt) Bd ->
  tridiagonalSolveInPlace O k d rhs = Ok x ->
  exists xs, onlySolution rows (fun g h => val (M g h)) (fun g => val (vecAt O (nth (fst g) rhs []) (snd g))) xs /\
    diagNorm rows (fun g h => val (M g h)) (fun g => val (vecAt O (nth (fst g) x []) (snd g)) - xs g) <=
    posError u eta lam amin amax ((n + 1) * dt) r
      (diagNorm rows (fun g h => val (M g h)) (fun g => val (vecAt O (nth (fst g) x []) (snd g)))).
Proof. exact @tri_pos_error. Qed.
Print Assumptions C64_tridiagonal_positive_error.

(** ** both in double precision, up to dimension 2^20 *)

Local Notation fin := (ieeeFinite 53 1024).
Local Notation val := (ieeeVal 53 1024).

Theorem C64_double :
  forall mt s n p b a vals m lam r,
  (Z.of_nat n <= 2 ^ 20)%Z -> (INR r + 1) * (INR r + 1) * bpow radix2 (-47) <= lam <= 1 ->
  spOf s n n -> validPerm n p -> factorizationBlk s p = Ok b ->
  spOf a n n -> inputOf Od m a vals -> coveredSym (entries a) (entries s) n p ->
  (forall v, In v vals -> fin v) ->
  let M := fun i j => val (symAt Od (entries a) vals i j) in
  positiveBy (seq 0 n) M lam ->
  (forall i, (i < n)%nat -> bpow radix2 (-200) <= M i i <= bpow radix2 200) ->
  (forall i, (i < n)%nat -> (rowCount (c_entries (b_sp b)) i <= r)%nat /\ (colCount (c_entries (b_sp b)) i <= r)%nat) ->
  forall L0 D0, length L0 = c_nnz (b_sp b) -> length D0 = n ->
  exists L D, factorize Od mt b (Some m) regularizationNone (L0, D0) = Ok (L, D) /\
    (forall v, In v L -> fin v) /\
    (forall i, (i < n)%nat ->
       posPivot fin val lam (symAt Od (entries a) vals (nth i p 0%nat) (nth i p 0%nat)) (vecAt Od D i)) /\
    forall rhs, length rhs = n -> (forall v, In v rhs -> fin v /\ Rabs (val v) <= bpow radix2 200) ->
      exists x, solveInPlace Od b (L, D) rhs = Ok x /\ length x = n /\ (forall v, In v x -> fin v) /\
        exists xs, onlySolution (seq 0 n) M (fun i => val (vecAt Od rhs i)) xs /\
          diagNorm (seq 0 n) M (fun i => val (vecAt Od x i) - xs i) <=
          ((INR r + 1) * (INR r + 1) * bpow radix2 (-48) * diagNorm (seq 0 n) M (fun i => val (vecAt Od x i)) +
           bpow radix2 (-700)) / lam.
Proof. exact @single_pos_double. Qed.
Print Assumptions C64_double.

Theorem C64_arrowhead_double :
  forall mt s ds dt dl dO k n m w lam r,
  (Z.of_nat (flatDim n ds dt dl dO) <= 2 ^ 20)%Z -> (INR r + 1) * (INR r + 1) * bpow radix2 (-47) <= lam <= 1 ->
  arrowDims s ds dt dl dO -> arrowBlocks s = Ok k ->
  inputArrow Od n ds dt dl dO m w -> declaredArrow s n m ->
  let all := allIdx n ds dt dl dO in
  let M := fun g h => val (matAt Od m w g h) in
  (forall g h, In g all -> In h all -> fin (matAt Od m w g h)) ->
  positiveBy all M lam ->
  (forall g, In g all -> bpow radix2 (-200) <= M g g <= bpow radix2 200) ->
  (forall g, In g all -> (rowCountG k n g <= r)%nat /\ (colCountG k n g <= r)%nat) ->
  forall d0, dataOf k n ds dt dl dO d0 ->
  exists d, arrowFactorize Od mt k m regularizationNone d0 = Ok d /\
    (forall g h, In g all -> In h all -> fin (factorAt Od (o0 Od) k d g h)) /\
    (forall g, In g all -> posPivot fin val lam (matAt Od m w (permIdx s g) (permIdx s g)) (pivotAt Od d g)) /\
    forall rhs, vecOf n ds dt dl dO rhs ->
      (forall g, In g all -> fin (gvecAt Od rhs g) /\ Rabs (val (gvecAt Od rhs g)) <= bpow radix2 200) ->
      exists x, arrowSolveInPlace Od k d rhs = Ok x /\ vecOf n ds dt dl dO x /\
        (forall g, In g all -> fin (gvecAt Od x g)) /\
        exists xs, onlySolution all M (fun g => val (gvecAt Od rhs g)) xs /\
          diagNorm all M (fun g => val (gvecAt Od x g) - xs g) <=
          ((INR r + 1) * (INR r + 1) * bpow radix2 (-48) * diagNorm all M (fun g => val (gvecAt Od x g)) +
           bpow radix2 (-700)) / lam.
Proof. exact @arrow_pos_double. Qed.
Print Assumptions C64_arrowhead_double.

Theorem C64_tridiagonal_double :
  forall mt a b p dt n k A B wA wB lam r,
  (Z.of_nat ((n + 1) * dt) <= 2 ^ 20)%Z -> (INR r + 1) * (INR r + 1) * bpow radix2 (-47) <= lam <= 1 ->
  spOf a dt dt -> spOf b dt dt -> validPerm dt p -> tridiagonalBlocks a b p = Ok k ->
  inputTri Od n dt A B wA wB -> declaredTri a b n A B ->
  let rows := list_prod (seq 0 (n + 1)) (seq 0 dt) in
  let M := fun r c => triMatAt Od A B wA wB (fst r) (snd r) (fst c) (snd c) in
  (forall g h, In g rows -> In h rows -> fin (M g h)) ->
  positiveBy rows (fun g h => val (M g h)) lam ->
  (forall g, In g rows -> bpow radix2 (-200) <= val (M g g) <= bpow radix2 200) ->
  (forall t i, In (t, i) rows -> (rowCountG k n (GT t i) <= r)%nat /\ (colCountG k n (GT t i) <= r)%nat) ->
  forall d0, dataOf k n 0 dt 0 0 d0 ->
  exists d, tridiagonalFactorize Od mt k dt A B regularizationNone d0 = Ok d /\
    (forall g h, In g (allIdx n 0 dt 0 0) -> In h (allIdx n 0 dt 0 0) -> fin (factorAt Od (o0 Od) k d g h)) /\
    (forall t i, In (t, i) rows -> posPivot fin val lam (M (t, nth i p 0%nat) (t, nth i p 0%nat)) (pivotAt Od d (GT t i))) /\
    forall rhs, blocksOf n dt rhs ->
      (forall t i, In (t, i) rows ->
         fin (vecAt Od (nth t rhs []) i) /\ Rabs (val (vecAt Od (nth t rhs []) i)) <= bpow radix2 200) ->
      exists x, tridiagonalSolveInPlace Od k d rhs = Ok x /\ blocksOf n dt x /\
        (forall t i, In (t, i) rows -> fin (vecAt Od (nth t x []) i)) /\
        let X := fun g => val (vecAt Od (nth (fst g) x []) (snd g)) in
        exists xs, onlySolution rows (fun g h => val (M g h)) (fun g => val (vecAt Od (nth (fst g) rhs []) (snd g))) xs /\
          diagNorm rows (fun g h => val (M g h)) (fun g => X g - xs g) <=
          ((INR r + 1) * (INR r + 1) * bpow radix2 (-48) * diagNorm rows (fun g h => val (M g h)) X +
           bpow radix2 (-700)) / lam.
Proof. exact @tri_pos_double. Qed.
Print Assumptions C64_tridiagonal_double.

(** ** examples *)

(** matrices of integers *)
Definition zMatrix {I : Type} (all : list I) (M : I -> I -> double) (T : I -> I -> Z) : bool :=
  forallb (fun g => forallb (fun h => isZ (M g h) && (zOf (M g h) =? T g h)%Z) all &&
    (1 <=? T g g)%Z && (T g g <=? 1000)%Z) all.
Lemma zMatrix_ok {I : Type} (all : list I) M T : zMatrix all M T = true ->
  (forall g h, In g all -> In h all -> fin (M g h) /\ val (M g h) = IZR (T g h)) /\
  (forall g, In g all -> bpow radix2 (-200) <= val (M g g) <= bpow radix2 200).
Proof.
  intros H. unfold zMatrix in H. rewrite forallb_forall in H.
  assert (P : forall g, In g all -> (forall h, In h all -> fin (M g h) /\ val (M g h) = IZR (T g h)) /\ (1 <= T g g <= 1000)%Z).
  { intros g Hg. specialize (H g Hg). rewrite !andb_true_iff in H. destruct H as ((H1 & H2) & H3).
    rewrite forallb_forall in H1. apply Z.leb_le in H2, H3. split; [|lia]. intros h Hh. specialize (H1 h Hh).
    rewrite andb_true_iff in H1. destruct H1 as [H1 H4]. apply Z.eqb_eq in H4. rewrite <- H4. apply isZ_ok. auto. }
  split; [intros g h Hg; apply P; auto|]. intros g Hg. destruct (P g Hg) as (P1 & P2 & P3).
  rewrite (proj2 (P1 g Hg)). apply IZR_le in P2, P3. split.
  - apply Rle_trans with 1; [|lra]. change 1 with (bpow radix2 0). apply bpow_le. lia.
  - apply Rle_trans with 1000; [lra|]. apply Rle_trans with (bpow radix2 10); [cbn; lra|apply bpow_le; lia].
Qed.

(** dominated by a positive diagonal *)
Definition posCheck {I : Type} (eqd : forall a b : I, {a = b} + {a <> b}) (all : list I) (M : I -> I -> double) : bool :=
  zMatrix all M (fun g h => zOf (M g h)) && domCheck eqd all M &&
  forallb (fun g => forallb (fun h => (zOf (M g h) =? zOf (M h g))%Z) all) all.
Lemma posCheck_ok {I : Type} eqd (all : list I) M : NoDup all -> posCheck eqd all M = true ->
  (forall g h, In g all -> In h all -> fin (M g h)) /\
  positiveBy all (fun g h => val (M g h)) (/ 2) /\
  (forall g, In g all -> bpow radix2 (-200) <= val (M g g) <= bpow radix2 200).
Proof.
  intros ND H. unfold posCheck in H. rewrite !andb_true_iff in H. destruct H as [[H1 H2] H3].
  apply zMatrix_ok in H1. apply domCheck_ok in H2. destruct H1 as (H1 & H4), H2 as (_ & H2 & _).
  rewrite forallb_forall in H3.
  split; [intros g h Hg Hh; apply (H1 g h Hg Hh)|]. split; [|exact H4].
  replace (/ 2) with (1 - / 2) by lra. apply (dominated_positive eqd); auto.
  - intros g h Hg Hh. rewrite (proj2 (H1 g h Hg Hh)), (proj2 (H1 h g Hh Hg)). f_equal.
    specialize (H3 g Hg). rewrite forallb_forall in H3. apply Z.eqb_eq. auto.
  - intros g Hg. apply Rle_trans with (bpow radix2 (-200)); [apply bpow_ge_0|apply H4; auto].
Qed.

(** the number of entries in the rows and columns of the factor *)
Definition countCheck (k : arrow_blks) n (r : nat) (all : list gidx) : bool :=
  forallb (fun g => (rowCountG k n g <=? r)%nat && (colCountG k n g <=? r)%nat) all.
Lemma countCheck_ok k n r all : countCheck k n r all = true ->
  forall g, In g all -> (rowCountG k n g <= r)%nat /\ (colCountG k n g <= r)%nat.
Proof.
  intros H g Hg. unfold countCheck in H. rewrite forallb_forall in H. specialize (H g Hg).
  rewrite andb_true_iff in H. rewrite !Nat.leb_le in H. exact H.
Qed.

(** positive definite with lam = 1/16, but not dominated by its diagonal: the first row is 8 3 3 3
    and the others have 4 on the diagonal *)
Definition exPosD : list Z := [8; 3; 4; 3; 4; 3; 4]%Z.
Definition exPosT (i j : nat) : Z :=
  nth j (nth i [[8;3;3;3]; [3;4;0;0]; [3;0;4;0]; [3;0;0;4]]%Z []) 0%Z.
Definition exPosMd : mat := matD exS exPosD.

Lemma exPos_positive : positiveBy (seq 0 4) (fun i j => IZR (exPosT i j)) (/ 16).
Proof.
  intros z. cbn [seq suml fold_right exPosT nth]. change (oadd Or) with Rplus. change (o0 Or) with 0.
  generalize (z 0%nat) (z 1%nat) (z 2%nat) (z 3%nat). intros a b c d.
  pose proof (Rle_0_sqr (b + 4 / 5 * a)). pose proof (Rle_0_sqr (c + 4 / 5 * a)).
  pose proof (Rle_0_sqr (d + 4 / 5 * a)). pose proof (Rle_0_sqr a). unfold Rsqr in *. lra.
Qed.

Example C63_example :
  let M := fun i j => val (symAt Od (entries exS) (dzs exPosD) i j) in
  (Z.of_nat 4 <= 2 ^ 20)%Z /\ (INR 3 + 1) * (INR 3 + 1) * bpow radix2 (-47) <= / 16 <= 1 /\
  spOf exS 4 4 /\ validPerm 4 exP /\ factorizationBlk exS exP = Ok exB /\
  inputOf Od exPosMd exS (dzs exPosD) /\ coveredSym (entries exS) (entries exS) 4 exP /\
  (forall v, In v (dzs exPosD) -> fin v) /\
  positiveBy (seq 0 4) M (/ 16) /\ (forall th, th < 1 -> ~ dominatedBy Nat.eq_dec (seq 0 4) M th) /\
  (forall i, (i < 4)%nat -> bpow radix2 (-200) <= M i i <= bpow radix2 200) /\
  (forall i, (i < 4)%nat ->
     (rowCount (c_entries (b_sp exB)) i <= 3)%nat /\ (colCount (c_entries (b_sp exB)) i <= 3)%nat) /\
  posFits (bpow radix2 (-53)) (bpow radix2 (2 - 1024 - 53)) (bpow radix2 (1024 - 1)) (/ 16)
    (bpow radix2 (-200)) (bpow radix2 200) 4 3 /\
  posRhsFits (bpow radix2 (1024 - 1)) (/ 16) (bpow radix2 (-200)) (bpow radix2 200) 4 (bpow radix2 200) /\
  match factorize Od EntryWise exB (Some exPosMd) regularizationNone (exLd0, exDd0) with
  | Ok (L, D) => finb L = true /\ finb D = true /\
      match solveInPlace Od exB (L, D) (dzs [1; 2; 3; 4]%Z) with
      | Ok x => finb x = true
      | Err _ => False
      end
  | Err _ => False
  end.
Proof.
  cbv zeta.
  assert (C : zMatrix (seq 0 4) (symAt Od (entries exS) (dzs exPosD)) exPosT = true) by (vm_compute; reflexivity).
  apply zMatrix_ok in C. destruct C as (C1 & C2).
  assert (HN : (Z.of_nat 4 <= 2 ^ 20)%Z) by (vm_compute; discriminate).
  assert (HL : (INR 3 + 1) * (INR 3 + 1) * bpow radix2 (-47) <= / 16 <= 1).
  { split; [|lra]. apply Rle_trans with (16 * bpow radix2 (-8)); [|cbn; lra].
    replace ((INR 3 + 1) * (INR 3 + 1)) with 16 by (cbn; lra).
    apply Rmult_le_compat_l; [lra|]. apply bpow_le. lia. }
  split; [exact HN|]. split; [exact HL|].
  split; [exact exS_ok|]. split; [exact exP_ok|]. split; [exact exB_ok|].
  split; [apply matD_input; reflexivity|]. split; [exact exM_covered|].
  split; [apply finb_ok; vm_compute; reflexivity|].
  split.
  { intros z. eapply Rle_trans; [|eapply Rle_trans; [apply (exPos_positive z)|]]; right.
    - f_equal. apply rsum_ext. intros j Hj. rewrite (proj2 (C1 j j Hj Hj)). reflexivity.
    - apply rsum_ext. intros j Hj. apply rsum_ext. intros k Hk. rewrite (proj2 (C1 j k Hj Hk)). reflexivity. }
  split.
  { intros th Hth DOM. specialize (DOM 0%nat (or_introl eq_refl)).
    rewrite (rsum_ext (seq 0 4) _ (fun h => if Nat.eq_dec 0 h then 0 else Rabs (IZR (exPosT 0 h)))) in DOM
      by (intros h Hh; destruct (Nat.eq_dec 0 h); [|rewrite (proj2 (C1 0%nat h (or_introl eq_refl) Hh))]; reflexivity).
    rewrite (proj2 (C1 0%nat 0%nat (or_introl eq_refl) (or_introl eq_refl))) in DOM.
    cbn [seq suml fold_right exPosT nth Nat.eq_dec nat_rec nat_rect sumbool_rec sumbool_rect] in DOM. change (oadd Or) with Rplus in DOM. change (o0 Or) with 0 in DOM.
    rewrite !Rabs_pos_eq in DOM by lra. lra. }
  split; [intros i Hi; apply C2; apply in_seq; lia|].
  split; [intros [|[|[|[|i]]]] Hi; try lia; vm_compute; split; repeat constructor|].
  split; [exact (pos_double_fits 4 3 (/ 16) HN HL)|]. split; [exact (pos_double_rhs 4 3 (/ 16) HN HL)|].
  vm_compute. repeat split.
Qed.

Lemma half_lam (r : nat) : (r <= 9)%nat -> (INR r + 1) * (INR r + 1) * bpow radix2 (-47) <= / 2 <= 1.
Proof.
  intros Hr. split; [|lra]. apply Rle_trans with (100 * bpow radix2 (-8)); [|cbn; lra].
  apply le_INR in Hr. replace (INR 9) with 9 in Hr by (cbn; lra). pose proof (pos_INR r).
  apply Rmult_le_compat; [nra|apply bpow_ge_0|nra|apply bpow_le; lia].
Qed.

(** diagonal 6, 9 and 8, 9, 10 *)
Definition exPosInD : arrow_mat (F:=double) :=
  let c := fun v => matD ex11 [v]%Z in
  mkAM (c 6%Z) (c 1%Z) (c 1%Z) [c 9%Z; c 8%Z] [c 1%Z] (c (-1)%Z) (c 9%Z) (c 1%Z)
    [c 1%Z; c (-1)%Z] (c 10%Z).
Definition exPosWD : arrow_vals double :=
  let c := fun v => dzs [v]%Z in
  mkVals (c 6%Z) (c 1%Z) (c 1%Z) [c 9%Z; c 8%Z] [c 1%Z] (c (-1)%Z) (c 9%Z) (c 1%Z)
    [c 1%Z; c (-1)%Z] (c 10%Z).
Example C64_arrowhead_example :
  (Z.of_nat (flatDim 1 1 1 1 1) <= 2 ^ 20)%Z /\
  (INR 4 + 1) * (INR 4 + 1) * bpow radix2 (-47) <= / 2 <= 1 /\
  arrowDims exQA 1 1 1 1 /\ arrowBlocks exQA = Ok exQK /\
  inputArrow Od 1 1 1 1 1 exPosInD exPosWD /\ declaredArrow exQA 1 exPosInD /\
  (forall g h, In g (allIdx 1 1 1 1 1) -> In h (allIdx 1 1 1 1 1) -> fin (matAt Od exPosInD exPosWD g h)) /\
  positiveBy (allIdx 1 1 1 1 1) (fun g h => val (matAt Od exPosInD exPosWD g h)) (/ 2) /\
  (forall g, In g (allIdx 1 1 1 1 1) ->
     bpow radix2 (-200) <= val (matAt Od exPosInD exPosWD g g) <= bpow radix2 200) /\
  (forall g, In g (allIdx 1 1 1 1 1) -> (rowCountG exQK 1 g <= 4)%nat /\ (colCountG exQK 1 g <= 4)%nat) /\
  dataOf exQK 1 1 1 1 1 exDomDD /\ vecOf 1 1 1 1 1 exDomXD /\
  match arrowFactorize Od EntryWise exQK exPosInD regularizationNone exDomDD with
  | Ok d => match arrowSolveInPlace Od exQK d exDomXD with
            | Ok x => finb (flat x) = true
            | Err _ => False
            end
  | Err _ => False
  end.
Proof.
  assert (C : posCheck gidx_eq_dec (allIdx 1 1 1 1 1) (matAt Od exPosInD exPosWD) = true) by (vm_compute; reflexivity).
  apply posCheck_ok in C; [|apply NoDup_allIdx]. destruct C as (C1 & C2 & C3).
  split; [vm_compute; discriminate|]. split; [apply half_lam; lia|]. split; [exact exQA_dims|]. split; [exact exQK_ok|].
  split; [|split; [|split; [exact C1|split; [exact C2|split; [exact C3|split; [|split; [|split]]]]]]].
  - constructor; try (apply dmat; reflexivity); try reflexivity.
    + intros [|[|t]] H; try lia; apply dmat; reflexivity.
    + intros [|t] H; try lia; apply dmat; reflexivity.
    + intros [|[|t]] H; try lia; apply dmat; reflexivity.
  - constructor; try (intros r c H _; exact H); try (intros r c H; exact H).
    + intros [|[|t]] H; try lia; intros r c Hin _; exact Hin.
    + intros [|t] H; try lia; intros r c Hin; exact Hin.
    + intros [|[|t]] H; try lia; intros r c Hin; exact Hin.
  - apply countCheck_ok. vm_compute. reflexivity.
  - data_of.
  - constructor; try reflexivity. intros [|[|t]] H; try lia; reflexivity.
  - vm_compute. reflexivity.
Qed.

(** a tridiagonal matrix of three blocks of dimension 3 *)
Definition exPosTd : list (list Z) := [[17;19;15;1]; [17;19;18;1]; [27;19;18;1]]%Z.
Example C64_tridiagonal_example :
  let A := map (matD exTA) exPosTd in
  let wA := map dzs exPosTd in
  let rows := list_prod (seq 0 (2 + 1)) (seq 0 3) in
  let M := fun r c => triMatAt Od A (a_ts exInD) wA (w_ts exWD) (fst r) (snd r) (fst c) (snd c) in
  (Z.of_nat ((2 + 1) * 3) <= 2 ^ 20)%Z /\
  (INR 9 + 1) * (INR 9 + 1) * bpow radix2 (-47) <= / 2 <= 1 /\
  spOf exTA 3 3 /\ spOf exTB 3 3 /\ validPerm 3 [2;0;1]%nat /\ tridiagonalBlocks exTA exTB [2;0;1]%nat = Ok exTK /\
  inputTri Od 2 3 A (a_ts exInD) wA (w_ts exWD) /\ declaredTri exTA exTB 2 A (a_ts exInD) /\
  (forall g h, In g rows -> In h rows -> fin (M g h)) /\
  positiveBy rows (fun g h => val (M g h)) (/ 2) /\
  (forall g, In g rows -> bpow radix2 (-200) <= val (M g g) <= bpow radix2 200) /\
  (forall t i, In (t, i) rows -> (rowCountG exTK 2 (GT t i) <= 9)%nat /\ (colCountG exTK 2 (GT t i) <= 9)%nat) /\
  dataOf exTK 2 0 3 0 0 exTDd /\ blocksOf 2 3 (v_tri exXD) /\
  match tridiagonalFactorize Od EntryWise exTK 3 A (a_ts exInD) regularizationNone exTDd with
  | Ok d => match tridiagonalSolveInPlace Od exTK d (v_tri exXD) with
            | Ok x => forallb finb x = true
            | Err _ => False
            end
  | Err _ => False
  end.
Proof.
  cbv zeta.
  assert (C : posCheck pair_eq_dec (list_prod (seq 0 (2 + 1)) (seq 0 3))
    (fun r c => triMatAt Od (map (matD exTA) exPosTd) (a_ts exInD) (map dzs exPosTd) (w_ts exWD)
                  (fst r) (snd r) (fst c) (snd c)) = true) by (vm_compute; reflexivity).
  apply posCheck_ok in C; [|change (list_prod (seq 0 (2 + 1)) (seq 0 3)) with
    (nodup pair_eq_dec (list_prod (seq 0 (2 + 1)) (seq 0 3))); apply NoDup_nodup]. destruct C as (C1 & C2 & C3).
  split; [vm_compute; discriminate|]. split; [apply half_lam; lia|]. split; [exact exT_spA|]. split; [exact exT_spB|].
  split; [exact exT_perm|]. split; [exact exTK_ok|].
  split; [|split; [|split; [exact C1|split; [exact C2|split; [exact C3|split; [|split; [exact exTDd_ok|split]]]]]]].
  - constructor; try reflexivity; try apply exInD_ok.
    intros [|[|[|t]]] H; try lia; apply dmat; reflexivity.
  - split; [|apply exInD_declared]. intros [|[|[|t]]] Ht r c H _; try lia; exact H.
  - intros t i H. assert (K : countCheck exTK 2 9 (map (fun c => GT (fst c) (snd c)) (list_prod (seq 0 (2 + 1)) (seq 0 3))) = true)
      by (vm_compute; reflexivity).
    apply (countCheck_ok _ _ _ _ K). apply in_map_iff. exists (t, i). auto.
  - split; [reflexivity|]. intros [|[|[|t]]] H; try lia; reflexivity.
  - vm_compute. reflexivity.
Qed.

(** the bound for lam matters: with a = 1 + 7 2^-29 and b = 1 + 7 2^-28 + 2^-52 the matrix with the rows
    1 a and a b is positive definite, because b > a^2, but b is also a^2 rounded and so the second pivot is zero *)
Definition exNearS : sparsity := mkSp 2 2 [(0, 0); (1, 0); (1, 1)]%nat.
Definition exNearA : double := dbl (2 ^ 29 + 7) (-29).
Definition exNearB : double := dbl (2 ^ 52 + 7 * 2 ^ 24 + 1) (-52).
Example C63_precision_needed :
  IZR (2 ^ 29 + 7) * / IZR (2 ^ 29) * (IZR (2 ^ 29 + 7) * / IZR (2 ^ 29)) <
  IZR (2 ^ 52 + 7 * 2 ^ 24 + 1) * / IZR (2 ^ 52) /\
  match factorizationBlk exNearS [0; 1]%nat with
  | Ok b => match factorize Od EntryWise b (Some (mkMat exNearS (rd [dz 1; exNearA; exNearB])))
                    regularizationNone (dzs [0]%Z, dzs [0; 0]%Z) with
            | Ok (L, D) => map show D = map show (dzs [1; 0]%Z) /\
                match solveInPlace Od b (L, D) (dzs [1; 2]%Z) with
                | Ok x => finb x = false
                | Err _ => False
                end
            | Err _ => False
            end
  | Err _ => False
  end.
Proof.
  split; [|vm_compute; repeat split].
  change (2 ^ 29 + 7)%Z with 536870919%Z. change (2 ^ 29)%Z with 536870912%Z.
  change (2 ^ 52 + 7 * 2 ^ 24 + 1)%Z with 4503599744811009%Z. change (2 ^ 52)%Z with 4503599627370496%Z. lra.
Qed.
