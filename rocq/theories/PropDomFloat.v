(** Properties C61 and C62: systems dominated by their diagonal, in rounded arithmetic with
    overflow.  Nothing overflows and no pivot is zero (C61), and the computed solution is
    close to the exact one (C62). *)
From Coq Require Import ZArith Reals Lra Lia List Arith Bool.
From Flocq Require Import Core BinarySingleNaN.
From Verif Require Import Base ModelPerm ModelSparsity ModelSymbolic ModelNumeric ModelArrow ModelReg ModelIeee.
From Verif Require Import SpecSymbolic SpecArrow SpecNumeric SpecArrowNum SpecReg SpecRound SpecDominant SpecFlat SpecDomFloat.
From Verif Require Import ExampleData ExampleArrow ExamplePivot ExampleIeee.
From Verif Require Import ProofIeee ProofDomIeee ProofPropDomFloat PropSingle PropProduct.
Import ListNotations.
Local Open Scope R_scope.
Local Notation rsum := (suml Or).

(** ** C61 *)

(** IEEE arithmetic: results up to half of the largest power of two are finite *)
Theorem C61_ieee :
  forall prec emax (Hp : Prec_gt_0 prec) (Hm : Prec_lt_emax prec emax),
  noOverflow (ieeeOps prec emax Hp Hm) (ieeeFinite prec emax) (ieeeVal prec emax) (bpow radix2 (emax - 1)).
Proof. exact @ieee_noOverflow. Qed.
Print Assumptions C61_ieee.

Theorem C61_dominant_finite :
  forall {F : Type} (O : ops F) (fin : F -> Prop) (val : F -> R) (u eta Om : R),
  rounding O fin val u eta -> noOverflow O fin val Om ->
  forall mt s n p b a vals m th amin amax r,
  spOf s n n -> validPerm n p -> factorizationBlk s p = Ok b ->
  spOf a n n -> inputOf O m a vals -> coveredSym (entries a) (entries s) n p ->
  (forall i j, (i < n)%nat -> (j < n)%nat -> fin (symAt O (entries a) vals i j)) ->
  dominatedBy Nat.eq_dec (seq 0 n) (fun i j => val (symAt O (entries a) vals i j)) th ->
  (forall i, (i < n)%nat -> amin <= Rabs (val (symAt O (entries a) vals i i)) <= amax) ->
  (forall i, (i < n)%nat -> (rowCount (c_entries (b_sp b)) i <= r)%nat /\ (colCount (c_entries (b_sp b)) i <= r)%nat) ->
  domFits u eta Om th amin amax n r ->
  forall L0 D0, length L0 = c_nnz (b_sp b) -> length D0 = n ->
  exists L D, factorize O mt b (Some m) regularizationNone (L0, D0) = Ok (L, D) /\
    (forall v, In v L -> fin v) /\
    (forall i, (i < n)%nat ->
       goodPivot fin val th (symAt O (entries a) vals (nth i p 0%nat) (nth i p 0%nat)) (vecAt O D i)) /\
    forall rhs, length rhs = n -> (forall v, In v rhs -> fin v) ->
      rhsFits eta Om th amin n (rsum (seq 0 n) (fun i => Rabs (val (vecAt O rhs i)))) ->
      exists x, solveInPlace O b (L, D) rhs = Ok x /\ length x = n /\ (forall v, In v x -> fin v).
Proof. exact @single_dom_finite. Qed.
Print Assumptions C61_dominant_finite.

Theorem C61_arrowhead_dominant_finite :
  forall {F : Type} (O : ops F) (fin : F -> Prop) (val : F -> R) (u eta Om : R),
  rounding O fin val u eta -> noOverflow O fin val Om ->
  forall mt s ds dt dl dO k n m w th amin amax r,
  arrowDims s ds dt dl dO -> arrowBlocks s = Ok k ->
  inputArrow O n ds dt dl dO m w -> declaredArrow s n m ->
  (forall g h, In g (allIdx n ds dt dl dO) -> In h (allIdx n ds dt dl dO) -> fin (matAt O m w g h)) ->
  dominatedBy gidx_eq_dec (allIdx n ds dt dl dO) (fun g h => val (matAt O m w g h)) th ->
  (forall g, In g (allIdx n ds dt dl dO) -> amin <= Rabs (val (matAt O m w g g)) <= amax) ->
  (forall g, In g (allIdx n ds dt dl dO) -> (rowCountG k n g <= r)%nat /\ (colCountG k n g <= r)%nat) ->
  domFits u eta Om th amin amax (flatDim n ds dt dl dO) r ->
  forall d0, dataOf k n ds dt dl dO d0 ->
  exists d, arrowFactorize O mt k m regularizationNone d0 = Ok d /\
    (forall g h, In g (allIdx n ds dt dl dO) -> In h (allIdx n ds dt dl dO) -> fin (factorAt O (o0 O) k d g h)) /\
    (forall g, In g (allIdx n ds dt dl dO) ->
       goodPivot fin val th (matAt O m w (permIdx s g) (permIdx s g)) (pivotAt O d g)) /\
    forall rhs, vecOf n ds dt dl dO rhs -> (forall g, In g (allIdx n ds dt dl dO) -> fin (gvecAt O rhs g)) ->
      rhsFits eta Om th amin (flatDim n ds dt dl dO)
        (rsum (allIdx n ds dt dl dO) (fun g => Rabs (val (gvecAt O rhs g)))) ->
      exists x, arrowSolveInPlace O k d rhs = Ok x /\ vecOf n ds dt dl dO x /\
        forall g, In g (allIdx n ds dt dl dO) -> fin (gvecAt O x g).
Proof. exact @arrow_dom_finite. Qed.
Print Assumptions C61_arrowhead_dominant_finite.

Theorem C61_tridiagonal_dominant_finite :
  forall {F : Type} (O : ops F) (fin : F -> Prop) (val : F -> R) (u eta Om : R),
  rounding O fin val u eta -> noOverflow O fin val Om ->
  forall mt a b p dt n k A B wA wB th amin amax r,
  spOf a dt dt -> spOf b dt dt -> validPerm dt p -> tridiagonalBlocks a b p = Ok k ->
  inputTri O n dt A B wA wB -> declaredTri a b n A B ->
  let rows := list_prod (seq 0 (n + 1)) (seq 0 dt) in
  let M := fun r c => triMatAt O A B wA wB (fst r) (snd r) (fst c) (snd c) in
  (forall g h, In g rows -> In h rows -> fin (M g h)) ->
  dominatedBy pair_eq_dec rows (fun g h => val (M g h)) th ->
  (forall g, In g rows -> amin <= Rabs (val (M g g)) <= amax) ->
  (forall t i, In (t, i) rows -> (rowCountG k n (GT t i) <= r)%nat /\ (colCountG k n (GT t i) <= r)%nat) ->
  domFits u eta Om th amin amax ((n + 1) * dt) r ->
  forall d0, dataOf k n 0 dt 0 0 d0 ->
  exists d, tridiagonalFactorize O mt k dt A B regularizationNone d0 = Ok d /\
    (forall g h, In g (allIdx n 0 dt 0 0) -> In h (allIdx n 0 dt 0 0) -> fin (factorAt O (o0 O) k d g h)) /\
    (forall t i, In (t, i) rows -> goodPivot fin val th (M (t, nth i p 0%nat) (t, nth i p 0%nat)) (pivotAt O d (GT t i))) /\
    forall rhs, blocksOf n dt rhs -> (forall t i, In (t, i) rows -> fin (vecAt O (nth t rhs []) i)) ->
      rhsFits eta Om th amin ((n + 1) * dt) (rsum rows (fun g => Rabs (val (vecAt O (nth (fst g) rhs []) (snd g))))) ->
      exists x, tridiagonalSolveInPlace O k d rhs = Ok x /\ blocksOf n dt x /\
        forall t i, In (t, i) rows -> fin (vecAt O (nth t x []) i).
Proof. exact @tri_dom_finite. Qed.
Print Assumptions C61_tridiagonal_dominant_finite.

(** ** C62 *)

Theorem C62_dominant_error :
  forall {F : Type} (O : ops F) (fin : F -> Prop) (val : F -> R) (u eta Om : R),
  rounding O fin val u eta -> noOverflow O fin val Om ->
  forall mt s n p b a vals m th amin amax r,
  spOf s n n -> validPerm n p -> factorizationBlk s p = Ok b ->
  spOf a n n -> inputOf O m a vals -> coveredSym (entries a) (entries s) n p ->
  (forall i j, (i < n)%nat -> (j < n)%nat -> fin (symAt O (entries a) vals i j)) ->
  dominatedBy Nat.eq_dec (seq 0 n) (fun i j => val (symAt O (entries a) vals i j)) th ->
  (forall i, (i < n)%nat -> amin <= Rabs (val (symAt O (entries a) vals i i)) <= amax) ->
  (forall i, (i < n)%nat -> (rowCount (c_entries (b_sp b)) i <= r)%nat /\ (colCount (c_entries (b_sp b)) i <= r)%nat) ->
  domFits u eta Om th amin amax n r ->
  forall L0 D0 L D rhs x, length L0 = c_nnz (b_sp b) -> length D0 = n ->
  factorize O mt b (Some m) regularizationNone (L0, D0) = Ok (L, D) ->
  length rhs = n -> (forall v, In v rhs -> fin v) ->
  rhsFits eta Om th amin n (rsum (seq 0 n) (fun i => Rabs (val (vecAt O rhs i)))) ->
  solveInPlace O b (L, D) rhs = Ok x ->
  exists xs, onlySolution (seq 0 n) (fun i j => val (symAt O (entries a) vals i j)) (fun i => val (vecAt O rhs i)) xs /\
    forall X, (forall i, (i < n)%nat -> Rabs (val (vecAt O x i)) <= X) ->
    forall i, (i < n)%nat -> Rabs (val (vecAt O x i) - xs i) <= domError u eta th amin amax n r X.
Proof. exact @single_dom_error. Qed.
Print Assumptions C62_dominant_error.

Theorem C62_arrowhead_dominant_error :
  forall {F : Type} (O : ops F) (fin : F -> Prop) (val : F -> R) (u eta Om : R),
  rounding O fin val u eta -> noOverflow O fin val Om ->
  forall mt s ds dt dl dO k n m w th amin amax r,
  arrowDims s ds dt dl dO -> arrowBlocks s = Ok k ->
  inputArrow O n ds dt dl dO m w -> declaredArrow s n m ->
  (forall g h, In g (allIdx n ds dt dl dO) -> In h (allIdx n ds dt dl dO) -> fin (matAt O m w g h)) ->
  dominatedBy gidx_eq_dec (allIdx n ds dt dl dO) (fun g h => val (matAt O m w g h)) th ->
  (forall g, In g (allIdx n ds dt dl dO) -> amin <= Rabs (val (matAt O m w g g)) <= amax) ->
  (forall g, In g (allIdx n ds dt dl dO) -> (rowCountG k n g <= r)%nat /\ (colCountG k n g <= r)%nat) ->
  domFits u eta Om th amin amax (flatDim n ds dt dl dO) r ->
  forall d0 d rhs x, dataOf k n ds dt dl dO d0 ->
  arrowFactorize O mt k m regularizationNone d0 = Ok d ->
  vecOf n ds dt dl dO rhs -> (forall g, In g (allIdx n ds dt dl dO) -> fin (gvecAt O rhs g)) ->
  rhsFits eta Om th amin (flatDim n ds dt dl dO)
    (rsum (allIdx n ds dt dl dO) (fun g => Rabs (val (gvecAt O rhs g)))) ->
  arrowSolveInPlace O k d rhs = Ok x ->
  exists xs, onlySolution (allIdx n ds dt dl dO) (fun g h => val (matAt O m w g h)) (fun g => val (gvecAt O rhs g)) xs /\
    forall X, (forall g, In g (allIdx n ds dt dl dO) -> Rabs (val (gvecAt O x g)) <= X) ->
    forall g, In g (allIdx n ds dt dl dO) ->
      Rabs (val (gvecAt O x g) - xs g) <= domError u eta th amin amax (flatDim n ds dt dl dO) r X.
Proof. exact @arrow_dom_error. Qed.
Print Assumptions C62_arrowhead_dominant_error.

Theorem C62_tridiagonal_dominant_error :
  forall {F : Type} (O : ops F) (fin : F -> Prop) (val : F -> R) (u eta Om : R),
  rounding O fin val u eta -> noOverflow O fin val Om ->
  forall mt a b p dt n k A B wA wB th amin amax r,
  spOf a dt dt -> spOf b dt dt -> validPerm dt p -> tridiagonalBlocks a b p = Ok k ->
  inputTri O n dt A B wA wB -> declaredTri a b n A B ->
  let rows := list_prod (seq 0 (n + 1)) (seq 0 dt) in
  let M := fun r c => triMatAt O A B wA wB (fst r) (snd r) (fst c) (snd c) in
  (forall g h, In g rows -> In h rows -> fin (M g h)) ->
  dominatedBy pair_eq_dec rows (fun g h => val (M g h)) th ->
  (forall g, In g rows -> amin <= Rabs (val (M g g)) <= amax) ->
  (forall t i, In (t, i) rows -> (rowCountG k n (GT t i) <= r)%nat /\ (colCountG k n (GT t i) <= r)%nat) ->
  domFits u eta Om th amin amax ((n + 1) * dt) r ->
  forall d0 d rhs x, dataOf k n 0 dt 0 0 d0 ->
  tridiagonalFactorize O mt k dt A B regularizationNone d0 = Ok d ->
  blocksOf n dt rhs -> (forall t i, In (t, i) rows -> fin (vecAt O (nth t rhs []) i)) ->
  rhsFits eta Om th amin ((n + 1) * dt) (rsum rows (fun g => Rabs (val (vecAt O (nth (fst g) rhs []) (snd g))))) ->
  tridiagonalSolveInPlace O k d rhs = Ok x ->
  exists xs, onlySolution rows (fun g h => val (M g h)) (fun g => val (vecAt O (nth (fst g) rhs []) (snd g))) xs /\
    forall X, (forall t i, In (t, i) rows -> Rabs (val (vecAt O (nth t x []) i)) <= X) ->
    forall t i, In (t, i) rows ->
      Rabs (val (vecAt O (nth t x []) i) - xs (t, i)) <= domError u eta th amin amax ((n + 1) * dt) r X.
Proof. exact @tri_dom_error. Qed.
Print Assumptions C62_tridiagonal_dominant_error.

(** ** both in double precision, up to dimension 2^20 *)

Local Notation fin := (ieeeFinite 53 1024).
Local Notation val := (ieeeVal 53 1024).

Theorem C62_double :
  forall mt s n p b a vals m,
  (Z.of_nat n <= 2 ^ 20)%Z ->
  spOf s n n -> validPerm n p -> factorizationBlk s p = Ok b ->
  spOf a n n -> inputOf Od m a vals -> coveredSym (entries a) (entries s) n p ->
  (forall v, In v vals -> fin v) ->
  dominatedBy Nat.eq_dec (seq 0 n) (fun i j => val (symAt Od (entries a) vals i j)) (/ 2) ->
  (forall i, (i < n)%nat ->
     bpow radix2 (-400) <= Rabs (val (symAt Od (entries a) vals i i)) <= bpow radix2 400) ->
  forall L0 D0, length L0 = c_nnz (b_sp b) -> length D0 = n ->
  exists L D, factorize Od mt b (Some m) regularizationNone (L0, D0) = Ok (L, D) /\
    (forall v, In v L -> fin v) /\
    (forall i, (i < n)%nat ->
       goodPivot fin val (/ 2) (symAt Od (entries a) vals (nth i p 0%nat) (nth i p 0%nat)) (vecAt Od D i)) /\
    forall rhs, length rhs = n -> (forall v, In v rhs -> fin v /\ Rabs (val v) <= bpow radix2 400) ->
      exists x, solveInPlace Od b (L, D) rhs = Ok x /\ length x = n /\ (forall v, In v x -> fin v) /\
        exists xs, onlySolution (seq 0 n) (fun i j => val (symAt Od (entries a) vals i j))
            (fun i => val (vecAt Od rhs i)) xs /\
          forall X, (forall v, In v x -> Rabs (val v) <= X) ->
          forall i, (i < n)%nat ->
            Rabs (val (vecAt Od x i) - xs i) <= INR n * bpow radix2 (-44) * X + bpow radix2 (-650).
Proof. exact @single_dom_double. Qed.
Print Assumptions C62_double.

Theorem C62_arrowhead_double :
  forall mt s ds dt dl dO k n m w,
  (Z.of_nat (flatDim n ds dt dl dO) <= 2 ^ 20)%Z ->
  arrowDims s ds dt dl dO -> arrowBlocks s = Ok k ->
  inputArrow Od n ds dt dl dO m w -> declaredArrow s n m ->
  let all := allIdx n ds dt dl dO in
  (forall g h, In g all -> In h all -> fin (matAt Od m w g h)) ->
  dominatedBy gidx_eq_dec all (fun g h => val (matAt Od m w g h)) (/ 2) ->
  (forall g, In g all -> bpow radix2 (-400) <= Rabs (val (matAt Od m w g g)) <= bpow radix2 400) ->
  forall d0, dataOf k n ds dt dl dO d0 ->
  exists d, arrowFactorize Od mt k m regularizationNone d0 = Ok d /\
    (forall g h, In g all -> In h all -> fin (factorAt Od (o0 Od) k d g h)) /\
    (forall g, In g all -> goodPivot fin val (/ 2) (matAt Od m w (permIdx s g) (permIdx s g)) (pivotAt Od d g)) /\
    forall rhs, vecOf n ds dt dl dO rhs ->
      (forall g, In g all -> fin (gvecAt Od rhs g) /\ Rabs (val (gvecAt Od rhs g)) <= bpow radix2 400) ->
      exists x, arrowSolveInPlace Od k d rhs = Ok x /\ vecOf n ds dt dl dO x /\
        (forall g, In g all -> fin (gvecAt Od x g)) /\
        exists xs, onlySolution all (fun g h => val (matAt Od m w g h)) (fun g => val (gvecAt Od rhs g)) xs /\
          forall X, (forall g, In g all -> Rabs (val (gvecAt Od x g)) <= X) ->
          forall g, In g all -> Rabs (val (gvecAt Od x g) - xs g) <=
            INR (flatDim n ds dt dl dO) * bpow radix2 (-44) * X + bpow radix2 (-650).
Proof. exact @arrow_dom_double. Qed.
Print Assumptions C62_arrowhead_double.

Theorem C62_tridiagonal_double :
  forall mt a b p dt n k A B wA wB,
  (Z.of_nat ((n + 1) * dt) <= 2 ^ 20)%Z ->
  spOf a dt dt -> spOf b dt dt -> validPerm dt p -> tridiagonalBlocks a b p = Ok k ->
  inputTri Od n dt A B wA wB -> declaredTri a b n A B ->
  let rows := list_prod (seq 0 (n + 1)) (seq 0 dt) in
  let M := fun r c => triMatAt Od A B wA wB (fst r) (snd r) (fst c) (snd c) in
  (forall g h, In g rows -> In h rows -> fin (M g h)) ->
  dominatedBy pair_eq_dec rows (fun g h => val (M g h)) (/ 2) ->
  (forall g, In g rows -> bpow radix2 (-400) <= Rabs (val (M g g)) <= bpow radix2 400) ->
  forall d0, dataOf k n 0 dt 0 0 d0 ->
  exists d, tridiagonalFactorize Od mt k dt A B regularizationNone d0 = Ok d /\
    (forall g h, In g (allIdx n 0 dt 0 0) -> In h (allIdx n 0 dt 0 0) -> fin (factorAt Od (o0 Od) k d g h)) /\
    (forall t i, In (t, i) rows -> goodPivot fin val (/ 2) (M (t, nth i p 0%nat) (t, nth i p 0%nat)) (pivotAt Od d (GT t i))) /\
    forall rhs, blocksOf n dt rhs ->
      (forall t i, In (t, i) rows ->
         fin (vecAt Od (nth t rhs []) i) /\ Rabs (val (vecAt Od (nth t rhs []) i)) <= bpow radix2 400) ->
      exists x, tridiagonalSolveInPlace Od k d rhs = Ok x /\ blocksOf n dt x /\
        (forall t i, In (t, i) rows -> fin (vecAt Od (nth t x []) i)) /\
        exists xs, onlySolution rows (fun g h => val (M g h)) (fun g => val (vecAt Od (nth (fst g) rhs []) (snd g))) xs /\
          forall X, (forall t i, In (t, i) rows -> Rabs (val (vecAt Od (nth t x []) i)) <= X) ->
          forall t i, In (t, i) rows -> Rabs (val (vecAt Od (nth t x []) i) - xs (t, i)) <=
            INR ((n + 1) * dt) * bpow radix2 (-44) * X + bpow radix2 (-650).
Proof. exact @tri_dom_double. Qed.
Print Assumptions C62_tridiagonal_double.

(** ** examples *)

(** doubles that are integers *)
Definition zOf (v : double) : Z :=
  match v with
  | B754_finite s m e _ => cond_Zopp s (if (0 <=? e)%Z then Zpos m * 2 ^ e else Zpos m / 2 ^ (- e))
  | _ => 0
  end%Z.
Definition isZ (v : double) : bool :=
  match v with
  | B754_zero _ => true
  | B754_finite s m e _ => (0 <=? e)%Z || (Zpos m mod 2 ^ (- e) =? 0)%Z
  | _ => false
  end.
Lemma isZ_ok v : isZ v = true -> fin v /\ val v = IZR (zOf v).
Proof.
  destruct v as [s|s| |s m e B]; cbn [isZ zOf]; try discriminate.
  - intros _. split; reflexivity.
  - intros H. split; [reflexivity|]. unfold ieeeVal, B2R, F2R. cbn [Fnum Fexp].
    assert (K : IZR (Zpos m) * bpow radix2 e = IZR (if (0 <=? e)%Z then Zpos m * 2 ^ e else Zpos m / 2 ^ (- e))).
    { destruct (0 <=? e)%Z eqn:E.
      - apply Z.leb_le in E. rewrite mult_IZR. change (2 ^ e)%Z with (radix2 ^ e)%Z.
        rewrite (IZR_Zpower radix2) by lia. reflexivity.
      - apply Z.leb_gt in E. cbn [orb] in H. apply Z.eqb_eq in H.
        apply Z.div_exact in H; [|apply Z.pow_nonzero; lia].
        rewrite H at 1. rewrite mult_IZR. change (2 ^ (- e))%Z with (radix2 ^ (- e))%Z.
        rewrite (IZR_Zpower radix2) by lia.
        rewrite (Rmult_comm (bpow radix2 (- e))), Rmult_assoc, <- bpow_plus.
        replace (- e + e)%Z with 0%Z by lia. cbn [bpow]. ring. }
    destruct s; cbn [cond_Zopp]; [|exact K]. rewrite !opp_IZR, <- K. ring.
Qed.

(** a check of the hypotheses *)
Definition offSum {I : Type} (eqd : forall a b : I, {a = b} + {a <> b}) (all : list I) (M : I -> I -> double) g : Z :=
  fold_right (fun h s => (if eqd g h then 0 else Z.abs (zOf (M g h))) + s)%Z 0%Z all.
Definition domCheck {I : Type} (eqd : forall a b : I, {a = b} + {a <> b}) (all : list I) (M : I -> I -> double) : bool :=
  forallb (fun g => forallb (fun h => isZ (M g h)) all &&
    (2 * offSum eqd all M g <=? Z.abs (zOf (M g g)))%Z &&
    (1 <=? Z.abs (zOf (M g g)))%Z && (Z.abs (zOf (M g g)) <=? 1000)%Z) all.

Lemma big_400 : 1000 <= bpow radix2 400.
Proof. apply Rle_trans with (bpow radix2 10); [cbn; lra|apply bpow_le; lia]. Qed.

Lemma domCheck_ok {I : Type} eqd (all : list I) M : domCheck eqd all M = true ->
  (forall g h, In g all -> In h all -> fin (M g h)) /\
  dominatedBy eqd all (fun g h => val (M g h)) (/ 2) /\
  (forall g, In g all -> bpow radix2 (-400) <= Rabs (val (M g g)) <= bpow radix2 400).
Proof.
  intros H. unfold domCheck in H. rewrite forallb_forall in H.
  assert (P : forall g, In g all -> (forall h, In h all -> isZ (M g h) = true) /\
    (2 * offSum eqd all M g <= Z.abs (zOf (M g g)))%Z /\ (1 <= Z.abs (zOf (M g g)) <= 1000)%Z).
  { intros g Hg. specialize (H g Hg). rewrite !andb_true_iff in H. destruct H as (((H1 & H2) & H3) & H4).
    rewrite forallb_forall in H1. apply Z.leb_le in H2, H3, H4. auto. }
  split; [|split].
  - intros g h Hg Hh. apply isZ_ok. apply (P g Hg). auto.
  - intros g Hg. destruct (P g Hg) as (P1 & P2 & _).
    assert (E : suml Or all (fun h => if eqd g h then 0 else Rabs (val (M g h))) = IZR (offSum eqd all M g)).
    { unfold offSum. revert P1. generalize all. intros l Hl. induction l as [|h l IH]; [reflexivity|].
      cbn [suml fold_right]. rewrite plus_IZR, <- IH by (intros; apply Hl; right; auto).
      change (oadd Or) with Rplus. f_equal. destruct (eqd g h); [reflexivity|].
      destruct (isZ_ok (M g h)) as [_ ->]; [apply Hl; left; reflexivity|]. symmetry. apply abs_IZR. }
    rewrite E. destruct (isZ_ok (M g g)) as [_ ->]; [auto|]. rewrite <- abs_IZR.
    apply IZR_le in P2. rewrite mult_IZR in P2. lra.
  - intros g Hg. destruct (P g Hg) as (P1 & _ & P3 & P4).
    destruct (isZ_ok (M g g)) as [_ ->]; [auto|]. rewrite <- abs_IZR.
    apply IZR_le in P3, P4. pose proof big_400. split; [|lra].
    apply Rle_trans with 1; [|lra]. change 1 with (bpow radix2 0). apply bpow_le. lia.
Qed.

(** diagonal 8, -5, 6, -7 *)
Definition exDomD : list Z := [8; 1; -5; -2; 6; 1; -7]%Z.
Definition exDomMd : mat := matD exS exDomD.
Example C61_example :
  (Z.of_nat 4 <= 2 ^ 20)%Z /\
  spOf exS 4 4 /\ validPerm 4 exP /\ factorizationBlk exS exP = Ok exB /\
  inputOf Od exDomMd exS (dzs exDomD) /\ coveredSym (entries exS) (entries exS) 4 exP /\
  (forall v, In v (dzs exDomD) -> fin v) /\
  dominatedBy Nat.eq_dec (seq 0 4) (fun i j => val (symAt Od (entries exS) (dzs exDomD) i j)) (/ 2) /\
  (forall i, (i < 4)%nat ->
     bpow radix2 (-400) <= Rabs (val (symAt Od (entries exS) (dzs exDomD) i i)) <= bpow radix2 400) /\
  domFits (bpow radix2 (-53)) (bpow radix2 (2 - 1024 - 53)) (bpow radix2 (1024 - 1)) (/ 2)
    (bpow radix2 (-400)) (bpow radix2 400) 4 4 /\
  match factorize Od EntryWise exB (Some exDomMd) regularizationNone (exLd0, exDd0) with
  | Ok (L, D) => finb L = true /\ finb D = true /\
      match solveInPlace Od exB (L, D) (dzs [1; 2; 3; 4]%Z) with
      | Ok x => finb x = true
      | Err _ => False
      end
  | Err _ => False
  end.
Proof.
  assert (C : domCheck Nat.eq_dec (seq 0 4) (symAt Od (entries exS) (dzs exDomD)) = true) by (vm_compute; reflexivity).
  apply domCheck_ok in C. destruct C as (_ & C2 & C3).
  split; [lia|]. split; [exact exS_ok|]. split; [exact exP_ok|]. split; [exact exB_ok|].
  split; [apply matD_input; reflexivity|]. split; [exact exM_covered|].
  split; [apply finb_ok; vm_compute; reflexivity|].
  split; [exact C2|]. split; [intros i Hi; apply C3; apply in_seq; lia|].
  split; [apply double_fits; lia|].
  vm_compute. repeat split.
Qed.

(** the range matters: a diagonal of 2^-1074, right-hand side 1 *)
Example C61_range_needed :
  match factorizationBlk (mkSp 1 1 [(0, 0)%nat]) [0%nat] with
  | Ok b => match factorize Od EntryWise b (Some (mkMat (mkSp 1 1 [(0, 0)%nat]) (rd [dbl 1 (-1074)])))
                    regularizationNone ([], dzs [0]%Z) with
            | Ok (L, D) => finb D = true /\
                match solveInPlace Od b (L, D) (dzs [1]%Z) with
                | Ok x => finb x = false
                | Err _ => False
                end
            | Err _ => False
            end
  | Err _ => False
  end.
Proof. vm_compute. repeat split. Qed.

(** diagonal 6, -9 and -8, 9, -10 *)
Definition exDomInD : arrow_mat (F:=double) :=
  let c := fun v => matD ex11 [v]%Z in
  mkAM (c 6%Z) (c 1%Z) (c 1%Z) [c (-9)%Z; c (-8)%Z] [c 1%Z] (c 1%Z) (c 9%Z) (c 1%Z)
    [c 1%Z; c 1%Z] (c (-10)%Z).
Definition exDomWD : arrow_vals double :=
  let c := fun v => dzs [v]%Z in
  mkVals (c 6%Z) (c 1%Z) (c 1%Z) [c (-9)%Z; c (-8)%Z] [c 1%Z] (c 1%Z) (c 9%Z) (c 1%Z)
    [c 1%Z; c 1%Z] (c (-10)%Z).
Definition exDomDD : arrow_data (F:=double) :=
  match arrowCtor Od exQK 1 with Ok d => d | Err _ => noDataD end.
Definition exDomXD : arrow_vec (F:=double) :=
  mkAV (dzs [1]%Z) (map dzs [[2]; [3]]%Z) (dzs [4]%Z) (dzs [5]%Z).
Example C62_arrowhead_example :
  (Z.of_nat (flatDim 1 1 1 1 1) <= 2 ^ 20)%Z /\
  arrowDims exQA 1 1 1 1 /\ arrowBlocks exQA = Ok exQK /\
  inputArrow Od 1 1 1 1 1 exDomInD exDomWD /\ declaredArrow exQA 1 exDomInD /\
  (forall g h, In g (allIdx 1 1 1 1 1) -> In h (allIdx 1 1 1 1 1) -> fin (matAt Od exDomInD exDomWD g h)) /\
  dominatedBy gidx_eq_dec (allIdx 1 1 1 1 1) (fun g h => val (matAt Od exDomInD exDomWD g h)) (/ 2) /\
  (forall g, In g (allIdx 1 1 1 1 1) ->
     bpow radix2 (-400) <= Rabs (val (matAt Od exDomInD exDomWD g g)) <= bpow radix2 400) /\
  dataOf exQK 1 1 1 1 1 exDomDD /\ vecOf 1 1 1 1 1 exDomXD /\
  match arrowFactorize Od EntryWise exQK exDomInD regularizationNone exDomDD with
  | Ok d => match arrowSolveInPlace Od exQK d exDomXD with
            | Ok x => finb (flat x) = true
            | Err _ => False
            end
  | Err _ => False
  end.
Proof.
  assert (C : domCheck gidx_eq_dec (allIdx 1 1 1 1 1) (matAt Od exDomInD exDomWD) = true) by (vm_compute; reflexivity).
  apply domCheck_ok in C. destruct C as (C1 & C2 & C3).
  split; [vm_compute; discriminate|]. split; [exact exQA_dims|]. split; [exact exQK_ok|].
  split; [|split; [|split; [exact C1|split; [exact C2|split; [exact C3|split; [|split]]]]]].
  - constructor; try (apply dmat; reflexivity); try reflexivity.
    + intros [|[|t]] H; try lia; apply dmat; reflexivity.
    + intros [|t] H; try lia; apply dmat; reflexivity.
    + intros [|[|t]] H; try lia; apply dmat; reflexivity.
  - constructor; try (intros r c H _; exact H); try (intros r c H; exact H).
    + intros [|[|t]] H; try lia; intros r c Hin _; exact Hin.
    + intros [|t] H; try lia; intros r c Hin; exact Hin.
    + intros [|[|t]] H; try lia; intros r c Hin; exact Hin.
  - data_of.
  - constructor; try reflexivity. intros [|[|t]] H; try lia; reflexivity.
  - vm_compute. reflexivity.
Qed.

(** a tridiagonal matrix of three blocks of dimension 3 *)
Definition exDomTd : list (list Z) := [[17;-19;15;1]; [17;19;18;1]; [-27;19;18;1]]%Z.
Example C62_tridiagonal_example :
  let A := map (matD exTA) exDomTd in
  let wA := map dzs exDomTd in
  let rows := list_prod (seq 0 (2 + 1)) (seq 0 3) in
  let M := fun r c => triMatAt Od A (a_ts exInD) wA (w_ts exWD) (fst r) (snd r) (fst c) (snd c) in
  (Z.of_nat ((2 + 1) * 3) <= 2 ^ 20)%Z /\
  spOf exTA 3 3 /\ spOf exTB 3 3 /\ validPerm 3 [2;0;1]%nat /\ tridiagonalBlocks exTA exTB [2;0;1]%nat = Ok exTK /\
  inputTri Od 2 3 A (a_ts exInD) wA (w_ts exWD) /\ declaredTri exTA exTB 2 A (a_ts exInD) /\
  (forall g h, In g rows -> In h rows -> fin (M g h)) /\
  dominatedBy pair_eq_dec rows (fun g h => val (M g h)) (/ 2) /\
  (forall g, In g rows -> bpow radix2 (-400) <= Rabs (val (M g g)) <= bpow radix2 400) /\
  dataOf exTK 2 0 3 0 0 exTDd /\ blocksOf 2 3 (v_tri exXD) /\
  match tridiagonalFactorize Od EntryWise exTK 3 A (a_ts exInD) regularizationNone exTDd with
  | Ok d => match tridiagonalSolveInPlace Od exTK d (v_tri exXD) with
            | Ok x => forallb finb x = true
            | Err _ => False
            end
  | Err _ => False
  end.
Proof.
  cbv zeta.
  assert (C : domCheck pair_eq_dec (list_prod (seq 0 (2 + 1)) (seq 0 3))
    (fun r c => triMatAt Od (map (matD exTA) exDomTd) (a_ts exInD) (map dzs exDomTd) (w_ts exWD)
                  (fst r) (snd r) (fst c) (snd c)) = true) by (vm_compute; reflexivity).
  apply domCheck_ok in C. destruct C as (C1 & C2 & C3).
  split; [vm_compute; discriminate|]. split; [exact exT_spA|]. split; [exact exT_spB|].
  split; [exact exT_perm|]. split; [exact exTK_ok|].
  split; [|split; [|split; [exact C1|split; [exact C2|split; [exact C3|split; [exact exTDd_ok|split]]]]]].
  - constructor; try reflexivity; try apply exInD_ok.
    intros [|[|[|t]]] H; try lia; apply dmat; reflexivity.
  - split; [|apply exInD_declared]. intros [|[|[|t]]] Ht r c H _; try lia; exact H.
  - split; [reflexivity|]. intros [|[|[|t]]] H; try lia; reflexivity.
  - vm_compute. reflexivity.
Qed.
