(** Property C53: block systems have the same factor and solutions as the assembled matrix. *)
From Coq Require Import List Arith Lia Bool ZArith Reals QArith Qcanon.
From Flocq Require Import BinarySingleNaN.
From Verif Require Import Base ModelPerm ModelSparsity ModelSymbolic ModelNumeric ModelArrow ModelReg ModelIeee.
From Verif Require Import SpecSymbolic SpecArrow SpecNumeric SpecArrowNum SpecAgree SpecFlat.
From Verif Require Import ExampleData ExampleArrow ExampleIeee.
From Verif Require Import ProofAgreeIeee ProofAgreeFlat ProofPropFlat PropSingle PropAgree.
Import ListNotations.
Local Open Scope nat_scope.

Theorem C53_arrowhead_flat :
  forall {F : Type} (O : ops F) (fin : F -> Prop) (same : F -> F -> Prop),
  sameRules O fin same ->
  forall s ds dt dl dO k n sF bF,
  let all := allIdx n ds dt dl dO in
  let N := flatDim n ds dt dl dO in
  let pos := flatPos n ds dt dl in
  let pF := flatPerm s n ds dt dl dO in
  arrowDims s ds dt dl dO -> arrowBlocks s = Ok k ->
  spOf sF N N -> factorizationBlk sF pF = Ok bF ->
  forall mt reg m w aF valsF mF d0 L0 D0,
  mt = UpLooking \/ dO = 0 ->
  regSame fin same reg -> indexFree reg ->
  inputArrow O n ds dt dl dO m w -> declaredArrow s n m ->
  spOf aF N N -> inputOf O mF aF valsF -> coveredSym (entries aF) (entries sF) N pF ->
  (forall g h, In g all -> In h all ->
     agree same (matAt O m w g h) (symAt O (entries aF) valsF (pos g) (pos h))) ->
  dataOf k n ds dt dl dO d0 -> length L0 = c_nnz (b_sp bF) -> length D0 = N ->
  exists d L D, arrowFactorize O mt k m reg d0 = Ok d /\
    factorize O mt bF (Some mF) reg (L0, D0) = Ok (L, D) /\
    ((forall g, In g all -> fin (pivotAt O d g) /\ ~ same (pivotAt O d g) (o0 O)) /\
     (forall g h, In g all -> In h all -> g <> h -> fin (factorAt O (o0 O) k d g h)) \/
     (forall i, i < N -> fin (vecAt O D i) /\ ~ same (vecAt O D i) (o0 O)) /\
     (forall i j, i < N -> j < N -> fin (denseAt O (c_entries (b_sp bF)) L i j)) ->
     (forall g, In g all -> same (pivotAt O d g) (vecAt O D (pos g))) /\
     (forall g h, In g all -> In h all -> g <> h ->
        same (factorAt O (o0 O) k d g h) (denseAt O (c_entries (b_sp bF)) L (pos g) (pos h))) /\
     forall rhs, vecOf n ds dt dl dO rhs ->
     exists x xF, arrowSolveInPlace O k d rhs = Ok x /\ solveInPlace O bF (L, D) (flatVec rhs) = Ok xF /\
       vecOf n ds dt dl dO x /\ length xF = N /\
       ((forall g, In g all -> fin (gvecAt O x g)) \/ (forall i, i < N -> fin (vecAt O xF i)) ->
        forall g, In g all -> same (gvecAt O x g) (vecAt O xF (pos g)))).
Proof. exact @arrow_flat. Qed.
Print Assumptions C53_arrowhead_flat.

Theorem C53_tridiagonal_flat :
  forall {F : Type} (O : ops F) (fin : F -> Prop) (same : F -> F -> Prop),
  sameRules O fin same ->
  forall a b p dt k n sF bF,
  let N := (n + 1) * dt in
  let pF := flatTriPerm p n dt in
  spOf a dt dt -> spOf b dt dt -> validPerm dt p -> tridiagonalBlocks a b p = Ok k ->
  spOf sF N N -> factorizationBlk sF pF = Ok bF ->
  forall mt reg A B wA wB aF valsF mF d0 L0 D0,
  regSame fin same reg -> indexFree reg ->
  inputTri O n dt A B wA wB -> declaredTri a b n A B ->
  spOf aF N N -> inputOf O mF aF valsF -> coveredSym (entries aF) (entries sF) N pF ->
  (forall t i u j, t < n + 1 -> i < dt -> u < n + 1 -> j < dt ->
     agree same (triMatAt O A B wA wB t i u j) (symAt O (entries aF) valsF (t * dt + i) (u * dt + j))) ->
  dataOf k n 0 dt 0 0 d0 -> length L0 = c_nnz (b_sp bF) -> length D0 = N ->
  exists d L D, tridiagonalFactorize O mt k dt A B reg d0 = Ok d /\
    factorize O mt bF (Some mF) reg (L0, D0) = Ok (L, D) /\
    ((forall t i, t < n + 1 -> i < dt ->
        fin (pivotAt O d (GT t i)) /\ ~ same (pivotAt O d (GT t i)) (o0 O)) /\
     (forall t i u j, t < n + 1 -> i < dt -> u < n + 1 -> j < dt -> (t, i) <> (u, j) ->
        fin (factorAt O (o0 O) k d (GT t i) (GT u j))) \/
     (forall i, i < N -> fin (vecAt O D i) /\ ~ same (vecAt O D i) (o0 O)) /\
     (forall i j, i < N -> j < N -> fin (denseAt O (c_entries (b_sp bF)) L i j)) ->
     (forall t i, t < n + 1 -> i < dt -> same (pivotAt O d (GT t i)) (vecAt O D (t * dt + i))) /\
     (forall t i u j, t < n + 1 -> i < dt -> u < n + 1 -> j < dt -> (t, i) <> (u, j) ->
        same (factorAt O (o0 O) k d (GT t i) (GT u j))
          (denseAt O (c_entries (b_sp bF)) L (t * dt + i) (u * dt + j))) /\
     forall rhs, blocksOf n dt rhs ->
     exists x xF, tridiagonalSolveInPlace O k d rhs = Ok x /\ solveInPlace O bF (L, D) (concat rhs) = Ok xF /\
       blocksOf n dt x /\ length xF = N /\
       ((forall t i, t < n + 1 -> i < dt -> fin (vecAt O (nth t x []) i)) \/ (forall i, i < N -> fin (vecAt O xF i)) ->
        forall t i, t < n + 1 -> i < dt -> same (vecAt O (nth t x []) i) (vecAt O xF (t * dt + i)))).
Proof. exact @tri_flat. Qed.
Print Assumptions C53_tridiagonal_flat.

(** the permutation of the assembled matrix is one *)
Theorem C53_permutation :
  forall n ds dt dl dO s,
  arrowDims s ds dt dl dO -> validPerm (flatDim n ds dt dl dO) (flatPerm s n ds dt dl dO).
Proof. exact flatPerm_valid. Qed.
Print Assumptions C53_permutation.

(** ** examples in double precision *)

(** the assembled matrix without its zeros *)
Definition flatE (all : list gidx) (at' : nat -> nat -> double) : list (nat * nat) :=
  filter (fun e => negb (Beqb (at' (fst e) (snd e)) (dz 0)))
    (flat_map (fun i => map (fun j => (i, j)) (seq 0 (i + 1))) (seq 0 (length all))).
Definition exAll : list gidx := allIdx 2 2 3 2 2.
Definition exAt (i j : nat) : double := matAt Od exInD exWD (nth i exAll (GS 0)) (nth j exAll (GS 0)).
Definition exFlat : sparsity := Eval vm_compute in mkSp 15 15 (flatE exAll exAt).
Definition exFlatVals : list double := map (fun e => exAt (fst e) (snd e)) (entries exFlat).
Definition exFlatM : mat (F:=double) := mkMat exFlat (rd exFlatVals).
Definition exFlatP : perm := Eval vm_compute in flatPerm exA 2 2 3 2 2.
Definition exFlatB : blk := match factorizationBlk exFlat exFlatP with Ok b => b | Err _ => emptyDiagBlk end.
Lemma exFlat_ok : spOf exFlat 15 15.
Proof. apply spOf_check_ok. vm_compute. reflexivity. Qed.
Lemma exFlatM_ok : inputOf Od exFlatM exFlat exFlatVals.
Proof.
  constructor; [reflexivity|unfold exFlatVals; apply map_length|].
  intros k Hk. cbn [m_val exFlatM]. unfold rd. rewrite (nth_error_nth' _ (o0 Od)) by exact Hk. auto.
Qed.
Lemma exFlatB_ok : factorizationBlk exFlat (flatPerm exA 2 2 3 2 2) = Ok exFlatB.
Proof. vm_compute. reflexivity. Qed.

Example C53_example :
  coveredSym (entries exFlat) (entries exFlat) 15 (flatPerm exA 2 2 3 2 2) /\
  forallb (fun g => forallb (fun h => sameb (matAt Od exInD exWD g h)
     (symAt Od (entries exFlat) exFlatVals (flatPos 2 2 3 2 g) (flatPos 2 2 3 2 h))) exAll) exAll = true /\
  indexFree (@regularizationNone double) /\
  match arrowFactorize Od UpLooking exK exInD regularizationNone exDD,
        factorize Od UpLooking exFlatB (Some exFlatM) regularizationNone (repeat nz (c_nnz (b_sp exFlatB)), repeat nz 15) with
  | Ok d, Ok (L, D) =>
      forallb (fun g => nonzerod (pivotAt Od d g)) exAll = true /\
      pairsb (fun g h => is_finite (factorAt Od (o0 Od) exK d g h)) exAll = true /\
      pairsb (fun g h => sameb (factorAt Od (o0 Od) exK d g h)
        (denseAt Od (c_entries (b_sp exFlatB)) L (flatPos 2 2 3 2 g) (flatPos 2 2 3 2 h))) exAll = true /\
      match arrowSolveInPlace Od exK d exXD, solveInPlace Od exFlatB (L, D) (flatVec exXD) with
      | Ok x, Ok xF => forallb (fun g => is_finite (gvecAt Od x g)) exAll = true /\
          forallb (fun g => sameb (gvecAt Od x g) (vecAt Od xF (flatPos 2 2 3 2 g))) exAll = true
      | _, _ => False
      end
  | _, _ => False
  end.
Proof.
  split; [apply declared_is_covered; [apply (C53_permutation 2 2 3 2 2); exact exA_dims|auto]|].
  split; [vm_compute; reflexivity|]. split; [intros v i j; reflexivity|].
  vm_compute. repeat split; reflexivity.
Qed.

(** With the other method the rows of the outer block are computed by other operations, and
    the roundings differ. *)
Example C53_entry_wise_example :
  match arrowFactorize Od EntryWise exK exInD regularizationNone exDD,
        factorize Od EntryWise exFlatB (Some exFlatM) regularizationNone (repeat nz (c_nnz (b_sp exFlatB)), repeat nz 15) with
  | Ok d, Ok (L, D) =>
      pairsb (fun g h => sameb (factorAt Od (o0 Od) exK d g h)
        (denseAt Od (c_entries (b_sp exFlatB)) L (flatPos 2 2 3 2 g) (flatPos 2 2 3 2 h))) exAll = false
  | _, _ => False
  end.
Proof. vm_compute. reflexivity. Qed.

(** the tridiagonal part *)
Definition exTAll : list gidx := allIdx 2 0 3 0 0.
Definition exTAt (i j : nat) : double :=
  triMatAt Od (a_td exInD) (a_ts exInD) (w_td exWD) (w_ts exWD) (i / 3) (i mod 3) (j / 3) (j mod 3).
Definition exTFlat : sparsity := Eval vm_compute in mkSp 9 9 (flatE exTAll exTAt).
Definition exTFlatVals : list double := map (fun e => exTAt (fst e) (snd e)) (entries exTFlat).
Definition exTFlatM : mat (F:=double) := mkMat exTFlat (rd exTFlatVals).
Definition exTFlatB : blk :=
  match factorizationBlk exTFlat (flatTriPerm [2;0;1] 2 3) with Ok b => b | Err _ => emptyDiagBlk end.
Example C53_tridiagonal_example :
  spOf exTFlat 9 9 /\ flatTriPerm [2;0;1] 2 3 = [2;0;1; 5;3;4; 8;6;7] /\
  match tridiagonalFactorize Od EntryWise exTK 3 (a_td exInD) (a_ts exInD) regularizationNone exTDd,
        factorize Od EntryWise exTFlatB (Some exTFlatM) regularizationNone (repeat nz (c_nnz (b_sp exTFlatB)), repeat nz 9) with
  | Ok d, Ok (L, D) =>
      forallb (fun g => nonzerod (pivotAt Od d g)) exTAll = true /\
      pairsb (fun g h => is_finite (factorAt Od (o0 Od) exTK d g h)) exTAll = true /\
      pairsb (fun g h => sameb (factorAt Od (o0 Od) exTK d g h)
        (denseAt Od (c_entries (b_sp exTFlatB)) L (flatPos 2 0 3 0 g) (flatPos 2 0 3 0 h))) exTAll = true /\
      match tridiagonalSolveInPlace Od exTK d (v_tri exXD), solveInPlace Od exTFlatB (L, D) (concat (v_tri exXD)) with
      | Ok x, Ok xF => map show (concat x) = map show xF /\ forallb is_finite xF = true
      | _, _ => False
      end
  | _, _ => False
  end.
Proof. split; [apply spOf_check_ok; vm_compute; reflexivity|]. vm_compute. repeat split; reflexivity. Qed.
