(** Property C85: what the solution minimizes when the regularization is used. *)
From Coq Require Import Reals Lra Lia List Arith Bool ZArith QArith Qcanon.
From Verif Require Import Base ModelPerm ModelSparsity ModelSymbolic ModelNumeric ModelArrow ModelReg.
From Verif Require Import SpecSymbolic SpecArrow SpecNumeric SpecArrowNum SpecReg SpecPivot SpecPivotBound SpecMinimize.
From Verif Require Import ExampleData ExampleArrow ExamplePivot.
From Verif Require Import ProofSingle ProofRegMinimum PropSingle PropReg PropRefine.
Import ListNotations.
Local Open Scope R_scope.

(** ** C85 *)

(** The matrix is positive semidefinite, possibly singular, and the right-hand side is arbitrary.
    The solution is the only minimum of half of y^T A y minus b^T y plus a multiple of the squares of the
    variables whose pivots were replaced. Therefore its value exceeds that of any other point
    by a small multiple of the square of the length of that point at most. *)
Theorem C85_minimum :
  forall eps mt s n p a vals m,
  0 < eps < 1 ->
  spOf s n n -> validPerm n p ->
  spOf a n n -> inputOf Or m a vals -> coveredSym (entries a) (entries s) n p ->
  let all := seq 0 n in let A := symAt Or (entries a) vals in
  let c := Rpower eps (1/2) in let tol := Rpower eps (5/8) in
  posSemiDef all A ->
  exists b, factorizationBlk s p = Ok b /\
    forall L0 D0, length L0 = c_nnz (b_sp b) -> length D0 = n ->
    exists L D E, factorize Or mt b (Some m) (regularizationSmallPositiveConstant (realFns eps)) (L0, D0) = Ok (L, D) /\
      (forall i, In i all -> E i = 0 \/ c - tol < E i < c + tol) /\
      forall rhs, length rhs = n ->
      exists x, solveInPlace Or b (L, D) rhs = Ok x /\ length x = n /\
        onlyPoint all (isMinimum (fun y => objective all A (vecAt Or rhs) y + weighted all E y / 2)) (vecAt Or x) /\
        forall y, objective all A (vecAt Or rhs) (vecAt Or x) <= objective all A (vecAt Or rhs) y + (c + tol) / 2 * squares all y.
Proof. exact @single_reg_minimum. Qed.
Print Assumptions C85_minimum.

Theorem C85_arrowhead_minimum :
  forall eps mt s ds dt dl dO n m w,
  0 < eps < 1 ->
  arrowDims s ds dt dl dO -> inputArrow Or n ds dt dl dO m w -> declaredArrow s n m ->
  let all := allIdx n ds dt dl dO in let A := matAt Or m w in
  let c := Rpower eps (1/2) in let tol := Rpower eps (5/8) in
  posSemiDef all A ->
  exists k, arrowBlocks s = Ok k /\
    forall d0, dataOf k n ds dt dl dO d0 ->
    exists d E, arrowFactorize Or mt k m (regularizationSmallPositiveConstant (realFns eps)) d0 = Ok d /\
      (forall g, In g all -> E g = 0 \/ c - tol < E g < c + tol) /\
      forall rhs, vecOf n ds dt dl dO rhs ->
      exists x, arrowSolveInPlace Or k d rhs = Ok x /\ vecOf n ds dt dl dO x /\
        onlyPoint all (isMinimum (fun y => objective all A (gvecAt Or rhs) y + weighted all E y / 2)) (gvecAt Or x) /\
        forall y, objective all A (gvecAt Or rhs) (gvecAt Or x) <= objective all A (gvecAt Or rhs) y + (c + tol) / 2 * squares all y.
Proof. exact @arrow_reg_minimum. Qed.
Print Assumptions C85_arrowhead_minimum.

Theorem C85_tridiagonal_minimum :
  forall eps mt a b p dt n A B wA wB,
  0 < eps < 1 ->
  spOf a dt dt -> spOf b dt dt -> validPerm dt p ->
  inputTri Or n dt A B wA wB -> declaredTri a b n A B ->
  let rows := list_prod (seq 0 (n + 1)) (seq 0 dt) in
  let M := fun g h => triMatAt Or A B wA wB (fst g) (snd g) (fst h) (snd h) in
  let c := Rpower eps (1/2) in let tol := Rpower eps (5/8) in
  let vec := fun (x : list (list R)) (r : nat * nat) => vecAt Or (nth (fst r) x []) (snd r) in
  posSemiDef rows M ->
  exists k, tridiagonalBlocks a b p = Ok k /\
    forall d0, dataOf k n 0 dt 0 0 d0 ->
    exists d E, tridiagonalFactorize Or mt k dt A B (regularizationSmallPositiveConstant (realFns eps)) d0 = Ok d /\
      (forall r, In r rows -> E r = 0 \/ c - tol < E r < c + tol) /\
      forall rhs, blocksOf n dt rhs ->
      exists x, tridiagonalSolveInPlace Or k d rhs = Ok x /\ blocksOf n dt x /\
        onlyPoint rows (isMinimum (fun y => objective rows M (vec rhs) y + weighted rows E y / 2)) (vec x) /\
        forall y, objective rows M (vec rhs) (vec x) <= objective rows M (vec rhs) y + (c + tol) / 2 * squares rows y.
Proof. exact @tri_reg_minimum. Qed.
Print Assumptions C85_tridiagonal_minimum.

(** ** examples *)

(** the singular matrix with the rows 1 1 0, 1 1 0, 0 0 0 *)
Example C85_example :
  0 < / 2 ^ 52 < 1 /\ spOf exRS 3 3 /\ validPerm 3 [1; 2; 0]%nat /\
  inputOf Or exRM exRS exRVals /\ coveredSym (entries exRS) (entries exRS) 3 [1; 2; 0]%nat /\
  posSemiDef (seq 0 3) (symAt Or (entries exRS) exRVals).
Proof. destruct C77_example as (H1 & H2 & H3 & _ & H5 & H6 & _ & _ & _ & _ & H7 & _). auto 9. Qed.

(** with rationals, the tolerance 1/100 and the constant 1/10: the pivots of the first and the
    last variable are replaced. There is no solution of the original system for the right-hand
    side 3 2 1; the computed point 10 -8 10 minimizes the function with (y0^2 + y2^2)/20 added. *)
Example C85_computed_example :
  (let* LD := factorize Oq UpLooking exRB (Some (ExampleData.matOf exRS [1; 1; 1; 0]%Z))
      (regularizationSmallPositiveConstant exFns) (qs [0]%Z, qs [0; 0; 0]%Z) in
   let* x := solveInPlace Oq exRB LD (qs [3; 2; 1]%Z) in
   Ok (map this (snd LD), map this x)) = Ok ([1; 1 # 10; 1 # 10]%Q, [10; -8; 10]%Q) /\
  let phi := fun y => objective (seq 0 3) (symAt Or (entries exRS) [1; 1; 1; 0]) (vecAt Or [3; 2; 1]) (vecAt Or y) +
    weighted (seq 0 3) (vecAt Or [1 / 10; 0; 1 / 10]) (vecAt Or y) / 2 in
  phi [10; -8; 10] = - 12 /\ phi [9; -8; 10] > - 12 /\ phi [10; -7; 10] > - 12 /\ phi [10; -8; 11] > - 12.
Proof.
  split; [vm_compute; reflexivity|]. cbv zeta. unfold objective, weighted, quadForm. cbn. repeat split; lra.
Qed.

Example C85_arrowhead_example :
  arrowDims exQA 1 1 1 1 /\ inputArrow Or 1 1 1 1 1 exRfIn exRfW /\ declaredArrow exQA 1 exRfIn /\
  posSemiDef (allIdx 1 1 1 1 1) (matAt Or exRfIn exRfW).
Proof. destruct C77_arrowhead_example as (H1 & _ & H2 & H3 & _ & _ & H4 & _). auto. Qed.

Example C85_tridiagonal_example :
  let A := [cellR 1; cellR 1] in let B := [cellR 1] in
  let rows := list_prod (seq 0 (1 + 1)) (seq 0 1) in
  spOf ex11 1 1 /\ validPerm 1 [0]%nat /\
  inputTri Or 1 1 A B [[1]; [1]] [[1]] /\ declaredTri ex11 ex11 1 A B /\
  posSemiDef rows (fun g h => triMatAt Or A B [[1]; [1]] [[1]] (fst g) (snd g) (fst h) (snd h)).
Proof. destruct C77_tridiagonal_example as (H1 & H2 & _ & H3 & H4 & _ & _ & H5 & _). cbv zeta. auto. Qed.
