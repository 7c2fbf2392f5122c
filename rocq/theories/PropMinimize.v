(** Property C83: the solution as a minimum or a saddle point. *)
From Coq Require Import Reals Lra Lia List Arith Bool ZArith QArith Qcanon.
From Verif Require Import Base ModelPerm ModelSparsity ModelSymbolic ModelNumeric ModelArrow ModelReg.
From Verif Require Import SpecSymbolic SpecArrow SpecNumeric SpecArrowNum SpecReg SpecPivot SpecPivotBound SpecMinimize.
From Verif Require Import ExampleData ExampleArrow ExamplePivot.
From Verif Require Import ProofSingle ProofPivotBound ProofMinimize PropSingle PropReg PropRefine PropPivotBound.
Import ListNotations.
Local Open Scope R_scope.

(** ** C83 *)

(** The matrix is positive definite. The computed solution is the only minimum of half of
    y^T A y minus b^T y. *)
Theorem C83_minimum :
  forall mt s n p a vals m,
  spOf s n n -> validPerm n p ->
  spOf a n n -> inputOf Or m a vals -> coveredSym (entries a) (entries s) n p ->
  let all := seq 0 n in let A := symAt Or (entries a) vals in
  positiveDef all A ->
  exists b, factorizationBlk s p = Ok b /\
    forall L0 D0, length L0 = c_nnz (b_sp b) -> length D0 = n ->
    exists L D, factorize Or mt b (Some m) regularizationNone (L0, D0) = Ok (L, D) /\
      forall rhs, length rhs = n ->
      exists x, solveInPlace Or b (L, D) rhs = Ok x /\ length x = n /\
        onlyPoint all (isMinimum (objective all A (vecAt Or rhs))) (vecAt Or x).
Proof. exact @single_minimum. Qed.
Print Assumptions C83_minimum.

Theorem C83_arrowhead_minimum :
  forall mt s ds dt dl dO n m w,
  arrowDims s ds dt dl dO -> inputArrow Or n ds dt dl dO m w -> declaredArrow s n m ->
  let all := allIdx n ds dt dl dO in let A := matAt Or m w in
  positiveDef all A ->
  exists k, arrowBlocks s = Ok k /\
    forall d0, dataOf k n ds dt dl dO d0 ->
    exists d, arrowFactorize Or mt k m regularizationNone d0 = Ok d /\
      forall rhs, vecOf n ds dt dl dO rhs ->
      exists x, arrowSolveInPlace Or k d rhs = Ok x /\ vecOf n ds dt dl dO x /\
        onlyPoint all (isMinimum (objective all A (gvecAt Or rhs))) (gvecAt Or x).
Proof. exact @arrow_minimum. Qed.
Print Assumptions C83_arrowhead_minimum.

Theorem C83_tridiagonal_minimum :
  forall mt a b p dt n A B wA wB,
  spOf a dt dt -> spOf b dt dt -> validPerm dt p ->
  inputTri Or n dt A B wA wB -> declaredTri a b n A B ->
  let rows := list_prod (seq 0 (n + 1)) (seq 0 dt) in
  let M := fun r c => triMatAt Or A B wA wB (fst r) (snd r) (fst c) (snd c) in
  positiveDef rows M ->
  exists k, tridiagonalBlocks a b p = Ok k /\
    forall d0, dataOf k n 0 dt 0 0 d0 ->
    exists d, tridiagonalFactorize Or mt k dt A B regularizationNone d0 = Ok d /\
      forall rhs, blocksOf n dt rhs ->
      exists x, tridiagonalSolveInPlace Or k d rhs = Ok x /\ blocksOf n dt x /\
        onlyPoint rows (isMinimum (objective rows M (fun r => vecAt Or (nth (fst r) rhs []) (snd r))))
          (fun r => vecAt Or (nth (fst r) x []) (snd r)).
Proof. exact @tri_minimum. Qed.
Print Assumptions C83_tridiagonal_minimum.

(** The rows P form a positive definite matrix, the others a negative definite one, with
    arbitrary entries between the two. The computed solution is the only saddle point: minimal
    in the rows P, the variables of an optimization problem, and maximal in the others, the
    multipliers of its constraints. *)
Theorem C83_saddle_point :
  forall mt s n p a vals m P,
  spOf s n n -> validPerm n p ->
  spOf a n n -> inputOf Or m a vals -> coveredSym (entries a) (entries s) n p ->
  let all := seq 0 n in let A := symAt Or (entries a) vals in
  splitDef all P A ->
  exists b, factorizationBlk s p = Ok b /\
    forall L0 D0, length L0 = c_nnz (b_sp b) -> length D0 = n ->
    exists L D, factorize Or mt b (Some m) regularizationNone (L0, D0) = Ok (L, D) /\
      forall rhs, length rhs = n ->
      exists x, solveInPlace Or b (L, D) rhs = Ok x /\ length x = n /\
        onlyPoint all (isSaddle all P (objective all A (vecAt Or rhs))) (vecAt Or x).
Proof. exact @single_saddle. Qed.
Print Assumptions C83_saddle_point.

Theorem C83_arrowhead_saddle_point :
  forall mt s ds dt dl dO n m w P,
  arrowDims s ds dt dl dO -> inputArrow Or n ds dt dl dO m w -> declaredArrow s n m ->
  let all := allIdx n ds dt dl dO in let A := matAt Or m w in
  splitDef all P A ->
  exists k, arrowBlocks s = Ok k /\
    forall d0, dataOf k n ds dt dl dO d0 ->
    exists d, arrowFactorize Or mt k m regularizationNone d0 = Ok d /\
      forall rhs, vecOf n ds dt dl dO rhs ->
      exists x, arrowSolveInPlace Or k d rhs = Ok x /\ vecOf n ds dt dl dO x /\
        onlyPoint all (isSaddle all P (objective all A (gvecAt Or rhs))) (gvecAt Or x).
Proof. exact @arrow_saddle. Qed.
Print Assumptions C83_arrowhead_saddle_point.

Theorem C83_tridiagonal_saddle_point :
  forall mt a b p dt n A B wA wB P,
  spOf a dt dt -> spOf b dt dt -> validPerm dt p ->
  inputTri Or n dt A B wA wB -> declaredTri a b n A B ->
  let rows := list_prod (seq 0 (n + 1)) (seq 0 dt) in
  let M := fun r c => triMatAt Or A B wA wB (fst r) (snd r) (fst c) (snd c) in
  splitDef rows P M ->
  exists k, tridiagonalBlocks a b p = Ok k /\
    forall d0, dataOf k n 0 dt 0 0 d0 ->
    exists d, tridiagonalFactorize Or mt k dt A B regularizationNone d0 = Ok d /\
      forall rhs, blocksOf n dt rhs ->
      exists x, tridiagonalSolveInPlace Or k d rhs = Ok x /\ blocksOf n dt x /\
        onlyPoint rows (isSaddle rows P (objective rows M (fun r => vecAt Or (nth (fst r) rhs []) (snd r))))
          (fun r => vecAt Or (nth (fst r) x []) (snd r)).
Proof. exact @tri_saddle. Qed.
Print Assumptions C83_tridiagonal_saddle_point.

(** ** examples *)

(** the matrices of the example of C79: rows 2 1 0, 1 2 0, 0 0 1 and 2 7 0, 7 -3 0, 0 0 1 *)
Example C83_example :
  spOf exRS 3 3 /\ validPerm 3 [1; 2; 0]%nat /\ coveredSym (entries exRS) (entries exRS) 3 [1; 2; 0]%nat /\
  inputOf Or (exPbM [2; 1; 2; 1]) exRS [2; 1; 2; 1] /\
  positiveDef (seq 0 3) (symAt Or (entries exRS) [2; 1; 2; 1]) /\
  inputOf Or (exPbM [2; 7; -3; 1]) exRS [2; 7; -3; 1] /\
  splitDef (seq 0 3) exPbP (symAt Or (entries exRS) [2; 7; -3; 1]) /\
  ~ positiveDef (seq 0 3) (symAt Or (entries exRS) [2; 7; -3; 1]).
Proof.
  destruct C79_example as (H1 & H2 & H3 & H4 & H5 & H6 & H7). do 4 (split; auto).
  split; [exact (margin_positive _ _ 1 Rlt_0_1 H7)|]. split; auto. split; [exact (margin_split _ _ _ 1 Rlt_0_1 H5)|].
  intros PD. specialize (PD (fun i => if Nat.eqb i 1 then 1 else 0)).
  assert (K : 0 < quadForm Or (seq 0 3) (symAt Or (entries exRS) [2; 7; -3; 1]) (fun i => if Nat.eqb i 1 then 1 else 0)).
  { apply PD. exists 1%nat. split; [cbn; auto|cbn; lra]. }
  unfold quadForm in K. cbn in K. lra.
Qed.

(** the solution computed with rationals *)
Definition exMinRun (vals rhs : list Z) : list Q :=
  match factorize Oq UpLooking exRB (Some (ExampleData.matOf exRS vals)) regularizationNone (qs [0]%Z, qs [0; 0; 0]%Z) with
  | Ok f => match solveInPlace Oq exRB f (qs rhs) with Ok x => map this x | Err _ => [] end
  | Err _ => []
  end.

(** rows 2 1 0, 1 2 0, 0 0 1 with the right-hand side 3 3 1: the solution 1 1 1, with the value
    -7/2; any other point has a larger value *)
Example C83_computed_example :
  exMinRun [2; 1; 2; 1]%Z [3; 3; 1]%Z = [1; 1; 1]%Q /\
  let phi := objective (seq 0 3) (symAt Or (entries exRS) [2; 1; 2; 1]) (vecAt Or [3; 3; 1]) in
  phi (vecAt Or [1; 1; 1]) = - 7 / 2 /\ phi (vecAt Or [1; 1; 2]) = - 3 /\ phi (vecAt Or [0; 2; 1]) = - 5 / 2.
Proof.
  split.
  - vm_compute. reflexivity.
  - cbv zeta. unfold objective, quadForm. cbn. repeat split; lra.
Qed.

(** rows 2 7 0, 7 -3 0, 0 0 1 with the right-hand side 9 4 1: the solution 1 1 1 has a smaller
    value than points that differ in the first and last row, and a larger value than points that
    differ in the second *)
Example C83_computed_saddle_example :
  exMinRun [2; 7; -3; 1]%Z [9; 4; 1]%Z = [1; 1; 1]%Q /\
  let phi := objective (seq 0 3) (symAt Or (entries exRS) [2; 7; -3; 1]) (vecAt Or [9; 4; 1]) in
  phi (vecAt Or [1; 1; 1]) < phi (vecAt Or [2; 1; 0]) /\ phi (vecAt Or [1; 3; 1]) < phi (vecAt Or [1; 1; 1]).
Proof.
  split.
  - vm_compute. reflexivity.
  - cbv zeta. unfold objective, quadForm. cbn. split; lra.
Qed.

Example C83_arrowhead_example :
  arrowDims exQA 1 1 1 1 /\
  inputArrow Or 1 1 1 1 1 exPbIn1 exPbW1 /\ declaredArrow exQA 1 exPbIn1 /\
  positiveDef (allIdx 1 1 1 1 1) (matAt Or exPbIn1 exPbW1) /\
  inputArrow Or 1 1 1 1 1 exPbIn exPbW /\ declaredArrow exQA 1 exPbIn /\
  splitDef (allIdx 1 1 1 1 1) exPbA (matAt Or exPbIn exPbW).
Proof.
  destruct C79_arrowhead_example as (H1 & H2 & H3 & H4 & H5 & H6 & H7). do 3 (split; auto).
  split; [exact (margin_positive _ _ 1 Rlt_0_1 H7)|]. do 2 (split; auto). exact (margin_split _ _ _ 1 Rlt_0_1 H4).
Qed.

Example C83_tridiagonal_example :
  let A := [cellR 2; cellR (-3)] in let A1 := [cellR 2; cellR 2] in let B := [cellR 7] in let B1 := [cellR 1] in
  let rows := list_prod (seq 0 (1 + 1)) (seq 0 1) in
  spOf ex11 1 1 /\ validPerm 1 [0]%nat /\
  inputTri Or 1 1 A1 B1 [[2]; [2]] [[1]] /\ declaredTri ex11 ex11 1 A1 B1 /\
  positiveDef rows (fun r c => triMatAt Or A1 B1 [[2]; [2]] [[1]] (fst r) (snd r) (fst c) (snd c)) /\
  inputTri Or 1 1 A B [[2]; [-3]] [[7]] /\ declaredTri ex11 ex11 1 A B /\
  splitDef rows (fun r => Nat.eqb (fst r) 0) (fun r c => triMatAt Or A B [[2]; [-3]] [[7]] (fst r) (snd r) (fst c) (snd c)).
Proof.
  destruct C79_tridiagonal_example as (H1 & H2 & H3 & H4 & H5 & H6 & H7 & H8). cbv zeta. do 4 (split; auto).
  split; [exact (margin_positive _ _ 1 Rlt_0_1 H8)|]. do 2 (split; auto). exact (margin_split _ _ _ 1 Rlt_0_1 H5).
Qed.
