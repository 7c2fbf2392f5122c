(** Property C42: factorize and solveInPlace always finish, whatever the arithmetic. *)
From Coq Require Import List Arith Lia Bool ZArith.
From Flocq Require Import BinarySingleNaN.
From Verif Require Import Base ModelPerm ModelSparsity ModelSymbolic ModelNumeric ModelArrow ModelReg ModelIeee.
From Verif Require Import SpecSymbolic SpecArrow SpecNumeric SpecArrowNum.
From Verif Require Import ExampleData ExampleArrow ExampleIeee.
From Verif Require Import ProofRoundMain ProofRoundTri PropSingle.
Import ListNotations.
Local Open Scope nat_scope.

(** The scalar operations are arbitrary: no law relates them, and in particular they
    may be those of a floating point type with infinities and NaN. *)

Theorem C42_single :
  forall {F : Type} (O : ops F) s n p,
  spOf s n n -> validPerm n p ->
  exists b, factorizationBlk s p = Ok b /\
    (forall mt a vals m reg L0 D0,
       spOf a n n -> inputOf O m a vals -> coveredSym (entries a) (entries s) n p ->
       length L0 = c_nnz (b_sp b) -> length D0 = n ->
       exists L D, factorize O mt b (Some m) reg (L0, D0) = Ok (L, D) /\
         length L = c_nnz (b_sp b) /\ length D = n) /\
    (forall L D rhs, length L = c_nnz (b_sp b) -> length D = n -> length rhs = n ->
       exists x, solveInPlace O b (L, D) rhs = Ok x /\ length x = n).
Proof. exact @single_any. Qed.
Print Assumptions C42_single.

Theorem C42_arrowhead :
  forall {F : Type} (O : ops F) s ds dt dl dO,
  arrowDims s ds dt dl dO ->
  exists k, arrowBlocks s = Ok k /\
    (forall n, exists d, arrowCtor O k n = Ok d /\ dataOf k n ds dt dl dO d) /\
    (forall mt n m w reg d0, inputArrow O n ds dt dl dO m w -> declaredArrow s n m ->
       dataOf k n ds dt dl dO d0 ->
       exists d, arrowFactorize O mt k m reg d0 = Ok d /\ dataOf k n ds dt dl dO d) /\
    (forall n d rhs, dataOf k n ds dt dl dO d -> vecOf n ds dt dl dO rhs ->
       exists x, arrowSolveInPlace O k d rhs = Ok x /\ vecOf n ds dt dl dO x).
Proof. exact @arrow_any. Qed.
Print Assumptions C42_arrowhead.

Theorem C42_tridiagonal :
  forall {F : Type} (O : ops F) a b p dt,
  spOf a dt dt -> spOf b dt dt -> validPerm dt p ->
  exists k, tridiagonalBlocks a b p = Ok k /\
    (forall n, exists d, arrowCtor O k n = Ok d /\ dataOf k n 0 dt 0 0 d) /\
    (forall mt n A B wA wB reg d0, inputTri O n dt A B wA wB -> declaredTri a b n A B ->
       dataOf k n 0 dt 0 0 d0 ->
       exists d, tridiagonalFactorize O mt k dt A B reg d0 = Ok d /\ dataOf k n 0 dt 0 0 d) /\
    (forall n d rhs, dataOf k n 0 dt 0 0 d -> blocksOf n dt rhs ->
       exists x, tridiagonalSolveInPlace O k d rhs = Ok x /\ blocksOf n dt x).
Proof. exact @tri_any. Qed.
Print Assumptions C42_tridiagonal.

(** A matrix with a zero pivot in double precision: the factor has infinities and
    NaN, the solution is NaN, and still nothing goes wrong on the way. *)
Example C42_example :
  spOf exS 4 4 /\ validPerm 4 exP /\ inputOf Od exMz exS (dzs [0;1;5;2;6;1;7]%Z) /\
  coveredSym (entries exS) (entries exS) 4 exP /\
  match factorize Od UpLooking exB (Some exMz) regularizationNone (exLd0, exDd0) with
  | Ok (L, D) =>
      map show D = [SpecFloat.S754_zero false; SpecFloat.S754_infinity true;
                    SpecFloat.S754_nan; SpecFloat.S754_nan] /\
      match solveInPlace Od exB (L, D) (dzs [1;2;3;4]%Z) with
      | Ok x => map show x = repeat SpecFloat.S754_nan 4
      | Err _ => False
      end
  | Err _ => False
  end.
Proof.
  split; [exact exS_ok|]. split; [exact exP_ok|]. split; [exact exMz_ok|].
  split; [exact exM_covered|]. vm_compute. split; reflexivity.
Qed.

Example C42_arrowhead_example :
  arrowDims exA 2 3 2 2 /\ inputArrow Od 2 2 3 2 2 exInD exWD /\ declaredArrow exA 2 exInD /\
  dataOf exK 2 2 3 2 2 exDD /\ vecOf 2 2 3 2 2 exXD /\
  inputTri Od 2 3 (a_td exInD) (a_ts exInD) (w_td exWD) (w_ts exWD) /\
  declaredTri exTA exTB 2 (a_td exInD) (a_ts exInD).
Proof.
  split; [exact exA_dims|]. split; [exact exInD_ok|]. split; [exact exInD_declared|].
  split; [exact exDD_ok|]. split; [exact exXD_ok|]. split; [exact exTd_ok|exact exTd_declared].
Qed.
