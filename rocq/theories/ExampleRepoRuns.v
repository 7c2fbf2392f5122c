(** The integration tests of the repository, run on the model in double precision.

    tests/multiply_factorize_solve_correct/single and repeating: multiply a known
    solution with the matrix, factorize with RegularizationSmallPositiveConstant, solve,
    compare with the solution. Test matrices and permutations are those of
    tests/test_matrices. Not covered here: the randomly generated matrices and
    solutions (std::mt19937, std::normal_distribution) and scalar type float. *)
From Coq Require Import List Arith Bool ZArith.
From Flocq Require Import BinarySingleNaN.
From Verif Require Import Base ModelPerm ModelSparsity ModelSymbolic ModelNumeric ModelArrow ModelReg ModelIeee.
Import ListNotations.
Local Open Scope nat_scope.

Notation double := (ieee 53 1024).
Local Existing Instance prec64.
Local Existing Instance emax64.

(** std::pow(2^-52, 0.5) = 2^-26 and std::pow(2^-52, 0.625) = 2^-32.5, rounded *)
Definition stdDouble : scalarFns double :=
  mkScalarFns double Babs (fun x y => Bltb x y)
    (fun _ y => if Bltb (dbl 1 (-1)) y then Bsqrt mode_NE (dbl 1 (-65)) else dbl 1 (-26))
    (dbl 1 (-52)) (dbl 5 (-3)) (dbl 1 (-1)).
Definition regD := regularizationSmallPositiveConstant stdDouble.

(** boost::test_tools::tolerance: the difference relative to both values *)
Definition close (tol a b : double) : bool :=
  let diff := Babs (Bminus mode_NE a b) in
  Bleb (Bdiv mode_NE diff (Babs a)) tol && Bleb (Bdiv mode_NE diff (Babs b)) tol.
Definition allClose (tol : double) (l l' : list double) : bool :=
  (length l =? length l') && forallb (fun '(a, b) => close tol a b) (combine l l').

(** tests/utility/solution_generator.cpp:11-27 *)
Definition allOnes (dim : nat) : list double := repeat (dbl 1 0) dim.
Definition iotaOnes (dim : nat) : list double := map (fun k => dbl (Z.of_nat k) 0) (seq 1 dim).

Definition matV (s : sparsity) (vals : list double) : mat (F:=double) := mkMat s (rd vals).

(** tests/multiply_factorize_solve_correct/single/test_functor.hpp:21-47; the tolerance
    there is eps^0.375 = 2^-19.5 *)
Definition testSingle (dim : nat) (es : list entry) (vals : list double) (p : perm)
    (solution : nat -> list double) (mt : method) : res bool :=
  let* s := mkSparsity dim dim es in
  let* b := factorizationBlk s p in
  let m := matV s vals in
  let* LD := factorize Od mt b (Some m) regD
               (repeat (o0 Od) (c_nnz (b_sp b)), repeat (o0 Od) dim) in
  let x := solution dim in
  let* rhs := multiply Od Symmetric m x (repeat (o0 Od) dim) in
  let* rhs := solveInPlace Od b LD rhs in
  Ok (allClose (dbl 1 (-20)) rhs x).

(** tests/multiply_factorize_solve_correct/repeating/test_functor.hpp:28-73; the
    tolerance is eps^0.25 = 2^-13 *)
Definition testRepeating (dim : nat) (esA esB : list entry)
    (valsA : nat -> list (list double)) (valsB : list double) (p : perm)
    (solution : nat -> list double) (num_repetitions : nat) (mt : method) : res bool :=
  let* sA := mkSparsity dim dim esA in
  let* sB := mkSparsity dim dim esB in
  let* k := tridiagonalBlocks sA sB p in
  let* d := arrowCtor Od k num_repetitions in
  let mA := map (matV sA) (valsA (num_repetitions + 1)) in
  let mB := repeat (matV sB valsB) num_repetitions in
  let* d := tridiagonalFactorize Od mt k dim mA mB regD d in
  let* x := block (o0 Od) dim (solution ((num_repetitions + 1) * dim)) in
  let* rhs := multiplyRepeatingBlockTridiagonal Od mA mB x
                (repeat (repeat (o0 Od) dim) (num_repetitions + 1)) in
  let* rhs := tridiagonalSolveInPlace Od k d rhs in
  Ok (allClose (dbl 1 (-13)) (flatten rhs) (flatten x)).

Definition allOk (l : list (res bool)) : bool :=
  forallb (fun r => match r with Ok b => b | Err _ => false end) l.

(** the factorization methods, solutions and numbers of repetitions of a test set (without 9
    repetitions, to keep the checking time low) *)
Definition onAll (f : (nat -> list double) -> method -> res bool) : list (res bool) :=
  [f allOnes UpLooking; f iotaOnes UpLooking; f allOnes EntryWise; f iotaOnes EntryWise].
Definition onReps (f : (nat -> list double) -> nat -> method -> res bool) : list (res bool) :=
  flat_map (fun r => onAll (fun s mt => f s r mt)) [0; 1; 2].

(** tests/test_matrices/repeating/tridiagonal.hpp:14-80 *)
Definition tri_es (n : nat) : list entry :=
  map (fun i => (i, i)) (seq 0 n) ++ map (fun i => (i, i - 1)) (seq 1 (n - 1)).
Definition tri_vals (n : nat) : list double :=
  repeat (dbl 2 0) n ++ repeat (dbl (-1) 0) (n - 1).
Definition topRight_es (n : nat) : list entry := [(0, n - 1)].
(** tests/test_matrices/repeating/nos2.hpp:9-73 *)
Definition nos2A_es : list entry := [(0, 0); (1, 1); (2, 2)].
Definition nos2A_vals : list double := [dbl 640000 0; dbl 25600000 0; dbl 78643200000 0]%Z.
Definition nos2B_es : list entry := [(0, 0); (1, 1); (1, 2); (2, 1); (2, 2)].
Definition nos2B_vals : list double :=
  [dbl (-320000) 0; dbl (-39321600000) 0; dbl (-614400000) 0; dbl 614400000 0; dbl 6400000 0]%Z.

(** tests/multiply_factorize_solve_correct/single/small_examples_all_permutations.cpp *)
Example SingleSmallExamplesAllPermutations :
  map (fun n => length (enumeratePermutationsStatic n)) [1; 2; 3] = [1; 2; 6] /\
  allOk (flat_map (fun n =>
           flat_map (fun p => onAll (testSingle n (tri_es n) (tri_vals n) p))
                    (enumeratePermutationsStatic n)) [1; 2; 3] ++
         flat_map (fun p => onAll (testSingle 3 nos2A_es nos2A_vals p))
                  (enumeratePermutationsStatic 3)) = true.
Proof. split; vm_compute; reflexivity. Qed.

(** tests/test_matrices/single/lfat5.hpp:12-55 *)
Definition lfat5_es : list entry :=
  [(0, 0); (3, 0); (4, 0); (1, 1); (5, 1); (2, 2); (6, 2); (3, 3); (7, 3); (8, 3); (4, 4); (7, 4); (8, 4); (5, 5); (9, 5); (6, 6); (10, 6); (7, 7); (11, 7); (12, 7); (8, 8); (11, 8); (12, 8); (9, 9); (10, 10); (11, 11); (13, 11); (12, 12); (13, 12); (13, 13)].
Definition lfat5_vals : list double :=
  [dbl (7074614582643765) (-52); dbl (-6632451171228529) (-46); dbl (7074614582643765) (-53);
   dbl (98175) (7); dbl (-98175) (6); dbl (5483638764886345) (-53);
   dbl (-5483638764886345) (-54); dbl (2072640991008915) (-37); dbl (-2072640991008915) (-38);
   dbl (6632451171228529) (-46); dbl (7074614582643765) (-51); dbl (-6632451171228529) (-46);
   dbl (7074614582643765) (-53); dbl (98175) (7); dbl (-98175) (6);
   dbl (5483638764886345) (-53); dbl (-5483638764886345) (-54); dbl (2072640991008915) (-37);
   dbl (-2072640991008915) (-38); dbl (6632451171228529) (-46); dbl (7074614582643765) (-51);
   dbl (-6632451171228529) (-46); dbl (7074614582643765) (-53); dbl (98175) (7);
   dbl (5483638764886345) (-53); dbl (2072640991008915) (-37); dbl (6632451171228529) (-46);
   dbl (7074614582643765) (-51); dbl (7074614582643765) (-53); dbl (7074614582643765) (-52)]%Z.
Definition test_permutation_lfat5 : perm := [13; 11; 12; 8; 7; 0; 4; 3; 9; 1; 5; 10; 2; 6].

(** tests/multiply_factorize_solve_correct/single/larger_examples_good_permutation.cpp *)
Example SingleLargerExamplesGoodPermutation :
  allOk (onAll (testSingle 14 lfat5_es lfat5_vals test_permutation_lfat5)) = true.
Proof. vm_compute. reflexivity. Qed.

(** tests/multiply_factorize_solve_correct/repeating/small_examples_all_permutations.cpp;
    indef.hpp: only the entry (1, 0), so the first pivot is replaced *)
Example RepeatingSmallExamplesAllPermutations :
  allOk (flat_map (fun n =>
           flat_map (fun p => onReps (testRepeating n (tri_es n) (topRight_es n)
                                        (repeat (tri_vals n)) [dbl (-1) 0] p))
                    (enumeratePermutationsStatic n)) [1; 2; 3]) = true /\
  allOk (flat_map (fun p => onReps (testRepeating 2 [(1, 0)] [] (repeat [dbl 1 0]) [] p))
                  (enumeratePermutationsStatic 2)) = true /\
  allOk (flat_map (fun p => onReps (testRepeating 3 nos2A_es nos2B_es
                                      (repeat nos2A_vals) nos2B_vals p))
                  (enumeratePermutationsStatic 3)) = true.
Proof. split; [|split]; vm_compute; reflexivity. Qed.

(** tests/test_matrices/repeating/nos4.hpp:11-122 *)
Definition nos4A_es : list entry :=
  [(0, 0); (1, 0); (1, 1); (2, 0); (2, 2); (3, 3); (4, 2); (4, 4); (5, 5); (6, 4); (6, 6); (7, 7); (8, 6); (8, 8); (9, 8); (9, 9)].
Definition nos4A_vals : list double :=
  [dbl (772611341121851) (-52); dbl (2578010882963223) (-56); dbl (3764005346052801) (-53);
   dbl (-3602879701896397) (-55); dbl (6180890548830823) (-54); dbl (1962565540140599) (-52);
   dbl (-3602879701896397) (-55); dbl (6180890548830823) (-54); dbl (1962565540140599) (-52);
   dbl (-3602879701896397) (-55); dbl (6180890548830823) (-54); dbl (1962565540140599) (-52);
   dbl (-3602879701896397) (-55); dbl (772611341121851) (-52); dbl (-2578010882963223) (-56);
   dbl (3764005346052801) (-53)]%Z.
Definition nos4A_vals_last_block : list double :=
  [dbl (3602879701896397) (-55); dbl 0 0; dbl (3602879701896397) (-54);
   dbl (-3602879701896397) (-55); dbl (6180890548830823) (-54); dbl (8494764917331999) (-55);
   dbl (-3602879701896397) (-55); dbl (3602879701896397) (-54); dbl (3602879701896397) (-54);
   dbl (-3602879701896397) (-55); dbl (6180890548830823) (-54); dbl (8494764917331999) (-55);
   dbl (-3602879701896397) (-55); dbl (3602879701896397) (-55); dbl 0 0;
   dbl (3602879701896397) (-54)]%Z.
Definition nos4B_es : list entry :=
  [(1, 1); (2, 0); (2, 1); (2, 4); (2, 5); (3, 0); (3, 1); (3, 3); (3, 4); (3, 5); (5, 5); (6, 4); (6, 5); (6, 8); (6, 9); (7, 4); (7, 5); (7, 7); (7, 8); (7, 9); (9, 9)].
Definition nos4B_vals : list double :=
  [dbl (-3602879701896397) (-54); dbl (-2578010882963223) (-55); dbl (-2578010882963223) (-56);
   dbl (-2578010882963223) (-55); dbl (2578010882963223) (-56); dbl (-2578010882963223) (-56);
   dbl (-2578010882963223) (-57); dbl (-3602879701896397) (-54); dbl (2578010882963223) (-56);
   dbl (-2578010882963223) (-57); dbl (-3602879701896397) (-54); dbl (-2578010882963223) (-55);
   dbl (-2578010882963223) (-56); dbl (-2578010882963223) (-55); dbl (2578010882963223) (-56);
   dbl (-2578010882963223) (-56); dbl (-2578010882963223) (-57); dbl (-3602879701896397) (-54);
   dbl (2578010882963223) (-56); dbl (-2578010882963223) (-57); dbl (-3602879701896397) (-54)]%Z.
Definition test_permutation_nos4 : perm := [7; 8; 0; 4; 3; 2; 6; 5; 9; 1].

(** tests/multiply_factorize_solve_correct/repeating/larger_examples_good_permutation.cpp *)
Example RepeatingLargerExamplesGoodPermutation :
  allOk (map (testRepeating 10 nos4A_es nos4B_es
                (fun n => repeat nos4A_vals (n - 1) ++ [nos4A_vals_last_block])
                nos4B_vals test_permutation_nos4 iotaOnes 1) [UpLooking; EntryWise]) = true.
Proof. vm_compute. reflexivity. Qed.
