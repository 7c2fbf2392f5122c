(** The structures that are shipped with the example program examples/repeating/example_mtx.cpp
    and the example programs with fixed matrices.

    Simplifications: int loop counters and sizes are numbers without an upper bound; literals
    of type double are correctly rounded decimal numbers, as compilers do it. *)
From Coq Require Import List Arith Bool NArith ZArith String Ascii.
From Flocq Require Import Core.Core BinarySingleNaN.
From Verif Require Import Base ModelPerm ModelSparsity ModelSymbolic ModelNumeric ModelArrow ModelReg ModelIeee
  ModelText ModelProgram.
Import ListNotations.
Local Open Scope nat_scope.

(** ** structures for example_mtx.cpp, with the name of the target in
    examples/repeating/CMakeLists.txt:8-14 *)

(** examples/repeating/mtx_includes/transworhp/opal/ctldl_repeating_mtx_include.hpp:13-260 *)
Definition opalSparsity : arrow_sp := mkAS
  (mkSS
     (mkSp 0 0 [])
     (mkSp 22 0 [])
     (mkSp 2 0 [])
     [])
  (mkST
     (mkSp 22 22 [(0,0); (1,0); (3,0); (4,0); (8,0); (9,0); (10,0); (11,0); (12,0); (13,0);
       (14,0); (1,1); (3,1); (4,1); (8,1); (9,1); (10,1); (11,1); (12,1); (13,1); (15,1); (2,2);
       (3,2); (7,2); (9,2); (14,2); (15,2); (16,2); (17,2); (3,3); (9,3); (10,3); (11,3); (12,3);
       (13,3); (14,3); (15,3); (17,3); (4,4); (7,4); (8,4); (9,4); (18,4); (21,4); (5,5); (6,5);
       (9,5); (19,5); (20,5); (6,6); (9,6); (16,6); (20,6); (7,7); (9,7); (17,7); (21,7); (8,8);
       (9,8); (18,8); (9,9); (19,9); (10,10); (11,11); (12,12); (13,13)])
     (mkSp 22 22 [(0,14); (2,14); (3,14); (1,15); (2,15); (3,15); (2,16); (6,16); (2,17); (3,17);
       (7,17); (4,18); (8,18); (5,19); (9,19); (5,20); (6,20); (4,21); (7,21)])
     [10; 11; 12; 13; 16; 20; 19; 18; 21; 17; 14; 15; 8; 4; 7; 0; 1; 3; 2; 6; 5; 9])
  (mkSL
     (mkSp 14 22 [(0,14); (2,14); (3,14); (1,15); (2,15); (3,15); (2,16); (6,16); (2,17); (3,17);
       (7,17); (4,18); (8,18); (5,19); (9,19); (5,20); (6,20); (4,21); (7,21)])
     (mkSp 14 14 [(0,0); (10,0); (11,0); (12,0); (13,0); (1,1); (10,1); (11,1); (12,1); (13,1);
       (2,2); (3,2); (7,2); (3,3); (10,3); (11,3); (12,3); (13,3); (4,4); (7,4); (5,5); (6,5);
       (6,6); (7,7); (8,8); (9,9); (10,10); (11,11); (12,12); (13,13)])
     (mkSp 2 14 [(0,2); (0,3); (0,4); (0,5); (0,6); (0,7); (0,8); (0,9)])
     [4; 5; 6; 7; 2; 8; 9; 10; 11; 12; 0; 1; 13; 3])
  (mkSO
     (mkSp 2 22 [(0,0); (0,1); (0,2); (0,3); (0,4); (0,5); (0,6); (0,7); (0,8); (0,9); (1,13);
       (0,14); (1,14); (0,15); (1,15); (0,16); (1,16); (0,17); (1,17); (0,18); (1,18); (0,19);
       (1,19); (0,20); (1,20); (0,21); (1,21)])
     (mkSp 2 2 [(0,0); (1,1)])
     [0; 1]).

(** examples/repeating/mtx_includes/transworhp/spline/ctldl_repeating_mtx_include.hpp:13-87 *)
Definition splineSparsity : arrow_sp := mkAS
  (mkSS
     (mkSp 4 4 [(0,0); (1,1); (2,2); (3,3)])
     (mkSp 7 4 [(0,0); (0,1); (1,1); (2,2); (1,3); (2,3)])
     (mkSp 0 4 [])
     [0; 1; 2; 3])
  (mkST
     (mkSp 7 7 [(0,0); (3,0); (4,0); (1,1); (4,1); (6,1); (2,2); (5,2); (6,2); (3,3); (4,4);
       (5,5); (6,6)])
     (mkSp 7 7 [(0,3); (0,4); (1,4); (2,5); (1,6); (2,6)])
     [3; 5; 4; 0; 1; 2; 6])
  (mkSL
     (mkSp 0 7 [])
     (mkSp 0 0 [])
     (mkSp 0 0 [])
     [])
  (mkSO
     (mkSp 0 7 [])
     (mkSp 0 0 [])
     []).

(** examples/repeating/mtx_includes/transworhp/laufkatze/ctldl_repeating_mtx_include.hpp:13-201 *)
Definition laufkatzeSparsity : arrow_sp := mkAS
  (mkSS
     (mkSp 11 11 [(0,0); (1,1); (2,2); (5,2); (7,2); (3,3); (4,4); (5,5); (6,6); (7,7); (8,8);
       (9,9); (10,10)])
     (mkSp 20 11 [(0,0); (0,1); (1,1); (2,2); (3,2); (2,3); (3,3); (1,4); (3,4); (4,4); (5,5);
       (5,6); (6,6); (6,7); (7,7); (8,8); (4,9); (8,9); (7,10); (8,10)])
     (mkSp 1 11 [(0,1); (0,2); (0,3); (0,4); (0,6); (0,7); (0,9); (0,10)])
     [0; 1; 2; 3; 4; 5; 6; 7; 8; 9; 10])
  (mkST
     (mkSp 20 20 [(9,0); (10,0); (10,1); (13,1); (11,2); (12,2); (11,3); (12,3); (13,3); (14,3);
       (16,3); (13,4); (18,4); (14,5); (15,5); (15,6); (16,6); (16,7); (19,7); (17,8); (18,8);
       (19,8); (9,9); (10,10); (11,11); (14,11); (16,11); (12,12); (13,13); (14,14); (16,14);
       (15,15); (16,16); (17,17); (18,18); (19,19)])
     (mkSp 20 20 [(0,9); (0,10); (1,10); (2,11); (3,11); (2,12); (3,12); (1,13); (3,13); (4,13);
       (3,14); (5,14); (5,15); (6,15); (3,16); (6,16); (7,16); (8,17); (4,18); (8,18); (7,19);
       (8,19)])
     [9; 17; 10; 18; 19; 12; 15; 11; 13; 14; 0; 1; 4; 8; 7; 2; 3; 5; 6; 16])
  (mkSL
     (mkSp 0 20 [])
     (mkSp 0 0 [])
     (mkSp 1 0 [])
     [])
  (mkSO
     (mkSp 1 20 [(0,0); (0,1); (0,2); (0,3); (0,4); (0,5); (0,6); (0,7); (0,8); (0,10); (0,11);
       (0,12); (0,13); (0,14); (0,15); (0,16); (0,18); (0,19)])
     (mkSp 1 1 [(0,0)])
     [0]).

(** examples/repeating/mtx_includes/suitesparse/Bai/mhdb416/ctldl_repeating_mtx_include.hpp:13-50 *)
Definition mhdb416Sparsity : arrow_sp := mkAS
  (mkSS
     (mkSp 0 0 [])
     (mkSp 16 0 [])
     (mkSp 0 0 [])
     [])
  (mkST
     (mkSp 16 16 [(0,0); (1,0); (1,1); (2,2); (3,2); (3,3); (4,4); (5,4); (5,5); (6,4); (6,5);
       (6,6); (7,4); (7,5); (7,6); (7,7); (8,8); (9,8); (9,9); (10,10); (11,10); (11,11); (12,12);
       (13,12); (13,13); (14,14); (15,14); (15,15)])
     (mkSp 16 16 [(0,1); (1,1); (2,2); (3,2); (2,3); (3,3); (4,5); (5,5); (6,5); (7,5); (4,7);
       (5,7); (6,7); (7,7); (8,9); (9,9); (10,11); (11,11); (12,12); (13,12); (12,13); (13,13);
       (14,14); (15,14); (14,15); (15,15)])
     [0; 1; 2; 3; 4; 6; 5; 7; 8; 9; 10; 11; 12; 13; 14; 15])
  (mkSL
     (mkSp 0 16 [])
     (mkSp 0 0 [])
     (mkSp 0 0 [])
     [])
  (mkSO
     (mkSp 0 16 [])
     (mkSp 0 0 [])
     []).

(** examples/repeating/mtx_includes/suitesparse/HB/nos2/ctldl_repeating_mtx_include.hpp:13-43 *)
Definition nos2Sparsity : arrow_sp := mkAS
  (mkSS
     (mkSp 0 0 [])
     (mkSp 3 0 [])
     (mkSp 0 0 [])
     [])
  (mkST
     (mkSp 3 3 [(0,0); (1,1); (2,2)])
     (mkSp 3 3 [(0,0); (1,1); (2,1); (1,2); (2,2)])
     [0; 1; 2])
  (mkSL
     (mkSp 0 3 [])
     (mkSp 0 0 [])
     (mkSp 0 0 [])
     [])
  (mkSO
     (mkSp 0 3 [])
     (mkSp 0 0 [])
     []).

(** examples/repeating/mtx_includes/suitesparse/HB/nos4/ctldl_repeating_mtx_include.hpp:13-81 *)
Definition nos4Sparsity : arrow_sp := mkAS
  (mkSS
     (mkSp 0 0 [])
     (mkSp 10 0 [])
     (mkSp 0 0 [])
     [])
  (mkST
     (mkSp 10 10 [(0,0); (1,0); (2,0); (1,1); (2,2); (4,2); (3,3); (4,4); (6,4); (5,5); (6,6);
       (8,6); (7,7); (8,8); (9,8); (9,9)])
     (mkSp 10 10 [(2,0); (3,0); (1,1); (2,1); (3,1); (3,3); (2,4); (3,4); (6,4); (7,4); (2,5);
       (3,5); (5,5); (6,5); (7,5); (7,7); (6,8); (7,8); (6,9); (7,9); (9,9)])
     [7; 8; 0; 4; 3; 2; 6; 5; 9; 1])
  (mkSL
     (mkSp 0 10 [])
     (mkSp 0 0 [])
     (mkSp 0 0 [])
     [])
  (mkSO
     (mkSp 0 10 [])
     (mkSp 0 0 [])
     []).

(** examples/repeating/CMakeLists.txt:8-14, cmake/ctldlExampleTargets.cmake:12-22: the
    programs example_mtx_* *)
Definition shippedStructures : list (string * arrow_sp) :=
  [("suitesparse_Bai_mhdb416", mhdb416Sparsity); ("suitesparse_HB_nos2", nos2Sparsity);
   ("suitesparse_HB_nos4", nos4Sparsity); ("transworhp_laufkatze", laufkatzeSparsity);
   ("transworhp_opal", opalSparsity); ("transworhp_spline", splineSparsity)]%string.

(** ** programs with a fixed matrix *)

(** a matrix whose valueAt(i) is values[i] (example_tridiagonal.cpp:41-43,
    example_indef.cpp:35-37, example_nos2.cpp:32-34, example_nos4.cpp:53-58,
    example_indef_single.cpp:21-24, example_lfat5.cpp:30-33) *)
Definition fixedMat {F} (s : sparsity) (values : list F) : mat (F:=F) := mkMat s (rd values).

(** for (int i = 0; i < num; ++i) ... *)
Fixpoint timesM {A} (num : nat) (f : A -> res A) (a : A) : res A :=
  match num with
  | 0 => Ok a
  | S num => let* a := f a in timesM num f a
  end.

Section Fixed.
  Context {F : Type} (O : ops F).
  Variable print : F -> string.
  Variable reg : F -> nat -> F.

  (** examples/repeating/example_tridiagonal.cpp:57-90, example_nos2.cpp:61-95,
      example_nos4.cpp:95-133, example_indef.cpp:55-77. In front of every solve except the
      only one of example_indef.cpp the right-hand side is copied, so what the solution
      vector held before does not matter. *)
  Definition runTridiagonal (a b : sparsity) (p : perm) (num_repetitions : nat) (A B : list (mat (F:=F)))
      (rhs : list (list F)) (num_factorize num_solve : N) : res string :=
    let* k := tridiagonalBlocks a b p in
    let* d := arrowCtor O k num_repetitions in
    let* d := timesM (N.to_nat num_factorize) (tridiagonalFactorize O UpLooking k (nrows a) A B reg) d in
    let* x := timesM (N.to_nat num_solve) (fun _ => tridiagonalSolveInPlace O k d rhs) rhs in
    Ok (fold_right (fun part out => printLines print part ++ out) EmptyString x)%string.

  (** examples/single/example_lfat5.cpp:38-70, example_indef_single.cpp:29-40; [LD] is what
      the factorization holds when it is constructed, which is indeterminate
      (ctldl/factor_data/factorization.hpp:88-89) *)
  Definition runSingle (s : sparsity) (p : perm) (values : list F) (rhs : list F) (LD : list F * list F) : res string :=
    let* b := factorizationBlk s p in
    let* LD := factorize O UpLooking b (Some (fixedMat s values)) reg LD in
    let* x := solveInPlace O b LD rhs in
    Ok (printLines print x).
End Fixed.

(** *** examples/repeating/example_tridiagonal.cpp *)

(** lines 22-36; the values 2.0 and -1.0 *)
Definition tridiagonalA : sparsity := mkSp 3 3 (map (fun i => (i, i)) (seq 0 3) ++ map (fun i => (i, i - 1)) (seq 1 2)).
Definition tridiagonalValuesA : list (ieee 53 1024) := repeat (dbl 2 0) 3 ++ repeat (dbl (-1) 0) 2.
(** lines 46-51 *)
Definition tridiagonalB : sparsity := mkSp 3 3 [(0, 2)].
Definition tridiagonalValuesB : list (ieee 53 1024) := [dbl (-1) 0].
(** lines 57-90; PermutationStatic<dim> without arguments is the identity
    (ctldl/permutation/permutation.hpp) *)
Definition exampleTridiagonal (num_factorize num_solve : N) : res string :=
  runTridiagonal Od printfF regularizationNone tridiagonalA tridiagonalB (iota_perm 3) 19
    (repeat (fixedMat tridiagonalA tridiagonalValuesA) 20) (repeat (fixedMat tridiagonalB tridiagonalValuesB) 19)
    (repeat (repeat (dbl 1 0) 3) 20) num_factorize num_solve.
Definition exampleTridiagonalMain : res string := exampleTridiagonal 10000000 10000000.

(** *** examples/repeating/example_nos2.cpp *)

(** lines 22-35 *)
Definition nos2A : sparsity := mkSp 3 3 [(0,0); (1,1); (2,2)].
Definition nos2ValuesA : list (ieee 53 1024) := [dbl 640000 0; dbl 25600000 0; dbl 78643200000 0].
(** lines 37-55 *)
Definition nos2B : sparsity := mkSp 3 3 [(0,0); (1,1); (1,2); (2,1); (2,2)].
Definition nos2ValuesB : list (ieee 53 1024) :=
  [dbl (-320000) 0; dbl (-39321600000) 0; dbl (-614400000) 0; dbl 614400000 0; dbl 6400000 0].
(** lines 57-95, with the number of repetitions as an argument; the program has 318 *)
Definition exampleNos2 (num_repetitions : nat) (num_factorize num_solve : N) : res string :=
  runTridiagonal Od printfF regularizationNone nos2A nos2B [0; 1; 2] num_repetitions
    (repeat (fixedMat nos2A nos2ValuesA) (num_repetitions + 1)) (repeat (fixedMat nos2B nos2ValuesB) num_repetitions)
    (repeat (repeat (dbl 1 0) 3) (num_repetitions + 1)) num_factorize num_solve.
Definition exampleNos2Main : res string := exampleNos2 318 1000000 1000000.

(** *** examples/repeating/example_nos4.cpp *)

(** m * 10^e as a literal *)
Definition literal (m e : Z) : ieee 53 1024 := decimalToDouble ((m <? 0)%Z, Z.to_N (Z.abs m), e).

(** lines 18-27 *)
Definition nos4A : sparsity := mkSp 10 10
  [(0,0); (1,0); (1,1); (2,0); (2,2); (3,3); (4,2); (4,4); (5,5); (6,4); (6,6); (7,7); (8,6); (8,8); (9,8); (9,9)].
(** lines 29-38 *)
Definition nos4ValuesA : list (ieee 53 1024) :=
  [literal 17155418 (-8); literal 35777088 (-9); literal 41788854 (-8); literal (-1) (-1); literal 34310835 (-8);
   literal 43577709 (-8); literal (-1) (-1); literal 34310835 (-8); literal 43577709 (-8); literal (-1) (-1);
   literal 34310835 (-8); literal 43577709 (-8); literal (-1) (-1); literal 17155418 (-8); literal (-35777088) (-9);
   literal 41788854 (-8)].
(** lines 39-48 *)
Definition nos4ValuesLast : list (ieee 53 1024) :=
  [literal 1 (-1); literal 0 (-1); literal 2 (-1); literal (-1) (-1); literal 34310835 (-8); literal 23577709 (-8);
   literal (-1) (-1); literal 2 (-1); literal 2 (-1); literal (-1) (-1); literal 34310835 (-8); literal 23577709 (-8);
   literal (-1) (-1); literal 1 (-1); literal 0 (-1); literal 2 (-1)].
(** lines 64-74 *)
Definition nos4B : sparsity := mkSp 10 10
  [(1,1); (2,0); (2,1); (2,4); (2,5); (3,0); (3,1); (3,3); (3,4); (3,5); (5,5); (6,4); (6,5); (6,8); (6,9);
   (7,4); (7,5); (7,7); (7,8); (7,9); (9,9)].
(** lines 76-85 *)
Definition nos4ValuesB : list (ieee 53 1024) :=
  let row2 := [literal (-71554176) (-9); literal (-35777088) (-9); literal (-71554176) (-9); literal 35777088 (-9)] in
  let row3 := [literal (-35777088) (-9); literal (-17888544) (-9); literal (-2) (-1); literal 35777088 (-9);
               literal (-17888544) (-9)] in
  [literal (-2) (-1)] ++ row2 ++ row3 ++ [literal (-2) (-1)] ++ row2 ++ row3 ++ [literal (-2) (-1)].
(** lines 90-133 *)
Definition exampleNos4 (num_factorize num_solve : N) : res string :=
  runTridiagonal Od printfF regularizationNone nos4A nos4B [7; 8; 0; 4; 3; 2; 6; 5; 9; 1] 9
    (repeat (fixedMat nos4A nos4ValuesA) 9 ++ [fixedMat nos4A nos4ValuesLast]) (repeat (fixedMat nos4B nos4ValuesB) 9)
    (repeat (repeat (dbl 1 0) 10) 10) num_factorize num_solve.
Definition exampleNos4Main : res string := exampleNos4 1000000 1000000.

(** *** examples/repeating/example_indef.cpp and examples/single/example_indef_single.cpp *)

(** static_cast<double>(float) *)
Definition floatToDouble (x : ieee 24 128) : ieee 53 1024 :=
  match x with
  | B754_nan => B754_nan
  | B754_infinity s => B754_infinity s
  | B754_zero s => B754_zero s
  | B754_finite s m e _ => binary_normalize 53 1024 prec64 emax64 mode_NE (cond_Zopp s (Zpos m)) e s
  end.
Definition flt (m e : Z) : ieee 24 128 := binary_normalize 24 128 prec32 emax32 mode_NE m e false.
Definition floatFns (pow : ieee 24 128 -> ieee 24 128 -> ieee 24 128) : scalarFns (ieee 24 128) :=
  mkScalarFns (ieee 24 128) Babs Bltb pow (flt 1 (-23)) (flt 5 (-3)) (flt 1 (-1)).

(** lines 21-77 of example_indef.cpp; the value 1.0 is the same as float *)
Definition indefA : sparsity := mkSp 2 2 [(1, 0)].
Definition indefB : sparsity := mkSp 2 2 [].
Definition exampleIndefMain pow : res string :=
  runTridiagonal Of (fun v => printfF (floatToDouble v)) (regularizationSmallPositiveConstant (floatFns pow))
    indefA indefB [0; 1] 1 (repeat (fixedMat indefA [flt 1 0]) 2) (repeat (fixedMat indefB []) 1)
    [[flt 1 0; flt 2 0]; [flt 3 0; flt 4 0]] 1 1.

(** lines 15-40 of example_indef_single.cpp *)
Definition exampleIndefSingleMain pow : list (ieee 24 128) * list (ieee 24 128) -> res string :=
  runSingle Of (fun v => printfF (floatToDouble v)) (regularizationSmallPositiveConstant (floatFns pow))
    indefA [0; 1] [flt 1 0] [flt 1 0; flt 1 0].

(** *** examples/single/example_lfat5.cpp *)

(** lines 16-28 *)
Definition lfat5Perm : perm := [13; 11; 12; 8; 7; 0; 4; 3; 9; 1; 5; 10; 2; 6].
Definition lfat5Sparsity : sparsity := mkSp 14 14
  [(0,0); (3,0); (4,0); (1,1); (5,1); (2,2); (6,2); (3,3); (7,3); (8,3); (4,4); (7,4); (8,4); (5,5); (9,5);
   (6,6); (10,6); (7,7); (11,7); (12,7); (8,8); (11,8); (12,8); (9,9); (10,10); (11,11); (13,11); (12,12);
   (13,12); (13,13)].
(** lines 46-61 *)
Definition lfat5Values : list (ieee 53 1024) :=
  [literal 157088000000000005 (-17); literal (-942527999999999935) (-16);
   literal 785440000000000027 (-18); literal 125664000000000000 (-10);
   literal (-628320000000000000) (-11); literal 608806201550387560 (-18);
   literal (-304403100775193780) (-18); literal 150804479999999967 (-13);
   literal (-754022399999999834) (-14); literal 942527999999999935 (-16);
   literal 314176000000000011 (-17); literal (-942527999999999935) (-16);
   literal 785440000000000027 (-18); literal 125664000000000000 (-10);
   literal (-628320000000000000) (-11); literal 608806201550387560 (-18);
   literal (-304403100775193780) (-18); literal 150804479999999967 (-13);
   literal (-754022399999999834) (-14); literal 942527999999999935 (-16);
   literal 314176000000000011 (-17); literal (-942527999999999935) (-16);
   literal 785440000000000027 (-18); literal 125664000000000000 (-10); literal 608806201550387560 (-18);
   literal 150804479999999967 (-13); literal 942527999999999935 (-16); literal 314176000000000011 (-17);
   literal 785440000000000027 (-18); literal 157088000000000005 (-17)].
(** lines 38-70 *)
Definition exampleLfat5Main : list (ieee 53 1024) * list (ieee 53 1024) -> res string :=
  runSingle Od printfF regularizationNone lfat5Sparsity lfat5Perm lfat5Values (repeat (dbl 1 0) 14).
