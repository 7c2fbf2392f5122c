(** Property C75: the example programs that are shipped with the library. *)
From Coq Require Import List Arith Bool NArith ZArith QArith Qabs Qcanon Reals Lia String.
From Flocq Require Import Core.Core BinarySingleNaN.
From Verif Require Import Base ModelPerm ModelSparsity ModelSymbolic ModelNumeric ModelArrow ModelReg ModelMtx
  ModelIeee ModelText ModelProgram ModelExamples.
From Verif Require Import SpecSymbolic SpecArrow SpecNumeric SpecArrowNum SpecMtx SpecText SpecProgram SpecExamples.
From Verif Require Import ExampleData ExampleArrow ProofArrowProduct ProofProgramRun ProofExamples ProofExamplesRun.
From Verif Require Import PropMtx PropText.
Import ListNotations.
Local Open Scope nat_scope.

(** ** C75 *)

(** The programs example_mtx_*: with every structure that is shipped, the program reads every
    file with declared entries as it should (see C32 for structures where it does not), and
    prints the solution. *)
Theorem C75_shipped_structures :
  forall name s, In (name, s) shippedStructures ->
  exists ds dt dl dO, arrowDims s ds dt dl dO /\ 0 < dt /\
  forall (F : Type) (O : ops F) (one : F) (conv : decimal -> F) (print : F -> string) (reg : F -> nat -> F)
    n text es,
  mtxText text (totalRows n ds dt dl dO) (totalRows n ds dt dl dO) es ->
  Forall (declaredEntry s n ds dt dl dO) (withValues conv es) ->
  exists m k d0 d rhs x,
    mtxFileRead O scanHeader (scanEntry conv) s (getlines text) = Ok m /\
    inputArrow O n ds dt dl dO (ma_mat m) (mtxVals m) /\
    (forall g h, In g (allIdx n ds dt dl dO) -> In h (allIdx n ds dt dl dO) ->
       matAt O (ma_mat m) (mtxVals m) g h =
       fileAt O (withValues conv es) (posOf n ds dt dl g) (posOf n ds dt dl h)) /\
    arrowBlocks s = Ok k /\ arrowCtor O k n = Ok d0 /\
    arrowFactorize O UpLooking k (ma_mat m) reg d0 = Ok d /\
    (forall g, In g (allIdx n ds dt dl dO) -> gvecAt O rhs g = one) /\
    arrowSolveInPlace O k d rhs = Ok x /\
    forall files path prog args, files path = Some text ->
      (args = [] \/ exists arg c, args = [arg] /\ countText arg c /\ c <> 0%N) ->
      exampleMain O one conv print reg s files (prog :: path :: args) =
      Exits 0 (unlines (reportLines n ds dt dl dO (fun g => print (gvecAt O x g)))).
Proof. exact @shipped_run. Qed.
Print Assumptions C75_shipped_structures.

(** Programs with a fixed block tridiagonal matrix: they print the computed solution, however
    often they repeat the factorization and the solution. *)
Theorem C75_repetitions :
  forall {F : Type} (O : ops F) (print : F -> string) (reg : F -> nat -> F) a b p dt n A B wA wB rhs nF nS,
  spOf a dt dt -> spOf b dt dt -> validPerm dt p ->
  inputTri O n dt A B wA wB -> declaredTri a b n A B -> blocksOf n dt rhs ->
  nF <> 0%N -> nS <> 0%N ->
  exists k d0 d x, tridiagonalBlocks a b p = Ok k /\ arrowCtor O k n = Ok d0 /\
    tridiagonalFactorize O UpLooking k dt A B reg d0 = Ok d /\
    tridiagonalSolveInPlace O k d rhs = Ok x /\ blocksOf n dt x /\
    runTridiagonal O print reg a b p n A B rhs nF nS = Ok (unlines (map print (List.concat x))).
Proof. exact @tri_program. Qed.
Print Assumptions C75_repetitions.

(** a double as a rational number *)
Theorem C75_exact_value : forall x, ieeeFinite 53 1024 x -> Q2R (this (doubleQ x)) = ieeeVal 53 1024 x.
Proof. exact doubleQ_val. Qed.
Print Assumptions C75_exact_value.

(** example_tridiagonal prints the exact solution: k * (61 - k) / 2 in row k of 60 *)
Theorem C75_tridiagonal :
  let rows := list_prod (seq 0 20) (seq 0 3) in
  let M := fun r c => doubleQ (triMatAt Od (repeat (fixedMat tridiagonalA tridiagonalValuesA) 20)
    (repeat (fixedMat tridiagonalB tridiagonalValuesB) 19) (repeat tridiagonalValuesA 20) (repeat tridiagonalValuesB 19)
    (fst r) (snd r) (fst c) (snd c)) in
  let pos := fun r : nat * nat => Z.of_nat (3 * fst r + snd r + 1) in
  let xs := fun r => Q2Qc (pos r * (61 - pos r) # 2) in
  onlySolutionQ rows M (fun _ => 1%Qc) xs /\
  exists lines, exampleTridiagonalMain = Ok (unlines lines) /\ List.length lines = 60 /\
    forall r, In r rows -> printsClose (nth (3 * fst r + snd r) lines ""%string) (xs r) 0.
Proof. exact (conj tri_only tri_prints). Qed.
Print Assumptions C75_tridiagonal.

(** example_lfat5, whatever is in the memory of the factorization before: every printed
    number is as close to the exact solution as six digits behind the point allow *)
Theorem C75_lfat5 :
  forall b L0 D0, factorizationBlk lfat5Sparsity lfat5Perm = Ok b ->
  List.length L0 = c_nnz (b_sp b) -> List.length D0 = 14 ->
  exists lines, exampleLfat5Main (L0, D0) = Ok (unlines lines) /\ List.length lines = 14 /\
    exists xs, onlySolutionQ (seq 0 14) (fun i j => doubleQ (symAt Od (entries lfat5Sparsity) lfat5Values i j)) (fun _ => 1%Qc) xs /\
      forall i, i < 14 -> printsClose (nth i lines ""%string) (xs i) (1 # 2).
Proof. exact lfat5_prints. Qed.
Print Assumptions C75_lfat5.

(** example_nos4 prints numbers (no infinity, no NaN) for all variables *)
Theorem C75_nos4 : exists lines, exampleNos4Main = Ok (unlines lines) /\ List.length lines = 100 /\
  Forall (fun l => exists neg q, fixedText l neg q) lines.
Proof. exact nos4_prints. Qed.
Print Assumptions C75_nos4.
(** example_nos2, with any number of blocks and of repetitions: it prints one line for each
    variable, and the number of repetitions makes no difference *)
Theorem C75_nos2 : forall n nF nS, nF <> 0%N -> nS <> 0%N ->
  exists xs, exampleNos2 n nF nS = Ok (unlines (map printfF xs)) /\ List.length xs = 3 * (n + 1) /\
    exampleNos2 n 1 1 = exampleNos2 n nF nS.
Proof. exact nos2_prints. Qed.
Print Assumptions C75_nos2.

(** ** examples *)

Local Open Scope string_scope.

(** what is printed *)
Example C75_lfat5_example :
  exists b, factorizationBlk lfat5Sparsity lfat5Perm = Ok b /\
  exampleLfat5Main (repeat (dbl 7 0) (c_nnz (b_sp b)), repeat (dbl 8 0) 14) =
  Ok (unlines ["1.220123"; "0.000000"; "4.927676"; "0.011538"; "0.217500"; "0.000000"; "6.570235"; "0.005040";
               "-0.212195"; "0.000000"; "4.927676"; "-0.004377"; "-0.005305"; "0.901830"]).
Proof. eexists. split; [vm_compute; reflexivity|]. vm_compute. reflexivity. Qed.

(** example_nos2 with three blocks *)
Example C75_nos2_example : exampleNos2 2 1 1 =
  Ok (unlines ["0.000005"; "-0.000000"; "0.000000"; "0.000006"; "-0.000000"; "0.000000"; "0.000005"; "0.000000"; "0.000000"]).
Proof. vm_compute. reflexivity. Qed.

(** The programs with an indefinite matrix and without entries on the diagonal, where every
    pivot that belongs to a first variable is regularized, with a correctly rounded std::pow
    in single precision. The exact solutions are 2, 1, 4, 3 and 1, 1. *)
Definition exPowF (a b : ieee 24 128) : ieee 24 128 :=
  if Beqb b (flt 1 (-1)) then flt 11863283 (-35) else flt 12937002 (-38).
Example C75_indefinite_example :
  exampleIndefMain exPowF = Ok (unlines ["2.000000"; "0.999309"; "4.000977"; "2.998619"]) /\
  exampleIndefSingleMain exPowF ([flt 0 0], [flt 0 0; flt 0 0]) = Ok (unlines ["1.000000"; "0.999655"]).
Proof. split; vm_compute; reflexivity. Qed.

(** a file for the program example_mtx_suitesparse_HB_nos2: two blocks *)
Definition exNos2File : list (nat * nat * decimal) :=
  map (fun e => let '(r, c, v) := e in (r, c, ((v <? 0)%Z, Z.to_N (Z.abs v), 0%Z)))
    [((0, 0)%nat, 4%Z); ((1, 1)%nat, 5%Z); ((2, 2)%nat, 6%Z);
     ((3, 0)%nat, (-1)%Z); ((4, 1)%nat, 2%Z); ((5, 1)%nat, 1%Z); ((4, 2)%nat, 1%Z); ((5, 2)%nat, (-2)%Z);
     ((3, 3)%nat, 4%Z); ((4, 4)%nat, 5%Z); ((5, 5)%nat, 6%Z)].
Example C75_shipped_example :
  In ("suitesparse_HB_nos2", nos2Sparsity) shippedStructures /\
  mtxText (writeMtx 6 6 exNos2File) (totalRows 1 0 3 0 0) (totalRows 1 0 3 0 0) exNos2File /\
  Forall (declaredEntry nos2Sparsity 1 0 3 0 0) (withValues decimalToDouble exNos2File) /\
  exampleDouble (fun _ _ => dbl 1 (-32)) nos2Sparsity (fun _ => Some (writeMtx 6 6 exNos2File)) ["a.out"; "f"; "2"] =
  Exits 0 (unlines ["----- tridiag -----"; "0.333333"; "0.111111"; "0.222222"; "0.333333"; "0.111111"; "0.222222"]).
Proof.
  split; [cbn; auto|]. split; [|split].
  - apply C60_written_files; try reflexivity. intros r c d H. cbn in H.
    repeat (destruct H as [H|H]; [injection H as <- <- _; cbn; lia|]). contradiction.
  - entry_in ([(GT 0 0, GT 0 0); (GT 0 1, GT 0 1); (GT 0 2, GT 0 2); (GT 1 0, GT 0 0); (GT 1 1, GT 0 1); (GT 1 2, GT 0 1);
      (GT 1 1, GT 0 2); (GT 1 2, GT 0 2); (GT 1 0, GT 1 0); (GT 1 1, GT 1 1); (GT 1 2, GT 1 2)]).
  - vm_compute. reflexivity.
Qed.
