(** Property C78: every iteration of the benchmark program does the same work. *)
From Coq Require Import List Arith Bool NArith ZArith Reals Lra Lia String Ascii Decimal.
From Flocq Require Import Core.Core BinarySingleNaN.
From Verif Require Import Base ModelPerm ModelSparsity ModelSymbolic ModelNumeric ModelArrow ModelReg ModelMtx
  ModelIeee ModelText ModelProgram ModelBenchmark.
From Verif Require Import SpecSymbolic SpecArrow SpecNumeric SpecArrowNum SpecReg SpecRound SpecFlat SpecDomFloat
  SpecMtx SpecText SpecProgram.
From Verif Require Import ExampleData ExampleArrow ExamplePivot ExampleIeee.
From Verif Require Import ProofBenchmark.
From Verif Require Import PropMtx PropText PropDomFloat PropProgram.
Import ListNotations.
Local Open Scope string_scope.


(** ** C78 *)

(** Whatever the arithmetic and the regularization: if the file describes a matrix of the
    compiled structure then each iteration of "factorize" leaves the factorization d of a new
    object, each iteration of "solve" leaves the solution x for the right-hand side of ones
    and each iteration of "combined" leaves both, however often they run and whatever the
    other arguments are. The same numbers are printed by the example program. *)
Theorem C78_runs :
  forall {F : Type} (O : ops F) (one : F) (conv : decimal -> F) (print : F -> string) (reg : F -> nat -> F)
    s n ds dt dl dO text es,
  arrowDims s ds dt dl dO -> (0 < dt)%nat ->
  mtxText text (totalRows n ds dt dl dO) (totalRows n ds dt dl dO) es ->
  Forall (declaredEntry s n ds dt dl dO) (withValues conv es) ->
  Forall (fun e => ~ misreadEntry n ds dt dl dO e) (withValues conv es) ->
  exists m k d0 d rhs x,
    mtxFileRead O scanHeader (scanEntry conv) s (getlines text) = Ok m /\
    arrowBlocks s = Ok k /\ arrowCtor O k n = Ok d0 /\
    arrowFactorize O UpLooking k (ma_mat m) reg d0 = Ok d /\
    vecOf n ds dt dl dO rhs /\ (forall g, In g (allIdx n ds dt dl dO) -> gvecAt O rhs g = one) /\
    arrowSolveInPlace O k d rhs = Ok x /\ vecOf n ds dt dl dO x /\
    forall files path prog, files path = Some text ->
      (forall args nf ns nc, benchmarkMain O one conv reg s files nf ns nc (prog :: path :: args) =
         BenchRuns (repeat d nf) (repeat x ns) (repeat (d, x) nc)) /\
      exampleMain O one conv print reg s files [prog; path] =
        Exits 0 (unlines (reportLines n ds dt dl dO (fun g => print (gvecAt O x g)))).
Proof. exact @benchmark_runs. Qed.
Print Assumptions C78_runs.

Theorem C78_usage :
  forall {F : Type} (O : ops F) (one : F) (conv : decimal -> F) (reg : F -> nat -> F) s files nf ns nc argv,
  (List.length argv < 2)%nat ->
    benchmarkMain O one conv reg s files nf ns nc argv = BenchExits 1 (unlines ["Usage: benchmark_* FILEPATH_MTX"; ""]).
Proof. exact @benchmark_usage. Qed.
Print Assumptions C78_usage.

Theorem C78_rejects :
  forall {F : Type} (O : ops F) (one : F) (conv : decimal -> F) (reg : F -> nat -> F) s files nf ns nc prog path args,
  mtxFileRead O scanHeader (scanEntry conv) s (getlines (match files path with Some text => text | None => "" end)) = Err MtxError ->
    benchmarkMain O one conv reg s files nf ns nc (prog :: path :: args) = BenchFails MtxError.
Proof. exact @benchmark_rejects. Qed.
Print Assumptions C78_rejects.

(** ** examples: the file of [C74_example], which has the hypotheses *)
Definition exBenchReg := regularizationSmallPositiveConstant (doubleFns exPow).
Definition exBench : list string -> bench_ending :=
  benchmarkMain Od (dbl 1 0) decimalToDouble exBenchReg exQA (exFiles (writeMtx 5 5 exDomFile)) 2 3 2.
Definition exShow (x : arrow_vec (F:=ieee 53 1024)) : list string :=
  map (fun g => printfF (gvecAt Od x g)) (allIdx 1 1 1 1 1).
Definition exShowD (d : arrow_data (F:=ieee 53 1024)) : list string :=
  map (fun g => printfF (pivotAt Od d g)) (allIdx 1 1 1 1 1).
Example C78_example :
  (let x := ["0.200801"; "-0.113760"; "-0.133592"; "0.136071"; "-0.091048"]%string in
   let D := ["6.000000"; "-9.166667"; "-7.890909"; "9.126728"; "-10.082050"]%string in
   match exBench ["a.out"; "dom.mtx"; "--benchmark_filter=solve"]%string with
   | BenchRuns f s c => map exShowD f = [D; D] /\ map exShow s = [x; x; x] /\
       map (fun dx => (exShowD (fst dx), exShow (snd dx))) c = [(D, x); (D, x)]
   | _ => False
   end) /\
  exBench ["a.out"; "other.mtx"]%string = BenchFails MtxError /\
  exBench ["a.out"]%string = BenchExits 1 (unlines ["Usage: benchmark_* FILEPATH_MTX"; ""]%string).
Proof. vm_compute. repeat split. Qed.
