(** Model of the program examples/repeating/benchmark_mtx.cpp.

    Simplifications: the benchmark library is not modelled. It runs every registered function
    with a number of iterations of its choice, which is an input here, and prints times. What
    the iterations leave in the variables of the loops is kept as a list instead. *)
From Coq Require Import List Arith String.
From Verif Require Import Base ModelPerm ModelSparsity ModelSymbolic ModelNumeric ModelArrow ModelMtx ModelText
  ModelProgram.
Import ListNotations.
Local Open Scope string_scope.

(** std::ranges::copy(src, dst.begin()): writing behind the end is undefined *)
Definition copyRange {A : Type} (src dst : list A) : res (list A) :=
  if (List.length src <=? List.length dst)%nat then Ok (src ++ skipn (List.length src) dst)%list else Err UB.

(** [for (auto _ : state)]: the variables after each iteration *)
Fixpoint stateLoop {S : Type} (body : S -> res S) (num : nat) (v : S) : res (list S) :=
  match num with
  | 0 => Ok []
  | S num =>
      let* v := body v in
      let* vs := stateLoop body num v in
      Ok (v :: vs)
  end.

(** how the program ends: with an exit status and what was printed, with an exception of the
    reader or in another way, or after running the benchmarks "factorize", "solve" and
    "combined" *)
Inductive bench_ending {F : Type} :=
| BenchExits (status : nat) (out : string)
| BenchFails (e : err)
| BenchRuns (factorizeRuns : list (arrow_data (F:=F))) (solveRuns : list (arrow_vec (F:=F)))
    (combinedRuns : list (arrow_data (F:=F) * arrow_vec (F:=F))).

Section Benchmark.
  Context {F : Type} (O : ops F).
  Variable one : F.                  (* 1.0 *)
  Variable conv : decimal -> F.      (* %lf of sscanf *)
  Variable reg : F -> nat -> F.      (* RegularizationSmallPositiveConstant *)

  (** copyRightHandSide, benchmark_mtx.cpp:49-54 *)
  Definition copyRightHandSide (rhs out : arrow_vec (F:=F)) : res (arrow_vec (F:=F)) :=
    let* tri := copyRange (v_tri rhs) (v_tri out) in
    Ok (mkAV (v_start rhs) tri (v_link rhs) (v_outer rhs)).

  (** benchmarkFactorize, benchmark_mtx.cpp:56-80 *)
  Definition benchmarkFactorize (k : arrow_blks) (m : arrow_mat) (num : nat) : res (list arrow_data) :=
    let* d := arrowCtor O k (List.length (a_ts m)) in
    stateLoop (fun d => arrowFactorize O UpLooking k m reg d) num d.

  (** benchmarkSolve, benchmark_mtx.cpp:82-112 *)
  Definition benchmarkSolve (k : arrow_blks) (ds dt dl dO : nat) (m : arrow_mat) (num : nat) : res (list arrow_vec) :=
    let num_repetitions := List.length (a_ts m) in
    let* d := arrowCtor O k num_repetitions in
    let* d := arrowFactorize O UpLooking k m reg d in
    let rhs := onesRhs one num_repetitions ds dt dl dO in
    stateLoop (fun x => let* x := copyRightHandSide rhs x in arrowSolveInPlace O k d x) num rhs.

  (** benchmarkCombined, benchmark_mtx.cpp:114-151 *)
  Definition benchmarkCombined (k : arrow_blks) (ds dt dl dO : nat) (m : arrow_mat) (num : nat) :
      res (list (arrow_data * arrow_vec)) :=
    let num_repetitions := List.length (a_ts m) in
    let* d := arrowCtor O k num_repetitions in
    let rhs := onesRhs one num_repetitions ds dt dl dO in
    stateLoop (fun dx =>
        let* x := copyRightHandSide rhs (snd dx) in
        let* d := arrowFactorize O UpLooking k m reg (fst dx) in
        let* x := arrowSolveInPlace O k d x in
        Ok (d, x)) num (d, rhs).

  (** benchmark_mtx.cpp:162-174; [nf], [ns] and [nc] are the numbers of iterations. The
      matrix is read once. *)
  Definition runBenchmarks (s : arrow_sp) (nf ns nc : nat) (text : string) : res bench_ending :=
    let* m := mtxFileRead O scanHeader (scanEntry conv) s (getlines text) in
    let m := ma_mat m in
    let* k := arrowBlocks s in
    let* ds := as_dim_start s in
    let* dt := as_dim_tri s in
    let* dl := as_dim_link s in
    let* dO := as_dim_outer s in
    let* f := benchmarkFactorize k m nf in
    let* x := benchmarkSolve k ds dt dl dO m ns in
    let* c := benchmarkCombined k ds dt dl dO m nc in
    Ok (BenchRuns f x c).

  (** main, benchmark_mtx.cpp:156-175. The arguments behind the path are for the benchmark
      library. A file that cannot be opened looks like an empty one to std::getline. *)
  Definition benchmarkMain (s : arrow_sp) (files : string -> option string) (nf ns nc : nat) (argv : list string) :
      bench_ending :=
    match argv with
    | _ :: path :: _ =>
        match runBenchmarks s nf ns nc (match files path with Some text => text | None => "" end) with
        | Ok r => r
        | Err e => BenchFails e
        end
    | _ => BenchExits 1 ("Usage: benchmark_* FILEPATH_MTX" ++ endline ++ endline)
    end.
End Benchmark.
