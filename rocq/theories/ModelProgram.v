(** Model of the program examples/repeating/example_mtx.cpp.

    Simplifications: memory is available; the lines of the output are one string, what is
    buffered in front of an uncaught exception is not modelled (the program prints nothing
    before that); printf prints "nan" for every NaN (glibc prints the sign bit of it). *)
From Coq Require Import List Arith Bool NArith ZArith String Ascii.
From Coq Require DecimalString.
From Flocq Require Import BinarySingleNaN.
From Verif Require Import Base ModelPerm ModelSparsity ModelSymbolic ModelNumeric ModelArrow ModelReg ModelMtx
  ModelIeee ModelText.
Import ListNotations.
Local Open Scope string_scope.

(** ** std::printf("%f") for double: six digits behind the point, correctly rounded, ties to
    even (glibc in the default rounding mode) *)
Definition printDigits (n : N) : string := DecimalString.NilZero.string_of_uint (N.to_uint n).

(** num / den, rounded *)
Definition roundedQuotient (num den : Z) : Z :=
  let q := (num / den)%Z in
  let r := (num mod den)%Z in
  match (2 * r ?= den)%Z with
  | Lt => q
  | Gt => (q + 1)%Z
  | Eq => if Z.even q then q else (q + 1)%Z
  end.

(** m * 2^e in units of 10^-6 *)
Definition millionths (m : positive) (e : Z) : N :=
  Z.to_N (if (0 <=? e)%Z then Zpos m * 2 ^ e * 10 ^ 6
          else roundedQuotient (Zpos m * 10 ^ 6) (2 ^ - e))%Z.

(** the last six digits of 10^6 + q *)
Definition sixDigits (q : N) : string :=
  match printDigits (10 ^ 6 + q) with String _ s => s | EmptyString => EmptyString end.

Definition printSign (neg : bool) : string := if neg then "-" else "".

Definition printfF (x : ieee 53 1024) : string :=
  match x with
  | B754_nan => "nan"
  | B754_infinity neg => printSign neg ++ "inf"
  | B754_zero neg => printSign neg ++ "0.000000"
  | B754_finite neg m e _ =>
      let q := millionths m e in
      printSign neg ++ printDigits (q / 10 ^ 6) ++ "." ++ sixDigits (q mod 10 ^ 6)
  end.

(** ** std::stoull (example_mtx.cpp:41): no digits or a number out of range is an exception,
    what follows the digits is ignored, a sign is accepted and negates modulo 2^64 *)
Definition stoull (l : string) : option N :=
  let (neg, l) := scanSign (skipSpaces l) in
  let '(n, count, _) := scanDigits 0 0 l in
  match count with
  | 0 => None
  | _ => if (2 ^ 64 <=? n)%N then None
         else Some (if neg then (2 ^ 64 - n) mod 2 ^ 64 else n)%N
  end.

(** how the program ends: with an exit status and what was printed, with an exception of
    std::stoull that nobody catches, or in one of the other ways (the exception of the
    reader is not caught either) *)
Inductive ending :=
| Exits (status : nat) (out : string)
| StoullThrows
| Fails (e : err).

Definition endline : string := String "010" EmptyString.

Section Program.
  Context {F : Type} (O : ops F).
  Variable one : F.                  (* 1.0 *)
  Variable conv : decimal -> F.      (* %lf of sscanf *)
  Variable print : F -> string.      (* %f of printf *)
  Variable reg : F -> nat -> F.      (* RegularizationSmallPositiveConstant *)

  (** getArrayOfOnes, example_mtx.cpp:27-32 *)
  Definition arrayOfOnes (dim : nat) : list F := repeat one dim.

  (** example_mtx.cpp:53-58 *)
  Definition onesRhs (num_repetitions ds dt dl dO : nat) : arrow_vec :=
    mkAV (arrayOfOnes ds) (repeat (arrayOfOnes dt) (num_repetitions + 1))
         (arrayOfOnes dl) (arrayOfOnes dO).

  (** example_mtx.cpp:61-71; the right-hand side is copied in front of every solve, so what
      the solution vector held before does not matter *)
  Fixpoint iterations (k : arrow_blks) (m : arrow_mat) (rhs : arrow_vec) (num : nat)
      (st : arrow_data * arrow_vec) : res (arrow_data * arrow_vec) :=
    match num with
    | 0 => Ok st
    | S num =>
        let* d := arrowFactorize O UpLooking k m reg (fst st) in
        let* x := arrowSolveInPlace O k d rhs in
        iterations k m rhs num (d, x)
    end.

  Definition printLines (values : list F) : string :=
    fold_right (fun v out => print v ++ endline ++ out) EmptyString values.

  (** example_mtx.cpp:73-96 *)
  Definition printSolution (ds dl dO : nat) (x : arrow_vec) : string :=
    (if (0 <? ds)%nat then "------ start ------" ++ endline ++ printLines (v_start x) else "") ++
    "----- tridiag -----" ++ endline ++
    fold_right (fun part out => printLines part ++ out) EmptyString (v_tri x) ++
    (if (0 <? dl)%nat then "------ link -------" ++ endline ++ printLines (v_link x) else "") ++
    (if (0 <? dO)%nat then "------ outer ------" ++ endline ++ printLines (v_outer x) else "").

  (** example_mtx.cpp:46-96 *)
  Definition runExample (s : arrow_sp) (num_iterations : N) (text : string) : res string :=
    let* m := mtxFileRead O scanHeader (scanEntry conv) s (getlines text) in
    let m := ma_mat m in
    let num_repetitions := List.length (a_ts m) in
    let* k := arrowBlocks s in
    let* d := arrowCtor O k num_repetitions in
    let* ds := as_dim_start s in
    let* dt := as_dim_tri s in
    let* dl := as_dim_link s in
    let* dO := as_dim_outer s in
    let rhs := onesRhs num_repetitions ds dt dl dO in
    let* dx := iterations k m rhs (N.to_nat num_iterations) (d, rhs) in
    Ok (printSolution ds dl dO (snd dx)).

  (** main, example_mtx.cpp:34-97. [files] gives the content of files; a file that cannot be
      opened looks like an empty one to std::getline. *)
  Definition exampleMain (s : arrow_sp) (files : string -> option string) (argv : list string) : ending :=
    let run := fun path num_iterations =>
      match runExample s num_iterations (match files path with Some text => text | None => "" end) with
      | Ok out => Exits 0 out
      | Err e => Fails e
      end in
    match argv with
    | [_; path] => run path 1%N
    | [_; path; num] =>
        match stoull num with
        | Some num_iterations => run path num_iterations
        | None => StoullThrows
        end
    | _ => Exits 1 ("Usage: example_* FILEPATH_MTX [NUM_ITERATIONS]" ++ endline ++ endline)
    end.
End Program.

(** the functions of the regularization for double (see ModelReg.v). The value of std::pow
    is not specified exactly, so it stays open. *)
Definition doubleFns (pow : ieee 53 1024 -> ieee 53 1024 -> ieee 53 1024) : scalarFns (ieee 53 1024) :=
  mkScalarFns (ieee 53 1024) Babs Bltb pow (dbl 1 (-52)) (dbl 5 (-3)) (dbl 1 (-1)).

Definition exampleDouble pow : arrow_sp -> (string -> option string) -> list string -> ending :=
  exampleMain Od (dbl 1 0) decimalToDouble printfF (regularizationSmallPositiveConstant (doubleFns pow)).
