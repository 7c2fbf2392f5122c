(** Specification of what examples/repeating/example_mtx.cpp prints. *)
From Coq Require Import List NArith ZArith Reals String Ascii Decimal DecimalString.
From Flocq Require Import Core.Core.
From Verif Require Import Base ModelPerm ModelSparsity ModelSymbolic ModelNumeric ModelArrow SpecArrowNum ModelText SpecText.
Import ListNotations.
Local Open Scope string_scope.

(** the number q * 10^-6 with exactly six digits behind the point and no superfluous zeros
    in front of it *)
Definition fixedText (l : string) (neg : bool) (q : N) : Prop :=
  exists ui uf, l = (if neg then "-" else "") ++ digits ui ++ "." ++ digits uf /\
    unorm ui = ui /\ nb_digits uf = 6%nat /\
    (N.of_uint ui * 10 ^ 6 + N.of_uint uf)%N = q.

(** the number with six digits behind the point that is closest to x *)
Definition printsNumber (l : string) (x : R) : Prop :=
  exists neg q, fixedText l neg q /\ signed neg (Z.of_N q) = ZnearestE (x * 1000000).

Section Report.
Local Open Scope list_scope.
(** the lines of the output, where [num] is the text for a variable *)
Definition section (title : string) (vars : list gidx) (num : gidx -> string) : list string :=
  match vars with [] => [] | _ => title :: map num vars end.
Definition reportLines (n ds dt dl dO : nat) (num : gidx -> string) : list string :=
  section "------ start ------" (map GS (seq 0 ds)) num ++
  ("----- tridiag -----" :: map num (List.concat (map (fun t => map (GT t) (seq 0 dt)) (seq 0 (n + 1))))) ++
  section "------ link -------" (map GL (seq 0 dl)) num ++
  section "------ outer ------" (map GO (seq 0 dO)) num.
End Report.

(** an argument that is a number, also with a sign and white space in front of it and
    anything but a digit behind it *)
Definition numberText (l : string) (neg : bool) (num : N) : Prop :=
  exists w sg u rest, l = w ++ sg ++ digits u ++ rest /\ allChars white w /\ signText sg neg /\
    u <> Nil /\ N.of_uint u = num /\
    match rest with String c _ => ~ (exists d, digits d = String c "") | EmptyString => True end.
(** of 64 bits *)
Definition countText (l : string) (num : N) : Prop := numberText l false num /\ (num < 2 ^ 64)%N.
