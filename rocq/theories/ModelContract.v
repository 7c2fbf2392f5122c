(** Model of ctldl/utility/contracts.hpp and contracts.cpp: what the checks of conditions
    report, and of tests/utility/to_test_info.cpp.

    Simplification: an exception is its kind and its message; memory for the message is
    available. *)
From Coq Require Import List Arith Bool NArith String Ascii.
From Coq Require DecimalString.
Import ListNotations.
Local Open Scope string_scope.

(** std::source_location *)
Record location := mkLoc { loc_file : string; loc_line : N; loc_function : string }.

(** "{}" of std::format and << for unsigned integers *)
Definition showN (n : N) : string := DecimalString.NilZero.string_of_uint (N.to_uint n).

Inductive outcome :=
| Continue                              (* the check has no effect *)
| LogicError (what : string).           (* std::logic_error *)

(** class ContractViolationException (ctldl/utility/contracts.cpp:9-18) *)
Definition violation (kind : string) (l : location) : outcome :=
  LogicError ("Contract " ++ kind ++ " violation at " ++ loc_file l ++ ":" ++ showN (loc_line l) ++
              " in function " ++ loc_function l).

(** contractHandlePreconditionViolation and the others (ctldl/utility/contracts.cpp:20-33) *)
Definition contractHandlePreconditionViolation (l : location) : outcome := violation "precondition" l.
Definition contractHandlePostconditionViolation (l : location) : outcome := violation "postcondition" l.
Definition contractHandleAssertionViolation (l : location) : outcome := violation "assertion" l.

Section Checks.
  (** [std::source_location{}]: its members are valid but not specified by the standard *)
  Variable unspecified : location.

  (** The value of the default argument [std::source_location{}]
      (ctldl/utility/contracts.hpp:11-12, 19-20, 28) in a call at [site]. Only
      [std::source_location::current()] would be [site]. *)
  Definition defaultLocation (site : location) : location := unspecified.

  (** pre, post, contract_assert_ (ctldl/utility/contracts.hpp:11-34), called at [site];
      [given] is the second argument if the call has one *)
  Definition argLocation (site : location) (given : option location) : location :=
    match given with Some l => l | None => defaultLocation site end.
  Definition pre (site : location) (condition : bool) (given : option location) : outcome :=
    if condition then Continue else contractHandlePreconditionViolation (argLocation site given).
  Definition post (site : location) (condition : bool) (given : option location) : outcome :=
    if condition then Continue else contractHandlePostconditionViolation (argLocation site given).
  Definition contract_assert_ (site : location) (condition : bool) (given : option location) : outcome :=
    if condition then Continue else contractHandleAssertionViolation (argLocation site given).
End Checks.

(** toTestInfo(PermutationView) (tests/utility/to_test_info.cpp:7-20) *)
Definition toTestInfo (permutation : list N) : string :=
  match permutation with
  | [] => "[]"
  | p0 :: rest => "[" ++ showN p0 ++ fold_left (fun s p => s ++ " " ++ showN p) rest "" ++ "]"
  end.
