(** Model of the regularizations that need no particular scalar type. *)

(** ctldl/factorize/regularization_none.hpp:7-13 *)
Definition regularizationNone {F : Type} (Di : F) (i : nat) : F := Di.

(** The functions of <cmath> and <limits> and the literals that the other
    regularization uses. *)
Record scalarFns (F : Type) := mkScalarFns {
  fn_abs : F -> F;           (* std::abs *)
  fn_ltb : F -> F -> bool;   (* operator< *)
  fn_pow : F -> F -> F;      (* std::pow *)
  fn_epsilon : F;            (* std::numeric_limits<Value>::epsilon() *)
  fn_0625 : F;               (* static_cast<Value>(0.625) *)
  fn_05 : F }.               (* static_cast<Value>(0.5) *)
Arguments fn_abs {F}. Arguments fn_ltb {F}. Arguments fn_pow {F}.
Arguments fn_epsilon {F}. Arguments fn_0625 {F}. Arguments fn_05 {F}.

(** ctldl/factorize/regularization_small_positive_constant.hpp:9-21 *)
Definition regularizationSmallPositiveConstant {F : Type} (S : scalarFns F) (Di : F) (i : nat) : F :=
  let pivot_tolerance := fn_pow S (fn_epsilon S) (fn_0625 S) in
  let regularization_constant := fn_pow S (fn_epsilon S) (fn_05 S) in
  if fn_ltb S (fn_abs S Di) pivot_tolerance then regularization_constant else Di.
