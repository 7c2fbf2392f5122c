(** The text that is printed for an entry. *)
From Coq Require Import String Decimal DecimalString Nat.
From Verif Require Import Base ModelSparsity.
Local Open Scope string_scope.

(** std::ostream& operator<<(std::size_t) of a stream with default flags and the classic
    locale: decimal digits without leading zeros. *)
Definition printSize (n : nat) : string := NilZero.string_of_uint (Nat.to_uint n).

(** ctldl/sparsity/entry_print.hpp:9-13. Simplification: what is appended to the stream is
    returned; the width, the fill character and the error state of the stream are left out. *)
Definition printEntry (e : entry) : string :=
  "Entry{.row_index=" ++ printSize (fst e) ++ ", .col_index=" ++ printSize (snd e) ++ "}".
