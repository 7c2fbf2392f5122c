From Coq Require Import List Arith.
Import ListNotations.

(** Lexicographic order of lists. *)
Definition lexLt (a b : list nat) : Prop :=
  exists k, firstn k a = firstn k b /\ k < length a /\ k < length b /\ nth k a 0 < nth k b 0.
