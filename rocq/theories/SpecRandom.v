(** The sequence of a generator. *)
From Coq Require Import NArith.
From Verif Require Import ModelRandom.

(** the state of the generator, and its last result, after [n] calls *)
Fixpoint draws (n : nat) (g : N) : N :=
  match n with 0 => g | S n => lcgNext (draws n g) end.
