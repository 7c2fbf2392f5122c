(** Paths in the graph of a matrix. *)
From Coq Require Import List Arith.
Import ListNotations.

(** a walk from a to b with the vertices l in between *)
Fixpoint walk {V : Type} (adj : V -> V -> Prop) (a : V) (l : list V) (b : V) : Prop :=
  match l with
  | [] => adj a b
  | c :: l' => adj a c /\ walk adj c l' b
  end.

(** The graph of the symmetric matrix whose strictly lower entries are [es] *)
Definition adjacent (es : list (nat * nat)) (u v : nat) : Prop :=
  u <> v /\ In (Nat.max u v, Nat.min u v) es.
