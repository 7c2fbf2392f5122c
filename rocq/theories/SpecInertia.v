(** Inertia: the dimensions of the subspaces on which a symmetric matrix is positive
    or negative definite. *)
From Coq Require Import List Arith Bool.
From Verif Require Import ModelNumeric SpecNumeric SpecPivot.
Import ListNotations.

Section Inertia.
  Context {F : Type} {O : ops F} {FL : fieldLaws O} (OL : ordLaws FL) {I : Type} (all : list I).

  (** c_0 v_0 + ... + c_(k-1) v_(k-1) *)
  Definition combination (k : nat) (v : nat -> I -> F) (c : nat -> F) (g : I) : F :=
    sumn O k (fun j => omul O (c j) (v j g)).

  (** x^T A x is positive (negative) for all x except zero in some subspace of dimension
      k: the combinations of k vectors *)
  Definition definiteOn (positive : bool) (A : I -> I -> F) (k : nat) : Prop :=
    exists v : nat -> I -> F, forall c : nat -> F,
      (exists j, j < k /\ c j <> o0 O) -> hasSign OL positive (quadForm O all A (combination k v c)).

  (** number of positive (negative) elements *)
  Definition isPos (a : F) : bool := match ol_dec OL a with inleft (left _) => true | _ => false end.
  Definition isNeg (a : F) : bool := match ol_dec OL a with inright _ => true | _ => false end.
  Definition countSign (positive : bool) (D : I -> F) : nat :=
    length (filter (fun g => if positive then isPos (D g) else isNeg (D g)) all).
End Inertia.
