(** The Schur complement. *)
From Coq Require Import Arith.
From Verif Require Import ModelNumeric SpecNumeric.

Section Schur.
  Context {F : Type} (O : ops F).

  (** B11 X = B12 for the N times N matrix B split after q rows and columns; the columns of
      X are numbered like those of B *)
  Definition eliminates (N q : nat) (B X : nat -> nat -> F) : Prop :=
    forall u h, u < q -> q <= h -> h < N -> sumn O q (fun v => omul O (B u v) (X v h)) = B u h.

  (** B22 - B21 X *)
  Definition schurAt (q : nat) (B X : nat -> nat -> F) (g h : nat) : F :=
    osub O (B g h) (sumn O q (fun u => omul O (B g u) (X u h))).

  (** row g and column h of L D L^T, only with the columns from q on of L *)
  Definition trailAt (N q : nat) (L : nat -> nat -> F) (D : nat -> F) (g h : nat) : F :=
    sumn O (N - q) (fun k => omul O (omul O (L g (q + k)) (D (q + k))) (L h (q + k))).
End Schur.
