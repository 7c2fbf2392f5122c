(** The determinant. *)
From Coq Require Import List Arith.
From Verif Require Import ModelNumeric SpecNumeric.
Import ListNotations.

(** the r-th row that remains when row i is removed *)
Definition skipRow (i r : nat) : nat := if r <? i then r else S r.

Section Det.
  Context {F : Type} (O : ops F) (one : F).

  Definition signed (i : nat) (x : F) : F := if Nat.even i then x else osub O (o0 O) x.

  (** Expansion along the first column of the n times n matrix A. *)
  Fixpoint det (n : nat) (A : nat -> nat -> F) : F :=
    match n with
    | 0 => one
    | S m => sumn O n (fun i =>
        signed i (omul O (A i 0) (det m (fun r c => A (skipRow i r) (S c)))))
    end.

  (** the matrix with rows and columns in the order of a list of indices *)
  Definition detOf {I} (d : I) (l : list I) (A : I -> I -> F) : F :=
    det (length l) (fun i j => A (nth i l d) (nth j l d)).

  Fixpoint prodn (n : nat) (f : nat -> F) : F :=
    match n with
    | 0 => one
    | S m => omul O (prodn m f) (f m)
    end.

  Definition prodOf {I} (d : I) (l : list I) (f : I -> F) : F :=
    prodn (length l) (fun i => f (nth i l d)).
End Det.
