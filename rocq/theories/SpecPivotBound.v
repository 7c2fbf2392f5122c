(** Matrices whose definiteness has a margin. *)
From Coq Require Import Reals List.
From Verif Require Import ModelNumeric SpecNumeric SpecPivot SpecReg.
Local Open Scope R_scope.

(** the sum of the squares *)
Definition squares {I : Type} (all : list I) (z : I -> R) : R := suml Or all (fun g => z g * z g).

(** The rows [g] with [P g = true] form a matrix with no eigenvalue below [lam], the other rows
    one with no eigenvalue above [-lam]. Nothing is said about the entries that connect the
    two. *)
Definition quasiDefBy {I : Type} (all : list I) (P : I -> bool) (A : I -> I -> R) (lam : R) : Prop :=
  forall z,
    ((forall g, In g all -> P g = false -> z g = 0) -> lam * squares all z <= quadForm Or all A z) /\
    ((forall g, In g all -> P g = true -> z g = 0) -> quadForm Or all A z <= - (lam * squares all z)).

(** no eigenvalue below [lam] *)
Definition posDefBy {I : Type} (all : list I) (A : I -> I -> R) (lam : R) : Prop :=
  forall z, lam * squares all z <= quadForm Or all A z.

(** at least [lam] away from zero, with the given sign *)
Definition awayFromZero (positive : bool) (lam t : R) : Prop := if positive then lam <= t else t <= - lam.
