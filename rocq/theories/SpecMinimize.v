(** Minima and saddle points of quadratic functions. *)
From Coq Require Import Reals List.
From Verif Require Import ModelNumeric SpecNumeric SpecPivot SpecReg.
Local Open Scope R_scope.

Section Objective.
  Context {I : Type} (all : list I).

  (** half of y^T A y minus b^T y *)
  Definition objective (A : I -> I -> R) (b y : I -> R) : R :=
    quadForm Or all A y / 2 - suml Or all (fun g => b g * y g).

  Definition isMinimum (phi : (I -> R) -> R) (x : I -> R) : Prop := forall y, phi x <= phi y.

  (** [x] is minimal among the points that differ from it only in rows with [P], and maximal
      among those that differ only in the other rows *)
  Definition isSaddle (P : I -> bool) (phi : (I -> R) -> R) (x : I -> R) : Prop :=
    forall y,
      ((forall g, In g all -> P g = false -> y g = x g) -> phi x <= phi y) /\
      ((forall g, In g all -> P g = true -> y g = x g) -> phi y <= phi x).

  (** [x] is such a point, and the only one *)
  Definition onlyPoint (point : (I -> R) -> Prop) (x : I -> R) : Prop :=
    point x /\ forall y, point y -> forall g, In g all -> y g = x g.

  (** the rows with [P] form a positive definite matrix, the others a negative definite one *)
  Definition splitDef (P : I -> bool) (A : I -> I -> R) : Prop :=
    forall z, (exists g, In g all /\ z g <> 0) ->
      ((forall g, In g all -> P g = false -> z g = 0) -> 0 < quadForm Or all A z) /\
      ((forall g, In g all -> P g = true -> z g = 0) -> quadForm Or all A z < 0).

  Definition positiveDef (A : I -> I -> R) : Prop :=
    forall z, (exists g, In g all /\ z g <> 0) -> 0 < quadForm Or all A z.
End Objective.

(** the sum of the squares with weights *)
Definition weighted {I : Type} (all : list I) (E y : I -> R) : R := suml Or all (fun g => E g * (y g * y g)).
