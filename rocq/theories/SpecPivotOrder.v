(** Comparing symmetric matrices. *)
From Coq Require Import Reals List.
From Verif Require Import ModelNumeric SpecNumeric SpecPivot SpecReg.
Local Open Scope R_scope.

(** z^T A z is never above z^T A' z *)
Definition formBelow {I : Type} (all : list I) (A A' : I -> I -> R) : Prop :=
  forall z, quadForm Or all A z <= quadForm Or all A' z.

(** the same matrix with larger entries on the diagonal *)
Definition largerDiagonal {I : Type} (all : list I) (A A' : I -> I -> R) : Prop :=
  forall g h, In g all -> In h all -> (g = h -> A g h <= A' g h) /\ (g <> h -> A g h = A' g h).
