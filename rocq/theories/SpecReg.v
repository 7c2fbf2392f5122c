(** The real numbers as scalars. *)
From Coq Require Import Reals List.
From Verif Require Import ModelNumeric ModelReg SpecNumeric SpecPivot.
Local Open Scope R_scope.

Definition Or : ops R := mkOps R 0 Rplus Rminus Rmult Rdiv.

Lemma real_div a b : b <> o0 Or -> omul Or (odiv Or a b) b = a.
Proof. cbn. intros H. field. exact H. Qed.
Definition FLr : fieldLaws Or := mkFieldLaws R Or 1 Ropp (F_R Rfield) real_div R1_neq_R0.

(** |.|, <, power, any machine epsilon and the two literals *)
Definition realFns (epsilon : R) : scalarFns R :=
  mkScalarFns R Rabs (fun x y => if Rlt_dec x y then true else false) Rpower epsilon (5/8) (1/2).

(** x^T A x >= 0 for all x *)
Definition posSemiDef {I : Type} (all : list I) (A : I -> I -> R) : Prop :=
  forall x, 0 <= quadForm Or all A x.
