(** Ordered scalars, definite matrices and regular leading blocks. *)
From Coq Require Import List Arith.
From Verif Require Import ModelNumeric SpecNumeric.
Import ListNotations.

(** The scalars form an ordered field; the order is given by the set of positive
    elements. *)
Record ordLaws {F} {O : ops F} (FL : fieldLaws O) := mkOrdLaws {
  ol_pos : F -> Prop;
  ol_add : forall a b, ol_pos a -> ol_pos b -> ol_pos (oadd O a b);
  ol_mul : forall a b, ol_pos a -> ol_pos b -> ol_pos (omul O a b);
  ol_0 : ~ ol_pos (o0 O);
  ol_dec : forall a, {ol_pos a} + {a = o0 O} + {ol_pos (fl_opp FL a)} }.
Arguments ol_pos {F O FL}. Arguments ol_add {F O FL}. Arguments ol_mul {F O FL}.
Arguments ol_0 {F O FL}. Arguments ol_dec {F O FL}.

(** The scalars can be compared, and no finite list contains all of them. *)
Record infLaws (F : Type) := mkInfLaws {
  il_dec : forall a b : F, {a = b} + {a <> b};
  il_new : forall l : list F, exists c, ~ In c l }.
Arguments il_dec {F}. Arguments il_new {F}.

Section Matrix.
  Context {F : Type} (O : ops F) {I : Type} (all : list I).

  (** x^T A x *)
  Definition quadForm (A : I -> I -> F) (x : I -> F) : F :=
    suml O all (fun g => suml O all (fun h => omul O (omul O (x g) (A g h)) (x h))).

  Definition nonzeroVec (x : I -> F) : Prop := exists g, In g all /\ x g <> o0 O.

  (** the rows and columns of A up to and including [g] (that is all [h] without
      [after h]) form a regular matrix *)
  Definition regularUpTo (after : I -> Prop) (A : I -> I -> F) : Prop :=
    forall x : I -> F,
      (forall h, In h all -> after h -> x h = o0 O) ->
      (forall h, In h all -> ~ after h -> suml O all (fun k => omul O (A h k) (x k)) = o0 O) ->
      forall h, In h all -> x h = o0 O.
End Matrix.

Section Definite.
  Context {F : Type} {O : ops F} {FL : fieldLaws O} (OL : ordLaws FL) {I : Type} (all : list I).

  (** x^T A x > 0 for all x other than zero *)
  Definition posDef (A : I -> I -> F) : Prop :=
    forall x, nonzeroVec O all x -> ol_pos OL (quadForm O all A x).

  (** The rows [g] with [P g = true] form a positive definite matrix, the other
      rows a negative definite one. Nothing is said about the entries that
      connect the two: these are the quasi-definite matrices of interior point
      methods. *)
  Definition quasiDef (P : I -> bool) (A : I -> I -> F) : Prop :=
    forall x, nonzeroVec O all x ->
      ((forall g, In g all -> P g = false -> x g = o0 O) -> ol_pos OL (quadForm O all A x)) /\
      ((forall g, In g all -> P g = true -> x g = o0 O) ->
         ol_pos OL (fl_opp FL (quadForm O all A x))).

  (** positive or negative *)
  Definition hasSign (positive : bool) (a : F) : Prop :=
    if positive then ol_pos OL a else ol_pos OL (fl_opp FL a).
End Definite.
