(** Scalars with signs. [fin] are the finite ones; [pos], [nonneg] and [nonpos] are the
    positive ones, those at least zero and those at most zero. An operation with a
    finite result has finite operands and its result has the sign that the exact result
    has, where a result that is not zero may become zero (underflow) but never changes
    its sign. Nothing is said about results that are not finite. *)
From Verif Require Import ModelNumeric SpecNumeric SpecPivot.

Record signRules {F : Type} (O : ops F) (fin pos nonneg nonpos : F -> Prop) : Prop := mkSignRules {
  sr_0 : nonneg (o0 O) /\ nonpos (o0 O);
  sr_pos : forall a, pos a -> nonneg a;
  sr_sub : forall a b, fin (osub O a b) -> fin a /\ fin b /\
    (nonneg a -> nonpos b -> nonneg (osub O a b)) /\ (nonpos a -> nonneg b -> nonpos (osub O a b));
  sr_mul : forall a b, fin (omul O a b) -> fin a /\ fin b /\
    (nonneg a -> nonneg b -> nonneg (omul O a b)) /\ (nonpos a -> nonpos b -> nonneg (omul O a b)) /\
    (nonneg a -> nonpos b -> nonpos (omul O a b)) /\ (nonpos a -> nonneg b -> nonpos (omul O a b));
  sr_div : forall a b, fin b -> pos b -> fin (odiv O a b) -> fin a /\
    (nonneg a -> nonneg (odiv O a b)) /\ (nonpos a -> nonpos (odiv O a b)) }.

Section Field.
  Context {F : Type} {O : ops F} {FL : fieldLaws O} (OL : ordLaws FL).
  Definition atLeast0 (a : F) : Prop := a = o0 O \/ ol_pos OL a.
  Definition atMost0 (a : F) : Prop := a = o0 O \/ ol_pos OL (fl_opp FL a).
End Field.
