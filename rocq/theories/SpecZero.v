(** Scalars with zeros. [fin] are the finite ones and [zero] the zeros (there may be several,
    as +0 and -0). An operation with a finite result has finite operands, and zeros are
    passed on. Nothing is said about results that are not finite. *)
From Verif Require Import ModelNumeric SpecNumeric.

Record zeroRules {F : Type} (O : ops F) (fin zero : F -> Prop) : Prop := mkZeroRules {
  zr_0 : zero (o0 O);
  zr_sub : forall a b, fin (osub O a b) -> fin a /\ fin b /\
    (zero a -> zero b -> zero (osub O a b));
  zr_mul : forall a b, fin (omul O a b) -> fin a /\ fin b /\
    (zero a \/ zero b -> zero (omul O a b));
  zr_div : forall a b, fin b -> ~ zero b -> fin (odiv O a b) -> fin a /\
    (zero a -> zero (odiv O a b)) }.
