(** Strictly diagonally dominant matrices. *)
From Coq Require Import List.
From Verif Require Import ModelNumeric SpecNumeric SpecPivot.

Section Dominant.
  Context {F : Type} {O : ops F} {FL : fieldLaws O} (OL : ordLaws FL).
  Context {I : Type} (eqd : forall a b : I, {a = b} + {a <> b}) (all : list I).

  Definition absOf (a : F) : F := if ol_dec OL a then a else fl_opp FL a.

  (** |A g g| is larger than the sum of |A g h| over all h <> g, for every row g *)
  Definition dominant (A : I -> I -> F) : Prop :=
    forall g, In g all ->
      ol_pos OL (osub O (absOf (A g g)) (suml O all (fun h => if eqd g h then o0 O else absOf (A g h)))).
End Dominant.

Definition pair_eq_dec (a b : nat * nat) : {a = b} + {a <> b}.
Proof. decide equality; apply PeanoNat.Nat.eq_dec. Defined.
