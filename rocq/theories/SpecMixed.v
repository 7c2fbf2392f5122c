(** Conversions between scalar types. *)
From Coq Require Import Reals List.
From Verif Require Import Base ModelNumeric SpecArrowNum SpecRound.
Local Open Scope R_scope.

(** the conversion is accurate up to a relative and an absolute error where its result
    is finite *)
Definition roundedCast {F G : Type} (fin : F -> Prop) (val : F -> R) (fin' : G -> Prop) (val' : G -> R)
    (u eta : R) (cast : F -> G) : Prop :=
  forall v, fin' (cast v) -> fin v /\ near u eta (val v) (val' (cast v)).

(** the conversion preserves finite values (a wider type) *)
Definition exactCast {F G : Type} (fin : F -> Prop) (val : F -> R) (fin' : G -> Prop) (val' : G -> R)
    (cast : F -> G) : Prop :=
  forall v, fin v -> fin' (cast v) /\ val' (cast v) = val v.

Definition castVals {F G : Type} (cast : F -> G) (w : arrow_vals F) : arrow_vals G := mkVals
  (map cast (w_sd w)) (map cast (w_sn w)) (map cast (w_so w))
  (map (map cast) (w_td w)) (map (map cast) (w_ts w))
  (map cast (w_lp w)) (map cast (w_ld w)) (map cast (w_ln w))
  (map (map cast) (w_os w)) (map cast (w_od w)).
