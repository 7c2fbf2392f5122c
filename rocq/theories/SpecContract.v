(** Conditions that are checked at run time. *)
From Coq Require Import List Bool NArith String Ascii.
From Verif Require Import ModelContract.
Import ListNotations.

(** no character of s is c *)
Fixpoint avoids (c : ascii) (s : string) : Prop :=
  match s with
  | EmptyString => True
  | String x s' => x <> c /\ avoids c s'
  end.

Inductive kind := KPre | KPost | KAssert.
(** a check in the source code at [site], with the second argument [given], if any *)
Definition check (unspecified : location) (k : kind) : location -> bool -> option location -> outcome :=
  match k with
  | KPre => pre unspecified
  | KPost => post unspecified
  | KAssert => contract_assert_ unspecified
  end.
