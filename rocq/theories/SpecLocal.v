(** Parts of a system that do not depend on the rest. *)
From Coq Require Import List Arith.
From Verif Require Import ModelPerm ModelSparsity ModelArrow.
From Verif Require Import SpecArrowNum.
Import ListNotations.

(** Variables r and c of a symmetric matrix are coupled by an entry. The lower triangle is
    given by its entries. *)
Definition coupled (es : list (nat * nat)) (r c : nat) : Prop :=
  r <> c /\ In (Nat.max r c, Nat.min r c) es.

(** No entry couples a variable of the set with a variable outside. *)
Definition separated (es : list (nat * nat)) (V : nat -> Prop) : Prop :=
  forall r c, coupled es r c -> V r -> V c.

(** The same for the off-diagonal block with the given entries, between the sets of the
    variables of its rows and its columns. *)
Definition separatedRect (es : list (nat * nat)) (Vr Vc : nat -> Prop) : Prop :=
  forall r c, In (r, c) es -> (Vr r <-> Vc c).

(** A set of variables of an arrowhead system that is the same for every repetition of the
    tridiagonal part. *)
Record varSet := mkVarSet {
  vs_start : nat -> Prop; vs_tri : nat -> Prop; vs_link : nat -> Prop; vs_outer : nat -> Prop }.

Definition inVars (V : varSet) (g : gidx) : Prop :=
  match g with
  | GS i => vs_start V i
  | GT _ i => vs_tri V i
  | GL i => vs_link V i
  | GO i => vs_outer V i
  end.

(** No declared entry couples a variable of the set with a variable outside. *)
Record separatedArrow (s : arrow_sp) (V : varSet) : Prop := mkSeparatedArrow {
  sa_sd : separated (entries (ss_diag (as_start s))) (vs_start V);
  sa_sn : separatedRect (entries (ss_next (as_start s))) (vs_tri V) (vs_start V);
  sa_so : separatedRect (entries (ss_outer (as_start s))) (vs_outer V) (vs_start V);
  sa_td : separated (entries (st_diag (as_tri s))) (vs_tri V);
  sa_ts : separatedRect (entries (st_subdiag (as_tri s))) (vs_tri V) (vs_tri V);
  sa_lp : separatedRect (entries (sl_prev (as_link s))) (vs_link V) (vs_tri V);
  sa_ld : separated (entries (sl_diag (as_link s))) (vs_link V);
  sa_ln : separatedRect (entries (sl_next (as_link s))) (vs_outer V) (vs_link V);
  sa_os : separatedRect (entries (so_subdiag (as_outer s))) (vs_outer V) (vs_tri V);
  sa_od : separated (entries (so_diag (as_outer s))) (vs_outer V) }.

(** The variables up to block T of the tridiagonal part, in the order of the elimination. *)
Definition upTo (T : nat) (g : gidx) : Prop :=
  match g with GS _ => True | GT t _ => t <= T | _ => False end.

(** The entries of the factor in the columns of these variables and in their rows or the
    rows of the outer block. *)
Definition leadEntry (T : nat) (g h : gidx) : Prop :=
  upTo T h /\ (upTo T g \/ match g with GO _ => True | _ => False end).
