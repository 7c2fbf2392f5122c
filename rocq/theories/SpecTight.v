(** Which entries of an arrowhead system are declared, which are stored, and which are
    filled in by the elimination. *)
From Coq Require Import List Arith.
From Verif Require Import Base ModelPerm ModelSparsity ModelSymbolic ModelNumeric ModelArrow.
From Verif Require Import SpecSymbolic SpecArrow SpecArrowNum.
Import ListNotations.

(** The smallest pattern that contains the strictly lower part of [B] and is closed under
    elimination in the order [before] (see [Fill]). *)
Inductive fillOf {I : Type} (before B : I -> I -> Prop) : I -> I -> Prop :=
| fo_base g h : B g h -> before h g -> fillOf before B g h
| fo_elim g h k : fillOf before B g k -> fillOf before B h k -> before k h -> before h g ->
    fillOf before B g h.

(** Entry (g, h) of the assembled matrix with n repetitions belongs to the strictly lower
    triangle of a declared diagonal block or to another declared block. *)
Definition declaredAt (s : arrow_sp) (n : nat) (g h : gidx) : Prop :=
  match g, h with
  | GS i, GS j => j < i /\ In (i, j) (entries (ss_diag (as_start s)))
  | GT t i, GS j => t = 0 /\ In (i, j) (entries (ss_next (as_start s)))
  | GO i, GS j => In (i, j) (entries (ss_outer (as_start s)))
  | GT t i, GT u j =>
      t < n + 1 /\
      ((t = u /\ j < i /\ In (i, j) (entries (st_diag (as_tri s)))) \/
       (t = u + 1 /\ In (i, j) (entries (st_subdiag (as_tri s)))))
  | GL i, GT u j => u = n /\ In (i, j) (entries (sl_prev (as_link s)))
  | GL i, GL j => j < i /\ In (i, j) (entries (sl_diag (as_link s)))
  | GO i, GL j => In (i, j) (entries (sl_next (as_link s)))
  | GO i, GT u j => u < n + 1 /\ In (i, j) (entries (so_subdiag (as_outer s)))
  | GO i, GO j => j < i /\ In (i, j) (entries (so_diag (as_outer s)))
  | _, _ => False
  end.

(** in one triangle or the other *)
Definition linked (s : arrow_sp) (n : nat) (g h : gidx) : Prop :=
  declaredAt s n g h \/ declaredAt s n h g.

(** The entries filled in by eliminating the variables of the permuted assembled matrix in
    their order, the declared ones included. *)
Definition arrowFill (s : arrow_sp) (n ds dt dl dO : nat) : gidx -> gidx -> Prop :=
  fillOf gbefore (fun g h => In g (allIdx n ds dt dl dO) /\ In h (allIdx n ds dt dl dO) /\
    linked s n (permIdx s g) (permIdx s h)).

(** Entry (g, h) of the factor is stored. *)
Definition storedAt (k : arrow_blks) (n : nat) (g h : gidx) : Prop :=
  let has b i j := In (i, j) (c_entries (b_sp b)) in
  match g, h with
  | GS i, GS j => has (k_sd k) i j
  | GT t i, GS j => t = 0 /\ has (k_sn k) i j
  | GO i, GS j => has (k_so k) i j
  | GT t i, GT u j =>
      t < n + 1 /\ ((t = u /\ has (k_td k) i j) \/ (t = u + 1 /\ has (k_ts k) i j))
  | GL i, GT u j => u = n /\ has (k_lp k) i j
  | GL i, GL j => has (k_ld k) i j
  | GO i, GL j => has (k_ln k) i j
  | GO i, GT u j => u < n + 1 /\ has (k_os k) i j
  | GO i, GO j => has (k_od k) i j
  | _, _ => False
  end.

(** not in the columns of the first k0 tridiagonal blocks *)
Definition fromBlock (k0 : nat) (h : gidx) : Prop :=
  match h with GT u _ => k0 <= u | _ => True end.
