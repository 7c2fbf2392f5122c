(** Inputs that are not covered by the factor. *)
From Coq Require Import List Arith.
From Verif Require Import Base ModelPerm ModelSparsity ModelSymbolic ModelNumeric ModelArrow.
From Verif Require Import SpecSymbolic SpecArrow SpecNumeric SpecArrowNum.
Import ListNotations.

Section Reject.
  Context {F : Type}.

  (** the permuted matrix [m] has an entry (of a diagonal block: below the
      diagonal) that is not among the entries [es] of the factor *)
  Definition uncoveredSym (m : mat (F:=F)) n p (es : list (nat * nat)) : Prop :=
    exists i j, permLow (entries (m_sp m)) n p i j /\ ~ In (i, j) es.
  Definition uncoveredRect (m : mat (F:=F)) nr nc prow pcol (es : list (nat * nat)) : Prop :=
    exists i j, permRect (entries (m_sp m)) nr nc prow pcol i j /\ ~ In (i, j) es.

  (** one of the blocks start.diag, start.next, tridiag.diag, tridiag.subdiag,
      link.prev, link.diag is not covered *)
  Definition uncoveredInner (s : arrow_sp) (k : arrow_blks) (n ds dt dl : nat)
      (m : arrow_mat (F:=F)) : Prop :=
    let ps := ss_perm (as_start s) in
    let pt := st_perm (as_tri s) in
    let pl := sl_perm (as_link s) in
    uncoveredSym (a_sd m) ds ps (c_entries (b_sp (k_sd k))) \/
    uncoveredRect (a_sn m) dt ds pt ps (c_entries (b_sp (k_sn k))) \/
    (exists t, t < n + 1 /\
       uncoveredSym (nth t (a_td m) noMat) dt pt (c_entries (b_sp (k_td k)))) \/
    (exists t, t < n /\
       uncoveredRect (nth t (a_ts m) noMat) dt dt pt pt (c_entries (b_sp (k_ts k)))) \/
    uncoveredRect (a_lp m) dl dt pl pt (c_entries (b_sp (k_lp k))) \/
    uncoveredSym (a_ld m) dl pl (c_entries (b_sp (k_ld k))).

  (** position (g, h) of the assembled factor is stored, below the diagonal *)
  Definition storedAt (k : arrow_blks) (n : nat) (g h : gidx) : Prop :=
    match g, h with
    | GS i, GS j => In (i, j) (c_entries (b_sp (k_sd k)))
    | GT t i, GS j => t = 0 /\ In (i, j) (c_entries (b_sp (k_sn k)))
    | GO i, GS j => In (i, j) (c_entries (b_sp (k_so k)))
    | GT t i, GT u j =>
        (t = u /\ In (i, j) (c_entries (b_sp (k_td k)))) \/
        (t = u + 1 /\ In (i, j) (c_entries (b_sp (k_ts k))))
    | GL i, GT t j => t = n /\ In (i, j) (c_entries (b_sp (k_lp k)))
    | GO i, GT t j => In (i, j) (c_entries (b_sp (k_os k)))
    | GL i, GL j => In (i, j) (c_entries (b_sp (k_ld k)))
    | GO i, GL j => In (i, j) (c_entries (b_sp (k_ln k)))
    | GO i, GO j => In (i, j) (c_entries (b_sp (k_od k)))
    | _, _ => False
    end.
End Reject.
