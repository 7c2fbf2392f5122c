(** Matrix market files: what a file contains and where its entries belong. *)
From Coq Require Import String Ascii List Arith Bool.
From Verif Require Import Base ModelPerm ModelSparsity ModelSymbolic ModelNumeric ModelArrow ModelMtx.
From Verif Require Import SpecSymbolic SpecArrow SpecNumeric SpecArrowNum.
Import ListNotations.
Local Open Scope nat_scope.
Local Open Scope list_scope.

Definition commentLine (l : string) : Prop := exists r, l = String "%"%char r.

Section Mtx.
  Context {F : Type} (O : ops F).
  Variable scan_header : string -> option (nat * nat * nat).
  Variable scan_entry : string -> option (nat * nat * F).

  (** comments, a line with the dimensions and the number of entries, and one
      line for each of the entries [es]; indices in [es] are zero-based *)
  Definition fileIs (lines : list string) (nr nc : nat) (es : list (nat * nat * F)) : Prop :=
    exists comments header rest,
      lines = comments ++ header :: rest /\
      Forall commentLine comments /\ ~ commentLine header /\
      scan_header header = Some (nr, nc, length es) /\
      Forall2 (fun l e => let '(r, c, v) := e in
                 scan_entry l = Some (r + 1, c + 1, v) /\ r < nr /\ c < nc) rest es.

  (** the last value at a position, zero if there is none *)
  Definition lastAt (es : list (nat * nat * F)) (r c : nat) : F :=
    fold_left (fun a e => let '(r', c', v) := e in
                 if (r' =? r) && (c' =? c) then v else a) es (o0 O).
  (** the symmetric matrix whose lower triangle is in the file *)
  Definition fileAt (es : list (nat * nat * F)) (r c : nat) : F :=
    lastAt es (Nat.max r c) (Nat.min r c).

  (** the values of the blocks *)
  Definition mtxVals (m : mtx_arrow (F:=F)) : arrow_vals F :=
    mkVals (mm_values (ma_sd m)) (mm_values (ma_sn m)) (mm_values (ma_so m))
      (map mm_values (ma_td m)) (map mm_values (ma_ts m))
      (mm_values (ma_lp m)) (mm_values (ma_ld m)) (mm_values (ma_ln m))
      (map mm_values (ma_os m)) (mm_values (ma_od m)).
End Mtx.

(** row number of a row of the assembled matrix with n repetitions *)
Definition posOf (n ds dt dl : nat) (g : gidx) : nat :=
  match g with
  | GS i => i
  | GT t i => ds + t * dt + i
  | GL i => ds + (n + 1) * dt + i
  | GO i => ds + (n + 1) * dt + dl + i
  end.

(** the lower triangle of the assembled matrix has a declared entry (g, h) *)
Definition declaredAt (s : arrow_sp) (n : nat) (g h : gidx) : Prop :=
  match g, h with
  | GS i, GS j => j <= i /\ In (i, j) (entries (ss_diag (as_start s)))
  | GT t i, GS j => t = 0 /\ In (i, j) (entries (ss_next (as_start s)))
  | GO i, GS j => In (i, j) (entries (ss_outer (as_start s)))
  | GT t i, GT u j =>
      (t = u /\ j <= i /\ In (i, j) (entries (st_diag (as_tri s)))) \/
      (t = u + 1 /\ In (i, j) (entries (st_subdiag (as_tri s))))
  | GL i, GT t j => t = n /\ In (i, j) (entries (sl_prev (as_link s)))
  | GO i, GT t j => In (i, j) (entries (so_subdiag (as_outer s)))
  | GL i, GL j => j <= i /\ In (i, j) (entries (sl_diag (as_link s)))
  | GO i, GL j => In (i, j) (entries (sl_next (as_link s)))
  | GO i, GO j => j <= i /\ In (i, j) (entries (so_diag (as_outer s)))
  | _, _ => False
  end.

(** Positions where the reader does not do what it should: in the columns of the
    start block, rows beyond the first tridiagonal block that are not outer rows;
    tridiagonal blocks two or more below the diagonal; outer rows beyond the size
    of the tridiagonal blocks. *)
Definition misread (dt : nat) (g h : gidx) : Prop :=
  match g, h with
  | GT t _, GS _ => 0 < t
  | GL _, GS _ => True
  | GT t _, GT u _ => u + 1 < t
  | GO i, GT _ _ => dt <= i
  | _, _ => False
  end.

(** an entry of the file at a declared position, at a misread position *)
Definition declaredEntry {F} (s : arrow_sp) (n ds dt dl dO : nat) (e : nat * nat * F) : Prop :=
  exists g h, In g (allIdx n ds dt dl dO) /\ In h (allIdx n ds dt dl dO) /\
    fst e = (posOf n ds dt dl g, posOf n ds dt dl h) /\ declaredAt s n g h.
Definition misreadEntry {F} (n ds dt dl dO : nat) (e : nat * nat * F) : Prop :=
  exists g h, In g (allIdx n ds dt dl dO) /\ In h (allIdx n ds dt dl dO) /\
    fst e = (posOf n ds dt dl g, posOf n ds dt dl h) /\ misread dt g h.

(** number of rows of the assembled matrix *)
Definition totalRows (n ds dt dl dO : nat) : nat := ds + (n + 1) * dt + dl + dO.
