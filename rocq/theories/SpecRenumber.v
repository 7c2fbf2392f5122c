(** The same system with its variables numbered in another way. *)
From Coq Require Import List Arith.
From Verif Require Import Base ModelSparsity ModelSymbolic ModelNumeric ModelArrow SpecArrow SpecArrowNum SpecLocal.
Import ListNotations.

(** Variable r of the first system is variable [f r] of the second one. The second system couples
    the same variables and eliminates them in the same order. *)
Record renumbered (n : nat) (f : nat -> nat) (es1 es2 : list (nat * nat)) (p1 p2 : list nat) : Prop := mkRenumbered {
  re_perm : forall i, i < n -> nth i p2 0 = f (nth i p1 0);
  re_coupled : forall r c, r < n -> c < n -> coupled es1 r c <-> coupled es2 (f r) (f c) }.

(** an off-diagonal block *)
Definition renumberedRect (nr nc : nat) (fr fc : nat -> nat) (es1 es2 : list (nat * nat)) : Prop :=
  forall r c, r < nr -> c < nc -> In (r, c) es1 <-> In (fr r, fc c) es2.

(** the new numbers in the parts of an arrowhead system, the same in every repetition *)
Record numbering := mkNumbering { nu_start : nat -> nat; nu_tri : nat -> nat; nu_link : nat -> nat; nu_outer : nat -> nat }.
Definition newIdx (f : numbering) (g : gidx) : gidx :=
  match g with
  | GS i => GS (nu_start f i)
  | GT t i => GT t (nu_tri f i)
  | GL i => GL (nu_link f i)
  | GO i => GO (nu_outer f i)
  end.

Record renumberedArrow (ds dt dl dO : nat) (f : numbering) (s1 s2 : arrow_sp) : Prop := mkRenumberedArrow {
  ra_sd : renumbered ds (nu_start f) (entries (ss_diag (as_start s1))) (entries (ss_diag (as_start s2)))
    (ss_perm (as_start s1)) (ss_perm (as_start s2));
  ra_sn : renumberedRect dt ds (nu_tri f) (nu_start f) (entries (ss_next (as_start s1))) (entries (ss_next (as_start s2)));
  ra_so : renumberedRect dO ds (nu_outer f) (nu_start f) (entries (ss_outer (as_start s1))) (entries (ss_outer (as_start s2)));
  ra_td : renumbered dt (nu_tri f) (entries (st_diag (as_tri s1))) (entries (st_diag (as_tri s2)))
    (st_perm (as_tri s1)) (st_perm (as_tri s2));
  ra_ts : renumberedRect dt dt (nu_tri f) (nu_tri f) (entries (st_subdiag (as_tri s1))) (entries (st_subdiag (as_tri s2)));
  ra_lp : renumberedRect dl dt (nu_link f) (nu_tri f) (entries (sl_prev (as_link s1))) (entries (sl_prev (as_link s2)));
  ra_ld : renumbered dl (nu_link f) (entries (sl_diag (as_link s1))) (entries (sl_diag (as_link s2)))
    (sl_perm (as_link s1)) (sl_perm (as_link s2));
  ra_ln : renumberedRect dO dl (nu_outer f) (nu_link f) (entries (sl_next (as_link s1))) (entries (sl_next (as_link s2)));
  ra_os : renumberedRect dO dt (nu_outer f) (nu_tri f) (entries (so_subdiag (as_outer s1))) (entries (so_subdiag (as_outer s2)));
  ra_od : renumbered dO (nu_outer f) (entries (so_diag (as_outer s1))) (entries (so_diag (as_outer s2)))
    (so_perm (as_outer s1)) (so_perm (as_outer s2)) }.

(** Every entry declared in the first structure is declared in the second one. *)
Record declaresMore (s1 s2 : arrow_sp) : Prop := mkDeclaresMore {
  dm_sd : incl (entries (ss_diag (as_start s1))) (entries (ss_diag (as_start s2)));
  dm_sn : incl (entries (ss_next (as_start s1))) (entries (ss_next (as_start s2)));
  dm_so : incl (entries (ss_outer (as_start s1))) (entries (ss_outer (as_start s2)));
  dm_td : incl (entries (st_diag (as_tri s1))) (entries (st_diag (as_tri s2)));
  dm_ts : incl (entries (st_subdiag (as_tri s1))) (entries (st_subdiag (as_tri s2)));
  dm_lp : incl (entries (sl_prev (as_link s1))) (entries (sl_prev (as_link s2)));
  dm_ld : incl (entries (sl_diag (as_link s1))) (entries (sl_diag (as_link s2)));
  dm_ln : incl (entries (sl_next (as_link s1))) (entries (sl_next (as_link s2)));
  dm_os : incl (entries (so_subdiag (as_outer s1))) (entries (so_subdiag (as_outer s2)));
  dm_od : incl (entries (so_diag (as_outer s1))) (entries (so_diag (as_outer s2))) }.

(** the same permutations *)
Definition samePerms (s1 s2 : arrow_sp) : Prop :=
  ss_perm (as_start s1) = ss_perm (as_start s2) /\ st_perm (as_tri s1) = st_perm (as_tri s2) /\
  sl_perm (as_link s1) = sl_perm (as_link s2) /\ so_perm (as_outer s1) = so_perm (as_outer s2).

(** the numbers of stored entries of the blocks *)
Definition storedCounts (k : arrow_blks) : list nat :=
  map (fun b => c_nnz (b_sp b)) [k_sd k; k_sn k; k_so k; k_td k; k_ts k; k_lp k; k_ld k; k_ln k; k_os k; k_od k].
