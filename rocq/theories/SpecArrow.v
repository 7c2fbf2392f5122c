(** Consistent arrowhead sparsities. *)
From Coq Require Import List Arith.
From Verif Require Import Base ModelPerm ModelSparsity ModelSymbolic ModelNumeric ModelArrow.
From Verif Require Import SpecSymbolic.
Import ListNotations.

(** a permutation of 0, ..., n-1 *)
Definition validPerm (n : nat) (p : list nat) : Prop :=
  length p = n /\ NoDup p /\ forall x, In x p -> x < n.

(** a sparsity of the given size that was constructed without contract
    violation *)
Record spOf (s : sparsity) (nr nc : nat) : Prop := mkSpOf {
  sp_rows : nrows s = nr;
  sp_cols : ncols s = nc;
  sp_wf : forall i j, In (i, j) (entries s) -> i < nr /\ j < nc }.

(** a consistent SparsityToFactorizeTridiagonalArrowheadLinked with valid
    permutations; the four dimensions are those of the start, tridiagonal, link
    and outer blocks *)
Record arrowDims (s : arrow_sp) (ds dt dl dO : nat) : Prop := mkArrowDims {
  ad_sd : spOf (ss_diag (as_start s)) ds ds;
  ad_sn : spOf (ss_next (as_start s)) dt ds;
  ad_so : spOf (ss_outer (as_start s)) dO ds;
  ad_td : spOf (st_diag (as_tri s)) dt dt;
  ad_ts : spOf (st_subdiag (as_tri s)) dt dt;
  ad_lp : spOf (sl_prev (as_link s)) dl dt;
  ad_ld : spOf (sl_diag (as_link s)) dl dl;
  ad_ln : spOf (sl_next (as_link s)) dO dl;
  ad_os : spOf (so_subdiag (as_outer s)) dO dt;
  ad_od : spOf (so_diag (as_outer s)) dO dO;
  ad_ps : validPerm ds (ss_perm (as_start s));
  ad_pt : validPerm dt (st_perm (as_tri s));
  ad_pl : validPerm dl (sl_perm (as_link s));
  ad_po : validPerm dO (so_perm (as_outer s)) }.

(** agreement of the block dimensions and permutation sizes *)
Definition startAgrees (s : sp_start) (d : nat) : Prop :=
  nrows (ss_diag s) = d /\ ncols (ss_diag s) = d /\ ncols (ss_next s) = d /\
  ncols (ss_outer s) = d /\ length (ss_perm s) = d.

Definition linkAgrees (s : sp_link) (d : nat) : Prop :=
  nrows (sl_diag s) = d /\ ncols (sl_diag s) = d /\ nrows (sl_prev s) = d /\
  ncols (sl_next s) = d /\ length (sl_perm s) = d.

Definition triAgrees (s : arrow_sp) (d : nat) : Prop :=
  nrows (st_diag (as_tri s)) = d /\ ncols (st_diag (as_tri s)) = d /\
  nrows (st_subdiag (as_tri s)) = d /\ ncols (st_subdiag (as_tri s)) = d /\
  length (st_perm (as_tri s)) = d /\
  nrows (ss_next (as_start s)) = d /\ ncols (sl_prev (as_link s)) = d /\
  ncols (so_subdiag (as_outer s)) = d.

Definition outerAgrees (s : arrow_sp) (d : nat) : Prop :=
  nrows (so_diag (as_outer s)) = d /\ ncols (so_diag (as_outer s)) = d /\
  nrows (so_subdiag (as_outer s)) = d /\ length (so_perm (as_outer s)) = d /\
  nrows (ss_outer (as_start s)) = d /\ nrows (sl_next (as_link s)) = d.
