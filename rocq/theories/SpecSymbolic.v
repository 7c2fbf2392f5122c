From Coq Require Import List Arith Sorted.
Import ListNotations.

(** Specification of symbolic factorization, independent of the model.

    A sparsity pattern is a binary relation: [Q i j] says that entry (i, j) may
    be nonzero. Only the entries strictly below the diagonal matter. *)

Definition pattern := nat -> nat -> Prop.

(** Structure of the Cholesky/LDL^T factor when no numerical cancellation
    happens: eliminating column k makes (i, j) nonzero whenever (i, k) and
    (j, k) are nonzero. [Fill Q] is the smallest pattern that contains the
    strictly lower part of [Q] and is closed under elimination. *)
Inductive Fill (Q : pattern) : pattern :=
| Fill_base i j : Q i j -> j < i -> Fill Q i j
| Fill_elim i j k :
    Fill Q i k -> Fill Q j k -> k < j -> j < i -> Fill Q i j.

(** The elimination tree: the parent of column j is the row of the first
    nonzero below the diagonal in column j of the factor. *)
Definition isParent (Q : pattern) (j : nat) (p : option nat) : Prop :=
  match p with
  | Some r => Fill Q r j /\ (forall r', Fill Q r' j -> r <= r')
  | None => forall r', ~ Fill Q r' j
  end.

(** A pattern into which no further fill occurs. *)
Definition closedPattern (Q : pattern) : Prop :=
  forall i j k, k < j -> j < i -> Q i k -> Q j k -> Q i j.

(** Pattern given by a list of entries. *)
Definition entriesPat (es : list (nat * nat)) : pattern := fun i j => In (i, j) es.

(** Strictly lower triangle of the symmetric n x n matrix whose strictly lower
    entries are [es], with rows and columns permuted: row i of the result is
    row [nth i p] of the original. *)
Definition permLow (es : list (nat * nat)) (n : nat) (p : list nat) : pattern :=
  fun i j =>
    j < i /\ i < n /\
    In (Nat.max (nth i p 0) (nth j p 0), Nat.min (nth i p 0) (nth j p 0)) es.

(** Rectangular n x m matrix with permuted rows and columns. *)
Definition permRect (es : list (nat * nat)) (n m : nat) (prow pcol : list nat)
    : pattern :=
  fun i j => i < n /\ j < m /\ In (nth i prow 0, nth j pcol 0) es.

(** The lower triangle of a matrix that is assembled from 3x3 blocks, [n1] and
    [n2] are the sizes of the first two. *)
Definition asm3 (n1 n2 : nat) (P11 P21 P22 P31 P32 P33 : pattern) : pattern :=
  fun i j =>
    P11 i j \/
    (exists i', i = n1 + i' /\ P21 i' j) \/
    (exists i' j', i = n1 + i' /\ j = n1 + j' /\ P22 i' j') \/
    (exists i', i = n1 + n2 + i' /\ P31 i' j) \/
    (exists i' j', i = n1 + n2 + i' /\ j = n1 + j' /\ P32 i' j') \/
    (exists i' j', i = n1 + n2 + i' /\ j = n1 + n2 + j' /\ P33 i' j').

(** The same with 2x2 blocks. *)
Definition asm2 (n1 : nat) (P11 P21 P22 : pattern) : pattern :=
  fun i j =>
    P11 i j \/
    (exists i', i = n1 + i' /\ P21 i' j) \/
    (exists i' j', i = n1 + i' /\ j = n1 + j' /\ P22 i' j').

(** The lower triangle of a block tridiagonal matrix with [N] equal diagonal
    blocks [A] and equal subdiagonal blocks [B], all of size [d], bordered by an
    outer block row with equal blocks [C]. *)
Definition repeated (N d : nat) (A B C : pattern) : pattern :=
  fun a b =>
    (exists t i j, t < N /\ a = t * d + i /\ b = t * d + j /\ A i j) \/
    (exists t i j, S t < N /\ a = S t * d + i /\ b = t * d + j /\ B i j) \/
    (exists t i j, t < N /\ a = N * d + i /\ b = t * d + j /\ C i j).

(** Block patterns that are closed under elimination in such a matrix, for any
    number of repetitions. *)
Record closedRepeated (D S O : pattern) : Prop := mkClosedRepeated {
  cr_DD : forall i j k, k < j -> j < i -> D i k -> D j k -> D i j;
  cr_SD : forall i j k, k < j -> S i k -> D j k -> S i j;
  cr_SS : forall i j k, j < i -> S i k -> S j k -> D i j;
  cr_OD : forall i j k, k < j -> O i k -> D j k -> O i j;
  cr_OS : forall i j k, O i k -> S j k -> O i j }.

(** Entries in strictly ascending row-major order, thus without duplicates. *)
Definition rowMajor (es : list (nat * nat)) : Prop :=
  StronglySorted (fun a b => fst a < fst b \/ (fst a = fst b /\ snd a < snd b)) es.

(** Entries whose columns strictly ascend within each row; the rows may come in
    any order. *)
Definition colSorted (es : list (nat * nat)) : Prop :=
  forall a b r ca cb, a < b ->
    nth_error es a = Some (r, ca) -> nth_error es b = Some (r, cb) -> ca < cb.
