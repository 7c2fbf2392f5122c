(** The assembled matrix of an arrowhead system as a matrix without blocks. *)
From Coq Require Import List Arith.
From Verif Require Import Base ModelPerm ModelSparsity ModelSymbolic ModelNumeric ModelArrow.
From Verif Require Import SpecSymbolic SpecArrow SpecNumeric SpecArrowNum.
Import ListNotations.

(** number of a row of the assembled matrix: start, tridiagonal, link, outer block *)
Definition flatPos (n ds dt dl : nat) (g : gidx) : nat :=
  match g with
  | GS i => i
  | GT t i => ds + t * dt + i
  | GL i => ds + (n + 1) * dt + i
  | GO i => ds + (n + 1) * dt + dl + i
  end.
Definition flatDim (n ds dt dl dO : nat) : nat := ds + (n + 1) * dt + dl + dO.

(** the permutations of the blocks as one permutation *)
Definition flatPerm (s : arrow_sp) (n ds dt dl dO : nat) : perm :=
  map (fun g => flatPos n ds dt dl (permIdx s g)) (allIdx n ds dt dl dO).

(** the blocks of a vector one after the other *)
Definition flatVec {F : Type} (x : arrow_vec (F:=F)) : list F :=
  v_start x ++ concat (v_tri x) ++ v_link x ++ v_outer x.

(** a regularization that does not look at the index *)
Definition indexFree {F : Type} (reg : F -> nat -> F) : Prop := forall v i j, reg v i = reg v j.

(** block tridiagonal systems: the permutation of the blocks as one permutation *)
Definition flatTriPerm (p : perm) (n dt : nat) : perm :=
  flat_map (fun t => map (fun i => t * dt + nth i p 0) (seq 0 dt)) (seq 0 (n + 1)).
