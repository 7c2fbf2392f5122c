(** Systems with independent parts. *)
From Coq Require Import List Arith Bool ZArith Lia.
From Flocq Require Import BinarySingleNaN.
From Verif Require Import Base ModelPerm ModelSparsity ModelSymbolic ModelNumeric ModelArrow ModelReg ModelIeee.
From Verif Require Import SpecSymbolic SpecArrow SpecNumeric SpecArrowNum SpecTight SpecLocal.
From Verif Require Import ExampleData ExampleArrow ExampleIeee.
Import ListNotations.
Local Open Scope nat_scope.

(** two parts: 0, 2, 4 and 1, 3 *)
Definition twoS : sparsity :=
  mkSp 5 5 [(0,0); (1,1); (2,0); (2,2); (3,1); (3,3); (4,0); (4,4)].
Definition twoP : perm := [1;0;4;3;2].
Definition twoB : blk := match factorizationBlk twoS twoP with Ok b => b | Err _ => exB end.
Lemma twoB_ok : factorizationBlk twoS twoP = Ok twoB.
Proof. vm_compute. reflexivity. Qed.
Definition twoIn (i : nat) : Prop := i = 0 \/ i = 2 \/ i = 4.
Definition twoVals : list Z := [4; 5; 1; 6; 2; 7; 3; 8]%Z.
(** the pivot of variable 1 is zero *)
Definition twoVals' : list Z := [4; 0; 1; 6; 2; 7; 3; 8]%Z.

Lemma two_separated : separated (entries twoS) twoIn.
Proof.
  intros r c [N H] V. unfold twoIn in *.
  cbn [entries twoS In] in H.
  destruct H as [H|[H|[H|[H|[H|[H|[H|[H|[]]]]]]]]]; injection H as H1 H2; lia.
Qed.

(** the first part alone *)
Definition oneS : sparsity := mkSp 3 3 [(0,0); (1,0); (1,1); (2,0); (2,2)].
Definition oneP : perm := [0;2;1].
Definition oneB : blk := match factorizationBlk oneS oneP with Ok b => b | Err _ => exB end.
Lemma oneB_ok : factorizationBlk oneS oneP = Ok oneB.
Proof. vm_compute. reflexivity. Qed.
Definition oneVals : list Z := [4; 1; 6; 3; 8]%Z.
Definition oneVar (r : nat) : nat := 2 * r.
Definition onePos (i : nat) : nat := match i with 0 => 1 | 1 => 2 | _ => 4 end.

(** an arrowhead system: one part consists of the start variable, the first variable of
    every tridiagonal block and the outer variable, the other of the rest *)
Definition sepA : arrow_sp := mkAS
  (mkSS (mkSp 1 1 [(0,0)]) (mkSp 2 1 [(0,0)]) (mkSp 1 1 [(0,0)]) [0])
  (mkST (mkSp 2 2 [(0,0); (1,1)]) (mkSp 2 2 [(0,0); (1,1)]) [1;0])
  (mkSL (mkSp 1 2 [(0,1)]) (mkSp 1 1 [(0,0)]) (mkSp 1 1 []) [0])
  (mkSO (mkSp 1 2 [(0,0)]) (mkSp 1 1 [(0,0)]) [0]).
Definition sepV : varSet :=
  mkVarSet (fun i => i = 0) (fun i => i = 0) (fun _ => False) (fun i => i = 0).
Definition sepK : arrow_blks := match arrowBlocks sepA with Ok k => k | Err _ => noBlks end.
Lemma sepK_ok : arrowBlocks sepA = Ok sepK.
Proof. vm_compute. reflexivity. Qed.

(** the diagonal value of variable 1 of the first tridiagonal block is x *)
Definition sepIn (x : Z) : arrow_mat (F:=double) := mkAM
  (matD (ss_diag (as_start sepA)) [7]%Z)
  (matD (ss_next (as_start sepA)) [2]%Z)
  (matD (ss_outer (as_start sepA)) [4]%Z)
  (map (matD (st_diag (as_tri sepA))) [[8;x]; [9;6]]%Z)
  (map (matD (st_subdiag (as_tri sepA))) [[2;3]]%Z)
  (matD (sl_prev (as_link sepA)) [3]%Z)
  (matD (sl_diag (as_link sepA)) [7]%Z)
  (matD (sl_next (as_link sepA)) []%Z)
  (map (matD (so_subdiag (as_outer sepA))) [[1]; [2]]%Z)
  (matD (so_diag (as_outer sepA)) [17]%Z).
Definition sepW (x : Z) : arrow_vals double := mkVals (dzs [7]%Z) (dzs [2]%Z) (dzs [4]%Z)
  (map dzs [[8;x]; [9;6]]%Z) (map dzs [[2;3]]%Z) (dzs [3]%Z) (dzs [7]%Z) (dzs []%Z) (map dzs [[1]; [2]]%Z) (dzs [17]%Z).
Lemma sepIn_ok x : inputArrow Od 1 1 2 1 1 (sepIn x) (sepW x).
Proof.
  constructor; try (apply dmat; reflexivity); try reflexivity.
  - intros [|[|t]] H; try lia; apply (dmat _ _ _ [_; _]); reflexivity.
  - intros [|t] H; try lia; apply dmat; reflexivity.
  - intros [|[|t]] H; try lia; apply dmat; reflexivity.
Qed.
Lemma sepIn_declared x : declaredArrow sepA 1 (sepIn x).
Proof.
  constructor; try (intros r c H; exact H); try (intros r c H _; exact H).
  - intros [|[|t]] Ht r c H _; try lia; exact H.
  - intros [|t] Ht r c H; try lia; exact H.
  - intros [|[|t]] Ht r c H; try lia; exact H.
Qed.
Lemma sepA_ok : arrowDims sepA 1 2 1 1.
Proof.
  constructor; try (apply spOf_check_ok; reflexivity); apply validPerm_check; reflexivity.
Qed.
Definition sepD : arrow_data (F:=double) := match arrowCtor Od sepK 1 with Ok d => d | Err _ => noDataD end.
Lemma sepD_ok : dataOf sepK 1 1 2 1 1 sepD.
Proof. data_of. Qed.
Lemma sep_separated : separatedArrow sepA sepV.
Proof.
  constructor; cbn; intros r c H; unfold coupled in *; cbn [In] in *.
  all: try (destruct H as [N [H|[]]]; injection H as H1 H2; lia).
  all: try (destruct H as [H|[]]; injection H as <- <-; cbn; try tauto; lia).
  - destruct H as [N [H|[H|[]]]]; injection H as H1 H2; lia.
  - destruct H as [H|[H|[]]]; injection H as <- <-; lia.
  - destruct H.
Qed.

(** a tridiagonal system with two variables per block; variable 1 of the first block is not
    coupled with any other *)
Definition soloA : sparsity := mkSp 2 2 [(0,0); (1,1)].
Definition soloC : sparsity := mkSp 2 2 [(0,0); (1,0)].
Definition soloK : arrow_blks :=
  match tridiagonalBlocks soloA soloC [0;1] with Ok k => k | Err _ => noBlks end.
Lemma soloK_ok : tridiagonalBlocks soloA soloC [0;1] = Ok soloK.
Proof. vm_compute. reflexivity. Qed.
Definition soloTd (x : Z) : list (mat (F:=double)) := map (matD soloA) [[x;5]; [9;6]]%Z.
Definition soloTs : list (mat (F:=double)) := map (matD soloC) [[2;3]]%Z.
Definition soloWd (x : Z) : list (list double) := map dzs [[x;5]; [9;6]]%Z.
Definition soloWs : list (list double) := map dzs [[2;3]]%Z.
Lemma solo_ok x : inputTri Od 1 2 (soloTd x) soloTs (soloWd x) soloWs.
Proof.
  constructor; try reflexivity.
  - intros [|[|t]] H; try lia; apply (dmat _ _ _ [_; _]); reflexivity.
  - intros [|t] H; try lia; apply dmat; reflexivity.
Qed.
Lemma solo_declared x : declaredTri soloA soloC 1 (soloTd x) soloTs.
Proof.
  split.
  - intros [|[|t]] Ht r c H _; try lia; exact H.
  - intros [|t] Ht r c H; try lia; exact H.
Qed.
Definition soloD : arrow_data (F:=double) := match arrowCtor Od soloK 1 with Ok d => d | Err _ => noDataD end.
Lemma soloD_ok : dataOf soloK 1 0 2 0 0 soloD.
Proof. data_of. Qed.
