(** Small systems over the rationals, for determinants. *)
From Coq Require Import List Arith Bool QArith Qcanon Lia.
From Verif Require Import Base ModelPerm ModelSparsity ModelSymbolic ModelNumeric ModelArrow ModelReg.
From Verif Require Import SpecSymbolic SpecArrow SpecNumeric SpecArrowNum.
From Verif Require Import ExampleData ExampleArrow.
Import ListNotations.
Local Open Scope nat_scope.

(** an arrowhead system with seven variables *)
Definition detA : arrow_sp := mkAS
  (mkSS (mkSp 1 1 [(0,0)]) (mkSp 2 1 [(0,0)]) (mkSp 1 1 [(0,0)]) [0])
  (mkST (mkSp 2 2 [(0,0); (1,0); (1,1)]) (mkSp 2 2 [(0,0); (0,1)]) [1;0])
  (mkSL (mkSp 1 2 [(0,1)]) (mkSp 1 1 [(0,0)]) (mkSp 1 1 [(0,0)]) [0])
  (mkSO (mkSp 1 2 [(0,0)]) (mkSp 1 1 [(0,0)]) [0]).
Definition detK : arrow_blks := match arrowBlocks detA with Ok k => k | Err _ => noBlks end.
Lemma detK_ok : arrowBlocks detA = Ok detK.
Proof. vm_compute. reflexivity. Qed.
Definition detIn : arrow_mat (F:=Qc) := mkAM
  (matOf (ss_diag (as_start detA)) [3]%Z)
  (matOf (ss_next (as_start detA)) [2]%Z)
  (matOf (ss_outer (as_start detA)) [4]%Z)
  (map (matOf (st_diag (as_tri detA))) [[2;1;5]; [9;3;6]]%Z)
  (map (matOf (st_subdiag (as_tri detA))) [[2;3]]%Z)
  (matOf (sl_prev (as_link detA)) [3]%Z)
  (matOf (sl_diag (as_link detA)) [7]%Z)
  (matOf (sl_next (as_link detA)) [1]%Z)
  (map (matOf (so_subdiag (as_outer detA))) [[1]; [2]]%Z)
  (matOf (so_diag (as_outer detA)) [1]%Z).
Definition detW : arrow_vals Qc := mkVals (qs [3]%Z) (qs [2]%Z) (qs [4]%Z)
  (map qs [[2;1;5]; [9;3;6]]%Z) (map qs [[2;3]]%Z) (qs [3]%Z) (qs [7]%Z) (qs [1]%Z) (map qs [[1]; [2]]%Z) (qs [1]%Z).
Lemma detA_ok : arrowDims detA 1 2 1 1.
Proof.
  constructor; try (apply spOf_check_ok; reflexivity); apply validPerm_check; reflexivity.
Qed.
Lemma detIn_ok : inputArrow Oq 1 1 2 1 1 detIn detW.
Proof.
  constructor; try (apply qmat; reflexivity); try reflexivity.
  - intros [|[|t]] H; try lia; apply qmat; reflexivity.
  - intros [|t] H; try lia; apply qmat; reflexivity.
  - intros [|[|t]] H; try lia; apply qmat; reflexivity.
Qed.
Lemma detIn_declared : declaredArrow detA 1 detIn.
Proof.
  constructor; try (intros r c H; exact H); try (intros r c H _; exact H).
  - intros [|[|t]] Ht r c H _; try lia; exact H.
  - intros [|t] Ht r c H; try lia; exact H.
  - intros [|[|t]] Ht r c H; try lia; exact H.
Qed.
Definition detD : arrow_data (F:=Qc) := match arrowCtor Oq detK 1 with Ok d => d | Err _ => noData end.
Lemma detD_ok : dataOf detK 1 1 2 1 1 detD.
Proof. data_of. Qed.

(** a tridiagonal system with two blocks of two variables *)
Definition detTA : sparsity := st_diag (as_tri detA).
Definition detTB : sparsity := st_subdiag (as_tri detA).
Definition detTK : arrow_blks :=
  match tridiagonalBlocks detTA detTB [1;0] with Ok k => k | Err _ => noBlks end.
Lemma detTK_ok : tridiagonalBlocks detTA detTB [1;0] = Ok detTK.
Proof. vm_compute. reflexivity. Qed.
Lemma detT_ok : inputTri Oq 1 2 (a_td detIn) (a_ts detIn) (w_td detW) (w_ts detW).
Proof. constructor; apply detIn_ok. Qed.
Lemma detT_declared : declaredTri detTA detTB 1 (a_td detIn) (a_ts detIn).
Proof. split; apply detIn_declared. Qed.
Definition detTD : arrow_data (F:=Qc) := match arrowCtor Oq detTK 1 with Ok d => d | Err _ => noData end.
Lemma detTD_ok : dataOf detTK 1 0 2 0 0 detTD.
Proof. data_of. Qed.

(** a matrix that is not singular, with a zero in the corner *)
Definition offS : sparsity := mkSp 2 2 [(0,0); (1,0); (1,1)].
Definition offVals : list Z := [0; 1; 0]%Z.
Definition offB : blk := match factorizationBlk offS [0;1] with Ok b => b | Err _ => exB end.
Lemma offB_ok : factorizationBlk offS [0;1] = Ok offB.
Proof. vm_compute. reflexivity. Qed.
