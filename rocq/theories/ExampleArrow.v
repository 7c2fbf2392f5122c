(** A small arrowhead linked system for the examples: blocks of sizes 2 (start),
    3 (tridiagonal), 2 (link) and 2 (outer), two repetitions, permutations and
    fill-in in several blocks. *)
From Coq Require Import List Arith Bool QArith Qcanon Lia.
From Verif Require Import Base ModelPerm ModelSparsity ModelSymbolic ModelNumeric ModelArrow ModelReg.
From Verif Require Import SpecSymbolic SpecArrow SpecNumeric SpecArrowNum ExampleData.
Import ListNotations.
Local Open Scope nat_scope.

Definition exA : arrow_sp := mkAS
  (mkSS (mkSp 2 2 [(0,0); (1,0); (1,1)]) (mkSp 3 2 [(0,1); (2,0)]) (mkSp 2 2 [(1,0)]) [1;0])
  (mkST (mkSp 3 3 [(0,0); (1,1); (2,2); (2,0)]) (mkSp 3 3 [(0,2); (1,0)]) [2;0;1])
  (mkSL (mkSp 2 3 [(0,1)]) (mkSp 2 2 [(0,0); (1,1); (1,0)]) (mkSp 2 2 [(0,1)]) [1;0])
  (mkSO (mkSp 2 3 [(1,2)]) (mkSp 2 2 [(0,0); (1,1)]) [0;1]).

(** the same sparsity, other permutations *)
Definition exA' : arrow_sp := mkAS
  (mkSS (ss_diag (as_start exA)) (ss_next (as_start exA)) (ss_outer (as_start exA)) [0;1])
  (mkST (st_diag (as_tri exA)) (st_subdiag (as_tri exA)) [0;1;2])
  (mkSL (sl_prev (as_link exA)) (sl_diag (as_link exA)) (sl_next (as_link exA)) [0;1])
  (mkSO (so_subdiag (as_outer exA)) (so_diag (as_outer exA)) [1;0]).

Ltac arrow_dims := constructor;
  first [apply spOf_check_ok; reflexivity | apply validPerm_check; reflexivity].

Lemma exA_dims : arrowDims exA 2 3 2 2.
Proof. arrow_dims. Qed.
Lemma exA'_dims : arrowDims exA' 2 3 2 2.
Proof. arrow_dims. Qed.

Definition noBlks : arrow_blks :=
  mkAB emptyDiagBlk emptyDiagBlk emptyDiagBlk emptyDiagBlk emptyDiagBlk emptyDiagBlk
       emptyDiagBlk emptyDiagBlk emptyDiagBlk emptyDiagBlk.
Definition exK : arrow_blks := match arrowBlocks exA with Ok k => k | Err _ => noBlks end.
Definition exK' : arrow_blks := match arrowBlocks exA' with Ok k => k | Err _ => noBlks end.
Lemma exK_ok : arrowBlocks exA = Ok exK.
Proof. vm_compute. reflexivity. Qed.
Lemma exK'_ok : arrowBlocks exA' = Ok exK'.
Proof. vm_compute. reflexivity. Qed.

Definition exTd : list (list Z) := [[7;9;5;1]; [17;9;8;1]; [17;9;8;1]]%Z.
Definition exTs : list (list Z) := [[1;2]; [1;2]]%Z.
Definition exOs : list (list Z) := [[3]; [4]; [5]]%Z.

Definition exIn : arrow_mat (F:=Qc) := mkAM
  (ExampleData.matOf (ss_diag (as_start exA)) [7;1;5]%Z)
  (ExampleData.matOf (ss_next (as_start exA)) [2;3]%Z)
  (ExampleData.matOf (ss_outer (as_start exA)) [4]%Z)
  (map (ExampleData.matOf (st_diag (as_tri exA))) exTd)
  (map (ExampleData.matOf (st_subdiag (as_tri exA))) exTs)
  (ExampleData.matOf (sl_prev (as_link exA)) [3]%Z)
  (ExampleData.matOf (sl_diag (as_link exA)) [7;9;5]%Z)
  (ExampleData.matOf (sl_next (as_link exA)) [2]%Z)
  (map (ExampleData.matOf (so_subdiag (as_outer exA))) exOs)
  (ExampleData.matOf (so_diag (as_outer exA)) [17;19]%Z).
Definition exW : arrow_vals Qc := mkVals (qs [7;1;5]%Z) (qs [2;3]%Z) (qs [4]%Z)
  (map qs exTd) (map qs exTs) (qs [3]%Z) (qs [7;9;5]%Z) (qs [2]%Z) (map qs exOs) (qs [17;19]%Z).

Lemma qmat s nr nc vals : spOf_check s nr nc = true -> length vals = length (entries s) ->
  SpecArrowNum.matOf Oq (ExampleData.matOf s vals) nr nc (qs vals).
Proof. intros H L. split; [apply spOf_check_ok; auto|apply matOf_input; auto]. Qed.

Lemma exIn_ok : inputArrow Oq 2 2 3 2 2 exIn exW.
Proof.
  constructor; try (apply qmat; reflexivity); try reflexivity.
  - intros [|[|[|t]]] H; try lia; apply qmat; reflexivity.
  - intros [|[|t]] H; try lia; apply qmat; reflexivity.
  - intros [|[|[|t]]] H; try lia; apply qmat; reflexivity.
Qed.

Lemma exIn_declared : declaredArrow exA 2 exIn.
Proof.
  constructor; try (intros r c H; exact H); try (intros r c H _; exact H).
  - intros [|[|[|t]]] Ht r c H _; try lia; exact H.
  - intros [|[|t]] Ht r c H; try lia; exact H.
  - intros [|[|[|t]]] Ht r c H; try lia; exact H.
Qed.
Lemma exIn_declared' : declaredArrow exA' 2 exIn.
Proof.
  constructor; try (intros r c H; exact H); try (intros r c H _; exact H).
  - intros [|[|[|t]]] Ht r c H _; try lia; exact H.
  - intros [|[|t]] Ht r c H; try lia; exact H.
  - intros [|[|[|t]]] Ht r c H; try lia; exact H.
Qed.

(** entry lists without duplicates, in the lower triangle *)
Definition nodup2b (l : list entry) : bool :=
  nodupb (map (fun e => fst e * 10 + snd e) l).
Lemma nodup2b_ok l : nodup2b l = true -> NoDup l.
Proof. intros H. apply nodupb_ok in H. eapply NoDup_map_inv; eauto. Qed.
Lemma simple_sym (m : mat (F:=Qc)) :
  nodup2b (entries (m_sp m)) && forallb (fun e => snd e <=? fst e) (entries (m_sp m)) = true ->
  simpleSym m.
Proof.
  rewrite andb_true_iff, forallb_forall. intros [H1 H2]. split; [apply nodup2b_ok; auto|].
  intros r c Hin. apply H2 in Hin. apply Nat.leb_le in Hin. auto.
Qed.
Lemma simple_rect (m : mat (F:=Qc)) : nodup2b (entries (m_sp m)) = true -> simpleRect m.
Proof. apply nodup2b_ok. Qed.

Lemma exIn_simple : simpleArrow 2 exIn.
Proof.
  constructor; try (apply simple_sym; reflexivity); try (apply simple_rect; reflexivity).
  - intros [|[|[|t]]] H; try lia; apply simple_sym; reflexivity.
  - intros [|[|t]] H; try lia; apply simple_rect; reflexivity.
  - intros [|[|[|t]]] H; try lia; apply simple_rect; reflexivity.
Qed.

(** previous contents: what the constructor makes, and something else *)
Definition noData : arrow_data (F:=Qc) :=
  mkAD ([], []) [] [] [] [] [] ([], []) [] [] ([], []).
Definition exD : arrow_data :=
  match arrowCtor Oq exK 2 with Ok d => d | Err _ => noData end.
Definition exDused : arrow_data :=
  match arrowFactorize Oq UpLooking exK
          (mkAM (a_sd exIn) (a_sn exIn) (a_so exIn) (rev (a_td exIn)) (a_ts exIn) (a_lp exIn)
                (a_ld exIn) (a_ln exIn) (rev (a_os exIn)) (a_od exIn))
          (fun d i => (d + q (Z.of_nat i) + 1)%Qc) exD with
  | Ok d => d | Err _ => noData end.

Ltac data_of := constructor;
  first [ vm_compute; reflexivity
        | vm_compute; split; reflexivity
        | let t := fresh "t" in let H := fresh "H" in
          intros t H; do 4 (destruct t as [|t]; [try lia; vm_compute; auto|]); lia ].

Lemma exD_ok : dataOf exK 2 2 3 2 2 exD.
Proof. data_of. Qed.
Lemma exDused_ok : dataOf exK 2 2 3 2 2 exDused.
Proof. data_of. Qed.

Definition allQ (f : gidx -> Qc) : list Q := map (fun g => this (f g)) (allIdx 2 2 3 2 2).
Definition nonzeroG (f : gidx -> Qc) : bool :=
  forallb (fun g => negb (Qeq_bool (this (f g)) 0)) (allIdx 2 2 3 2 2).
Lemma nonzeroG_ok f : nonzeroG f = true ->
  forall g, In g (allIdx 2 2 3 2 2) -> f g <> o0 Oq.
Proof.
  unfold nonzeroG. rewrite forallb_forall. intros H g Hg E. apply H in Hg.
  rewrite E in Hg. discriminate.
Qed.

Definition exX : arrow_vec (F:=Qc) :=
  mkAV (qs [1;2]%Z) (map qs [[3;4;5]; [6;7;8]; [9;10;11]]%Z) (qs [12;13]%Z) (qs [14;15]%Z).
Lemma exX_ok : vecOf 2 2 3 2 2 exX.
Proof. constructor; try reflexivity. intros [|[|[|t]]] H; try lia; reflexivity. Qed.

(** the block tridiagonal part on its own *)
Definition exTA : sparsity := st_diag (as_tri exA).
Definition exTB : sparsity := st_subdiag (as_tri exA).
Definition exTK : arrow_blks :=
  match tridiagonalBlocks exTA exTB [2;0;1] with Ok k => k | Err _ => noBlks end.
Lemma exTK_ok : tridiagonalBlocks exTA exTB [2;0;1] = Ok exTK.
Proof. vm_compute. reflexivity. Qed.
Definition exTD : arrow_data :=
  match arrowCtor Oq exTK 2 with Ok d => d | Err _ => noData end.
Lemma exTD_ok : dataOf exTK 2 0 3 0 0 exTD.
Proof. data_of. Qed.
Lemma exT_ok : inputTri Oq 2 3 (a_td exIn) (a_ts exIn) (w_td exW) (w_ts exW).
Proof. destruct exIn_ok. constructor; auto. Qed.
Lemma exT_declared : declaredTri exTA exTB 2 (a_td exIn) (a_ts exIn).
Proof. destruct exIn_declared. split; auto. Qed.
Lemma exT_simple : simpleTri 2 (a_td exIn) (a_ts exIn).
Proof. destruct exIn_simple. split; auto. Qed.
Lemma exT_spA : spOf exTA 3 3.
Proof. apply spOf_check_ok. reflexivity. Qed.
Lemma exT_spB : spOf exTB 3 3.
Proof. apply spOf_check_ok. reflexivity. Qed.
Lemma exT_perm : validPerm 3 [2;0;1].
Proof. apply validPerm_check. reflexivity. Qed.
