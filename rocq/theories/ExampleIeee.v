(** The matrices of the other examples in double precision. *)
From Coq Require Import List Arith Bool ZArith Reals Lia.
From Flocq Require Import BinarySingleNaN.
From Verif Require Import Base ModelPerm ModelSparsity ModelSymbolic ModelNumeric ModelArrow ModelReg ModelIeee.
From Verif Require Import SpecSymbolic SpecArrow SpecNumeric SpecArrowNum ExampleData ExampleArrow.
Import ListNotations.
Local Open Scope nat_scope.

Notation double := (ieee 53 1024).
Definition dz (z : Z) : double := dbl z 0.
Definition dzs (l : list Z) : list double := map dz l.
Definition matD (s : sparsity) (vals : list Z) : mat (F:=double) := mkMat s (rd (dzs vals)).

Lemma matD_input s vals :
  length vals = length (entries s) -> inputOf Od (matD s vals) s (dzs vals).
Proof.
  intros H. constructor; auto.
  - unfold dzs. rewrite map_length. auto.
  - intros k Hk. cbn [m_val matD]. unfold rd.
    rewrite (nth_error_nth' _ (o0 Od)) by auto. auto.
Qed.

Definition exMd : mat := matD exS exVals.
Lemma exMd_ok : inputOf Od exMd exS (dzs exVals).
Proof. apply matD_input. reflexivity. Qed.

Definition exLd0 : list double := dzs [9; 8; 7; 6; 5; 4]%Z.
Definition exDd0 : list double := dzs [3; 2; 1; 0]%Z.

(** all values finite *)
Definition finb (l : list double) : bool := forallb is_finite l.
Lemma finb_ok l : finb l = true -> forall v, In v l -> ieeeFinite 53 1024 v.
Proof. intros H. apply forallb_forall. exact H. Qed.

Definition exInD : arrow_mat (F:=double) := mkAM
  (matD (ss_diag (as_start exA)) [7;1;5]%Z)
  (matD (ss_next (as_start exA)) [2;3]%Z)
  (matD (ss_outer (as_start exA)) [4]%Z)
  (map (matD (st_diag (as_tri exA))) exTd)
  (map (matD (st_subdiag (as_tri exA))) exTs)
  (matD (sl_prev (as_link exA)) [3]%Z)
  (matD (sl_diag (as_link exA)) [7;9;5]%Z)
  (matD (sl_next (as_link exA)) [2]%Z)
  (map (matD (so_subdiag (as_outer exA))) exOs)
  (matD (so_diag (as_outer exA)) [17;19]%Z).
Definition exWD : arrow_vals double := mkVals (dzs [7;1;5]%Z) (dzs [2;3]%Z) (dzs [4]%Z)
  (map dzs exTd) (map dzs exTs) (dzs [3]%Z) (dzs [7;9;5]%Z) (dzs [2]%Z) (map dzs exOs) (dzs [17;19]%Z).

Lemma dmat s nr nc vals : spOf_check s nr nc = true -> length vals = length (entries s) ->
  SpecArrowNum.matOf Od (matD s vals) nr nc (dzs vals).
Proof. intros H L. split; [apply spOf_check_ok; auto|apply matD_input; auto]. Qed.

Lemma exInD_ok : inputArrow Od 2 2 3 2 2 exInD exWD.
Proof.
  constructor; try (apply dmat; reflexivity); try reflexivity.
  - intros [|[|[|t]]] H; try lia; apply dmat; reflexivity.
  - intros [|[|t]] H; try lia; apply dmat; reflexivity.
  - intros [|[|[|t]]] H; try lia; apply dmat; reflexivity.
Qed.

Lemma exInD_declared : declaredArrow exA 2 exInD.
Proof.
  constructor; try (intros r c H; exact H); try (intros r c H _; exact H).
  - intros [|[|[|t]]] Ht r c H _; try lia; exact H.
  - intros [|[|t]] Ht r c H; try lia; exact H.
  - intros [|[|[|t]]] Ht r c H; try lia; exact H.
Qed.

Definition noDataD : arrow_data (F:=double) :=
  mkAD ([], []) [] [] [] [] [] ([], []) [] [] ([], []).
Definition exDD : arrow_data :=
  match arrowCtor Od exK 2 with Ok d => d | Err _ => noDataD end.
Lemma exDD_ok : dataOf exK 2 2 3 2 2 exDD.
Proof. data_of. Qed.
Definition exXD : arrow_vec (F:=double) :=
  mkAV (dzs [1;2]%Z) (map dzs [[3;4;5]; [6;7;8]; [9;10;11]]%Z) (dzs [12;13]%Z) (dzs [14;15]%Z).
Lemma exXD_ok : vecOf 2 2 3 2 2 exXD.
Proof. constructor; try reflexivity. intros [|[|[|t]]] H; try lia; reflexivity. Qed.

(** the same matrix with a zero in place (0, 0): the first pivot is zero *)
Definition exMz : mat := matD exS [0;1;5;2;6;1;7]%Z.
Lemma exMz_ok : inputOf Od exMz exS (dzs [0;1;5;2;6;1;7]%Z).
Proof. apply matD_input. reflexivity. Qed.

(** the tridiagonal part *)
Definition exTDd : arrow_data (F:=double) :=
  match arrowCtor Od exTK 2 with Ok d => d | Err _ => noDataD end.
Lemma exTDd_ok : dataOf exTK 2 0 3 0 0 exTDd.
Proof. data_of. Qed.
Lemma exTd_ok : inputTri Od 2 3 (a_td exInD) (a_ts exInD) (w_td exWD) (w_ts exWD).
Proof. constructor; try reflexivity; apply exInD_ok. Qed.
Lemma exTd_declared : declaredTri exTA exTB 2 (a_td exInD) (a_ts exInD).
Proof. split; apply exInD_declared. Qed.

(** every entry of the factor, every pivot, every element of a vector *)
Definition finData (k : arrow_blks) (idx : list gidx) (d : arrow_data (F:=double)) : bool :=
  forallb (fun g => is_finite (pivotAt Od d g) &&
                    forallb (fun h => is_finite (factorAt Od (o0 Od) k d g h)) idx) idx.
Lemma finData_ok k idx d : finData k idx d = true ->
  (forall g h, In g idx -> In h idx -> ieeeFinite 53 1024 (factorAt Od (o0 Od) k d g h)) /\
  (forall g, In g idx -> ieeeFinite 53 1024 (pivotAt Od d g)).
Proof.
  intros H. unfold finData in H. rewrite forallb_forall in H. split.
  - intros g h Hg Hh. specialize (H g Hg). apply andb_true_iff in H. destruct H as [_ H].
    rewrite forallb_forall in H. apply H. auto.
  - intros g Hg. specialize (H g Hg). apply andb_true_iff in H. apply H.
Qed.
