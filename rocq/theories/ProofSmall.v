(** Small functions: blocking and flattening of vectors, boolean matrices,
    dimension checks. *)
From Coq Require Import List Arith Lia Bool Permutation Sorted.
From Verif Require Import Base ModelPerm ModelSparsity ModelSymbolic ModelNumeric ModelArrow.
From Verif Require Import SpecSymbolic SpecArrow.
From Verif Require Import ProofBase ProofPropSymbolic.
Import ListNotations.

(** ** block, flatten *)

Lemma nth_upd_same {A} (l : list A) i a : i < length l -> nth_error (upd l i a) i = Some a.
Proof. intros. apply nth_error_upd_eq; auto. Qed.

Definition chunk {V} (d : nat) (flat : list V) (b : nat) : list V :=
  firstn d (skipn (b * d) flat).

Lemma upd_app_here {A} (l1 l2 : list A) x y : upd (l1 ++ x :: l2) (length l1) y = l1 ++ y :: l2.
Proof. induction l1 as [|a l1 IH]; cbn [app length upd]; auto. f_equal. exact IH. Qed.

Lemma upd_app_at {A} (l1 l2 : list A) x y k :
  length l1 = k -> upd (l1 ++ x :: l2) k y = l1 ++ y :: l2.
Proof. intros <-. apply upd_app_here. Qed.

Lemma firstn_snoc {V} (l : list V) k x : nth_error l k = Some x -> firstn (S k) l = firstn k l ++ [x].
Proof.
  revert l. induction k as [|k IH]; intros [|a l] H; cbn in H; try discriminate.
  - injection H as ->. auto.
  - cbn [firstn app]. f_equal. apply IH; auto.
Qed.

Lemma block_ok {V} (v0 : V) d flat : 0 < d ->
  block v0 d flat = Ok (map (chunk d flat) (seq 0 (length flat / d))).
Proof.
  intros Hd. unfold block. destruct (Nat.eqb_spec d 0) as [Hz|_]; [lia|].
  set (n := length flat / d).
  assert (Hn : n * d <= length flat) by (unfold n; rewrite Nat.mul_comm; apply Nat.mul_div_le; lia).
  match goal with |- bind (foldM ?f _ _) _ = _ => set (step := f) end.
  destruct (foldM_seq step (fun b st => st =
      (map (chunk d flat) (seq 0 b) ++ repeat (repeat v0 d) (n - b), b * d))
      0 n (repeat (repeat v0 d) n, 0)) as (st & E & ->).
  - cbn [seq map app]. rewrite Nat.sub_0_r. auto.
  - intros b st Hb ->. cbn [Nat.add] in Hb.
    unfold step.
    match goal with |- exists s', foldM ?g _ _ = _ /\ _ => set (inner := g) end.
    replace (n - b) with (S (n - S b)) by lia. cbn [repeat].
    set (done := map (chunk d flat) (seq 0 b)). set (rest := repeat (repeat v0 d) (n - S b)).
    assert (Hdone : length done = b) by (unfold done; rewrite map_length, seq_length; auto).
    destruct (foldM_seq inner (fun v st => st =
       (done ++ (firstn v (skipn (b * d) flat) ++ repeat v0 (d - v)) :: rest, b * d + v))
       0 d (done ++ repeat v0 d :: rest, b * d)) as (st & E & ->).
    + cbn [firstn app]. rewrite Nat.sub_0_r, Nat.add_0_r. auto.
    + intros v st Hv ->. cbn [Nat.add] in Hv. unfold inner. cbn beta iota.
      assert (Hlt : b * d + v < length flat).
      { assert (S b * d <= n * d) by (apply Nat.mul_le_mono_r; lia). lia. }
      assert (Hx : exists x, nth_error flat (b * d + v) = Some x).
      { apply nth_error_Some in Hlt. destruct (nth_error flat (b * d + v)); eauto; congruence. }
      destruct Hx as (x & Hx).
      rewrite (proj2 (rd_ok _ _ _) Hx). cbn [bind].
      assert (R : rd (done ++ (firstn v (skipn (b * d) flat) ++ repeat v0 (d - v)) :: rest) b =
                  Ok (firstn v (skipn (b * d) flat) ++ repeat v0 (d - v))).
      { apply rd_ok. rewrite nth_error_app2 by lia. rewrite Hdone, Nat.sub_diag. auto. }
      rewrite R. cbn [bind].
      assert (Hx' : nth_error (skipn (b * d) flat) v = Some x).
      { rewrite <- Hx. rewrite <- (firstn_skipn (b * d) flat) at 2.
        rewrite nth_error_app2; rewrite firstn_length_le by lia; [f_equal; lia|lia]. }
      assert (Hf : length (firstn v (skipn (b * d) flat)) = v).
      { apply firstn_length_le. rewrite skipn_length. lia. }
      rewrite wr_ok by (rewrite app_length, repeat_length; lia). cbn [bind].
      rewrite wr_ok by (rewrite app_length; cbn [length]; lia). cbn [bind].
      eexists. split; [reflexivity|]. f_equal; [|lia].
      rewrite (upd_app_at done _ _ _ b Hdone). f_equal. f_equal.
      replace (d - v) with (S (d - (1 + v))) by lia. cbn [repeat].
      rewrite (upd_app_at _ _ _ _ v Hf).
      cbn [Nat.add]. rewrite (firstn_snoc _ _ _ Hx'), <- app_assoc. auto.
    + rewrite E. eexists. split; [reflexivity|]. f_equal; [|cbn [Nat.add]; lia].
      cbn [Nat.add]. rewrite Nat.sub_diag. cbn [repeat]. rewrite app_nil_r.
      rewrite seq_S, map_app. cbn [map Nat.add]. rewrite <- app_assoc. reflexivity.
  - rewrite E. cbn [bind fst Nat.add]. rewrite Nat.sub_diag, app_nil_r. auto.
Qed.

Lemma flatten_concat {V} (w : list (list V)) : flatten w = concat w.
Proof.
  unfold flatten. assert (G : forall acc, fold_left (fun acc b => acc ++ b) w acc = acc ++ concat w).
  { induction w as [|b w IH]; intros acc; cbn [fold_left concat]; [rewrite app_nil_r; auto|].
    rewrite IH, <- app_assoc. auto. }
  rewrite G. auto.
Qed.

Lemma concat_chunks {V} d (flat : list V) n : n * d <= length flat ->
  concat (map (chunk d flat) (seq 0 n)) = firstn (n * d) flat.
Proof.
  induction n as [|n IH]; intros H; [reflexivity|].
  rewrite seq_S, map_app, concat_app, IH by lia. cbn [map concat Nat.add]. rewrite app_nil_r.
  unfold chunk. replace (S n * d) with (n * d + d) by lia.
  rewrite <- (firstn_skipn (n * d) flat) at 3.
  rewrite firstn_app, firstn_firstn, firstn_length_le by lia.
  replace (Nat.min (n * d + d) (n * d)) with (n * d) by lia.
  f_equal. f_equal. lia.
Qed.

Lemma flatten_block {V} (v0 : V) d flat : 0 < d ->
  exists bs, block v0 d flat = Ok bs /\ Forall (fun b => length b = d) bs /\
    flatten bs = firstn (length flat / d * d) flat.
Proof.
  intros Hd. rewrite (block_ok v0 d flat Hd). eexists. split; [reflexivity|].
  assert (Hn : length flat / d * d <= length flat) by (rewrite Nat.mul_comm; apply Nat.mul_div_le; lia).
  split.
  - apply Forall_forall. intros b Hb. apply in_map_iff in Hb. destruct Hb as (k & <- & Hk).
    apply in_seq in Hk. unfold chunk. apply firstn_length_le. rewrite skipn_length.
    assert (S k * d <= length flat / d * d) by (apply Nat.mul_le_mono_r; lia). lia.
  - rewrite flatten_concat. apply concat_chunks; auto.
Qed.

Lemma concat_length {V} d (w : list (list V)) : Forall (fun b => length b = d) w ->
  length (concat w) = length w * d.
Proof.
  induction 1 as [|b w Hb _ IH]; cbn [concat length]; auto. rewrite app_length, IH, Hb. lia.
Qed.

Lemma chunk_concat {V} d (w : list (list V)) : Forall (fun b => length b = d) w ->
  map (chunk d (concat w)) (seq 0 (length w)) = w.
Proof.
  induction 1 as [|b w Hb _ IH]; auto.
  cbn [length seq map concat]. f_equal.
  - unfold chunk. cbn [Nat.mul skipn]. rewrite <- Hb, firstn_app, firstn_all, Nat.sub_diag.
    cbn [firstn]. apply app_nil_r.
  - rewrite <- seq_shift, map_map. rewrite <- IH at 2. apply map_ext. intros k.
    unfold chunk. replace (S k * d) with (length b + k * d) by lia.
    rewrite skipn_app, skipn_all2 by lia. cbn [app].
    replace (length b + k * d - length b) with (k * d) by lia. auto.
Qed.

Lemma block_flatten {V} (v0 : V) d w : 0 < d -> Forall (fun b => length b = d) w ->
  block v0 d (flatten w) = Ok w.
Proof.
  intros Hd Hw. rewrite block_ok, flatten_concat, (concat_length d w Hw), Nat.div_mul by lia.
  rewrite chunk_concat; auto.
Qed.

(** ** boolean matrices *)

Definition rowTrues (m : bool_matrix) (nc i : nat) : list entry :=
  map (pair i) (filter (fun j => nth j (nth i m []) false) (seq 0 nc)).

Definition allTrues (m : bool_matrix) (nr nc : nat) : list entry :=
  flat_map (rowTrues m nc) (seq 0 nr).

Lemma count_filter (row : list bool) : forall nc, length row = nc ->
  count_occ bool_dec row true = length (filter (fun j => nth j row false) (seq 0 nc)).
Proof.
  induction row as [|b row IH]; intros nc <-; cbn [length seq filter count_occ]; auto.
  rewrite (IH _ eq_refl). rewrite <- seq_shift.
  assert (E : forall l, length (filter (fun j => nth j (b :: row) false) (map S l)) =
                        length (filter (fun j => nth j row false) l)).
  { induction l as [|x l IHl]; cbn [map filter nth]; auto.
    destruct (nth x row false); cbn [length]; auto. }
  cbn [nth]. destruct (bool_dec b true) as [->|Hb].
  - cbn [length]. rewrite E. auto.
  - destruct b; [congruence|]. rewrite E. auto.
Qed.

Lemma boolNnz_ok m nr nc : length m = nr -> Forall (fun row => length row = nc) m ->
  boolNnz m = length (allTrues m nr nc).
Proof.
  intros <- HF. unfold boolNnz, allTrues, rowTrues.
  assert (G : forall acc, fold_left (fun carry row => carry + count_occ bool_dec row true) m acc =
    acc + length (flat_map (fun i => map (pair i) (filter (fun j => nth j (nth i m []) false) (seq 0 nc)))
       (seq 0 (length m)))).
  { induction HF as [|row m Hr _ IH]; intros acc; cbn [fold_left length seq flat_map]; [auto|].
    rewrite IH, app_length, map_length, (count_filter row nc Hr). cbn [nth].
    rewrite <- seq_shift. rewrite <- Nat.add_assoc. f_equal. f_equal.
    generalize (seq 0 (length m)) as l. clear.
    induction l as [|x l IHl]; cbn [map flat_map]; auto.
    rewrite !app_length, !map_length, IHl. reflexivity. }
  apply G.
Qed.

Lemma bool_entries_ok m nr nc : length m = nr -> Forall (fun row => length row = nc) m ->
  makeSparseEntriesFromBoolMatrix nr nc m = Ok (allTrues m nr nc).
Proof.
  intros Hm HF. unfold makeSparseEntriesFromBoolMatrix.
  rewrite (boolNnz_ok m nr nc Hm HF). set (N := length (allTrues m nr nc)).
  match goal with |- bind (foldM ?f _ _) _ = _ => set (step := f) end.
  assert (HR : forall i, i < nr -> length (nth i m []) = nc).
  { intros i Hi. rewrite Forall_forall in HF. apply HF, nth_In. lia. }
  assert (HL : forall i es, i <= nr -> es = flat_map (rowTrues m nc) (seq 0 i) ->
    exists es', allTrues m nr nc = es ++ es').
  { intros i es Hi ->. unfold allTrues. replace nr with (i + (nr - i)) by lia.
    rewrite seq_app, flat_map_app. eauto. }
  destruct (foldM_seq step (fun i st => exists es, st = (es ++ repeat (0, 0) (N - length es), length es) /\
      es = flat_map (rowTrues m nc) (seq 0 i)) 0 nr (repeat (0, 0) N, 0))
    as (st & E & es & -> & Ees).
  - exists []. cbn [app length]. rewrite Nat.sub_0_r. auto.
  - intros i st Hi (es & -> & Ees). unfold step.
    match goal with |- exists s', foldM ?g _ _ = _ /\ _ => set (inner := g) end.
    cbn [Nat.add] in Hi.
    assert (Hpre : forall j, exists es', allTrues m nr nc =
      (es ++ map (pair i) (filter (fun j => nth j (nth i m []) false) (seq 0 j))) ++ es' \/ nc < j).
    { intros j. destruct (Nat.lt_ge_cases nc j) as [L|L]; [exists []; auto|].
      destruct (HL (S i) (flat_map (rowTrues m nc) (seq 0 (S i)))) as (e2 & E2); auto; [lia|].
      rewrite E2, seq_S, flat_map_app, <- Ees. cbn [flat_map Nat.add]. rewrite app_nil_r.
      assert (Hsp : rowTrues m nc i =
        map (pair i) (filter (fun j => nth j (nth i m []) false) (seq 0 j)) ++
        map (pair i) (filter (fun j => nth j (nth i m []) false) (seq j (nc - j)))).
      { unfold rowTrues. rewrite <- map_app, <- filter_app.
        change (seq j (nc - j)) with (seq (0 + j) (nc - j)). rewrite <- seq_app.
        do 3 f_equal. lia. }
      rewrite Hsp.
      eexists. left. rewrite <- !app_assoc. reflexivity. }
    destruct (foldM_seq inner (fun j st => exists r,
       st = ((es ++ r) ++ repeat (0, 0) (N - length (es ++ r)), length (es ++ r)) /\
       r = map (pair i) (filter (fun j => nth j (nth i m []) false) (seq 0 j)))
       0 nc (es ++ repeat (0, 0) (N - length es), length es)) as (st & E & r & -> & Er).
    + exists []. rewrite app_nil_r. auto.
    + intros j st Hj (r & -> & Er). cbn [Nat.add] in Hj. unfold inner. cbn [fst snd].
      rewrite (rd_nth m i []) by lia. cbn [bind].
      rewrite (rd_nth (nth i m []) j false) by (rewrite HR; lia). cbn [bind].
      assert (Eq : map (pair i) (filter (fun j => nth j (nth i m []) false) (seq 0 (1 + j))) =
        r ++ (if nth j (nth i m []) false then [(i, j)] else [])).
      { cbn [Nat.add]. rewrite seq_S, filter_app, map_app, <- Er. cbn [filter Nat.add].
        destruct (nth j (nth i m []) false); auto. }
      destruct (nth j (nth i m []) false) eqn:Eb.
      * destruct (Hpre (S j)) as (es' & [Ea|L]); [|lia].
        cbn [Nat.add] in Eq. rewrite Eq in Ea.
        assert (HN : length (es ++ r) < N).
        { unfold N. rewrite Ea, !app_length. cbn [length]. lia. }
        rewrite wr_ok by (rewrite (app_length (es ++ r)), repeat_length; lia). cbn [bind].
        eexists. split; [reflexivity|]. exists (r ++ [(i, j)]). split; [|symmetry; exact Eq].
        replace (N - length (es ++ r)) with (S (N - S (length (es ++ r)))) by lia.
        cbn [repeat]. rewrite upd_app_here. rewrite !app_length. cbn [length].
        f_equal; [|lia]. rewrite !app_assoc. rewrite <- (app_assoc (es ++ r)). cbn [app].
        f_equal. f_equal. f_equal. lia.
      * eexists. split; [reflexivity|]. exists r. split; auto. cbn [Nat.add] in Eq.
        cbn [Nat.add]. rewrite Eq, app_nil_r. auto.
    + rewrite E. eexists. split; [reflexivity|]. exists (es ++ r). split; auto.
      cbn [Nat.add]. rewrite seq_S, flat_map_app, <- Ees. cbn [flat_map Nat.add].
      rewrite app_nil_r. f_equal. exact Er.
  - rewrite E. cbn [bind fst snd]. cbn [Nat.add] in Ees. fold (allTrues m nr nc) in Ees.
    subst es. fold N. rewrite Nat.eqb_refl. cbn [c_assert bind]. rewrite Nat.sub_diag, app_nil_r. auto.
Qed.

Lemma seq_sorted n : forall a, StronglySorted lt (seq a n).
Proof.
  induction n as [|n IH]; intros a; cbn [seq]; constructor; auto.
  apply Forall_forall. intros x Hx. apply in_seq in Hx. lia.
Qed.

Lemma allTrues_spec m nr nc :
  rowMajor (allTrues m nr nc) /\
  (forall i j, In (i, j) (allTrues m nr nc) <->
     i < nr /\ j < nc /\ nth j (nth i m []) false = true).
Proof.
  split.
  - unfold allTrues. generalize 0 as a. induction nr as [|n IH]; intros a; cbn [seq flat_map]; [constructor|].
    apply StronglySorted_app; [|apply IH|].
    + unfold rowTrues.
      assert (G : forall l, StronglySorted lt l -> rowMajor (map (pair a) l)).
      { induction 1 as [|x l HS IHl HF]; cbn [map]; constructor; auto.
        rewrite Forall_map. eapply Forall_impl; [|exact HF]. intros y Hy. cbn. auto. }
      apply G. apply ProofPropSymbolic.StronglySorted_filter, seq_sorted.
    + intros [i1 j1] [i2 j2] H1 H2. apply in_map_iff in H1. destruct H1 as (x & E & _).
      injection E as <- <-. apply in_flat_map in H2. destruct H2 as (i & Hi & H2).
      apply in_map_iff in H2. destruct H2 as (y & E & _). injection E as <- <-.
      apply in_seq in Hi. left. cbn. lia.
  - intros i j. unfold allTrues. rewrite in_flat_map. split.
    + intros (i' & Hi & H). apply in_map_iff in H. destruct H as (x & E & H).
      injection E as <- <-. apply filter_In in H. rewrite in_seq in H. apply in_seq in Hi.
      destruct H. split; [lia|]. split; [lia|auto].
    + intros (Hi & Hj & H). exists i. split; [apply in_seq; lia|].
      apply in_map_iff. exists j. split; auto. apply filter_In. split; auto. apply in_seq; lia.
Qed.

(** ** dimension checks *)

Lemma all_equal_iff x l : all_equal (x :: l) = true <-> forall y, In y l -> y = x.
Proof.
  cbn [all_equal]. rewrite forallb_forall. split; intros H y Hy.
  - apply Nat.eqb_eq. auto.
  - apply Nat.eqb_eq. auto.
Qed.

Ltac solve_in H :=
  repeat (destruct H as [<-|H]; [first [assumption|reflexivity|congruence|lia]|]); destruct H.

Lemma dim_start_ok s d : startAgrees (as_start s) d -> as_dim_start s = Ok d.
Proof.
  unfold startAgrees. intros (H1 & H2 & H3 & H4 & H5). unfold as_dim_start, ss_dim.
  rewrite pre_ok; [cbn [bind]; congruence|]. apply all_equal_iff. intros y Hy. cbn [In] in Hy.
  solve_in Hy.
Qed.

Lemma dim_start_err s : (forall d, ~ startAgrees (as_start s) d) -> as_dim_start s = Err PreViolation.
Proof.
  intros H. unfold as_dim_start, ss_dim. destruct (ss_consistent (as_start s)) eqn:E; auto.
  exfalso. apply (H (nrows (ss_diag (as_start s)))). unfold ss_consistent in E.
  rewrite all_equal_iff in E. cbn [In] in E. unfold startAgrees.
  repeat split; auto 6.
Qed.

Lemma dim_link_ok s d : linkAgrees (as_link s) d -> as_dim_link s = Ok d.
Proof.
  unfold linkAgrees. intros (H1 & H2 & H3 & H4 & H5). unfold as_dim_link, sl_dim.
  rewrite pre_ok; [cbn [bind]; congruence|]. apply all_equal_iff. intros y Hy. cbn [In] in Hy.
  solve_in Hy.
Qed.

Lemma dim_link_err s : (forall d, ~ linkAgrees (as_link s) d) -> as_dim_link s = Err PreViolation.
Proof.
  intros H. unfold as_dim_link, sl_dim. destruct (sl_consistent (as_link s)) eqn:E; auto.
  exfalso. apply (H (nrows (sl_diag (as_link s)))). unfold sl_consistent in E.
  rewrite all_equal_iff in E. cbn [In] in E. unfold linkAgrees.
  repeat split; auto 6.
Qed.

Lemma dim_tri_ok s d : triAgrees s d -> as_dim_tri s = Ok d.
Proof.
  unfold triAgrees. intros (H1 & H2 & H3 & H4 & H5 & H6 & H7 & H8).
  unfold as_dim_tri, as_consistent_tri, st_dim.
  assert (st_consistent (as_tri s) = true) as ->.
  { apply all_equal_iff. intros y Hy. cbn [In] in Hy. solve_in Hy. }
  cbn [pre bind]. rewrite pre_ok; [cbn [bind]; congruence|].
  apply all_equal_iff. intros y Hy. cbn [In] in Hy. solve_in Hy.
Qed.

Lemma dim_tri_err s : (forall d, ~ triAgrees s d) -> as_dim_tri s = Err PreViolation.
Proof.
  intros H. unfold as_dim_tri, as_consistent_tri, st_dim.
  destruct (st_consistent (as_tri s)) eqn:E; [|reflexivity].
  cbn [pre bind].
  match goal with |- bind (pre ?b) _ = _ => destruct b eqn:E2; [|reflexivity] end.
  exfalso. apply (H (nrows (st_diag (as_tri s)))). unfold st_consistent in E.
  rewrite all_equal_iff in E. rewrite all_equal_iff in E2. cbn [In] in E, E2. unfold triAgrees.
  pose proof (E2 (nrows (st_diag (as_tri s))) ltac:(auto)).
  pose proof (E2 (ncols (sl_prev (as_link s))) ltac:(auto)).
  pose proof (E2 (ncols (so_subdiag (as_outer s))) ltac:(auto)).
  repeat split; auto 6; congruence.
Qed.

Lemma dim_outer_ok s d : outerAgrees s d -> as_dim_outer s = Ok d.
Proof.
  unfold outerAgrees. intros (H1 & H2 & H3 & H4 & H5 & H6).
  unfold as_dim_outer, as_consistent_outer, so_dim.
  assert (so_consistent (as_outer s) = true) as ->.
  { apply all_equal_iff. intros y Hy. cbn [In] in Hy. solve_in Hy. }
  cbn [pre bind]. rewrite pre_ok; [cbn [bind]; congruence|].
  apply all_equal_iff. intros y Hy. cbn [In] in Hy. solve_in Hy.
Qed.

Lemma dim_outer_err s : (forall d, ~ outerAgrees s d) -> as_dim_outer s = Err PreViolation.
Proof.
  intros H. unfold as_dim_outer, as_consistent_outer, so_dim.
  destruct (so_consistent (as_outer s)) eqn:E; [|reflexivity].
  cbn [pre bind].
  match goal with |- bind (pre ?b) _ = _ => destruct b eqn:E2; [|reflexivity] end.
  exfalso. apply (H (nrows (so_diag (as_outer s)))). unfold so_consistent in E.
  rewrite all_equal_iff in E. rewrite all_equal_iff in E2. cbn [In] in E, E2. unfold outerAgrees.
  pose proof (E2 (nrows (so_diag (as_outer s))) ltac:(auto)).
  pose proof (E2 (nrows (sl_next (as_link s))) ltac:(auto)).
  repeat split; auto 6; congruence.
Qed.

Lemma dims_checked s :
  ~ (exists ds dt dl dO, startAgrees (as_start s) ds /\ triAgrees s dt /\
       linkAgrees (as_link s) dl /\ outerAgrees s dO) ->
  arrowBlocks s = Err PreViolation.
Proof.
  intros H. unfold arrowBlocks.
  destruct (as_dim_start s) as [ds|e] eqn:E1.
  2:{ unfold as_dim_start, ss_dim in *.
      destruct (ss_consistent (as_start s)); [discriminate|]. injection E1 as <-. auto. }
  destruct (as_dim_tri s) as [dt|e] eqn:E2.
  2:{ unfold as_dim_tri, as_consistent_tri, st_dim in *.
      destruct (st_consistent (as_tri s)); cbn [pre bind] in *; [|injection E2 as <-; auto].
      match type of E2 with bind (pre ?b) _ = _ => destruct b end; cbn in E2; congruence. }
  destruct (as_dim_link s) as [dl|e] eqn:E3.
  2:{ unfold as_dim_link, sl_dim in *.
      destruct (sl_consistent (as_link s)); [discriminate|]. injection E3 as <-. auto. }
  destruct (as_dim_outer s) as [dO|e] eqn:E4.
  2:{ unfold as_dim_outer, as_consistent_outer, so_dim in *.
      destruct (so_consistent (as_outer s)); cbn [pre bind] in *; [|injection E4 as <-; auto].
      match type of E4 with bind (pre ?b) _ = _ => destruct b end; cbn in E4; congruence. }
  exfalso. apply H.
  exists ds, dt, dl, dO. split; [|split; [|split]].
  - unfold as_dim_start, ss_dim in E1. destruct (ss_consistent (as_start s)) eqn:E; [|discriminate].
    cbn in E1. injection E1 as <-. unfold ss_consistent in E.
    rewrite all_equal_iff in E. cbn [In] in E. unfold startAgrees.
    pose proof (E (ncols (ss_diag (as_start s))) ltac:(auto)).
    pose proof (E (ncols (ss_next (as_start s))) ltac:(auto)).
    pose proof (E (ncols (ss_outer (as_start s))) ltac:(auto)).
    pose proof (E (length (ss_perm (as_start s))) ltac:(auto 6)).
    repeat split; congruence.
  - unfold as_dim_tri, as_consistent_tri, st_dim in E2.
    destruct (st_consistent (as_tri s)) eqn:E; [|discriminate]. cbn [pre bind] in E2.
    match type of E2 with bind (pre ?b) _ = _ => destruct b eqn:E5; [|discriminate] end.
    cbn in E2. injection E2 as <-.
    unfold st_consistent in E. rewrite all_equal_iff in E. rewrite all_equal_iff in E5.
    cbn [In] in E, E5. unfold triAgrees.
    pose proof (E5 (nrows (st_diag (as_tri s))) ltac:(auto)).
    pose proof (E5 (ncols (sl_prev (as_link s))) ltac:(auto)).
    pose proof (E5 (ncols (so_subdiag (as_outer s))) ltac:(auto)).
    repeat split; auto 6; congruence.
  - unfold as_dim_link, sl_dim in E3. destruct (sl_consistent (as_link s)) eqn:E; [|discriminate].
    cbn in E3. injection E3 as <-. unfold sl_consistent in E.
    rewrite all_equal_iff in E. cbn [In] in E. unfold linkAgrees.
    repeat split; auto 6.
  - unfold as_dim_outer, as_consistent_outer, so_dim in E4.
    destruct (so_consistent (as_outer s)) eqn:E; [|discriminate]. cbn [pre bind] in E4.
    match type of E4 with bind (pre ?b) _ = _ => destruct b eqn:E5; [|discriminate] end.
    cbn in E4. injection E4 as <-.
    unfold so_consistent in E. rewrite all_equal_iff in E. rewrite all_equal_iff in E5.
    cbn [In] in E, E5. unfold outerAgrees.
    pose proof (E5 (nrows (so_diag (as_outer s))) ltac:(auto)).
    pose proof (E5 (nrows (sl_next (as_link s))) ltac:(auto)).
    repeat split; auto 6; congruence.
Qed.
