(** Lemmas about sparsities and the CSR representation. *)
From Coq Require Import List Arith Lia Bool Permutation Sorted.
From Verif Require Import Base ModelPerm ModelSparsity ProofBase ProofPerm.
Import ListNotations.

Definition rowf (es : list entry) (i : nat) : list entry :=
  filter (fun e => fst e =? i) es.

Definition offs (es : list entry) (i : nat) : nat :=
  length (flat_map (rowf es) (seq 0 i)).

Definition inBoundsP (nr nc : nat) (es : list entry) : Prop :=
  forall r c, In (r, c) es -> r < nr /\ c < nc.

Definition wf_sp (s : sparsity) : Prop := inBoundsP (nrows s) (ncols s) (entries s).

Record wf_csr (c : csr) : Prop := mkWfCsr {
  wfc_bounds : inBoundsP (c_rows c) (c_cols c) (c_entries c);
  wfc_entries : c_entries c = flat_map (rowf (c_entries c)) (seq 0 (c_rows c));
  wfc_rb : row_begin c = map (offs (c_entries c)) (seq 0 (c_rows c + 1)) }.

Lemma wf_csr_sp c : wf_csr c -> wf_sp (csp c).
Proof. intros H. apply (wfc_bounds c H). Qed.

Lemma entry_eqb_spec a b : entry_eqb a b = true <-> a = b.
Proof.
  destruct a as [a1 a2], b as [b1 b2]. unfold entry_eqb. cbn [fst snd].
  rewrite andb_true_iff, !Nat.eqb_eq. split; [intros [-> ->]; auto|].
  intros E; injection E; auto.
Qed.

Lemma entry_eq_dec (a b : entry) : {a = b} + {a <> b}.
Proof. decide equality; apply Nat.eq_dec. Qed.

Lemma inBounds_spec nr nc e :
  inBounds nr nc e = true <-> fst e < nr /\ snd e < nc.
Proof. unfold inBounds. rewrite andb_true_iff, !Nat.ltb_lt. tauto. Qed.

Lemma forallb_inBounds nr nc es :
  forallb (inBounds nr nc) es = true <-> inBoundsP nr nc es.
Proof.
  rewrite forallb_forall. split.
  - intros H r c Hin. apply H, inBounds_spec in Hin. auto.
  - intros H [r c] Hin. apply inBounds_spec. cbn. apply H; auto.
Qed.

Lemma mkSparsity_ok nr nc es :
  inBoundsP nr nc es -> mkSparsity nr nc es = Ok (mkSp nr nc es).
Proof. intros H. unfold mkSparsity. apply forallb_inBounds in H. rewrite H. auto. Qed.

Lemma mkSparsity_inv nr nc es s :
  mkSparsity nr nc es = Ok s -> inBoundsP nr nc es /\ s = mkSp nr nc es.
Proof.
  unfold mkSparsity. intros H. apply bind_inv in H. destruct H as (u & Hu & H).
  apply pre_inv in Hu. apply forallb_inBounds in Hu. split; [auto|congruence].
Qed.

(** ** rows *)

Lemma rowf_In es i e : In e (rowf es i) <-> In e es /\ fst e = i.
Proof. unfold rowf. rewrite filter_In, Nat.eqb_eq. tauto. Qed.

Lemma rowf_app es1 es2 i : rowf (es1 ++ es2) i = rowf es1 i ++ rowf es2 i.
Proof. apply filter_app. Qed.

Lemma rowf_cons e es i :
  rowf (e :: es) i = if fst e =? i then e :: rowf es i else rowf es i.
Proof. reflexivity. Qed.

Lemma offs_S es i : offs es (S i) = offs es i + length (rowf es i).
Proof.
  unfold offs. rewrite seq_S, flat_map_app, app_length. cbn [flat_map Nat.add].
  rewrite app_nil_r. reflexivity.
Qed.

Lemma offs_mono es i j : i <= j -> offs es i <= offs es j.
Proof.
  induction 1; auto. rewrite offs_S. lia.
Qed.

Lemma rowf_rowf es i j : rowf (rowf es i) j = if i =? j then rowf es i else [].
Proof.
  unfold rowf. destruct (Nat.eqb_spec i j) as [->|N].
  - induction es as [|e es IH]; cbn [filter]; auto.
    destruct (fst e =? j) eqn:E; cbn [filter]; rewrite ?E; congruence.
  - induction es as [|e es IH]; cbn [filter]; auto.
    destruct (Nat.eqb_spec (fst e) i) as [Ei|Ei]; cbn [filter]; auto.
    destruct (Nat.eqb_spec (fst e) j); auto. congruence.
Qed.

Lemma rowf_flat_map_out es l i :
  ~ In i l -> rowf (flat_map (rowf es) l) i = [].
Proof.
  induction l as [|a l IH]; cbn [flat_map]; intros H; auto.
  rewrite rowf_app, rowf_rowf.
  destruct (Nat.eqb_spec a i) as [->|N]; [exfalso; apply H; left; auto|].
  apply IH. intros Hi; apply H; right; auto.
Qed.

Lemma rowf_flat_map es n i :
  i < n -> rowf (flat_map (rowf es) (seq 0 n)) i = rowf es i.
Proof.
  intros Hi. replace n with (i + S (n - i - 1)) by lia.
  rewrite seq_app, flat_map_app, rowf_app. cbn [seq flat_map].
  rewrite rowf_app, rowf_rowf, Nat.eqb_refl.
  rewrite rowf_flat_map_out by (rewrite in_seq; lia).
  rewrite rowf_flat_map_out by (rewrite in_seq; lia).
  rewrite app_nil_r. reflexivity.
Qed.

Lemma rowf_nil_bound nr nc es i : inBoundsP nr nc es -> nr <= i -> rowf es i = [].
Proof.
  intros H Hi. unfold rowf. induction es as [|[r c] es IH]; cbn [filter fst]; auto.
  destruct (Nat.eqb_spec r i) as [->|N].
  - destruct (H i c); [left; auto|lia].
  - apply IH. intros r' c' Hin. apply H. right; auto.
Qed.

Lemma rows_permutation nr nc es :
  inBoundsP nr nc es -> Permutation (flat_map (rowf es) (seq 0 nr)) es.
Proof.
  induction es as [|e es IH]; intros H.
  - induction (seq 0 nr); cbn; auto.
  - assert (Hb : fst e < nr).
    { destruct e as [r c]. destruct (H r c); [left; auto|cbn; lia]. }
    assert (IH' : Permutation (flat_map (rowf es) (seq 0 nr)) es).
    { apply IH. intros r c Hin. apply H. right; auto. }
    set (i := fst e) in *.
    replace nr with (i + S (nr - i - 1)) in IH' |- * by lia.
    rewrite seq_app, flat_map_app in IH' |- *. cbn [seq flat_map Nat.add] in IH' |- *.
    assert (Eo : forall a m, ~ In i (seq a m) ->
        flat_map (rowf (e :: es)) (seq a m) = flat_map (rowf es) (seq a m)).
    { intros a m Hn. induction (seq a m) as [|b l IHl]; cbn [flat_map]; auto.
      rewrite IHl by (intros Hi; apply Hn; right; auto). f_equal.
      unfold rowf. cbn [filter].
      destruct (Nat.eqb_spec (fst e) b) as [Eb|]; auto.
      exfalso. apply Hn. left. unfold i. auto. }
    rewrite !Eo by (rewrite in_seq; lia).
    assert (Er : rowf (e :: es) i = e :: rowf es i).
    { unfold rowf. cbn [filter]. unfold i. rewrite Nat.eqb_refl. auto. }
    rewrite Er. cbn [app].
    etransitivity; [symmetry; apply Permutation_middle|].
    apply perm_skip. exact IH'.
Qed.

Lemma offs_all nr nc es : inBoundsP nr nc es -> offs es nr = length es.
Proof.
  intros H. unfold offs. apply Permutation_length. eapply rows_permutation; eauto.
Qed.

Lemma offs_le nr nc es i : inBoundsP nr nc es -> i <= nr -> offs es i <= length es.
Proof.
  intros H Hi. rewrite <- (offs_all nr nc es H). apply offs_mono; auto.
Qed.

(** position in the grouped list *)
Lemma nth_error_grouped es nr i t :
  i < nr -> t < length (rowf es i) ->
  nth_error (flat_map (rowf es) (seq 0 nr)) (offs es i + t) =
  nth_error (rowf es i) t.
Proof.
  intros Hi Ht. replace nr with (i + S (nr - i - 1)) by lia.
  rewrite seq_app, flat_map_app. cbn [seq flat_map Nat.add].
  unfold offs. rewrite nth_error_app2 by lia.
  replace (length (flat_map (rowf es) (seq 0 i)) + t -
           length (flat_map (rowf es) (seq 0 i))) with t by lia.
  rewrite nth_error_app1; auto.
Qed.

(** ** getRowCounts, getRowBeginIndices *)

Lemma getRowCounts_ok s : wf_sp s ->
  getRowCounts s = Ok (map (fun i => length (rowf (entries s) i)) (seq 0 (nrows s))).
Proof.
  intros H. unfold getRowCounts.
  set (f := fun cnt e => _).
  destruct (foldM_split f (fun p cnt => length cnt = nrows s /\
     forall i, i < nrows s -> nth i cnt 0 = length (rowf p i)) (entries s)
     (repeat 0 (nrows s))) as (cnt & E & Hl & Hn).
  - split; [apply repeat_length|]. intros i Hi. rewrite nth_repeat_lt; auto.
  - intros p e q cnt Eq (Hl & Hn). unfold f.
    assert (Hb : fst e < nrows s).
    { destruct e as [r c]. cbn. destruct (H r c); auto.
      rewrite Eq. apply in_or_app. right; left; auto. }
    rewrite (rd_nth cnt (fst e) 0) by lia. cbn [bind].
    rewrite wr_ok by lia. eexists. split; [reflexivity|].
    rewrite upd_length. split; auto. intros i Hi.
    rewrite rowf_app, app_length, rowf_cons.
    destruct (Nat.eqb_spec (fst e) i) as [->|N].
    + rewrite nth_upd_eq by lia. rewrite Hn by auto. cbn. lia.
    + rewrite nth_upd_neq by auto. rewrite Hn by auto. cbn. lia.
  - rewrite E. f_equal. apply (list_ext _ _ 0).
    + rewrite map_length, seq_length. auto.
    + intros i Hi. rewrite Hl in Hi. rewrite Hn by auto.
      rewrite (nth_indep _ _ (length (rowf (entries s) 0)))
        by (rewrite map_length, seq_length; auto).
      rewrite (map_nth (fun i => length (rowf (entries s) i))), seq_nth by auto.
      reflexivity.
Qed.

Lemma partial_sum_offs es a n acc :
  acc = offs es a ->
  partial_sum acc (map (fun i => length (rowf es i)) (seq a n)) =
  map (offs es) (seq (S a) n).
Proof.
  revert a acc; induction n as [|n IH]; intros a acc E; cbn [seq map partial_sum]; auto.
  assert (E' : acc + length (rowf es a) = offs es (S a)) by (rewrite offs_S; lia).
  rewrite (IH (S a)) by auto. rewrite E'. reflexivity.
Qed.

Lemma getRowBegin_ok es nr :
  getRowBeginIndices (map (fun i => length (rowf es i)) (seq 0 nr)) =
  map (offs es) (seq 0 (nr + 1)).
Proof.
  unfold getRowBeginIndices. rewrite (partial_sum_offs es 0) by reflexivity.
  replace (nr + 1) with (S nr) by lia. reflexivity.
Qed.

Lemma rb_nth es nr i :
  i < nr + 1 -> nth i (map (offs es) (seq 0 (nr + 1))) 0 = offs es i.
Proof.
  intros Hi. change 0 with (offs es 0) at 3.
  rewrite (map_nth (offs es)), seq_nth by auto. reflexivity.
Qed.

(** ** getEntriesCSR *)

Lemma filter_length_le' {A} (f : A -> bool) l : length (filter f l) <= length l.
Proof. induction l; cbn; auto. destruct (f a); cbn; lia. Qed.

Lemma getEntriesCSR_ok s : wf_sp s ->
  getEntriesCSR s =
  Ok (flat_map (rowf (entries s)) (seq 0 (nrows s)),
      map (offs (entries s)) (seq 0 (nrows s + 1))).
Proof.
  intros H. unfold getEntriesCSR. rewrite getRowCounts_ok by auto. cbn [bind].
  rewrite getRowBegin_ok.
  set (es := entries s) in *. set (nr := nrows s) in *.
  set (rb := map (offs es) (seq 0 (nr + 1))).
  assert (Hrb : length rb = nr + 1) by (unfold rb; rewrite map_length, seq_length; auto).
  set (f := fun (st : list entry * list nat) (e : entry) => _).
  destruct (foldM_split f (fun p st =>
      length (fst st) = length es /\ length (snd st) = nr + 1 /\
      (forall i, i < nr -> nth i (snd st) 0 = offs es i + length (rowf p i)) /\
      (forall i t, i < nr -> t < length (rowf p i) ->
         nth_error (fst st) (offs es i + t) = nth_error (rowf p i) t))
      es (repeat (0, 0) (nnz s), rb)) as ([es' ins] & E & Hl & Hi & Hins & Hes).
  - cbn [fst snd]. unfold nnz. fold es. repeat split; auto.
    + apply repeat_length.
    + intros i Hi. unfold rb. rewrite rb_nth by lia. cbn; lia.
    + intros i t Hi Ht. cbn in Ht. lia.
  - intros p e q [es1 ins1] Eq (Hl & Hi & Hins & Hes). cbn [fst snd] in *.
    unfold f.
    assert (Hin : In e es) by (rewrite Eq; apply in_or_app; right; left; auto).
    assert (Hb : fst e < nr).
    { destruct e as [r c]. cbn. destruct (H r c); auto. }
    assert (Hrow : forall i, rowf es i = rowf p i ++ rowf (e :: q) i).
    { intros i. rewrite Eq at 1. apply rowf_app. }
    assert (Hrowe : length (rowf p (fst e)) < length (rowf es (fst e))).
    { rewrite Hrow, app_length, rowf_cons, Nat.eqb_refl. cbn. lia. }
    assert (Hpos : offs es (fst e) + length (rowf p (fst e)) < length es).
    { pose proof (offs_le nr (ncols s) es (S (fst e)) H ltac:(lia)).
      rewrite offs_S in *. lia. }
    rewrite (rd_nth ins1 (fst e) 0) by lia. cbn [bind]. rewrite Hins by auto.
    rewrite wr_ok by lia. cbn [bind]. rewrite wr_ok by lia. cbn [bind].
    eexists. split; [reflexivity|]. cbn [fst snd]. rewrite !upd_length.
    repeat split; auto.
    + intros i Hi'. rewrite rowf_app, app_length, rowf_cons.
      destruct (Nat.eqb_spec (fst e) i) as [Ei|N].
      * subst i. rewrite nth_upd_eq by lia. cbn; lia.
      * rewrite nth_upd_neq by auto. rewrite Hins by auto. cbn; lia.
    + intros i t Hi' Ht. rewrite rowf_app, app_length, rowf_cons in Ht.
      rewrite nth_error_upd by lia.
      rewrite rowf_app, rowf_cons.
      destruct (Nat.eqb_spec (fst e) i) as [Ei|N].
      * subst i. change (rowf [] (fst e)) with (@nil entry) in *. cbn [length] in Ht.
        destruct (Nat.eqb_spec (offs es (fst e) + length (rowf p (fst e)))
                    (offs es (fst e) + t)) as [Et|Nt].
        -- replace t with (length (rowf p (fst e))) by lia.
           rewrite nth_error_app2 by lia. rewrite Nat.sub_diag. auto.
        -- rewrite Hes by (auto; lia). rewrite nth_error_app1 by lia. auto.
      * change (rowf [] i) with (@nil entry) in *. cbn [length] in Ht. rewrite app_nil_r.
        assert (Hli : forall i', length (rowf p i') <= length (rowf es i')).
        { intros i'. rewrite Hrow, app_length. lia. }
        destruct (Nat.eqb_spec (offs es (fst e) + length (rowf p (fst e)))
                    (offs es i + t)) as [Et|Nt].
        -- exfalso. pose proof (Hli i).
           destruct (Nat.lt_trichotomy (fst e) i) as [L|[L|L]]; [|lia|].
           ++ pose proof (offs_mono es (S (fst e)) i ltac:(lia)).
              rewrite offs_S in *. lia.
           ++ pose proof (offs_mono es (S i) (fst e) ltac:(lia)).
              rewrite offs_S in *. lia.
        -- apply Hes; auto. lia.
  - rewrite E. cbn [bind fst]. f_equal. f_equal.
    cbn [fst snd] in *.
    apply (list_ext (A:=entry) _ _ (0, 0)).
    + rewrite Hl. symmetry. apply Permutation_length.
      eapply rows_permutation. exact H.
    + intros k Hk. rewrite Hl in Hk.
      (* find the row of position k *)
      assert (Hex : exists i t, i < nr /\ t < length (rowf es i) /\
                     k = offs es i + t).
      { assert (Hk' : k < offs es nr) by (rewrite (offs_all nr (ncols s)); auto).
        clear - Hk'. induction nr as [|n IH].
        - unfold offs in Hk'. cbn in Hk'. lia.
        - rewrite offs_S in Hk'. destruct (Nat.lt_ge_cases k (offs es n)) as [L|L].
          + destruct (IH L) as (i & t & Hi & Ht & Ek). exists i, t. auto.
          + exists n, (k - offs es n). repeat split; lia. }
      destruct Hex as (i & t & Hi' & Ht & ->).
      pose proof (Hes i t Hi' Ht) as E1.
      pose proof (nth_error_grouped es nr i t Hi' Ht) as E2.
      rewrite <- E1 in E2.
      destruct (nth_error es' (offs es i + t)) as [x|] eqn:Ex.
      * apply nth_error_nth with (d := (0, 0)) in Ex.
        apply nth_error_nth with (d := (0, 0)) in E2. congruence.
      * apply nth_error_None in Ex. lia.
Qed.

Lemma rowf_grouped nr nc es i :
  inBoundsP nr nc es ->
  rowf (flat_map (rowf es) (seq 0 nr)) i = rowf es i.
Proof.
  intros H. destruct (Nat.lt_ge_cases i nr) as [L|L].
  - apply rowf_flat_map; auto.
  - rewrite rowf_flat_map_out by (rewrite in_seq; lia).
    symmetry. eapply rowf_nil_bound; eauto.
Qed.

Lemma flat_map_ext_in' {A B} (f g : A -> list B) l :
  (forall a, In a l -> f a = g a) -> flat_map f l = flat_map g l.
Proof.
  induction l as [|a l IH]; cbn; intros H; auto.
  rewrite H by (left; auto). f_equal. apply IH. intros; apply H; right; auto.
Qed.

Lemma offs_ext es1 es2 i :
  (forall r, rowf es1 r = rowf es2 r) -> offs es1 i = offs es2 i.
Proof.
  intros H. unfold offs. f_equal. apply flat_map_ext_in'. auto.
Qed.

(** [toCSR] never fails on a sparsity with all entries in bounds *)
Lemma toCSR_ok s : wf_sp s ->
  exists c, toCSR s = Ok c /\ wf_csr c /\
    c_rows c = nrows s /\ c_cols c = ncols s /\
    Permutation (c_entries c) (entries s) /\
    (forall i, rowf (c_entries c) i = rowf (entries s) i).
Proof.
  intros H. unfold toCSR. rewrite getEntriesCSR_ok by auto. cbn [bind fst snd].
  set (es := flat_map _ _).
  assert (HP : Permutation es (entries s)) by (eapply rows_permutation; exact H).
  assert (Hb : inBoundsP (nrows s) (ncols s) es).
  { intros r c Hin. apply H. eapply Permutation_in; eauto. }
  rewrite mkSparsity_ok by auto. cbn [bind].
  eexists. split; [reflexivity|]. cbn.
  assert (Hr : forall i, rowf es i = rowf (entries s) i).
  { intros i. eapply rowf_grouped. exact H. }
  split; [|auto]. constructor; unfold c_rows, c_cols, c_entries; cbn.
  - exact Hb.
  - unfold es at 1. apply flat_map_ext_in'. intros. auto.
  - apply map_ext. intros i. symmetry. apply offs_ext. auto.
Qed.

Lemma toCSR_inv s c : wf_sp s -> toCSR s = Ok c ->
  wf_csr c /\ c_rows c = nrows s /\ c_cols c = ncols s /\
  Permutation (c_entries c) (entries s) /\
  (forall i, rowf (c_entries c) i = rowf (entries s) i).
Proof.
  intros H E. destruct (toCSR_ok s H) as (c' & E' & R).
  rewrite E in E'. injection E' as ->. auto.
Qed.

(** ** accessors of a well-formed CSR sparsity *)

Section Wf.
  Context (c : csr) (W : wf_csr c).
  Let es := c_entries c.

  Lemma wf_rb_nth i : i <= c_rows c -> nth i (row_begin c) 0 = offs es i.
  Proof. intros H. rewrite (wfc_rb c W). apply rb_nth. lia. Qed.

  Lemma wf_rb_len : length (row_begin c) = c_rows c + 1.
  Proof. rewrite (wfc_rb c W), map_length, seq_length. auto. Qed.

  Lemma wf_rd_rb i : i <= c_rows c -> rd (row_begin c) i = Ok (offs es i).
  Proof.
    intros H. rewrite (rd_nth _ _ 0) by (rewrite wf_rb_len; lia).
    rewrite wf_rb_nth; auto.
  Qed.

  Lemma wf_offs_le i : i <= c_rows c -> offs es i <= length es.
  Proof. intros H. eapply offs_le; [apply (wfc_bounds c W)|auto]. Qed.

  Lemma wf_nth_error i t :
    i < c_rows c -> t < length (rowf es i) ->
    nth_error es (offs es i + t) = nth_error (rowf es i) t.
  Proof.
    intros Hi Ht. unfold es at 1. rewrite (wfc_entries c W).
    apply nth_error_grouped; auto.
  Qed.

  Lemma wf_row_slice i : i < c_rows c ->
    firstn (offs es (S i) - offs es i) (skipn (offs es i) es) = rowf es i.
  Proof.
    intros Hi. rewrite offs_S.
    replace (offs es i + length (rowf es i) - offs es i)
      with (length (rowf es i)) by lia.
    assert (E : es = flat_map (rowf es) (seq 0 (c_rows c))) by apply (wfc_entries c W).
    rewrite E at 3.
    replace (c_rows c) with (i + S (c_rows c - i - 1)) by lia.
    rewrite seq_app, flat_map_app. cbn [seq flat_map Nat.add].
    unfold offs at 1. rewrite skipn_app, skipn_all, Nat.sub_diag. cbn [app skipn].
    rewrite firstn_app, firstn_all, Nat.sub_diag. cbn [firstn].
    apply app_nil_r.
  Qed.

  Lemma wf_rowRange i : i < c_rows c ->
    rowRange c i = Ok (offs es i, offs es (S i)).
  Proof.
    intros Hi. unfold rowRange. rewrite wf_rd_rb by lia. cbn [bind].
    replace (i + 1) with (S i) by lia. rewrite wf_rd_rb by lia. cbn [bind].
    assert (H1 : (offs es i <=? offs es (S i)) = true)
      by (apply Nat.leb_le, offs_mono; lia).
    assert (H2 : (offs es (S i) <=? length (c_entries c)) = true)
      by (apply Nat.leb_le, wf_offs_le; lia).
    rewrite H1, H2. reflexivity.
  Qed.

  Lemma wf_rowView i : i < c_rows c -> rowView c i = Ok (rowf es i).
  Proof.
    intros Hi. unfold rowView. rewrite wf_rowRange by auto. cbn [bind fst snd].
    rewrite wf_row_slice by auto. reflexivity.
  Qed.

  Lemma rowf_irange i k : i < c_rows c ->
    offs es i <= k < offs es (S i) ->
    exists j, nth_error es k = Some (i, j) /\
      nth_error (rowf es i) (k - offs es i) = Some (i, j) /\ j < c_cols c.
  Proof.
    intros Hi Hk. rewrite offs_S in Hk.
    assert (Ht : k - offs es i < length (rowf es i)) by lia.
    pose proof (wf_nth_error i (k - offs es i) Hi Ht) as E.
    replace (offs es i + (k - offs es i)) with k in E by lia.
    destruct (nth_error (rowf es i) (k - offs es i)) as [[r j]|] eqn:En.
    - pose proof (nth_error_In _ _ En) as Hin. apply rowf_In in Hin.
      destruct Hin as [Hin Hr]. cbn in Hr. subst r.
      exists j. repeat split; auto. apply (wfc_bounds c W) in Hin. tauto.
    - apply nth_error_None in En. lia.
  Qed.
End Wf.

(** ** searching *)

Fixpoint inb (es : list entry) (e : entry) : bool :=
  match es with
  | [] => false
  | e' :: es' => entry_eqb e' e || inb es' e
  end.

Lemma inb_In es e : inb es e = true <-> In e es.
Proof.
  induction es as [|e' es IH]; cbn [inb In]; [split; [discriminate|tauto]|].
  rewrite orb_true_iff, entry_eqb_spec, IH. tauto.
Qed.

Lemma inb_false es e : inb es e = false <-> ~ In e es.
Proof. rewrite <- inb_In. destruct (inb es e); split; congruence. Qed.

Lemma findEntryIndex_In es e :
  In e es -> exists k, findEntryIndex es e = Some k.
Proof.
  induction es as [|e' es IH]; cbn [findEntryIndex In]; [tauto|].
  intros [->|H].
  - exists 0. rewrite (proj2 (entry_eqb_spec e e)); auto.
  - destruct (entry_eqb e' e); [eauto|].
    destruct (IH H) as (k & ->). eauto.
Qed.

Lemma findEntryIndex_Some es e k :
  findEntryIndex es e = Some k ->
  nth_error es k = Some e /\ (forall k', k' < k -> nth_error es k' <> Some e).
Proof.
  revert k; induction es as [|e' es IH]; cbn [findEntryIndex]; intros k H; [discriminate|].
  destruct (entry_eqb e' e) eqn:Ee.
  - injection H as <-. apply entry_eqb_spec in Ee. subst.
    split; [reflexivity|]. intros; lia.
  - destruct (findEntryIndex es e) as [k1|] eqn:E1; [|discriminate].
    injection H as <-. destruct (IH k1 eq_refl) as [H1 H2].
    split; [exact H1|]. intros [|k'] Hk; cbn [nth_error].
    + intros E. injection E as ->. rewrite (proj2 (entry_eqb_spec e e)) in Ee; congruence.
    + apply H2. lia.
Qed.

Lemma findEntryIndex_None es e :
  findEntryIndex es e = None <-> ~ In e es.
Proof.
  split.
  - intros H Hin. destruct (findEntryIndex_In es e Hin) as (k & E). congruence.
  - intros H. destruct (findEntryIndex es e) as [k|] eqn:E; auto.
    apply findEntryIndex_Some in E. destruct E as [E _].
    apply nth_error_In in E. tauto.
Qed.

Lemma findEntryIndex_NoDup es e k :
  NoDup es -> nth_error es k = Some e -> findEntryIndex es e = Some k.
Proof.
  intros ND H. destruct (findEntryIndex_In es e (nth_error_In _ _ H)) as (k' & E).
  rewrite E. f_equal. apply findEntryIndex_Some in E. destruct E as [E _].
  rewrite NoDup_nth_error in ND. apply ND; [|congruence].
  apply nth_error_Some. congruence.
Qed.

Lemma findEntryIndex_app es1 es2 e :
  ~ In e es1 ->
  findEntryIndex (es1 ++ es2) e =
  match findEntryIndex es2 e with
  | Some k => Some (length es1 + k)
  | None => None
  end.
Proof.
  induction es1 as [|e' es1 IH]; cbn [app findEntryIndex length Nat.add]; intros H.
  - destruct (findEntryIndex es2 e); auto.
  - destruct (entry_eqb e' e) eqn:Ee.
    + apply entry_eqb_spec in Ee. exfalso. apply H. left; auto.
    + rewrite IH by (intros Hi; apply H; right; auto).
      destruct (findEntryIndex es2 e); auto.
Qed.

Lemma findEntryIndex_app_l es1 es2 e k :
  findEntryIndex es1 e = Some k -> findEntryIndex (es1 ++ es2) e = Some k.
Proof.
  revert k; induction es1 as [|e' es1 IH]; cbn [app findEntryIndex]; intros k H;
    [discriminate|].
  destruct (entry_eqb e' e); auto.
  destruct (findEntryIndex es1 e) as [k1|]; [|discriminate].
  rewrite (IH k1); auto.
Qed.

Lemma find_col_row i j row :
  (forall e, In e row -> fst e = i) ->
  find_col j row = findEntryIndex row (i, j).
Proof.
  induction row as [|[r c] row IH]; cbn [find_col findEntryIndex]; intros H; auto.
  pose proof (H (r, c) (or_introl eq_refl)) as Hr. cbn in Hr. subst r.
  unfold entry_eqb. cbn [fst snd]. rewrite Nat.eqb_refl. cbn [andb].
  rewrite IH by (intros e He; apply H; right; auto). reflexivity.
Qed.

Section Wf2.
  Context (c : csr) (W : wf_csr c).
  Let es := c_entries c.

  Lemma wf_isNonZero i j : i < c_rows c -> isNonZero c i j = Ok (inb es (i, j)).
  Proof.
    intros Hi. unfold isNonZero. rewrite (wf_rowView c W i Hi). cbn [bind]. f_equal.
    fold es. rewrite (find_col_row i) by (intros e He; apply rowf_In in He; tauto).
    destruct (findEntryIndex (rowf es i) (i, j)) as [k|] eqn:E.
    - apply findEntryIndex_Some in E. destruct E as [E _].
      apply nth_error_In, rowf_In in E. symmetry. apply inb_In. tauto.
    - apply findEntryIndex_None in E. symmetry. apply inb_false.
      intros Hin. apply E, rowf_In. auto.
  Qed.

  Lemma wf_findEntryIndex_row i j k :
    i < c_rows c -> findEntryIndex (rowf es i) (i, j) = Some k ->
    findEntryIndex es (i, j) = Some (offs es i + k).
  Proof.
    intros Hi E. unfold es at 1. rewrite (wfc_entries c W). fold es.
    replace (c_rows c) with (i + S (c_rows c - i - 1)) by lia.
    rewrite seq_app, flat_map_app. cbn [seq flat_map Nat.add].
    rewrite findEntryIndex_app.
    - rewrite (findEntryIndex_app_l _ _ _ k E). reflexivity.
    - intros Hin. apply in_flat_map in Hin. destruct Hin as (r & Hr & Hin).
      apply rowf_In in Hin. cbn in Hin. apply in_seq in Hr. lia.
  Qed.

  Lemma wf_entryIndex i j k :
    findEntryIndex es (i, j) = Some k -> entryIndex c i j = Ok k.
  Proof.
    intros Ek. pose proof (findEntryIndex_Some _ _ _ Ek) as [Hk _].
    pose proof (nth_error_In _ _ Hk) as Hin.
    pose proof (wfc_bounds c W i j Hin) as [Hi Hj].
    unfold entryIndex. rewrite wf_isNonZero by auto. cbn [bind].
    rewrite (proj2 (inb_In es (i, j)) Hin). cbn [c_assert bind].
    rewrite (wf_rowRange c W) by auto. cbn [bind].
    rewrite (wf_rowView c W) by auto. cbn [bind].
    rewrite (wf_rowRange c W 0) by lia. cbn [bind fst].
    rewrite (find_col_row i) by (intros e He; apply rowf_In in He; tauto).
    fold es.
    destruct (findEntryIndex_In (rowf es i) (i, j)) as (t & Et).
    { apply rowf_In. auto. }
    rewrite Et. pose proof (wf_findEntryIndex_row i j t Hi Et) as E.
    rewrite Ek in E. injection E as ->.
    unfold subw. change (offs es 0) with 0. cbn [Nat.leb]. f_equal. lia.
  Qed.
End Wf2.

(** ** sorted rows *)

Definition csr_sorted (c : csr) : Prop :=
  forall i, StronglySorted lt (map snd (rowf (c_entries c) i)).

Lemma StronglySorted_app_inv {A} (R : A -> A -> Prop) l1 l2 :
  StronglySorted R (l1 ++ l2) ->
  StronglySorted R l1 /\ StronglySorted R l2 /\
  (forall a b, In a l1 -> In b l2 -> R a b).
Proof.
  induction l1 as [|a l1 IH]; cbn [app]; intros H.
  - repeat split; auto; [constructor|]. intros a b [].
  - inversion H as [|x l Hs Hf]; subst. destruct (IH Hs) as (H1 & H2 & H3).
    rewrite Forall_app in Hf. destruct Hf as [Hf1 Hf2].
    repeat split; auto.
    + constructor; auto.
    + intros x b [<-|Hx] Hb; auto. rewrite Forall_forall in Hf2. auto.
Qed.

Lemma StronglySorted_lt_NoDup l : StronglySorted lt l -> NoDup l.
Proof.
  induction 1 as [|a l Hs IH Hf]; constructor; auto.
  rewrite Forall_forall in Hf. intros Hin. apply Hf in Hin. lia.
Qed.

Lemma NoDup_app_intro {A} (l1 l2 : list A) :
  NoDup l1 -> NoDup l2 -> (forall a, In a l1 -> ~ In a l2) -> NoDup (l1 ++ l2).
Proof.
  induction 1 as [|a l1 Ha H1 IH]; cbn [app]; intros H2 Hd; auto.
  constructor.
  - rewrite in_app_iff. intros [Hin|Hin]; [auto|].
    apply (Hd a); auto. left; auto.
  - apply IH; auto. intros b Hb. apply Hd. right; auto.
Qed.

Lemma csr_sorted_NoDup c : wf_csr c -> csr_sorted c -> NoDup (c_entries c).
Proof.
  intros W S. rewrite (wfc_entries c W). generalize (c_rows c). intros n.
  induction n as [|n IH]; [constructor|].
  rewrite seq_S, flat_map_app. cbn [flat_map Nat.add]. rewrite app_nil_r.
  apply NoDup_app_intro; auto.
  - apply (NoDup_map_inv snd). apply StronglySorted_lt_NoDup, S.
  - intros [r j] Hin Hin2. apply rowf_In in Hin2. cbn in Hin2.
    destruct Hin2 as [_ ->]. apply in_flat_map in Hin.
    destruct Hin as (r & Hr & Hin). apply rowf_In in Hin. cbn in Hin.
    apply in_seq in Hr. lia.
Qed.

(** ** sorting *)

Definition entry_lt (a b : entry) : Prop :=
  fst a < fst b \/ (fst a = fst b /\ snd a < snd b).

Lemma entry_ltb_spec a b : entry_ltb a b = true <-> entry_lt a b.
Proof.
  unfold entry_ltb, entry_lt.
  rewrite orb_true_iff, andb_true_iff, !Nat.ltb_lt, Nat.eqb_eq. tauto.
Qed.

Lemma insert_entry_perm x l : Permutation (insert_entry x l) (x :: l).
Proof.
  induction l as [|y l IH]; cbn [insert_entry]; auto.
  destruct (entry_ltb y x); auto.
  etransitivity; [apply perm_skip, IH|apply perm_swap].
Qed.

Lemma sort_perm l : Permutation (sortEntriesRowMajorSorted l) l.
Proof.
  induction l as [|x l IH]; cbn [sortEntriesRowMajorSorted]; auto.
  etransitivity; [apply insert_entry_perm|]. apply perm_skip, IH.
Qed.

Definition entry_le (a b : entry) : Prop :=
  fst a < fst b \/ (fst a = fst b /\ snd a <= snd b).

Lemma insert_entry_sorted x l :
  StronglySorted entry_le l -> StronglySorted entry_le (insert_entry x l).
Proof.
  induction 1 as [|y l Hs IH Hf]; cbn [insert_entry].
  - constructor; constructor.
  - destruct (entry_ltb y x) eqn:E.
    + constructor; auto. rewrite Forall_forall in *. intros z Hz.
      apply (Permutation_in _ (insert_entry_perm x l)) in Hz.
      destruct Hz as [<-|Hz]; auto.
      apply entry_ltb_spec in E. unfold entry_lt, entry_le in *. lia.
    + assert (Hxy : entry_le x y).
      { destruct (entry_ltb_spec y x) as [_ H]. unfold entry_lt, entry_le in *.
        destruct (Nat.lt_trichotomy (fst x) (fst y)) as [L|[L|L]]; auto.
        - right. split; auto. destruct (Nat.le_gt_cases (snd x) (snd y)); auto.
          rewrite H in E by lia. discriminate.
        - rewrite H in E by lia. discriminate. }
      constructor; [constructor; auto|].
      constructor; auto. rewrite Forall_forall in *. intros z Hz.
      apply Hf in Hz. unfold entry_le in *. lia.
Qed.

Lemma sort_sorted l : StronglySorted entry_le (sortEntriesRowMajorSorted l).
Proof.
  induction l as [|x l IH]; cbn [sortEntriesRowMajorSorted]; [constructor|].
  apply insert_entry_sorted; auto.
Qed.

Lemma filter_StronglySorted {A} (R : A -> A -> Prop) f l :
  StronglySorted R l -> StronglySorted R (filter f l).
Proof.
  induction 1 as [|a l Hs IH Hf]; cbn [filter]; [constructor|].
  destruct (f a); auto. constructor; auto.
  rewrite Forall_forall in *. intros b Hb. apply filter_In in Hb. apply Hf. tauto.
Qed.

Lemma sorted_rows es : NoDup es ->
  forall i, StronglySorted lt (map snd (rowf (sortEntriesRowMajorSorted es) i)).
Proof.
  intros ND i.
  assert (ND' : NoDup (sortEntriesRowMajorSorted es)).
  { eapply Permutation_NoDup; [symmetry; apply sort_perm|auto]. }
  pose proof (filter_StronglySorted _ (fun e => fst e =? i) _ (sort_sorted es)) as S.
  apply (NoDup_filter (fun e => fst e =? i)) in ND'.
  change (filter (fun e => fst e =? i) (sortEntriesRowMajorSorted es))
    with (rowf (sortEntriesRowMajorSorted es) i) in *.
  assert (Hr : forall e, In e (rowf (sortEntriesRowMajorSorted es) i) -> fst e = i).
  { intros e He. apply rowf_In in He. tauto. }
  induction S as [|a l Hs IH Hf]; cbn [map]; [constructor|].
  inversion ND' as [|x l' Hn ND2]; subst.
  constructor.
  - apply IH; auto. intros e He. apply Hr. right; auto.
  - rewrite Forall_forall in *. intros j Hj. apply in_map_iff in Hj.
    destruct Hj as (b & <- & Hb). pose proof (Hf b Hb) as Hle.
    pose proof (Hr a (or_introl eq_refl)) as Ha.
    pose proof (Hr b (or_intror Hb)) as Hb'.
    destruct a as [a1 a2], b as [b1 b2]. unfold entry_le in Hle. cbn in *. subst.
    destruct (Nat.eq_dec a2 b2) as [->|N]; [contradiction|lia].
Qed.

(** sort, then CSR: sorted rows *)
Lemma csr_of_sorted nr nc es c :
  inBoundsP nr nc es -> NoDup es ->
  toCSR (mkSp nr nc (sortEntriesRowMajorSorted es)) = Ok c ->
  wf_csr c /\ csr_sorted c /\ c_rows c = nr /\ c_cols c = nc /\
  Permutation (c_entries c) es.
Proof.
  intros Hb ND E.
  assert (Hw : wf_sp (mkSp nr nc (sortEntriesRowMajorSorted es))).
  { intros r j Hin. apply Hb. eapply Permutation_in; [apply sort_perm|exact Hin]. }
  destruct (toCSR_inv _ _ Hw E) as (W & Hr & Hc & HP & Hrows). cbn in *.
  split; [exact W|]. split; [|split; [auto|split; [auto|]]].
  - intros i. rewrite Hrows. apply sorted_rows; auto.
  - etransitivity; [exact HP|apply sort_perm].
Qed.
