(** Dense view of sparse factor blocks and the row updates used by the kernels.
    No algebraic laws are used here. *)
From Coq Require Import List Arith Lia Bool Sorted.
From Verif Require Import Base ModelPerm ModelSparsity ModelSymbolic ModelNumeric.
From Verif Require Import ProofBase ProofPerm ProofCsr.
Import ListNotations.

Definition nzb (c : csr) (i j : nat) : bool := inb (c_entries c) (i, j).
Definition cols (c : csr) (i : nat) : list nat := map snd (rowf (c_entries c) i).

Definition gcsr (c : csr) : Prop := wf_csr c /\ csr_sorted c.

Lemma nzb_In c i j : nzb c i j = true <-> In (i, j) (c_entries c).
Proof. apply inb_In. Qed.

Lemma nzb_false c i j : nzb c i j = false <-> ~ In (i, j) (c_entries c).
Proof. apply inb_false. Qed.

Lemma cols_In c i j : In j (cols c i) <-> In (i, j) (c_entries c).
Proof.
  unfold cols. rewrite in_map_iff. split.
  - intros ([r q] & E & H). apply rowf_In in H. cbn in *. destruct H as [H E']. subst. auto.
  - intros H. exists (i, j). split; auto. apply rowf_In. auto.
Qed.

Lemma gcsr_NoDup c : gcsr c -> NoDup (c_entries c).
Proof. intros [W S']. apply csr_sorted_NoDup; auto. Qed.

Lemma cols_sorted c i : gcsr c -> StronglySorted lt (cols c i).
Proof. intros [_ H]. apply H. Qed.

Lemma cols_NoDup c i : gcsr c -> NoDup (cols c i).
Proof. intros H. apply StronglySorted_lt_NoDup, cols_sorted; auto. Qed.

Lemma cols_length c i : length (cols c i) = length (rowf (c_entries c) i).
Proof. apply map_length. Qed.

(** loop over the entries of one row *)
Lemma row_fold {St} (c : csr) (f : St -> nat -> res St) (P : list nat -> St -> Prop) i s :
  gcsr c -> i < c_rows c ->
  P [] s ->
  (forall pre j post k s, cols c i = pre ++ j :: post ->
     nth_error (c_entries c) k = Some (i, j) -> j < c_cols c ->
     (forall q, In q pre -> q < j) -> (forall q, In q post -> j < q) ->
     P pre s -> exists s', f s k = Ok s' /\ P (pre ++ [j]) s') ->
  exists s', foldM f (irange (offs (c_entries c) i) (offs (c_entries c) (i + 1))) s = Ok s' /\
    P (cols c i) s'.
Proof.
  intros G Hi H0 Hs. pose proof G as [W _]. set (es := c_entries c) in *.
  replace (i + 1) with (S i) by lia.
  destruct (foldM_irange f (fun k st => P (firstn (k - offs es i) (cols c i)) st)
     (offs es i) (offs es (S i)) s) as (s' & E & H).
  - apply offs_mono. lia.
  - rewrite Nat.sub_diag. exact H0.
  - intros k st Hk HP.
    destruct (rowf_irange c W i k Hi Hk) as (j & E1 & E2 & Hj). fold es in E1, E2.
    set (t := k - offs es i) in *.
    assert (Hc : nth_error (cols c i) t = Some j).
    { unfold cols. fold es. erewrite map_nth_error; eauto. reflexivity. }
    destruct (nth_error_split _ _ Hc) as (l1 & l2 & El & Hl1).
    assert (Ef : firstn t (cols c i) = l1).
    { rewrite El, <- Hl1, firstn_app, firstn_all, Nat.sub_diag. cbn. apply app_nil_r. }
    pose proof (cols_sorted c i G) as HS. rewrite El in HS.
    apply StronglySorted_app_inv in HS. destruct HS as (_ & HS2 & HS3).
    inversion HS2 as [|? ? _ HF]. subst a l. rewrite Forall_forall in HF.
    rewrite Ef in HP.
    destruct (Hs l1 j l2 k st El E1 Hj) as (s' & Es & HP'); auto.
    { intros q Hq. apply HS3; auto. left; auto. }
    exists s'. split; auto.
    replace (1 + k - offs es i) with (S t) by (unfold t; lia).
    replace (firstn (S t) (cols c i)) with (l1 ++ [j]); auto.
    rewrite El, <- Hl1. replace (S (length l1)) with (length (l1 ++ [j]) + 0)
      by (rewrite app_length; cbn; lia).
    replace (l1 ++ j :: l2) with ((l1 ++ [j]) ++ l2) by (rewrite <- app_assoc; auto).
    rewrite firstn_app_2. cbn. rewrite app_nil_r. auto.
  - exists s'. split; auto.
    replace (firstn (offs es (S i) - offs es i) (cols c i)) with (cols c i) in H; auto.
    rewrite offs_S, firstn_all2; auto. rewrite cols_length. fold es. lia.
Qed.

Section Dense.
  Context {F : Type} (O : ops F).

  Definition getL (c : csr) (L : list F) (i j : nat) : F :=
    match findEntryIndex (c_entries c) (i, j) with
    | Some k => nth k L (o0 O)
    | None => o0 O
    end.

  Definition getD (D : list F) (i : nat) : F := nth i D (o0 O).

  Definition subf (acc : F) (l : list nat) (nz : nat -> bool) (t : nat -> F) : F :=
    fold_left (fun a k => if nz k then osub O a (t k) else a) l acc.

  Lemma subf_snoc acc l nz t c :
    subf acc (l ++ [c]) nz t =
    if nz c then osub O (subf acc l nz t) (t c) else subf acc l nz t.
  Proof. unfold subf. rewrite fold_left_app. reflexivity. Qed.

  Lemma subf_ext acc l nz t nz' t' :
    (forall k, In k l -> nz k = nz' k) ->
    (forall k, In k l -> nz k = true -> t k = t' k) ->
    subf acc l nz t = subf acc l nz' t'.
  Proof.
    unfold subf. revert acc. induction l as [|k l IH]; intros acc H1 H2; [reflexivity|].
    cbn [fold_left]. rewrite <- (H1 k) by (left; auto). destruct (nz k) eqn:E.
    - rewrite (H2 k) by (auto; left; auto). apply IH; intros; [apply H1|apply H2]; auto; right; auto.
    - apply IH; intros; [apply H1|apply H2]; auto; right; auto.
  Qed.

  Lemma getL_out c L i j : ~ In (i, j) (c_entries c) -> getL c L i j = o0 O.
  Proof. intros H. unfold getL. apply findEntryIndex_None in H. rewrite H. auto. Qed.

  Lemma getL_at c L i j k :
    gcsr c -> nth_error (c_entries c) k = Some (i, j) -> getL c L i j = nth k L (o0 O).
  Proof.
    intros G H. unfold getL. rewrite (findEntryIndex_NoDup _ _ _ (gcsr_NoDup _ G) H). auto.
  Qed.

  Lemma nth_error_nnz c k (e : entry) :
    nth_error (c_entries c) k = Some e -> k < c_nnz c.
  Proof. intros H. apply nth_error_Some. unfold c_entries in H. congruence. Qed.

  Lemma rd_at c L i j k :
    gcsr c -> length L = c_nnz c -> nth_error (c_entries c) k = Some (i, j) ->
    rd L k = Ok (getL c L i j).
  Proof.
    intros G HL H. rewrite (getL_at _ _ _ _ _ G H). apply rd_nth.
    rewrite HL. eapply nth_error_nnz; eauto.
  Qed.

  Lemma getL_upd c L i j k v r q :
    gcsr c -> length L = c_nnz c -> nth_error (c_entries c) k = Some (i, j) ->
    getL c (upd L k v) r q = if (r =? i) && (q =? j) then v else getL c L r q.
  Proof.
    intros G HL H. pose proof (nth_error_nnz _ _ _ H) as Hk. rewrite <- HL in Hk.
    destruct (Nat.eqb_spec r i) as [->|N]; cbn [andb].
    - destruct (Nat.eqb_spec q j) as [->|N].
      + rewrite (getL_at _ _ _ _ _ G H). apply nth_upd_eq; auto.
      + unfold getL. destruct (findEntryIndex (c_entries c) (i, q)) as [k'|] eqn:E; auto.
        apply findEntryIndex_Some in E. destruct E as [E _].
        apply nth_upd_neq. intros ->. congruence.
    - unfold getL. destruct (findEntryIndex (c_entries c) (r, q)) as [k'|] eqn:E; auto.
      apply findEntryIndex_Some in E. destruct E as [E _].
      apply nth_upd_neq. intros ->. congruence.
  Qed.

  (** equal dense views give equal lists *)
  Lemma getL_ext c L1 L2 :
    gcsr c -> length L1 = c_nnz c -> length L2 = c_nnz c ->
    (forall i j, In (i, j) (c_entries c) -> getL c L1 i j = getL c L2 i j) -> L1 = L2.
  Proof.
    intros G H1 H2 H. apply (list_ext _ _ (o0 O)); [lia|]. intros k Hk.
    rewrite H1 in Hk. unfold c_nnz, nnz in Hk.
    destruct (nth_error (entries (csp c)) k) as [[i j]|] eqn:E.
    - rewrite <- (getL_at c L1 i j k G E), <- (getL_at c L2 i j k G E).
      apply H. eapply nth_error_In; eauto.
    - apply nth_error_None in E. lia.
  Qed.

  (** ** influenced lists *)

  Lemma influencedList_ok cs ct i c limit :
    gcsr cs -> gcsr ct -> limit <= c_rows cs ->
    (forall j, j < limit -> In (j, c) (c_entries cs) -> In (i, j) (c_entries ct)) ->
    exists lst, getInfluencedListLimit i c cs ct limit = Ok lst /\
      map (fun st => nth_error (c_entries cs) (fst st)) lst =
        map (fun j => Some (j, c)) (filter (fun j => nzb cs j c) (seq 0 limit)) /\
      map (fun st => nth_error (c_entries ct) (snd st)) lst =
        map (fun j => Some (i, j)) (filter (fun j => nzb cs j c) (seq 0 limit)).
  Proof.
    intros [Ws Ss] [Wt St] Hl Ht. unfold getInfluencedListLimit.
    set (f := fun acc k => _).
    destruct (foldM_seq f (fun m lst =>
      map (fun st => nth_error (c_entries cs) (fst st)) lst =
        map (fun j => Some (j, c)) (filter (fun j => nzb cs j c) (seq 0 m)) /\
      map (fun st => nth_error (c_entries ct) (snd st)) lst =
        map (fun j => Some (i, j)) (filter (fun j => nzb cs j c) (seq 0 m))) 0 limit [])
      as (lst & E & H1 & H2).
    - split; reflexivity.
    - intros k acc Hk (H1 & H2). unfold f.
      rewrite (wf_isNonZero cs Ws) by lia. cbn [bind].
      change (inb (c_entries cs) (k, c)) with (nzb cs k c).
      cbn [Nat.add]. rewrite seq_S, filter_app. cbn [Nat.add filter].
      destruct (nzb cs k c) eqn:Enz.
      + apply nzb_In in Enz. destruct (findEntryIndex_In _ _ Enz) as (ks & Eks).
        rewrite (wf_entryIndex cs Ws _ _ _ Eks). cbn [bind].
        assert (Hin : In (i, k) (c_entries ct)) by (apply Ht; auto; lia).
        destruct (findEntryIndex_In _ _ Hin) as (kt & Ekt).
        rewrite (wf_entryIndex ct Wt _ _ _ Ekt). cbn [bind].
        eexists. split; [reflexivity|]. rewrite !map_app. rewrite H1, H2.
        cbn [map fst snd].
        apply findEntryIndex_Some in Eks, Ekt.
        rewrite (proj1 Eks), (proj1 Ekt). auto.
      + exists acc. split; auto. rewrite !app_nil_r. auto.
    - exists lst. auto.
  Qed.

  Lemma applyInfluenced_ok src sc lst Lt Ls :
    (src = Some Ls \/ (src = None /\ Ls = Lt /\
       forall s t, In (s, t) lst -> ~ In s (map snd lst))) ->
    NoDup (map snd lst) ->
    (forall s t, In (s, t) lst -> s < length Ls /\ t < length Lt) ->
    exists Lt', applyInfluenced O src sc lst Lt = Ok Lt' /\ length Lt' = length Lt /\
      (forall s t, In (s, t) lst ->
         nth t Lt' (o0 O) = osub O (nth t Lt (o0 O)) (omul O (nth s Ls (o0 O)) sc)) /\
      (forall t, ~ In t (map snd lst) -> nth t Lt' (o0 O) = nth t Lt (o0 O)).
  Proof.
    intros Hsrc ND Hb. unfold applyInfluenced. set (f := fun Lc st => _).
    destruct (foldM_split f (fun p Lc => length Lc = length Lt /\
      (forall s t, In (s, t) p ->
         nth t Lc (o0 O) = osub O (nth t Lt (o0 O)) (omul O (nth s Ls (o0 O)) sc)) /\
      (forall t, ~ In t (map snd p) -> nth t Lc (o0 O) = nth t Lt (o0 O))) lst Lt)
      as (Lt' & E & H).
    - split; auto. split; auto. intros s t [].
    - intros p [s t] q Lc El (H1 & H2 & H3). unfold f. cbn [fst snd].
      assert (Hin : In (s, t) lst) by (rewrite El; apply in_or_app; right; left; auto).
      destruct (Hb s t Hin) as [Hs Ht].
      rewrite El, map_app in ND. cbn [map snd] in ND.
      assert (Hnt : ~ In t (map snd p)).
      { intros Hp. apply NoDup_remove_2 in ND. apply ND. apply in_or_app. auto. }
      rewrite (rd_nth Lc t (o0 O)) by lia. cbn [bind].
      assert (Er : rd (match src with Some Ls => Ls | None => Lc end) s =
                   Ok (nth s Ls (o0 O))).
      { destruct Hsrc as [->|(-> & -> & Hd)]; [apply rd_nth; auto|].
        rewrite (rd_nth Lc s (o0 O)) by lia. f_equal. apply H3.
        intros Hp. apply (Hd s t Hin). rewrite El, map_app. apply in_or_app. auto. }
      rewrite Er. cbn [bind]. rewrite wr_ok by lia. eexists. split; [reflexivity|].
      split; [rewrite upd_length; auto|]. split.
      + intros s' t' Hin'. apply in_app_or in Hin'. destruct Hin' as [Hin'|[E|[]]].
        * rewrite nth_upd_neq; auto. intros ->. apply Hnt.
          change t' with (snd (s', t')). apply in_map; auto.
        * injection E as <- <-. rewrite nth_upd_eq by lia. rewrite H3; auto.
      + intros t' Ht'. rewrite map_app in Ht'. cbn [map snd] in Ht'.
        rewrite nth_upd_neq.
        * apply H3. intros Hp. apply Ht', in_or_app. auto.
        * intros ->. apply Ht', in_or_app. right. left. auto.
    - exists Lt'. destruct H as (H1 & H2 & H3). auto.
  Qed.

  Lemma map_nth_error_NoDup {A} (es : list A) (ks : list nat) (l : list A) :
    map (nth_error es) ks = map Some l -> NoDup l -> NoDup ks.
  Proof.
    intros E ND. apply (NoDup_map_inv (nth_error es)). rewrite E.
    clear E. induction ND as [|a l Ha ND IH]; cbn [map]; constructor; auto.
    rewrite in_map_iff. intros (b & Eb & Hb). injection Eb as ->. auto.
  Qed.

  Lemma influence_ok cs ct i c limit src sc Ls Lt :
    gcsr cs -> gcsr ct -> limit <= c_rows cs ->
    (forall j, j < limit -> In (j, c) (c_entries cs) -> In (i, j) (c_entries ct)) ->
    length Lt = c_nnz ct -> length Ls = c_nnz cs ->
    (src = Some Ls \/ (src = None /\ Ls = Lt /\ cs = ct /\ limit <= i)) ->
    exists lst Lt', getInfluencedListLimit i c cs ct limit = Ok lst /\
      applyInfluenced O src sc lst Lt = Ok Lt' /\ length Lt' = length Lt /\
      (forall r j, In (r, j) (c_entries ct) ->
        getL ct Lt' r j =
        if (r =? i) && (j <? limit) && nzb cs j c
        then osub O (getL ct Lt r j) (omul O (getL cs Ls j c) sc)
        else getL ct Lt r j).
  Proof.
    intros Gs Gt Hl Ht HLt HLs Hsrc.
    destruct (influencedList_ok cs ct i c limit Gs Gt Hl Ht) as (lst & El & Em1 & Em2).
    exists lst. set (js := filter (fun j => nzb cs j c) (seq 0 limit)) in *.
    assert (Hjs : forall j, In j js <-> j < limit /\ nzb cs j c = true).
    { intros j. unfold js. rewrite filter_In, in_seq. cbn. intuition lia. }
    assert (A1 : forall s t, In (s, t) lst -> exists j, In j js /\
       nth_error (c_entries cs) s = Some (j, c)).
    { intros s t H. apply (in_map (fun st => nth_error (c_entries cs) (fst st))) in H.
      rewrite Em1 in H. apply in_map_iff in H. destruct H as (j & E & H). cbn in E. eauto. }
    assert (A2 : forall s t, In (s, t) lst -> exists j, In j js /\
       nth_error (c_entries ct) t = Some (i, j)).
    { intros s t H. apply (in_map (fun st => nth_error (c_entries ct) (snd st))) in H.
      rewrite Em2 in H. apply in_map_iff in H. destruct H as (j & E & H). cbn in E. eauto. }
    assert (A3 : forall j, In j js -> exists s t, In (s, t) lst /\
       nth_error (c_entries cs) s = Some (j, c) /\ nth_error (c_entries ct) t = Some (i, j)).
    { clear -Em1 Em2. revert Em1 Em2. generalize js. clear js.
      induction lst as [|[s t] lst IH]; intros [|j js] E1 E2; cbn [map] in *;
        try discriminate; [intros ? []|].
      injection E1 as E1 E1'. injection E2 as E2 E2'. cbn [fst snd] in *.
      intros j' [<-|Hj].
      - exists s, t. split; [left; auto|]. auto.
      - destruct (IH js E1' E2' j' Hj) as (s' & t' & H & H'). exists s', t'.
        split; [right; auto|auto]. }
    assert (NDt : NoDup (map snd lst)).
    { apply (map_nth_error_NoDup (c_entries ct) _ (map (fun j => (i, j)) js)).
      - rewrite !map_map. exact Em2.
      - apply FinFun.Injective_map_NoDup.
        + intros a b E. congruence.
        + unfold js. apply NoDup_filter, seq_NoDup. }
    destruct (applyInfluenced_ok src sc lst Lt Ls) as (Lt' & E & HL & H1 & H2); auto.
    { destruct Hsrc as [Hsrc|(-> & -> & -> & Hli)]; [left; auto|right].
      split; auto. split; auto. intros s t Hin Hs. apply in_map_iff in Hs.
      destruct Hs as ([s' t'] & E & Hs). cbn in E. subst t'.
      destruct (A1 s t Hin) as (j & Hj & E1). destruct (A2 s' s Hs) as (j' & Hj' & E2).
      apply Hjs in Hj. rewrite E1 in E2. injection E2 as E2 E3. lia. }
    { intros s t Hin. rewrite HLt, HLs.
      destruct (A1 s t Hin) as (j & Hj & E1). destruct (A2 s t Hin) as (j' & Hj' & E2).
      split; eapply nth_error_nnz; eauto. }
    exists Lt'. split; auto. split; auto. split; auto.
    intros r j Hin.
    destruct (findEntryIndex_In _ _ Hin) as (t & Et). apply findEntryIndex_Some in Et.
    destruct Et as [Et _]. rewrite !(getL_at ct _ r j t Gt Et).
    destruct ((r =? i) && (j <? limit) && nzb cs j c) eqn:Eb.
    - apply andb_true_iff in Eb. destruct Eb as [Eb Enz].
      apply andb_true_iff in Eb. destruct Eb as [Er Ej].
      apply Nat.eqb_eq in Er. apply Nat.ltb_lt in Ej. subst r.
      destruct (A3 j) as (s & t' & Hst & Es & Et'); [apply Hjs; auto|].
      assert (t' = t).
      { pose proof (findEntryIndex_NoDup _ _ _ (gcsr_NoDup _ Gt) Et').
        pose proof (findEntryIndex_NoDup _ _ _ (gcsr_NoDup _ Gt) Et). congruence. }
      subst t'. rewrite (H1 s t Hst). rewrite (getL_at cs Ls j c s Gs Es). auto.
    - apply H2. intros Ht'. apply in_map_iff in Ht'. destruct Ht' as ([s t'] & E' & Hst).
      cbn in E'. subst t'. destruct (A2 s t Hst) as (j' & Hj' & E2).
      rewrite Et in E2. injection E2 as -> ->. apply Hjs in Hj'.
      destruct Hj' as [Hj1 Hj2]. apply Nat.ltb_lt in Hj1.
      rewrite Nat.eqb_refl, Hj1, Hj2 in Eb. discriminate.
  Qed.
End Dense.
