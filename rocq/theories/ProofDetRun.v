(** The pivots of a run without regularization and the leading minors of the matrix. *)
From Coq Require Import List Arith Lia Bool Ring Permutation Sorted.
From Verif Require Import ModelNumeric SpecNumeric SpecDet ProofExact ProofLdl ProofSingle ProofArrowSub ProofChain
  ProofAgree ProofDet.
Import ListNotations.

Section Run.
  Context {F : Type} (O : ops F) (FL : fieldLaws O).
  Local Notation "0" := (o0 O) : scalar.
  Local Notation "a + b" := (oadd O a b) : scalar.
  Local Notation "a - b" := (osub O a b) : scalar.
  Local Notation "a * b" := (omul O a b) : scalar.
  Local Notation one := (fl_one FL).
  Add Ring FrDR : (fl_ring FL).

  Lemma subl_sum {I} (l : list I) f : forall a, subl O a l f = (a - suml O l f)%s.
  Proof.
    induction l as [|k l IH]; intros a; unfold suml; cbn [fold_right].
    - cbn. ring.
    - change (subl O a (k :: l) f) with (subl O (a - f k)%s l f). rewrite IH. unfold suml. ring.
  Qed.

  Context {I : Type} (dec : forall a b : I, {a = b} + {a <> b}) (all : list I).
  Context (big : I -> list I) (rank : I -> nat).
  Context (BR : forall g k, In g all -> In k (big g) <-> In k all /\ rank k < rank g).
  Context (NB : forall g, In g all -> NoDup (big g)).
  Context (ND : NoDup all) (Inj : forall g h, In g all -> In h all -> rank g = rank h -> g = h).
  Context (fm : bool -> I -> I -> tform) (row : I -> list I) (A L S : I -> I -> F) (D : I -> F).
  Context (G : goodRun O dec all big row A L) (C : chainedF O dec all row fm A L S D (fun v _ => v)).
  Local Notation sum := (suml O all).

  Lemma suml_sub l f : NoDup l -> incl l all -> (forall k, In k all -> ~ In k l -> f k = 0%s) ->
    sum f = suml O l f.
  Proof.
    intros N H Z.
    transitivity (suml O (filter (fun k => memI dec k l) all) f).
    - unfold suml. clear -Z FL. induction all as [|k a IH]; [reflexivity|]. cbn [filter fold_right].
      destruct (memI dec k l) eqn:E; cbn [fold_right].
      + rewrite IH; auto. intros; apply Z; auto. right; auto.
      + rewrite IH by (intros; apply Z; auto; right; auto). rewrite Z; [ring|left; auto|].
        intros Hk. apply (memI_In dec) in Hk. congruence.
    - apply (suml_perm O FL), NoDup_Permutation; auto.
      + apply NoDup_filter; auto.
      + intros k. rewrite filter_In, (memI_In dec). split; [tauto|]. auto.
  Qed.

  Lemma row_in g k : In g all -> In k (row g) -> In k all /\ rank k < rank g.
  Proof. intros Hg Hk. apply BR; auto. eapply row_big; eauto. Qed.
  Lemma row_nodup g : In g all -> NoDup (row g).
  Proof. intros Hg. rewrite (gr_sub _ _ _ _ _ _ _ G g Hg). apply NoDup_filter; auto. Qed.

  Lemma run_entry g k : In g all -> In k (row g) -> D k <> 0%s -> (L g k * D k)%s = S g k.
  Proof.
    intros Hg Hk Nz. destruct (cf_row _ _ _ _ _ _ _ _ _ _ C g k Hg Hk) as [_ E]. rewrite E.
    apply (fl_div FL); auto.
  Qed.

  Lemma run_term dg g h k x : In g all -> In k (row g) -> D k <> 0%s ->
    isTermF O fm dg L S D g h k x -> x = (L g k * D k * L h k)%s.
  Proof.
    intros Hg Hk Nz ->. pose proof (run_entry g k Hg Hk Nz) as E.
    destruct (fm dg g k); cbn [termF]; rewrite <- ?E; ring.
  Qed.

  Definition unit (g h : I) : F := if dec g h then one else L g h.

  Lemma unit_high g h : In g all -> In h all -> rank g < rank h -> unit g h = 0%s.
  Proof.
    intros Hg Hh Lt. unfold unit. destruct (dec g h) as [->|N]; [lia|].
    apply (gr_L _ _ _ _ _ _ _ G); auto. intros H. apply row_in in H; auto. lia.
  Qed.

  Lemma run_identity g h : In g all -> In h all -> rank h <= rank g ->
    (forall k, In k all -> rank k < rank g -> rank k <= rank h -> D k <> 0%s) ->
    sum (fun k => unit g k * D k * unit h k)%s = A g h.
  Proof.
    intros Hg Hh Le Nz. destruct (dec g h) as [<-|N].
    - destruct (cf_D _ _ _ _ _ _ _ _ _ _ C g Hg) as (s & RD & E).
      assert (R : s = (A g g - suml O (row g) (fun k => L g k * D k * L g k))%s).
      { rewrite <- subl_sum. apply reduces_det. eapply reduces_impl; [|exact RD].
        intros k x Hk. destruct (row_in g k Hg Hk). apply run_term; auto. apply Nz; auto; lia. }
      assert (Gn : ~ In g (row g)) by (intros H; apply row_in in H; auto; lia).
      rewrite (suml_sub (g :: row g)).
      + unfold suml. cbn [fold_right]. fold (suml O (row g) (fun k => unit g k * D k * unit g k)%s).
        rewrite (suml_ext O (row g) _ (fun k => L g k * D k * L g k)%s).
        * unfold unit. destruct (dec g g); [|congruence]. cbv beta in E. rewrite E, R. ring.
        * intros k Hk. unfold unit. destruct (dec g k) as [<-|]; [contradiction|]. auto.
      + constructor; auto. apply row_nodup; auto.
      + intros k [<-|Hk]; auto. apply row_in in Hk; tauto.
      + intros k Hk Nk. unfold unit. destruct (dec g k) as [<-|]; [destruct Nk; left; auto|].
        rewrite (gr_L _ _ _ _ _ _ _ G g k); auto; [ring|]. intros H. apply Nk. right; auto.
    - assert (Lt : rank h < rank g).
      { destruct (Nat.eq_dec (rank g) (rank h)) as [E|]; [apply Inj in E; auto; contradiction|lia]. }
      destruct (in_dec dec h (row g)) as [Hr|Hr].
      + destruct (cf_row _ _ _ _ _ _ _ _ _ _ C g h Hg Hr) as [RD _].
        assert (R : S g h = (A g h - suml O (common dec row g h) (fun k => L g k * D k * L h k))%s).
        { rewrite <- subl_sum. apply reduces_det. eapply reduces_impl; [|exact RD].
          intros k x Hk. apply common_In in Hk. destruct Hk as [K1 K2].
          destruct (row_in g k Hg K1), (row_in h k Hh K2). apply run_term; auto. apply Nz; auto; lia. }
        rewrite <- run_entry in R by (auto; apply Nz; auto).
        assert (Hn : ~ In h (common dec row g h)).
        { intros H. apply common_In in H. destruct H as [_ H]. apply row_in in H; auto. lia. }
        rewrite (suml_sub (h :: common dec row g h)).
        * unfold suml. cbn [fold_right]. fold (suml O (common dec row g h) (fun k => unit g k * D k * unit h k)%s).
          rewrite (suml_ext O (common dec row g h) _ (fun k => L g k * D k * L h k)%s).
          -- unfold unit. destruct (dec g h); [contradiction|]. destruct (dec h h); [|congruence].
             transitivity (L g h * D h + suml O (common dec row g h) (fun k => L g k * D k * L h k))%s; [ring|].
             rewrite R. ring.
          -- intros k Hk. apply common_In in Hk. destruct Hk as [K1 K2]. unfold unit.
             destruct (dec g k) as [<-|]; [apply row_in in K1; auto; lia|].
             destruct (dec h k) as [<-|]; [apply row_in in K2; auto; lia|]. auto.
        * constructor; auto. unfold common. apply NoDup_filter, row_nodup; auto.
        * intros k [<-|Hk]; auto. apply common_In in Hk. destruct Hk as [Hk _]. apply row_in in Hk; tauto.
        * intros k Hk Nk. unfold unit at 2. destruct (dec h k) as [<-|N2]; [destruct Nk; left; auto|].
          unfold unit. destruct (dec g k) as [<-|N1].
          -- rewrite (gr_L _ _ _ _ _ _ _ G h g); auto; [ring|]. intros H. apply row_in in H; auto. lia.
          -- destruct (in_dec dec k (row g)) as [H1|H1]; [|rewrite (gr_L _ _ _ _ _ _ _ G g k); auto; ring].
             destruct (in_dec dec k (row h)) as [H2|H2]; [|rewrite (gr_L _ _ _ _ _ _ _ G h k); auto; ring].
             destruct Nk. right. apply common_In. auto.
      + rewrite (gr_A _ _ _ _ _ _ _ G g h) by (auto; apply BR; auto).
        apply (suml_0 O FL). intros k Hk. unfold unit. destruct (dec g k) as [<-|N1].
        * destruct (dec h g) as [->|N2]; [lia|].
          rewrite (gr_L _ _ _ _ _ _ _ G h g); auto; [ring|]. intros H. apply row_in in H; auto. lia.
        * destruct (dec h k) as [<-|N2].
          -- rewrite (gr_L _ _ _ _ _ _ _ G g h); auto. ring.
          -- destruct (in_dec dec k (row g)) as [H1|H1]; [|rewrite (gr_L _ _ _ _ _ _ _ G g k); auto; ring].
             destruct (in_dec dec k (row h)) as [H2|H2]; [|rewrite (gr_L _ _ _ _ _ _ _ G h k); auto; ring].
             destruct Hr. apply (gr_closed _ _ _ _ _ _ _ G g h k); auto. apply BR; auto.
  Qed.

  (** ** in the order of elimination *)
  Context (d : I) (SO : StronglySorted (fun g h => rank g < rank h) all).
  Context (AS : forall g h, In g all -> In h all -> A g h = A h g).

  Lemma sorted_nth l : StronglySorted (fun g h => rank g < rank h) l ->
    forall i j, i < j -> j < length l -> rank (nth i l d) < rank (nth j l d).
  Proof.
    induction 1 as [|a l S1 IH FA]; intros i j Hi Hj; cbn [length] in *; [lia|].
    destruct j as [|j]; [lia|]. destruct i as [|i]; cbn [nth].
    - rewrite Forall_forall in FA. apply FA, nth_In. lia.
    - apply IH; lia.
  Qed.

  Lemma suml_nth l f : suml O l f = sumn O (length l) (fun i => f (nth i l d)).
  Proof.
    rewrite <- (suml_seq O FL), <- (suml_map O (fun i => nth i l d)). f_equal.
    clear. induction l as [|a l IH]; [reflexivity|]. cbn [length seq map nth]. f_equal.
    rewrite <- seq_shift, map_map. auto.
  Qed.

  Theorem run_minor m : m <= length all ->
    (forall i, Datatypes.S i < m -> D (nth i all d) <> 0%s) ->
    detOf O one d (firstn m all) A = prodOf O one d (firstn m all) D.
  Proof.
    intros Hm Nz. unfold detOf, prodOf. rewrite firstn_length, Nat.min_l by auto.
    assert (FN : forall i, i < m -> nth i (firstn m all) d = nth i all d).
    { intros i Hi. rewrite <- (firstn_skipn m all) at 2. rewrite app_nth1; auto.
      rewrite firstn_length. lia. }
    assert (IN : forall i, i < m -> In (nth i all d) all) by (intros; apply nth_In; lia).
    assert (RK : forall i j, i < m -> j < m -> i < j -> rank (nth i all d) < rank (nth j all d)).
    { intros. apply sorted_nth; auto. lia. }
    assert (RI : forall i j, i < m -> j < m -> rank (nth i all d) < rank (nth j all d) -> i < j).
    { intros i j Hi Hj Lt. destruct (lt_eq_lt_dec i j) as [[H|H]|H]; auto; [subst; lia|].
      apply RK in H; auto. lia. }
    rewrite (det_ext O FL m _ (fun i j => A (nth i all d) (nth j all d))) by (intros; rewrite !FN; auto).
    rewrite (prodn_ext O FL m _ (fun i => D (nth i all d))) by (intros; rewrite FN; auto).
    apply (det_ldl O FL m (fun i k => unit (nth i all d) (nth k all d))).
    - intros i Hi. unfold unit. destruct (dec (nth i all d) (nth i all d)); congruence.
    - intros i k Hi Hk. apply unit_high; auto; try apply IN; lia || (apply RK; lia).
    - assert (K : forall i j, i < m -> j <= i ->
        sumn O m (fun k => unit (nth i all d) (nth k all d) * D (nth k all d) * unit (nth j all d) (nth k all d))%s =
        A (nth i all d) (nth j all d)).
      { intros i j Hi Hj.
        assert (Le : rank (nth j all d) <= rank (nth i all d)).
        { destruct (Nat.eq_dec i j) as [->|]; auto. apply Nat.lt_le_incl, RK; lia. }
        rewrite <- run_identity; try apply IN; try lia.
        - rewrite suml_nth. symmetry. apply (sumn_le O FL); auto. intros k H1 H2.
          rewrite (unit_high (nth i all d) (nth k all d)); [ring| |apply nth_In; auto|].
          + apply IN; auto.
          + apply sorted_nth; auto. lia.
        - intros k Hk L1 L2. destruct (In_nth all k d Hk) as (x & Hx & <-). apply Nz.
          assert (x < m).
          { destruct (Nat.lt_ge_cases x m); auto.
            pose proof (sorted_nth all SO i x ltac:(lia) Hx). lia. }
          apply RI in L1; auto. lia. }
      intros i j Hi Hj. destruct (Nat.le_gt_cases j i) as [H|H]; [apply K; auto|].
      rewrite (AS (nth i all d) (nth j all d)) by (apply IN; auto). rewrite <- (K j i) by lia.
      apply (sumn_ext O). intros k Hk. ring.
  Qed.

  Lemma prodOf_firstn m f : m < length all ->
    prodOf O one d (firstn (Datatypes.S m) all) f = (prodOf O one d (firstn m all) f * f (nth m all d))%s.
  Proof.
    intros Hm. unfold prodOf. rewrite !firstn_length, !Nat.min_l by lia. cbn [prodn].
    assert (FN : forall m i, i < m -> m <= length all -> nth i (firstn m all) d = nth i all d).
    { intros m' i Hi Hm'. rewrite <- (firstn_skipn m' all) at 2. rewrite app_nth1; auto.
      rewrite firstn_length. lia. }
    rewrite (FN (Datatypes.S m) m) by lia. f_equal. apply (prodn_ext O FL). intros i Hi. rewrite !FN by lia. auto.
  Qed.

  (** the pivots are quotients of leading minors *)
  Theorem run_pivot m : m < length all ->
    (forall i, i < m -> D (nth i all d) <> 0%s) ->
    (D (nth m all d) * detOf O one d (firstn m all) A)%s = detOf O one d (firstn (Datatypes.S m) all) A.
  Proof.
    intros Hm Nz. rewrite !run_minor by (auto; try lia; intros; apply Nz; lia).
    rewrite prodOf_firstn by auto. ring.
  Qed.

  (** no pivot is zero exactly if no leading minor is zero *)
  Theorem run_nonzero :
    (forall g, In g all -> D g <> 0%s) <->
    (forall m, m <= length all -> detOf O one d (firstn m all) A <> 0%s).
  Proof.
    split.
    - intros H m Hm. rewrite run_minor by (auto; intros; apply H, nth_In; lia).
      apply (prodn_nonzero O FL). intros i Hi. rewrite firstn_length in Hi. apply H.
      assert (X : forall x, In x (firstn m all) -> In x all).
      { intros x Hx. rewrite <- (firstn_skipn m all). apply in_or_app. auto. }
      apply X, nth_In. rewrite firstn_length. auto.
    - intros H.
      assert (K : forall m, m < length all -> D (nth m all d) <> 0%s).
      { induction m as [m IH] using lt_wf_ind. intros Hm E.
        assert (X : detOf O one d (firstn (Datatypes.S m) all) A <> 0%s) by (apply H; lia).
        apply X. rewrite <- run_pivot by (auto; intros; apply IH; lia). rewrite E. ring. }
      intros g Hg. destruct (In_nth all g d Hg) as (i & Hi & <-). auto.
  Qed.
End Run.
