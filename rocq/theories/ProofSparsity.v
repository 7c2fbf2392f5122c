(** Lemmas about derived sparsities (lower triangle, permuted) and the subset
    test. *)
From Coq Require Import List Arith Lia Bool Permutation.
From Verif Require Import Base ModelPerm ModelSparsity ProofBase ProofPerm ProofCsr.
Import ListNotations.

Notation "p ! i" := (nth i p 0) (at level 9, format "p ! i").

Lemma NoDup_map_in {A B} (f : A -> B) l :
  (forall a b, In a l -> In b l -> f a = f b -> a = b) ->
  NoDup l -> NoDup (map f l).
Proof.
  intros Hi ND. induction ND as [|a l Ha ND IH]; cbn [map]; constructor.
  - intros Hin. apply in_map_iff in Hin. destruct Hin as (b & E & Hb).
    apply Ha. rewrite <- (Hi b a); auto; [right|left]; auto.
  - apply IH. intros x y Hx Hy. apply Hi; right; auto.
Qed.

(** ** lower triangle *)

Lemma lowerTriangle_ok s p :
  wf_sp s -> nrows s = ncols s -> isPerm (nrows s) p ->
  exists s', getSparsityDynamicLowerTriangle s p = Ok s' /\
    nrows s' = nrows s /\ ncols s' = nrows s /\ wf_sp s' /\
    (forall i j, In (i, j) (entries s') <->
       j < i /\ i < nrows s /\
       In (Nat.max p!i p!j, Nat.min p!i p!j) (entries s)) /\
    (NoDup (entries s) -> NoDup (entries s')).
Proof.
  intros Hw Hsq Hp. unfold getSparsityDynamicLowerTriangle, getEntriesLowerTriangle.
  assert (Es : isSquare s = true) by (apply Nat.eqb_eq; auto).
  rewrite Es. cbn [pre bind].
  destruct (invert_ok _ _ Hp) as (q & Eq & Hq & Hpq & Hqp).
  rewrite Eq. cbn [bind].
  set (low := filter _ (entries s)).
  assert (Hlow : forall r c, In (r, c) low <-> In (r, c) (entries s) /\ c < r).
  { intros r c. unfold low. rewrite filter_In, Nat.ltb_lt. tauto. }
  assert (Hb : forall r c, In (r, c) low -> r < nrows s /\ c < nrows s).
  { intros r c Hin. apply Hlow in Hin. destruct Hin as [Hin _].
    apply Hw in Hin. lia. }
  set (g := fun e : entry => (Nat.max q!(fst e) q!(snd e), Nat.min q!(fst e) q!(snd e))).
  rewrite (mapM_ok _ g).
  2:{ intros [r c] Hin. apply Hb in Hin.
      apply (permutedEntryLT_ok (nrows s)); tauto. }
  cbn [bind].
  assert (Hqne : forall r c, r < nrows s -> c < nrows s -> c < r -> q!r <> q!c).
  { intros r c Hr Hc Hrc E. apply (isPerm_inj _ _ _ _ Hq) in E; lia. }
  assert (HB : inBoundsP (nrows s) (ncols s) (map g low)).
  { intros r c Hin. apply in_map_iff in Hin. destruct Hin as ([r' c'] & E & Hin).
    apply Hb in Hin as Hb'. unfold g in E. cbn [fst snd] in E.
    injection E as <- <-.
    pose proof (isPerm_lt _ _ r' Hq ltac:(lia)).
    pose proof (isPerm_lt _ _ c' Hq ltac:(lia)). lia. }
  rewrite mkSparsity_ok by auto. eexists. split; [reflexivity|]. cbn.
  split; [auto|]. split; [auto|]. split; [exact HB|]. split.
  - intros i j. rewrite in_map_iff. split.
    + intros ([r c] & E & Hin). unfold g in E. cbn [fst snd] in E.
      pose proof (Hb _ _ Hin) as [Hr Hc]. apply Hlow in Hin.
      destruct Hin as [Hin Hlt].
      pose proof (Hqne r c Hr Hc Hlt) as Hne.
      pose proof (isPerm_lt _ _ r Hq Hr). pose proof (isPerm_lt _ _ c Hq Hc).
      injection E as <- <-.
      split; [lia|]. split; [lia|].
      destruct (Nat.le_gt_cases q!r q!c) as [L|L].
      * rewrite (Nat.max_r q!r), (Nat.min_l q!r) by lia. rewrite !Hqp by auto.
        rewrite Nat.max_r, Nat.min_l by lia. auto.
      * rewrite (Nat.max_l q!r), (Nat.min_r q!r) by lia. rewrite !Hqp by auto.
        rewrite Nat.max_l, Nat.min_r by lia. auto.
    + intros (Hji & Hi & Hin).
      assert (Hne : p!i <> p!j).
      { intros E. apply (isPerm_inj _ _ _ _ Hp) in E; lia. }
      exists (Nat.max p!i p!j, Nat.min p!i p!j). split.
      * unfold g. cbn [fst snd].
        destruct (Nat.le_gt_cases p!i p!j) as [L|L].
        -- rewrite (Nat.max_r p!i), (Nat.min_l p!i) by lia. rewrite !Hpq by lia.
           f_equal; lia.
        -- rewrite (Nat.max_l p!i), (Nat.min_r p!i) by lia. rewrite !Hpq by lia.
           f_equal; lia.
      * apply Hlow. split; auto. lia.
  - intros ND. apply (NoDup_map_in g).
    2:{ apply NoDup_filter; auto. }
    intros [r c] [r' c'] Hin Hin' E.
    pose proof (Hb _ _ Hin) as [Hr Hc]. pose proof (Hb _ _ Hin') as [Hr' Hc'].
    apply Hlow in Hin, Hin'. unfold g in E. cbn [fst snd] in E.
    injection E as E1 E2.
    assert (D : (q!r = q!r' /\ q!c = q!c') \/ (q!r = q!c' /\ q!c = q!r')) by lia.
    destruct D as [[D1 D2]|[D1 D2]]; apply (isPerm_inj _ _ _ _ Hq) in D1, D2; auto;
      subst; auto; lia.
Qed.

Lemma lowerTriangle_iota s :
  wf_sp s -> nrows s = ncols s ->
  exists s', getSparsityDynamicLowerTriangle s (iota_perm (nrows s)) = Ok s' /\
    nrows s' = nrows s /\ ncols s' = nrows s /\ wf_sp s' /\
    (forall i j, In (i, j) (entries s') <-> j < i /\ In (i, j) (entries s)) /\
    (NoDup (entries s) -> NoDup (entries s')).
Proof.
  intros Hw Hsq.
  destruct (lowerTriangle_ok s _ Hw Hsq (isPerm_iota _))
    as (s' & E & H1 & H2 & H3 & H4 & H5).
  exists s'. repeat (split; [assumption|]). split; auto.
  intros i j. rewrite H4. split.
  - intros (Hji & Hi & Hin). rewrite !iota_nth, Nat.max_l, Nat.min_r in Hin by lia.
    auto.
  - intros (Hji & Hin). pose proof (Hw _ _ Hin). split; [auto|]. split; [lia|].
    rewrite !iota_nth, Nat.max_l, Nat.min_r by lia. auto.
Qed.

(** ** permuted *)

Lemma permuted_ok s prow pcol :
  wf_sp s -> isPerm (nrows s) prow -> isPerm (ncols s) pcol ->
  exists s', getSparsityDynamicPermuted s prow pcol = Ok s' /\
    nrows s' = nrows s /\ ncols s' = ncols s /\ wf_sp s' /\
    (forall i j, In (i, j) (entries s') <->
       i < nrows s /\ j < ncols s /\ In (prow!i, pcol!j) (entries s)) /\
    (NoDup (entries s) -> NoDup (entries s')).
Proof.
  intros Hw Hp1 Hp2. unfold getSparsityDynamicPermuted, getEntriesPermuted.
  destruct (invert_ok _ _ Hp1) as (q1 & Eq1 & Hq1 & Hpq1 & Hqp1).
  destruct (invert_ok _ _ Hp2) as (q2 & Eq2 & Hq2 & Hpq2 & Hqp2).
  rewrite Eq1. cbn [bind]. rewrite Eq2. cbn [bind].
  set (g := fun e : entry => (q1!(fst e), q2!(snd e))).
  rewrite (mapM_ok _ g).
  2:{ intros [r c] Hin. apply Hw in Hin.
      apply (permutedEntry_ok (nrows s) (ncols s)); tauto. }
  cbn [bind].
  assert (HB : inBoundsP (nrows s) (ncols s) (map g (entries s))).
  { intros r c Hin. apply in_map_iff in Hin. destruct Hin as ([r' c'] & E & Hin).
    apply Hw in Hin. unfold g in E. cbn [fst snd] in E. injection E as <- <-.
    split; apply isPerm_lt; tauto. }
  rewrite mkSparsity_ok by auto. eexists. split; [reflexivity|]. cbn.
  split; [auto|]. split; [auto|]. split; [exact HB|]. split.
  - intros i j. rewrite in_map_iff. split.
    + intros ([r c] & E & Hin). unfold g in E. cbn [fst snd] in E.
      pose proof (Hw _ _ Hin) as [Hr Hc]. injection E as <- <-.
      split; [apply isPerm_lt; auto|]. split; [apply isPerm_lt; auto|].
      rewrite Hqp1, Hqp2; auto.
    + intros (Hi & Hj & Hin). exists (prow!i, pcol!j). split; auto.
      unfold g. cbn [fst snd]. rewrite Hpq1, Hpq2; auto.
  - intros ND. apply (NoDup_map_in g); auto.
    intros [r c] [r' c'] Hin Hin' E.
    pose proof (Hw _ _ Hin) as [Hr Hc]. pose proof (Hw _ _ Hin') as [Hr' Hc'].
    unfold g in E. cbn [fst snd] in E. injection E as E1 E2.
    apply (isPerm_inj _ _ _ _ Hq1) in E1; auto.
    apply (isPerm_inj _ _ _ _ Hq2) in E2; auto. 
Qed.

Lemma permuted_iota s :
  wf_sp s ->
  exists s', getSparsityDynamicPermuted s (iota_perm (nrows s)) (iota_perm (ncols s))
             = Ok s' /\
    nrows s' = nrows s /\ ncols s' = ncols s /\ wf_sp s' /\
    (forall i j, In (i, j) (entries s') <-> In (i, j) (entries s)) /\
    (NoDup (entries s) -> NoDup (entries s')).
Proof.
  intros Hw.
  destruct (permuted_ok s _ _ Hw (isPerm_iota _) (isPerm_iota _))
    as (s' & E & H1 & H2 & H3 & H4 & H5).
  exists s'. repeat (split; [assumption|]). split; auto.
  intros i j. rewrite H4. split.
  - intros (Hi & Hj & Hin). rewrite !iota_nth in Hin by auto. auto.
  - intros Hin. pose proof (Hw _ _ Hin). rewrite !iota_nth by tauto. tauto.
Qed.

(** ** subset test *)

Lemma mark_ok (row : list entry) v m :
  (forall e, In e row -> snd e < length m) ->
  exists m', foldM (fun m e => wr m (snd e) v) row m = Ok m' /\
    length m' = length m /\
    (forall j, nth j m' false =
       if existsb (fun e => snd e =? j) row then v else nth j m false).
Proof.
  intros H.
  destruct (foldM_split (fun m e => wr m (snd e) v)
    (fun p m' => length m' = length m /\
       forall j, nth j m' false =
         if existsb (fun e => snd e =? j) p then v else nth j m false)
    row m) as (m' & E & Hl & Hn).
  - split; auto.
  - intros p e q m1 Eq (Hl & Hn).
    assert (He : snd e < length m1).
    { rewrite Hl. apply H. rewrite Eq. apply in_or_app. right; left; auto. }
    rewrite wr_ok by auto. eexists. split; [reflexivity|].
    rewrite upd_length. split; auto. intros j.
    rewrite nth_upd by auto. rewrite existsb_app. cbn [existsb].
    rewrite orb_false_r, Hn.
    destruct (snd e =? j), (existsb (fun e0 => snd e0 =? j) p); auto.
  - exists m'. auto.
Qed.

Lemma existsb_row es i j :
  existsb (fun e => snd e =? j) (rowf es i) = inb es (i, j).
Proof.
  apply eq_iff_eq_true. rewrite existsb_exists, inb_In. split.
  - intros ([r c] & Hin & E). apply Nat.eqb_eq in E. cbn in E. subst c.
    apply rowf_In in Hin. cbn in Hin. destruct Hin as [Hin ->]. auto.
  - intros Hin. exists (i, j). cbn. rewrite Nat.eqb_refl. split; auto.
    apply rowf_In. auto.
Qed.

Lemma subset_rows_ok lhs rhs rows m :
  wf_csr lhs -> wf_csr rhs -> c_rows lhs = c_rows rhs -> c_cols lhs = c_cols rhs ->
  (forall r, In r rows -> r < c_rows lhs) ->
  length m = c_cols lhs -> (forall j, nth j m false = false) ->
  subset_rows lhs rhs rows m =
  Ok (forallb (fun r => forallb (inb (c_entries rhs)) (rowf (c_entries lhs) r)) rows).
Proof.
  intros Wl Wr Er Ec. revert m; induction rows as [|r rows IH]; intros m Hr Hl Hm;
    [reflexivity|].
  cbn [subset_rows forallb].
  assert (Hrl : r < c_rows lhs) by (apply Hr; left; auto).
  rewrite (wf_rowView rhs Wr) by lia. cbn [bind].
  destruct (mark_ok (rowf (c_entries rhs) r) true m) as (m1 & E1 & Hl1 & Hm1).
  { intros [r' c] Hin. apply rowf_In in Hin. destruct Hin as [Hin _].
    apply (wfc_bounds rhs Wr) in Hin. cbn. lia. }
  rewrite E1. cbn [bind].
  rewrite (wf_rowView lhs Wl) by auto. cbn [bind].
  rewrite (forallM_ok _ (inb (c_entries rhs))).
  2:{ intros [r' c] Hin. apply rowf_In in Hin. cbn [fst snd] in *.
      destruct Hin as [Hin ->].
      apply (wfc_bounds lhs Wl) in Hin.
      rewrite (rd_nth _ _ false) by lia. f_equal.
      rewrite Hm1, existsb_row, Hm.
      destruct (inb (c_entries rhs) (r, c)); auto. }
  cbn [bind].
  destruct (forallb (inb (c_entries rhs)) (rowf (c_entries lhs) r)); cbn [andb]; auto.
  destruct (mark_ok (rowf (c_entries rhs) r) false m1) as (m2 & E2 & Hl2 & Hm2).
  { intros [r' c] Hin. apply rowf_In in Hin. destruct Hin as [Hin _].
    apply (wfc_bounds rhs Wr) in Hin. cbn. lia. }
  rewrite E2. cbn [bind]. apply IH.
  - intros; apply Hr; right; auto.
  - lia.
  - intros j. rewrite Hm2, Hm1, Hm.
    destruct (existsb (fun e => snd e =? j) (rowf (c_entries rhs) r)); auto.
Qed.

Lemma isSparsitySubset_perm_ok lhs rhs prow pcol :
  wf_sp lhs -> wf_sp rhs -> nrows lhs = nrows rhs -> ncols lhs = ncols rhs ->
  isPerm (nrows lhs) (value_or prow (iota_perm (nrows lhs))) ->
  isPerm (ncols lhs) (value_or pcol (iota_perm (ncols lhs))) ->
  exists b, isSparsitySubset lhs rhs prow pcol = Ok b /\
    (b = true <->
     forall i j, i < nrows lhs -> j < ncols lhs ->
       In ((value_or prow (iota_perm (nrows lhs)))!i,
           (value_or pcol (iota_perm (ncols lhs)))!j) (entries lhs) ->
       In (i, j) (entries rhs)).
Proof.
  intros Wl Wr Er Ec Hp1 Hp2. unfold isSparsitySubset.
  rewrite (pre_ok (nrows lhs =? nrows rhs)) by (apply Nat.eqb_eq; auto). cbn [bind].
  rewrite (pre_ok (ncols lhs =? ncols rhs)) by (apply Nat.eqb_eq; auto). cbn [bind].
  destruct (permuted_ok lhs _ _ Wl Hp1 Hp2) as (l & El & Hl1 & Hl2 & Hl3 & Hl4 & _).
  rewrite El. cbn [bind].
  destruct (toCSR_ok l Hl3) as (lc & Elc & Wlc & Hlr & Hlc & HlP & _).
  rewrite Elc. cbn [bind].
  rewrite mkSparsity_ok by exact Wr. cbn [bind].
  destruct (toCSR_ok (mkSp (nrows rhs) (ncols rhs) (entries rhs)))
    as (rc & Erc & Wrc & Hrr & Hrc & HrP & _); [exact Wr|].
  rewrite Erc. cbn [bind]. cbn [nrows ncols entries] in *.
  rewrite subset_rows_ok; auto; try lia.
  - eexists. split; [reflexivity|]. rewrite forallb_forall. split.
    + intros H i j Hi Hj Hin.
      assert (Hin2 : In (i, j) (c_entries lc)).
      { apply (Permutation_in _ (Permutation_sym HlP)). apply Hl4. auto. }
      specialize (H i). rewrite forallb_forall in H.
      eapply Permutation_in; [exact HrP|]. apply inb_In. apply H.
      * apply in_seq. lia.
      * apply rowf_In. auto.
    + intros H i Hi. apply forallb_forall. intros [r j] Hin.
      apply rowf_In in Hin. cbn in Hin. destruct Hin as [Hin ->].
      apply inb_In. apply (Permutation_in _ (Permutation_sym HrP)).
      apply (Permutation_in _ HlP) in Hin. apply Hl4 in Hin. apply H; tauto.
  - intros r Hr. apply in_seq in Hr. lia.
  - apply repeat_length.
  - intros j. destruct (Nat.lt_ge_cases j (c_cols lc)) as [L|L].
    + apply nth_repeat_lt; auto.
    + apply nth_overflow. rewrite repeat_length. auto.
Qed.

Lemma isSparsitySubset_ok lhs rhs :
  wf_sp lhs -> wf_sp rhs -> nrows lhs = nrows rhs -> ncols lhs = ncols rhs ->
  exists b, isSparsitySubset lhs rhs None None = Ok b /\
    (b = true <-> incl (entries lhs) (entries rhs)).
Proof.
  intros Wl Wr Er Ec.
  destruct (isSparsitySubset_perm_ok lhs rhs None None Wl Wr Er Ec)
    as (b & E & Hb); try apply isPerm_iota.
  exists b. split; auto. rewrite Hb. cbn [value_or]. split.
  - intros H [i j] Hin. pose proof (Wl _ _ Hin) as [Hi Hj].
    apply H; auto. rewrite !iota_nth; auto.
  - intros H i j Hi Hj Hin. rewrite !iota_nth in Hin by auto. apply H; auto.
Qed.

Lemma isSparsityEqual_ok lhs rhs :
  wf_sp lhs -> wf_sp rhs -> nrows lhs = nrows rhs -> ncols lhs = ncols rhs ->
  exists b, isSparsityEqual lhs rhs = Ok b /\
    (b = true <-> forall e, In e (entries lhs) <-> In e (entries rhs)).
Proof.
  intros Wl Wr Er Ec. unfold isSparsityEqual.
  destruct (isSparsitySubset_ok lhs rhs) as (b1 & E1 & H1); auto.
  destruct (isSparsitySubset_ok rhs lhs) as (b2 & E2 & H2); auto.
  rewrite E1. cbn [bind]. destruct b1.
  - exists b2. split; auto. rewrite H2. destruct H1 as [H1 _].
    specialize (H1 eq_refl). unfold incl in *. firstorder.
  - exists false. split; auto. split; [discriminate|].
    intros H. apply H1. intros e He. apply H; auto.
Qed.

Lemma isSparsitySubsetLowerTriangle_ok lhs rhs p :
  wf_sp lhs -> wf_sp rhs -> nrows lhs = ncols lhs ->
  nrows lhs = nrows rhs -> ncols lhs = ncols rhs -> isPerm (nrows lhs) p ->
  exists b, isSparsitySubsetLowerTriangle lhs rhs p = Ok b /\
    (b = true <->
     forall i j, j < i -> i < nrows lhs ->
       In (Nat.max p!i p!j, Nat.min p!i p!j) (entries lhs) ->
       In (i, j) (entries rhs)).
Proof.
  intros Wl Wr Hsq Er Ec Hp. unfold isSparsitySubsetLowerTriangle.
  destruct (lowerTriangle_ok lhs p Wl Hsq Hp) as (l & El & H1 & H2 & H3 & H4 & _).
  rewrite El. cbn [bind].
  destruct (isSparsitySubset_ok l rhs) as (b & E & Hb); auto; try lia.
  exists b. split; auto. rewrite Hb. split.
  - intros H i j Hji Hi Hin. apply H, H4. auto.
  - intros H [i j] Hin. apply H4 in Hin. apply H; tauto.
Qed.
