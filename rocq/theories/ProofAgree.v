(** Two runs with different patterns compute the same values. *)
From Coq Require Import List Arith Lia Bool.
From Verif Require Import ModelNumeric SpecNumeric SpecAgree.
From Verif Require Import ProofArrowSub ProofChain.
Import ListNotations.

Section Field.
  Context {F : Type} (O : ops F) (FL : fieldLaws O).
  Add Ring FrSame : (fl_ring FL).
  Lemma field_same : sameRules O (fun _ => True) eq.
  Proof.
    constructor; auto; try congruence.
    - intros a b _ ->. ring.
    - intros a b -> _. split; ring.
    - intros a b -> _ N.
      pose proof (fl_div FL (o0 O) b N) as E. pose proof (fl_div FL (fl_one FL) b N) as E1.
      replace (odiv O (o0 O) b) with (omul O (odiv O (o0 O) b) (omul O (odiv O (fl_one FL) b) b)).
      + replace (omul O (odiv O (o0 O) b) (omul O (odiv O (fl_one FL) b) b)) with
          (omul O (omul O (odiv O (o0 O) b) b) (odiv O (fl_one FL) b)) by ring.
        rewrite E. ring.
      + rewrite E1. ring.
  Qed.
End Field.

Section Same.
  Context {F : Type} (O : ops F) (fin : F -> Prop) (same : F -> F -> Prop).
  Hypothesis R : sameRules O fin same.
  Local Notation zero x := (same x (o0 O)).

  Lemma zero_0 : zero (o0 O).
  Proof. apply (sm_refl _ _ _ R), (sm_0 _ _ _ R). Qed.
  Lemma zero_fin x : zero x -> fin x.
  Proof. intros H. apply (sm_fin _ _ _ R) in H. tauto. Qed.
  Lemma zero_same a b : same a b -> zero b -> zero a.
  Proof. apply (sm_trans _ _ _ R). Qed.
  Lemma same_nz a b : same a b -> ~ zero a -> fin b /\ ~ zero b.
  Proof. intros H N. split; [apply (sm_fin _ _ _ R) in H; tauto|]. intros Z. apply N. eapply zero_same; eauto. Qed.

  Lemma subl_fin {I} a (l : list I) t : fin (subl O a l t) -> fin a.
  Proof.
    revert a. induction l as [|k l IH]; intros a H; [exact H|].
    cbn [subl fold_left] in H. apply IH in H. apply (sm_sub_fin _ _ _ R) in H. tauto.
  Qed.

  Lemma subl_zero {I} a (l : list I) t :
    zero a -> (forall k, In k l -> zero (t k)) -> zero (subl O a l t).
  Proof.
    revert a. induction l as [|k l IH]; intros a H HT; [exact H|].
    cbn [subl fold_left]. apply IH.
    - eapply (sm_trans _ _ _ R); [apply (sm_sub0 _ _ _ R)|exact H].
      + apply zero_fin; auto.
      + apply HT. left. auto.
    - intros; apply HT. right. auto.
  Qed.

  (** two sequences of subtractions that skip some zeros *)
  Lemma walk {I} (l : list I) (f1 f2 : I -> bool) t1 t2 a a' :
    same a a' -> fin (subl O a (filter f1 l) t1) ->
    (forall k, In k l -> f1 k = true -> f2 k = true -> fin (t1 k) -> same (t1 k) (t2 k)) ->
    (forall k, In k l -> f1 k = true -> f2 k = false -> zero (t1 k)) ->
    (forall k, In k l -> f1 k = false -> f2 k = true -> zero (t2 k)) ->
    same (subl O a (filter f1 l) t1) (subl O a' (filter f2 l) t2).
  Proof.
    revert a a'. induction l as [|k l IH]; intros a a' Ha HF H1 H2 H3; [exact Ha|].
    pose proof (sm_fin _ _ _ R _ _ Ha) as [Fa Fa'].
    cbn [filter] in *.
    assert (N1 : forall k', In k' l -> f1 k' = true -> f2 k' = true -> fin (t1 k') -> same (t1 k') (t2 k')).
    { intros; apply H1; auto. right; auto. }
    assert (N2 : forall k', In k' l -> f1 k' = true -> f2 k' = false -> zero (t1 k')).
    { intros; apply H2; auto. right; auto. }
    assert (N3 : forall k', In k' l -> f1 k' = false -> f2 k' = true -> zero (t2 k')).
    { intros; apply H3; auto. right; auto. }
    destruct (f1 k) eqn:E1, (f2 k) eqn:E2; cbn [subl fold_left] in *; apply IH; auto.
    - pose proof (subl_fin _ _ _ HF) as G. pose proof (sm_sub_fin _ _ _ R _ _ G) as [_ G2].
      apply (sm_sub _ _ _ R); auto. apply H1; auto. left; auto.
    - eapply (sm_trans _ _ _ R); [apply (sm_sub0 _ _ _ R)|exact Ha]; auto. apply H2; auto. left; auto.
    - eapply (sm_trans _ _ _ R); [exact Ha|]. apply (sm_sym _ _ _ R), (sm_sub0 _ _ _ R); auto.
      apply H3; auto. left; auto.
  Qed.

  Lemma term_same f a a' b b' s s' d d' :
    same a a' -> same b b' -> same s s' -> same d d' -> fin (termF O f a b s d) ->
    same (termF O f a b s d) (termF O f a' b' s' d').
  Proof.
    intros Ha Hb Hs Hd. destruct f; cbn [termF]; intros HF.
    - pose proof (sm_mul_fin _ _ _ R _ _ HF) as [F1 _]. apply (sm_mul _ _ _ R); auto.
      apply (sm_mul _ _ _ R); auto.
    - apply (sm_mul _ _ _ R); auto.
    - apply (sm_mul _ _ _ R); auto.
  Qed.

  Lemma mul0l a b : zero a -> fin b -> zero (omul O a b).
  Proof. intros. apply (sm_mul0 _ _ _ R a b); auto. Qed.
  Lemma mul0r a b : fin a -> zero b -> zero (omul O a b).
  Proof. intros. apply (sm_mul0 _ _ _ R b a); auto. Qed.

  Lemma term_zero f a b s d : fin a -> fin b -> fin s -> fin d ->
    (zero a /\ zero s) \/ zero b -> zero (termF O f a b s d).
  Proof.
    intros Fa Fb Fs Fd H. destruct f; cbn [termF].
    - apply mul0l; auto. destruct H as [[H _]|H]; [apply mul0l|apply mul0r]; auto.
    - destruct H as [[_ H]|H]; [apply mul0r|apply mul0l]; auto.
    - destruct H as [[_ H]|H]; [apply mul0l|apply mul0r]; auto.
  Qed.

  Section Runs.
  Context {I : Type} (dec : forall a b : I, {a = b} + {a <> b}) (all : list I).
  (** a common superset of the rows, in order *)
  Variables (big : I -> list I) (rank : I -> nat).
  Hypothesis BR : forall g k, In g all -> In k (big g) -> In k all /\ rank k < rank g.
  Variables (fm : bool -> I -> I -> tform) (reg : F -> I -> F).
  Local Notation mem := (memI dec).

  Record goodRun (row : I -> list I) (A L : I -> I -> F) : Prop := mkGoodRun {
    gr_sub : forall g, In g all -> row g = filter (fun k => mem k (row g)) (big g);
    gr_L : forall g h, In g all -> In h all -> ~ In h (row g) -> L g h = o0 O;
    gr_A : forall g h, In g all -> In h (big g) -> ~ In h (row g) -> A g h = o0 O;
    gr_closed : forall g h k, In g all -> In h (big g) -> In k (row g) -> In k (row h) -> In h (row g) }.

  Definition finRun (row : I -> list I) (L : I -> I -> F) (D : I -> F) : Prop :=
    forall g, In g all -> fin (D g) /\ ~ zero (D g) /\ forall h, In h (row g) -> fin (L g h).

  Definition tot (row : I -> list I) (S : I -> I -> F) (g h : I) : F :=
    if mem h (row g) then S g h else o0 O.

  Lemma mem_false k l : mem k l = false <-> ~ In k l.
  Proof.
    rewrite <- (memI_In dec). destruct (mem k l); split; auto; try discriminate. intros H. destruct H. auto.
  Qed.

  Lemma row_big row A L g k : goodRun row A L -> In g all -> In k (row g) -> In k (big g).
  Proof. intros G Hg Hk. rewrite (gr_sub _ _ _ G g Hg) in Hk. apply filter_In in Hk. tauto. Qed.

  (** the entries as sequences of subtractions over the superset *)
  Definition tm dg (row : I -> list I) L S D g h k : F :=
    termF O (fm dg g k) (L g k) (L h k) (tot row S g k) (D k).
  Definition both (row : I -> list I) (g h k : I) : bool := mem k (row g) && mem k (row h).

  Lemma run_common row A L g h : goodRun row A L -> In g all ->
    common dec row g h = filter (both row g h) (big g).
  Proof.
    intros G Hg. unfold common, both. rewrite (gr_sub _ _ _ G g Hg) at 1.
    generalize (big g). induction l as [|k l IH]; [reflexivity|]. cbn [filter].
    destruct (mem k (row g)) eqn:E; cbn [filter andb].
    - destruct (mem k (row h)); rewrite IH; auto.
    - exact IH.
  Qed.

  Lemma run_tot row A L S D g h : goodRun row A L -> chainedF O dec all row fm A L S D reg ->
    In g all -> In h (row g) ->
    tot row S g h = subl O (A g h) (filter (both row g h) (big g)) (tm false row L S D g h) /\
    L g h = odiv O (tot row S g h) (D h).
  Proof.
    intros G C Hg Hh. destruct (cf_row _ _ _ _ _ _ _ _ _ _ C g h Hg Hh) as [RD E].
    assert (T : tot row S g h = S g h).
    { unfold tot. rewrite (proj2 (memI_In dec h (row g)) Hh). auto. }
    rewrite T. split; auto. rewrite <- (run_common row A L) by auto.
    apply reduces_det. eapply reduces_impl; [|exact RD]. unfold isTermF, tm.
    intros k x Hk ->. apply common_In in Hk. unfold tot.
    rewrite (proj2 (memI_In dec k (row g)) (proj1 Hk)). auto.
  Qed.

  Lemma run_D row A L S D g : goodRun row A L -> chainedF O dec all row fm A L S D reg -> In g all ->
    D g = reg (subl O (A g g) (filter (both row g g) (big g)) (tm true row L S D g g)) g.
  Proof.
    intros G C Hg. destruct (cf_D _ _ _ _ _ _ _ _ _ _ C g Hg) as (s & RD & E). rewrite E. f_equal.
    assert (E1 : row g = filter (both row g g) (big g)).
    { rewrite (gr_sub _ _ _ G g Hg) at 1. apply filter_ext. intros k. unfold both. destruct (mem k (row g)); auto. }
    rewrite <- E1. apply reduces_det. eapply reduces_impl; [|exact RD]. unfold isTermF, tm.
    intros k x Hk ->. unfold tot. rewrite (proj2 (memI_In dec k (row g)) Hk). auto.
  Qed.

  Variables (row1 row2 : I -> list I) (A1 A2 L1 S1 L2 S2 : I -> I -> F) (D1 D2 : I -> F).
  Hypothesis G1 : goodRun row1 A1 L1.
  Hypothesis G2 : goodRun row2 A2 L2.
  Hypothesis C1 : chainedF O dec all row1 fm A1 L1 S1 D1 reg.
  Hypothesis C2 : chainedF O dec all row2 fm A2 L2 S2 D2 reg.
  Hypothesis FN : finRun row1 L1 D1.
  Hypothesis HA : forall g h, In g all -> h = g \/ In h (big g) -> agree same (A1 g h) (A2 g h).
  Hypothesis RG : forall g v, In g all -> (fin (reg v g) -> fin v) /\
    forall v', same v v' -> fin (reg v g) -> same (reg v g) (reg v' g).

  Definition eqAt g h : Prop :=
    same (L1 g h) (L2 g h) /\ same (tot row1 S1 g h) (tot row2 S2 g h).

  (** a term of row g and row h *)
  Lemma tm_facts dg g h k : In g all -> (h = g \/ In h (big g)) -> In k all ->
    eqAt g k -> eqAt h k -> same (D1 k) (D2 k) ->
    (fin (tm dg row1 L1 S1 D1 g h k) ->
     same (tm dg row1 L1 S1 D1 g h k) (tm dg row2 L2 S2 D2 g h k)) /\
    (both row1 g h k = false -> zero (tm dg row1 L1 S1 D1 g h k) /\ zero (tm dg row2 L2 S2 D2 g h k)) /\
    (both row2 g h k = false -> zero (tm dg row1 L1 S1 D1 g h k) /\ zero (tm dg row2 L2 S2 D2 g h k)).
  Proof.
    intros Hg Hh Hk [E1 E2] [E3 E4] ED.
    assert (Hh' : In h all).
    { destruct Hh as [->|Hh]; auto. apply (BR g h); auto. }
    pose proof (sm_fin _ _ _ R _ _ E1) as [X1 X1']. pose proof (sm_fin _ _ _ R _ _ E2) as [X2 X2'].
    pose proof (sm_fin _ _ _ R _ _ E3) as [X3 X3']. pose proof (sm_fin _ _ _ R _ _ ED) as [X5 X5'].
    assert (Z1 : forall row A L (S : I -> I -> F), goodRun row A L -> both row g h k = false ->
       (zero (L g k) /\ zero (tot row S g k)) \/ zero (L h k)).
    { intros row A L S G B. unfold both in B. apply andb_false_iff in B. rewrite !mem_false in B.
      destruct B as [B|B].
      - left. rewrite (gr_L _ _ _ G) by auto. split; [apply zero_0|]. unfold tot.
        rewrite (proj2 (mem_false k (row g)) B). apply zero_0.
      - right. rewrite (gr_L _ _ _ G) by auto. apply zero_0. }
    split; [|split].
    - intros HF. unfold tm. apply term_same; auto.
    - intros B. specialize (Z1 row1 A1 L1 S1 G1 B). split; apply term_zero; auto.
      destruct Z1 as [[Z1 Z2]|Z1].
      + left. split; eapply zero_same; try (apply (sm_sym _ _ _ R); eassumption); auto.
      + right. eapply zero_same; try (apply (sm_sym _ _ _ R); eassumption); auto.
    - intros B. specialize (Z1 row2 A2 L2 S2 G2 B). split; apply term_zero; auto.
      destruct Z1 as [[Z1 Z2]|Z1].
      + left. split; eapply zero_same; eauto.
      + right. eapply zero_same; eauto.
  Qed.

  Lemma both_in row A L g h k : goodRun row A L -> In h all -> both row g h k = true ->
    In k (row g) /\ In k (row h) /\ In k (big h).
  Proof.
    intros G Hh B. unfold both in B. apply andb_true_iff in B. rewrite !memI_In in B.
    destruct B as [B1 B2]. repeat split; auto. apply (row_big row A L); auto.
  Qed.

  Lemma A_same g h : In g all -> h = g \/ In h (big g) -> fin (A1 g h) -> same (A1 g h) (A2 g h).
  Proof. intros Hg Hh Fa. destruct (HA g h Hg Hh) as [<-|E]; auto. apply (sm_refl _ _ _ R). auto. Qed.

  Lemma entry_same g h : In g all -> In h (big g) ->
    (forall k, In k (big h) -> same (D1 k) (D2 k) /\ eqAt h k) -> same (D1 h) (D2 h) ->
    (forall k, In k (big g) -> In k (big h) -> eqAt g k) ->
    eqAt g h.
  Proof.
    intros Hg Hh IH1 IHD IH2. destruct (BR g h Hg Hh) as [Hh' Lt].
    assert (TF : forall k, In k (big g) -> In k (big h) ->
      (fin (tm false row1 L1 S1 D1 g h k) ->
       same (tm false row1 L1 S1 D1 g h k) (tm false row2 L2 S2 D2 g h k)) /\
      (both row1 g h k = false -> zero (tm false row1 L1 S1 D1 g h k) /\ zero (tm false row2 L2 S2 D2 g h k)) /\
      (both row2 g h k = false -> zero (tm false row1 L1 S1 D1 g h k) /\ zero (tm false row2 L2 S2 D2 g h k))).
    { intros k K1 K2. destruct (IH1 k K2) as [ID IE]. apply tm_facts; auto. apply (BR g k); auto. }
    destruct (FN h Hh') as (F1 & N1 & _). destruct (same_nz _ _ IHD N1) as [F2 N2].
    assert (NB : forall row A L k, goodRun row A L -> ~ In h (row g) -> both row g h k = false).
    { intros row A L k G N. destruct (both row g h k) eqn:B; auto. destruct N.
      unfold both in B. apply andb_true_iff in B. rewrite !memI_In in B.
      apply (gr_closed _ _ _ G g h k); tauto. }
    assert (T0 : forall row S, ~ In h (row g) -> tot row S g h = o0 O).
    { intros row S N. unfold tot. rewrite (proj2 (mem_false h (row g)) N). auto. }
    unfold eqAt. destruct (in_dec dec h (row1 g)) as [I1|I1], (in_dec dec h (row2 g)) as [I2|I2].
    - destruct (run_tot row1 A1 L1 S1 D1 g h G1 C1 Hg I1) as [ET1 EL1].
      destruct (run_tot row2 A2 L2 S2 D2 g h G2 C2 Hg I2) as [ET2 EL2].
      assert (FL1 : fin (L1 g h)) by (apply FN; auto).
      assert (FT : fin (tot row1 S1 g h)).
      { rewrite EL1 in FL1. exact (sm_div_fin _ _ _ R _ _ F1 N1 FL1). }
      assert (ST : same (tot row1 S1 g h) (tot row2 S2 g h)).
      { rewrite ET1, ET2. rewrite ET1 in FT. apply walk; auto.
        - apply A_same; auto. eapply subl_fin; eauto.
        - intros k Hk B1 B2. apply (both_in row1 A1 L1) in B1; auto. destruct (TF k Hk ltac:(tauto)) as (? & ? & ?); tauto.
        - intros k Hk B1 B2. apply (both_in row1 A1 L1) in B1; auto. destruct (TF k Hk ltac:(tauto)) as (? & ? & ?); tauto.
        - intros k Hk B1 B2. apply (both_in row2 A2 L2) in B2; auto. destruct (TF k Hk ltac:(tauto)) as (? & ? & ?); tauto. }
      split; auto. rewrite EL1, EL2. apply (sm_div _ _ _ R); auto. rewrite <- EL1. auto.
    - destruct (run_tot row1 A1 L1 S1 D1 g h G1 C1 Hg I1) as [ET1 EL1].
      rewrite (T0 row2 S2 I2), (gr_L _ _ _ G2 g h Hg Hh' I2).
      assert (Z : zero (tot row1 S1 g h)).
      { rewrite ET1. apply subl_zero.
        { destruct (HA g h Hg (or_intror Hh)) as [E|E]; rewrite (gr_A _ _ _ G2 g h Hg Hh I2) in E;
            [rewrite E; apply zero_0|exact E]. }
        intros k Hk. apply filter_In in Hk. destruct Hk as [Hk B1].
        apply (both_in row1 A1 L1) in B1; auto. destruct (TF k Hk ltac:(tauto)) as (_ & _ & T3). apply T3. apply (NB row2 A2 L2); auto. }
      split; auto. rewrite EL1. apply (sm_div0 _ _ _ R); auto.
    - destruct (run_tot row2 A2 L2 S2 D2 g h G2 C2 Hg I2) as [ET2 EL2].
      rewrite (T0 row1 S1 I1), (gr_L _ _ _ G1 g h Hg Hh' I1).
      assert (Z : zero (tot row2 S2 g h)).
      { rewrite ET2. apply subl_zero.
        { destruct (HA g h Hg (or_intror Hh)) as [E|E]; rewrite (gr_A _ _ _ G1 g h Hg Hh I1) in E;
            [rewrite <- E; apply zero_0|apply (sm_sym _ _ _ R); exact E]. }
        intros k Hk. apply filter_In in Hk. destruct Hk as [Hk B2].
        apply (both_in row2 A2 L2) in B2; auto. destruct (TF k Hk ltac:(tauto)) as (_ & T3 & _). apply T3. apply (NB row1 A1 L1); auto. }
      split; apply (sm_sym _ _ _ R); auto. rewrite EL2. apply (sm_div0 _ _ _ R); auto.
    - rewrite !T0 by auto. rewrite (gr_L _ _ _ G1 g h Hg Hh' I1), (gr_L _ _ _ G2 g h Hg Hh' I2).
      split; apply zero_0.
  Qed.

  Lemma runs_same_big N : forall g, rank g < N -> In g all ->
    same (D1 g) (D2 g) /\ forall h, In h (big g) -> eqAt g h.
  Proof.
    induction N as [|N IH]; intros g Lt Hg; [lia|].
    assert (H : forall h, In h (big g) -> eqAt g h).
    { assert (HN : forall M h, rank h < M -> In h (big g) -> eqAt g h).
      { induction M as [|M IM]; intros h Lh Hh; [lia|]. destruct (BR g h Hg Hh) as [Hh' Lt'].
        destruct (IH h ltac:(lia) Hh') as [ID IE].
        apply entry_same; auto.
        - intros k Hk. destruct (BR h k Hh' Hk) as [Hk' Lk]. split; auto. apply IH; auto. lia.
        - intros k Kg Kh. destruct (BR h k Hh' Kh) as [Hk' Lk]. apply IM; auto. lia. }
      intros h Hh. apply (HN (S (rank h))); auto. }
    split; auto.
    rewrite (run_D row1 A1 L1 S1 D1 g), (run_D row2 A2 L2 S2 D2 g) by auto.
    assert (FD : fin (D1 g)) by (apply FN; auto).
    rewrite (run_D row1 A1 L1 S1 D1 g) in FD by auto.
    destruct (RG g (subl O (A1 g g) (filter (both row1 g g) (big g)) (tm true row1 L1 S1 D1 g g)) Hg) as [R1 R2].
    specialize (R1 FD). apply R2; auto.
    assert (TF : forall k, In k (big g) ->
      (fin (tm true row1 L1 S1 D1 g g k) ->
       same (tm true row1 L1 S1 D1 g g k) (tm true row2 L2 S2 D2 g g k)) /\
      (both row1 g g k = false -> zero (tm true row1 L1 S1 D1 g g k) /\ zero (tm true row2 L2 S2 D2 g g k)) /\
      (both row2 g g k = false -> zero (tm true row1 L1 S1 D1 g g k) /\ zero (tm true row2 L2 S2 D2 g g k))).
    { intros k Hk. destruct (BR g k Hg Hk) as [Hk' Lk]. destruct (IH k ltac:(lia) Hk') as [ID IE].
      apply tm_facts; auto. }
    apply walk; auto.
    - apply A_same; auto. eapply subl_fin; eauto.
    - intros k Hk _ _. exact (proj1 (TF k Hk)).
    - intros k Hk _ B. exact (proj1 (proj2 (proj2 (TF k Hk)) B)).
    - intros k Hk B _. exact (proj2 (proj1 (proj2 (TF k Hk)) B)).
  Qed.

  (** all pivots and entries *)
  Theorem runs_same :
    (forall g, In g all -> same (D1 g) (D2 g)) /\
    (forall g h, In g all -> In h all -> same (L1 g h) (L2 g h)).
  Proof.
    split.
    - intros g Hg. apply (runs_same_big (S (rank g))); auto.
    - intros g h Hg Hh. destruct (in_dec dec h (big g)) as [B|B].
      + apply (runs_same_big (S (rank g))); auto.
      + rewrite (gr_L _ _ _ G1), (gr_L _ _ _ G2); auto; [apply zero_0|..]; intros N; apply B.
        * apply (row_big row2 A2 L2); auto.
        * apply (row_big row1 A1 L1); auto.
  Qed.

  (** the second run is finite as well *)
  Theorem runs_fin : finRun row2 L2 D2.
  Proof.
    destruct runs_same as [HD HL]. intros g Hg. destruct (FN g Hg) as (F1 & N1 & _).
    destruct (same_nz _ _ (HD g Hg) N1) as [F2 N2]. repeat split; auto.
    intros h Hh. assert (In h all). { apply (BR g h); auto. apply (row_big row2 A2 L2); auto. }
    specialize (HL g h Hg H). apply (sm_fin _ _ _ R) in HL. tauto.
  Qed.

  (** *** the solves *)
  Variables (bigc col1 col2 : I -> list I).
  Hypothesis BC : forall g k, In g all -> In k (bigc g) -> In k all /\ rank g < rank k.
  Hypothesis K1 : forall g, In g all -> col1 g = filter (fun k => mem k (col1 g)) (bigc g).
  Hypothesis K2 : forall g, In g all -> col2 g = filter (fun k => mem k (col2 g)) (bigc g).
  Hypothesis Q1 : colsGood all row1 col1.
  Hypothesis Q2 : colsGood all row2 col2.
  Variables (b y1 z1 x1 y2 z2 x2 : I -> F).
  Hypothesis Y1 : forwardEq O all row1 L1 b y1.
  Hypothesis Y2 : forwardEq O all row2 L2 b y2.
  Hypothesis Z1 : diagonalEq O all D1 y1 z1.
  Hypothesis Z2 : diagonalEq O all D2 y2 z2.
  Hypothesis X1 : backwardEq O all L1 col1 z1 x1.
  Hypothesis X2 : backwardEq O all L2 col2 z2 x2.
  Hypothesis XF : forall g, In g all -> fin (x1 g).

  Lemma z1_fin g : In g all -> fin (z1 g).
  Proof. intros Hg. pose proof (XF g Hg) as H. rewrite (X1 g Hg) in H. eapply subl_fin; eauto. Qed.
  Lemma y1_fin g : In g all -> fin (y1 g).
  Proof.
    intros Hg. pose proof (z1_fin g Hg) as H. rewrite (Z1 g Hg) in H. destruct (FN g Hg) as (F1 & N1 & _).
    exact (sm_div_fin _ _ _ R _ _ F1 N1 H).
  Qed.

  Lemma mul_same (u v u' v' : F) : same u u' -> same v v' -> fin (omul O u v) -> same (omul O u v) (omul O u' v').
  Proof. apply (sm_mul _ _ _ R). Qed.

  Lemma y_same N : forall g, rank g < N -> In g all -> same (y1 g) (y2 g).
  Proof.
    destruct runs_same as [HD HL].
    induction N as [|N IH]; intros g Lt Hg; [lia|].
    pose proof (y1_fin g Hg) as HF. rewrite (Y1 g Hg) in HF |- *. rewrite (Y2 g Hg).
    rewrite (gr_sub _ _ _ G1 g Hg) in HF |- *. rewrite (gr_sub _ _ _ G2 g Hg) at 1.
    apply walk; auto.
    - apply (sm_refl _ _ _ R). eapply subl_fin; eauto.
    - intros k Hk _ _ HK. destruct (BR g k Hg Hk) as [Hk' Lk]. apply mul_same; auto. apply IH; auto. lia.
    - intros k Hk _ B. destruct (BR g k Hg Hk) as [Hk' Lk]. apply mem_false in B.
      apply mul0l; [|apply y1_fin; auto].
      rewrite <- (gr_L _ _ _ G2 g k); auto.
    - intros k Hk B _. destruct (BR g k Hg Hk) as [Hk' Lk]. apply mem_false in B.
      specialize (IH k ltac:(lia) Hk'). apply (sm_fin _ _ _ R) in IH.
      apply mul0l; [|tauto].
      rewrite <- (gr_L _ _ _ G1 g k); auto. apply (sm_sym _ _ _ R). auto.
  Qed.

  Lemma z_same g : In g all -> same (z1 g) (z2 g).
  Proof.
    intros Hg. destruct runs_same as [HD HL]. pose proof (z1_fin g Hg) as H.
    rewrite (Z1 g Hg) in H |- *. rewrite (Z2 g Hg). apply (sm_div _ _ _ R); auto.
    - apply (y_same (S (rank g))); auto.
    - apply FN; auto.
  Qed.

  Lemma col_L row A L col g k : goodRun row A L -> colsGood all row col -> In g all -> In k all ->
    ~ In k (col g) -> L k g = o0 O.
  Proof. intros G Q Hg Hk N. apply (gr_L _ _ _ G); auto. intros H. apply N. apply (cg_in _ _ _ Q); auto. Qed.

  Variable top : nat.
  Hypothesis TOP : forall g, In g all -> rank g < top.
  Lemma x_same N : forall g, top <= rank g + N -> In g all -> same (x1 g) (x2 g).
  Proof.
    destruct runs_same as [HD HL].
    induction N as [|N IH]; intros g Lt Hg; [pose proof (TOP g Hg); lia|].
    pose proof (XF g Hg) as HF. rewrite (X1 g Hg) in HF |- *. rewrite (X2 g Hg).
    rewrite (K1 g Hg) in HF |- *. rewrite (K2 g Hg) at 1.
    apply walk; auto.
    - apply z_same; auto.
    - intros k Hk _ _ HK. destruct (BC g k Hg Hk) as [Hk' Lk]. apply mul_same; auto. apply IH; auto. lia.
    - intros k Hk _ B. destruct (BC g k Hg Hk) as [Hk' Lk]. apply mem_false in B.
      apply mul0l; [|apply XF; auto].
      rewrite <- (col_L row2 A2 L2 col2 g k); auto.
    - intros k Hk B _. destruct (BC g k Hg Hk) as [Hk' Lk]. apply mem_false in B.
      specialize (IH k ltac:(lia) Hk'). apply (sm_fin _ _ _ R) in IH.
      apply mul0l; [|tauto].
      rewrite <- (col_L row1 A1 L1 col1 g k); auto. apply (sm_sym _ _ _ R). auto.
  Qed.

  Theorem solves_same g : In g all -> same (x1 g) (x2 g).
  Proof. intros Hg. apply (x_same top); auto. lia. Qed.
  End Runs.
End Same.
