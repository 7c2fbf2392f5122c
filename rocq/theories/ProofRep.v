(** Repeating block tridiagonal patterns: abstract theory. *)
From Coq Require Import List Arith Lia Bool Permutation.
From Verif Require Import Base ModelPerm ModelSparsity ModelSymbolic SpecSymbolic.
From Verif Require Import ProofBase ProofPerm ProofCsr ProofSparsity ProofEtree ProofFill.
Import ListNotations.

(** ** general facts on elimination trees *)

Lemma Anc_of_pattern Q T T' x y :
  isEtree Q T -> ascending T' ->
  (forall a b, b < a -> Q a b -> Anc T' b a) -> Anc T x y -> Anc T' x y.
Proof.
  intros HE HA HQ.
  assert (HF : forall a b, Fill Q a b -> Anc T' b a).
  { intros a b. induction 1 as [i j Hb Hl|i j k H1 IH1 H2 IH2 Hk Hj]; auto.
    eapply Anc_linear_lt; eauto. lia. }
  induction 1 as [x|x p y E H IH]; [constructor|].
  eapply Anc_trans; [|exact IH]. apply HF. eapply etree_Fill; eauto.
Qed.

(** the row subtree theorem *)
Lemma Fill_row_path Q T i j :
  isEtree Q T -> Fill Q i j -> exists c, Q i c /\ c < i /\ Anc T c j.
Proof.
  intros HE. induction 1 as [i j Hb Hl|i j k H1 IH1 H2 IH2 Hk Hj].
  - exists j. repeat split; auto. constructor.
  - destruct IH1 as (c & Hc & Hci & HA). exists c. repeat split; auto.
    eapply Anc_trans; eauto. eapply Fill_Anc; eauto.
Qed.

Lemma Fill_along Q T i j k :
  isEtree Q T -> Fill Q i k -> Anc T k j -> j < i -> Fill Q i j.
Proof.
  intros HE HF HA. induction HA as [x|x p y E H IH]; intros Hj; auto.
  pose proof (etree_asc Q T HE) as HAs.
  pose proof (Anc_le _ _ _ HAs H). pose proof (HAs _ _ E).
  apply IH; auto. eapply Fill_elim; eauto; [|lia]. eapply etree_Fill; eauto.
Qed.

Lemma Fill_path_row Q T i j c :
  isEtree Q T -> Q i c -> c < i -> Anc T c j -> j < i -> Fill Q i j.
Proof. intros HE Hq Hc HA Hj. eapply Fill_along; eauto. apply Fill_base; auto. Qed.

(** ** deciding and counting ancestor pairs *)

Fixpoint ancb (T : ptree) (fuel x y : nat) : bool :=
  (x =? y) ||
  match fuel with
  | 0 => false
  | S f => match T x with Some p => ancb T f p y | None => false end
  end.

Lemma ancb_spec T fuel x y :
  ascending T -> y - x <= fuel -> ancb T fuel x y = true <-> Anc T x y.
Proof.
  intros HA. revert x. induction fuel as [|f IH]; intros x Hf; cbn [ancb].
  - rewrite orb_false_r, Nat.eqb_eq. split; [intros ->; constructor|].
    intros H. apply (Anc_le _ _ _ HA) in H. lia.
  - rewrite orb_true_iff, Nat.eqb_eq. split.
    + intros [->|H]; [constructor|]. destruct (T x) as [p|] eqn:E; [|discriminate].
      eapply Anc_step; eauto. apply IH; auto. apply HA in E. lia.
    + intros H. inversion H as [|x' p y' E H']; subst; auto. right. rewrite E.
      apply IH; auto. apply HA in E. lia.
Qed.

Definition ancPairs (T : ptree) (d : nat) : nat :=
  length (filter (fun q => ancb T d (fst q) (snd q)) (list_prod (seq 0 d) (seq 0 d))).

Lemma filter_le {A} (f g : A -> bool) l :
  (forall x, In x l -> f x = true -> g x = true) ->
  length (filter f l) <= length (filter g l) /\
  (length (filter f l) = length (filter g l) ->
   forall x, In x l -> g x = true -> f x = true).
Proof.
  induction l as [|a l IH]; cbn [filter length]; intros H.
  - split; [lia|]. intros _ x [].
  - destruct IH as [IH1 IH2]; [intros; apply H; [right|]; auto|].
    pose proof (H a (or_introl eq_refl)) as Ha.
    destruct (f a) eqn:Fa, (g a) eqn:Ga; cbn [length]; try (discriminate (Ha eq_refl)).
    + split; [lia|]. intros E x [<-|Hx] Hg; auto.
    + split; [lia|]. intros E. lia.
    + split; [lia|]. intros E x [<-|Hx] Hg; [congruence|auto].
Qed.

Lemma filter_length_le {A} (f : A -> bool) l : length (filter f l) <= length l.
Proof. induction l as [|a l IH]; cbn; auto. destruct (f a); cbn; lia. Qed.

Lemma ancPairs_le T d : ancPairs T d <= d * d.
Proof.
  unfold ancPairs. etransitivity; [apply filter_length_le|].
  rewrite prod_length, seq_length. auto.
Qed.

Definition below (d : nat) (T : ptree) : Prop :=
  forall x p, T x = Some p -> x < p /\ p < d.

Lemma ancPairs_mono T T' d :
  ascending T -> ascending T' ->
  (forall x y, x < d -> y < d -> Anc T x y -> Anc T' x y) ->
  ancPairs T d <= ancPairs T' d /\
  (ancPairs T d = ancPairs T' d -> below d T -> below d T' -> forall x, T x = T' x).
Proof.
  intros HA HA' H. unfold ancPairs.
  destruct (filter_le (fun q => ancb T d (fst q) (snd q))
              (fun q => ancb T' d (fst q) (snd q)) (list_prod (seq 0 d) (seq 0 d)))
    as [H1 H2].
  - intros [x y] Hin Hf. apply in_prod_iff in Hin. rewrite !in_seq in Hin.
    cbn [fst snd] in *. apply ancb_spec; auto; [lia|]. apply H; try lia.
    apply (ancb_spec T d x y); auto. lia.
  - split; auto. intros E HB HB' x. specialize (H2 E).
    assert (H3 : forall x y, x < d -> y < d -> Anc T' x y -> Anc T x y).
    { intros a b Ha Hb Hab. apply (ancb_spec T d a b); auto; [lia|].
      apply (H2 (a, b)).
      - apply in_prod_iff. rewrite !in_seq. lia.
      - cbn [fst snd]. apply ancb_spec; auto. lia. }
    destruct (T x) as [p|] eqn:Ex, (T' x) as [p'|] eqn:Ex'; auto.
    + pose proof (HB _ _ Ex). pose proof (HB' _ _ Ex').
      assert (L1 : p' <= p).
      { assert (HAn : Anc T' x p) by (apply H; try lia; apply Anc_one; auto).
        apply Anc_parent in HAn; [|lia]. destruct HAn as (q & Eq & Hq).
        rewrite Ex' in Eq. injection Eq as <-. apply (Anc_le _ _ _ HA' Hq). }
      assert (L2 : p <= p').
      { assert (HAn : Anc T x p') by (apply H3; try lia; apply Anc_one; auto).
        apply Anc_parent in HAn; [|lia]. destruct HAn as (q & Eq & Hq).
        rewrite Ex in Eq. injection Eq as <-. apply (Anc_le _ _ _ HA Hq). }
      f_equal. lia.
    + pose proof (HB _ _ Ex).
      assert (HAn : Anc T' x p) by (apply H; try lia; apply Anc_one; auto).
      apply Anc_parent in HAn; [|lia]. destruct HAn as (q & Eq & _). congruence.
    + pose proof (HB' _ _ Ex').
      assert (HAn : Anc T x p') by (apply H3; try lia; apply Anc_one; auto).
      apply Anc_parent in HAn; [|lia]. destruct HAn as (q & Eq & _). congruence.
Qed.

(** ** one step of the iteration *)

Section Rep.
  Context (d : nat) (A B C : pattern).
  Context (HA : forall i j, A i j -> j < i /\ i < d).
  Context (HB : forall i j, B i j -> i < d /\ j < d).
  Context (HC : forall i j, C i j -> j < d).

  (** edges of a tree *)
  Definition edges (T : ptree) : pattern := fun a b => T b = Some a.

  Definition rowsBA : pattern := fun a b =>
    (exists i, a = d + i /\ B i b) \/ (exists i j, a = d + i /\ b = d + j /\ A i j).

  Definition repQ (T : ptree) : pattern := fun a b => edges T a b \/ rowsBA a b.

  Lemma rowsBA_bound a b : rowsBA a b -> b < a /\ d <= a < 2 * d.
  Proof.
    intros [(i & -> & H)|(i & j & -> & -> & H)].
    - apply HB in H. lia.
    - apply HA in H. lia.
  Qed.

  Lemma edges_etree T : ascending T -> isEtree (edges T) T.
  Proof.
    intros HT.
    assert (HF : forall i j, Fill (edges T) i j <-> edges T i j).
    { intros i j. rewrite Fill_of_closed.
      - split; [tauto|]. intros H. split; [exact H|apply HT; auto].
      - intros i' j' k Hk Hj H1 H2. unfold edges in *. rewrite H1 in H2.
        injection H2 as E. lia. }
    intros j. unfold isParent. destruct (T j) as [r|] eqn:E.
    - split; [apply HF; auto|]. intros r' H. apply HF in H. unfold edges in H.
      rewrite E in H. injection H as ->. auto.
    - intros r' H. apply HF in H. unfold edges in H. congruence.
  Qed.

  Lemma repQ_rows T a b : below d T -> repQ T a b -> b < a /\ a < 2 * d.
  Proof.
    intros HT [H|H]; [apply HT in H; lia|]. apply rowsBA_bound in H. lia.
  Qed.

  (** the back part of the tree *)
  Definition backOf (t : ptree) (T' : ptree) : Prop :=
    (forall x, x < d -> T' x = option_map (fun p => p - d) (t (d + x))) /\
    (forall x, d <= x -> T' x = None).

  Section Step.
    Context (T t T' : ptree) (HT : below d T) (HE : isEtree (repQ T) t)
            (HBk : backOf t T').

    Lemma t_bound x p : t x = Some p -> x < p /\ p < 2 * d.
    Proof.
      intros E. apply (etree_Fill _ _ HE) in E. split; [eapply Fill_lt; eauto|].
      pose proof (Fill_lt _ _ _ E).
      assert (p <= 2 * d - 1); [|lia].
      eapply Fill_rows; [|exact E]. intros a b Hq _. apply repQ_rows in Hq; auto. lia.
    Qed.

    Lemma back_parent x p : T' x = Some p <-> x < d /\ p < d /\ t (d + x) = Some (d + p).
    Proof.
      destruct HBk as [H1 H2]. destruct (Nat.lt_ge_cases x d) as [L|L].
      - rewrite H1 by auto. destruct (t (d + x)) as [q|] eqn:E; cbn [option_map].
        + pose proof (t_bound _ _ E). split.
          * intros Eq. injection Eq as <-. repeat split; auto; [lia|]. f_equal. lia.
          * intros (_ & _ & Eq). injection Eq as ->. f_equal. lia.
        + split; [discriminate|]. intros (_ & _ & Eq). discriminate.
      - rewrite H2 by auto. split; [discriminate|]. lia.
    Qed.

    Lemma back_below : below d T'.
    Proof.
      intros x p E. apply back_parent in E. destruct E as (Hx & Hp & E).
      apply t_bound in E. lia.
    Qed.

    Lemma back_Anc x y : x < d -> Anc T' x y <-> Anc t (d + x) (d + y).
    Proof.
      intros Hx. split.
      - intros H. induction H as [x|x p y E H IH]; [constructor|].
        apply back_parent in E. destruct E as (_ & Hp & E).
        eapply Anc_step; eauto.
      - intros H. remember (d + x) as a eqn:Ea. remember (d + y) as b eqn:Eb.
        revert x Hx Ea. induction H as [a|a p b E H IH]; intros x Hx Ea.
        + replace y with x by lia. constructor.
        + pose proof (t_bound _ _ E). eapply Anc_step with (p := p - d).
          * apply back_parent. subst a. repeat split; auto; [lia|].
            rewrite E. f_equal. lia.
          * apply IH; auto; lia.
    Qed.

    Lemma edge_front x p : T x = Some p -> Anc t x p.
    Proof.
      intros E. eapply Fill_Anc; eauto. apply Fill_base; [left; auto|]. apply HT in E. lia.
    Qed.

    Lemma front_Anc x y : Anc T x y -> Anc t x y.
    Proof.
      induction 1 as [x|x p y E H IH]; [constructor|].
      eapply Anc_trans; [apply edge_front; eauto|auto].
    Qed.
  End Step.

  Lemma below_asc T : below d T -> ascending T.
  Proof. intros H x p E. apply H in E. lia. Qed.

  (** the iteration is increasing *)
  Definition increasing (T : ptree) : Prop :=
    forall t, isEtree (repQ T) t ->
    forall x y, x < d -> Anc T x y -> Anc t (d + x) (d + y).

  Lemma increasing_empty T : (forall x, T x = None) -> increasing T.
  Proof.
    intros H t _ x y _ HAn. inversion HAn as [|x' p y' E H']; subst; [constructor|].
    rewrite H in E. discriminate.
  Qed.

  Lemma increasing_step T t T' :
    below d T -> isEtree (repQ T) t -> backOf t T' -> increasing T -> increasing T'.
  Proof.
    intros HT HE HBk HI t2 HE2 x y Hx HAn.
    pose proof (back_below T t T' HT HE HBk) as HT'.
    apply (back_Anc T t T') in HAn; auto.
    eapply Anc_of_pattern; [exact HE|eapply etree_asc; eauto| |exact HAn].
    intros a b Hab [H|H].
    - apply (front_Anc T' t2); auto.
      assert (Hb : b < d) by (apply HT in H; lia).
      apply (back_Anc T t T'); auto. apply (HI t HE); auto. apply Anc_one; auto.
    - eapply Fill_Anc; eauto. apply Fill_base; auto. right. auto.
  Qed.

  Lemma increasing_pairs T t T' :
    below d T -> isEtree (repQ T) t -> backOf t T' -> increasing T ->
    ancPairs T d <= ancPairs T' d /\
    (ancPairs T d = ancPairs T' d -> forall x, T x = T' x).
  Proof.
    intros HT HE HBk HI. pose proof (back_below T t T' HT HE HBk) as HT'.
    destruct (ancPairs_mono T T' d) as [H1 H2].
    - apply below_asc; auto.
    - apply below_asc; auto.
    - intros x y Hx Hy HAn. apply (back_Anc T t T'); auto.
    - split; auto.
  Qed.

  (** ** at a fixed point *)

  Section FixedPoint.
    Context (T t : ptree) (HT : below d T) (HE : isEtree (repQ T) t) (HBk : backOf t T).

    Definition Dpat : pattern := fun i j => i < d /\ j < d /\ Fill (repQ T) (d + i) (d + j).
    Definition Spat : pattern := fun i j => i < d /\ j < d /\ Fill (repQ T) (d + i) j.

    Definition opar (x : nat) : nat :=
      match t x with None => x | Some q => q mod d end.

    Inductive OReach : nat -> nat -> Prop :=
    | OReach_refl x : OReach x x
    | OReach_step x y : OReach x y -> OReach x (opar y).

    Definition Opat : pattern := fun i j => exists c, C i c /\ OReach c j.

    Lemma D_Anc j k : Dpat j k -> Anc t k j.
    Proof.
      intros (Hj & Hk & HF). apply (Fill_Anc _ _ HE) in HF.
      eapply front_Anc; eauto. apply (back_Anc T t T); auto.
    Qed.

    Lemma opar_bound x : x < d -> opar x < d.
    Proof.
      intros H. unfold opar. destruct (t x); auto. apply Nat.mod_upper_bound. lia.
    Qed.

    Lemma OReach_bound c x : OReach c x -> c < d -> x < d.
    Proof. induction 1; auto. intros. apply opar_bound. auto. Qed.

    Lemma OReach_trans x y z : OReach x y -> OReach y z -> OReach x z.
    Proof. intros H. induction 1; auto. apply OReach_step. auto. Qed.

    Lemma OReach_parent x p : x < d -> t x = Some p -> OReach x (p mod d).
    Proof.
      intros Hx E. replace (p mod d) with (opar x) by (unfold opar; rewrite E; auto).
      apply OReach_step. constructor.
    Qed.

    (** walking up from node x, the node modulo d moves along OReach *)
    Lemma Anc_OReach x y : x < 2 * d -> Anc t x y -> OReach (x mod d) (y mod d).
    Proof.
      intros Hx H. induction H as [x|x p y E H IH]; [constructor|].
      pose proof (t_bound T t HT HE _ _ E) as Hp.
      apply OReach_trans with (p mod d); [|apply IH; lia].
      destruct (Nat.lt_ge_cases x d) as [L|L].
      - rewrite (Nat.mod_small x) by auto. apply OReach_parent; auto.
      - replace x with (d + (x - d)) in E by lia.
        assert (E2 : T (x - d) = Some (p - d)).
        { apply (back_parent T t T); auto. repeat split; try lia.
          rewrite E. f_equal. lia. }
        assert (Hx' : x mod d = x - d).
        { replace x with ((x - d) + 1 * d) at 1 by lia. rewrite Nat.mod_add by lia.
          apply Nat.mod_small. lia. }
        assert (Hp' : p mod d = p - d).
        { replace p with ((p - d) + 1 * d) at 1 by lia. rewrite Nat.mod_add by lia.
          apply Nat.mod_small. lia. }
        rewrite Hx', Hp'.
        (* T (x-d) = p-d, so the front parent of x-d in t is the same *)
        assert (E3 : t (x - d) = Some (p - d)).
        { assert (HF : Fill (repQ T) (p - d) (x - d)).
          { apply Fill_base; [left; auto|lia]. }
          destruct (etree_parent _ _ HE _ _ HF) as (r & Er & Hr & Hr').
          destruct Hr' as [->|Hr']; auto. exfalso.
          assert (HF2 : Fill (repQ T) r (x - d)) by (eapply etree_Fill; eauto).
          pose proof (Fill_lt _ _ _ HF2) as Hlt.
          (* rows below d only contain the edges of T *)
          assert (Hfront : forall a b, Fill (repQ T) a b -> a < d -> T b = Some a).
          { intros a b H0. induction H0 as [i j [Hb|Hb] Hl|i j k H1 IH1 H2 IH2 Hk Hj];
              intros Hi; auto.
            - apply rowsBA_bound in Hb. lia.
            - rewrite IH2 in IH1 by lia. specialize (IH1 Hi). injection IH1 as Eq. lia. }
          pose proof (Hfront _ _ Hr' ltac:(lia)) as E4.
          pose proof (Hfront _ _ HF2 ltac:(apply HT in E4; lia)) as E5.
          rewrite E2 in E5. injection E5 as E5. apply HT in E4. lia. }
        rewrite <- (Nat.mod_small (p - d) d) by lia.
        apply OReach_parent; auto. lia.
    Qed.

    Lemma rep_closed : closedRepeated Dpat Spat Opat.
    Proof.
      constructor.
      - intros i j k Hk Hj (Hi & Hkd & F1) (Hjd & _ & F2). repeat split; auto.
        eapply Fill_elim; eauto; lia.
      - intros i j k Hk (Hi & Hkd & F1) HD.
        pose proof HD as (Hjd & _ & _). repeat split; auto.
        eapply Fill_along; eauto; [apply D_Anc; auto|lia].
      - intros i j k Hj (Hi & Hkd & F1) (Hjd & _ & F2). repeat split; auto.
        eapply Fill_elim; eauto; lia.
      - intros i j k Hk (c & Hc & HR) HD.
        exists c. split; auto. eapply OReach_trans; eauto.
        pose proof HD as (Hjd & Hkd & _).
        rewrite <- (Nat.mod_small k d), <- (Nat.mod_small j d) by auto.
        apply Anc_OReach; [lia|]. apply D_Anc; auto.
      - intros i j k (c & Hc & HR) (Hjd & Hkd & HF).
        exists c. split; auto. eapply OReach_trans; eauto.
        apply (Fill_Anc _ _ HE) in HF. apply Anc_OReach in HF; [|lia].
        rewrite Nat.mod_small in HF by auto.
        replace ((d + j) mod d) with j in HF; auto.
        replace (d + j) with (j + 1 * d) by lia. rewrite Nat.mod_add by lia.
        symmetry. apply Nat.mod_small. auto.
    Qed.

    Lemma rep_A i j : A i j -> Dpat i j.
    Proof.
      intros H. pose proof (HA _ _ H). repeat split; try lia.
      apply Fill_base; [|lia]. right; right. exists i, j. auto.
    Qed.

    Lemma rep_B i j : B i j -> Spat i j.
    Proof.
      intros H. pose proof (HB _ _ H). repeat split; try lia.
      apply Fill_base; [|lia]. right; left. exists i. auto.
    Qed.

    Lemma rep_C i j : C i j -> Opat i j.
    Proof. intros H. exists j. split; auto. constructor. Qed.

    Lemma Opat_bound i j : Opat i j -> j < d.
    Proof. intros (c & Hc & HR). eapply OReach_bound; eauto. Qed.
  End FixedPoint.

  (** ** tightness *)

  (** every edge of T is an ancestor relation inside block k of every big
      enough matrix *)
  Definition reached (k : nat) (T : ptree) : Prop :=
    forall N tb, k < N -> isEtree (repeated N d A B C) tb ->
    forall x p, T x = Some p -> Anc tb (k * d + x) (k * d + p).

  Lemma reached_empty T : (forall x, T x = None) -> reached 0 T.
  Proof. intros H N tb _ _ x p E. rewrite H in E. discriminate. Qed.

  Lemma repeated_rows N a b : repeated N d A B C a b -> b < a.
  Proof.
    intros [(t & i & j & Ht & -> & -> & H)|[(t & i & j & Ht & -> & -> & H)|
            (t & i & j & Ht & -> & -> & H)]].
    - apply HA in H. lia.
    - apply HB in H. nia.
    - apply HC in H. nia.
  Qed.

  Section Tight.
    Context (k : nat) (T t : ptree) (HT : below d T) (HE : isEtree (repQ T) t)
            (HR : reached k T).

    Lemma rep_embed N tb x y : S k < N -> isEtree (repeated N d A B C) tb ->
      Anc t x y -> Anc tb (k * d + x) (k * d + y).
    Proof.
      intros HN HEb HAn.
      assert (HF : forall a b, Fill (repQ T) a b -> Anc tb (k * d + b) (k * d + a)).
      { intros a b. induction 1 as [i j [Hb|Hb] Hl|i j m H1 IH1 H2 IH2 Hk Hj].
        - apply (HR N tb); auto. lia.
        - destruct Hb as [(i' & -> & H)|(i' & j' & -> & -> & H)].
          + eapply Fill_Anc; eauto. apply Fill_base.
            * right; left. exists k, i', j. repeat split; auto. lia.
            * apply HB in H. lia.
          + eapply Fill_Anc; eauto. apply Fill_base.
            * left. exists (S k), i', j'. repeat split; auto; lia.
            * apply HA in H. lia.
        - eapply Anc_linear_lt; eauto; [eapply etree_asc; eauto|lia]. }
      induction HAn as [x|x p y E H IH]; [constructor|].
      eapply Anc_trans; [apply HF; eapply etree_Fill; eauto|auto].
    Qed.

    Lemma reached_step T' : backOf t T' -> reached (S k) T'.
    Proof.
      intros HBk N tb HN HEb x p E.
      apply (back_parent T t T') in E; auto. destruct E as (Hx & Hp & E).
      replace (S k * d + x) with (k * d + (d + x)) by lia.
      replace (S k * d + p) with (k * d + (d + p)) by lia.
      apply (rep_embed N); auto. apply Anc_one; auto.
    Qed.

    Lemma tight_D N i j : S k < N -> (exists tb, isEtree (repeated N d A B C) tb) ->
      Dpat T i j -> Fill (repeated N d A B C) (S k * d + i) (S k * d + j).
    Proof.
      intros HN (tb & HEb) (Hi & Hj & HF).
      pose proof (Fill_lt _ _ _ HF) as Hlt.
      destruct (Fill_row_path _ _ _ _ HE HF) as (c & Hq & Hc & HAn).
      apply (rep_embed N tb) in HAn; auto.
      replace (S k * d + j) with (k * d + (d + j)) by lia.
      destruct Hq as [Hq|[(i' & Ei & H)|(i' & j' & Ei & -> & H)]].
      - apply HT in Hq. lia.
      - assert (i' = i) by lia. subst i'.
        apply Fill_path_row with (T := tb) (c := k * d + c); auto; try lia.
        right; left. exists k, i, c. auto.
      - assert (i' = i) by lia. subst i'.
        apply Fill_path_row with (T := tb) (c := k * d + (d + j')); auto; try lia.
        left. exists (S k), i, j'. repeat split; auto; lia.
    Qed.

    Lemma tight_S N i j : S k < N -> (exists tb, isEtree (repeated N d A B C) tb) ->
      Spat T i j -> Fill (repeated N d A B C) (S k * d + i) (k * d + j).
    Proof.
      intros HN (tb & HEb) (Hi & Hj & HF).
      pose proof (Fill_lt _ _ _ HF) as Hlt.
      destruct (Fill_row_path _ _ _ _ HE HF) as (c & Hq & Hc & HAn).
      apply (rep_embed N tb) in HAn; auto.
      destruct Hq as [Hq|[(i' & Ei & H)|(i' & j' & Ei & -> & H)]].
      - apply HT in Hq. lia.
      - assert (i' = i) by lia. subst i'.
        apply Fill_path_row with (T := tb) (c := k * d + c); auto; try lia.
        right; left. exists k, i, c. auto.
      - assert (i' = i) by lia. subst i'.
        apply Fill_path_row with (T := tb) (c := k * d + (d + j')); auto; try lia.
        left. exists (S k), i, j'. repeat split; auto; lia.
    Qed.
  End Tight.

  (** outer row: the walk may move on to the next block *)
  Section TightOuter.
    Context (k : nat) (T t : ptree) (HT : below d T) (HE : isEtree (repQ T) t)
            (HBk : backOf t T) (HR : reached k T).

    Lemma reached_fix m : reached (m + k) T.
    Proof.
      induction m as [|m IH]; auto. apply (reached_step (m + k) T t); auto.
    Qed.

    Lemma tight_OReach c x : OReach t c x -> c < d ->
      exists m, forall l N tb, m + l + k + 1 < N -> isEtree (repeated N d A B C) tb ->
        Anc tb ((l + k) * d + c) ((m + l + k) * d + x).
    Proof.
      intros H Hc. induction H as [c|c x H IH].
      - exists 0. intros. constructor.
      - destruct (IH Hc) as (m & Hm).
        pose proof (OReach_bound t c x H Hc) as Hx.
        unfold opar. destruct (t x) as [p|] eqn:E; [|eauto].
        pose proof (t_bound T t HT HE _ _ E) as Hp.
        destruct (Nat.lt_ge_cases p d) as [L|L].
        + exists m. intros l N tb HN HEb. rewrite Nat.mod_small by auto.
          eapply Anc_trans; [apply (Hm l N tb); auto|].
          apply (rep_embed (m + l + k) T t HE (reached_fix (m + l)) N tb); auto; [lia|].
          apply Anc_one; auto.
        + exists (S m). intros l N tb HN HEb.
          assert (Ep : p mod d = p - d).
          { replace p with ((p - d) + 1 * d) at 1 by lia. rewrite Nat.mod_add by lia.
            apply Nat.mod_small. lia. }
          rewrite Ep.
          eapply Anc_trans; [apply (Hm l N tb); auto; lia|].
          replace ((S m + l + k) * d + (p - d)) with ((m + l + k) * d + p) by lia.
          apply (rep_embed (m + l + k) T t HE (reached_fix (m + l)) N tb); auto; [lia|].
          apply Anc_one; auto.
    Qed.

    Lemma tight_O i j : Opat t i j ->
      exists m, forall N r, m <= r -> S r < N ->
        (exists tb, isEtree (repeated N d A B C) tb) ->
        Fill (repeated N d A B C) (N * d + i) (r * d + j).
    Proof.
      intros (c & Hc & HO).
      pose proof (HC _ _ Hc) as Hcd. pose proof (OReach_bound t c j HO Hcd) as Hj.
      destruct (tight_OReach c j HO Hcd) as (m & Hm). exists (m + k).
      intros N r Hr HN (tb & HEb).
      set (l := r - (m + k)).
      apply Fill_path_row with (T := tb) (c := (l + k) * d + c); auto.
      - right; right. exists (l + k), i, c. repeat split; auto. lia.
      - assert ((l + k) * d + d <= N * d) by (unfold l; nia). lia.
      - replace r with (m + l + k) by lia. apply (Hm l N tb); auto. lia.
      - assert (r * d + d <= N * d) by nia. lia.
    Qed.

    Lemma tight_D' N r i j : k <= r -> S r < N ->
      (exists tb, isEtree (repeated N d A B C) tb) ->
      Dpat T i j -> Fill (repeated N d A B C) (S r * d + i) (S r * d + j).
    Proof.
      intros Hr. replace r with (r - k + k) by lia. intros HN.
      apply (tight_D (r - k + k) T t); auto. apply reached_fix.
    Qed.

    Lemma tight_S' N r i j : k <= r -> S r < N ->
      (exists tb, isEtree (repeated N d A B C) tb) ->
      Spat T i j -> Fill (repeated N d A B C) (S r * d + i) (r * d + j).
    Proof.
      intros Hr. replace r with (r - k + k) by lia. intros HN.
      apply (tight_S (r - k + k) T t); auto. apply reached_fix.
    Qed.
  End TightOuter.

  (** ** closed block patterns cover the factor of every repetition *)

  Lemma repeated_cover (D S' O : pattern) N :
    closedRepeated D S' O ->
    (forall i j, A i j -> D i j) -> (forall i j, B i j -> S' i j) ->
    (forall i j, C i j -> O i j) ->
    (forall i j, D i j -> j < i /\ i < d) -> (forall i j, S' i j -> i < d /\ j < d) ->
    (forall i j, O i j -> j < d) ->
    forall a b, Fill (repeated N d A B C) a b ->
      (exists t i j, t < N /\ a = t * d + i /\ b = t * d + j /\ D i j) \/
      (exists t i j, S t < N /\ a = S t * d + i /\ b = t * d + j /\ S' i j) \/
      (exists t i j, t < N /\ a = N * d + i /\ b = t * d + j /\ O i j) \/
      (N * d <= b /\ N * d <= a).
  Proof.
    intros [CDD CSD CSS COD COS] H1 H2 H3 B1 B2 B3 a b HF.
    assert (Hdec : forall t i t' i', i < d -> i' < d -> t * d + i = t' * d + i' ->
              t = t' /\ i = i').
    { intros t i t' i' Hi Hi' E.
      assert (t = t') by (destruct (Nat.lt_trichotomy t t') as [L|[L|L]]; auto; nia).
      subst. split; auto. lia. }
    induction HF as [a b Hb Hl|a b k F1 IH1 F2 IH2 Hk Hj].
    - destruct Hb as [(t & i & j & Ht & E1 & E2 & H)|[(t & i & j & Ht & E1 & E2 & H)|
            (t & i & j & Ht & E1 & E2 & H)]].
      + left. exists t, i, j. auto.
      + right; left. exists t, i, j. auto.
      + right; right; left. exists t, i, j. auto.
    - destruct IH1 as [(t & i & x & Ht & E1 & E2 & H)|[(t & i & x & Ht & E1 & E2 & H)|
            [(t & i & x & Ht & E1 & E2 & H)|[E1 E2]]]];
      [pose proof (B1 _ _ H)|pose proof (B2 _ _ H)|pose proof (B3 _ _ H)|];
      (destruct IH2 as [(t' & j & x' & Ht' & E1' & E2' & H')|
            [(t' & j & x' & Ht' & E1' & E2' & H')|
            [(t' & j & x' & Ht' & E1' & E2' & H')|[E1' E2']]]];
      [pose proof (B1 _ _ H')|pose proof (B2 _ _ H')|pose proof (B3 _ _ H')|]);
      try (destruct (Hdec t x t' x') as [<- <-]; [lia|lia|congruence|]);
      try (exfalso; nia).
      + left. exists t, i, j. repeat split; auto. apply CDD with (k := x); auto; lia.
      + right; left. exists t, i, j. repeat split; auto. apply CSD with (k := x); auto; lia.
      + left. exists (S t), i, j. repeat split; auto. apply CSS with (k := x); auto; lia.
      + right; right; left. exists t, i, j. repeat split; auto.
        apply COD with (k := x); auto; lia.
      + right; right; left. exists (S t), i, j. repeat split; auto.
        apply COS with (k := x); auto.
      + right; right; right. nia.
      + right; right; right. nia.
  Qed.
End Rep.

(** every finite pattern has an elimination tree *)
Lemma etree_exists (Q : pattern) n es :
  (forall i j, In (i, j) es <-> Q i j) -> (forall i j, Q i j -> i < n /\ j < n) ->
  exists T, isEtree Q T.
Proof.
  intros Hes HB.
  assert (W : wf_sp (mkSp n n es)).
  { intros i j Hin. cbn in *. apply HB, Hes; auto. }
  destruct (toCSR_ok _ W) as (c & _ & Wc & Hr & Hc & HP & _).
  cbn [nrows ncols entries] in *.
  destruct (computeEliminationTree_ok c Wc) as (t & _ & _ & HE); [lia|].
  exists (par t). eapply isEtree_ext; [|exact HE]. intros i j _.
  unfold entriesPat. rewrite <- Hes.
  split; apply Permutation_in; [|apply Permutation_sym]; auto.
Qed.

Definition shiftUp (a b : nat) (e : nat * nat) : nat * nat := (a + fst e, b + snd e).

Definition repeatedList (N d : nat) (eA eB eC : list (nat * nat)) : list (nat * nat) :=
  flat_map (fun t => map (shiftUp (t * d) (t * d)) eA ++
                     (if S t <? N then map (shiftUp (S t * d) (t * d)) eB else []) ++
                     map (shiftUp (N * d) (t * d)) eC) (seq 0 N).

Lemma shiftUp_In a b es i j :
  In (i, j) (map (shiftUp a b) es) <->
  exists i' j', i = a + i' /\ j = b + j' /\ In (i', j') es.
Proof.
  rewrite in_map_iff. split.
  - intros ([i' j'] & E & H). injection E as <- <-. exists i', j'. auto.
  - intros (i' & j' & -> & -> & H). exists (i', j'). auto.
Qed.

Lemma repeatedList_In N d eA eB eC i j :
  In (i, j) (repeatedList N d eA eB eC) <->
  repeated N d (entriesPat eA) (entriesPat eB) (entriesPat eC) i j.
Proof.
  unfold repeatedList, repeated, entriesPat. rewrite in_flat_map. split.
  - intros (t & Ht & H). apply in_seq in Ht. rewrite !in_app_iff in H.
    destruct H as [H|[H|H]].
    + apply shiftUp_In in H. destruct H as (i' & j' & -> & -> & H).
      left. exists t, i', j'. repeat split; auto. lia.
    + destruct (Nat.ltb_spec (S t) N); [|destruct H].
      apply shiftUp_In in H. destruct H as (i' & j' & -> & -> & H).
      right; left. exists t, i', j'. auto.
    + apply shiftUp_In in H. destruct H as (i' & j' & -> & -> & H).
      right; right. exists t, i', j'. repeat split; auto. lia.
  - intros [(t & i' & j' & Ht & -> & -> & H)|[(t & i' & j' & Ht & -> & -> & H)|
            (t & i' & j' & Ht & -> & -> & H)]]; exists t;
      (split; [apply in_seq; lia|]); rewrite !in_app_iff.
    + left. apply shiftUp_In. exists i', j'. auto.
    + right; left. destruct (Nat.ltb_spec (S t) N); [|lia].
      apply shiftUp_In. exists i', j'. auto.
    + right; right. apply shiftUp_In. exists i', j'. auto.
Qed.

Lemma eventually_all {X} (P : X -> nat -> Prop) l :
  (forall e, In e l -> exists m, forall t, m <= t -> P e t) ->
  exists m, forall t e, m <= t -> In e l -> P e t.
Proof.
  induction l as [|a l IH]; intros H.
  - exists 0. intros t e _ [].
  - destruct IH as (m1 & H1); [intros; apply H; right; auto|].
    destruct (H a (or_introl eq_refl)) as (m2 & H2).
    exists (m1 + m2). intros t e Ht [<-|Hin]; [apply H2; lia|apply H1; auto; lia].
Qed.
