(** Elimination trees: [addRowEliminationTree] and walks in the tree. *)
From Coq Require Import List Arith Lia Bool Permutation.
From Verif Require Import Base ModelPerm ModelSparsity ModelSymbolic SpecSymbolic.
From Verif Require Import ProofBase ProofPerm ProofCsr ProofSparsity.
Import ListNotations.

(** ** the fill pattern *)

Lemma Fill_lt Q i j : Fill Q i j -> j < i.
Proof. induction 1; lia. Qed.

Lemma Fill_mono (Q Q' : pattern) i j :
  (forall i j, j < i -> Q i j -> Q' i j) -> Fill Q i j -> Fill Q' i j.
Proof.
  intros H. induction 1 as [i j Hb Hl|i j k H1 IH1 H2 IH2 Hk Hj].
  - apply Fill_base; auto.
  - eapply Fill_elim; eauto.
Qed.

Lemma Fill_ext (Q Q' : pattern) i j :
  (forall i j, j < i -> Q i j <-> Q' i j) -> Fill Q i j <-> Fill Q' i j.
Proof. intros H. split; apply Fill_mono; intros; apply H; auto. Qed.

Lemma Fill_mono_Fill (Q Q' : pattern) i j :
  (forall i j, j < i -> Q i j -> Fill Q' i j) -> Fill Q i j -> Fill Q' i j.
Proof.
  intros H. induction 1 as [i j Hb Hl|i j k H1 IH1 H2 IH2 Hk Hj]; auto.
  eapply Fill_elim; eauto.
Qed.

Lemma Fill_closed Q : closedPattern (Fill Q).
Proof. intros i j k Hk Hj H1 H2. eapply Fill_elim; eauto. Qed.

Lemma Fill_of_closed Q i j :
  closedPattern Q -> Fill Q i j <-> (Q i j /\ j < i).
Proof.
  intros HC. split.
  - induction 1 as [i j Hb Hl|i j k H1 [IH1 _] H2 [IH2 _] Hk Hj]; auto.
    split; auto. eapply HC; eauto.
  - intros [H1 H2]. apply Fill_base; auto.
Qed.

Lemma Fill_rows (Q : pattern) (i0 : nat) :
  (forall i j, Q i j -> j < i -> i <= i0) -> forall i j, Fill Q i j -> i <= i0.
Proof. intros H i j. induction 1; eauto. Qed.

(** ** ancestors *)

Definition ptree := nat -> option nat.

Inductive Anc (T : ptree) : nat -> nat -> Prop :=
| Anc_refl x : Anc T x x
| Anc_step x p y : T x = Some p -> Anc T p y -> Anc T x y.

Lemma Anc_trans T x y z : Anc T x y -> Anc T y z -> Anc T x z.
Proof. induction 1; auto. intros H1. eapply Anc_step; eauto. Qed.

Lemma Anc_one T x p : T x = Some p -> Anc T x p.
Proof. intros H. eapply Anc_step; [eauto|constructor]. Qed.

Definition ascending (T : ptree) : Prop := forall x p, T x = Some p -> x < p.

Lemma Anc_le T x y : ascending T -> Anc T x y -> x <= y.
Proof. intros HA. induction 1 as [|x p y E H IH]; auto. apply HA in E. lia. Qed.

Lemma Anc_linear T x y z : Anc T x y -> Anc T x z -> Anc T y z \/ Anc T z y.
Proof.
  induction 1 as [x|x p y E H IH]; intros Hz; auto.
  inversion Hz as [|x' p' z' E' H']; subst.
  - right. eapply Anc_step; eauto.
  - rewrite E in E'. injection E' as <-. auto.
Qed.

Lemma Anc_linear_lt T x y z :
  ascending T -> Anc T x y -> Anc T x z -> y <= z -> Anc T y z.
Proof.
  intros HA H1 H2 L. destruct (Anc_linear _ _ _ _ H1 H2) as [H|H]; auto.
  apply (Anc_le _ _ _ HA) in H as H'. replace z with y by lia. constructor.
Qed.

Lemma Anc_parent T x y :
  Anc T x y -> x <> y -> exists p, T x = Some p /\ Anc T p y.
Proof. intros H N. inversion H; subst; [congruence|eauto]. Qed.

Lemma Anc_mono (T T' : ptree) x y :
  (forall x p, T x = Some p -> T' x = Some p) -> Anc T x y -> Anc T' x y.
Proof. intros H. induction 1; [constructor|]. eapply Anc_step; eauto. Qed.

(** roots exist in bounded ascending trees *)
Lemma Anc_root T n x :
  ascending T -> (forall x p, T x = Some p -> p <= n) ->
  exists r, Anc T x r /\ T r = None /\ (r = x \/ r <= n).
Proof.
  intros HA HB. remember (S n - x) as m eqn:Em. revert x Em.
  induction m as [m IH] using lt_wf_ind; intros x Em.
  destruct (T x) as [p|] eqn:E.
  - pose proof (HA _ _ E). pose proof (HB _ _ E).
    destruct (IH (S n - p) ltac:(lia) p eq_refl) as (r & H1 & H2 & H3).
    exists r. split; [eapply Anc_step; eauto|]. split; auto. right. lia.
  - exists x. split; [constructor|auto].
Qed.

(** ** elimination trees *)

Definition isEtree (Q : pattern) (T : ptree) : Prop := forall j, isParent Q j (T j).

Lemma isEtree_ext (Q Q' : pattern) T :
  (forall i j, j < i -> Q i j <-> Q' i j) -> isEtree Q T -> isEtree Q' T.
Proof.
  intros H HE j. specialize (HE j).
  assert (HF : forall i j, Fill Q i j <-> Fill Q' i j) by (intros; apply Fill_ext; auto).
  unfold isParent in *. destruct (T j) as [r|].
  - destruct HE as [H1 H2]. split; [apply HF; auto|].
    intros r' Hr'. apply H2, HF; auto.
  - intros r' Hr'. apply (HE r'), HF; auto.
Qed.

Lemma isEtree_unique Q T T' : isEtree Q T -> isEtree Q T' -> forall j, T j = T' j.
Proof.
  intros H H' j. specialize (H j). specialize (H' j). unfold isParent in *.
  destruct (T j) as [r|], (T' j) as [r'|]; auto.
  - destruct H as [H1 H2], H' as [H3 H4]. f_equal.
    apply H2 in H3. apply H4 in H1. lia.
  - destruct H as [H1 _]. apply H' in H1. tauto.
  - destruct H' as [H1 _]. apply H in H1. tauto.
Qed.

Section Etree.
  Context (Q : pattern) (T : ptree) (HE : isEtree Q T).

  Lemma etree_Fill j r : T j = Some r -> Fill Q r j.
  Proof. intros E. specialize (HE j). rewrite E in HE. apply HE. Qed.

  Lemma etree_asc : ascending T.
  Proof. intros x p E. apply etree_Fill in E. apply Fill_lt in E. auto. Qed.

  Lemma etree_parent r' j :
    Fill Q r' j -> exists r, T j = Some r /\ r <= r' /\ (r = r' \/ Fill Q r' r).
  Proof.
    intros HF. specialize (HE j). unfold isParent in HE.
    destruct (T j) as [r|] eqn:E; [|apply HE in HF; tauto].
    destruct HE as [H1 H2]. exists r. split; auto.
    pose proof (H2 _ HF) as Hle. split; auto.
    destruct (Nat.eq_dec r r') as [->|N]; auto. right.
    pose proof (Fill_lt _ _ _ H1).
    eapply Fill_elim; eauto. lia.
  Qed.

  (** every nonzero of the factor is an ancestor relation *)
  Lemma Fill_Anc j k : Fill Q j k -> Anc T k j.
  Proof.
    remember (j - k) as m eqn:Em. revert k Em.
    induction m as [m IH] using lt_wf_ind; intros k Em HF.
    destruct (etree_parent _ _ HF) as (r & E & Hle & [->|HF']).
    - apply Anc_one; auto.
    - pose proof (etree_asc _ _ E).
      eapply Anc_step; eauto. apply (IH (j - r)); auto.
      apply Fill_lt in HF. lia.
  Qed.
End Etree.

(** ** adding one entry *)

Definition addEntry (Q : pattern) (i c : nat) : pattern :=
  fun a b => Q a b \/ (a = i /\ b = c).

Section AddEntry.
  Context (Q : pattern) (T : ptree) (HE : isEtree Q T).
  Context (i c : nat) (Hci : c < i).
  Context (HQ : forall a b, Q a b -> b < a -> a <= i).
  Let Q' := addEntry Q i c.

  Lemma addEntry_le a j : Fill Q a j -> Fill Q' a j.
  Proof. apply Fill_mono. unfold Q', addEntry. auto. Qed.

  Lemma addEntry_rows a j : Fill Q' a j -> a <= i.
  Proof.
    apply Fill_rows. unfold Q', addEntry. intros a' b' [H|[-> ->]] L; eauto.
  Qed.

  Lemma addEntry_old a j : a < i -> Fill Q' a j -> Fill Q a j.
  Proof.
    intros Ha HF. induction HF as [a j Hb Hl|a j k H1 IH1 H2 IH2 Hk Hj].
    - destruct Hb as [Hb|[-> ->]]; [|lia]. apply Fill_base; auto.
    - eapply Fill_elim; eauto. apply IH2. lia.
  Qed.

  Lemma addEntry_path j : Anc T c j -> j < i -> Fill Q' i j.
  Proof.
    assert (G : forall x, Anc T x j -> Fill Q' i x -> j < i -> Fill Q' i j).
    2:{ intros HA. apply (G c); auto. apply Fill_base; auto. right. auto. }
    intros x0 HA. induction HA as [x|x p y E H IH]; intros H0 Hy; auto.
    apply IH; auto.
    pose proof (Anc_le _ _ _ (etree_asc Q T HE) H) as Hle.
    pose proof (etree_Fill Q T HE _ _ E) as HF. pose proof (Fill_lt _ _ _ HF).
    eapply Fill_elim; eauto; [apply addEntry_le; auto|lia].
  Qed.

  Lemma addEntry_new j : Fill Q' i j -> Fill Q i j \/ Anc T c j.
  Proof.
    enough (G : forall a j, Fill Q' a j -> a = i -> Fill Q a j \/ Anc T c j)
      by (intros HF; apply G; auto).
    clear j. intros a j HF.
    induction HF as [a j Hb Hl|a j k H1 IH1 H2 IH2 Hk Hj]; intros Ea.
    - destruct Hb as [Hb|[_ ->]]; [left; apply Fill_base; auto|right; constructor].
    - subst a.
      assert (H2' : Fill Q j k) by (apply addEntry_old; auto; lia).
      destruct (IH1 eq_refl) as [H|H].
      + left. eapply Fill_elim; eauto.
      + right. eapply Anc_trans; eauto. eapply Fill_Anc; eauto.
  Qed.

  Lemma etree_bound x p : T x = Some p -> p <= i.
  Proof.
    intros E. apply (etree_Fill Q T HE) in E.
    eapply Fill_rows; [|exact E]. auto.
  Qed.

  (** the tree after adding the entry *)
  Lemma etree_add_same : Anc T c i -> isEtree Q' T.
  Proof.
    intros HA j. pose proof (HE j) as Hj. unfold isParent in *.
    destruct (T j) as [r|] eqn:E.
    - destruct Hj as [H1 H2]. split; [apply addEntry_le; auto|].
      intros r' HF. pose proof (addEntry_rows _ _ HF) as Hr'.
      destruct (Nat.eq_dec r' i) as [->|N].
      + apply etree_bound in E. lia.
      + apply H2, addEntry_old; auto. lia.
    - intros r' HF. pose proof (addEntry_rows _ _ HF) as Hr'.
      destruct (Nat.eq_dec r' i) as [->|N].
      + pose proof (Fill_lt _ _ _ HF) as Hlt.
        destruct (addEntry_new _ HF) as [H|H]; [eapply Hj; eauto|].
        assert (HA2 : Anc T j i).
        { eapply Anc_linear_lt; eauto; [eapply etree_asc; eauto|lia]. }
        apply Anc_parent in HA2; [|lia]. destruct HA2 as (p & Ep & _). congruence.
      + apply (Hj r'), addEntry_old; auto; lia.
  Qed.

  Lemma etree_add_root (rho : nat) (T' : ptree) :
    Anc T c rho -> T rho = None -> rho < i ->
    T' rho = Some i -> (forall x, x <> rho -> T' x = T x) -> isEtree Q' T'.
  Proof.
    intros HA Hr Hri E1 E2 j. pose proof (HE j) as Hj.
    assert (Hrho : j <> rho -> isParent Q' j (T' j)).
    { intros N. rewrite E2 by auto. unfold isParent in *.
      destruct (T j) as [r|] eqn:E.
      - destruct Hj as [H1 H2]. split; [apply addEntry_le; auto|].
        intros r' HF. pose proof (addEntry_rows _ _ HF) as Hr'.
        destruct (Nat.eq_dec r' i) as [->|N'].
        + apply etree_bound in E. lia.
        + apply H2, addEntry_old; auto. lia.
      - intros r' HF. pose proof (addEntry_rows _ _ HF) as Hr'.
        destruct (Nat.eq_dec r' i) as [->|N'].
        + destruct (addEntry_new _ HF) as [H|H]; [eapply Hj; eauto|].
          destruct (Anc_linear _ _ _ _ H HA) as [H3|H3].
          * apply Anc_parent in H3; auto. destruct H3 as (p & Ep & _). congruence.
          * apply Anc_parent in H3; auto. destruct H3 as (p & Ep & _). congruence.
        + apply (Hj r'), addEntry_old; auto; lia. }
    destruct (Nat.eq_dec j rho) as [->|N]; auto.
    rewrite E1. cbn [isParent]. split; [apply addEntry_path; auto|].
    intros r' HF. pose proof (addEntry_rows _ _ HF) as Hr'.
    destruct (Nat.eq_dec r' i) as [->|N]; auto.
    exfalso. unfold isParent in Hj. rewrite Hr in Hj.
    apply (Hj r'), addEntry_old; auto; lia.
  Qed.
End AddEntry.

(** ** the path-compressed climb *)

Definition par (t : tree) : ptree := fun x => nth x t None.

Lemma par_upd t i v x :
  i < length t -> par (upd t i v) x = if i =? x then v else par t x.
Proof. intros H. unfold par. apply nth_upd; auto. Qed.

(** [a] is a valid shortcut for node [x] *)
Definition shortcut (T : ptree) (x a : nat) : Prop :=
  match T x with
  | None => a = x
  | Some _ => x < a /\ Anc T x a
  end.

Definition ancOk (T : ptree) (anc : list nat) : Prop :=
  forall x, x < length anc -> shortcut T x (nth x anc 0).

Lemma climb_same T t anc i : forall fuel j,
  length t = length anc -> i < length anc ->
  (forall x, par t x = T x) -> ascending T -> ancOk T anc ->
  Anc T j i -> i - j < fuel ->
  exists anc', climb fuel i j (t, anc) = Ok (t, anc') /\
    length anc' = length anc /\ ancOk T anc'.
Proof.
  intros fuel. revert anc. induction fuel as [|fuel IH]; intros anc j Hlt Hi Ht HA HO HJ Hf;
    [lia|].
  cbn [climb].
  pose proof (Anc_le _ _ _ HA HJ) as Hji.
  rewrite (rd_nth _ _ 0) by lia. cbn [bind].
  set (a := nth j anc 0).
  destruct (Nat.ltb_spec a i) as [L|L].
  - assert (Hs : shortcut T j a) by (apply HO; lia).
    destruct (Nat.eq_dec j i) as [->|N].
    { exfalso. unfold shortcut in Hs. destruct (T i); lia. }
    destruct (Anc_parent _ _ _ HJ N) as (p & Ep & Hpi).
    unfold shortcut in Hs. rewrite Ep in Hs. destruct Hs as [Hja Haj].
    rewrite (rd_nth _ _ None) by lia. cbn [bind].
    assert (Et : nth j t None = Some p) by (rewrite <- Ep; apply Ht).
    rewrite Et. cbn [bind]. rewrite wr_ok by lia. cbn [bind].
    destruct (IH (upd anc j i) a) as (anc' & E & Hl & HO'); auto.
    + rewrite upd_length. auto.
    + rewrite upd_length. auto.
    + intros x Hx. rewrite upd_length in Hx. rewrite nth_upd by lia.
      destruct (Nat.eqb_spec j x) as [->|N']; [|apply HO; auto].
      unfold shortcut. rewrite Ep. split; [lia|auto].
    + eapply Anc_linear_lt; eauto. lia.
    + lia.
    + rewrite upd_length in Hl. exists anc'. auto.
  - exists anc. auto.
Qed.

Lemma climb_root T T' t anc i rho : forall fuel j,
  length t = length anc -> i < length anc -> rho < i ->
  (forall x, par t x = T x) -> ascending T -> ascending T' ->
  T rho = None -> T' rho = Some i -> (forall x, x <> rho -> T' x = T x) ->
  (forall x, x < length anc ->
     shortcut T x (nth x anc 0) \/ (x < j /\ shortcut T' x (nth x anc 0))) ->
  Anc T j rho -> rho - j + 1 < fuel ->
  exists anc', climb fuel i j (t, anc) = Ok (upd t rho (Some i), anc') /\
    length anc' = length anc /\ ancOk T' anc'.
Proof.
  intros fuel. revert anc. induction fuel as [|fuel IH];
    intros anc j Hlt Hi Hri Ht HA HA' Hrho E1 E2 HO HJ Hf; [lia|].
  pose proof (Anc_le _ _ _ HA HJ) as Hjr.
  assert (Hmono : forall x p, T x = Some p -> T' x = Some p).
  { intros x p E. destruct (Nat.eq_dec x rho) as [->|N]; [congruence|].
    rewrite E2; auto. }
  assert (Hsh : forall x a, x <> rho -> shortcut T x a -> shortcut T' x a).
  { intros x a N Hs. unfold shortcut in *. rewrite E2 by auto.
    destruct (T x); auto. destruct Hs. split; auto. eapply Anc_mono; eauto. }
  cbn [climb].
  rewrite (rd_nth _ _ 0) by lia. cbn [bind].
  set (a := nth j anc 0).
  assert (Hs : shortcut T j a).
  { destruct (HO j ltac:(lia)) as [H|[H _]]; [auto|lia]. }
  assert (Hji : Anc T' j i).
  { eapply Anc_trans; [eapply Anc_mono; eauto|]. apply Anc_one; auto. }
  destruct (Nat.eq_dec j rho) as [->|N].
  - (* the root itself *)
    unfold shortcut in Hs. rewrite Hrho in Hs. rewrite Hs.
    destruct (Nat.ltb_spec rho i) as [L|L]; [|lia].
    rewrite (rd_nth _ _ None) by lia. cbn [bind].
    assert (Et : nth rho t None = None) by (etransitivity; [apply Ht|exact Hrho]).
    rewrite Et. rewrite wr_ok by lia. cbn [bind].
    rewrite wr_ok by lia. cbn [bind].
    destruct fuel as [|fuel]; [lia|]. cbn [climb].
    rewrite (rd_nth _ _ 0) by (rewrite upd_length; lia). cbn [bind].
    rewrite nth_upd_eq by lia. rewrite Nat.ltb_irrefl.
    eexists. split; [reflexivity|]. rewrite upd_length. split; auto.
    intros x Hx. rewrite upd_length in Hx. rewrite nth_upd by lia.
    destruct (Nat.eqb_spec rho x) as [<-|N'].
    + unfold shortcut. rewrite E1. split; auto.
    + destruct (HO x Hx) as [H|[_ H]]; auto.
  - destruct (Anc_parent _ _ _ HJ N) as (p & Ep & Hpi).
    unfold shortcut in Hs. rewrite Ep in Hs. destruct Hs as [Hja Haj].
    assert (Har : Anc T a rho).
    { destruct (Anc_linear _ _ _ _ Haj HJ) as [H|H]; auto.
      destruct (Nat.eq_dec rho a) as [->|N']; [constructor|].
      apply Anc_parent in H; auto. destruct H as (p' & E' & _). congruence. }
    pose proof (Anc_le _ _ _ HA Har) as Hle.
    destruct (Nat.ltb_spec a i) as [L|L]; [|lia].
    rewrite (rd_nth _ _ None) by lia. cbn [bind].
    assert (Et : nth j t None = Some p) by (rewrite <- Ep; apply Ht).
    rewrite Et. cbn [bind]. rewrite wr_ok by lia. cbn [bind].
    destruct (IH (upd anc j i) a) as (anc' & E & Hl & HO'); auto.
    + rewrite upd_length. auto.
    + rewrite upd_length. auto.
    + intros x Hx. rewrite upd_length in Hx. rewrite nth_upd by lia.
      destruct (Nat.eqb_spec j x) as [<-|N'].
      * right. split; auto. unfold shortcut.
        rewrite (E2 j N), Ep. split; [lia|auto].
      * destruct (HO x Hx) as [H|[H1 H2]]; auto. right. split; auto. lia.
    + lia.
    + rewrite upd_length in Hl. exists anc'. auto.
Qed.

(** ** the state of the elimination tree computation *)

Record etInv (n i : nat) (Q : pattern) (st : tree * list nat) : Prop := mkEtInv {
  ei_t : length (fst st) = n;
  ei_a : length (snd st) = n;
  ei_rows : forall a b, Q a b -> b < a -> a <= i;
  ei_tree : isEtree Q (par (fst st));
  ei_anc : ancOk (par (fst st)) (snd st) }.

Lemma etInv_ext n i Q Q' st :
  (forall a b, b < a -> Q a b <-> Q' a b) -> etInv n i Q st -> etInv n i Q' st.
Proof.
  intros H [H1 H2 H4 H5 H6]. constructor; auto.
  - intros a b Hq L. apply (H4 a b); auto. apply H; auto.
  - eapply isEtree_ext; eauto.
Qed.

Lemma etInv_row n i i' Q st : i <= i' -> etInv n i Q st -> etInv n i' Q st.
Proof.
  intros Hi [H1 H2 H4 H5 H6]. constructor; auto.
  intros a b Hq L. pose proof (H4 a b Hq L). lia.
Qed.

Lemma climb_ok n i Q st c :
  etInv n i Q st -> i < n -> c < n ->
  exists st', climb (length (snd st) + 2) i c st = Ok st' /\
    etInv n i (addEntry Q i c) st'.
Proof.
  intros [H1 H2 H4 H5 H6] H3 Hc. destruct st as [t anc]. cbn [fst snd] in *.
  destruct (Nat.lt_ge_cases c i) as [Hci|Hci].
  - pose proof (etree_asc Q _ H5) as HA.
    pose proof (etree_bound Q _ H5 i H4) as HB.
    destruct (Anc_root (par t) i c HA HB) as (r & Hr1 & Hr2 & Hr3).
    assert (Hri : r <= i) by lia.
    destruct (Nat.eq_dec r i) as [->|N].
    + destruct (climb_same (par t) t anc i (length anc + 2) c)
        as (anc' & E & Hl & HO); auto; try lia.
      exists (t, anc'). split; auto. constructor; cbn [fst snd]; auto; try lia.
      * intros a b [Hq|[-> ->]] L; auto. eapply H4; eauto.
      * apply etree_add_same; auto.
    + set (t' := upd t r (Some i)).
      assert (Ht' : forall x, par t' x = if r =? x then Some i else par t x)
        by (intros; apply par_upd; lia).
      assert (HE' : isEtree (addEntry Q i c) (par t')).
      { apply (etree_add_root Q (par t) H5 i c Hci H4 r); auto; [lia| |].
        - rewrite Ht', Nat.eqb_refl. auto.
        - intros x Hx. rewrite Ht'. destruct (Nat.eqb_spec r x); congruence. }
      destruct (climb_root (par t) (par t') t anc i r (length anc + 2) c)
        as (anc' & E & Hl & HO); auto; try lia.
      * eapply etree_asc; eauto.
      * rewrite Ht', Nat.eqb_refl. auto.
      * intros x Hx. rewrite Ht'. destruct (Nat.eqb_spec r x); congruence.
      * exists (t', anc'). split; auto.
        constructor; cbn [fst snd]; auto; try lia.
        -- unfold t'. rewrite upd_length. auto.
        -- intros a b [Hq|[-> ->]] L; auto. eapply H4; eauto.
  - (* entries on or above the diagonal change nothing *)
    replace (length anc + 2) with (S (length anc + 1)) by lia. cbn [climb].
    rewrite (rd_nth _ _ 0) by lia. cbn [bind].
    assert (Hs : shortcut (par t) c (nth c anc 0)) by (apply H6; lia).
    assert (Hge : (nth c anc 0 <? i) = false).
    { apply Nat.ltb_ge. unfold shortcut in Hs. destruct (par t c); lia. }
    rewrite Hge. exists (t, anc). split; auto.
    apply (etInv_ext n i Q); [|constructor; auto].
    intros a b L. unfold addEntry. split; auto. intros [H|[-> ->]]; auto. lia.
Qed.

(** the pattern after adding the entries of one row of one block *)
Definition addRow (Q : pattern) (sp : csr) (row ro co : nat) : pattern :=
  fun a b => Q a b \/
    (a = row + ro /\ exists c, In (row, c) (c_entries sp) /\ b = c + co).

Lemma addRow_ok n Q st sp row ro co :
  etInv n (row + ro) Q st -> row + ro < n -> wf_csr sp -> row < c_rows sp ->
  c_rows sp <= n -> c_cols sp + co <= n ->
  exists st', addRowEliminationTree sp row ro co st = Ok st' /\
    etInv n (row + ro) (addRow Q sp row ro co) st'.
Proof.
  intros HI Hi W Hrow Hn Hc. unfold addRowEliminationTree.
  rewrite pre_ok by (apply Nat.leb_le; rewrite (ei_t _ _ _ _ HI); auto). cbn [bind].
  rewrite (wf_rowView sp W) by auto. cbn [bind].
  set (f := fun st e => _).
  destruct (foldM_split f (fun p st => etInv n (row + ro)
      (fun a b => Q a b \/ (a = row + ro /\ exists c, In (row, c) p /\ b = c + co)) st)
      (rowf (c_entries sp) row) st) as (st' & E & HI').
  - eapply etInv_ext; [|exact HI]. intros a b _. split; auto.
    intros [H|(_ & c & [] & _)]; auto.
  - intros p e q st1 Eq HI1.
    assert (Hin : In e (rowf (c_entries sp) row)).
    { rewrite Eq. apply in_or_app. right; left; auto. }
    destruct e as [r c]. apply rowf_In in Hin. cbn [fst snd] in *.
    destruct Hin as [Hin ->]. apply (wfc_bounds sp W) in Hin.
    unfold f. cbn [snd].
    destruct (climb_ok n (row + ro) _ st1 (c + co) HI1 Hi) as (st2 & E2 & HI2); [lia|].
    exists st2. split; auto. eapply etInv_ext; [|exact HI2].
    intros a b _. unfold addEntry. split.
    + intros [[H|(Ha & c' & Hc' & Hb)]|[Ha Hb]]; auto.
      * right. split; auto. exists c'. split; auto. apply in_or_app; auto.
      * right. split; auto. exists c. split; auto. apply in_or_app. right; left; auto.
    + intros [H|(Ha & c' & Hc' & Hb)]; auto.
      apply in_app_or in Hc'. destruct Hc' as [Hc'|[Hc'|[]]].
      * left. right. eauto.
      * injection Hc' as <-. auto.
  - exists st'. split; auto. eapply etInv_ext; [|exact HI'].
    intros a b _. unfold addRow. split; intros [H|(Ha & c' & Hc' & Hb)]; auto.
    + right. split; auto. exists c'. split; auto. apply rowf_In in Hc'. tauto.
    + right. split; auto. exists c'. split; auto. apply rowf_In. auto.
Qed.

(** initial state *)
Lemma par_empty n x : par (emptyTree n) x = None.
Proof.
  unfold par, emptyTree. destruct (Nat.lt_ge_cases x n) as [L|L].
  - apply nth_repeat_lt; auto.
  - apply nth_overflow. rewrite repeat_length. auto.
Qed.

Lemma Fill_empty (Q : pattern) i j :
  (forall i j, j < i -> ~ Q i j) -> ~ Fill Q i j.
Proof. intros H. induction 1; auto. eapply H; eauto. Qed.

Lemma etInv_empty n i (Q : pattern) :
  (forall i j, j < i -> ~ Q i j) ->
  etInv n i Q (emptyTree n, seq 0 n).
Proof.
  intros HQ. constructor; cbn [fst snd]; auto.
  - apply repeat_length.
  - apply seq_length.
  - intros a b Hq L. exfalso. eapply HQ; eauto.
  - intros j. rewrite par_empty. cbn. intros r. apply Fill_empty; auto.
  - intros x Hx. rewrite seq_length in Hx. unfold shortcut. rewrite par_empty.
    rewrite seq_nth; auto.
Qed.

(** ** walks *)

Definition marked (visitor : list nat) (i x : nat) : Prop :=
  nth_error visitor x = Some i.

Fixpoint unmarked (i : nat) (visitor : list nat) : nat :=
  match visitor with
  | [] => 0
  | v :: vs => (if v =? i then 0 else 1) + unmarked i vs
  end.

Lemma unmarked_le i v : unmarked i v <= length v.
Proof. induction v as [|a v IH]; cbn; auto. destruct (a =? i); lia. Qed.

Lemma unmarked_upd i v j a :
  nth_error v j = Some a -> a <> i -> unmarked i v = S (unmarked i (upd v j i)).
Proof.
  revert j; induction v as [|b v IH]; destruct j as [|j]; cbn [nth_error unmarked upd];
    intros H N; try discriminate.
  - injection H as ->. apply Nat.eqb_neq in N. rewrite N, Nat.eqb_refl. auto.
  - rewrite (IH j) by auto. lia.
Qed.

Inductive Reach (gp : nat -> res nat) : nat -> nat -> Prop :=
| Reach_refl x : Reach gp x x
| Reach_step x y p : Reach gp x y -> gp y = Ok p -> Reach gp x p.

Lemma walk_ok gp (G : nat -> Prop) i : forall fuel j v calls,
  (forall x, G x -> x < length v) ->
  (forall x, G x -> ~ marked v i x -> exists p, gp x = Ok p /\ G p) ->
  G j -> unmarked i v < fuel ->
  exists v' new, walk fuel gp i j (v, calls) = Ok (v', calls ++ map (pair i) new) /\
    length v' = length v /\
    NoDup new /\
    (forall x, In x new -> G x /\ ~ marked v i x) /\
    (forall x, In x new -> marked v' i x) /\
    (forall x, ~ In x new -> nth_error v' x = nth_error v x) /\
    marked v' i j /\
    (forall x, In x new -> exists p, gp x = Ok p /\ marked v' i p) /\
    (forall x, In x new -> Reach gp j x).
Proof.
  induction fuel as [|fuel IH]; intros j v calls Hlen HG Hj Hf; [lia|].
  cbn [walk]. pose proof (Hlen _ Hj) as Hjl.
  destruct (rd_lt v j Hjl) as (a & Ea). rewrite Ea. cbn [bind].
  apply rd_ok in Ea.
  destruct (Nat.eqb_spec a i) as [->|N].
  - exists v, []. cbn [map]. rewrite app_nil_r.
    split; auto. split; auto. split; [constructor|].
    repeat split; auto; firstorder.
  - rewrite wr_ok by auto. cbn [bind].
    assert (Hnm : ~ marked v i j) by (unfold marked; congruence).
    destruct (HG j Hj Hnm) as (p & Ep & Hp). rewrite Ep. cbn [bind].
    assert (Hmu : forall x, marked (upd v j i) i x <-> x = j \/ marked v i x).
    { intros x. unfold marked. rewrite nth_error_upd by auto.
      destruct (Nat.eqb_spec j x) as [<-|N']; [tauto|].
      split; auto. intros [E|E]; congruence. }
    destruct (IH p (upd v j i) (calls ++ [(i, j)]))
      as (v' & new & E & Hl & ND & H1 & H2 & H3 & H4 & H5 & H6).
    + intros x Hx. rewrite upd_length. auto.
    + intros x Hx Hm. apply HG; auto. intros Hm'. apply Hm, Hmu; auto.
    + auto.
    + pose proof (unmarked_upd i v j a Ea N). lia.
    + rewrite upd_length in Hl.
      assert (Hjn : ~ In j new).
      { intros Hin. apply H1 in Hin. apply (proj2 Hin), Hmu. auto. }
      exists v', (j :: new). rewrite E. cbn [map]. rewrite <- app_assoc.
      split; [reflexivity|]. split; auto.
      split; [constructor; auto|].
      assert (Hjm : marked v' i j).
      { unfold marked. rewrite H3 by auto. rewrite nth_error_upd_eq; auto. }
      split; [|split; [|split; [|split; [|split]]]].
      * intros x [<-|Hin]; auto. apply H1 in Hin. destruct Hin as [Hg Hm].
        split; auto. intros Hm'. apply Hm, Hmu; auto.
      * intros x [<-|Hin]; auto.
      * intros x Hn. rewrite H3 by (intros Hin; apply Hn; right; auto).
        apply nth_error_upd_neq. intros ->. apply Hn. left; auto.
      * auto.
      * intros x [<-|Hin]; eauto.
      * intros x [<-|Hin]; [constructor|].
        pose proof (H6 x Hin) as HR.
        clear - HR Ep. induction HR as [x|x y p' HR IH E].
        -- eapply Reach_step; [constructor|eauto].
        -- eapply Reach_step; [apply IH; auto|eauto].
Qed.

(** state of the walks of one row; [stop] are the nodes that count as marked
    from the beginning, [S] the start nodes so far, [calls0] the earlier calls *)
Record rowInv (gp : nat -> res nat) (G stop S : nat -> Prop) (i m : nat)
    (calls0 : list entry) (st : list nat * list entry) (N : list nat) : Prop := mkRowInv {
  ri_len : length (fst st) = m;
  ri_calls : snd st = calls0 ++ map (pair i) N;
  ri_nodup : NoDup N;
  ri_marks : forall x, marked (fst st) i x <-> (stop x /\ x < m) \/ In x N;
  ri_new : forall x, In x N -> G x /\ ~ stop x;
  ri_start : forall x, S x -> stop x \/ In x N;
  ri_closed : forall x, In x N -> exists p, gp x = Ok p /\ (stop p \/ In p N);
  ri_reach : forall x, In x N -> exists s, S s /\ Reach gp s x;
  ri_old : forall x a, nth_error (fst st) x = Some a -> a = x \/ (x < a /\ a <= i) }.

Lemma rowInv_ext gp G stop (S S' : nat -> Prop) i m calls0 st N :
  (forall x, S x <-> S' x) ->
  rowInv gp G stop S i m calls0 st N -> rowInv gp G stop S' i m calls0 st N.
Proof.
  intros H [H1 H2 H3 H4 H5 H6 H7 H8 H9]. constructor; auto.
  - intros x Hx. apply H6, H; auto.
  - intros x Hx. destruct (H8 x Hx) as (s & Hs & HR). exists s. split; auto.
    apply H; auto.
Qed.

Lemma walkRow_ok gp G stop (S : nat -> Prop) i m calls0 st N c :
  rowInv gp G stop S i m calls0 st N ->
  (forall x, G x -> x < m) ->
  (forall x, G x -> ~ stop x -> x < i /\ exists p, gp x = Ok p /\ G p) ->
  G c ->
  exists st' N', walk (length (fst st) + 1) gp i c st = Ok st' /\
    rowInv gp G stop (fun x => S x \/ x = c) i m calls0 st' N'.
Proof.
  intros [H1 H2 H3 H4 H5 H6 H7 H8 H9] HG1 HG2 Hc. destruct st as [v calls].
  cbn [fst snd] in *.
  destruct (walk_ok gp G i (length v + 1) c v calls)
    as (v' & new & E & Hl & ND & A1 & A2 & A3 & A4 & A5 & A6); auto.
  - intros x Hx. rewrite H1. auto.
  - intros x Hx Hm. apply HG2; auto. intros Hs. apply Hm, H4. auto.
  - pose proof (unmarked_le i v). lia.
  - exists (v', calls ++ map (pair i) new), (N ++ new). split; auto.
    assert (Hmk : forall x, marked v' i x <-> (stop x /\ x < m) \/ In x (N ++ new)).
    { intros x. rewrite in_app_iff. split.
      - intros Hm. destruct (in_dec Nat.eq_dec x new) as [Hin|Hin]; auto.
        unfold marked in Hm. rewrite A3 in Hm by auto.
        apply H4 in Hm. tauto.
      - intros H. destruct (in_dec Nat.eq_dec x new) as [Hin|Hin]; auto.
        unfold marked. rewrite A3 by auto. apply H4. tauto. }
    constructor; cbn [fst snd]; auto.
    + rewrite Hl. auto.
    + rewrite H2, map_app, app_assoc. auto.
    + apply NoDup_app_intro; auto. intros x Hx Hx'. apply A1 in Hx'.
      apply (proj2 Hx'), H4. auto.
    + intros x Hx. apply in_app_or in Hx. destruct Hx as [Hx|Hx]; auto.
      pose proof (A1 x Hx) as [Hg Hm]. split; auto. intros Hs. apply Hm, H4. auto.
    + intros x [Hx| ->].
      * destruct (H6 x Hx); auto. right. apply in_or_app; auto.
      * apply Hmk in A4. tauto.
    + intros x Hx. apply in_app_or in Hx. destruct Hx as [Hx|Hx].
      * destruct (H7 x Hx) as (p & Ep & Hp). exists p. split; auto.
        rewrite in_app_iff. tauto.
      * destruct (A5 x Hx) as (p & Ep & Hp). exists p. split; auto.
        apply Hmk in Hp. tauto.
    + intros x Hx. apply in_app_or in Hx. destruct Hx as [Hx|Hx].
      * destruct (H8 x Hx) as (s & Hs & HR). eauto.
      * exists c. auto.
    + intros x a Ex. destruct (in_dec Nat.eq_dec x new) as [Hin|Hin].
      * apply A2 in Hin as Hm. unfold marked in Hm. right. rewrite Ex in Hm.
        injection Hm as ->. split; auto. apply A1 in Hin. destruct Hin as [Hg Hm].
        apply HG2; auto. intros Hs. apply Hm, H4. auto.
      * rewrite A3 in Ex by auto. eapply H9; eauto.
Qed.

Lemma foreachAncestor_ok gp G stop (S : nat -> Prop) sp row ro co m calls0 st N :
  rowInv gp G stop S (row + ro) m calls0 st N ->
  wf_csr sp -> row < c_rows sp ->
  (forall x, G x -> x < m) ->
  (forall x, G x -> ~ stop x -> x < row + ro /\ exists p, gp x = Ok p /\ G p) ->
  (forall c, In (row, c) (c_entries sp) -> G (c + co)) ->
  exists st' N',
    foreachAncestorInSubtreeImpl sp gp row ro co st = Ok st' /\
    rowInv gp G stop
      (fun x => S x \/ exists c, In (row, c) (c_entries sp) /\ x = c + co)
      (row + ro) m calls0 st' N'.
Proof.
  intros HI W Hrow HG1 HG2 HG3. unfold foreachAncestorInSubtreeImpl.
  rewrite (wf_rowView sp W) by auto. cbn [bind].
  set (f := fun st e => _).
  destruct (foldM_split f (fun p st => exists N', rowInv gp G stop
      (fun x => S x \/ exists c, In (row, c) p /\ x = c + co) (row + ro) m calls0 st N')
      (rowf (c_entries sp) row) st) as (st' & E & N' & HI').
  - exists N. eapply rowInv_ext; [|exact HI]. intros x. split; auto.
    intros [H|(c & [] & _)]; auto.
  - intros p e q st1 Eq (N1 & HI1).
    assert (Hin : In e (rowf (c_entries sp) row)).
    { rewrite Eq. apply in_or_app. right; left; auto. }
    destruct e as [r c]. apply rowf_In in Hin. cbn [fst snd] in *.
    destruct Hin as [Hin ->]. unfold f. cbn [snd].
    destruct (walkRow_ok gp G stop _ _ _ _ _ _ (c + co) HI1)
      as (st2 & N2 & E2 & HI2); auto.
    exists st2. split; auto. exists N2. eapply rowInv_ext; [|exact HI2].
    intros x. split.
    + intros [[H|(c' & Hc' & Hb)]|Hb]; auto.
      * right. exists c'. split; auto. apply in_or_app; auto.
      * right. exists c. split; auto. apply in_or_app. right; left; auto.
    + intros [H|(c' & Hc' & Hb)]; auto.
      apply in_app_or in Hc'. destruct Hc' as [Hc'|[Hc'|[]]].
      * left. right. eauto.
      * injection Hc' as <-. auto.
  - exists st', N'. split; auto. eapply rowInv_ext; [|exact HI'].
    intros x. split; intros [H|(c' & Hc' & Hb)]; auto; right; exists c'; split; auto.
    + apply rowf_In in Hc'. tauto.
    + apply rowf_In. auto.
Qed.

(** the result of the walks of one row in an elimination tree *)
Lemma row_is_Fill Q t i m calls0 st N (S : nat -> Prop) :
  isEtree Q (par t) ->
  rowInv (getParent t) (fun x => Anc (par t) x i) (fun x => x = i)
    S i m calls0 st N ->
  (forall x, S x <-> Q i x /\ x < i) ->
  forall x, In x N <-> Fill Q i x.
Proof.
  intros HE [H1 H2 H3 H4 H5 H6 H7 H8 H9] HS x.
  pose proof (etree_asc Q _ HE) as HA.
  assert (Hgp : forall y p, getParent t y = Ok p <-> par t y = Some p).
  { intros y p. unfold getParent, rd, par.
    destruct (nth_error t y) as [o|] eqn:E.
    - cbn [bind]. rewrite (nth_error_nth _ _ None E). destruct o; split; congruence.
    - cbn [bind]. apply nth_error_None in E.
      rewrite nth_overflow by auto. split; congruence. }
  assert (HNi : forall y, In y N -> y < i).
  { intros y Hy. apply H5 in Hy. destruct Hy as [Hg Hne].
    apply (Anc_le _ _ _ HA) in Hg. lia. }
  split.
  - intros Hx. destruct (H8 x Hx) as (s & Hs & HR).
    apply HS in Hs. destruct Hs as [Hs Hlt].
    apply HNi in Hx. clear - HR Hs Hlt Hx HE HA Hgp.
    induction HR as [x|x y p HR IH E].
    + apply Fill_base; auto.
    + apply Hgp in E. pose proof (etree_Fill Q _ HE _ _ E) as HF.
      pose proof (Fill_lt _ _ _ HF).
      assert (HF2 : Fill Q i y) by (apply IH; auto; lia).
      eapply Fill_elim; eauto.
  - (* closed set *)
    assert (HP : forall y z, In y N -> Anc (par t) y z -> z < i -> In z N).
    { intros y z Hy HAn. revert Hy. induction HAn as [y|y p z E HAn IH]; auto.
      intros Hy Hz. apply IH; auto. destruct (H7 y Hy) as (p' & Ep & Hp).
      apply Hgp in Ep. rewrite E in Ep. injection Ep as <-.
      destruct Hp as [->|Hp]; auto.
      apply (Anc_le _ _ _ HA) in HAn. lia. }
    enough (HG : forall a x, Fill Q a x -> a = i -> In x N)
      by (intros HF; eapply HG; eauto).
    clear x. intros a x HF.
    induction HF as [a j Hb Hl|a j k F1 IH1 F2 IH2 Hk Hj]; intros Ea.
    + subst a. destruct (H6 j) as [E|Hin]; auto; [apply HS; auto|lia].
    + subst a. apply (HP k j); auto. eapply Fill_Anc; eauto.
Qed.
