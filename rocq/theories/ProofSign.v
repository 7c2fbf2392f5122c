(** Signs of the entries of the factor and of the solution, over any finite index set. *)
From Coq Require Import List Arith Lia Bool.
From Verif Require Import ModelNumeric SpecNumeric SpecPivot SpecSign ProofArrowSub ProofChain ProofLdl ProofPivot.
Import ListNotations.

Section Sign.
  Context {F : Type} (O : ops F) (fin pos nonneg nonpos : F -> Prop).
  Context (SR : signRules O fin pos nonneg nonpos).
  Context {I : Type} (dec : forall a b : I, {a = b} + {a <> b}).
  Variables (all : list I) (row : I -> list I) (rank : I -> nat).
  Hypothesis RK : forall g h, In g all -> In h (row g) -> In h all /\ rank h < rank g.

  Lemma reduces_nonpos {J} (T : J -> F -> Prop) a l r :
    reduces O T a l r -> fin r -> nonpos a ->
    (forall k x, In k l -> T k x -> fin x -> nonneg x) -> fin a /\ nonpos r.
  Proof.
    induction 1 as [|a k l x r Hx R IH]; intros Hf Ha HT; auto.
    assert (X : fin (osub O a x) /\ (nonpos (osub O a x) -> nonpos r)).
    { assert (Y : fin (osub O a x)).
      { clear IH HT Ha Hx. revert Hf. induction R as [|a' k' l' x' r' Hx' R IH']; auto.
        intros Hf. apply IH' in Hf. apply (sr_sub _ _ _ _ _ SR) in Hf. tauto. }
      split; auto. intros Hn. apply IH; auto. intros k' x' Hk'. apply HT. right; auto. }
    destruct X as [X1 X2]. destruct (sr_sub _ _ _ _ _ SR a x X1) as (Fa & Fx & _ & H2).
    split; auto. apply X2, H2; auto. apply (HT k); auto. left; auto.
  Qed.

  Section Factor.
  Variables (A L S : I -> I -> F) (D : I -> F) (reg : F -> I -> F).
  Hypothesis CH : chainedS O dec all row A L S D reg.
  Hypothesis HA : forall g h, In g all -> In h (row g) -> nonpos (A g h).
  Hypothesis HD : forall g, In g all -> fin (D g) /\ pos (D g).

  Lemma entry_nonpos g h : In g all -> In h (row g) ->
    (fin (S g h) -> nonpos (S g h)) /\ (fin (L g h) -> nonpos (L g h)).
  Proof.
    assert (K : forall r g h, rank h = r -> In g all -> In h (row g) ->
      (fin (S g h) -> nonpos (S g h)) /\ (fin (L g h) -> nonpos (L g h))).
    { intros r. induction r as [r IH] using lt_wf_ind. clear g h. intros g h Er Hg Hh.
      destruct (RK g h Hg Hh) as [Hha _]. destruct (HD h Hha) as [FD PD].
      destruct (cs_row _ _ _ _ _ _ _ _ _ CH g h Hg Hh) as [R E].
      assert (HS : fin (S g h) -> nonpos (S g h)).
      { intros Hf. apply (reduces_nonpos _ _ _ _ R Hf); auto.
        intros k x Hk Hx Fx. apply common_In in Hk. destruct Hk as [Hkg Hkh].
        destruct (RK h k Hha Hkh) as [Hka Hr]. destruct (HD k Hka) as [FDk PDk].
        destruct (IH (rank k) ltac:(lia) g k eq_refl Hg Hkg) as [S1 L1].
        destruct (IH (rank k) ltac:(lia) h k eq_refl Hha Hkh) as [_ L2].
        destruct Hx as [->|[->| ->]].
        - destruct (sr_mul _ _ _ _ _ SR _ _ Fx) as (F1 & _ & M & _).
          apply M; [|apply (sr_pos _ _ _ _ _ SR); auto].
          destruct (sr_mul _ _ _ _ _ SR _ _ F1) as (F2 & F3 & _ & M' & _). auto.
        - destruct (sr_mul _ _ _ _ _ SR _ _ Fx) as (F1 & F2 & _ & M & _). auto.
        - destruct (sr_mul _ _ _ _ _ SR _ _ Fx) as (F1 & F2 & _ & M & _). auto. }
      split; auto. intros Hf. rewrite E in *.
      destruct (sr_div _ _ _ _ _ SR _ _ FD PD Hf) as (Fs & _ & M). auto. }
    apply (K (rank h)); auto.
  Qed.
  End Factor.

  Lemma subl_fin' {J} (l : list J) x acc : fin (subl O acc l x) ->
    fin acc /\ forall k, In k l -> fin (x k).
  Proof.
    revert acc. induction l as [|k l IH]; intros acc H; [split; [auto|intros k []]|].
    change (subl O acc (k :: l) x) with (subl O (osub O acc (x k)) l x) in H.
    destruct (IH _ H) as [H1 H2]. apply (sr_sub _ _ _ _ _ SR) in H1. split; [tauto|].
    intros k' [<-|Hk]; [tauto|auto].
  Qed.

  Lemma subl_nonneg {J} (l : list J) x acc : fin (subl O acc l x) -> nonneg acc ->
    (forall k, In k l -> fin (x k) -> nonpos (x k)) -> nonneg (subl O acc l x).
  Proof.
    revert acc. induction l as [|k l IH]; intros acc H Ha Hx; auto.
    change (subl O acc (k :: l) x) with (subl O (osub O acc (x k)) l x) in *.
    destruct (subl_fin' _ _ _ H) as [H1 _].
    destruct (sr_sub _ _ _ _ _ SR _ _ H1) as (F1 & F2 & M & _).
    apply IH; auto. 2:{ intros; apply Hx; auto. right; auto. }
    apply M; auto. apply Hx; auto. left; auto.
  Qed.

  Section Solve.
  Variables (L : I -> I -> F) (D : I -> F) (col : I -> list I) (b y z x : I -> F).
  Hypothesis HL : forall g h, In g all -> In h (row g) -> fin (L g h) -> nonpos (L g h).
  Hypothesis HD : forall g, In g all -> fin (D g) /\ pos (D g).
  Hypothesis CG : colsGood all row col.
  Hypothesis FE : forwardEq O all row L b y.
  Hypothesis DE : diagonalEq O all D y z.
  Hypothesis BE : backwardEq O all L col z x.
  Hypothesis FX : forall g, In g all -> fin (x g).
  Hypothesis HB : forall g, In g all -> nonneg (b g).

  Lemma z_fin g : In g all -> fin (z g).
  Proof. intros Hg. specialize (FX g Hg). rewrite (BE g Hg) in FX. apply subl_fin' in FX. tauto. Qed.
  Lemma y_fin g : In g all -> fin (y g).
  Proof.
    intros Hg. pose proof (z_fin g Hg) as H. rewrite (DE g Hg) in H.
    destruct (HD g Hg) as [FD PD]. apply (sr_div _ _ _ _ _ SR _ _ FD PD) in H. tauto.
  Qed.

  Lemma y_nonneg g : In g all -> nonneg (y g).
  Proof.
    assert (K : forall r g, rank g = r -> In g all -> nonneg (y g)).
    { intros r. induction r as [r IH] using lt_wf_ind. clear g. intros g Er Hg.
      pose proof (y_fin g Hg) as Fy. rewrite (FE g Hg) in Fy |- *.
      apply subl_nonneg; auto. intros k Hk Fk. destruct (RK g k Hg Hk) as [Ha Hr].
      destruct (sr_mul _ _ _ _ _ SR _ _ Fk) as (F1 & F2 & _ & _ & _ & M).
      apply M; auto. apply (IH (rank k)); auto. lia. }
    apply (K (rank g)); auto.
  Qed.

  Lemma z_nonneg g : In g all -> nonneg (z g).
  Proof.
    intros Hg. pose proof (z_fin g Hg) as H. rewrite (DE g Hg) in H |- *.
    destruct (HD g Hg) as [FD PD]. apply (sr_div _ _ _ _ _ SR _ _ FD PD) in H.
    apply H, y_nonneg; auto.
  Qed.

  Lemma x_nonneg M g : (forall h, In h all -> rank h <= M) -> In g all -> nonneg (x g).
  Proof.
    intros HM. assert (K : forall r g, M - rank g = r -> In g all -> nonneg (x g)).
    { intros r. induction r as [r IH] using lt_wf_ind. clear g. intros g Er Hg.
      pose proof (FX g Hg) as Fx. rewrite (BE g Hg) in Fx |- *.
      apply subl_nonneg; auto; [apply z_nonneg; auto|]. intros k Hk Fk.
      apply (cg_in _ _ _ CG g k Hg) in Hk. destruct Hk as [Ha Hk].
      destruct (RK k g Ha Hk) as [_ Hr]. pose proof (HM k Ha).
      destruct (sr_mul _ _ _ _ _ SR _ _ Fk) as (F1 & F2 & _ & _ & _ & M').
      apply M'; auto. apply (IH (M - rank k)); auto. lia. }
    apply (K (M - rank g)); auto.
  Qed.
  End Solve.
End Sign.

(** ordered fields *)
Section Field.
  Context {F : Type} {O : ops F} {FL : fieldLaws O} (OL : ordLaws FL).
  Local Notation "0" := (o0 O) : scalar.
  Local Notation "a + b" := (oadd O a b) : scalar.
  Local Notation "a - b" := (osub O a b) : scalar.
  Local Notation "a * b" := (omul O a b) : scalar.
  Local Notation "a / b" := (odiv O a b) : scalar.
  Local Notation opp := (fl_opp FL).
  Local Notation pos := (ol_pos OL).
  Add Ring FrSign : (fl_ring FL).

  Lemma sum_nonneg a b : atLeast0 OL a -> atLeast0 OL b -> atLeast0 OL (a + b)%s.
  Proof.
    intros [->|Ha] [->|Hb]; unfold atLeast0.
    - left. ring.
    - right. replace (0 + b)%s with b by ring. auto.
    - right. replace (a + 0)%s with a by ring. auto.
    - right. apply ol_add; auto.
  Qed.
  Lemma mul_nonneg a b : atLeast0 OL a -> atLeast0 OL b -> atLeast0 OL (a * b)%s.
  Proof.
    intros [->|Ha] [->|Hb]; unfold atLeast0; try (left; ring). right. apply ol_mul; auto.
  Qed.
  Lemma atMost_opp a : atMost0 OL a <-> atLeast0 OL (opp a).
  Proof.
    unfold atMost0, atLeast0. split; (intros [H|H]; [left|right; auto]).
    - rewrite H. ring.
    - replace a with (opp (opp a)) by ring. rewrite H. ring.
  Qed.
  Lemma inv_pos a : pos a -> pos (fl_one FL / a)%s.
  Proof.
    intros H. assert (N : a <> 0%s) by (apply (pos_nonzero O FL OL); auto).
    set (i := (fl_one FL / a)%s).
    assert (E : (i * a)%s = fl_one FL) by (apply (fl_div FL); auto).
    destruct (ol_dec OL i) as [[P|Z]|P]; auto.
    - exfalso. apply (fl_10 FL). rewrite <- E, Z. ring.
    - exfalso. apply (pos_opp O FL OL (fl_one FL)); [apply (pos_one O FL OL)|].
      rewrite <- E. replace (opp (i * a))%s with (opp i * a)%s by ring. apply ol_mul; auto.
  Qed.

  Lemma field_signs : signRules O (fun _ => True) pos (atLeast0 OL) (atMost0 OL).
  Proof.
    constructor.
    - split; left; auto.
    - intros a H. right; auto.
    - intros a b _. split; auto. split; auto. split; intros Ha Hb.
      + apply atMost_opp in Hb. replace (a - b)%s with (a + opp b)%s by ring. apply sum_nonneg; auto.
      + apply atMost_opp in Ha. apply atMost_opp. replace (opp (a - b))%s with (opp a + b)%s by ring.
        apply sum_nonneg; auto.
    - intros a b _. split; auto. split; auto.
      rewrite !atMost_opp. split; [|split; [|split]]; intros Ha Hb.
      + apply mul_nonneg; auto.
      + replace (a * b)%s with (opp a * opp b)%s by ring. apply mul_nonneg; auto.
      + replace (opp (a * b))%s with (a * opp b)%s by ring. apply mul_nonneg; auto.
      + replace (opp (a * b))%s with (opp a * b)%s by ring. apply mul_nonneg; auto.
    - intros a b _ Pb _. split; auto.
      assert (N : b <> 0%s) by (apply (pos_nonzero O FL OL); auto).
      pose proof (inv_pos b Pb) as Pi.
      assert (E : (a / b)%s = (a * (fl_one FL / b))%s).
      { apply (div_eq O FL); auto. transitivity (a * (fl_one FL / b * b))%s; [|ring].
        rewrite (fl_div FL) by auto. ring. }
      rewrite E, !atMost_opp. split; intros Ha.
      + apply mul_nonneg; auto. right; auto.
      + replace (opp (a * (fl_one FL / b)))%s with (opp a * (fl_one FL / b))%s by ring.
        apply mul_nonneg; auto. right; auto.
  Qed.
End Field.
