(** The trailing part of a factorization factorizes the Schur complement. *)
From Coq Require Import List Arith Lia Bool Ring.
From Verif Require Import ModelNumeric SpecNumeric SpecSchur ProofExact ProofLdl ProofSingle.
Import ListNotations.

Section Schur.
  Context {F : Type} (O : ops F) (FL : fieldLaws O).
  Local Notation "0" := (o0 O) : scalar.
  Local Notation "a + b" := (oadd O a b) : scalar.
  Local Notation "a - b" := (osub O a b) : scalar.
  Local Notation "a * b" := (omul O a b) : scalar.
  Local Notation one := (fl_one FL).
  Local Notation sum := (sumn O).
  Add Ring FrSc : (fl_ring FL).

  Lemma mul_zero a b : a <> 0%s -> (a * b)%s = 0%s -> b = 0%s.
  Proof.
    intros N E. transitivity (odiv O b a * a)%s.
    - symmetry. apply (fl_div FL); auto.
    - assert (X : b = (odiv O b a * a)%s) by (symmetry; apply (fl_div FL); auto).
      assert (Y : (odiv O one a * a)%s = one) by (apply (fl_div FL); auto).
      rewrite <- X. transitivity (odiv O one a * a * b)%s; [rewrite Y; ring|].
      transitivity (odiv O one a * (a * b))%s; [ring|]. rewrite E. ring.
  Qed.

  (** systems with an upper triangular matrix have solutions *)
  Lemma upper_solution m (U : nat -> nat -> F) :
    (forall k, k < m -> U k k = one) -> (forall v k, v < k -> k < m -> U v k = 0%s) ->
    forall b, exists X, forall k, k < m -> sum m (fun v => U v k * X v)%s = b k.
  Proof.
    intros U1 U0. induction m as [|m IH]; intros b; [exists b; intros; lia|].
    destruct (IH ltac:(intros; apply U1; lia) ltac:(intros; apply U0; lia) (fun k => b k - U m k * b m)%s) as (X & HX).
    exists (fun v => if v =? m then b m else X v). intros k Hk. cbn [sumn]. rewrite Nat.eqb_refl.
    rewrite (sumn_ext O m _ (fun v => U v k * X v)%s).
    2:{ intros v Hv. destruct (Nat.eqb_spec v m); [lia|auto]. }
    destruct (Nat.eq_dec k m) as [->|N].
    - rewrite (sumn_0 O FL); [rewrite U1 by lia; ring|]. intros v Hv. rewrite U0 by lia. ring.
    - rewrite HX by lia. ring.
  Qed.

  Section Split.
    Context (N m : nat) (Hm : m <= N) (A U : nat -> nat -> F) (D : nat -> F).
    Context (U1 : forall i, i < N -> U i i = one) (U0 : forall i j, i < j -> j < N -> U i j = 0%s).
    Context (AU : forall i j, i < N -> j < N -> A i j = sum N (fun k => U i k * D k * U j k)%s).

    (** rows and columns of the first part involve the first part of the factor only *)
    Lemma lead_entry i j : i < N -> j < m -> A i j = sum m (fun k => U i k * D k * U j k)%s.
    Proof.
      intros Hi Hj. rewrite AU by lia. apply (sumn_le O FL); auto. intros k H1 H2.
      rewrite (U0 j k) by lia. ring.
    Qed.
    Lemma lead_product i X : i < N ->
      sum m (fun u => A i u * X u)%s = sum m (fun k => U i k * D k * sum m (fun u => U u k * X u))%s.
    Proof.
      intros Hi.
      rewrite (sumn_ext O m _ (fun u => sum m (fun k => U i k * D k * U u k * X u))%s).
      - rewrite (sumn_swap O FL). apply (sumn_ext O). intros k Hk. rewrite <- (sumn_mult_l O FL).
        apply (sumn_ext O). intros u Hu. ring.
      - intros u Hu. rewrite lead_entry by auto. rewrite <- (sumn_mult_r O FL). auto.
    Qed.

    Lemma schur_solution h : h < N -> m <= h ->
      exists X, forall u, u < m -> sum m (fun v => A u v * X v)%s = A u h.
    Proof.
      intros Hh Hmh.
      destruct (upper_solution m U ltac:(intros; apply U1; lia) ltac:(intros; apply U0; lia) (fun k => U h k)) as (X & HX).
      exists X. intros u Hu. rewrite lead_product by lia.
      assert (SY : A u h = A h u) by (rewrite !AU by lia; apply (sumn_ext O); intros; ring).
      rewrite SY, lead_entry by lia. apply (sumn_ext O). intros k Hk. rewrite HX by auto. ring.
    Qed.

    Lemma schur_complement h X : (forall k, k < m -> D k <> 0%s) -> h < N -> m <= h ->
      (forall u, u < m -> sum m (fun v => A u v * X v)%s = A u h) ->
      forall g, g < N ->
        (A g h - sum m (fun u => A g u * X u))%s = sum (N - m) (fun k => U g (m + k)%nat * D (m + k)%nat * U h (m + k)%nat)%s.
    Proof.
      intros Nz Hh Hmh HX g Hg.
      set (Z := fun k => (sum m (fun u => U u k * X u) - U h k)%s).
      assert (ZE : forall u, u < m -> sum m (fun k => U u k * (D k * Z k))%s = 0%s).
      { intros u Hu. pose proof (HX u Hu) as E. rewrite lead_product in E by lia.
        assert (SY : A u h = A h u) by (rewrite !AU by lia; apply (sumn_ext O); intros; ring).
        rewrite SY, lead_entry in E by lia.
        rewrite (sumn_ext O m _ (fun k => U u k * D k * sum m (fun w => U w k * X w) - U h k * D k * U u k)%s).
        2:{ intros k Hk. unfold Z. ring. }
        rewrite (sumn_minus O FL), E. ring. }
      assert (Z0 : forall k, k < m -> Z k = 0%s).
      { induction k as [k IH] using lt_wf_ind. intros Hk. apply (mul_zero (D k)); [auto|].
        rewrite <- (ZE k Hk). rewrite (sumn_single O FL m _ k); auto.
        - rewrite U1 by lia. ring.
        - intros j Hj Nj. destruct (Nat.lt_ge_cases j k).
          + rewrite IH by lia. ring.
          + rewrite U0 by lia. ring. }
      rewrite lead_product by auto.
      rewrite (sumn_ext O m _ (fun k => U g k * D k * U h k)%s).
      - rewrite AU by auto. replace N with (m + (N - m)) at 1 by lia. rewrite (sumn_split O FL). ring.
      - intros k Hk. pose proof (Z0 k Hk) as E. unfold Z in E.
        assert (E' : sum m (fun u => U u k * X u)%s = U h k).
        { transitivity (sum m (fun u => U u k * X u) - U h k + U h k)%s; [ring|]. rewrite E. ring. }
        rewrite E'. auto.
    Qed.
  End Split.
End Schur.

Lemma finite_choice {X} (P : nat -> X -> Prop) (d : X) n :
  (forall h, h < n -> exists x, P h x) -> exists f, forall h, h < n -> P h (f h).
Proof.
  induction n as [|n IH]; intros H.
  - exists (fun _ => d). intros; lia.
  - destruct IH as (f & Hf); [intros; apply H; lia|]. destruct (H n) as (x & Hx); [lia|].
    exists (fun h => if h =? n then x else f h). intros h Hh. destruct (Nat.eqb_spec h n) as [->|]; auto.
    apply Hf. lia.
Qed.

Section Main.
  Context {F : Type} (O : ops F) (FL : fieldLaws O).
  Lemma schur_main N (A U : nat -> nat -> F) (D : nat -> F) :
    (forall i, i < N -> U i i = fl_one FL) -> (forall i j, i < j -> j < N -> U i j = o0 O) ->
    (forall i j, i < N -> j < N -> A i j = sumn O N (fun k => omul O (omul O (U i k) (D k)) (U j k))) ->
    (forall k, k < N -> D k <> o0 O) ->
    forall q, q <= N ->
      (exists X, eliminates O N q A X) /\
      forall X, eliminates O N q A X -> forall g h, q <= g -> g < N -> q <= h -> h < N ->
        trailAt O N q U D g h = schurAt O q A X g h.
  Proof.
    intros U1 U0 AU Nz q Hq. split.
    - destruct (finite_choice (fun h (x : nat -> F) => q <= h ->
        forall u, u < q -> sumn O q (fun v => omul O (A u v) (x v)) = A u h) (fun _ => o0 O) N) as (f & Hf).
      + intros h Hh. destruct (Nat.le_gt_cases q h) as [L|L].
        * destruct (schur_solution O FL N q Hq A U D U1 U0 AU h Hh L) as (X & HX). exists X. auto.
        * exists (fun _ => o0 O). intros; lia.
      + exists (fun v h => f h v). intros u h Hu H1 H2. apply Hf; auto.
    - intros X HX g h Hg1 Hg2 Hh1 Hh2. symmetry. unfold schurAt.
      apply (schur_complement O FL N q Hq A U D U1 U0 AU h (fun u => X u h)); auto. intros; apply Nz; lia.
  Qed.
End Main.
