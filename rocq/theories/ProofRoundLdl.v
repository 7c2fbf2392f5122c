(** Rounding errors of the factorization and of the solves, over any finite index set. *)
From Coq Require Import Reals Lra Lia List Arith Bool.
From Verif Require Import ModelNumeric SpecNumeric SpecReg SpecRound.
From Verif Require Import ProofExact ProofArrowSub ProofChain ProofRound.
Import ListNotations.
Local Open Scope R_scope.
Local Notation rsum := (suml Or).

Section Ldl.
  Context {F : Type} (O : ops F) (fin : F -> Prop) (val : F -> R) (u eta : R).
  Context (RO : rounding O fin val u eta).
  Context {I : Type} (dec : forall a b : I, {a = b} + {a <> b}).
  Variables (all : list I) (row : I -> list I).
  Variables (A' L' : I -> I -> F) (D' : I -> F) (reg : F -> I -> F).
  Hypothesis RG : rowsGood O all row A' L'.
  Hypothesis HD : forall g, In g all -> fin (D' g).
  Local Notation q := (/ (1 - u)).
  Local Notation Appr := (Appr u eta).
  Local Notation A g h := (val (A' g h)).
  Local Notation L g h := (val (L' g h)).
  Local Notation D g := (val (D' g)).

  (** the unit lower triangular factor *)
  Local Notation Lu := (unitOf dec (fun g k => L g k)).
  Local Notation ldl := (prodAt all Lu (fun k => D k)).
  Local Notation absLdl := (absProdAt all Lu (fun k => D k)).
  Local Notation under := (underAt all Lu (fun k => D k)).

  Lemma Lu_diag g : Lu g g = 1.
  Proof. unfold unitOf. destruct (dec g g); congruence. Qed.
  Lemma Lu_off g k : g <> k -> Lu g k = L g k.
  Proof. unfold unitOf. destruct (dec g k); congruence. Qed.
  Lemma L_out g k : In g all -> In k all -> ~ In k (row g) -> L g k = 0.
  Proof. intros. rewrite (rg_L _ _ _ _ _ RG) by auto. apply RO. Qed.
  Lemma row_neq g k : In g all -> In k (row g) -> g <> k.
  Proof. intros Hg Hk ->. eapply rg_irr; eauto. Qed.

  Lemma common_NoDup g h : In g all -> NoDup (common dec row g h).
  Proof. intros Hg. apply NoDup_filter. eapply rg_nodup; eauto. Qed.

  Lemma common_sub g h k : In g all -> In k (common dec row g h) -> In k all.
  Proof. intros Hg Hk. apply common_In in Hk. eapply rg_in; eauto. tauto. Qed.

  Lemma common_len_l g h : (length (common dec row g h) <= length (row g))%nat.
  Proof.
    unfold common. generalize (row g). intros l. induction l as [|a l IH]; cbn [filter length]; [lia|].
    destruct (memI dec a (row h)); cbn [length]; lia.
  Qed.
  Lemma common_len_r g h : In g all -> (length (common dec row g h) <= length (row h))%nat.
  Proof.
    intros Hg. apply NoDup_incl_length; [apply common_NoDup; auto|].
    intros k Hk. apply common_In in Hk. tauto.
  Qed.

  (** the sum over all columns *)
  Lemma sum_row g h (f : R -> R) : f 0 = 0 -> In g all -> In h (row g) ->
    rsum all (fun k => f (Lu g k * D k * Lu h k)) =
    f (L g h * D h) + rsum (common dec row g h) (fun k => f (L g k * D k * L h k)).
  Proof.
    intros F0 Hg Hh. assert (Ha : In h all) by (eapply rg_in; eauto).
    rewrite (rsum_sub dec (h :: common dec row g h) all).
    - rewrite rsum_cons. f_equal.
      + rewrite Lu_diag, Lu_off, Rmult_1_r by (eapply row_neq; eauto). auto.
      + apply rsum_ext. intros k Hk. apply common_In in Hk.
        rewrite !Lu_off by (eapply row_neq; eauto; tauto). auto.
    - constructor; [|apply common_NoDup; auto]. rewrite common_In. intros [_ H].
      eapply rg_irr; eauto.
    - apply RG.
    - intros k [<-|Hk]; auto. exact (common_sub g h k Hg Hk).
    - intros k Hk Hn.
      destruct (dec h k) as [<-|N1]; [exfalso; apply Hn; left; auto|].
      destruct (dec g k) as [<-|N2].
      + rewrite (Lu_off h g) by auto. rewrite (L_out h g); [rewrite Rmult_0_r; auto|auto|auto|].
        eapply rg_asym; eauto.
      + rewrite !Lu_off by auto. destruct (in_dec dec k (row g)) as [I1|I1].
        * rewrite (L_out h k); [rewrite Rmult_0_r; auto|auto|auto|].
          intros I2. apply Hn. right. apply common_In. auto.
        * rewrite (L_out g k) by auto. replace (0 * D k * L h k) with 0 by ring. auto.
  Qed.

  Lemma sum_diag g (f : R -> R) : f 0 = 0 -> In g all ->
    rsum all (fun k => f (Lu g k * D k * Lu g k)) =
    f (D g) + rsum (row g) (fun k => f (L g k * D k * L g k)).
  Proof.
    intros F0 Hg. rewrite (rsum_sub dec (g :: row g) all).
    - rewrite rsum_cons. f_equal.
      + rewrite Lu_diag. f_equal. ring.
      + apply rsum_ext. intros k Hk. rewrite !Lu_off by (eapply row_neq; eauto). auto.
    - constructor; [eapply rg_irr; eauto|eapply rg_nodup; eauto].
    - apply RG.
    - intros k [<-|Hk]; auto. eapply rg_in; eauto.
    - intros k Hk Hn.
      rewrite !Lu_off by (intros ->; apply Hn; left; auto). rewrite (L_out g k); auto.
      + replace (0 * D k * 0) with 0 by ring. auto.
      + intros H. apply Hn. right; auto.
  Qed.

  (** no common columns outside of the pattern *)
  Lemma sum_out g h (f : R -> R) : f 0 = 0 -> In g all -> In h all -> g <> h ->
    ~ In h (row g) -> ~ In g (row h) -> rsum all (fun k => f (Lu g k * D k * Lu h k)) = 0.
  Proof.
    intros F0 Hg Hh N N1 N2. apply rsum_0. intros k Hk.
    replace (Lu g k * D k * Lu h k) with 0; auto. symmetry.
    destruct (dec g k) as [<-|M1].
    - rewrite (Lu_off h g), (L_out h g) by auto. ring.
    - destruct (dec h k) as [<-|M2].
      + rewrite (Lu_off g h), (L_out g h) by auto. ring.
      + rewrite !Lu_off by auto. destruct (in_dec dec k (row g)) as [I1|I1].
        * destruct (in_dec dec k (row h)) as [I2|I2].
          -- exfalso. destruct (rg_closed _ _ _ _ _ RG g h k); auto.
          -- rewrite (L_out h k) by auto. ring.
        * rewrite (L_out g k) by auto. ring.
  Qed.

  Section Finite.
  Hypothesis HL : forall g h, In g all -> In h (row g) -> fin (L' g h).

  Lemma isTerm_err g h k x : In g all -> In k (row g) -> isTerm O L' D' g h k x -> fin x ->
    termErr u eta 1 (1 + Rabs (D k) * (1 + Rabs (L h k))) (L g k * D k * L h k) (val x).
  Proof.
    intros Hg Hk H Hf. pose proof (HL g k Hg Hk) as Fg.
    assert (Fk : fin (D' k)) by (apply HD; eapply rg_in; eauto).
    pose proof (Rabs_pos (D k)). pose proof (Rabs_pos (L h k)). destruct H as [->|(s & Hs & Hx)].
    - apply (term_mono O fin val u eta RO 1 (1 + Rabs (D k))); [nra|].
      destruct (rd_mul _ _ _ _ _ RO _ _ Hf) as (F1 & _ & N1).
      destruct (rd_mul _ _ _ _ _ RO _ _ F1) as (_ & _ & N2).
      eapply (term_triple O fin val u eta RO); eauto.
    - apply (term_mono O fin val u eta RO 1 (1 + Rabs (D k) * Rabs (L h k))); [nra|].
      rewrite Hs in *. destruct Hx as [->| ->];
        destruct (rd_mul _ _ _ _ _ RO _ _ Hf) as (_ & _ & N1);
        [|rewrite Rmult_comm in N1]; apply (term_scaled O fin val u eta RO); auto.
  Qed.
  End Finite.

  Lemma under_pos g h k : 0 <= 2 + Rabs (D k) * (1 + Rabs (Lu g k) + Rabs (Lu h k)).
  Proof.
    pose proof (Rabs_pos (D k)). pose proof (Rabs_pos (Lu g k)). pose proof (Rabs_pos (Lu h k)). nra.
  Qed.

  Lemma under_sym g h : under g h = under h g.
  Proof. unfold underAt. apply rsum_ext. intros k _. ring. Qed.
  Lemma ldl_sym g h : ldl g h = ldl h g.
  Proof. unfold prodAt. apply rsum_ext. intros k _. ring. Qed.
  Lemma absLdl_sym g h : absLdl g h = absLdl h g.
  Proof. unfold absProdAt. apply rsum_ext. intros k _. f_equal. ring. Qed.

  Section Factor.
  Hypothesis HL : forall g h, In g all -> In h (row g) -> fin (L' g h).
  Hypothesis CH : chained O dec all row A' L' D' reg.

  Lemma row_error g h m : In g all -> In h (row g) -> (length (common dec row g h) <= m)%nat ->
    Rabs (A g h - ldl g h) <= (q ^ S m - 1) * absLdl g h + eta * under g h * q ^ S m.
  Proof.
    intros Hg Hh Hm. assert (Ha : In h all) by (eapply rg_in; eauto).
    destruct (ch_row _ _ _ _ _ _ _ _ CH g h Hg Hh) as (s & Hs & E).
    pose proof (appr_reduces O fin val u eta RO 1 (isTerm O L' D' g h) (common dec row g h)
      (fun k => 1 + Rabs (D k) * (1 + Rabs (L h k))) (fun k => L g k * D k * L h k) (A' g h) s) as AP.
    cbv beta in AP.
    pose proof (HL g h Hg Hh) as Fl.
    assert (Fs : fin s) by (rewrite E in Fl; exact (proj1 (rd_div _ _ _ _ _ RO _ _ (HD h Ha) Fl))).
    specialize (AP ltac:(intros k x Hk; apply (isTerm_err HL); auto; apply common_In in Hk; tauto) Hs Fs).
    set (c := rsum (common dec row g h) (fun k => 1 + (1 + Rabs (D k) * (1 + Rabs (L h k))))) in *.
    apply (appr_mono O fin val u eta RO 1 _ m c c) in AP; [|auto|lra].
    destruct AP as (C0 & C1 & C2).
    set (S := rsum (common dec row g h) (fun k => L g k * D k * L h k)) in *.
    set (T := rsum (common dec row g h) (fun k => Rabs (L g k * D k * L h k))) in *.
    assert (EL : ldl g h = L g h * D h + S) by (apply (sum_row g h (fun v => v)); auto).
    assert (EB : absLdl g h = Rabs (L g h * D h) + T).
    { apply (sum_row g h Rabs); auto. apply Rabs_R0. }
    assert (EU : c + Rabs (D h) <= under g h).
    { unfold underAt. apply Rle_trans with (rsum (h :: common dec row g h)
        (fun k => 2 + Rabs (D k) * (1 + Rabs (Lu g k) + Rabs (Lu h k)))).
      - rewrite rsum_cons, Lu_diag. unfold c. pose proof (Rabs_pos (D h)). pose proof (Rabs_pos (Lu g h)).
        rewrite Rabs_R1. rewrite (Rplus_comm (rsum _ _)). apply Rplus_le_compat; [nra|].
        apply rsum_le. intros k Hk. apply common_In in Hk.
        rewrite !Lu_off by (eapply row_neq; eauto; tauto).
        pose proof (Rabs_pos (D k)). pose proof (Rabs_pos (L g k)). nra.
      - apply (rsum_sub_le dec).
        + constructor; [|apply common_NoDup; auto]. rewrite common_In. intros [_ H].
          eapply rg_irr; eauto.
        + apply RG.
        + intros k [<-|Hk]; auto. exact (common_sub g h k Hg Hk).
        + intros k _. apply under_pos. }
    pose proof (div_back O fin val u eta RO s (D' h) (HD h Ha)) as DB. rewrite <- E in DB. specialize (DB Fl).
    set (sv := val s) in *.
    pose proof (q_ge1 O fin val u eta RO) as Q1. cbv zeta in Q1. pose proof (eta_pos O fin val u eta RO) as E0.
    pose proof (qpow_ge1 O fin val u eta RO m) as QM. cbv zeta in QM.
    set (p := L g h * D h) in *.
    rewrite EL, EB. pose proof (Rabs_pos p) as P0. pose proof (Rabs_pos (D h)) as PD.
    assert (SB : Rabs sv <= q * Rabs p + q * (eta * Rabs (D h))).
    { replace sv with ((sv - p) + p) by ring. eapply Rle_trans; [apply Rabs_triang|]. lra. }
    replace (A g h - (p + S)) with ((A g h - sv - S) + (sv - p)) by ring.
    eapply Rle_trans; [apply Rabs_triang|].
    assert (X : (q ^ m - 1) * Rabs sv <= (q ^ m - 1) * (q * Rabs p + q * (eta * Rabs (D h)))).
    { apply Rmult_le_compat_l; lra. }
    rewrite Nat.add_1_r in C2.
    assert (QS : q ^ Datatypes.S m = q ^ m * q) by (cbn [pow]; ring).
    assert (Y : eta * (c + Rabs (D h)) * q ^ Datatypes.S m <= eta * under g h * q ^ Datatypes.S m).
    { apply Rmult_le_compat_r; [nra|]. apply Rmult_le_compat_l; auto. }
    eapply Rle_trans; [|apply Rplus_le_compat_l; exact Y].
    apply Rle_trans with ((q ^ m - 1) * (q * Rabs p + q * (eta * Rabs (D h))) +
      (q ^ Datatypes.S m - 1) * T + eta * c * q ^ Datatypes.S m +
      ((q - 1) * Rabs p + q * (eta * Rabs (D h)))); [lra|].
    rewrite QS. right. ring.
  Qed.

  Lemma diag_error g m : In g all -> (length (row g) <= m)%nat ->
    exists s, D' g = reg s g /\ (fin s ->
    Rabs (A g g + (D g - val s) - ldl g g) <=
      (q ^ S m - 1) * (absLdl g g + Rabs (D g - val s)) + eta * under g g * q ^ S m).
  Proof.
    intros Hg Hm.
    destruct (ch_D _ _ _ _ _ _ _ _ CH g Hg) as (s & Hs & E). exists s. split; [auto|]. clear E. intros Fs.
    pose proof (appr_reduces O fin val u eta RO 1 (isTerm O L' D' g g) (row g)
      (fun k => 1 + Rabs (D k) * (1 + Rabs (L g k))) (fun k => L g k * D k * L g k) (A' g g) s) as AP.
    cbv beta in AP.
    specialize (AP ltac:(intros k x Hk; apply (isTerm_err HL); auto) Hs Fs).
    set (sv := val s) in *.
    set (c := rsum (row g) (fun k => 1 + (1 + Rabs (D k) * (1 + Rabs (L g k))))) in *.
    apply (appr_mono O fin val u eta RO 1 _ m c c) in AP; [|auto|lra].
    destruct AP as (C0 & C1 & C2).
    set (S := rsum (row g) (fun k => L g k * D k * L g k)) in *.
    set (T := rsum (row g) (fun k => Rabs (L g k * D k * L g k))) in *.
    assert (EL : ldl g g = D g + S) by (apply (sum_diag g (fun v => v)); auto).
    assert (EB : absLdl g g = Rabs (D g) + T).
    { apply (sum_diag g Rabs); auto. apply Rabs_R0. }
    assert (EU : c <= under g g).
    { unfold underAt. apply Rle_trans with (rsum (row g)
        (fun k => 2 + Rabs (D k) * (1 + Rabs (Lu g k) + Rabs (Lu g k)))).
      - apply rsum_le. intros k Hk.
        rewrite !Lu_off by (eapply row_neq; eauto; tauto).
        pose proof (Rabs_pos (D k)). pose proof (Rabs_pos (L g k)). nra.
      - apply (rsum_sub_le dec).
        + eapply rg_nodup; eauto.
        + apply RG.
        + intros k Hk. eapply rg_in; eauto.
        + intros k _. apply under_pos. }
    pose proof (eta_pos O fin val u eta RO) as E0.
    pose proof (qpow_ge1 O fin val u eta RO m) as QM. cbv zeta in QM.
    pose proof (qpow_le O fin val u eta RO m (Datatypes.S m) ltac:(lia)) as QS. cbv zeta in QS.
    rewrite EL, EB. replace (A g g + (D g - sv) - (D g + S)) with (A g g - sv - S) by ring.
    eapply Rle_trans; [exact C2|]. rewrite Nat.add_1_r.
    assert (SB : Rabs sv <= Rabs (D g) + Rabs (D g - sv)).
    { replace sv with (D g + - (D g - sv)) at 1 by ring.
      eapply Rle_trans; [apply Rabs_triang|]. rewrite Rabs_Ropp. lra. }
    assert (X : (q ^ m - 1) * Rabs sv <= (q ^ Datatypes.S m - 1) * (Rabs (D g) + Rabs (D g - sv))).
    { apply Rmult_le_compat; auto; try lra. apply Rabs_pos. }
    assert (Y : eta * c * q ^ Datatypes.S m <= eta * under g g * q ^ Datatypes.S m).
    { apply Rmult_le_compat_r; [lra|]. apply Rmult_le_compat_l; auto. }
    lra.
  Qed.

  (** componentwise backward error of the factorization; [P] are the pivots before
      the regularization *)
  Lemma factor_error :
    exists P, (forall g, In g all -> D' g = reg (P g) g) /\
    (forall g, In g all -> fin (P g) ->
      Rabs (A g g + (D g - val (P g)) - ldl g g) <=
        gam u (S (length (row g))) * (absLdl g g + Rabs (D g - val (P g))) +
        eta * under g g * / (1 - u) ^ S (length (row g))) /\
    (forall g h, In g all -> In h all -> g <> h ->
      Rabs (A g h - ldl g h) <=
        gam u (S (length (row g))) * absLdl g h +
        eta * under g h * / (1 - u) ^ S (length (row g))).
  Proof.
    assert (CE : forall l : list I, (forall g, In g l -> In g all) ->
      exists P, forall g, In g l -> D' g = reg (P g) g /\ (fin (P g) ->
        Rabs (A g g + (D g - val (P g)) - ldl g g) <=
          (q ^ S (length (row g)) - 1) * (absLdl g g + Rabs (D g - val (P g))) +
          eta * under g g * q ^ S (length (row g)))).
    { induction l as [|g l IH]; intros Hl.
      - exists (fun _ => o0 O). intros g [].
      - destruct IH as (P & HP); [intros; apply Hl; right; auto|].
        destruct (diag_error g (length (row g))) as (e & H1 & H2); auto.
        { apply Hl; left; auto. }
        exists (fun h => if dec h g then e else P h). intros h Hh. destruct (dec h g) as [->|N].
        + auto.
        + apply HP. destruct Hh as [->|]; [congruence|auto]. }
    destruct (CE all) as (P & HP); auto. exists P. split; [intros; apply HP; auto|].
    split; intros g; [|intros h]; rewrite (gam_q u); cbv zeta; rewrite <- pow_inv.
    { intros Hg Hf. apply HP; auto. }
    intros Hg Hh N.
    destruct (in_dec dec h (row g)) as [I1|I1]; [apply row_error; auto; apply common_len_l|].
    destruct (in_dec dec g (row h)) as [I2|I2].
    - rewrite (rg_sym _ _ _ _ _ RG g h), ldl_sym, absLdl_sym, under_sym by auto.
      apply row_error; auto. apply common_len_r; auto.
    - rewrite (rg_A _ _ _ _ _ RG g h), (rd_0 _ _ _ _ _ RO) by auto.
      unfold prodAt, absProdAt. rewrite (sum_out g h (fun v => v)), (sum_out g h Rabs); auto using Rabs_R0.
      rewrite Rminus_0_r, Rabs_R0, Rmult_0_r, Rplus_0_l.
      apply Rmult_le_pos; [apply Rmult_le_pos; [apply RO|]|left; apply (qpow_pos O fin val u eta RO)].
      unfold underAt. apply rsum_pos. intros k _. apply under_pos.
  Qed.
  End Factor.

  (** ** solving *)
  Section Solve.
  Variables (col : I -> list I) (b' y' z' x' : I -> F) (wc : nat).
  Local Notation b g := (val (b' g)).
  Local Notation y g := (val (y' g)).
  Local Notation z g := (val (z' g)).
  Local Notation x g := (val (x' g)).
  Hypothesis CG : colsGood all row col.
  Hypothesis FE : forwardEq O all row L' b' y'.
  Hypothesis DE : diagonalEq O all D' y' z'.
  Hypothesis BE : backwardEq O all L' col z' x'.
  Hypothesis WC : forall g, In g all -> (length (col g) <= wc)%nat.

  Hypothesis FX : forall g, In g all -> fin (x' g).

  Lemma z_fin g : In g all -> fin (z' g).
  Proof. intros Hg. pose proof (FX g Hg) as H. rewrite (BE g Hg) in H. apply (subl_fin O fin val u eta RO) in H. tauto. Qed.
  Lemma y_fin g : In g all -> fin (y' g).
  Proof.
    intros Hg. pose proof (z_fin g Hg) as H. rewrite (DE g Hg) in H.
    apply (rd_div _ _ _ _ _ RO) in H; [tauto|auto].
  Qed.

  Lemma fwd_sum g (f : R -> R) : f 0 = 0 -> In g all ->
    rsum all (fun k => f (Lu g k * y k)) = f (y g) + rsum (row g) (fun k => f (L g k * y k)).
  Proof.
    intros F0 Hg. rewrite (rsum_sub dec (g :: row g) all).
    - rewrite rsum_cons. f_equal.
      + rewrite Lu_diag. f_equal. ring.
      + apply rsum_ext. intros k Hk. rewrite !Lu_off by (eapply row_neq; eauto). auto.
    - constructor; [eapply rg_irr; eauto|eapply rg_nodup; eauto].
    - apply RG.
    - intros k [<-|Hk]; auto. eapply rg_in; eauto.
    - intros k Hk Hn.
      rewrite !Lu_off by (intros ->; apply Hn; left; auto). rewrite (L_out g k); auto.
      + rewrite Rmult_0_l. auto.
      + intros H. apply Hn. right; auto.
  Qed.

  Lemma bwd_sum g (f : R -> R) : f 0 = 0 -> In g all ->
    rsum all (fun k => f (Lu k g * x k)) = f (x g) + rsum (col g) (fun k => f (L k g * x k)).
  Proof.
    intros F0 Hg. rewrite (rsum_sub dec (g :: col g) all).
    - rewrite rsum_cons. f_equal.
      + rewrite Lu_diag. f_equal. ring.
      + apply rsum_ext. intros k Hk. apply (cg_in _ _ _ CG) in Hk; auto.
        rewrite !Lu_off by (eapply row_neq; eauto; tauto). auto.
    - constructor; [|eapply cg_nodup; eauto].
      rewrite (cg_in _ _ _ CG) by auto. intros [_ H]. eapply rg_irr; eauto.
    - apply RG.
    - intros k [<-|Hk]; auto. apply (cg_in _ _ _ CG) in Hk; tauto.
    - intros k Hk Hn.
      rewrite !Lu_off by (intros ->; apply Hn; left; auto). rewrite (L_out k g); auto.
      + rewrite Rmult_0_l. auto.
      + intros H. apply Hn. right. apply (cg_in _ _ _ CG); auto.
  Qed.

  Lemma fwd_err g : In g all ->
    Rabs (b g - rsum all (fun k => Lu g k * y k)) <=
      (q ^ length (row g) - 1) * rsum all (fun k => Rabs (Lu g k * y k)) +
      eta * (2 * INR (length (row g))) * q ^ length (row g).
  Proof.
    intros Hg. rewrite (fwd_sum g (fun v => v)), (fwd_sum g Rabs) by auto using Rabs_R0.
    pose proof (appr_subl O fin val u eta RO 0 (row g) (fun _ => 1) (fun k => L g k * y k)
      (fun k => omul O (L' g k) (y' k)) (b' g)) as (_ & _ & H).
    { intros k _. apply (term_mul O fin val u eta RO). }
    { rewrite <- (FE g Hg). apply y_fin; auto. }
    rewrite <- (FE g Hg) in H. rewrite Nat.add_0_r in H.
    rewrite (rsum_const (row g)) in H.
    replace (b g - (y g + rsum (row g) (fun k => L g k * y k)))
      with (b g - y g - rsum (row g) (fun k => L g k * y k)) by ring.
    eapply Rle_trans; [exact H|]. right. ring.
  Qed.

  Lemma bwd_err g : In g all ->
    Rabs (z g - rsum all (fun k => Lu k g * x k)) <=
      (q ^ wc - 1) * rsum all (fun k => Rabs (Lu k g * x k)) + eta * (2 * INR wc) * q ^ wc.
  Proof.
    intros Hg. rewrite (bwd_sum g (fun v => v)), (bwd_sum g Rabs) by auto using Rabs_R0.
    pose proof (appr_subl O fin val u eta RO 0 (col g) (fun _ => 1) (fun k => L k g * x k)
      (fun k => omul O (L' k g) (x' k)) (z' g)) as H.
    specialize (H ltac:(intros k _; apply (term_mul O fin val u eta RO))).
    rewrite <- (BE g Hg) in H. specialize (H (FX g Hg)). rewrite (rsum_const (col g)) in H.
    apply (appr_mono O fin val u eta RO 0 _ wc _ (2 * INR wc)) in H; [|auto|].
    - destruct H as (_ & _ & H). rewrite Nat.add_0_r in H.
      replace (z g - (x g + rsum (col g) (fun k => L k g * x k)))
        with (z g - x g - rsum (col g) (fun k => L k g * x k)) by ring.
      eapply Rle_trans; [exact H|]. right. ring.
    - pose proof (le_INR _ _ (WC g Hg)). lra.
  Qed.

  Definition absX (k : I) : R := rsum all (fun i => Rabs (Lu i k * x i)).

  Lemma z_abs k : In k all -> Rabs (z k) <= q ^ wc * absX k + eta * (2 * INR wc) * q ^ wc.
  Proof.
    intros Hk. pose proof (bwd_err k Hk) as H. fold (absX k) in H.
    pose proof (rsum_abs all (fun i => Lu i k * x i)) as H2. cbv beta in H2. fold (absX k) in H2.
    replace (z k) with ((z k - rsum all (fun i => Lu i k * x i)) + rsum all (fun i => Lu i k * x i)) by ring.
    eapply Rle_trans; [apply Rabs_triang|]. lra.
  Qed.

  Lemma y_err k : In k all ->
    Rabs (y k - z k * D k) <= (q - 1) * Rabs (z k * D k) + q * (eta * Rabs (D k)).
  Proof.
    intros Hk. pose proof (z_fin k Hk) as H. rewrite (DE k Hk) in *. apply (div_back O fin val u eta RO); auto.
  Qed.

  (** residual of the computed solution, with respect to the computed factor *)
  Lemma solve_error g : In g all ->
    Rabs (b g - rsum all (fun h => ldl g h * x h)) <=
      gam u (length (row g) + wc + 1) * rsum all (fun h => absLdl g h * Rabs (x h)) +
      eta * (2 * INR (length (row g)) +
             (2 * INR wc + 1) * rsum all (fun k => Rabs (Lu g k * D k))) *
        / (1 - u) ^ (length (row g) + wc + 1).
  Proof.
    intros Hg. set (wr := length (row g)). rewrite (gam_q u). cbv zeta. rewrite <- pow_inv.
    set (N := (wr + wc + 1)%nat).
    (* split of the residual *)
    assert (E1 : rsum all (fun h => ldl g h * x h) =
       rsum all (fun k => Lu g k * D k * rsum all (fun i => Lu i k * x i))).
    { unfold prodAt.
      rewrite (rsum_ext all _ (fun h => rsum all (fun k => Lu g k * D k * Lu h k * x h))).
      2:{ intros h _. rewrite Rmult_comm, <- rsum_scal. apply rsum_ext. intros; ring. }
      rewrite rsum_swap. apply rsum_ext. intros k _. rewrite <- rsum_scal.
      apply rsum_ext. intros; ring. }
    assert (E2 : rsum all (fun h => absLdl g h * Rabs (x h)) =
       rsum all (fun k => Rabs (Lu g k * D k) * absX k)).
    { unfold absProdAt, absX.
      rewrite (rsum_ext all _ (fun h => rsum all (fun k => Rabs (Lu g k * D k) * Rabs (Lu h k * x h)))).
      2:{ intros h _. rewrite Rmult_comm, <- rsum_scal. apply rsum_ext. intros k _.
          rewrite !Rabs_mult. ring. }
      rewrite rsum_swap. apply rsum_ext. intros k _. rewrite <- rsum_scal. auto. }
    rewrite E1, E2. clear E1 E2.
    set (X := fun k => rsum all (fun i => Lu i k * x i)).
    replace (b g - rsum all (fun k => Lu g k * D k * rsum all (fun i => Lu i k * x i)))
      with ((b g - rsum all (fun k => Lu g k * y k)) +
            rsum all (fun k => Lu g k * (y k - z k * D k) + Lu g k * D k * (z k - X k))).
    2:{ transitivity (b g - (rsum all (fun k => Lu g k * y k) + - rsum all (fun k => Lu g k * (y k - z k * D k) +
          Lu g k * D k * (z k - X k)))); [ring|]. f_equal.
        rewrite <- (Ropp_involutive (rsum all (fun k => Lu g k * D k * _))).
        replace (- rsum all (fun k => Lu g k * D k * rsum all (fun i => Lu i k * x i)))
          with (-1 * rsum all (fun k => Lu g k * D k * rsum all (fun i => Lu i k * x i))) by ring.
        rewrite <- rsum_scal.
        replace (- rsum all (fun k => -1 * (Lu g k * D k * rsum all (fun i => Lu i k * x i))))
          with (-1 * rsum all (fun k => -1 * (Lu g k * D k * rsum all (fun i => Lu i k * x i)))) by ring.
        replace (- rsum all (fun k => Lu g k * (y k - z k * D k) + Lu g k * D k * (z k - X k)))
          with (-1 * rsum all (fun k => Lu g k * (y k - z k * D k) + Lu g k * D k * (z k - X k))) by ring.
        rewrite <- !rsum_scal, <- rsum_plus. apply rsum_ext. intros k _. unfold X. ring. }
    eapply Rle_trans; [apply Rabs_triang|].
    pose proof (fwd_err g Hg) as HF. fold wr in HF.
    pose proof (eta_pos O fin val u eta RO) as E0. pose proof (q_ge1 O fin val u eta RO) as Q1. cbv zeta in Q1.
    pose proof (qpow_ge1 O fin val u eta RO wr) as QR. cbv zeta in QR.
    pose proof (qpow_ge1 O fin val u eta RO wc) as QC. cbv zeta in QC.
    pose proof (qpow_le O fin val u eta RO wr N ltac:(unfold N; lia)) as QRN. cbv zeta in QRN.
    pose proof (qpow_le O fin val u eta RO (wr + 1) N ltac:(unfold N; lia)) as QR1N. cbv zeta in QR1N.
    assert (QN : q ^ N = q ^ wr * q ^ wc * q).
    { unfold N. rewrite !pow_add, pow_1. auto. }
    assert (QR1 : q ^ (wr + 1) = q ^ wr * q) by (rewrite pow_add, pow_1; auto).
    assert (WP : 0 <= INR wc) by apply pos_INR. assert (RP : 0 <= INR wr) by apply pos_INR.
    (* the terms *)
    assert (TB : forall k, In k all ->
       (q ^ wr - 1) * Rabs (Lu g k * y k) +
       Rabs (Lu g k * (y k - z k * D k) + Lu g k * D k * (z k - X k)) <=
       Rabs (Lu g k * D k) * ((q ^ N - 1) * absX k + eta * (2 * INR wc + 1) * q ^ N)).
    { intros k Hk. pose proof (z_abs k Hk) as HZ. pose proof (y_err k Hk) as HY.
      pose proof (bwd_err k Hk) as HB. fold (absX k) in HB. fold (X k) in HB.
      assert (XP : 0 <= absX k) by (unfold absX; apply rsum_pos; intros; apply Rabs_pos).
      set (l := Rabs (Lu g k)). assert (LP : 0 <= l) by apply Rabs_pos.
      set (dd := Rabs (D k)). assert (DP : 0 <= dd) by apply Rabs_pos. fold dd in HY.
      set (zz := Rabs (z k)) in *. assert (ZP : 0 <= zz) by apply Rabs_pos.
      rewrite Rabs_mult in HY. fold zz dd in HY.
      set (ZB := q ^ wc * absX k + eta * (2 * INR wc) * q ^ wc) in *.
      assert (YA : Rabs (y k) <= q * dd * (zz + eta)).
      { replace (y k) with ((y k - z k * D k) + z k * D k) by ring.
        eapply Rle_trans; [apply Rabs_triang|]. rewrite (Rabs_mult (z k)). fold zz dd. lra. }
      assert (YB : Rabs (y k) <= q * dd * (ZB + eta)).
      { eapply Rle_trans; [exact YA|]. apply Rmult_le_compat_l; [|lra]. apply Rmult_le_pos; lra. }
      assert (YE : Rabs (y k - z k * D k) <= dd * ((q - 1) * ZB + q * eta)).
      { eapply Rle_trans; [exact HY|].
        assert (zz * dd <= ZB * dd) by (apply Rmult_le_compat_r; lra).
        assert ((q - 1) * (zz * dd) <= (q - 1) * (ZB * dd)) by (apply Rmult_le_compat_l; lra). lra. }
      rewrite (Rabs_mult (Lu g k) (D k)). fold l dd.
      assert (T1 : (q ^ wr - 1) * Rabs (Lu g k * y k) <= (q ^ wr - 1) * (l * (q * dd * (ZB + eta)))).
      { apply Rmult_le_compat_l; [lra|]. rewrite Rabs_mult. fold l. apply Rmult_le_compat_l; auto. }
      assert (T2 : Rabs (Lu g k * (y k - z k * D k)) <= l * (dd * ((q - 1) * ZB + q * eta))).
      { rewrite Rabs_mult. fold l. apply Rmult_le_compat_l; auto. }
      assert (T3 : Rabs (Lu g k * D k * (z k - X k)) <= l * dd * ((q ^ wc - 1) * absX k + eta * (2 * INR wc) * q ^ wc)).
      { rewrite !Rabs_mult. fold l dd. apply Rmult_le_compat_l; auto. apply Rmult_le_pos; auto. }
      apply Rle_trans with ((q ^ wr - 1) * (l * (q * dd * (ZB + eta))) +
         (l * (dd * ((q - 1) * ZB + q * eta)) + l * dd * ((q ^ wc - 1) * absX k + eta * (2 * INR wc) * q ^ wc))).
      { apply Rplus_le_compat; auto. eapply Rle_trans; [apply Rabs_triang|].
        apply Rplus_le_compat; auto. }
      apply Rle_trans with (l * dd * ((q ^ N - 1) * absX k + eta * (2 * INR wc) * q ^ N + eta * q ^ (wr + 1))).
      { right. rewrite QN, QR1. unfold ZB. ring. }
      apply Rmult_le_compat_l; [apply Rmult_le_pos; auto|].
      assert (eta * q ^ (wr + 1) <= eta * q ^ N) by (apply Rmult_le_compat_l; auto). lra. }
    apply Rle_trans with (eta * (2 * INR wr) * q ^ wr +
      rsum all (fun k => (q ^ wr - 1) * Rabs (Lu g k * y k) +
        Rabs (Lu g k * (y k - z k * D k) + Lu g k * D k * (z k - X k)))).
    { rewrite (rsum_plus all (fun k => (q ^ wr - 1) * Rabs (Lu g k * y k))
        (fun k => Rabs (Lu g k * (y k - z k * D k) + Lu g k * D k * (z k - X k)))).
      rewrite (rsum_scal all (q ^ wr - 1) (fun k => Rabs (Lu g k * y k))).
      pose proof (rsum_abs all (fun k => Lu g k * (y k - z k * D k) + Lu g k * D k * (z k - X k))). lra. }
    apply Rle_trans with (eta * (2 * INR wr) * q ^ N + rsum all (fun k =>
       Rabs (Lu g k * D k) * ((q ^ N - 1) * absX k + eta * (2 * INR wc + 1) * q ^ N))).
    { apply Rplus_le_compat; [|apply rsum_le; auto].
      apply Rmult_le_compat_l; auto. apply Rmult_le_pos; lra. }
    right.
    rewrite (rsum_ext all (fun k => Rabs (Lu g k * D k) * ((q ^ N - 1) * absX k + eta * (2 * INR wc + 1) * q ^ N))
      (fun k => (q ^ N - 1) * (Rabs (Lu g k * D k) * absX k) +
                (eta * (2 * INR wc + 1) * q ^ N) * Rabs (Lu g k * D k))).
    2:{ intros; ring. }
    rewrite rsum_plus, (rsum_scal all (q ^ N - 1) (fun k => Rabs (Lu g k * D k) * absX k)),
      (rsum_scal all (eta * (2 * INR wc + 1) * q ^ N) (fun k => Rabs (Lu g k * D k))). ring.
  Qed.
  End Solve.
End Ldl.
