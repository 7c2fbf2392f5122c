(** Rounded factorizations of diagonally dominant matrices neither overflow nor divide by
    zero, over any finite index set. *)
From Coq Require Import Reals Lra Lia List Arith Bool Psatz.
From Verif Require Import ModelNumeric SpecNumeric SpecReg SpecRound SpecDomFloat.
From Verif Require Import ProofExact ProofArrowSub ProofChain ProofRound ProofDomReal.
Import ListNotations.
Local Open Scope R_scope.
Local Notation rsum := (suml Or).

Section Make.
  Context {F : Type} (O : ops F) (fin : F -> Prop) (val : F -> R) (u eta Om : R).
  Context (RO : rounding O fin val u eta) (NO : noOverflow O fin val Om).
  Local Notation q := (/ (1 - u)).

  Lemma near_abs x y : near u eta x y -> Rabs y <= q * Rabs x + eta.
  Proof.
    intros H. pose proof (near_mul_abs O fin val u eta RO x y H) as B. cbv zeta in B.
    replace y with ((y - x) + x) by ring. eapply Rle_trans; [apply Rabs_triang|]. lra.
  Qed.

  Lemma reduces_make {I} (T : I -> F -> Prop) (cs : list I) (b : I -> R) acc s :
    reduces O T acc cs s -> fin acc ->
    (forall k x, In k cs -> T k x -> fin x /\ Rabs (val x) <= b k) ->
    q ^ length cs * (Rabs (val acc) + rsum cs (fun k => b k + eta)) <= Om ->
    fin s /\ Rabs (val s) <= q ^ length cs * (Rabs (val acc) + rsum cs (fun k => b k + eta)).
  Proof.
    pose proof (q_ge1 O fin val u eta RO) as Q1. cbv zeta in Q1. pose proof (eta_pos O fin val u eta RO) as E0.
    intros R0. induction R0 as [acc|acc k cs x r Hx R0 IH]; intros FA HT HO.
    - cbn in *. split; auto. lra.
    - destruct (HT k x (or_introl eq_refl) Hx) as [Fx Bx]. rewrite rsum_cons in *.
      assert (PS : 0 <= rsum cs (fun k0 => b k0 + eta)).
      { clear -R0 HT E0. assert (HT' : forall k x, In k cs -> T k x -> 0 <= b k).
        { intros k' x' Hk H'. destruct (HT k' x' (or_intror Hk) H') as [_ B]. pose proof (Rabs_pos (val x')). lra. }
        clear HT. induction R0 as [|a' k' l' x' r' H' R' IH]; [cbn; lra|].
        rewrite rsum_cons. pose proof (HT' k' x' (or_introl eq_refl) H').
        specialize (IH (fun k x Hk => HT' k x (or_intror Hk))). lra. }
      pose proof (qpow_ge1 O fin val u eta RO (length cs)) as QP. cbv zeta in QP.
      cbn [length pow] in *. pose proof (Rabs_pos (val acc)) as P1. pose proof (Rabs_pos (val x)) as P2.
      set (S := rsum cs (fun k0 => b k0 + eta)) in *. set (p := q ^ length cs) in *.
      assert (B1 : Rabs (val acc - val x) <= Rabs (val acc) + b k).
      { unfold Rminus. eapply Rle_trans; [apply Rabs_triang|]. rewrite Rabs_Ropp. lra. }
      assert (B2 : Rabs (val acc) + b k <= q * p * (Rabs (val acc) + (b k + eta + S))).
      { apply Rle_trans with (1 * (Rabs (val acc) + (b k + eta + S))); [lra|].
        apply Rmult_le_compat_r; [lra|]. nra. }
      assert (FS : fin (osub O acc x)) by (apply (no_sub _ _ _ _ NO); auto; lra).
      destruct (rd_sub _ _ _ _ _ RO acc x FS) as (_ & _ & N).
      pose proof (near_abs _ _ N) as B3.
      assert (B4 : p * (Rabs (val (osub O acc x)) + S) <= q * p * (Rabs (val acc) + (b k + eta + S))).
      { assert (Rabs (val (osub O acc x)) + S <= q * (Rabs (val acc) + (b k + eta + S))).
        { assert (q * Rabs (val acc - val x) <= q * (Rabs (val acc) + b k)) by (apply Rmult_le_compat_l; lra).
          assert (eta + S <= q * (eta + S)) by nra. lra. }
        replace (q * p * (Rabs (val acc) + (b k + eta + S)))
          with (p * (q * (Rabs (val acc) + (b k + eta + S)))) by ring.
        apply Rmult_le_compat_l; lra. }
      destruct (IH FS) as [F1 F2].
      { intros k' x' Hk. apply HT. right; auto. }
      { lra. }
      split; auto. lra.
  Qed.
End Make.

Section Float.
  Context {F : Type} (O : ops F) (fin : F -> Prop) (val : F -> R) (u eta Om : R).
  Context (RO : rounding O fin val u eta) (NO : noOverflow O fin val Om).
  Context {I : Type} (dec : forall a b : I, {a = b} + {a <> b}).
  Variables (all : list I) (row : I -> list I) (rk : I -> nat).
  Variables (A' L' : I -> I -> F) (D' : I -> F).
  Hypothesis RG : rowsGood O all row A' L'.
  Hypothesis CH : chained O dec all row A' L' D' (fun s _ => s).
  Hypothesis RI : forall g h, In g all -> In h all -> rk g = rk h -> g = h.
  Hypothesis RL : forall g h, In g all -> In h (row g) -> (rk h < rk g)%nat.
  Variables (th0 amin amax : R) (m : nat).
  Local Notation q := (/ (1 - u)).
  Local Notation A g h := (val (A' g h)).
  Local Notation L g h := (val (L' g h)).
  Local Notation D g := (val (D' g)).
  Local Notation aL g h := (Rabs (val (L' g h))).
  Local Notation aD g := (Rabs (val (D' g))).
  Local Notation n := (INR (length all)).
  Local Notation ga := (q ^ S m - 1).
  Local Notation et := (eta * (INR (length all) * (4 + 12 * amax))).
  Local Notation th := ((1 + th0) / 2).
  Hypothesis FA : forall g h, In g all -> In h all -> fin (A' g h).
  Hypothesis MR : forall g, In g all -> (length (row g) <= m)%nat.
  Hypothesis T0 : 0 <= th0 < 1.
  Hypothesis DOM : dominatedBy dec all (fun g h => A g h) th0.
  Hypothesis RNG : forall g, In g all -> amin <= Rabs (A g g) <= amax.
  Hypothesis AMIN : 0 < amin.
  Hypothesis GA : 80 * ga <= (1 - th0) * (1 - th0).
  Hypothesis ET : 8 * (n * et) <= (1 - th0) * amin.
  Hypothesis OM1 : 1 <= Om.
  Hypothesis OM2 : 24 * amax <= (1 - th0) * Om.
  Hypothesis OM3 : 24 * amax <= (1 - th0) * (1 - th0) * amin * Om.

  Lemma q1 : 1 <= q. Proof. exact (q_ge1 O fin val u eta RO). Qed.
  Lemma e0 : 0 <= eta. Proof. exact (eta_pos O fin val u eta RO). Qed.
  Lemma ga_pos : 0 <= ga.
  Proof. pose proof (qpow_ge1 O fin val u eta RO (S m)) as H. cbv zeta in H. lra. Qed.
  Lemma ga_small : ga <= 1 / 80.
  Proof. assert ((1 - th0) * (1 - th0) <= 1) by nra. lra. Qed.
  Lemma qm_le j : (j <= S m)%nat -> q ^ j <= 81 / 80.
  Proof. intros H. pose proof (qpow_le O fin val u eta RO j (S m) H) as B. cbv zeta in B. pose proof ga_small. lra. Qed.

  Section Some.
  Variable g0 : I.
  Hypothesis Hg0 : In g0 all.
  Lemma amax_pos : 0 < amax. Proof. pose proof (RNG g0 Hg0). lra. Qed.
  Lemma n1 : 1 <= n.
  Proof. destruct all; [destruct Hg0|]. cbn [length]. rewrite S_INR. pose proof (pos_INR (length l)). lra. Qed.
  Lemma et_pos : 0 <= et.
  Proof. pose proof e0. pose proof n1. pose proof amax_pos. apply Rmult_le_pos; nra. Qed.
  Lemma et_small : 8 * et <= amin.
  Proof.
    pose proof n1. pose proof et_pos. set (e := et) in *.
    assert (e <= n * e) by nra. assert ((1 - th0) * amin <= amin) by nra. lra.
  Qed.
  Lemma eta_amax : eta * (4 + 12 * amax) <= et.
  Proof. pose proof n1. pose proof e0. pose proof amax_pos. apply Rmult_le_compat_l; nra. Qed.
  End Some.

  Lemma L_out g k : In g all -> In k all -> ~ In k (row g) -> L g k = 0.
  Proof. intros. rewrite (rg_L _ _ _ _ _ RG) by auto. apply RO. Qed.
  Lemma L_ge g k : In g all -> In k all -> (rk g <= rk k)%nat -> L g k = 0.
  Proof. intros Hg Hk H. apply L_out; auto. intros Hr. apply RL in Hr; auto. lia. Qed.
  Lemma row_in g k : In g all -> In k (row g) -> In k all.
  Proof. apply (rg_in _ _ _ _ _ RG). Qed.

  Lemma common_NoDup g h : In g all -> NoDup (common dec row g h).
  Proof. intros Hg. apply NoDup_filter. eapply rg_nodup; eauto. Qed.
  Lemma common_len g h : (length (common dec row g h) <= length (row g))%nat.
  Proof.
    unfold common. generalize (row g). intros l. induction l as [|a l IH]; cbn [filter length]; [lia|].
    destruct (memI dec a (row h)); cbn [length]; lia.
  Qed.

  (** one term *)
  Lemma term_make g h k x : In g all -> In k (row g) -> isTerm O L' D' g h k x ->
    fin (L' g k) -> fin (L' h k) -> fin (D' k) ->
    aL g k <= 1 -> aL h k <= 1 -> aD k <= 2 * amax ->
    fin x /\ Rabs (val x) <= 2 * Rabs (L g k * D k * L h k) + eta * (2 + 8 * amax) /\
    termErr u eta 1 (1 + Rabs (D k) * (1 + Rabs (L h k))) (L g k * D k * L h k) (val x).
  Proof.
    intros Hg Hk H F1 F2 F3 B1 B2 B3.
    pose proof q1 as Q1. pose proof e0 as E0. pose proof (amax_pos g Hg) as AP.
    pose proof (eta_amax g Hg) as EA. pose proof (et_small g Hg) as ES. pose proof (RNG g Hg) as RN.
    assert (M1 : (1 <= m)%nat).
    { pose proof (MR g Hg). destruct (row g); [destruct Hk|]. cbn [length] in *. lia. }
    assert (Q2 : q <= 81 / 80) by (pose proof (qm_le 1 ltac:(lia)) as B; cbn [pow] in B; lra).
    assert (Q3 : q ^ 2 <= 81 / 80) by (apply qm_le; lia).
    pose proof (Rabs_pos (D k)) as PD. pose proof (Rabs_pos (L h k)) as PH. pose proof (Rabs_pos (L g k)) as PG.
    assert (EA2 : eta * amax <= amax / 96) by lra.
    assert (OMA : 24 * amax <= Om) by nra.
    assert (TE : fin x /\ termErr u eta 1 (1 + Rabs (D k) * (1 + Rabs (L h k))) (L g k * D k * L h k) (val x)).
    { destruct H as [->|(s & Hs & Hx)].
      - assert (Fp : fin (omul O (L' g k) (L' h k))).
        { apply (no_mul _ _ _ _ NO); auto. rewrite Rabs_mult. nra. }
        destruct (rd_mul _ _ _ _ _ RO _ _ Fp) as (_ & _ & N1).
        pose proof (near_abs O fin val u eta RO _ _ N1) as B4. rewrite Rabs_mult in B4.
        assert (Rabs (L g k) * Rabs (L h k) <= 1) by nra.
        assert (B5 : Rabs (val (omul O (L' g k) (L' h k))) <= 2 + eta) by nra.
        assert (Fx : fin (omul O (omul O (L' g k) (L' h k)) (D' k))).
        { apply (no_mul _ _ _ _ NO); auto. rewrite Rabs_mult.
          apply Rle_trans with ((2 + eta) * (2 * amax)); [apply Rmult_le_compat; auto; apply Rabs_pos|]. lra. }
        split; auto.
        destruct (rd_mul _ _ _ _ _ RO _ _ Fx) as (_ & _ & N2).
        apply (term_mono O fin val u eta RO 1 (1 + Rabs (D k))); [nra|].
        eapply (term_triple O fin val u eta RO); eauto.
      - pose proof F1 as Fq. rewrite Hs in Fq.
        destruct (rd_div _ _ _ _ _ RO s (D' k) F3 Fq) as (Fs & Dn & _).
        pose proof (div_back O fin val u eta RO s (D' k) F3 Fq) as DB. cbv zeta in DB. rewrite <- Hs in DB.
        rewrite Rabs_mult in DB.
        assert (BL : Rabs (L g k) * Rabs (D k) <= 2 * amax) by nra.
        assert (Bs : Rabs (val s) <= 5 * amax).
        { replace (val s) with ((val s - L g k * D k) + L g k * D k) by ring.
          eapply Rle_trans; [apply Rabs_triang|]. rewrite Rabs_mult.
          assert (q * (eta * Rabs (D k)) <= 2 * (2 * (eta * amax))).
          { apply Rmult_le_compat; try lra; nra. }
          assert (q * (Rabs (L g k) * Rabs (D k)) <= 2 * (2 * amax)) by (apply Rmult_le_compat; nra).
          lra. }
        pose proof (Rabs_pos (val s)) as Ps.
        assert (Bx : Rabs (L h k * val s) <= Om) by (rewrite Rabs_mult; nra).
        assert (Fx : fin x).
        { destruct Hx as [->| ->]; apply (no_mul _ _ _ _ NO); auto. rewrite Rmult_comm. auto. }
        split; auto.
        apply (term_mono O fin val u eta RO 1 (1 + Rabs (D k) * Rabs (L h k))); [nra|].
        rewrite Hs in *. destruct Hx as [->| ->];
          destruct (rd_mul _ _ _ _ _ RO _ _ Fx) as (_ & _ & N1);
          [|rewrite Rmult_comm in N1]; apply (term_scaled O fin val u eta RO); auto. }
    destruct TE as [Fx TE]. split; auto. split; auto. destruct TE as [C0 TE].
    set (t := L g k * D k * L h k) in *. pose proof (Rabs_pos t) as Pt.
    replace (val x) with ((val x - t) + t) by ring. eapply Rle_trans; [apply Rabs_triang|].
    cbn [Nat.add] in TE.
    assert ((q ^ 2 - 1) * Rabs t <= 1 * Rabs t) by (apply Rmult_le_compat_r; lra).
    assert (eta * (1 + Rabs (D k) * (1 + Rabs (L h k))) * q ^ 2 <= eta * (1 + 2 * amax * 2) * 2).
    { pose proof (qpow_ge1 O fin val u eta RO 2) as QP. cbv zeta in QP.
      apply Rmult_le_compat; [nra|lra| |lra]. apply Rmult_le_compat_l; auto.
      apply Rplus_le_compat_l. apply Rmult_le_compat; lra. }
    lra.
  Qed.

  (** a chain of subtractions *)
  Definition okTo (g h : I) : Prop := forall k, In k (row g) -> In k (row h) ->
    fin (L' g k) /\ fin (L' h k) /\ fin (D' k) /\ aL g k <= 1 /\ aL h k <= 1 /\ aD k <= 2 * amax.

  Lemma chain_make g h cs acc s : In g all -> NoDup cs -> (length cs <= m)%nat ->
    (forall k, In k cs -> In k (row g) /\ In k (row h)) -> okTo g h ->
    reduces O (isTerm O L' D' g h) acc cs s -> fin acc -> Rabs (val acc) <= amax ->
    (1 - th0) * rsum cs (fun k => Rabs (L g k * D k * L h k)) <= 4 * amax ->
    fin s /\ Rabs (val s) * (1 - th0) <= 12 * amax /\
    Appr u eta 1 (length cs) (rsum cs (fun k => 1 + (1 + Rabs (D k) * (1 + Rabs (L h k)))))
      (val acc) (val s) (rsum cs (fun k => L g k * D k * L h k))
      (rsum cs (fun k => Rabs (L g k * D k * L h k))).
  Proof.
    intros Hg NDc Lc Hcs OK RD Fa Ba BT.
    pose proof q1 as Q1. pose proof e0 as E0. pose proof (amax_pos g Hg) as AP.
    pose proof (et_small g Hg) as ES. pose proof (RNG g Hg) as RN. pose proof (n1 g Hg) as N1.
    set (T := rsum cs (fun k => Rabs (L g k * D k * L h k))) in *.
    assert (T1 : 0 <= T) by (apply rsum_pos; intros; apply Rabs_pos).
    assert (LN : INR (length cs) <= n).
    { apply le_INR. apply NoDup_incl_length; auto. intros k Hk. destruct (Hcs k Hk). eapply row_in; eauto. }
    assert (SB : rsum cs (fun k => 2 * Rabs (L g k * D k * L h k) + eta * (2 + 8 * amax) + eta) <= 2 * T + amax / 8).
    { rewrite (rsum_ext cs _ (fun k => 2 * Rabs (L g k * D k * L h k) + eta * (3 + 8 * amax))) by (intros; ring).
      rewrite rsum_plus, rsum_scal, rsum_const. fold T. apply Rplus_le_compat_l.
      apply Rle_trans with et; [|lra].
      replace (INR (length cs) * (eta * (3 + 8 * amax))) with (eta * (INR (length cs) * (3 + 8 * amax))) by ring.
      apply Rmult_le_compat_l; auto. apply Rmult_le_compat; lra || apply pos_INR. }
    assert (QL : q ^ length cs <= 81 / 80) by (apply qm_le; lia).
    pose proof (qpow_ge1 O fin val u eta RO (length cs)) as QP. cbv zeta in QP.
    destruct (reduces_make O fin val u eta Om RO NO (isTerm O L' D' g h) cs
      (fun k => 2 * Rabs (L g k * D k * L h k) + eta * (2 + 8 * amax)) acc s RD Fa) as [Fs Bs].
    { intros k x Hk Hx. destruct (Hcs k Hk) as [K1 K2]. destruct (OK k K1 K2) as (F1 & F2 & F3 & B1 & B2 & B3).
      destruct (term_make g h k x Hg K1 Hx F1 F2 F3 B1 B2 B3) as (Fx & Bx & _). auto. }
    { set (SS := rsum cs (fun k => 2 * Rabs (L g k * D k * L h k) + eta * (2 + 8 * amax) + eta)) in *. assert (0 <= Rabs (val acc) + SS).
      { pose proof (Rabs_pos (val acc)). apply Rplus_le_le_0_compat; auto. apply rsum_pos. intros k Hk.
        pose proof (Rabs_pos (L g k * D k * L h k)). nra. }
      assert (B : q ^ length cs * (Rabs (val acc) + SS) <= 81 / 80 * (amax + (2 * T + amax / 8))).
      { apply Rmult_le_compat; lra. }
      eapply Rle_trans; [exact B|]. apply Rmult_le_reg_l with (1 - th0); [lra|].
      eapply Rle_trans; [|exact OM2].
      assert ((1 - th0) * amax <= amax) by nra. lra. }
    split; auto. split.
    { set (SS := rsum cs (fun k => 2 * Rabs (L g k * D k * L h k) + eta * (2 + 8 * amax) + eta)) in *. assert (0 <= Rabs (val acc) + SS).
      { pose proof (Rabs_pos (val acc)). apply Rplus_le_le_0_compat; auto. apply rsum_pos. intros k Hk.
        pose proof (Rabs_pos (L g k * D k * L h k)). nra. }
      assert (B : q ^ length cs * (Rabs (val acc) + SS) <= 81 / 80 * (amax + (2 * T + amax / 8))).
      { apply Rmult_le_compat; lra. }
      apply Rle_trans with (81 / 80 * (amax + (2 * T + amax / 8)) * (1 - th0)).
      { apply Rmult_le_compat_r; lra. }
      assert ((1 - th0) * amax <= amax) by nra. lra. }
    apply (appr_reduces O fin val u eta RO 1 (isTerm O L' D' g h)); auto.
    intros k x Hk Hx Fx. destruct (Hcs k Hk) as [K1 K2]. destruct (OK k K1 K2) as (F1 & F2 & F3 & B1 & B2 & B3).
    destruct (term_make g h k x Hg K1 Hx F1 F2 F3 B1 B2 B3) as (_ & _ & TE). auto.
  Qed.

  (** sums over all columns *)
  Lemma sum_common g h : In g all -> In h all ->
    rsum (common dec row g h) (fun k => Rabs (L g k * D k * L h k)) =
    rsum all (fun k => aL g k * aD k * aL h k).
  Proof.
    intros Hg Hh. symmetry. rewrite (rsum_sub dec (common dec row g h) all).
    - apply rsum_ext. intros k _. rewrite !Rabs_mult. auto.
    - apply common_NoDup; auto.
    - apply RG.
    - intros k Hk. apply common_In in Hk. eapply row_in; [exact Hg|tauto].
    - intros k Hk Hn. rewrite common_In in Hn. destruct (in_dec dec k (row g)) as [I1|I1].
      + rewrite (L_out h k) by tauto. rewrite Rabs_R0. ring.
      + rewrite (L_out g k) by tauto. rewrite Rabs_R0. ring.
  Qed.

  Lemma sum_row g : In g all ->
    rsum (row g) (fun k => Rabs (L g k * D k * L g k)) =
    rsum all (fun k => aL g k * aD k * aL g k).
  Proof.
    intros Hg. symmetry. rewrite (rsum_sub dec (row g) all).
    - apply rsum_ext. intros k _. rewrite !Rabs_mult. auto.
    - eapply rg_nodup; eauto.
    - apply RG.
    - intros k Hk. eapply row_in; [exact Hg|tauto].
    - intros k Hk Hn. rewrite (L_out g k) by tauto. rewrite Rabs_R0. ring.
  Qed.

  Lemma under_small g cs (h : I) : In g all -> NoDup cs ->
    (forall k, In k cs -> In k all /\ aL h k <= 1 /\ aD k <= 2 * amax) ->
    (exists k, In k all /\ ~ In k cs) ->
    eta * (rsum cs (fun k => 1 + (1 + Rabs (D k) * (1 + Rabs (L h k)))) + 2 * amax) * q ^ S m <= et.
  Proof.
    intros Hg NDc Hcs (k0 & Hk0 & Nk0).
    pose proof (amax_pos g Hg) as AP. pose proof e0 as E0.
    assert (LN : INR (length cs) + 1 <= n).
    { rewrite <- S_INR. apply le_INR. apply (NoDup_incl_length (l := k0 :: cs)).
      - constructor; auto.
      - intros k [<-|Hk]; auto. apply Hcs; auto. }
    assert (B : rsum cs (fun k => 1 + (1 + Rabs (D k) * (1 + Rabs (L h k)))) <= INR (length cs) * (2 + 4 * amax)).
    { rewrite <- rsum_const. apply rsum_le. intros k Hk. destruct (Hcs k Hk) as (_ & B1 & B2).
      pose proof (Rabs_pos (D k)). pose proof (Rabs_pos (L h k)).
      assert (Rabs (D k) * (1 + Rabs (L h k)) <= 2 * amax * 2) by (apply Rmult_le_compat; lra). lra. }
    assert (B0 : 0 <= rsum cs (fun k => 1 + (1 + Rabs (D k) * (1 + Rabs (L h k))))).
    { apply rsum_pos. intros k Hk. pose proof (Rabs_pos (D k)). pose proof (Rabs_pos (L h k)). nra. }
    assert (Q : q ^ S m <= 81 / 80) by (apply qm_le; lia).
    pose proof (qpow_ge1 O fin val u eta RO (S m)) as QP. cbv zeta in QP.
    apply Rle_trans with (eta * (INR (length cs) * (2 + 4 * amax) + 2 * amax) * (81 / 80)).
    { apply Rmult_le_compat; try lra.
      - apply Rmult_le_pos; lra.
      - apply Rmult_le_compat_l; lra. }
    replace (eta * (INR (length cs) * (2 + 4 * amax) + 2 * amax) * (81 / 80))
      with (eta * ((INR (length cs) * (2 + 4 * amax) + 2 * amax) * (81 / 80))) by ring.
    apply Rmult_le_compat_l; auto. pose proof (pos_INR (length cs)). nra.
  Qed.

  Lemma row_step g h : In g all -> In h (row g) -> okTo g h -> fin (D' h) ->
    (1 - th0) / 2 * amin <= aD h <= 2 * amax -> Rabs (A g h) <= amax ->
    (1 - th0) * rsum all (fun k => aL h k * aD k) <= 2 * amax ->
    let S := rsum all (fun k => aL g k * aD k * aL h k) in
    fin (L' g h) /\ Rabs (A g h - L g h * D h - rsum (common dec row g h) (fun k => L g k * D k * L h k))
      <= ga * (aL g h * aD h + S) + et.
  Proof.
    intros Hg Hh OK FD BD BA BW S. assert (Ha : In h all) by (eapply row_in; eauto).
    destruct (ch_row _ _ _ _ _ _ _ _ CH g h Hg Hh) as (s & Hs & E).
    pose proof (amax_pos g Hg) as AP. pose proof e0 as E0. pose proof q1 as Q1.
    set (cs := common dec row g h) in *.
    assert (Hcs : forall k, In k cs -> In k (row g) /\ In k (row h)) by (intros k; apply common_In).
    assert (NDc : NoDup cs) by (apply common_NoDup; auto).
    assert (Lc : (length cs <= m)%nat) by (eapply Nat.le_trans; [apply common_len|apply MR; auto]).
    assert (ES : rsum cs (fun k => Rabs (L g k * D k * L h k)) = S) by (apply sum_common; auto).
    assert (SW : S <= rsum all (fun k => aL h k * aD k)).
    { apply rsum_le. intros k Hk.
      pose proof (Rabs_pos (L g k)). pose proof (Rabs_pos (D k)). pose proof (Rabs_pos (L h k)).
      assert (G : aL g k * aL h k <= 1 * aL h k).
      { destruct (in_dec dec k (row g)) as [I1|I1].
        - destruct (in_dec dec k (row h)) as [I2|I2].
          + destruct (OK k I1 I2) as (_ & _ & _ & B & _ & _). apply Rmult_le_compat_r; auto.
          + rewrite (L_out h k) by auto. rewrite Rabs_R0. lra.
        - rewrite (L_out g k) by auto. rewrite Rabs_R0. lra. }
      replace (aL g k * aD k * aL h k) with (aL g k * aL h k * aD k) by ring.
      apply Rmult_le_compat_r; lra. }
    assert (FAg : fin (A' g h)) by (apply FA; auto).
    destruct (chain_make g h cs (A' g h) s Hg NDc Lc Hcs OK Hs FAg BA) as (Fs & Bs & AP1).
    { rewrite ES. assert ((1 - th0) * S <= (1 - th0) * rsum all (fun k => aL h k * aD k)) by (apply Rmult_le_compat_l; lra). lra. }
    rewrite ES in AP1.
    assert (P2 : 0 < aD h) by nra.
    assert (Dn : D h <> 0) by (intros Z; rewrite Z, Rabs_R0 in P2; lra).
    assert (Fl : fin (L' g h)).
    { rewrite E. apply (no_div _ _ _ _ NO); auto. unfold Rdiv. rewrite Rabs_mult, Rabs_inv.
      apply Rmult_le_reg_r with (aD h); auto. rewrite Rmult_assoc, Rinv_l, Rmult_1_r by lra.
      apply Rmult_le_reg_r with (1 - th0); [lra|]. eapply Rle_trans; [exact Bs|].
      assert (Om * ((1 - th0) / 2 * amin) * (1 - th0) <= Om * aD h * (1 - th0)).
      { apply Rmult_le_compat_r; [lra|]. apply Rmult_le_compat_l; lra. }
      lra. }
    split; auto.
    set (c := rsum cs (fun k => 1 + (1 + Rabs (D k) * (1 + Rabs (L h k))))) in *.
    assert (EU : eta * (c + 2 * amax) * q ^ Datatypes.S m <= et).
    { apply (under_small g cs h Hg NDc).
      - intros k Hk. destruct (Hcs k Hk) as [K1 K2]. destruct (OK k K1 K2) as (_ & _ & _ & _ & B1 & B2).
        split; [eapply row_in; [exact Hg|auto]|]. auto.
      - exists h. split; auto. intros Hk. apply Hcs in Hk. eapply (rg_irr _ _ _ _ _ RG h); tauto. }
    apply (appr_mono O fin val u eta RO 1 _ m c c) in AP1; [|auto|lra].
    destruct AP1 as (C0 & C1 & C2).
    pose proof (div_back O fin val u eta RO s (D' h) FD) as DB. rewrite <- E in DB. specialize (DB Fl).
    set (sv := val s) in *. rewrite <- (Rabs_mult (L g h)).
    set (p := L g h * D h) in *. set (Sg := rsum cs (fun k => L g k * D k * L h k)) in *.
    pose proof (qpow_ge1 O fin val u eta RO m) as QM. cbv zeta in QM.
    pose proof (Rabs_pos p) as P0.
    assert (SB : Rabs sv <= q * Rabs p + q * (eta * Rabs (D h))).
    { replace sv with ((sv - p) + p) by ring. eapply Rle_trans; [apply Rabs_triang|]. lra. }
    replace (A g h - p - Sg) with ((A g h - sv - Sg) + (sv - p)) by ring.
    eapply Rle_trans; [apply Rabs_triang|].
    assert (X : (q ^ m - 1) * Rabs sv <= (q ^ m - 1) * (q * Rabs p + q * (eta * Rabs (D h)))).
    { apply Rmult_le_compat_l; lra. }
    rewrite Nat.add_1_r in C2.
    assert (QS : q ^ Datatypes.S m = q ^ m * q) by (cbn [pow]; ring).
    assert (Y : eta * (c + Rabs (D h)) * q ^ Datatypes.S m <= eta * (c + 2 * amax) * q ^ Datatypes.S m).
    { apply Rmult_le_compat_r; [nra|]. apply Rmult_le_compat_l; auto. lra. }
    eapply Rle_trans; [|apply Rplus_le_compat_l; exact EU].
    eapply Rle_trans; [|apply Rplus_le_compat_l; exact Y].
    apply Rle_trans with ((q ^ m - 1) * (q * Rabs p + q * (eta * Rabs (D h))) +
      (q ^ Datatypes.S m - 1) * S + eta * c * q ^ Datatypes.S m +
      ((q - 1) * Rabs p + q * (eta * Rabs (D h)))); [lra|].
    rewrite QS. right. ring.
  Qed.

  Lemma diag_step g : In g all -> okTo g g ->
    (1 - th0) * rsum all (fun k => aL g k * aD k) <= 2 * amax ->
    let X := rsum all (fun k => aL g k * aD k * aL g k) in
    fin (D' g) /\ Rabs (A g g - D g - rsum (row g) (fun k => L g k * D k * L g k))
      <= ga * (aD g + X) + et.
  Proof.
    intros Hg OK BW X.
    destruct (ch_D _ _ _ _ _ _ _ _ CH g Hg) as (s & Hs & E). cbv beta in E.
    pose proof (amax_pos g Hg) as AP. pose proof e0 as E0. pose proof q1 as Q1.
    assert (Hcs : forall k, In k (row g) -> In k (row g) /\ In k (row g)) by auto.
    assert (NDc : NoDup (row g)) by (eapply rg_nodup; eauto).
    assert (ES : rsum (row g) (fun k => Rabs (L g k * D k * L g k)) = X) by (apply sum_row; auto).
    assert (SW : X <= rsum all (fun k => aL g k * aD k)).
    { apply rsum_le. intros k Hk.
      pose proof (Rabs_pos (L g k)). pose proof (Rabs_pos (D k)).
      assert (G : aL g k <= 1).
      { destruct (in_dec dec k (row g)) as [I1|I1].
        - destruct (OK k I1 I1) as (_ & _ & _ & B & _ & _). auto.
        - rewrite (L_out g k) by auto. rewrite Rabs_R0. lra. }
      rewrite <- (Rmult_1_r (aL g k * aD k)) at 2. apply Rmult_le_compat_l; auto. nra. }
    destruct (chain_make g g (row g) (A' g g) s Hg NDc (MR g Hg) Hcs OK Hs (FA g g Hg Hg)) as (Fs & Bs & AP1).
    { apply RNG; auto. }
    { rewrite ES. assert ((1 - th0) * X <= (1 - th0) * rsum all (fun k => aL g k * aD k)) by (apply Rmult_le_compat_l; lra). lra. }
    rewrite ES in AP1. rewrite <- E in *. split; auto.
    set (c := rsum (row g) (fun k => 1 + (1 + Rabs (D k) * (1 + Rabs (L g k))))) in *.
    assert (EU : eta * (c + 2 * amax) * q ^ S m <= et).
    { apply (under_small g (row g) g Hg NDc).
      - intros k Hk. destruct (OK k Hk Hk) as (_ & _ & _ & _ & B1 & B2).
        split; [eapply row_in; [exact Hg|auto]|]. auto.
      - exists g. split; auto. intros Hk. eapply (rg_irr _ _ _ _ _ RG g); eauto. }
    apply (appr_mono O fin val u eta RO 1 _ m c c) in AP1; [|auto|lra].
    destruct AP1 as (C0 & C1 & C2). rewrite Nat.add_1_r in C2.
    eapply Rle_trans; [exact C2|].
    pose proof (qpow_le O fin val u eta RO m (S m) ltac:(lia)) as QM. cbv zeta in QM.
    pose proof (qpow_ge1 O fin val u eta RO (S m)) as QS. cbv zeta in QS.
    pose proof (Rabs_pos (D g)).
    assert ((q ^ m - 1) * Rabs (D g) <= (q ^ S m - 1) * Rabs (D g)) by (apply Rmult_le_compat_r; lra).
    assert (eta * c * q ^ S m <= eta * (c + 2 * amax) * q ^ S m).
    { apply Rmult_le_compat_r; [lra|]. apply Rmult_le_compat_l; lra. }
    lra.
  Qed.

  (** ** the state after entry (g, h) *)
  Local Notation S j h := (rsum all (fun k => aL j k * aD k * aL h k)).
  Local Notation W g := (rsum all (fun k => aL g k * aD k)).
  Definition EN (j h : I) : Prop :=
    aL j h * aD h <= Rabs (A j h) + (ga * (aL j h * aD h + S j h) + et) + S j h.
  Definition CL (g h : I) : Prop :=
    rsum all (fun j => if (rk j <=? rk g)%nat then aL j h else 0) <= th.

  Lemma S_pos j h : 0 <= S j h.
  Proof. apply rsum_pos. intros. repeat apply Rmult_le_pos; apply Rabs_pos. Qed.

  Lemma CL_entry g h j : In j all -> (rk j <= rk g)%nat -> CL g h -> aL j h <= th.
  Proof.
    intros Hj Le C. eapply Rle_trans; [|exact C].
    rewrite (rsum_remove dec all j) by (auto; apply RG).
    rewrite (proj2 (Nat.leb_le _ _) Le).
    assert (0 <= rsum (remove dec j all) (fun j0 => if (rk j0 <=? rk g)%nat then aL j0 h else 0)).
    { apply rsum_pos. intros k _. destruct (rk k <=? rk g)%nat; [apply Rabs_pos|lra]. }
    lra.
  Qed.

  Lemma A_small g h : In g all -> In h all -> Rabs (A g h) <= amax.
  Proof.
    intros Hg Hh. pose proof (RNG g Hg) as RN. destruct (dec g h) as [<-|N]; [tauto|].
    pose proof (DOM g Hg) as B. rewrite (rsum_remove dec all h) in B by (auto; apply RG).
    destruct (dec g h); [congruence|].
    assert (0 <= rsum (remove dec h all) (fun h0 => if dec g h0 then 0 else Rabs (A g h0))).
    { apply rsum_pos. intros k _. destruct (dec g k); [lra|apply Rabs_pos]. }
    pose proof (Rabs_pos (A g g)). nra.
  Qed.

  Section State.
  Variables (g h : I) (dh eh : R).
  Hypothesis Hg : In g all.
  Hypothesis Hh : In h all.
  Hypothesis Hle : (rk h <= rk g)%nat.
  Hypothesis HEN : forall j k, In j all -> In k all -> (rk k < rk j)%nat ->
    (rk j < rk g)%nat \/ (rk j = rk g /\ (rk k <= rk h)%nat) -> EN j k.
  Hypothesis HCL : forall k, In k all -> (rk k < rk h)%nat -> CL g k.
  Hypothesis HD : (rk h < rk g)%nat -> dh = aD h.
  Hypothesis HD0 : 0 <= dh.
  Hypothesis He0 : 0 <= eh.
  Hypothesis HD1 : Rabs (A h h) - eh - S h h <= dh.
  Hypothesis HD2 : dh <= Rabs (A h h) + eh + S h h.
  Hypothesis HE : eh <= ga * (dh + S h h) + et.

  Let mask (j k : I) : bool := (rk j <? rk g)%nat || ((rk j =? rk g)%nat && (rk k <=? rk h)%nat).
  Let l (j k : I) : R := if mask j k then aL j k else 0.
  Let dd (k : I) : R := if dec k h then dh else aD k.
  Let a (j : I) : R := Rabs (A h j).
  Let e (j : I) : R :=
    if (rk j <? rk h)%nat then ga * (aL h j * aD j + S h j) + et
    else if (rk h <? rk j)%nat then ga * (l j h * dd h + rsum all (fun k => l j k * dd k * l h k)) + et
    else eh.

  Lemma mask_lo k j : (rk j <= rk h)%nat -> (rk k < rk j)%nat -> mask j k = true.
  Proof.
    intros H1 H2. unfold mask. destruct (Nat.ltb_spec (rk j) (rk g)); [reflexivity|].
    cbn [orb]. apply andb_true_iff. rewrite Nat.eqb_eq, Nat.leb_le. lia.
  Qed.

  Lemma l_pos j k : 0 <= l j k.
  Proof. unfold l. destruct (mask j k); [apply Rabs_pos|lra]. Qed.
  Lemma dd_pos k : 0 <= dd k.
  Proof. unfold dd. destruct (dec k h); [auto|apply Rabs_pos]. Qed.
  Lemma l_ge j k : In j all -> In k all -> (rk j <= rk k)%nat -> l j k = 0.
  Proof. intros Hj Hk H. unfold l. destruct (mask j k); auto. rewrite (L_ge j k) by auto. apply Rabs_R0. Qed.
  Lemma dd_ne k : (rk k < rk h)%nat -> dd k = aD k.
  Proof. intros H. unfold dd. destruct (dec k h) as [->|]; [lia|auto]. Qed.

  (** row h *)
  Lemma sum_lo k : In k all -> (rk k <= rk h)%nat -> rsum all (fun k' => l h k' * dd k' * l k k') = S h k.
  Proof.
    intros Hk Hl. apply rsum_ext. intros k' Hk'. destruct (Nat.lt_ge_cases (rk k') (rk k)) as [Lt|Ge].
    - unfold l. rewrite !mask_lo by lia. rewrite dd_ne by lia. auto.
    - rewrite (l_ge k k'), (L_ge k k'), Rabs_R0 by auto. ring.
  Qed.

  Lemma sum_W : rsum all (fun k => l h k * dd k) = W h.
  Proof.
    apply rsum_ext. intros k Hk. destruct (Nat.lt_ge_cases (rk k) (rk h)) as [Lt|Ge].
    - unfold l. rewrite mask_lo by lia. rewrite dd_ne by lia. auto.
    - rewrite (l_ge h k), (L_ge h k), Rabs_R0 by auto. ring.
  Qed.

  Lemma state_dominant :
    rsum all (fun j => l j h) * dh <= th * dh /\
    (1 - th0) / 2 * Rabs (A h h) <= dh <= 2 * Rabs (A h h) /\
    (1 - th0) * W h <= 2 * Rabs (A h h) /\ eh + S h h <= th * Rabs (A h h).
  Proof.
    pose proof (ga_pos) as GP. pose proof (et_pos g Hg) as EP. pose proof (RNG h Hh) as RN.
    assert (DH : dd h = dh) by (unfold dd; destruct (dec h h); congruence).
    assert (SP : forall j, 0 <= rsum all (fun k => l j k * dd k * l h k)).
    { intros j. apply rsum_pos. intros k _. pose proof (l_pos j k). pose proof (l_pos h k). pose proof (dd_pos k).
      repeat apply Rmult_le_pos; auto. }
    assert (EPOS : forall k, In k all -> 0 <= e k).
    { intros k Hk. unfold e. destruct (rk k <? rk h)%nat; [|destruct (rk h <? rk k)%nat; auto].
      - pose proof (S_pos h k). pose proof (Rabs_pos (L h k)). pose proof (Rabs_pos (D k)).
        apply Rplus_le_le_0_compat; auto. apply Rmult_le_pos; auto. apply Rplus_le_le_0_compat; auto. nra.
      - pose proof (SP k). pose proof (l_pos k h). pose proof (dd_pos h).
        apply Rplus_le_le_0_compat; auto. apply Rmult_le_pos; auto. apply Rplus_le_le_0_compat; auto. nra. }
    assert (EH : e h = eh) by (unfold e; rewrite Nat.ltb_irrefl; auto).
    assert (CD := column_dominant dec all rk (rg_all _ _ _ _ _ RG) RI l dd a e h th th0 ga et Hh
      (fun j k _ _ => l_pos j k) l_ge (fun k _ => dd_pos k) (fun k _ => Rabs_pos _) EPOS).
    assert (G : (1 - th0) * amin <= (1 - th0) * Rabs (A h h)) by (apply Rmult_le_compat_l; lra).
    assert (DS : rsum (loI all rk h) a + rsum (hiI all rk h) a <= th0 * a h).
    { pose proof (DOM h Hh) as B. rewrite (rsum_split dec all rk (rg_all _ _ _ _ _ RG) RI h) in B by auto.
      destruct (dec h h); [|congruence]. unfold a.
      rewrite (rsum_ext (loI all rk h) (fun j => Rabs (A h j)) (fun h0 => if dec h h0 then 0 else Rabs (A h h0))).
      - rewrite (rsum_ext (hiI all rk h) (fun j => Rabs (A h j)) (fun h0 => if dec h h0 then 0 else Rabs (A h h0))); [lra|].
        intros k Hk. apply hiI_In in Hk. destruct (dec h k) as [->|]; [lia|auto].
      - intros k Hk. apply loI_In in Hk. destruct (dec h k) as [->|]; [lia|auto]. }
    rewrite EH, DH, sum_W, (sum_lo h Hh (Nat.le_refl _)) in CD.
    destruct CD as (C1 & C2 & C3 & _ & _ & C4); try (split; [lra|]); auto; try lra.
    - (* columns before h *)
      intros k Hk. apply loI_In in Hk. destruct Hk as [Hk Lk].
      eapply Rle_trans; [|exact (HCL k Hk Lk)]. right. apply rsum_ext. intros j Hj. unfold l, mask.
      destruct (Nat.ltb_spec (rk j) (rk g)), (Nat.leb_spec (rk j) (rk g)), (Nat.eqb_spec (rk j) (rk g)),
        (Nat.leb_spec (rk k) (rk h)); cbn [orb andb]; try lia; auto.
    - (* column h *)
      intros j Hj. apply hiI_In in Hj. destruct Hj as [Hj Lj]. unfold e.
      destruct (Nat.ltb_spec (rk j) (rk h)); [lia|]. rewrite (proj2 (Nat.ltb_lt _ _) Lj).
      destruct (mask j h) eqn:M.
      + assert (Lg : (rk j < rk g)%nat \/ (rk j = rk g /\ (rk h <= rk h)%nat)).
        { unfold mask in M. apply orb_true_iff in M. rewrite andb_true_iff, Nat.ltb_lt, Nat.eqb_eq in M. lia. }
        assert (SE : rsum all (fun k => l j k * dd k * l h k) = S j h).
        { apply rsum_ext. intros k Hk. destruct (Nat.lt_ge_cases (rk k) (rk h)) as [Lt|Ge].
          - unfold l. rewrite (mask_lo k h) by lia. rewrite dd_ne by lia.
            replace (mask j k) with true; auto. symmetry. unfold mask. apply orb_true_iff.
            rewrite andb_true_iff, Nat.ltb_lt, Nat.eqb_eq, Nat.leb_le. lia.
          - rewrite (l_ge h k), (L_ge h k), Rabs_R0 by auto. ring. }
        rewrite SE, DH, (HD ltac:(lia)). unfold a. rewrite (rg_sym _ _ _ _ _ RG h j) by auto.
        pose proof (HEN j h Hj Hh Lj Lg) as B. unfold EN in B. unfold l. rewrite M. lra.
      + replace (l j h) with 0 by (unfold l; rewrite M; auto).
        pose proof (SP j). pose proof (Rabs_pos (A h j)). unfold a.
        assert (0 <= ga * (0 * dd h + rsum all (fun k => l j k * dd k * l h k))) by (apply Rmult_le_pos; lra).
        lra.
    - (* row h *)
      intros k Hk. apply loI_In in Hk. destruct Hk as [Hk Lk]. unfold e.
      rewrite (proj2 (Nat.ltb_lt _ _) Lk), (sum_lo k Hk ltac:(lia)), dd_ne by auto.
      replace (l h k) with (aL h k) by (unfold l; rewrite mask_lo; auto).
      apply (HEN h k); auto. lia.
    - intros j Hj. apply hiI_In in Hj. destruct Hj as [Hj Lj]. unfold e.
      destruct (Nat.ltb_spec (rk j) (rk h)); [lia|]. rewrite (proj2 (Nat.ltb_lt _ _) Lj). rewrite DH. lra.
    - intros k Hk. apply loI_In in Hk. destruct Hk as [Hk Lk]. unfold e.
      rewrite (proj2 (Nat.ltb_lt _ _) Lk), (sum_lo k Hk ltac:(lia)), dd_ne by auto.
      replace (l h k) with (aL h k) by (unfold l; rewrite mask_lo; auto). lra.
    - unfold a. lra.
  Qed.

  Lemma state_column : 0 < dh -> CL g h.
  Proof.
    intros P. destruct state_dominant as (C & _). apply Rmult_le_reg_r in C; auto.
    eapply Rle_trans; [|exact C]. right. apply rsum_ext. intros j Hj. unfold l, mask.
    rewrite Nat.leb_refl.
    destruct (Nat.ltb_spec (rk j) (rk g)), (Nat.leb_spec (rk j) (rk g)), (Nat.eqb_spec (rk j) (rk g));
      cbn [orb andb]; try lia; auto.
  Qed.
  End State.

  (** ** all entries *)
  Record goodRow (g : I) : Prop := mkGoodRow {
    gr_L : forall k, In k (row g) -> fin (L' g k);
    gr_D : fin (D' g);
    gr_b : (1 - th0) / 2 * Rabs (A g g) <= aD g <= 2 * Rabs (A g g);
    gr_W : (1 - th0) * W g <= 2 * Rabs (A g g);
    gr_err : Rabs (A g g - D g - rsum (row g) (fun k => L g k * D k * L g k)) <= ga * (aD g + S g g) + et;
    gr_sign : Rabs (A g g - D g) <= th * Rabs (A g g);
    gr_EN : forall h, In h all -> (rk h < rk g)%nat -> EN g h;
    gr_CL : forall h, In h all -> (rk h < rk g)%nat -> CL g h }.

  Lemma diag_abs x y z er : Rabs (x - y - z) <= er -> forall zz, Rabs z <= zz ->
    Rabs x - er - zz <= Rabs y /\ Rabs y <= Rabs x + er + zz.
  Proof.
    intros H zz Hz. split.
    - assert (Rabs x <= Rabs (x - y - z) + Rabs y + Rabs z).
      { replace x with ((x - y - z) + y + z) at 1 by ring. eapply Rle_trans; [apply Rabs_triang|].
        apply Rplus_le_compat_r, Rabs_triang. } lra.
    - assert (Rabs y <= Rabs (x - y - z) + Rabs x + Rabs z).
      { replace y with (- (x - y - z) + x + - z) at 1 by ring. eapply Rle_trans; [apply Rabs_triang|].
        rewrite Rabs_Ropp. apply Rplus_le_compat_r. eapply Rle_trans; [apply Rabs_triang|]. rewrite Rabs_Ropp. lra. }
      lra.
  Qed.

  Lemma S_row g : In g all -> Rabs (rsum (row g) (fun k => L g k * D k * L g k)) <= S g g.
  Proof. intros Hg. rewrite <- (sum_row g Hg). apply rsum_abs. Qed.
  Lemma S_com g h : In g all -> In h all ->
    Rabs (rsum (common dec row g h) (fun k => L g k * D k * L h k)) <= S g h.
  Proof. intros Hg Hh. rewrite <- (sum_common g h Hg Hh). apply rsum_abs. Qed.

  Lemma goodRow_all N : forall g, In g all -> (rk g < N)%nat -> goodRow g.
  Proof.
    induction N as [|N IHN]; intros g Hg Lg; [lia|].
    assert (IH : forall j, In j all -> (rk j < rk g)%nat -> goodRow j) by (intros; apply IHN; auto; lia).
    clear IHN. pose proof ga_pos as GP. pose proof (et_pos g Hg) as EP. pose proof (amax_pos g Hg) as AP.
    assert (T1 : th <= 1) by lra.
    assert (EPs : forall h, In h all -> 0 <= ga * (aD h + S h h) + et).
    { intros h Hh. pose proof (S_pos h h). pose proof (Rabs_pos (D h)). apply Rplus_le_le_0_compat; auto. apply Rmult_le_pos; auto. lra. }
    assert (IN : forall M h, In h all -> (rk h < M)%nat -> (rk h < rk g)%nat ->
      (In h (row g) -> fin (L' g h)) /\ EN g h /\ CL g h).
    { induction M as [|M IHM]; intros h Hh LM Lh; [lia|].
      assert (IK : forall k, In k all -> (rk k < rk h)%nat -> (In k (row g) -> fin (L' g k)) /\ EN g k /\ CL g k)
        by (intros; apply IHM; auto; lia). clear IHM.
      destruct (IH h Hh Lh) as [rL rD rb rW rerr rsign rEN rCL].
      pose proof (RNG h Hh) as RN. pose proof (RNG g Hg) as RNg.
      assert (ST : (In h (row g) -> fin (L' g h)) /\ EN g h).
      { destruct (in_dec dec h (row g)) as [Hr|Hr].
        - assert (OK : okTo g h).
          { intros k K1 K2. assert (Hk : In k all) by (eapply row_in; eauto).
            assert (Lk : (rk k < rk h)%nat) by (apply RL; auto).
            destruct (IK k Hk Lk) as (I1 & _ & I3). destruct (IH k Hk ltac:(lia)) as [_ kD kb _ _ _ _ _].
            pose proof (RNG k Hk).
            pose proof (CL_entry g k g Hg (Nat.le_refl _) I3).
            pose proof (CL_entry g k h Hh ltac:(lia) I3).
            split; [auto|]. split; [auto|]. split; [auto|]. lra. }
          destruct (row_step g h Hg Hr OK rD) as [Fl Er].
          { split; [|lra]. eapply Rle_trans; [|apply rb]. apply Rmult_le_compat_l; lra. }
          { apply A_small; auto. }
          { lra. }
          split; auto. unfold EN. rewrite <- (Rabs_mult (L g h) (D h)).
          destruct (diag_abs _ _ _ _ Er _ (S_com g h Hg Hh)) as [_ B]. rewrite <- (Rabs_mult (L g h) (D h)) in B. lra.
        - split; [tauto|]. unfold EN. rewrite (L_out g h), Rabs_R0 by auto.
          pose proof (S_pos g h). pose proof (Rabs_pos (A g h)).
          assert (0 <= ga * (0 * aD h + S g h)) by (apply Rmult_le_pos; lra). lra. }
      destruct ST as [ST1 ST2]. split; [auto|]. split; [auto|].
      destruct (diag_abs _ _ _ _ rerr _ (S_row h Hh)) as [B1 B2].
      apply (state_column g h (aD h) (ga * (aD h + S h h) + et)); auto; try lia; try lra.
      - intros j k Hj Hk Lk [C|[C1 C2]].
        + apply (gr_EN j (IH j Hj C)); auto.
        + assert (j = g) by (apply RI; auto). subst j.
          destruct (Nat.eq_dec (rk k) (rk h)) as [Ek|Nk].
          * assert (k = h) by (apply RI; auto). subst k. auto.
          * apply IK; auto. lia.
      - intros k Hk Lk. apply IK; auto.
      - apply Rabs_pos.
      - nra. }
    assert (HL : forall h, In h all -> (rk h < rk g)%nat -> (In h (row g) -> fin (L' g h)) /\ EN g h /\ CL g h)
      by (intros h Hh Lh; apply (IN (Datatypes.S (rk h))); auto; lia). clear IN.
    assert (EV : forall j k, In j all -> In k all -> (rk k < rk j)%nat ->
      (rk j < rk g)%nat \/ (rk j = rk g /\ (rk k <= rk g)%nat) -> EN j k).
    { intros j k Hj Hk Lk [C|[C1 C2]].
      - apply (gr_EN j (IH j Hj C)); auto.
      - assert (j = g) by (apply RI; auto). subst j. apply HL; auto. }
    pose proof (RNG g Hg) as RN.
    (* the sum of the entries before the pivot *)
    assert (BW : (1 - th0) * W g <= 2 * Rabs (A g g)).
    { pose proof (S_pos g g).
      destruct (state_dominant g g (Rmax 0 (Rabs (A g g) - S g g)) 0) as (_ & _ & C & _); auto; try lia; try lra.
      - intros k Hk Lk. apply HL; auto.
      - apply Rmax_l.
      - pose proof (Rmax_r 0 (Rabs (A g g) - S g g)). lra.
      - apply Rmax_lub; pose proof (Rabs_pos (A g g)); lra.
      - pose proof (Rmax_l 0 (Rabs (A g g) - S g g)).
        assert (0 <= ga * (Rmax 0 (Rabs (A g g) - S g g) + S g g)) by (apply Rmult_le_pos; lra). lra. }
    assert (OK : okTo g g).
    { intros k K1 _. assert (Hk : In k all) by (eapply row_in; eauto).
      assert (Lk : (rk k < rk g)%nat) by (apply RL; auto).
      destruct (HL k Hk Lk) as (I1 & _ & I3). destruct (IH k Hk ltac:(lia)) as [_ kD kb _ _ _ _ _].
      pose proof (RNG k Hk). pose proof (CL_entry g k g Hg (Nat.le_refl _) I3).
      split; [auto|]. split; [auto|]. split; [auto|]. lra. }
    destruct (diag_step g Hg OK ltac:(lra)) as [FD Er].
    destruct (diag_abs _ _ _ _ Er _ (S_row g Hg)) as [B1 B2].
    destruct (state_dominant g g (aD g) (ga * (aD g + S g g) + et)) as (_ & C2 & _ & C4); auto; try lia; try lra.
    { intros k Hk Lk. apply HL; auto. }
    { apply Rabs_pos. }
    constructor; auto.
    - intros k Hk. assert (Ha : In k all) by (eapply row_in; eauto).
      apply HL; auto.
    - replace (A g g - D g) with ((A g g - D g - rsum (row g) (fun k => L g k * D k * L g k)) +
        rsum (row g) (fun k => L g k * D k * L g k)) by ring.
      eapply Rle_trans; [apply Rabs_triang|]. pose proof (S_row g Hg). lra.
    - intros h Hh Lh. apply HL; auto.
    - intros h Hh Lh. apply HL; auto.
  Qed.

  Lemma goodRow_of g : In g all -> goodRow g.
  Proof. intros Hg. apply (goodRow_all (Datatypes.S (rk g))); auto. Qed.

  Lemma col_all h : In h all -> rsum all (fun j => aL j h) <= th.
  Proof.
    intros Hh.
    assert (MX : forall l, (forall j, In j l -> In j all) -> l <> [] ->
      exists g, In g l /\ forall j, In j l -> (rk j <= rk g)%nat).
    { induction l as [|x l IH]; intros Hl Ne; [congruence|]. destruct l as [|y l].
      - exists x. split; [left; auto|]. intros j [<-|[]]. lia.
      - destruct IH as (g & G1 & G2); [intros; apply Hl; right; auto|discriminate|].
        destruct (Nat.le_ge_cases (rk x) (rk g)) as [C|C].
        + exists g. split; [right; auto|]. intros j [<-|Hj]; auto.
        + exists x. split; [left; auto|]. intros j [<-|Hj]; [lia|]. specialize (G2 j Hj). lia. }
    destruct (MX all (fun j H => H)) as (g & Hg & G); [intros E; rewrite E in Hh; destruct Hh|].
    destruct (Nat.lt_ge_cases (rk h) (rk g)) as [Lt|Ge].
    - eapply Rle_trans; [|exact (gr_CL g (goodRow_of g Hg) h Hh Lt)]. right. apply rsum_ext.
      intros j Hj. rewrite (proj2 (Nat.leb_le _ _) (G j Hj)). auto.
    - rewrite rsum_0; [lra|]. intros j Hj. rewrite (L_ge j h), Rabs_R0; auto. specialize (G j Hj). lia.
  Qed.
End Float.
