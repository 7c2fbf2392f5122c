(** Rounded factorizations of positive definite matrices neither overflow nor divide by
    zero, over any finite index set. *)
From Coq Require Import Reals Lra Lia List Arith Bool Psatz.
From Verif Require Import ModelNumeric SpecNumeric SpecReg SpecRound SpecDomFloat SpecPosFloat.
From Verif Require Import ProofExact ProofArrowSub ProofChain ProofRound ProofDomReal ProofDomFloat ProofPosReal.
Import ListNotations.
Local Open Scope R_scope.
Local Notation rsum := (suml Or).

Lemma sqr_abs x : Rabs x * Rabs x = x * x.
Proof. rewrite <- Rabs_mult. apply Rabs_pos_eq. apply Rle_0_sqr. Qed.
Lemma sqr_le x y : 0 <= y -> x * x <= y * y -> x <= y.
Proof. intros. destruct (Rle_or_lt x y); auto. nra. Qed.

Section Float.
  Context {F : Type} (O : ops F) (fin : F -> Prop) (val : F -> R) (u eta Om : R).
  Context (RO : rounding O fin val u eta) (NO : noOverflow O fin val Om).
  Context {I : Type} (dec : forall a b : I, {a = b} + {a <> b}).
  Variables (all : list I) (row col : I -> list I) (rk : I -> nat).
  Variables (A' L' : I -> I -> F) (D' : I -> F).
  Hypothesis RG : rowsGood O all row A' L'.
  Hypothesis CG : colsGood all row col.
  Hypothesis CH : chained O dec all row A' L' D' (fun s _ => s).
  Hypothesis RI : forall g h, In g all -> In h all -> rk g = rk h -> g = h.
  Hypothesis RL : forall g h, In g all -> In h (row g) -> (rk h < rk g)%nat.
  Variables (lam amin amax : R) (m : nat).
  Local Notation q := (/ (1 - u)).
  Local Notation A g h := (val (A' g h)).
  Local Notation L g h := (val (L' g h)).
  Local Notation D g := (val (D' g)).
  Local Notation aL g h := (Rabs (val (L' g h))).
  Local Notation aD g := (Rabs (val (D' g))).
  Local Notation n := (INR (length all)).
  Local Notation ga := (q ^ S m - 1).
  Local Notation et := (eta * (INR (length all) * (4 + 12 * amax))).
  Local Notation dmin := (lam / 4 * amin).
  Hypothesis FA : forall g h, In g all -> In h all -> fin (A' g h).
  Hypothesis MR : forall g, In g all -> (length (row g) <= m)%nat.
  Hypothesis MC : forall g, In g all -> (length (col g) <= m)%nat.
  Hypothesis L0 : 0 < lam.
  Hypothesis L1 : lam <= 1.
  Hypothesis PD : positiveBy all (fun g h => A g h) lam.
  Hypothesis RNG : forall g, In g all -> amin <= A g g <= amax.
  Hypothesis AMIN : 0 < amin.
  Hypothesis GA : 16 * ((INR m + 1) * ga) <= lam.
  Hypothesis ET : 16 * (n * et) <= lam * amin.
  Hypothesis OM1 : 1 <= Om.
  Hypothesis OM2 : 24 * amax <= Om.
  Hypothesis OM3 : 24 * amax <= lam * amin * Om.
  Let U := unitOf dec (fun g k => L g k).

  Lemma p_q1 : 1 <= q. Proof. exact (q_ge1 O fin val u eta RO). Qed.
  Lemma p_e0 : 0 <= eta. Proof. exact (eta_pos O fin val u eta RO). Qed.
  Lemma p_ga0 : 0 <= ga.
  Proof. pose proof (qpow_ge1 O fin val u eta RO (S m)) as H. cbv zeta in H. lra. Qed.
  Lemma p_gal : 16 * ga <= lam.
  Proof. pose proof p_ga0. pose proof (pos_INR m). assert (0 <= INR m * ga) by (apply Rmult_le_pos; auto). lra. Qed.
  Lemma p_qm j : (j <= S m)%nat -> q ^ j <= 17 / 16.
  Proof. intros H. pose proof (qpow_le O fin val u eta RO j (S m) H) as B. cbv zeta in B. pose proof p_gal. lra. Qed.
  Lemma p_dmin : 0 < dmin.
  Proof. nra. Qed.

  Section Some.
  Variable g0 : I.
  Hypothesis Hg0 : In g0 all.
  Lemma p_amax : 0 < amax. Proof. pose proof (RNG g0 Hg0). lra. Qed.
  Lemma p_n1 : 1 <= n.
  Proof. destruct all; [destruct Hg0|]. cbn [length]. rewrite S_INR. pose proof (pos_INR (length l)). lra. Qed.
  Lemma p_et0 : 0 <= et.
  Proof. pose proof p_e0. pose proof p_n1. pose proof p_amax. apply Rmult_le_pos; nra. Qed.
  Lemma p_etl : 16 * et <= lam * amin.
  Proof. pose proof p_n1. pose proof p_et0. set (e := et) in *. assert (e <= n * e) by nra. lra. Qed.
  Lemma p_ets : 16 * et <= amin.
  Proof. pose proof p_etl. assert (lam * amin <= 1 * amin) by (apply Rmult_le_compat_r; lra). lra. Qed.
  Lemma p_eta : eta * (4 + 12 * amax) <= et.
  Proof. pose proof p_n1. pose proof p_e0. pose proof p_amax. apply Rmult_le_compat_l; nra. Qed.
  End Some.

  Lemma p_Lout g k : In g all -> In k all -> ~ In k (row g) -> L g k = 0.
  Proof. intros. rewrite (rg_L _ _ _ _ _ RG) by auto. apply RO. Qed.
  Lemma p_Lge g k : In g all -> In k all -> (rk g <= rk k)%nat -> L g k = 0.
  Proof. intros Hg Hk H. apply p_Lout; auto. intros Hr. apply RL in Hr; auto. lia. Qed.
  Lemma p_rowin g k : In g all -> In k (row g) -> In k all.
  Proof. apply (rg_in _ _ _ _ _ RG). Qed.
  Lemma p_cnd g h : In g all -> NoDup (common dec row g h).
  Proof. intros Hg. apply NoDup_filter. eapply rg_nodup; eauto. Qed.
  Lemma p_clen g h : (length (common dec row g h) <= length (row g))%nat.
  Proof.
    unfold common. generalize (row g). intros l. induction l as [|a l IH]; cbn [filter length]; [lia|].
    destruct (memI dec a (row h)); cbn [length]; lia.
  Qed.
  Lemma p_U1 i : U i i = 1.
  Proof. unfold U, unitOf. destruct (dec i i); congruence. Qed.
  Lemma p_Une j i : j <> i -> U j i = L j i.
  Proof. intros N. unfold U, unitOf. destruct (dec j i); congruence. Qed.
  Lemma p_Ulow j i : In j all -> In i all -> (rk j < rk i)%nat -> U j i = 0.
  Proof. intros Hj Hi H. rewrite p_Une by (intros ->; lia). apply p_Lge; auto. lia. Qed.

  (** the entries of the matrix *)
  Lemma p_two g h s : In g all -> In h all -> g <> h ->
    0 <= A g g + 2 * s * A g h + s * s * A h h.
  Proof.
    intros Hg Hh N.
    pose (z := fun k => if dec k g then 1 else if dec k h then s else 0).
    pose proof (PD z) as H. cbv beta in H.
    assert (Zg : z g = 1) by (unfold z; destruct (dec g g); congruence).
    assert (Zh : z h = s) by (unfold z; destruct (dec h g); [congruence|]; destruct (dec h h); congruence).
    assert (SZ : forall f, rsum all (fun k => f k * z k) = f g + s * f h).
    { intros f. rewrite (rsum_remove dec all g) by (auto; apply RG). rewrite Zg.
      rewrite (rsum_remove dec (remove dec g all) h).
      - rewrite Zh, rsum_0; [ring|]. intros k Hk. apply in_remove in Hk. destruct Hk as [Hk N1].
        apply in_remove in Hk. unfold z. destruct (dec k g); [tauto|]. destruct (dec k h); [tauto|ring].
      - apply remove_NoDup; apply RG.
      - apply in_in_remove; auto. }
    rewrite (rsum_ext all (fun j => A j j * (z j * z j)) (fun j => A j j * z j * z j)) in H by (intros; ring).
    rewrite SZ, Zg, Zh in H.
    rewrite (rsum_ext all _ (fun j => (A j g + s * A j h) * z j)) in H.
    2:{ intros j _. rewrite SZ. ring. }
    rewrite SZ, (rg_sym _ _ _ _ _ RG h g) in H by auto.
    pose proof (RNG g Hg). pose proof (RNG h Hh). assert (0 <= s * s) by apply Rle_0_sqr.
    assert (0 <= A h h * (s * s)) by (apply Rmult_le_pos; lra).
    assert (0 <= lam * (A g g + A h h * (s * s))) by (apply Rmult_le_pos; lra). lra.
  Qed.
  Lemma p_Asmall g h : In g all -> In h all -> Rabs (A g h) <= amax.
  Proof.
    intros Hg Hh. pose proof (RNG g Hg). pose proof (RNG h Hh). destruct (dec g h) as [<-|N].
    - rewrite Rabs_pos_eq; lra.
    - pose proof (p_two g h 1 Hg Hh N). pose proof (p_two g h (-1) Hg Hh N). apply Rabs_le. lra.
  Qed.

  (** one term *)
  Definition okTerm (g h k : I) : Prop :=
    fin (L' g k) /\ fin (L' h k) /\ fin (D' k) /\ dmin <= D k <= 2 * amax /\
    L g k * L g k * D k <= 2 * amax /\ L h k * L h k * D k <= 2 * amax.

  Lemma ok_prod g h k : okTerm g h k -> aL g k * aD k * aL h k <= 2 * amax.
  Proof.
    intros (_ & _ & _ & B1 & B2 & B3). pose proof p_dmin as DP. rewrite (Rabs_pos_eq (D k)) by lra.
    pose proof (Rle_0_sqr (aL g k - aL h k)) as S. unfold Rsqr in S.
    pose proof (sqr_abs (L g k)) as E1. pose proof (sqr_abs (L h k)) as E2. rewrite <- E1 in B2. rewrite <- E2 in B3.
    assert (0 <= (aL g k * aL g k - 2 * (aL g k * aL h k) + aL h k * aL h k) * D k) by (apply Rmult_le_pos; lra). lra.
  Qed.
  Lemma ok_LL g h k : okTerm g h k -> aL g k * aL h k <= Om.
  Proof.
    intros OK. pose proof (ok_prod g h k OK) as B. destruct OK as (_ & _ & _ & B1 & _). pose proof p_dmin as DP.
    rewrite (Rabs_pos_eq (D k)) in B by lra.
    assert (0 <= aL g k * aL h k) by (apply Rmult_le_pos; apply Rabs_pos).
    apply Rmult_le_reg_r with dmin; auto.
    assert (aL g k * aL h k * dmin <= aL g k * aL h k * D k) by (apply Rmult_le_compat_l; lra). lra.
  Qed.
  Lemma ok_LD g h k : okTerm g h k -> aL g k * aD k <= 2 * amax.
  Proof.
    intros (_ & _ & _ & B1 & B2 & _). pose proof p_dmin as DP. rewrite (Rabs_pos_eq (D k)) by lra.
    apply sqr_le; [lra|].
    replace (aL g k * D k * (aL g k * D k)) with (aL g k * aL g k * D k * D k) by ring. rewrite sqr_abs.
    assert (0 <= L g k * L g k * D k) by (apply Rmult_le_pos; [apply Rle_0_sqr|lra]).
    apply Rmult_le_compat; lra.
  Qed.
  Lemma ok_swap g h k : okTerm g h k -> okTerm h g k.
  Proof. unfold okTerm. tauto. Qed.

  Lemma p_term g h k x : In g all -> In k (row g) -> isTerm O L' D' g h k x -> okTerm g h k ->
    fin x /\ Rabs (val x) <= 2 * Rabs (L g k * D k * L h k) + eta * (2 + 8 * amax) /\
    termErr u eta 1 (1 + Rabs (D k) * (1 + Rabs (L h k))) (L g k * D k * L h k) (val x).
  Proof.
    intros Hg Hk H OK.
    pose proof p_q1 as Q1. pose proof p_e0 as E0. pose proof (p_amax g Hg) as AP.
    pose proof (p_eta g Hg) as EA. pose proof (p_ets g Hg) as ES. pose proof (RNG g Hg) as RN.
    assert (M1 : (1 <= m)%nat).
    { pose proof (MR g Hg). destruct (row g); [destruct Hk|]. cbn [length] in *. lia. }
    assert (Q2 : q <= 17 / 16) by (pose proof (p_qm 1 ltac:(lia)) as B; cbn [pow] in B; lra).
    assert (Q3 : q ^ 2 <= 17 / 16) by (apply p_qm; lia).
    pose proof (Rabs_pos (D k)) as PD0. pose proof (Rabs_pos (L h k)) as PH. pose proof (Rabs_pos (L g k)) as PG.
    assert (EA2 : eta * amax <= amax / 192) by lra.
    pose proof (ok_prod g h k OK) as BP. pose proof (ok_LL g h k OK) as BLL.
    pose proof (ok_LD g h k OK) as BG. pose proof (ok_LD h g k (ok_swap g h k OK)) as BH.
    destruct OK as (F1 & F2 & F3 & BD & _). pose proof p_dmin as DP.
    assert (B3 : aD k <= 2 * amax) by (rewrite Rabs_pos_eq; lra).
    assert (TE : fin x /\ termErr u eta 1 (1 + Rabs (D k) * (1 + Rabs (L h k))) (L g k * D k * L h k) (val x)).
    { destruct H as [->|(s & Hs & Hx)].
      - assert (Fp : fin (omul O (L' g k) (L' h k))).
        { apply (no_mul _ _ _ _ NO); auto. rewrite Rabs_mult. auto. }
        destruct (rd_mul _ _ _ _ _ RO _ _ Fp) as (_ & _ & N1).
        pose proof (near_abs O fin val u eta RO _ _ N1) as B4. rewrite Rabs_mult in B4.
        assert (Fx : fin (omul O (omul O (L' g k) (L' h k)) (D' k))).
        { apply (no_mul _ _ _ _ NO); auto. rewrite Rabs_mult.
          apply Rle_trans with ((q * (aL g k * aL h k) + eta) * aD k); [apply Rmult_le_compat_r; auto|].
          assert (eta * aD k <= eta * (2 * amax)) by (apply Rmult_le_compat_l; auto).
          assert (P0 : 0 <= aL g k * aD k * aL h k) by (repeat apply Rmult_le_pos; auto).
          assert (q * (aL g k * aD k * aL h k) <= 17 / 16 * (2 * amax)) by (apply Rmult_le_compat; lra).
          lra. }
        split; auto.
        destruct (rd_mul _ _ _ _ _ RO _ _ Fx) as (_ & _ & N2).
        apply (term_mono O fin val u eta RO 1 (1 + Rabs (D k))); [nra|].
        eapply (term_triple O fin val u eta RO); eauto.
      - pose proof F1 as Fq. rewrite Hs in Fq.
        destruct (rd_div _ _ _ _ _ RO s (D' k) F3 Fq) as (Fs & Dn & _).
        pose proof (div_back O fin val u eta RO s (D' k) F3 Fq) as DB. cbv zeta in DB. rewrite <- Hs in DB.
        rewrite Rabs_mult in DB.
        assert (Bx : Rabs (L h k * val s) <= Om).
        { replace (val s) with ((val s - L g k * D k) + L g k * D k) by ring.
          rewrite Rmult_plus_distr_l. eapply Rle_trans; [apply Rabs_triang|]. rewrite !Rabs_mult.
          assert (T1 : aL h k * Rabs (val s - L g k * D k) <= aL h k * ((q - 1) * (aL g k * aD k) + q * (eta * aD k)))
            by (apply Rmult_le_compat_l; auto; lra).
          assert (T2 : (q - 1) * (aL g k * aD k * aL h k) <= 1 / 16 * (2 * amax)).
          { apply Rmult_le_compat; try lra. repeat apply Rmult_le_pos; auto. }
          assert (T3 : q * eta * (aL h k * aD k) <= 2 * eta * (2 * amax)).
          { apply Rmult_le_compat; try lra; [apply Rmult_le_pos; lra|apply Rmult_le_pos; auto|].
            apply Rmult_le_compat_r; lra. }
          lra. }
        assert (Fx : fin x).
        { destruct Hx as [->| ->]; apply (no_mul _ _ _ _ NO); auto. rewrite Rmult_comm. auto. }
        split; auto.
        apply (term_mono O fin val u eta RO 1 (1 + Rabs (D k) * Rabs (L h k))); [nra|].
        rewrite Hs in *. destruct Hx as [->| ->];
          destruct (rd_mul _ _ _ _ _ RO _ _ Fx) as (_ & _ & N1);
          [|rewrite Rmult_comm in N1]; apply (term_scaled O fin val u eta RO); auto. }
    destruct TE as [Fx TE]. split; auto. split; auto. destruct TE as [C0 TE].
    set (t := L g k * D k * L h k) in *. pose proof (Rabs_pos t) as Pt.
    replace (val x) with ((val x - t) + t) by ring. eapply Rle_trans; [apply Rabs_triang|].
    cbn [Nat.add] in TE.
    assert ((q ^ 2 - 1) * Rabs t <= 1 * Rabs t) by (apply Rmult_le_compat_r; lra).
    assert (eta * (1 + Rabs (D k) * (1 + Rabs (L h k))) * q ^ 2 <= eta * (1 + 2 * amax * 2) * 2).
    { pose proof (qpow_ge1 O fin val u eta RO 2) as QP. cbv zeta in QP.
      apply Rmult_le_compat; [nra|lra| |lra]. apply Rmult_le_compat_l; auto. lra. }
    lra.
  Qed.

  (** a chain of subtractions *)
  Lemma p_chain g h cs acc s : In g all -> NoDup cs -> (length cs <= m)%nat ->
    (forall k, In k cs -> In k (row g) /\ okTerm g h k) ->
    reduces O (isTerm O L' D' g h) acc cs s -> fin acc -> Rabs (val acc) <= amax ->
    rsum cs (fun k => Rabs (L g k * D k * L h k)) <= 2 * amax ->
    fin s /\ Rabs (val s) <= 6 * amax /\
    Appr u eta 1 (length cs) (rsum cs (fun k => 1 + (1 + Rabs (D k) * (1 + Rabs (L h k)))))
      (val acc) (val s) (rsum cs (fun k => L g k * D k * L h k))
      (rsum cs (fun k => Rabs (L g k * D k * L h k))).
  Proof.
    intros Hg NDc Lc Hcs RD Fa Ba BT.
    pose proof p_q1 as Q1. pose proof p_e0 as E0. pose proof (p_amax g Hg) as AP.
    pose proof (p_ets g Hg) as ES. pose proof (RNG g Hg) as RN. pose proof (p_n1 g Hg) as N1.
    set (T := rsum cs (fun k => Rabs (L g k * D k * L h k))) in *.
    assert (T1 : 0 <= T) by (apply rsum_pos; intros; apply Rabs_pos).
    assert (LN : INR (length cs) <= n).
    { apply le_INR. apply NoDup_incl_length; auto. intros k Hk. destruct (Hcs k Hk). eapply p_rowin; eauto. }
    assert (SB : rsum cs (fun k => 2 * Rabs (L g k * D k * L h k) + eta * (2 + 8 * amax) + eta) <= 2 * T + amax / 16).
    { rewrite (rsum_ext cs _ (fun k => 2 * Rabs (L g k * D k * L h k) + eta * (3 + 8 * amax))) by (intros; ring).
      rewrite rsum_plus, rsum_scal, rsum_const. fold T. apply Rplus_le_compat_l.
      apply Rle_trans with et; [|lra].
      replace (INR (length cs) * (eta * (3 + 8 * amax))) with (eta * (INR (length cs) * (3 + 8 * amax))) by ring.
      apply Rmult_le_compat_l; auto. apply Rmult_le_compat; lra || apply pos_INR. }
    assert (QL : q ^ length cs <= 17 / 16) by (apply p_qm; lia).
    pose proof (qpow_ge1 O fin val u eta RO (length cs)) as QP. cbv zeta in QP.
    set (SS := rsum cs (fun k => 2 * Rabs (L g k * D k * L h k) + eta * (2 + 8 * amax) + eta)) in *.
    assert (SS0 : 0 <= Rabs (val acc) + SS).
    { pose proof (Rabs_pos (val acc)). apply Rplus_le_le_0_compat; auto. apply rsum_pos. intros k Hk.
      pose proof (Rabs_pos (L g k * D k * L h k)). nra. }
    assert (B : q ^ length cs * (Rabs (val acc) + SS) <= 17 / 16 * (amax + (2 * T + amax / 16))).
    { apply Rmult_le_compat; lra. }
    destruct (reduces_make O fin val u eta Om RO NO (isTerm O L' D' g h) cs
      (fun k => 2 * Rabs (L g k * D k * L h k) + eta * (2 + 8 * amax)) acc s RD Fa) as [Fs Bs].
    { intros k x Hk Hx. destruct (Hcs k Hk) as [K1 K2].
      destruct (p_term g h k x Hg K1 Hx K2) as (Fx & Bx & _). auto. }
    { fold SS. lra. }
    split; auto. split; [fold SS in Bs; lra|].
    apply (appr_reduces O fin val u eta RO 1 (isTerm O L' D' g h)); auto.
    intros k x Hk Hx Fx. destruct (Hcs k Hk) as [K1 K2].
    destruct (p_term g h k x Hg K1 Hx K2) as (_ & _ & TE). auto.
  Qed.

  Lemma p_under g cs (h : I) : In g all -> NoDup cs ->
    (forall k, In k cs -> In k all /\ aL h k * aD k <= 2 * amax /\ aD k <= 2 * amax) ->
    (exists k, In k all /\ ~ In k cs) ->
    eta * (rsum cs (fun k => 1 + (1 + Rabs (D k) * (1 + Rabs (L h k)))) + 2 * amax) * q ^ S m <= et.
  Proof.
    intros Hg NDc Hcs (k0 & Hk0 & Nk0).
    pose proof (p_amax g Hg) as AP. pose proof p_e0 as E0.
    assert (LN : INR (length cs) + 1 <= n).
    { rewrite <- S_INR. apply le_INR. apply (NoDup_incl_length (l := k0 :: cs)).
      - constructor; auto.
      - intros k [<-|Hk]; auto. apply Hcs; auto. }
    assert (B : rsum cs (fun k => 1 + (1 + Rabs (D k) * (1 + Rabs (L h k)))) <= INR (length cs) * (2 + 4 * amax)).
    { rewrite <- rsum_const. apply rsum_le. intros k Hk. destruct (Hcs k Hk) as (_ & B1 & B2). lra. }
    assert (B0 : 0 <= rsum cs (fun k => 1 + (1 + Rabs (D k) * (1 + Rabs (L h k))))).
    { apply rsum_pos. intros k Hk. pose proof (Rabs_pos (D k)). pose proof (Rabs_pos (L h k)). nra. }
    assert (Q : q ^ S m <= 17 / 16) by (apply p_qm; lia).
    pose proof (qpow_ge1 O fin val u eta RO (S m)) as QP. cbv zeta in QP.
    apply Rle_trans with (eta * (INR (length cs) * (2 + 4 * amax) + 2 * amax) * (17 / 16)).
    { apply Rmult_le_compat; try lra.
      - apply Rmult_le_pos; lra.
      - apply Rmult_le_compat_l; lra. }
    replace (eta * (INR (length cs) * (2 + 4 * amax) + 2 * amax) * (17 / 16))
      with (eta * ((INR (length cs) * (2 + 4 * amax) + 2 * amax) * (17 / 16))) by ring.
    apply Rmult_le_compat_l; auto. pose proof (pos_INR (length cs)). nra.
  Qed.

  (** entries of U D U^T *)
  Local Notation pr g h := (rsum all (fun i => U g i * D i * U h i)).
  Local Notation ap g h := (rsum all (fun i => Rabs (U g i * D i * U h i))).

  Lemma pr_row g h : In g all -> In h (row g) ->
    rsum all (fun i => L g i * D i * U h i) = L g h * D h + rsum (common dec row g h) (fun k => L g k * D k * L h k) /\
    rsum all (fun i => Rabs (L g i * D i * U h i)) = Rabs (L g h * D h) + rsum (common dec row g h) (fun k => Rabs (L g k * D k * L h k)).
  Proof.
    intros Hg Hh. assert (Ha : In h all) by (eapply p_rowin; eauto).
    assert (X : forall f, f 0 = 0 -> rsum all (fun i => f (L g i * D i * U h i)) =
      f (L g h * D h) + rsum (common dec row g h) (fun k => f (L g k * D k * L h k))).
    { intros f f0. rewrite (rsum_remove dec all h) by (auto; apply RG). rewrite p_U1, Rmult_1_r. f_equal.
      rewrite (rsum_ext (remove dec h all) _ (fun k => f (L g k * D k * L h k))).
      2:{ intros i Hi. apply in_remove in Hi. rewrite (p_Une h i); auto. intros E. apply Hi. auto. }
      apply (rsum_sub dec).
      - apply p_cnd; auto.
      - apply remove_NoDup; apply RG.
      - intros k Hk. apply common_In in Hk. apply in_in_remove.
        + intros ->. eapply (rg_irr _ _ _ _ _ RG h); tauto.
        + eapply p_rowin; [exact Hg|tauto].
      - intros k Hk Hn. apply in_remove in Hk. rewrite common_In in Hn. destruct Hk as [Hk _].
        destruct (in_dec dec k (row g)) as [I1|I1].
        + rewrite (p_Lout h k) by tauto. rewrite Rmult_0_r. auto.
        + rewrite (p_Lout g k) by tauto. rewrite !Rmult_0_l. auto. }
    split; [apply (X (fun t => t)); auto|]. apply (X Rabs). apply Rabs_R0.
  Qed.

  Lemma pr_diag g : In g all ->
    pr g g = D g + rsum (row g) (fun k => L g k * D k * L g k) /\
    ap g g = aD g + rsum (row g) (fun k => Rabs (L g k * D k * L g k)).
  Proof.
    intros Hg.
    assert (X : forall f, f 0 = 0 -> rsum all (fun i => f (U g i * D i * U g i)) =
      f (D g) + rsum (row g) (fun k => f (L g k * D k * L g k))).
    { intros f f0. rewrite (rsum_remove dec all g) by (auto; apply RG). rewrite p_U1, Rmult_1_r, Rmult_1_l. f_equal.
      rewrite (rsum_ext (remove dec g all) _ (fun k => f (L g k * D k * L g k))).
      2:{ intros i Hi. apply in_remove in Hi. rewrite (p_Une g i); auto. intros E. apply Hi. auto. }
      apply (rsum_sub dec).
      - eapply rg_nodup; eauto.
      - apply remove_NoDup; apply RG.
      - intros k Hk. apply in_in_remove.
        + intros ->. eapply (rg_irr _ _ _ _ _ RG g); eauto.
        + eapply p_rowin; eauto.
      - intros k Hk Hn. apply in_remove in Hk. rewrite (p_Lout g k) by tauto. rewrite !Rmult_0_l. auto. }
    split; [apply (X (fun t => t)); auto|]. apply (X Rabs). apply Rabs_R0.
  Qed.

  Lemma pr_off g h f : In g all -> In h all -> (rk h < rk g)%nat -> (f 0 = 0 :> R) ->
    rsum all (fun i => f (U g i * D i * U h i)) = rsum all (fun i => f (L g i * D i * U h i)).
  Proof.
    intros Hg Hh Lt f0. apply rsum_ext. intros i Hi. destruct (dec g i) as [<-|Ne].
    - rewrite (p_Ulow h g) by auto. rewrite !Rmult_0_r. auto.
    - rewrite p_Une by auto. auto.
  Qed.
  Lemma pr_none g h f : In g all -> In h all -> (rk h < rk g)%nat -> ~ In h (row g) -> (f 0 = 0 :> R) ->
    A g h = 0 /\ rsum all (fun i => f (L g i * D i * U h i)) = 0.
  Proof.
    intros Hg Hh Lt Nr f0. assert (N : g <> h) by (intros ->; lia).
    assert (Nr' : ~ In g (row h)) by (intros H; apply RL in H; auto; lia). split.
    - rewrite (rg_A _ _ _ _ _ RG) by auto. apply RO.
    - apply rsum_0. intros i Hi. destruct (dec h i) as [<-|Ne].
      + rewrite (p_Lout g h) by auto. rewrite !Rmult_0_l. auto.
      + rewrite p_Une by auto. destruct (in_dec dec i (row g)) as [I1|I1]; [|rewrite (p_Lout g i), !Rmult_0_l by auto; auto].
        destruct (in_dec dec i (row h)) as [I2|I2]; [|rewrite (p_Lout h i), !Rmult_0_r by auto; auto].
        destruct (rg_closed _ _ _ _ _ RG g h i); auto; tauto.
  Qed.

  (** one entry *)
  Lemma p_row g h : In g all -> In h (row g) -> (forall k, In k (row g) -> In k (row h) -> okTerm g h k) ->
    fin (D' h) -> dmin <= D h <= 2 * amax ->
    rsum (common dec row g h) (fun k => Rabs (L g k * D k * L h k)) <= 2 * amax ->
    fin (L' g h) /\
    Rabs (A g h - rsum all (fun i => L g i * D i * U h i)) <= ga * rsum all (fun i => Rabs (L g i * D i * U h i)) + et.
  Proof.
    intros Hg Hh OK FD BD BS. assert (Ha : In h all) by (eapply p_rowin; eauto).
    destruct (pr_row g h Hg Hh) as [EP EA]. rewrite EP, EA. clear EP EA.
    destruct (ch_row _ _ _ _ _ _ _ _ CH g h Hg Hh) as (s & Hs & E).
    pose proof (p_amax g Hg) as AP. pose proof p_e0 as E0. pose proof p_q1 as Q1. pose proof p_dmin as DP.
    set (cs := common dec row g h) in *.
    assert (Hcs : forall k, In k cs -> In k (row g) /\ okTerm g h k) by (intros k Hk; apply common_In in Hk; split; [|apply OK]; tauto).
    assert (NDc : NoDup cs) by (apply p_cnd; auto).
    assert (Lc : (length cs <= m)%nat) by (eapply Nat.le_trans; [apply p_clen|apply MR; auto]).
    assert (FAg : fin (A' g h)) by (apply FA; auto).
    destruct (p_chain g h cs (A' g h) s Hg NDc Lc Hcs Hs FAg (p_Asmall g h Hg Ha) BS) as (Fs & Bs & AP1).
    set (S := rsum cs (fun k => Rabs (L g k * D k * L h k))) in *.
    assert (Dn : D h <> 0) by lra. assert (ED : aD h = D h) by (apply Rabs_pos_eq; lra).
    assert (Fl : fin (L' g h)).
    { rewrite E. apply (no_div _ _ _ _ NO); auto. unfold Rdiv. rewrite Rabs_mult, Rabs_inv, ED.
      apply Rmult_le_reg_r with (D h); [lra|]. rewrite Rmult_assoc, Rinv_l, Rmult_1_r by lra.
      assert (Om * dmin <= Om * D h) by (apply Rmult_le_compat_l; lra). lra. }
    split; auto.
    set (c := rsum cs (fun k => 1 + (1 + Rabs (D k) * (1 + Rabs (L h k))))) in *.
    assert (EU : eta * (c + 2 * amax) * q ^ Datatypes.S m <= et).
    { apply (p_under g cs h Hg NDc).
      - intros k Hk. destruct (Hcs k Hk) as [K1 K2]. split; [eapply p_rowin; [exact Hg|auto]|].
        split; [exact (ok_LD h g k (ok_swap g h k K2))|]. destruct K2 as (_ & _ & _ & K2 & _).
        rewrite Rabs_pos_eq; lra.
      - exists h. split; auto. intros Hk. apply common_In in Hk. eapply (rg_irr _ _ _ _ _ RG h); tauto. }
    apply (appr_mono O fin val u eta RO 1 _ m c c) in AP1; [|auto|lra].
    destruct AP1 as (C0 & C1 & C2).
    pose proof (div_back O fin val u eta RO s (D' h) FD) as DB. rewrite <- E in DB. specialize (DB Fl).
    set (sv := val s) in *.
    set (p := L g h * D h) in *. set (Sg := rsum cs (fun k => L g k * D k * L h k)) in *.
    pose proof (qpow_ge1 O fin val u eta RO m) as QM. cbv zeta in QM.
    pose proof (Rabs_pos p) as P0.
    assert (SB : Rabs sv <= q * Rabs p + q * (eta * Rabs (D h))).
    { replace sv with ((sv - p) + p) by ring. eapply Rle_trans; [apply Rabs_triang|]. lra. }
    replace (A g h - (p + Sg)) with ((A g h - sv - Sg) + (sv - p)) by ring.
    eapply Rle_trans; [apply Rabs_triang|].
    assert (X : (q ^ m - 1) * Rabs sv <= (q ^ m - 1) * (q * Rabs p + q * (eta * Rabs (D h)))).
    { apply Rmult_le_compat_l; lra. }
    rewrite Nat.add_1_r in C2.
    assert (QS : q ^ Datatypes.S m = q ^ m * q) by (cbn [pow]; ring).
    assert (Y : eta * (c + Rabs (D h)) * q ^ Datatypes.S m <= eta * (c + 2 * amax) * q ^ Datatypes.S m).
    { apply Rmult_le_compat_r; [nra|]. apply Rmult_le_compat_l; auto. lra. }
    eapply Rle_trans; [|apply Rplus_le_compat_l; exact EU].
    eapply Rle_trans; [|apply Rplus_le_compat_l; exact Y].
    apply Rle_trans with ((q ^ m - 1) * (q * Rabs p + q * (eta * Rabs (D h))) +
      (q ^ Datatypes.S m - 1) * S + eta * c * q ^ Datatypes.S m +
      ((q - 1) * Rabs p + q * (eta * Rabs (D h)))); [lra|].
    rewrite QS. right. ring.
  Qed.

  (** one pivot *)
  Lemma p_diag g : In g all -> (forall k, In k (row g) -> okTerm g g k) ->
    rsum (row g) (fun k => Rabs (L g k * D k * L g k)) <= 2 * amax ->
    fin (D' g) /\ Rabs (A g g - pr g g) <= ga * ap g g + et.
  Proof.
    intros Hg OK BS. destruct (pr_diag g Hg) as [EP EA]. rewrite EP, EA. clear EP EA.
    destruct (ch_D _ _ _ _ _ _ _ _ CH g Hg) as (s & Hs & E). cbv beta in E.
    pose proof (p_amax g Hg) as AP. pose proof p_e0 as E0. pose proof p_q1 as Q1. pose proof p_dmin as DP.
    assert (NDc : NoDup (row g)) by (eapply rg_nodup; eauto).
    destruct (p_chain g g (row g) (A' g g) s Hg NDc (MR g Hg) (fun k Hk => conj Hk (OK k Hk)) Hs (FA g g Hg Hg)
      (p_Asmall g g Hg Hg) BS) as (Fs & Bs & AP1).
    rewrite <- E in *. split; auto.
    set (X := rsum (row g) (fun k => Rabs (L g k * D k * L g k))) in *.
    set (c := rsum (row g) (fun k => 1 + (1 + Rabs (D k) * (1 + Rabs (L g k))))) in *.
    assert (EU : eta * (c + 2 * amax) * q ^ S m <= et).
    { apply (p_under g (row g) g Hg NDc).
      - intros k Hk. pose proof (OK k Hk) as K2. split; [eapply p_rowin; [exact Hg|auto]|].
        split; [exact (ok_LD g g k K2)|]. destruct K2 as (_ & _ & _ & K2 & _).
        rewrite Rabs_pos_eq; lra.
      - exists g. split; auto. intros Hk. eapply (rg_irr _ _ _ _ _ RG g); eauto. }
    apply (appr_mono O fin val u eta RO 1 _ m c c) in AP1; [|auto|lra].
    destruct AP1 as (C0 & C1 & C2). rewrite Nat.add_1_r in C2.
    replace (A g g - (D g + rsum (row g) (fun k => L g k * D k * L g k)))
      with (A g g - D g - rsum (row g) (fun k => L g k * D k * L g k)) by ring.
    eapply Rle_trans; [exact C2|].
    pose proof (qpow_le O fin val u eta RO m (S m) ltac:(lia)) as QM. cbv zeta in QM.
    pose proof (qpow_ge1 O fin val u eta RO (S m)) as QS. cbv zeta in QS.
    pose proof (Rabs_pos (D g)).
    assert ((q ^ m - 1) * Rabs (D g) <= (q ^ S m - 1) * Rabs (D g)) by (apply Rmult_le_compat_r; lra).
    assert (eta * c * q ^ S m <= eta * (c + 2 * amax) * q ^ S m).
    { apply Rmult_le_compat_r; [lra|]. apply Rmult_le_compat_l; lra. }
    lra.
  Qed.

  (** ** all rows *)
  Record posRow (g : I) : Prop := mkPosRow {
    po_L : forall k, In k (row g) -> fin (L' g k);
    po_D : fin (D' g);
    po_off : forall k, In k all -> (rk k < rk g)%nat -> Rabs (A g k - pr g k) <= ga * ap g k + et;
    po_diag : Rabs (A g g - pr g g) <= ga * ap g g + et;
    po_rng : lam / 4 * A g g <= D g <= 2 * A g g;
    po_sum : rsum all (fun i => U g i * U g i * aD i) <= 2 * A g g }.

  Lemma p_supp i : In i all -> supp all (fun j => U j i) (S m).
  Proof.
    intros Hi. exists (i :: col i). split; [|split; [|split]].
    - constructor; [|apply (cg_nodup _ _ _ CG); auto]. intros H. apply (cg_in _ _ _ CG) in H; auto.
      eapply (rg_irr _ _ _ _ _ RG i); tauto.
    - intros j [<-|H]; auto. apply (cg_in _ _ _ CG) in H; tauto.
    - cbn [length]. pose proof (MC i Hi). lia.
    - intros j Hj Hn. rewrite p_Une by (intros ->; apply Hn; left; auto).
      apply p_Lout; auto. intros H. apply Hn. right. apply (cg_in _ _ _ CG); auto.
  Qed.

  Lemma p_rec j k : In j all -> In k all -> (forall i, In i all -> (rk i <= Nat.max (rk j) (rk k))%nat -> posRow i) ->
    Rabs (A j k - pr j k) <= ga * ap j k + et.
  Proof.
    intros Hj Hk H. destruct (Nat.lt_trichotomy (rk k) (rk j)) as [Lt|[E|Lt]].
    - apply (po_off j (H j Hj ltac:(lia))); auto.
    - apply RI in E; auto. subst k. apply (po_diag j (H j Hj ltac:(lia))).
    - rewrite (rg_sym _ _ _ _ _ RG) by auto.
      rewrite (rsum_ext all _ (fun i => U k i * D i * U j i)) by (intros; ring).
      rewrite (rsum_ext all (fun i => Rabs (U j i * D i * U k i)) (fun i => Rabs (U k i * D i * U j i)))
        by (intros; f_equal; ring).
      apply (po_off k (H k Hk ltac:(lia))); auto.
  Qed.

  (** constants for the prefix *)
  Lemma p_SM g : In g all -> 8 * INR (S m) * ga + 8 * n * (et / amin) <= lam.
  Proof.
    intros Hg. rewrite S_INR. pose proof p_ga0.
    assert (n * (et / amin) * 16 <= lam).
    { apply Rmult_le_reg_r with amin; auto.
      replace (n * (et / amin) * 16 * amin) with (16 * (n * et)) by (field; lra). auto. }
    lra.
  Qed.
  Lemma p_ka g : In g all -> 0 <= et / amin.
  Proof. intros Hg. apply Rmult_le_pos; [apply (p_et0 g Hg)|]. left. apply Rinv_0_lt_compat; auto. Qed.
  Lemma p_ke g : In g all -> et <= et / amin * amin.
  Proof. intros Hg. right. field. lra. Qed.
  Lemma p_nka g : In g all -> n * (et / amin) <= lam / 16.
  Proof.
    intros Hg. apply Rmult_le_reg_r with amin; auto.
    replace (n * (et / amin) * amin) with (n * et) by (field; lra). lra.
  Qed.

  (** the row of the factor up to some column *)
  Lemma p_prefix g b : In g all -> (b <= rk g)%nat ->
    (forall j, In j all -> (rk j < b)%nat -> posRow j) ->
    (forall k, In k all -> (rk k < b)%nat ->
      Rabs (A g k - rsum all (fun i => L g i * D i * U k i)) <= ga * rsum all (fun i => Rabs (L g i * D i * U k i)) + et) ->
    rsum all (fun i => if (rk i <? b)%nat then L g i * L g i * D i else 0) <= (1 - lam / 2) * A g g.
  Proof.
    intros Hg Hb HR HE.
    set (P := fun i => (rk i <? b)%nat). set (l := fun i => if P i then L g i else 0).
    assert (PT : forall i, P i = true -> (rk i < b)%nat) by (intros i H; apply Nat.ltb_lt; auto).
    assert (PF : forall i, P i = false -> (b <= rk i)%nat) by (intros i H; apply Nat.ltb_ge; auto).
    destruct (tri_solve dec all rk U P l (rg_all _ _ _ _ _ RG) RI (fun i _ => p_U1 i) p_Ulow) as (w & W1 & W2).
    assert (LE : forall k, P k = true -> In k all -> forall i, In i all -> l i * D i * U k i = L g i * D i * U k i).
    { intros k Pk Hk i Hi. unfold l. destruct (P i) eqn:Pi; auto.
      rewrite (p_Ulow k i); [ring|auto|auto|]. specialize (PT k Pk). specialize (PF i Pi). lia. }
    pose proof p_ga0 as G0. pose proof p_gal as GL. pose proof (p_nka g Hg) as NK. pose proof (p_ka g Hg) as K0.
    pose proof (RNG g Hg) as RN.
    assert (RB : (1 - ga) * T all (fun i => D i) l <= (1 - lam + n * (et / amin)) * A g g).
    { apply (row_bound dec all U (fun g h => A g h) (fun i => D i) l (fun k => A g k) w P ga et (et / amin) amin (S m)); auto.
      - apply RG.
      - intros j i Hj Hi Pj Pi. apply p_Ulow; auto. specialize (PT j Pj). specialize (PF i Pi). lia.
      - intros i Hi Pi. destruct (HR i Hi (PT i Pi)) as [_ _ _ _ B _]. pose proof (RNG i Hi).
        assert (0 <= lam / 4 * A i i) by (apply Rmult_le_pos; lra). lra.
      - intros i Hi Pi. unfold l. rewrite Pi. auto.
      - apply (p_ke g Hg).
      - intros j Hj. apply RNG; auto.
      - intros j k Hj Hk Pj Pk. apply PT in Pj, Pk. apply p_rec; auto. intros i Hi Li. apply HR; auto. lia.
      - intros k Hk Pk.
        rewrite (rsum_ext all (fun i => l i * D i * U k i) (fun i => L g i * D i * U k i)) by (apply LE; auto).
        rewrite (rsum_ext all (fun i => Rabs (l i * D i * U k i)) (fun i => Rabs (L g i * D i * U k i)))
          by (intros; f_equal; apply LE; auto).
        apply HE; auto.
      - intros j Hj Pj. apply (po_sum j (HR j Hj (PT j Pj))).
      - apply p_supp.
      - apply (p_SM g Hg).
      - apply (p_n1 g Hg).
      - unfold P. apply Nat.ltb_ge. auto.
      - intros j k Hj Hk. rewrite (rg_sym _ _ _ _ _ RG); auto. }
    assert (TE : T all (fun i => D i) l = rsum all (fun i => if (rk i <? b)%nat then L g i * L g i * D i else 0)).
    { apply rsum_ext. intros i _. unfold l, P. destruct (rk i <? b)%nat; ring. }
    rewrite <- TE. clear TE. set (t := T all (fun i => D i) l) in *.
    assert (T0 : 0 <= t).
    { apply rsum_pos. intros i Hi. unfold l. destruct (P i) eqn:Pi; [|lra].
      destruct (HR i Hi (PT i Pi)) as [_ _ _ _ B _]. pose proof (RNG i Hi).
      assert (0 <= lam / 4 * A i i) by (apply Rmult_le_pos; lra).
      apply Rmult_le_pos; [apply Rle_0_sqr|lra]. }
    destruct (Rle_or_lt t ((1 - lam / 2) * A g g)); auto. exfalso.
    assert (H1 : (1 - ga) * ((1 - lam / 2) * A g g) <= (1 - ga) * t) by (apply Rmult_le_compat_l; lra).
    assert (H2 : 1 - lam + lam / 16 < (1 - ga) * (1 - lam / 2)) by nra.
    assert ((1 - lam + n * (et / amin)) * A g g <= (1 - lam + lam / 16) * A g g) by (apply Rmult_le_compat_r; lra).
    assert ((1 - lam + lam / 16) * A g g < (1 - ga) * (1 - lam / 2) * A g g) by (apply Rmult_lt_compat_r; lra).
    lra.
  Qed.

  Lemma rsum_one (f : I -> R) k : In k all -> (forall i, In i all -> 0 <= f i) -> f k <= rsum all f.
  Proof.
    intros Hk H. rewrite (rsum_remove dec all k) by (auto; apply RG).
    assert (0 <= rsum (remove dec k all) f) by (apply rsum_pos; intros i Hi; apply in_remove in Hi; apply H; tauto). lra.
  Qed.

  Lemma p_ok g h k b : In g all -> In h all -> In k (row g) -> In k (row h) -> (b <= rk g)%nat -> (rk k < b)%nat ->
    (forall j, In j all -> (rk j < b)%nat -> posRow j) -> fin (L' g k) -> fin (L' h k) ->
    rsum all (fun i => if (rk i <? b)%nat then L g i * L g i * D i else 0) <= (1 - lam / 2) * A g g ->
    L h k * L h k * D k <= 2 * amax -> okTerm g h k.
  Proof.
    intros Hg Hh K1 K2 Hb Hk HR F1 F2 HT H2. assert (Ha : In k all) by (eapply p_rowin; eauto).
    pose proof (RNG g Hg) as RN. pose proof (RNG k Ha) as RK. destruct (HR k Ha Hk) as [_ P2 _ _ P5 _].
    assert (lam / 4 * amin <= lam / 4 * A k k) by (apply Rmult_le_compat_l; lra).
    split; auto. split; auto. split; auto. split; [lra|]. split; auto.
    pose proof (rsum_one (fun i => if (rk i <? b)%nat then L g i * L g i * D i else 0) k Ha) as X. cbv beta in X.
    rewrite (proj2 (Nat.ltb_lt _ _) Hk) in X.
    assert (X2 : L g k * L g k * D k <= (1 - lam / 2) * A g g).
    { eapply Rle_trans; [apply X|exact HT]. intros i Hi. destruct (Nat.ltb_spec (rk i) b); [|lra].
      destruct (HR i Hi H0) as [_ _ _ _ B _]. pose proof (RNG i Hi).
      assert (0 <= lam / 4 * A i i) by (apply Rmult_le_pos; lra).
      apply Rmult_le_pos; [apply Rle_0_sqr|lra]. }
    assert ((1 - lam / 2) * A g g <= 1 * A g g) by (apply Rmult_le_compat_r; lra). lra.
  Qed.

  Lemma p_entry g h : In g all -> posRow g -> In h all -> L g h * L g h * D h <= 2 * amax.
  Proof.
    intros Hg PR Hh. destruct PR as [_ _ _ _ _ PS]. pose proof (RNG g Hg) as RN.
    destruct (dec g h) as [<-|N].
    { rewrite (p_Lge g g) by auto. lra. }
    pose proof (rsum_one (fun i => U g i * U g i * aD i) h Hh) as X. cbv beta in X. rewrite (p_Une g h N) in X.
    assert (L g h * L g h * D h <= L g h * L g h * aD h) by (apply Rmult_le_compat_l; [apply Rle_0_sqr|apply Rle_abs]).
    assert (L g h * L g h * aD h <= rsum all (fun i => U g i * U g i * aD i)).
    { apply X. intros i Hi. apply Rmult_le_pos; [apply Rle_0_sqr|apply Rabs_pos]. }
    lra.
  Qed.

  Lemma p_rows g : In g all -> (forall j, In j all -> (rk j < rk g)%nat -> posRow j) ->
    forall b, (b <= rk g)%nat -> forall k, In k all -> (rk k < b)%nat ->
    (In k (row g) -> fin (L' g k)) /\
    Rabs (A g k - rsum all (fun i => L g i * D i * U k i)) <= ga * rsum all (fun i => Rabs (L g i * D i * U k i)) + et.
  Proof.
    intros Hg HR. induction b as [|b IH]; intros Hb k Hk Hl; [lia|].
    destruct (Nat.eq_dec (rk k) b) as [E|N]; [|apply IH; auto; lia].
    assert (HR' : forall j, In j all -> (rk j < b)%nat -> posRow j) by (intros; apply HR; auto; lia).
    specialize (IH ltac:(lia)).
    assert (PX := p_prefix g b Hg ltac:(lia) HR' (fun k Hk Hl => proj2 (IH k Hk Hl))).
    assert (PK : posRow k) by (apply HR; auto; lia).
    destruct (in_dec dec k (row g)) as [Ir|Nr].
    - pose proof (RNG k Hk) as RK. pose proof (RNG g Hg) as RN. pose proof p_dmin as DP.
      assert (lam / 4 * amin <= lam / 4 * A k k) by (apply Rmult_le_compat_l; lra).
      assert (OK : forall i, In i (row g) -> In i (row k) -> okTerm g k i).
      { intros i I1 I2. assert (Hi : In i all) by (eapply p_rowin; eauto). assert (Li : (rk i < b)%nat) by (rewrite <- E; apply RL; auto).
        apply (p_ok g k i b); auto; try lia.
        - apply IH; auto.
        - apply (po_L k PK); auto.
        - apply p_entry; auto. }
      destruct (p_row g k) as [F1 F2]; auto.
      + apply (po_D k PK).
      + pose proof (po_rng k PK). lra.
      + (* Cauchy-Schwarz *)
        apply Rle_trans with (rsum (common dec row g k) (fun i => 1 / 2 * (L g i * L g i * D i + L k i * L k i * D i))).
        * apply rsum_le. intros i Hi. apply common_In in Hi. destruct (OK i) as (_ & _ & _ & B & _); try tauto.
          rewrite !Rabs_mult, (Rabs_pos_eq (D i)) by lra.
          pose proof (Rle_0_sqr (aL g i - aL k i)) as S. unfold Rsqr in S.
          pose proof (sqr_abs (L g i)) as E1. pose proof (sqr_abs (L k i)) as E2. rewrite <- E1, <- E2.
          assert (0 <= (aL g i * aL g i - 2 * (aL g i * aL k i) + aL k i * aL k i) * D i) by (apply Rmult_le_pos; lra). lra.
        * rewrite rsum_scal, rsum_plus.
          assert (D0 : forall i, In i all -> (rk i < b)%nat -> 0 <= D i).
          { intros i Hi Li. pose proof (po_rng i (HR' i Hi Li)). pose proof (RNG i Hi).
            assert (0 <= lam / 4 * A i i) by (apply Rmult_le_pos; lra). lra. }
          assert (CI : forall i, In i (common dec row g k) -> In i all /\ (rk i < b)%nat).
          { intros i Hi. apply common_In in Hi. destruct Hi as [I1 I2]. split; [eapply p_rowin; eauto|rewrite <- E; apply RL; auto]. }
          assert (S1 : rsum (common dec row g k) (fun i => L g i * L g i * D i) <= (1 - lam / 2) * A g g).
          { eapply Rle_trans; [|exact PX].
            rewrite (rsum_ext (common dec row g k) _ (fun i => if (rk i <? b)%nat then L g i * L g i * D i else 0)).
            2:{ intros i Hi. destruct (CI i Hi) as [_ Li]. rewrite (proj2 (Nat.ltb_lt _ _) Li). auto. }
            apply (rsum_sub_le dec); [apply p_cnd; auto|apply RG|intros i Hi; apply CI; auto|].
            intros i Hi. destruct (Nat.ltb_spec (rk i) b); [|lra]. apply Rmult_le_pos; [apply Rle_0_sqr|auto]. }
          assert (S2 : rsum (common dec row g k) (fun i => L k i * L k i * D i) <= 2 * A k k).
          { eapply Rle_trans; [|exact (po_sum k PK)].
            apply Rle_trans with (rsum (common dec row g k) (fun i => U k i * U k i * aD i)).
            - apply rsum_le. intros i Hi. destruct (CI i Hi) as [_ Li]. rewrite p_Une by (intros ->; lia).
              apply Rmult_le_compat_l; [apply Rle_0_sqr|apply Rle_abs].
            - apply (rsum_sub_le dec); [apply p_cnd; auto|apply RG|intros i Hi; apply CI; auto|].
              intros i Hi. apply Rmult_le_pos; [apply Rle_0_sqr|apply Rabs_pos]. }
          assert ((1 - lam / 2) * A g g <= 1 * A g g) by (apply Rmult_le_compat_r; lra). lra.
    - split; [tauto|]. destruct (pr_none g k (fun t => t) Hg Hk ltac:(lia) Nr eq_refl) as [E1 E2].
      destruct (pr_none g k Rabs Hg Hk ltac:(lia) Nr Rabs_R0) as [_ E3].
      rewrite E1, E2, E3, Rminus_0_r, Rabs_R0, Rmult_0_r. pose proof (p_et0 g Hg). lra.
  Qed.

  Lemma p_step g : In g all -> (forall j, In j all -> (rk j < rk g)%nat -> posRow j) -> posRow g.
  Proof.
    intros Hg HR. pose proof (p_rows g Hg HR (rk g) (Nat.le_refl _)) as ROW.
    assert (PX := p_prefix g (rk g) Hg (Nat.le_refl _) HR (fun k Hk Hl => proj2 (ROW k Hk Hl))).
    pose proof (RNG g Hg) as RN. pose proof p_dmin as DP. pose proof p_ga0 as G0. pose proof p_gal as GL.
    pose proof (p_et0 g Hg) as E0. pose proof (p_etl g Hg) as EL. pose proof (p_ets g Hg) as ES.
    assert (FL : forall k, In k (row g) -> fin (L' g k)).
    { intros k Hk. apply ROW; auto. eapply p_rowin; eauto. }
    assert (RW : forall k, In k (row g) -> In k all /\ (rk k < rk g)%nat).
    { intros k Hk. split; [eapply p_rowin; eauto|apply RL; auto]. }
    assert (D0 : forall i, In i all -> (rk i < rk g)%nat -> 0 <= D i).
    { intros i Hi Li. pose proof (po_rng i (HR i Hi Li)). pose proof (RNG i Hi).
      assert (0 <= lam / 4 * A i i) by (apply Rmult_le_pos; lra). lra. }
    set (t := rsum (row g) (fun k => L g k * D k * L g k)).
    assert (TE : rsum (row g) (fun k => Rabs (L g k * D k * L g k)) = t).
    { apply rsum_ext. intros k Hk. apply Rabs_pos_eq. destruct (RW k Hk) as [Ha Lk].
      replace (L g k * D k * L g k) with (L g k * L g k * D k) by ring.
      apply Rmult_le_pos; [apply Rle_0_sqr|auto]. }
    assert (T0 : 0 <= t) by (rewrite <- TE; apply rsum_pos; intros; apply Rabs_pos).
    assert (TB : t <= (1 - lam / 2) * A g g).
    { eapply Rle_trans; [|exact PX]. right. unfold t. symmetry.
      rewrite (rsum_sub dec (row g) all).
      - apply rsum_ext. intros k Hk. destruct (RW k Hk) as [_ Lk]. rewrite (proj2 (Nat.ltb_lt _ _) Lk). ring.
      - eapply rg_nodup; eauto.
      - apply RG.
      - intros k Hk. apply RW; auto.
      - intros k Hk Hn. rewrite (p_Lout g k) by auto. destruct (rk k <? rk g)%nat; ring. }
    assert (TA : (1 - lam / 2) * A g g <= 1 * A g g) by (apply Rmult_le_compat_r; lra).
    assert (OK : forall k, In k (row g) -> okTerm g g k).
    { intros k Hk. destruct (RW k Hk) as [Ha Lk].
      apply (p_ok g g k (rk g)); auto.
      pose proof (rsum_one (fun i => if (rk i <? rk g)%nat then L g i * L g i * D i else 0) k Ha) as X. cbv beta in X.
      rewrite (proj2 (Nat.ltb_lt _ _) Lk) in X.
      assert (X2 : L g k * L g k * D k <= (1 - lam / 2) * A g g); [|lra].
      eapply Rle_trans; [apply X|exact PX]. intros i Hi. destruct (Nat.ltb_spec (rk i) (rk g)); [|lra].
      apply Rmult_le_pos; [apply Rle_0_sqr|auto]. }
    destruct (p_diag g Hg OK) as [FD ED]; [rewrite TE; lra|].
    assert (ED' := ED). destruct (pr_diag g Hg) as [EP EA]. rewrite EP, EA, TE in ED'. fold t in ED'.
    (* the pivot *)
    assert (GL16 : ga <= lam / 16) by lra.
    assert (DPOS : lam / 4 * A g g <= D g).
    { pose proof (abs_both _ _ ED') as [_ B].
      assert (GT : ga * t <= lam / 16 * A g g) by (apply Rmult_le_compat; lra).
      assert (EA2 : et <= lam / 16 * A g g).
      { assert (lam * amin <= lam * A g g) by (apply Rmult_le_compat_l; lra). lra. }
      unfold Rabs in B. destruct (Rcase_abs (D g)) as [Neg|Pos].
      - exfalso. assert (0 < lam * A g g) by (apply Rmult_lt_0_compat; lra). nra.
      - assert (0 < lam * A g g) by (apply Rmult_lt_0_compat; lra).
        destruct (Rle_or_lt (lam / 4 * A g g) (D g)); auto. exfalso.
        assert (ga * D g <= 1 / 16 * D g) by (apply Rmult_le_compat_r; lra). nra. }
    assert (DP0 : 0 < D g) by (assert (0 < lam / 4 * A g g) by (apply Rmult_lt_0_compat; lra); lra).
    rewrite (Rabs_pos_eq (D g)) in ED' by lra.
    assert (DS : D g + t <= 2 * A g g).
    { pose proof (abs_both _ _ ED') as [B _].
      assert (ga * (D g + t) <= 1 / 16 * (D g + t)) by (apply Rmult_le_compat_r; lra). lra. }
    constructor; auto.
    - intros k Hk Lk. rewrite (pr_off g k (fun t => t) Hg Hk Lk eq_refl), (pr_off g k Rabs Hg Hk Lk Rabs_R0). apply ROW; auto.
    - lra.
    - eapply Rle_trans; [|exact DS]. right.
      transitivity (ap g g); [|rewrite EA, TE, Rabs_pos_eq by lra; auto].
      apply rsum_ext. intros i Hi. rewrite !Rabs_mult. rewrite <- (sqr_abs (U g i)). ring.
  Qed.

  Theorem posRow_all g : In g all -> posRow g.
  Proof.
    assert (H : forall N g, (rk g < N)%nat -> In g all -> posRow g).
    { induction N as [|N IH]; intros g' Lt' Hg'; [lia|]. apply p_step; auto. intros j Hj Lj. apply IH; auto. lia. }
    intros Hg. apply (H (S (rk g))); auto.
  Qed.

  Lemma p_all j k : In j all -> In k all -> Rabs (A j k - pr j k) <= ga * ap j k + et.
  Proof. intros Hj Hk. apply p_rec; auto. intros; apply posRow_all; auto. Qed.
End Float.
