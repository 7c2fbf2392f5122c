(** Rounded solves with the factorization of a diagonally dominant matrix neither overflow
    nor divide by zero, over any finite index set; error of the solution. *)
From Coq Require Import Reals Lra Lia List Arith Bool Psatz.
From Verif Require Import ModelNumeric SpecNumeric SpecReg SpecRound SpecDomFloat.
From Verif Require Import ProofExact ProofArrowSub ProofChain ProofRound ProofDomReal ProofDomFloat.
Import ListNotations.
Local Open Scope R_scope.
Local Notation rsum := (suml Or).

Section Solve.
  Context {F : Type} (O : ops F) (fin : F -> Prop) (val : F -> R) (u eta Om : R).
  Context (RO : rounding O fin val u eta) (NO : noOverflow O fin val Om).
  Context {I : Type} (dec : forall a b : I, {a = b} + {a <> b}).
  Variables (all : list I) (row col : I -> list I) (rk : I -> nat).
  Variables (A' L' : I -> I -> F) (D' : I -> F) (b y z x : I -> F).
  Hypothesis RG : rowsGood O all row A' L'.
  Hypothesis CG : colsGood all row col.
  Hypothesis RI : forall g h, In g all -> In h all -> rk g = rk h -> g = h.
  Hypothesis RL : forall g h, In g all -> In h (row g) -> (rk h < rk g)%nat.
  Hypothesis FE : forwardEq O all row L' b y.
  Hypothesis DE : diagonalEq O all D' y z.
  Hypothesis BE : backwardEq O all L' col z x.
  Variables (th0 dmin : R) (m : nat).
  Local Notation q := (/ (1 - u)).
  Local Notation L g h := (val (L' g h)).
  Local Notation aL g h := (Rabs (val (L' g h))).
  Local Notation n := (INR (length all)).
  Local Notation ga := (q ^ S m - 1).
  Local Notation th := ((1 + th0) / 2).
  Hypothesis MR : forall g, In g all -> (length (row g) <= m)%nat.
  Hypothesis MC : forall g, In g all -> (length (col g) <= m)%nat.
  Hypothesis T0 : 0 <= th0 < 1.
  Hypothesis GA : 80 * ga <= (1 - th0) * (1 - th0).
  Hypothesis FL : forall g h, In g all -> In h (row g) -> fin (L' g h).
  Hypothesis FD : forall g, In g all -> fin (D' g).
  Hypothesis DM : forall g, In g all -> dmin <= Rabs (val (D' g)).
  Hypothesis DP : 0 < dmin.
  Hypothesis CS : forall h, In h all -> rsum all (fun j => aL j h) <= th.
  Hypothesis FB : forall g, In g all -> fin (b g).

  Local Notation B := (rsum all (fun g => Rabs (val (b g))) + 2 * (n * n * eta)).
  Local Notation Z := (4 * B / ((1 - th0) * dmin) + 2 * (n * eta) + eta).
  Hypothesis OMB : 8 * B <= (1 - th0) * Om.
  Hypothesis OMZ : 4 * B <= (1 - th0) * dmin * Om.
  Hypothesis OMX : 3 * Z <= (1 - th0) * Om.

  Lemma s_q1 : 1 <= q. Proof. exact (q_ge1 O fin val u eta RO). Qed.
  Lemma s_e0 : 0 <= eta. Proof. exact (eta_pos O fin val u eta RO). Qed.
  Lemma s_n0 : 0 <= n. Proof. apply pos_INR. Qed.
  Lemma s_n1 g : In g all -> 1 <= n.
  Proof. destruct all as [|h l]; intros []; cbn [length]; rewrite S_INR; pose proof (pos_INR (length l)); lra. Qed.
  Lemma s_B0 : 0 <= B.
  Proof.
    pose proof s_e0. pose proof s_n0. apply Rplus_le_le_0_compat.
    - apply rsum_pos. intros; apply Rabs_pos.
    - assert (0 <= n * n) by nra. nra.
  Qed.
  Lemma s_ga : 0 <= ga <= 1 / 80.
  Proof.
    pose proof (qpow_ge1 O fin val u eta RO (S m)) as H. cbv zeta in H.
    assert ((1 - th0) * (1 - th0) <= 1) by nra. lra.
  Qed.
  Lemma s_gath : (1 + ga) * th <= 1 - 2 / 5 * (1 - th0).
  Proof.
    pose proof s_ga. set (G := ga) in *. assert (G * th <= G * 1) by (apply Rmult_le_compat_l; lra).
    assert ((1 - th0) * (1 - th0) <= (1 - th0) * 1) by (apply Rmult_le_compat_l; lra). lra.
  Qed.
  Lemma s_om0 : 0 <= Om.
  Proof. pose proof s_B0. destruct (Rle_or_lt 0 Om); auto. exfalso. assert ((1 - th0) * Om < 0) by nra. lra. Qed.

  (** entries are at most 1 *)
  Lemma s_L1 g h : In g all -> In h all -> aL g h <= 1.
  Proof.
    intros Hg Hh. pose proof (CS h Hh) as C. rewrite (rsum_remove dec all g) in C by (auto; apply RG).
    assert (0 <= rsum (remove dec g all) (fun j => aL j h)) by (apply rsum_pos; intros; apply Rabs_pos). lra.
  Qed.
  Lemma s_out g h : In g all -> In h all -> ~ In h (row g) -> aL g h = 0.
  Proof. intros. rewrite (rg_L _ _ _ _ _ RG) by auto. rewrite (rd_0 _ _ _ _ _ RO). apply Rabs_R0. Qed.

  (** one component *)
  Lemma sub_make (a : F) (cs : list I) (l v : I -> F) (V : R) : fin a -> NoDup cs ->
    (length cs <= m)%nat -> (forall k, In k cs -> In k all) ->
    (forall k, In k cs -> fin (l k) /\ fin (v k) /\ Rabs (val (l k) * val (v k)) <= Om) ->
    V = Rabs (val a) + rsum cs (fun k => Rabs (val (l k) * val (v k))) + 2 * (n * eta) ->
    (1 + ga) * V <= Om ->
    fin (subl O a cs (fun k => omul O (l k) (v k))) /\
    Rabs (val (subl O a cs (fun k => omul O (l k) (v k)))) <= (1 + ga) * V.
  Proof.
    intros Fa ND Lc Hc Hk EV HO. pose proof s_q1 as Q1. pose proof s_e0 as E0.
    set (f := fun k => omul O (l k) (v k)).
    assert (QM : 1 <= q ^ length cs * q <= 1 + ga).
    { pose proof (qpow_le O fin val u eta RO (S (length cs)) (S m) ltac:(lia)) as H1. cbv zeta in H1.
      pose proof (qpow_ge1 O fin val u eta RO (S (length cs))) as H2. cbv zeta in H2. cbn [pow] in *. lra. }
    pose proof (qpow_ge1 O fin val u eta RO (length cs)) as QC. cbv zeta in QC.
    assert (LN : INR (length cs) <= n) by (apply le_INR, NoDup_incl_length; auto).
    assert (BB : q ^ length cs * (Rabs (val a) + rsum cs (fun k => (q * Rabs (val (l k) * val (v k)) + eta) + eta)) <= (1 + ga) * V).
    { rewrite (rsum_ext cs _ (fun k => q * Rabs (val (l k) * val (v k)) + 2 * eta)) by (intros; ring).
      rewrite rsum_plus, rsum_scal, rsum_const. subst V.
      set (S := rsum cs (fun k => Rabs (val (l k) * val (v k)))) in *.
      assert (S0 : 0 <= S) by (apply rsum_pos; intros; apply Rabs_pos).
      pose proof (Rabs_pos (val a)) as P. pose proof s_n0.
      apply Rle_trans with (q ^ length cs * q * (Rabs (val a) + S + 2 * (n * eta))).
      - rewrite Rmult_assoc. apply Rmult_le_compat_l; [lra|].
        assert (Rabs (val a) <= q * Rabs (val a)) by nra.
        assert (INR (length cs) * (2 * eta) <= 2 * (n * eta)) by nra.
        assert (0 <= n * eta) by nra. assert (2 * (n * eta) <= q * (2 * (n * eta))) by nra. lra.
      - apply Rmult_le_compat_r; [|lra]. assert (0 <= n * eta) by nra. lra. }
    destruct (reduces_make O fin val u eta Om RO NO (fun k w => w = f k) cs
      (fun k => q * Rabs (val (l k) * val (v k)) + eta) a (subl O a cs f)) as [F1 F2]; auto.
    - apply reduces_subl. auto.
    - intros k w Hin ->. destruct (Hk k Hin) as (K1 & K2 & K3).
      assert (Fm : fin (f k)) by (apply (no_mul _ _ _ _ NO); auto).
      split; auto. destruct (rd_mul _ _ _ _ _ RO _ _ Fm) as (_ & _ & N).
      apply (near_abs O fin val u eta RO). auto.
    - lra.
    - split; auto. lra.
  Qed.

  (** ** forward *)
  Local Notation py g := (rsum all (fun j => if (rk j <=? rk g)%nat then Rabs (val (y j)) else 0)).
  Lemma forward_make N : forall g, In g all -> (rk g < N)%nat ->
    fin (y g) /\
    Rabs (val (y g)) <= (1 + ga) * (Rabs (val (b g)) + rsum all (fun k => aL g k * Rabs (val (y k))) + 2 * (n * eta)) /\
    (1 - th0) * py g <= 3 * B.
  Proof.
    pose proof s_ga as G. pose proof s_e0 as E0. pose proof s_n0 as N0. pose proof s_gath as GT.
    pose proof s_B0 as B0. pose proof s_om0 as O0.
    induction N as [|N IH]; intros g Hg Lg; [lia|].
    assert (IH' : forall j, In j all -> (rk j < rk g)%nat -> fin (y j) /\
      Rabs (val (y j)) <= (1 + ga) * (Rabs (val (b j)) + rsum all (fun k => aL j k * Rabs (val (y k))) + 2 * (n * eta)) /\
      (1 - th0) * py j <= 3 * B) by (intros; apply IH; auto; lia). clear IH.
    set (ps := rsum all (fun j => if (rk j <? rk g)%nat then Rabs (val (y j)) else 0)).
    assert (ps0 : 0 <= ps) by (apply rsum_pos; intros j _; destruct (rk j <? rk g)%nat; [apply Rabs_pos|lra]).
    (* sums of the components so far *)
    assert (PS : forall f : I -> bool, (forall j, In j all -> f j = true -> (rk j <= rk g)%nat) ->
      (forall j, In j all -> f j = true ->
        Rabs (val (y j)) <= (1 + ga) * (Rabs (val (b j)) + rsum all (fun k => aL j k * Rabs (val (y k))) + 2 * (n * eta))) ->
      rsum all (fun j => if f j then Rabs (val (y j)) else 0) <= (1 + ga) * (B + th * ps)).
    { intros f Hf Hy.
      apply Rle_trans with (rsum all (fun j => (1 + ga) * (Rabs (val (b j)) +
        rsum all (fun k => aL j k * (if (rk k <? rk g)%nat then Rabs (val (y k)) else 0)) + 2 * (n * eta)))).
      - apply rsum_le. intros j Hj. 
        assert (P2 : 0 <= rsum all (fun k => aL j k * (if (rk k <? rk g)%nat then Rabs (val (y k)) else 0))).
        { apply rsum_pos. intros k _. apply Rmult_le_pos; [apply Rabs_pos|]. destruct (rk k <? rk g)%nat; [apply Rabs_pos|lra]. }
        destruct (f j) eqn:Ef.
        + eapply Rle_trans; [apply Hy; auto|]. right. f_equal. f_equal. f_equal. apply rsum_ext.
          intros k Hk. destruct (Nat.ltb_spec (rk k) (rk g)); auto.
          rewrite (s_out j k); auto; [ring|]. intros Hr. apply RL in Hr; auto. specialize (Hf j Hj Ef). lia.
        + pose proof (Rabs_pos (val (b j))). assert (0 <= n * eta) by nra. apply Rmult_le_pos; lra.
      - rewrite rsum_scal. apply Rmult_le_compat_l; [lra|]. rewrite !rsum_plus, rsum_const, rsum_swap.
        replace (n * (2 * (n * eta))) with (2 * (n * n * eta)) by ring.
        assert (rsum all (fun k => rsum all (fun j => aL j k * (if (rk k <? rk g)%nat then Rabs (val (y k)) else 0))) <= th * ps).
        { unfold ps. rewrite <- rsum_scal. apply rsum_le. intros k Hk.
          set (v := if (rk k <? rk g)%nat then Rabs (val (y k)) else 0).
          assert (0 <= v) by (unfold v; destruct (rk k <? rk g)%nat; [apply Rabs_pos|lra]).
          rewrite (rsum_ext all _ (fun j => v * aL j k)), rsum_scal by (intros; ring).
          rewrite Rmult_comm. apply Rmult_le_compat_r; auto. }
        lra. }
    assert (PSB : (1 - th0) * ps <= 3 * B).
    { assert (H : ps <= (1 + ga) * (B + th * ps)).
      { apply PS.
        - intros j _ Hj. apply Nat.ltb_lt in Hj. lia.
        - intros j Hj Lj. apply Nat.ltb_lt in Lj. apply IH'; auto. }
      assert (ps <= (1 + ga) * B + (1 - 2 / 5 * (1 - th0)) * ps) by nra. nra. }
    assert (YK : forall k, In k all -> (rk k < rk g)%nat -> Rabs (val (y k)) <= ps).
    { intros k Hk Lk. unfold ps. rewrite (rsum_remove dec all k) by (auto; apply RG).
      rewrite (proj2 (Nat.ltb_lt _ _) Lk).
      assert (0 <= rsum (remove dec k all) (fun j => if (rk j <? rk g)%nat then Rabs (val (y j)) else 0)).
      { apply rsum_pos; intros j _; destruct (rk j <? rk g)%nat; [apply Rabs_pos|lra]. } lra. }
    assert (PO : ps <= Om) by nra.
    assert (SE : rsum (row g) (fun k => Rabs (val (L' g k) * val (y k))) = rsum all (fun k => aL g k * Rabs (val (y k)))).
    { symmetry. rewrite (rsum_sub dec (row g) all).
      - apply rsum_ext. intros. rewrite Rabs_mult. auto.
      - eapply rg_nodup; eauto.
      - apply RG.
      - intros k Hk. eapply rg_in; eauto.
      - intros k Hk Hn. rewrite (s_out g k) by auto. ring. }
    assert (SB : rsum all (fun k => aL g k * Rabs (val (y k))) <= ps).
    { apply rsum_le. intros k Hk. destruct (Nat.ltb_spec (rk k) (rk g)).
      - pose proof (s_L1 g k Hg Hk). pose proof (Rabs_pos (val (y k))). pose proof (Rabs_pos (L g k)). nra.
      - rewrite (s_out g k); auto; [lra|]. intros Hr. apply RL in Hr; auto. lia. }
    assert (Bg : Rabs (val (b g)) + 2 * (n * eta) <= B).
    { rewrite (rsum_remove dec all g) by (auto; apply RG).
      assert (0 <= rsum (remove dec g all) (fun j => Rabs (val (b j)))) by (apply rsum_pos; intros; apply Rabs_pos).
      assert (1 <= n) by (apply (s_n1 g Hg)). assert (0 <= n * eta) by nra.
      assert (n * eta <= n * n * eta) by nra. lra. }
    destruct (sub_make (b g) (row g) (L' g) y
      (Rabs (val (b g)) + rsum all (fun k => aL g k * Rabs (val (y k))) + 2 * (n * eta))) as [Fy By].
    - auto.
    - eapply rg_nodup; eauto.
    - auto.
    - intros k Hk. eapply rg_in; eauto.
    - intros k Hk. assert (Ha : In k all) by (eapply rg_in; eauto). assert (Lk : (rk k < rk g)%nat) by (apply RL; auto).
      split; [auto|]. split; [apply IH'; auto|]. rewrite Rabs_mult.
      pose proof (YK k Ha Lk). pose proof (s_L1 g k Hg Ha). pose proof (Rabs_pos (val (y k))). pose proof (Rabs_pos (L g k)). nra.
    - rewrite SE. auto.
    - apply Rle_trans with ((81 / 80) * (B + ps)).
      + apply Rmult_le_compat; try lra.
        pose proof (Rabs_pos (val (b g))).
        assert (0 <= rsum all (fun k => aL g k * Rabs (val (y k)))) by (apply rsum_pos; intros; apply Rmult_le_pos; apply Rabs_pos).
        assert (0 <= n * eta) by nra. lra.
      + apply Rmult_le_reg_l with (1 - th0); [lra|]. assert ((1 - th0) * B <= B) by nra. lra.
    - rewrite <- (FE g Hg) in Fy, By. split; auto. split; auto.
      assert (H : py g <= (1 + ga) * (B + th * ps)).
      { apply PS.
        - intros j _ Hj. apply Nat.leb_le in Hj. auto.
        - intros j Hj Lj. apply Nat.leb_le in Lj. destruct (Nat.eq_dec (rk j) (rk g)) as [E|N0'].
          + assert (j = g) by (apply RI; auto). subst j. auto.
          + apply IH'; auto. lia. }
      eapply Rle_trans; [apply Rmult_le_compat_l; [lra|exact H]|].
      assert (H2 : (1 + ga) * (th * ps) <= (1 - 2 / 5 * (1 - th0)) * ps).
      { rewrite <- Rmult_assoc. apply Rmult_le_compat_r; auto. }
      assert (H3 : (1 - th0) * ((1 + ga) * (th * ps)) <= (1 - 2 / 5 * (1 - th0)) * ((1 - th0) * ps)).
      { eapply Rle_trans; [apply Rmult_le_compat_l; [lra|exact H2]|]. right. ring. }
      assert (H4 : (1 - 2 / 5 * (1 - th0)) * ((1 - th0) * ps) <= (1 - 2 / 5 * (1 - th0)) * (3 * B)).
      { apply Rmult_le_compat_l; lra. }
      assert (H5 : (1 - th0) * ((1 + ga) * B) <= (1 - th0) * (81 / 80 * B)).
      { apply Rmult_le_compat_l; [lra|]. apply Rmult_le_compat_r; lra. }
      assert (0 <= (1 - th0) * B) by (apply Rmult_le_pos; lra).
      lra.
  Qed.

  Lemma y_make g : In g all -> fin (y g) /\ (1 - th0) * Rabs (val (y g)) <= 3 * B.
  Proof.
    intros Hg. destruct (forward_make (S (rk g)) g Hg (Nat.lt_succ_diag_r _)) as (F1 & _ & F3).
    split; auto. eapply Rle_trans; [|exact F3]. apply Rmult_le_compat_l; [lra|].
    rewrite (rsum_remove dec all g) by (auto; apply RG). rewrite Nat.leb_refl.
    assert (0 <= rsum (remove dec g all) (fun j => if (rk j <=? rk g)%nat then Rabs (val (y j)) else 0)).
    { apply rsum_pos; intros j _; destruct (rk j <=? rk g)%nat; [apply Rabs_pos|lra]. } lra.
  Qed.

  (** ** diagonal *)
  Lemma z_make g : In g all -> fin (z g) /\ Rabs (val (z g)) <= 4 * B / ((1 - th0) * dmin) + eta.
  Proof.
    intros Hg. destruct (y_make g Hg) as [Fy By]. pose proof (DM g Hg) as D1.
    assert (Dn : val (D' g) <> 0) by (intros E; rewrite E, Rabs_R0 in D1; lra).
    pose proof s_B0 as B0. assert (P : 0 < (1 - th0) * dmin) by nra.
    assert (QB : Rabs (val (y g) / val (D' g)) <= 3 * B / ((1 - th0) * dmin)).
    { unfold Rdiv at 1. rewrite Rabs_mult, Rabs_inv.
      apply Rmult_le_reg_r with (Rabs (val (D' g))); [lra|]. rewrite Rmult_assoc, Rinv_l, Rmult_1_r by lra.
      apply Rmult_le_reg_l with (1 - th0); [lra|]. eapply Rle_trans; [exact By|].
      replace ((1 - th0) * (3 * B / ((1 - th0) * dmin) * Rabs (val (D' g)))) with (3 * B * (Rabs (val (D' g)) / dmin)) by (field; lra).
      rewrite <- (Rmult_1_r (3 * B)) at 1. apply Rmult_le_compat_l; [lra|].
      apply Rmult_le_reg_r with dmin; auto. unfold Rdiv. rewrite Rmult_assoc, Rinv_l by lra. lra. }
    assert (X34 : 81 / 80 * (3 * B / ((1 - th0) * dmin)) <= 4 * B / ((1 - th0) * dmin)).
    { unfold Rdiv. assert (0 < / ((1 - th0) * dmin)) by (apply Rinv_0_lt_compat; auto). nra. }
    assert (X0 : 0 <= 3 * B / ((1 - th0) * dmin)) by (eapply Rle_trans; [apply Rabs_pos|exact QB]).
    rewrite (DE g Hg). assert (Fz : fin (odiv O (y g) (D' g))).
    { apply (no_div _ _ _ _ NO); auto. eapply Rle_trans; [exact QB|].
      apply Rmult_le_reg_l with ((1 - th0) * dmin); auto.
      replace ((1 - th0) * dmin * (3 * B / ((1 - th0) * dmin))) with (3 * B) by (field; lra). lra. }
    split; auto. destruct (rd_div _ _ _ _ _ RO _ _ (FD g Hg) Fz) as (_ & _ & N).
    pose proof (near_abs O fin val u eta RO _ _ N) as BN.
    assert (Q : q <= 81 / 80).
    { pose proof (qpow_le O fin val u eta RO 1 (S m) ltac:(lia)) as H. cbv zeta in H. cbn [pow] in H.
      pose proof s_ga as G. cbn [pow] in G. lra. }
    pose proof s_q1. assert (q * Rabs (val (y g) / val (D' g)) <= 81 / 80 * (3 * B / ((1 - th0) * dmin))).
    { apply Rmult_le_compat; try lra. apply Rabs_pos. }
    lra.
  Qed.

  (** ** backward *)
  Lemma backward_make N : forall g, In g all -> (forall k, In k all -> (rk k <= N + rk g)%nat) ->
    fin (x g) /\ (1 - th0) * Rabs (val (x g)) <= 3 * Z.
  Proof.
    pose proof s_ga as G. pose proof s_e0 as E0. pose proof s_n0 as N0. pose proof s_gath as GT.
    pose proof s_B0 as B0. pose proof s_om0 as O0.
    assert (Z0 : 0 <= Z).
    { assert (0 <= 4 * B / ((1 - th0) * dmin)).
      { apply Rmult_le_pos; [lra|]. left. apply Rinv_0_lt_compat. nra. } nra. }
    induction N as [|N IH]; intros g Hg Lg.
    all: assert (IH' : forall k, In k (col g) -> fin (x k) /\ (1 - th0) * Rabs (val (x k)) <= 3 * Z).
    { intros k Hk. apply (cg_in _ _ _ CG) in Hk; auto. destruct Hk as [Hk Hr]. apply RL in Hr; auto.
      specialize (Lg k Hk). lia. }
    2: { intros k Hk. apply (cg_in _ _ _ CG) in Hk; auto. destruct Hk as [Hk Hr]. apply RL in Hr; auto.
      apply IH; auto. intros k' Hk'. specialize (Lg k' Hk'). lia. }
    all: try clear IH; destruct (z_make g Hg) as [Fz Bz]; set (XM := 3 * Z / (1 - th0));
      assert (XE : (1 - th0) * XM = 3 * Z) by (unfold XM; field; lra);
      assert (X0 : 0 <= XM) by nra;
      assert (XK : forall k, In k (col g) -> Rabs (val (x k)) <= XM)
        by (intros k Hk; apply Rmult_le_reg_l with (1 - th0); [lra|]; rewrite XE; apply IH'; auto);
      assert (XO : XM <= Om) by nra;
      assert (CK : forall k, In k (col g) -> In k all /\ In g (row k)) by (intros k Hk; apply (cg_in _ _ _ CG) in Hk; auto);
      assert (SB : rsum (col g) (fun k => Rabs (val (L' k g) * val (x k))) <= th * XM)
      by (apply Rle_trans with (rsum (col g) (fun k => XM * aL k g));
          [apply rsum_le; intros k Hk; rewrite Rabs_mult, Rmult_comm; apply Rmult_le_compat_r; [apply Rabs_pos|auto]|];
          rewrite rsum_scal, Rmult_comm; apply Rmult_le_compat_r; auto;
          eapply Rle_trans; [|exact (CS g Hg)]; apply (rsum_sub_le dec);
          [apply (cg_nodup _ _ _ CG); auto|apply RG|intros k Hk; apply CK; auto|intros; apply Rabs_pos]);
      assert (VB : (1 + ga) * (Rabs (val (z g)) + rsum (col g) (fun k => Rabs (val (L' k g) * val (x k))) + 2 * (n * eta)) <= XM)
      by (assert (0 <= n * eta) by nra;
          assert (S0 : 0 <= rsum (col g) (fun k => Rabs (val (L' k g) * val (x k)))) by (apply rsum_pos; intros; apply Rabs_pos);
          pose proof (Rabs_pos (val (z g)));
          apply Rle_trans with ((1 + ga) * (Z + th * XM)); [apply Rmult_le_compat_l; lra|];
          assert ((1 + ga) * (th * XM) <= (1 - 2 / 5 * (1 - th0)) * XM) by (rewrite <- Rmult_assoc; apply Rmult_le_compat_r; lra);
          assert ((1 + ga) * Z <= 81 / 80 * Z) by (apply Rmult_le_compat_r; lra); lra);
      destruct (sub_make (z g) (col g) (fun k => L' k g) x
        (Rabs (val (z g)) + rsum (col g) (fun k => Rabs (val (L' k g) * val (x k))) + 2 * (n * eta))) as [Fx Bx]; auto;
      try (apply (cg_nodup _ _ _ CG); auto; fail);
      try (intros k Hk; apply CK; auto; fail);
      try lra;
      try (intros k Hk; destruct (CK k Hk) as [K1 K2]; split; [auto|split; [apply IH'; auto|]];
        rewrite Rabs_mult; pose proof (XK k Hk); pose proof (s_L1 k g K1 Hg);
        pose proof (Rabs_pos (val (x k))); pose proof (Rabs_pos (val (L' k g))); nra);
      rewrite <- (BE g Hg) in Fx, Bx; split; auto; rewrite <- XE; apply Rmult_le_compat_l; lra.
  Qed.

  Lemma x_make g : In g all -> fin (x g) /\ (1 - th0) * Rabs (val (x g)) <= 3 * Z.
  Proof.
    intros Hg. apply (backward_make (list_max (map rk all)) g Hg). intros k Hk.
    pose proof (proj1 (list_max_le (map rk all) _) (Nat.le_refl _)) as H. rewrite Forall_forall in H.
    specialize (H (rk k) (in_map _ _ _ Hk)). lia.
  Qed.
End Solve.
