(** Factorization and solution of positive definite systems in rounded arithmetic, over any
    finite index set. *)
From Coq Require Import Reals Lra Lia List Arith Bool Psatz.
From Verif Require Import ModelNumeric SpecNumeric SpecReg SpecRound SpecDomFloat SpecPosFloat.
From Verif Require Import ProofExact ProofArrowSub ProofChain ProofRound ProofRoundLdl ProofRoundMain
  ProofDomReal ProofDomFloat ProofDomSolve ProofDomMain ProofPosReal ProofPosFloat ProofPosSolve.
Import ListNotations.
Local Open Scope R_scope.
Local Notation rsum := (suml Or).

Lemma sqrt_step f g P Q : 0 <= P -> 0 <= Q -> f * g + sqrt P * sqrt Q <= sqrt (f * f + P) * sqrt (g * g + Q).
Proof.
  intros HP HQ. pose proof (Rle_0_sqr f) as Ff. pose proof (Rle_0_sqr g) as Gg. unfold Rsqr in *.
  rewrite <- (sqrt_mult (f * f + P)) by lra.
  pose proof (sqrt_sqrt P HP) as EP. pose proof (sqrt_sqrt Q HQ) as EQ.
  set (p := sqrt P) in *. set (q := sqrt Q) in *. rewrite <- EP, <- EQ.
  eapply Rle_trans; [apply Rle_abs|]. rewrite <- sqrt_Rsqr_abs. apply sqrt_le_1_alt. unfold Rsqr.
  pose proof (Rle_0_sqr (f * q - g * p)) as X. unfold Rsqr in X. lra.
Qed.

Lemma cauchy {I} (l : list I) (f g : I -> R) :
  rsum l (fun k => f k * g k) <= sqrt (rsum l (fun k => f k * f k)) * sqrt (rsum l (fun k => g k * g k)).
Proof.
  induction l as [|a l IH].
  - rewrite !rsum_nil, sqrt_0. lra.
  - rewrite !rsum_cons. eapply Rle_trans; [|apply sqrt_step]; [lra| |]; apply rsum_pos; intros; apply Rle_0_sqr.
Qed.

Section Main.
  Context {F : Type} (O : ops F) (fin : F -> Prop) (val : F -> R) (u eta Om : R).
  Context (RO : rounding O fin val u eta) (NO : noOverflow O fin val Om).
  Context {I : Type} (dec : forall a b : I, {a = b} + {a <> b}).
  Variables (all : list I) (row col : I -> list I) (rk : I -> nat).
  Variables (A' L' : I -> I -> F) (D' : I -> F).
  Hypothesis RG : rowsGood O all row A' L'.
  Hypothesis CG : colsGood all row col.
  Hypothesis CH : chained O dec all row A' L' D' (fun s _ => s).
  Hypothesis RI : forall g h, In g all -> In h all -> rk g = rk h -> g = h.
  Hypothesis RL : forall g h, In g all -> In h (row g) -> (rk h < rk g)%nat.
  Variables (lam amin amax : R) (r : nat).
  Local Notation A g h := (val (A' g h)).
  Local Notation D g := (val (D' g)).
  Local Notation n := (INR (length all)).
  Local Notation U := (unitOf dec (fun g k => val (L' g k))).
  Hypothesis FA : forall g h, In g all -> In h all -> fin (A' g h).
  Hypothesis MR : forall g, In g all -> (length (row g) <= r)%nat.
  Hypothesis MC : forall g, In g all -> (length (col g) <= r)%nat.
  Hypothesis PD : positiveBy all (fun g h => A g h) lam.
  Hypothesis RNG : forall g, In g all -> amin <= A g g <= amax.
  Hypothesis FIT : posFits u eta Om lam amin amax (length all) r.

  Lemma pos_lam1 g : In g all -> lam <= 1.
  Proof.
    intros Hg. pose proof (PD (fun i => if dec i g then 1 else 0)) as H.
    rewrite (rsum_remove dec all g) in H by (auto; apply RG).
    rewrite (rsum_remove dec all g (fun j => rsum all (fun k => A j k * (if dec j g then 1 else 0) * (if dec k g then 1 else 0)))) in H by (auto; apply RG).
    rewrite (rsum_remove dec all g (fun k => A g k * (if dec g g then 1 else 0) * (if dec k g then 1 else 0))) in H by (auto; apply RG).
    destruct (dec g g); [|congruence].
    rewrite (rsum_0 (remove dec g all) (fun j => A j j * ((if dec j g then 1 else 0) * (if dec j g then 1 else 0)))) in H.
    2:{ intros k Hk. apply in_remove in Hk. destruct (dec k g); [tauto|ring]. }
    rewrite (rsum_0 (remove dec g all) (fun k => A g k * 1 * (if dec k g then 1 else 0))) in H.
    2:{ intros k Hk. apply in_remove in Hk. destruct (dec k g); [tauto|ring]. }
    rewrite (rsum_0 (remove dec g all)) in H.
    2:{ intros k Hk. apply in_remove in Hk. destruct (dec k g); [tauto|]. apply rsum_0. intros; ring. }
    pose proof (RNG g Hg). pose proof (pf_min _ _ _ _ _ _ _ _ FIT). nra.
  Qed.

  Lemma pos_gam1 g : In g all -> gam u (2 * r + 1) <= 1.
  Proof.
    intros Hg. pose proof (pos_lam1 g Hg) as L1. destruct FIT as [F1 F2 F3 _ _ _ _]. rewrite gam_q in *.
    pose proof (qpow_ge1 O fin val u eta RO (r + 1)) as Q1. cbv zeta in Q1.
    pose proof (qpow_le O fin val u eta RO (2 * r + 1) ((r + 1) * 2) ltac:(lia)) as Q2. cbv zeta in Q2.
    rewrite (pow_mult _ (r + 1) 2) in Q2. set (w := (/ (1 - u)) ^ (r + 1)) in *. cbn [pow] in Q2.
    pose proof (pos_INR r) as R0. assert (0 <= INR r * (w - 1)) by (apply Rmult_le_pos; lra).
    assert (w * w <= (17 / 16) * (17 / 16)) by (apply Rmult_le_compat; lra). lra.
  Qed.

  Lemma pos_row g : In g all -> posRow fin val u eta dec all row rk A' L' D' lam amax r g.
  Proof.
    intros Hg. pose proof (pos_lam1 g Hg) as L1. destruct FIT as [F1 F2 F3 F4 F5 F6 F7]. rewrite (gam_S u r) in F3.
    exact (posRow_all O fin val u eta Om RO NO dec all row col rk A' L' D' RG CG CH RI RL lam amin amax r
      FA MR MC F1 L1 PD RNG F2 F3 F4 F5 F6 F7 g Hg).
  Qed.

  (** the factorization *)
  Theorem pos_factor g : In g all ->
    (forall k, In k (row g) -> fin (L' g k)) /\ fin (D' g) /\
    lam / 4 * A g g <= D g <= 2 * A g g /\ 0 < D g /\
    rsum all (fun i => U g i * U g i * Rabs (D i)) <= 2 * A g g.
  Proof.
    intros Hg. destruct (pos_row g Hg) as [pL pD _ _ pR pS]. pose proof (RNG g Hg) as RN.
    destruct FIT as [F1 F2 _ _ _ _ _]. repeat (split; auto).
    assert (0 < lam / 4 * A g g) by (apply Rmult_lt_0_compat; lra). lra.
  Qed.

  Lemma pos_pair j k : In j all -> In k all ->
    Rabs (A j k - rsum all (fun i => U j i * D i * U k i)) <=
      gam u (r + 1) * rsum all (fun i => Rabs (U j i * D i * U k i)) + eta * (n * (4 + 12 * amax)).
  Proof.
    intros Hj Hk. pose proof (pos_lam1 j Hj) as L1. pose proof FIT as [F1 F2 F3 F4 F5 F6 F7]. rewrite (gam_S u r) in *.
    exact (p_all O fin val u eta Om RO NO dec all row col rk A' L' D' RG CG CH RI RL lam amin amax r
      FA MR MC F1 L1 PD RNG F2 F3 F4 F5 F6 F7 j k Hj Hk).
  Qed.

  Section Solve.
  Variables (b y z x : I -> F) (B : R).
  Hypothesis FE : forwardEq O all row L' b y.
  Hypothesis DE : diagonalEq O all D' y z.
  Hypothesis BE : backwardEq O all L' col z x.
  Hypothesis FB : forall g, In g all -> fin (b g).
  Hypothesis BB : forall g, In g all -> Rabs (val (b g)) <= B.
  Hypothesis RF : posRhsFits Om lam amin amax (length all) B.

  Theorem pos_solve g : In g all -> fin (x g) /\ lam * amin * Rabs (val (x g)) <= 9 * (n * B).
  Proof.
    intros Hg. pose proof (pos_lam1 g Hg) as L1. pose proof FIT as [F1 F2 F3 F4 F5 F6 F7]. destruct RF as [R1 R2 R3].
    rewrite (gam_S u r) in F3.
    apply (v_x O fin val u eta Om RO NO dec all row col rk A' L' D' b y z x RG CG RI RL FE DE BE lam amin amax B r
      MR MC F1 L1 PD RNG F2 F3 F4); auto.
    - intros g' h Hg' Hh. apply (pos_factor g' Hg'); auto.
    - intros g' Hg'. apply (pos_factor g' Hg').
    - intros g' Hg'. destruct (pos_factor g' Hg') as (_ & _ & [P1 P2] & _). pose proof (RNG g' Hg').
      assert (lam / 4 * amin <= lam / 4 * A g' g') by (apply Rmult_le_compat_l; lra). lra.
    - intros j k Hj Hk. pose proof (pos_pair j k Hj Hk) as P. rewrite (gam_S u r) in P. exact P.
    - intros j Hj. apply (pos_factor j Hj).
  Qed.

  (** the distance to the exact solution *)
  Local Notation nrm v := (diagNorm all (fun g h => A g h) v).
  Lemma nrm_pos v : 0 <= nrm v.
  Proof. apply sqrt_pos. Qed.
  Lemma W_pos v : 0 <= rsum all (fun j => A j j * (v j * v j)).
  Proof.
    apply rsum_pos. intros j Hj. pose proof (RNG j Hj). destruct FIT as [_ F2 _ _ _ _ _].
    apply Rmult_le_pos; [lra|apply Rle_0_sqr].
  Qed.
  Lemma nrm_sq v : nrm v * nrm v = rsum all (fun j => A j j * (v j * v j)).
  Proof. apply sqrt_sqrt, W_pos. Qed.

  Lemma sum_nrm v : rsum all (fun j => Rabs (v j)) <= sqrt (n / amin) * nrm v.
  Proof.
    destruct FIT as [_ F2 _ _ _ _ _].
    assert (IA : 0 < / amin) by (apply Rinv_0_lt_compat; auto).
    pose proof (cauchy all (fun _ => sqrt (/ amin)) (fun j => sqrt (A j j) * Rabs (v j))) as C. cbv beta in C.
    rewrite rsum_const, sqrt_sqrt in C by lra.
    eapply Rle_trans; [|eapply Rle_trans; [exact C|]].
    - apply rsum_le. intros j Hj. pose proof (RNG j Hj). rewrite <- Rmult_assoc, <- sqrt_mult by lra.
      assert (1 <= sqrt (/ amin * A j j)).
      { rewrite <- sqrt_1 at 1. apply sqrt_le_1_alt. apply Rmult_le_reg_l with amin; auto.
        rewrite <- Rmult_assoc, Rinv_r by lra. lra. }
      pose proof (Rabs_pos (v j)). nra.
    - right. unfold diagNorm. f_equal. f_equal. apply rsum_ext. intros j Hj. pose proof (RNG j Hj).
      replace (sqrt (A j j) * Rabs (v j) * (sqrt (A j j) * Rabs (v j)))
        with (sqrt (A j j) * sqrt (A j j) * (Rabs (v j) * Rabs (v j))) by ring.
      rewrite sqrt_sqrt by lra. rewrite sqr_abs. auto.
  Qed.

  Lemma Z_nrm v : sqrt (rsum all (fun i => D i * (Zi all U v i * Zi all U v i))) <= sqrt (2 * (INR r + 1)) * nrm v.
  Proof.
    pose proof (pos_INR r) as R0. unfold diagNorm. rewrite <- sqrt_mult; [|lra|apply W_pos].
    apply sqrt_le_1_alt.
    pose proof (Z_sum dec all U (fun g h => A g h) (fun i => D i) v (fun _ => true) (S r) (rg_all _ _ _ _ _ RG)) as Z.
    rewrite S_INR in Z. eapply Rle_trans; [|apply Z].
    - apply rsum_le. intros i Hi. apply Rmult_le_compat_r; [apply Rle_0_sqr|apply Rle_abs].
    - discriminate.
    - intros j Hj _. apply (pos_factor j Hj).
    - intros i Hi. apply (p_supp O fin val u eta RO dec all row col rk A' L' RG CG RI r MC i Hi).
  Qed.

  Lemma prod_sum (v w : I -> R) :
    rsum all (fun g => Rabs (v g) * rsum all (fun h => absProdAt all U (fun i => D i) g h * Rabs (w h))) <=
    2 * (INR r + 1) * (nrm v * nrm w).
  Proof.
    pose proof (pos_INR r) as R0.
    assert (E : rsum all (fun g => Rabs (v g) * rsum all (fun h => absProdAt all U (fun i => D i) g h * Rabs (w h))) =
      rsum all (fun i => D i * (Zi all U v i * Zi all U w i))).
    { rewrite (rsum_ext all _ (fun g => rsum all (fun i => Rabs (U g i * v g) * (D i * Zi all U w i)))).
      - rewrite rsum_swap. apply rsum_ext. intros i Hi.
        rewrite (rsum_ext all _ (fun g => (D i * Zi all U w i) * Rabs (U g i * v g))) by (intros; ring).
        rewrite rsum_scal. unfold Zi. ring.
      - intros g Hg. rewrite <- rsum_scal.
        rewrite (rsum_ext all _ (fun h => rsum all (fun i => Rabs (U g i * v g) * D i * Rabs (U h i * w h)))).
        + rewrite rsum_swap. apply rsum_ext. intros i Hi. rewrite rsum_scal. unfold Zi. ring.
        + intros h Hh. unfold absProdAt.
          rewrite Rmult_comm, Rmult_assoc, Rmult_comm, <- rsum_scal. apply rsum_ext. intros i Hi.
          destruct (pos_factor i Hi) as (_ & _ & _ & DP & _). rewrite !Rabs_mult, (Rabs_right (D i)) by lra. ring. }
    rewrite E.
    rewrite (rsum_ext all _ (fun i => (sqrt (D i) * Zi all U v i) * (sqrt (D i) * Zi all U w i))).
    2:{ intros i Hi. destruct (pos_factor i Hi) as (_ & _ & _ & DP & _).
        replace (sqrt (D i) * Zi all U v i * (sqrt (D i) * Zi all U w i)) with (sqrt (D i) * sqrt (D i) * (Zi all U v i * Zi all U w i)) by ring.
        rewrite sqrt_sqrt by lra. auto. }
    eapply Rle_trans; [apply cauchy|].
    assert (EV : forall v, rsum all (fun i => sqrt (D i) * Zi all U v i * (sqrt (D i) * Zi all U v i)) =
      rsum all (fun i => D i * (Zi all U v i * Zi all U v i))).
    { intros t. apply rsum_ext. intros i Hi. destruct (pos_factor i Hi) as (_ & _ & _ & DP & _).
      replace (sqrt (D i) * Zi all U t i * (sqrt (D i) * Zi all U t i)) with (sqrt (D i) * sqrt (D i) * (Zi all U t i * Zi all U t i)) by ring.
      rewrite sqrt_sqrt by lra. auto. }
    cbv beta. rewrite !EV. eapply Rle_trans; [apply Rmult_le_compat; [apply sqrt_pos|apply sqrt_pos|apply Z_nrm|apply Z_nrm]|].
    right. rewrite <- (sqrt_sqrt (2 * (INR r + 1))) at 3 by lra. ring.
  Qed.

  Lemma UD_bound g : In g all -> rsum all (fun k => Rabs (D k) * Rabs (U g k)) <= (n + 1) * amax.
  Proof.
    intros Hg. destruct (pos_factor g Hg) as (_ & _ & _ & _ & PS). pose proof (RNG g Hg) as RN.
    assert (H : 2 * rsum all (fun k => Rabs (D k) * Rabs (U g k)) <=
      rsum all (fun i => U g i * U g i * Rabs (D i)) + rsum all (fun _ => 2 * amax)).
    { rewrite <- rsum_scal, <- rsum_plus. apply rsum_le. intros k Hk.
      destruct (pos_factor k Hk) as (_ & _ & P2 & P3 & _). pose proof (RNG k Hk).
      rewrite (Rabs_right (D k)) by lra.
      pose proof (Rle_0_sqr (Rabs (U g k) - 1)) as Q. unfold Rsqr in Q. rewrite <- (sqr_abs (U g k)).
      assert (D k * (2 * Rabs (U g k)) <= D k * (Rabs (U g k) * Rabs (U g k) + 1)) by (apply Rmult_le_compat_l; lra).
      lra. }
    rewrite rsum_const in H. lra.
  Qed.

  Theorem pos_error (xs : I -> R) :
    (forall g, In g all -> rsum all (fun h => A g h * xs h) = val (b g)) ->
    nrm (fun g => val (x g) - xs g) <= posError u eta lam amin amax (length all) r (nrm (fun g => val (x g))).
  Proof.
    intros SOL. destruct (list_eq_dec dec all []) as [E0|NE].
    { destruct FIT as [F1 F2 F3 F4 F5 F6 F7]. unfold posError, diagNorm. rewrite E0. rewrite !rsum_nil, sqrt_0.
      cbn [length INR]. unfold Rdiv. rewrite !Rmult_0_l, sqrt_0. lra. }
    assert (exists g0, In g0 all) as (g0 & Hg0) by (destruct all as [|g0 l]; [congruence|exists g0; left; auto]). clear NE.
    pose proof (pos_lam1 g0 Hg0) as L1. pose proof (pos_gam1 g0 Hg0) as G1.
    pose proof FIT as [F1 F2 F3 F4 F5 F6 F7].
    assert (FD : forall g, In g all -> fin (D' g)) by (intros g Hg; apply (pos_factor g Hg)).
    pose proof (eta_pos O fin val u eta RO) as E0.
    pose proof (pos_INR (length all)) as N0. pose proof (pos_INR r) as R0.
    assert (AX : 0 < amax) by (pose proof (RNG g0 Hg0); lra).
    set (gm := gam u (2 * r + 1)) in *.
    assert (GE : forall c, (c <= 2 * r + 1)%nat -> 0 <= gam u c <= gm).
    { intros c Hc. unfold gm. rewrite !gam_q.
      pose proof (qpow_ge1 O fin val u eta RO c). pose proof (qpow_le O fin val u eta RO c _ Hc). cbv zeta in *. lra. }
    assert (G0 : 0 <= gm) by (destruct (GE 0%nat ltac:(lia)); lra).
    set (V := fun k => D k).
    assert (UN : forall g h, In g all -> In h all -> 0 <= underAt all U V g h <= n * (2 + 6 * amax)).
    { intros g h Hg Hh. unfold underAt. split.
      - apply rsum_pos. intros k _. pose proof (Rabs_pos (V k)). pose proof (Rabs_pos (U g k)). pose proof (Rabs_pos (U h k)).
        assert (0 <= Rabs (V k) * (1 + Rabs (U g k) + Rabs (U h k))) by (apply Rmult_le_pos; lra). lra.
      - rewrite (rsum_ext all _ (fun k => (2 + Rabs (D k)) + (Rabs (D k) * Rabs (U g k) + Rabs (D k) * Rabs (U h k)))) by (intros; unfold V; ring).
        rewrite !rsum_plus. pose proof (UD_bound g Hg). pose proof (UD_bound h Hh).
        rewrite rsum_const. assert (rsum all (fun k => Rabs (D k)) <= n * (2 * amax)).
        { rewrite <- rsum_const. apply rsum_le. intros k Hk. destruct (pos_factor k Hk) as (_ & _ & P2 & P3 & _).
          pose proof (RNG k Hk). rewrite Rabs_right by lra. lra. }
        assert (1 <= n). { destruct all as [|h0 l]; [destruct Hg|]. cbn [length]. rewrite S_INR. pose proof (pos_INR (length l)). lra. }
        assert (1 * amax <= n * amax) by (apply Rmult_le_compat_r; lra). lra. }
    destruct (total_bound O fin val u eta RO dec all row A' L' D' (fun s _ => s) FD col b y z x r RG CG FE DE BE MC
      (fun g Hg => proj1 (pos_solve g Hg)) CH) as (P & HP & TB).
    set (X := fun g => val (x g)). set (e := fun g => X g - xs g).
    set (SX := rsum all (fun h => Rabs (X h))).
    assert (SX0 : 0 <= SX) by (apply rsum_pos; intros; apply Rabs_pos).
    set (K1 := eta * (n * (4 + 12 * amax))). set (K2 := eta * (4 * INR r + (4 * INR r + 2) * ((n + 1) * amax))).
    assert (K10 : 0 <= K1) by (unfold K1; repeat apply Rmult_le_pos; lra).
    assert (K20 : 0 <= K2).
    { unfold K2. apply Rmult_le_pos; auto. assert (0 <= (4 * INR r + 2) * ((n + 1) * amax)) by (repeat apply Rmult_le_pos; lra). lra. }
    assert (RES : forall g, In g all -> Rabs (val (b g) - rsum all (fun h => A g h * X h)) <=
      2 * gm * rsum all (fun h => absProdAt all U V g h * Rabs (X h)) + (K1 * SX + K2)).
    { intros g Hg. specialize (HP g Hg). specialize (TB g Hg). cbv beta in HP. rewrite <- HP in TB.
      specialize (TB (FD g Hg)).
      replace (val (D' g) - val (D' g)) with 0 in TB by ring.
      rewrite Rabs_R0, Rmult_0_r, !Rmult_0_l, Rminus_0_r, Rplus_0_r in TB.
      fold V in TB. eapply Rle_trans; [exact TB|]. clear TB.
      set (cr := length (row g)). assert (Hcr : (cr <= r)%nat) by (apply MR; auto).
      assert (HcrR : INR cr <= INR r) by (apply le_INR; auto). pose proof (pos_INR cr) as C0.
      destruct (GE (cr + r + 1)%nat ltac:(lia)) as [Ga1 Ga2]. destruct (GE (cr + 1)%nat ltac:(lia)) as [Gb1 Gb2].
      set (S := rsum all (fun h => absProdAt all U V g h * Rabs (X h))).
      assert (AP0 : forall h, 0 <= absProdAt all U V g h) by (intros; unfold absProdAt; apply rsum_pos; intros; apply Rabs_pos).
      assert (S0 : 0 <= S).
      { apply rsum_pos. intros h _. apply Rmult_le_pos; [auto|apply Rabs_pos]. }
      assert (SBd : solveBound all U V u eta cr r X g <= gm * S + K2).
      { unfold solveBound. fold S. apply Rplus_le_compat; [apply Rmult_le_compat_r; auto|].
        assert (Q0 : 0 <= rsum all (fun k => Rabs (U g k * V k))) by (apply rsum_pos; intros; apply Rabs_pos).
        assert (Q : rsum all (fun k => Rabs (U g k * V k)) <= (n + 1) * amax).
        { eapply Rle_trans; [|apply (UD_bound g Hg)]. right. apply rsum_ext. intros k _. rewrite Rabs_mult. unfold V. ring. }
        apply Rle_trans with (eta * (2 * INR r + (2 * INR r + 1) * ((n + 1) * amax)) * 2); [|right; unfold K2; ring].
        assert (0 <= (2 * INR r + 1) * rsum all (fun k => Rabs (U g k * V k))) by (apply Rmult_le_pos; lra).
        apply Rmult_le_compat; try lra.
        - apply Rmult_le_pos; lra.
        - apply Rmult_le_compat_l; auto. apply Rplus_le_compat; [lra|]. apply Rmult_le_compat_l; lra. }
      assert (FBd : rsum all (fun h => factorBound all U V u eta cr g h * Rabs (X h)) <= gm * S + K1 * SX).
      { unfold S, SX. rewrite <- !rsum_scal, <- rsum_plus. apply rsum_le. intros h Hh. unfold factorBound.
        pose proof (UN g h Hg Hh) as [Q0 Q1]. pose proof (Rabs_pos (X h)) as PX.
        assert (T1 : gam u (cr + 1) * absProdAt all U V g h <= gm * absProdAt all U V g h) by (apply Rmult_le_compat_r; auto).
        assert (T2 : eta * underAt all U V g h * (1 + gam u (cr + 1)) <= K1).
        { apply Rle_trans with (eta * (n * (2 + 6 * amax)) * 2); [|right; unfold K1; ring].
          apply Rmult_le_compat; try lra; [apply Rmult_le_pos; auto|]. apply Rmult_le_compat_l; auto. }
        rewrite <- Rmult_assoc, <- Rmult_plus_distr_r. apply Rmult_le_compat_r; auto. lra. }
      eapply Rle_trans; [apply Rplus_le_compat; [exact SBd|exact FBd]|]. lra. }
    (* the quadratic form of the error *)
    set (ne := nrm e). set (nx := nrm X). pose proof (nrm_pos e) as NE0. pose proof (nrm_pos X) as NX0. fold ne in NE0. fold nx in NX0.
    assert (QF : lam * (ne * ne) <= 4 * ((INR r + 1) * gm) * (ne * nx) + (K1 * SX + K2) * rsum all (fun g => Rabs (e g))).
    { assert (EN : ne * ne = rsum all (fun j => A j j * (e j * e j))) by apply (nrm_sq e). rewrite EN. eapply Rle_trans; [apply (PD e)|].
      apply Rle_trans with (rsum all (fun g => Rabs (e g) * (2 * gm * rsum all (fun h => absProdAt all U V g h * Rabs (X h)) + (K1 * SX + K2)))).
      - apply rsum_le. intros g Hg.
        rewrite (rsum_ext all _ (fun k => e g * (A g k * e k))) by (intros; ring). rewrite rsum_scal.
        eapply Rle_trans; [apply Rle_abs|]. rewrite Rabs_mult. apply Rmult_le_compat_l; [apply Rabs_pos|].
        eapply Rle_trans; [|apply (RES g Hg)]. right. rewrite <- Rabs_Ropp. f_equal.
        assert (EE : rsum all (fun k => A g k * e k) = rsum all (fun h => A g h * X h) - rsum all (fun h => A g h * xs h)).
        { rewrite <- rsum_minus. apply rsum_ext. intros h Hh. unfold e. ring. }
        rewrite EE, (SOL g Hg). ring.
      - rewrite (rsum_ext all _ (fun g => 2 * gm * (Rabs (e g) * rsum all (fun h => absProdAt all U V g h * Rabs (X h))) + (K1 * SX + K2) * Rabs (e g)))
          by (intros; ring).
        rewrite rsum_plus, !rsum_scal. apply Rplus_le_compat_r.
        apply Rle_trans with (2 * gm * (2 * (INR r + 1) * (ne * nx))); [|right; ring].
        apply Rmult_le_compat_l; [lra|]. apply (prod_sum e X). }
    pose proof (sum_nrm e) as SE. fold ne in SE. pose proof (sum_nrm X) as SXn. fold SX nx in SXn.
    set (sq := sqrt (n / amin)) in *.
    assert (SQ : sq * sq = n / amin).
    { apply sqrt_sqrt. apply Rmult_le_pos; auto. left. apply Rinv_0_lt_compat; auto. }
    assert (SQ0 : 0 <= sq) by apply sqrt_pos.
    assert (QF2 : lam * (ne * ne) <= ne * (4 * ((INR r + 1) * gm) * nx + sq * (K1 * (sq * nx) + K2))).
    { eapply Rle_trans; [exact QF|].
      assert ((K1 * SX + K2) * rsum all (fun g => Rabs (e g)) <= (K1 * (sq * nx) + K2) * (sq * ne)).
      { apply Rmult_le_compat; auto.
        - assert (0 <= K1 * SX) by (apply Rmult_le_pos; auto). lra.
        - apply rsum_pos; intros; apply Rabs_pos.
        - apply Rplus_le_compat_r, Rmult_le_compat_l; auto. }
      lra. }
    assert (TOT : lam * ne <= 4 * ((INR r + 1) * gm) * nx + sq * (K1 * (sq * nx) + K2)).
    { destruct (Req_dec ne 0) as [Z|NZ].
      - rewrite Z, Rmult_0_r. assert (0 <= 4 * ((INR r + 1) * gm) * nx) by (repeat apply Rmult_le_pos; lra).
        assert (0 <= K1 * (sq * nx)) by (apply Rmult_le_pos; [auto|apply Rmult_le_pos; auto]).
        assert (0 <= sq * (K1 * (sq * nx) + K2)) by (apply Rmult_le_pos; lra). lra.
      - apply Rmult_le_reg_l with ne; lra. }
    unfold posError. fold gm. apply Rmult_le_reg_l with lam; auto.
    replace (lam * (((4 * ((INR r + 1) * gm) + n * (eta * (n * (4 + 12 * amax))) / amin) * nrm (fun g => val (x g)) +
      sqrt (n / amin) * (eta * (4 * INR r + (4 * INR r + 2) * ((n + 1) * amax)))) / lam))
      with ((4 * ((INR r + 1) * gm) + n * (eta * (n * (4 + 12 * amax))) / amin) * nrm (fun g => val (x g)) +
      sqrt (n / amin) * (eta * (4 * INR r + (4 * INR r + 2) * ((n + 1) * amax)))) by (field; lra).
    change (nrm (fun g => val (x g))) with nx. change (nrm (fun g => val (x g) - xs g)) with ne. fold sq. fold K1. fold K2.
    eapply Rle_trans; [exact TOT|].
    replace (sq * (K1 * (sq * nx) + K2)) with (sq * sq * K1 * nx + sq * K2) by ring. rewrite SQ. right. field. lra.
  Qed.
  End Solve.
End Main.
