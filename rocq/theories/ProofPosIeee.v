(** Positive definite systems in rounded arithmetic: the constants for doubles. *)
From Coq Require Import ZArith Reals Lra Lia Psatz.
From Flocq Require Import Core BinarySingleNaN.
From Verif Require Import ModelNumeric SpecReg SpecRound SpecDomFloat SpecPosFloat ModelIeee ProofIeee ProofRoundMain ProofAgreeIeee ProofDomIeee.
Local Open Scope R_scope.

Local Notation u := (bpow radix2 (-53)).
Local Notation eta := (bpow radix2 (2 - 1024 - 53)).
Local Notation Om := (bpow radix2 (1024 - 1)).
Local Notation amin := (bpow radix2 (-200)).
Local Notation amax := (bpow radix2 200).

Section Fit.
  Variables (N r : nat) (lam : R).
  Hypothesis HN : (Z.of_nat N <= 2 ^ 20)%Z.
  Hypothesis HL : (INR r + 1) * (INR r + 1) * bpow radix2 (-47) <= lam <= 1.

  Lemma r_big : 0 <= INR r <= 16777216.
  Proof.
    split; [apply pos_INR|]. pose proof (pos_INR r) as R0.
    destruct (Rle_or_lt (INR r) 16777216); auto. exfalso.
    assert (E : bpow radix2 (-47) = / 140737488355328) by reflexivity. rewrite E in HL.
    assert (281474976710656 < (INR r + 1) * (INR r + 1)) by nra. lra.
  Qed.

  Lemma lam_low : bpow radix2 (-47) <= lam.
  Proof.
    pose proof (pos_INR r) as R0. assert (0 < bpow radix2 (-47)) by apply bpow_gt_0.
    assert (1 * bpow radix2 (-47) <= (INR r + 1) * (INR r + 1) * bpow radix2 (-47)) by (apply Rmult_le_compat_r; nra). lra.
  Qed.

  Lemma gam_two c : (c <= 2 * r + 1)%nat -> gam u c <= INR c * bpow radix2 (-52).
  Proof.
    intros Hc. pose proof r_big as R0.
    assert (CI : INR c <= 2 * INR r + 1).
    { apply le_INR in Hc. rewrite plus_INR, mult_INR in Hc. cbn [INR] in Hc. lra. }
    pose proof (pos_INR c) as C0.
    assert (U0 : 0 < u) by apply bpow_gt_0.
    assert (U2 : bpow radix2 (-52) = 2 * u) by (change (-52)%Z with (1 + -53)%Z; rewrite bpow_plus; reflexivity).
    assert (US : u <= / 1073741824) by (change (/ 1073741824) with (bpow radix2 (-30)); apply bpow_le; lia).
    assert (CU : INR c * u <= 33554433 * u) by (apply Rmult_le_compat_r; lra).
    assert (CH : INR c * u <= 1 / 2) by lra.
    eapply Rle_trans; [apply gam_le; lra|]. rewrite U2.
    apply Rle_trans with (INR c * u * 2); [|lra].
    unfold Rdiv. apply Rmult_le_compat_l; [apply Rmult_le_pos; lra|].
    apply Rmult_le_reg_r with (1 - INR c * u); [lra|]. rewrite Rinv_l by lra. lra.
  Qed.

  Lemma under_small : INR N * (eta * (INR N * (4 + 12 * amax))) <= bpow radix2 (-830).
  Proof.
    apply n_big in HN.
    assert (E0 : 0 < eta) by apply bpow_gt_0.
    assert (A1 : 4 + 12 * amax <= 16 * amax).
    { assert (1 <= amax) by (change 1 with (bpow radix2 0); apply bpow_le; lia). lra. }
    assert (A0 : 0 < amax) by apply bpow_gt_0.
    apply Rle_trans with (1048576 * (eta * (1048576 * (16 * amax)))).
    - apply Rmult_le_compat; try lra; [repeat apply Rmult_le_pos; lra|].
      apply Rmult_le_compat_l; [lra|]. apply Rmult_le_compat; lra.
    - change 1048576 with (bpow radix2 20). change 16 with (bpow radix2 4). rewrite <- !bpow_plus. apply bpow_le. lia.
  Qed.

  Lemma pos_double_fits : posFits u eta Om lam amin amax N r.
  Proof.
    pose proof r_big as R0. pose proof lam_low as LL.
    assert (LA : bpow radix2 (-247) <= lam * amin).
    { change (-247)%Z with (-47 + -200)%Z. rewrite bpow_plus. apply Rmult_le_compat_r; [apply bpow_ge_0|auto]. }
    constructor.
    - eapply Rlt_le_trans; [apply bpow_gt_0|exact LL].
    - apply bpow_gt_0.
    - pose proof (gam_two (r + 1) ltac:(lia)) as G. rewrite plus_INR in G. cbn [INR] in G.
      apply Rle_trans with (16 * ((INR r + 1) * ((INR r + 1) * bpow radix2 (-52)))).
      + apply Rmult_le_compat_l; [lra|]. apply Rmult_le_compat_l; lra.
      + assert (E : bpow radix2 (-47) = 32 * bpow radix2 (-52)).
        { change (-47)%Z with (5 + -52)%Z. rewrite bpow_plus. reflexivity. }
        rewrite E in HL. assert (0 < bpow radix2 (-52)) by apply bpow_gt_0.
        assert (0 <= (INR r + 1) * (INR r + 1) * bpow radix2 (-52)) by (apply Rmult_le_pos; nra). lra.
    - pose proof under_small as US.
      assert (E : bpow radix2 4 * bpow radix2 (-830) <= bpow radix2 (-247)) by (rewrite <- bpow_plus; apply bpow_le; lia).
      change (bpow radix2 4) with 16 in E. lra.
    - change 1 with (bpow radix2 0). apply bpow_le. lia.
    - assert (E : bpow radix2 5 * amax <= Om) by (rewrite <- bpow_plus; apply bpow_le; lia).
      change (bpow radix2 5) with 32 in E. assert (0 < amax) by apply bpow_gt_0. lra.
    - assert (E : bpow radix2 5 * amax <= bpow radix2 (-247) * Om) by (rewrite <- !bpow_plus; apply bpow_le; lia).
      change (bpow radix2 5) with 32 in E. assert (0 < amax) by apply bpow_gt_0.
      assert (bpow radix2 (-247) * Om <= lam * amin * Om) by (apply Rmult_le_compat_r; [apply bpow_ge_0|auto]). lra.
  Qed.

  Lemma pos_double_rhs : posRhsFits Om lam amin amax N amax.
  Proof.
    pose proof lam_low as LL. apply n_big in HN. assert (A0 : 0 < amax) by apply bpow_gt_0. assert (O0 : 0 < Om) by apply bpow_gt_0.
    assert (LA : bpow radix2 (-247) <= lam * amin).
    { change (-247)%Z with (-47 + -200)%Z. rewrite bpow_plus. apply Rmult_le_compat_r; [apply bpow_ge_0|auto]. }
    assert (L2 : bpow radix2 (-294) <= lam * lam * amin).
    { change (-294)%Z with (-47 + -47 + -200)%Z. rewrite !bpow_plus. apply Rmult_le_compat_r; [apply bpow_ge_0|].
      apply Rmult_le_compat; auto; apply bpow_ge_0. }
    constructor.
    - apply bpow_le. lia.
    - apply Rle_trans with (64 * (1048576 * (amax * amax))).
      + apply Rmult_le_compat_l; [lra|]. apply Rmult_le_compat_r; [|lra]. apply Rmult_le_pos; lra.
      + apply Rle_trans with (bpow radix2 (-247) * Om); [|apply Rmult_le_compat_r; [lra|auto]].
        change 64 with (bpow radix2 6). change 1048576 with (bpow radix2 20). rewrite <- !bpow_plus. apply bpow_le. lia.
    - apply Rle_trans with (64 * (1048576 * amax)).
      + apply Rmult_le_compat_l; [lra|]. apply Rmult_le_compat_r; lra.
      + apply Rle_trans with (bpow radix2 (-294) * Om); [|apply Rmult_le_compat_r; [lra|auto]].
        change 64 with (bpow radix2 6). change 1048576 with (bpow radix2 20). rewrite <- !bpow_plus. apply bpow_le. lia.
  Qed.

  Lemma pos_double_error nx : 0 <= nx ->
    posError u eta lam amin amax N r nx <=
    ((INR r + 1) * (INR r + 1) * bpow radix2 (-48) * nx + bpow radix2 (-700)) / lam.
  Proof.
    intros NX. pose proof r_big as R0. pose proof lam_low as LL. pose proof (n_big N HN) as NB.
    assert (L0 : 0 < lam) by (eapply Rlt_le_trans; [apply bpow_gt_0|exact LL]).
    assert (E0 : 0 < eta) by apply bpow_gt_0. assert (A0 : 0 < amax) by apply bpow_gt_0.
    assert (A1 : 1 <= amax) by (change 1 with (bpow radix2 0); apply bpow_le; lia).
    assert (IA : / amin = amax) by (rewrite <- bpow_opp; reflexivity).
    unfold posError. apply Rmult_le_compat_r; [left; apply Rinv_0_lt_compat; auto|].
    apply Rplus_le_compat.
    - apply Rmult_le_compat_r; auto.
      pose proof (gam_two (2 * r + 1) ltac:(lia)) as G. rewrite plus_INR, mult_INR in G. cbn [INR] in G.
      assert (P : 0 < bpow radix2 (-52)) by apply bpow_gt_0.
      assert (T1 : 4 * ((INR r + 1) * gam u (2 * r + 1)) <= 8 * ((INR r + 1) * (INR r + 1) * bpow radix2 (-52))).
      { apply Rle_trans with (4 * ((INR r + 1) * ((2 * INR r + 1) * bpow radix2 (-52)))).
        - apply Rmult_le_compat_l; [lra|]. apply Rmult_le_compat_l; lra.
        - assert ((INR r + 1) * ((2 * INR r + 1) * bpow radix2 (-52)) <= (INR r + 1) * ((2 * (INR r + 1)) * bpow radix2 (-52))).
          { apply Rmult_le_compat_l; [lra|]. apply Rmult_le_compat_r; lra. }
          lra. }
      assert (T2 : INR N * (eta * (INR N * (4 + 12 * amax))) / amin <= bpow radix2 (-52)).
      { unfold Rdiv. rewrite IA. apply Rle_trans with (bpow radix2 (-830) * amax).
        - apply Rmult_le_compat_r; [lra|apply under_small].
        - rewrite <- bpow_plus. apply bpow_le. lia. }
      assert (E4 : bpow radix2 (-48) = 16 * bpow radix2 (-52)).
      { change (-48)%Z with (4 + -52)%Z. rewrite bpow_plus. reflexivity. }
      rewrite E4. assert (1 * bpow radix2 (-52) <= (INR r + 1) * (INR r + 1) * bpow radix2 (-52)) by (apply Rmult_le_compat_r; nra). lra.
    - assert (S : sqrt (INR N / amin) <= bpow radix2 110).
      { replace (bpow radix2 110) with (sqrt (bpow radix2 110 * bpow radix2 110)) by (apply sqrt_square, bpow_ge_0).
        apply sqrt_le_1_alt. unfold Rdiv. rewrite IA, <- bpow_plus. change (110 + 110)%Z with (20 + 200)%Z.
        rewrite bpow_plus. apply Rmult_le_compat_r; [lra|]. change (bpow radix2 20) with 1048576. lra. }
      assert (Q : eta * (4 * INR r + (4 * INR r + 2) * ((INR N + 1) * amax)) <= bpow radix2 (-820)).
      { apply Rle_trans with (eta * (1125899906842624 * amax)).
        - apply Rmult_le_compat_l; [lra|].
          assert (4 * INR r <= 67108864 * amax).
          { apply Rle_trans with (67108864 * 1); [lra|apply Rmult_le_compat_l; lra]. }
          assert ((4 * INR r + 2) * ((INR N + 1) * amax) <= 67108866 * (1048577 * amax)).
          { apply Rmult_le_compat; try lra; [apply Rmult_le_pos; lra|]. apply Rmult_le_compat_r; lra. }
          lra.
        - change 1125899906842624 with (bpow radix2 50). rewrite <- !bpow_plus. apply bpow_le. lia. }
      apply Rle_trans with (bpow radix2 110 * bpow radix2 (-820)).
      + apply Rmult_le_compat; auto; [apply sqrt_pos|]. apply Rmult_le_pos; [lra|].
        assert (0 <= (4 * INR r + 2) * ((INR N + 1) * amax)) by (repeat apply Rmult_le_pos; lra). lra.
      + rewrite <- bpow_plus. apply bpow_le. lia.
  Qed.
End Fit.
