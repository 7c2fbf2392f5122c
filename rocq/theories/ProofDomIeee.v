(** IEEE arithmetic does not overflow for results up to half of the range; the constants
    for doubles. *)
From Coq Require Import ZArith Reals Lra Lia Psatz.
From Flocq Require Import Core BinarySingleNaN.
From Verif Require Import ModelNumeric SpecReg SpecRound SpecDomFloat ModelIeee ProofIeee ProofRoundMain ProofAgreeIeee.
Local Open Scope R_scope.

Section Ieee.
  Variables (prec emax : Z).
  Context (Hp : Prec_gt_0 prec) (Hm : Prec_lt_emax prec emax).
  Local Notation O := (ieeeOps prec emax Hp Hm).
  Local Notation fin := (ieeeFinite prec emax).
  Local Notation val := (ieeeVal prec emax).
  Local Notation fexp := (SpecFloat.fexp prec emax).
  Local Notation rnd := (round radix2 fexp (round_mode mode_NE)).

  Lemma add_make a b : fin a -> fin b -> Rabs (rnd (val a + val b)) < bpow radix2 emax ->
    fin (oadd O a b) /\ val (oadd O a b) = rnd (val a + val b).
  Proof.
    intros Fa Fb H. change (oadd O a b) with (Bplus mode_NE a b) in *.
    pose proof (Bplus_correct prec emax Hp Hm mode_NE a b Fa Fb) as C. unfold ieeeVal in *.
    rewrite Rlt_bool_true in C by auto. unfold ieeeFinite. intuition.
  Qed.

  Lemma round_half x : Rabs x <= bpow radix2 (emax - 1) -> Rabs (rnd x) < bpow radix2 emax.
  Proof.
    intros H. unfold Prec_gt_0, Prec_lt_emax in *.
    assert (V : Valid_exp fexp) by (apply fexp_correct; auto).
    apply Rle_lt_trans with (bpow radix2 (emax - 1)); [|apply bpow_lt; lia].
    apply abs_round_le_generic; auto.
    - apply valid_rnd_round_mode.
    - apply generic_format_bpow. unfold SpecFloat.fexp, SpecFloat.emin. lia.
  Qed.

  Theorem ieee_noOverflow : noOverflow O fin val (bpow radix2 (emax - 1)).
  Proof.
    constructor.
    - intros a b Fa Fb H. apply add_make; auto. apply round_half; auto.
    - intros a b Fa Fb H. apply sub_make; auto. apply round_half; auto.
    - intros a b Fa Fb H. apply mul_make; auto. apply round_half; auto.
    - intros a b Fa Fb N H. apply div_make; auto. apply round_half; auto.
  Qed.
End Ieee.

(** ** doubles *)
Lemma n_big N : (Z.of_nat N <= 2 ^ 20)%Z -> 0 <= INR N <= 1048576.
Proof.
  intros H. split; [apply pos_INR|]. rewrite INR_IZR_INZ. apply IZR_le. exact H.
Qed.

Local Notation u := (bpow radix2 (-53)).
Local Notation eta := (bpow radix2 (2 - 1024 - 53)).
Local Notation Om := (bpow radix2 (1024 - 1)).
Local Notation amin := (bpow radix2 (-400)).
Local Notation amax := (bpow radix2 400).

Lemma gam_double_le r c : (c <= 2 * r + 1)%nat -> INR r <= 1048576 -> gam u c <= (2 * INR r + 1) * bpow radix2 (-52).
Proof.
  intros Hc Hr. pose proof (pos_INR r) as R0.
  assert (CI : INR c <= 2 * INR r + 1).
  { apply le_INR in Hc. rewrite plus_INR, mult_INR in Hc. cbn [INR] in Hc. lra. }
  pose proof (pos_INR c) as C0.
  assert (U0 : 0 < u) by apply bpow_gt_0.
  assert (U2 : bpow radix2 (-52) = 2 * u) by (change (-52)%Z with (1 + -53)%Z; rewrite bpow_plus; reflexivity).
  assert (US : u <= / 1073741824) by (change (/ 1073741824) with (bpow radix2 (-30)); apply bpow_le; lia).
  assert (CU : INR c * u <= 2097153 * u) by (apply Rmult_le_compat_r; lra).
  assert (CH : INR c * u <= 1 / 2) by lra.
  eapply Rle_trans; [apply gam_le; lra|]. rewrite U2.
  apply Rle_trans with (INR c * u * 2).
  - unfold Rdiv. apply Rmult_le_compat_l; [apply Rmult_le_pos; lra|].
    apply Rmult_le_reg_r with (1 - INR c * u); [lra|]. rewrite Rinv_l by lra. lra.
  - assert (INR c * u <= (2 * INR r + 1) * u) by (apply Rmult_le_compat_r; lra). lra.
Qed.

Ltac pows a b := let E := fresh in assert (E : bpow radix2 a <= bpow radix2 b) by (apply bpow_le; lia).

Lemma double_fits N : (Z.of_nat N <= 2 ^ 20)%Z -> domFits u eta Om (/ 2) amin amax N N.
Proof.
  intros HN. apply n_big in HN. constructor; try lra.
  - apply bpow_gt_0.
  - eapply Rle_trans; [apply Rmult_le_compat_l; [lra|apply (gam_double_le N); [lia|lra]]|].
    assert (B : bpow radix2 (-52) <= / 1099511627776) by (change (/ 1099511627776) with (bpow radix2 (-40)); apply bpow_le; lia).
    assert (P : 0 < bpow radix2 (-52)) by apply bpow_gt_0.
    assert ((2 * INR N + 1) * bpow radix2 (-52) <= 2097153 * bpow radix2 (-52)) by (apply Rmult_le_compat_r; lra). lra.
  - assert (E0 : 0 < eta) by apply bpow_gt_0.
    assert (A1 : 4 + 12 * amax <= 16 * amax).
    { assert (1 <= amax) by (change 1 with (bpow radix2 0); apply bpow_le; lia). lra. }
    assert (A0 : 0 < amax) by apply bpow_gt_0.
    apply Rle_trans with (8 * (1048576 * (eta * (1048576 * (16 * amax))))).
    + apply Rmult_le_compat_l; [lra|]. apply Rmult_le_compat; try lra; [repeat apply Rmult_le_pos; lra|].
      apply Rmult_le_compat_l; [lra|]. apply Rmult_le_compat; lra.
    + assert (E1 : eta * amax <= bpow radix2 (-100) * amin) by (rewrite <- !bpow_plus; apply bpow_le; lia).
      assert (E2 : bpow radix2 (-100) <= / 1267650600228229401496703205376) by (right; reflexivity).
      assert (E3 : bpow radix2 (-100) * amin <= / 1267650600228229401496703205376 * amin)
        by (apply Rmult_le_compat_r; auto; apply bpow_ge_0).
      assert (0 < amin) by apply bpow_gt_0. lra.
  - change 1 with (bpow radix2 0). apply bpow_le. lia.
  - assert (E : 1024 * amax <= Om).
    { change 1024 with (bpow radix2 10). rewrite <- bpow_plus. apply bpow_le. lia. }
    assert (0 < amax) by apply bpow_gt_0. lra.
  - assert (E : 1024 * amax <= amin * Om).
    { change 1024 with (bpow radix2 10). rewrite <- !bpow_plus. apply bpow_le. lia. }
    assert (0 < amax) by apply bpow_gt_0. lra.
Qed.

Lemma double_rhs_fits N S : (Z.of_nat N <= 2 ^ 20)%Z -> S <= INR N * amax -> rhsFits eta Om (/ 2) amin N S.
Proof.
  intros HN HS. apply n_big in HN.
  assert (A0 : 0 < amax) by apply bpow_gt_0. assert (E0 : 0 < eta) by apply bpow_gt_0.
  assert (EA : eta <= amax) by (apply bpow_le; lia).
  assert (S1 : S + 2 * (INR N * INR N * eta) <= 4398046511104 * amax).
  { assert (INR N * amax <= 1048576 * amax) by (apply Rmult_le_compat_r; lra).
    assert (INR N * INR N * eta <= 1099511627776 * amax).
    { apply Rmult_le_compat; try lra; [apply Rmult_le_pos; lra|].
      replace 1099511627776 with (1048576 * 1048576) by lra. apply Rmult_le_compat; lra. }
    lra. }
  constructor.
  - assert (E : 1267650600228229401496703205376 * amax <= Om).
    { change 1267650600228229401496703205376 with (bpow radix2 100). rewrite <- bpow_plus. apply bpow_le. lia. }
    lra.
  - assert (E : 1267650600228229401496703205376 * amax <= amin * Om).
    { change 1267650600228229401496703205376 with (bpow radix2 100). rewrite <- !bpow_plus. apply bpow_le. lia. }
    lra.
Qed.

Lemma double_domError N X : (Z.of_nat N <= 2 ^ 20)%Z -> (1 <= N)%nat -> 0 <= X ->
  domError u eta (/ 2) amin amax N N X <= INR N * bpow radix2 (-44) * X + bpow radix2 (-650).
Proof.
  intros HN N1 HX. apply n_big in HN. apply le_INR in N1. cbn [INR] in N1. unfold domError.
  assert (A0 : 0 < amax) by apply bpow_gt_0. assert (E0 : 0 < eta) by apply bpow_gt_0.
  assert (M0 : 0 < amin) by apply bpow_gt_0. assert (MA : amin * amax = 1) by (rewrite <- bpow_plus; reflexivity).
  assert (IM : / amin = amax) by (apply Rmult_eq_reg_l with amin; [rewrite Rinv_r by lra; auto|lra]).
  assert (A1 : 4 + 12 * amax <= 16 * amax).
  { assert (1 <= amax) by (change 1 with (bpow radix2 0); apply bpow_le; lia). lra. }
  assert (EQ : forall z, z / ((1 - / 2) * amin) = 2 * z * amax).
  { intros z. rewrite <- IM. field. lra. }
  rewrite !EQ. apply Rplus_le_compat.
  - apply Rmult_le_compat_r; auto.
    pose proof (gam_double_le N (2 * N + 1) ltac:(lia) ltac:(lra)) as G.
    assert (E1 : eta * amax * amax <= bpow radix2 (-200)) by (rewrite <- !bpow_plus; apply bpow_le; lia).
    assert (P : 0 < bpow radix2 (-52)) by apply bpow_gt_0.
    assert (E2 : bpow radix2 (-200) <= bpow radix2 (-60) * bpow radix2 (-52)) by (rewrite <- !bpow_plus; apply bpow_le; lia).
    assert (E3 : bpow radix2 (-60) * bpow radix2 (-52) <= / 1152921504606846976 * bpow radix2 (-52)).
    { apply Rmult_le_compat_r; [lra|]. right; reflexivity. }
    assert (E4 : bpow radix2 (-44) = 256 * bpow radix2 (-52)).
    { change (-44)%Z with (8 + -52)%Z. rewrite bpow_plus. reflexivity. }
    assert (T1 : (2 * INR N + 1) * bpow radix2 (-52) <= 3 * INR N * bpow radix2 (-52)) by (apply Rmult_le_compat_r; lra).
    assert (T2 : 2 * (INR N * (eta * (INR N * (4 + 12 * amax)))) * amax <= INR N * (33554432 * (eta * amax * amax))).
    { replace (2 * (INR N * (eta * (INR N * (4 + 12 * amax)))) * amax) with
        (INR N * (2 * (INR N * (4 + 12 * amax)) * (eta * amax))) by ring.
      replace (INR N * (33554432 * (eta * amax * amax))) with (INR N * (2 * (1048576 * (16 * amax)) * (eta * amax))) by ring.
      apply Rmult_le_compat_l; [lra|]. apply Rmult_le_compat_r; [apply Rmult_le_pos; lra|].
      apply Rmult_le_compat_l; [lra|]. apply Rmult_le_compat; lra. }
    assert (T3 : INR N * (33554432 * (eta * amax * amax)) <= INR N * (1 * bpow radix2 (-52))).
    { apply Rmult_le_compat_l; lra. }
    rewrite E4. lra.
  - assert (E1 : eta * amax <= bpow radix2 (-24) * bpow radix2 (-651)) by (rewrite <- !bpow_plus; apply bpow_le; lia).
    assert (E2 : eta * 1 <= eta * amax).
    { apply Rmult_le_compat_l; [lra|]. change 1 with (bpow radix2 0). apply bpow_le; lia. }
    assert (E3 : bpow radix2 (-24) * bpow radix2 (-651) = / 16777216 * bpow radix2 (-651)) by (f_equal; reflexivity).
    assert (E4 : bpow radix2 (-650) = 2 * bpow radix2 (-651)).
    { change (-650)%Z with (1 + -651)%Z. rewrite bpow_plus. reflexivity. }
    assert (T : eta * (2 * (4 * INR N) * amax + (16 * INR N + 8) / ((1 - / 2) * (1 - / 2))) <=
      8388608 * (eta * amax) + 67108896 * eta).
    { replace (eta * (2 * (4 * INR N) * amax + (16 * INR N + 8) / ((1 - / 2) * (1 - / 2)))) with
        (8 * INR N * (eta * amax) + (64 * INR N + 32) * eta) by field.
      apply Rplus_le_compat; apply Rmult_le_compat_r; try lra. }
    assert (E5 : eta <= bpow radix2 (-40) * bpow radix2 (-651)) by (rewrite <- !bpow_plus; apply bpow_le; lia).
    assert (E6 : bpow radix2 (-40) * bpow radix2 (-651) = / 1099511627776 * bpow radix2 (-651)) by (f_equal; reflexivity).
    assert (0 < bpow radix2 (-651)) by apply bpow_gt_0. lra.
Qed.
