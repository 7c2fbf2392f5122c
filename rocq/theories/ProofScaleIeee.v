(** Arithmetics in which scaling by powers of two commutes with rounding. *)
From Coq Require Import ZArith Reals Lra Lia Bool.
From Flocq Require Import Core BinarySingleNaN Plus_error.
From Verif Require Import ModelNumeric ModelReg SpecNumeric SpecReg SpecAgree SpecScale SpecUnderflow ModelIeee
  ProofIeee ProofAgreeIeee.
Local Open Scope R_scope.

(** ** exact arithmetic *)
Section Field.
  Context {F : Type} (O : ops F) (FL : fieldLaws O).
  Add Ring FrScaleF : (fl_ring FL).
  Lemma field_scale : scaleRules O (fun k => k <> o0 O) O O (fun _ => True) (fun _ => True) (fun x => x <> o0 O)
    (fun k a b => b = omul O k a).
  Proof.
    assert (CN : forall a b c, c <> o0 O -> omul O a c = omul O b c -> a = b).
    { intros a b c N E. pose proof (fl_div FL (fl_one FL) c N) as I1.
      transitivity (omul O (omul O a c) (odiv O (fl_one FL) c)).
      - transitivity (omul O a (omul O (odiv O (fl_one FL) c) c)); [rewrite I1|]; ring.
      - rewrite E. transitivity (omul O b (omul O (odiv O (fl_one FL) c) c)); [|rewrite I1]; ring. }
    assert (MN : forall a b, a <> o0 O -> b <> o0 O -> omul O a b <> o0 O).
    { intros a b Na Nb E. apply Na. apply (CN a (o0 O) b Nb). rewrite E. ring. }
    constructor; auto.
    - intros k d Nk Nd E. apply Nk. rewrite <- (fl_div FL k d Nd), E. ring.
    - intros k _. ring.
    - intros k a a' b b' _ -> -> _ _. ring.
    - intros k d a a' b b' _ _ -> -> _ _. ring.
    - intros k d a a' b b' Nk Nd -> -> Nb _ _.
      apply (CN _ _ (omul O d b)); auto. rewrite (fl_div FL) by auto.
      transitivity (omul O (omul O (odiv O k d) d) (omul O (odiv O a b) b)); [|ring].
      rewrite !(fl_div FL) by auto. auto.
  Qed.
End Field.

(** ** unbounded exponents *)
Lemma pow2_nz k : pow2 k -> k <> 0.
Proof. intros [e E] ->. rewrite Rabs_R0 in E. pose proof (bpow_gt_0 radix2 e). lra. Qed.
Lemma pow2_mul k d : pow2 k -> pow2 d -> pow2 (k * d).
Proof. intros [e E] [f E']. exists (e + f)%Z. rewrite Rabs_mult, bpow_plus. congruence. Qed.
Lemma pow2_div k d : pow2 k -> pow2 d -> pow2 (k / d).
Proof.
  intros Hk Hd. pose proof (pow2_nz d Hd) as N. destruct Hk as [e E], Hd as [f E']. exists (e - f)%Z.
  unfold Rdiv. rewrite Rabs_mult, Rabs_inv, E, E'. unfold Zminus. rewrite bpow_plus, bpow_opp. auto.
Qed.
Lemma pow2_1 : pow2 1.
Proof. exists 0%Z. rewrite Rabs_R1. reflexivity. Qed.

Section Flx.
  Context (prec : Z) (Hp : Prec_gt_0 prec).
  Local Notation rndx := (flxRound prec).

  Lemma flx_bpow x e : rndx (x * bpow radix2 e) = rndx x * bpow radix2 e.
  Proof.
    destruct (Req_dec x 0) as [->|N].
    { unfold flxRound. rewrite Rmult_0_l, round_0 by typeclasses eauto. ring. }
    unfold flxRound, round, scaled_mantissa, cexp, F2R, FLX_exp; cbn [Fnum Fexp].
    rewrite mag_mult_bpow by auto.
    replace (x * bpow radix2 e * bpow radix2 (- (mag radix2 x + e - prec)))
      with (x * bpow radix2 (- (mag radix2 x - prec))).
    - rewrite Rmult_assoc. f_equal. rewrite <- bpow_plus. f_equal. lia.
    - rewrite Rmult_assoc. f_equal. rewrite <- bpow_plus. f_equal. lia.
  Qed.
  Lemma flx_opp x : rndx (- x) = - rndx x.
  Proof. apply round_NE_opp. Qed.
  Lemma flx_pow2 k x : pow2 k -> rndx (k * x) = k * rndx x.
  Proof.
    intros [e E]. destruct (Rcase_abs k) as [Lt|Ge].
    - rewrite Rabs_left in E by auto. replace k with (- bpow radix2 e) by lra.
      replace (- bpow radix2 e * x) with (- (x * bpow radix2 e)) by ring. rewrite flx_opp, flx_bpow. ring.
    - rewrite Rabs_right in E by auto. subst k. rewrite Rmult_comm, flx_bpow. ring.
  Qed.
  Lemma flx_0 : rndx 0 = 0.
  Proof. apply round_0. typeclasses eauto. Qed.

  Theorem flx_scale : scaleRules Or pow2 (flxOps prec) (flxOps prec) (fun _ => True) (fun _ => True) (fun x => x <> 0)
    (fun k a b => b = k * a).
  Proof.
    constructor; auto; cbn [o0 osub omul odiv Or flxOps].
    - apply pow2_nz.
    - apply pow2_mul.
    - apply pow2_div.
    - intros k _. ring.
    - intros k a a' b b' K -> -> _ _. rewrite <- flx_pow2 by auto. f_equal. ring.
    - intros k d a a' b b' K D -> -> _ _. rewrite <- flx_pow2 by (apply pow2_mul; auto). f_equal. ring.
    - intros k d a a' b b' K D -> -> N _ _. rewrite <- flx_pow2 by (apply pow2_div; auto). f_equal.
      apply pow2_nz in D. field. auto.
  Qed.
End Flx.

(** ** IEEE arithmetic *)
Section Ieee.
  Variables (prec emax : Z).
  Context (Hp : Prec_gt_0 prec) (Hm : Prec_lt_emax prec emax).
  Local Notation O := (ieeeOps prec emax Hp Hm).
  Local Notation T := (trapOps prec emax Hp Hm).
  Local Notation fin := (ieeeFinite prec emax).
  Local Notation val := (ieeeVal prec emax).
  Local Notation rnd := (round radix2 (SpecFloat.fexp prec emax) (round_mode mode_NE)).
  Local Notation rndx := (flxRound prec).

  Lemma fexp_FLT : SpecFloat.fexp prec emax = FLT_exp (3 - emax - prec) prec.
  Proof. reflexivity. Qed.

  Lemma prec_pos : (0 < prec)%Z. Proof. exact Hp. Qed.
  Lemma prec_max : (prec < emax)%Z. Proof. exact Hm. Qed.

  Lemma rnd_large v : bpow radix2 (2 - emax) <= Rabs v -> rnd v = rndx v.
  Proof.
    intros H. apply round_FLT_FLX. unfold SpecFloat.emin.
    replace (3 - emax - prec + prec - 1)%Z with (2 - emax)%Z by lia. exact H.
  Qed.
  Lemma rnd_above v : bpow radix2 (2 - emax) < Rabs (rnd v) -> rnd v = rndx v.
  Proof.
    intros H. apply rnd_large. apply Rnot_lt_le. intros Lt. apply (Rlt_irrefl (bpow radix2 (2 - emax))).
    eapply Rlt_le_trans; [exact H|]. apply abs_round_le_generic.
    - apply fexp_correct; auto.
    - apply valid_rnd_round_mode.
    - rewrite fexp_FLT. apply generic_format_FLT_bpow; auto. pose proof prec_pos. lia.
    - lra.
  Qed.

  Lemma rnd_sub (a b : ieee prec emax) : rnd (val a - val b) = rndx (val a - val b).
  Proof.
    destruct (Rle_or_lt (bpow radix2 (2 - emax)) (Rabs (val a - val b))) as [H|H]; [apply rnd_large; auto|].
    assert (FM : generic_format radix2 (SpecFloat.fexp prec emax) (val a - val b)).
    { rewrite fexp_FLT. unfold Rminus. apply FLT_format_plus_small; auto.
      - apply (generic_format_B2R prec emax).
      - apply generic_format_opp. apply (generic_format_B2R prec emax).
      - unfold Rminus in H. apply Rlt_le. eapply Rlt_le_trans; [exact H|]. apply bpow_le. lia. }
    rewrite round_generic by (auto; apply valid_rnd_round_mode).
    unfold flxRound. rewrite round_generic; auto.
    - typeclasses eauto.
    - rewrite fexp_FLT in FM. apply generic_format_FLX_FLT with (1 := FM).
  Qed.

  Lemma minNormal_ok : fin (minNormal prec emax) /\ val (minNormal prec emax) = bpow radix2 (2 - emax).
  Proof.
    unfold minNormal.
    pose proof (binary_normalize_correct prec emax Hp Hm mode_NE 1 (2 - emax) false) as C.
    assert (E : F2R (Float radix2 1 (2 - emax)) = bpow radix2 (2 - emax)).
    { unfold F2R. cbn [Fnum Fexp]. rewrite Rmult_1_l. auto. }
    rewrite E in C.
    assert (RE : rnd (bpow radix2 (2 - emax)) = bpow radix2 (2 - emax)).
    { apply round_generic; [apply valid_rnd_round_mode|]. rewrite fexp_FLT. apply generic_format_FLT_bpow; auto.
      pose proof prec_pos. lia. }
    cbv zeta in C. rewrite RE in C. rewrite Rlt_bool_true in C.
    - unfold ieeeFinite, ieeeVal. tauto.
    - rewrite Rabs_pos_eq by apply bpow_ge_0. apply bpow_lt. pose proof prec_pos. pose proof prec_max. lia.
  Qed.

  Lemma isZero_val (x : ieee prec emax) : fin x -> Beqb x (B754_zero false) = true <-> val x = 0.
  Proof.
    intros F. rewrite Beqb_correct by auto. cbn [B2R].
    change (B2R (B754_zero false : binary_float prec emax)) with 0.
    destruct (Req_bool_spec (B2R x) 0) as [E|E]; split; auto; try discriminate; contradiction.
  Qed.

  Lemma tiny_val (r : ieee prec emax) : fin r ->
    Bleb (Babs r) (minNormal prec emax) = false -> bpow radix2 (2 - emax) < Rabs (val r).
  Proof.
    intros F H. destruct minNormal_ok as [M1 M2]. rewrite Bleb_correct in H; auto.
    - rewrite B2R_Babs in H. unfold ieeeVal in M2. rewrite M2 in H.
      destruct (Rle_bool_spec (Rabs (B2R r)) (bpow radix2 (2 - emax))); [discriminate|]. auto.
    - rewrite is_finite_Babs. auto.
  Qed.

  Lemma trap_mul_spec a b : fin (omul T a b) ->
    omul T a b = omul O a b /\ val (omul O a b) = rndx (val a * val b).
  Proof.
    cbn [omul trapOps ieeeOps]. set (r := Bmult mode_NE a b).
    destruct (negb (Beqb a (B754_zero false)) && negb (Beqb b (B754_zero false)) && Bleb (Babs r) (minNormal prec emax)) eqn:E.
    { discriminate. }
    intros H. split; auto. destruct (mul_spec prec emax Hp Hm a b H) as (Fa & Fb & _ & V).
    cbn [omul ieeeOps] in V. fold r in V. rewrite V.
    apply andb_false_iff in E. destruct E as [E|E].
    - assert (Z : val a = 0 \/ val b = 0).
      { apply andb_false_iff in E. rewrite !negb_false_iff, !isZero_val in E by auto. auto. }
      assert (Z' : val a * val b = 0) by (destruct Z as [->| ->]; ring).
      rewrite Z'. rewrite flx_0. apply rnd0.
    - apply rnd_above. rewrite <- V. apply tiny_val; auto.
  Qed.

  Lemma trap_div_spec a b : val b <> 0 -> fin (odiv T a b) ->
    odiv T a b = odiv O a b /\ val (odiv O a b) = rndx (val a / val b).
  Proof.
    intros N. cbn [odiv trapOps ieeeOps]. set (r := Bdiv mode_NE a b).
    destruct (negb (Beqb a (B754_zero false)) && Bleb (Babs r) (minNormal prec emax)) eqn:E.
    { discriminate. }
    intros H. split; auto. destruct (div_spec prec emax Hp Hm a b N H) as (Fa & _ & V).
    cbn [odiv ieeeOps] in V. fold r in V. rewrite V.
    apply andb_false_iff in E. destruct E as [E|E].
    - apply negb_false_iff in E. apply isZero_val in E; auto. rewrite E. unfold Rdiv. rewrite Rmult_0_l.
      rewrite flx_0. apply rnd0.
    - apply rnd_above. rewrite <- V. apply tiny_val; auto.
  Qed.

  Lemma trap_mul_fin a b : fin (omul T a b) -> fin (omul O a b).
  Proof. intros H. destruct (trap_mul_spec a b H) as [E _]. rewrite <- E. auto. Qed.
  Lemma trap_div_fin a b : fin (odiv T a b) -> fin (odiv O a b).
  Proof.
    cbn [odiv trapOps ieeeOps]. destruct (negb _ && _); [discriminate|auto].
  Qed.

  Lemma sub_trap a b : osub T a b = osub O a b.
  Proof. reflexivity. Qed.

  Definition ieeeScaled (k : R) (a b : ieee prec emax) : Prop := fin a /\ fin b /\ val b = k * val a.

  Theorem trap_scale : scaleRules Or pow2 T T fin fin (fun x => val x <> 0) ieeeScaled.
  Proof.
    constructor; cbn [o0 omul odiv Or].
    - apply pow2_nz.
    - apply pow2_mul.
    - apply pow2_div.
    - intros k _. split; [reflexivity|]. split; [reflexivity|]. cbn. ring.
    - intros a b. rewrite sub_trap. intros H. destruct (sub_spec prec emax Hp Hm a b H) as (A & B & _); auto.
    - intros a b. rewrite sub_trap. intros H. destruct (sub_spec prec emax Hp Hm a b H) as (A & B & _); auto.
    - intros a b H. apply trap_mul_fin in H. destruct (mul_spec prec emax Hp Hm a b H) as (A & B & _); auto.
    - intros a b H. apply trap_mul_fin in H. destruct (mul_spec prec emax Hp Hm a b H) as (A & B & _); auto.
    - intros d a a' b b' D (Fb & Fb' & E) N.
      assert (N' : val b' <> 0) by (rewrite E; apply Rmult_integral_contrapositive_currified; auto; apply pow2_nz; auto).
      split; intros H; apply trap_div_fin in H.
      + destruct (div_spec prec emax Hp Hm a b N H) as (A & _); auto.
      + destruct (div_spec prec emax Hp Hm a' b' N' H) as (A & _); auto.
    - intros k a a' b b' K (_ & _ & EA) (_ & _ & EB) H1 H2. split; auto. split; auto.
      rewrite sub_trap in H1, H2. rewrite !sub_trap.
      destruct (sub_spec prec emax Hp Hm a b H1) as (_ & _ & _ & E1).
      destruct (sub_spec prec emax Hp Hm a' b' H2) as (_ & _ & _ & E2).
      rewrite E1, E2, !rnd_sub, EA, EB, <- flx_pow2 by auto. f_equal. ring.
    - intros k d a a' b b' K D (_ & _ & EA) (_ & _ & EB) H1 H2. split; auto. split; auto.
      destruct (trap_mul_spec a b H1) as [-> E1]. destruct (trap_mul_spec a' b' H2) as [-> E2].
      rewrite E1, E2, EA, EB, <- flx_pow2 by (auto; apply pow2_mul; auto). f_equal. ring.
    - intros k d a a' b b' K D (_ & _ & EA) (_ & _ & EB) N H1 H2. split; auto. split; auto.
      assert (N' : val b' <> 0) by (rewrite EB; apply Rmult_integral_contrapositive_currified; auto; apply pow2_nz; auto).
      destruct (trap_div_spec a b N H1) as [-> E1]. destruct (trap_div_spec a' b' N' H2) as [-> E2].
      rewrite E1, E2, EA, EB, <- flx_pow2 by (auto; apply pow2_div; auto). f_equal.
      apply pow2_nz in D. field. auto.
  Qed.

  (** without a trap the results are those of the usual arithmetic *)
  Theorem trap_none : scaleRules Or (fun k => k = 1) T O fin (fun _ => True) (fun x => val x <> 0)
    (fun _ a b => a = b /\ fin a).
  Proof.
    constructor; auto; cbn [o0 omul odiv Or].
    - intros k ->. lra.
    - intros k d -> ->. lra.
    - intros k d -> ->. field.
    - intros k _. split; reflexivity.
    - intros a b. rewrite sub_trap. intros H. destruct (sub_spec prec emax Hp Hm a b H) as (A & B & _); auto.
    - intros a b H. apply trap_mul_fin in H. destruct (mul_spec prec emax Hp Hm a b H) as (A & B & _); auto.
    - intros d a a' b b' _ _ N. split; auto. intros H. apply trap_div_fin in H.
      destruct (div_spec prec emax Hp Hm a b N H) as (A & _); auto.
    - intros k a a' b b' _ [-> _] [-> _] H _. split; auto.
    - intros k d a a' b b' _ _ [-> _] [-> _] H _. split; auto. apply (trap_mul_spec a' b' H).
    - intros k d a a' b b' _ _ [-> _] [-> _] N H _. split; auto. apply (trap_div_spec a' b' N H).
  Qed.

  (** signs can be changed without any restriction *)
  Definition sign1 (k : R) : Prop := k = 1 \/ k = -1.
  Lemma rnd_sign k x : sign1 k -> rnd (k * x) = k * rnd x.
  Proof.
    intros [->| ->].
    - rewrite !Rmult_1_l. auto.
    - replace (-1 * x) with (- x) by ring. cbn [round_mode]. rewrite round_NE_opp. ring.
  Qed.
  Lemma sign1_abs k x : sign1 k -> Rabs (k * x) = Rabs x.
  Proof.
    intros [->| ->]; rewrite Rabs_mult; [rewrite Rabs_R1|rewrite Rabs_left by lra]; ring.
  Qed.
  Lemma sign1_mul k d : sign1 k -> sign1 d -> sign1 (k * d).
  Proof. unfold sign1. intros [->| ->] [->| ->]; lra. Qed.
  Lemma sign1_div k d : sign1 k -> sign1 d -> sign1 (k / d).
  Proof. unfold sign1. intros [->| ->] [->| ->]; [left|right|right|left]; field. Qed.
  Lemma sign1_nz k : sign1 k -> k <> 0.
  Proof. unfold sign1. intros [->| ->]; lra. Qed.

  Theorem sign_scale : scaleRules Or sign1 O O fin (fun _ => True) (fun x => val x <> 0) ieeeScaled.
  Proof.
    constructor; auto; cbn [o0 omul odiv Or].
    - apply sign1_nz.
    - apply sign1_mul.
    - apply sign1_div.
    - intros k _. split; [reflexivity|]. split; [reflexivity|]. cbn. ring.
    - intros a b H. destruct (sub_spec prec emax Hp Hm a b H) as (A & B & _); auto.
    - intros a b H. destruct (mul_spec prec emax Hp Hm a b H) as (A & B & _); auto.
    - intros d a a' b b' D (Fb & Fb' & E) N. split; auto. intros H.
      destruct (div_spec prec emax Hp Hm a b N H) as (A & _); auto.
    - intros k a a' b b' K (_ & Fa & EA) (_ & Fb & EB) H1 _.
      destruct (sub_spec prec emax Hp Hm a b H1) as (_ & _ & Lt & E1).
      assert (X : val a' - val b' = k * (val a - val b)) by (rewrite EA, EB; ring).
      destruct (sub_make prec emax Hp Hm a' b') as [F2 E2]; auto.
      { rewrite X, rnd_sign, sign1_abs by auto. auto. }
      split; auto. split; auto. cbn [osub ieeeOps] in E1, E2 |- *. rewrite E1, E2, X. apply rnd_sign; auto.
    - intros k d a a' b b' K D (_ & Fa & EA) (_ & Fb & EB) H1 _. pose proof (sign1_mul k d K D) as KD.
      destruct (mul_spec prec emax Hp Hm a b H1) as (_ & _ & Lt & E1).
      assert (X : val a' * val b' = k * d * (val a * val b)) by (rewrite EA, EB; ring).
      destruct (mul_make prec emax Hp Hm a' b') as [F2 E2]; auto.
      { rewrite X, rnd_sign, sign1_abs by auto. auto. }
      split; auto. split; auto. cbn [omul ieeeOps] in E1, E2 |- *. rewrite E1, E2, X. apply rnd_sign; auto.
    - intros k d a a' b b' K D (_ & Fa & EA) (_ & Fb & EB) N H1 _. pose proof (sign1_div k d K D) as KD.
      assert (N' : val b' <> 0) by (rewrite EB; apply Rmult_integral_contrapositive_currified; auto; apply sign1_nz; auto).
      destruct (div_spec prec emax Hp Hm a b N H1) as (_ & Lt & E1).
      assert (X : val a' / val b' = k / d * (val a / val b)) by (rewrite EA, EB; apply sign1_nz in D; field; auto).
      destruct (div_make prec emax Hp Hm a' b') as [F2 E2]; auto.
      { rewrite X, rnd_sign, sign1_abs by auto. auto. }
      split; auto. split; auto. cbn [odiv ieeeOps] in E1, E2 |- *. rewrite E1, E2, X. apply rnd_sign; auto.
  Qed.

  (** a regularization that depends only on the value of the pivot *)
  Lemma regScaled_same reg : regSame fin (ieeeSame prec emax) reg ->
    regScaled fin (fun _ => True) ieeeScaled 1 reg reg.
  Proof.
    intros RS i v v'. destruct (RS i v) as [R1 R2]. split; auto. split; auto. intros (F1 & F2 & E) H _.
    rewrite Rmult_1_l in E. destruct (R2 v') as (X1 & X2 & X3); auto.
    - split; auto.
    - split; auto. split; auto. rewrite Rmult_1_l. auto.
  Qed.
End Ieee.
