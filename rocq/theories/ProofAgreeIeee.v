(** IEEE arithmetic: results depend only on the values of the operands. *)
From Coq Require Import ZArith Reals Lra Lia Bool.
From Flocq Require Import Core BinarySingleNaN.
From Verif Require Import ModelNumeric ModelReg SpecAgree ModelIeee ProofIeee.
Local Open Scope R_scope.

Section Ieee.
  Variables (prec emax : Z).
  Context (Hp : Prec_gt_0 prec) (Hm : Prec_lt_emax prec emax).
  Local Notation O := (ieeeOps prec emax Hp Hm).
  Local Notation fin := (ieeeFinite prec emax).
  Local Notation val := (ieeeVal prec emax).
  Local Notation rnd := (round radix2 (SpecFloat.fexp prec emax) (round_mode mode_NE)).
  Definition ieeeSame (a b : ieee prec emax) : Prop := fin a /\ fin b /\ val a = val b.

  Ltac split2 a b := unfold ieeeFinite in *; destruct a as [[]|[]| |[] ? ? ?], b as [[]|[]| |[] ? ? ?];
    try reflexivity; discriminate.

  Lemma bpow_pos_lt0 : Rabs 0 < bpow radix2 emax.
  Proof. rewrite Rabs_R0. apply bpow_gt_0. Qed.

  Lemma rnd_small x : fin x -> Rlt_bool (Rabs (rnd (val x))) (bpow radix2 emax) = true.
  Proof.
    intros H. apply Rlt_bool_true. rewrite round_generic; [apply abs_B2R_lt_emax|apply valid_rnd_round_mode|].
    apply generic_format_B2R.
  Qed.

  Lemma sub_spec a b : fin (osub O a b) ->
    fin a /\ fin b /\ Rabs (rnd (val a - val b)) < bpow radix2 emax /\ val (osub O a b) = rnd (val a - val b).
  Proof.
    intros H. change (osub O a b) with (Bminus mode_NE a b) in *.
    assert (Fa : fin a) by (split2 a b). assert (Fb : fin b) by (split2 a b).
    pose proof (Bminus_correct prec emax Hp Hm mode_NE a b Fa Fb) as C. unfold ieeeVal.
    destruct (Rlt_bool_spec (Rabs (rnd (B2R a - B2R b))) (bpow radix2 emax)).
    - destruct C as (C & _). auto.
    - destruct C as (C & _). apply (overflow_inf prec emax) in C. contradiction.
  Qed.
  Lemma sub_make a b : fin a -> fin b -> Rabs (rnd (val a - val b)) < bpow radix2 emax ->
    fin (osub O a b) /\ val (osub O a b) = rnd (val a - val b).
  Proof.
    intros Fa Fb H. change (osub O a b) with (Bminus mode_NE a b) in *.
    pose proof (Bminus_correct prec emax Hp Hm mode_NE a b Fa Fb) as C. unfold ieeeVal in *.
    rewrite Rlt_bool_true in C by auto. unfold ieeeFinite. intuition.
  Qed.

  Lemma mul_spec a b : fin (omul O a b) ->
    fin a /\ fin b /\ Rabs (rnd (val a * val b)) < bpow radix2 emax /\ val (omul O a b) = rnd (val a * val b).
  Proof.
    intros H. change (omul O a b) with (Bmult mode_NE a b) in *.
    pose proof (Bmult_correct prec emax Hp Hm mode_NE a b) as C. unfold ieeeVal.
    destruct (Rlt_bool_spec (Rabs (rnd (B2R a * B2R b))) (bpow radix2 emax)).
    - destruct C as (C & C2 & _). unfold ieeeFinite in *. rewrite C2 in H. apply andb_true_iff in H. intuition.
    - apply (overflow_inf prec emax) in C. contradiction.
  Qed.
  Lemma mul_make a b : fin a -> fin b -> Rabs (rnd (val a * val b)) < bpow radix2 emax ->
    fin (omul O a b) /\ val (omul O a b) = rnd (val a * val b).
  Proof.
    intros Fa Fb H. change (omul O a b) with (Bmult mode_NE a b) in *.
    pose proof (Bmult_correct prec emax Hp Hm mode_NE a b) as C. unfold ieeeVal in *.
    rewrite Rlt_bool_true in C by auto. unfold ieeeFinite in *. rewrite Fa, Fb in C. intuition.
  Qed.

  Lemma div_spec a b : val b <> 0 -> fin (odiv O a b) ->
    fin a /\ Rabs (rnd (val a / val b)) < bpow radix2 emax /\ val (odiv O a b) = rnd (val a / val b).
  Proof.
    intros N H. change (odiv O a b) with (Bdiv mode_NE a b) in *.
    pose proof (Bdiv_correct prec emax Hp Hm mode_NE a b N) as C. unfold ieeeVal in *.
    destruct (Rlt_bool_spec (Rabs (rnd (B2R a / B2R b))) (bpow radix2 emax)).
    - destruct C as (C & C2 & _). unfold ieeeFinite in *. rewrite C2 in H. auto.
    - apply (overflow_inf prec emax) in C. contradiction.
  Qed.
  Lemma div_make a b : val b <> 0 -> fin a -> Rabs (rnd (val a / val b)) < bpow radix2 emax ->
    fin (odiv O a b) /\ val (odiv O a b) = rnd (val a / val b).
  Proof.
    intros N Fa H. change (odiv O a b) with (Bdiv mode_NE a b) in *.
    pose proof (Bdiv_correct prec emax Hp Hm mode_NE a b N) as C. unfold ieeeVal in *.
    rewrite Rlt_bool_true in C by auto. unfold ieeeFinite in *. intuition congruence.
  Qed.

  Lemma val0 : val (o0 O) = 0.
  Proof. reflexivity. Qed.
  Lemma fin0 : fin (o0 O).
  Proof. reflexivity. Qed.
  Lemma not_same0 b : fin b -> ~ ieeeSame b (o0 O) -> val b <> 0.
  Proof. intros F N E. apply N. split; auto. split; [apply fin0|]. rewrite val0; auto. Qed.
  Lemma rnd0 : rnd 0 = 0.
  Proof. apply round_0, valid_rnd_round_mode. Qed.
  Lemma rnd_val x : rnd (val x) = val x.
  Proof. apply round_generic; [apply valid_rnd_round_mode|apply generic_format_B2R]. Qed.

  Theorem ieee_same : sameRules O fin ieeeSame.
  Proof.
    constructor.
    - intros a b (A & B & _); auto.
    - intros a A; repeat split; auto.
    - intros a b (A & B & E); repeat split; auto.
    - intros a b c (A & B & E) (B' & C & E'); repeat split; auto. congruence.
    - apply fin0.
    - intros a b H. destruct (sub_spec a b H) as (A & B & _); auto.
    - intros a b H. destruct (mul_spec a b H) as (A & B & _); auto.
    - intros a b B N H. destruct (div_spec a b (not_same0 b B N) H) as (A & _); auto.
    - intros a a' b b' (A & A' & EA) (B & B' & EB) H. destruct (sub_spec a b H) as (_ & _ & Lt & E).
      destruct (sub_make a' b') as [F E']; auto; [rewrite <- EA, <- EB; auto|].
      split; auto. split; auto. rewrite E, E', EA, EB. auto.
    - intros a a' b b' (A & A' & EA) (B & B' & EB) H. destruct (mul_spec a b H) as (_ & _ & Lt & E).
      destruct (mul_make a' b') as [F E']; auto; [rewrite <- EA, <- EB; auto|].
      split; auto. split; auto. rewrite E, E', EA, EB. auto.
    - intros a a' b b' (A & A' & EA) (B & B' & EB) N H. pose proof (not_same0 b B N) as N0.
      destruct (div_spec a b N0 H) as (_ & Lt & E).
      destruct (div_make a' b') as [F E']; auto; [congruence|rewrite <- EA, <- EB; auto|].
      split; auto. split; auto. rewrite E, E', EA, EB. auto.
    - intros a b A (B & _ & E). rewrite val0 in E.
      assert (X : rnd (val a - val b) = val a) by (rewrite E, Rminus_0_r; apply rnd_val).
      destruct (sub_make a b) as [F E']; auto; [rewrite X; apply abs_B2R_lt_emax|].
      split; auto. split; auto. congruence.
    - intros a b (A & _ & E) B. rewrite val0 in E. split.
      + assert (X : rnd (val a * val b) = 0) by (rewrite E, Rmult_0_l; apply rnd0).
        destruct (mul_make a b) as [F E']; auto; [rewrite X; apply bpow_pos_lt0|].
        split; auto. split; [apply fin0|]. rewrite val0. congruence.
      + assert (X : rnd (val b * val a) = 0) by (rewrite E, Rmult_0_r; apply rnd0).
        destruct (mul_make b a) as [F E']; auto; [rewrite X; apply bpow_pos_lt0|].
        split; auto. split; [apply fin0|]. rewrite val0. congruence.
    - intros a b (A & _ & E) B N. rewrite val0 in E. pose proof (not_same0 b B N) as N0.
      assert (X : rnd (val a / val b) = 0) by (rewrite E; unfold Rdiv; rewrite Rmult_0_l; apply rnd0).
      destruct (div_make a b) as [F E']; auto; [rewrite X; apply bpow_pos_lt0|].
      split; auto. split; [apply fin0|]. rewrite val0. congruence.
  Qed.

  (** std::abs and operator< of IEEE numbers, the other functions as they like *)
  Theorem ieee_regSame (S : scalarFns (ieee prec emax)) :
    fn_abs S = Babs -> fn_ltb S = Bltb ->
    regSame fin ieeeSame (regularizationSmallPositiveConstant S).
  Proof.
    intros EA EL i v. unfold regularizationSmallPositiveConstant. rewrite EA, EL.
    set (tol := fn_pow S (fn_epsilon S) (fn_0625 S)). set (c := fn_pow S (fn_epsilon S) (fn_05 S)).
    assert (TF : forall x : ieee prec emax, fin x -> fin (Babs x)) by (intros x; unfold ieeeFinite; rewrite is_finite_Babs; auto).
    split.
    - destruct (Bltb (Babs v) tol) eqn:E; auto. intros _. revert E. unfold ieeeFinite.
      destruct v as [[]|[]| |[] ? ? ?]; auto; destruct tol as [[]|[]| |[] ? ? ?]; cbn; discriminate.
    - intros v' (F1 & F2 & E) FR.
      assert (X : Bltb (Babs v) tol = Bltb (Babs v') tol).
      { destruct (is_finite tol) eqn:FT.
        - rewrite !Bltb_correct by (auto; apply TF; auto). rewrite !B2R_Babs. unfold ieeeVal in E. rewrite E. auto.
        - unfold ieeeFinite in *. destruct tol as [[]|[]| |[] ? ? ?]; try discriminate FT;
            destruct v as [[]|[]| |[] ? ? ?]; try discriminate F1; destruct v' as [[]|[]| |[] ? ? ?]; try discriminate F2; reflexivity. }
      rewrite <- X in *. destruct (Bltb (Babs v) tol); repeat split; auto.
  Qed.
End Ieee.
