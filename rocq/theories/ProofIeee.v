(** IEEE arithmetic is a rounded arithmetic. *)
From Coq Require Import ZArith Reals Lra Lia Bool.
From Flocq Require Import Core BinarySingleNaN Relative.
From Verif Require Import ModelNumeric SpecRound ModelIeee.
Local Open Scope R_scope.

Section Ieee.
  Variables (prec emax : Z).
  Context (Hp : Prec_gt_0 prec) (Hm : Prec_lt_emax prec emax).
  Local Notation O := (ieeeOps prec emax Hp Hm).
  Local Notation fin := (ieeeFinite prec emax).
  Local Notation val := (ieeeVal prec emax).
  Local Notation u := (ieeeU prec).
  Local Notation eta := (ieeeEta prec emax).
  Local Notation rnd := (round radix2 (SpecFloat.fexp prec emax) (round_mode mode_NE)).

  Lemma rnd_near x : near u eta x (rnd x).
  Proof.
    destruct (error_N_FLT radix2 (3 - emax - prec) prec Hp (fun z => negb (Z.even z)) x)
      as (d & e & Hd & He & _ & E).
    exists d, e. split; [|split; auto].
    - eapply Rle_trans; [exact Hd|]. right. unfold ieeeU.
      change (/ 2) with (bpow radix2 (-1)). rewrite <- bpow_plus. f_equal. lia.
    - eapply Rle_trans; [exact He|]. right. unfold ieeeEta.
      change (/ 2) with (bpow radix2 (-1)). rewrite <- bpow_plus. f_equal. lia.
  Qed.

  Lemma u_range : 0 <= u < 1.
  Proof.
    split; [apply bpow_ge_0|]. unfold ieeeU. change 1 with (bpow radix2 0). apply bpow_lt.
    unfold Prec_gt_0 in Hp. lia.
  Qed.

  Lemma overflow_inf (x : ieee prec emax) sx : B2SF x = binary_overflow prec emax mode_NE sx -> ~ fin x.
  Proof. unfold ieeeFinite. destruct x; cbn; intros H; discriminate. Qed.

  Ltac split2 a b := unfold ieeeFinite in *; destruct a as [[]|[]| |[] ? ? ?], b as [[]|[]| |[] ? ? ?];
    try reflexivity; discriminate.

  Theorem ieee_rounding : rounding O fin val u eta.
  Proof.
    constructor.
    - apply u_range.
    - apply bpow_ge_0.
    - reflexivity.
    - reflexivity.
    - intros a b H. change (oadd O a b) with (Bplus mode_NE a b) in *.
      assert (Fa : fin a) by (split2 a b).
      assert (Fb : fin b) by (split2 a b).
      split; auto. split; auto.
      pose proof (Bplus_correct prec emax Hp Hm mode_NE a b Fa Fb) as C.
      destruct (Rlt_bool _ _).
      + destruct C as (C & _). unfold ieeeVal. rewrite C. apply rnd_near.
      + destruct C as (C & _). apply overflow_inf in C. contradiction.
    - intros a b H. change (osub O a b) with (Bminus mode_NE a b) in *.
      assert (Fa : fin a) by (split2 a b).
      assert (Fb : fin b) by (split2 a b).
      split; auto. split; auto.
      pose proof (Bminus_correct prec emax Hp Hm mode_NE a b Fa Fb) as C.
      destruct (Rlt_bool _ _).
      + destruct C as (C & _). unfold ieeeVal. rewrite C. apply rnd_near.
      + destruct C as (C & _). apply overflow_inf in C. contradiction.
    - intros a b H. change (omul O a b) with (Bmult mode_NE a b) in *.
      pose proof (Bmult_correct prec emax Hp Hm mode_NE a b) as C.
      destruct (Rlt_bool _ _).
      + destruct C as (C & C2 & _). unfold ieeeFinite in *. rewrite C2 in H. apply andb_true_iff in H.
        destruct H. split; auto. split; auto. unfold ieeeVal. rewrite C. apply rnd_near.
      + apply overflow_inf in C. contradiction.
    - intros a b Fb H. change (odiv O a b) with (Bdiv mode_NE a b) in *.
      assert (N : val b <> 0).
      { unfold ieeeFinite in *. destruct b as [s| | |s m e Hb]; try discriminate.
        - exfalso. destruct a; discriminate.
        - unfold ieeeVal. cbn [B2R]. intros E. apply eq_0_F2R in E. destruct s; discriminate. }
      pose proof (Bdiv_correct prec emax Hp Hm mode_NE a b N) as C.
      destruct (Rlt_bool _ _).
      + destruct C as (C & C2 & _). unfold ieeeFinite in *. rewrite C2 in H. split; auto. split; auto.
        unfold ieeeVal. rewrite C. apply rnd_near.
      + apply overflow_inf in C. contradiction.
  Qed.
End Ieee.
