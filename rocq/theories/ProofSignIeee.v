(** IEEE arithmetic keeps signs. *)
From Coq Require Import ZArith Reals Lra Lia Bool.
From Flocq Require Import Core BinarySingleNaN.
From Verif Require Import ModelNumeric SpecSign ModelIeee ProofIeee.
Local Open Scope R_scope.

Section Ieee.
  Variables (prec emax : Z).
  Context (Hp : Prec_gt_0 prec) (Hm : Prec_lt_emax prec emax).
  Local Notation O := (ieeeOps prec emax Hp Hm).
  Local Notation fin := (ieeeFinite prec emax).
  Local Notation val := (ieeeVal prec emax).
  Local Notation rnd := (round radix2 (SpecFloat.fexp prec emax) (round_mode mode_NE)).

  Lemma rnd_ge x : 0 <= x -> 0 <= rnd x.
  Proof.
    intros H. apply round_ge_generic; auto.
    - apply (fexp_correct prec emax Hp).
    - apply valid_rnd_round_mode.
    - apply generic_format_0.
  Qed.
  Lemma rnd_le x : x <= 0 -> rnd x <= 0.
  Proof.
    intros H. apply round_le_generic; auto.
    - apply (fexp_correct prec emax Hp).
    - apply valid_rnd_round_mode.
    - apply generic_format_0.
  Qed.

  Ltac split2 a b := unfold ieeeFinite in *; destruct a as [[]|[]| |[] ? ? ?], b as [[]|[]| |[] ? ? ?];
    try reflexivity; discriminate.

  Theorem ieee_signs :
    signRules O fin (fun x => 0 < val x) (fun x => 0 <= val x) (fun x => val x <= 0).
  Proof.
    constructor.
    - split; right; reflexivity.
    - intros; lra.
    - intros a b H. change (osub O a b) with (Bminus mode_NE a b) in *.
      assert (Fa : fin a) by (split2 a b).
      assert (Fb : fin b) by (split2 a b).
      split; auto. split; auto.
      pose proof (Bminus_correct prec emax Hp Hm mode_NE a b Fa Fb) as C.
      destruct (Rlt_bool _ _).
      + destruct C as (C & _). unfold ieeeVal. rewrite C.
        split; intros; [apply rnd_ge|apply rnd_le]; lra.
      + destruct C as (C & _). apply (overflow_inf prec emax) in C. contradiction.
    - intros a b H. change (omul O a b) with (Bmult mode_NE a b) in *.
      pose proof (Bmult_correct prec emax Hp Hm mode_NE a b) as C.
      destruct (Rlt_bool _ _).
      + destruct C as (C & C2 & _). unfold ieeeFinite in *. rewrite C2 in H. apply andb_true_iff in H.
        destruct H. split; auto. split; auto. unfold ieeeVal. rewrite C.
        split; [|split; [|split]]; intros; (apply rnd_ge || apply rnd_le); nra.
      + apply (overflow_inf prec emax) in C. contradiction.
    - intros a b Fb Pb H. change (odiv O a b) with (Bdiv mode_NE a b) in *.
      assert (N : val b <> 0) by lra.
      pose proof (Bdiv_correct prec emax Hp Hm mode_NE a b N) as C.
      destruct (Rlt_bool _ _).
      + destruct C as (C & C2 & _). unfold ieeeFinite in *. rewrite C2 in H. split; auto.
        unfold ieeeVal in *. rewrite C. assert (0 < / B2R b) by (apply Rinv_0_lt_compat; auto).
        split; intros; [apply rnd_ge|apply rnd_le]; unfold Rdiv; nra.
      + apply (overflow_inf prec emax) in C. contradiction.
  Qed.
End Ieee.
