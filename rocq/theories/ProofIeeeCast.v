(** Conversions between floating point formats. *)
From Coq Require Import ZArith Reals Lra Lia Bool.
From Flocq Require Import Core BinarySingleNaN Relative.
From Verif Require Import ModelNumeric SpecRound SpecMixed ModelIeee ModelMixed ProofIeee.
Local Open Scope R_scope.

Section Cast.
  Variables (p e p' e' : Z).
  Context (Hp : Prec_gt_0 p) (Hm : Prec_lt_emax p e) (Hp' : Prec_gt_0 p') (Hm' : Prec_lt_emax p' e').
  Local Notation cast := (ieeeCast p e p' e' Hp' Hm').

  Lemma cast_zero : cast (o0 (ieeeOps p e Hp Hm)) = o0 (ieeeOps p' e' Hp' Hm').
  Proof. reflexivity. Qed.

  Lemma ieee_cast_rounded :
    roundedCast (ieeeFinite p e) (ieeeVal p e) (ieeeFinite p' e') (ieeeVal p' e') (ieeeU p') (ieeeEta p' e') cast.
  Proof.
    intros [s|s| |s m x H] F; try discriminate.
    - split; [reflexivity|]. exists 0, 0. cbn.
      rewrite !Rabs_R0. split; [apply bpow_ge_0|]. split; [apply bpow_ge_0|]. ring.
    - split; [reflexivity|]. cbn [ieeeCast] in *.
      pose proof (binary_normalize_correct p' e' Hp' Hm' mode_NE (cond_Zopp s (Zpos m)) x s) as C.
      cbv zeta in C. destruct (Rlt_bool _ _).
      + destruct C as (C & _). unfold ieeeVal. rewrite C. apply (rnd_near p' e' Hp').
      + apply (overflow_inf p' e') in C. contradiction.
  Qed.

  (** to a format with at least as many digits and exponents: exact *)
  Lemma ieee_cast_exact : (p <= p')%Z -> (e <= e')%Z ->
    exactCast (ieeeFinite p e) (ieeeVal p e) (ieeeFinite p' e') (ieeeVal p' e') cast.
  Proof.
    intros Lp Le [s|s| |s m x H] F; try discriminate.
    - split; reflexivity.
    - cbn [ieeeCast].
      pose proof (binary_normalize_correct p' e' Hp' Hm' mode_NE (cond_Zopp s (Zpos m)) x s) as C.
      cbv zeta in C. set (v := F2R (Float radix2 (cond_Zopp s (Zpos m)) x)) in *.
      assert (G : generic_format radix2 (SpecFloat.fexp p' e') v).
      { apply generic_inclusion_mag with (fexp1 := SpecFloat.fexp p e).
        - intros _. unfold SpecFloat.fexp, SpecFloat.emin. lia.
        - apply (generic_format_B2R p e (B754_finite s m x H)). }
      rewrite round_generic in C by (auto; apply valid_rnd_N).
      rewrite Rlt_bool_true in C.
      + destruct C as (C1 & C2 & _). unfold ieeeFinite, ieeeVal. split; auto.
      + eapply Rlt_le_trans; [apply (abs_B2R_lt_emax p e (B754_finite s m x H))|]. apply bpow_le. auto.
  Qed.
End Cast.
