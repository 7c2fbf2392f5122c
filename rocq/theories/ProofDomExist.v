(** Linear systems with a strictly diagonally dominant matrix have a solution. *)
From Coq Require Import Reals Lra Lia List Arith Psatz.
From Verif Require Import ModelNumeric SpecNumeric SpecReg SpecDomFloat.
From Verif Require Import ProofExact ProofRound ProofDomReal ProofDomMain.
Import ListNotations.
Local Open Scope R_scope.
Local Notation rsum := (suml Or).

Section Exist.
  Context {I : Type} (dec : forall a b : I, {a = b} + {a <> b}).

  Definition strict (all : list I) (M : I -> I -> R) : Prop := forall g, In g all ->
    rsum all (fun h => if dec g h then 0 else Rabs (M g h)) < Rabs (M g g).

  Lemma strict_nz all M g : strict all M -> In g all -> 0 < Rabs (M g g).
  Proof.
    intros S Hg. eapply Rle_lt_trans; [|apply (S g Hg)]. apply rsum_pos. intros h _.
    destruct (dec g h); [lra|apply Rabs_pos].
  Qed.

  Lemma strict_schur a l M : NoDup (a :: l) -> strict (a :: l) M ->
    strict l (fun g h => M g h - M g a * M a h / M a a).
  Proof.
    intros ND S g Hg. apply NoDup_cons_iff in ND. destruct ND as [Na ND].
    assert (NG : g <> a) by congruence.
    pose proof (strict_nz _ _ a S (or_introl eq_refl)) as Pa.
    assert (Za : M a a <> 0) by (intros E; rewrite E, Rabs_R0 in Pa; lra).
    pose proof (S g (or_intror Hg)) as Sg. pose proof (S a (or_introl eq_refl)) as Sa.
    rewrite rsum_cons in Sg, Sa. destruct (dec g a); [congruence|]. destruct (dec a a); [|congruence].
    set (c := Rabs (M g a) / Rabs (M a a)).
    assert (c0 : 0 <= c) by (apply Rmult_le_pos; [apply Rabs_pos|left; apply Rinv_0_lt_compat; auto]).
    assert (Ec : c * Rabs (M a a) = Rabs (M g a)) by (unfold c; field; lra).
    assert (AB : forall h, Rabs (M g a * M a h / M a a) = c * Rabs (M a h)).
    { intros h. unfold Rdiv. rewrite !Rabs_mult, Rabs_inv. unfold c. field. lra. }
    (* row a without g *)
    assert (Ea : rsum l (fun h => if dec g h then 0 else Rabs (M a h)) + Rabs (M a g) <=
      rsum l (fun h => if dec a h then 0 else Rabs (M a h))).
    { rewrite (rsum_remove dec l g (fun h => if dec a h then 0 else Rabs (M a h))) by auto.
      rewrite (rsum_remove dec l g (fun h => if dec g h then 0 else Rabs (M a h))) by auto.
      destruct (dec g g); [|congruence]. destruct (dec a g); [congruence|].
      rewrite (rsum_ext (remove dec g l) (fun h => if dec g h then 0 else Rabs (M a h))
        (fun h => if dec a h then 0 else Rabs (M a h))); [lra|].
      intros h Hh. apply in_remove in Hh. destruct Hh as [Hh Hn].
      destruct (dec g h); [congruence|]. destruct (dec a h); [congruence|auto]. }
    assert (Es : rsum l (fun h => if dec g h then 0 else Rabs (M g h - M g a * M a h / M a a)) <=
      rsum l (fun h => if dec g h then 0 else Rabs (M g h)) + c * rsum l (fun h => if dec g h then 0 else Rabs (M a h))).
    { rewrite <- rsum_scal, <- rsum_plus. apply rsum_le. intros h _. destruct (dec g h); [lra|].
      rewrite <- AB. unfold Rminus. eapply Rle_trans; [apply Rabs_triang|]. rewrite Rabs_Ropp. lra. }
    assert (Eg : Rabs (M g g) - c * Rabs (M a g) <= Rabs (M g g - M g a * M a g / M a a)).
    { rewrite <- AB. apply Rabs_triang_inv. }
    set (s1 := rsum l (fun h => if dec g h then 0 else Rabs (M g h))) in *.
    set (s2 := rsum l (fun h => if dec g h then 0 else Rabs (M a h))) in *.
    set (s3 := rsum l (fun h => if dec a h then 0 else Rabs (M a h))) in *.
    assert (c * (s2 + Rabs (M a g)) <= c * Rabs (M a a)) by (apply Rmult_le_compat_l; lra). lra.
  Qed.

  Lemma strict_solvable : forall all M b, NoDup all -> strict all M ->
    exists xs, forall g, In g all -> rsum all (fun h => M g h * xs h) = b g.
  Proof.
    induction all as [|a l IH]; intros M b ND S; [exists (fun _ => 0); intros g []|].
    pose proof (strict_nz _ _ a S (or_introl eq_refl)) as Pa.
    assert (Za : M a a <> 0) by (intros E; rewrite E, Rabs_R0 in Pa; lra).
    pose proof (strict_schur a l M ND S) as S'. apply NoDup_cons_iff in ND. destruct ND as [Na ND].
    destruct (IH _ (fun g => b g - M g a * b a / M a a) ND S') as (xs & H).
    set (xa := (b a - rsum l (fun h => M a h * xs h)) / M a a).
    exists (fun h => if dec h a then xa else xs h).
    assert (E : forall g, rsum (a :: l) (fun h => M g h * (if dec h a then xa else xs h)) =
      M g a * xa + rsum l (fun h => M g h * xs h)).
    { intros g. rewrite rsum_cons. destruct (dec a a); [|congruence]. f_equal. apply rsum_ext.
      intros h Hh. destruct (dec h a); [congruence|auto]. }
    intros g [<-|Hg]; rewrite E.
    - unfold xa. field. auto.
    - specialize (H g Hg). cbv beta in H.
      rewrite (rsum_ext l _ (fun h => M g h * xs h - M g a / M a a * (M a h * xs h))) in H by (intros; field; auto).
      rewrite rsum_minus, rsum_scal in H. unfold xa.
      replace (rsum l (fun h => M g h * xs h)) with
        (b g - M g a * b a / M a a + M g a / M a a * rsum l (fun h => M a h * xs h)) by lra.
      field. auto.
  Qed.

  Lemma dominated_solution all M th b : NoDup all -> 0 <= th < 1 -> dominatedBy dec all M th ->
    (forall g, In g all -> M g g <> 0) ->
    exists xs, (forall g, In g all -> rsum all (fun h => M g h * xs h) = b g) /\
      forall ys, (forall g, In g all -> rsum all (fun h => M g h * ys h) = b g) ->
        forall g, In g all -> ys g = xs g.
  Proof.
    intros ND T D NZ. destruct (strict_solvable all M b ND) as (xs & H).
    - intros g Hg. eapply Rle_lt_trans; [apply D; auto|]. pose proof (Rabs_pos_lt _ (NZ g Hg)). nra.
    - exists xs. split; auto. intros ys HY g Hg.
      pose proof (dominated_error dec all M b ys xs th 0 ND T D NZ H) as E.
      assert (X : (1 - th) * Rabs (ys g - xs g) <= 0).
      { apply E; auto. intros k Hk. rewrite HY by auto. rewrite Rminus_diag_eq by auto. rewrite Rabs_R0. lra. }
      pose proof (Rabs_pos (ys g - xs g)) as P.
      assert (Z : Rabs (ys g - xs g) = 0) by nra.
      destruct (Req_dec (ys g - xs g) 0) as [|Nz]; [lra|]. apply Rabs_no_R0 in Nz. lra.
  Qed.
End Exist.
