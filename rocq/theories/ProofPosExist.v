(** Linear systems with a positive definite matrix have exactly one solution. *)
From Coq Require Import Reals Lra Lia List Arith Psatz.
From Verif Require Import ModelNumeric SpecNumeric SpecReg SpecDomFloat SpecPosFloat.
From Verif Require Import ProofExact ProofRound ProofDomReal.
Import ListNotations.
Local Open Scope R_scope.
Local Notation rsum := (suml Or).

Section Exist.
  Context {I : Type} (dec : forall a b : I, {a = b} + {a <> b}).
  Definition quadF (all : list I) (M : I -> I -> R) (z : I -> R) : R :=
    rsum all (fun j => rsum all (fun k => M j k * z j * z k)).
  Definition pdef (all : list I) (M : I -> I -> R) : Prop := forall z,
    (exists g, In g all /\ z g <> 0) -> 0 < quadF all M z.

  Lemma quadF_cons a l M z : quadF (a :: l) M z =
    M a a * z a * z a + rsum l (fun k => M a k * z k) * z a + rsum l (fun j => M j a * z j) * z a + quadF l M z.
  Proof.
    unfold quadF. rewrite !rsum_cons.
    rewrite (rsum_ext l (fun j => rsum (a :: l) (fun k => M j k * z j * z k))
      (fun j => z a * (M j a * z j) + rsum l (fun k => M j k * z j * z k))).
    - rewrite rsum_plus, rsum_scal.
      rewrite (rsum_ext l (fun k => M a k * z a * z k) (fun k => z a * (M a k * z k))) by (intros; ring).
      rewrite rsum_scal. ring.
    - intros j _. rewrite rsum_cons. ring.
  Qed.

  Lemma pdef_diag a l M : NoDup (a :: l) -> pdef (a :: l) M -> 0 < M a a.
  Proof.
    intros ND P. apply NoDup_cons_iff in ND. destruct ND as [Na ND].
    pose proof (P (fun i => if dec i a then 1 else 0)) as H. rewrite quadF_cons in H.
    assert (Z : forall k, In k l -> (if dec k a then 1 else 0) = 0 :> R).
    { intros k Hk. destruct (dec k a); [congruence|auto]. }
    rewrite (rsum_0 l (fun k => M a k * _)) in H by (intros k Hk; rewrite Z by auto; ring).
    rewrite (rsum_0 l (fun j => M j a * _)) in H by (intros k Hk; rewrite Z by auto; ring).
    unfold quadF in H. rewrite (rsum_0 l) in H.
    - destruct (dec a a); [|congruence]. assert (0 < M a a * 1 * 1 + 0 * 1 + 0 * 1 + 0); [|lra].
      apply H. exists a. split; [left; auto|]. destruct (dec a a); [lra|congruence].
    - intros j Hj. apply rsum_0. intros k Hk. rewrite (Z j Hj). ring.
  Qed.

  Lemma pdef_schur a l M : NoDup (a :: l) -> pdef (a :: l) M ->
    pdef l (fun g h => M g h - M g a * M a h / M a a).
  Proof.
    intros ND P z (g & Hg & Zg). pose proof (pdef_diag a l M ND P) as Pa.
    apply NoDup_cons_iff in ND. destruct ND as [Na ND].
    set (al := rsum l (fun k => M a k * z k)). set (be := rsum l (fun j => M j a * z j)).
    pose (w := fun i => if dec i a then - al / M a a else z i).
    assert (WZ : forall k, In k l -> w k = z k).
    { intros k Hk. unfold w. destruct (dec k a); [congruence|auto]. }
    pose proof (P w) as H. rewrite quadF_cons in H.
    rewrite (rsum_ext l (fun k => M a k * w k) (fun k => M a k * z k)) in H by (intros; rewrite WZ; auto).
    rewrite (rsum_ext l (fun j => M j a * w j) (fun j => M j a * z j)) in H by (intros; rewrite WZ; auto).
    fold al be in H.
    assert (E : quadF l M w = quadF l M z).
    { unfold quadF. apply rsum_ext. intros j Hj. apply rsum_ext. intros k Hk. rewrite !WZ; auto. }
    rewrite E in H.
    assert (EW : w a = - al / M a a) by (unfold w; destruct (dec a a); congruence). rewrite EW in H.
    assert (ES : quadF l (fun g h => M g h - M g a * M a h / M a a) z = quadF l M z - al * be / M a a).
    { unfold quadF.
      rewrite (rsum_ext l _ (fun j => rsum l (fun k => M j k * z j * z k) - al / M a a * (M j a * z j))).
      - rewrite rsum_minus, rsum_scal. fold be. field. lra.
      - intros j _. unfold al.
        rewrite (rsum_ext l _ (fun k => M j k * z j * z k - M j a * z j / M a a * (M a k * z k))) by (intros; field; lra).
        rewrite rsum_minus, rsum_scal. field. lra. }
    rewrite ES.
    assert (X : M a a * (- al / M a a) * (- al / M a a) + al * (- al / M a a) + be * (- al / M a a) + quadF l M z =
      quadF l M z - al * be / M a a) by (field; lra).
    rewrite <- X. apply H. exists g. split; [right; auto|]. rewrite WZ; auto.
  Qed.

  Lemma pdef_solvable : forall all M b, NoDup all -> pdef all M ->
    exists xs, forall g, In g all -> rsum all (fun h => M g h * xs h) = b g.
  Proof.
    induction all as [|a l IH]; intros M b ND S; [exists (fun _ => 0); intros g []|].
    pose proof (pdef_diag a l M ND S) as Pa.
    assert (Za : M a a <> 0) by lra.
    pose proof (pdef_schur a l M ND S) as S'. apply NoDup_cons_iff in ND. destruct ND as [Na ND].
    destruct (IH _ (fun g => b g - M g a * b a / M a a) ND S') as (xs & H).
    set (xa := (b a - rsum l (fun h => M a h * xs h)) / M a a).
    exists (fun h => if dec h a then xa else xs h).
    assert (E : forall g, rsum (a :: l) (fun h => M g h * (if dec h a then xa else xs h)) =
      M g a * xa + rsum l (fun h => M g h * xs h)).
    { intros g. rewrite rsum_cons. destruct (dec a a); [|congruence]. f_equal. apply rsum_ext.
      intros h Hh. destruct (dec h a); [congruence|auto]. }
    intros g [<-|Hg]; rewrite E.
    - unfold xa. field. auto.
    - specialize (H g Hg). cbv beta in H.
      rewrite (rsum_ext l _ (fun h => M g h * xs h - M g a / M a a * (M a h * xs h))) in H by (intros; field; auto).
      rewrite rsum_minus, rsum_scal in H. unfold xa.
      replace (rsum l (fun h => M g h * xs h)) with
        (b g - M g a * b a / M a a + M g a / M a a * rsum l (fun h => M a h * xs h)) by lra.
      field. auto.
  Qed.

  Lemma positive_pdef all M lam : NoDup all -> 0 < lam -> (forall g, In g all -> 0 < M g g) ->
    positiveBy all M lam -> pdef all M.
  Proof.
    intros ND L0 DP P z (g & Hg & Zg). eapply Rlt_le_trans; [|apply (P z)].
    apply Rmult_lt_0_compat; auto. rewrite (rsum_remove dec all g) by auto.
    assert (0 < M g g * (z g * z g)) by (apply Rmult_lt_0_compat; auto; nra).
    assert (0 <= rsum (remove dec g all) (fun j => M j j * (z j * z j))).
    { apply rsum_pos. intros j Hj. apply in_remove in Hj. pose proof (DP j (proj1 Hj)).
      apply Rmult_le_pos; [lra|apply Rle_0_sqr]. }
    lra.
  Qed.

  Lemma positive_solution (all : list I) (M : I -> I -> R) (lam : R) (b : I -> R) : NoDup all -> 0 < lam -> (forall g, In g all -> 0 < M g g) ->
    positiveBy all M lam -> exists xs, onlySolution all M b xs.
  Proof.
    intros ND L0 DP P. pose proof (positive_pdef all M lam ND L0 DP P) as PDF.
    destruct (pdef_solvable all M b ND PDF) as (xs & H). exists xs. split; [exact H|].
    intros ys HY g Hg. destruct (Req_dec (ys g - xs g) 0) as [|NZ]; [lra|]. exfalso.
    assert (Q : 0 < quadF all M (fun i => ys i - xs i)) by (apply PDF; eauto).
    unfold quadF in Q. rewrite (rsum_0 all) in Q; [lra|]. intros j Hj.
    rewrite (rsum_ext all _ (fun k => (ys j - xs j) * (M j k * ys k - M j k * xs k))) by (intros; ring).
    rewrite rsum_scal, rsum_minus, (H j Hj). specialize (HY j Hj). cbv beta in HY. rewrite HY. ring.
  Qed.
End Exist.
