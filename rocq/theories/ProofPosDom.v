(** Symmetric matrices dominated by a positive diagonal are positive definite. *)
From Coq Require Import Reals Lra Lia List Arith Bool Psatz.
From Verif Require Import ModelNumeric SpecNumeric SpecReg SpecRound SpecDomFloat SpecPosFloat.
From Verif Require Import ProofExact ProofRound ProofDomReal ProofPosReal.
Import ListNotations.
Local Open Scope R_scope.
Local Notation rsum := (suml Or).

Lemma dominated_positive {I : Type} eqd (all : list I) M th :
  NoDup all ->
  (forall g h, In g all -> In h all -> M g h = M h g) -> (forall g, In g all -> 0 <= M g g) ->
  dominatedBy eqd all M th -> positiveBy all M (1 - th).
Proof.
  intros ND SYM DP DOM z.
  set (off := fun j k => if eqd j k then 0 else Rabs (M j k)).
  assert (E : forall j k, In j all -> In k all ->
    (if eqd j k then M j j * (z j * z j) else 0) - (off j k * (z j * z j) / 2 + off j k * (z k * z k) / 2) <= M j k * z j * z k).
  { intros j k Hj Hk. unfold off. destruct (eqd j k) as [<-|N]; [lra|].
    pose proof (Rle_0_sqr (z j - z k)) as P1. pose proof (Rle_0_sqr (z j + z k)) as P2. unfold Rsqr in P1, P2.
    unfold Rabs. destruct (Rcase_abs (M j k)); nra. }
  assert (S1 : rsum all (fun j => rsum all (fun k => if eqd j k then M j j * (z j * z j) else 0)) =
    rsum all (fun j => M j j * (z j * z j))).
  { apply rsum_ext. intros j Hj. rewrite (rsum_remove eqd all j) by auto.
    destruct (eqd j j); [|tauto]. rewrite rsum_0; [lra|]. intros k Hk. apply in_remove in Hk.
    destruct (eqd j k); [subst; tauto|auto]. }
  assert (S2 : rsum all (fun j => rsum all (fun k => off j k * (z k * z k) / 2)) =
    rsum all (fun j => rsum all (fun k => off j k * (z j * z j) / 2))).
  { rewrite rsum_swap. apply rsum_ext. intros j Hj. apply rsum_ext. intros k Hk.
    f_equal. f_equal. unfold off. destruct (eqd k j), (eqd j k); subst; try tauto. f_equal. auto. }
  assert (S3 : rsum all (fun j => rsum all (fun k => off j k * (z j * z j) / 2)) <=
    th / 2 * rsum all (fun j => M j j * (z j * z j))).
  { rewrite <- rsum_scal. apply rsum_le. intros j Hj.
    rewrite (rsum_ext all _ (fun k => (z j * z j) / 2 * off j k)) by (intros; lra). rewrite rsum_scal.
    specialize (DOM j Hj). fold (off j) in DOM. rewrite (Rabs_pos_eq (M j j)) in DOM by auto.
    change (fun h : I => off j h) with (off j) in *.
    pose proof (Rle_0_sqr (z j)) as P. unfold Rsqr in P.
    unfold off in *. nra. }
  eapply Rle_trans; [|apply rsum_le; intros j Hj; apply rsum_le; intros k Hk; apply E; auto].
  assert (S4 : rsum all (fun j => rsum all (fun k => (if eqd j k then M j j * (z j * z j) else 0) -
      (off j k * (z j * z j) / 2 + off j k * (z k * z k) / 2))) =
    rsum all (fun j => rsum all (fun k => if eqd j k then M j j * (z j * z j) else 0) -
      (rsum all (fun k => off j k * (z j * z j) / 2) + rsum all (fun k => off j k * (z k * z k) / 2)))).
  { apply rsum_ext. intros j Hj. rewrite <- rsum_plus, <- rsum_minus. reflexivity. }
  rewrite S4, rsum_minus, rsum_plus, S1, S2. lra.
Qed.
