(** Real numbers: triangular factors of nearly a positive definite matrix. *)
From Coq Require Import Reals Lra Lia List Arith Bool Psatz.
From Verif Require Import ModelNumeric SpecNumeric SpecReg SpecRound.
From Verif Require Import ProofExact ProofRound ProofDomReal.
Import ListNotations.
Local Open Scope R_scope.
Local Notation rsum := (suml Or).

Lemma abs_both x b : Rabs x <= b -> - b <= x <= b.
Proof. unfold Rabs. destruct (Rcase_abs x); lra. Qed.

(** ** Cauchy-Schwarz *)
Lemma twice_sum {I} (l : list I) (v : I -> R) a :
  2 * a * rsum l v <= INR (length l) * (a * a) + rsum l (fun j => v j * v j).
Proof.
  induction l as [|b l IH]; [cbn; lra|]. rewrite !rsum_cons. cbn [length]. rewrite S_INR.
  pose proof (Rle_0_sqr (a - v b)) as H. unfold Rsqr in H. nra.
Qed.
Lemma sum_sqr {I} (l : list I) (v : I -> R) :
  rsum l v * rsum l v <= INR (length l) * rsum l (fun j => v j * v j).
Proof.
  induction l as [|b l IH]; [cbn; lra|]. rewrite !rsum_cons. cbn [length]. rewrite S_INR.
  pose proof (twice_sum l v (v b)) as H. nra.
Qed.

(** number of elements with a nonzero value *)
Definition supp {I} (all : list I) (v : I -> R) (C : nat) : Prop :=
  exists l, NoDup l /\ (forall j, In j l -> In j all) /\ (length l <= C)%nat /\
    forall j, In j all -> ~ In j l -> v j = 0.

Lemma sum_sqr_supp {I} (dec : forall a b : I, {a = b} + {a <> b}) (all : list I) (v w : I -> R) C :
  NoDup all -> supp all v C ->
  rsum all (fun j => Rabs (v j * w j)) * rsum all (fun j => Rabs (v j * w j)) <=
  INR C * rsum all (fun j => v j * v j * (w j * w j)).
Proof.
  intros ND (l & NL & IL & LC & Z).
  rewrite (rsum_sub dec l all (fun j => Rabs (v j * w j))) by
    (auto; intros j Hj Hn; rewrite Z, Rmult_0_l, Rabs_R0 by auto; auto).
  eapply Rle_trans; [apply sum_sqr|].
  assert (E : rsum l (fun j => Rabs (v j * w j) * Rabs (v j * w j)) = rsum l (fun j => v j * v j * (w j * w j))).
  { apply rsum_ext. intros j _. rewrite <- Rabs_mult, Rabs_pos_eq; [ring|]. apply Rle_0_sqr. }
  cbv beta. rewrite E. apply Rmult_le_compat.
  - apply pos_INR.
  - apply rsum_pos. intros j _. apply Rmult_le_pos; apply Rle_0_sqr.
  - apply le_INR. auto.
  - apply (rsum_sub_le dec); auto. intros j _. apply Rmult_le_pos; apply Rle_0_sqr.
Qed.

(** ** sums over two and three indices *)
Section Sums.
  Context {I : Type} (all : list I).
  Lemma rsum2_scal (f g : I -> R) :
    rsum all (fun j => rsum all (fun k => f j * g k)) = rsum all f * rsum all g.
  Proof.
    rewrite (rsum_ext all _ (fun j => rsum all g * f j)), rsum_scal; [ring|].
    intros j _. rewrite rsum_scal. ring.
  Qed.
  Lemma rsum3 (d : I -> R) (f h : I -> I -> R) :
    rsum all (fun j => rsum all (fun k => rsum all (fun i => d i * f i j * h i k))) =
    rsum all (fun i => d i * (rsum all (f i) * rsum all (h i))).
  Proof.
    rewrite (rsum_ext all _ (fun j => rsum all (fun i => rsum all (fun k => d i * f i j * h i k))))
      by (intros; apply rsum_swap).
    rewrite rsum_swap. apply rsum_ext. intros i _.
    rewrite <- rsum2_scal, <- rsum_scal. apply rsum_ext. intros j _.
    rewrite <- rsum_scal. apply rsum_ext. intros; ring.
  Qed.
End Sums.

Section Prefix.
  Context {I : Type} (dec : forall a b : I, {a = b} + {a <> b}) (all : list I).
  Variables (U a : I -> I -> R) (d l c w : I -> R) (P : I -> bool).
  Variables (ga et ka amin : R) (C : nat).
  Local Notation N := (INR (length all)).
  Hypothesis ND : NoDup all.
  Hypothesis UZ : forall j i, In j all -> In i all -> P j = true -> P i = false -> U j i = 0.
  Hypothesis DP : forall i, In i all -> P i = true -> 0 <= d i.
  Hypothesis LP : forall i, In i all -> P i = false -> l i = 0.
  Hypothesis WP : forall i, In i all -> P i = false -> w i = 0.
  Hypothesis WS : forall i, In i all -> P i = true -> rsum all (fun j => U j i * w j) = l i.
  Hypothesis G0 : 0 <= ga.
  Hypothesis E0 : 0 <= et.
  Hypothesis K0 : 0 <= ka.
  Hypothesis KE : et <= ka * amin.
  Hypothesis A0 : 0 < amin.
  Hypothesis AM : forall j, In j all -> amin <= a j j.
  Hypothesis ER : forall j k, In j all -> In k all -> P j = true -> P k = true ->
    Rabs (a j k - rsum all (fun i => U j i * d i * U k i)) <= ga * rsum all (fun i => Rabs (U j i * d i * U k i)) + et.
  Hypothesis EC : forall k, In k all -> P k = true ->
    Rabs (c k - rsum all (fun i => l i * d i * U k i)) <= ga * rsum all (fun i => Rabs (l i * d i * U k i)) + et.
  Hypothesis PJ : forall j, In j all -> P j = true -> rsum all (fun i => U j i * U j i * Rabs (d i)) <= 2 * a j j.
  Hypothesis CC : forall i, In i all -> supp all (fun j => U j i) C.

  Definition T : R := rsum all (fun i => l i * l i * d i).
  Definition W2 : R := rsum all (fun j => a j j * (w j * w j)).
  Definition quadA : R := rsum all (fun j => rsum all (fun k => a j k * w j * w k)).
  Definition rowA : R := rsum all (fun k => c k * w k).

  Lemma Uw_out j i : In j all -> In i all -> P i = false -> U j i * w j = 0.
  Proof.
    intros Hj Hi Pi. destruct (P j) eqn:Pj; [rewrite UZ by auto|rewrite WP by auto]; ring.
  Qed.
  Lemma col_w i : In i all -> rsum all (fun j => U j i * w j) = l i.
  Proof.
    intros Hi. destruct (P i) eqn:Pi; [auto|]. rewrite LP by auto. apply rsum_0. intros j Hj. apply Uw_out; auto.
  Qed.

  Lemma T_pos : 0 <= T.
  Proof.
    apply rsum_pos. intros i Hi. destruct (P i) eqn:Pi; [|rewrite LP by auto; lra].
    apply Rmult_le_pos; [apply Rle_0_sqr|auto].
  Qed.
  Lemma W2_pos : 0 <= W2.
  Proof. apply rsum_pos. intros j Hj. apply Rmult_le_pos; [pose proof (AM j Hj); lra|apply Rle_0_sqr]. Qed.

  (** exact part *)
  Lemma quad_exact : rsum all (fun j => rsum all (fun k => rsum all (fun i => U j i * d i * U k i) * w j * w k)) = T.
  Proof.
    rewrite (rsum_ext all _ (fun j => rsum all (fun k => rsum all (fun i => d i * (U j i * w j) * (U k i * w k))))).
    - rewrite (rsum3 all d (fun i j => U j i * w j) (fun i k => U k i * w k)).
      apply rsum_ext. intros i Hi. rewrite !col_w by auto. ring.
    - intros j _. apply rsum_ext. intros k _.
      rewrite Rmult_assoc, Rmult_comm, <- rsum_scal. apply rsum_ext. intros; ring.
  Qed.
  Lemma row_exact : rsum all (fun k => rsum all (fun i => l i * d i * U k i) * w k) = T.
  Proof.
    rewrite (rsum_ext all _ (fun k => rsum all (fun i => l i * d i * (U k i * w k)))).
    - rewrite rsum_swap. apply rsum_ext. intros i Hi. rewrite rsum_scal, col_w by auto. ring.
    - intros k _. rewrite Rmult_comm, <- rsum_scal. apply rsum_ext. intros; ring.
  Qed.

  (** error part *)
  Definition Zi (i : I) : R := rsum all (fun j => Rabs (U j i * w j)).
  Lemma Z_sum : rsum all (fun i => Rabs (d i) * (Zi i * Zi i)) <= 2 * INR C * W2.
  Proof.
    apply Rle_trans with (rsum all (fun i => INR C * rsum all (fun j => Rabs (d i) * (U j i * U j i * (w j * w j))))).
    - apply rsum_le. intros i Hi. rewrite rsum_scal.
      replace (INR C * (Rabs (d i) * rsum all (fun j => U j i * U j i * (w j * w j))))
        with (Rabs (d i) * (INR C * rsum all (fun j => U j i * U j i * (w j * w j)))) by ring.
      apply Rmult_le_compat_l; [apply Rabs_pos|].
      apply (sum_sqr_supp dec all (fun j => U j i) w C); auto.
    - rewrite rsum_scal, rsum_swap. replace (2 * INR C * W2) with (INR C * (2 * W2)) by ring.
      apply Rmult_le_compat_l; [apply pos_INR|]. unfold W2. rewrite <- rsum_scal.
      apply rsum_le. intros j Hj. destruct (P j) eqn:Pj.
      + rewrite (rsum_ext all _ (fun i => w j * w j * (U j i * U j i * Rabs (d i)))) by (intros; ring).
        rewrite rsum_scal. pose proof (PJ j Hj Pj). pose proof (Rle_0_sqr (w j)) as Q. unfold Rsqr in Q. nra.
      + rewrite WP by auto. rewrite rsum_0; [lra|]. intros; ring.
  Qed.

  Lemma abs_w : rsum all (fun j => Rabs (w j)) * rsum all (fun j => Rabs (w j)) * amin <= N * W2.
  Proof.
    pose proof (sum_sqr all (fun j => Rabs (w j))) as H.
    apply Rle_trans with (N * rsum all (fun j => Rabs (w j) * Rabs (w j)) * amin).
    - apply Rmult_le_compat_r; lra.
    - rewrite Rmult_assoc. apply Rmult_le_compat_l; [apply pos_INR|].
      rewrite Rmult_comm, <- rsum_scal. apply rsum_le. intros j Hj.
      rewrite <- Rabs_mult, Rabs_pos_eq by apply Rle_0_sqr.
      apply Rmult_le_compat_r; [apply Rle_0_sqr|auto].
  Qed.

  Lemma quad_err : Rabs (quadA - T) <= (2 * INR C * ga + N * ka) * W2.
  Proof.
    rewrite <- quad_exact. unfold quadA. rewrite <- rsum_minus.
    rewrite (rsum_ext all _ (fun j => rsum all (fun k => (a j k - rsum all (fun i => U j i * d i * U k i)) * (w j * w k)))).
    2:{ intros j _. rewrite <- rsum_minus. apply rsum_ext. intros; ring. }
    eapply Rle_trans; [apply rsum_abs|].
    apply Rle_trans with (rsum all (fun j => rsum all (fun k =>
      ga * rsum all (fun i => Rabs (d i) * Rabs (U j i * w j) * Rabs (U k i * w k)) + et * (Rabs (w j) * Rabs (w k))))).
    - apply rsum_le. intros j Hj. eapply Rle_trans; [apply rsum_abs|]. apply rsum_le. intros k Hk.
      rewrite Rabs_mult.
      destruct (P j) eqn:Pj; [destruct (P k) eqn:Pk|].
      + eapply Rle_trans; [apply Rmult_le_compat_r; [apply Rabs_pos|apply ER; auto]|].
        right. rewrite Rabs_mult.
        rewrite (rsum_ext all (fun i => Rabs (d i) * Rabs (U j i * w j) * Rabs (U k i * w k))
          (fun i => Rabs (w j) * Rabs (w k) * Rabs (U j i * d i * U k i))), rsum_scal; [ring|].
        intros i _. rewrite !Rabs_mult. ring.
      + rewrite (WP k), Rmult_0_r, Rabs_R0, !Rmult_0_r by auto. rewrite Rplus_0_r.
        apply Rmult_le_pos; auto. apply rsum_pos. intros. repeat apply Rmult_le_pos; apply Rabs_pos.
      + rewrite (WP j), Rmult_0_l, Rabs_R0, !Rmult_0_r, Rmult_0_l, Rmult_0_r by auto. rewrite Rplus_0_r.
        apply Rmult_le_pos; auto. apply rsum_pos. intros. repeat apply Rmult_le_pos; apply Rabs_pos.
    - rewrite (rsum_ext all _ (fun j =>
        ga * rsum all (fun k => rsum all (fun i => Rabs (d i) * Rabs (U j i * w j) * Rabs (U k i * w k))) +
        et * rsum all (fun k => Rabs (w j) * Rabs (w k)))).
      2:{ intros j _. rewrite rsum_plus, !rsum_scal. auto. }
      rewrite rsum_plus, !rsum_scal, (rsum3 all (fun i => Rabs (d i)) (fun i j => Rabs (U j i * w j)) (fun i k => Rabs (U k i * w k))).
      rewrite rsum2_scal. fold (Zi).
      pose proof Z_sum as Z. unfold Zi in Z. pose proof abs_w as AW.
      set (s := rsum all (fun j => Rabs (w j))) in *.
      assert (et * (s * s) <= ka * (s * s * amin)).
      { replace (ka * (s * s * amin)) with (ka * amin * (s * s)) by ring. apply Rmult_le_compat_r; [apply Rle_0_sqr|auto]. }
      assert (ka * (s * s * amin) <= ka * (N * W2)) by (apply Rmult_le_compat_l; auto).
      set (z := rsum all (fun i => Rabs (d i) * _)) in *.
      assert (ga * z <= ga * (2 * INR C * W2)) by (apply Rmult_le_compat_l; auto). lra.
  Qed.

  Lemma row_err : 2 * Rabs (rowA - T) <= ga * (T + 2 * INR C * W2) + 2 * et * rsum all (fun k => Rabs (w k)).
  Proof.
    assert (EE : rowA - T = rsum all (fun k => (c k - rsum all (fun i => l i * d i * U k i)) * w k)).
    { rewrite <- row_exact. unfold rowA. rewrite <- rsum_minus. apply rsum_ext. intros; ring. }
    rewrite EE. clear EE.
    assert (B : Rabs (rsum all (fun k => (c k - rsum all (fun i => l i * d i * U k i)) * w k)) <=
      ga * rsum all (fun i => Rabs (d i) * (Rabs (l i) * Zi i)) + et * rsum all (fun k => Rabs (w k))).
    { eapply Rle_trans; [apply rsum_abs|].
      apply Rle_trans with (rsum all (fun k => ga * rsum all (fun i => Rabs (d i) * Rabs (l i) * Rabs (U k i * w k)) + et * Rabs (w k))).
      - apply rsum_le. intros k Hk. rewrite Rabs_mult. destruct (P k) eqn:Pk.
        + eapply Rle_trans; [apply Rmult_le_compat_r; [apply Rabs_pos|apply EC; auto]|].
          right. rewrite (rsum_ext all (fun i => Rabs (d i) * Rabs (l i) * Rabs (U k i * w k))
            (fun i => Rabs (w k) * Rabs (l i * d i * U k i))), rsum_scal; [ring|].
          intros i _. rewrite !Rabs_mult. ring.
        + rewrite (WP k), Rabs_R0, !Rmult_0_r by auto. rewrite Rplus_0_r.
          apply Rmult_le_pos; auto. apply rsum_pos. intros. repeat apply Rmult_le_pos; apply Rabs_pos.
      - rewrite rsum_plus, !rsum_scal, rsum_swap. right. do 2 f_equal. apply rsum_ext. intros i _.
        rewrite rsum_scal. unfold Zi. ring. }
    assert (Q : 2 * rsum all (fun i => Rabs (d i) * (Rabs (l i) * Zi i)) <= T + 2 * INR C * W2).
    { pose proof Z_sum as Z. unfold T. apply Rle_trans with
        (rsum all (fun i => l i * l i * d i) + rsum all (fun i => Rabs (d i) * (Zi i * Zi i))); [|lra].
      rewrite <- rsum_scal, <- rsum_plus. apply rsum_le. intros i Hi.
      assert (S : 2 * (Rabs (l i) * Zi i) <= l i * l i + Zi i * Zi i).
      { pose proof (Rle_0_sqr (Rabs (l i) - Zi i)) as S. unfold Rsqr in S.
        assert (Rabs (l i) * Rabs (l i) = l i * l i) by (rewrite <- Rabs_mult, Rabs_pos_eq; auto; apply Rle_0_sqr). nra. }
      assert (D : l i * l i * Rabs (d i) = l i * l i * d i).
      { destruct (P i) eqn:Pi; [rewrite (Rabs_pos_eq (d i)) by auto; auto|rewrite LP by auto; ring]. }
      rewrite <- D. pose proof (Rabs_pos (d i)). nra. }
    assert (ga * (2 * rsum all (fun i => Rabs (d i) * (Rabs (l i) * Zi i))) <= ga * (T + 2 * INR C * W2))
      by (apply Rmult_le_compat_l; auto).
    lra.
  Qed.

  (** a vector that bounds the underflow *)
  Lemma small_w X : amin <= X -> 2 * et * rsum all (fun k => Rabs (w k)) <= ka * (N * X + W2).
  Proof.
    intros HX. rewrite Rmult_assoc, (Rmult_comm et), <- Rmult_assoc, (Rmult_comm _ et), <- rsum_scal.
    apply Rle_trans with (ka * amin * rsum all (fun k => 2 * Rabs (w k))).
    - apply Rmult_le_compat_r; auto. apply rsum_pos. intros k _. pose proof (Rabs_pos (w k)). lra.
    - rewrite Rmult_assoc. apply Rmult_le_compat_l; auto.
      unfold W2. rewrite <- rsum_const, <- rsum_plus, <- rsum_scal. apply rsum_le. intros k Hk.
      pose proof (AM k Hk) as B. pose proof (Rle_0_sqr (Rabs (w k) - 1)) as S. unfold Rsqr in S.
      assert (Rabs (w k) * Rabs (w k) = w k * w k) by (rewrite <- Rabs_mult, Rabs_pos_eq; auto; apply Rle_0_sqr).
      assert (0 <= w k * w k) by apply Rle_0_sqr.
      apply Rle_trans with (amin * (1 + w k * w k)); [apply Rmult_le_compat_l; lra|].
      assert (amin * (w k * w k) <= a k k * (w k * w k)) by (apply Rmult_le_compat_r; auto). lra.
  Qed.

  (** the matrix is positive definite *)
  Variable lam : R.
  Hypothesis PD : forall z : I -> R,
    lam * rsum all (fun j => a j j * (z j * z j)) <= rsum all (fun j => rsum all (fun k => a j k * z j * z k)).
  Hypothesis SM : 8 * INR C * ga + 8 * N * ka <= lam.
  Hypothesis N1 : 1 <= N.

  Lemma T_W2 : lam * W2 <= 2 * T.
  Proof.
    pose proof (PD w) as H. fold W2 in H. fold quadA in H. pose proof quad_err as E. pose proof W2_pos as WW.
    apply abs_both in E. assert ((2 * INR C * ga + N * ka) * W2 <= lam / 4 * W2).
    { apply Rmult_le_compat_r; auto. pose proof (pos_INR C). nra. }
    lra.
  Qed.

  Section Row.
  Variable g : I.
  Hypothesis Hg : In g all.
  Hypothesis Pg : P g = false.
  Hypothesis CA : forall k, In k all -> c k = a g k.
  Hypothesis SYM : forall j k, In j all -> In k all -> a j k = a k j.

  Definition zv (k : I) : R := if dec k g then 1 else - w k.
  Lemma rsum_zv f : rsum all (fun k => f k * zv k) = f g - rsum all (fun k => f k * w k).
  Proof.
    assert (G : w g = 0) by auto.
    rewrite (rsum_remove dec all g) by auto. rewrite (rsum_remove dec all g (fun k => f k * w k)) by auto.
    unfold zv at 1. destruct (dec g g); [|congruence]. rewrite G.
    rewrite (rsum_ext (remove dec g all) _ (fun k => -1 * (f k * w k))), rsum_scal; [ring|].
    intros k Hk. apply in_remove in Hk. unfold zv. destruct (dec k g); [tauto|ring].
  Qed.

  Theorem row_bound : (1 - ga) * T <= (1 - lam + N * ka) * a g g.
  Proof.
    pose proof (PD zv) as H.
    assert (EL : rsum all (fun j => a j j * (zv j * zv j)) = a g g + W2).
    { assert (G : w g = 0) by auto. unfold W2.
      rewrite (rsum_remove dec all g) by auto. rewrite (rsum_remove dec all g (fun j => a j j * (w j * w j))) by auto.
      unfold zv at 1 2. destruct (dec g g); [|congruence]. rewrite G.
      rewrite (rsum_ext (remove dec g all) _ (fun j => a j j * (w j * w j))); [ring|].
      intros j Hj. apply in_remove in Hj. unfold zv. destruct (dec j g); [tauto|ring]. }
    assert (EQ : rsum all (fun j => rsum all (fun k => a j k * zv j * zv k)) = quadA - 2 * rowA + a g g).
    { rewrite (rsum_ext all _ (fun j => (a j g - rsum all (fun k => a j k * w k)) * zv j)).
      2:{ intros j _. rewrite rsum_zv. rewrite (rsum_ext all (fun k => a j k * zv j * w k) (fun k => zv j * (a j k * w k))), rsum_scal by (intros; ring). ring. }
      rewrite rsum_zv.
      rewrite (rsum_ext all (fun k => (a k g - rsum all (fun k0 => a k k0 * w k0)) * w k)
        (fun k => c k * w k - rsum all (fun k0 => a k k0 * w k * w k0))).
      2:{ intros k Hk. rewrite (CA k Hk), (SYM k g) by auto.
          rewrite (rsum_ext all (fun k0 => a k k0 * w k * w k0) (fun k0 => w k * (a k k0 * w k0))), rsum_scal by (intros; ring). ring. }
      rewrite rsum_minus. fold quadA. fold rowA.
      rewrite (rsum_ext all (fun k => a g k * w k) (fun k => c k * w k)) by (intros k Hk; rewrite CA; auto).
      fold rowA. ring. }
    rewrite EL, EQ in H.
    pose proof quad_err as E1. pose proof row_err as E2. pose proof (small_w (a g g) (AM g Hg)) as E3.
    pose proof W2_pos as WW. pose proof T_pos as TT. apply abs_both in E1.
    assert (E4 : - Rabs (rowA - T) <= rowA - T).
    { pose proof (Rle_abs (- (rowA - T))) as Q. rewrite Rabs_Ropp in Q. lra. }
    assert (WB : (4 * INR C * ga + (N + 1) * ka - lam) * W2 <= 0).
    { pose proof (pos_INR C). assert (0 <= INR C * ga) by (apply Rmult_le_pos; auto).
      assert (1 * ka <= N * ka) by (apply Rmult_le_compat_r; auto). assert (0 <= N * ka) by lra.
      rewrite <- (Rmult_0_l W2). apply Rmult_le_compat_r; auto. lra. }
    lra.
  Qed.
  End Row.

  Hypothesis L0 : 0 < lam.
  Hypothesis L1 : lam <= 1.
  Hypothesis C1 : (1 <= C)%nat.

  Lemma ga_le : 8 * ga <= lam.
  Proof.
    assert (1 <= INR C) by (apply (le_INR 1); auto). assert (1 * ga <= INR C * ga) by (apply Rmult_le_compat_r; auto).
    assert (0 <= N * ka) by (apply Rmult_le_pos; lra). lra.
  Qed.

  (** a right-hand side *)
  Theorem rhs_bound (B : R) : (forall k, In k all -> Rabs (c k) <= B) -> amin <= B ->
    lam * amin * T <= 5 * N * (B * B).
  Proof.
    intros HB HA. pose proof T_W2 as H1. pose proof W2_pos as WW. pose proof T_pos as TT.
    pose proof row_err as E2. pose proof (small_w amin (Rle_refl _)) as E3. pose proof ga_le as GL.
    assert (E4 : T - rowA <= Rabs (rowA - T)).
    { pose proof (Rle_abs (- (rowA - T))) as Q. rewrite Rabs_Ropp in Q. lra. }
    assert (LA : 0 < lam * amin) by (apply Rmult_lt_0_compat; auto).
    assert (RB : 2 * (lam * amin) * rowA <= 4 * (N * (B * B)) + lam * amin * (lam / 4 * W2)).
    { unfold rowA, W2. rewrite <- rsum_const, <- !rsum_scal, <- rsum_plus. apply rsum_le. intros k Hk.
      pose proof (HB k Hk) as B1. pose proof (AM k Hk) as B2.
      assert (B3 : c k * c k <= B * B).
      { rewrite <- (Rabs_pos_eq (c k * c k)) by apply Rle_0_sqr. rewrite Rabs_mult.
        apply Rmult_le_compat; auto; apply Rabs_pos. }
      pose proof (Rle_0_sqr (2 * c k - lam * amin / 2 * w k)) as S. unfold Rsqr in S.
      assert (S2 : 0 <= w k * w k) by apply Rle_0_sqr.
      assert (S3 : lam * lam / 4 * amin * (amin * (w k * w k)) <= lam * lam / 4 * amin * (a k k * (w k * w k))).
      { apply Rmult_le_compat_l; [nra|]. apply Rmult_le_compat_r; auto. }
      lra. }
    assert (CG : 0 <= INR C * ga) by (apply Rmult_le_pos; auto; apply pos_INR).
    assert (NK : 1 * ka <= N * ka) by (apply Rmult_le_compat_r; auto).
    assert (W1 : (2 * INR C * ga + ka) * W2 <= lam / 4 * W2) by (apply Rmult_le_compat_r; auto; lra).
    assert (W3 : ga * T <= 1 / 8 * T) by (apply Rmult_le_compat_r; auto; lra).
    assert (W4 : N * ka * amin <= lam / 8 * amin) by (apply Rmult_le_compat_r; lra).
    assert (H2 : 2 * T <= 2 * rowA + T / 8 + T / 2 + lam / 8 * amin) by lra.
    assert (H3 : lam * amin * (2 * T) <= lam * amin * (2 * rowA + T / 8 + T / 2 + lam / 8 * amin)) by (apply Rmult_le_compat_l; lra).
    assert (H4 : lam * amin * (lam / 4 * W2) <= lam * amin * (T / 2)) by (apply Rmult_le_compat_l; lra).
    assert (H5 : lam * amin * (lam / 8 * amin) <= B * B / 8).
    { assert (lam * lam <= 1 * 1) by (apply Rmult_le_compat; lra).
      assert (amin * amin <= B * B) by (apply Rmult_le_compat; lra).
      assert (lam * lam * (amin * amin) <= 1 * (amin * amin)) by (apply Rmult_le_compat_r; nra). lra. }
    assert (H6 : 1 * (B * B) <= N * (B * B)) by (apply Rmult_le_compat_r; auto; apply Rle_0_sqr).
    assert (H7 : 0 <= B * B) by apply Rle_0_sqr. lra.
  Qed.

  (** backward *)
  Theorem back_bound (zb : I -> R) e2 : 0 <= e2 -> (forall i, In i all -> 0 <= d i /\ 0 <= zb i) ->
    (forall i, In i all -> Rabs (l i) <= zb i + ga * Zi i + e2) ->
    lam * W2 <= 5 * rsum all (fun i => d i * ((zb i + e2) * (zb i + e2))).
  Proof.
    intros H0 Hd HL. pose proof T_W2 as H1. pose proof W2_pos as WW. pose proof ga_le as GL. pose proof Z_sum as ZS.
    set (S := rsum all (fun i => d i * ((zb i + e2) * (zb i + e2)))).
    assert (H2 : T <= 2 * S + 2 * (ga * ga) * rsum all (fun i => Rabs (d i) * (Zi i * Zi i))).
    { unfold T, S. rewrite <- !rsum_scal, <- rsum_plus. apply rsum_le. intros i Hi.
      destruct (Hd i Hi) as [D0 B0]. rewrite Rabs_pos_eq by auto. specialize (HL i Hi).
      assert (Z0 : 0 <= Zi i) by (apply rsum_pos; intros; apply Rabs_pos).
      assert (LL : l i * l i <= (zb i + ga * Zi i + e2) * (zb i + ga * Zi i + e2)).
      { rewrite <- (Rabs_pos_eq (l i * l i)) by apply Rle_0_sqr. rewrite Rabs_mult.
        apply Rmult_le_compat; auto; apply Rabs_pos. }
      pose proof (Rle_0_sqr (zb i + e2 - ga * Zi i)) as Q. unfold Rsqr in Q.
      assert (LL2 : l i * l i <= 2 * ((zb i + e2) * (zb i + e2)) + 2 * (ga * ga * (Zi i * Zi i))) by lra.
      apply Rle_trans with ((2 * ((zb i + e2) * (zb i + e2)) + 2 * (ga * ga * (Zi i * Zi i))) * d i).
      - apply Rmult_le_compat_r; auto.
      - lra. }
    assert (GG : 0 <= ga * ga) by (apply Rle_0_sqr).
    assert (H3 : ga * ga * rsum all (fun i => Rabs (d i) * (Zi i * Zi i)) <= ga * ga * (2 * INR C * W2))
      by (apply Rmult_le_compat_l; auto).
    assert (H4 : ga * (8 * INR C * ga * W2) <= ga * (lam * W2)).
    { apply Rmult_le_compat_l; auto. apply Rmult_le_compat_r; auto.
      assert (0 <= N * ka) by (apply Rmult_le_pos; lra). lra. }
    assert (H5 : ga * (lam * W2) <= 1 / 8 * (lam * W2)) by (apply Rmult_le_compat_r; [apply Rmult_le_pos|]; lra).
    assert (S0 : 0 <= S) by (apply rsum_pos; intros i Hi; apply Rmult_le_pos; [apply Hd; auto|apply Rle_0_sqr]).
    lra.
  Qed.
End Prefix.

(** ** triangular systems have solutions *)
Section Tri.
  Context {I : Type} (dec : forall a b : I, {a = b} + {a <> b}) (all : list I) (rk : I -> nat).
  Variables (U : I -> I -> R) (P : I -> bool) (l : I -> R).
  Hypothesis ND : NoDup all.
  Hypothesis RI : forall g h, In g all -> In h all -> rk g = rk h -> g = h.
  Hypothesis U1 : forall i, In i all -> U i i = 1.
  Hypothesis UZ : forall j i, In j all -> In i all -> (rk j < rk i)%nat -> U j i = 0.

  Lemma tri_step M : (forall i, In i all -> (rk i < M)%nat) -> forall n, exists w : I -> R,
    (forall i, In i all -> P i = false -> w i = 0) /\
    (forall i, In i all -> P i = true -> (M <= n + rk i)%nat -> rsum all (fun j => U j i * w j) = l i).
  Proof.
    intros HM. induction n as [|n (w & W1 & W2)].
    - exists (fun _ => 0). split; auto. intros i Hi _ H. specialize (HM i Hi). lia.
    - destruct (find (fun i => (M =? S n + rk i)%nat && P i) all) as [i0|] eqn:F.
      + apply find_some in F. destruct F as [H0 F]. apply andb_true_iff in F. destruct F as [F1 F2]. apply Nat.eqb_eq in F1.
        set (v := l i0 - rsum (remove dec i0 all) (fun j => U j i0 * w j)).
        exists (fun j => if dec j i0 then v else w j). split.
        * intros i Hi Pi. destruct (dec i i0); [congruence|auto].
        * intros i Hi Pi Hn. rewrite (rsum_remove dec all i0) by auto. destruct (dec i0 i0); [|congruence].
          rewrite (rsum_ext (remove dec i0 all) _ (fun j => U j i * w j)).
          2:{ intros j Hj. apply in_remove in Hj. destruct (dec j i0); [tauto|auto]. }
          destruct (dec i i0) as [->|Ne]; [rewrite U1 by auto; unfold v; ring|].
          assert (Lt : (rk i0 < rk i)%nat).
          { assert (rk i <> rk i0) by (intros E; apply Ne, RI; auto). lia. }
          rewrite <- (W2 i) by (auto; lia). rewrite (rsum_remove dec all i0 (fun j => U j i * w j)) by auto.
          rewrite (UZ i0 i) by auto. ring.
      + exists w. split; auto. intros i Hi Pi Hn. destruct (Nat.eq_dec M (S n + rk i)) as [E|Ne].
        * exfalso. pose proof (find_none _ _ F i Hi) as X. cbv beta in X. rewrite Pi, andb_true_r in X.
          apply Nat.eqb_neq in X. lia.
        * apply W2; auto. lia.
  Qed.

  Lemma tri_solve : exists w : I -> R,
    (forall i, In i all -> P i = false -> w i = 0) /\
    (forall i, In i all -> P i = true -> rsum all (fun j => U j i * w j) = l i).
  Proof.
    destruct (tri_step (S (list_max (map rk all)))) with (n := S (list_max (map rk all))) as (w & W1 & W2).
    - intros i Hi. pose proof (proj1 (list_max_le (map rk all) _) (Nat.le_refl _)) as H. rewrite Forall_forall in H.
      specialize (H (rk i) (in_map _ _ _ Hi)). lia.
    - exists w. split; auto. intros i Hi Pi. apply W2; auto. lia.
  Qed.
End Tri.
