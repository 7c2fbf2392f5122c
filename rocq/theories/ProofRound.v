(** Error analysis of rounded arithmetic: sequences of subtractions, triangular
    solves and L D L^T factorizations, over any finite index set. *)
From Coq Require Import Reals Lra Lia List Arith Bool Psatz.
From Verif Require Import ModelNumeric SpecNumeric SpecReg SpecRound.
From Verif Require Import ProofExact ProofArrowSub ProofChain.
Import ListNotations.
Local Open Scope R_scope.

(** ** sums *)
Local Notation rsum := (suml Or).

Lemma rsum_nil {I} (f : I -> R) : rsum [] f = 0.
Proof. reflexivity. Qed.
Lemma rsum_cons {I} (a : I) l f : rsum (a :: l) f = f a + rsum l f.
Proof. reflexivity. Qed.
Lemma rsum_app {I} (l1 l2 : list I) f : rsum (l1 ++ l2) f = rsum l1 f + rsum l2 f.
Proof. induction l1 as [|a l IH]; cbn [app]; rewrite ?rsum_nil, ?rsum_cons; [lra|]. rewrite IH. lra. Qed.
Lemma rsum_ext {I} (l : list I) f g : (forall k, In k l -> f k = g k) -> rsum l f = rsum l g.
Proof.
  induction l as [|a l IH]; intros H; [reflexivity|]. rewrite !rsum_cons.
  rewrite (H a) by (left; auto). rewrite IH; auto. intros; apply H; right; auto.
Qed.
Lemma rsum_le {I} (l : list I) f g : (forall k, In k l -> f k <= g k) -> rsum l f <= rsum l g.
Proof.
  induction l as [|a l IH]; intros H; [cbn; lra|]. rewrite !rsum_cons.
  apply Rplus_le_compat; [apply H; left; auto|]. apply IH. intros; apply H; right; auto.
Qed.
Lemma rsum_pos {I} (l : list I) f : (forall k, In k l -> 0 <= f k) -> 0 <= rsum l f.
Proof.
  induction l as [|a l IH]; intros H; [cbn; lra|]. rewrite rsum_cons.
  apply Rplus_le_le_0_compat; [apply H; left; auto|]. apply IH. intros; apply H; right; auto.
Qed.
Lemma rsum_abs {I} (l : list I) f : Rabs (rsum l f) <= rsum l (fun k => Rabs (f k)).
Proof.
  induction l as [|a l IH]; [cbn; rewrite Rabs_R0; lra|]. rewrite !rsum_cons.
  eapply Rle_trans; [apply Rabs_triang|]. lra.
Qed.
Lemma rsum_plus {I} (l : list I) f g : rsum l (fun k => f k + g k) = rsum l f + rsum l g.
Proof. induction l as [|a l IH]; [cbn; lra|]. rewrite !rsum_cons, IH. lra. Qed.
Lemma rsum_scal {I} (l : list I) c f : rsum l (fun k => c * f k) = c * rsum l f.
Proof. induction l as [|a l IH]; [cbn; lra|]. rewrite !rsum_cons, IH. lra. Qed.
Lemma rsum_const {I} (l : list I) c : rsum l (fun _ => c) = INR (length l) * c.
Proof.
  induction l as [|a l IH]; [cbn; lra|]. rewrite !rsum_cons, IH. cbn [length]. rewrite S_INR. lra.
Qed.
Lemma rsum_0 {I} (l : list I) f : (forall k, In k l -> f k = 0) -> rsum l f = 0.
Proof. intros H. rewrite (rsum_ext _ _ (fun _ => 0)) by auto. rewrite rsum_const. lra. Qed.
Lemma rsum_swap {I J} (l : list I) (m : list J) f :
  rsum l (fun i => rsum m (fun j => f i j)) = rsum m (fun j => rsum l (fun i => f i j)).
Proof.
  induction l as [|a l IH].
  - symmetry. apply rsum_0. reflexivity.
  - rewrite rsum_cons, IH, <- rsum_plus. apply rsum_ext. intros j _. rewrite rsum_cons. auto.
Qed.

Section Index.
  Context {I : Type} (dec : forall a b : I, {a = b} + {a <> b}).

  Lemma rsum_remove (l : list I) a f : NoDup l -> In a l ->
    rsum l f = f a + rsum (remove dec a l) f.
  Proof.
    induction l as [|b l IH]; intros ND H; [destruct H|]. inversion ND as [|? ? Nb ND']. subst.
    cbn [remove]. rewrite rsum_cons. destruct (dec a b) as [->|N].
    - rewrite notin_remove by auto. auto.
    - rewrite rsum_cons. destruct H as [->|H]; [congruence|]. rewrite (IH ND' H). lra.
  Qed.

  Lemma remove_NoDup (l : list I) a : NoDup l -> NoDup (remove dec a l).
  Proof.
    induction l as [|b l IH]; intros ND; cbn [remove]; auto. inversion ND as [|? ? Nb ND']. subst.
    destruct (dec a b); auto. constructor; auto. intros H. apply in_remove in H. tauto.
  Qed.

  (** a sum over part of the index set *)
  Lemma rsum_sub (l all : list I) f :
    NoDup l -> NoDup all -> (forall k, In k l -> In k all) ->
    (forall k, In k all -> ~ In k l -> f k = 0) -> rsum all f = rsum l f.
  Proof.
    revert all. induction l as [|a l IH]; intros all ND NA Hl H0.
    - apply rsum_0. intros k Hk. apply H0; auto.
    - inversion ND as [|? ? Na ND']. subst. rewrite rsum_cons.
      rewrite (rsum_remove all a) by (auto; apply Hl; left; auto). f_equal.
      apply IH; auto.
      + apply remove_NoDup. auto.
      + intros k Hk. apply in_in_remove; [intros ->; auto|]. apply Hl. right. auto.
      + intros k Hk Hn. apply in_remove in Hk. destruct Hk as [Hk N]. apply H0; auto.
        intros [->|H]; auto.
  Qed.

  Lemma rsum_sub_le (l all : list I) f :
    NoDup l -> NoDup all -> (forall k, In k l -> In k all) ->
    (forall k, In k all -> 0 <= f k) -> rsum l f <= rsum all f.
  Proof.
    revert all. induction l as [|a l IH]; intros all ND NA Hl H0.
    - rewrite rsum_nil. apply rsum_pos. auto.
    - inversion ND as [|? ? Na ND']. subst. rewrite rsum_cons.
      rewrite (rsum_remove all a) by (auto; apply Hl; left; auto).
      apply Rplus_le_compat_l. apply IH; auto.
      + apply remove_NoDup. auto.
      + intros k Hk. apply in_in_remove; [intros ->; auto|]. apply Hl. right. auto.
      + intros k Hk. apply in_remove in Hk. apply H0. tauto.
  Qed.
End Index.

(** ** growth factors *)
Section Round.
  Context {F : Type} (O : ops F) (fin : F -> Prop) (val : F -> R) (u eta : R).
  Context (RO : rounding O fin val u eta).
  Let q := / (1 - u).

  Lemma u_bounds : 0 <= u < 1. Proof. apply RO. Qed.
  Lemma eta_pos : 0 <= eta. Proof. apply RO. Qed.
  Lemma q_ge1 : 1 <= q.
  Proof.
    pose proof u_bounds as H. unfold q. rewrite <- Rinv_1 at 1. apply Rinv_le_contravar; lra.
  Qed.
  Lemma qpow_ge1 m : 1 <= q ^ m.
  Proof. apply pow_R1_Rle, q_ge1. Qed.
  Lemma qpow_le m n : (m <= n)%nat -> q ^ m <= q ^ n.
  Proof. intros H. apply Rle_pow; auto. apply q_ge1. Qed.
  Lemma qpow_pos m : 0 < q ^ m.
  Proof. pose proof (qpow_ge1 m). lra. Qed.
  Lemma gam_q m : gam u m = q ^ m - 1.
  Proof. unfold gam, q. rewrite pow_inv. auto. Qed.

  Lemma abs_1d d : Rabs d <= u -> 0 < 1 - u <= Rabs (1 + d) /\ Rabs (1 + d) <= q /\ 1 + d <> 0.
  Proof.
    intros H. pose proof u_bounds as U. assert (- u <= d <= u) by (split; revert H; unfold Rabs; destruct (Rcase_abs d); lra).
    rewrite (Rabs_pos_eq (1 + d)) by lra. split; [lra|]. split; [|lra].
    unfold q. assert (1 + d <= 1 + u) by lra. eapply Rle_trans; [eassumption|].
    apply Rmult_le_reg_r with (1 - u); [lra|]. rewrite Rinv_l by lra. nra.
  Qed.

  Lemma div_1d d x : Rabs d <= u -> Rabs (x / (1 + d) - x) <= (q - 1) * Rabs x.
  Proof.
    intros H. destruct (abs_1d d H) as (H1 & H2 & H3). pose proof u_bounds as U.
    replace (x / (1 + d) - x) with (x * (- d / (1 + d))) by (field; auto).
    rewrite Rabs_mult, Rmult_comm. apply Rmult_le_compat_r; [apply Rabs_pos|].
    unfold Rdiv. rewrite Rabs_mult, Rabs_Ropp, Rabs_inv.
    apply Rmult_le_reg_r with (Rabs (1 + d)); [lra|].
    rewrite Rmult_assoc, Rinv_l, Rmult_1_r by lra.
    eapply Rle_trans; [exact H|]. unfold q.
    apply Rmult_le_reg_l with (1 - u); [lra|].
    replace ((1 - u) * ((/ (1 - u) - 1) * Rabs (1 + d))) with (u * Rabs (1 + d)) by (field; lra).
    nra.
  Qed.

  Lemma div_1d_abs d x : Rabs d <= u -> Rabs (x / (1 + d)) <= q * Rabs x.
  Proof.
    intros H. pose proof (div_1d d x H) as H1.
    replace (x / (1 + d)) with (x / (1 + d) - x + x) by lra.
    eapply Rle_trans; [apply Rabs_triang|]. lra.
  Qed.

  (** ** sequences of subtractions

      [acc] is [res] plus the sum [S], up to errors relative to [res] and the sum
      [T] of the absolute values; m roundings of the running value, a further ones
      in each term; c counts the underflow errors *)
  Definition Appr (a m : nat) (c acc res S T : R) : Prop :=
    0 <= c /\ Rabs S <= T /\
    Rabs (acc - res - S) <= (q ^ m - 1) * Rabs res + (q ^ (m + a) - 1) * T + eta * c * q ^ (m + a).

  Lemma appr_0 a acc : Appr a 0 0 acc acc 0 0.
  Proof.
    split; [lra|]. rewrite Rabs_R0. split; [lra|]. replace (acc - acc - 0) with 0 by lra.
    rewrite Rabs_R0. cbn [pow]. lra.
  Qed.

  Lemma appr_res_abs a m c acc res S T : Appr a m c acc res S T ->
    Rabs acc <= q ^ m * Rabs res + q ^ (m + a) * T + eta * c * q ^ (m + a).
  Proof.
    intros (H0 & H1 & H2). replace acc with ((acc - res - S) + (res + S)) by lra.
    eapply Rle_trans; [apply Rabs_triang|].
    eapply Rle_trans; [apply Rplus_le_compat; [exact H2|apply Rabs_triang]|]. lra.
  Qed.

  Lemma appr_comp a m1 m2 c1 c2 acc mid res S1 S2 T1 T2 :
    Appr a m1 c1 acc mid S1 T1 -> Appr a m2 c2 mid res S2 T2 ->
    Appr a (m1 + m2) (c1 + c2) acc res (S1 + S2) (T1 + T2).
  Proof.
    intros (A0 & A1 & A2) B. pose proof (appr_res_abs _ _ _ _ _ _ _ B) as BM.
    destruct B as (B0 & B1 & B2). split; [lra|]. split.
    { eapply Rle_trans; [apply Rabs_triang|]. lra. }
    replace (acc - res - (S1 + S2)) with ((acc - mid - S1) + (mid - res - S2)) by lra.
    eapply Rle_trans; [apply Rabs_triang|].
    pose proof (qpow_ge1 m1) as G1. pose proof (qpow_ge1 m2) as G2. pose proof eta_pos as E0.
    pose proof (Rabs_pos res) as P0. pose proof (Rabs_pos S1) as P1. pose proof (Rabs_pos S2) as P2.
    assert (X : (q ^ m1 - 1) * Rabs mid <=
       (q ^ m1 - 1) * (q ^ m2 * Rabs res + q ^ (m2 + a) * T2 + eta * c2 * q ^ (m2 + a))).
    { apply Rmult_le_compat_l; lra. }
    assert (Y : q ^ (m1 + a) <= q ^ (m1 + m2 + a)) by (apply qpow_le; lia).
    assert (Z : q ^ (m1 + m2) = q ^ m1 * q ^ m2) by apply pow_add.
    assert (W : q ^ (m1 + m2 + a) = q ^ m1 * q ^ (m2 + a)) by (rewrite <- pow_add; f_equal; lia).
    assert (V1 : (q ^ (m1 + a) - 1) * T1 <= (q ^ (m1 + m2 + a) - 1) * T1).
    { apply Rmult_le_compat_r; lra. }
    assert (V2 : eta * c1 * q ^ (m1 + a) <= eta * c1 * q ^ (m1 + m2 + a)).
    { apply Rmult_le_compat_l; auto. apply Rmult_le_pos; auto. }
    rewrite Z. apply Rle_trans with
      ((q ^ m1 - 1) * (q ^ m2 * Rabs res + q ^ (m2 + a) * T2 + eta * c2 * q ^ (m2 + a)) +
       (q ^ (m1 + m2 + a) - 1) * T1 + eta * c1 * q ^ (m1 + m2 + a) +
       ((q ^ m2 - 1) * Rabs res + (q ^ (m2 + a) - 1) * T2 + eta * c2 * q ^ (m2 + a))); [lra|].
    rewrite W. right. ring.
  Qed.

  Lemma appr_mono a m m' c c' acc res S T :
    (m <= m')%nat -> c <= c' -> Appr a m c acc res S T -> Appr a m' c' acc res S T.
  Proof.
    intros Hm Hc (H0 & H1 & H2). split; [lra|]. split; auto.
    eapply Rle_trans; [exact H2|].
    pose proof (qpow_le m m' Hm). pose proof (qpow_le (m + a) (m' + a) ltac:(lia)).
    pose proof (Rabs_pos res). pose proof (Rabs_pos S). pose proof eta_pos.
    repeat apply Rplus_le_compat.
    - apply Rmult_le_compat_r; lra.
    - apply Rmult_le_compat_r; lra.
    - apply Rmult_le_compat; auto.
      + apply Rmult_le_pos; auto.
      + left. apply qpow_pos.
      + apply Rmult_le_compat_l; auto.
  Qed.

  (** a term x computed instead of t *)
  Definition termErr (a : nat) (c t x : R) : Prop :=
    0 <= c /\ Rabs (x - t) <= (q ^ (1 + a) - 1) * Rabs t + eta * c * q ^ (1 + a).

  Lemma appr_step a c acc t x : fin (osub O acc x) ->
    termErr a c t (val x) -> Appr a 1 (1 + c) (val acc) (val (osub O acc x)) t (Rabs t).
  Proof.
    intros Hf (Hc & Ht). destruct (rd_sub _ _ _ _ _ RO acc x Hf) as (_ & _ & d & e & Hd & He & E).
    split; [lra|]. split; [lra|].
    destruct (abs_1d d Hd) as (D1 & D2 & D3).
    set (r := val (osub O acc x)) in *.
    assert (EA : val acc - r - t = (r / (1 + d) - r) + (- e / (1 + d)) + (val x - t)).
    { rewrite E. field. auto. }
    rewrite EA.
    eapply Rle_trans; [apply Rabs_triang|].
    eapply Rle_trans; [apply Rplus_le_compat; [apply Rabs_triang|exact Ht]|].
    pose proof (div_1d d r Hd) as X1. pose proof (div_1d_abs d (- e) Hd) as X2.
    rewrite Rabs_Ropp in X2.
    assert (X3 : q * Rabs e <= eta * 1 * q ^ (1 + a)).
    { rewrite Rmult_1_r, Rmult_comm. apply Rmult_le_compat.
      - apply Rabs_pos.
      - pose proof q_ge1. lra.
      - auto.
      - rewrite <- (pow_1 q) at 1. apply qpow_le. lia. }
    rewrite pow_1. lra.
  Qed.

  Lemma reduces_fin {I} (T : I -> F -> Prop) l acc res :
    reduces O T acc l res -> fin res -> fin acc.
  Proof.
    induction 1 as [acc|acc k l x r Hx R0 IH]; intros Hf; auto.
    apply IH, (rd_sub _ _ _ _ _ RO) in Hf. tauto.
  Qed.

  Lemma appr_reduces {I} a (T : I -> F -> Prop) (l : list I) (c t : I -> R) acc res :
    (forall k x, In k l -> T k x -> fin x -> termErr a (c k) (t k) (val x)) ->
    reduces O T acc l res -> fin res ->
    Appr a (length l) (rsum l (fun k => 1 + c k)) (val acc) (val res)
      (rsum l t) (rsum l (fun k => Rabs (t k))).
  Proof.
    intros H R0 Hf. induction R0 as [acc|acc k l x r Hx R0 IH].
    - apply appr_0.
    - cbn [length]. rewrite !rsum_cons.
      pose proof (reduces_fin _ _ _ _ R0 Hf) as Hs.
      apply (appr_comp a 1 (length l) _ _ (val acc) (val (osub O acc x))).
      + apply appr_step; auto. apply H; [left; auto|auto|].
        apply (rd_sub _ _ _ _ _ RO) in Hs. tauto.
      + apply IH; auto. intros; apply H; auto. right; auto.
  Qed.

  Lemma subl_fin {I} (l : list I) x acc : fin (subl O acc l x) ->
    fin acc /\ forall k, In k l -> fin (x k).
  Proof.
    revert acc. induction l as [|k l IH]; intros acc H; [split; [auto|intros k []]|].
    change (subl O acc (k :: l) x) with (subl O (osub O acc (x k)) l x) in H.
    destruct (IH _ H) as [H1 H2]. apply (rd_sub _ _ _ _ _ RO) in H1. split; [tauto|].
    intros k' [<-|Hk]; [tauto|auto].
  Qed.

  Lemma appr_subl {I} a (l : list I) (c t : I -> R) (x : I -> F) acc :
    (forall k, In k l -> fin (x k) -> termErr a (c k) (t k) (val (x k))) ->
    fin (subl O acc l x) ->
    Appr a (length l) (rsum l (fun k => 1 + c k)) (val acc) (val (subl O acc l x))
      (rsum l t) (rsum l (fun k => Rabs (t k))).
  Proof.
    intros H Hf. apply (appr_reduces a (fun k y => y = x k)); auto.
    - intros k y Hk -> Hy. auto.
    - apply reduces_subl. auto.
  Qed.

  (** ** terms *)

  Lemma term_mul l y : fin (omul O l y) -> termErr 0 1 (val l * val y) (val (omul O l y)).
  Proof.
    intros Hf. destruct (rd_mul _ _ _ _ _ RO l y Hf) as (_ & _ & d & e & Hd & He & E). split; [lra|].
    rewrite E. replace (val l * val y * (1 + d) + e - val l * val y) with (val l * val y * d + e) by ring.
    eapply Rle_trans; [apply Rabs_triang|]. rewrite Rabs_mult.
    cbn [pow Nat.add]. rewrite !Rmult_1_r.
    pose proof q_ge1 as Q. pose proof (Rabs_pos (val l * val y)) as P. pose proof u_bounds as U.
    assert (u <= q - 1).
    { unfold q. apply Rmult_le_reg_r with (1 - u); [lra|].
      replace ((/ (1 - u) - 1) * (1 - u)) with u by (field; lra). nra. }
    apply Rplus_le_compat.
    - rewrite Rmult_comm. apply Rmult_le_compat_r; lra.
    - pose proof eta_pos. nra.
  Qed.

  Lemma u_le_q : 1 + u <= q.
  Proof.
    pose proof u_bounds as U. unfold q. apply Rmult_le_reg_r with (1 - u); [lra|].
    rewrite Rinv_l by lra. nra.
  Qed.

  Lemma near_mul_abs x y : near u eta x y -> Rabs (y - x) <= (q - 1) * Rabs x + eta.
  Proof.
    intros (d & e & Hd & He & ->). replace (x * (1 + d) + e - x) with (x * d + e) by ring.
    eapply Rle_trans; [apply Rabs_triang|]. rewrite Rabs_mult.
    pose proof (Rabs_pos x). pose proof u_le_q.
    apply Rplus_le_compat; auto. rewrite Rmult_comm. apply Rmult_le_compat_r; lra.
  Qed.

  (** a quotient times its divisor *)
  Lemma div_back s' D' : fin D' -> fin (odiv O s' D') ->
    Rabs (val s' - val (odiv O s' D') * val D') <=
      (q - 1) * Rabs (val (odiv O s' D') * val D') + q * (eta * Rabs (val D')).
  Proof.
    intros HF Hf. destruct (rd_div _ _ _ _ _ RO s' D' HF Hf) as (_ & HD & d & e & Hd & He & E).
    destruct (abs_1d d Hd) as (D1 & D2 & D3).
    set (l := val (odiv O s' D')) in *. set (D := val D') in *. set (s := val s') in *.
    assert (EA : s - l * D = (l * D / (1 + d) - l * D) + (- (e * D)) / (1 + d)).
    { rewrite E. field. split; auto. }
    rewrite EA. eapply Rle_trans; [apply Rabs_triang|]. apply Rplus_le_compat.
    - apply div_1d; auto.
    - eapply Rle_trans; [apply div_1d_abs; auto|]. rewrite Rabs_Ropp, Rabs_mult.
      pose proof q_ge1. apply Rmult_le_compat_l; [lra|].
      apply Rmult_le_compat_r; [apply Rabs_pos|auto].
  Qed.

  (** product with an undivided entry *)
  Lemma term_scaled h D' s' x : fin D' -> fin (odiv O s' D') ->
    near u eta (h * val s') x ->
    termErr 1 (1 + Rabs (val D') * Rabs h) (val (odiv O s' D') * val D' * h) x.
  Proof.
    intros HD Hg Hx. pose proof (div_back s' D' HD Hg) as X2. revert Hx X2.
    generalize (val (odiv O s' D')), (val D'), (val s'). intros g D s Hx X2.
    pose proof (Rabs_pos D) as P1. pose proof (Rabs_pos h) as P2.
    split; [nra|]. pose proof (near_mul_abs _ _ Hx) as X1.
    pose proof q_ge1 as Q. pose proof eta_pos as E0.
    assert (X3 : Rabs (h * s - g * D * h) <= (q - 1) * Rabs (g * D * h) + q * (eta * Rabs D) * Rabs h).
    { replace (h * s - g * D * h) with ((s - g * D) * h) by ring. rewrite (Rabs_mult _ h).
      rewrite (Rabs_mult (g * D) h).
      eapply Rle_trans; [apply Rmult_le_compat_r; [auto|exact X2]|]. right; ring. }
    assert (X4 : Rabs (h * s) <= q * Rabs (g * D * h) + q * (eta * Rabs D) * Rabs h).
    { replace (h * s) with ((h * s - g * D * h) + g * D * h) by ring.
      eapply Rle_trans; [apply Rabs_triang|]. lra. }
    replace (x - g * D * h) with ((x - h * s) + (h * s - g * D * h)) by ring.
    eapply Rle_trans; [apply Rabs_triang|].
    assert (X5 : (q - 1) * Rabs (h * s) <= (q - 1) * (q * Rabs (g * D * h) + q * (eta * Rabs D) * Rabs h)).
    { apply Rmult_le_compat_l; lra. }
    replace (q ^ (1 + 1)) with (q * q) by (cbn [pow Nat.add]; ring).
    assert (X6 : eta * 1 <= eta * (q * q)) by (apply Rmult_le_compat_l; nra).
    apply Rle_trans with ((q - 1) * (q * Rabs (g * D * h) + q * (eta * Rabs D) * Rabs h) +
       eta * (q * q) + ((q - 1) * Rabs (g * D * h) + q * (eta * Rabs D) * Rabs h)); [lra|].
    right. ring.
  Qed.

  (** product of two entries and a pivot *)
  Lemma term_triple g h D y x : near u eta (g * h) y -> near u eta (y * D) x ->
    termErr 1 (1 + Rabs D) (g * D * h) x.
  Proof.
    intros Hy Hx. pose proof (Rabs_pos D) as P1. split; [lra|].
    pose proof (near_mul_abs _ _ Hx) as X1. pose proof (near_mul_abs _ _ Hy) as X2.
    pose proof q_ge1 as Q. pose proof eta_pos as E0.
    assert (X3 : Rabs (y * D - g * D * h) <= (q - 1) * Rabs (g * D * h) + eta * Rabs D).
    { replace (y * D - g * D * h) with ((y - g * h) * D) by ring.
      replace (g * D * h) with ((g * h) * D) by ring. rewrite !(Rabs_mult _ D).
      eapply Rle_trans; [apply Rmult_le_compat_r; [auto|exact X2]|]. right; ring. }
    assert (X4 : Rabs (y * D) <= q * Rabs (g * D * h) + eta * Rabs D).
    { replace (y * D) with ((y * D - g * D * h) + g * D * h) by ring.
      eapply Rle_trans; [apply Rabs_triang|]. lra. }
    replace (x - g * D * h) with ((x - y * D) + (y * D - g * D * h)) by ring.
    eapply Rle_trans; [apply Rabs_triang|].
    assert (X5 : (q - 1) * Rabs (y * D) <= (q - 1) * (q * Rabs (g * D * h) + eta * Rabs D)).
    { apply Rmult_le_compat_l; lra. }
    replace (q ^ (1 + 1)) with (q * q) by (cbn [pow Nat.add]; ring).
    assert (X6 : eta * 1 <= eta * (q * q)) by (apply Rmult_le_compat_l; nra).
    assert (X7 : eta * Rabs D * q <= eta * Rabs D * (q * q)).
    { apply Rmult_le_compat_l; [nra|nra]. }
    apply Rle_trans with ((q - 1) * (q * Rabs (g * D * h) + eta * Rabs D) +
       eta * (q * q) + ((q - 1) * Rabs (g * D * h) + eta * Rabs D)); [lra|].
    apply Rle_trans with ((q * q - 1) * Rabs (g * D * h) + eta * (q * q) + eta * Rabs D * q); [right; ring|].
    lra.
  Qed.

  Lemma term_mono a c c' t x : c <= c' -> termErr a c t x -> termErr a c' t x.
  Proof.
    intros Hc (H1 & H2). split; [lra|]. eapply Rle_trans; [exact H2|].
    apply Rplus_le_compat_l. apply Rmult_le_compat_r; [left; apply qpow_pos|].
    apply Rmult_le_compat_l; auto. apply eta_pos.
  Qed.
End Round.
