(** Perturbed factorizations of diagonally dominant matrices over the reals: sums of the
    absolute values in the columns of the factor. *)
From Coq Require Import Reals Lra Lia List Arith Bool Psatz.
From Verif Require Import ModelNumeric SpecNumeric SpecReg SpecRound.
From Verif Require Import ProofExact ProofArrowSub ProofChain ProofRound.
Import ListNotations.
Local Open Scope R_scope.
Local Notation rsum := (suml Or).

Lemma rsum_filter {I} (p : I -> bool) l f : rsum (filter p l) f = rsum l (fun k => if p k then f k else 0).
Proof.
  induction l as [|a l IH]; [reflexivity|]. cbn [filter]. rewrite rsum_cons.
  destruct (p a); rewrite ?rsum_cons, IH; lra.
Qed.

Lemma rsum_minus {I} (l : list I) f g : rsum l (fun k => f k - g k) = rsum l f - rsum l g.
Proof. induction l as [|a l IH]; [cbn; lra|]. rewrite !rsum_cons, IH. lra. Qed.

Section Order.
  Context {I : Type} (dec : forall a b : I, {a = b} + {a <> b}).
  Variables (all : list I) (rk : I -> nat).
  Hypothesis ND : NoDup all.
  Hypothesis RI : forall g h, In g all -> In h all -> rk g = rk h -> g = h.

  (** the indices before and after h *)
  Definition loI (h : I) : list I := filter (fun k => rk k <? rk h)%nat all.
  Definition hiI (h : I) : list I := filter (fun k => rk h <? rk k)%nat all.

  Lemma loI_In h k : In k (loI h) <-> In k all /\ (rk k < rk h)%nat.
  Proof. unfold loI. rewrite filter_In, Nat.ltb_lt. tauto. Qed.
  Lemma hiI_In h k : In k (hiI h) <-> In k all /\ (rk h < rk k)%nat.
  Proof. unfold hiI. rewrite filter_In, Nat.ltb_lt. tauto. Qed.

  Lemma rsum_split h f : In h all -> rsum all f = rsum (loI h) f + f h + rsum (hiI h) f.
  Proof.
    intros Hh. unfold loI, hiI. rewrite !rsum_filter.
    assert (E : f h = rsum all (fun k => if dec k h then f k else 0)).
    { rewrite (rsum_remove dec all h _ ND Hh). destruct (dec h h); [|congruence].
      rewrite (rsum_0 (remove dec h all)); [lra|]. intros k Hk. apply in_remove in Hk.
      destruct (dec k h); [tauto|auto]. }
    rewrite E, <- !rsum_plus. apply rsum_ext. intros k Hk.
    destruct (dec k h) as [->|N].
    - rewrite !Nat.ltb_irrefl. lra.
    - destruct (Nat.ltb_spec (rk k) (rk h)), (Nat.ltb_spec (rk h) (rk k)); try lra; try lia.
      exfalso. apply N, RI; auto. lia.
  Qed.

  (** Column h of a factorization with errors: [l] are the absolute values of the factor,
      [d] those of the pivots, [a] those of row h of the matrix and [e] the errors in
      row h. *)
  Variables (l : I -> I -> R) (d : I -> R) (a e : I -> R) (h : I) (th th0 ga et : R).
  Hypothesis Hh : In h all.
  Hypothesis L0 : forall j k, In j all -> In k all -> 0 <= l j k.
  Hypothesis LZ : forall j k, In j all -> In k all -> (rk j <= rk k)%nat -> l j k = 0.
  Hypothesis D0 : forall k, In k all -> 0 <= d k.
  Hypothesis A0 : forall k, In k all -> 0 <= a k.
  Hypothesis E0 : forall k, In k all -> 0 <= e k.
  Hypothesis COL : forall k, In k (loI h) -> rsum all (fun j => l j k) <= th.
  Hypothesis HI : forall j, In j (hiI h) ->
    l j h * d h <= a j + e j + rsum all (fun k => l j k * d k * l h k).
  Hypothesis LO : forall k, In k (loI h) ->
    l h k * d k <= a k + e k + rsum all (fun k' => l h k' * d k' * l k k').
  Hypothesis DG1 : a h - e h - rsum all (fun k => l h k * d k * l h k) <= d h.
  Hypothesis DG2 : d h <= a h + e h + rsum all (fun k => l h k * d k * l h k).
  Hypothesis EHI : forall j, In j (hiI h) ->
    e j <= ga * (l j h * d h + rsum all (fun k => l j k * d k * l h k)) + et.
  Hypothesis ELO : forall k, In k (loI h) ->
    e k <= ga * (l h k * d k + rsum all (fun k' => l h k' * d k' * l k k')) + et.
  Hypothesis EDG : e h <= ga * (d h + rsum all (fun k => l h k * d k * l h k)) + et.
  Hypothesis TH : 0 <= th0 < 1 /\ th = (1 + th0) / 2.
  Hypothesis DOM : rsum (loI h) a + rsum (hiI h) a <= th0 * a h.
  Hypothesis GA : 0 <= ga /\ 80 * ga <= (1 - th0) * (1 - th0).
  Hypothesis ET : 0 <= et /\ 8 * (INR (length all) * et) <= (1 - th0) * a h.

  Local Notation w k := (l h k * d k).
  Local Notation W := (rsum all (fun k => l h k * d k)).
  Local Notation X := (rsum all (fun k => l h k * d k * l h k)).
  Local Notation Y := (rsum all (fun j => l j h * d h)).
  Local Notation Er := (rsum all e).
  Local Notation t k := (rsum (hiI h) (fun j => l j k)).
  Local Notation c k := (rsum (loI h) (fun j => l j k)).

  Lemma w_pos k : In k all -> 0 <= w k.
  Proof. intros Hk. apply Rmult_le_pos; auto. Qed.
  Lemma c_pos k : In k all -> 0 <= c k.
  Proof. intros Hk. apply rsum_pos. intros j Hj. apply loI_In in Hj. apply L0; tauto. Qed.
  Lemma t_pos k : In k all -> 0 <= t k.
  Proof. intros Hk. apply rsum_pos. intros j Hj. apply hiI_In in Hj. apply L0; tauto. Qed.

  Lemma w_hi k : In k all -> (rk h <= rk k)%nat -> w k = 0.
  Proof. intros Hk H. rewrite (LZ h k) by auto. ring. Qed.

  (** sums weighted with row h only see the columns before h *)
  Lemma wsum_le f g : (forall k, In k (loI h) -> f k <= g k) ->
    rsum all (fun k => w k * f k) <= rsum all (fun k => w k * g k).
  Proof.
    intros H. apply rsum_le. intros k Hk. destruct (Nat.lt_ge_cases (rk k) (rk h)) as [Lt|Ge].
    - apply Rmult_le_compat_l; [apply w_pos; auto|]. apply H, loI_In. auto.
    - rewrite (w_hi k) by auto. lra.
  Qed.

  Lemma col_split k : In k (loI h) -> c k + l h k + t k <= th.
  Proof. intros Hk. rewrite <- (rsum_split h (fun j => l j k)) by auto. apply COL. auto. Qed.

  Lemma W_pos : 0 <= W.
  Proof. apply rsum_pos. intros. apply w_pos. auto. Qed.
  Lemma X_pos : 0 <= X.
  Proof. apply rsum_pos. intros k Hk. apply Rmult_le_pos; [apply w_pos; auto|auto]. Qed.

  Lemma W_lo : W = rsum (loI h) (fun k => w k).
  Proof.
    rewrite (rsum_split h) by auto. rewrite (w_hi h) by auto.
    rewrite (rsum_0 (hiI h)); [lra|]. intros k Hk. apply hiI_In in Hk. apply w_hi; [tauto|lia].
  Qed.
  Lemma Y_hi : Y = rsum (hiI h) (fun j => l j h * d h).
  Proof.
    rewrite (rsum_split h) by auto. rewrite (LZ h h) by auto.
    rewrite (rsum_0 (loI h)); [lra|]. intros k Hk. apply loI_In in Hk. rewrite (LZ k h); [ring|tauto|auto|lia].
  Qed.

  Lemma swap_lo : rsum (loI h) (fun k => rsum all (fun k' => l h k' * d k' * l k k')) =
    rsum all (fun k => w k * c k).
  Proof. rewrite rsum_swap. apply rsum_ext. intros k _. rewrite <- rsum_scal. auto. Qed.
  Lemma swap_hi : rsum (hiI h) (fun j => rsum all (fun k => l j k * d k * l h k)) =
    rsum all (fun k => w k * t k).
  Proof.
    rewrite rsum_swap. apply rsum_ext. intros k _. rewrite <- rsum_scal. apply rsum_ext. intros; ring.
  Qed.

  Lemma row_sum : W - rsum all (fun k => w k * c k) <= rsum (loI h) a + rsum (loI h) e.
  Proof.
    rewrite W_lo. pose proof (rsum_le (loI h) _ _ LO) as H. rewrite !rsum_plus, swap_lo in H. lra.
  Qed.

  Lemma col_sum : Y <= rsum (hiI h) a + rsum (hiI h) e + rsum all (fun k => w k * t k).
  Proof.
    rewrite Y_hi. pose proof (rsum_le (hiI h) _ _ HI) as H. rewrite !rsum_plus, swap_hi in H. lra.
  Qed.

  Lemma e_split : Er = rsum (loI h) e + e h + rsum (hiI h) e.
  Proof. apply rsum_split. auto. Qed.
  Lemma e_lo : 0 <= rsum (loI h) e.
  Proof. apply rsum_pos. intros k Hk. apply loI_In in Hk. apply E0; tauto. Qed.
  Lemma e_hi : 0 <= rsum (hiI h) e.
  Proof. apply rsum_pos. intros k Hk. apply hiI_In in Hk. apply E0; tauto. Qed.

  Lemma Y_bound : Y + X <= th0 * a h + Er - e h.
  Proof.
    assert (H : rsum all (fun k => w k * t k) <= rsum all (fun k => w k * (1 - l h k - c k))).
    { apply wsum_le. intros k Hk. pose proof (col_split k Hk). lra. }
    rewrite (rsum_ext all (fun k => w k * (1 - l h k - c k))
      (fun k => w k - w k * l h k - w k * c k)), !rsum_minus in H by (intros; ring).
    pose proof row_sum. pose proof col_sum. pose proof e_split. lra.
  Qed.

  Lemma Y_pos : 0 <= Y.
  Proof. apply rsum_pos. intros k Hk. apply Rmult_le_pos; auto. Qed.

  Lemma W_bound : (1 - th) * W <= th0 * a h + Er.
  Proof.
    assert (H : rsum all (fun k => w k * c k) <= rsum all (fun k => w k * th)).
    { apply wsum_le. intros k Hk. pose proof (col_split k Hk). apply loI_In in Hk.
      pose proof (t_pos k (proj1 Hk)). pose proof (L0 h k Hh (proj1 Hk)). lra. }
    rewrite (rsum_ext all (fun k => w k * th) (fun k => th * w k)), rsum_scal in H by (intros; ring).
    pose proof row_sum. pose proof e_split. pose proof (E0 h Hh). pose proof e_hi.
    assert (0 <= rsum (hiI h) a) by (apply rsum_pos; intros k Hk; apply hiI_In in Hk; apply A0; tauto).
    lra.
  Qed.

  Lemma a_pos : 0 <= a h. Proof. auto. Qed.

  (** the sum of the errors *)
  Lemma Er_raw : Er <= ga * (Y + W + d h + rsum all (fun k => w k * (c k + l h k + t k))) + INR (length all) * et.
  Proof.
    rewrite e_split.
    pose proof (rsum_le (hiI h) _ _ EHI) as H1. pose proof (rsum_le (loI h) _ _ ELO) as H2.
    rewrite rsum_plus, rsum_scal, rsum_plus, swap_hi, <- Y_hi in H1.
    rewrite rsum_plus, rsum_scal, rsum_plus, swap_lo, <- W_lo in H2.
    rewrite (rsum_ext all (fun k => w k * (c k + l h k + t k)) (fun k => w k * c k + w k * l h k + w k * t k)),
      !rsum_plus by (intros; ring).
    assert (HE : INR (length all) * et = rsum (loI h) (fun _ => et) + et + rsum (hiI h) (fun _ => et)).
    { rewrite <- rsum_const, (rsum_split h) by auto. auto. }
    rewrite HE. lra.
  Qed.

  Lemma Er_bound : Er <= ga * (Y + d h + 2 * W) + INR (length all) * et.
  Proof.
    eapply Rle_trans; [apply Er_raw|]. apply Rplus_le_compat_r, Rmult_le_compat_l; [tauto|].
    assert (H : rsum all (fun k => w k * (c k + l h k + t k)) <= rsum all (fun k => w k * th)).
    { apply wsum_le. intros k Hk. apply col_split. auto. }
    rewrite (rsum_ext all (fun k => w k * th) (fun k => th * w k)), rsum_scal in H by (intros; ring).
    pose proof W_pos. nra.
  Qed.

  Lemma Er_pos : 0 <= Er.
  Proof. apply rsum_pos. auto. Qed.

  Lemma Er_scaled : (1 - th0) * Er <= ga * (6 * a h + 5 * Er) + (1 - th0) * (INR (length all) * et).
  Proof.
    pose proof Er_bound as B. pose proof Y_bound as BY. pose proof W_bound as BW.
    pose proof Er_pos. pose proof X_pos. pose proof Y_pos. pose proof W_pos. pose proof a_pos.
    pose proof (E0 h Hh). pose proof (D0 h Hh). destruct TH as [T1 T2]. destruct GA as [G1 G2]. destruct ET as [T3 T4].
    assert (D : d h + Y <= a h + th0 * a h + Er) by lra.
    set (s := 1 - th0) in *. assert (S1 : 0 < s <= 1) by (unfold s; lra).
    assert (BW2 : s * W <= 2 * (th0 * a h + Er)).
    { replace (1 - th) with (s / 2) in BW by (unfold s; lra). lra. }
    assert (s * Er <= s * (ga * (Y + d h + 2 * W) + INR (length all) * et)) by (apply Rmult_le_compat_l; lra).
    eapply Rle_trans; [eassumption|].
    replace (s * (ga * (Y + d h + 2 * W) + INR (length all) * et))
      with (ga * (s * (Y + d h) + 2 * (s * W)) + s * (INR (length all) * et)) by ring.
    apply Rplus_le_compat_r, Rmult_le_compat_l; auto.
    assert (s * (Y + d h) <= 1 * (a h + th0 * a h + Er)) by (apply Rmult_le_compat; lra).
    assert (th0 * a h <= a h) by nra. lra.
  Qed.

  Lemma Er_small : 2 * Er <= (1 - th0) * a h.
  Proof.
    pose proof Er_scaled as BE. pose proof Er_pos. pose proof a_pos.
    destruct TH as [T1 T2]. destruct GA as [G1 G2]. destruct ET as [T3 T4].
    set (s := 1 - th0) in *. assert (S1 : 0 < s <= 1) by (unfold s; lra).
    assert (G3 : ga * (6 * a h + 5 * Er) <= s * s / 80 * (6 * a h + 5 * Er)).
    { apply Rmult_le_compat_r; lra. }
    assert (BE2 : Er <= s / 80 * (6 * a h + 5 * Er) + INR (length all) * et).
    { apply Rmult_le_reg_l with s; [lra|]. lra. }
    assert (s * Er <= Er) by nra. lra.
  Qed.

  Theorem column_dominant :
    rsum all (fun j => l j h) * d h <= th * d h /\
    (1 - th0) / 2 * a h <= d h <= 2 * a h /\
    (1 - th0) * W <= 2 * a h /\
    2 * Er <= (1 - th0) * a h /\
    (1 - th0) * Er <= ga * (9 * a h) + (1 - th0) * (INR (length all) * et) /\
    e h + X <= th * a h.
  Proof.
    pose proof Y_bound as BY. pose proof W_bound as BW. pose proof Er_scaled as BE.
    pose proof Er_pos. pose proof X_pos. pose proof Y_pos. pose proof W_pos. pose proof a_pos.
    pose proof (E0 h Hh). destruct TH as [T1 T2]. destruct GA as [G1 G2].
    pose proof Er_small as ES.
    assert (EY : rsum all (fun j => l j h) * d h = Y).
    { rewrite Rmult_comm, <- rsum_scal. apply rsum_ext. intros; ring. }
    rewrite EY. assert (TA : 0 <= th0 * a h <= a h) by nra.
    assert (TE : th0 * e h <= e h) by nra. assert (TX : th0 * X <= X) by nra.
    rewrite T2 in *.
    split; [|split; [split|split; [|split; [|split]]]]; try lra.
    - apply Rle_trans with ((1 + th0) / 2 * (a h - e h - X)); [lra|].
      apply Rmult_le_compat_l; lra.
    - assert (ga * (6 * a h + 5 * Er) <= ga * (9 * a h)) by (apply Rmult_le_compat_l; lra). lra.
  Qed.
End Order.
