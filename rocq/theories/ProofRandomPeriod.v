(** The period of the linear congruence generator (Hull and Dobell for a power of two). *)
From Coq Require Import List Arith Bool NArith ZArith Znumtheory Zpow_facts Lia.
From Verif Require Import Base ModelPerm ModelRandom SpecRandom.
Import ListNotations.
Local Open Scope Z_scope.

Section Period.
  Variable a : Z.
  Hypothesis Ha : a mod 4 = 1.

  (** 1 + a + ... + a^(n-1) *)
  Fixpoint geo (n : nat) : Z :=
    match n with 0%nat => 0 | S n => a * geo n + 1 end.

  Lemma geo_eq n : (a - 1) * geo n = a ^ Z.of_nat n - 1.
  Proof.
    induction n; [cbn; lia|]. cbn [geo]. rewrite Nat2Z.inj_succ, Z.pow_succ_r by lia. lia.
  Qed.

  Lemma geo_add m n : geo (m + n) = a ^ Z.of_nat m * geo n + geo m.
  Proof.
    induction m; cbn [Nat.add geo]; [change (a ^ Z.of_nat 0) with 1; ring|].
    rewrite IHm, Nat2Z.inj_succ, Z.pow_succ_r by lia. ring.
  Qed.

  Lemma pow_mod4 n : (a ^ Z.of_nat n) mod 4 = 1.
  Proof.
    induction n; [reflexivity|].
    rewrite Nat2Z.inj_succ, Z.pow_succ_r, Z.mul_mod, IHn, Ha by lia. reflexivity.
  Qed.

  Lemma geo_odd n : (geo n) mod 2 = Z.of_nat n mod 2.
  Proof.
    induction n; [reflexivity|]. cbn [geo].
    assert (Ha2 : a mod 2 = 1).
    { rewrite (Z.div_mod a 4) by lia. rewrite Ha. replace (4 * (a / 4) + 1) with (1 + (2 * (a / 4)) * 2) by lia.
      rewrite Z.mod_add by lia. reflexivity. }
    rewrite Z.add_mod, Z.mul_mod, Ha2, IHn by lia. rewrite Nat2Z.inj_succ. unfold Z.succ.
    rewrite (Z.add_mod (Z.of_nat n)) by lia.
    rewrite Z.mul_1_l, Z.mod_mod by lia. reflexivity.
  Qed.

  (** the powers of two that divide the sum are those that divide the number of terms *)
  Lemma geo_div k n : (2 ^ Z.of_nat k | geo n) <-> (2 ^ Z.of_nat k | Z.of_nat n).
  Proof.
    revert n; induction k as [|k IH]; intros n.
    { cbn. split; intros _; apply Z.divide_1_l. }
    rewrite Nat2Z.inj_succ, Z.pow_succ_r by lia.
    assert (Hk : 0 < 2 ^ Z.of_nat k) by (apply Z.pow_pos_nonneg; lia).
    destruct (Z.eq_dec (Z.of_nat n mod 2) 0) as [E|E].
    - (* even number of terms *)
      assert (exists e, n = (e + e)%nat) as (e & ->).
      { exists (n / 2)%nat. apply Z.mod_divide in E; [|lia]. destruct E as (q & Eq).
        assert (n = (2 * (n / 2))%nat); [|lia].
        apply Nat.div_exact; [lia|]. apply Nat.mod_divide; [lia|].
        exists (Z.to_nat q). lia. }
      rewrite geo_add.
      assert (H4 := pow_mod4 e). set (p := a ^ Z.of_nat e) in *.
      assert (Hp : exists q, p = 4 * q + 1).
      { exists (p / 4). rewrite (Z.div_mod p 4) at 1 by lia. rewrite H4. reflexivity. }
      destruct Hp as (q & ->).
      replace ((4 * q + 1) * geo e + geo e) with (2 * ((2 * q + 1) * geo e)) by lia.
      replace (Z.of_nat (e + e)) with (2 * Z.of_nat e) by lia.
      split; intros H; apply Z.mul_divide_cancel_l in H; try lia; apply Z.mul_divide_mono_l.
      + apply IH. apply Gauss in H; auto.
        apply rel_prime_sym, rel_prime_Zpower_r; [lia|].
        apply Zgcd_1_rel_prime. rewrite Z.gcd_comm.
        replace (2 * q + 1) with (1 + q * 2) by lia. rewrite Z.gcd_add_mult_diag_r. reflexivity.
      + apply Z.divide_mul_r. apply IH. auto.
    - (* odd *)
      split; intros H; exfalso; apply E.
      + rewrite <- geo_odd. apply Z.mod_divide; [lia|].
        eapply Z.divide_trans; [|exact H]. exists (2 ^ Z.of_nat k). lia.
      + apply Z.mod_divide; [lia|].
        eapply Z.divide_trans; [|exact H]. exists (2 ^ Z.of_nat k). lia.
  Qed.
End Period.

(** ** The generator *)

Definition modulus : Z := 2 ^ 64.
Definition mult : Z := Z.of_N lcgMultiplier.

Lemma next_Z g : Z.of_N (lcgNext g) = (mult * Z.of_N g + 1) mod modulus.
Proof.
  unfold lcgNext. rewrite N2Z.inj_mod, N2Z.inj_add, N2Z.inj_mul.
  f_equal. unfold mult. change (Z.of_N 1) with 1. ring.
Qed.

Lemma draws_Z n g : (g < size_t_mod)%N ->
  Z.of_N (draws n g) = (mult ^ Z.of_nat n * Z.of_N g + geo mult n) mod modulus.
Proof.
  intros Hg. induction n.
  - cbn [draws geo Z.of_nat]. rewrite Z.pow_0_r, Z.mul_1_l, Z.add_0_r. symmetry.
    apply Z.mod_small. split; [lia|]. change modulus with (Z.of_N size_t_mod). lia.
  - cbn [draws geo]. rewrite next_Z, IHn, Nat2Z.inj_succ, Z.pow_succ_r by lia.
    rewrite <- Z.add_mod_idemp_l, Z.mul_mod_idemp_r, Z.add_mod_idemp_l by (unfold modulus; lia).
    f_equal. ring.
Qed.

Lemma draws_lt n g : (g < size_t_mod)%N -> (draws n g < size_t_mod)%N.
Proof.
  intros Hg. destruct n; [exact Hg|]. cbn [draws]. apply N.mod_lt. discriminate.
Qed.

Lemma draws_cycle d g : (g < size_t_mod)%N ->
  (draws d g = g <-> (modulus | Z.of_nat d)).
Proof.
  intros Hg.
  assert (Hm : mult mod 4 = 1) by reflexivity.
  change modulus with (2 ^ Z.of_nat 64). rewrite <- (geo_div mult Hm 64 d).
  change (2 ^ Z.of_nat 64) with modulus.
  assert (E : Z.of_N (draws d g) = (geo mult d * ((mult - 1) * Z.of_N g + 1) + Z.of_N g) mod modulus).
  { rewrite draws_Z by auto. f_equal.
    replace (mult ^ Z.of_nat d) with ((mult - 1) * geo mult d + 1) by (rewrite geo_eq; ring). ring. }
  assert (Hg' : Z.of_N g = Z.of_N g mod modulus).
  { symmetry. apply Z.mod_small. split; [lia|]. change modulus with (Z.of_N size_t_mod). lia. }
  assert (H0 : modulus <> 0) by (unfold modulus; lia).
  transitivity ((modulus | geo mult d * ((mult - 1) * Z.of_N g + 1))).
  - split; intros H.
    + rewrite H in E. rewrite Hg' in E at 1.
      apply Z.mod_divide; auto.
      assert (E2 := f_equal (fun z => (z - Z.of_N g) mod modulus) E). cbv beta in E2.
      rewrite !Zminus_mod_idemp_l in E2. rewrite Z.sub_diag in E2.
      replace (geo mult d * ((mult - 1) * Z.of_N g + 1) + Z.of_N g - Z.of_N g)
        with (geo mult d * ((mult - 1) * Z.of_N g + 1)) in E2 by ring.
      rewrite <- E2. reflexivity.
    + apply N2Z.inj. rewrite E. destruct H as (q & ->).
      rewrite Z.add_comm, Z.mod_add by auto. symmetry. auto.
  - split; intros H; [|apply Z.divide_mul_l; auto].
    rewrite Z.mul_comm in H. apply Gauss in H; auto.
    apply rel_prime_sym. change modulus with (2 ^ 64). apply rel_prime_Zpower_r; [lia|].
    apply Zgcd_1_rel_prime. rewrite Z.gcd_comm.
    replace ((mult - 1) * Z.of_N g + 1) with (1 + ((mult - 1) / 2 * Z.of_N g) * 2).
    + rewrite Z.gcd_add_mult_diag_r. reflexivity.
    + change (mult - 1) with ((mult - 1) / 2 * 2) at 2. ring.
Qed.

Lemma draws_plus n m g : draws (n + m) g = draws n (draws m g).
Proof. induction n; cbn [Nat.add draws]; auto. rewrite IHn. auto. Qed.

(** two draws are the same exactly if their numbers differ by a multiple of 2^64 *)
Theorem draws_period m n g : (g < size_t_mod)%N ->
  (draws m g = draws n g <-> (Z.of_nat m mod 2 ^ 64 = Z.of_nat n mod 2 ^ 64)).
Proof.
  intros Hg. change (2 ^ 64) with modulus.
  assert (H0 : modulus <> 0) by (unfold modulus; lia).
  assert (G : forall m n, (m <= n)%nat ->
    (draws m g = draws n g <-> Z.of_nat m mod modulus = Z.of_nat n mod modulus)).
  { clear m n. intros m n H. replace n with ((n - m) + m)%nat by lia. rewrite draws_plus.
    pose proof (draws_cycle (n - m) (draws m g) (draws_lt m g Hg)) as C.
    split; intros E.
    - assert (D : (modulus | Z.of_nat (n - m))) by (apply C; auto).
      destruct D as (q & D). rewrite Nat2Z.inj_add, D, Z.add_comm, Z.mod_add; auto.
    - symmetry. apply C. apply Z.mod_divide; auto.
      replace (Z.of_nat (n - m)) with (Z.of_nat (n - m + m) - Z.of_nat m) by lia.
      rewrite Zminus_mod, E, Z.sub_diag. reflexivity. }
  destruct (Nat.le_ge_cases m n) as [H|H]; [apply G; auto|].
  specialize (G n m H). split; intros E; symmetry; apply G; auto.
Qed.

Lemma injective_onto (f : nat -> nat) n :
  (forall i, (i < n)%nat -> (f i < n)%nat) ->
  (forall i j, (i < n)%nat -> (j < n)%nat -> f i = f j -> i = j) ->
  forall y, (y < n)%nat -> exists i, (i < n)%nat /\ f i = y.
Proof.
  intros Hr Hi y Hy.
  assert (ND : NoDup (map f (seq 0 n))).
  { assert (G : forall l, NoDup l -> (forall x, In x l -> (x < n)%nat) -> NoDup (map f l)).
    { induction l as [|x l IH]; intros H Hl; cbn [map]; constructor.
      - intros Hx. apply in_map_iff in Hx. destruct Hx as (z & Ez & Hz).
        inversion H; subst. apply H2. replace x with z; auto.
        apply Hi; auto; apply Hl; [right|left]; auto.
      - apply IH; [inversion H; auto|]. intros z Hz. apply Hl. right. auto. }
    apply G; [apply seq_NoDup|]. intros x Hx. apply in_seq in Hx. lia. }
  assert (Hin : incl (seq 0 n) (map f (seq 0 n))).
  { apply NoDup_length_incl; auto.
    - rewrite map_length. auto.
    - intros z Hz. apply in_map_iff in Hz. destruct Hz as (x & <- & Hx). apply in_seq in Hx.
      apply in_seq. split; [lia|]. apply Hr. lia. }
  specialize (Hin y). rewrite in_map_iff in Hin. destruct Hin as (i & E & Hi').
  - apply in_seq. lia.
  - apply in_seq in Hi'. exists i. split; auto. lia.
Qed.

(** every state comes from every other one *)
Theorem draws_onto g h : (g < size_t_mod)%N -> (h < size_t_mod)%N -> exists n, draws n g = h.
Proof.
  intros Hg Hh. remember (N.to_nat size_t_mod) as M eqn:EM.
  destruct (injective_onto (fun n => N.to_nat (draws n g)) M) with (y := N.to_nat h) as (n & _ & E).
  - intros i _. pose proof (draws_lt i g Hg). lia.
  - intros i j Hi Hj E. apply N2Nat.inj in E. apply draws_period in E; auto.
    assert (2 ^ 64 = Z.of_nat M) by (rewrite EM, N_nat_Z; reflexivity).
    rewrite !Z.mod_small in E by lia. lia.
  - lia.
  - exists n. apply N2Nat.inj. auto.
Qed.

(** the lowest bit alternates *)
Theorem draws_parity g : N.odd (lcgNext g) = negb (N.odd g).
Proof.
  unfold lcgNext. rewrite <- !N.bit0_odd. unfold size_t_mod.
  rewrite N.mod_pow2_bits_low by lia. rewrite !N.bit0_odd, N.odd_add, N.odd_mul.
  change (N.odd lcgMultiplier) with true. change (N.odd 1) with true.
  destruct (N.odd g); reflexivity.
Qed.
