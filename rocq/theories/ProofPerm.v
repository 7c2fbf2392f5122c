(** Lemmas about permutations. *)
From Coq Require Import List Arith Lia Bool Permutation.
From Verif Require Import Base ModelPerm ProofBase.
Import ListNotations.

(** [p] is a permutation of 0, ..., n-1 *)
Definition isPerm (n : nat) (p : perm) : Prop := Permutation p (seq 0 n).

Lemma isPerm_length n p : isPerm n p -> length p = n.
Proof. intros H. apply Permutation_length in H. rewrite seq_length in H. auto. Qed.

Lemma isPerm_NoDup n p : isPerm n p -> NoDup p.
Proof.
  intros H. apply (Permutation_NoDup (l := seq 0 n)).
  - apply Permutation_sym; auto.
  - apply seq_NoDup.
Qed.

Lemma isPerm_In n p x : isPerm n p -> In x p <-> x < n.
Proof.
  intros H. split; intros Hx.
  - apply (Permutation_in _ H) in Hx. apply in_seq in Hx. lia.
  - apply (Permutation_in _ (Permutation_sym H)). apply in_seq. lia.
Qed.

Lemma isPerm_lt n p i : isPerm n p -> i < n -> nth i p 0 < n.
Proof.
  intros H Hi. apply (isPerm_In n p); auto. apply nth_In.
  rewrite (isPerm_length n p); auto.
Qed.

Lemma isPerm_inj n p i j :
  isPerm n p -> i < n -> j < n -> nth i p 0 = nth j p 0 -> i = j.
Proof.
  intros H Hi Hj E. pose proof (isPerm_NoDup n p H) as ND.
  rewrite (NoDup_nth p 0) in ND. apply ND; auto; rewrite (isPerm_length n p); auto.
Qed.

Lemma isPerm_surj n p x : isPerm n p -> x < n -> exists i, i < n /\ nth i p 0 = x.
Proof.
  intros H Hx. apply (isPerm_In n p x H) in Hx.
  apply (In_nth p x 0) in Hx. rewrite (isPerm_length n p H) in Hx.
  destruct Hx as (i & Hi & E). eauto.
Qed.

Lemma isPerm_intro n p :
  length p = n -> NoDup p -> (forall x, In x p -> x < n) -> isPerm n p.
Proof.
  intros Hl ND Hb. unfold isPerm.
  apply NoDup_Permutation_bis; auto.
  - rewrite seq_length. lia.
  - intros x Hx. apply in_seq. apply Hb in Hx. lia.
Qed.

Lemma isPerm_iota n : isPerm n (iota_perm n).
Proof. apply Permutation_refl. Qed.

Lemma iota_nth n i : i < n -> nth i (iota_perm n) 0 = i.
Proof. intros H. unfold iota_perm. rewrite seq_nth; auto. Qed.

Lemma isPerm_rd n p i : isPerm n p -> i < n -> rd p i = Ok (nth i p 0).
Proof. intros H Hi. apply rd_nth. rewrite (isPerm_length n p); auto. Qed.

Lemma invert_ok n p : isPerm n p ->
  exists q, invertPermutation p = Ok q /\ isPerm n q /\
    (forall i, i < n -> nth (nth i p 0) q 0 = i) /\
    (forall i, i < n -> nth (nth i q 0) p 0 = i).
Proof.
  intros H. pose proof (isPerm_length n p H) as Hl.
  unfold invertPermutation. rewrite Hl.
  set (f := fun inv i => _).
  destruct (foldM_seq f (fun i q => length q = n /\
              forall k, k < i -> nth (nth k p 0) q 0 = k) 0 n (repeat 0 n))
    as (q & E & Hq & Hi).
  - split; [apply repeat_length|]. intros; lia.
  - intros i q Hi (Hq & Hk). unfold f.
    rewrite (isPerm_rd n p) by (auto; lia). cbn [bind].
    pose proof (isPerm_lt n p i H ltac:(lia)) as Hlt.
    rewrite wr_ok by lia. eexists. split; [reflexivity|].
    rewrite upd_length. split; auto. intros k Hk1.
    destruct (Nat.eq_dec k i) as [->|N].
    + rewrite nth_upd_eq; auto. lia.
    + rewrite nth_upd_neq; [apply Hk; lia|].
      intros E. apply N. symmetry. apply (isPerm_inj n p); auto; lia.
  - cbn [Nat.add] in Hi. exists q. split; auto.
    assert (Hs : forall x, x < n -> nth x q 0 < n /\ nth (nth x q 0) p 0 = x).
    { intros x Hx. destruct (isPerm_surj n p x H Hx) as (i & Hi' & Ei).
      subst x. rewrite Hi; auto. }
    assert (HP : isPerm n q).
    { apply isPerm_intro; auto.
      - apply (NoDup_nth q 0). rewrite Hq. intros i j Hi' Hj Eij.
        destruct (Hs i Hi') as [_ Hi1]. destruct (Hs j Hj) as [_ Hj1]. congruence.
      - intros x Hx. apply (In_nth q x 0) in Hx. destruct Hx as (i & Hi' & <-).
        apply Hs. lia. }
    repeat split; auto. intros i Hi'. apply Hs; auto.
Qed.

(** the inverse as a function, for use in statements *)
Lemma invert_unique n p q :
  isPerm n p -> invertPermutation p = Ok q ->
  isPerm n q /\
  (forall i, i < n -> nth (nth i p 0) q 0 = i) /\
  (forall i, i < n -> nth (nth i q 0) p 0 = i).
Proof.
  intros H E. destruct (invert_ok n p H) as (q' & E' & H').
  rewrite E in E'. injection E' as ->. auto.
Qed.

Lemma invert_iota n : invertPermutation (iota_perm n) = Ok (iota_perm n).
Proof.
  destruct (invert_ok n (iota_perm n) (isPerm_iota n)) as (q & E & Hq & H1 & _).
  rewrite E. f_equal. apply (list_ext _ _ 0).
  - rewrite (isPerm_length n q), (isPerm_length n _ (isPerm_iota n)); auto.
  - rewrite (isPerm_length n q) by auto. intros i Hi.
    rewrite iota_nth by auto. rewrite <- (iota_nth n i Hi) at 1. auto.
Qed.

Lemma invert_invol n p q :
  isPerm n p -> invertPermutation p = Ok q -> invertPermutation q = Ok p.
Proof.
  intros H E. destruct (invert_unique n p q H E) as (Hq & H1 & H2).
  destruct (invert_ok n q Hq) as (r & Er & Hr & H3 & H4).
  rewrite Er. f_equal. apply (list_ext _ _ 0).
  - rewrite (isPerm_length n r), (isPerm_length n p); auto.
  - rewrite (isPerm_length n r) by auto. intros i Hi.
    rewrite <- (H2 (nth i r 0)) by (apply isPerm_lt; auto).
    rewrite H4; auto.
Qed.

Lemma list_eqb_spec {A} (eqb : A -> A -> bool) :
  (forall a b, eqb a b = true <-> a = b) ->
  forall l1 l2, list_eqb eqb l1 l2 = true <-> l1 = l2.
Proof.
  intros H l1; induction l1 as [|a l1 IH]; destruct l2 as [|b l2]; cbn;
    try (split; congruence).
  rewrite andb_true_iff, H, IH. split; [intros [-> ->]|intros E]; auto.
  injection E; auto.
Qed.

Lemma perm_eqb_spec p q : perm_eqb p q = true <-> p = q.
Proof. apply list_eqb_spec. apply Nat.eqb_eq. Qed.

Lemma permutedEntry_ok n m p q r c :
  isPerm n p -> isPerm m q -> r < n -> c < m ->
  permutedEntry (r, c) p q = Ok (nth r p 0, nth c q 0).
Proof.
  intros Hp Hq Hr Hc. unfold permutedEntry. cbn [fst snd].
  rewrite (isPerm_rd n p), (isPerm_rd m q); auto.
Qed.

Lemma permutedEntryLT_ok n p r c :
  isPerm n p -> r < n -> c < n ->
  permutedEntryLowerTriangle (r, c) p =
  Ok (Nat.max (nth r p 0) (nth c p 0), Nat.min (nth r p 0) (nth c p 0)).
Proof.
  intros Hp Hr Hc. unfold permutedEntryLowerTriangle. cbn [fst snd].
  rewrite !(isPerm_rd n p); auto.
Qed.
