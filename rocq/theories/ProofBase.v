(** Lemmas about the result monad, arrays and loops. *)
From Coq Require Import List Arith Lia Bool.
From Verif Require Import Base.
Import ListNotations.

Lemma bind_ok {A B} (m : res A) (f : A -> res B) a :
  m = Ok a -> bind m f = f a.
Proof. intros ->. reflexivity. Qed.

Lemma bind_inv {A B} (m : res A) (f : A -> res B) r :
  bind m f = Ok r -> exists a, m = Ok a /\ f a = Ok r.
Proof. destruct m as [a|e]; cbn; intros H; [eauto|discriminate]. Qed.

Lemma rd_ok {A} (l : list A) i a : rd l i = Ok a <-> nth_error l i = Some a.
Proof. unfold rd. destruct (nth_error l i); split; intros H; congruence. Qed.

Lemma rd_lt {A} (l : list A) i : i < length l -> exists a, rd l i = Ok a.
Proof.
  intros H. unfold rd. destruct (nth_error l i) eqn:E; [eauto|].
  apply nth_error_None in E. lia.
Qed.

Lemma rd_nth {A} (l : list A) i d : i < length l -> rd l i = Ok (nth i l d).
Proof.
  intros H. unfold rd. rewrite (nth_error_nth' l d H). reflexivity.
Qed.

Lemma rd_inv {A} (l : list A) i a d :
  rd l i = Ok a -> i < length l /\ nth i l d = a.
Proof.
  rewrite rd_ok. intros H. split.
  - apply nth_error_Some. congruence.
  - erewrite nth_error_nth; eauto.
Qed.

Lemma upd_length {A} (l : list A) i a : length (upd l i a) = length l.
Proof. revert i; induction l; destruct i; cbn; auto. Qed.

Lemma nth_error_upd_eq {A} (l : list A) i a :
  i < length l -> nth_error (upd l i a) i = Some a.
Proof. revert i; induction l; destruct i; cbn; intros; try lia; auto.
  apply IHl; lia. Qed.

Lemma nth_error_upd_neq {A} (l : list A) i j a :
  i <> j -> nth_error (upd l i a) j = nth_error l j.
Proof. revert i j; induction l; destruct i, j; cbn; intros; try lia; auto. Qed.

Lemma nth_error_upd {A} (l : list A) i j a :
  i < length l ->
  nth_error (upd l i a) j = if i =? j then Some a else nth_error l j.
Proof.
  intros H. destruct (Nat.eqb_spec i j) as [->|N].
  - apply nth_error_upd_eq; auto.
  - apply nth_error_upd_neq; auto.
Qed.

Lemma nth_upd_eq {A} (l : list A) i a d :
  i < length l -> nth i (upd l i a) d = a.
Proof. intros H. apply nth_error_nth, nth_error_upd_eq, H. Qed.

Lemma nth_upd_neq {A} (l : list A) i j a d :
  i <> j -> nth j (upd l i a) d = nth j l d.
Proof. revert i j; induction l; destruct i, j; cbn; intros; try lia; auto. Qed.

Lemma nth_upd {A} (l : list A) i j a d :
  i < length l -> nth j (upd l i a) d = if i =? j then a else nth j l d.
Proof.
  intros H. destruct (Nat.eqb_spec i j) as [->|N].
  - apply nth_upd_eq; auto.
  - apply nth_upd_neq; auto.
Qed.

Lemma wr_ok {A} (l : list A) i a : i < length l -> wr l i a = Ok (upd l i a).
Proof. intros H. unfold wr. apply Nat.ltb_lt in H. rewrite H. reflexivity. Qed.

Lemma wr_inv {A} (l l' : list A) i a :
  wr l i a = Ok l' -> i < length l /\ l' = upd l i a.
Proof.
  unfold wr. destruct (i <? length l) eqn:E; [|discriminate].
  apply Nat.ltb_lt in E. intros H. split; congruence.
Qed.

Lemma subw_ok a b : b <= a -> subw a b = Ok (a - b).
Proof. intros H. unfold subw. apply Nat.leb_le in H. rewrite H. reflexivity. Qed.

Lemma subw_inv a b r : subw a b = Ok r -> b <= a /\ r = a - b.
Proof.
  unfold subw. destruct (b <=? a) eqn:E; [|discriminate].
  apply Nat.leb_le in E. intros H. split; congruence.
Qed.

Lemma pre_inv b u : pre b = Ok u -> b = true.
Proof. destruct b; cbn; congruence. Qed.
Lemma pre_ok b : b = true -> pre b = Ok tt.
Proof. intros ->. reflexivity. Qed.
Lemma static_assert_inv b u : static_assert b = Ok u -> b = true.
Proof. destruct b; cbn; congruence. Qed.

Lemma list_ext {A} (l1 l2 : list A) d :
  length l1 = length l2 ->
  (forall i, i < length l1 -> nth i l1 d = nth i l2 d) -> l1 = l2.
Proof. intros. eapply nth_ext; eauto. Qed.

(** ** Loops *)

Lemma foldM_app {S X} (f : S -> X -> res S) l1 l2 s :
  foldM f (l1 ++ l2) s = bind (foldM f l1 s) (foldM f l2).
Proof.
  revert s; induction l1 as [|x l1 IH]; intros s; [reflexivity|].
  cbn [app foldM]. destruct (f s x); cbn [bind]; auto.
Qed.

(** the invariant sees the processed prefix and the remaining suffix *)
Lemma foldM_split {S X} (f : S -> X -> res S) (P : list X -> S -> Prop) l s :
  P [] s ->
  (forall p x q s, l = p ++ x :: q -> P p s ->
     exists s', f s x = Ok s' /\ P (p ++ [x]) s') ->
  exists s', foldM f l s = Ok s' /\ P l s'.
Proof.
  intros H0 Hs.
  assert (G : forall q p s, l = p ++ q -> P p s ->
              exists s', foldM f q s = Ok s' /\ P l s').
  { induction q as [|x q IH]; intros p s' E HP.
    - rewrite app_nil_r in E. subst p. exists s'. auto.
    - destruct (Hs _ _ _ _ E HP) as (s1 & E1 & P1).
      cbn [foldM]. rewrite E1. cbn [bind].
      apply (IH (p ++ [x])); auto. rewrite <- app_assoc. exact E. }
  apply (G l []); auto.
Qed.

Lemma foldM_inv {S X} (f : S -> X -> res S) (P : S -> Prop) l s :
  P s ->
  (forall x s, In x l -> P s -> exists s', f s x = Ok s' /\ P s') ->
  exists s', foldM f l s = Ok s' /\ P s'.
Proof.
  intros H0 Hs. apply (foldM_split f (fun _ => P)); auto.
  intros p x q s1 E. apply Hs. subst l. apply in_or_app. right. left. auto.
Qed.

Lemma foldM_seq {S} (f : S -> nat -> res S) (P : nat -> S -> Prop) a n s :
  P a s ->
  (forall i s, a <= i < a + n -> P i s ->
     exists s', f s i = Ok s' /\ P (1 + i) s') ->
  exists s', foldM f (seq a n) s = Ok s' /\ P (a + n) s'.
Proof.
  revert a s; induction n as [|n IH]; intros a s H0 Hs.
  - exists s. rewrite Nat.add_0_r. auto.
  - cbn [seq foldM].
    destruct (Hs a s) as (s1 & E1 & P1); [lia|auto|].
    rewrite E1. cbn [bind].
    destruct (IH (1 + a) s1) as (s2 & E2 & P2); auto.
    { intros i s' Hi. apply Hs. lia. }
    exists s2. split; auto. replace (a + Datatypes.S n) with (1 + a + n) by lia. auto.
Qed.

(** from n-1 down to 0 *)
Lemma foldM_rev_seq {S} (f : S -> nat -> res S) (P : nat -> S -> Prop) a n s :
  P (a + n) s ->
  (forall i s, a <= i < a + n -> P (1 + i) s ->
     exists s', f s i = Ok s' /\ P i s') ->
  exists s', foldM f (rev (seq a n)) s = Ok s' /\ P a s'.
Proof.
  revert s; induction n as [|n IH]; intros s H0 Hs.
  - exists s. rewrite Nat.add_0_r in H0. auto.
  - rewrite seq_S, rev_app_distr. cbn [rev app foldM].
    destruct (Hs (a + n) s) as (s1 & E1 & P1); [lia| |].
    { replace (1 + (a + n)) with (a + Datatypes.S n) by lia. auto. }
    rewrite E1. cbn [bind].
    destruct (IH s1) as (s2 & E2 & P2); auto.
    { intros i s' Hi. apply Hs. lia. }
    exists s2. auto.
Qed.

(** partial correctness *)
Lemma foldM_inv_post {S X} (f : S -> X -> res S) (P : S -> Prop) l s s' :
  foldM f l s = Ok s' -> P s ->
  (forall x s s', In x l -> P s -> f s x = Ok s' -> P s') -> P s'.
Proof.
  revert s; induction l as [|x l IH]; cbn [foldM]; intros s E H0 Hs.
  - congruence.
  - apply bind_inv in E. destruct E as (s1 & E1 & E2).
    apply (IH s1); auto.
    + apply (Hs x s); auto. left; auto.
    + intros y t t' Hy. apply Hs. right; auto.
Qed.

Lemma mapM_ok {X Y} (f : X -> res Y) (g : X -> Y) l :
  (forall x, In x l -> f x = Ok (g x)) -> mapM f l = Ok (map g l).
Proof.
  induction l as [|x l IH]; cbn [mapM map]; intros H; auto.
  rewrite (H x) by (left; auto). cbn [bind].
  rewrite IH by (intros; apply H; right; auto). reflexivity.
Qed.

Lemma mapM_inv {X Y} (f : X -> res Y) l r :
  mapM f l = Ok r -> Forall2 (fun x y => f x = Ok y) l r.
Proof.
  revert r; induction l as [|x l IH]; cbn [mapM]; intros r H.
  - injection H as <-. constructor.
  - apply bind_inv in H. destruct H as (y & E & H).
    apply bind_inv in H. destruct H as (ys & E' & H).
    injection H as <-. constructor; auto.
Qed.

Lemma forallM_ok {X} (f : X -> res bool) (g : X -> bool) l :
  (forall x, In x l -> f x = Ok (g x)) -> forallM f l = Ok (forallb g l).
Proof.
  induction l as [|x l IH]; cbn [forallM forallb]; intros H; auto.
  rewrite (H x) by (left; auto). cbn [bind].
  destruct (g x); cbn [andb]; auto. apply IH. intros; apply H; right; auto.
Qed.

Lemma In_irange a b k : In k (irange a b) <-> a <= k < b.
Proof. unfold irange. rewrite in_seq. lia. Qed.

Lemma irange_app a b c : a <= b <= c -> irange a c = irange a b ++ irange b c.
Proof.
  intros H. unfold irange. replace (c - a) with ((b - a) + (c - b)) by lia.
  rewrite seq_app. f_equal. f_equal. lia.
Qed.

Lemma foldM_irange {S} (f : S -> nat -> res S) (P : nat -> S -> Prop) a b s :
  a <= b -> P a s ->
  (forall i s, a <= i < b -> P i s -> exists s', f s i = Ok s' /\ P (1 + i) s') ->
  exists s', foldM f (irange a b) s = Ok s' /\ P b s'.
Proof.
  intros Hab H0 Hs. unfold irange.
  destruct (foldM_seq f P a (b - a) s H0) as (s' & E & H).
  { intros i s1 Hi. apply Hs. lia. }
  exists s'. split; auto. replace b with (a + (b - a)) by lia. auto.
Qed.

Lemma nth_error_repeat_lt {A} (a : A) n i : i < n -> nth_error (repeat a n) i = Some a.
Proof. revert i; induction n; destruct i; cbn; intros; try lia; auto.
  apply IHn; lia. Qed.

Lemma nth_repeat_lt {A} (a : A) n i d : i < n -> nth i (repeat a n) d = a.
Proof. revert i; induction n; destruct i; cbn; intros; try lia; auto.
  apply IHn; lia. Qed.

Lemma nth_error_seq a n i : i < n -> nth_error (seq a n) i = Some (a + i).
Proof.
  intros H. rewrite (nth_error_nth' _ 0) by (rewrite seq_length; auto).
  rewrite seq_nth; auto.
Qed.

Lemma forallb_In {A} (f : A -> bool) l :
  forallb f l = true <-> (forall x, In x l -> f x = true).
Proof. apply forallb_forall. Qed.
