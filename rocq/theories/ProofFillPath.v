(** Fill-in and paths. *)
From Coq Require Import List Arith Lia.
From Verif Require Import Base ModelPerm ModelSparsity ModelSymbolic ModelNumeric SpecSymbolic SpecArrow SpecFillPath.
From Verif Require Import ProofPerm ProofFill ProofArrowSym ProofPropSymbolic.
Import ListNotations.

Section Walk.
  Context {V : Type} (adj : V -> V -> Prop).

  Lemma walk_app a l1 k l2 b : walk adj a (l1 ++ k :: l2) b <-> walk adj a l1 k /\ walk adj k l2 b.
  Proof.
    revert a. induction l1 as [|c l1 IH]; intros a; cbn [app walk]; [tauto|]. rewrite IH. tauto.
  Qed.

  Lemma walk_rev (sym : forall u v, adj u v -> adj v u) a l b : walk adj a l b -> walk adj b (rev l) a.
  Proof.
    revert a. induction l as [|c l IH]; intros a; cbn [walk rev]; [apply sym|].
    intros [H1 H2]. apply (walk_app b (rev l) c [] a). split; auto. cbn. auto.
  Qed.
End Walk.

Lemma walk_map {V W} (adjV : V -> V -> Prop) (adjW : W -> W -> Prop) (f : V -> W) a l b :
  (forall u v, In u (a :: l ++ [b]) -> In v (a :: l ++ [b]) -> adjV u v -> adjW (f u) (f v)) ->
  walk adjV a l b -> walk adjW (f a) (map f l) (f b).
Proof.
  revert a. induction l as [|c l IH]; intros a H; cbn [walk map].
  - apply H; cbn; auto.
  - intros [H1 H2]. split.
    + apply H; cbn; auto.
    + apply IH; auto. intros u v Hu Hv. apply H; right; auto.
Qed.

Lemma split_first (k : nat) l : In k l -> exists l1 l2, l = l1 ++ k :: l2 /\ ~ In k l1.
Proof.
  induction l as [|c l IH]; [intros []|]. intros H. destruct (Nat.eq_dec c k) as [->|N].
  - exists [], l. split; auto.
  - destruct H as [->|H]; [congruence|]. destruct (IH H) as (l1 & l2 & -> & H1).
    exists (c :: l1), l2. split; auto. intros [->|]; auto.
Qed.
Lemma split_last (k : nat) l : In k l -> exists l1 l2, l = l1 ++ k :: l2 /\ ~ In k l2.
Proof.
  intros H. apply in_rev in H. destruct (split_first k (rev l) H) as (l1 & l2 & E & N).
  exists (rev l2), (rev l1). split; [|rewrite <- in_rev; auto].
  rewrite <- (rev_involutive l), E, rev_app_distr. cbn [rev]. rewrite <- app_assoc. auto.
Qed.

Lemma maximum l : l <> [] -> exists k, In k l /\ forall x, In x l -> x <= k.
Proof.
  induction l as [|c l IH]; [congruence|]. intros _. destruct l as [|c' l].
  - exists c. split; [left; auto|]. intros x [->|[]]; auto.
  - destruct IH as (k & Hk & H); [discriminate|]. destruct (le_lt_dec c k).
    + exists k. split; [right; auto|]. intros x [->|Hx]; auto.
    + exists c. split; [left; auto|]. intros x [->|Hx]; auto. apply H in Hx. lia.
Qed.

(** the graph of a pattern *)
Definition patAdj (Q : pattern) (u v : nat) : Prop := u <> v /\ Q (Nat.max u v) (Nat.min u v).

Lemma patAdj_sym Q u v : patAdj Q u v -> patAdj Q v u.
Proof. intros [H1 H2]. split; auto. rewrite Nat.max_comm, Nat.min_comm. auto. Qed.

Lemma Fill_path Q i j : Fill Q i j -> j < i /\ exists l, walk (patAdj Q) i l j /\ Forall (fun v => v < j) l.
Proof.
  induction 1 as [i j HQ Lt|i j k H1 [_ (l1 & W1 & F1)] H2 [_ (l2 & W2 & F2)] L1 L2].
  - split; auto. exists []. cbn [walk]. split; auto. split; [lia|].
    rewrite Nat.max_l, Nat.min_r by lia. auto.
  - split; auto. exists (l1 ++ k :: rev l2). split.
    + apply walk_app. split; auto. apply walk_rev; auto. apply patAdj_sym.
    + rewrite Forall_forall in *. intros v Hv. apply in_app_iff in Hv. destruct Hv as [Hv|[->|Hv]]; auto.
      * apply F1 in Hv. lia.
      * apply in_rev, F2 in Hv. lia.
Qed.

Lemma path_Fill Q m : forall a b l, length l <= m -> a <> b -> walk (patAdj Q) a l b ->
  (forall v, In v l -> v < a /\ v < b) -> Fill Q (Nat.max a b) (Nat.min a b).
Proof.
  induction m as [|m IH]; intros a b l Hl N W HV.
  - destruct l; [|cbn in Hl; lia]. destruct W as [_ W]. apply Fill_base; auto. lia.
  - destruct l as [|c l']; [destruct W as [_ W]; apply Fill_base; auto; lia|].
    set (l := c :: l') in *. destruct (maximum l) as (k & Hk & HM); [discriminate|].
    destruct (split_first k l Hk) as (l1 & l2 & E1 & N1).
    destruct (split_last k l Hk) as (l3 & l4 & E2 & N2).
    destruct (HV k Hk) as [Ka Kb].
    assert (Fa : Fill Q a k).
    { replace a with (Nat.max a k) by lia. replace k with (Nat.min a k) at 2 by lia.
      apply (IH a k l1); [rewrite E1, app_length in Hl; cbn [length] in Hl; lia|lia| |].
      - rewrite E1 in W. apply walk_app in W. tauto.
      - intros v Hv. assert (In v l) by (rewrite E1; apply in_app_iff; auto).
        specialize (HM v H). assert (v <> k) by congruence. specialize (HV v H). lia. }
    assert (Fb : Fill Q b k).
    { replace b with (Nat.max k b) by lia. replace k with (Nat.min k b) at 2 by lia.
      apply (IH k b l4); [rewrite E2, app_length in Hl; cbn [length] in Hl; lia|lia| |].
      - rewrite E2 in W. apply walk_app in W. tauto.
      - intros v Hv. assert (In v l) by (rewrite E2; apply in_app_iff; right; right; auto).
        specialize (HM v H). assert (v <> k) by congruence. specialize (HV v H). lia. }
    destruct (le_lt_dec a b).
    + rewrite Nat.max_r, Nat.min_l by lia. apply Fill_elim with k; auto. lia.
    + rewrite Nat.max_l, Nat.min_r by lia. apply Fill_elim with k; auto.
Qed.

Lemma Fill_iff_path Q i j : Fill Q i j <->
  j < i /\ exists l, walk (patAdj Q) i l j /\ Forall (fun v => v < j) l.
Proof.
  split; [apply Fill_path|]. intros [Lt (l & W & HF)]. rewrite Forall_forall in HF.
  replace i with (Nat.max i j) by lia. replace j with (Nat.min i j) at 2 by lia.
  apply (path_Fill Q (length l) i j l); auto; [lia|]. intros v Hv. apply HF in Hv. lia.
Qed.

(** in the numbering of the matrix *)
Lemma nth_firstn' (p : list nat) i j : i < j -> nth i (firstn j p) 0 = nth i p 0.
Proof.
  revert i j. induction p as [|a p IH]; intros i j H; [rewrite firstn_nil; auto|].
  destruct j; [lia|]. destruct i; cbn; auto. apply IH. lia.
Qed.
Lemma firstn_index {n p} (IP : isPerm n p) v j : j <= n ->
  In v (firstn j p) <-> exists i, i < j /\ nth i p 0 = v.
Proof.
  intros Hj. pose proof (isPerm_length n p IP) as Hl. split.
  - intros H. destruct (In_nth _ _ 0 H) as (i & Hi & E). rewrite firstn_length in Hi.
    exists i. rewrite nth_firstn' in E by lia. split; [lia|auto].
  - intros (i & Hi & <-). rewrite <- (nth_firstn' p i j) by auto.
    apply nth_In. rewrite firstn_length. lia.
Qed.

Lemma permLow_adj es n p u v : isPerm n p -> u < n -> v < n ->
  patAdj (permLow es n p) u v <-> adjacent es (nth u p 0) (nth v p 0).
Proof.
  intros IP Hu Hv. unfold patAdj, permLow, adjacent. split.
  - intros (N & _ & _ & H). split.
    + intros E. apply N. eapply isPerm_inj; eauto.
    + destruct (le_lt_dec u v).
      * rewrite (Nat.max_r u v), (Nat.min_l u v) in H by lia. rewrite Nat.max_comm, Nat.min_comm. auto.
      * rewrite (Nat.max_l u v), (Nat.min_r u v) in H by lia. auto.
  - intros (N & H). assert (u <> v) by congruence. split; auto. split; [lia|]. split; [lia|].
    destruct (le_lt_dec u v).
    * rewrite (Nat.max_r u v), (Nat.min_l u v) by lia. rewrite Nat.max_comm, Nat.min_comm. auto.
    * rewrite (Nat.max_l u v), (Nat.min_r u v) by lia. auto.
Qed.

Lemma Fill_perm_path es n p i j : isPerm n p ->
  Fill (permLow es n p) i j <->
  j < i /\ i < n /\ exists l, walk (adjacent es) (nth i p 0) l (nth j p 0) /\
    Forall (fun v => In v (firstn j p)) l.
Proof.
  intros IP. rewrite Fill_iff_path. split.
  - intros (Lt & l & W & HF). split; auto. rewrite Forall_forall in HF.
    assert (Hi : i < n).
    { destruct l as [|c l]; cbn [walk] in W; [destruct W as [_ (_ & H & _)]|destruct W as [[_ (_ & H & _)] _]]; lia. }
    split; auto. exists (map (fun u => nth u p 0) l). split.
    + refine (walk_map _ _ (fun u => nth u p 0) _ _ _ _ W). intros u v Hu Hv.
      apply permLow_adj; auto.
      * destruct Hu as [<-|Hu]; auto. apply in_app_iff in Hu. destruct Hu as [Hu|[<-|[]]]; [apply HF in Hu|]; lia.
      * destruct Hv as [<-|Hv]; auto. apply in_app_iff in Hv. destruct Hv as [Hv|[<-|[]]]; [apply HF in Hv|]; lia.
    + apply Forall_forall. intros v Hv. apply in_map_iff in Hv. destruct Hv as (u & <- & Hu).
      apply (firstn_index IP); [lia|]. eauto.
  - intros (Lt & Hi & l & W & HF). split; auto. rewrite Forall_forall in HF.
    destruct (invert_ok n p IP) as (q & _ & IQ & Q1 & Q2).
    assert (B : forall v, In v l -> v < n /\ nth v q 0 < j).
    { intros v Hv. apply HF in Hv. apply (firstn_index IP) in Hv; [|lia]. destruct Hv as (u & Hu & <-).
      rewrite Q1 by lia. split; auto. apply (isPerm_lt n p); auto. lia. }
    exists (map (fun v => nth v q 0) l). split.
    + rewrite <- (Q1 i Hi) at 1. rewrite <- (Q1 j) at 1 by lia.
      refine (walk_map _ _ (fun v => nth v q 0) _ _ _ _ W). intros u v Hu Hv Ha.
      assert (B' : forall v, In v (nth i p 0 :: l ++ [nth j p 0]) -> v < n).
      { intros v' [<-|Hv']; [apply (isPerm_lt n p); auto|]. apply in_app_iff in Hv'.
        destruct Hv' as [Hv'|[<-|[]]]; [apply B in Hv'; lia|]. apply (isPerm_lt n p); auto. lia. }
      apply permLow_adj; auto.
      * apply (isPerm_lt n q); auto.
      * apply (isPerm_lt n q); auto.
      * rewrite !Q2; auto.
    + apply Forall_forall. intros v Hv. apply in_map_iff in Hv. destruct Hv as (u & <- & Hu). apply B; auto.
Qed.

Lemma fill_paths s n p : spOf s n n -> validPerm n p ->
  exists f b, getFilledInSparsity s p = Ok f /\ factorizationBlk s p = Ok b /\
    forall i j,
      (In (i, j) (entries f) <->
       j < i /\ i < n /\ exists l, walk (adjacent (entries s)) (nth i p 0) l (nth j p 0) /\
         Forall (fun v => In v (firstn j p)) l) /\
      (In (i, j) (c_entries (b_sp b)) <-> In (i, j) (entries f)).
Proof.
  intros HS HP. destruct (fill_exact s n p HS HP) as (f & b & E1 & E2 & _ & _ & _ & H1 & H2).
  exists f, b. split; auto. split; auto. intros i j. split.
  - rewrite H1. apply Fill_perm_path. apply validPerm_isPerm; auto.
  - rewrite H1, H2. tauto.
Qed.
