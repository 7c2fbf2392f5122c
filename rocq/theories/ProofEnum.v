(** Enumeration of the permutations in lexicographic order. *)
From Coq Require Import List Arith Lia Bool Permutation Sorted NArith.
From Verif Require Import Base ModelPerm SpecPerm.
From Verif Require Import ProofBase ProofPerm.
Import ListNotations.

(** all ways to split off one element *)
Fixpoint splits (pre s : list nat) : list (list nat * nat) :=
  match s with
  | [] => []
  | x :: t => (pre ++ t, x) :: splits (pre ++ [x]) t
  end.

Fixpoint lexperms (n : nat) (s : list nat) : list (list nat) :=
  match n with
  | 0 => [[]]
  | S n' => flat_map (fun sx => map (cons (snd sx)) (lexperms n' (fst sx))) (splits [] s)
  end.

Lemma splits_In pre s r x :
  In (r, x) (splits pre s) <-> exists a b, s = a ++ x :: b /\ r = pre ++ a ++ b.
Proof.
  revert pre. induction s as [|y s IH]; intros pre; cbn [splits In].
  - split; [tauto|]. intros (a & b & E & _). destruct a; discriminate.
  - rewrite IH. split.
    + intros [E|(a & b & E1 & E2)].
      * injection E as <- <-. exists [], s. auto.
      * exists (y :: a), b. subst. split; auto. rewrite <- app_assoc. auto.
    + intros (a & b & E1 & E2). destruct a as [|y' a]; cbn [app] in *.
      * injection E1 as -> ->. left. subst. auto.
      * injection E1 as -> ->. right. exists a, b. split; auto. subst.
        rewrite <- app_assoc. auto.
Qed.

Lemma splits_length pre s : length (splits pre s) = length s.
Proof. revert pre. induction s; intros; cbn [splits length]; auto. Qed.

Lemma lexperms_In n : forall s m, length s = n ->
  In m (lexperms n s) <-> Permutation m s.
Proof.
  induction n as [|n IH]; intros s m Hs; cbn [lexperms].
  - destruct s; [|discriminate]. cbn [In]. split.
    + intros [<-|[]]. auto.
    + intros H. apply Permutation_sym, Permutation_nil in H. auto.
  - rewrite in_flat_map. split.
    + intros ([r x] & H1 & H2). apply splits_In in H1. destruct H1 as (a & b & -> & ->).
      cbn [fst snd app] in H2. apply in_map_iff in H2. destruct H2 as (m' & <- & H2).
      rewrite app_length in Hs. cbn [length] in Hs.
      apply IH in H2; [|rewrite app_length; lia].
      apply Permutation_cons_app. exact H2.
    + intros H. destruct m as [|x m].
      { apply Permutation_length in H. cbn in H. lia. }
      assert (Hx : In x s) by (eapply Permutation_in; [exact H|left; auto]).
      apply in_split in Hx. destruct Hx as (a & b & ->).
      exists (a ++ b, x). split; [apply splits_In; exists a, b; auto|].
      cbn [fst snd]. apply in_map. apply IH.
      * rewrite app_length in *. cbn [length] in Hs. lia.
      * apply Permutation_cons_app_inv in H. auto.
Qed.

Lemma lexperms_length n : forall s, length s = n -> length (lexperms n s) = fact n.
Proof.
  induction n as [|n IH]; intros s Hs; cbn [lexperms]; auto.
  assert (G : forall l, (forall r x, In (r, x) l -> length r = n) ->
    length (flat_map (fun sx : list nat * nat => map (cons (snd sx)) (lexperms n (fst sx))) l) =
    length l * fact n).
  { induction l as [|[r x] l IHl]; intros Hl; cbn [flat_map length]; auto.
    rewrite app_length, map_length, IHl, IH; cbn [fst].
    - lia.
    - apply (Hl r x). left; auto.
    - intros r' x' H. apply (Hl r' x'). right; auto. }
  rewrite G.
  - rewrite splits_length, Hs. cbn [fact]. lia.
  - intros r x H. apply splits_In in H. destruct H as (a & b & -> & ->).
    cbn [app]. rewrite app_length in *. cbn [length] in Hs. lia.
Qed.

(** ** order *)

Lemma lexLt_cons x a b : lexLt a b -> lexLt (x :: a) (x :: b).
Proof.
  intros (k & H1 & H2 & H3 & H4). exists (S k). cbn [firstn length nth].
  repeat split; try lia. f_equal; auto.
Qed.

Lemma lexLt_head x y a b : x < y -> lexLt (x :: a) (y :: b).
Proof. intros H. exists 0. cbn [firstn length nth]. repeat split; auto; lia. Qed.

Lemma lexLt_irrefl a : ~ lexLt a a.
Proof. intros (k & _ & _ & _ & H). lia. Qed.

Lemma SS_app {A} (R : A -> A -> Prop) l1 l2 :
  StronglySorted R l1 -> StronglySorted R l2 ->
  (forall a b, In a l1 -> In b l2 -> R a b) -> StronglySorted R (l1 ++ l2).
Proof.
  induction 1 as [|a l HS IH HF]; cbn [app]; intros H2 H; auto.
  constructor.
  - apply IH; auto. intros; apply H; auto. right; auto.
  - apply Forall_app. split; auto. apply Forall_forall. intros b Hb. apply H; auto. left; auto.
Qed.

Lemma SS_map {A B} (R : A -> A -> Prop) (R' : B -> B -> Prop) f l :
  (forall a b, R a b -> R' (f a) (f b)) -> StronglySorted R l -> StronglySorted R' (map f l).
Proof.
  intros H. induction 1 as [|a l HS IH HF]; cbn [map]; constructor; auto.
  rewrite Forall_map. eapply Forall_impl; [|exact HF]. intros; auto.
Qed.

Lemma SS_inv_app {A} (R : A -> A -> Prop) l1 l2 :
  StronglySorted R (l1 ++ l2) ->
  StronglySorted R l1 /\ StronglySorted R l2 /\ (forall a b, In a l1 -> In b l2 -> R a b).
Proof.
  induction l1 as [|x l1 IH]; cbn [app]; intros H.
  - split; [constructor|]. split; auto. intros a b [].
  - inversion H as [|? ? HS HF]; subst. destruct (IH HS) as (H1 & H2 & H3).
    apply Forall_app in HF. destruct HF as [HF1 HF2].
    split; [constructor; auto|]. split; auto. intros a b [<-|Ha] Hb; auto.
    rewrite Forall_forall in HF2. auto.
Qed.

Lemma sorted_drop a x b : StronglySorted lt (a ++ x :: b) -> StronglySorted lt (a ++ b).
Proof.
  intros H. apply SS_inv_app in H. destruct H as (H1 & H2 & H3).
  inversion H2; subst. apply SS_app; auto. intros u v Hu Hv. apply H3; auto. right; auto.
Qed.

Lemma lexperms_sorted n : forall s, length s = n -> StronglySorted lt s ->
  StronglySorted lexLt (lexperms n s).
Proof.
  induction n as [|n IH]; intros s Hs HS; cbn [lexperms].
  { constructor; constructor. }
  assert (G : forall t pre, length (pre ++ t) = S n -> StronglySorted lt (pre ++ t) ->
    StronglySorted lexLt
      (flat_map (fun sx : list nat * nat => map (cons (snd sx)) (lexperms n (fst sx)))
         (splits pre t))).
  { induction t as [|x t IHt]; intros pre Hl Hp; cbn [splits flat_map]; [constructor|].
    cbn [fst snd]. rewrite app_length in Hl. cbn [length] in Hl. apply SS_app.
    - eapply SS_map; [intros a b; apply lexLt_cons|]. apply IH.
      + rewrite app_length; lia.
      + eapply sorted_drop; eauto.
    - apply IHt; rewrite <- app_assoc; cbn [app]; auto. rewrite app_length; cbn [length]; lia.
    - intros a b Ha Hb. apply in_map_iff in Ha. destruct Ha as (a' & <- & _).
      apply in_flat_map in Hb. destruct Hb as ([r y] & Hy & Hb).
      cbn [fst snd] in Hb. apply in_map_iff in Hb. destruct Hb as (b' & <- & _).
      apply lexLt_head. apply splits_In in Hy. destruct Hy as (u & v & -> & _).
      apply SS_inv_app in Hp. destruct Hp as (_ & Hp & _). inversion Hp as [|? ? ? HF]; subst.
      rewrite Forall_forall in HF. apply HF, in_elt. }
  apply (G s []); auto.
Qed.

(** ** successors *)

(** consecutive elements are related by [next_perm_aux] *)
Fixpoint chained (l : list (list nat)) : Prop :=
  match l with
  | a :: (b :: _) as t => next_perm_aux a = Some b /\ chained t
  | _ => True
  end.

Lemma chained_app l1 a b l2 :
  chained (l1 ++ [a]) -> chained (b :: l2) -> next_perm_aux a = Some b ->
  chained ((l1 ++ [a]) ++ b :: l2).
Proof.
  induction l1 as [|x l1 IH]; intros H1 H2 H.
  - split; auto.
  - destruct l1 as [|y l1]; (split; [apply H1|apply IH; auto; apply H1]).
Qed.

Lemma chained_map x l : chained l -> chained (map (cons x) l).
Proof.
  induction l as [|a l IH]; cbn [map]; auto. destruct l as [|b l]; [cbn; auto|].
  intros [E H]. split; [|exact (IH H)]. cbn [next_perm_aux]. rewrite E. auto.
Qed.

(** the largest permutation *)
Lemma insert_swap_none x l : (forall y, In y l -> y <= x) -> insert_swap x l = None.
Proof.
  induction l as [|y l IH]; intros H; cbn [insert_swap]; auto.
  destruct (Nat.ltb_spec x y) as [L|L].
  - pose proof (H y (or_introl eq_refl)). lia.
  - rewrite IH; auto. intros z Hz. apply H; right; auto.
Qed.

Lemma next_last s : StronglySorted lt s -> next_perm_aux (rev s) = None.
Proof.
  induction s as [|x s IH] using rev_ind; intros HS; [reflexivity|].
  rewrite rev_app_distr. cbn [rev app next_perm_aux].
  apply SS_inv_app in HS. destruct HS as (H1 & _ & H2). rewrite (IH H1).
  rewrite rev_involutive, insert_swap_none; auto.
  intros y Hy. specialize (H2 y x Hy (or_introl eq_refl)). lia.
Qed.

Lemma insert_swap_some x y a b : (forall z, In z a -> z <= x) -> x < y ->
  insert_swap x (a ++ y :: b) = Some (y, a ++ x :: b).
Proof.
  induction a as [|z a IH]; intros Ha Hy; cbn [app insert_swap].
  - apply Nat.ltb_lt in Hy. rewrite Hy. auto.
  - destruct (Nat.ltb_spec x z) as [L|L].
    + pose proof (Ha z (or_introl eq_refl)). lia.
    + rewrite IH; auto. intros w Hw. apply Ha; right; auto.
Qed.

Lemma next_block a x y b : StronglySorted lt (a ++ x :: y :: b) ->
  next_perm_aux (x :: rev (a ++ y :: b)) = Some (y :: a ++ x :: b).
Proof.
  intros H. cbn [next_perm_aux].
  rewrite next_last by (eapply sorted_drop; eauto). rewrite rev_involutive.
  apply SS_inv_app in H. destruct H as (H1 & H2 & H3).
  inversion H2 as [|? ? _ HF]; subst. inversion HF; subst.
  rewrite insert_swap_some; auto.
  intros z Hz. specialize (H3 z x Hz (or_introl eq_refl)). lia.
Qed.

Lemma lexperms_chain n : forall s, length s = n -> StronglySorted lt s ->
  (exists l, lexperms n s = s :: l) /\ (exists l, lexperms n s = l ++ [rev s]) /\
  chained (lexperms n s).
Proof.
  induction n as [|n IH]; intros s Hs HS; cbn [lexperms].
  { destruct s; [|discriminate]. split; [exists []; auto|]. split; [exists []; auto|]. cbn; auto. }
  set (blkf := fun sx : list nat * nat => map (cons (snd sx)) (lexperms n (fst sx))).
  assert (G : forall t pre x, length (pre ++ x :: t) = S n -> StronglySorted lt (pre ++ x :: t) ->
    (exists l, flat_map blkf (splits pre (x :: t)) = (x :: pre ++ t) :: l) /\
    (exists l, flat_map blkf (splits pre (x :: t)) = l ++ [rev (pre ++ x :: t)]) /\
    chained (flat_map blkf (splits pre (x :: t)))).
  { induction t as [|y t IHt]; intros pre x Hl Hp; rewrite app_length in Hl; cbn [length] in Hl.
    - cbn [splits flat_map]. rewrite app_nil_r. unfold blkf. cbn [fst snd]. rewrite app_nil_r.
      destruct (IH pre) as ((l1 & E1) & (l2 & E2) & HC); [lia| |].
      { apply SS_inv_app in Hp. tauto. }
      split; [|split].
      + rewrite E1. cbn [map]. eauto.
      + rewrite E2, map_app, rev_app_distr. cbn [map rev app]. eauto.
      + apply chained_map; auto.
    - change (splits pre (x :: y :: t)) with ((pre ++ y :: t, x) :: splits (pre ++ [x]) (y :: t)).
      cbn [flat_map]. unfold blkf at 1 3 5. cbn [fst snd].
      destruct (IH (pre ++ y :: t)) as ((l1 & E1) & (l2 & E2) & HC).
      { rewrite app_length; cbn [length]; lia. } { eapply sorted_drop; eauto. }
      destruct (IHt (pre ++ [x]) y) as ((l3 & E3) & (l4 & E4) & HC').
      { rewrite !app_length; cbn [length]; lia. } { rewrite <- app_assoc; auto. }
      split; [|split].
      + rewrite E1. cbn [map app]. eauto.
      + rewrite E4, app_assoc. rewrite <- (app_assoc pre [x]). cbn [app]. eauto.
      + rewrite E2, map_app. cbn [map]. rewrite E3. rewrite <- app_assoc. cbn [app].
        replace (map (cons x) l2 ++ (x :: rev (pre ++ y :: t)) :: (y :: (pre ++ [x]) ++ t) :: l3)
          with ((map (cons x) l2 ++ [x :: rev (pre ++ y :: t)]) ++
                (y :: (pre ++ [x]) ++ t) :: l3) by (rewrite <- app_assoc; auto).
        apply chained_app.
        * apply (chained_map x) in HC. rewrite E2, map_app in HC. exact HC.
        * rewrite <- E3. exact HC'.
        * rewrite <- app_assoc. cbn [app]. apply next_block; auto. }
  destruct s as [|x t]; [discriminate|].
  destruct (G t [] x) as (H1 & H2 & H3); auto.
Qed.

(** ** the loop *)

Definition enumStep : list nat * list (list nat) -> list nat * list (list nat) :=
  fun '(current, ret) => (next_permutation current, current :: ret).

Lemma enum_iter l : forall k acc a, chained (a :: l) -> k <= S (length l) ->
  snd (Nat.iter k enumStep (a, acc)) = rev (firstn k (a :: l)) ++ acc /\
  (k <= length l -> fst (Nat.iter k enumStep (a, acc)) = nth k (a :: l) []).
Proof.
  intros k acc a HC. induction k as [|k IH]; intros Hk.
  - cbn. auto.
  - destruct IH as [I1 I2]; [lia|]. specialize (I2 ltac:(lia)).
    change (Nat.iter (S k) enumStep (a, acc)) with (enumStep (Nat.iter k enumStep (a, acc))).
    destruct (Nat.iter k enumStep (a, acc)) as [cur ret]. cbn [fst snd] in I1, I2.
    unfold enumStep. cbn [fst snd]. subst cur ret.
    assert (Hlen : k < length (a :: l)) by (cbn [length]; lia). split.
    + replace (firstn (S k) (a :: l)) with (firstn k (a :: l) ++ [nth k (a :: l) []]).
      * rewrite rev_app_distr. reflexivity.
      * clear -Hlen. revert Hlen. generalize (a :: l) as m. clear.
        induction k as [|k IH]; intros [|b m] H; cbn [length] in H; try lia; auto.
        cbn [firstn nth app]. f_equal. apply IH. lia.
    + intros Hk'. assert (HN : S k < length (a :: l)) by (cbn [length]; lia).
      assert (E : next_perm_aux (nth k (a :: l) []) = Some (nth (S k) (a :: l) [])).
      { clear -HC HN. revert HC HN. generalize (a :: l) as m. clear.
        induction k as [|k IH]; intros m HC HN.
        - destruct m as [|u [|v m]]; cbn [length] in HN; try lia. cbn [nth]. apply HC.
        - destruct m as [|u m]; cbn [length] in HN; try lia.
          change (nth (S k) (u :: m) []) with (nth k m []).
          change (nth (S (S k)) (u :: m) []) with (nth (S k) m []).
          apply IH; [|lia]. destruct m as [|v m]; [cbn; auto|]. apply HC. }
      unfold next_permutation. rewrite E. auto.
Qed.

(** ** factorial *)

Lemma factorial_fact n : factorial n = (N.of_nat (fact n) mod size_t_mod)%N.
Proof.
  assert (HM : (size_t_mod <> 0)%N) by discriminate.
  unfold factorial. induction n as [|n IH]; [reflexivity|].
  destruct n as [|n]; [reflexivity|].
  replace (irange 2 (S (S n) + 1)) with (irange 2 (S n + 1) ++ [S (S n)]).
  - rewrite fold_left_app, IH. cbn [fold_left].
    change (fact (S (S n))) with (S (S n) * fact (S n)).
    rewrite Nat2N.inj_mul, N.mul_mod_idemp_l by auto. f_equal. apply N.mul_comm.
  - rewrite (irange_app 2 (S n + 1) (S (S n) + 1)) by lia. f_equal.
    unfold irange. replace (S (S n) + 1 - (S n + 1)) with 1 by lia. cbn [seq].
    f_equal. lia.
Qed.

Fixpoint factN (n : nat) : N :=
  match n with 0 => 1%N | S n' => (N.of_nat (S n') * factN n')%N end.

Lemma factN_fact n : N.of_nat (fact n) = factN n.
Proof.
  induction n as [|n IH]; [reflexivity|].
  change (fact (S n)) with (S n * fact n). rewrite Nat2N.inj_mul, IH. reflexivity.
Qed.

Lemma fact_small n : n <= 20 -> (N.of_nat (fact n) < size_t_mod)%N.
Proof.
  intros H. rewrite factN_fact.
  do 21 (destruct n as [|n]; [reflexivity|]). lia.
Qed.

Theorem enumerate_firstn dim :
  enumeratePermutationsStatic dim =
  firstn (N.to_nat (N.of_nat (fact dim) mod size_t_mod)) (lexperms dim (seq 0 dim)).
Proof.
  unfold enumeratePermutationsStatic. rewrite N2Nat.inj_iter, factorial_fact.
  fold enumStep. set (k := N.to_nat _).
  assert (HS : StronglySorted lt (seq 0 dim)).
  { generalize 0 as a. induction dim as [|n IH]; intros a; cbn [seq]; constructor; auto.
    apply Forall_forall. intros x Hx. apply in_seq in Hx. lia. }
  destruct (lexperms_chain dim (seq 0 dim) (seq_length _ _) HS) as ((l & E) & _ & HC).
  pose proof (lexperms_length dim (seq 0 dim) (seq_length _ _)) as HL. rewrite E in *.
  assert (Hk : k <= S (length l)).
  { unfold k. cbn [length] in HL. rewrite HL.
    assert (N.of_nat (fact dim) mod size_t_mod <= N.of_nat (fact dim))%N
      by (apply N.mod_le; discriminate). lia. }
  destruct (enum_iter l k [] (seq 0 dim) HC Hk) as [H _].
  rewrite H, app_nil_r, rev_involutive. auto.
Qed.
