(** Sets of test cases. *)
From Coq Require Import List Arith Lia.
From Verif Require Import ModelTestSet.
Import ListNotations.

Section TestSet.
  Context {A : Type}.

  Lemma in_product {X Y} (l : list X) (r : list Y) x y :
    In (x, y) (cartesian_product l r) <-> In x l /\ In y r.
  Proof.
    unfold cartesian_product. rewrite in_flat_map. split.
    - intros (z & Hz & H). apply in_map_iff in H. destruct H as (w & E & Hw). injection E as -> ->. auto.
    - intros [H1 H2]. exists x. split; auto. apply in_map_iff. eauto.
  Qed.
  Lemma length_product {X Y} (l : list X) (r : list Y) : length (cartesian_product l r) = length l * length r.
  Proof. induction l; cbn; auto. rewrite app_length, map_length. unfold cartesian_product in IHl. lia. Qed.
  Lemma NoDup_app_disj {X} (l r : list X) : NoDup l -> NoDup r -> (forall x, In x l -> ~ In x r) -> NoDup (l ++ r).
  Proof.
    intros Nl Nr D. induction Nl; cbn; auto. constructor.
    - rewrite in_app_iff. intros [H1|H1]; auto. apply (D x); cbn; auto.
    - apply IHNl. intros y Hy. apply D. cbn; auto.
  Qed.
  Lemma NoDup_product {X Y} (l : list X) (r : list Y) : NoDup l -> NoDup r -> NoDup (cartesian_product l r).
  Proof.
    intros Nl Nr. induction Nl as [|x l Hx Nl IH]; cbn; [constructor|]. apply NoDup_app_disj; auto.
    - clear - Nr. induction Nr; cbn; constructor; auto. intros H1.
      apply in_map_iff in H1. destruct H1 as (w & E & Hw). injection E as ->. auto.
    - intros (u, v) H1 H2. apply in_map_iff in H1. destruct H1 as (w & E & Hw). injection E as -> ->.
      apply in_product in H2. tauto.
  Qed.

  Lemma in_cartesian (l r : testSet A) z :
    In z (cartesianProductTestSets l r) <-> exists x y, In x l /\ In y r /\ z = x ++ y.
  Proof.
    unfold cartesianProductTestSets. rewrite in_map_iff. split.
    - intros ((x, y) & <- & H). apply in_product in H. exists x, y. tauto.
    - intros (x & y & H1 & H2 & ->). exists (x, y). rewrite in_product. auto.
  Qed.
  Lemma length_cartesian (l r : testSet A) : length (cartesianProductTestSets l r) = length l * length r.
  Proof. unfold cartesianProductTestSets. rewrite map_length. apply length_product. Qed.

  Lemma app_split (a b c d : list A) : length a = length c -> a ++ b = c ++ d -> a = c /\ b = d.
  Proof.
    revert c. induction a; intros [|x c] L E; cbn in *; try lia; auto. injection E as -> E.
    destruct (IHa c) as [-> ->]; auto.
  Qed.
  Lemma NoDup_cartesian (l r : testSet A) k : (forall x, In x l -> length x = k) -> NoDup l -> NoDup r ->
    NoDup (cartesianProductTestSets l r).
  Proof.
    intros K Nl Nr. unfold cartesianProductTestSets.
    assert (NP := NoDup_product l r Nl Nr). assert (I := fun x y => proj1 (in_product l r x y)).
    revert NP I. generalize (cartesian_product l r). intros p NP I. induction NP as [|(x, y) p Hx NP IH]; cbn; constructor.
    - intros H. apply in_map_iff in H. destruct H as ((x', y') & E & H). cbn in E.
      apply app_split in E. 2:{ rewrite !K; auto; apply I with (1 := or_introl eq_refl) || apply (I x' y'); cbn; auto. }
      destruct E as [-> ->]. auto.
    - apply IH. intros u v H. apply I. cbn. auto.
  Qed.
  Lemma arity_cartesian (l r : testSet A) k m : (forall x, In x l -> length x = k) -> (forall x, In x r -> length x = m) ->
    forall x, In x (cartesianProductTestSets l r) -> length x = k + m.
  Proof.
    intros K M x H. apply in_cartesian in H. destruct H as (a & b & Ha & Hb & ->). rewrite app_length, K, M; auto.
  Qed.

  Lemma zip_nth (l r : testSet A) i d :
    i < length l -> i < length r ->
    nth i (zipTestSets l r) d = nth i l d ++ nth i r d.
  Proof.
    intros H1 H2. unfold zipTestSets.
    rewrite (nth_indep _ d (fst (d, d) ++ snd (d, d))) by (rewrite map_length, combine_length; lia).
    rewrite (map_nth (fun t : list A * list A => fst t ++ snd t)).
    destruct (Nat.eq_dec (length l) (length r)) as [E|N]; [rewrite combine_nth; auto|].
    revert r i H1 H2 N. induction l as [|x l IH]; intros [|y r] [|i] H1 H2 N; cbn in *; try lia; auto.
    apply IH; lia.
  Qed.
  Lemma zip_length (l r : testSet A) : length (zipTestSets l r) = Nat.min (length l) (length r).
  Proof. unfold zipTestSets. rewrite map_length. apply combine_length. Qed.
End TestSet.

Lemma foreach_product {A B} (l : testSet A) (r : testSet B) : foreach l r = cartesian_product l r.
Proof. reflexivity. Qed.

Lemma foreach_nth {A B} (l : testSet A) (r : testSet B) i j a b :
  i < length l -> j < length r ->
  nth (i * length r + j) (foreach l r) (a, b) = (nth i l a, nth j r b).
Proof.
  revert i. induction l as [|x l IH]; intros i Hi Hj; cbn [length] in *; [lia|].
  unfold foreach in *. cbn [flat_map]. destruct i as [|i].
  - cbn [Nat.mul Nat.add nth]. rewrite app_nth1 by (rewrite map_length; auto).
    rewrite (nth_indep _ (a, b) (x, b)) by (rewrite map_length; auto). apply (map_nth (fun y => (x, y))).
  - rewrite app_nth2 by (rewrite map_length; cbn; lia). rewrite map_length.
    replace (S i * length r + j - length r) with (i * length r + j) by (cbn; lia). apply IH; lia.
Qed.
Lemma foreach_all {A B} (l : testSet A) (r : testSet B) :
  length (foreach l r) = length l * length r /\
  (forall x y, In (x, y) (foreach l r) <-> In x l /\ In y r) /\
  (NoDup l -> NoDup r -> NoDup (foreach l r)) /\
  (forall i j a b, i < length l -> j < length r ->
     nth (i * length r + j) (foreach l r) (a, b) = (nth i l a, nth j r b)).
Proof.
  rewrite foreach_product. split; [apply length_product|]. split; [intros; apply in_product|].
  split; [apply NoDup_product|]. intros. rewrite <- foreach_product. apply foreach_nth; auto.
Qed.
Lemma product_all {A} (l r : testSet A) :
  length (cartesianProductTestSets l r) = length l * length r /\
  (forall z, In z (cartesianProductTestSets l r) <-> exists x y, In x l /\ In y r /\ z = x ++ y) /\
  (forall k, (forall x, In x l -> length x = k) -> NoDup l -> NoDup r -> NoDup (cartesianProductTestSets l r)) /\
  (forall i j d, i < length l -> j < length r ->
     nth (i * length r + j) (cartesianProductTestSets l r) d = nth i l d ++ nth j r d).
Proof. split; [apply length_cartesian|]. split; [intros; apply in_cartesian|]. split; [intros k; apply NoDup_cartesian|].
  intros i j d Hi Hj. unfold cartesianProductTestSets. rewrite <- foreach_product.
  assert (LT : i * length r + j < length (foreach l r)).
  { rewrite (proj1 (foreach_all l r)). nia. }
  rewrite (nth_indep _ d (fst (d, d) ++ snd (d, d))) by (rewrite map_length; auto).
  rewrite (map_nth (fun t : list A * list A => fst t ++ snd t)), foreach_nth; auto.
Qed.
Lemma zip_all {A} (l r : testSet A) :
  length (zipTestSets l r) = Nat.min (length l) (length r) /\
  (forall i d, i < length l -> i < length r -> nth i (zipTestSets l r) d = nth i l d ++ nth i r d).
Proof. split; [apply zip_length|]. intros. apply zip_nth; auto. Qed.
Lemma argument_all {A} (l : list A) :
  length (makeArgument l) = length l /\ (forall z, In z (makeArgument l) <-> exists v, In v l /\ z = [v]) /\
  (NoDup l -> NoDup (makeArgument l)).
Proof.
  unfold makeArgument. split; [apply map_length|]. split.
  - intros z. rewrite in_map_iff. split; intros (v & H1 & H2); exists v; auto.
  - intros N. induction N; cbn; constructor; auto. intros H1. apply in_map_iff in H1. destruct H1 as (w & E & Hw).
    injection E as ->. auto.
Qed.
Lemma join_all {A} (l r : testSet A) :
  length (joinTestSets l r) = length l + length r /\ (forall z, In z (joinTestSets l r) <-> In z l \/ In z r) /\
  (NoDup l -> NoDup r -> (forall z, In z l -> ~ In z r) -> NoDup (joinTestSets l r)).
Proof.
  split; [apply app_length|]. split; [intros; apply in_app_iff|]. apply NoDup_app_disj.
Qed.

(** one argument of each of several test sets, tested with all values of another *)
Lemma suite_once {A B} (ms ps : list (list A)) (ts : list A) (fs : testSet B) :
  length ms = length ps ->
  (forall i j x y, i < length ms -> j < length ms -> i <> j -> In x (nth i ms []) -> In y (nth j ms []) -> x <> y) ->
  (forall i, i < length ms -> NoDup (nth i ms []) /\ NoDup (nth i ps [])) -> NoDup ts -> NoDup fs ->
  let cases := cartesianProductTestSets
    (fold_right joinTestSets []
      (map (fun mp => cartesianProductTestSets (makeArgument (fst mp)) (makeArgument (snd mp))) (combine ms ps)))
    (makeArgument ts) in
  NoDup (foreach cases fs) /\
  forall a f, In (a, f) (foreach cases fs) <->
    exists i m p t, i < length ms /\ In m (nth i ms []) /\ In p (nth i ps []) /\ In t ts /\ In f fs /\ a = [m; p; t].
Proof.
  intros L D N NT NF cases.
  assert (IP : forall ms ps, length ms = length ps -> forall z,
    In z (fold_right joinTestSets []
      (map (fun mp => cartesianProductTestSets (makeArgument (fst mp)) (makeArgument (snd mp))) (combine ms ps))) <->
    exists i (m p : A), i < length ms /\ In m (nth i ms []) /\ In p (nth i ps []) /\ z = [m; p]).
  { clear. induction ms as [|m ms IH]; intros [|p ps] L z; cbn in L; try lia.
    - cbn. split; [intros []|intros (i & a & b & H & _); cbn in H; lia].
    - cbn [combine map fold_right]. rewrite (proj1 (proj2 (join_all _ _))), IH, in_cartesian by lia. cbn [fst snd]. split.
      + intros [(x & y & Hx & Hy & ->)|(i & a & b & Hi & Ha & Hb & ->)].
        * apply argument_all in Hx, Hy. destruct Hx as (a & Ha & ->), Hy as (b & Hb & ->). exists 0, a, b. cbn. repeat split; auto; lia.
        * exists (S i), a, b. cbn. repeat split; auto; lia.
      + intros (i & a & b & Hi & Ha & Hb & ->). destruct i as [|i]; cbn in *.
        * left. exists [a], [b]. split; [apply argument_all; eauto|]. split; [apply argument_all; eauto|auto].
        * right. exists i, a, b. repeat split; auto; lia. }
  assert (NP : NoDup (fold_right joinTestSets []
      (map (fun mp => cartesianProductTestSets (makeArgument (fst mp)) (makeArgument (snd mp))) (combine ms ps)))).
  { clear cases. revert ps L D N. induction ms as [|m ms IH]; intros [|p ps] L D N; cbn in L; try lia; [constructor|].
    cbn [combine map fold_right]. apply join_all.
    - apply (NoDup_cartesian _ _ 1).
      + intros x H. apply argument_all in H. destruct H as (v & _ & ->). auto.
      + apply argument_all. apply (N 0). cbn; lia.
      + apply argument_all. apply (N 0). cbn; lia.
    - apply IH; try lia.
      + intros i j x y Hi Hj E. apply (D (S i) (S j)); cbn; lia.
      + intros i Hi. apply (N (S i)). cbn; lia.
    - intros z H1 H2. apply IP in H2; [|lia]. destruct H2 as (i & a & b & Hi & Ha & Hb & ->).
      apply in_cartesian in H1. destruct H1 as (x & y & Hx & Hy & E). apply argument_all in Hx, Hy.
      cbn [fst snd] in Hx, Hy. destruct Hx as (a' & Ha' & ->), Hy as (b' & Hb' & ->). injection E as <- <-.
      apply (D 0 (S i) a a); cbn; auto; lia. }
  assert (IC : forall a, In a cases <-> exists i m p t, i < length ms /\ In m (nth i ms []) /\ In p (nth i ps []) /\
    In t ts /\ a = [m; p; t]).
  { intros a. unfold cases. rewrite in_cartesian. split.
    - intros (x & y & Hx & Hy & ->). apply (IP ms ps L) in Hx. apply argument_all in Hy.
      destruct Hx as (i & m & p & Hi & Hm & Hp & ->), Hy as (t & Ht & ->). exists i, m, p, t. cbn. auto 10.
    - intros (i & m & p & t & Hi & Hm & Hp & Ht & ->). exists [m; p], [t]. split; [apply (IP ms ps L); exists i, m, p; auto|].
      split; [apply argument_all; eauto|auto]. }
  split.
  - apply foreach_all; auto. apply (NoDup_cartesian _ _ 2); auto; [|apply argument_all; auto].
    intros x H. apply (IP ms ps L) in H. destruct H as (i & m & p & _ & _ & _ & ->). auto.
  - intros a f. rewrite (proj1 (proj2 (foreach_all _ _))), IC. split.
    + intros [(i & m & p & t & Hi & Hm & Hp & Ht & ->) Hf]. exists i, m, p, t. auto 10.
    + intros (i & m & p & t & Hi & Hm & Hp & Ht & Hf & ->). split; auto. exists i, m, p, t. auto 10.
Qed.
