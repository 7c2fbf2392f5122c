(** The determinant: row operations, permutations, triangular matrices. *)
From Coq Require Import List Arith Lia Bool Ring Permutation.
From Verif Require Import ModelNumeric SpecNumeric SpecDet ProofExact.
Import ListNotations.

(** the row that becomes row [r] of the others when row i is removed *)
Definition unskip (i r : nat) : nat := if r <? i then r else r - 1.
Definition sw (j i : nat) : nat := if i =? j then S j else if i =? S j then j else i.

Ltac skips := unfold skipRow, unskip, sw in *;
  repeat match goal with
  | |- context [?a <? ?b] => destruct (Nat.ltb_spec a b)
  | |- context [?a =? ?b] => destruct (Nat.eqb_spec a b)
  | H : context [?a <? ?b] |- _ => destruct (Nat.ltb_spec a b)
  | H : context [?a =? ?b] |- _ => destruct (Nat.eqb_spec a b)
  end; try lia; try congruence.

Lemma skip_ne i r : skipRow i r <> i.
Proof. skips. Qed.
Lemma skip_iff i r x : r <> i -> skipRow i x = r <-> x = unskip i r.
Proof. intros H. split; intros E; skips. Qed.
Lemma skip_lt i r n : i <= n -> r < n -> skipRow i r < S n.
Proof. intros. skips. Qed.
Lemma skip_unskip i r : r <> i -> skipRow i (unskip i r) = r.
Proof. intros. skips. Qed.
Lemma unskip_lt i r n : i <= n -> r <= n -> r <> i -> unskip i r < n.
Proof. intros. skips. Qed.
Lemma skip_comm i j r : j < i -> skipRow i (skipRow j r) = skipRow j (skipRow (i - 1) r).
Proof. intros H. skips. Qed.

Section Det.
  Context {F : Type} (O : ops F) (FL : fieldLaws O).
  Local Notation "0" := (o0 O) : scalar.
  Local Notation "a + b" := (oadd O a b) : scalar.
  Local Notation "a - b" := (osub O a b) : scalar.
  Local Notation "a * b" := (omul O a b) : scalar.
  Local Notation sum := (sumn O).
  Local Notation one := (fl_one FL).
  Local Notation det := (det O one).
  Local Notation signed := (signed O).
  Add Ring FrDet : (fl_ring FL).
  Implicit Types (A B : nat -> nat -> F) (u v : nat -> F).

  Lemma signed_S i x : signed (S i) x = (0 - signed i x)%s.
  Proof.
    unfold SpecDet.signed. rewrite Nat.even_succ, <- Nat.negb_even. destruct (Nat.even i); cbn [negb]; ring.
  Qed.
  Lemma signed_add i x y : signed i (x + y)%s = (signed i x + signed i y)%s.
  Proof. unfold SpecDet.signed. destruct (Nat.even i); ring. Qed.
  Lemma signed_mul i c x : signed i (c * x)%s = (c * signed i x)%s.
  Proof. unfold SpecDet.signed. destruct (Nat.even i); ring. Qed.
  Lemma signed_0 i : signed i 0%s = 0%s.
  Proof. unfold SpecDet.signed. destruct (Nat.even i); ring. Qed.
  Lemma signed_z i x : x = 0%s -> signed i x = 0%s.
  Proof. intros ->. apply signed_0. Qed.
  Lemma signed_neg i x : signed i (0 - x)%s = (0 - signed i x)%s.
  Proof. unfold SpecDet.signed. destruct (Nat.even i); ring. Qed.
  Lemma signed_signed i k x : signed i (signed k x) = signed (i + k)%nat x.
  Proof.
    induction i as [|i IH]; cbn [Nat.add].
    - reflexivity.
    - rewrite !signed_S, IH. auto.
  Qed.
  Lemma signed_sum i n f : signed i (sum n f) = sum n (fun k => signed i (f k)).
  Proof. induction n as [|n IH]; cbn [sumn]; [apply signed_0|]. rewrite signed_add, IH. auto. Qed.

  Definition minor i A : nat -> nat -> F := fun r c => A (skipRow i r) (S c).
  Lemma det_S n A : det (S n) A = sum (S n) (fun i => signed i (A i 0%nat * det n (minor i A))%s).
  Proof. reflexivity. Qed.

  Lemma det_ext n A B : (forall r c, r < n -> c < n -> A r c = B r c) -> det n A = det n B.
  Proof.
    revert A B. induction n as [|n IH]; intros A B H; [reflexivity|].
    rewrite !det_S. apply (sumn_ext O). intros i Hi. rewrite (H i) by lia.
    rewrite (IH (minor i A) (minor i B)); auto. intros r c Hr Hc. apply H; [apply skip_lt|]; lia.
  Qed.

  Lemma sum_two n f i j : i < j -> j < n -> (forall k, k < n -> k <> i -> k <> j -> f k = 0%s) ->
    sum n f = (f i + f j)%s.
  Proof.
    intros Hi Hj H.
    rewrite (sumn_ext O n f (fun k => (if k =? i then f i else 0) + (if k =? j then f j else 0))%s).
    - rewrite (sumn_plus O FL), (sumn_single O FL n _ i), (sumn_single O FL n _ j), !Nat.eqb_refl; auto; try lia.
      + intros k _ N. destruct (Nat.eqb_spec k j); congruence.
      + intros k _ N. destruct (Nat.eqb_spec k i); congruence.
    - intros k Hk. destruct (Nat.eqb_spec k i), (Nat.eqb_spec k j); subst; try lia; try ring.
      rewrite H by auto. ring.
  Qed.

  Lemma sum_neg n f : sum n (fun k => 0 - f k)%s = (0 - sum n f)%s.
  Proof. induction n as [|n IH]; cbn [sumn]; [ring|]. rewrite IH. ring. Qed.

  (** ** rows *)
  Definition setrow A r v : nat -> nat -> F := fun i c => if i =? r then v c else A i c.

  Lemma setrow_at A r v c : setrow A r v r c = v c.
  Proof. unfold setrow. rewrite Nat.eqb_refl. auto. Qed.
  Lemma setrow_off A r v i c : i <> r -> setrow A r v i c = A i c.
  Proof. intros H. unfold setrow. destruct (Nat.eqb_spec i r); congruence. Qed.

  Lemma minor_setrow_at n A r v : r < S n -> det n (minor r (setrow A r v)) = det n (minor r A).
  Proof.
    intros Hr. apply det_ext. intros i c Hi Hc. unfold minor. apply setrow_off, skip_ne.
  Qed.
  Lemma minor_setrow n A i r v : i <> r ->
    det n (minor i (setrow A r v)) = det n (setrow (minor i A) (unskip i r) (fun c => v (S c))).
  Proof.
    intros N. apply det_ext. intros x c _ _. unfold minor, setrow.
    destruct (Nat.eqb_spec (skipRow i x) r) as [E|E], (Nat.eqb_spec x (unskip i r)) as [E'|E']; auto.
    - apply skip_iff in E; auto. congruence.
    - apply skip_iff in E'; auto. congruence.
  Qed.

  Lemma det_row n A r u v a b : r < n -> (forall c, c < n -> A r c = (a * u c + b * v c)%s) ->
    det n A = (a * det n (setrow A r u) + b * det n (setrow A r v))%s.
  Proof.
    revert A r u v. induction n as [|n IH]; intros A r u v Hr H; [lia|].
    rewrite !det_S, <- !(sumn_mult_l O FL), <- (sumn_plus O FL). apply (sumn_ext O). intros i Hi.
    destruct (Nat.eq_dec i r) as [->|N].
    - rewrite !minor_setrow_at, !setrow_at by auto. rewrite H by lia.
      rewrite <- !signed_mul, <- signed_add. f_equal. ring.
    - rewrite !minor_setrow, !setrow_off by auto.
      rewrite (IH (minor i A) (unskip i r) (fun c => u (S c)) (fun c => v (S c))).
      + rewrite <- !signed_mul, <- signed_add. f_equal. ring.
      + apply unskip_lt; lia.
      + intros c Hc. unfold minor. rewrite skip_unskip by auto. apply H. lia.
  Qed.

  Lemma det_adj n A r : S r < n -> (forall c, c < n -> A r c = A (S r) c) -> det n A = 0%s.
  Proof.
    revert A r. induction n as [|n IH]; intros A r Hr H; [lia|]. rewrite det_S.
    rewrite (sum_two (S n) _ r (S r)); [|lia|auto|].
    2:{ intros k Hk N1 N2. rewrite (IH (minor k A) (unskip k r)).
        - apply signed_z. ring.
        - skips.
        - intros c Hc. unfold minor. rewrite skip_unskip by auto.
          replace (S (unskip k r)) with (unskip k (S r)) by skips.
          rewrite skip_unskip by auto. apply H. lia. }
    rewrite signed_S, H by lia.
    rewrite (det_ext n (minor (S r) A) (minor r A)); [ring|].
    intros i c Hi Hc. unfold minor.
    destruct (Nat.eq_dec i r) as [->|N].
    - replace (skipRow (S r) r) with r by skips. replace (skipRow r r) with (S r) by skips. apply H. lia.
    - replace (skipRow (S r) i) with (skipRow r i) by skips. auto.
  Qed.

  Lemma setrow_self n A r : det n (setrow A r (A r)) = det n A.
  Proof. apply det_ext. intros i c _ _. unfold setrow. destruct (Nat.eqb_spec i r) as [->|]; auto. Qed.

  Lemma det_swap n A r : S r < n -> det n (fun i c => A (sw r i) c) = (0 - det n A)%s.
  Proof.
    intros Hr. set (x := A r). set (y := A (S r)).
    set (M := fun u v => setrow (setrow A r u) (S r) v).
    assert (Z : forall u, det n (M u u) = 0%s).
    { intros u. apply (det_adj n _ r); auto. intros c Hc. unfold M. rewrite setrow_at.
      rewrite setrow_off, setrow_at by lia. auto. }
    set (w := fun c => (x c + y c)%s).
    assert (E1 : forall v, det n (M w v) = (one * det n (M x v) + one * det n (M y v))%s).
    { intros v. rewrite (det_row n (M w v) r x y one one).
      - f_equal; f_equal; apply det_ext; intros i c _ _; unfold M, setrow;
          destruct (Nat.eqb_spec i r) as [->|]; auto; destruct (Nat.eqb_spec r (S r)); auto; lia.
      - lia.
      - intros c _. unfold M. rewrite setrow_off, setrow_at by lia. unfold w. ring. }
    assert (E2 : forall u, det n (M u w) = (one * det n (M u x) + one * det n (M u y))%s).
    { intros u. rewrite (det_row n (M u w) (S r) x y one one); auto.
      - f_equal; f_equal; apply det_ext; intros i c _ _; unfold M, setrow;
          destruct (Nat.eqb_spec i (S r)) as [->|]; auto.
      - intros c _. unfold M. rewrite setrow_at. unfold w. ring. }
    pose proof (Z w) as E. rewrite E1, !E2, !Z in E.
    assert (Exy : det n (M x y) = det n A).
    { apply det_ext. intros i c _ _. unfold M, setrow, x, y.
      destruct (Nat.eqb_spec i (S r)) as [->|]; auto. destruct (Nat.eqb_spec i r) as [->|]; auto. }
    assert (Eyx : det n (M y x) = det n (fun i c => A (sw r i) c)).
    { apply det_ext. intros i c _ _. unfold M, setrow, sw, x, y.
      destruct (Nat.eqb_spec i (S r)), (Nat.eqb_spec i r); subst; auto; try lia. }
    rewrite Exy, Eyx in E.
    transitivity ((one * (one * 0 + one * det n A) + one * (one * det n (fun i c => A (sw r i) c) + one * 0)) - det n A)%s;
      [ring|]. rewrite E. ring.
  Qed.

  Lemma det_equal n A i j : i < j -> j < n -> (forall c, c < n -> A i c = A j c) -> det n A = 0%s.
  Proof.
    revert A. induction j as [|j IH]; intros A Hi Hj H; [lia|].
    destruct (Nat.eq_dec i j) as [->|N].
    - apply (det_adj n A j); auto.
    - assert (E : det n (fun r c => A (sw j r) c) = 0%s).
      { apply IH; try lia. intros c Hc. cbv beta.
        replace (sw j i) with i by skips. replace (sw j j) with (S j) by skips. auto. }
      rewrite det_swap in E by auto. transitivity (0 - (0 - det n A))%s; [ring|]. rewrite E. ring.
  Qed.

  Lemma det_addrow n A i k c : i < n -> k < n -> i <> k ->
    det n (setrow A i (fun x => A i x + c * A k x)%s) = det n A.
  Proof.
    intros Hi Hk N. set (B := setrow A i _).
    rewrite (det_row n B i (A i) (A k) one c); auto.
    - assert (E1 : det n (setrow B i (A i)) = det n A).
      { apply det_ext. intros r x _ _. unfold B, setrow. destruct (Nat.eqb_spec r i) as [->|]; auto. }
      assert (E2 : det n (setrow B i (A k)) = 0%s).
      { assert (R : forall x, setrow B i (A k) i x = setrow B i (A k) k x).
        { intros x. rewrite setrow_at, setrow_off by auto. unfold B. rewrite setrow_off by auto. auto. }
        destruct (Nat.lt_ge_cases i k).
        - apply (det_equal n _ i k); auto.
        - apply (det_equal n _ k i); auto. lia. }
      rewrite E1, E2. ring.
    - intros x _. unfold B. rewrite setrow_at. ring.
  Qed.

  Lemma det_addrows n A i l m : m <= i -> i < n ->
    det n (setrow A i (fun x => A i x + sum m (fun k => l k * A k x))%s) = det n A.
  Proof.
    intros Hm Hi. induction m as [|m IH].
    - apply det_ext. intros r x _ _. unfold setrow. destruct (Nat.eqb_spec r i) as [->|]; auto. cbn [sumn]. ring.
    - rewrite <- IH by lia. rewrite <- (det_addrow n (setrow A i (fun x => A i x + sum m (fun k => l k * A k x))%s) i m (l m)) by lia.
      apply det_ext. intros r x _ _. unfold setrow. rewrite Nat.eqb_refl.
      destruct (Nat.eqb_spec r i) as [->|]; auto. destruct (Nat.eqb_spec m i); [lia|]. cbn [sumn]. ring.
  Qed.

  (** multiplying with a unit lower triangular matrix *)
  Lemma det_unit_lower n (l U : nat -> nat -> F) :
    det n (fun i x => U i x + sum i (fun k => l i k * U k x))%s = det n U.
  Proof.
    set (B := fun m i x => if i <? m then U i x else (U i x + sum i (fun k => l i k * U k x))%s).
    assert (K : forall m, m <= n -> det n (B m) = det n (B 0%nat)).
    { induction m as [|m IH]; intros Hm; auto. rewrite <- IH by lia.
      rewrite <- (det_addrows n (B (S m)) m (l m) m) by lia.
      apply det_ext. intros i x _ _. unfold setrow. destruct (Nat.eqb_spec i m) as [->|N].
      - unfold B. rewrite (proj2 (Nat.ltb_lt m (S m))), (proj2 (Nat.ltb_ge m m)) by lia. f_equal.
        apply (sumn_ext O). intros k Hk. rewrite (proj2 (Nat.ltb_lt k (S m))) by lia. auto.
      - unfold B. destruct (Nat.ltb_spec i (S m)), (Nat.ltb_spec i m); auto; lia. }
    transitivity (det n (B 0%nat)); [reflexivity|]. rewrite <- (K n) by lia.
    apply det_ext. intros i x Hi _. unfold B. rewrite (proj2 (Nat.ltb_lt i n)) by lia. auto.
  Qed.

  Lemma prodn_shift n f : prodn O one (S n) f = (f 0%nat * prodn O one n (fun i => f (S i)))%s.
  Proof.
    induction n as [|n IH]; [cbn [prodn]; ring|].
    change (prodn O one (S (S n)) f) with (prodn O one (S n) f * f (S n))%s. rewrite IH. cbn [prodn]. ring.
  Qed.
  Lemma prodn_ext n f g : (forall i, i < n -> f i = g i) -> prodn O one n f = prodn O one n g.
  Proof. induction n as [|n IH]; intros H; cbn [prodn]; auto. rewrite IH, H; auto. Qed.

  Lemma det_upper n U : (forall i j, j < i -> i < n -> U i j = 0%s) ->
    det n U = prodn O one n (fun i => U i i).
  Proof.
    revert U. induction n as [|n IH]; intros U H; [reflexivity|].
    rewrite det_S, (sumn_single O FL (S n) _ 0%nat).
    - rewrite prodn_shift. rewrite <- (IH (fun i j => U (S i) (S j))) by (intros; apply H; lia).
      unfold SpecDet.signed. cbn [Nat.even]. f_equal.
    - lia.
    - intros k Hk N. rewrite (H k 0%nat) by lia. apply signed_z. ring.
  Qed.

  (** L D L^T with a unit lower triangular L *)
  Lemma det_ldl n (l A : nat -> nat -> F) (D : nat -> F) :
    (forall i, i < n -> l i i = one) -> (forall i k, i < k -> k < n -> l i k = 0%s) ->
    (forall i j, i < n -> j < n -> sum n (fun k => l i k * D k * l j k)%s = A i j) ->
    det n A = prodn O one n D.
  Proof.
    intros L1 L0 HA. set (U := fun i j => (D i * l j i)%s).
    rewrite <- (det_ext n (fun i x => U i x + sum i (fun k => l i k * U k x))%s A).
    - rewrite det_unit_lower, det_upper.
      + apply prodn_ext. intros i Hi. unfold U. rewrite L1 by auto. ring.
      + intros i j Hj Hi. unfold U. rewrite L0 by auto. ring.
    - intros i j Hi Hj. rewrite <- HA by auto.
      rewrite (sumn_le O FL (S i) n) by (try lia; intros k H1 H2; rewrite (L0 i k) by lia; ring).
      cbn [sumn]. rewrite L1 by auto. unfold U.
      rewrite (sumn_ext O i _ (fun k => l i k * D k * l j k)%s) by (intros; ring). ring.
  Qed.

  (** ** columns *)
  Lemma sum_pairs n g i : i <= n ->
    sum n g = sum (S n) (fun j => if j <? i then g j else if i <? j then g (j - 1)%nat else 0%s).
  Proof.
    revert i. induction n as [|n IH]; intros i Hi.
    - assert (i = 0%nat) as -> by lia. cbn. ring.
    - set (h := fun j => _). change (sum (S (S n)) h) with (sum (S n) h + h (S n))%s.
      destruct (Nat.eq_dec i (S n)) as [->|N].
      + assert (E : h (S n) = 0%s) by (unfold h; rewrite !Nat.ltb_irrefl; auto). rewrite E.
        rewrite (sumn_ext O (S n) h g); [ring|]. intros j Hj. unfold h. rewrite (proj2 (Nat.ltb_lt j (S n))); auto.
      + assert (E : h (S n) = g n).
        { unfold h. rewrite (proj2 (Nat.ltb_ge (S n) i)), (proj2 (Nat.ltb_lt i (S n))) by lia. f_equal. lia. }
        rewrite E. cbn [sumn] in IH |- *. rewrite (IH i) by lia. reflexivity.
  Qed.

  Lemma det_col_swap0 n A : det (S (S n)) (fun r c => A r (sw 0 c)) = (0 - det (S (S n)) A)%s.
  Proof.
    set (N := S (S n)).
    set (Q := fun i k => det n (fun r c => A (skipRow i (skipRow k r)) (S (S c)))).
    set (T := fun (x y : nat) i k => signed (i + k)%nat (A i x * (A (skipRow i k) y * Q i k))%s).
    assert (E : forall B (x y : nat), (forall r, B r 0%nat = A r x) -> (forall r, B r 1%nat = A r y) ->
      (forall r c, B r (S (S c)) = A r (S (S c))) ->
      det N B = sum N (fun i => sum (S n) (fun k => T x y i k))).
    { intros B x y H0 H1 H2. unfold N. rewrite det_S. apply (sumn_ext O). intros i Hi.
      rewrite det_S, <- (sumn_mult_l O FL), signed_sum. apply (sumn_ext O). intros k Hk.
      unfold T. rewrite <- signed_signed. f_equal. rewrite H0.
      rewrite (det_ext n (minor k (minor i B)) (fun r c => A (skipRow i (skipRow k r)) (S (S c)))).
      - fold (Q i k). unfold minor at 1. rewrite H1. unfold SpecDet.signed. destruct (Nat.even k); ring.
      - intros r c Hr Hc. unfold minor. apply H2. }
    rewrite (E (fun r c => A r (sw 0 c)) 1%nat 0%nat), (E A 0%nat 1%nat) by auto. clear E.
    set (G := fun x y i j => if j <? i then T x y i j else if i <? j then T x y i (j - 1)%nat else 0%s).
    assert (E : forall x y, sum N (fun i => sum (S n) (fun k => T x y i k)) = sum N (fun i => sum N (G x y i))).
    { intros x y. apply (sumn_ext O). intros i Hi. apply (sum_pairs (S n) (T x y i) i). unfold N in *. lia. }
    rewrite !E, (sumn_swap O FL).
    transitivity (sum N (fun j => sum N (fun i => 0 - G 0%nat 1%nat j i)%s)).
    - apply (sumn_ext O). intros j Hj. apply (sumn_ext O). intros i Hi. unfold G.
      assert (X : forall a b, b < a -> T 1%nat 0%nat a b = (0 - T 0%nat 1%nat b (a - 1)%nat)%s /\
                              T 0%nat 1%nat a b = (0 - T 1%nat 0%nat b (a - 1)%nat)%s).
      { intros a b Hab. unfold T.
        assert (S1 : skipRow a b = b) by skips. assert (S2 : skipRow b (a - 1) = a) by skips. rewrite S1, S2.
        assert (EQ : Q a b = Q b (a - 1)%nat).
        { unfold Q. apply det_ext. intros r c _ _. rewrite skip_comm by auto. auto. }
        rewrite EQ. replace (a + b)%nat with (S (b + (a - 1))) by lia. rewrite !signed_S.
        split; f_equal; f_equal; ring. }
      destruct (Nat.ltb_spec j i) as [L1|L1], (Nat.ltb_spec i j) as [L2|L2]; try lia.
      + apply (X i j L1).
      + destruct (X j i L2) as [_ X2]. rewrite X2. ring.
      + ring.
    - rewrite <- sum_neg. apply (sumn_ext O). intros j Hj. rewrite <- sum_neg. auto.
  Qed.

  Lemma det_col_swap j : forall n A, S j < n -> det n (fun r c => A r (sw j c)) = (0 - det n A)%s.
  Proof.
    induction j as [|j IH]; intros n A Hj.
    - destruct n as [|[|n]]; try lia. apply det_col_swap0.
    - destruct n as [|n]; [lia|]. rewrite !det_S.
      rewrite <- sum_neg.
      apply (sumn_ext O). intros i Hi. replace (sw (S j) 0) with 0%nat by skips.
      rewrite (det_ext n (minor i (fun r c => A r (sw (S j) c))) (fun r c => minor i A r (sw j c))).
      + rewrite IH by lia. unfold SpecDet.signed. destruct (Nat.even i); ring.
      + intros r c _ _. unfold minor. f_equal. skips.
  Qed.

  Lemma det_swap_both j n A : S j < n -> det n (fun r c => A (sw j r) (sw j c)) = det n A.
  Proof.
    intros Hj. rewrite (det_swap n (fun r c => A r (sw j c)) j), det_col_swap by auto. ring.
  Qed.

  Lemma nth_swap {I} (d : I) x y l1 l2 i :
    nth i (l1 ++ x :: y :: l2) d = nth (sw (length l1) i) (l1 ++ y :: x :: l2) d.
  Proof.
    unfold sw. destruct (Nat.eqb_spec i (length l1)) as [->|N1].
    - rewrite !app_nth2 by lia. replace (length l1 - length l1)%nat with 0%nat by lia.
      replace (S (length l1) - length l1)%nat with 1%nat by lia. auto.
    - destruct (Nat.eqb_spec i (S (length l1))) as [->|N2].
      + rewrite !app_nth2 by lia. replace (length l1 - length l1)%nat with 0%nat by lia.
        replace (S (length l1) - length l1)%nat with 1%nat by lia. auto.
      + destruct (Nat.lt_ge_cases i (length l1)).
        * rewrite !app_nth1 by lia. auto.
        * rewrite !app_nth2 by lia. destruct (i - length l1)%nat as [|[|k]] eqn:E; try lia. auto.
  Qed.

  (** the order of the variables does not matter *)
  Lemma detOf_perm {I} (d : I) l l' (A : I -> I -> F) : Permutation l l' ->
    detOf O one d l A = detOf O one d l' A.
  Proof.
    intros P. apply Permutation_Permutation_transp in P.
    induction P as [l|x y l1 l2|l l' l'' _ IH1 _ IH2]; auto; [|congruence].
    unfold detOf.
    rewrite (det_ext _ (fun i j => A (nth i (l1 ++ y :: x :: l2) d) (nth j (l1 ++ y :: x :: l2) d))
      (fun r c => (fun i j => A (nth i (l1 ++ x :: y :: l2) d) (nth j (l1 ++ x :: y :: l2) d))
        (sw (length l1) r) (sw (length l1) c))).
    - rewrite (det_swap_both (length l1) _ (fun i j => A (nth i (l1 ++ x :: y :: l2) d) (nth j (l1 ++ x :: y :: l2) d))).
      + f_equal. rewrite !app_length. cbn [length]. auto.
      + rewrite app_length. cbn [length]. lia.
    - intros r c _ _. rewrite (nth_swap d y x l1 l2 r), (nth_swap d y x l1 l2 c). auto.
  Qed.

  Lemma prodn_perm {I} (d : I) l l' (f : I -> F) : Permutation l l' ->
    prodOf O one d l f = prodOf O one d l' f.
  Proof.
    assert (E : forall l, prodOf O one d l f = fold_right (fun a s => omul O (f a) s) one l).
    { clear l l'. induction l as [|a l IH]; [reflexivity|]. unfold prodOf. cbn [length fold_right].
      rewrite prodn_shift. cbn [nth]. rewrite <- IH. reflexivity. }
    intros P. rewrite !E. induction P; cbn [fold_right]; try congruence. ring.
  Qed.

  Lemma mul_nonzero a b : a <> 0%s -> b <> 0%s -> (a * b)%s <> 0%s.
  Proof.
    intros Ha Hb E. apply Ha. rewrite <- (fl_div FL a b Hb).
    transitivity (odiv O a b * b)%s; [auto|].
    rewrite (fl_div FL) by auto.
    transitivity (a * (odiv O one b * b))%s; [rewrite (fl_div FL) by auto; ring|].
    transitivity ((a * b) * odiv O one b)%s; [ring|]. rewrite E. ring.
  Qed.
  Lemma prodn_nonzero n f : (forall i, i < n -> f i <> 0%s) -> prodn O one n f <> 0%s.
  Proof.
    induction n as [|n IH]; cbn [prodn]; intros H; [apply (fl_10 FL)|].
    apply mul_nonzero; auto.
  Qed.
End Det.
