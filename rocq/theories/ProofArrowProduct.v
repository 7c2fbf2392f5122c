(** From the block equations to the product of the assembled factors. *)
From Coq Require Import List Arith Lia Bool Ring.
From Verif Require Import Base ModelPerm ModelSparsity ModelSymbolic ModelNumeric ModelArrow.
From Verif Require Import SpecSymbolic SpecArrow SpecNumeric SpecArrowNum.
From Verif Require Import ProofBase ProofExact ProofLdl ProofSingle ProofArrowDense.
Import ListNotations.

Section Index.
  Lemma in_allIdx n ds dt dl dO g :
    In g (allIdx n ds dt dl dO) <->
    match g with
    | GS i => i < ds
    | GT t i => t < n + 1 /\ i < dt
    | GL i => i < dl
    | GO i => i < dO
    end.
  Proof.
    unfold allIdx. rewrite !in_app_iff, !in_map_iff, in_concat.
    assert (HT : (exists x, In x (map (fun t => map (GT t) (seq 0 dt)) (seq 0 (n + 1))) /\ In g x) <->
                 exists t i, g = GT t i /\ t < n + 1 /\ i < dt).
    { split.
      - intros (x & Hx & Hg). apply in_map_iff in Hx. destruct Hx as (t & <- & Ht).
        apply in_map_iff in Hg. destruct Hg as (i & <- & Hi). apply in_seq in Ht, Hi.
        exists t, i. split; auto. lia.
      - intros (t & i & -> & Ht & Hi). exists (map (GT t) (seq 0 dt)). split.
        + apply in_map_iff. exists t. split; auto. apply in_seq. lia.
        + apply in_map_iff. exists i. split; auto. apply in_seq. lia. }
    rewrite HT. clear HT. destruct g as [i|t i|i|i]; split.
    - intros [(x & E & H)|[(t & j & E & _)|[(x & E & _)|(x & E & _)]]]; try discriminate.
      injection E as ->. apply in_seq in H. lia.
    - intros H. left. exists i. split; auto. apply in_seq. lia.
    - intros [(x & E & H)|[(u & j & E & H)|[(x & E & _)|(x & E & _)]]]; try discriminate.
      injection E as -> ->. auto.
    - intros H. right; left. exists t, i. auto.
    - intros [(x & E & H)|[(u & j & E & H)|[(x & E & H)|(x & E & _)]]]; try discriminate.
      injection E as ->. apply in_seq in H. lia.
    - intros H. right; right; left. exists i. split; auto. apply in_seq. lia.
    - intros [(x & E & H)|[(u & j & E & H)|[(x & E & _)|(x & E & H)]]]; try discriminate.
      injection E as ->. apply in_seq in H. lia.
    - intros H. right; right; right. exists i. split; auto. apply in_seq. lia.
  Qed.

  Lemma NoDup_map_inj {A B} (f : A -> B) l :
    (forall a b, f a = f b -> a = b) -> NoDup l -> NoDup (map f l).
  Proof.
    intros I. induction 1 as [|a l Na ND IH]; cbn [map]; constructor; auto.
    intros H. apply in_map_iff in H. destruct H as (b & E & Hb). apply I in E. subst. auto.
  Qed.

  Lemma NoDup_app_disj {A} (l m : list A) :
    NoDup l -> NoDup m -> (forall a, In a l -> In a m -> False) -> NoDup (l ++ m).
  Proof.
    induction 1 as [|a l Na ND IH]; intros Hm D; cbn [app]; auto. constructor.
    - rewrite in_app_iff. intros [H|H]; auto. eapply D; eauto. left; auto.
    - apply IH; auto. intros b Hb. apply D. right; auto.
  Qed.

  Lemma NoDup_concat_tag {A B} (tag : A -> B) (ls : list B) (f : B -> list A) :
    NoDup ls -> (forall b, In b ls -> NoDup (f b)) ->
    (forall a b, In a (f b) -> tag a = b) -> NoDup (concat (map f ls)).
  Proof.
    intros ND. induction ND as [|b ls Nb ND IH]; intros H T; cbn [map concat]; [constructor|].
    apply NoDup_app_disj.
    - apply H. left; auto.
    - apply IH; auto. intros c Hc. apply H. right; auto.
    - intros a H1 H2. apply in_concat in H2. destruct H2 as (x & Hx & Ha).
      apply in_map_iff in Hx. destruct Hx as (c & <- & Hc). apply T in H1, Ha. congruence.
  Qed.

  Lemma NoDup_allIdx n ds dt dl dO : NoDup (allIdx n ds dt dl dO).
  Proof.
    unfold allIdx.
    apply NoDup_app_disj; [apply NoDup_map_inj; [congruence|apply seq_NoDup]| |].
    - apply NoDup_app_disj; [|apply NoDup_app_disj|].
      + apply (NoDup_concat_tag (fun g => match g with GT t _ => t | _ => 0 end)).
        * apply seq_NoDup.
        * intros t _. apply NoDup_map_inj; [congruence|apply seq_NoDup].
        * intros a t H. apply in_map_iff in H. destruct H as (i & <- & _). auto.
      + apply NoDup_map_inj; [congruence|apply seq_NoDup].
      + apply NoDup_map_inj; [congruence|apply seq_NoDup].
      + intros a H1 H2. apply in_map_iff in H1, H2.
        destruct H1 as (i & <- & _), H2 as (j & E & _). discriminate.
      + intros a H1 H2. apply in_concat in H1. destruct H1 as (x & Hx & Ha).
        apply in_map_iff in Hx. destruct Hx as (t & <- & _).
        apply in_map_iff in Ha. destruct Ha as (i & <- & _).
        apply in_app_iff in H2. rewrite !in_map_iff in H2.
        destruct H2 as [(j & E & _)|(j & E & _)]; discriminate.
    - intros a H1 H2. apply in_map_iff in H1. destruct H1 as (i & <- & _).
      rewrite !in_app_iff, in_concat, !in_map_iff in H2.
      destruct H2 as [(x & Hx & Ha)|[(j & E & _)|(j & E & _)]]; try discriminate.
      apply in_map_iff in Hx. destruct Hx as (t & <- & _).
      apply in_map_iff in Ha. destruct Ha as (j & E & _). discriminate.
  Qed.
End Index.

Section Product.
  Context {F : Type} (O : ops F) (FL : fieldLaws O).
  Local Notation "0" := (o0 O) : scalar.
  Local Notation "a + b" := (oadd O a b) : scalar.
  Local Notation "a - b" := (osub O a b) : scalar.
  Local Notation "a * b" := (omul O a b) : scalar.
  Local Notation sum := (sumn O).
  Local Notation pr := (pr O).
  Add Ring FrP : (fl_ring FL).

  Lemma suml_allIdx n ds dt dl dO f :
    suml O (allIdx n ds dt dl dO) f =
    (sum ds (fun i => f (GS i)) + sum (n + 1) (fun t => sum dt (fun i => f (GT t i))) +
     sum dl (fun i => f (GL i)) + sum dO (fun i => f (GO i)))%s.
  Proof.
    unfold allIdx. rewrite !(suml_app O FL), (suml_concat O FL), !(suml_map O), !(suml_seq O FL).
    rewrite (sumn_ext O (n + 1) (fun a => suml O (map (GT a) (seq 0 dt)) f)
               (fun t => sum dt (fun i => f (GT t i)))).
    - ring.
    - intros t _. rewrite (suml_map O), (suml_seq O FL). auto.
  Qed.

  Lemma gldlt_split n ds dt dl dO L D g h :
    gldltAt O (allIdx n ds dt dl dO) L D g h =
    (pr ds (fun k => D (GS k)) (fun k => L g (GS k)) (fun k => L h (GS k)) +
     sum (n + 1) (fun t => pr dt (fun k => D (GT t k)) (fun k => L g (GT t k)) (fun k => L h (GT t k))) +
     pr dl (fun k => D (GL k)) (fun k => L g (GL k)) (fun k => L h (GL k)) +
     pr dO (fun k => D (GO k)) (fun k => L g (GO k)) (fun k => L h (GO k)))%s.
  Proof. unfold gldltAt. rewrite suml_allIdx. reflexivity. Qed.

  Lemma gldlt_sym all L D g h : gldltAt O all L D g h = gldltAt O all L D h g.
  Proof. unfold gldltAt. apply suml_ext. intros k _. ring. Qed.

  Lemma pr_0l n D f g : (forall k, k < n -> f k = 0%s) -> pr n D f g = 0%s.
  Proof. intros H. apply (sumn_0 O FL). intros k Hk. rewrite H by auto. ring. Qed.
  Lemma pr_0r n D f g : (forall k, k < n -> g k = 0%s) -> pr n D f g = 0%s.
  Proof. intros H. apply (sumn_0 O FL). intros k Hk. rewrite H by auto. ring. Qed.
  Lemma pr_comm n D f g : pr n D f g = pr n D g f.
  Proof. apply sumn_ext. intros. ring. Qed.

  Lemma pr_unit_r n D f g j : j < n -> g j = 0%s ->
    pr n D f (fun k => if j =? k then fl_one FL else g k) = (pr n D f g + f j * D j)%s.
  Proof.
    intros Hj G0. unfold pr. rewrite <- (sumn_indicator O FL n j (f j * D j)%s Hj).
    rewrite <- (sumn_plus O FL). apply sumn_ext. intros k Hk.
    rewrite (Nat.eqb_sym k j). destruct (Nat.eqb_spec j k) as [->|].
    - rewrite G0. ring.
    - ring.
  Qed.

  Lemma pr_unit n D (G : nat -> nat -> F) i j :
    (forall i j, i <= j -> G i j = 0%s) -> i < n -> j < i ->
    pr n D (fun k => if i =? k then fl_one FL else G i k) (fun k => if j =? k then fl_one FL else G j k) =
    (pr n D (G i) (G j) + G i j * D j)%s.
  Proof.
    intros GU Hi Hj. rewrite pr_unit_r by (auto; lia). rewrite pr_comm, pr_unit_r by auto.
    rewrite (pr_comm n D (G j)), (GU j i) by lia. destruct (Nat.eqb_spec i j); [lia|]. ring.
  Qed.

  Lemma pr_unit_same n D (G : nat -> nat -> F) i :
    (forall i j, i <= j -> G i j = 0%s) -> i < n ->
    pr n D (fun k => if i =? k then fl_one FL else G i k) (fun k => if i =? k then fl_one FL else G i k) =
    (pr n D (G i) (G i) + D i)%s.
  Proof.
    intros GU Hi. rewrite pr_unit_r by auto. rewrite pr_comm, pr_unit_r by auto.
    rewrite (GU i i), Nat.eqb_refl by lia. ring.
  Qed.

  Lemma sum_two n f u : u + 1 < n -> (forall v, v < n -> v <> u -> v <> (u + 1)%nat -> f v = 0%s) ->
    sum n f = (f u + f (u + 1)%nat)%s.
  Proof.
    intros Hu H.
    rewrite (sumn_ext O n f (fun v => (if v =? u then f u else 0) +
                                      (if v =? u + 1 then f (u + 1)%nat else 0))%s).
    - rewrite (sumn_plus O FL), !(sumn_indicator O FL) by lia. auto.
    - intros v Hv. destruct (Nat.eqb_spec v u) as [->|].
      + destruct (Nat.eqb_spec u (u + 1)); [lia|]. ring.
      + destruct (Nat.eqb_spec v (u + 1)) as [->|]; [ring|]. rewrite H by auto. ring.
  Qed.

  Definition unitFun (f : arrow_fun F) : arrow_fun F := mkAF F
    (fun i k => if i =? k then fl_one FL else f_sd f i k) (f_sn f) (f_so f)
    (fun t i k => if i =? k then fl_one FL else f_td f t i k) (f_ts f) (f_lp f)
    (fun i k => if i =? k then fl_one FL else f_ld f i k) (f_ln f) (f_os f)
    (fun i k => if i =? k then fl_one FL else f_od f i k).

  Record strictLower (f : arrow_fun F) : Prop := mkStrictLower {
    sl_sd' : forall i j, i <= j -> f_sd f i j = 0%s;
    sl_td' : forall t i j, i <= j -> f_td f t i j = 0%s;
    sl_ld' : forall i j, i <= j -> f_ld f i j = 0%s;
    sl_od' : forall i j, i <= j -> f_od f i j = 0%s }.

  Record symFun (f : arrow_fun F) : Prop := mkSymFun {
    sf_sd : forall i j, f_sd f i j = f_sd f j i;
    sf_td : forall t i j, f_td f t i j = f_td f t j i;
    sf_ld : forall i j, f_ld f i j = f_ld f j i;
    sf_od : forall i j, f_od f i j = f_od f j i }.

  Lemma symArrow_sym n f g h : symFun f -> symArrow O n f g h = symArrow O n f h g.
  Proof.
    intros [S1 S2 S3 S4]. destruct g as [i|t i|i|i], h as [j|u j|j|j]; cbn [symArrow]; auto.
    destruct (Nat.eqb_spec t u) as [->|N].
    - rewrite Nat.eqb_refl. auto.
    - destruct (Nat.eqb_spec u t); [lia|].
      destruct (Nat.eqb_spec t (u + 1)), (Nat.eqb_spec u (t + 1)); auto; lia.
  Qed.

  Definition rank (n ds dt dl : nat) (g : gidx) : nat :=
    match g with
    | GS i => i
    | GT t i => ds + t * dt + i
    | GL i => ds + (n + 1) * dt + i
    | GO i => ds + (n + 1) * dt + dl + i
    end.

  Section Arrow.
  Variables (n ds dt dl dO : nat) (A G : arrow_fun F) (D : gidx -> F) (reg : F -> nat -> F).
  Hypothesis ED : arrowDense O ds dt dl dO n A G D reg.
  Hypothesis SL : strictLower G.
  Hypothesis SA : symFun A.
  Local Notation all := (allIdx n ds dt dl dO).
  Local Notation Lh := (lowArrow O n (unitFun G)).
  Local Notation LDL := (gldltAt O all Lh D).

  Ltac z := repeat match goal with
    | |- context [ProofArrowDense.pr O ?m ?D ?f ?g] =>
        first [rewrite (pr_0l m D f g) by (intros; reflexivity)
              |rewrite (pr_0r m D f g) by (intros; reflexivity)]
    end.
  Ltac zs := rewrite (sumn_0 O FL) by (intros; z; reflexivity).

  Lemma prod_SS i j : i < ds -> j < i -> LDL (GS i) (GS j) = f_sd A i j.
  Proof.
    intros Hi Hj. rewrite gldlt_split. cbn [lowArrow unitFun f_sd]. z. zs.
    rewrite (pr_unit ds _ (f_sd G)) by (auto; apply SL).
    rewrite (sr_L _ _ _ _ _ _ _ (ed_sd _ _ _ _ _ _ _ _ _ _ ED i Hi) j Hj). unfold pr. ring.
  Qed.

  Lemma prod_TS t i j : t < n + 1 -> i < dt -> j < ds ->
    LDL (GT t i) (GS j) = if t =? 0 then f_sn A i j else 0%s.
  Proof.
    intros Ht Hi Hj. rewrite gldlt_split. cbn [lowArrow unitFun f_sd f_sn]. z. zs.
    destruct (t =? 0) eqn:E.
    - rewrite pr_unit_r by (auto; apply SL; auto).
      rewrite (lr_21 _ _ _ _ _ _ _ _ _ _ _ _ _ (ed_t0 _ _ _ _ _ _ _ _ _ _ ED i Hi) j Hj).
      unfold pr. ring.
    - z. ring.
  Qed.

  Lemma prod_LS i j : LDL (GL i) (GS j) = 0%s.
  Proof. rewrite gldlt_split. cbn [lowArrow]. z. zs. ring. Qed.

  Lemma prod_OS i j : i < dO -> j < ds -> LDL (GO i) (GS j) = f_so A i j.
  Proof.
    intros Hi Hj. rewrite gldlt_split. cbn [lowArrow unitFun f_sd f_so]. z. zs.
    rewrite pr_unit_r by (auto; apply SL; auto).
    rewrite (ed_so _ _ _ _ _ _ _ _ _ _ ED i j Hi Hj). unfold pr. ring.
  Qed.

  (** sums over the tridiagonal blocks *)
  Lemma tsum_same t i j : t < n + 1 -> i < dt -> j < i ->
    (pr ds (fun k => D (GS k)) (fun k => Lh (GT t i) (GS k)) (fun k => Lh (GT t j) (GS k)) +
     sum (n + 1) (fun v => pr dt (fun k => D (GT v k)) (fun k => Lh (GT t i) (GT v k)) (fun k => Lh (GT t j) (GT v k))))%s
    = f_td A t i j.
  Proof.
    intros Ht Hi Hj. destruct t as [|t].
    - rewrite (sumn_single O FL (n + 1) _ 0%nat) by
        (first [lia|intros v Hv N; cbn [lowArrow];
         destruct (Nat.eqb_spec 0 v); [lia|]; destruct (Nat.eqb_spec 0 (v + 1)); [lia|]; z; auto]).
      cbn [lowArrow unitFun f_sn f_td Nat.eqb].
      rewrite (pr_unit dt _ (f_td G 0)) by (auto; apply SL; auto).
      rewrite (lr_22 _ _ _ _ _ _ _ _ _ _ _ _ _ (ed_t0 _ _ _ _ _ _ _ _ _ _ ED i Hi) j Hj).
      unfold pr. ring.
    - rewrite (sum_two (n + 1) _ t) by
        (first [lia|intros v Hv N N'; cbn [lowArrow];
         destruct (Nat.eqb_spec (S t) v); [lia|]; destruct (Nat.eqb_spec (S t) (v + 1)); [lia|]; z; auto]).
      cbn [lowArrow unitFun f_sn f_td f_ts].
      replace (t + 1)%nat with (S t) by lia. rewrite !Nat.eqb_refl.
      replace (S t =? 0) with false by reflexivity. 
      destruct (Nat.eqb_spec (S t) t); [lia|]. z.
      rewrite (pr_unit dt _ (f_td G (S t))) by (auto; apply SL; auto).
      pose proof (ed_ts _ _ _ _ _ _ _ _ _ _ ED t i ltac:(lia) Hi) as [_ H _].
      replace (t + 1)%nat with (S t) in H by lia. rewrite (H j Hj). unfold pr. ring.
  Qed.

  Lemma tsum_diag t i : t < n + 1 -> i < dt ->
    exists q,
    (pr ds (fun k => D (GS k)) (fun k => Lh (GT t i) (GS k)) (fun k => Lh (GT t i) (GS k)) +
     sum (n + 1) (fun v => pr dt (fun k => D (GT v k)) (fun k => Lh (GT t i) (GT v k)) (fun k => Lh (GT t i) (GT v k))))%s
    = (q + D (GT t i))%s /\ D (GT t i) = reg (f_td A t i i - q)%s i.
  Proof.
    intros Ht Hi. destruct t as [|t].
    - exists (pr ds (fun k => D (GS k)) (f_sn G i) (f_sn G i) +
              pr dt (fun k => D (GT 0 k)) (f_td G 0%nat i) (f_td G 0%nat i))%s. split.
      + rewrite (sumn_single O FL (n + 1) _ 0%nat) by
        (first [lia|intros v Hv N; cbn [lowArrow];
         destruct (Nat.eqb_spec 0 v); [lia|]; destruct (Nat.eqb_spec 0 (v + 1)); [lia|]; z; auto]).
        cbn [lowArrow unitFun f_sn f_td Nat.eqb].
        rewrite (pr_unit_same dt _ (f_td G 0)) by (auto; apply SL; auto). unfold pr. ring.
      + rewrite (lr_D _ _ _ _ _ _ _ _ _ _ _ _ _ (ed_t0 _ _ _ _ _ _ _ _ _ _ ED i Hi)) at 1.
        f_equal. unfold pr. ring.
    - exists (pr dt (fun k => D (GT t k)) (f_ts G t i) (f_ts G t i) +
              pr dt (fun k => D (GT (S t) k)) (f_td G (S t) i) (f_td G (S t) i))%s.
      pose proof (ed_ts _ _ _ _ _ _ _ _ _ _ ED t i ltac:(lia) Hi) as [_ _ H].
      replace (t + 1)%nat with (S t) in H by lia. split.
      + rewrite (sum_two (n + 1) _ t) by
        (first [lia|intros v Hv N N'; cbn [lowArrow];
         destruct (Nat.eqb_spec (S t) v); [lia|]; destruct (Nat.eqb_spec (S t) (v + 1)); [lia|]; z; auto]).
        cbn [lowArrow unitFun f_sn f_td f_ts].
        replace (t + 1)%nat with (S t) by lia. rewrite !Nat.eqb_refl.
        replace (S t =? 0) with false by reflexivity.
        destruct (Nat.eqb_spec (S t) t); [lia|]. z.
        rewrite (pr_unit_same dt _ (f_td G (S t))) by (auto; apply SL; auto). unfold pr. ring.
      + rewrite H at 1. f_equal. unfold pr. ring.
  Qed.

  Lemma prod_TT_same t i j : t < n + 1 -> i < dt -> j < i ->
    LDL (GT t i) (GT t j) = f_td A t i j.
  Proof.
    intros Ht Hi Hj. rewrite gldlt_split. rewrite tsum_same by auto. cbn [lowArrow]. z. ring.
  Qed.

  Lemma prod_TT_next t i j : t < n -> i < dt -> j < dt ->
    LDL (GT (t + 1) i) (GT t j) = f_ts A t i j.
  Proof.
    intros Ht Hi Hj. rewrite gldlt_split.
    rewrite (sumn_single O FL (n + 1) _ t).
    - cbn [lowArrow unitFun f_sn f_td f_ts]. rewrite !Nat.eqb_refl.
      destruct (Nat.eqb_spec (t + 1) 0); [lia|]. destruct (Nat.eqb_spec (t + 1) t); [lia|]. z.
      rewrite pr_unit_r by (auto; apply SL; auto).
      pose proof (ed_ts _ _ _ _ _ _ _ _ _ _ ED t i Ht Hi) as [H _ _]. rewrite (H j Hj).
      unfold pr. ring.
    - lia.
    - intros v Hv N. cbn [lowArrow].
      destruct (Nat.eqb_spec t v); [lia|]. destruct (Nat.eqb_spec t (v + 1)).
      + destruct (Nat.eqb_spec (t + 1) v); [lia|]. destruct (Nat.eqb_spec (t + 1) (v + 1)); [lia|].
        z. auto.
      + z. auto.
  Qed.

  Lemma prod_TT_far t u i j : u + 1 < t -> LDL (GT t i) (GT u j) = 0%s.
  Proof.
    intros Ht. rewrite gldlt_split.
    rewrite (sumn_0 O FL).
    - cbn [lowArrow]. destruct (Nat.eqb_spec t 0); [lia|]. z. ring.
    - intros v Hv. cbn [lowArrow].
      destruct (Nat.eqb_spec t v).
      + destruct (Nat.eqb_spec u v); [lia|]. destruct (Nat.eqb_spec u (v + 1)); [lia|]. z. auto.
      + destruct (Nat.eqb_spec t (v + 1)).
        * destruct (Nat.eqb_spec u v); [lia|]. destruct (Nat.eqb_spec u (v + 1)); [lia|]. z. auto.
        * z. auto.
  Qed.

  Lemma prod_LT t i j : t < n + 1 -> i < dl -> j < dt ->
    LDL (GL i) (GT t j) = if t =? n then f_lp A i j else 0%s.
  Proof.
    intros Ht Hi Hj. rewrite gldlt_split.
    rewrite (sumn_single O FL (n + 1) _ n) by
      (first [lia|intros v Hv N; cbn [lowArrow]; destruct (Nat.eqb_spec v n); [lia|]; z; auto]).
    cbn [lowArrow unitFun f_lp f_td f_ts]. rewrite Nat.eqb_refl. z.
    destruct (Nat.eqb_spec t n) as [->|N].
    - rewrite pr_unit_r by (auto; apply SL; auto).
      rewrite (lr_21 _ _ _ _ _ _ _ _ _ _ _ _ _ (ed_ld _ _ _ _ _ _ _ _ _ _ ED i Hi) j Hj).
      unfold pr. ring.
    - destruct (Nat.eqb_spec t (n + 1)); [lia|]. z. ring.
  Qed.

  Lemma prod_LL i j : i < dl -> j < i -> LDL (GL i) (GL j) = f_ld A i j.
  Proof.
    intros Hi Hj. rewrite gldlt_split.
    rewrite (sumn_single O FL (n + 1) _ n) by
      (first [lia|intros v Hv N; cbn [lowArrow]; destruct (Nat.eqb_spec v n); [lia|]; z; auto]).
    cbn [lowArrow unitFun f_lp f_ld]. rewrite Nat.eqb_refl. z.
    rewrite (pr_unit dl _ (f_ld G)) by (auto; apply SL; auto).
    rewrite (lr_22 _ _ _ _ _ _ _ _ _ _ _ _ _ (ed_ld _ _ _ _ _ _ _ _ _ _ ED i Hi) j Hj).
    unfold pr. ring.
  Qed.

  Lemma prod_OT t i j : t < n + 1 -> i < dO -> j < dt -> LDL (GO i) (GT t j) = f_os A t i j.
  Proof.
    intros Ht Hi Hj. rewrite gldlt_split. destruct t as [|t].
    - rewrite (sumn_single O FL (n + 1) _ 0%nat) by
        (first [lia|intros v Hv N; cbn [lowArrow];
         destruct (Nat.eqb_spec 0 v); [lia|]; destruct (Nat.eqb_spec 0 (v + 1)); [lia|]; z; auto]).
      cbn [lowArrow unitFun f_sn f_so f_os f_td Nat.eqb]. z.
      rewrite pr_unit_r by (auto; apply SL; auto).
      rewrite (ed_os0 _ _ _ _ _ _ _ _ _ _ ED i j Hi Hj). unfold pr. ring.
    - rewrite (sum_two (n + 1) _ t) by
        (first [lia|intros v Hv N N'; cbn [lowArrow];
         destruct (Nat.eqb_spec (S t) v); [lia|]; destruct (Nat.eqb_spec (S t) (v + 1)); [lia|]; z; auto]).
      cbn [lowArrow unitFun f_sn f_os f_td f_ts].
      replace (t + 1)%nat with (S t) by lia. rewrite !Nat.eqb_refl.
      replace (S t =? 0) with false by reflexivity.
      destruct (Nat.eqb_spec (S t) t); [lia|]. z.
      rewrite pr_unit_r by (auto; apply SL; auto).
      pose proof (ed_os _ _ _ _ _ _ _ _ _ _ ED t i j ltac:(lia) Hi Hj) as H.
      replace (t + 1)%nat with (S t) in H by lia. rewrite H. unfold pr. ring.
  Qed.

  Lemma prod_OL i j : i < dO -> j < dl -> LDL (GO i) (GL j) = f_ln A i j.
  Proof.
    intros Hi Hj. rewrite gldlt_split.
    rewrite (sumn_single O FL (n + 1) _ n) by
      (first [lia|intros v Hv N; cbn [lowArrow]; destruct (Nat.eqb_spec v n); [lia|]; z; auto]).
    cbn [lowArrow unitFun f_lp f_os f_ln f_ld]. rewrite Nat.eqb_refl. z.
    rewrite pr_unit_r by (auto; apply SL; auto).
    rewrite (ed_ln _ _ _ _ _ _ _ _ _ _ ED i j Hi Hj). unfold pr. ring.
  Qed.

  Lemma prod_OO i j : i < dO -> j < i -> LDL (GO i) (GO j) = f_od A i j.
  Proof.
    intros Hi Hj. rewrite gldlt_split. cbn [lowArrow unitFun f_so f_os f_ln f_od].
    rewrite (pr_unit dO _ (f_od G)) by (auto; apply SL; auto).
    rewrite (ed_od _ _ _ _ _ _ _ _ _ _ ED i j Hi Hj). unfold pr. ring.
  Qed.

  Lemma in_all g : In g all <->
    match g with
    | GS i => i < ds
    | GT t i => t < n + 1 /\ i < dt
    | GL i => i < dl
    | GO i => i < dO
    end.
  Proof. apply in_allIdx. Qed.

  Lemma rank_inj g h : In g all -> In h all -> rank n ds dt dl g = rank n ds dt dl h -> g = h.
  Proof.
    rewrite !in_all.
    assert (TT : forall t i u j, i < dt -> j < dt -> t * dt + i = u * dt + j -> t = u /\ i = j).
    { intros t i u j Hi Hj E.
      assert (t = u) by (destruct (lt_eq_lt_dec t u) as [[H|H]|H]; auto; nia). split; auto. nia. }
    destruct g as [i|t i|i|i], h as [j|u j|j|j]; cbn [rank]; intros Hg Hh E;
      try (exfalso; nia); try (f_equal; lia).
    destruct (TT t i u j) as [-> ->]; auto; try lia.
  Qed.

  Lemma rank_le g : In g all -> rank n ds dt dl g <= ds + (n + 1) * dt + dl + dO.
  Proof. rewrite in_all. destruct g as [i|t i|i|i]; cbn [rank]; nia. Qed.

  (** lower part *)
  Lemma prod_low g h : In g all -> In h all -> rank n ds dt dl h < rank n ds dt dl g ->
    LDL g h = symArrow O n A g h.
  Proof.
    rewrite !in_all. destruct g as [i|t i|i|i], h as [j|u j|j|j]; cbn [rank symArrow];
      intros Hg Hh E; try (exfalso; nia); try (rewrite prod_SS by lia; reflexivity);
      try (rewrite prod_LS; reflexivity).
    - apply prod_TS; lia.
    - destruct (Nat.eqb_spec t u) as [->|N].
      + apply prod_TT_same; lia.
      + assert (u < t) by nia. destruct (Nat.eqb_spec t (u + 1)) as [->|N'].
        * apply prod_TT_next; lia.
        * destruct (Nat.eqb_spec u (t + 1)); [lia|]. apply prod_TT_far; lia.
    - apply prod_LT; lia.
    - apply prod_LL; lia.
    - apply prod_OS; lia.
    - apply prod_OT; lia.
    - apply prod_OL; lia.
    - apply prod_OO; lia.
  Qed.

  Lemma prod_diag g : In g all ->
    exists q, LDL g g = (q + D g)%s /\ D g = reg (symArrow O n A g g - q)%s (localIdx g).
  Proof.
    rewrite in_all. destruct g as [i|t i|i|i]; intros Hg; cbn [symArrow localIdx].
    - exists (pr ds (fun k => D (GS k)) (f_sd G i) (f_sd G i)). split.
      + rewrite gldlt_split. cbn [lowArrow unitFun f_sd]. z. zs.
        rewrite (pr_unit_same ds _ (f_sd G)) by (auto; apply SL; auto). ring.
      + rewrite (sr_D _ _ _ _ _ _ _ (ed_sd _ _ _ _ _ _ _ _ _ _ ED i Hg)) at 1. reflexivity.
    - destruct (tsum_diag t i) as (q & H1 & H2); try tauto. exists q. rewrite Nat.eqb_refl.
      split; auto. rewrite gldlt_split, H1. cbn [lowArrow]. z. ring.
    - exists (pr dt (fun k => D (GT n k)) (f_lp G i) (f_lp G i) +
              pr dl (fun k => D (GL k)) (f_ld G i) (f_ld G i))%s. split.
      + rewrite gldlt_split.
        rewrite (sumn_single O FL (n + 1) _ n) by
          (first [lia|intros v Hv N; cbn [lowArrow]; destruct (Nat.eqb_spec v n); [lia|]; z; auto]).
        cbn [lowArrow unitFun f_lp f_ld]. rewrite Nat.eqb_refl. z.
        rewrite (pr_unit_same dl _ (f_ld G)) by (auto; apply SL; auto). unfold pr. ring.
      + rewrite (lr_D _ _ _ _ _ _ _ _ _ _ _ _ _ (ed_ld _ _ _ _ _ _ _ _ _ _ ED i Hg)) at 1.
        f_equal. unfold pr. ring.
    - eexists. split; [|exact (ed_odD _ _ _ _ _ _ _ _ _ _ ED i Hg)].
      rewrite gldlt_split. cbn [lowArrow unitFun f_so f_os f_ln f_od].
      rewrite (pr_unit_same dO _ (f_od G)) by (auto; apply SL; auto). unfold pr. ring.
  Qed.

  Lemma arrow_product :
    exists e, (forall g, In g all -> D g = reg (D g - e g)%s (localIdx g)) /\
      forall g h, In g all -> In h all -> LDL g h = plusDiagG O (symArrow O n A) e g h.
  Proof.
    exists (fun g => LDL g g - symArrow O n A g g)%s. split.
    - intros g Hg. destruct (prod_diag g Hg) as (q & H1 & H2). rewrite H2 at 1. f_equal.
      rewrite H1. ring.
    - intros g h Hg Hh. unfold plusDiagG. destruct (gidx_eq_dec g h) as [->|N].
      + ring.
      + destruct (lt_eq_lt_dec (rank n ds dt dl g) (rank n ds dt dl h)) as [[H|H]|H].
        * rewrite gldlt_sym, symArrow_sym by auto. apply prod_low; auto.
        * exfalso. apply N. apply rank_inj; auto.
        * apply prod_low; auto.
  Qed.

  (** the assembled factor is unit lower triangular *)
  Lemma Lh_one g : In g all -> Lh g g = fl_one FL.
  Proof.
    intros _. destruct g as [i|t i|i|i]; cbn [lowArrow unitFun f_sd f_td f_ld f_od];
      rewrite ?Nat.eqb_refl; auto.
  Qed.

  Lemma Lh_low g h : In g all -> In h all -> h <> g -> ~ rank n ds dt dl h < rank n ds dt dl g ->
    Lh g h = 0%s.
  Proof.
    rewrite !in_all. destruct SL as [S1 S2 S3 S4].
    destruct g as [i|t i|i|i], h as [j|u j|j|j]; cbn [rank lowArrow unitFun f_sd f_td f_ld f_od];
      intros Hg Hh N E; auto; try (exfalso; nia);
      try (destruct (Nat.eqb_spec i j) as [->|]; [congruence|]; auto; apply S1; lia);
      try (destruct (Nat.eqb_spec i j) as [->|]; [congruence|]; auto; apply S3; lia);
      try (destruct (Nat.eqb_spec i j) as [->|]; [congruence|]; auto; apply S4; lia).
    destruct (Nat.eqb_spec t u) as [->|Nu].
    - destruct (Nat.eqb_spec i j) as [->|]; [congruence|]. apply S2; lia.
    - destruct (Nat.eqb_spec t (u + 1)) as [->|]; auto. exfalso. nia.
  Qed.
  End Arrow.
End Product.
