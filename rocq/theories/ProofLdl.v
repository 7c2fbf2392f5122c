(** Solving with an LDL^T decomposition over an arbitrary finite index set. *)
From Coq Require Import List Arith Lia Bool Ring.
From Verif Require Import ModelNumeric SpecNumeric ProofExact.
Import ListNotations.

Section Ldl.
  Context {F : Type} (O : ops F) (FL : fieldLaws O).
  Local Notation "0" := (o0 O) : scalar.
  Local Notation "a + b" := (oadd O a b) : scalar.
  Local Notation "a - b" := (osub O a b) : scalar.
  Local Notation "a * b" := (omul O a b) : scalar.
  Local Notation "a / b" := (odiv O a b) : scalar.
  Add Ring Fr2 : (fl_ring FL).

  Lemma suml_seq n f : suml O (seq 0 n) f = sumn O n f.
  Proof.
    induction n as [|n IH]; [reflexivity|].
    rewrite seq_S, (suml_app O FL), IH. cbn [sumn suml fold_right Nat.add]. ring.
  Qed.

  Lemma suml_map {A B} (g : A -> B) l f : suml O (map g l) f = suml O l (fun a => f (g a)).
  Proof.
    unfold suml. induction l as [|a l IH]; cbn [map fold_right]; auto. rewrite IH. auto.
  Qed.

  Lemma suml_0 {A} (l : list A) f : (forall a, In a l -> f a = 0%s) -> suml O l f = 0%s.
  Proof.
    unfold suml. induction l as [|a l IH]; cbn [fold_right]; intros H; auto.
    rewrite IH, (H a) by (try (intros; apply H; right; auto); left; auto). ring.
  Qed.

  Lemma suml_plus {A} (l : list A) f g :
    suml O l (fun a => (f a + g a)%s) = (suml O l f + suml O l g)%s.
  Proof.
    unfold suml. induction l as [|a l IH]; cbn [fold_right]; [ring|]. rewrite IH. ring.
  Qed.

  Lemma suml_minus {A} (l : list A) f g :
    suml O l (fun a => (f a - g a)%s) = (suml O l f - suml O l g)%s.
  Proof.
    unfold suml. induction l as [|a l IH]; cbn [fold_right]; [ring|]. rewrite IH. ring.
  Qed.

  Lemma suml_mult_l {A} (l : list A) f c :
    suml O l (fun a => (c * f a)%s) = (c * suml O l f)%s.
  Proof.
    unfold suml. induction l as [|a l IH]; cbn [fold_right]; [ring|]. rewrite IH. ring.
  Qed.

  Lemma suml_mult_r {A} (l : list A) f c :
    suml O l (fun a => (f a * c)%s) = (suml O l f * c)%s.
  Proof.
    unfold suml. induction l as [|a l IH]; cbn [fold_right]; [ring|]. rewrite IH. ring.
  Qed.

  Lemma suml_swap {A B} (l : list A) (m : list B) f :
    suml O l (fun a => suml O m (fun b => f a b)) = suml O m (fun b => suml O l (fun a => f a b)).
  Proof.
    induction l as [|a l IH].
    - symmetry. apply suml_0. auto.
    - transitivity (suml O m (fun b => f a b) + suml O l (fun a => suml O m (fun b => f a b)))%s;
        [reflexivity|]. rewrite IH, <- suml_plus. reflexivity.
  Qed.

  Lemma suml_single {A} (l : list A) f x :
    In x l -> NoDup l -> (forall a, In a l -> a <> x -> f a = 0%s) -> suml O l f = f x.
  Proof.
    induction l as [|a l IH]; intros Hx ND H; [destruct Hx|].
    inversion ND as [|? ? Na ND']. subst.
    change (suml O (a :: l) f) with (f a + suml O l f)%s.
    destruct Hx as [->|Hx].
    - rewrite suml_0; [ring|]. intros b Hb. apply H; [right; auto|]. intros ->. auto.
    - rewrite IH; auto.
      + rewrite (H a); [ring|left; auto|]. intros ->. auto.
      + intros b Hb. apply H. right; auto.
  Qed.

  Lemma suml_concat {A} (ls : list (list A)) f :
    suml O (concat ls) f = suml O ls (fun l => suml O l f).
  Proof.
    induction ls as [|l ls IH]; [reflexivity|]. cbn [concat]. rewrite (suml_app O FL), IH.
    reflexivity.
  Qed.

  (** cancellation *)
  Lemma mul_cancel a b c : c <> 0%s -> (a * c)%s = (b * c)%s -> a = b.
  Proof.
    intros Hc H.
    assert (I1 : forall x, x = (x * c * (fl_one FL / c))%s).
    { intros x. transitivity (x * (fl_one FL / c * c))%s; [|ring].
      rewrite (fl_div FL) by auto. ring. }
    rewrite (I1 a), H, <- I1. auto.
  Qed.

  Lemma div_eq a b c : b <> 0%s -> a = (c * b)%s -> (a / b)%s = c.
  Proof. intros Hb E. apply (mul_cancel _ _ b); auto. rewrite (fl_div FL) by auto. auto. Qed.

  Lemma mul_0_inv a c : c <> 0%s -> (a * c)%s = 0%s -> a = 0%s.
  Proof. intros Hc H. apply (mul_cancel a 0%s c); auto. rewrite H. ring. Qed.

  Section Index.
    Context {I : Type} (all : list I).
    Local Notation sum := (suml O all).

    Lemma ldl_solve (Lh A : I -> I -> F) (D y z x b : I -> F) :
      (forall g h, In g all -> In h all -> A g h = sum (fun k => Lh g k * D k * Lh h k)%s) ->
      (forall g, In g all -> sum (fun k => Lh g k * y k)%s = b g) ->
      (forall k, In k all -> (z k * D k)%s = y k) ->
      (forall k, In k all -> sum (fun g => Lh g k * x g)%s = z k) ->
      forall g, In g all -> sum (fun h => A g h * x h)%s = b g.
    Proof.
      intros HA Hy Hz Hx g Hg. rewrite <- Hy by auto.
      rewrite (suml_ext O all (fun h => (A g h * x h)%s)
        (fun h => sum (fun k => (Lh g k * D k) * (Lh h k * x h)))%s).
      - rewrite suml_swap. apply suml_ext. intros k Hk.
        rewrite suml_mult_l, Hx, <- Hz by auto. ring.
      - intros h Hh. rewrite HA, <- suml_mult_r by auto. apply suml_ext. intros k Hk. ring.
    Qed.

    Lemma triangular_inj (T : I -> I -> F) (w : I -> F) (rank : I -> nat) :
      NoDup all ->
      (forall g, In g all -> T g g = fl_one FL) ->
      (forall g k, In g all -> In k all -> k <> g -> ~ rank k < rank g -> T g k = 0%s) ->
      (forall g, In g all -> sum (fun k => T g k * w k)%s = 0%s) ->
      forall g, In g all -> w g = 0%s.
    Proof.
      intros ND T1 T0 H.
      assert (K : forall r g, rank g = r -> In g all -> w g = 0%s).
      { induction r as [r IH] using lt_wf_ind. intros g Er Hg.
        specialize (H g Hg). rewrite (suml_single all _ g) in H; auto.
        - rewrite T1 in H by auto. rewrite <- H. ring.
        - intros k Hk N. destruct (lt_dec (rank k) (rank g)) as [Lt|Ge].
          + rewrite (IH (rank k)); auto; [ring|lia].
          + rewrite T0 by auto. ring. }
      intros g Hg. eapply K; eauto.
    Qed.

    (** a matrix with an LDL^T decomposition with nonzero D is injective *)
    Lemma ldl_inj (Lh A : I -> I -> F) (D x : I -> F) (rank : I -> nat) (M : nat) :
      NoDup all -> (forall g, In g all -> rank g <= M) ->
      (forall g h, In g all -> In h all -> rank g = rank h -> g = h) ->
      (forall g, In g all -> Lh g g = fl_one FL) ->
      (forall g k, In g all -> In k all -> k <> g -> ~ rank k < rank g -> Lh g k = 0%s) ->
      (forall k, In k all -> D k <> 0%s) ->
      (forall g h, In g all -> In h all -> A g h = sum (fun k => Lh g k * D k * Lh h k)%s) ->
      (forall g, In g all -> sum (fun h => A g h * x h)%s = 0%s) ->
      forall g, In g all -> x g = 0%s.
    Proof.
      intros ND HM Inj L1 L0 HD HA Hx.
      assert (U : forall k, In k all -> (D k * sum (fun h => Lh h k * x h))%s = 0%s).
      { apply (triangular_inj Lh _ rank); auto. intros g Hg. rewrite <- (Hx g Hg).
        rewrite (suml_ext O all (fun h => (A g h * x h)%s)
          (fun h => sum (fun k => (Lh g k * D k) * (Lh h k * x h)))%s).
        - rewrite suml_swap. apply suml_ext. intros k Hk. rewrite suml_mult_l. ring.
        - intros h Hh. rewrite HA, <- suml_mult_r by auto. apply suml_ext. intros k Hk. ring. }
      apply (triangular_inj (fun k g => Lh g k) _ (fun g => M - rank g)); auto.
      - intros g k Hg Hk N Hr. apply L0; auto. pose proof (HM g Hg). pose proof (HM k Hk). lia.
      - intros k Hk. apply (mul_0_inv _ (D k)); auto. rewrite <- (U k Hk) at 1. ring.
    Qed.

    Lemma ldl_unique (Lh A : I -> I -> F) (D x x' : I -> F) (rank : I -> nat) (M : nat) :
      NoDup all -> (forall g, In g all -> rank g <= M) ->
      (forall g h, In g all -> In h all -> rank g = rank h -> g = h) ->
      (forall g, In g all -> Lh g g = fl_one FL) ->
      (forall g k, In g all -> In k all -> k <> g -> ~ rank k < rank g -> Lh g k = 0%s) ->
      (forall k, In k all -> D k <> 0%s) ->
      (forall g h, In g all -> In h all -> A g h = sum (fun k => Lh g k * D k * Lh h k)%s) ->
      (forall g, In g all -> sum (fun h => A g h * x h)%s = sum (fun h => A g h * x' h)%s) ->
      forall g, In g all -> x g = x' g.
    Proof.
      intros ND HM Inj L1 L0 HD HA Hx g Hg.
      assert (E : (x g - x' g)%s = 0%s).
      { apply (ldl_inj Lh A D (fun g => (x g - x' g)%s) rank M); auto. intros q Hq.
        rewrite (suml_ext O all _ (fun h => (A q h * x h - A q h * x' h)%s)) by (intros; ring).
        rewrite suml_minus, Hx by auto. ring. }
      transitivity (x g - x' g + x' g)%s; [ring|]. rewrite E. ring.
    Qed.
  End Index.
End Ldl.
