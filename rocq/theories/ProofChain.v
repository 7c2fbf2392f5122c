(** Which operations the factorization and the solves carry out, over any finite
    index set: every entry comes from a sequence of subtractions. No algebraic laws. *)
From Coq Require Import List Arith Lia Bool.
From Verif Require Import ModelNumeric ProofArrowSub.
Import ListNotations.

(** [r] is [a] minus one term for each index in the list, in this order; [T k x] says
    which terms x are allowed for the index k *)
Inductive reduces {F : Type} (O : ops F) {I : Type} (T : I -> F -> Prop) : F -> list I -> F -> Prop :=
| red_nil a : reduces O T a [] a
| red_cons a k l x r : T k x -> reduces O T (osub O a x) l r -> reduces O T a (k :: l) r.

Section Reduces.
  Context {F : Type} (O : ops F).

  Lemma reduces_app {I} (T : I -> F -> Prop) a l1 m l2 r :
    reduces O T a l1 m -> reduces O T m l2 r -> reduces O T a (l1 ++ l2) r.
  Proof. induction 1; intros H2; cbn [app]; auto. econstructor; eauto. Qed.

  Lemma reduces_impl {I} (T T' : I -> F -> Prop) a l r :
    (forall k x, In k l -> T k x -> T' k x) -> reduces O T a l r -> reduces O T' a l r.
  Proof.
    intros H R. induction R as [|a k l x r Hx R IH]; econstructor.
    - apply H; [left; auto|exact Hx].
    - apply IH. intros; apply H; auto. right; auto.
  Qed.

  Lemma reduces_map {I J} (f : J -> I) (T : I -> F -> Prop) a l r :
    reduces O (fun k => T (f k)) a l r -> reduces O T a (map f l) r.
  Proof. induction 1; cbn [map]; econstructor; eauto. Qed.

  Lemma reduces_subl {I} (T : I -> F -> Prop) a l f :
    (forall k, In k l -> T k (f k)) -> reduces O T a l (subl O a l f).
  Proof.
    revert a. induction l as [|k l IH]; intros a H; [constructor|].
    econstructor; [apply H; left; auto|]. apply IH. intros; apply H; right; auto.
  Qed.

  Lemma reduces_flat {I} (T : I -> F -> Prop) (g : nat -> list I) (Z : nat -> F) n :
    (forall t, t < n -> reduces O T (Z t) (g t) (Z (t + 1))) ->
    reduces O T (Z 0) (flat_map g (seq 0 n)) (Z n).
  Proof.
    induction n as [|n IH]; intros H; [constructor|].
    rewrite seq_S, flat_map_app. cbn [flat_map Nat.add]. rewrite app_nil_r.
    apply reduces_app with (Z n).
    - apply IH. intros; apply H; lia.
    - rewrite <- Nat.add_1_r. apply H. lia.
  Qed.

  Lemma reduces_det {I} (t : I -> F) a l r :
    reduces O (fun k x => x = t k) a l r -> r = subl O a l t.
  Proof. induction 1 as [|a k l x r -> R ->]; reflexivity. Qed.
End Reduces.

(** the ways in which the product of two entries a, b of the factor and the pivot d is
    computed, where s is the entry a before the division *)
Inductive tform := TProd | TLeft | TRight.
Definition termF {F : Type} (O : ops F) (f : tform) (a b s d : F) : F :=
  match f with
  | TProd => omul O (omul O a b) d
  | TLeft => omul O b s
  | TRight => omul O s b
  end.

Section Chain.
  Context {F : Type} (O : ops F) {I : Type} (dec : forall a b : I, {a = b} + {a <> b}).
  Variables (all : list I) (row : I -> list I).

  Definition memI (k : I) (l : list I) : bool := if in_dec dec k l then true else false.
  Lemma memI_In k l : memI k l = true <-> In k l.
  Proof. unfold memI. destruct (in_dec dec k l); split; auto; discriminate. Qed.

  (** columns in both rows, in the order of the first row *)
  Definition common (g h : I) : list I := filter (fun k => memI k (row h)) (row g).
  Lemma common_In g h k : In k (common g h) <-> In k (row g) /\ In k (row h).
  Proof. unfold common. rewrite filter_In, memI_In. tauto. Qed.

  (** the product of the entries (g, k) and (h, k) and pivot k, in one of the ways in
      which it is computed: from the entry before the division or from the entry *)
  Definition isTerm (L : I -> I -> F) (D : I -> F) (g h k : I) (x : F) : Prop :=
    x = omul O (omul O (L g k) (L h k)) (D k) \/
    exists s, L g k = odiv O s (D k) /\ (x = omul O (L h k) s \/ x = omul O s (L h k)).

  Record chained (A L : I -> I -> F) (D : I -> F) (reg : F -> I -> F) : Prop := mkChained {
    ch_row : forall g h, In g all -> In h (row g) ->
      exists s, reduces O (isTerm L D g h) (A g h) (common g h) s /\ L g h = odiv O s (D h);
    ch_D : forall g, In g all ->
      exists s, reduces O (isTerm L D g g) (A g g) (row g) s /\ D g = reg s g }.

  (** the same with the entries before the division given as S *)
  Definition isTermS (L S : I -> I -> F) (D : I -> F) (g h k : I) (x : F) : Prop :=
    x = omul O (omul O (L g k) (L h k)) (D k) \/
    x = omul O (L h k) (S g k) \/ x = omul O (S g k) (L h k).

  Record chainedS (A L S : I -> I -> F) (D : I -> F) (reg : F -> I -> F) : Prop := mkChainedS {
    cs_row : forall g h, In g all -> In h (row g) ->
      reduces O (isTermS L S D g h) (A g h) (common g h) (S g h) /\ L g h = odiv O (S g h) (D h);
    cs_D : forall g, In g all ->
      exists s, reduces O (isTermS L S D g g) (A g g) (row g) s /\ D g = reg s g }.

  (** the same with the way in which a term is computed given as fm; its first argument
      is true for the terms of the pivots *)
  Definition isTermF (fm : bool -> I -> I -> tform) (dg : bool) (L S : I -> I -> F) (D : I -> F)
    (g h k : I) (x : F) : Prop := x = termF O (fm dg g k) (L g k) (L h k) (S g k) (D k).

  Record chainedF (fm : bool -> I -> I -> tform) (A L S : I -> I -> F) (D : I -> F)
      (reg : F -> I -> F) : Prop := mkChainedF {
    cf_row : forall g h, In g all -> In h (row g) ->
      reduces O (isTermF fm false L S D g h) (A g h) (common g h) (S g h) /\ L g h = odiv O (S g h) (D h);
    cf_D : forall g, In g all ->
      exists s, reduces O (isTermF fm true L S D g g) (A g g) (row g) s /\ D g = reg s g }.

  Lemma isTermF_S fm dg L S D g h k x : isTermF fm dg L S D g h k x -> isTermS L S D g h k x.
  Proof. unfold isTermF, isTermS. intros ->. destruct (fm dg g k); cbn [termF]; auto. Qed.

  Lemma chainedF_S fm A L S D reg : chainedF fm A L S D reg -> chainedS A L S D reg.
  Proof.
    intros [H1 H2]. constructor.
    - intros g h Hg Hh. destruct (H1 g h Hg Hh) as [R E]. split; auto.
      eapply reduces_impl; [|exact R]. intros k x _. apply isTermF_S.
    - intros g Hg. destruct (H2 g Hg) as (s & R & E). exists s. split; auto.
      eapply reduces_impl; [|exact R]. intros k x _. apply isTermF_S.
  Qed.

  Lemma chainedS_chained A L S D reg : chainedS A L S D reg -> chained A L D reg.
  Proof.
    intros [H1 H2].
    assert (T : forall g h k x, In g all -> In k (row g) -> isTermS L S D g h k x -> isTerm L D g h k x).
    { intros g h k x Hg Hk [->|H]; [left; auto|]. right. exists (S g k). split; [apply H1; auto|]. auto. }
    constructor.
    - intros g h Hg Hh. destruct (H1 g h Hg Hh) as [R E]. exists (S g h). split; auto.
      eapply reduces_impl; [|exact R]. intros k x Hk. apply T; auto. apply common_In in Hk. tauto.
    - intros g Hg. destruct (H2 g Hg) as (s & R & E). exists s. split; auto.
      eapply reduces_impl; [|exact R]. intros k x Hk. apply T; auto.
  Qed.

  (** the pattern is strictly triangular, closed under elimination and contains A *)
  Record rowsGood (A L : I -> I -> F) : Prop := mkRowsGood {
    rg_all : NoDup all;
    rg_nodup : forall g, In g all -> NoDup (row g);
    rg_in : forall g k, In g all -> In k (row g) -> In k all;
    rg_irr : forall g, In g all -> ~ In g (row g);
    rg_asym : forall g h, In g all -> In h (row g) -> ~ In g (row h);
    rg_L : forall g h, In g all -> In h all -> ~ In h (row g) -> L g h = o0 O;
    rg_sym : forall g h, In g all -> In h all -> A g h = A h g;
    rg_A : forall g h, In g all -> In h all -> g <> h -> ~ In h (row g) -> ~ In g (row h) ->
      A g h = o0 O;
    rg_closed : forall g h k, In g all -> In h all -> g <> h -> In k (row g) -> In k (row h) ->
      In h (row g) \/ In g (row h) }.

  (** the columns *)
  Record colsGood (col : I -> list I) : Prop := mkColsGood {
    cg_nodup : forall g, In g all -> NoDup (col g);
    cg_in : forall g k, In g all -> In k (col g) <-> In k all /\ In g (row k) }.

  Definition forwardEq (L : I -> I -> F) (b y : I -> F) : Prop :=
    forall g, In g all -> y g = subl O (b g) (row g) (fun k => omul O (L g k) (y k)).
  Definition diagonalEq (D y z : I -> F) : Prop :=
    forall g, In g all -> z g = odiv O (y g) (D g).
  Definition backwardEq (L : I -> I -> F) (col : I -> list I) (z x : I -> F) : Prop :=
    forall g, In g all -> x g = subl O (z g) (col g) (fun k => omul O (L k g) (x k)).
End Chain.
