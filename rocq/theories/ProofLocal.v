(** Two runs that agree on a part of the entries which does not depend on the rest. No
    algebraic laws. *)
From Coq Require Import List Arith Lia Bool Sorted.
From Verif Require Import ModelNumeric ProofArrowSub ProofChain.
Import ListNotations.

Section Embed.
  Context {F : Type} (O : ops F) {I J : Type}.
  Context (decI : forall a b : I, {a = b} + {a <> b}) (decJ : forall a b : J, {a = b} + {a <> b}).
  Variables (all1 : list I) (all2 : list J) (row1 : I -> list I) (row2 : J -> list J).
  Variable (f : I -> J).
  Variable (rk : I -> nat).
  Variables (fm1 : bool -> I -> I -> tform) (fm2 : bool -> J -> J -> tform).
  Variables (A1 L1 S1 : I -> I -> F) (D1 : I -> F) (reg1 : F -> I -> F).
  Variables (A2 L2 S2 : J -> J -> F) (D2 : J -> F) (reg2 : F -> J -> F).
  Hypothesis C1 : chainedF O decI all1 row1 fm1 A1 L1 S1 D1 reg1.
  Hypothesis C2 : chainedF O decJ all2 row2 fm2 A2 L2 S2 D2 reg2.
  Hypothesis RK : forall g h, In g all1 -> In h (row1 g) -> rk h < rk g.

  (** the entries E of the factor and the pivots P *)
  Variables (E : I -> I -> Prop) (P : I -> Prop).
  Record local : Prop := mkLocal {
    lo_all : forall g h, E g h -> In g all1 /\ In (f g) all2 /\ In h (row1 g) /\ In (f h) (row2 (f g));
    lo_common : forall g h, E g h ->
      common decJ row2 (f g) (f h) = map f (common decI row1 g h);
    lo_E : forall g h k, E g h -> In k (common decI row1 g h) ->
      E g k /\ E h k /\ P k /\ fm1 false g k = fm2 false (f g) (f k);
    lo_P : forall g h, E g h -> P h;
    lo_A : forall g h, E g h -> A1 g h = A2 (f g) (f h);
    lo_allP : forall g, P g -> In g all1 /\ In (f g) all2;
    lo_row : forall g, P g -> row2 (f g) = map f (row1 g);
    lo_rowE : forall g k, P g -> In k (row1 g) ->
      E g k /\ fm1 true g k = fm2 true (f g) (f k);
    lo_AP : forall g, P g -> A1 g g = A2 (f g) (f g);
    lo_reg : forall g v, P g -> reg1 v g = reg2 v (f g) }.
  Hypothesis LO : local.

  Lemma subl_map (l : list I) a (t : J -> F) : subl O a (map f l) t = subl O a l (fun k => t (f k)).
  Proof. revert a. induction l as [|k l IH]; intros a; [reflexivity|]. cbn [map]. apply (IH (osub O a (t (f k)))). Qed.

  Lemma row_eq g h : E g h ->
    (forall k, In k (common decI row1 g h) -> L1 g k = L2 (f g) (f k) /\ L1 h k = L2 (f h) (f k) /\
       S1 g k = S2 (f g) (f k) /\ D1 k = D2 (f k)) ->
    S1 g h = S2 (f g) (f h).
  Proof.
    intros HE H. destruct (lo_all LO g h HE) as (X1 & X2 & X3 & X4).
    destruct (cf_row _ _ _ _ _ _ _ _ _ _ C1 g h X1 X3) as [R1 _].
    destruct (cf_row _ _ _ _ _ _ _ _ _ _ C2 (f g) (f h) X2 X4) as [R2 _].
    apply reduces_det in R1. apply reduces_det in R2. rewrite R1, R2.
    rewrite (lo_common LO g h HE), subl_map, (lo_A LO g h HE). apply subl_ext.
    intros k Hk. destruct (H k Hk) as (Y1 & Y2 & Y3 & Y4).
    destruct (lo_E LO g h k HE Hk) as (_ & _ & _ & EQ). rewrite Y1, Y2, Y3, Y4, EQ. reflexivity.
  Qed.

  Lemma local_eq : forall N g, rk g < N ->
    (forall h, E g h -> S1 g h = S2 (f g) (f h) /\ L1 g h = L2 (f g) (f h)) /\
    (P g -> D1 g = D2 (f g)).
  Proof.
    induction N as [|N IH]; intros g Hg; [lia|].
    assert (KR : forall M h, rk h < M -> E g h -> S1 g h = S2 (f g) (f h) /\ L1 g h = L2 (f g) (f h)).
    { induction M as [|M IM]; intros h Hh HE; [lia|].
      destruct (lo_all LO g h HE) as (X1 & X2 & X3 & X4).
      pose proof (RK g h X1 X3) as Lt.
      assert (ES : S1 g h = S2 (f g) (f h)).
      { apply row_eq; auto. intros k Hk. destruct (lo_E LO g h k HE Hk) as (E1 & E2 & E3 & _).
        destruct (lo_all LO h k E2) as (Z1 & _ & Z3 & _). pose proof (RK h k Z1 Z3) as Lt2.
        destruct (IM k ltac:(lia) E1) as [W1 W2].
        destruct (IH h ltac:(lia)) as [W3 _]. destruct (W3 k E2) as [_ W4].
        destruct (IH k ltac:(lia)) as [_ W5]. auto. }
      split; auto.
      destruct (cf_row _ _ _ _ _ _ _ _ _ _ C1 g h X1 X3) as [_ ->].
      destruct (cf_row _ _ _ _ _ _ _ _ _ _ C2 (f g) (f h) X2 X4) as [_ ->].
      rewrite ES. destruct (IH h ltac:(lia)) as [_ W]. rewrite W; auto. apply (lo_P LO g h HE). }
    split; [intros h HE; apply (KR (S (rk h))); auto|].
    intros HP. destruct (lo_allP LO g HP) as [X1 X2].
    destruct (cf_D _ _ _ _ _ _ _ _ _ _ C1 g X1) as (s1 & R1 & ->).
    destruct (cf_D _ _ _ _ _ _ _ _ _ _ C2 (f g) X2) as (s2 & R2 & ->).
    rewrite (lo_reg LO g _ HP). f_equal.
    apply reduces_det in R1. apply reduces_det in R2. rewrite R1, R2.
    rewrite (lo_row LO g HP), subl_map, (lo_AP LO g HP). apply subl_ext.
    intros k Hk. destruct (lo_rowE LO g k HP Hk) as (E1 & EQ).
    destruct (KR (S (rk k)) k ltac:(lia) E1) as [W1 W2].
    destruct (IH k) as [_ W5]; [pose proof (RK g k X1 Hk); lia|].
    rewrite W1, W2, EQ, W5; auto. apply (lo_P LO g k E1).
  Qed.

  Lemma local_L g h : E g h -> L1 g h = L2 (f g) (f h).
  Proof. intros H. apply (local_eq (S (rk g))); auto. Qed.
  Lemma local_D g : P g -> D1 g = D2 (f g).
  Proof. apply (local_eq (S (rk g))); auto. Qed.

  (** the solves; the set is closed in both directions *)
  Variables (col1 : I -> list I) (col2 : J -> list J).
  Hypothesis CG1 : colsGood all1 row1 col1.
  Hypothesis RIn : forall g h, In g all1 -> In h (row1 g) -> In h all1.
  Hypothesis CC : forall g, P g -> col2 (f g) = map f (col1 g).
  Hypothesis CP : forall g k, P g -> In k (col1 g) -> P k.
  Variables (b1 y1 z1 x1 : I -> F) (b2 y2 z2 x2 : J -> F).
  Hypothesis FE1 : forwardEq O all1 row1 L1 b1 y1.
  Hypothesis DE1 : diagonalEq O all1 D1 y1 z1.
  Hypothesis BE1 : backwardEq O all1 L1 col1 z1 x1.
  Hypothesis FE2 : forwardEq O all2 row2 L2 b2 y2.
  Hypothesis DE2 : diagonalEq O all2 D2 y2 z2.
  Hypothesis BE2 : backwardEq O all2 L2 col2 z2 x2.
  Hypothesis EB : forall g, P g -> b1 g = b2 (f g).

  Lemma local_forward : forall N g, rk g < N -> P g -> y1 g = y2 (f g).
  Proof.
    induction N as [|N IH]; intros g Hg HP; [lia|].
    destruct (lo_allP LO g HP) as [X1 X2].
    rewrite FE1, FE2 by auto. rewrite (lo_row LO g HP), subl_map, (EB g HP). apply subl_ext.
    intros k Hk. destruct (lo_rowE LO g k HP Hk) as (E1 & _).
    rewrite (local_L g k E1), (IH k); auto.
    - pose proof (RK g k X1 Hk). lia.
    - apply (lo_P LO g k E1).
  Qed.

  Lemma local_backward top : (forall g, In g all1 -> rk g < top) ->
    forall N g, top - rk g < N -> P g -> x1 g = x2 (f g).
  Proof.
    intros TP. induction N as [|N IH]; intros g Hg HP; [lia|].
    destruct (lo_allP LO g HP) as [X1 X2].
    rewrite BE1, BE2 by auto. rewrite (CC g HP), subl_map.
    rewrite (DE1 g X1), (DE2 (f g) X2), (local_forward (S (rk g)) g), (local_D g HP) by auto.
    apply subl_ext. intros k Hk. pose proof (CP g k HP Hk) as Pk.
    apply (cg_in _ _ _ CG1) in Hk; auto. destruct Hk as [K1 K2].
    destruct (lo_rowE LO k g Pk K2) as (E1 & _).
    rewrite (local_L k g E1), (IH k); auto.
    pose proof (RK k g K1 K2). pose proof (TP k K1). pose proof (TP g X1). lia.
  Qed.

  Lemma local_solve top : (forall g, In g all1 -> rk g < top) -> forall g, P g -> x1 g = x2 (f g).
  Proof. intros TP g HP. apply (local_backward top TP (S (top - rk g))); auto. Qed.
End Embed.

(** ** an index set of the same run that is closed under the pattern *)
Section Closed.
  Context {F : Type} (O : ops F) {I : Type} (dec : forall a b : I, {a = b} + {a <> b}).
  Variables (all : list I) (row : I -> list I) (P : I -> Prop).
  Hypothesis RI : forall g h, In g all -> In h (row g) -> In h all.
  Hypothesis PA : forall g, P g -> In g all.
  Hypothesis PR : forall g h, P g -> In h (row g) -> P h.
  Variables (fm : bool -> I -> I -> tform) (A1 A2 : I -> I -> F) (reg1 reg2 : F -> I -> F).
  Hypothesis HA : forall g h, P g -> P h -> A1 g h = A2 g h.
  Hypothesis HR : forall g v, P g -> reg1 v g = reg2 v g.

  Lemma closed_local :
    local dec dec all all row row (fun g => g) fm fm A1 reg1 A2 reg2 (fun g h => P g /\ In h (row g)) P.
  Proof.
    constructor.
    - intros g h [H1 H2]. auto.
    - intros. symmetry. apply map_id.
    - intros g h k [H1 H2] Hk. apply common_In in Hk. destruct Hk as [K1 K2].
      split; [auto|]. split; [split; auto; eapply PR; eauto|]. split; [eapply PR; eauto|reflexivity].
    - intros g h [H1 H2]. eapply PR; eauto.
    - intros g h [H1 H2]. apply HA; auto. eapply PR; eauto.
    - auto.
    - intros. symmetry. apply map_id.
    - auto.
    - auto.
    - auto.
  Qed.
End Closed.
