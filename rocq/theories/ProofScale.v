(** Two runs on systems that are scaled versions of each other. *)
From Coq Require Import List Arith Lia Bool.
From Verif Require Import ModelNumeric SpecNumeric SpecScale.
From Verif Require Import ProofArrowSub ProofChain.
Import ListNotations.

Section Grades.
  Context {G : Type} (OG : ops G) (FL : fieldLaws OG).
  Add Ring FrScale : (fl_ring FL).
  Local Notation "x * y" := (omul OG x y).
  Local Notation "x / y" := (odiv OG x y).
  Local Notation z := (o0 OG).

  Lemma cancel a b c : c <> z -> a * c = b * c -> a = b.
  Proof.
    intros N E. pose proof (fl_div FL (fl_one FL) c N) as I1.
    transitivity (a * c * (fl_one FL / c)).
    - transitivity (a * (fl_one FL / c * c)); [rewrite I1|]; ring.
    - rewrite E. transitivity (b * (fl_one FL / c * c)); [|rewrite I1]; ring.
  Qed.
  Lemma mul_nz a b : a <> z -> b <> z -> a * b <> z.
  Proof.
    intros Na Nb E. apply Na. apply (cancel a z b Nb). rewrite E. ring.
  Qed.
  Lemma div_mul a b : b <> z -> a / b * b = a.
  Proof. apply (fl_div FL). Qed.

  Lemma g_prod c si sj sk : sk <> z ->
    si / sk * (sj / sk) * (c * (sk * sk)) = c * (si * sj).
  Proof.
    intros N. transitivity (c * (si / sk * sk) * (sj / sk * sk)); [ring|]. rewrite !div_mul by auto. ring.
  Qed.
  Lemma g_left c si sj sk : sk <> z -> sj / sk * (c * (si * sk)) = c * (si * sj).
  Proof. intros N. transitivity (c * (sj / sk * sk) * si); [ring|]. rewrite !div_mul by auto. ring. Qed.
  Lemma g_right c si sj sk : sk <> z -> c * (si * sk) * (sj / sk) = c * (si * sj).
  Proof. intros N. transitivity (c * (sj / sk * sk) * si); [ring|]. rewrite !div_mul by auto. ring. Qed.
  Lemma g_entry c si sj : c <> z -> sj <> z -> c * (si * sj) / (c * (sj * sj)) = si / sj.
  Proof.
    intros Nc N. apply (cancel _ _ (c * (sj * sj))); [repeat apply mul_nz; auto|].
    rewrite div_mul by (repeat apply mul_nz; auto).
    transitivity (c * sj * (si / sj * sj)); [rewrite !div_mul by auto; ring|]. ring.
  Qed.
  Lemma g_fwd t si sk : sk <> z -> si / sk * (t * sk) = t * si.
  Proof. intros N. transitivity (t * (si / sk * sk)); [ring|]. rewrite !div_mul by auto. ring. Qed.
  Lemma g_dia c t si : c <> z -> si <> z -> t * si / (c * (si * si)) = t / c / si.
  Proof.
    intros Nc N. apply (cancel _ _ (c * (si * si))); [repeat apply mul_nz; auto|].
    rewrite div_mul by (repeat apply mul_nz; auto).
    transitivity (t / c / si * si * c * si); [|ring]. rewrite !div_mul by auto. ring.
  Qed.
  Lemma g_bwd v si sk : si <> z -> sk <> z -> sk / si * (v / sk) = v / si.
  Proof.
    intros N N'. apply (cancel _ _ si); auto. rewrite div_mul by auto.
    transitivity (sk / si * si * (v / sk)); [ring|]. rewrite div_mul by auto.
    transitivity (v / sk * sk); [ring|]. rewrite div_mul by auto. ring.
  Qed.
End Grades.

Section Scale.
  Context {G F1 F2 : Type} (OG : ops G) (FL : fieldLaws OG) (ok : G -> Prop) (O1 : ops F1) (O2 : ops F2)
    (fin1 : F1 -> Prop) (fin2 : F2 -> Prop) (nz : F1 -> Prop) (rel : G -> F1 -> F2 -> Prop).
  Hypothesis R : scaleRules OG ok O1 O2 fin1 fin2 nz rel.

  Lemma subl_fin1 {I} a (l : list I) t : fin1 (subl O1 a l t) -> fin1 a /\ forall k, In k l -> fin1 (t k).
  Proof.
    revert a. induction l as [|k l IH]; intros a H; [split; [exact H|intros k []]|].
    cbn [subl fold_left] in H. apply IH in H. destruct H as [H H'].
    apply (sc_sub_fin1 _ _ _ _ _ _ _ _ R) in H. split; [tauto|]. intros j [<-|Hj]; [tauto|auto].
  Qed.
  Lemma subl_fin2 {I} a (l : list I) t : fin2 (subl O2 a l t) -> fin2 a /\ forall k, In k l -> fin2 (t k).
  Proof.
    revert a. induction l as [|k l IH]; intros a H; [split; [exact H|intros k []]|].
    cbn [subl fold_left] in H. apply IH in H. destruct H as [H H'].
    apply (sc_sub_fin2 _ _ _ _ _ _ _ _ R) in H. split; [tauto|]. intros j [<-|Hj]; [tauto|auto].
  Qed.

  Lemma subl_rel {I} (l : list I) k t1 t2 : ok k -> forall a a', rel k a a' ->
    fin1 (subl O1 a l t1) -> fin2 (subl O2 a' l t2) ->
    (forall j, In j l -> fin1 (t1 j) -> fin2 (t2 j) -> rel k (t1 j) (t2 j)) ->
    rel k (subl O1 a l t1) (subl O2 a' l t2).
  Proof.
    intros K. induction l as [|j l IH]; intros a a' Ha H1 H2 HT; [exact Ha|].
    pose proof (subl_fin1 _ _ _ H1) as [_ T1]. pose proof (subl_fin2 _ _ _ H2) as [_ T2].
    cbn [subl fold_left] in *. apply IH; auto.
    - pose proof (subl_fin1 _ _ _ H1) as [S1 _]. pose proof (subl_fin2 _ _ _ H2) as [S2 _].
      apply (sc_sub _ _ _ _ _ _ _ _ R); auto.
      apply HT; auto; [left|apply T1; left|apply T2; left]; auto.
    - intros i Hi. apply HT. right. auto.
  Qed.

  Section Runs.
  Context {I : Type} (dec : forall a b : I, {a = b} + {a <> b}) (all : list I).
  Variables (row : I -> list I) (rank : I -> nat).
  Hypothesis BR : forall g k, In g all -> In k (row g) -> In k all /\ rank k < rank g.
  Variable (fm : bool -> I -> I -> tform).
  Variables (c : G) (s : I -> G).
  Hypothesis OC : ok c.
  Hypothesis OS : forall g, In g all -> ok (s g).
  Variables (reg1 : F1 -> I -> F1) (reg2 : F2 -> I -> F2).
  Variables (A1 L1 S1 : I -> I -> F1) (D1 : I -> F1) (A2 L2 S2 : I -> I -> F2) (D2 : I -> F2).
  Hypothesis C1 : chainedF O1 dec all row fm A1 L1 S1 D1 reg1.
  Hypothesis C2 : chainedF O2 dec all row fm A2 L2 S2 D2 reg2.
  Hypothesis Z1 : forall g h, In g all -> In h all -> ~ In h (row g) -> L1 g h = o0 O1.
  Hypothesis Z2 : forall g h, In g all -> In h all -> ~ In h (row g) -> L2 g h = o0 O2.
  Hypothesis FD1 : forall g, In g all -> fin1 (D1 g) /\ nz (D1 g).
  Hypothesis FD2 : forall g, In g all -> fin2 (D2 g).
  Hypothesis FL1 : forall g h, In g all -> In h (row g) -> fin1 (L1 g h).
  Hypothesis FL2 : forall g h, In g all -> In h (row g) -> fin2 (L2 g h).
  Hypothesis HA : forall g h, In g all -> In h (g :: row g) -> rel (scaleA OG c s g h) (A1 g h) (A2 g h).
  Hypothesis RG : forall g v v', In g all -> (fin1 (reg1 v g) -> fin1 v) /\ (fin2 (reg2 v' g) -> fin2 v') /\
    (rel (scaleA OG c s g g) v v' -> fin1 (reg1 v g) -> fin2 (reg2 v' g) ->
     rel (scaleA OG c s g g) (reg1 v g) (reg2 v' g)).

  Lemma okA g h : In g all -> In h all -> ok (scaleA OG c s g h).
  Proof. intros. unfold scaleA. repeat apply (sc_okmul _ _ _ _ _ _ _ _ R); auto. Qed.
  Lemma okL g h : In g all -> In h all -> ok (scaleL OG s g h).
  Proof. intros. unfold scaleL. apply (sc_okdiv _ _ _ _ _ _ _ _ R); auto. Qed.
  Lemma nzS g : In g all -> s g <> o0 OG.
  Proof. intros. apply (sc_nz _ _ _ _ _ _ _ _ R); auto. Qed.
  Lemma nzC : c <> o0 OG.
  Proof. apply (sc_nz _ _ _ _ _ _ _ _ R); auto. Qed.

  Definition relAt g h : Prop :=
    rel (scaleL OG s g h) (L1 g h) (L2 g h) /\ rel (scaleA OG c s g h) (S1 g h) (S2 g h).

  Lemma term_rel f g h k : In g all -> In h all -> In k all -> relAt g k -> relAt h k ->
    rel (scaleA OG c s k k) (D1 k) (D2 k) ->
    fin1 (termF O1 f (L1 g k) (L1 h k) (S1 g k) (D1 k)) ->
    fin2 (termF O2 f (L2 g k) (L2 h k) (S2 g k) (D2 k)) ->
    rel (scaleA OG c s g h) (termF O1 f (L1 g k) (L1 h k) (S1 g k) (D1 k))
                            (termF O2 f (L2 g k) (L2 h k) (S2 g k) (D2 k)).
  Proof.
    intros Hg Hh Hk [E1 E2] [E3 E4] ED. pose proof (nzS k Hk) as N.
    destruct f; cbn [termF]; intros H1 H2.
    - pose proof (sc_mul_fin1 _ _ _ _ _ _ _ _ R _ _ H1) as [P1 _].
      pose proof (sc_mul_fin2 _ _ _ _ _ _ _ _ R _ _ H2) as [P2 _].
      unfold scaleA at 1. rewrite <- (g_prod OG FL c (s g) (s h) (s k) N).
      apply (sc_mul _ _ _ _ _ _ _ _ R); auto.
      + apply (sc_okmul _ _ _ _ _ _ _ _ R); apply okL; auto.
      + apply okA; auto.
      + apply (sc_mul _ _ _ _ _ _ _ _ R); auto; apply okL; auto.
    - unfold scaleA at 1. rewrite <- (g_left OG FL c (s g) (s h) (s k) N).
      apply (sc_mul _ _ _ _ _ _ _ _ R); auto; [apply okL|apply okA]; auto.
    - unfold scaleA at 1. rewrite <- (g_right OG FL c (s g) (s h) (s k) N).
      apply (sc_mul _ _ _ _ _ _ _ _ R); auto; [apply okA|apply okL]; auto.
  Qed.

  Lemma det1 fo (l : list I) a r g h : reduces O1 (isTermF O1 fm fo L1 S1 D1 g h) a l r ->
    r = subl O1 a l (fun k => termF O1 (fm fo g k) (L1 g k) (L1 h k) (S1 g k) (D1 k)).
  Proof. apply reduces_det. Qed.
  Lemma det2 fo (l : list I) a r g h : reduces O2 (isTermF O2 fm fo L2 S2 D2 g h) a l r ->
    r = subl O2 a l (fun k => termF O2 (fm fo g k) (L2 g k) (L2 h k) (S2 g k) (D2 k)).
  Proof. apply reduces_det. Qed.

  Lemma entry_rel g h : In g all -> In h (row g) ->
    (forall k, In k (row h) -> rel (scaleA OG c s k k) (D1 k) (D2 k) /\ relAt h k) ->
    rel (scaleA OG c s h h) (D1 h) (D2 h) ->
    (forall k, In k (row g) -> In k (row h) -> relAt g k) ->
    relAt g h.
  Proof.
    intros Hg Hh IH1 IHD IH2. destruct (BR g h Hg Hh) as [Hh' Lt].
    destruct (cf_row _ _ _ _ _ _ _ _ _ _ C1 g h Hg Hh) as [RD1 EL1].
    destruct (cf_row _ _ _ _ _ _ _ _ _ _ C2 g h Hg Hh) as [RD2 EL2].
    apply det1 in RD1. apply det2 in RD2.
    pose proof (FL1 g h Hg Hh) as Q1. pose proof (FL2 g h Hg Hh) as Q2.
    destruct (sc_div_fin _ _ _ _ _ _ _ _ R (scaleA OG c s h h) (S1 g h) (S2 g h) (D1 h) (D2 h)
      (okA h h Hh' Hh') IHD (proj2 (FD1 h Hh'))) as [V1 V2].
    rewrite EL1 in Q1. rewrite EL2 in Q2. specialize (V1 Q1). specialize (V2 Q2).
    assert (ST : rel (scaleA OG c s g h) (S1 g h) (S2 g h)).
    { rewrite RD1 in V1 |- *. rewrite RD2 in V2 |- *. apply subl_rel; auto using okA.
      - apply HA; auto. right. auto.
      - intros k Hk. apply common_In in Hk. destruct Hk as [K1 K2]. apply term_rel; auto.
        + apply (BR g k); auto.
        + apply IH1; auto.
        + apply IH1; auto. }
    split; auto. rewrite EL1, EL2. unfold scaleL.
    rewrite <- (g_entry OG FL c (s g) (s h)) by (auto using nzC, nzS).
    apply (sc_div _ _ _ _ _ _ _ _ R); auto using okA. apply okA; auto. apply okA; auto. apply FD1; auto.
  Qed.

  Lemma runs_rel_at N : forall g, rank g < N -> In g all ->
    rel (scaleA OG c s g g) (D1 g) (D2 g) /\ forall h, In h (row g) -> relAt g h.
  Proof.
    induction N as [|N IH]; intros g Lt Hg; [lia|].
    assert (H : forall h, In h (row g) -> relAt g h).
    { assert (HN : forall M h, rank h < M -> In h (row g) -> relAt g h).
      { induction M as [|M IM]; intros h Lh Hh; [lia|]. destruct (BR g h Hg Hh) as [Hh' Lt'].
        destruct (IH h ltac:(lia) Hh') as [ID IE].
        apply entry_rel; auto.
        - intros k Hk. destruct (BR h k Hh' Hk) as [Hk' Lk]. split; auto. apply IH; auto. lia.
        - intros k Kg Kh. destruct (BR h k Hh' Kh) as [Hk' Lk]. apply IM; auto. lia. }
      intros h Hh. apply (HN (S (rank h))); auto. }
    split; auto.
    destruct (cf_D _ _ _ _ _ _ _ _ _ _ C1 g Hg) as (u1 & RD1 & E1).
    destruct (cf_D _ _ _ _ _ _ _ _ _ _ C2 g Hg) as (u2 & RD2 & E2).
    apply det1 in RD1. apply det2 in RD2.
    pose proof (proj1 (FD1 g Hg)) as Q1. pose proof (FD2 g Hg) as Q2. rewrite E1 in Q1. rewrite E2 in Q2.
    destruct (RG g u1 u2 Hg) as (V1 & V2 & V3). specialize (V1 Q1). specialize (V2 Q2).
    rewrite E1, E2. apply V3; auto. clear V3 Q1 Q2 E1 E2.
    rewrite RD1 in V1 |- *. rewrite RD2 in V2 |- *. apply subl_rel; auto.
    - apply okA; auto.
    - apply HA; auto. left. auto.
    - intros k Hk. destruct (BR g k Hg Hk) as [Hk' Lk]. apply term_rel; auto. apply IH; auto. lia.
  Qed.

  Theorem runs_rel :
    (forall g, In g all -> rel (scaleA OG c s g g) (D1 g) (D2 g)) /\
    (forall g h, In g all -> In h all -> rel (scaleL OG s g h) (L1 g h) (L2 g h)).
  Proof.
    split.
    - intros g Hg. apply (runs_rel_at (S (rank g))); auto.
    - intros g h Hg Hh. destruct (in_dec dec h (row g)) as [B|B].
      + apply (runs_rel_at (S (rank g))); auto.
      + rewrite Z1, Z2 by auto. apply (sc_0 _ _ _ _ _ _ _ _ R). apply okL; auto.
  Qed.

  (** *** the solves *)
  Variable col : I -> list I.
  Hypothesis Q : colsGood all row col.
  Variables (b1 y1 z1 x1 : I -> F1) (b2 y2 z2 x2 : I -> F2) (t : G).
  Hypothesis OT : ok t.
  Hypothesis HB : forall g, In g all -> rel (scaleB OG t s g) (b1 g) (b2 g).
  Hypothesis Y1 : forwardEq O1 all row L1 b1 y1.
  Hypothesis Y2 : forwardEq O2 all row L2 b2 y2.
  Hypothesis W1 : diagonalEq O1 all D1 y1 z1.
  Hypothesis W2 : diagonalEq O2 all D2 y2 z2.
  Hypothesis X1 : backwardEq O1 all L1 col z1 x1.
  Hypothesis X2 : backwardEq O2 all L2 col z2 x2.
  Hypothesis XF1 : forall g, In g all -> fin1 (x1 g).
  Hypothesis XF2 : forall g, In g all -> fin2 (x2 g).

  Lemma zfin g : In g all -> fin1 (z1 g) /\ fin2 (z2 g).
  Proof.
    intros Hg. pose proof (XF1 g Hg) as H1. rewrite (X1 g Hg) in H1.
    pose proof (XF2 g Hg) as H2. rewrite (X2 g Hg) in H2.
    apply subl_fin1 in H1. apply subl_fin2 in H2. tauto.
  Qed.
  Lemma yfin g : In g all -> fin1 (y1 g) /\ fin2 (y2 g).
  Proof.
    intros Hg. destruct (zfin g Hg) as [H1 H2]. rewrite (W1 g Hg) in H1. rewrite (W2 g Hg) in H2.
    destruct runs_rel as [HD _].
    destruct (sc_div_fin _ _ _ _ _ _ _ _ R (scaleA OG c s g g) (y1 g) (y2 g) (D1 g) (D2 g)
      (okA g g Hg Hg) (HD g Hg) (proj2 (FD1 g Hg))). auto.
  Qed.
  Lemma okB g : In g all -> ok (scaleB OG t s g).
  Proof. intros. unfold scaleB. apply (sc_okmul _ _ _ _ _ _ _ _ R); auto. Qed.
  Lemma okX g : In g all -> ok (scaleX OG c t s g).
  Proof. intros. unfold scaleX. repeat apply (sc_okdiv _ _ _ _ _ _ _ _ R); auto. Qed.

  Lemma y_rel N : forall g, rank g < N -> In g all -> rel (scaleB OG t s g) (y1 g) (y2 g).
  Proof.
    destruct runs_rel as [HD HL].
    induction N as [|N IH]; intros g Lt Hg; [lia|].
    destruct (yfin g Hg) as [H1 H2]. rewrite (Y1 g Hg) in H1 |- *. rewrite (Y2 g Hg) in H2 |- *.
    apply subl_rel; auto using okB. intros k Hk. destruct (BR g k Hg Hk) as [Hk' Lk]. intros P1 P2.
    unfold scaleB. rewrite <- (g_fwd OG FL t (s g) (s k)) by (apply nzS; auto).
    apply (sc_mul _ _ _ _ _ _ _ _ R); auto.
    - apply okL; auto.
    - apply okB; auto.
    - apply HL; auto.
    - apply IH; auto. lia.
  Qed.

  Lemma z_rel g : In g all -> rel (scaleX OG c t s g) (z1 g) (z2 g).
  Proof.
    intros Hg. destruct runs_rel as [HD HL]. destruct (zfin g Hg) as [H1 H2].
    rewrite (W1 g Hg) in H1 |- *. rewrite (W2 g Hg) in H2 |- *.
    unfold scaleX. rewrite <- (g_dia OG FL c t (s g)) by (auto using nzC, nzS).
    apply (sc_div _ _ _ _ _ _ _ _ R); auto.
    - apply okB; auto.
    - apply okA; auto.
    - apply (y_rel (S (rank g))); auto.
    - apply HD; auto.
    - apply FD1; auto.
  Qed.

  Variable top : nat.
  Hypothesis TOP : forall g, In g all -> rank g < top.
  Lemma x_rel N : forall g, top <= rank g + N -> In g all -> rel (scaleX OG c t s g) (x1 g) (x2 g).
  Proof.
    destruct runs_rel as [HD HL].
    induction N as [|N IH]; intros g Lt Hg; [pose proof (TOP g Hg); lia|].
    pose proof (XF1 g Hg) as H1. pose proof (XF2 g Hg) as H2.
    rewrite (X1 g Hg) in H1 |- *. rewrite (X2 g Hg) in H2 |- *.
    apply subl_rel; auto using okX, z_rel. intros k Hk P1 P2.
    apply (cg_in _ _ _ Q) in Hk; auto. destruct Hk as [Hk' Hr]. destruct (BR k g Hk' Hr) as [_ Lk].
    unfold scaleX. rewrite <- (g_bwd OG FL (odiv OG t c) (s g) (s k)) by (apply nzS; auto).
    apply (sc_mul _ _ _ _ _ _ _ _ R); auto.
    - apply okL; auto.
    - apply okX; auto.
    - apply HL; auto.
    - apply IH; auto. lia.
  Qed.

  Theorem solves_rel g : In g all -> rel (scaleX OG c t s g) (x1 g) (x2 g).
  Proof. intros Hg. apply (x_rel top); auto. lia. Qed.
  End Runs.
End Scale.
