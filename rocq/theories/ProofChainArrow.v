(** The arrowhead factorization and solve as sequences of subtractions. No algebraic laws. *)
From Coq Require Import List Arith Lia Bool.
From Verif Require Import Base ModelPerm ModelSparsity ModelSymbolic ModelNumeric ModelArrow.
From Verif Require Import SpecSymbolic SpecArrow SpecNumeric SpecArrowNum.
From Verif Require Import ProofBase ProofPerm ProofCsr ProofSparsity ProofFill ProofFill3
  ProofArrowSym ProofDense ProofUpRow ProofUp ProofEntry ProofKernel ProofSolve
  ProofSingle ProofArrowRows ProofArrowDense ProofArrowProduct ProofArrowMain ProofArrowSub ProofChain
  ProofChainKernel.
Import ListNotations.

Lemma filter_map' {A B} (f : B -> bool) (g : A -> B) l :
  filter f (map g l) = map g (filter (fun x => f (g x)) l).
Proof.
  induction l as [|x l IH]; [reflexivity|]. cbn [map filter]. destruct (f (g x)); cbn [map];
    rewrite IH; auto.
Qed.

Lemma filter_flat_map {A B} (f : B -> bool) (g : A -> list B) l :
  filter f (flat_map g l) = flat_map (fun x => filter f (g x)) l.
Proof.
  induction l as [|x l IH]; [reflexivity|]. cbn [flat_map]. rewrite filter_app, IH. auto.
Qed.

Lemma filter_none {A} (f : A -> bool) l : (forall x, In x l -> f x = false) -> filter f l = [].
Proof.
  induction l as [|x l IH]; intros H; [reflexivity|]. cbn [filter].
  rewrite (H x) by (left; auto). apply IH. intros; apply H; right; auto.
Qed.

(** The terms of the columns of the start and the tridiagonal blocks in the rows of the
    outer block are computed by the partial factorization, whatever the method. *)
Definition arrowForm (mt : method) (dg : bool) (g k : gidx) : tform :=
  match g, k with
  | GO _, GS _ | GO _, GT _ _ => if dg then TRight else TLeft
  | _, _ => kernForm mt dg
  end.

Section Arrow.
  Context {F : Type} (O : ops F).
  Local Notation get := (getL O).
  Variables (s : arrow_sp) (ds dt dl dO : nat) (k : arrow_blks) (P : arrow_pats).
  Hypothesis HD : arrowDims s ds dt dl dO.
  Hypothesis AG : arrowGood s ds dt dl dO k P.
  Hypothesis AC : arrowChordal P.
  Hypothesis AV : arrowCovers s ds dt dl dO P.
  Variables (n : nat) (m : arrow_mat (F:=F)) (w : arrow_vals F).
  Hypothesis IA : inputArrow O n ds dt dl dO m w.
  Hypothesis DA : declaredArrow s n m.
  Local Notation ps := (ss_perm (as_start s)).
  Local Notation pt := (st_perm (as_tri s)).
  Local Notation pl := (sl_perm (as_link s)).
  Local Notation po := (so_perm (as_outer s)).
  Local Notation all := (allIdx n ds dt dl dO).
  Local Notation row := (fwdL k n).
  Local Notation SF := (strictFun O k).
  Local Notation A := (symArrow O n (permFun s (matFun O m w))).

  (** whether (g, h) is an entry of the factor *)
  Definition rowb (g h : gidx) : bool :=
    match g, h with
    | GS i, GS j => nzb (b_sp (k_sd k)) i j
    | GT t i, GS j => (t =? 0) && nzb (b_sp (k_sn k)) i j
    | GT t i, GT u j =>
        if t =? u then nzb (b_sp (k_td k)) i j
        else if t =? u + 1 then nzb (b_sp (k_ts k)) i j else false
    | GL i, GT u j => (u =? n) && nzb (b_sp (k_lp k)) i j
    | GL i, GL j => nzb (b_sp (k_ld k)) i j
    | GO i, GS j => nzb (b_sp (k_so k)) i j
    | GO i, GT u j => (u <? n + 1) && nzb (b_sp (k_os k)) i j
    | GO i, GL j => nzb (b_sp (k_ln k)) i j
    | GO i, GO j => nzb (b_sp (k_od k)) i j
    | _, _ => false
    end.

  Lemma in_map_ne {X Y} (f : X -> Y) l y : (forall x, f x <> y) -> ~ In y (map f l).
  Proof. intros H Hin. apply in_map_iff in Hin. destruct Hin as (x & E & _). eapply H; eauto. Qed.

  Lemma in_map_inj {X Y} (f : X -> Y) l x : (forall a b, f a = f b -> a = b) ->
    In (f x) (map f l) <-> In x l.
  Proof.
    intros H. split.
    - intros Hin. apply in_map_iff in Hin. destruct Hin as (y & E & Hy). apply H in E. subst. auto.
    - apply in_map.
  Qed.

  Lemma row_In g h : In h (row g) <-> rowb g h = true.
  Proof.
    clear IA DA. destruct g as [i|t i|i|i], h as [j|u j|j|j]; cbn [fwdL rowb];
      rewrite ?in_app_iff;
      rewrite ?(in_map_inj GS), ?(in_map_inj GL), ?(in_map_inj GO), ?cols_In, ?nzb_In
        by (intros ? ? E; injection E; auto);
      try (split; [|discriminate]; intros H; try destruct t; exfalso;
           repeat match goal with
             | H : _ \/ _ |- _ => destruct H as [H|H]
             | H : In _ (_ ++ _) |- _ => apply in_app_iff in H
             end;
           revert H; apply in_map_ne; intros; discriminate).
    - tauto.
    - rewrite andb_true_iff, Nat.eqb_eq, nzb_In. destruct t.
      + rewrite (in_map_inj GS), cols_In by (intros ? ? E; injection E; auto).
        split; [|tauto]. intros [H|H]; auto. exfalso. revert H. apply in_map_ne. discriminate.
      + split; [|lia]. intros [H|H]; exfalso; revert H; apply in_map_ne; discriminate.
    - assert (M : forall t u j l, In (GT u j) (map (GT t) l) <-> t = u /\ In j l).
      { intros t' u' j' l. split.
        - intros H. apply in_map_iff in H. destruct H as (x & E & Hx). injection E; intros; subst. auto.
        - intros [-> H]. apply in_map. auto. }
      destruct t as [|t]; rewrite !M, ?cols_In.
      + split.
        * intros [H|[E H]]; [exfalso; revert H; apply in_map_ne; discriminate|].
          subst u. cbn [Nat.eqb]. apply nzb_In, H.
        * intros H. right. destruct (Nat.eqb_spec 0 u) as [<-|].
          -- split; auto. apply nzb_In in H. auto.
          -- destruct (Nat.eqb_spec 0 (u + 1)); [lia|discriminate].
      + split.
        * intros [[E H]|[E H]]; subst u.
          -- destruct (Nat.eqb_spec (S t) t); [lia|]. rewrite Nat.add_1_r, Nat.eqb_refl. apply nzb_In, H.
          -- rewrite Nat.eqb_refl. apply nzb_In, H.
        * destruct (Nat.eqb_spec (S t) u) as [<-|].
          -- intros H%nzb_In. right; auto.
          -- destruct (Nat.eqb_spec (S t) (u + 1)); [|discriminate]. intros H%nzb_In. left.
             split; auto. lia.
    - rewrite andb_true_iff, Nat.eqb_eq, nzb_In. split.
      + intros [H|H]; [|exfalso; revert H; apply in_map_ne; discriminate].
        apply in_map_iff in H. destruct H as (x & E & Hx). injection E; intros; subst.
        apply cols_In in Hx. auto.
      + intros [-> H]. left. apply in_map, cols_In. auto.
    - split; [|auto]. intros [H|H]; auto. exfalso. revert H. apply in_map_ne. discriminate.
    - split; [|auto]. intros [H|[H|[H|H]]]; auto; exfalso; revert H;
        try (apply in_map_ne; discriminate).
      intros H. apply in_flat_map in H. destruct H as (x & _ & H). revert H. apply in_map_ne. discriminate.
    - rewrite andb_true_iff, Nat.ltb_lt, nzb_In. split.
      + intros [H|[H|[H|H]]]; try (exfalso; revert H; apply in_map_ne; discriminate).
        apply in_flat_map in H. destruct H as (x & Hs & H). apply in_seq in Hs.
        apply in_map_iff in H. destruct H as (y & E & Hy). injection E; intros; subst.
        apply cols_In in Hy. split; auto. lia.
      + intros [H1 H2]. right. left. apply in_flat_map. exists u. split; [apply in_seq; lia|].
        apply in_map, cols_In. auto.
    - split; [|auto]. intros [H|[H|[H|H]]]; auto; exfalso; revert H;
        try (apply in_map_ne; discriminate).
      intros H. apply in_flat_map in H. destruct H as (x & _ & H). revert H. apply in_map_ne. discriminate.
    - split; [|auto]. intros [H|[H|[H|H]]]; auto; exfalso; revert H;
        try (apply in_map_ne; discriminate).
      intros H. apply in_flat_map in H. destruct H as (x & _ & H). revert H. apply in_map_ne. discriminate.
  Qed.

  Lemma arrow_common g h : common gidx_eq_dec row g h = filter (rowb h) (row g).
  Proof.
    apply filter_ext_in'. intros x _. destruct (rowb h x) eqn:E.
    - apply memI_In, row_In. auto.
    - unfold memI. destruct (in_dec gidx_eq_dec x (row h)) as [H|H]; auto.
      apply row_In in H. congruence.
  Qed.

  Lemma filter_self g : filter (rowb g) (row g) = row g.
  Proof.
    assert (H : forall l, (forall x, In x l -> rowb g x = true) -> filter (rowb g) l = l).
    { induction l as [|x l IH]; intros H; [reflexivity|]. cbn [filter].
      rewrite (H x) by (left; auto). f_equal. apply IH. intros; apply H; right; auto. }
    apply H. intros x Hx. apply row_In. auto.
  Qed.

  (** ** the pattern *)

  Definition rowP (g h : gidx) : Prop :=
    match g, h with
    | GS i, GS j => p_sd P i j
    | GT t i, GS j => t = 0 /\ p_sn P i j
    | GT t i, GT u j => (t = u /\ p_td P i j) \/ (t = u + 1 /\ p_ts P i j)
    | GL i, GT u j => u = n /\ p_lp P i j
    | GL i, GL j => p_ld P i j
    | GO i, GS j => p_so P i j
    | GO i, GT u j => u < n + 1 /\ p_os P i j
    | GO i, GL j => p_ln P i j
    | GO i, GO j => p_od P i j
    | _, _ => False
    end.

  Lemma row_pat g h : In h (row g) <-> rowP g h.
  Proof.
    rewrite row_In.
    pose proof AG as [Gsd Gsn Gso Gtd Gts Glp Gld Gln Gos God].
    destruct g as [i|t i|i|i], h as [j|u j|j|j]; cbn [rowb rowP];
      rewrite ?andb_true_iff, ?Nat.eqb_eq, ?Nat.ltb_lt, ?nzb_In;
      rewrite ?(gb_in _ _ _ _ _ _ _ Gsd), ?(gb_in _ _ _ _ _ _ _ Gsn), ?(gb_in _ _ _ _ _ _ _ Gso),
        ?(gb_in _ _ _ _ _ _ _ Glp), ?(gb_in _ _ _ _ _ _ _ Gld),
        ?(gb_in _ _ _ _ _ _ _ Gln), ?(gb_in _ _ _ _ _ _ _ Gos), ?(gb_in _ _ _ _ _ _ _ God);
      try reflexivity; try (split; [discriminate|intros []]).
    destruct (Nat.eqb_spec t u) as [->|N].
    - rewrite nzb_In, (gb_in _ _ _ _ _ _ _ Gtd). split; [auto|]. intros [H|H]; [tauto|lia].
    - destruct (Nat.eqb_spec t (u + 1)) as [->|N'].
      + rewrite nzb_In, (gb_in _ _ _ _ _ _ _ Gts). split; [auto|]. intros [H|H]; tauto.
      + split; [discriminate|]. tauto.
  Qed.

  Lemma row_bound g h : In g all -> rowP g h -> In h all.
  Proof.
    pose proof AG as [Gsd Gsn Gso Gtd Gts Glp Gld Gln Gos God].
    rewrite !in_allIdx. destruct g as [i|t i|i|i], h as [j|u j|j|j]; cbn [rowP]; try tauto; intros Hg H.
    - apply (gb_bound _ _ _ _ _ _ _ Gsd) in H. tauto.
    - destruct H as [_ H]. apply (gb_bound _ _ _ _ _ _ _ Gsn) in H. tauto.
    - destruct H as [[<- H]|[-> H]].
      + apply (gb_bound _ _ _ _ _ _ _ Gtd) in H. tauto.
      + apply (gb_bound _ _ _ _ _ _ _ Gts) in H. split; [lia|tauto].
    - destruct H as [-> H]. apply (gb_bound _ _ _ _ _ _ _ Glp) in H. split; [lia|tauto].
    - apply (gb_bound _ _ _ _ _ _ _ Gld) in H. tauto.
    - apply (gb_bound _ _ _ _ _ _ _ Gso) in H. tauto.
    - destruct H as [Hu H]. apply (gb_bound _ _ _ _ _ _ _ Gos) in H. tauto.
    - apply (gb_bound _ _ _ _ _ _ _ Gln) in H. tauto.
    - apply (gb_bound _ _ _ _ _ _ _ God) in H. tauto.
  Qed.

  (** position in the order of elimination *)
  Lemma row_asym g h : rowP g h -> ~ rowP h g.
  Proof.
    destruct g as [i|t i|i|i], h as [j|u j|j|j]; cbn [rowP]; try tauto.
    - intros H1 H2. apply (sd_low _ AC) in H1. apply (sd_low _ AC) in H2. lia.
    - intros [[-> H1]|[-> H1]] [[E H2]|[E H2]]; try lia.
      apply (td_low _ AC) in H1. apply (td_low _ AC) in H2. lia.
    - intros H1 H2. apply (ld_low _ AC) in H1. apply (ld_low _ AC) in H2. lia.
    - intros H1 H2. apply (od_low _ AC) in H1. apply (od_low _ AC) in H2. lia.
  Qed.

  Lemma row_closed g h x : In g all -> In h all -> g <> h -> rowP g x -> rowP h x ->
    rowP g h \/ rowP h g.
  Proof.
    pose proof (ac_sd _ AC) as C0. destruct (ac_start _ AC) as [S1 S2 S3 S4].
    destruct (ac_tri _ AC) as [T1 T2 T3 T4]. destruct (ac_link _ AC) as [L1 L2 L3 L4].
    destruct (ac_outer _ AC) as [O1 O2 O3 O4]. destruct (ac_ostart _ AC) as [X1 X2 X3].
    destruct (ac_otri _ AC) as [Y1 Y2 Y3]. destruct (ac_olink _ AC) as [Z1 Z2 Z3].
    pose proof (sd_low _ AC) as Lsd.
    rewrite !in_allIdx.
    assert (TOT : forall (i j : nat) (Q : nat -> nat -> Prop), i <> j ->
      (j < i -> Q i j) -> (i < j -> Q j i) -> Q i j \/ Q j i).
    { intros i j Q N H1 H2. destruct (Nat.lt_total i j) as [H|[H|H]]; [right|congruence|left]; auto. }
    destruct g as [i|t i|i|i], h as [j|u j|j|j], x as [q|v q|q|q]; cbn [rowP]; try tauto;
      intros Hg Hh N H1 H2.
    - apply TOT; [congruence| |]; intros; eapply C0; eauto.
    - destruct H2 as [-> H2]. right. split; auto. eapply S1; eauto.
    - right. eapply X1; eauto.
    - destruct H1 as [-> H1]. left. split; auto. eapply S1; eauto.
    - destruct H1 as [-> H1], H2 as [-> H2].
      destruct (TOT i j (p_td P)) as [H|H]; try (left; left; split; auto; fail);
        try (right; left; split; auto; fail); try congruence; intros; eapply S2; eauto.
    - destruct H1 as [[-> H1]|[-> H1]], H2 as [[-> H2]|[-> H2]].
      + destruct (TOT i j (p_td P)) as [H|H]; try (left; left; split; auto; fail);
        try (right; left; split; auto; fail); try congruence; intros; eapply T4; eauto.
      + right. right. split; auto. eapply T1; eauto.
      + left. right. split; auto. eapply T1; eauto.
      + destruct (TOT i j (p_td P)) as [H|H]; try (left; left; split; auto; fail);
        try (right; left; split; auto; fail); try congruence; intros; eapply T2; eauto.
    - destruct H2 as [-> H2], H1 as [[-> H1]|[-> H1]].
      + right. split; auto. eapply L1; eauto.
      + lia.
    - destruct H1 as [-> H1]. right. split; [lia|]. eapply X2; eauto.
    - destruct H2 as [Hv H2], H1 as [[-> H1]|[-> H1]].
      + right. split; auto. eapply Y1; eauto.
      + right. split; [lia|]. eapply Y2; eauto.
    - destruct H1 as [-> H1], H2 as [[-> H2]|[-> H2]].
      + left. split; auto. eapply L1; eauto.
      + lia.
    - destruct H1 as [-> H1], H2 as [_ H2].
      apply TOT; [congruence| |]; intros; eapply L2; eauto.
    - apply TOT; [congruence| |]; intros; eapply L4; eauto.
    - destruct H1 as [-> H1], H2 as [_ H2]. right. eapply Z2; eauto.
    - right. eapply O1; eauto.
    - left. eapply X1; eauto.
    - destruct H2 as [-> H2]. left. split; [lia|]. eapply X2; eauto.
    - destruct H1 as [Hv H1], H2 as [[-> H2]|[-> H2]].
      + left. split; auto. eapply Y1; eauto.
      + left. split; [lia|]. eapply Y2; eauto.
    - destruct H1 as [Hv H1], H2 as [-> H2]. left. eapply Z2; eauto.
    - left. eapply O1; eauto.
    - apply TOT; [congruence| |]; intros; eapply X3; eauto.
    - destruct H1 as [Hv H1], H2 as [_ H2]. apply TOT; [congruence| |]; intros; eapply Y3; eauto.
    - apply TOT; [congruence| |]; intros; eapply O2; eauto.
    - apply TOT; [congruence| |]; intros; eapply O4; eauto.
  Qed.

  Lemma rect_out m' nr' nc' vals b nr nc R p q i j :
    goodBlk b nr nc R p q false -> matOf O m' nr' nc' vals -> goodRect m' nr nc R p q ->
    i < nr -> j < nc -> ~ R i j ->
    denseAt O (entries (m_sp m')) vals (nth i p 0) (nth j q 0) = o0 O.
  Proof.
    intros G M [_ C] Hi Hj N. rewrite <- (rectVal O m' nr' nc' vals b nr nc R p q [] i j G M).
    apply (initL_rect_out O (Some m') b nr nc R p q [] i j G); auto.
    rewrite (gb_in _ _ _ _ _ _ _ G). auto.
  Qed.

  Lemma sym_out m' nr' nc' vals b nr R p i j :
    goodBlk b nr nr R p p true -> matOf O m' nr' nc' vals -> goodSym m' nr R p ->
    i < nr -> j < nr -> i <> j -> ~ R i j -> ~ R j i ->
    symAt O (entries (m_sp m')) vals (nth i p 0) (nth j p 0) = o0 O.
  Proof.
    intros G M [_ C].
    assert (H : forall i j, i < nr -> j < i -> ~ R i j ->
      symAt O (entries (m_sp m')) vals (nth i p 0) (nth j p 0) = o0 O).
    { intros a c Ha Hc N. rewrite <- (symVal O m' nr' nc' vals b nr R p [] a c G M).
      apply (initL_sym_out O (Some m') b nr R p [] a c G); auto.
      rewrite (gb_in _ _ _ _ _ _ _ G). auto. }
    intros Hi Hj N N1 N2. destruct (Nat.lt_total i j) as [L|[L|L]]; [|congruence|].
    - rewrite symAt_perm. auto.
    - auto.
  Qed.

  Lemma A_sym g h : A g h = A h g.
  Proof. apply symArrow_sym, symFun_perm. Qed.

  Lemma A_out g h : In g all -> In h all -> g <> h -> ~ rowP g h -> ~ rowP h g -> A g h = o0 O.
  Proof.
    pose proof (goodInput_of O s ds dt dl dO P n m w HD AV IA DA) as GI.
    destruct GI as [Isd Isn Iso Mtd Itd Mts Its Ilp Ild Iln Mos Ios Iod].
    pose proof IA as [Jsd Jsn Jso _ Jtd _ Jts Jlp Jld Jln _ Jos Jod].
    pose proof AG as [Gsd Gsn Gso Gtd Gts Glp Gld Gln Gos God].
    rewrite !in_allIdx.
    destruct g as [i|t i|i|i], h as [j|u j|j|j];
      cbn [symArrow permFun matFun f_sd f_sn f_so f_td f_ts f_lp f_ld f_ln f_os f_od rowP];
      intros Hg Hh N N1 N2; auto.
    - eapply sym_out; eauto; congruence.
    - destruct (Nat.eqb_spec u 0); auto. eapply rect_out; eauto; tauto.
    - eapply rect_out; eauto; tauto.
    - destruct (Nat.eqb_spec t 0); auto. eapply rect_out; eauto; tauto.
    - destruct (Nat.eqb_spec t u) as [->|].
      { eapply sym_out; eauto; try (apply Jtd; lia); try (apply Itd; lia); try tauto; congruence. }
      destruct (Nat.eqb_spec t (u + 1)) as [->|].
      { eapply rect_out; eauto; try (apply Jts; lia); try (apply Its; lia); try tauto. }
      destruct (Nat.eqb_spec u (t + 1)) as [->|]; auto.
      eapply rect_out; eauto; try (apply Jts; lia); try (apply Its; lia); try tauto.
    - destruct (Nat.eqb_spec t n); auto. eapply rect_out; eauto; tauto.
    - eapply rect_out; eauto; try (apply Jos; lia); try (apply Ios; lia); try tauto.
    - destruct (Nat.eqb_spec u n); auto. eapply rect_out; eauto; tauto.
    - eapply sym_out; eauto; congruence.
    - eapply rect_out; eauto; tauto.
    - eapply rect_out; eauto; tauto.
    - eapply rect_out; eauto; try (apply Jos; lia); try (apply Ios; lia); try tauto.
    - eapply rect_out; eauto; tauto.
    - eapply sym_out; eauto; congruence.
  Qed.

  Lemma row_NoDup g : NoDup (row g).
  Proof.
    pose proof AG as [Gsd Gsn Gso Gtd Gts Glp Gld Gln Gos God].
    assert (M : forall (c : nat -> gidx) b nr nc R p q sy i, (forall x y, c x = c y -> x = y) ->
      goodBlk b nr nc R p q sy -> NoDup (map c (cols (b_sp b) i))).
    { intros c b nr nc R p q sy i Hc G. apply NoDup_map_inj; auto. apply cols_NoDup.
      eapply goodBlk_gcsr; eauto. }
    assert (DJ : forall (c c' : nat -> gidx) l l', (forall x y, c x <> c' y) ->
      forall a, In a (map c l) -> In a (map c' l') -> False).
    { intros c c' l l' H a Ha Ha'. apply in_map_iff in Ha, Ha'. destruct Ha as (x & <- & _), Ha' as (y & E & _).
      eapply H; eauto. }
    destruct g as [i|t i|i|i]; cbn [fwdL].
    - eapply M; eauto; congruence.
    - apply NoDup_app_disj.
      + destruct t; eapply M; eauto; congruence.
      + eapply M; eauto; congruence.
      + destruct t; apply DJ; intros x y E; [discriminate|]. injection E. intros. lia.
    - apply NoDup_app_disj; [eapply M; eauto; congruence|eapply M; eauto; congruence|].
      apply DJ; discriminate.
    - assert (FM : forall a l, In a (flat_map (fun t => map (GT t) (cols (b_sp (k_os k)) i)) l) ->
        exists t x, a = GT t x).
      { intros a l H. apply in_flat_map in H. destruct H as (t & _ & H). apply in_map_iff in H.
        destruct H as (x & <- & _). eauto. }
      apply NoDup_app_disj; [eapply M; eauto; congruence| |].
      + apply NoDup_app_disj.
        * rewrite flat_map_concat_map.
          apply (NoDup_concat_tag (fun g => match g with GT t _ => t | _ => 0 end)).
          -- apply seq_NoDup.
          -- intros t _. eapply M; eauto; congruence.
          -- intros a t H. apply in_map_iff in H. destruct H as (x & <- & _). auto.
        * apply NoDup_app_disj; [eapply M; eauto; congruence|eapply M; eauto; congruence|].
          apply DJ; discriminate.
        * intros a Ha Hb. apply FM in Ha. destruct Ha as (t & x & ->).
          apply in_app_iff in Hb. destruct Hb as [Hb|Hb]; revert Hb; apply in_map_ne; discriminate.
      + intros a Ha Hb. apply in_map_iff in Ha. destruct Ha as (x & <- & _).
        rewrite !in_app_iff in Hb. destruct Hb as [Hb|[Hb|Hb]];
          [|revert Hb; apply in_map_ne; discriminate|revert Hb; apply in_map_ne; discriminate].
        apply FM in Hb. destruct Hb as (t & y & E). discriminate.
  Qed.

  Lemma low_out d g h : ~ rowP g h -> In g all -> In h all -> lowArrow O n (SF d) g h = o0 O.
  Proof.
    pose proof AG as [Gsd Gsn Gso Gtd Gts Glp Gld Gln Gos God].
    intros N. rewrite !in_allIdx. revert N.
    destruct g as [i|t i|i|i], h as [j|u j|j|j];
      cbn [lowArrow strictFun f_sd f_sn f_so f_td f_ts f_lp f_ld f_ln f_os f_od rowP]; intros N Hg Hh; auto.
    - apply getL_out. rewrite (gb_in _ _ _ _ _ _ _ Gsd). auto.
    - destruct (Nat.eqb_spec t 0); auto. apply getL_out. rewrite (gb_in _ _ _ _ _ _ _ Gsn). tauto.
    - destruct (Nat.eqb_spec t u); [apply getL_out; rewrite (gb_in _ _ _ _ _ _ _ Gtd); tauto|].
      destruct (Nat.eqb_spec t (u + 1)); auto. apply getL_out; rewrite (gb_in _ _ _ _ _ _ _ Gts); tauto.
    - destruct (Nat.eqb_spec u n); auto. apply getL_out. rewrite (gb_in _ _ _ _ _ _ _ Glp). tauto.
    - apply getL_out. rewrite (gb_in _ _ _ _ _ _ _ Gld). auto.
    - apply getL_out. rewrite (gb_in _ _ _ _ _ _ _ Gso). auto.
    - apply getL_out. rewrite (gb_in _ _ _ _ _ _ _ Gos). tauto.
    - apply getL_out. rewrite (gb_in _ _ _ _ _ _ _ Gln). auto.
    - apply getL_out. rewrite (gb_in _ _ _ _ _ _ _ God). auto.
  Qed.

  Lemma arrow_rows d : rowsGood O all row A (lowArrow O n (SF d)).
  Proof.
    constructor.
    - apply NoDup_allIdx.
    - intros g _. apply row_NoDup.
    - intros g x Hg. rewrite row_pat. apply row_bound. auto.
    - intros g _. rewrite row_pat. intros H. exact (row_asym g g H H).
    - intros g h _. rewrite !row_pat. apply row_asym.
    - intros g h Hg Hh. rewrite row_pat. intros N. apply low_out; auto.
    - intros g h _ _. apply A_sym.
    - intros g h Hg Hh N. rewrite !row_pat. apply A_out; auto.
    - intros g h x Hg Hh N. rewrite !row_pat. apply row_closed; auto.
  Qed.

  (** without an input matrix *)
  Lemma arrow_rows0 d : rowsGood O all row (fun _ _ => o0 O) (lowArrow O n (SF d)).
  Proof.
    constructor; auto.
    - apply NoDup_allIdx.
    - intros g _. apply row_NoDup.
    - intros g x Hg. rewrite row_pat. apply row_bound. auto.
    - intros g _. rewrite row_pat. intros H. exact (row_asym g g H H).
    - intros g h _. rewrite !row_pat. apply row_asym.
    - intros g h Hg Hh. rewrite row_pat. intros N. apply low_out; auto.
    - intros g h x Hg Hh N. rewrite !row_pat. apply row_closed; auto.
  Qed.

  Lemma arrow_cols : colsGood all row (bwdL ds dt dl dO k n).
  Proof.
    clear IA DA HD AV AC.
    pose proof AG as [Gsd Gsn Gso Gtd Gts Glp Gld Gln Gos God].
    constructor.
    - intros g Hg. apply in_allIdx in Hg.
      assert (M : forall (c : nat -> gidx) cs nr j, (forall x y, c x = c y -> x = y) ->
        NoDup (map c (rowsOf cs nr j))) by (intros; apply NoDup_map_inj; auto; apply rowsOf_NoDup).
      assert (DJ : forall (c c' : nat -> gidx) l l', (forall x y, c x <> c' y) ->
        forall a, In a (map c l) -> In a (map c' l') -> False).
      { intros c c' l l' H a Ha Ha'. apply in_map_iff in Ha, Ha'.
        destruct Ha as (x & <- & _), Ha' as (y & E & _). eapply H; eauto. }
      assert (M3 : forall c1 c2 c3 x1 x2 x3 n1 n2 n3 j1 j2 j3,
        (forall x y, c1 x = c1 y -> x = y) -> (forall x y, c2 x = c2 y -> x = y) ->
        (forall x y, c3 x = c3 y -> x = y) ->
        (forall x y, c1 x <> c2 y) -> (forall x y, c1 x <> c3 y) -> (forall x y, c2 x <> c3 y) ->
        NoDup (map c1 (rowsOf x1 n1 j1) ++ map c2 (rowsOf x2 n2 j2) ++ map c3 (rowsOf x3 n3 j3) : list gidx)).
      { intros. apply NoDup_app_disj; [auto|apply NoDup_app_disj; auto; apply DJ; auto|].
        intros a Ha Hb. apply in_app_iff in Hb. destruct Hb as [Hb|Hb]; revert Ha Hb; apply DJ; auto. }
      destruct g as [j|t j|j|j]; cbn [bwdL].
      + apply M3; congruence.
      + destruct (t =? n).
        * apply M3; congruence.
        * apply M3; try congruence. intros x y E. injection E. lia.
      + apply NoDup_app_disj; [apply M; congruence|apply M; congruence|apply DJ; discriminate].
      + apply M; congruence.
    - intros g x Hg. rewrite row_pat.
      assert (MI : forall (c : nat -> gidx) cs nr j y,
        In y (map c (rowsOf cs nr j)) <-> exists i, y = c i /\ i < nr /\ In (i, j) (c_entries cs)).
      { intros c cs nr j y. rewrite in_map_iff. split; intros (i & H1 & H2); exists i.
        - apply rowsOf_In in H2. auto.
        - split; auto. apply rowsOf_In. auto. }
      revert Hg. rewrite !in_allIdx.
      destruct g as [j|t j|j|j]; cbn [bwdL]; intros Hg; [| |rewrite in_app_iff|];
        rewrite ?in_app_iff, ?MI.
      + destruct x as [i|v i|i|i]; cbn [rowP]; split.
        all: try (intros [H|[H|H]]; destruct H as (y & E & H1 & H2); try discriminate; injection E; intros; subst).
        all: try (intros [H1 H2]).
        * split; auto. apply (gb_in _ _ _ _ _ _ _ Gsd). auto.
        * right. right. exists i. split; auto. split; auto. apply (gb_in _ _ _ _ _ _ _ Gsd). auto.
        * split; [split; [lia|auto]|]. split; auto. apply (gb_in _ _ _ _ _ _ _ Gsn). auto.
        * destruct H2 as [-> H2]. right. left. exists i. split; auto. split; [tauto|].
          apply (gb_in _ _ _ _ _ _ _ Gsn). auto.
        * tauto.
        * split; auto. apply (gb_in _ _ _ _ _ _ _ Gso). auto.
        * left. exists i. split; auto. split; auto. apply (gb_in _ _ _ _ _ _ _ Gso). auto.
      + assert (E3 : In x (if t =? n then map GL (rowsOf (b_sp (k_lp k)) dl j)
                           else map (GT (t + 1)) (rowsOf (b_sp (k_ts k)) dt j)) <->
          (t = n /\ exists i, x = GL i /\ i < dl /\ In (i, j) (c_entries (b_sp (k_lp k)))) \/
          (t <> n /\ exists i, x = GT (t + 1) i /\ i < dt /\ In (i, j) (c_entries (b_sp (k_ts k))))).
        { destruct (Nat.eqb_spec t n); rewrite MI; tauto. }
        rewrite E3. clear E3. destruct x as [i|v i|i|i]; cbn [rowP]; split.
        all: try (intros [H|[[[E0 H]|[E0 H]]|H]]; destruct H as (y & E & H1 & H2); try discriminate;
                  injection E; intros; subst).
        all: try (intros [H1 H2]).
        * tauto.
        * split; [split; [lia|auto]|]. right. split; auto. apply (gb_in _ _ _ _ _ _ _ Gts). auto.
        * split; [split; [lia|auto]|]. left. split; auto. apply (gb_in _ _ _ _ _ _ _ Gtd). auto.
        * destruct H2 as [[-> H2]|[-> H2]].
          -- right. right. exists i. split; auto. split; [tauto|]. apply (gb_in _ _ _ _ _ _ _ Gtd). auto.
          -- right. left. right. split; [lia|]. exists i. split; auto. split; [tauto|].
             apply (gb_in _ _ _ _ _ _ _ Gts). auto.
        * split; auto. split; auto. apply (gb_in _ _ _ _ _ _ _ Glp). auto.
        * destruct H2 as [-> H2]. right. left. left. split; auto. exists i. split; auto. split; auto.
          apply (gb_in _ _ _ _ _ _ _ Glp). auto.
        * split; auto. split; [tauto|]. apply (gb_in _ _ _ _ _ _ _ Gos). auto.
        * left. exists i. split; auto. split; auto. apply (gb_in _ _ _ _ _ _ _ Gos). tauto.
      + destruct x as [i|v i|i|i]; cbn [rowP]; split.
        all: try (intros [H|H]; destruct H as (y & E & H1 & H2); try discriminate; injection E; intros; subst).
        all: try (intros [H1 H2]).
        * tauto.
        * tauto.
        * split; auto. apply (gb_in _ _ _ _ _ _ _ Gld). auto.
        * right. exists i. split; auto. split; auto. apply (gb_in _ _ _ _ _ _ _ Gld). auto.
        * split; auto. apply (gb_in _ _ _ _ _ _ _ Gln). auto.
        * left. exists i. split; auto. split; auto. apply (gb_in _ _ _ _ _ _ _ Gln). auto.
      + destruct x as [i|v i|i|i]; cbn [rowP]; split.
        all: try (intros H; destruct H as (y & E & H1 & H2); try discriminate; injection E; intros; subst).
        all: try (intros [H1 H2]).
        * tauto.
        * tauto.
        * tauto.
        * split; auto. apply (gb_in _ _ _ _ _ _ _ God). auto.
        * exists i. split; auto. split; auto. apply (gb_in _ _ _ _ _ _ _ God). auto.
  Qed.

  (** ** the reductions *)

  Section Reds.
  Variables (mt : method) (reg : F -> nat -> F) (d : arrow_data (F:=F)).
  Hypothesis DO : dataOf k n ds dt dl dO d.
  Hypothesis AR : arrowRows O ds dt dl dO k mt m reg n d.
  Local Notation LA := (lowArrow O n (SF d)).
  Local Notation PD := (pivotAt O d).
  Local Notation tdL t := (fst (nth t (d_td d) ([], []))).
  Local Notation tdD t := (snd (nth t (d_td d) ([], []))).

  (** a term of row g, whose entries before the division are SR *)
  Local Notation fm := (arrowForm mt).
  Definition termR (dg : bool) (SR : gidx -> F) (g h k : gidx) (x : F) : Prop :=
    x = termF O (fm dg g k) (LA g k) (LA h k) (SR k) (PD k).

  Lemma red_map dg fo SR g h (c : nat -> gidx) l nz f f' s' D' a r :
    (forall x, fm dg g (c x) = fo) ->
    (forall x, In x l -> rowb h (c x) = nz x) -> (forall x, In x l -> LA g (c x) = f x) ->
    (forall x, In x l -> LA h (c x) = f' x) -> (forall x, In x l -> PD (c x) = D' x) ->
    (forall x, In x l -> SR (c x) = s' x) ->
    reduces O (term O fo f f' s' D') a (filter nz l) r ->
    reduces O (termR dg SR g h) a (filter (rowb h) (map c l)) r.
  Proof.
    intros H0 H1 H2 H3 H4 H5 R. rewrite filter_map'. rewrite (filter_ext_in' _ nz) by auto.
    apply reduces_map. eapply reduces_impl; [|exact R]. intros x v Hx Hv.
    apply filter_In in Hx. destruct Hx as [Hx _]. unfold termR. rewrite H0, H2, H3, H4, H5 by auto. exact Hv.
  Qed.

  Lemma red_none dg SR g h l a :
    (forall x, In x l -> rowb h x = false) ->
    reduces O (termR dg SR g h) a (filter (rowb h) l) a.
  Proof. intros H. rewrite filter_none by auto. constructor. Qed.

  Definition chainRow (g : gidx) : Prop := exists SR,
    (forall h, In h (row g) ->
       reduces O (termR false SR g h) (A g h) (filter (rowb h) (row g)) (SR h) /\ LA g h = odiv O (SR h) (PD h)) /\
    (exists r, reduces O (termR true SR g g) (A g g) (filter (rowb g) (row g)) r /\
       PD g = reg r (localIdx g)).

  (** a row computed by one call of the 2 block kernel *)
  Lemma chain2 (c1 c2 : nat -> gidx) x11 x21 x22 i G11 D1 a21 a22 ad G21 G22 D2 s21 s22 SR :
    row (c2 i) = map c1 (cols x21 i) ++ map c2 (cols x22 i) -> localIdx (c2 i) = i ->
    kernelReds O mt x11 x21 x22 i G11 D1 a21 a22 ad reg G21 G22 D2 s21 s22 ->
    (forall dg x, fm dg (c2 i) (c1 x) = kernForm mt dg) -> (forall dg x, fm dg (c2 i) (c2 x) = kernForm mt dg) ->
    (forall x, SR (c1 x) = s21 x) -> (forall x, SR (c2 x) = s22 x) ->
    (forall x y, rowb (c1 x) (c1 y) = nzb x11 x y) -> (forall x y, rowb (c1 x) (c2 y) = false) ->
    (forall x y, rowb (c2 x) (c1 y) = nzb x21 x y) -> (forall x y, rowb (c2 x) (c2 y) = nzb x22 x y) ->
    (forall x y, LA (c1 x) (c1 y) = G11 x y) -> (forall x y, LA (c2 x) (c1 y) = G21 x y) ->
    (forall x y, LA (c2 x) (c2 y) = G22 x y) ->
    (forall x, PD (c1 x) = D1 x) -> (forall x, PD (c2 x) = D2 x) ->
    (forall j, A (c2 i) (c1 j) = a21 i j) -> (forall j, A (c2 i) (c2 j) = a22 i j) ->
    A (c2 i) (c2 i) = ad i ->
    chainRow (c2 i).
  Proof.
    intros Er El [K1 K2 K3] F1 F2 Z1 Z2 B11 B12 B21 B22 L11 L21 L22 P1 P2 A21 A22 AD. exists SR. split.
    - intros h. rewrite Er, in_app_iff. intros [Hh|Hh]; apply in_map_iff in Hh; destruct Hh as (j & <- & Hj).
      + destruct (K1 j Hj) as (R & E). rewrite filter_app, L21, P1, Z1. split; auto.
        eapply reduces_app; [|apply red_none; intros y Hy; apply in_map_iff in Hy;
          destruct Hy as (y' & <- & _); apply B12].
        rewrite A21. eapply red_map; [| | | | | |exact R]; intros; auto.
      + destruct (K2 j Hj) as (q & R1 & R2 & E). rewrite filter_app, L22, P2, Z2. split; auto.
        rewrite A22. apply reduces_app with q.
        * eapply red_map; [| | | | | |exact R1]; intros; auto.
        * eapply red_map; [| | | | | |exact R2]; intros; auto.
    - destruct K3 as (q & r & R1 & R2 & E). exists r. rewrite El, P2. split; auto.
      rewrite Er, filter_app, AD. rewrite <- (filter_nzb_cols x21) in R1. rewrite <- (filter_nzb_cols x22) in R2.
      apply reduces_app with q.
      + eapply red_map; [| | | | | |exact R1]; intros; auto.
      + eapply red_map; [| | | | | |exact R2]; intros; auto.
  Qed.

  Lemma rowb_tt t x y : rowb (GT t x) (GT t y) = nzb (b_sp (k_td k)) x y.
  Proof. cbn [rowb]. rewrite Nat.eqb_refl. auto. Qed.
  Lemma rowb_ts t x y : rowb (GT (t + 1) x) (GT t y) = nzb (b_sp (k_ts k)) x y.
  Proof. cbn [rowb]. destruct (Nat.eqb_spec (t + 1) t); [lia|]. rewrite Nat.eqb_refl. auto. Qed.
  Lemma rowb_st t x y : rowb (GT t x) (GT (t + 1) y) = false.
  Proof.
    cbn [rowb]. destruct (Nat.eqb_spec t (t + 1)); [lia|].
    destruct (Nat.eqb_spec t (t + 1 + 1)); [lia|]. auto.
  Qed.
  Lemma low_tt t x y : LA (GT t x) (GT t y) = f_td (SF d) t x y.
  Proof. cbn [lowArrow]. rewrite Nat.eqb_refl. auto. Qed.
  Lemma low_ts t x y : LA (GT (t + 1) x) (GT t y) = f_ts (SF d) t x y.
  Proof. cbn [lowArrow]. destruct (Nat.eqb_spec (t + 1) t); [lia|]. rewrite Nat.eqb_refl. auto. Qed.
  Lemma low_lt x y : LA (GL x) (GT n y) = f_lp (SF d) x y.
  Proof. cbn [lowArrow]. rewrite Nat.eqb_refl. auto. Qed.

  Lemma chain_start i : i < ds -> chainRow (GS i).
  Proof.
    intros Hi. destruct AR as [[A1 _ _ _] _]. destruct A1 as (X & A1).
    pose proof (kernel_reds O mt _ _ _ _ _ _ _ _ _ _ _ _ _ A1 i Hi) as (s21 & s22 & [_ K2 K3]).
    pose proof AG as [Gsd _ _ _ _ _ _ _ _ _].
    pose proof (ia_sd _ _ _ _ _ _ _ _ IA) as Jsd.
    assert (EC : forall i, cols (b_sp (emptyLeftBlk (k_sd k))) i = []) by reflexivity.
    exists (fun h => match h with GS j => s22 j | _ => o0 O end). split.
    - intros h Hh. cbn [fwdL] in Hh. apply in_map_iff in Hh. destruct Hh as (j & <- & Hj).
      destruct (K2 j Hj) as (q & R1 & R2 & E). rewrite EC in R1. inversion R1; subst q.
      rewrite (symVal O (a_sd m) ds ds (w_sd w) (k_sd k) ds (p_sd P) ps) in R2 by auto.
      split; [|exact E]. cbn [fwdL]. eapply red_map; [| | | | | |exact R2]; intros; reflexivity.
    - destruct K3 as (q & r & R1 & R2 & E). rewrite EC in R1. inversion R1; subst q.
      rewrite (symValD O (a_sd m) ds ds (w_sd w) (k_sd k) ds (p_sd P) ps) in R2 by auto.
      exists r. split; [|exact E]. cbn [fwdL]. rewrite <- (filter_nzb_cols (b_sp (k_sd k))) in R2.
      eapply red_map; [| | | | | |exact R2]; intros; reflexivity.
  Qed.

  Lemma chain_tri0 i : i < dt -> chainRow (GT 0 i).
  Proof.
    intros Hi. destruct AR as [[_ A2 _ _] _].
    pose proof (kernel_reds O mt _ _ _ _ _ _ _ _ _ _ _ _ _ A2 i Hi) as (s21 & s22 & K).
    pose proof IA as [Jsd Jsn Jso _ Jtd _ Jts Jlp Jld Jln _ Jos Jod].
    pose proof AG as [Gsd Gsn Gso Gtd Gts Glp Gld Gln Gos God].
    eapply (chain2 GS (GT 0) _ _ _ _ _ _ _ _ _ _ _ _ _ _ (fun h => match h with GS x => s21 x | GT _ x => s22 x | _ => o0 O end)); [| |exact K| | | | | | | | | | | | | | | |]; try (intros; reflexivity).
    - intros j. cbn [symArrow Nat.eqb permFun matFun f_sn].
      symmetry. eapply rectVal; eauto.
    - intros j. cbn [symArrow Nat.eqb permFun matFun f_td].
      symmetry. eapply symVal; eauto. apply Jtd. lia.
    - cbn [symArrow Nat.eqb permFun matFun f_td].
      symmetry. eapply symValD; eauto. apply Jtd. lia.
  Qed.

  Lemma chain_tri t i : t < n -> i < dt -> chainRow (GT (t + 1) i).
  Proof.
    intros Ht Hi. destruct AR as [[_ _ A3 _] _].
    pose proof (kernel_reds O mt _ _ _ _ _ _ _ _ _ _ _ _ _ (A3 t Ht) i Hi) as (s21 & s22 & K).
    pose proof IA as [Jsd Jsn Jso _ Jtd _ Jts Jlp Jld Jln _ Jos Jod].
    pose proof AG as [Gsd Gsn Gso Gtd Gts Glp Gld Gln Gos God].
    eapply (chain2 (GT t) (GT (t + 1)) _ _ _ _ _ _ _ _ _ _ _ _ _ _ (fun h => match h with GT u x => if u =? t then s21 x else s22 x | _ => o0 O end)); [| |exact K| | | | | | | | | | | | | | | |]; try (intros; reflexivity).
    - cbn [fwdL]. rewrite Nat.add_1_r at 1. auto.
    - intros. cbn. rewrite Nat.eqb_refl. auto.
    - intros. cbn. destruct (Nat.eqb_spec (t + 1) t); [lia|auto].
    - intros; apply rowb_tt.
    - intros; apply rowb_st.
    - intros; apply rowb_ts.
    - intros; apply rowb_tt.
    - intros; apply low_tt.
    - intros; apply low_ts.
    - intros; apply low_tt.
    - intros j. cbn [symArrow permFun matFun f_ts].
      destruct (Nat.eqb_spec (t + 1) t); [lia|]. rewrite Nat.eqb_refl.
      symmetry. eapply rectVal; eauto.
    - intros j. cbn [symArrow permFun matFun f_td]. rewrite Nat.eqb_refl.
      symmetry. eapply symVal; eauto. apply Jtd. lia.
    - cbn [symArrow permFun matFun f_td]. rewrite Nat.eqb_refl.
      symmetry. eapply symValD; eauto. apply Jtd. lia.
  Qed.

  Lemma chain_link i : i < dl -> chainRow (GL i).
  Proof.
    intros Hi. destruct AR as [[_ _ _ A4] _].
    pose proof (kernel_reds O mt _ _ _ _ _ _ _ _ _ _ _ _ _ A4 i Hi) as (s21 & s22 & K).
    pose proof IA as [Jsd Jsn Jso _ Jtd _ Jts Jlp Jld Jln _ Jos Jod].
    pose proof AG as [Gsd Gsn Gso Gtd Gts Glp Gld Gln Gos God].
    eapply (chain2 (GT n) GL _ _ _ _ _ _ _ _ _ _ _ _ _ _ (fun h => match h with GT _ x => s21 x | GL x => s22 x | _ => o0 O end)); [| |exact K| | | | | | | | | | | | | | | |]; try (intros; reflexivity).
    - intros; apply rowb_tt.
    - intros. cbn [rowb]. rewrite Nat.eqb_refl. auto.
    - intros; apply low_tt.
    - intros; apply low_lt.
    - intros j. cbn [symArrow permFun matFun f_lp]. rewrite Nat.eqb_refl.
      symmetry. eapply rectVal; eauto.
    - intros j. symmetry. eapply symVal; eauto.
    - symmetry. eapply symValD; eauto.
  Qed.

  (** the last row: passes over the columns of the blocks one after the other *)
  Lemma red_flat dg SR g h cs (Z : nat -> F) N :
    (forall t, t < N -> reduces O (termR dg SR g h) (Z t) (filter (rowb h) (map (GT t) cs)) (Z (t + 1))) ->
    reduces O (termR dg SR g h) (Z 0)
      (filter (rowb h) (flat_map (fun t => map (GT t) cs) (seq 0 N))) (Z N).
  Proof. intros H. rewrite filter_flat_map. apply reduces_flat. exact H. Qed.

  Lemma chain_outer i : i < dO -> chainRow (GO i).
  Proof.
    intros Hi. destruct AR as [_ (Z & Y & ln & [B1 B2 B3 B4 (sS & B5) B6 (sK & B7) B8])].
    pose proof (goodInput_of O s ds dt dl dO P n m w HD AV IA DA) as GI.
    destruct GI as [Isd Isn Iso Mtd Itd Mts Its Ilp Ild Iln Mos Ios Iod].
    pose proof IA as [Jsd Jsn Jso _ Jtd _ Jts Jlp Jld Jln _ Jos Jod].
    pose proof AG as [Gsd Gsn Gso Gtd Gts Glp Gld Gln Gos God].
    pose proof (part_reds O _ _ _ _ _ _ _ _ _ _ _ _ _ _ _ _ _ _ (B5 i Hi)) as [S1 S2 S3 S4].
    assert (SX : exists sA : nat -> nat -> F, sA n = sK i /\ forall t, t < n -> partReds O (b_sp (k_td k)) (b_sp (k_ts k)) (b_sp (k_os k)) (b_sp (k_os k))
        (b_sp (k_od k)) (f_td (SF d) t) (getD O (tdD t)) (f_ts (SF d) t)
        (get (b_sp (k_os k)) (Y t)) (initL O (Some (nth (t + 1) (a_os m) noMat)) (k_os k) [])
        (get (b_sp (k_od k)) (fst (Z (t + 1)))) (getD O (snd (Z (t + 1)))) i
        (f_os (SF d) t) (get (b_sp (k_os k)) (Y (t + 1))) (get (b_sp (k_od k)) (fst (Z (t + 2))))
        (getD O (snd (Z (t + 2)))) (sA t)).
    { destruct (choice_below (fun _ _ => o0 O) n _ B6) as (sT & B).
      exists (fun t => if t =? n then sK i else sT t i). split; [rewrite Nat.eqb_refl; auto|].
      intros t Ht. destruct (Nat.eqb_spec t n); [lia|].
      exact (part_reds O _ _ _ _ _ _ _ _ _ _ _ _ _ _ _ _ _ _ (B t Ht i Hi)). }
    destruct SX as (sA & EA & TT).
    clear B6.
    pose proof (part_reds O _ _ _ _ _ _ _ _ _ _ _ _ _ _ _ _ _ _ (B7 i Hi)) as BK.
    rewrite <- EA in BK. destruct BK as [K1 K2 K3 K4].
    pose proof (kernel_reds O mt _ _ _ _ _ _ _ _ _ _ _ _ _ B8 i Hi) as (e1 & e2 & [E1 E2 E3]).
    (* division of the blocks t *)
    assert (YT : forall t, t < n + 1 -> forall j, In j (cols (b_sp (k_os k)) i) ->
       reduces O (term O TLeft (f_os (SF d) t i) (f_td (SF d) t j) (sA t) (getD O (tdD t))) (get (b_sp (k_os k)) (Y t) i j)
         (filter (nzb (b_sp (k_td k)) j) (cols (b_sp (k_os k)) i)) (sA t j) /\
       f_os (SF d) t i j = odiv O (sA t j) (getD O (tdD t) j)).
    { intros t Ht j Hj. destruct (Nat.eq_dec t n) as [->|N].
      - exact (K1 j Hj).
      - exact (px_31 _ _ _ _ _ _ _ _ _ _ _ _ _ _ _ _ _ _ _ (TT t ltac:(lia)) j Hj). }
    (* the diagonal block of the outer column *)
    assert (ZT : forall j, In j (cols (b_sp (k_od k)) i) -> forall t, t < n + 1 ->
       reduces O (term O TLeft (f_os (SF d) t i) (f_os (SF d) t j) (sA t) (getD O (tdD t)))
         (get (b_sp (k_od k)) (fst (Z (t + 1))) i j)
         (filter (nzb (b_sp (k_os k)) j) (cols (b_sp (k_os k)) i))
         (get (b_sp (k_od k)) (fst (Z (t + 2))) i j)).
    { intros j Hj t Ht. destruct (Nat.eq_dec t n) as [->|N].
      - exact (K3 j Hj).
      - exact (px_33 _ _ _ _ _ _ _ _ _ _ _ _ _ _ _ _ _ _ _ (TT t ltac:(lia)) j Hj). }
    assert (ZD : forall t, t < n + 1 ->
       reduces O (term O TRight (f_os (SF d) t i) (f_os (SF d) t i) (sA t) (getD O (tdD t)))
         (getD O (snd (Z (t + 1))) i) (cols (b_sp (k_os k)) i) (getD O (snd (Z (t + 2))) i)).
    { intros t Ht. destruct (Nat.eq_dec t n) as [->|N].
      - exact K4.
      - exact (px_D _ _ _ _ _ _ _ _ _ _ _ _ _ _ _ _ _ _ _ (TT t ltac:(lia))). }
    assert (NS : forall h, (forall x, rowb h (GS x) = false) -> forall (l : list nat) x,
      In x (map GS l) -> rowb h x = false).
    { intros h H l x Hx. apply in_map_iff in Hx. destruct Hx as (y & <- & _). auto. }
    assert (NL : forall h, (forall x, rowb h (GL x) = false) -> forall (l : list nat) x,
      In x (map GL l) -> rowb h x = false).
    { intros h H l x Hx. apply in_map_iff in Hx. destruct Hx as (y & <- & _). auto. }
    assert (NO : forall h, (forall x, rowb h (GO x) = false) -> forall (l : list nat) x,
      In x (map GO l) -> rowb h x = false).
    { intros h H l x Hx. apply in_map_iff in Hx. destruct Hx as (y & <- & _). auto. }
    assert (NT : forall h t, (forall x, rowb h (GT t x) = false) -> forall (l : list nat) x,
      In x (map (GT t) l) -> rowb h x = false).
    { intros h t H l x Hx. apply in_map_iff in Hx. destruct Hx as (y & <- & _). auto. }
    assert (OB : forall j t x, t < n + 1 -> rowb (GO j) (GT t x) = nzb (b_sp (k_os k)) j x).
    { intros j t x Ht. cbn [rowb]. destruct (Nat.ltb_spec t (n + 1)); [auto|lia]. }
    set (SR := fun h => match h with GS j => sS i j | GT t j => sA t j | GL j => e1 j | GO j => e2 j end).
    exists SR. split.
    - intros h Hh. cbn [fwdL] in Hh. rewrite !in_app_iff in Hh.
      destruct Hh as [Hh|[Hh|[Hh|Hh]]].
      + apply in_map_iff in Hh. destruct Hh as (j & <- & Hj).
        destruct (S1 j Hj) as (R & E). split; [|exact E]. change (SR (GS j)) with (sS i j). set (r := sS i j) in *.
        cbn [fwdL]. rewrite !filter_app. apply reduces_app with r.
        { cbn [symArrow permFun matFun f_so].
          rewrite (rectVal O (a_so m) dO ds (w_so w) (k_so k) dO ds (p_so P) po ps) in R by auto.
          eapply red_map; [| | | | | |exact R]; intros; reflexivity. }
        apply reduces_app with r.
        { apply (red_flat _ _ _ _ _ (fun _ => r)). intros t Ht. apply red_none, NT. reflexivity. }
        apply reduces_app with r; apply red_none; [apply NL|apply NO]; reflexivity.
      + apply in_flat_map in Hh. destruct Hh as (t & Ht & Hh). apply in_seq in Ht.
        apply in_map_iff in Hh. destruct Hh as (j & <- & Hj).
        destruct (YT t ltac:(lia) j Hj) as (R & E). split; [|exact E]. change (SR (GT t j)) with (sA t j).
        remember (sA t j) as r eqn:Er.
        cbn [fwdL]. rewrite !filter_app.
        assert (LST : reduces O (termR false SR (GO i) (GT t j)) r
           (filter (rowb (GT t j)) (map GL (cols (b_sp (k_ln k)) i)) ++
            filter (rowb (GT t j)) (map GO (cols (b_sp (k_od k)) i))) r).
        { apply reduces_app with r; apply red_none; [apply NL|apply NO]; reflexivity. }
        assert (RT : reduces O (termR false SR (GO i) (GT t j)) (get (b_sp (k_os k)) (Y t) i j)
           (filter (rowb (GT t j)) (map (GT t) (cols (b_sp (k_os k)) i))) r).
        { eapply red_map; [| | | | | |exact R]; intros; try reflexivity; [apply rowb_tt|apply low_tt]. }
        destruct t as [|t].
        * apply reduces_app with (get (b_sp (k_os k)) (Y 0) i j).
          { pose proof (S2 j Hj) as R0. cbn [symArrow permFun matFun f_os].
            rewrite (rectVal O _ dO dt (nth 0 (w_os w) []) (k_os k) dO dt (p_os P) po pt) in R0
              by (auto; apply Jos; lia).
            eapply red_map; [| | | | | |exact R0]; intros; reflexivity. }
          apply reduces_app with r; auto.
          set (Zf := fun u => if u =? 0 then get (b_sp (k_os k)) (Y 0) i j else r).
          replace r with (Zf (n + 1)).
          2: { unfold Zf. destruct (Nat.eqb_spec (n + 1) 0); [lia|auto]. }
          change (get (b_sp (k_os k)) (Y 0) i j) with (Zf 0).
          apply red_flat. intros u Hu. unfold Zf. destruct (Nat.eqb_spec u 0) as [->|Nu].
          -- cbn [Nat.add Nat.eqb]. exact RT.
          -- destruct (Nat.eqb_spec (u + 1) 0); [lia|]. apply red_none, NT. intros x. cbn [rowb].
             destruct (Nat.eqb_spec 0 u); [lia|]. destruct (Nat.eqb_spec 0 (u + 1)); [lia|]. auto.
        * assert (ET : S t = t + 1) by lia. rewrite ET in *.
          apply reduces_app with (A (GO i) (GT (t + 1) j)).
          { apply red_none, NS. intros x. cbn [rowb]. destruct (Nat.eqb_spec (t + 1) 0); [lia|]. auto. }
          apply reduces_app with r; auto.
          pose proof (px_32 _ _ _ _ _ _ _ _ _ _ _ _ _ _ _ _ _ _ _ (TT t ltac:(lia)) j Hj) as R0.
          rewrite (rectVal O _ dO dt (nth (t + 1) (w_os w) []) (k_os k) dO dt (p_os P) po pt) in R0
              by (auto; apply Jos; lia).
          set (Zf := fun u => if u <=? t then A (GO i) (GT (t + 1) j) else
                              if u =? t + 1 then get (b_sp (k_os k)) (Y (t + 1)) i j else r).
          replace r with (Zf (n + 1)).
          2: { unfold Zf. destruct (Nat.leb_spec (n + 1) t); [lia|].
               destruct (Nat.eqb_spec (n + 1) (t + 1)); [lia|auto]. }
          change (A (GO i) (GT (t + 1) j)) with (Zf 0).
          apply red_flat. intros u Hu. unfold Zf.
          destruct (Nat.leb_spec u t).
          -- destruct (Nat.eq_dec u t) as [->|Nu].
             ++ destruct (Nat.leb_spec (t + 1) t); [lia|]. rewrite Nat.eqb_refl.
                eapply red_map; [| | | | | |exact R0]; intros; try reflexivity; [apply rowb_ts|apply low_ts].
             ++ destruct (Nat.leb_spec (u + 1) t); [|lia]. apply red_none, NT. intros x. cbn [rowb].
                destruct (Nat.eqb_spec (t + 1) u); [lia|]. destruct (Nat.eqb_spec (t + 1) (u + 1)); [lia|]. auto.
          -- destruct (Nat.leb_spec (u + 1) t); [lia|]. destruct (Nat.eqb_spec (u + 1) (t + 1)); [lia|].
             destruct (Nat.eqb_spec u (t + 1)) as [->|Nu].
             ++ exact RT.
             ++ apply red_none, NT. intros x. cbn [rowb].
                destruct (Nat.eqb_spec (t + 1) u); [lia|]. destruct (Nat.eqb_spec (t + 1) (u + 1)); [lia|]. auto.
      + apply in_map_iff in Hh. destruct Hh as (j & <- & Hj).
        destruct (E1 j Hj) as (R & E). split; [|exact E]. change (SR (GL j)) with (e1 j). set (r := e1 j) in *.
        cbn [fwdL]. rewrite !filter_app. apply reduces_app with (A (GO i) (GL j)).
        { apply red_none, NS. reflexivity. }
        apply reduces_app with (get (b_sp (k_ln k)) ln i j).
        { pose proof (K2 j Hj) as R0.
          rewrite (rectVal O (a_ln m) dO dl (w_ln w) (k_ln k) dO dl (p_ln P) po pl) in R0 by auto.
          set (Zf := fun u => if u <=? n then A (GO i) (GL j) else get (b_sp (k_ln k)) ln i j).
          replace (get (b_sp (k_ln k)) ln i j) with (Zf (n + 1)).
          2: { unfold Zf. destruct (Nat.leb_spec (n + 1) n); [lia|auto]. }
          change (A (GO i) (GL j)) with (Zf 0).
          apply red_flat. intros u Hu. unfold Zf. destruct (Nat.leb_spec u n); [|lia].
          destruct (Nat.leb_spec (u + 1) n).
          - apply red_none, NT. intros x. cbn [rowb]. destruct (Nat.eqb_spec u n); [lia|auto].
          - replace u with n by lia.
            eapply red_map; [| | | | | |exact R0]; intros; try reflexivity.
            + cbn [rowb]. rewrite Nat.eqb_refl. auto.
            + apply low_lt. }
        apply reduces_app with r.
        { eapply red_map; [| | | | | |exact R]; intros; reflexivity. }
        apply red_none, NO. reflexivity.
      + apply in_map_iff in Hh. destruct Hh as (j & <- & Hj).
        destruct (E2 j Hj) as (q & R1 & R2 & E). split; [|exact E]. change (SR (GO j)) with (e2 j).
        cbn [fwdL]. rewrite !filter_app. apply reduces_app with (get (b_sp (k_od k)) (fst (Z 1)) i j).
        { pose proof (S3 j Hj) as R0. cbn [initL] in R0.
          rewrite (fi_L _ _ _ _ _ B4) in R0 by (apply cols_In; auto).
          rewrite (symVal O (a_od m) dO dO (w_od w) (k_od k) dO (p_od P) po) in R0 by auto.
          eapply red_map; [| | | | | |exact R0]; intros; reflexivity. }
        apply reduces_app with (get (b_sp (k_od k)) (fst (Z (n + 2))) i j).
        { pose proof (red_flat false SR (GO i) (GO j) (cols (b_sp (k_os k)) i)
            (fun t => get (b_sp (k_od k)) (fst (Z (t + 1))) i j) (n + 1)) as RF.
          cbv beta in RF. replace (n + 1 + 1) with (n + 2) in RF by lia. apply RF.
          intros t Ht. replace (t + 1 + 1) with (t + 2) by lia.
          eapply red_map; [| | | | | |exact (ZT j Hj t Ht)]; intros; try reflexivity. auto. }
        apply reduces_app with q.
        { eapply red_map; [| | | | | |exact R1]; intros; reflexivity. }
        eapply red_map; [| | | | | |exact R2]; intros; reflexivity.
    - destruct E3 as (q & r & R1 & R2 & E). exists r. split; [|exact E].
      cbn [fwdL]. rewrite !filter_app. apply reduces_app with (getD O (snd (Z 1)) i).
      { pose proof S4 as R0. cbn [initL] in R0.
        rewrite (fi_D _ _ _ _ _ B4) in R0 by auto.
        rewrite (symValD O (a_od m) dO dO (w_od w) (k_od k) dO (p_od P) po) in R0 by auto.
        rewrite <- (filter_nzb_cols (b_sp (k_so k))) in R0.
        eapply red_map; [| | | | | |exact R0]; intros; reflexivity. }
      apply reduces_app with (getD O (snd (Z (n + 2))) i).
      { pose proof (red_flat true SR (GO i) (GO i) (cols (b_sp (k_os k)) i)
          (fun t => getD O (snd (Z (t + 1))) i) (n + 1)) as RF.
        cbv beta in RF. replace (n + 1 + 1) with (n + 2) in RF by lia. apply RF.
        intros t Ht. replace (t + 1 + 1) with (t + 2) by lia.
        pose proof (ZD t Ht) as R0. rewrite <- (filter_nzb_cols (b_sp (k_os k))) in R0.
        eapply red_map; [| | | | | |exact R0]; intros; try reflexivity. auto. }
      rewrite <- (filter_nzb_cols (b_sp (k_ln k))) in R1. rewrite <- (filter_nzb_cols (b_sp (k_od k))) in R2.
      apply reduces_app with q.
      { eapply red_map; [| | | | | |exact R1]; intros; reflexivity. }
      eapply red_map; [| | | | | |exact R2]; intros; reflexivity.
  Qed.

  Lemma chain_all g : In g all -> chainRow g.
  Proof.
    rewrite in_allIdx. destruct g as [i|t i|i|i]; intros H.
    - apply chain_start; auto.
    - destruct t as [|t].
      + apply chain_tri0. tauto.
      + rewrite <- Nat.add_1_r. apply chain_tri; [lia|tauto].
    - apply chain_link; auto.
    - apply chain_outer; auto.
  Qed.

  Lemma arrow_chainedF :
    exists S, chainedF O gidx_eq_dec all row (arrowForm mt) A LA S PD (fun v g => reg v (localIdx g)).
  Proof.
    destruct (choice_list gidx_eq_dec (fun _ => o0 O) all _ chain_all) as (S & C).
    exists S. constructor.
    - intros g h Hg Hh. rewrite arrow_common. apply (proj1 (C g Hg)). auto.
    - intros g Hg. destruct (proj2 (C g Hg)) as (r & R & E). exists r. split; auto.
      rewrite filter_self in R. auto.
  Qed.

  Lemma arrow_chainedS :
    exists S, chainedS O gidx_eq_dec all row A LA S PD (fun v g => reg v (localIdx g)).
  Proof. destruct arrow_chainedF as (S & C). exists S. eapply chainedF_S; eauto. Qed.

  Lemma arrow_chained : chained O gidx_eq_dec all row A LA PD (fun v g => reg v (localIdx g)).
  Proof. destruct arrow_chainedS as (S & C). eapply chainedS_chained; eauto. Qed.
  End Reds.
End Arrow.
