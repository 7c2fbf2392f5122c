(** The results depend neither on the declared sparsity nor on explicitly stored zeros. *)
From Coq Require Import Lia List Arith Bool Permutation Sorted.
From Verif Require Import Base ModelPerm ModelSparsity ModelSymbolic ModelNumeric ModelArrow ModelReg.
From Verif Require Import SpecSymbolic SpecArrow SpecNumeric SpecArrowNum SpecPivot SpecAgree.
From Verif Require Import ProofBase ProofPerm ProofCsr ProofFill ProofDense ProofExact ProofLdl ProofKernel ProofSolve
  ProofSingle ProofSingleMain ProofArrowSym ProofArrowRows ProofArrowDense ProofArrowProduct ProofArrowSolve ProofArrowMain
  ProofArrowSub ProofChain ProofChainKernel ProofChainArrow ProofRoundMain ProofRoundUser ProofRoundTri
  ProofPropSymbolic ProofPropArrow ProofPropPivot ProofSign ProofPropSign ProofAgree.
Import ListNotations.
Local Open Scope nat_scope.

(** ** sorted lists *)
Section Sort.
  Context {I : Type} (dec : forall a b : I, {a = b} + {a <> b}) (lt : I -> I -> Prop).
  Hypothesis IRR : forall a, ~ lt a a.
  Hypothesis TR : forall a b c, lt a b -> lt b c -> lt a c.

  Lemma sorted_same l1 l2 : StronglySorted lt l1 -> StronglySorted lt l2 ->
    (forall x, In x l1 <-> In x l2) -> l1 = l2.
  Proof.
    revert l2. induction l1 as [|a l1 IH]; intros [|b l2] S1 S2 H; auto.
    - destruct (proj2 (H b) (or_introl eq_refl)).
    - destruct (proj1 (H a) (or_introl eq_refl)).
    - apply StronglySorted_inv in S1, S2. destruct S1 as [S1 F1], S2 as [S2 F2].
      rewrite Forall_forall in F1, F2.
      assert (E : a = b).
      { destruct (proj1 (H a) (or_introl eq_refl)) as [E|E]; auto.
        destruct (proj2 (H b) (or_introl eq_refl)) as [E'|E']; auto.
        exfalso. apply (IRR a). apply TR with b; auto. }
      subst b. f_equal. apply IH; auto. intros x. specialize (H x). cbn [In] in H.
      split; intros Hx.
      + destruct (proj1 H (or_intror Hx)) as [<-|Hy]; auto. exfalso. apply (IRR a). auto.
      + destruct (proj2 H (or_intror Hx)) as [<-|Hy]; auto. exfalso. apply (IRR a). auto.
  Qed.

  Lemma sorted_filter (f : I -> bool) l : StronglySorted lt l -> StronglySorted lt (filter f l).
  Proof. apply filter_StronglySorted. Qed.

  Lemma sorted_sub l' l : StronglySorted lt l' -> StronglySorted lt l ->
    (forall x, In x l' -> In x l) -> l' = filter (fun k => memI dec k l') l.
  Proof.
    intros S' S H. apply sorted_same; auto using sorted_filter. intros x.
    rewrite filter_In, memI_In. firstorder.
  Qed.
End Sort.

Lemma seq_sorted a n : StronglySorted lt (seq a n).
Proof.
  revert a. induction n as [|n IH]; intros a; cbn [seq]; constructor; auto.
  apply Forall_forall. intros x Hx. apply in_seq in Hx. lia.
Qed.

Lemma rev_sorted {I} (lt : I -> I -> Prop) l :
  StronglySorted lt l -> StronglySorted (fun a b => lt b a) (rev l).
Proof.
  induction 1 as [|a l S IH F]; cbn [rev]; [constructor|].
  apply StronglySorted_app; auto.
  - constructor; constructor.
  - intros x y Hx [<-|[]]. rewrite Forall_forall in F. apply F, in_rev; auto.
Qed.
Lemma rev_seq_sorted n : StronglySorted gt (rev (seq 0 n)).
Proof. apply (rev_sorted lt), seq_sorted. Qed.

Lemma filter_sub {I} (dec : forall a b : I, {a = b} + {a <> b}) (f : I -> bool) l :
  filter f l = filter (fun k => memI dec k (filter f l)) l.
Proof.
  apply filter_ext_in'. intros k Hk. destruct (f k) eqn:E.
  - symmetry. apply memI_In, filter_In. auto.
  - symmetry. destruct (memI dec k (filter f l)) eqn:M; auto. apply memI_In, filter_In in M. destruct M. congruence.
Qed.

Section User.
  Context {F : Type} (O : ops F) (fin : F -> Prop) (same : F -> F -> Prop).
  Context (R : sameRules O fin same).

  Lemma single_goodRun b n RP p m sp vals L0 D0 L D mt reg :
    goodBlk b n n RP p p true -> (forall i j, RP i j -> j < i) -> closedPattern RP ->
    inputOf O m sp vals -> spOf sp n n -> (forall i j, permLow (entries sp) n p i j -> RP i j) ->
    length L0 = c_nnz (b_sp b) -> length D0 = n ->
    factorize O mt b (Some m) reg (L0, D0) = Ok (L, D) ->
    goodRun O Nat.eq_dec (seq 0 n) (fun g => seq 0 g) (cols (b_sp b))
      (fun i j => symAt O (entries sp) vals (nth i p 0) (nth j p 0)) (getL O (b_sp b) L).
  Proof.
    intros G Low Cl HI HS HC N1 N2 EF.
    pose proof (ProofChainKernel.single_rows O b n RP p m sp vals L0 D0 L G Low Cl HI HS HC N1 N2) as RG.
    assert (LT : forall i j, In j (cols (b_sp b) i) -> j < i).
    { intros i j H. apply cols_In, (gb_in _ _ _ _ _ _ _ G), Low in H. auto. }
    constructor.
    - intros g Hg. apply (sorted_sub Nat.eq_dec lt); auto using Nat.lt_irrefl, seq_sorted.
      + intros; lia.
      + apply (gb_sorted _ _ _ _ _ _ _ G).
      + intros x Hx. apply LT in Hx. apply in_seq. lia.
    - apply RG.
    - intros g h Hg Hh N. apply in_seq in Hh. apply in_seq in Hg. apply (rg_A _ _ _ _ _ RG); auto.
      + apply in_seq. lia.
      + apply in_seq. lia.
      + lia.
      + intros H. apply LT in H. lia.
    - intros g h x Hg Hh H1 H2. apply in_seq in Hh. apply in_seq in Hg.
      destruct (rg_closed _ _ _ _ _ RG g h x) as [H|H]; auto.
      + apply in_seq. lia.
      + apply in_seq. lia.
      + lia.
      + apply LT in H. lia.
  Qed.

  Lemma single_agree s1 s2 n p b1 b2 :
    spOf s1 n n -> spOf s2 n n -> validPerm n p ->
    factorizationBlk s1 p = Ok b1 -> factorizationBlk s2 p = Ok b2 ->
    forall mt reg a1 vals1 m1 a2 vals2 m2 L01 D01 L02 D02 L1 D1,
    spOf a1 n n -> inputOf O m1 a1 vals1 -> coveredSym (entries a1) (entries s1) n p ->
    spOf a2 n n -> inputOf O m2 a2 vals2 -> coveredSym (entries a2) (entries s2) n p ->
    (forall i j, i < n -> j < n ->
       agree same (symAt O (entries a1) vals1 i j) (symAt O (entries a2) vals2 i j)) ->
    regSame fin same reg ->
    length L01 = c_nnz (b_sp b1) -> length D01 = n ->
    length L02 = c_nnz (b_sp b2) -> length D02 = n ->
    factorize O mt b1 (Some m1) reg (L01, D01) = Ok (L1, D1) ->
    (forall i, i < n -> fin (vecAt O D1 i) /\ ~ same (vecAt O D1 i) (o0 O)) ->
    (forall i j, i < n -> j < n -> fin (denseAt O (c_entries (b_sp b1)) L1 i j)) ->
    exists L2 D2, factorize O mt b2 (Some m2) reg (L02, D02) = Ok (L2, D2) /\
      (forall i, i < n -> same (vecAt O D1 i) (vecAt O D2 i)) /\
      (forall i j, i < n -> j < n ->
         same (denseAt O (c_entries (b_sp b1)) L1 i j) (denseAt O (c_entries (b_sp b2)) L2 i j)) /\
      forall rhs, length rhs = n ->
      exists x1 x2, solveInPlace O b1 (L1, D1) rhs = Ok x1 /\ solveInPlace O b2 (L2, D2) rhs = Ok x2 /\
        length x1 = n /\ length x2 = n /\
        ((forall i, i < n -> fin (vecAt O x1 i)) -> forall i, i < n -> same (vecAt O x1 i) (vecAt O x2 i)).
  Proof.
    intros HS1 HS2 HP HB1 HB2 mt reg a1 vals1 m1 a2 vals2 m2 L01 D01 L02 D02 L1 D1 HA1 HI1 HC1 HA2 HI2 HC2
      AG RS N1 N1' N2 N2' EF1 FD FL.
    pose proof (blk_good s1 n p b1 HS1 HP HB1) as G1. pose proof (blk_low s1 n p) as Low1.
    pose proof (blk_good s2 n p b2 HS2 HP HB2) as G2. pose proof (blk_low s2 n p) as Low2.
    destruct (factor_len O s1 n p b1 HS1 HP HB1 mt a1 vals1 m1 reg L01 D01 L1 D1 HA1 HI1 HC1 N1 N1' EF1) as [NL1 ND1].
    destruct (factorize_ok O mt b2 n _ p m2 a2 vals2 reg L02 D02 G2 Low2 (Fill_closed _) HI2 HA2 HC2 N2 N2')
      as (L2 & D2 & EF2 & NL2 & ND2 & _).
    exists L2, D2. split; auto.
    pose proof (validPerm_isPerm _ _ HP) as IP.
    assert (PB : forall i, i < n -> nth i p 0 < n) by (intros; eapply isPerm_lt; eauto).
    destruct (single_chainedF O mt b1 n _ p m1 a1 vals1 reg L01 D01 L1 D1 G1 Low1 (Fill_closed _) HI1 HA1 HC1 N1 N1' EF1)
      as (S1 & C1).
    destruct (single_chainedF O mt b2 n _ p m2 a2 vals2 reg L02 D02 L2 D2 G2 Low2 (Fill_closed _) HI2 HA2 HC2 N2 N2' EF2)
      as (S2 & C2).
    pose proof (single_goodRun b1 n _ p m1 a1 vals1 L01 D01 L1 D1 mt reg G1 Low1 (Fill_closed _) HI1 HA1 HC1 N1 N1' EF1) as R1.
    pose proof (single_goodRun b2 n _ p m2 a2 vals2 L02 D02 L2 D2 mt reg G2 Low2 (Fill_closed _) HI2 HA2 HC2 N2 N2' EF2) as R2.
    assert (BR : forall g k, In g (seq 0 n) -> In k (seq 0 g) -> In k (seq 0 n) /\ k < g).
    { intros g k Hg Hk. apply in_seq in Hg. apply in_seq in Hk. rewrite in_seq. lia. }
    assert (FN : finRun O fin same (seq 0 n) (cols (b_sp b1)) (getL O (b_sp b1) L1) (getD O D1)).
    { intros g Hg. apply in_seq in Hg. destruct (FD g ltac:(lia)) as [X1 X2]. split; auto. split; auto.
      intros h Hh. rewrite (getL_dense O) by auto. apply FL; [lia|].
      apply cols_In, (gb_in _ _ _ _ _ _ _ G1), Low1 in Hh. lia. }
    assert (HA : forall g h, In g (seq 0 n) -> h = g \/ In h (seq 0 g) ->
      agree same (symAt O (entries a1) vals1 (nth g p 0) (nth h p 0)) (symAt O (entries a2) vals2 (nth g p 0) (nth h p 0))).
    { intros g h Hg Hh. apply in_seq in Hg. rewrite in_seq in Hh. apply AG; apply PB; lia. }
    assert (RG : forall g v, In g (seq 0 n) -> (fin (reg v g) -> fin v) /\
      forall v', same v v' -> fin (reg v g) -> same (reg v g) (reg v' g)) by (intros; apply RS).
    destruct (runs_same O fin same R Nat.eq_dec (seq 0 n) (fun g => seq 0 g) (fun i => i) BR
      _ reg _ _ _ _ _ S1 _ S2 _ _ R1 R2 C1 C2 FN HA RG) as [SD SL].
    split; [intros i Hi; apply SD, in_seq; lia|]. split.
    { intros i j Hi Hj. rewrite <- !(getL_dense O) by auto. apply SL; apply in_seq; lia. }
    intros rhs NR.
    destruct (single_solve_eqs O b1 n _ p L1 D1 rhs G1 Low1 NL1 ND1 NR) as (y1 & z1 & x1 & E1 & Nx1 & FE1 & DE1 & BE1).
    destruct (single_solve_eqs O b2 n _ p L2 D2 rhs G2 Low2 NL2 ND2 NR) as (y2 & z2 & x2 & E2 & Nx2 & FE2 & DE2 & BE2).
    exists x1, x2. repeat (split; auto). intros FX i Hi.
    destruct (isPerm_surj n p i IP Hi) as (i' & Hi' & <-).
    set (bigc := fun g => filter (fun k => g <? k) (rev (seq 0 n))).
    assert (KC : forall b RP, goodBlk b n n RP p p true -> (forall i j, RP i j -> j < i) ->
      forall g, rowsOf (b_sp b) n g = filter (fun k => memI Nat.eq_dec k (rowsOf (b_sp b) n g)) (bigc g)).
    { intros b RP G Low g. apply (sorted_sub Nat.eq_dec gt).
      - intros; lia.
      - intros; lia.
      - apply filter_StronglySorted, rev_seq_sorted.
      - apply filter_StronglySorted, rev_seq_sorted.
      - intros x Hx. apply rowsOf_In in Hx. destruct Hx as [Hx Hin].
        apply (gb_in _ _ _ _ _ _ _ G), Low in Hin. unfold bigc. rewrite filter_In, <- in_rev, in_seq, Nat.ltb_lt. lia. }
    apply (solves_same O fin same R Nat.eq_dec (seq 0 n) (fun g => seq 0 g) (fun i => i) BR
      _ reg _ _ _ _ _ S1 _ S2 _ _ R1 R2 C1 C2 FN HA RG bigc (rowsOf (b_sp b1) n) (rowsOf (b_sp b2) n))
      with (b := vat O p rhs) (y1 := y1) (z1 := z1) (x1 := vat O p x1) (y2 := y2) (z2 := z2) (x2 := vat O p x2) (top := n);
      auto.
    - intros g k Hg Hk. unfold bigc in Hk. rewrite filter_In, <- in_rev, Nat.ltb_lt in Hk. tauto.
    - intros g Hg. eapply KC; eauto.
    - intros g Hg. eapply KC; eauto.
    - apply single_cols.
    - apply single_cols.
    - intros g Hg. apply in_seq in Hg. apply FX. apply PB. lia.
    - intros g Hg. apply in_seq in Hg. lia.
    - apply in_seq. lia.
  Qed.
End User.
