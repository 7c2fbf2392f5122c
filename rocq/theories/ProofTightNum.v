(** Every entry that is filled in is negative if the declared entries are. *)
From Coq Require Import List Arith Lia Bool Permutation.
From Verif Require Import Base ModelPerm ModelSparsity ModelSymbolic ModelNumeric ModelArrow ModelReg.
From Verif Require Import SpecSymbolic SpecArrow SpecNumeric SpecArrowNum SpecPivot SpecInertia SpecSign
  SpecDominant SpecTight.
From Verif Require Import ProofBase ProofPerm ProofCsr ProofFill ProofDense ProofLdl ProofPivot ProofInertia
  ProofSingle ProofSingleMain
  ProofArrowSym ProofArrowRows ProofArrowProduct ProofArrowMain ProofArrowSub ProofChain ProofChainKernel
  ProofChainArrow ProofMultiply ProofRoundUser ProofRoundTri ProofPropArrow ProofPropPivot ProofSign ProofPropSign ProofDominant
  ProofPropDominant ProofTight.
Import ListNotations.
Local Open Scope nat_scope.

(** ** Everything filled in is stored *)
Section Cover.
  Variables (s : arrow_sp) (ds dt dl dO n : nat) (k : arrow_blks) (P : arrow_pats).
  Hypothesis HD : arrowDims s ds dt dl dO.
  Hypothesis AG : arrowGood s ds dt dl dO k P.
  Hypothesis AC : arrowChordal P.
  Hypothesis AV : arrowCovers s ds dt dl dO P.
  Local Notation all := (allIdx n ds dt dl dO).

  Lemma sym_low es d p i j : i < d -> j < i ->
    (nth j p 0 < nth i p 0 /\ In (nth i p 0, nth j p 0) es) \/
    (nth i p 0 < nth j p 0 /\ In (nth j p 0, nth i p 0) es) -> permLow es d p i j.
  Proof.
    intros Hi Hj H. split; auto. split; auto. destruct H as [[L H]|[L H]].
    - rewrite Nat.max_l, Nat.min_r by lia. auto.
    - rewrite Nat.max_r, Nat.min_l by lia. auto.
  Qed.

  Lemma linked_row g h : In g all -> In h all -> gbefore h g ->
    linked s n (permIdx s g) (permIdx s h) -> rowP P n g h.
  Proof.
    destruct AV as [V1 V2 V3 V4 V5 V6 V7 V8 V9 V10].
    rewrite !in_allIdx. unfold linked.
    destruct g as [i|t i|i|i], h as [j|u j|j|j]; cbn [permIdx declaredAt gbefore rowP];
      intros Hg Hh HB HL; try tauto.
    - apply V1. apply sym_low; auto.
    - destruct HL as [[-> HL]|[]]. split; auto. apply V2. repeat split; auto. lia.
    - destruct HL as [(Ht & HL)|(Hu & HL)].
      + destruct HL as [(-> & L & HL)|(-> & HL)].
        * left. split; auto. apply V4, sym_low; try lia. auto.
        * right. split; auto. apply V5. repeat split; auto; lia.
      + destruct HL as [(-> & L & HL)|(-> & HL)]; [|lia].
        left. split; auto. apply V4, sym_low; try lia. auto.
    - destruct HL as [[-> HL]|[]]. split; auto. apply V6. repeat split; auto. lia.
    - apply V7, sym_low; auto.
    - destruct HL as [HL|[]]. apply V3. repeat split; auto.
    - destruct HL as [[_ HL]|[]]. split; [lia|]. apply V9. repeat split; auto. lia.
    - destruct HL as [HL|[]]. apply V8. repeat split; auto.
    - apply V10, sym_low; auto.
  Qed.

  Lemma gbefore_asym g h : gbefore g h -> ~ gbefore h g.
  Proof. destruct g, h; cbn [gbefore]; try tauto; lia. Qed.
  Lemma gbefore_irr g : ~ gbefore g g.
  Proof. destruct g; cbn [gbefore]; try tauto; lia. Qed.

  Lemma row_before g h : In g all -> In h (fwdL k n g) -> gbefore h g.
  Proof.
    intros Hg Hh. pose proof (arrow_rank s ds dt dl dO k P n g h AG AC Hg Hh) as [Hha Lt].
    revert Hg Hha Lt Hh.
    rewrite (row_pat s ds dt dl dO k P AG). rewrite !in_allIdx.
    destruct g as [i|t i|i|i], h as [j|u j|j|j]; cbn [rank gbefore rowP]; intros; try tauto; try lia.
  Qed.

  Lemma row_elim g h x : In g all -> In h all -> gbefore h g ->
    In x (fwdL k n g) -> In x (fwdL k n h) -> In h (fwdL k n g).
  Proof.
    intros Hg Hh HB. rewrite !(row_pat s ds dt dl dO k P AG). intros H1 H2.
    destruct (row_closed ds dt dl dO P AC n g h x) as [H|H]; auto.
    - intros ->. exact (gbefore_irr _ HB).
    - exfalso. apply (row_pat s ds dt dl dO k P AG) in H. apply row_before in H; auto.
      exact (gbefore_asym _ _ HB H).
  Qed.

  Lemma fill_row g h : arrowFill s n ds dt dl dO g h ->
    In g all /\ In h all /\ gbefore h g /\ In h (fwdL k n g).
  Proof.
    induction 1 as [g h (Hg & Hh & HL) HB|g h x _ (Hg & _ & _ & IH1) _ (Hh & _ & _ & IH2) B1 B2].
    - repeat split; auto. apply (row_pat s ds dt dl dO k P AG), linked_row; auto.
    - repeat split; auto. eapply row_elim; eauto.
  Qed.

  Lemma stored_row g h : storedAt k n g h <-> In g all /\ In h (fwdL k n g).
  Proof.
    pose proof AG as [Gsd Gsn Gso Gtd Gts Glp Gld Gln Gos God].
    rewrite (row_pat s ds dt dl dO k P AG), in_allIdx. unfold storedAt.
    destruct g as [i|t i|i|i], h as [j|u j|j|j]; cbn [rowP];
      rewrite ?(gb_in _ _ _ _ _ _ _ Gsd), ?(gb_in _ _ _ _ _ _ _ Gsn), ?(gb_in _ _ _ _ _ _ _ Gso),
        ?(gb_in _ _ _ _ _ _ _ Gtd), ?(gb_in _ _ _ _ _ _ _ Gts),
        ?(gb_in _ _ _ _ _ _ _ Glp), ?(gb_in _ _ _ _ _ _ _ Gld),
        ?(gb_in _ _ _ _ _ _ _ Gln), ?(gb_in _ _ _ _ _ _ _ Gos), ?(gb_in _ _ _ _ _ _ _ God);
      split; try tauto.
    - intros H. pose proof (gb_bound _ _ _ _ _ _ _ Gsd _ _ H). tauto.
    - intros [-> H]. pose proof (gb_bound _ _ _ _ _ _ _ Gsn _ _ H). split; auto. split; [lia|tauto].
    - intros [Ht [[-> H]|[-> H]]].
      + pose proof (gb_bound _ _ _ _ _ _ _ Gtd _ _ H). tauto.
      + pose proof (gb_bound _ _ _ _ _ _ _ Gts _ _ H). tauto.
    - intros [-> H]. pose proof (gb_bound _ _ _ _ _ _ _ Glp _ _ H). tauto.
    - intros H. pose proof (gb_bound _ _ _ _ _ _ _ Gld _ _ H). tauto.
    - intros H. pose proof (gb_bound _ _ _ _ _ _ _ Gso _ _ H). tauto.
    - intros [Ht H]. pose proof (gb_bound _ _ _ _ _ _ _ Gos _ _ H). tauto.
    - intros H. pose proof (gb_bound _ _ _ _ _ _ _ Gln _ _ H). tauto.
    - intros H. pose proof (gb_bound _ _ _ _ _ _ _ God _ _ H). tauto.
  Qed.
End Cover.

(** the stored pattern contains what is filled in *)
Theorem arrow_covers_fill s ds dt dl dO : arrowDims s ds dt dl dO ->
  exists k, arrowBlocks s = Ok k /\
    forall n g h, arrowFill s n ds dt dl dO g h -> storedAt k n g h.
Proof.
  intros HD. destruct (arrowBlocks_ok s ds dt dl dO HD) as (k & P & EK & AG & AC & AV).
  exists k. split; auto. intros n g h H.
  apply (fill_row s ds dt dl dO n k P AG AC AV) in H. apply (stored_row s ds dt dl dO n k P AG). tauto.
Qed.

Theorem arrow_pattern s dt dl dO : arrowDims s 0 dt dl dO ->
  exists k k0, arrowBlocks s = Ok k /\
    forall n g h, k0 <= n -> fromBlock k0 h ->
      storedAt k n g h <-> arrowFill s n 0 dt dl dO g h.
Proof.
  intros HD. destruct (arrow_tight s dt dl dO HD) as (k & k0 & EK & H).
  destruct (arrow_covers_fill s 0 dt dl dO HD) as (k' & EK' & H').
  rewrite EK in EK'. injection EK' as <-. exists k, k0. split; auto.
  intros n g h Hn Hf. split; auto.
Qed.

Section Strict.
  Context {F : Type} (O : ops F) (FL : fieldLaws O) (OL : ordLaws FL).
  Local Notation "0" := (o0 O) : scalar.
  Local Notation "1" := (fl_one FL) : scalar.
  Local Notation "a + b" := (oadd O a b) : scalar.
  Local Notation "a - b" := (osub O a b) : scalar.
  Local Notation "a * b" := (omul O a b) : scalar.
  Local Notation "a / b" := (odiv O a b) : scalar.
  Local Notation opp := (fl_opp FL).
  Local Notation pos := (ol_pos OL).
  Local Notation neg := (fun a => ol_pos OL (fl_opp FL a)).
  Add Ring FrTight : (fl_ring FL).

  Lemma reduces_neg {J} (T : J -> F -> Prop) a l r :
    reduces O T a l r -> atMost0 OL a ->
    (forall k x, In k l -> T k x -> atLeast0 OL x) ->
    (neg a \/ exists k, In k l /\ forall x, T k x -> pos x) -> neg r.
  Proof.
    induction 1 as [|a k l x r Hx R IH]; intros Ha HT HN.
    - destruct HN as [H|(k & [] & _)]. auto.
    - assert (Pm : forall b, atMost0 OL b -> pos x -> neg (b - x)%s).
      { intros b [->|Hb] Px; cbn beta.
        - replace (opp (0 - x))%s with x by ring. auto.
        - replace (opp (b - x))%s with (opp b + x)%s by ring. apply ol_add; auto. }
      apply IH.
      + destruct (HT k x (or_introl eq_refl) Hx) as [->|Px].
        * replace (a - 0)%s with a by ring. auto.
        * right. apply Pm; auto.
      + intros k' x' Hk'. apply HT. right; auto.
      + destruct HN as [Na|(k' & [<-|Hk] & HP)].
        * left. destruct (HT k x (or_introl eq_refl) Hx) as [->|Px].
          -- replace (a - 0)%s with a by ring. auto.
          -- apply Pm; auto.
        * left. apply Pm; auto.
        * right. exists k'. auto.
  Qed.

  Lemma neg_mul a b : neg a -> neg b -> pos (a * b)%s.
  Proof. cbn beta. intros. replace (a * b)%s with (opp a * opp b)%s by ring. apply ol_mul; auto. Qed.
  Lemma neg_div a b : neg a -> pos b -> neg (a / b)%s.
  Proof.
    cbn beta. intros Ha Hb. assert (N : b <> 0%s) by (apply (pos_nonzero O FL OL); auto).
    replace (a / b)%s with (a * (fl_one FL / b))%s.
    - replace (opp (a * (1 / b)))%s with (opp a * (1 / b))%s by ring. apply ol_mul; auto.
      apply (inv_pos OL); auto.
    - symmetry. apply (div_eq O FL); auto. transitivity (a * (1 / b * b))%s; [|ring].
      rewrite (fl_div FL) by auto. ring.
  Qed.

  Section Generic.
  Context {I : Type} (dec : forall a b : I, {a = b} + {a <> b}).
  Variables (all : list I) (row : I -> list I) (rank : I -> nat) (before B : I -> I -> Prop).
  Hypothesis RK : forall g h, In g all -> In h (row g) -> In h all /\ rank h < rank g.
  Variables (A L S : I -> I -> F) (D : I -> F) (reg : F -> I -> F).
  Hypothesis CH : chainedS O dec all row A L S D reg.
  Hypothesis HA : forall g h, In g all -> In h (row g) -> atMost0 OL (A g h).
  Hypothesis HD : forall g, In g all -> pos (D g).
  Hypothesis HB : forall g h, B g h -> before h g -> In g all /\ In h (row g) /\ neg (A g h).
  Hypothesis HC : forall g h k, In g all -> In h all -> before h g ->
    In k (row g) -> In k (row h) -> In h (row g).

  Lemma fill_neg g h : fillOf before B g h ->
    In g all /\ In h (row g) /\ neg (S g h) /\ neg (L g h).
  Proof.
    assert (NP : forall g h, In g all -> In h (row g) -> atMost0 OL (S g h) /\ atMost0 OL (L g h)).
    { intros x y Hx Hy. destruct (entry_nonpos O _ _ _ _ (field_signs OL) dec all row rank RK A L S D reg CH HA
        (fun g Hg => conj Logic.I (HD g Hg)) x y Hx Hy) as [H1 H2]. auto. }
    assert (TN : forall g h k x, In g all -> In h (row g) -> In k (common dec row g h) ->
      isTermS O L S D g h k x -> atLeast0 OL x).
    { intros x y z v Hx Hy Hz Hv. apply common_In in Hz. destruct Hz as [Hzx Hzy].
      destruct (RK x y Hx Hy) as [Hya _]. destruct (RK y z Hya Hzy) as [Hza _].
      destruct (NP x z Hx Hzx) as [N1 N2]. destruct (NP y z Hya Hzy) as [_ N3].
      pose proof (HD z Hza) as PD.
      assert (M : forall a b, atMost0 OL a -> atMost0 OL b -> atLeast0 OL (a * b)%s).
      { intros a b. rewrite !(atMost_opp OL). intros. replace (a * b)%s with (opp a * opp b)%s by ring.
        apply mul_nonneg; auto. }
      destruct Hv as [->|[->| ->]]; auto. apply mul_nonneg; auto. right; auto. }
    induction 1 as [g h HBs HBf|g h k H1 IH1 H2 IH2 B1 B2].
    - destruct (HB g h HBs HBf) as (Hg & Hh & NA). destruct (RK g h Hg Hh) as [Hha _].
      destruct (cs_row _ _ _ _ _ _ _ _ _ CH g h Hg Hh) as [R E].
      assert (NS : neg (S g h)).
      { apply (reduces_neg _ _ _ _ R); auto. intros k x Hk. apply TN; auto. }
      repeat split; auto. rewrite E. apply neg_div; auto.
    - destruct IH1 as (Hg & Hk1 & S1 & L1), IH2 as (Hh & Hk2 & S2 & L2).
      assert (Hr : In h (row g)) by (eapply HC; eauto).
      destruct (cs_row _ _ _ _ _ _ _ _ _ CH g h Hg Hr) as [R E].
      assert (NS : neg (S g h)).
      { apply (reduces_neg _ _ _ _ R); auto; [intros k' x Hk'; apply TN; auto|].
        right. exists k. split; [apply common_In; auto|]. destruct (RK h k Hh Hk2) as [Hka _].
        intros x [->|[->| ->]]; [apply ol_mul; [apply neg_mul; auto|auto]|apply neg_mul; auto|apply neg_mul; auto]. }
      repeat split; auto. rewrite E. apply neg_div; auto.
  Qed.
  End Generic.

  Lemma single_tight mt s n p a vals m :
    spOf s n n -> validPerm n p ->
    spOf a n n -> inputOf O m a vals -> coveredSym (entries a) (entries s) n p ->
    posDef OL (seq 0 n) (symAt O (entries a) vals) ->
    (forall i j, i < n -> j < n -> i <> j -> atMost0 OL (symAt O (entries a) vals i j)) ->
    (forall i j, j < i -> In (i, j) (entries s) -> neg (symAt O (entries a) vals i j)) ->
    exists b, factorizationBlk s p = Ok b /\
      forall L0 D0, length L0 = c_nnz (b_sp b) -> length D0 = n ->
      exists L D, factorize O mt b (Some m) regularizationNone (L0, D0) = Ok (L, D) /\
        forall i j, In (i, j) (c_entries (b_sp b)) -> neg (denseAt O (c_entries (b_sp b)) L i j).
  Proof.
    intros HS HP HA HI HC PDF NA ND.
    destruct (single_posdef O FL OL mt s n p a vals m HS HP HA HI HC PDF) as (b & EB & H).
    exists b. split; auto. intros L0 D0 N1 N2. destruct (H L0 D0 N1 N2) as (L & D & EF & PD & _ & _).
    exists L, D. split; auto. intros i j Hij.
    pose proof (blk_good s n p b HS HP EB) as G. pose proof (blk_low s n p) as Low.
    destruct (factor_len O s n p b HS HP EB mt a vals m _ L0 D0 L D HA HI HC N1 N2 EF) as [NL NDl].
    pose proof (validPerm_isPerm _ _ HP) as IP.
    assert (PB : forall i, i < n -> nth i p 0 < n) by (intros; eapply isPerm_lt; eauto).
    assert (PI : forall i j, i < n -> j < n -> nth i p 0 = nth j p 0 -> i = j)
      by (intros; eapply isPerm_inj; eauto).
    assert (RK : forall g h, In g (seq 0 n) -> In h (cols (b_sp b) g) -> In h (seq 0 n) /\ h < g).
    { intros g h Hg Hh. apply in_seq in Hg. apply cols_In in Hh. apply (gb_in _ _ _ _ _ _ _ G), Low in Hh.
      split; [apply in_seq; lia|auto]. }
    destruct (single_chainedS O mt b n _ p m a vals _ L0 D0 L D G Low (Fill_closed _) HI HA HC N1 N2 EF)
      as (S & CH).
    rewrite <- (getL_dense O) by auto.
    assert (FE : fillOf lt (permLow (entries s) n p) i j).
    { apply (gb_in _ _ _ _ _ _ _ G) in Hij. clear -Hij.
      induction Hij as [i j H L|i j k H1 IH1 H2 IH2 L1 L2]; [apply fo_base; auto|].
      apply (fo_elim _ _ _ _ k); auto. }
    apply (fill_neg Nat.eq_dec (seq 0 n) (cols (b_sp b)) (fun i => i) lt (permLow (entries s) n p) RK _ _ S _ _ CH);
      auto.
    - intros g h Hg Hh. destruct (RK g h Hg Hh) as [Hh' Lt]. apply in_seq in Hg, Hh'.
      apply NA; [apply PB; lia|apply PB; lia|]. intros E. apply PI in E; lia.
    - intros g Hg. apply in_seq in Hg. apply PD. lia.
    - intros g h (L1 & L2 & HB) _. split; [apply in_seq; lia|].
      split; [apply cols_In, (gb_in _ _ _ _ _ _ _ G), Fill_base; auto; repeat split; auto|].
      unfold symAt. assert (N : nth g p 0 <> nth h p 0) by (intros E; apply PI in E; lia).
      specialize (ND (Nat.max (nth g p 0) (nth h p 0)) (Nat.min (nth g p 0) (nth h p 0)) ltac:(lia) HB). unfold symAt in ND.
      rewrite (Nat.max_l (Nat.max (nth g p 0) (nth h p 0))), (Nat.min_r (Nat.max (nth g p 0) (nth h p 0))) in ND by lia.
      exact ND.
    - intros g h k Hg Hh Lt. rewrite !cols_In, !(gb_in _ _ _ _ _ _ _ G). intros H1 H2.
      pose proof (Low _ _ H2). exact (Fill_closed _ g h k ltac:(lia) Lt H1 H2).
  Qed.

  Lemma arrow_tight_neg mt s ds dt dl dO n m w :
    arrowDims s ds dt dl dO -> inputArrow O n ds dt dl dO m w -> declaredArrow s n m ->
    let all := allIdx n ds dt dl dO in
    posDef OL all (matAt O m w) ->
    (forall g h, In g all -> In h all -> g <> h -> atMost0 OL (matAt O m w g h)) ->
    (forall g h, In g all -> In h all -> declaredAt s n g h -> neg (matAt O m w g h)) ->
    exists k, arrowBlocks s = Ok k /\
      forall d0, dataOf k n ds dt dl dO d0 ->
      exists d, arrowFactorize O mt k m regularizationNone d0 = Ok d /\
        forall g h, arrowFill s n ds dt dl dO g h -> neg (factorAt O 0%s k d g h).
  Proof.
    intros HD IA DA all PDF NA ND.
    destruct (arrow_posdef O FL OL mt s ds dt dl dO n m w HD IA DA PDF) as (k & EK & H).
    exists k. split; auto. intros d0 DO0. destruct (H d0 DO0) as (d & EF & DO & PD & _ & _).
    exists d. split; auto. intros g h HF.
    destruct (ProofRoundUser.arrow_run O s ds dt dl dO k n HD EK mt m w _ d0 d IA DA DO0 EF)
      as (P & AG & AC & AV & _ & AR).
    assert (RK : forall g h, In g all -> In h (fwdL k n g) -> In h all /\ rank n ds dt dl h < rank n ds dt dl g)
      by (intros; apply (arrow_rank s ds dt dl dO k P); auto).
    destruct (arrow_chainedS O s ds dt dl dO k P HD AG AV n m w IA DA mt _ d AR) as (S & CH).
    assert (PIn := permIdx_in s n ds dt dl dO HD).
    assert (PIj := permIdx_inj s n ds dt dl dO HD).
    assert (AM := fun g h => A_mat O s ds dt dl dO n m w IA g h).
    destruct (fill_row s ds dt dl dO n k P AG AC AV g h HF) as (Hg & Hh & HB & _).
    rewrite (factorAt_strict O ds dt dl dO k n) by (auto; intros ->; exact (gbefore_irr _ HB)).
    apply (fill_neg gidx_eq_dec all (fwdL k n) (rank n ds dt dl) gbefore
      (fun g h => In g all /\ In h all /\ linked s n (permIdx s g) (permIdx s h)) RK _ _ S _ _ CH); auto.
    - intros x y Hx Hy. destruct (RK x y Hx Hy) as [Hy' Lt]. rewrite AM.
      apply NA; [apply PIn; auto|apply PIn; auto|]. intros E. apply PIj in E; auto. subst. lia.
    - intros x y (Hx & Hy & HL) HBf. split; auto. split.
      + apply (row_pat s ds dt dl dO k P AG). apply (linked_row s ds dt dl dO n P AV); auto.
      + rewrite AM. destruct HL as [HL|HL]; [|rewrite matAt_sym]; apply ND; auto; apply PIn; auto.
    - intros x y z Hx Hy HBf. apply (row_elim s ds dt dl dO n k P AG AC); auto.
  Qed.

  (** ** A matrix without zeros: minus one at the declared positions, the number of rows on
      the diagonal *)
  Definition valMat (nr nc : nat) (es : list (nat * nat)) (vals : list F) : mat :=
    mkMat (mkSp nr nc es) (fun k => Ok (nth k vals 0%s)).
  Definition lowEntries (es : list (nat * nat)) := filter (fun e => snd e <? fst e) es.
  Definition symEntries (d : nat) (es : list (nat * nat)) := map (fun i => (i, i)) (seq 0%nat d) ++ lowEntries es.
  Definition symVals (v : F) (d : nat) (es : list (nat * nat)) :=
    repeat v d ++ repeat (opp 1%s) (length (lowEntries es)).
  Definition rectVals (es : list (nat * nat)) := repeat (opp 1%s) (length es).

  Lemma valMat_input nr nc es vals : length vals = length es ->
    inputOf O (valMat nr nc es vals) (mkSp nr nc es) vals.
  Proof. intros H. constructor; auto. Qed.
  Lemma valMat_of nr nc es vals : length vals = length es ->
    (forall i j, In (i, j) es -> i < nr /\ j < nc) -> SpecArrowNum.matOf O (valMat nr nc es vals) nr nc vals.
  Proof. intros H B. split; [constructor; auto|]. apply valMat_input; auto. Qed.
  Lemma sym_len v d es : length (symVals v d es) = length (symEntries d es).
  Proof. unfold symVals, symEntries. rewrite !app_length, map_length, seq_length, !repeat_length. auto. Qed.
  Lemma sym_bound d es i j : (forall i j, In (i, j) es -> i < d /\ j < d) ->
    In (i, j) (symEntries d es) -> i < d /\ j < d.
  Proof.
    intros B. unfold symEntries, lowEntries. rewrite in_app_iff, in_map_iff, filter_In.
    intros [(x & E & Hx)|[H _]]; auto. injection E as <- <-. apply in_seq in Hx. lia.
  Qed.

  Lemma dense_const es v i j : denseAt O es (repeat v (length es)) i j = v \/
    denseAt O es (repeat v (length es)) i j = 0%s.
  Proof.
    unfold denseAt. induction es as [|[r c] es IH]; [right; reflexivity|].
    cbn [length repeat combine firstValue]. destruct ((r =? i) && (c =? j)); auto.
  Qed.
  Lemma dense_const_in es v i j : In (i, j) es -> denseAt O es (repeat v (length es)) i j = v.
  Proof.
    unfold denseAt. induction es as [|[r c] es IH]; [intros []|].
    cbn [length repeat combine firstValue In]. intros [E|H].
    - injection E as -> ->. rewrite !Nat.eqb_refl. reflexivity.
    - destruct ((r =? i) && (c =? j)); auto.
  Qed.
  Lemma dense_app es1 es2 v1 v2 i j : length v1 = length es1 ->
    denseAt O (es1 ++ es2) (v1 ++ v2) i j =
    if in_dec pair_eq_dec (i, j) es1 then denseAt O es1 v1 i j else denseAt O es2 v2 i j.
  Proof.
    revert v1. unfold denseAt. induction es1 as [|[r c] es IH]; intros [|x v1] H; try discriminate; [reflexivity|].
    injection H as H. specialize (IH v1 H). cbn [app combine firstValue].
    destruct ((r =? i) && (c =? j)) eqn:E.
    - apply andb_prop in E. destruct E as [E1 E2]. apply Nat.eqb_eq in E1, E2. subst.
      destruct (in_dec pair_eq_dec (i, j) ((i, j) :: es)) as [H'|H']; auto. destruct H'. left; auto.
    - rewrite IH. destruct (in_dec pair_eq_dec (i, j) es) as [H1|H1], (in_dec pair_eq_dec (i, j) ((r, c) :: es)) as [H2|H2]; auto.
      + destruct H2. right; auto.
      + destruct H2 as [H2|H2]; [|tauto]. injection H2 as -> ->. rewrite !Nat.eqb_refl in E. discriminate.
  Qed.

  Lemma sym_diag v d es i : i < d -> symAt O (symEntries d es) (symVals v d es) i i = v.
  Proof.
    intros Hi. unfold symAt, symEntries, symVals. rewrite Nat.max_id, Nat.min_id, dense_app.
    2:{ rewrite repeat_length, map_length, seq_length. auto. }
    assert (Hin : In (i, i) (map (fun i => (i, i)) (seq 0 d))).
    { apply in_map_iff. exists i. split; auto. apply in_seq. lia. }
    destruct (in_dec pair_eq_dec (i, i) _) as [H|H]; [|tauto].
    rewrite <- (seq_length d 0) at 2. rewrite <- (map_length (fun i => (i, i)) (seq 0 d)).
    apply dense_const_in; auto.
  Qed.
  Lemma sym_off v d es i j : i <> j ->
    (symAt O (symEntries d es) (symVals v d es) i j = opp 1%s \/
     symAt O (symEntries d es) (symVals v d es) i j = 0%s) /\
    (In (Nat.max i j, Nat.min i j) es -> symAt O (symEntries d es) (symVals v d es) i j = opp 1%s).
  Proof.
    intros N. unfold symAt, symEntries, symVals. rewrite dense_app.
    2:{ rewrite repeat_length, map_length, seq_length. auto. }
    destruct (in_dec pair_eq_dec _ (map _ _)) as [H|H].
    - apply in_map_iff in H. destruct H as (x & E & _). injection E. lia.
    - split; [apply dense_const|]. intros Hin. apply dense_const_in. unfold lowEntries. apply filter_In.
      split; auto. apply Nat.ltb_lt. cbn [fst snd]. lia.
  Qed.

  Lemma neg_one : neg (opp 1%s).
  Proof. cbn beta. replace (opp (opp 1))%s with 1%s by ring. apply (pos_one O FL OL). Qed.

  Section Dom.
  Context {I : Type} (eqd : forall a b : I, {a = b} + {a <> b}) (all : list I).
  Definition rowCount : F := suml O all (fun _ => 1%s).
  Lemma count_dominant A :
    (forall g, In g all -> A g g = rowCount) ->
    (forall g h, In g all -> In h all -> g <> h -> A g h = opp 1%s \/ A g h = 0%s) ->
    dominant OL eqd all A.
  Proof.
    intros HD HO g Hg.
    assert (P1 := pos_one O FL OL).
    assert (PN : pos rowCount).
    { unfold rowCount. apply (pos_sum O FL OL all (fun _ => 1%s)); [auto|]. exists g. auto. }
    rewrite (HD g Hg).
    assert (E : absOf OL rowCount = rowCount).
    { destruct (abs_cases O FL OL rowCount) as [[-> _]|[_ N]]; auto. destruct (pos_opp O FL OL _ PN N). }
    rewrite E. unfold rowCount. rewrite <- (suml_minus O FL).
    assert (T : forall h, In h all -> absOf OL (if eqd g h then 0%s else A g h) = 0%s \/
      absOf OL (if eqd g h then 0%s else A g h) = 1%s).
    { intros h Hh. assert (A0 : absOf OL 0%s = 0%s).
      { destruct (abs_cases O FL OL 0%s) as [[-> _]|[-> _]]; ring. }
      destruct (eqd g h) as [e|N]; auto. destruct (HO g h Hg Hh N) as [-> | ->]; auto.
      right. rewrite (abs_opp O FL OL). destruct (abs_cases O FL OL 1%s) as [[-> _]|[_ N']]; auto.
      destruct (pos_opp O FL OL _ P1 N'). }
    apply (pos_sum O FL OL).
    - intros h Hh. specialize (T h Hh). destruct (eqd g h).
      + right. replace (1 - 0)%s with 1%s by ring. auto.
      + destruct T as [-> | ->]; [right|left; ring]. replace (1 - 0)%s with 1%s by ring. auto.
    - exists g. split; auto. destruct (eqd g g); [|congruence]. replace (1 - 0)%s with 1%s by ring. auto.
  Qed.

  Lemma dominant_posDef A : NoDup all ->
    (forall g h, In g all -> In h all -> A g h = A h g) ->
    (forall g, In g all -> pos (A g g)) ->
    dominant OL eqd all A -> posDef OL all A.
  Proof.
    intros ND SY PD HD x Hx.
    destruct (dominant_quasiDef O FL OL eqd all ND A SY HD x Hx) as [H _]. apply H.
    intros g Hg E. apply PD in Hg. apply (isPos_iff O FL OL) in Hg. congruence.
  Qed.
  End Dom.

  (** single matrices: no stored position is superfluous *)
  Theorem single_needed s n p : spOf s n n -> validPerm n p ->
    exists a vals m, spOf a n n /\ inputOf O m a vals /\
      (forall i j, j < i -> In (i, j) (entries a) -> In (i, j) (entries s)) /\
      exists b, factorizationBlk s p = Ok b /\
        forall mt L0 D0, length L0 = c_nnz (b_sp b) -> length D0 = n ->
        exists L D, factorize O mt b (Some m) regularizationNone (L0, D0) = Ok (L, D) /\
          forall i j, In (i, j) (c_entries (b_sp b)) -> denseAt O (c_entries (b_sp b)) L i j <> 0%s.
  Proof.
    intros HS HP. set (v := rowCount (seq 0 n)).
    exists (mkSp n n (symEntries n (entries s))), (symVals v n (entries s)),
      (valMat n n (symEntries n (entries s)) (symVals v n (entries s))).
    assert (SA : spOf (mkSp n n (symEntries n (entries s))) n n).
    { constructor; auto. intros i j. apply sym_bound. apply HS. }
    assert (IO : inputOf O (valMat n n (symEntries n (entries s)) (symVals v n (entries s)))
       (mkSp n n (symEntries n (entries s))) (symVals v n (entries s))).
    { apply valMat_input, sym_len. }
    assert (LE : forall i j, j < i -> In (i, j) (symEntries n (entries s)) -> In (i, j) (entries s)).
    { intros i j Lt. unfold symEntries, lowEntries. rewrite in_app_iff, in_map_iff, filter_In.
      intros [(x & E & _)|[H _]]; auto. injection E. lia. }
    split; auto. split; auto. split; auto.
    assert (CS : coveredSym (symEntries n (entries s)) (entries s) n p).
    { intros i j (L1 & L2 & H). apply Fill_base; auto. repeat split; auto. apply LE; auto.
      pose proof (validPerm_isPerm _ _ HP) as IP.
      assert (nth i p 0 <> nth j p 0) by (intros E; apply (isPerm_inj n p) in E; auto; lia). lia. }
    assert (DM : dominant OL Nat.eq_dec (seq 0 n) (symAt O (symEntries n (entries s)) (symVals v n (entries s)))).
    { apply count_dominant.
      - intros g Hg. apply in_seq in Hg. apply sym_diag. lia.
      - intros g h _ _ N. apply sym_off. auto. }
    assert (PDF : posDef OL (seq 0 n) (symAt O (symEntries n (entries s)) (symVals v n (entries s)))).
    { apply (dominant_posDef Nat.eq_dec); auto; [apply seq_NoDup|intros; apply symAt_perm|].
      intros g Hg. pose proof Hg as Hg'. apply in_seq in Hg'. rewrite sym_diag by lia.
      apply (pos_sum O FL OL (seq 0 n) (fun _ => 1%s)); [right; apply (pos_one O FL OL)|].
      exists g. split; auto. apply (pos_one O FL OL). }
    assert (NP : forall i j, i < n -> j < n -> i <> j ->
      atMost0 OL (symAt O (symEntries n (entries s)) (symVals v n (entries s)) i j)).
    { intros i j _ _ N. destruct (sym_off v n (entries s) i j N) as [[-> | ->] _];
        [right; apply neg_one|left; auto]. }
    assert (NG : forall i j, j < i -> In (i, j) (entries s) ->
      neg (symAt O (symEntries n (entries s)) (symVals v n (entries s)) i j)).
    { intros i j Lt H. destruct (sym_off v n (entries s) i j) as [_ E]; [lia|].
      rewrite E; [apply neg_one|]. rewrite Nat.max_l, Nat.min_r by lia. auto. }
    destruct (single_tight UpLooking s n p _ _ _ HS HP SA IO CS PDF NP NG) as (b & EB & _).
    exists b. split; auto. intros mt L0 D0 N1 N2.
    destruct (single_tight mt s n p _ _ _ HS HP SA IO CS PDF NP NG) as (b' & EB' & H).
    rewrite EB in EB'. injection EB' as <-. destruct (H L0 D0 N1 N2) as (L & D & EF & HN).
    exists L, D. split; auto. intros i j Hij E. specialize (HN i j Hij). rewrite E in HN.
    apply (ol_0 OL). replace 0%s with (opp 0)%s at 1 by ring. auto.
  Qed.

  (** arrowhead systems *)
  Definition fullMat (s : arrow_sp) (n ds dt dl dO : nat) : arrow_mat (F := F) :=
    let v := rowCount (allIdx n ds dt dl dO) in
    let sym d e := valMat d d (symEntries d (entries e)) (symVals v d (entries e)) in
    let rect r c e := valMat r c (entries e) (rectVals (entries e)) in
    mkAM (sym ds (ss_diag (as_start s))) (rect dt ds (ss_next (as_start s))) (rect dO ds (ss_outer (as_start s)))
      (repeat (sym dt (st_diag (as_tri s))) (n + 1)) (repeat (rect dt dt (st_subdiag (as_tri s))) n)
      (rect dl dt (sl_prev (as_link s))) (sym dl (sl_diag (as_link s))) (rect dO dl (sl_next (as_link s)))
      (repeat (rect dO dt (so_subdiag (as_outer s))) (n + 1)) (sym dO (so_diag (as_outer s))).
  Definition fullVals (s : arrow_sp) (n ds dt dl dO : nat) : arrow_vals F :=
    let v := rowCount (allIdx n ds dt dl dO) in
    let sym d e := symVals v d (entries e) in
    let rect e := rectVals (entries e) in
    mkVals (sym ds (ss_diag (as_start s))) (rect (ss_next (as_start s))) (rect (ss_outer (as_start s)))
      (repeat (sym dt (st_diag (as_tri s))) (n + 1)) (repeat (rect (st_subdiag (as_tri s))) n)
      (rect (sl_prev (as_link s))) (sym dl (sl_diag (as_link s))) (rect (sl_next (as_link s)))
      (repeat (rect (so_subdiag (as_outer s))) (n + 1)) (sym dO (so_diag (as_outer s))).

  Lemma nth_rep {A} (x d : A) n t : t < n -> nth t (repeat x n) d = x.
  Proof. revert t. induction n as [|n IH]; intros [|t] H; cbn [repeat nth]; auto; try lia. apply IH. lia. Qed.

  Lemma sym_of v d e : spOf e d d ->
    SpecArrowNum.matOf O (valMat d d (symEntries d (entries e)) (symVals v d (entries e))) d d (symVals v d (entries e)).
  Proof. intros H. apply valMat_of; [apply sym_len|]. intros i j. apply sym_bound. apply H. Qed.
  Lemma rect_of r c e : spOf e r c ->
    SpecArrowNum.matOf O (valMat r c (entries e) (rectVals (entries e))) r c (rectVals (entries e)).
  Proof. intros H. apply valMat_of; [apply repeat_length|]. apply H. Qed.

  Lemma full_input s n ds dt dl dO : arrowDims s ds dt dl dO ->
    inputArrow O n ds dt dl dO (fullMat s n ds dt dl dO) (fullVals s n ds dt dl dO).
  Proof.
    intros [Asd Asn Aso Atd Ats Alp Ald Aln Aos Aod Ps Pt Pl Po].
    constructor; cbn [fullMat fullVals a_sd a_sn a_so a_td a_ts a_lp a_ld a_ln a_os a_od
      w_sd w_sn w_so w_td w_ts w_lp w_ld w_ln w_os w_od]; try (apply repeat_length);
      try (apply sym_of; assumption); try (apply rect_of; assumption);
      intros t Ht; rewrite !nth_rep by auto; try (apply sym_of; assumption); apply rect_of; assumption.
  Qed.

  Lemma sym_declared v d e :
    declaredLow (valMat d d (symEntries d (entries e)) (symVals v d (entries e))) e.
  Proof.
    intros i j. cbn [valMat m_sp entries]. unfold symEntries, lowEntries.
    rewrite in_app_iff, in_map_iff, filter_In. intros [(x & E & _)|[H _]] Lt; auto. injection E. lia.
  Qed.

  Lemma full_declared s n ds dt dl dO : declaredArrow s n (fullMat s n ds dt dl dO).
  Proof.
    constructor; cbn [fullMat a_sd a_sn a_so a_td a_ts a_lp a_ld a_ln a_os a_od];
      try apply sym_declared; try (intros i j; auto; fail);
      intros t Ht; rewrite nth_rep by auto; try apply sym_declared; intros i j; auto.
  Qed.

  Lemma rect_val es i j :
    (denseAt O es (rectVals es) i j = opp 1%s \/ denseAt O es (rectVals es) i j = 0%s) /\
    (In (i, j) es -> denseAt O es (rectVals es) i j = opp 1%s).
  Proof. split; [apply dense_const|apply dense_const_in]. Qed.

  Lemma full_diag s n ds dt dl dO g : In g (allIdx n ds dt dl dO) ->
    matAt O (fullMat s n ds dt dl dO) (fullVals s n ds dt dl dO) g g = rowCount (allIdx n ds dt dl dO).
  Proof.
    rewrite in_allIdx. unfold matAt. destruct g as [i|t i|i|i]; cbn [symArrow matFun f_sd f_td f_ld f_od fullMat fullVals
      a_sd a_td a_ld a_od w_sd w_td w_ld w_od]; intros Hg.
    - apply sym_diag; auto.
    - rewrite Nat.eqb_refl, !nth_rep by lia. apply sym_diag. lia.
    - apply sym_diag; auto.
    - apply sym_diag; auto.
  Qed.

  Lemma full_off s n ds dt dl dO g h : In g (allIdx n ds dt dl dO) -> In h (allIdx n ds dt dl dO) -> g <> h ->
    let x := matAt O (fullMat s n ds dt dl dO) (fullVals s n ds dt dl dO) g h in
    (x = opp 1%s \/ x = 0%s) /\ (declaredAt s n g h -> x = opp 1%s).
  Proof.
    rewrite !in_allIdx. intros Hg Hh N. unfold matAt.
    replace (length (a_ts (fullMat s n ds dt dl dO))) with n by (cbn; rewrite repeat_length; auto).
    destruct g as [i|t i|i|i], h as [j|u j|j|j]; cbn [symArrow matFun f_sd f_sn f_so f_td f_ts f_lp f_ld f_ln f_os f_od
      fullMat fullVals a_sd a_sn a_so a_td a_ts a_lp a_ld a_ln a_os a_od
      w_sd w_sn w_so w_td w_ts w_lp w_ld w_ln w_os w_od declaredAt].
    all: assert (SO : forall v d es i j, i <> j ->
      (symAt O (symEntries d es) (symVals v d es) i j = opp 1%s \/
       symAt O (symEntries d es) (symVals v d es) i j = 0%s) /\
      (j < i /\ In (i, j) es -> symAt O (symEntries d es) (symVals v d es) i j = opp 1%s))
      by (intros v d es x y Nx; destruct (sym_off v d es x y Nx) as [X1 X2]; split; auto;
          intros [Lt Hin]; apply X2; rewrite Nat.max_l, Nat.min_r by lia; auto).
    all: try (apply SO; congruence); try (apply rect_val).
    all: try (split; [apply rect_val|intros []]; fail).
    all: try (split; [right; reflexivity|intros []]; fail).
    - split; [|intros []]. destruct (u =? 0); [apply rect_val|right; auto].
    - destruct (Nat.eqb_spec t 0) as [->|Nt].
      + split; [apply rect_val|]. intros [_ H]. apply rect_val; auto.
      + split; [right; auto|]. intros [E _]. congruence.
    - destruct (Nat.eqb_spec t u) as [->|N1].
      + rewrite !nth_rep by lia. destruct (SO (rowCount (allIdx n ds dt dl dO)) dt (entries (st_diag (as_tri s))) i j) as [X1 X2];
          [congruence|]. split; auto. intros [_ [(_ & H)|(E & _)]]; [auto|lia].
      + destruct (Nat.eqb_spec t (u + 1)) as [->|N2].
        * rewrite !nth_rep by lia. split; [apply rect_val|]. intros [_ [(E & _)|(_ & H)]]; [lia|]. apply rect_val; auto.
        * assert (ND : t < n + 1 /\ (t = u /\ j < i /\ In (i, j) (entries (st_diag (as_tri s))) \/
            t = u + 1 /\ In (i, j) (entries (st_subdiag (as_tri s)))) -> False) by lia.
          destruct (Nat.eqb_spec u (t + 1)) as [->|N3].
          -- rewrite !nth_rep by lia. split; [apply rect_val|]. intros H. destruct (ND H).
          -- split; [right; auto|]. intros H. destruct (ND H).
    - split; [|intros []]. destruct (t =? n); [apply rect_val|right; auto].
    - split; [|intros []]. rewrite !nth_rep by lia. apply rect_val.
    - destruct (Nat.eqb_spec u n) as [->|Nt].
      + split; [apply rect_val|]. intros [_ H]. apply rect_val; auto.
      + split; [right; auto|]. intros [E _]. congruence.
    - rewrite !nth_rep by lia. split; [apply rect_val|]. intros [_ H]. apply rect_val; auto.
  Qed.

  Theorem arrow_full s ds dt dl dO n : arrowDims s ds dt dl dO ->
    exists m w, inputArrow O n ds dt dl dO m w /\ declaredArrow s n m /\
      exists k, arrowBlocks s = Ok k /\
        forall mt d0, dataOf k n ds dt dl dO d0 ->
        exists d, arrowFactorize O mt k m regularizationNone d0 = Ok d /\
          forall g h, arrowFill s n ds dt dl dO g h -> factorAt O 0%s k d g h <> 0%s.
  Proof.
    intros HD. exists (fullMat s n ds dt dl dO), (fullVals s n ds dt dl dO).
    pose proof (full_input s n ds dt dl dO HD) as IA. pose proof (full_declared s n ds dt dl dO) as DA.
    split; auto. split; auto.
    set (m := fullMat s n ds dt dl dO) in *. set (w := fullVals s n ds dt dl dO) in *.
    set (all := allIdx n ds dt dl dO).
    assert (DG : forall g, In g all -> matAt O m w g g = rowCount all) by (intros; apply full_diag; auto).
    assert (OF : forall g h, In g all -> In h all -> g <> h ->
      (matAt O m w g h = opp 1%s \/ matAt O m w g h = 0%s) /\ (declaredAt s n g h -> matAt O m w g h = opp 1%s))
      by (intros; apply full_off; auto).
    assert (PDF : posDef OL all (matAt O m w)).
    { apply (dominant_posDef gidx_eq_dec); [apply NoDup_allIdx|intros; apply matAt_sym| |].
      - intros g Hg. rewrite DG by auto. apply (pos_sum O FL OL all (fun _ => 1%s)).
        + right. apply (pos_one O FL OL).
        + exists g. split; auto. apply (pos_one O FL OL).
      - apply count_dominant; auto. intros g h Hg Hh N. apply OF; auto. }
    assert (NP : forall g h, In g all -> In h all -> g <> h -> atMost0 OL (matAt O m w g h)).
    { intros g h Hg Hh N. destruct (OF g h Hg Hh N) as [[-> | ->] _]; [right; apply neg_one|left; auto]. }
    assert (NG : forall g h, In g all -> In h all -> declaredAt s n g h -> neg (matAt O m w g h)).
    { intros g h Hg Hh H. destruct (OF g h Hg Hh) as [_ E]; [|rewrite E; auto; apply neg_one].
      intros ->. destruct h as [j|u j|j|j]; cbn [declaredAt] in H; lia. }
    destruct (arrow_tight_neg UpLooking s ds dt dl dO n m w HD IA DA PDF NP NG) as (k & EK & _).
    exists k. split; auto. intros mt d0 DO.
    destruct (arrow_tight_neg mt s ds dt dl dO n m w HD IA DA PDF NP NG) as (k' & EK' & H).
    rewrite EK in EK'. injection EK' as <-. destruct (H d0 DO) as (d & EF & HN).
    exists d. split; auto. intros g h Hgh E. specialize (HN g h Hgh). rewrite E in HN.
    apply (ol_0 OL). replace 0%s with (opp 0)%s at 1 by ring. auto.
  Qed.

  Theorem arrow_needed s dt dl dO : arrowDims s 0 dt dl dO ->
    exists k k0, arrowBlocks s = Ok k /\
      forall n, k0 <= n ->
      exists m w, inputArrow O n 0 dt dl dO m w /\ declaredArrow s n m /\
        forall mt d0, dataOf k n 0 dt dl dO d0 ->
        exists d, arrowFactorize O mt k m regularizationNone d0 = Ok d /\
          forall g h, storedAt k n g h -> fromBlock k0 h -> factorAt O 0%s k d g h <> 0%s.
  Proof.
    intros HD. destruct (arrow_tight s dt dl dO HD) as (k & k0 & EK & HT).
    exists k, k0. split; auto. intros n Hn.
    destruct (arrow_full s 0 dt dl dO n HD) as (m & w & IA & DA & k' & EK' & H).
    rewrite EK in EK'. injection EK' as <-. exists m, w. split; auto. split; auto.
    intros mt d0 DO. destruct (H mt d0 DO) as (d & EF & HN). exists d. split; auto.
  Qed.
End Strict.
