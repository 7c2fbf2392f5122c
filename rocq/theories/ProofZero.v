(** Entries of the factor outside any pattern that contains the nonzeros of the matrix and
    is closed under elimination are zero. *)
From Coq Require Import List Arith Lia Bool.
From Verif Require Import Base ModelPerm ModelSparsity ModelSymbolic ModelNumeric ModelArrow ModelReg.
From Verif Require Import SpecSymbolic SpecArrow SpecNumeric SpecArrowNum SpecZero.
From Verif Require Import ProofBase ProofPerm ProofCsr ProofFill ProofDense ProofLdl ProofSingle ProofSingleMain
  ProofArrowSym ProofArrowRows ProofArrowProduct ProofArrowMain ProofArrowSub ProofChain ProofChainKernel
  ProofChainArrow ProofRoundUser ProofRoundTri ProofPropSign.
Import ListNotations.
Local Open Scope nat_scope.

Section Field.
  Context {F : Type} (O : ops F) (FL : fieldLaws O).
  Add Ring FrZero : (fl_ring FL).
  Lemma field_zeros : zeroRules O (fun _ => True) (fun a => a = o0 O).
  Proof.
    constructor; auto.
    - intros a b _. split; auto. split; auto. intros -> ->. ring.
    - intros a b _. split; auto. split; auto. intros [-> | ->]; ring.
    - intros a b _ N _. split; auto. intros ->. apply (div_eq O FL); auto. ring.
  Qed.
End Field.

Section Zero.
  Context {F : Type} (O : ops F) (fin zero : F -> Prop).
  Context (ZR : zeroRules O fin zero).

  Lemma reduces_zero {J} (T : J -> F -> Prop) a l r :
    reduces O T a l r -> fin r -> zero a ->
    (forall k x, In k l -> T k x -> fin x -> zero x) -> fin a /\ zero r.
  Proof.
    induction 1 as [|a k l x r Hx R IH]; intros Hf Ha HT; auto.
    assert (Y : fin (osub O a x)).
    { clear IH HT Ha Hx. revert Hf. induction R as [|a' k' l' x' r' Hx' R IH']; auto.
      intros Hf. apply IH' in Hf. apply (zr_sub _ _ _ ZR) in Hf. tauto. }
    destruct (zr_sub _ _ _ ZR a x Y) as (Fa & Fx & H2).
    split; auto. apply IH; auto.
    - apply H2; auto. apply (HT k); auto. left; auto.
    - intros k' x' Hk'. apply HT. right; auto.
  Qed.

  Section Generic.
  Context {I : Type} (dec : forall a b : I, {a = b} + {a <> b}).
  Variables (all : list I) (row : I -> list I) (rank : I -> nat).
  Hypothesis RK : forall g h, In g all -> In h (row g) -> In h all /\ rank h < rank g.
  Variables (A L S : I -> I -> F) (D : I -> F) (reg : F -> I -> F).
  Hypothesis CH : chainedS O dec all row A L S D reg.
  Variable Q : I -> I -> bool.
  Hypothesis QA : forall g h, In g all -> In h (row g) -> Q g h = false -> zero (A g h).
  Hypothesis QC : forall g h k, In g all -> In h (row g) -> In k (row h) ->
    Q g k = true -> Q h k = true -> Q g h = true.
  Hypothesis HL : forall g h, In g all -> In h (row g) -> fin (L g h).
  Hypothesis HD : forall g, In g all -> fin (D g) /\ ~ zero (D g).

  Lemma entry_zero g h : In g all -> In h (row g) -> Q g h = false ->
    zero (S g h) /\ zero (L g h).
  Proof.
    assert (K : forall r g h, rank h = r -> In g all -> In h (row g) -> Q g h = false ->
      zero (S g h) /\ zero (L g h)).
    { intros r. induction r as [r IH] using lt_wf_ind. clear g h. intros g h Er Hg Hh Hq.
      destruct (RK g h Hg Hh) as [Hha _]. destruct (HD h Hha) as [FD PD].
      destruct (cs_row _ _ _ _ _ _ _ _ _ CH g h Hg Hh) as [R E].
      pose proof (HL g h Hg Hh) as Hf. rewrite E in Hf.
      destruct (zr_div _ _ _ ZR _ _ FD PD Hf) as [FS ZD].
      assert (HS : zero (S g h)).
      { apply (reduces_zero _ _ _ _ R FS); auto.
        intros k x Hk Hx Fx. apply common_In in Hk. destruct Hk as [Hkg Hkh].
        destruct (RK h k Hha Hkh) as [Hka Hr].
        assert (Z : (zero (S g k) /\ zero (L g k)) \/ zero (L h k)).
        { destruct (Q g k) eqn:E1; [|left; apply (IH (rank k)); auto; lia].
          destruct (Q h k) eqn:E2; [|right; apply (IH (rank k)); auto; lia].
          rewrite (QC g h k Hg Hh Hkh E1 E2) in Hq. discriminate. }
        destruct Hx as [->|[->| ->]].
        - destruct (zr_mul _ _ _ ZR _ _ Fx) as (F1 & _ & M). apply M. left.
          destruct (zr_mul _ _ _ ZR _ _ F1) as (_ & _ & M'). apply M'. tauto.
        - destruct (zr_mul _ _ _ ZR _ _ Fx) as (_ & _ & M). apply M. tauto.
        - destruct (zr_mul _ _ _ ZR _ _ Fx) as (_ & _ & M). apply M. tauto. }
      split; auto. rewrite E. auto. }
    apply (K (rank h)); auto.
  Qed.
  End Generic.

  (** a pattern given by a function *)
  Lemma single_zeros s n p b :
    spOf s n n -> validPerm n p -> factorizationBlk s p = Ok b ->
    forall mt a vals m reg L0 D0 L D,
    spOf a n n -> inputOf O m a vals -> coveredSym (entries a) (entries s) n p ->
    length L0 = c_nnz (b_sp b) -> length D0 = n ->
    factorize O mt b (Some m) reg (L0, D0) = Ok (L, D) ->
    (forall i, i < n -> fin (vecAt O D i) /\ ~ zero (vecAt O D i)) ->
    (forall i j, i < n -> j < n -> fin (denseAt O (c_entries (b_sp b)) L i j)) ->
    forall Q : nat -> nat -> bool,
    (forall i j k, k < j -> j < i -> i < n -> Q i k = true -> Q j k = true -> Q i j = true) ->
    (forall i j, j < i -> i < n -> Q i j = false ->
       zero (symAt O (entries a) vals (nth i p 0) (nth j p 0))) ->
    forall i j, i < n -> j < n -> Q i j = false -> zero (denseAt O (c_entries (b_sp b)) L i j).
  Proof.
    intros HS HP HB mt a vals m reg L0 D0 L D HA HI HC N1 N2 EF HD HL Q QC QA i j Hi Hj Hq.
    pose proof (blk_good s n p b HS HP HB) as G. pose proof (blk_low s n p) as Low.
    destruct (factor_len O s n p b HS HP HB mt a vals m reg L0 D0 L D HA HI HC N1 N2 EF) as [NL ND].
    assert (RK : forall g h, In g (seq 0 n) -> In h (cols (b_sp b) g) -> In h (seq 0 n) /\ h < g).
    { intros g h Hg Hh. apply in_seq in Hg. apply cols_In in Hh. apply (gb_in _ _ _ _ _ _ _ G), Low in Hh.
      split; [apply in_seq; lia|auto]. }
    destruct (single_chainedS O mt b n _ p m a vals reg L0 D0 L D G Low (Fill_closed _) HI HA HC N1 N2 EF)
      as (S & CH).
    rewrite <- (getL_dense O) by auto.
    destruct (in_dec Nat.eq_dec j (cols (b_sp b) i)) as [Hc|Hc].
    - apply (entry_zero Nat.eq_dec (seq 0 n) (cols (b_sp b)) (fun i => i) RK _ _ S _ _ CH Q); auto.
      + intros g h Hg Hh Hx. destruct (RK g h Hg Hh) as [_ Lt]. apply in_seq in Hg. apply QA; auto. lia.
      + intros g h k Hg Hh Hk. destruct (RK g h Hg Hh) as [Hh' L1]. destruct (RK h k Hh' Hk) as [_ L2].
        apply in_seq in Hg. intros. apply (QC g h k); auto. lia.
      + intros g h Hg Hh. destruct (RK g h Hg Hh) as [Hh' _]. apply in_seq in Hg, Hh'.
        rewrite (getL_dense O) by auto. apply HL; lia.
      + intros g Hg. apply in_seq in Hg. apply HD. lia.
      + apply in_seq. lia.
    - rewrite getL_out; [apply ZR|]. rewrite <- cols_In. auto.
  Qed.

  (** the pattern of another factorization *)
  Lemma single_superfluous s n p b :
    spOf s n n -> validPerm n p -> factorizationBlk s p = Ok b ->
    forall mt a vals m reg L0 D0 L D,
    spOf a n n -> inputOf O m a vals -> coveredSym (entries a) (entries s) n p ->
    length L0 = c_nnz (b_sp b) -> length D0 = n ->
    factorize O mt b (Some m) reg (L0, D0) = Ok (L, D) ->
    (forall i, i < n -> fin (vecAt O D i) /\ ~ zero (vecAt O D i)) ->
    (forall i j, i < n -> j < n -> fin (denseAt O (c_entries (b_sp b)) L i j)) ->
    forall s' b', spOf s' n n -> factorizationBlk s' p = Ok b' ->
    (forall i j, j < i -> i < n -> ~ In (i, j) (c_entries (b_sp b')) ->
       zero (symAt O (entries a) vals (nth i p 0) (nth j p 0))) ->
    forall i j, i < n -> j < n -> ~ In (i, j) (c_entries (b_sp b')) ->
      zero (denseAt O (c_entries (b_sp b)) L i j).
  Proof.
    intros HS HP HB mt a vals m reg L0 D0 L D HA HI HC N1 N2 EF HD HL s' b' HS' HB' QA i j Hi Hj Hq.
    pose proof (blk_good s' n p b' HS' HP HB') as G'.
    set (Q := fun i j => if in_dec Nat.eq_dec j (cols (b_sp b') i) then true else false).
    assert (QI : forall i j, Q i j = true <-> In (i, j) (c_entries (b_sp b'))).
    { intros x y. unfold Q. rewrite <- cols_In. destruct (in_dec Nat.eq_dec y (cols (b_sp b') x)); split; auto; try tauto. discriminate. }
    assert (QF : forall i j, Q i j = false <-> ~ In (i, j) (c_entries (b_sp b'))).
    { intros x y. rewrite <- QI. destruct (Q x y); split; congruence. }
    apply (single_zeros s n p b HS HP HB mt a vals m reg L0 D0 L D HA HI HC N1 N2 EF HD HL Q); auto.
    - intros x y k H1 H2 H3. rewrite !QI, !(gb_in _ _ _ _ _ _ _ G'). intros E1 E2.
      exact (Fill_closed _ x y k H1 H2 E1 E2).
    - intros x y H1 H2 Hx. apply QA; auto. apply QF. auto.
    - apply QF. auto.
  Qed.

  Lemma arrow_zeros s ds dt dl dO k n :
    arrowDims s ds dt dl dO -> arrowBlocks s = Ok k ->
    forall mt m w reg d0 d,
    inputArrow O n ds dt dl dO m w -> declaredArrow s n m -> dataOf k n ds dt dl dO d0 ->
    arrowFactorize O mt k m reg d0 = Ok d ->
    let all := allIdx n ds dt dl dO in
    (forall g, In g all -> fin (pivotAt O d g) /\ ~ zero (pivotAt O d g)) ->
    (forall g h, In g all -> In h all -> g <> h -> fin (factorAt O (o0 O) k d g h)) ->
    forall Q : gidx -> gidx -> bool,
    (forall g h k, In g all -> In h all -> In k all -> gbefore k h -> gbefore h g ->
       Q g k = true -> Q h k = true -> Q g h = true) ->
    (forall g h, In g all -> In h all -> gbefore h g -> Q g h = false ->
       zero (matAt O m w (permIdx s g) (permIdx s h))) ->
    forall g h, In g all -> In h all -> g <> h -> Q g h = false ->
      zero (factorAt O (o0 O) k d g h).
  Proof.
    intros HD HK mt m w reg d0 d IA DA DO0 EF all HP HL Q QC QA g h Hg Hh N Hq.
    destruct (arrow_run O s ds dt dl dO k n HD HK mt m w reg d0 d IA DA DO0 EF)
      as (P & AG & AC & AV & DO & AR).
    assert (RK : forall g h, In g all -> In h (fwdL k n g) -> In h all /\ rank n ds dt dl h < rank n ds dt dl g)
      by (intros; apply (arrow_rank s ds dt dl dO k P); auto).
    destruct (arrow_chainedS O s ds dt dl dO k P HD AG AV n m w IA DA mt reg d AR) as (S & CH).
    assert (BF : forall g h, In g all -> In h (fwdL k n g) -> gbefore h g).
    { clear g h Hg Hh N Hq. intros g h Hg Hh. destruct (RK g h Hg Hh) as [Hha Lt]. revert Hg Hha Lt Hh.
      rewrite (row_pat s ds dt dl dO k P AG). unfold all. rewrite !in_allIdx.
      destruct g as [i|t i|i|i], h as [j|u j|j|j]; cbn [rank gbefore rowP]; intros; try tauto; try lia. }
    rewrite (factorAt_strict O ds dt dl dO k n) by auto.
    pose proof (arrow_rows0 O s ds dt dl dO k P AG AC n d) as RG.
    destruct (in_dec gidx_eq_dec h (fwdL k n g)) as [Hc|Hc].
    - apply (entry_zero gidx_eq_dec all (fwdL k n) (rank n ds dt dl) RK _ _ S _ _ CH Q); auto.
      + intros x y Hx Hy Hxy. rewrite (A_mat O s ds dt dl dO n m w IA).
        destruct (RK x y Hx Hy) as [Hy' _]. apply QA; auto.
      + intros x y z Hx Hy Hz. destruct (RK x y Hx Hy) as [Hy' _]. destruct (RK y z Hy' Hz) as [Hz' _].
        apply QC; auto.
      + intros x y Hx Hy. destruct (RK x y Hx Hy) as [Hy' Lt].
        assert (NE : x <> y) by (intros ->; lia).
        rewrite <- (factorAt_strict O ds dt dl dO k n) by auto. apply HL; auto.
    - rewrite (rg_L _ _ _ _ _ RG) by auto. apply ZR.
  Qed.
End Zero.
