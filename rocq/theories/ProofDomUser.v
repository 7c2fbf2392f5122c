(** Diagonally dominant systems in rounded arithmetic: single matrix, arrowhead and block
    tridiagonal systems. *)
From Coq Require Import Reals Lra Lia List Arith Bool Permutation.
From Verif Require Import Base ModelPerm ModelSparsity ModelSymbolic ModelNumeric ModelArrow ModelReg.
From Verif Require Import SpecSymbolic SpecArrow SpecNumeric SpecArrowNum SpecReg SpecRound SpecDominant SpecFlat SpecDomFloat.
From Verif Require Import ProofBase ProofPerm ProofCsr ProofFill ProofDense ProofExact ProofLdl ProofKernel ProofUp ProofSolve
  ProofSingle ProofSingleMain ProofMultiply ProofArrowSym ProofArrowRows ProofArrowUniq ProofArrowDense ProofArrowProduct ProofArrowSolve ProofArrowMain
  ProofArrowSub ProofChain ProofChainKernel ProofChainArrow ProofRound ProofRoundLdl ProofRoundMain ProofRoundUser ProofRoundTri
  ProofPropSymbolic ProofPropArrow ProofPropPivot ProofSign ProofPropSign ProofAgree ProofPropAgree ProofAgreeArrow ProofAgreeFlat ProofDomReal ProofDomFloat ProofDomSolve ProofDomMain.
Import ListNotations.
Local Open Scope R_scope.
Local Notation rsum := (suml Or).

(** ** permuted matrices *)
Lemma dominatedBy_perm {I} (dec : forall a b : I, {a = b} + {a <> b}) all (q : I -> I) (M : I -> I -> R) th :
  (forall g, In g all -> In (q g) all) ->
  (forall g h, In g all -> In h all -> q g = q h -> g = h) ->
  (forall f : I -> R, rsum all (fun h => f (q h)) = rsum all f) ->
  dominatedBy dec all M th -> dominatedBy dec all (fun g h => M (q g) (q h)) th.
Proof.
  intros QI QJ QS D g Hg. eapply Rle_trans; [|apply (D (q g)); auto]. right.
  rewrite <- (QS (fun c => if dec (q g) c then 0 else Rabs (M (q g) c))).
  apply rsum_ext. intros h Hh. destruct (dec g h) as [E|Ne].
  - subst h. destruct (dec (q g) (q g)); congruence.
  - destruct (dec (q g) (q h)) as [E|]; auto. exfalso. apply Ne. auto.
Qed.

Lemma gam_double {F} (O : ops F) fin val u eta (RO : rounding O fin val u eta) Om th amin amax n r :
  domFits u eta Om th amin amax n r -> gam u (2 * r + 1) <= 1.
Proof.
  intros [F1 F2 F3 _ _ _ _]. rewrite gam_q in *.
  pose proof (qpow_ge1 O fin val u eta RO (r + 1)) as Q1. cbv zeta in Q1.
  pose proof (qpow_le O fin val u eta RO (2 * r + 1) ((r + 1) * 2) ltac:(lia)) as Q2. cbv zeta in Q2.
  rewrite (pow_mult _ (r + 1) 2) in Q2. set (w := (/ (1 - u)) ^ (r + 1)) in *. cbn [pow] in Q2.
  assert ((1 - th) * (1 - th) <= 1 * 1) by (apply Rmult_le_compat; lra).
  assert (w * w <= (81 / 80) * (81 / 80)) by (apply Rmult_le_compat; lra). lra.
Qed.

Section User.
  Context {F : Type} (O : ops F) (fin : F -> Prop) (val : F -> R) (u eta Om : R).
  Context (RO : rounding O fin val u eta) (NO : noOverflow O fin val Om).

  (** what is known about the pivot p for the entry a on the diagonal *)
  Local Notation goodPivot th a p :=
    (fin p /\ (1 - th) / 2 * Rabs (val a) <= Rabs (val p) <= 2 * Rabs (val a) /\ 0 < val a * val p).

  (** ** single matrix *)
  Section Single.
  Variables (mt : method) (s : sparsity) (n : nat) (p : perm) (b : blk).
  Variables (a : sparsity) (vals : list F) (m : mat (F:=F)) (th amin amax : R) (r : nat).
  Local Notation all := (seq 0 n).
  Local Notation q i := (nth i p 0%nat).
  Local Notation M i j := (symAt O (entries a) vals i j).
  Hypothesis HS : spOf s n n.
  Hypothesis HP : validPerm n p.
  Hypothesis HB : factorizationBlk s p = Ok b.
  Hypothesis HA : spOf a n n.
  Hypothesis HI : inputOf O m a vals.
  Hypothesis HC : coveredSym (entries a) (entries s) n p.
  Hypothesis FA : forall i j, (i < n)%nat -> (j < n)%nat -> fin (M i j).
  Hypothesis DOM : dominatedBy Nat.eq_dec all (fun i j => val (M i j)) th.
  Hypothesis RNG : forall i, (i < n)%nat -> amin <= Rabs (val (M i i)) <= amax.
  Hypothesis FIT : domFits u eta Om th amin amax n r.
  Hypothesis MR : forall i, (i < n)%nat -> (length (cols (b_sp b) i) <= r)%nat.
  Hypothesis MC : forall j, (j < n)%nat -> (length (rowsOf (b_sp b) n j) <= r)%nat.

  Let GB := blk_good s n p b HS HP HB.
  Let Low := blk_low s n p.

  Lemma q_in i : (i < n)%nat -> (q i < n)%nat.
  Proof. intros H. pose proof HP as (P1 & _ & P3). apply P3, nth_In. lia. Qed.

  Lemma single_core L0 D0 : length L0 = c_nnz (b_sp b) -> length D0 = n ->
    exists L D, factorize O mt b (Some m) regularizationNone (L0, D0) = Ok (L, D) /\
      (forall v, In v L -> fin v) /\
      (forall i, (i < n)%nat -> goodPivot th (M (q i) (q i)) (vecAt O D i)) /\
      forall rhs, length rhs = n -> (forall v, In v rhs -> fin v) ->
        rhsFits eta Om th amin n (rsum all (fun i => Rabs (val (vecAt O rhs i)))) ->
        exists x, solveInPlace O b (L, D) rhs = Ok x /\ length x = n /\ (forall v, In v x -> fin v) /\
          forall X xs, (forall i, (i < n)%nat -> Rabs (val (vecAt O x i)) <= X) ->
            (forall i, (i < n)%nat -> rsum all (fun j => val (M i j) * xs j) = val (vecAt O rhs i)) ->
            forall i, (i < n)%nat -> Rabs (val (vecAt O x i) - xs i) <= domError u eta th amin amax n r X.
  Proof.
    intros N1 N2.
    destruct (factorize_ok O mt b n (Fill (permLow (entries s) n p)) p m a vals regularizationNone L0 D0)
      as (L & D & EF & NL & ND & _); auto using Fill_closed.
    exists L, D. split; auto.
    pose proof (single_chained O mt b n _ p m a vals regularizationNone L0 D0 L D GB Low (Fill_closed _) HI HA HC N1 N2 EF) as CH.
    pose proof (ProofChainKernel.single_rows O b n _ p m a vals L0 D0 L GB Low (Fill_closed _) HI HA HC N1 N2) as RG.
    assert (IP : isPerm n p) by (apply validPerm_isPerm; auto).
    assert (IQ : forall i, In i all -> In (q i) all) by (intros i Hi; apply in_seq in Hi; apply in_seq; pose proof (q_in i); lia).
    assert (IJ : forall i j, In i all -> In j all -> q i = q j -> i = j).
    { intros i j Hi Hj E. apply in_seq in Hi, Hj. apply (isPerm_inj n p i j); auto; lia. }
    assert (RL : forall g h, In g all -> In h (cols (b_sp b) g) -> (h < g)%nat).
    { intros g h _ Hh. apply cols_In, (gb_in _ _ _ _ _ _ _ GB), Low in Hh. auto. }
    assert (DOM' : dominatedBy Nat.eq_dec all (fun i j => val (M (q i) (q j))) th).
    { apply (dominatedBy_perm Nat.eq_dec all (fun i => q i) (fun i j => val (M i j))); auto.
      intros f. apply (rsum_perm n p f IP). }
    assert (MR' : forall i, In i all -> (length (cols (b_sp b) i) <= r)%nat) by (intros i Hi; apply in_seq in Hi; apply MR; lia).
    assert (MC' : forall i, In i all -> (length (rowsOf (b_sp b) n i) <= r)%nat) by (intros i Hi; apply in_seq in Hi; apply MC; lia).
    assert (FA' : forall i j, In i all -> In j all -> fin (M (q i) (q j))).
    { intros i j Hi Hj. apply in_seq in Hi, Hj. apply FA; apply q_in; lia. }
    assert (RNG' : forall i, In i all -> amin <= Rabs (val (M (q i) (q i))) <= amax).
    { intros i Hi. apply in_seq in Hi. apply RNG, q_in. lia. }
    assert (FIT' : domFits u eta Om th amin amax (length all) r) by (rewrite seq_length; auto).
    pose proof (dom_factor O fin val u eta Om RO NO Nat.eq_dec all (cols (b_sp b)) (fun i => i)
      (fun i j => M (q i) (q j)) (getL O (b_sp b) L) (getD O D) RG CH (fun g h _ _ E => E) RL th amin amax r
      FA' MR' DOM' RNG' FIT') as DF.
    assert (IN : forall i, (i < n)%nat -> In i all) by (intros; apply in_seq; lia).
    split; [|split].
    - intros v Hv. apply In_nth with (d := o0 O) in Hv. destruct Hv as (j & Hj & <-).
      destruct (nth_error (c_entries (b_sp b)) j) as [[i h]|] eqn:Ee.
      + rewrite <- (getL_at O _ L i h j (goodBlk_gcsr _ _ _ _ _ _ _ GB) Ee).
        apply nth_error_In in Ee. pose proof (gb_wf _ _ _ _ _ _ _ GB) as W.
        pose proof (wfc_bounds _ W _ _ Ee) as B. rewrite (gb_rows _ _ _ _ _ _ _ GB) in B.
        assert (Hi : (i < n)%nat) by (cbn [fst snd] in B; lia). apply (proj1 (DF i (IN i Hi))). apply cols_In. auto.
      + apply nth_error_None in Ee. exfalso. rewrite NL in Hj. unfold c_nnz, nnz in Hj. unfold c_entries in Ee. lia.
    - intros i Hi. destruct (DF i (IN i Hi)) as (_ & D1 & D2 & D3 & _). auto.
    - intros rhs NR FR RF.
      destruct (single_solve_eqs O b n _ p L D rhs GB Low NL ND NR) as (y & z & x & E & Nx & FE & DE & BE).
      exists x. split; auto. split; auto.
      assert (RF' : rhsFits eta Om th amin (length all) (rsum all (fun g => Rabs (val (vat O p rhs g))))).
      { rewrite seq_length. unfold vat. rewrite (rsum_perm n p (fun i => Rabs (val (nth i rhs (o0 O)))) IP). exact RF. }
      assert (FB : forall g, In g all -> fin (vat O p rhs g)) by (intros; apply (vecAt_fin O fin val u eta RO rhs); auto).
      assert (IV : forall c, (c < n)%nat -> exists i, In i all /\ c = q i).
      { intros c Hc. destruct (In_nth p c 0%nat) as (i & Hi & <-).
        - apply (Permutation_in c (Permutation_sym IP)), in_seq. lia.
        - exists i. split; auto. apply IN. rewrite <- (isPerm_length n p); auto. }
      split.
      + intros v Hv. apply In_nth with (d := o0 O) in Hv. destruct Hv as (c & Hc & <-).
        destruct (IV c ltac:(lia)) as (i & Hi & ->).
        exact (dom_solve O fin val u eta Om RO NO Nat.eq_dec all (cols (b_sp b)) (fun i => i)
          (fun i j => M (q i) (q j)) (getL O (b_sp b) L) (getD O D) RG CH (fun g h _ _ E => E) RL th amin amax r
          FA' MR' DOM' RNG' FIT' (rowsOf (b_sp b) n) (vat O p rhs) y z (vat O p x) (single_cols b n) FE DE BE MC' FB RF' i Hi).
      + intros X xs HX SOL c Hc. destruct (IV c Hc) as (i & Hi & ->). rewrite <- (seq_length n 0) at 1.
        refine (dom_error O fin val u eta Om RO NO Nat.eq_dec all (cols (b_sp b)) (fun i => i)
          (fun i j => M (q i) (q j)) (getL O (b_sp b) L) (getD O D) RG CH (fun g h _ _ E => E) RL th amin amax r
          FA' MR' DOM' RNG' FIT' (rowsOf (b_sp b) n) (vat O p rhs) y z (vat O p x) (single_cols b n) FE DE BE MC' FB RF'
          X (fun i => xs (q i)) (gam_double O fin val u eta RO Om th amin amax n r FIT) _ _ i Hi).
        * intros g Hg. apply in_seq in Hg. apply HX, q_in. lia.
        * intros g Hg. rewrite (rsum_perm n p (fun c => val (M (q g) c) * xs c) IP).
          apply in_seq in Hg. apply SOL, q_in. lia.
  Qed.
  End Single.

  (** ** arrowhead *)
  Section Arrow.
  Variables (mt : method) (s : arrow_sp) (ds dt dl dO : nat) (k : arrow_blks) (n : nat).
  Variables (m : arrow_mat (F:=F)) (w : arrow_vals F) (th amin amax : R) (r : nat).
  Local Notation all := (allIdx n ds dt dl dO).
  Local Notation q := (permIdx s).
  Local Notation M g h := (matAt O m w g h).
  Local Notation N := (flatDim n ds dt dl dO).
  Hypothesis HD : arrowDims s ds dt dl dO.
  Hypothesis HK : arrowBlocks s = Ok k.
  Hypothesis IA : inputArrow O n ds dt dl dO m w.
  Hypothesis DA : declaredArrow s n m.
  Hypothesis FA : forall g h, In g all -> In h all -> fin (M g h).
  Hypothesis DOM : dominatedBy gidx_eq_dec all (fun g h => val (M g h)) th.
  Hypothesis RNG : forall g, In g all -> amin <= Rabs (val (M g g)) <= amax.
  Hypothesis FIT : domFits u eta Om th amin amax N r.
  Hypothesis MR : forall g, In g all -> (length (fwdL k n g) <= r)%nat.
  Hypothesis MC : forall g, In g all -> (length (bwdL ds dt dl dO k n g) <= r)%nat.

  Lemma arrow_core d0 : dataOf k n ds dt dl dO d0 ->
    exists d, arrowFactorize O mt k m regularizationNone d0 = Ok d /\ dataOf k n ds dt dl dO d /\
      (forall g h, In g all -> In h all -> fin (factorAt O (o0 O) k d g h)) /\
      (forall g, In g all -> goodPivot th (M (q g) (q g)) (pivotAt O d g)) /\
      forall rhs, vecOf n ds dt dl dO rhs -> (forall g, In g all -> fin (gvecAt O rhs g)) ->
        rhsFits eta Om th amin N (rsum all (fun g => Rabs (val (gvecAt O rhs g)))) ->
        exists x, arrowSolveInPlace O k d rhs = Ok x /\ vecOf n ds dt dl dO x /\
          (forall g, In g all -> fin (gvecAt O x g)) /\
          forall X xs, (forall g, In g all -> Rabs (val (gvecAt O x g)) <= X) ->
            (forall g, In g all -> rsum all (fun h => val (M g h) * xs h) = val (gvecAt O rhs g)) ->
            forall g, In g all -> Rabs (val (gvecAt O x g) - xs g) <= domError u eta th amin amax N r X.
  Proof.
    intros DO0. destruct (arrow_good s ds dt dl dO k HD HK) as (P & AG & AC & AV).
    pose proof (goodInput_of O s ds dt dl dO P n m w HD AV IA DA) as GI.
    destruct (arrowFactorize_ok O s ds dt dl dO k P AG AC mt n m regularizationNone d0 DO0 GI) as (d & EF & DO & AR).
    exists d. split; auto. split; auto.
    pose proof (arrow_rows O s ds dt dl dO k P HD AG AC AV n m w IA DA d) as RG.
    pose proof (arrow_chained O s ds dt dl dO k P HD AG AV n m w IA DA mt regularizationNone d AR) as CH.
    pose proof (A_mat O s ds dt dl dO n m w IA) as AM.
    set (AA := fun g h => symArrow O n (permFun s (matFun O m w)) g h) in *.
    pose proof (permIdx_in s n ds dt dl dO HD) as IQ. pose proof (permIdx_inj s n ds dt dl dO HD) as IJ.
    assert (QS : forall f : gidx -> R, rsum all (fun h => f (q h)) = rsum all f) by (apply (gvec_perm s ds dt dl dO n HD)).
    assert (LN : length all = N) by apply all_length.
    assert (RL : forall g h, In g all -> In h (fwdL k n g) -> (rank n ds dt dl h < rank n ds dt dl g)%nat).
    { intros g h Hg Hh. destruct (arrow_rank s ds dt dl dO k P n g h AG AC Hg Hh). auto. }
    assert (DOM' : dominatedBy gidx_eq_dec all (fun g h => val (AA g h)) th).
    { intros g Hg. pose proof (dominatedBy_perm gidx_eq_dec all q (fun g h => val (M g h)) th IQ IJ QS DOM g Hg) as D.
      cbv beta in D. unfold AA. rewrite AM.
      eapply Rle_trans; [|exact D]. right. apply rsum_ext. intros h Hh. rewrite AM. auto. }
    assert (FA' : forall g h, In g all -> In h all -> fin (AA g h)) by (intros g h Hg Hh; unfold AA; rewrite AM; auto).
    assert (RNG' : forall g, In g all -> amin <= Rabs (val (AA g g)) <= amax) by (intros g Hg; unfold AA; rewrite AM; auto).
    assert (FIT' : domFits u eta Om th amin amax (length all) r) by (rewrite LN; auto).
    pose proof (dom_factor O fin val u eta Om RO NO gidx_eq_dec all (fwdL k n) (rank n ds dt dl)
      AA (lowArrow O n (strictFun O k d)) (pivotAt O d) RG CH (rank_inj n ds dt dl dO) RL th amin amax r
      FA' MR DOM' RNG' FIT') as DF.
    split; [|split].
    - intros g h Hg Hh. destruct (gidx_eq_dec g h) as [<-|Ne].
      + assert (E0 : factorAt O (o0 O) k d g g = o0 O).
        { unfold factorAt. destruct g as [i|t i|i|i]; cbn [lowArrow factorFun f_sd f_td f_ld f_od];
            unfold unitAt; rewrite ?Nat.eqb_refl; auto. }
        rewrite E0. apply RO.
      + rewrite (factorAt_strict O ds dt dl dO k n d g h DO Hg Hh Ne).
        destruct (in_dec gidx_eq_dec h (fwdL k n g)) as [Hr|Hr].
        * apply (proj1 (DF g Hg)); auto.
        * rewrite (rg_L _ _ _ _ _ RG g h Hg Hh Hr). apply RO.
    - intros g Hg. destruct (DF g Hg) as (_ & D1 & D2 & D3 & _). unfold AA in D2, D3. rewrite AM in D2, D3. auto.
    - intros rhs VO FR RF.
      destruct (arrow_solve_eqs O s ds dt dl dO k P n d rhs AG AC DO VO)
        as (y & z & x & E & Nx & FE & DE & BE).
      exists x. split; auto. split; auto.
      assert (RF' : rhsFits eta Om th amin (length all) (rsum all (fun g => Rabs (val (pvec O s rhs g))))).
      { rewrite LN. unfold pvec. rewrite (QS (fun g => Rabs (val (gvecAt O rhs g)))). exact RF. }
      assert (FB : forall g, In g all -> fin (pvec O s rhs g)) by (intros; apply FR; auto).
      assert (IV : forall c, In c all -> exists g, In g all /\ c = q g).
      { intros c Hc. apply (Permutation_in c (Permutation_sym (permIdx_Permutation s n ds dt dl dO HD))) in Hc.
        apply in_map_iff in Hc. destruct Hc as (g & <- & Hg). eauto. }
      split.
      + intros c Hc. destruct (IV c Hc) as (g & Hg & ->).
        exact (dom_solve O fin val u eta Om RO NO gidx_eq_dec all (fwdL k n) (rank n ds dt dl)
          AA (lowArrow O n (strictFun O k d)) (pivotAt O d) RG CH (rank_inj n ds dt dl dO) RL th amin amax r
          FA' MR DOM' RNG' FIT' (bwdL ds dt dl dO k n) (pvec O s rhs) y z (pvec O s x)
          (arrow_cols s ds dt dl dO k P AG n) FE DE BE MC FB RF' g Hg).
      + intros X xs HX SOL c Hc. destruct (IV c Hc) as (g0 & Hg0 & ->). rewrite <- LN.
        refine (dom_error O fin val u eta Om RO NO gidx_eq_dec all (fwdL k n) (rank n ds dt dl)
          AA (lowArrow O n (strictFun O k d)) (pivotAt O d) RG CH (rank_inj n ds dt dl dO) RL th amin amax r
          FA' MR DOM' RNG' FIT' (bwdL ds dt dl dO k n) (pvec O s rhs) y z (pvec O s x)
          (arrow_cols s ds dt dl dO k P AG n) FE DE BE MC FB RF'
          X (fun g => xs (q g)) (gam_double O fin val u eta RO Om th amin amax N r FIT) _ _ g0 Hg0).
        * intros g Hg. apply HX; auto.
        * intros g Hg. rewrite (rsum_ext all _ (fun h => val (M (q g) (q h)) * xs (q h))).
          -- rewrite (QS (fun c => val (M (q g) c) * xs c)). apply SOL; auto.
          -- intros h Hh. unfold AA. rewrite AM. auto.
  Qed.
  End Arrow.
End User.
