(** Signs of factor and solution: single matrices, arrowhead and tridiagonal systems. *)
From Coq Require Import Lia List Arith Bool Permutation.
From Verif Require Import Base ModelPerm ModelSparsity ModelSymbolic ModelNumeric ModelArrow ModelReg.
From Verif Require Import SpecSymbolic SpecArrow SpecNumeric SpecArrowNum SpecPivot SpecSign.
From Verif Require Import ProofBase ProofPerm ProofCsr ProofFill ProofDense ProofExact ProofLdl ProofKernel ProofSolve
  ProofSingle ProofSingleMain ProofArrowSym ProofArrowRows ProofArrowDense ProofArrowProduct ProofArrowSolve ProofArrowMain
  ProofArrowSub ProofChain ProofChainKernel ProofChainArrow ProofRoundMain ProofRoundUser ProofRoundTri
  ProofPropArrow ProofPropPivot ProofSign.
Import ListNotations.
Local Open Scope nat_scope.

(** rows only contain indices eliminated before *)
Lemma arrow_rank s ds dt dl dO k P n g h :
  arrowGood s ds dt dl dO k P -> arrowChordal P -> In g (allIdx n ds dt dl dO) -> In h (fwdL k n g) ->
  In h (allIdx n ds dt dl dO) /\ rank n ds dt dl h < rank n ds dt dl g.
Proof.
  intros AG AC Hg. rewrite (row_pat s ds dt dl dO k P AG). intros H.
  pose proof (row_bound s ds dt dl dO k P AG n g h Hg H) as Ha. split; auto.
  revert Hg Ha H. rewrite !in_allIdx. destruct g as [i|t i|i|i], h as [j|u j|j|j]; cbn [rowP rank]; try tauto; intros Hg Ha H.
  - apply (sd_low _ AC) in H. lia.
  - nia.
  - destruct H as [[-> H]|[-> H]]; [|nia]. apply (td_low _ AC) in H. lia.
  - destruct H as [-> H]. nia.
  - apply (ld_low _ AC) in H. lia.
  - nia.
  - nia.
  - lia.
  - apply (od_low _ AC) in H. lia.
Qed.

Section User.
  Context {F : Type} (O : ops F) (fin pos nonneg nonpos : F -> Prop).
  Context (SR : signRules O fin pos nonneg nonpos).

  Lemma single_signs s n p b :
    spOf s n n -> validPerm n p -> factorizationBlk s p = Ok b ->
    forall mt a vals m reg L0 D0 L D,
    spOf a n n -> inputOf O m a vals -> coveredSym (entries a) (entries s) n p ->
    length L0 = c_nnz (b_sp b) -> length D0 = n ->
    factorize O mt b (Some m) reg (L0, D0) = Ok (L, D) ->
    (forall i j, i < n -> j < n -> i <> j -> nonpos (symAt O (entries a) vals i j)) ->
    (forall i, i < n -> fin (vecAt O D i) /\ pos (vecAt O D i)) ->
    (forall i j, i < n -> j < n ->
       fin (denseAt O (c_entries (b_sp b)) L i j) -> nonpos (denseAt O (c_entries (b_sp b)) L i j)) /\
    forall rhs, length rhs = n -> (forall i, i < n -> nonneg (vecAt O rhs i)) ->
    exists x, solveInPlace O b (L, D) rhs = Ok x /\ length x = n /\
      ((forall i, i < n -> fin (vecAt O x i)) -> forall i, i < n -> nonneg (vecAt O x i)).
  Proof.
    intros HS HP HB mt a vals m reg L0 D0 L D HA HI HC N1 N2 EF NA PD.
    pose proof (blk_good s n p b HS HP HB) as G. pose proof (blk_low s n p) as Low.
    destruct (factor_len O s n p b HS HP HB mt a vals m reg L0 D0 L D HA HI HC N1 N2 EF) as [NL ND].
    pose proof (validPerm_isPerm _ _ HP) as IP.
    assert (PB : forall i, i < n -> nth i p 0 < n) by (intros; eapply isPerm_lt; eauto).
    assert (PI : forall i j, i < n -> j < n -> nth i p 0 = nth j p 0 -> i = j)
      by (intros; eapply isPerm_inj; eauto).
    assert (RK : forall g h, In g (seq 0 n) -> In h (cols (b_sp b) g) -> In h (seq 0 n) /\ h < g).
    { intros g h Hg Hh. apply in_seq in Hg. apply cols_In in Hh. apply (gb_in _ _ _ _ _ _ _ G), Low in Hh.
      split; [apply in_seq; lia|auto]. }
    destruct (single_chainedS O mt b n _ p m a vals reg L0 D0 L D G Low (Fill_closed _) HI HA HC N1 N2 EF)
      as (S & CH).
    assert (PD' : forall g, In g (seq 0 n) -> fin (getD O D g) /\ pos (getD O D g)).
    { intros g Hg. apply in_seq in Hg. apply PD. lia. }
    assert (EN : forall g h, In g (seq 0 n) -> In h (cols (b_sp b) g) ->
      fin (getL O (b_sp b) L g h) -> nonpos (getL O (b_sp b) L g h)).
    { intros g h Hg Hh. apply (entry_nonpos O fin pos nonneg nonpos SR Nat.eq_dec (seq 0 n) (cols (b_sp b))
        (fun i => i) RK _ _ S _ _ CH); auto.
      intros i j Hi Hj. destruct (RK i j Hi Hj) as [Hj' Lt]. apply in_seq in Hi, Hj'.
      apply NA; [apply PB; lia|apply PB; lia|]. intros E. apply PI in E; lia. }
    split.
    - intros i j Hi Hj. rewrite <- (getL_dense O) by auto. intros Hf.
      destruct (in_dec Nat.eq_dec j (cols (b_sp b) i)) as [Hc|Hc].
      + apply EN; auto. apply in_seq. lia.
      + rewrite getL_out; [apply SR|]. rewrite <- cols_In. auto.
    - intros rhs NR HR.
      destruct (single_solve_eqs O b n _ p L D rhs G Low NL ND NR) as (y & z & x & E & Nx & FE & DE & BE).
      exists x. split; auto. split; auto. intros FX i Hi.
      destruct (isPerm_surj n p i IP Hi) as (i' & Hi' & <-).
      apply (x_nonneg O fin pos nonneg nonpos SR (seq 0 n) (cols (b_sp b)) (fun i => i) RK
        (getL O (b_sp b) L) (getD O D) (rowsOf (b_sp b) n) (vat O p rhs) y z (vat O p x) EN PD'
        (single_cols b n) FE DE BE) with (M := n).
      + intros g Hg. apply in_seq in Hg. apply FX. apply PB. lia.
      + intros g Hg. apply in_seq in Hg. apply HR. apply PB. lia.
      + intros g Hg. apply in_seq in Hg. lia.
      + apply in_seq. lia.
  Qed.

  Lemma arrow_signs s ds dt dl dO k n :
    arrowDims s ds dt dl dO -> arrowBlocks s = Ok k ->
    forall mt m w reg d0 d,
    inputArrow O n ds dt dl dO m w -> declaredArrow s n m -> dataOf k n ds dt dl dO d0 ->
    arrowFactorize O mt k m reg d0 = Ok d ->
    let all := allIdx n ds dt dl dO in
    (forall g h, In g all -> In h all -> g <> h -> nonpos (matAt O m w g h)) ->
    (forall g, In g all -> fin (pivotAt O d g) /\ pos (pivotAt O d g)) ->
    (forall g h, In g all -> In h all -> g <> h ->
       fin (factorAt O (o0 O) k d g h) -> nonpos (factorAt O (o0 O) k d g h)) /\
    forall rhs, vecOf n ds dt dl dO rhs -> (forall g, In g all -> nonneg (gvecAt O rhs g)) ->
    exists x, arrowSolveInPlace O k d rhs = Ok x /\ vecOf n ds dt dl dO x /\
      ((forall g, In g all -> fin (gvecAt O x g)) -> forall g, In g all -> nonneg (gvecAt O x g)).
  Proof.
    intros HD HK mt m w reg d0 d IA DA DO0 EF all NA PD.
    destruct (arrow_run O s ds dt dl dO k n HD HK mt m w reg d0 d IA DA DO0 EF)
      as (P & AG & AC & AV & DO & AR).
    pose proof (arrow_rank s ds dt dl dO k P n) as RK0.
    assert (RK : forall g h, In g all -> In h (fwdL k n g) -> In h all /\ rank n ds dt dl h < rank n ds dt dl g)
      by (intros; apply RK0; auto).
    destruct (arrow_chainedS O s ds dt dl dO k P HD AG AV n m w IA DA mt reg d AR) as (S & CH).
    assert (PIn := permIdx_in s n ds dt dl dO HD).
    assert (PIj := permIdx_inj s n ds dt dl dO HD).
    assert (EN : forall g h, In g all -> In h (fwdL k n g) ->
      fin (lowArrow O n (strictFun O k d) g h) -> nonpos (lowArrow O n (strictFun O k d) g h)).
    { intros g h Hg Hh. apply (entry_nonpos O fin pos nonneg nonpos SR gidx_eq_dec all (fwdL k n)
        (rank n ds dt dl) RK _ _ S _ _ CH); auto.
      intros i j Hi Hj. destruct (RK i j Hi Hj) as [Hj' Lt].
      rewrite (A_mat O s ds dt dl dO n m w IA).
      apply NA; [apply PIn; auto|apply PIn; auto|]. intros E. apply PIj in E; auto. subst. lia. }
    pose proof (arrow_rows0 O s ds dt dl dO k P AG AC n d) as RG.
    split.
    - intros g h Hg Hh N. rewrite (factorAt_strict O ds dt dl dO k n) by auto. intros Hf.
      destruct (in_dec gidx_eq_dec h (fwdL k n g)) as [Hc|Hc]; auto.
      rewrite (rg_L _ _ _ _ _ RG) by auto. apply SR.
    - intros rhs VO HR.
      destruct (arrow_solve_eqs O s ds dt dl dO k P n d rhs AG AC DO VO)
        as (y & z & x & E & Nx & FE & DE & BE).
      exists x. split; auto. split; auto. intros FX g Hg.
      pose proof (Permutation_in _ (Permutation_sym (permIdx_Permutation s n ds dt dl dO HD)) Hg) as Hg'.
      apply in_map_iff in Hg'. destruct Hg' as (g' & <- & Hg').
      apply (x_nonneg O fin pos nonneg nonpos SR all (fwdL k n) (rank n ds dt dl) RK
        (lowArrow O n (strictFun O k d)) (pivotAt O d) (bwdL ds dt dl dO k n) (pvec O s rhs) y z (pvec O s x) EN PD
        (arrow_cols s ds dt dl dO k P AG n) FE DE BE) with (M := ds + (n + 1) * dt + dl + dO); auto.
      + intros h Hh. apply FX, PIn. auto.
      + intros h Hh. apply HR, PIn. auto.
      + intros h Hh. apply rank_le with (dO := dO). auto.
  Qed.

  Lemma tri_signs a b p dt n k :
    spOf a dt dt -> spOf b dt dt -> validPerm dt p -> tridiagonalBlocks a b p = Ok k ->
    forall mt A B wA wB reg d0 d,
    inputTri O n dt A B wA wB -> declaredTri a b n A B -> dataOf k n 0 dt 0 0 d0 ->
    tridiagonalFactorize O mt k dt A B reg d0 = Ok d ->
    (forall t i u j, t < n + 1 -> i < dt -> u < n + 1 -> j < dt -> (t, i) <> (u, j) ->
       nonpos (triMatAt O A B wA wB t i u j)) ->
    (forall t i, t < n + 1 -> i < dt -> fin (pivotAt O d (GT t i)) /\ pos (pivotAt O d (GT t i))) ->
    (forall t i u j, t < n + 1 -> i < dt -> u < n + 1 -> j < dt -> (t, i) <> (u, j) ->
       fin (factorAt O (o0 O) k d (GT t i) (GT u j)) ->
       nonpos (factorAt O (o0 O) k d (GT t i) (GT u j))) /\
    forall rhs, blocksOf n dt rhs ->
    (forall t i, t < n + 1 -> i < dt -> nonneg (vecAt O (nth t rhs []) i)) ->
    exists x, tridiagonalSolveInPlace O k d rhs = Ok x /\ blocksOf n dt x /\
      ((forall t i, t < n + 1 -> i < dt -> fin (vecAt O (nth t x []) i)) ->
       forall t i, t < n + 1 -> i < dt -> nonneg (vecAt O (nth t x []) i)).
  Proof.
    intros SA SB HP HK mt A B wA wB reg d0 d IT DT DO EF NA PD.
    unfold tridiagonalFactorize, numRepetitions in EF. rewrite (do_nts _ _ _ _ _ _ _ DO) in EF.
    assert (TI : forall g, In g (allIdx n 0 dt 0 0) <-> exists t i, g = GT t i /\ t < n + 1 /\ i < dt)
      by (intros; apply in_tri).
    destruct (arrow_signs _ 0 dt 0 0 k n (tri_dims a b p dt SA SB HP) (tri_k a b p dt k SA SB HK)
      mt _ _ reg d0 d (tri_input O n dt A B wA wB IT) (tri_declared a b p n dt A B DT) DO EF) as [H1 H2].
    { intros g h Hg Hh N. apply TI in Hg, Hh. destruct Hg as (t & i & -> & Ht & Hi), Hh as (u & j & -> & Hu & Hj).
      apply NA; auto. congruence. }
    { intros g Hg. apply TI in Hg. destruct Hg as (t & i & -> & Ht & Hi). auto. }
    split.
    - intros t i u j Ht Hi Hu Hj N. apply H1; [apply TI; eauto|apply TI; eauto|congruence].
    - intros rhs HV HR. destruct (H2 _ (tri_vec n dt rhs HV)) as (y & ES & VY & HY).
      { intros g Hg. apply TI in Hg. destruct Hg as (t & i & -> & Ht & Hi). apply HR; auto. }
      exists (v_tri y). unfold tridiagonalSolveInPlace. rewrite ES. split; auto. split; [split; apply VY|].
      intros FX t i Ht Hi. apply (HY) with (g := GT t i).
      + intros g Hg. apply TI in Hg. destruct Hg as (t' & j & -> & Ht' & Hj). apply FX; auto.
      + apply TI; eauto.
  Qed.
End User.

(** exact arithmetic: positive definite matrices *)
Section Exact.
  Context {F : Type} (O : ops F) (FL : fieldLaws O) (OL : ordLaws FL).

  Lemma single_stieltjes mt s n p a vals m :
    spOf s n n -> validPerm n p ->
    spOf a n n -> inputOf O m a vals -> coveredSym (entries a) (entries s) n p ->
    posDef OL (seq 0 n) (symAt O (entries a) vals) ->
    (forall i j, i < n -> j < n -> i <> j -> atMost0 OL (symAt O (entries a) vals i j)) ->
    exists b, factorizationBlk s p = Ok b /\
      forall L0 D0, length L0 = c_nnz (b_sp b) -> length D0 = n ->
      exists L D, factorize O mt b (Some m) regularizationNone (L0, D0) = Ok (L, D) /\
        (forall i j, i < n -> j < n -> atMost0 OL (denseAt O (c_entries (b_sp b)) L i j)) /\
        forall rhs, length rhs = n -> (forall i, i < n -> atLeast0 OL (vecAt O rhs i)) ->
        exists x, solveInPlace O b (L, D) rhs = Ok x /\ length x = n /\
          (forall i, i < n -> matVec O n (symAt O (entries a) vals) x i = vecAt O rhs i) /\
          (forall i, i < n -> atLeast0 OL (vecAt O x i)).
  Proof.
    intros HS HP HA HI HC PDF NA.
    destruct (single_posdef O FL OL mt s n p a vals m HS HP HA HI HC PDF) as (b & EB & H).
    exists b. split; auto. intros L0 D0 N1 N2. destruct (H L0 D0 N1 N2) as (L & D & EF & PD & _ & HX).
    destruct (single_signs O _ _ _ _ (field_signs OL) s n p b HS HP EB mt a vals m _ L0 D0 L D HA HI HC N1 N2 EF
      NA (fun i Hi => conj Logic.I (PD i Hi))) as [S1 S2].
    exists L, D. split; auto. split; [intros; apply S1; auto|].
    intros rhs NR HR. destruct (S2 rhs NR HR) as (x & ES & Nx & S3).
    destruct (HX rhs NR) as (x' & ES' & _ & HM & _). rewrite ES in ES'. injection ES' as <-.
    exists x. auto.
  Qed.

  Lemma arrow_stieltjes mt s ds dt dl dO n m w :
    arrowDims s ds dt dl dO -> inputArrow O n ds dt dl dO m w -> declaredArrow s n m ->
    let all := allIdx n ds dt dl dO in
    posDef OL all (matAt O m w) ->
    (forall g h, In g all -> In h all -> g <> h -> atMost0 OL (matAt O m w g h)) ->
    exists k, arrowBlocks s = Ok k /\
      forall d0, dataOf k n ds dt dl dO d0 ->
      exists d, arrowFactorize O mt k m regularizationNone d0 = Ok d /\ dataOf k n ds dt dl dO d /\
        (forall g h, In g all -> In h all -> g <> h -> atMost0 OL (factorAt O (o0 O) k d g h)) /\
        forall rhs, vecOf n ds dt dl dO rhs -> (forall g, In g all -> atLeast0 OL (gvecAt O rhs g)) ->
        exists x, arrowSolveInPlace O k d rhs = Ok x /\ vecOf n ds dt dl dO x /\
          (forall g, In g all -> gmatVec O all (matAt O m w) (gvecAt O x) g = gvecAt O rhs g) /\
          (forall g, In g all -> atLeast0 OL (gvecAt O x g)).
  Proof.
    intros HD IA DA all PDF NA.
    destruct (arrow_posdef O FL OL mt s ds dt dl dO n m w HD IA DA PDF) as (k & EK & H).
    exists k. split; auto. intros d0 DO0. destruct (H d0 DO0) as (d & EF & DO & PD & _ & HX).
    destruct (arrow_signs O _ _ _ _ (field_signs OL) s ds dt dl dO k n HD EK mt m w _ d0 d IA DA DO0 EF
      NA (fun g Hg => conj Logic.I (PD g Hg))) as [S1 S2].
    exists d. split; auto. split; auto. split; [intros; apply S1; auto|].
    intros rhs VR HR. destruct (S2 rhs VR HR) as (x & ES & Nx & S3).
    destruct (HX rhs VR) as (x' & ES' & _ & HM & _). rewrite ES in ES'. injection ES' as <-.
    exists x. auto.
  Qed.

  Lemma tri_stieltjes mt a b p dt n A B wA wB :
    spOf a dt dt -> spOf b dt dt -> validPerm dt p ->
    inputTri O n dt A B wA wB -> declaredTri a b n A B ->
    posDef OL (list_prod (seq 0 (n + 1)) (seq 0 dt))
      (fun r c => triMatAt O A B wA wB (fst r) (snd r) (fst c) (snd c)) ->
    (forall t i u j, t < n + 1 -> i < dt -> u < n + 1 -> j < dt -> (t, i) <> (u, j) ->
       atMost0 OL (triMatAt O A B wA wB t i u j)) ->
    exists k, tridiagonalBlocks a b p = Ok k /\
      forall d0, dataOf k n 0 dt 0 0 d0 ->
      exists d, tridiagonalFactorize O mt k dt A B regularizationNone d0 = Ok d /\
        dataOf k n 0 dt 0 0 d /\
        (forall t i u j, t < n + 1 -> i < dt -> u < n + 1 -> j < dt -> (t, i) <> (u, j) ->
           atMost0 OL (factorAt O (o0 O) k d (GT t i) (GT u j))) /\
        forall rhs, blocksOf n dt rhs ->
        (forall t i, t < n + 1 -> i < dt -> atLeast0 OL (vecAt O (nth t rhs []) i)) ->
        exists x, tridiagonalSolveInPlace O k d rhs = Ok x /\ blocksOf n dt x /\
          (forall t i, t < n + 1 -> i < dt ->
             triMatVec O n dt (triMatAt O A B wA wB) x t i = vecAt O (nth t rhs []) i) /\
          (forall t i, t < n + 1 -> i < dt -> atLeast0 OL (vecAt O (nth t x []) i)).
  Proof.
    intros SA SB HP IT DT PDF NA.
    destruct (tri_posdef O FL OL mt a b p dt n A B wA wB SA SB HP IT DT PDF) as (k & EK & H).
    exists k. split; auto. intros d0 DO0. destruct (H d0 DO0) as (d & EF & DO & PD & _ & HX).
    destruct (tri_signs O _ _ _ _ (field_signs OL) a b p dt n k SA SB HP EK mt A B wA wB _ d0 d IT DT DO0 EF
      NA (fun t i Ht Hi => conj Logic.I (PD t i Ht Hi))) as [S1 S2].
    exists d. split; auto. split; auto. split; [intros; apply S1; auto|].
    intros rhs VR HR. destruct (S2 rhs VR HR) as (x & ES & Nx & S3).
    destruct (HX rhs VR) as (x' & ES' & _ & HM & _). rewrite ES in ES'. injection ES' as <-.
    exists x. auto.
  Qed.
End Exact.
