(** Arrowhead and block tridiagonal systems compared with the assembled matrix. *)
From Coq Require Import Lia List Arith Bool Permutation Sorted.
From Verif Require Import Base ModelPerm ModelSparsity ModelSymbolic ModelNumeric ModelArrow ModelReg.
From Verif Require Import SpecSymbolic SpecArrow SpecNumeric SpecArrowNum SpecPivot SpecAgree SpecFlat.
From Verif Require Import ProofBase ProofPerm ProofCsr ProofFill ProofDense ProofExact ProofLdl ProofKernel ProofSolve
  ProofSingle ProofSingleMain ProofArrowSym ProofArrowRows ProofArrowDense ProofArrowProduct ProofArrowSolve ProofArrowMain
  ProofArrowSub ProofChain ProofChainKernel ProofChainArrow ProofRoundMain ProofRoundUser ProofRoundTri
  ProofPropSymbolic ProofPropArrow ProofPropPivot ProofSign ProofPropSign ProofAgree ProofPropAgree ProofAgreeArrow ProofAgreeFlat.
Import ListNotations.
Local Open Scope nat_scope.

Section User.
  Context {F : Type} (O : ops F) (fin : F -> Prop) (same : F -> F -> Prop).
  Context (R : sameRules O fin same).

  Lemma finRun_ext {I} (all : list I) row L D : finRun O fin same all row L D <->
    forall g, In g all -> fin (D g) /\ ~ same (D g) (o0 O) /\ forall h, In h (row g) -> fin (L g h).
  Proof. reflexivity. Qed.

  Lemma arrow_flat s ds dt dl dO k n sF bF :
    let all := allIdx n ds dt dl dO in
    let N := flatDim n ds dt dl dO in
    let pos := flatPos n ds dt dl in
    let pF := flatPerm s n ds dt dl dO in
    arrowDims s ds dt dl dO -> arrowBlocks s = Ok k ->
    spOf sF N N -> factorizationBlk sF pF = Ok bF ->
    forall mt reg m w aF valsF mF d0 L0 D0,
    mt = UpLooking \/ dO = 0 ->
    regSame fin same reg -> indexFree reg ->
    inputArrow O n ds dt dl dO m w -> declaredArrow s n m ->
    spOf aF N N -> inputOf O mF aF valsF -> coveredSym (entries aF) (entries sF) N pF ->
    (forall g h, In g all -> In h all ->
       agree same (matAt O m w g h) (symAt O (entries aF) valsF (pos g) (pos h))) ->
    dataOf k n ds dt dl dO d0 -> length L0 = c_nnz (b_sp bF) -> length D0 = N ->
    exists d L D, arrowFactorize O mt k m reg d0 = Ok d /\
      factorize O mt bF (Some mF) reg (L0, D0) = Ok (L, D) /\
      ((forall g, In g all -> fin (pivotAt O d g) /\ ~ same (pivotAt O d g) (o0 O)) /\
       (forall g h, In g all -> In h all -> g <> h -> fin (factorAt O (o0 O) k d g h)) \/
       (forall i, i < N -> fin (vecAt O D i) /\ ~ same (vecAt O D i) (o0 O)) /\
       (forall i j, i < N -> j < N -> fin (denseAt O (c_entries (b_sp bF)) L i j)) ->
       (forall g, In g all -> same (pivotAt O d g) (vecAt O D (pos g))) /\
       (forall g h, In g all -> In h all -> g <> h ->
          same (factorAt O (o0 O) k d g h) (denseAt O (c_entries (b_sp bF)) L (pos g) (pos h))) /\
       forall rhs, vecOf n ds dt dl dO rhs ->
       exists x xF, arrowSolveInPlace O k d rhs = Ok x /\ solveInPlace O bF (L, D) (flatVec rhs) = Ok xF /\
         vecOf n ds dt dl dO x /\ length xF = N /\
         ((forall g, In g all -> fin (gvecAt O x g)) \/ (forall i, i < N -> fin (vecAt O xF i)) ->
          forall g, In g all -> same (gvecAt O x g) (vecAt O xF (pos g)))).
  Proof.
    intros all N pos pF HD HK HS HB mt reg m w aF valsF mF d0 L0 D0 HM RS RI IA DA HA HI HC AE DO0 N1 N2.
    pose proof (flatPerm_valid n ds dt dl dO s HD) as HP. fold N pF in HP.
    destruct (arrow_good s ds dt dl dO k HD HK) as (P & AG & AC & AV).
    pose proof (goodInput_of O s ds dt dl dO P n m w HD AV IA DA) as GI.
    destruct (arrowFactorize_ok O s ds dt dl dO k P AG AC mt n m reg d0 DO0 GI) as (d & EF & DO & AR).
    pose proof (blk_good sF N pF bF HS HP HB) as G. pose proof (blk_low sF N pF) as Low.
    destruct (factorize_ok O mt bF N _ pF mF aF valsF reg L0 D0 G Low (Fill_closed _) HI HA HC N1 N2)
      as (L & D & EF2 & NL & ND & _).
    exists d, L, D. split; auto. split; auto. intros FF.
    destruct (arrow_chainedF O s ds dt dl dO k P HD AG AV n m w IA DA mt reg d AR) as (S1 & C1).
    pose proof (arrow_goodRun O s ds dt dl dO k P n m w d HD AG AC AV IA DA DO) as R1.
    destruct (single_chainedF O mt bF N _ pF mF aF valsF reg L0 D0 L D G Low (Fill_closed _) HI HA HC N1 N2 EF2)
      as (S2 & C2).
    pose proof (single_goodRun O bF N _ pF mF aF valsF L0 D0 L D mt reg G Low (Fill_closed _) HI HA HC N1 N2 EF2) as R2.
    assert (LT : forall i j, In j (cols (b_sp bF) i) -> j < i).
    { intros i j H. apply cols_In, (gb_in _ _ _ _ _ _ _ G), Low in H. auto. }
    assert (SC : forall i, StronglySorted lt (cols (b_sp bF) i)) by (intros i; apply (gb_sorted _ _ _ _ _ _ _ G)).
    apply (chainedF_J O n ds dt dl dO _ _ _ _ _ LT (kernForm mt) reg (fun v g => reg v (localIdx g)) (arrowForm mt)) in C2;
      [|intros; apply RI|].
    2: { intros dg g h Hg. destruct HM as [->|E].
         - destruct g, h, dg; reflexivity.
         - apply in_allIdx in Hg. destruct g; try reflexivity. lia. }
    apply (goodRun_J O n ds dt dl dO _ _ _ LT SC) in R2.
    assert (PIn := permIdx_in s n ds dt dl dO HD).
    assert (BR : forall g x, In g all -> In x (bigL ds dt dl dO n g) -> In x all /\ rank n ds dt dl x < rank n ds dt dl g)
      by (intros; apply bigL_rank with (dO := dO); auto).
    assert (HAg : forall g h, In g all -> In h all ->
      agree same (symArrow O n (permFun s (matFun O m w)) g h)
        (symAt O (entries aF) valsF (nth (rank n ds dt dl g) pF 0) (nth (rank n ds dt dl h) pF 0))).
    { intros g h Hg Hh. rewrite (A_mat O s ds dt dl dO n m w IA). unfold pF.
      rewrite !flatPerm_nth by (apply rank_lt; auto). rewrite !unrank_rank by auto. apply AE; apply PIn; auto. }
    assert (HA1 : forall g h, In g all -> h = g \/ In h (bigL ds dt dl dO n g) ->
      agree same (symArrow O n (permFun s (matFun O m w)) g h)
        (symAt O (entries aF) valsF (nth (rank n ds dt dl g) pF 0) (nth (rank n ds dt dl h) pF 0))).
    { intros g h Hg Hh. apply HAg; auto. destruct Hh as [->|Hh]; auto. apply (BR g h); auto. }
    assert (HA2 : forall g h, In g all -> h = g \/ In h (bigL ds dt dl dO n g) ->
      agree same (symAt O (entries aF) valsF (nth (rank n ds dt dl g) pF 0) (nth (rank n ds dt dl h) pF 0))
        (symArrow O n (permFun s (matFun O m w)) g h)).
    { intros g h Hg Hh. destruct (HA1 g h Hg Hh) as [E|E]; [left; auto|right; apply (sm_sym _ _ _ R); auto]. }
    assert (RG : forall g v, In g all -> (fin (reg v (localIdx g)) -> fin v) /\
      forall v', same v v' -> fin (reg v (localIdx g)) -> same (reg v (localIdx g)) (reg v' (localIdx g)))
      by (intros; apply RS).
    (* both runs are finite *)
    assert (FB : finRun O fin same all (fwdL k n) (lowArrow O n (strictFun O k d)) (pivotAt O d) /\
      finRun O fin same all (rowJ n ds dt dl dO (cols (b_sp bF))) (fun g h => getL O (b_sp bF) L (rank n ds dt dl g) (rank n ds dt dl h))
        (fun g => getD O D (rank n ds dt dl g))).
    { destruct FF as [[FD FL]|[FD FL]].
      - assert (FN : finRun O fin same all (fwdL k n) (lowArrow O n (strictFun O k d)) (pivotAt O d)).
        { intros g Hg. destruct (FD g Hg) as [X1 X2]. split; auto. split; auto.
          intros h Hh. destruct (arrow_rank s ds dt dl dO k P n g h AG AC Hg Hh) as [Hh' Lt].
          rewrite <- (factorAt_strict O ds dt dl dO k n); auto; [|intros ->; lia]. apply FL; auto. intros ->; lia. }
        split; auto.
        exact (runs_fin O fin same R gidx_eq_dec all (bigL ds dt dl dO n) (rank n ds dt dl) BR
          _ (fun v g => reg v (localIdx g)) _ _ _ _ _ S1 _ _ _ _ R1 R2 C1 C2 FN HA1 RG).
      - assert (FN : finRun O fin same all (rowJ n ds dt dl dO (cols (b_sp bF)))
          (fun g h => getL O (b_sp bF) L (rank n ds dt dl g) (rank n ds dt dl h)) (fun g => getD O D (rank n ds dt dl g))).
        { intros g Hg. destruct (FD (rank n ds dt dl g)) as [X1 X2]; [apply rank_lt; auto|].
          split; auto. split; auto. intros h Hh. rewrite (getL_dense O) by auto.
          apply rowJ_in in Hh; auto. destruct Hh as [Hh _]. apply FL; apply rank_lt; auto. }
        split; auto.
        exact (runs_fin O fin same R gidx_eq_dec all (bigL ds dt dl dO n) (rank n ds dt dl) BR
          _ (fun v g => reg v (localIdx g)) _ _ _ _ _ _ _ S1 _ _ R2 R1 C2 C1 FN HA2 RG). }
    destruct FB as [FN1 FN2].
    destruct (runs_same O fin same R gidx_eq_dec all (bigL ds dt dl dO n) (rank n ds dt dl) BR
      _ (fun v g => reg v (localIdx g)) _ _ _ _ _ S1 _ _ _ _ R1 R2 C1 C2 FN1 HA1 RG) as [SD SL].
    split; auto. split.
    { intros g h Hg Hh Ne. rewrite (factorAt_strict O ds dt dl dO _ n) by auto. rewrite <- (getL_dense O) by auto.
      apply SL; auto. }
    intros rhs VR. pose proof (flatVec_length n ds dt dl dO rhs VR) as NR. fold N in NR.
    destruct (arrow_solve_eqs O s ds dt dl dO k P n d rhs AG AC DO VR)
      as (y1 & z1 & x1 & E1 & Nx1 & FE1 & DE1 & BE1).
    destruct (single_solve_eqs O bF N _ pF L D (flatVec rhs) G Low NL ND NR) as (y2 & z2 & x2 & E2 & Nx2 & FE2 & DE2 & BE2).
    exists x1, x2. repeat (split; auto). intros FX g Hg.
    pose proof (ProofChainKernel.single_cols bF N) as CG.
    pose proof (Permutation_in _ (Permutation_sym (permIdx_Permutation s n ds dt dl dO HD)) Hg) as Hg'.
    apply in_map_iff in Hg'. destruct Hg' as (g' & <- & Hg').
    assert (XE : forall v h, In h all -> vat O pF v (rank n ds dt dl h) = vecAt O v (pos (permIdx s h))).
    { intros v h Hh. unfold vat, pF. rewrite flatPerm_nth by (apply rank_lt; auto). rewrite unrank_rank by auto. reflexivity. }
    rewrite <- XE by auto.
    apply (forwardEq_J O n ds dt dl dO _ _ LT) in FE2.
    apply (diagonalEq_J O n ds dt dl dO) in DE2.
    apply (backwardEq_J O n ds dt dl dO _ _ _ CG) in BE2.
    assert (FE2' : forwardEq O all (rowJ n ds dt dl dO (cols (b_sp bF)))
      (fun g h => getL O (b_sp bF) L (rank n ds dt dl g) (rank n ds dt dl h)) (pvec O s rhs) (fun g => y2 (rank n ds dt dl g))).
    { intros h Hh. rewrite FE2 by auto. cbn beta. rewrite XE by auto. unfold pvec, pos. rewrite flatPos_rank.
      rewrite (flatVec_at n ds dt dl dO) by auto. reflexivity. }
    assert (CS : forall i, StronglySorted gt (rowsOf (b_sp bF) N i)) by (intros; apply filter_StronglySorted, rev_seq_sorted).
    assert (TOP : forall h, In h all -> rank n ds dt dl h < N) by (intros; apply rank_lt; auto).
    assert (BC : forall g x, In g all -> In x (bigC ds dt dl dO n g) -> In x all /\ rank n ds dt dl g < rank n ds dt dl x)
      by (intros; apply bigC_rank with (dO := dO); auto).
    pose proof (arrow_cols s ds dt dl dO k P AG n) as Q1.
    pose proof (colsGood_J n ds dt dl dO _ LT _ CG) as Q2.
    destruct FX as [FX|FX].
    - apply (solves_same O fin same R gidx_eq_dec all (bigL ds dt dl dO n) (rank n ds dt dl) BR
        _ (fun v g => reg v (localIdx g)) _ _ _ _ _ S1 _ _ _ _ R1 R2 C1 C2 FN1 HA1 RG
        (bigC ds dt dl dO n) (bwdL ds dt dl dO k n) (colJ n ds dt dl dO (rowsOf (b_sp bF) N)))
        with (b := pvec O s rhs) (y1 := y1) (z1 := z1) (x1 := pvec O s x1) (y2 := fun g => y2 (rank n ds dt dl g))
          (z2 := fun g => z2 (rank n ds dt dl g)) (x2 := fun g => vat O pF x2 (rank n ds dt dl g)) (top := N); auto.
      + intros h Hh. eapply col_sub; eauto.
      + intros h Hh. apply (col_sub_J n ds dt dl dO _ LT _ CG CS h Hh).
      + intros h Hh. apply FX, PIn. auto.
    - apply (sm_sym _ _ _ R).
      apply (solves_same O fin same R gidx_eq_dec all (bigL ds dt dl dO n) (rank n ds dt dl) BR
        _ (fun v g => reg v (localIdx g)) _ _ _ _ _ _ _ S1 _ _ R2 R1 C2 C1 FN2 HA2 RG
        (bigC ds dt dl dO n) (colJ n ds dt dl dO (rowsOf (b_sp bF) N)) (bwdL ds dt dl dO k n))
        with (b := pvec O s rhs) (y2 := y1) (z2 := z1) (x2 := pvec O s x1) (y1 := fun g => y2 (rank n ds dt dl g))
          (z1 := fun g => z2 (rank n ds dt dl g)) (x1 := fun g => vat O pF x2 (rank n ds dt dl g)) (top := N); auto.
      + intros h Hh. apply (col_sub_J n ds dt dl dO _ LT _ CG CS h Hh).
      + intros h Hh. eapply col_sub; eauto.
      + intros h Hh. rewrite XE by auto. apply FX. unfold pos. rewrite flatPos_rank. apply rank_lt. apply PIn. auto.
  Qed.

  Lemma flatTriPerm_ok a b p n dt :
    flatPerm (tridiagonalSparsity a b p) n 0 dt 0 0 = flatTriPerm p n dt.
  Proof.
    unfold flatPerm, flatTriPerm, allIdx. cbn [seq map app]. rewrite !app_nil_r, <- flat_map_concat_map.
    rewrite !flat_map_concat_map, concat_map, map_map. f_equal. apply map_ext. intros t. rewrite map_map.
    apply map_ext. intros i. reflexivity.
  Qed.

  Lemma tri_flat a b p dt k n sF bF :
    let N := (n + 1) * dt in
    let pF := flatTriPerm p n dt in
    spOf a dt dt -> spOf b dt dt -> validPerm dt p -> tridiagonalBlocks a b p = Ok k ->
    spOf sF N N -> factorizationBlk sF pF = Ok bF ->
    forall mt reg A B wA wB aF valsF mF d0 L0 D0,
    regSame fin same reg -> indexFree reg ->
    inputTri O n dt A B wA wB -> declaredTri a b n A B ->
    spOf aF N N -> inputOf O mF aF valsF -> coveredSym (entries aF) (entries sF) N pF ->
    (forall t i u j, t < n + 1 -> i < dt -> u < n + 1 -> j < dt ->
       agree same (triMatAt O A B wA wB t i u j) (symAt O (entries aF) valsF (t * dt + i) (u * dt + j))) ->
    dataOf k n 0 dt 0 0 d0 -> length L0 = c_nnz (b_sp bF) -> length D0 = N ->
    exists d L D, tridiagonalFactorize O mt k dt A B reg d0 = Ok d /\
      factorize O mt bF (Some mF) reg (L0, D0) = Ok (L, D) /\
      ((forall t i, t < n + 1 -> i < dt ->
          fin (pivotAt O d (GT t i)) /\ ~ same (pivotAt O d (GT t i)) (o0 O)) /\
       (forall t i u j, t < n + 1 -> i < dt -> u < n + 1 -> j < dt -> (t, i) <> (u, j) ->
          fin (factorAt O (o0 O) k d (GT t i) (GT u j))) \/
       (forall i, i < N -> fin (vecAt O D i) /\ ~ same (vecAt O D i) (o0 O)) /\
       (forall i j, i < N -> j < N -> fin (denseAt O (c_entries (b_sp bF)) L i j)) ->
       (forall t i, t < n + 1 -> i < dt -> same (pivotAt O d (GT t i)) (vecAt O D (t * dt + i))) /\
       (forall t i u j, t < n + 1 -> i < dt -> u < n + 1 -> j < dt -> (t, i) <> (u, j) ->
          same (factorAt O (o0 O) k d (GT t i) (GT u j))
            (denseAt O (c_entries (b_sp bF)) L (t * dt + i) (u * dt + j))) /\
       forall rhs, blocksOf n dt rhs ->
       exists x xF, tridiagonalSolveInPlace O k d rhs = Ok x /\ solveInPlace O bF (L, D) (concat rhs) = Ok xF /\
         blocksOf n dt x /\ length xF = N /\
         ((forall t i, t < n + 1 -> i < dt -> fin (vecAt O (nth t x []) i)) \/ (forall i, i < N -> fin (vecAt O xF i)) ->
          forall t i, t < n + 1 -> i < dt -> same (vecAt O (nth t x []) i) (vecAt O xF (t * dt + i)))).
  Proof.
    intros N pF SA SB HP HK HS HB mt reg A B wA wB aF valsF mF d0 L0 D0 RS RI IT DT HA HI HC AE DO N1 N2.
    assert (EN : flatDim n 0 dt 0 0 = N) by (unfold flatDim, N; lia).
    assert (EP : flatPerm (tridiagonalSparsity a b p) n 0 dt 0 0 = pF) by apply flatTriPerm_ok.
    assert (TI : forall g, In g (allIdx n 0 dt 0 0) <-> exists t i, g = GT t i /\ t < n + 1 /\ i < dt)
      by (intros; apply in_tri).
    pose proof (arrow_flat (tridiagonalSparsity a b p) 0 dt 0 0 k n sF bF) as HH. cbv zeta in HH.
    specialize (HH (tri_dims a b p dt SA SB HP) (tri_k a b p dt k SA SB HK)). rewrite EN, EP in HH.
    specialize (HH HS HB mt reg _ _ aF valsF mF d0 L0 D0 (or_intror eq_refl) RS RI
      (tri_input O n dt A B wA wB IT) (tri_declared a b p n dt A B DT) HA HI HC).
    destruct HH as (d & L & D & E1 & E2 & HH); auto.
    { intros g h Hg Hh. apply TI in Hg, Hh. destruct Hg as (t & i & -> & Ht & Hi), Hh as (u & j & -> & Hu & Hj).
      apply AE; auto. }
    unfold tridiagonalFactorize, numRepetitions. rewrite (do_nts _ _ _ _ _ _ _ DO).
    exists d, L, D. split; auto. split; auto. intros FF.
    destruct HH as (H1 & H2 & H3).
    { destruct FF as [[FD FL]|FF]; [left|right; auto]. split.
      - intros g Hg. apply TI in Hg. destruct Hg as (t & i & -> & Ht & Hi). auto.
      - intros g h Hg Hh Ne. apply TI in Hg, Hh. destruct Hg as (t & i & -> & Ht & Hi), Hh as (u & j & -> & Hu & Hj).
        apply FL; auto. congruence. }
    split; [intros t i Ht Hi; apply (H1 (GT t i)), TI; eauto|].
    split; [intros t i u j Ht Hi Hu Hj Ne; apply (H2 (GT t i) (GT u j)); [apply TI; eauto|apply TI; eauto|congruence]|].
    intros rhs HV. destruct (H3 _ (tri_vec n dt rhs HV)) as (x & xF & ES & ES2 & V & NF & HX).
    exists (v_tri x), xF. unfold tridiagonalSolveInPlace. rewrite ES. split; auto.
    split; [unfold flatVec in ES2; cbn [v_start v_tri v_link v_outer app] in ES2; rewrite !app_nil_r in ES2; exact ES2|].
    split; [split; apply V|]. split; auto.
    intros FX t i Ht Hi. apply (HX) with (g := GT t i); [|apply TI; eauto].
    destruct FX as [FX|FX]; [left|right; auto].
    intros g Hg. apply TI in Hg. destruct Hg as (t' & j & -> & Ht' & Hj). apply FX; auto.
  Qed.
End User.
