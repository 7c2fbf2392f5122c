(** Renumbering the variables of a system. No algebraic laws. *)
From Coq Require Import Lia List Arith Bool Permutation Sorted.
From Verif Require Import Base ModelPerm ModelSparsity ModelSymbolic ModelNumeric ModelArrow ModelReg.
From Verif Require Import SpecSymbolic SpecArrow SpecNumeric SpecArrowNum SpecPivot SpecAgree SpecTight SpecLocal SpecRenumber.
From Verif Require Import ProofBase ProofPerm ProofCsr ProofFill ProofDense ProofExact ProofLdl ProofKernel ProofSolve
  ProofSingle ProofSingleMain ProofArrowSym ProofArrowRows ProofArrowDense ProofArrowProduct ProofArrowSolve ProofArrowMain
  ProofArrowSub ProofChain ProofChainKernel ProofChainArrow ProofRoundMain ProofRoundUser ProofRoundTri
  ProofPropSymbolic ProofPropArrow ProofPropPivot ProofSign ProofPropSign ProofAgree ProofPropAgree ProofAgreeDense
  ProofAgreeArrow ProofTightNum ProofLocal ProofLocalSingle ProofLocalArrow ProofEtree ProofRenumberSym.
Import ListNotations.
Local Open Scope nat_scope.

Lemma renumbered_low n f es1 es2 p1 p2 : validPerm n p1 -> validPerm n p2 -> renumbered n f es1 es2 p1 p2 ->
  forall i j, permLow es1 n p1 i j <-> permLow es2 n p2 i j.
Proof.
  intros HP1 HP2 [EP EC] i j. pose proof (validPerm_isPerm _ _ HP1) as IP.
  assert (W : forall es p, permLow es n p i j -> j < i /\ i < n) by (intros es p H; destruct H as (A & B & _); auto).
  assert (K : j < i -> i < n -> permLow es1 n p1 i j <-> permLow es2 n p2 i j).
  { intros L1 L2. rewrite !permLow_coupled by auto. rewrite !EP by lia. apply EC; eapply isPerm_lt; eauto; lia. }
  split; intros H; pose proof (W _ _ H) as [L1 L2]; apply K; auto.
Qed.

Lemma renumbered_rect nr nc fr fc es1 es2 pr1 pc1 pr2 pc2 :
  validPerm nr pr1 -> validPerm nc pc1 ->
  (forall i, i < nr -> nth i pr2 0 = fr (nth i pr1 0)) -> (forall i, i < nc -> nth i pc2 0 = fc (nth i pc1 0)) ->
  renumberedRect nr nc fr fc es1 es2 ->
  forall i j, permRect es1 nr nc pr1 pc1 i j <-> permRect es2 nr nc pr2 pc2 i j.
Proof.
  intros HP1 HP2 ER EC HR i j. unfold permRect.
  split; intros (L1 & L2 & H); split; auto; split; auto; revert H;
    rewrite ER, EC by auto; apply HR; eapply isPerm_lt; eauto using validPerm_isPerm.
Qed.

Lemma renumbered_sub s1 s2 ds dt dl dO f : arrowDims s1 ds dt dl dO -> arrowDims s2 ds dt dl dO ->
  renumberedArrow ds dt dl dO f s1 s2 -> patSub s1 s2 ds dt dl dO /\ patSub s2 s1 ds dt dl dO.
Proof.
  intros HD1 HD2 HR.
  pose proof HD1 as [_ _ _ _ _ _ _ _ _ _ Ps1 Pt1 Pl1 Po1]. pose proof HD2 as [_ _ _ _ _ _ _ _ _ _ Ps2 Pt2 Pl2 Po2].
  pose proof HR as [Rsd Rsn Rso Rtd Rts Rlp Rld Rln Ros Rod].
  pose proof (re_perm _ _ _ _ _ _ Rsd) as Es. pose proof (re_perm _ _ _ _ _ _ Rtd) as Et.
  pose proof (re_perm _ _ _ _ _ _ Rld) as El. pose proof (re_perm _ _ _ _ _ _ Rod) as Eo.
  pose proof (renumbered_low _ _ _ _ _ _ Ps1 Ps2 Rsd) as A1. pose proof (renumbered_low _ _ _ _ _ _ Pt1 Pt2 Rtd) as A2.
  pose proof (renumbered_low _ _ _ _ _ _ Pl1 Pl2 Rld) as A3. pose proof (renumbered_low _ _ _ _ _ _ Po1 Po2 Rod) as A4.
  pose proof (renumbered_rect _ _ _ _ _ _ _ _ _ _ Pt1 Ps1 Et Es Rsn) as B1.
  pose proof (renumbered_rect _ _ _ _ _ _ _ _ _ _ Po1 Ps1 Eo Es Rso) as B2.
  pose proof (renumbered_rect _ _ _ _ _ _ _ _ _ _ Pt1 Pt1 Et Et Rts) as B3.
  pose proof (renumbered_rect _ _ _ _ _ _ _ _ _ _ Pl1 Pt1 El Et Rlp) as B4.
  pose proof (renumbered_rect _ _ _ _ _ _ _ _ _ _ Po1 Pl1 Eo El Rln) as B5.
  pose proof (renumbered_rect _ _ _ _ _ _ _ _ _ _ Po1 Pt1 Eo Et Ros) as B6.
  split; constructor; unfold charB; intros i j H;
    first [apply A1|apply A2|apply A3|apply A4|apply B1|apply B2|apply B3|apply B4|apply B5|apply B6]; exact H.
Qed.

Lemma rows_same c1 c2 n j : (forall i, In (i, j) (c_entries c1) <-> In (i, j) (c_entries c2)) ->
  rowsOf c1 n j = rowsOf c2 n j.
Proof.
  intros H. unfold rowsOf. apply filter_ext_in. intros i _. apply eq_true_iff_eq. rewrite !nzb_In. auto.
Qed.

Section Run.
  Context {F : Type} (O : ops F).

  (** ** one matrix *)
  Lemma single_renumber s1 s2 n p1 p2 b1 b2 f :
    spOf s1 n n -> validPerm n p1 -> factorizationBlk s1 p1 = Ok b1 ->
    spOf s2 n n -> validPerm n p2 -> factorizationBlk s2 p2 = Ok b2 ->
    renumbered n f (entries s1) (entries s2) p1 p2 ->
    (forall i j, In (i, j) (c_entries (b_sp b1)) <-> In (i, j) (c_entries (b_sp b2))) /\
    forall mt reg a1 vals1 m1 a2 vals2 m2 L01 D01 L02 D02,
    spOf a1 n n -> inputOf O m1 a1 vals1 -> coveredSym (entries a1) (entries s1) n p1 ->
    spOf a2 n n -> inputOf O m2 a2 vals2 -> coveredSym (entries a2) (entries s2) n p2 ->
    (forall r c, r < n -> c < n -> symAt O (entries a1) vals1 r c = symAt O (entries a2) vals2 (f r) (f c)) ->
    length L01 = c_nnz (b_sp b1) -> length D01 = n ->
    length L02 = c_nnz (b_sp b2) -> length D02 = n ->
    exists L1 D1 L2 D2,
      factorize O mt b1 (Some m1) reg (L01, D01) = Ok (L1, D1) /\
      factorize O mt b2 (Some m2) reg (L02, D02) = Ok (L2, D2) /\
      (forall i, i < n -> vecAt O D1 i = vecAt O D2 i) /\
      (forall i j, i < n -> j < n ->
         denseAt O (c_entries (b_sp b1)) L1 i j = denseAt O (c_entries (b_sp b2)) L2 i j) /\
      forall rhs1 rhs2, length rhs1 = n -> length rhs2 = n ->
      (forall r, r < n -> vecAt O rhs1 r = vecAt O rhs2 (f r)) ->
      exists x1 x2, solveInPlace O b1 (L1, D1) rhs1 = Ok x1 /\ solveInPlace O b2 (L2, D2) rhs2 = Ok x2 /\
        length x1 = n /\ length x2 = n /\
        forall r, r < n -> vecAt O x1 r = vecAt O x2 (f r).
  Proof.
    intros HS1 HP1 HB1 HS2 HP2 HB2 HR. split.
    { intros i j. pose proof (single_row s1 n p1 b1 HS1 HP1 HB1 i j) as X1.
      pose proof (single_row s2 n p2 b2 HS2 HP2 HB2 i j) as X2. rewrite cols_In in X1, X2. rewrite X1, X2.
      pose proof (renumbered_low _ _ _ _ _ _ HP1 HP2 HR) as E.
      split; apply Fill_mono; intros a b _; apply E. }
    destruct HR as [EP EC]. intros mt reg a1 vals1 m1 a2 vals2 m2 L01 D01 L02 D02 HA1 HI1 HC1 HA2 HI2 HC2 AE N1 N2 N3 N4.
    pose proof (validPerm_isPerm _ _ HP1) as IP1. pose proof (validPerm_isPerm _ _ HP2) as IP2.
    destruct (single_alone O s1 s2 n n p1 p2 b1 b2 f (fun i => i) HS1 HP1 HB1 HS2 HP2 HB2) with
      (mt := mt) (reg1 := reg) (reg2 := reg) (a1 := a1) (vals1 := vals1) (m1 := m1) (a2 := a2) (vals2 := vals2) (m2 := m2)
      (L01 := L01) (D01 := D01) (L02 := L02) (D02 := D02) as (L1 & D1 & L2 & D2 & X); auto.
    - intros r c _ Hc _. destruct (isPerm_surj n p2 c IP2 Hc) as (j & Hj & <-).
      exists (nth j p1 0). split; [eapply isPerm_lt; eauto|auto].
    - exists L1, D1, L2, D2. exact X.
  Qed.

  (** ** arrowhead systems *)
  Lemma arrow_renumber s1 s2 ds dt dl dO k1 k2 f :
    arrowDims s1 ds dt dl dO -> arrowDims s2 ds dt dl dO -> arrowBlocks s1 = Ok k1 -> arrowBlocks s2 = Ok k2 ->
    renumberedArrow ds dt dl dO f s1 s2 ->
    forall n, (forall g h, storedAt k1 n g h <-> storedAt k2 n g h) /\
    forall mt reg m1 w1 m2 w2 d01 d02,
    let all := allIdx n ds dt dl dO in
    inputArrow O n ds dt dl dO m1 w1 -> declaredArrow s1 n m1 ->
    inputArrow O n ds dt dl dO m2 w2 -> declaredArrow s2 n m2 ->
    (forall g h, In g all -> In h all -> matAt O m1 w1 g h = matAt O m2 w2 (newIdx f g) (newIdx f h)) ->
    dataOf k1 n ds dt dl dO d01 -> dataOf k2 n ds dt dl dO d02 ->
    exists d1 d2, arrowFactorize O mt k1 m1 reg d01 = Ok d1 /\ arrowFactorize O mt k2 m2 reg d02 = Ok d2 /\
      (forall g, In g all -> pivotAt O d1 g = pivotAt O d2 g) /\
      (forall g h, In g all -> In h all -> g <> h ->
         factorAt O (o0 O) k1 d1 g h = factorAt O (o0 O) k2 d2 g h) /\
      forall rhs1 rhs2, vecOf n ds dt dl dO rhs1 -> vecOf n ds dt dl dO rhs2 ->
      (forall g, In g all -> gvecAt O rhs1 g = gvecAt O rhs2 (newIdx f g)) ->
      exists x1 x2, arrowSolveInPlace O k1 d1 rhs1 = Ok x1 /\ arrowSolveInPlace O k2 d2 rhs2 = Ok x2 /\
        vecOf n ds dt dl dO x1 /\ vecOf n ds dt dl dO x2 /\
        forall g, In g all -> gvecAt O x1 g = gvecAt O x2 (newIdx f g).
  Proof.
    intros HD1 HD2 HK1 HK2 HR n. destruct (renumbered_sub s1 s2 ds dt dl dO f HD1 HD2 HR) as [PS1 PS2].
    assert (ST : forall n' g h, storedAt k1 n' g h <-> storedAt k2 n' g h).
    { intros n' g h. split.
      - apply (arrow_stored_mono s1 s2 ds dt dl dO k1 k2); auto.
      - apply (arrow_stored_mono s2 s1 ds dt dl dO k2 k1); auto. }
    split; [apply ST|]. intros mt reg m1 w1 m2 w2 d01 d02 all IA1 DA1 IA2 DA2 AE DO01 DO02.
    destruct (arrow_bundle O s1 ds dt dl dO k1 n HD1 HK1) as (P1 & AG1 & AC1 & AV1 & RUN1).
    destruct (arrow_bundle O s2 ds dt dl dO k2 n HD2 HK2) as (P2 & AG2 & AC2 & AV2 & RUN2).
    destruct (RUN1 mt reg m1 w1 d01 IA1 DA1 DO01) as (d1 & S1 & EF1 & DO1 & C1 & Z1).
    destruct (RUN2 mt reg m2 w2 d02 IA2 DA2 DO02) as (d2 & S2 & EF2 & DO2 & C2 & Z2).
    clear RUN1 RUN2. exists d1, d2. split; auto. split; auto.
    assert (PIn := permIdx_in s1 n ds dt dl dO HD1).
    assert (PE : forall g, In g all -> permIdx s2 g = newIdx f (permIdx s1 g)).
    { intros g Hg. apply in_allIdx in Hg.
      destruct g as [i|t i|i|i]; cbn [permIdx newIdx]; f_equal;
        [apply (re_perm _ _ _ _ _ _ (ra_sd _ _ _ _ _ _ _ HR))|apply (re_perm _ _ _ _ _ _ (ra_td _ _ _ _ _ _ _ HR))
        |apply (re_perm _ _ _ _ _ _ (ra_ld _ _ _ _ _ _ _ HR))|apply (re_perm _ _ _ _ _ _ (ra_od _ _ _ _ _ _ _ HR))]; tauto. }
    assert (RB := fun g h => arrow_rank s1 ds dt dl dO k1 P1 n g h AG1 AC1).
    assert (RK : forall g h, In g all -> In h (fwdL k1 n g) -> rank n ds dt dl h < rank n ds dt dl g)
      by (intros; apply RB; auto).
    assert (RR : forall g, In g all -> fwdL k2 n g = fwdL k1 n g).
    { intros g Hg. apply (sorted_same (rlt ds dt dl n)).
      - unfold rlt. intros; lia.
      - unfold rlt. intros; lia.
      - apply (row_sorted s2 ds dt dl dO k2 P2); auto.
      - apply (row_sorted s1 ds dt dl dO k1 P1); auto.
      - intros h. pose proof (stored_row s1 ds dt dl dO n k1 P1 AG1 g h). pose proof (stored_row s2 ds dt dl dO n k2 P2 AG2 g h).
        pose proof (ST n g h). unfold all in Hg. tauto. }
    assert (BR : forall g, In g all -> bwdL ds dt dl dO k2 n g = bwdL ds dt dl dO k1 n g).
    { intros g Hg. apply in_allIdx in Hg.
      assert (Esd : forall i j, In (i, j) (c_entries (b_sp (k_sd k2))) <-> In (i, j) (c_entries (b_sp (k_sd k1))))
        by (intros i j; symmetry; apply (ST n (GS i) (GS j))).
      assert (Esn : forall i j, In (i, j) (c_entries (b_sp (k_sn k2))) <-> In (i, j) (c_entries (b_sp (k_sn k1))))
        by (intros i j; pose proof (ST n (GT 0 i) (GS j)) as X; cbn in X; tauto).
      assert (Eso : forall i j, In (i, j) (c_entries (b_sp (k_so k2))) <-> In (i, j) (c_entries (b_sp (k_so k1))))
        by (intros i j; symmetry; apply (ST n (GO i) (GS j))).
      assert (Etd : forall i j, In (i, j) (c_entries (b_sp (k_td k2))) <-> In (i, j) (c_entries (b_sp (k_td k1)))).
      { intros i j. pose proof (ST n (GT 0 i) (GT 0 j)) as X. cbn [storedAt] in X.
        assert (0 < n + 1) by lia. assert (0 <> 0 + 1) by lia. assert (0 = 0) by auto. tauto. }
      assert (Ets : forall i j, In (i, j) (c_entries (b_sp (k_ts k2))) <-> In (i, j) (c_entries (b_sp (k_ts k1)))).
      { intros i j. pose proof (ST 1 (GT 1 i) (GT 0 j)) as X. cbn [storedAt] in X.
        assert (1 < 1 + 1) by lia. assert (1 <> 0) by lia. assert (1 = 0 + 1) by auto. tauto. }
      assert (Elp : forall i j, In (i, j) (c_entries (b_sp (k_lp k2))) <-> In (i, j) (c_entries (b_sp (k_lp k1))))
        by (intros i j; pose proof (ST n (GL i) (GT n j)) as X; cbn in X; tauto).
      assert (Eld : forall i j, In (i, j) (c_entries (b_sp (k_ld k2))) <-> In (i, j) (c_entries (b_sp (k_ld k1))))
        by (intros i j; symmetry; apply (ST n (GL i) (GL j))).
      assert (Eln : forall i j, In (i, j) (c_entries (b_sp (k_ln k2))) <-> In (i, j) (c_entries (b_sp (k_ln k1))))
        by (intros i j; symmetry; apply (ST n (GO i) (GL j))).
      assert (Eos : forall i j, In (i, j) (c_entries (b_sp (k_os k2))) <-> In (i, j) (c_entries (b_sp (k_os k1)))).
      { intros i j. pose proof (ST n (GO i) (GT 0 j)) as X. cbn in X.
        assert (0 < n + 1) by lia. tauto. }
      assert (Eod : forall i j, In (i, j) (c_entries (b_sp (k_od k2))) <-> In (i, j) (c_entries (b_sp (k_od k1))))
        by (intros i j; symmetry; apply (ST n (GO i) (GO j))).
      destruct g as [j|t j|j|j]; cbn [bwdL].
      - rewrite (rows_same _ _ dO j (fun i => Eso i j)), (rows_same _ _ dt j (fun i => Esn i j)),
          (rows_same _ _ ds j (fun i => Esd i j)). reflexivity.
      - rewrite (rows_same _ _ dO j (fun i => Eos i j)), (rows_same _ _ dl j (fun i => Elp i j)),
          (rows_same _ _ dt j (fun i => Ets i j)), (rows_same _ _ dt j (fun i => Etd i j)). reflexivity.
      - rewrite (rows_same _ _ dO j (fun i => Eln i j)), (rows_same _ _ dl j (fun i => Eld i j)). reflexivity.
      - rewrite (rows_same _ _ dO j (fun i => Eod i j)). reflexivity. }
    assert (AA : forall g h, In g all -> In h all ->
      symArrow O n (permFun s1 (matFun O m1 w1)) g h = symArrow O n (permFun s2 (matFun O m2 w2)) g h).
    { intros g h Hg Hh. rewrite (A_mat O s1 ds dt dl dO n m1 w1 IA1), (A_mat O s2 ds dt dl dO n m2 w2 IA2).
      rewrite !PE by auto. apply AE; apply PIn; auto. }
    assert (LO : local gidx_eq_dec gidx_eq_dec all all (fwdL k1 n) (fwdL k2 n) (fun g => g)
      (arrowForm mt) (arrowForm mt)
      (symArrow O n (permFun s1 (matFun O m1 w1))) (fun v g => reg v (localIdx g))
      (symArrow O n (permFun s2 (matFun O m2 w2))) (fun v g => reg v (localIdx g))
      (fun g h => In g all /\ In h (fwdL k1 n g)) (fun g => In g all)).
    { assert (RI : forall g h, In g all -> In h (fwdL k1 n g) -> In h all) by (intros g h H1 H2; apply RB in H2; tauto).
      constructor.
      - intros g h [H1 H2]. rewrite (RR g H1). auto.
      - intros g h [H1 H2]. rewrite map_id. unfold common. rewrite (RR g H1), (RR h (RI g h H1 H2)). reflexivity.
      - intros g h x [H1 H2] Hx. apply common_In in Hx. destruct Hx as [X1 X2].
        repeat split; auto; eapply RI; eauto.
      - intros g h [H1 H2]. eapply RI; eauto.
      - intros g h [H1 H2]. apply AA; auto. eapply RI; eauto.
      - auto.
      - intros g H. rewrite map_id. auto.
      - auto.
      - intros g H. apply AA; auto.
      - auto. }
    assert (LD := local_D O gidx_eq_dec gidx_eq_dec _ _ _ _ (fun i => i) (rank n ds dt dl) _ _ _ _ _ _ _ _ _ _ _ _ C1 C2 RK _ _ LO).
    assert (LL := local_L O gidx_eq_dec gidx_eq_dec _ _ _ _ (fun i => i) (rank n ds dt dl) _ _ _ _ _ _ _ _ _ _ _ _ C1 C2 RK _ _ LO).
    split; [intros g Hg; apply (LD g); auto|]. split.
    { intros g h Hg Hh N. rewrite !(factorAt_strict O ds dt dl dO _ n) by auto.
      destruct (in_dec gidx_eq_dec h (fwdL k1 n g)) as [H|H].
      - apply (LL g h). split; auto.
      - rewrite Z1, Z2; auto. rewrite RR; auto. }
    intros rhs1 rhs2 VR1 VR2 EB.
    destruct (arrow_solve_eqs O s1 ds dt dl dO k1 P1 n d1 rhs1 AG1 AC1 DO1 VR1)
      as (y1 & z1 & x1 & E1 & Nx1 & FE1 & DE1 & BE1).
    destruct (arrow_solve_eqs O s2 ds dt dl dO k2 P2 n d2 rhs2 AG2 AC2 DO2 VR2)
      as (y2 & z2 & x2 & E2 & Nx2 & FE2 & DE2 & BE2).
    exists x1, x2. do 4 (split; [assumption|]). intros g Hg.
    pose proof (Permutation_in _ (Permutation_sym (permIdx_Permutation s1 n ds dt dl dO HD1)) Hg) as Hg'.
    apply in_map_iff in Hg'. destruct Hg' as (g' & <- & Hg'). rewrite <- (PE g' Hg').
    change (pvec O s1 x1 g' = pvec O s2 x2 g').
    pose proof (arrow_cols s1 ds dt dl dO k1 P1 AG1 n) as CG.
    apply (local_solve O gidx_eq_dec gidx_eq_dec _ _ _ _ (fun g => g) (rank n ds dt dl) _ _ _ _ _ _ _ _ _ _ _ _ C1 C2 RK _ _ LO
      (bwdL ds dt dl dO k1 n) (bwdL ds dt dl dO k2 n)) with (b1 := pvec O s1 rhs1) (b2 := pvec O s2 rhs2) (y1 := y1) (y2 := y2)
      (z1 := z1) (z2 := z2) (top := ds + (n + 1) * dt + dl + dO + 1); auto.
    - intros h Hh. rewrite map_id. auto.
    - intros h x H1 Hx. apply (cg_in _ _ _ CG) in Hx; auto. tauto.
    - intros h H1. unfold pvec. rewrite (PE h H1). apply EB. apply PIn; auto.
    - intros h Hh. pose proof (rank_le n ds dt dl dO h Hh). lia.
  Qed.

  (** ** block tridiagonal systems *)
  Lemma tri_renumber a1 c1 p1 a2 c2 p2 dt k1 k2 f :
    spOf a1 dt dt -> spOf c1 dt dt -> validPerm dt p1 -> tridiagonalBlocks a1 c1 p1 = Ok k1 ->
    spOf a2 dt dt -> spOf c2 dt dt -> validPerm dt p2 -> tridiagonalBlocks a2 c2 p2 = Ok k2 ->
    renumbered dt f (entries a1) (entries a2) p1 p2 -> renumberedRect dt dt f f (entries c1) (entries c2) ->
    forall n mt reg A1 B1 wA1 wB1 A2 B2 wA2 wB2 d01 d02,
    inputTri O n dt A1 B1 wA1 wB1 -> declaredTri a1 c1 n A1 B1 ->
    inputTri O n dt A2 B2 wA2 wB2 -> declaredTri a2 c2 n A2 B2 ->
    (forall t i u j, t < n + 1 -> i < dt -> u < n + 1 -> j < dt ->
       triMatAt O A1 B1 wA1 wB1 t i u j = triMatAt O A2 B2 wA2 wB2 t (f i) u (f j)) ->
    dataOf k1 n 0 dt 0 0 d01 -> dataOf k2 n 0 dt 0 0 d02 ->
    exists d1 d2, tridiagonalFactorize O mt k1 dt A1 B1 reg d01 = Ok d1 /\
      tridiagonalFactorize O mt k2 dt A2 B2 reg d02 = Ok d2 /\
      (forall t i, t < n + 1 -> i < dt -> pivotAt O d1 (GT t i) = pivotAt O d2 (GT t i)) /\
      (forall t i u j, t < n + 1 -> i < dt -> u < n + 1 -> j < dt -> (t, i) <> (u, j) ->
         factorAt O (o0 O) k1 d1 (GT t i) (GT u j) = factorAt O (o0 O) k2 d2 (GT t i) (GT u j)) /\
      forall rhs1 rhs2, blocksOf n dt rhs1 -> blocksOf n dt rhs2 ->
      (forall t i, t < n + 1 -> i < dt -> vecAt O (nth t rhs1 []) i = vecAt O (nth t rhs2 []) (f i)) ->
      exists x1 x2, tridiagonalSolveInPlace O k1 d1 rhs1 = Ok x1 /\ tridiagonalSolveInPlace O k2 d2 rhs2 = Ok x2 /\
        blocksOf n dt x1 /\ blocksOf n dt x2 /\
        forall t i, t < n + 1 -> i < dt -> vecAt O (nth t x1 []) i = vecAt O (nth t x2 []) (f i).
  Proof.
    intros SA1 SC1 HP1 HK1 SA2 SC2 HP2 HK2 HR1 HR2 n mt reg A1 B1 wA1 wB1 A2 B2 wA2 wB2 d01 d02 IT1 DT1 IT2 DT2 AE DO1 DO2.
    unfold tridiagonalFactorize, numRepetitions in *. rewrite (do_nts _ _ _ _ _ _ _ DO1), (do_nts _ _ _ _ _ _ _ DO2).
    assert (TI : forall g, In g (allIdx n 0 dt 0 0) <-> exists t i, g = GT t i /\ t < n + 1 /\ i < dt)
      by (intros; apply in_tri).
    assert (HR : renumberedArrow 0 dt 0 0 (mkNumbering (fun i => i) f (fun i => i) (fun i => i))
      (tridiagonalSparsity a1 c1 p1) (tridiagonalSparsity a2 c2 p2)).
    { constructor; try exact HR1; try exact HR2; try (intros x y H1 H2; cbn; tauto); constructor; intros; lia. }
    destruct (arrow_renumber _ _ 0 dt 0 0 k1 k2 _ (tri_dims a1 c1 p1 dt SA1 SC1 HP1) (tri_dims a2 c2 p2 dt SA2 SC2 HP2)
      (tri_k a1 c1 p1 dt k1 SA1 SC1 HK1) (tri_k a2 c2 p2 dt k2 SA2 SC2 HK2) HR n) as [_ RUN].
    destruct (RUN mt reg _ _ _ _ d01 d02 (tri_input O n dt A1 B1 wA1 wB1 IT1) (tri_declared a1 c1 p1 n dt A1 B1 DT1)
      (tri_input O n dt A2 B2 wA2 wB2 IT2) (tri_declared a2 c2 p2 n dt A2 B2 DT2)) as (d1 & d2 & E1 & E2 & H1 & H2 & H3); auto.
    - intros g h Hg Hh. apply TI in Hg, Hh. destruct Hg as (t & i & -> & Ht & Hi), Hh as (u & j & -> & Hu & Hj).
      apply AE; auto.
    - exists d1, d2. split; auto. split; auto. split; [intros; apply H1; auto; apply TI; eauto|].
      split; [intros; apply H2; [apply TI; eauto|apply TI; eauto|congruence]|].
      intros rhs1 rhs2 VR1 VR2 RR.
      destruct (H3 _ _ (tri_vec n dt rhs1 VR1) (tri_vec n dt rhs2 VR2)) as (x1 & x2 & ES1 & ES2 & V1 & V2 & HX).
      { intros g Hg. apply TI in Hg. destruct Hg as (t & i & -> & Ht & Hi). apply RR; auto. }
      exists (v_tri x1), (v_tri x2). unfold tridiagonalSolveInPlace. rewrite ES1, ES2.
      split; auto. split; auto. split; [split; apply V1|]. split; [split; apply V2|].
      intros t i Ht Hi. apply (HX (GT t i)); auto. apply TI; eauto.
  Qed.
End Run.
