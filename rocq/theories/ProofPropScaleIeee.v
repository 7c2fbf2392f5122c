(** Scaling a system by powers of two in IEEE arithmetic. *)
From Coq Require Import Lia List Arith Bool Reals ZArith Lra.
From Flocq Require Import Core BinarySingleNaN.
From Verif Require Import Base ModelPerm ModelSparsity ModelSymbolic ModelNumeric ModelArrow ModelReg ModelIeee.
From Verif Require Import SpecSymbolic SpecArrow SpecNumeric SpecArrowNum SpecReg SpecScale SpecUnderflow.
From Verif Require Import ProofBase ProofPerm ProofCsr ProofFill ProofDense ProofExact ProofLdl ProofKernel ProofSolve
  ProofSingle ProofSingleMain ProofArrowSym ProofArrowRows ProofArrowDense ProofArrowProduct ProofArrowSolve ProofArrowMain
  ProofArrowSub ProofChain ProofChainKernel ProofChainArrow ProofRoundMain ProofRoundUser ProofRoundTri
  ProofPropSymbolic ProofPropArrow ProofPropPivot ProofScale ProofScaleIeee ProofPropScale.
Import ListNotations.
Local Open Scope nat_scope.

Lemma regNone_scaled {G F1 F2} (fin1 : F1 -> Prop) (fin2 : F2 -> Prop) (rel : G -> F1 -> F2 -> Prop) k :
  regScaled fin1 fin2 rel k regularizationNone regularizationNone.
Proof. intros i v v'. unfold regularizationNone. auto. Qed.

Section Ieee.
  Variables (prec emax : Z).
  Context (Hp : Prec_gt_0 prec) (Hm : Prec_lt_emax prec emax).
  Local Notation O := (ieeeOps prec emax Hp Hm).
  Local Notation T := (trapOps prec emax Hp Hm).
  Local Notation fin := (ieeeFinite prec emax).
  Local Notation val := (ieeeVal prec emax).
  Local Notation none := regularizationNone.

  Lemma input_trap m a vals : inputOf O m a vals -> inputOf T m a vals.
  Proof. intros H. destruct H. constructor; assumption. Qed.
  Lemma arrow_input_trap n ds dt dl dO m w : inputArrow O n ds dt dl dO m w -> inputArrow T n ds dt dl dO m w.
  Proof.
    assert (MO : forall m nr nc vals, matOf O m nr nc vals -> matOf T m nr nc vals).
    { unfold matOf. intros m' nr nc vals (H & H'). split; auto using input_trap. }
    intros H. destruct H. constructor; auto; intros t Ht; apply MO; auto.
  Qed.

  Lemma single_trap sp n p b :
    spOf sp n n -> validPerm n p -> factorizationBlk sp p = Ok b ->
    forall mt a vals m L0 D0 L D,
    spOf a n n -> inputOf O m a vals -> coveredSym (entries a) (entries sp) n p ->
    (forall i j, i < n -> j < n -> fin (symAt O (entries a) vals i j)) ->
    length L0 = c_nnz (b_sp b) -> length D0 = n ->
    factorize T mt b (Some m) none (L0, D0) = Ok (L, D) ->
    (forall i, i < n -> fin (vecAt O D i) /\ val (vecAt O D i) <> 0%R) ->
    (forall i j, j < i -> i < n -> fin (denseAt O (c_entries (b_sp b)) L i j)) ->
    exists L' D', factorize O mt b (Some m) none (L0, D0) = Ok (L', D') /\
      (forall i, i < n -> vecAt O D' i = vecAt O D i) /\
      (forall i j, i < n -> j < n ->
         denseAt O (c_entries (b_sp b)) L' i j = denseAt O (c_entries (b_sp b)) L i j) /\
      forall rhs x, length rhs = n -> (forall i, i < n -> fin (vecAt O rhs i)) ->
      solveInPlace T b (L, D) rhs = Ok x -> (forall i, i < n -> fin (vecAt O x i)) ->
      exists x', solveInPlace O b (L', D') rhs = Ok x' /\ forall i, i < n -> vecAt O x' i = vecAt O x i.
  Proof.
    intros HS HP HB mt a vals m L0 D0 L D HA HI HC FA N1 N2 EF FD FL.
    destruct (factorize_ok O mt b n _ p m a vals none L0 D0 (blk_good sp n p b HS HP HB) (blk_low sp n p) (Fill_closed _)
      HI HA HC N1 N2) as (L' & D' & EF' & NL & ND & _).
    exists L', D'. split; auto.
    destruct (single_scaled Or FLr _ T O _ _ _ _ (trap_none prec emax Hp Hm) sp n p b HS HP HB mt 1%R (fun _ => 1%R) none none
      a vals m a vals m L0 D0 L0 D0 L D L' D') as (H1 & H2 & H3); auto using input_trap, arrow_input_trap.
    { intros i j Hi Hj. split; [reflexivity|]. apply (FA i j Hi Hj). }
    { intros i Hi. apply regNone_scaled. }
    split; [intros i Hi; destruct (H1 i Hi) as [E _]; symmetry; exact E|].
    split; [intros i j Hi Hj; destruct (H2 i j Hi Hj) as [E _]; symmetry; exact E|].
    intros rhs x NR FR ES FX.
    destruct (single_solve_eqs O b n _ p L' D' rhs (blk_good sp n p b HS HP HB) (blk_low sp n p) NL ND NR)
      as (y & z & x' & ES' & _).
    exists x'. split; auto. intros i Hi.
    destruct (H3 1%R rhs rhs x x') with (i := i) as [E _]; auto.
    intros j Hj. split; [reflexivity|]. apply FR; auto.
  Qed.

  Lemma single_ieee_scaled sp n p b :
    spOf sp n n -> validPerm n p -> factorizationBlk sp p = Ok b ->
    forall mt c (s : nat -> R) a1 vals1 m1 a2 vals2 m2 L01 D01 L02 D02 L1 D1 L2 D2,
    pow2 c -> (forall i, i < n -> pow2 (s i)) ->
    spOf a1 n n -> inputOf O m1 a1 vals1 -> coveredSym (entries a1) (entries sp) n p ->
    spOf a2 n n -> inputOf O m2 a2 vals2 -> coveredSym (entries a2) (entries sp) n p ->
    (forall i j, i < n -> j < n ->
       fin (symAt O (entries a1) vals1 i j) /\ fin (symAt O (entries a2) vals2 i j) /\
       val (symAt O (entries a2) vals2 i j) = (c * (s i * s j) * val (symAt O (entries a1) vals1 i j))%R) ->
    length L01 = c_nnz (b_sp b) -> length D01 = n ->
    length L02 = c_nnz (b_sp b) -> length D02 = n ->
    factorize T mt b (Some m1) none (L01, D01) = Ok (L1, D1) ->
    factorize T mt b (Some m2) none (L02, D02) = Ok (L2, D2) ->
    (forall i, i < n -> fin (vecAt O D1 i) /\ fin (vecAt O D2 i) /\ val (vecAt O D1 i) <> 0%R) ->
    (forall i j, j < i -> i < n ->
       fin (denseAt O (c_entries (b_sp b)) L1 i j) /\ fin (denseAt O (c_entries (b_sp b)) L2 i j)) ->
    exists L1' D1' L2' D2',
    factorize O mt b (Some m1) none (L01, D01) = Ok (L1', D1') /\
    factorize O mt b (Some m2) none (L02, D02) = Ok (L2', D2') /\
    (forall i, i < n ->
       val (vecAt O D2' i) = (c * (s (nth i p 0%nat) * s (nth i p 0%nat)) * val (vecAt O D1' i))%R) /\
    (forall i j, i < n -> j < n -> val (denseAt O (c_entries (b_sp b)) L2' i j) =
       (s (nth i p 0%nat) / s (nth j p 0%nat) * val (denseAt O (c_entries (b_sp b)) L1' i j))%R) /\
    forall t rhs1 rhs2 x1 x2, pow2 t -> length rhs1 = n -> length rhs2 = n ->
    (forall i, i < n -> fin (vecAt O rhs1 i) /\ fin (vecAt O rhs2 i) /\
       val (vecAt O rhs2 i) = (t * s i * val (vecAt O rhs1 i))%R) ->
    solveInPlace T b (L1, D1) rhs1 = Ok x1 -> solveInPlace T b (L2, D2) rhs2 = Ok x2 ->
    (forall i, i < n -> fin (vecAt O x1 i) /\ fin (vecAt O x2 i)) ->
    exists x1' x2', solveInPlace O b (L1', D1') rhs1 = Ok x1' /\ solveInPlace O b (L2', D2') rhs2 = Ok x2' /\
    forall i, i < n -> val (vecAt O x2' i) = (t / c / s i * val (vecAt O x1' i))%R.
  Proof.
    intros HS HP HB mt c s a1 vals1 m1 a2 vals2 m2 L01 D01 L02 D02 L1 D1 L2 D2
      OC OS HA1 HI1 HC1 HA2 HI2 HC2 AE N1 N1' N2 N2' EF1 EF2 FD FL.
    destruct (single_scaled Or FLr _ T T _ _ _ _ (trap_scale prec emax Hp Hm) sp n p b HS HP HB mt c s none none
      a1 vals1 m1 a2 vals2 m2 L01 D01 L02 D02 L1 D1 L2 D2) as (H1 & H2 & H3); auto using input_trap, arrow_input_trap.
    { intros i Hi. apply regNone_scaled. }
    { intros i Hi. split; apply FD; auto. }
    { intros i Hi. apply FD; auto. }
    { intros i j Hj Hi. apply FL; auto. }
    { intros i j Hj Hi. apply FL; auto. }
    assert (FD1 : forall i, i < n -> fin (vecAt O D1 i) /\ val (vecAt O D1 i) <> 0%R) by (intros; split; apply FD; auto).
    assert (FD2 : forall i, i < n -> fin (vecAt O D2 i) /\ val (vecAt O D2 i) <> 0%R).
    { intros i Hi. destruct (H1 i Hi) as (_ & F2 & E). split; auto.
      change (vecAt T D1 i) with (vecAt O D1 i) in E. change (vecAt T D2 i) with (vecAt O D2 i) in E. rewrite E.
      assert (In' : nth i p 0 < n) by (eapply ProofPerm.isPerm_lt; eauto using validPerm_isPerm).
      apply Rmult_integral_contrapositive_currified; [|apply FD; auto].
      apply pow2_nz. apply pow2_mul; auto. apply pow2_mul; auto. }
    destruct (single_trap sp n p b HS HP HB mt a1 vals1 m1 L01 D01 L1 D1) as (L1' & D1' & E1 & D1e & L1e & X1); auto.
    { intros i j Hi Hj. apply AE; auto. }
    { intros i j Hj Hi. apply FL; auto. }
    destruct (single_trap sp n p b HS HP HB mt a2 vals2 m2 L02 D02 L2 D2) as (L2' & D2' & E2 & D2e & L2e & X2); auto.
    { intros i j Hi Hj. apply AE; auto. }
    { intros i j Hj Hi. apply FL; auto. }
    exists L1', D1', L2', D2'. split; auto. split; auto.
    split; [intros i Hi; rewrite D1e, D2e by auto; apply (H1 i Hi)|].
    split; [intros i j Hi Hj; rewrite L1e, L2e by auto; apply (H2 i j Hi Hj)|].
    intros t rhs1 rhs2 x1 x2 OT NR1 NR2 HR ES1 ES2 FX.
    destruct (X1 rhs1 x1) as (x1' & ES1' & Ex1); auto; [intros i Hi; apply HR; auto|intros i Hi; apply FX; auto|].
    destruct (X2 rhs2 x2) as (x2' & ES2' & Ex2); auto; [intros i Hi; apply HR; auto|intros i Hi; apply FX; auto|].
    exists x1', x2'. split; auto. split; auto. intros i Hi. rewrite Ex1, Ex2 by auto.
    apply (H3 t rhs1 rhs2 x1 x2); auto; intros j Hj; apply FX; auto.
  Qed.

  Lemma arrow_trap sp ds dt dl dO k n :
    arrowDims sp ds dt dl dO -> arrowBlocks sp = Ok k ->
    forall mt m w d0 d,
    let all := allIdx n ds dt dl dO in
    inputArrow O n ds dt dl dO m w -> declaredArrow sp n m ->
    (forall g h, In g all -> In h all -> fin (matAt O m w g h)) ->
    dataOf k n ds dt dl dO d0 ->
    arrowFactorize T mt k m none d0 = Ok d ->
    (forall g, In g all -> fin (pivotAt O d g) /\ val (pivotAt O d g) <> 0%R) ->
    (forall g h, In g all -> In h all -> g <> h -> fin (factorAt O (o0 O) k d g h)) ->
    exists d', arrowFactorize O mt k m none d0 = Ok d' /\
      (forall g, In g all -> pivotAt O d' g = pivotAt O d g) /\
      (forall g h, In g all -> In h all -> g <> h -> factorAt O (o0 O) k d' g h = factorAt O (o0 O) k d g h) /\
      forall rhs x, vecOf n ds dt dl dO rhs -> (forall g, In g all -> fin (gvecAt O rhs g)) ->
      arrowSolveInPlace T k d rhs = Ok x -> (forall g, In g all -> fin (gvecAt O x g)) ->
      exists x', arrowSolveInPlace O k d' rhs = Ok x' /\ forall g, In g all -> gvecAt O x' g = gvecAt O x g.
  Proof.
    intros HD HK mt m w d0 d all IA DA FA DO0 EF FD FL.
    destruct (arrow_good sp ds dt dl dO k HD HK) as (P & AG & AC & AV).
    pose proof (goodInput_of O sp ds dt dl dO P n m w HD AV IA DA) as GI.
    destruct (arrowFactorize_ok O sp ds dt dl dO k P AG AC mt n m none d0 DO0 GI) as (d' & EF' & DO' & AR).
    exists d'. split; auto.
    destruct (arrow_scaled Or FLr _ T O _ _ _ _ (trap_none prec emax Hp Hm) sp ds dt dl dO k n HD HK mt 1%R (fun _ => 1%R)
      none none m w m w d0 d0 d d') as (H1 & H2 & H3); auto using input_trap, arrow_input_trap.
    { intros g h Hg Hh. split; [auto|]. apply FA; auto. }
    { intros g Hg. apply regNone_scaled. }
    split; [intros g Hg; destruct (H1 g Hg) as [E _]; symmetry; exact E|].
    split; [intros g h Hg Hh N; destruct (H2 g h Hg Hh N) as [E _]; symmetry; exact E|].
    intros rhs x VR FR ES FX.
    destruct (arrow_solve_eqs O sp ds dt dl dO k P n d' rhs AG AC DO' VR) as (y & z & x' & ES' & _).
    exists x'. split; auto. intros g Hg.
    destruct (H3 1%R rhs rhs x x') with (g := g) as [E _]; auto.
    intros h Hh. split; [reflexivity|]. apply FR; auto.
  Qed.

  Lemma arrow_ieee_scaled sp ds dt dl dO k n :
    arrowDims sp ds dt dl dO -> arrowBlocks sp = Ok k ->
    forall mt c (s : gidx -> R) m1 w1 m2 w2 d01 d02 d1 d2,
    let all := allIdx n ds dt dl dO in
    pow2 c -> (forall g, In g all -> pow2 (s g)) ->
    inputArrow O n ds dt dl dO m1 w1 -> declaredArrow sp n m1 ->
    inputArrow O n ds dt dl dO m2 w2 -> declaredArrow sp n m2 ->
    (forall g h, In g all -> In h all ->
       fin (matAt O m1 w1 g h) /\ fin (matAt O m2 w2 g h) /\
       val (matAt O m2 w2 g h) = (c * (s g * s h) * val (matAt O m1 w1 g h))%R) ->
    dataOf k n ds dt dl dO d01 -> dataOf k n ds dt dl dO d02 ->
    arrowFactorize T mt k m1 none d01 = Ok d1 ->
    arrowFactorize T mt k m2 none d02 = Ok d2 ->
    (forall g, In g all -> fin (pivotAt O d1 g) /\ fin (pivotAt O d2 g) /\ val (pivotAt O d1 g) <> 0%R) ->
    (forall g h, In g all -> In h all -> g <> h ->
       fin (factorAt O (o0 O) k d1 g h) /\ fin (factorAt O (o0 O) k d2 g h)) ->
    exists d1' d2',
    arrowFactorize O mt k m1 none d01 = Ok d1' /\ arrowFactorize O mt k m2 none d02 = Ok d2' /\
    (forall g, In g all ->
       val (pivotAt O d2' g) = (c * (s (permIdx sp g) * s (permIdx sp g)) * val (pivotAt O d1' g))%R) /\
    (forall g h, In g all -> In h all -> g <> h -> val (factorAt O (o0 O) k d2' g h) =
       (s (permIdx sp g) / s (permIdx sp h) * val (factorAt O (o0 O) k d1' g h))%R) /\
    forall t rhs1 rhs2 x1 x2, pow2 t -> vecOf n ds dt dl dO rhs1 -> vecOf n ds dt dl dO rhs2 ->
    (forall g, In g all -> fin (gvecAt O rhs1 g) /\ fin (gvecAt O rhs2 g) /\
       val (gvecAt O rhs2 g) = (t * s g * val (gvecAt O rhs1 g))%R) ->
    arrowSolveInPlace T k d1 rhs1 = Ok x1 -> arrowSolveInPlace T k d2 rhs2 = Ok x2 ->
    (forall g, In g all -> fin (gvecAt O x1 g) /\ fin (gvecAt O x2 g)) ->
    exists x1' x2', arrowSolveInPlace O k d1' rhs1 = Ok x1' /\ arrowSolveInPlace O k d2' rhs2 = Ok x2' /\
    forall g, In g all -> val (gvecAt O x2' g) = (t / c / s g * val (gvecAt O x1' g))%R.
  Proof.
    intros HD HK mt c s m1 w1 m2 w2 d01 d02 d1 d2 all OC OS IA1 DA1 IA2 DA2 AE DO01 DO02 EF1 EF2 FD FL.
    destruct (arrow_scaled Or FLr _ T T _ _ _ _ (trap_scale prec emax Hp Hm) sp ds dt dl dO k n HD HK mt c s none none
      m1 w1 m2 w2 d01 d02 d1 d2) as (H1 & H2 & H3); auto using input_trap, arrow_input_trap.
    { intros g Hg. apply regNone_scaled. }
    { intros g Hg. split; apply FD; auto. }
    { intros g Hg. apply FD; auto. }
    { intros g h Hg Hh N. apply FL; auto. }
    { intros g h Hg Hh N. apply FL; auto. }
    assert (PIn := permIdx_in sp n ds dt dl dO HD).
    assert (FD1 : forall g, In g all -> fin (pivotAt O d1 g) /\ val (pivotAt O d1 g) <> 0%R) by (intros; split; apply FD; auto).
    assert (FD2 : forall g, In g all -> fin (pivotAt O d2 g) /\ val (pivotAt O d2 g) <> 0%R).
    { intros g Hg. destruct (H1 g Hg) as (_ & F2 & E). split; auto.
      change (pivotAt T d1 g) with (pivotAt O d1 g) in E. change (pivotAt T d2 g) with (pivotAt O d2 g) in E. rewrite E.
      apply Rmult_integral_contrapositive_currified; [|apply FD; auto].
      apply pow2_nz. apply pow2_mul; auto. apply pow2_mul; apply OS, PIn; auto. }
    destruct (arrow_trap sp ds dt dl dO k n HD HK mt m1 w1 d01 d1) as (d1' & E1 & D1e & L1e & X1); auto.
    { intros g h Hg Hh. apply AE; auto. }
    { intros g h Hg Hh N. apply FL; auto. }
    destruct (arrow_trap sp ds dt dl dO k n HD HK mt m2 w2 d02 d2) as (d2' & E2 & D2e & L2e & X2); auto.
    { intros g h Hg Hh. apply AE; auto. }
    { intros g h Hg Hh N. apply FL; auto. }
    exists d1', d2'. split; auto. split; auto.
    split; [intros g Hg; rewrite D1e, D2e by auto; apply (H1 g Hg)|].
    split; [intros g h Hg Hh N; rewrite L1e, L2e by auto; apply (H2 g h Hg Hh N)|].
    intros t rhs1 rhs2 x1 x2 OT NR1 NR2 HR ES1 ES2 FX.
    destruct (X1 rhs1 x1) as (x1' & ES1' & Ex1); auto; [intros g Hg; apply HR; auto|intros g Hg; apply FX; auto|].
    destruct (X2 rhs2 x2) as (x2' & ES2' & Ex2); auto; [intros g Hg; apply HR; auto|intros g Hg; apply FX; auto|].
    exists x1', x2'. split; auto. split; auto. intros g Hg. rewrite Ex1, Ex2 by auto.
    apply (H3 t rhs1 rhs2 x1 x2); auto; intros h Hh; apply FX; auto.
  Qed.
End Ieee.
