(** Factorizations and solves of scaled systems are scaled. *)
From Coq Require Import Lia List Arith Bool Permutation Sorted.
From Verif Require Import Base ModelPerm ModelSparsity ModelSymbolic ModelNumeric ModelArrow ModelReg.
From Verif Require Import SpecSymbolic SpecArrow SpecNumeric SpecArrowNum SpecPivot SpecScale.
From Verif Require Import ProofBase ProofPerm ProofCsr ProofFill ProofDense ProofExact ProofLdl ProofKernel ProofSolve
  ProofSingle ProofSingleMain ProofArrowSym ProofArrowRows ProofArrowDense ProofArrowProduct ProofArrowSolve ProofArrowMain
  ProofArrowSub ProofChain ProofChainKernel ProofChainArrow ProofRoundMain ProofRoundUser ProofRoundTri
  ProofPropSymbolic ProofPropArrow ProofPropPivot ProofSign ProofPropSign ProofAgree ProofPropAgree ProofAgreeArrow ProofScale.
Import ListNotations.
Local Open Scope nat_scope.

Section User.
  Context {G F1 F2 : Type} (OG : ops G) (FL : fieldLaws OG) (ok : G -> Prop) (O1 : ops F1) (O2 : ops F2)
    (fin1 : F1 -> Prop) (fin2 : F2 -> Prop) (nz : F1 -> Prop) (rel : G -> F1 -> F2 -> Prop).
  Context (R : scaleRules OG ok O1 O2 fin1 fin2 nz rel).

  Lemma single_scaled sp n p b :
    spOf sp n n -> validPerm n p -> factorizationBlk sp p = Ok b ->
    forall mt c (s : nat -> G) reg1 reg2 a1 vals1 m1 a2 vals2 m2 L01 D01 L02 D02 L1 D1 L2 D2,
    ok c -> (forall i, i < n -> ok (s i)) ->
    spOf a1 n n -> inputOf O1 m1 a1 vals1 -> coveredSym (entries a1) (entries sp) n p ->
    spOf a2 n n -> inputOf O2 m2 a2 vals2 -> coveredSym (entries a2) (entries sp) n p ->
    (forall i j, i < n -> j < n ->
       rel (scaleA OG c s i j) (symAt O1 (entries a1) vals1 i j) (symAt O2 (entries a2) vals2 i j)) ->
    (forall i, i < n -> regScaled fin1 fin2 rel (scaleA OG c s i i) reg1 reg2) ->
    length L01 = c_nnz (b_sp b) -> length D01 = n ->
    length L02 = c_nnz (b_sp b) -> length D02 = n ->
    factorize O1 mt b (Some m1) reg1 (L01, D01) = Ok (L1, D1) ->
    factorize O2 mt b (Some m2) reg2 (L02, D02) = Ok (L2, D2) ->
    (forall i, i < n -> fin1 (vecAt O1 D1 i) /\ nz (vecAt O1 D1 i)) ->
    (forall i, i < n -> fin2 (vecAt O2 D2 i)) ->
    (forall i j, j < i -> i < n -> fin1 (denseAt O1 (c_entries (b_sp b)) L1 i j)) ->
    (forall i j, j < i -> i < n -> fin2 (denseAt O2 (c_entries (b_sp b)) L2 i j)) ->
    let sp := fun i => s (nth i p 0) in
    (forall i, i < n -> rel (scaleA OG c sp i i) (vecAt O1 D1 i) (vecAt O2 D2 i)) /\
    (forall i j, i < n -> j < n -> rel (scaleL OG sp i j)
       (denseAt O1 (c_entries (b_sp b)) L1 i j) (denseAt O2 (c_entries (b_sp b)) L2 i j)) /\
    forall t rhs1 rhs2 x1 x2, ok t -> length rhs1 = n -> length rhs2 = n ->
    (forall i, i < n -> rel (scaleB OG t s i) (vecAt O1 rhs1 i) (vecAt O2 rhs2 i)) ->
    solveInPlace O1 b (L1, D1) rhs1 = Ok x1 -> solveInPlace O2 b (L2, D2) rhs2 = Ok x2 ->
    (forall i, i < n -> fin1 (vecAt O1 x1 i)) -> (forall i, i < n -> fin2 (vecAt O2 x2 i)) ->
    forall i, i < n -> rel (scaleX OG c t s i) (vecAt O1 x1 i) (vecAt O2 x2 i).
  Proof.
    intros HS HP HB mt c s reg1 reg2 a1 vals1 m1 a2 vals2 m2 L01 D01 L02 D02 L1 D1 L2 D2
      OC OS HA1 HI1 HC1 HA2 HI2 HC2 AE RS N1 N1' N2 N2' EF1 EF2 FD1 FD2 FL1 FL2 sq.
    pose proof (blk_good sp n p b HS HP HB) as G0. pose proof (blk_low sp n p) as Low.
    destruct (factor_len O1 sp n p b HS HP HB mt a1 vals1 m1 reg1 L01 D01 L1 D1 HA1 HI1 HC1 N1 N1' EF1) as [NL1 ND1].
    destruct (factor_len O2 sp n p b HS HP HB mt a2 vals2 m2 reg2 L02 D02 L2 D2 HA2 HI2 HC2 N2 N2' EF2) as [NL2 ND2].
    pose proof (validPerm_isPerm _ _ HP) as IP.
    assert (PB : forall i, i < n -> nth i p 0 < n) by (intros; eapply isPerm_lt; eauto).
    destruct (single_chainedF O1 mt b n _ p m1 a1 vals1 reg1 L01 D01 L1 D1 G0 Low (Fill_closed _) HI1 HA1 HC1 N1 N1' EF1)
      as (S1 & C1).
    destruct (single_chainedF O2 mt b n _ p m2 a2 vals2 reg2 L02 D02 L2 D2 G0 Low (Fill_closed _) HI2 HA2 HC2 N2 N2' EF2)
      as (S2 & C2).
    pose proof (ProofChainKernel.single_rows O1 b n _ p m1 a1 vals1 L01 D01 L1 G0 Low (Fill_closed _) HI1 HA1 HC1 N1 N1') as R1.
    pose proof (ProofChainKernel.single_rows O2 b n _ p m2 a2 vals2 L02 D02 L2 G0 Low (Fill_closed _) HI2 HA2 HC2 N2 N2') as R2.
    assert (BR : forall g k, In g (seq 0 n) -> In k (cols (b_sp b) g) -> In k (seq 0 n) /\ k < g).
    { intros g k Hg Hk. apply in_seq in Hg. apply cols_In, (gb_in _ _ _ _ _ _ _ G0), Low in Hk. rewrite in_seq. lia. }
    assert (OS' : forall g, In g (seq 0 n) -> ok (sq g)).
    { intros g Hg. apply in_seq in Hg. apply OS, PB. lia. }
    assert (XA : forall g h, In g (seq 0 n) -> In h (g :: cols (b_sp b) g) ->
      rel (scaleA OG c sq g h) (symAt O1 (entries a1) vals1 (nth g p 0) (nth h p 0))
        (symAt O2 (entries a2) vals2 (nth g p 0) (nth h p 0))).
    { intros g h Hg Hh. assert (h < n).
      { destruct Hh as [<-|Hh]; [apply in_seq in Hg; lia|]. destruct (BR g h Hg Hh) as [H _]. apply in_seq in H. lia. }
      apply in_seq in Hg. apply (AE (nth g p 0) (nth h p 0)); apply PB; lia. }
    assert (XD1 : forall g, In g (seq 0 n) -> fin1 (getD O1 D1 g) /\ nz (getD O1 D1 g)).
    { intros g Hg. apply in_seq in Hg. apply FD1. lia. }
    assert (XD2 : forall g, In g (seq 0 n) -> fin2 (getD O2 D2 g)).
    { intros g Hg. apply in_seq in Hg. apply FD2. lia. }
    assert (XL1 : forall g h, In g (seq 0 n) -> In h (cols (b_sp b) g) -> fin1 (getL O1 (b_sp b) L1 g h)).
    { intros g h Hg Hh. destruct (BR g h Hg Hh). apply in_seq in Hg. rewrite (getL_dense O1) by auto. apply FL1; lia. }
    assert (XL2 : forall g h, In g (seq 0 n) -> In h (cols (b_sp b) g) -> fin2 (getL O2 (b_sp b) L2 g h)).
    { intros g h Hg Hh. destruct (BR g h Hg Hh). apply in_seq in Hg. rewrite (getL_dense O2) by auto. apply FL2; lia. }
    assert (XR : forall g v v', In g (seq 0 n) -> (fin1 (reg1 v g) -> fin1 v) /\ (fin2 (reg2 v' g) -> fin2 v') /\
      (rel (scaleA OG c sq g g) v v' -> fin1 (reg1 v g) -> fin2 (reg2 v' g) ->
       rel (scaleA OG c sq g g) (reg1 v g) (reg2 v' g))).
    { intros g v v' Hg. apply in_seq in Hg. apply (RS (nth g p 0)). apply PB. lia. }
    pose proof (rg_L _ _ _ _ _ R1) as Z1. pose proof (rg_L _ _ _ _ _ R2) as Z2.
    destruct (runs_rel OG FL ok O1 O2 fin1 fin2 nz rel R Nat.eq_dec (seq 0 n) (cols (b_sp b)) (fun i => i) BR _ c sq OC OS'
      reg1 reg2 _ _ S1 _ _ _ S2 _ C1 C2 Z1 Z2 XD1 XD2 XL1 XL2 XA XR) as [SD SL].
    split; [intros i Hi; apply SD, in_seq; lia|]. split.
    { intros i j Hi Hj. rewrite <- !getL_dense by auto. apply SL; apply in_seq; lia. }
    intros t rhs1 rhs2 x1' x2' OT NR1 NR2 HR ES1 ES2 FX1 FX2 i Hi.
    destruct (single_solve_eqs O1 b n _ p L1 D1 rhs1 G0 Low NL1 ND1 NR1) as (y1 & z1 & x1 & E1 & Nx1 & FE1 & DE1 & BE1).
    destruct (single_solve_eqs O2 b n _ p L2 D2 rhs2 G0 Low NL2 ND2 NR2) as (y2 & z2 & x2 & E2 & Nx2 & FE2 & DE2 & BE2).
    rewrite ES1 in E1. injection E1 as ->. rewrite ES2 in E2. injection E2 as ->.
    destruct (isPerm_surj n p i IP Hi) as (i' & Hi' & <-).
    apply (solves_rel OG FL ok O1 O2 fin1 fin2 nz rel R Nat.eq_dec (seq 0 n) (cols (b_sp b)) (fun i => i) BR _ c sq OC OS'
      reg1 reg2 _ _ S1 _ _ _ S2 _ C1 C2 Z1 Z2 XD1 XD2 XL1 XL2 XA XR (rowsOf (b_sp b) n))
      with (b1 := vat O1 p rhs1) (y1 := y1) (z1 := z1) (x1 := vat O1 p x1)
        (b2 := vat O2 p rhs2) (y2 := y2) (z2 := z2) (x2 := vat O2 p x2) (top := n); auto.
    - apply single_cols.
    - intros g Hg. apply in_seq in Hg. apply (HR (nth g p 0)). apply PB. lia.
    - intros g Hg. apply in_seq in Hg. apply FX1. apply PB. lia.
    - intros g Hg. apply in_seq in Hg. apply FX2. apply PB. lia.
    - intros g Hg. apply in_seq in Hg. lia.
    - apply in_seq. lia.
  Qed.

  Lemma arrow_scaled sp ds dt dl dO k n :
    arrowDims sp ds dt dl dO -> arrowBlocks sp = Ok k ->
    forall mt c (s : gidx -> G) reg1 reg2 m1 w1 m2 w2 d01 d02 d1 d2,
    let all := allIdx n ds dt dl dO in
    ok c -> (forall g, In g all -> ok (s g)) ->
    inputArrow O1 n ds dt dl dO m1 w1 -> declaredArrow sp n m1 ->
    inputArrow O2 n ds dt dl dO m2 w2 -> declaredArrow sp n m2 ->
    (forall g h, In g all -> In h all -> rel (scaleA OG c s g h) (matAt O1 m1 w1 g h) (matAt O2 m2 w2 g h)) ->
    (forall g, In g all -> regScaled fin1 fin2 rel (scaleA OG c s g g) reg1 reg2) ->
    dataOf k n ds dt dl dO d01 -> dataOf k n ds dt dl dO d02 ->
    arrowFactorize O1 mt k m1 reg1 d01 = Ok d1 ->
    arrowFactorize O2 mt k m2 reg2 d02 = Ok d2 ->
    (forall g, In g all -> fin1 (pivotAt O1 d1 g) /\ nz (pivotAt O1 d1 g)) ->
    (forall g, In g all -> fin2 (pivotAt O2 d2 g)) ->
    (forall g h, In g all -> In h all -> g <> h -> fin1 (factorAt O1 (o0 O1) k d1 g h)) ->
    (forall g h, In g all -> In h all -> g <> h -> fin2 (factorAt O2 (o0 O2) k d2 g h)) ->
    let sq := fun g => s (permIdx sp g) in
    (forall g, In g all -> rel (scaleA OG c sq g g) (pivotAt O1 d1 g) (pivotAt O2 d2 g)) /\
    (forall g h, In g all -> In h all -> g <> h -> rel (scaleL OG sq g h)
       (factorAt O1 (o0 O1) k d1 g h) (factorAt O2 (o0 O2) k d2 g h)) /\
    forall t rhs1 rhs2 x1 x2, ok t -> vecOf n ds dt dl dO rhs1 -> vecOf n ds dt dl dO rhs2 ->
    (forall g, In g all -> rel (scaleB OG t s g) (gvecAt O1 rhs1 g) (gvecAt O2 rhs2 g)) ->
    arrowSolveInPlace O1 k d1 rhs1 = Ok x1 -> arrowSolveInPlace O2 k d2 rhs2 = Ok x2 ->
    (forall g, In g all -> fin1 (gvecAt O1 x1 g)) -> (forall g, In g all -> fin2 (gvecAt O2 x2 g)) ->
    forall g, In g all -> rel (scaleX OG c t s g) (gvecAt O1 x1 g) (gvecAt O2 x2 g).
  Proof.
    intros HD HK mt c s reg1 reg2 m1 w1 m2 w2 d01 d02 d1 d2 all OC OS IA1 DA1 IA2 DA2 AE RS DO01 DO02 EF1 EF2
      FD1 FD2 FL1 FL2 sq.
    destruct (ProofRoundUser.arrow_run O1 sp ds dt dl dO k n HD HK mt m1 w1 reg1 d01 d1 IA1 DA1 DO01 EF1)
      as (P & AG & AC & AV & DO1 & AR1).
    pose proof (goodInput_of O2 sp ds dt dl dO P n m2 w2 HD AV IA2 DA2) as GI2.
    destruct (arrowFactorize_ok O2 sp ds dt dl dO k P AG AC mt n m2 reg2 d02 DO02 GI2) as (d2' & EF2' & DO2 & AR2).
    rewrite EF2 in EF2'. injection EF2' as <-.
    destruct (arrow_chainedF O1 sp ds dt dl dO k P HD AG AV n m1 w1 IA1 DA1 mt reg1 d1 AR1) as (S1 & C1).
    destruct (arrow_chainedF O2 sp ds dt dl dO k P HD AG AV n m2 w2 IA2 DA2 mt reg2 d2 AR2) as (S2 & C2).
    pose proof (arrow_rows O1 sp ds dt dl dO k P HD AG AC AV n m1 w1 IA1 DA1 d1) as R1.
    pose proof (arrow_rows O2 sp ds dt dl dO k P HD AG AC AV n m2 w2 IA2 DA2 d2) as R2.
    assert (PIn := permIdx_in sp n ds dt dl dO HD).
    assert (BR : forall g x, In g all -> In x (fwdL k n g) -> In x all /\ rank n ds dt dl x < rank n ds dt dl g)
      by (intros g x Hg Hx; apply (arrow_rank sp ds dt dl dO k P n g x AG AC); auto).
    assert (OS' : forall g, In g all -> ok (sq g)) by (intros; apply OS, PIn; auto).
    assert (XA : forall g h, In g all -> In h (g :: fwdL k n g) ->
      rel (scaleA OG c sq g h) (symArrow O1 n (permFun sp (matFun O1 m1 w1)) g h)
        (symArrow O2 n (permFun sp (matFun O2 m2 w2)) g h)).
    { intros g h Hg Hh. assert (Hh' : In h all) by (destruct Hh as [<-|Hh]; auto; apply (BR g h); auto).
      rewrite (A_mat O1 sp ds dt dl dO n m1 w1 IA1), (A_mat O2 sp ds dt dl dO n m2 w2 IA2).
      apply (AE (permIdx sp g) (permIdx sp h)); apply PIn; auto. }
    assert (XL1 : forall g h, In g all -> In h (fwdL k n g) -> fin1 (lowArrow O1 n (strictFun O1 k d1) g h)).
    { intros g h Hg Hh. destruct (BR g h Hg Hh) as [Hh' Lt].
      rewrite <- (factorAt_strict O1 ds dt dl dO k n); auto; [|intros ->; lia]. apply FL1; auto. intros ->; lia. }
    assert (XL2 : forall g h, In g all -> In h (fwdL k n g) -> fin2 (lowArrow O2 n (strictFun O2 k d2) g h)).
    { intros g h Hg Hh. destruct (BR g h Hg Hh) as [Hh' Lt].
      rewrite <- (factorAt_strict O2 ds dt dl dO k n); auto; [|intros ->; lia]. apply FL2; auto. intros ->; lia. }
    assert (XR : forall g v v', In g all -> (fin1 (reg1 v (localIdx g)) -> fin1 v) /\ (fin2 (reg2 v' (localIdx g)) -> fin2 v') /\
      (rel (scaleA OG c sq g g) v v' -> fin1 (reg1 v (localIdx g)) -> fin2 (reg2 v' (localIdx g)) ->
       rel (scaleA OG c sq g g) (reg1 v (localIdx g)) (reg2 v' (localIdx g)))).
    { intros g v v' Hg. apply (RS (permIdx sp g)). apply PIn. auto. }
    pose proof (rg_L _ _ _ _ _ R1) as Z1. pose proof (rg_L _ _ _ _ _ R2) as Z2.
    destruct (runs_rel OG FL ok O1 O2 fin1 fin2 nz rel R gidx_eq_dec all (fwdL k n) (rank n ds dt dl) BR _ c sq OC OS'
      (fun v g => reg1 v (localIdx g)) (fun v g => reg2 v (localIdx g)) _ _ S1 _ _ _ S2 _ C1 C2 Z1 Z2 FD1 FD2 XL1 XL2 XA XR)
      as [SD SL].
    split; auto. split.
    { intros g h Hg Hh N. rewrite !(factorAt_strict _ ds dt dl dO _ n) by auto. apply SL; auto. }
    intros t rhs1 rhs2 x1' x2' OT VR1 VR2 HR ES1 ES2 FX1 FX2 g Hg.
    destruct (arrow_solve_eqs O1 sp ds dt dl dO k P n d1 rhs1 AG AC DO1 VR1)
      as (y1 & z1 & x1 & E1 & Nx1 & FE1 & DE1 & BE1).
    destruct (arrow_solve_eqs O2 sp ds dt dl dO k P n d2 rhs2 AG AC DO2 VR2)
      as (y2 & z2 & x2 & E2 & Nx2 & FE2 & DE2 & BE2).
    rewrite ES1 in E1. injection E1 as ->. rewrite ES2 in E2. injection E2 as ->.
    pose proof (Permutation_in _ (Permutation_sym (permIdx_Permutation sp n ds dt dl dO HD)) Hg) as Hg'.
    apply in_map_iff in Hg'. destruct Hg' as (g' & <- & Hg').
    apply (solves_rel OG FL ok O1 O2 fin1 fin2 nz rel R gidx_eq_dec all (fwdL k n) (rank n ds dt dl) BR _ c sq OC OS'
      (fun v g => reg1 v (localIdx g)) (fun v g => reg2 v (localIdx g)) _ _ S1 _ _ _ S2 _ C1 C2 Z1 Z2 FD1 FD2 XL1 XL2 XA XR
      (bwdL ds dt dl dO k n))
      with (b1 := pvec O1 sp rhs1) (y1 := y1) (z1 := z1) (x1 := pvec O1 sp x1)
        (b2 := pvec O2 sp rhs2) (y2 := y2) (z2 := z2) (x2 := pvec O2 sp x2)
        (top := ds + (n + 1) * dt + dl + dO + 1); auto.
    - apply (arrow_cols sp ds dt dl dO k P AG n).
    - intros h Hh. apply (HR (permIdx sp h)). apply PIn. auto.
    - intros h Hh. apply FX1, PIn. auto.
    - intros h Hh. apply FX2, PIn. auto.
    - intros h Hh. pose proof (rank_le n ds dt dl dO h Hh). lia.
  Qed.

  Lemma tri_scaled a b p dt n k :
    spOf a dt dt -> spOf b dt dt -> validPerm dt p -> tridiagonalBlocks a b p = Ok k ->
    forall mt c (s : nat -> nat -> G) reg1 reg2 A1 B1 wA1 wB1 A2 B2 wA2 wB2 d01 d02 d1 d2,
    ok c -> (forall u i, u < n + 1 -> i < dt -> ok (s u i)) ->
    inputTri O1 n dt A1 B1 wA1 wB1 -> declaredTri a b n A1 B1 ->
    inputTri O2 n dt A2 B2 wA2 wB2 -> declaredTri a b n A2 B2 ->
    (forall u i v j, u < n + 1 -> i < dt -> v < n + 1 -> j < dt ->
       rel (omul OG c (omul OG (s u i) (s v j)))
         (triMatAt O1 A1 B1 wA1 wB1 u i v j) (triMatAt O2 A2 B2 wA2 wB2 u i v j)) ->
    (forall u i, u < n + 1 -> i < dt -> regScaled fin1 fin2 rel (omul OG c (omul OG (s u i) (s u i))) reg1 reg2) ->
    dataOf k n 0 dt 0 0 d01 -> dataOf k n 0 dt 0 0 d02 ->
    tridiagonalFactorize O1 mt k dt A1 B1 reg1 d01 = Ok d1 ->
    tridiagonalFactorize O2 mt k dt A2 B2 reg2 d02 = Ok d2 ->
    (forall u i, u < n + 1 -> i < dt -> fin1 (pivotAt O1 d1 (GT u i)) /\ nz (pivotAt O1 d1 (GT u i))) ->
    (forall u i, u < n + 1 -> i < dt -> fin2 (pivotAt O2 d2 (GT u i))) ->
    (forall u i v j, u < n + 1 -> i < dt -> v < n + 1 -> j < dt -> (u, i) <> (v, j) ->
       fin1 (factorAt O1 (o0 O1) k d1 (GT u i) (GT v j))) ->
    (forall u i v j, u < n + 1 -> i < dt -> v < n + 1 -> j < dt -> (u, i) <> (v, j) ->
       fin2 (factorAt O2 (o0 O2) k d2 (GT u i) (GT v j))) ->
    let sq := fun u i => s u (nth i p 0) in
    (forall u i, u < n + 1 -> i < dt ->
       rel (omul OG c (omul OG (sq u i) (sq u i))) (pivotAt O1 d1 (GT u i)) (pivotAt O2 d2 (GT u i))) /\
    (forall u i v j, u < n + 1 -> i < dt -> v < n + 1 -> j < dt -> (u, i) <> (v, j) ->
       rel (odiv OG (sq u i) (sq v j))
         (factorAt O1 (o0 O1) k d1 (GT u i) (GT v j)) (factorAt O2 (o0 O2) k d2 (GT u i) (GT v j))) /\
    forall t rhs1 rhs2 x1 x2, ok t -> blocksOf n dt rhs1 -> blocksOf n dt rhs2 ->
    (forall u i, u < n + 1 -> i < dt ->
       rel (omul OG t (s u i)) (vecAt O1 (nth u rhs1 []) i) (vecAt O2 (nth u rhs2 []) i)) ->
    tridiagonalSolveInPlace O1 k d1 rhs1 = Ok x1 -> tridiagonalSolveInPlace O2 k d2 rhs2 = Ok x2 ->
    (forall u i, u < n + 1 -> i < dt -> fin1 (vecAt O1 (nth u x1 []) i)) ->
    (forall u i, u < n + 1 -> i < dt -> fin2 (vecAt O2 (nth u x2 []) i)) ->
    forall u i, u < n + 1 -> i < dt ->
      rel (odiv OG (odiv OG t c) (s u i)) (vecAt O1 (nth u x1 []) i) (vecAt O2 (nth u x2 []) i).
  Proof.
    intros SA SB HP HK mt c s reg1 reg2 A1 B1 wA1 wB1 A2 B2 wA2 wB2 d01 d02 d1 d2 OC OS IT1 DT1 IT2 DT2 AE RS DO1 DO2
      EF1 EF2 FD1 FD2 FL1 FL2 sq.
    unfold tridiagonalFactorize, numRepetitions in *. rewrite (do_nts _ _ _ _ _ _ _ DO1) in EF1.
    rewrite (do_nts _ _ _ _ _ _ _ DO2) in EF2.
    assert (TI : forall g, In g (allIdx n 0 dt 0 0) <-> exists t i, g = GT t i /\ t < n + 1 /\ i < dt)
      by (intros; apply in_tri).
    set (s' := fun g : gidx => match g with GT u i => s u i | _ => o0 OG end).
    pose proof (arrow_scaled _ 0 dt 0 0 k n (tri_dims a b p dt SA SB HP) (tri_k a b p dt k SA SB HK) mt c s' reg1 reg2) as HH.
    assert (OS' : forall g, In g (allIdx n 0 dt 0 0) -> ok (s' g)).
    { intros g Hg. apply TI in Hg. destruct Hg as (u & i & -> & Hu & Hi). cbn. auto. }
    specialize (HH _ _ _ _ d01 d02 d1 d2 OC OS' (tri_input O1 n dt A1 B1 wA1 wB1 IT1) (tri_declared a b p n dt A1 B1 DT1)
      (tri_input O2 n dt A2 B2 wA2 wB2 IT2) (tri_declared a b p n dt A2 B2 DT2)).
    destruct HH as (H1 & H2 & H3); auto.
    - intros g h Hg Hh. apply TI in Hg, Hh. destruct Hg as (u & i & -> & Hu & Hi), Hh as (v & j & -> & Hv & Hj).
      apply AE; auto.
    - intros g Hg. apply TI in Hg. destruct Hg as (u & i & -> & Hu & Hi). apply (RS u i); auto.
    - intros g Hg. apply TI in Hg. destruct Hg as (u & i & -> & Hu & Hi). auto.
    - intros g Hg. apply TI in Hg. destruct Hg as (u & i & -> & Hu & Hi). auto.
    - intros g h Hg Hh N. apply TI in Hg, Hh. destruct Hg as (u & i & -> & Hu & Hi), Hh as (v & j & -> & Hv & Hj).
      apply FL1; auto. congruence.
    - intros g h Hg Hh N. apply TI in Hg, Hh. destruct Hg as (u & i & -> & Hu & Hi), Hh as (v & j & -> & Hv & Hj).
      apply FL2; auto. congruence.
    - split; [intros u i Hu Hi; apply (H1 (GT u i)), TI; eauto|].
      split; [intros u i v j Hu Hi Hv Hj N; apply (H2 (GT u i) (GT v j)); [apply TI; eauto|apply TI; eauto|congruence]|].
      intros t rhs1 rhs2 x1 x2 OT HV1 HV2 HR ES1 ES2 FX1 FX2 u i Hu Hi.
      unfold tridiagonalSolveInPlace in ES1, ES2.
      destruct (arrowSolveInPlace O1 k d1 _) as [y1|] eqn:E1 in ES1; [|discriminate].
      destruct (arrowSolveInPlace O2 k d2 _) as [y2|] eqn:E2 in ES2; [|discriminate].
      injection ES1 as <-. injection ES2 as <-.
      apply (H3 t _ _ y1 y2 OT (tri_vec n dt rhs1 HV1) (tri_vec n dt rhs2 HV2)) with (g := GT u i); auto.
      + intros g Hg. apply TI in Hg. destruct Hg as (v & j & -> & Hv & Hj). apply HR; auto.
      + intros g Hg. apply TI in Hg. destruct Hg as (v & j & -> & Hv & Hj). apply FX1; auto.
      + intros g Hg. apply TI in Hg. destruct Hg as (v & j & -> & Hv & Hj). apply FX2; auto.
      + apply TI; eauto.
  Qed.
End User.
