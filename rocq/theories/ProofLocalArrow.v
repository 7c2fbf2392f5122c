(** Independent and leading parts of arrowhead and block tridiagonal systems. *)
From Coq Require Import Lia List Arith Bool Permutation Sorted.
From Verif Require Import Base ModelPerm ModelSparsity ModelSymbolic ModelNumeric ModelArrow ModelReg.
From Verif Require Import SpecSymbolic SpecArrow SpecNumeric SpecArrowNum SpecPivot SpecAgree SpecTight SpecLocal.
From Verif Require Import ProofBase ProofPerm ProofCsr ProofFill ProofDense ProofExact ProofLdl ProofKernel ProofSolve
  ProofSingle ProofSingleMain ProofArrowSym ProofArrowRows ProofArrowDense ProofArrowProduct ProofArrowSolve ProofArrowMain
  ProofArrowSub ProofChain ProofChainKernel ProofChainArrow ProofRoundMain ProofRoundUser ProofRoundTri
  ProofPropSymbolic ProofPropArrow ProofPropPivot ProofSign ProofPropSign ProofAgree ProofPropAgree ProofAgreeDense
  ProofAgreeArrow ProofTightNum ProofLocal ProofLocalSingle ProofLocalClass.
Import ListNotations.
Local Open Scope nat_scope.

Section Run.
  Context {F : Type} (O : ops F).

  Lemma arrow_bundle s ds dt dl dO k n : arrowDims s ds dt dl dO -> arrowBlocks s = Ok k ->
    exists P, arrowGood s ds dt dl dO k P /\ arrowChordal P /\ arrowCovers s ds dt dl dO P /\
    forall mt reg m w d0, inputArrow O n ds dt dl dO m w -> declaredArrow s n m ->
    dataOf k n ds dt dl dO d0 ->
    exists d S, arrowFactorize O mt k m reg d0 = Ok d /\ dataOf k n ds dt dl dO d /\
      chainedF O gidx_eq_dec (allIdx n ds dt dl dO) (fwdL k n) (arrowForm mt)
        (symArrow O n (permFun s (matFun O m w))) (lowArrow O n (strictFun O k d)) S
        (pivotAt O d) (fun v g => reg v (localIdx g)) /\
      forall g h, In g (allIdx n ds dt dl dO) -> In h (allIdx n ds dt dl dO) -> ~ In h (fwdL k n g) ->
        lowArrow O n (strictFun O k d) g h = o0 O.
  Proof.
    intros HD HK. destruct (arrow_good s ds dt dl dO k HD HK) as (P & AG & AC & AV).
    exists P. split; auto. split; auto. split; auto. intros mt reg m w d0 IA DA DO0.
    pose proof (goodInput_of O s ds dt dl dO P n m w HD AV IA DA) as GI.
    destruct (arrowFactorize_ok O s ds dt dl dO k P AG AC mt n m reg d0 DO0 GI) as (d & EF & DO & AR).
    destruct (arrow_chainedF O s ds dt dl dO k P HD AG AV n m w IA DA mt reg d AR) as (S & C).
    exists d, S. split; auto. split; auto. split; auto.
    intros g h Hg Hh N.
    apply (rg_L _ _ _ _ _ (arrow_rows O s ds dt dl dO k P HD AG AC AV n m w IA DA d)); auto.
  Qed.

  (** ** variables that are not coupled with the others *)
  Lemma arrow_independent s ds dt dl dO k n V :
    arrowDims s ds dt dl dO -> arrowBlocks s = Ok k -> separatedArrow s V ->
    forall mt reg1 reg2 m1 w1 m2 w2 d01 d02,
    let all := allIdx n ds dt dl dO in
    inputArrow O n ds dt dl dO m1 w1 -> declaredArrow s n m1 ->
    inputArrow O n ds dt dl dO m2 w2 -> declaredArrow s n m2 ->
    (forall g h, In g all -> In h all -> inVars V g -> inVars V h -> matAt O m1 w1 g h = matAt O m2 w2 g h) ->
    (forall g v, In g all -> inVars V (permIdx s g) -> reg1 v (localIdx g) = reg2 v (localIdx g)) ->
    dataOf k n ds dt dl dO d01 -> dataOf k n ds dt dl dO d02 ->
    exists d1 d2, arrowFactorize O mt k m1 reg1 d01 = Ok d1 /\ arrowFactorize O mt k m2 reg2 d02 = Ok d2 /\
      (forall g, In g all -> inVars V (permIdx s g) -> pivotAt O d1 g = pivotAt O d2 g) /\
      (forall g h, In g all -> In h all -> g <> h -> inVars V (permIdx s g) ->
         factorAt O (o0 O) k d1 g h = factorAt O (o0 O) k d2 g h) /\
      forall rhs1 rhs2, vecOf n ds dt dl dO rhs1 -> vecOf n ds dt dl dO rhs2 ->
      (forall g, In g all -> inVars V g -> gvecAt O rhs1 g = gvecAt O rhs2 g) ->
      exists x1 x2, arrowSolveInPlace O k d1 rhs1 = Ok x1 /\ arrowSolveInPlace O k d2 rhs2 = Ok x2 /\
        vecOf n ds dt dl dO x1 /\ vecOf n ds dt dl dO x2 /\
        forall g, In g all -> inVars V g -> gvecAt O x1 g = gvecAt O x2 g.
  Proof.
    intros HD HK HV mt reg1 reg2 m1 w1 m2 w2 d01 d02 all IA1 DA1 IA2 DA2 AE RE DO01 DO02.
    destruct (arrow_bundle s ds dt dl dO k n HD HK) as (P & AG & AC & AV & RUN).
    destruct (RUN mt reg1 m1 w1 d01 IA1 DA1 DO01) as (d1 & S1 & EF1 & DO1 & C1 & Z1).
    destruct (RUN mt reg2 m2 w2 d02 IA2 DA2 DO02) as (d2 & S2 & EF2 & DO2 & C2 & Z2).
    exists d1, d2. split; auto. split; auto.
    assert (PIn := permIdx_in s n ds dt dl dO HD).
    assert (RB := fun g h => arrow_rank s ds dt dl dO k P n g h AG AC).
    assert (CL : forall g h, In g all -> In h (fwdL k n g) -> (inVars V (permIdx s g) <-> inVars V (permIdx s h))).
    { intros g h Hg Hh. apply (arrow_class s ds dt dl dO k V HD HK HV n).
      apply (stored_row s ds dt dl dO n k P AG). auto. }
    set (Q := fun g => In g all /\ inVars V (permIdx s g)).
    assert (RK : forall g h, In g all -> In h (fwdL k n g) -> rank n ds dt dl h < rank n ds dt dl g)
      by (intros; apply RB; auto).
    assert (LO : local gidx_eq_dec gidx_eq_dec all all (fwdL k n) (fwdL k n) (fun g => g)
      (arrowForm mt) (arrowForm mt)
      (symArrow O n (permFun s (matFun O m1 w1))) (fun v g => reg1 v (localIdx g))
      (symArrow O n (permFun s (matFun O m2 w2))) (fun v g => reg2 v (localIdx g))
      (fun g h => Q g /\ In h (fwdL k n g)) Q).
    { apply closed_local.
      - intros g [H _]. auto.
      - intros g h [H1 H2] Hh. split; [apply RB in Hh; tauto|]. apply (CL g h); auto.
      - intros g h [H1 H2] [H3 H4].
        rewrite (A_mat O s ds dt dl dO n m1 w1 IA1), (A_mat O s ds dt dl dO n m2 w2 IA2).
        apply AE; auto.
      - intros g v [H1 H2]. apply RE; auto. }
    assert (LD := local_D O gidx_eq_dec gidx_eq_dec _ _ _ _ (fun i => i) (rank n ds dt dl) _ _ _ _ _ _ _ _ _ _ _ _ C1 C2 RK _ _ LO).
    assert (LL := local_L O gidx_eq_dec gidx_eq_dec _ _ _ _ (fun i => i) (rank n ds dt dl) _ _ _ _ _ _ _ _ _ _ _ _ C1 C2 RK _ _ LO).
    split; [intros g Hg Hv; apply (LD g); split; auto|]. split.
    { intros g h Hg Hh N Hv. rewrite !(factorAt_strict O ds dt dl dO _ n) by auto.
      destruct (in_dec gidx_eq_dec h (fwdL k n g)) as [H|H].
      - apply (LL g h). split; auto. split; auto.
      - rewrite Z1, Z2; auto. }
    intros rhs1 rhs2 VR1 VR2 EB.
    destruct (arrow_solve_eqs O s ds dt dl dO k P n d1 rhs1 AG AC DO1 VR1)
      as (y1 & z1 & x1 & E1 & Nx1 & FE1 & DE1 & BE1).
    destruct (arrow_solve_eqs O s ds dt dl dO k P n d2 rhs2 AG AC DO2 VR2)
      as (y2 & z2 & x2 & E2 & Nx2 & FE2 & DE2 & BE2).
    exists x1, x2. do 4 (split; [assumption|]). intros g Hg Hv.
    pose proof (Permutation_in _ (Permutation_sym (permIdx_Permutation s n ds dt dl dO HD)) Hg) as Hg'.
    apply in_map_iff in Hg'. destruct Hg' as (g' & <- & Hg').
    change (pvec O s x1 g' = pvec O s x2 g').
    pose proof (arrow_cols s ds dt dl dO k P AG n) as CG.
    apply (local_solve O gidx_eq_dec gidx_eq_dec _ _ _ _ (fun g => g) (rank n ds dt dl) _ _ _ _ _ _ _ _ _ _ _ _ C1 C2 RK _ _ LO
      (bwdL ds dt dl dO k n) (bwdL ds dt dl dO k n)) with (b1 := pvec O s rhs1) (b2 := pvec O s rhs2) (y1 := y1) (y2 := y2)
      (z1 := z1) (z2 := z2) (top := ds + (n + 1) * dt + dl + dO + 1); auto.
    - intros. symmetry. apply map_id.
    - intros h x [H1 H2] Hx. apply (cg_in _ _ _ CG) in Hx; auto. destruct Hx as [X1 X2].
      split; auto. apply (CL x h); auto.
    - intros h [H1 H2]. apply EB; auto.
    - intros h Hh. pose proof (rank_le n ds dt dl dO h Hh). lia.
    - split; auto.
  Qed.

  (** ** the first blocks of the tridiagonal part *)
  Lemma upTo_perm s T g : upTo T (permIdx s g) <-> upTo T g.
  Proof. destruct g; cbn [permIdx upTo]; tauto. Qed.
  Lemma lead_perm s T g h : leadEntry T (permIdx s g) (permIdx s h) <-> leadEntry T g h.
  Proof. unfold leadEntry. rewrite !upTo_perm. destruct g; cbn [permIdx]; tauto. Qed.
  Lemma upTo_in T n1 n2 ds dt dl dO g : T <= n1 -> T <= n2 -> upTo T g ->
    In g (allIdx n1 ds dt dl dO) -> In g (allIdx n2 ds dt dl dO).
  Proof. rewrite !in_allIdx. destruct g; cbn [upTo]; intros; try tauto; lia. Qed.
  Lemma lead_in T n1 n2 ds dt dl dO g h : T <= n1 -> T <= n2 -> leadEntry T g h ->
    In g (allIdx n1 ds dt dl dO) -> In g (allIdx n2 ds dt dl dO).
  Proof. unfold leadEntry. rewrite !in_allIdx. destruct g; cbn [upTo]; intros; try tauto; lia. Qed.

  Lemma arrow_leading s ds dt dl dO k T n1 n2 :
    arrowDims s ds dt dl dO -> arrowBlocks s = Ok k -> T <= n1 -> T <= n2 ->
    forall mt reg1 reg2 m1 w1 m2 w2 d01 d02,
    inputArrow O n1 ds dt dl dO m1 w1 -> declaredArrow s n1 m1 ->
    inputArrow O n2 ds dt dl dO m2 w2 -> declaredArrow s n2 m2 ->
    (forall g h, In g (allIdx n1 ds dt dl dO) -> In h (allIdx n1 ds dt dl dO) -> leadEntry T g h ->
       matAt O m1 w1 g h = matAt O m2 w2 g h) ->
    (forall g v, In g (allIdx n1 ds dt dl dO) -> upTo T g -> reg1 v (localIdx g) = reg2 v (localIdx g)) ->
    dataOf k n1 ds dt dl dO d01 -> dataOf k n2 ds dt dl dO d02 ->
    exists d1 d2, arrowFactorize O mt k m1 reg1 d01 = Ok d1 /\ arrowFactorize O mt k m2 reg2 d02 = Ok d2 /\
      (forall g, In g (allIdx n1 ds dt dl dO) -> upTo T g -> pivotAt O d1 g = pivotAt O d2 g) /\
      (forall g h, In g (allIdx n1 ds dt dl dO) -> In h (allIdx n1 ds dt dl dO) -> g <> h -> leadEntry T g h ->
         factorAt O (o0 O) k d1 g h = factorAt O (o0 O) k d2 g h).
  Proof.
    intros HD HK T1 T2 mt reg1 reg2 m1 w1 m2 w2 d01 d02 IA1 DA1 IA2 DA2 AE RE DO01 DO02.
    destruct (arrow_bundle s ds dt dl dO k n1 HD HK) as (P & AG & AC & AV & RUN1).
    destruct (arrow_bundle s ds dt dl dO k n2 HD HK) as (P' & AG' & AC' & AV' & RUN2).
    destruct (RUN1 mt reg1 m1 w1 d01 IA1 DA1 DO01) as (d1 & S1 & EF1 & DO1 & C1 & Z1).
    destruct (RUN2 mt reg2 m2 w2 d02 IA2 DA2 DO02) as (d2 & S2 & EF2 & DO2 & C2 & Z2).
    clear RUN1 RUN2 AG' AC' AV' P'.
    exists d1, d2. split; auto. split; auto.
    set (all1 := allIdx n1 ds dt dl dO) in *. set (all2 := allIdx n2 ds dt dl dO) in *.
    assert (RB := fun g h => arrow_rank s ds dt dl dO k P n1 g h AG AC).
    assert (RK : forall g h, In g all1 -> In h (fwdL k n1 g) -> rank n1 ds dt dl h < rank n1 ds dt dl g)
      by (intros; apply RB; auto).
    (* the rows are the same *)
    assert (RU : forall g, upTo T g -> fwdL k n1 g = fwdL k n2 g).
    { intros [i|t i|i|i]; cbn [upTo]; try tauto; reflexivity. }
    assert (UR : forall g h, In g all1 -> upTo T g -> In h (fwdL k n1 g) -> upTo T h).
    { intros g h Hg Hu Hh. apply RK in Hh as Lt; auto. revert Hh. rewrite (row_pat s ds dt dl dO k P AG).
      destruct g as [i|t i|i|i], h as [j|u j|j|j]; cbn [upTo rowP] in *; try tauto. lia. }
    assert (RL : forall g h, In g all1 -> leadEntry T g h -> In h (fwdL k n1 g) <-> In h (fwdL k n2 g)).
    { intros g h Hg [H1 [H2|H2]]; [rewrite (RU g H2); tauto|].
      rewrite !(row_pat s ds dt dl dO k P AG).
      destruct g as [i|t i|i|i]; try tauto. destruct h as [j|u j|j|j]; cbn [upTo rowP] in *; try tauto.
      intuition lia. }
    assert (RE' : forall g, upTo T g -> rank n1 ds dt dl g = rank n2 ds dt dl g).
    { intros [i|t i|i|i]; cbn [upTo]; try tauto; reflexivity. }
    assert (SR1 : forall g, In g all1 -> StronglySorted (rlt ds dt dl n1) (fwdL k n1 g))
      by (intros; apply (row_sorted s ds dt dl dO k P); auto).
    assert (SR2 : forall g, In g all2 -> StronglySorted (rlt ds dt dl n2) (fwdL k n2 g))
      by (intros; apply (row_sorted s ds dt dl dO k P); auto).
    assert (CE : forall g h, In g all1 -> In h all1 -> leadEntry T g h ->
      common gidx_eq_dec (fwdL k n2) g h = common gidx_eq_dec (fwdL k n1) g h).
    { intros g h Hg Hh LE. apply (sorted_same (rlt ds dt dl n1)).
      - unfold rlt. intros; lia.
      - unfold rlt. intros; lia.
      - rewrite <- (map_id (common gidx_eq_dec (fwdL k n2) g h)). apply (map_sorted (rlt ds dt dl n2)).
        + intros a b Ha Hb Lt. apply common_In in Ha, Hb. destruct Ha as [_ Ha], Hb as [_ Hb].
          rewrite <- (RU h (proj1 LE)) in Ha, Hb. apply UR in Ha, Hb; try apply LE; auto.
          unfold rlt in *. rewrite !RE' by auto. auto.
        + apply filter_StronglySorted, SR2. apply (lead_in T n1 n2 ds dt dl dO g h); auto.
      - apply filter_StronglySorted, SR1. auto.
      - intros x. rewrite !common_In, <- (RU h (proj1 LE)).
        assert (X : In x (fwdL k n1 h) -> In x (fwdL k n1 g) <-> In x (fwdL k n2 g)); [|tauto].
        intros Hx. apply RL; auto. split; [|apply LE]. apply (UR h x); auto. apply LE. }
    set (Q := fun g => In g all1 /\ upTo T g).
    assert (LO : local gidx_eq_dec gidx_eq_dec all1 all2 (fwdL k n1) (fwdL k n2) (fun g => g)
      (arrowForm mt) (arrowForm mt)
      (symArrow O n1 (permFun s (matFun O m1 w1))) (fun v g => reg1 v (localIdx g))
      (symArrow O n2 (permFun s (matFun O m2 w2))) (fun v g => reg2 v (localIdx g))
      (fun g h => In g all1 /\ leadEntry T g h /\ In h (fwdL k n1 g)) Q).
    { assert (AA : forall g h, In g all1 -> In h all1 -> leadEntry T g h ->
        symArrow O n1 (permFun s (matFun O m1 w1)) g h = symArrow O n2 (permFun s (matFun O m2 w2)) g h).
      { intros g h Hg Hh LE.
        rewrite (A_mat O s ds dt dl dO n1 m1 w1 IA1), (A_mat O s ds dt dl dO n2 m2 w2 IA2).
        apply AE; try (apply (permIdx_in s n1 ds dt dl dO HD); auto). apply lead_perm. auto. }
      assert (LQ : forall g, upTo T g -> leadEntry T g g) by (intros g H; split; auto).
      constructor.
      - intros g h (H1 & H2 & H3). split; auto. split; [apply (lead_in T n1 n2 ds dt dl dO g h); auto|]. split; auto.
        apply RL; auto.
      - intros g h (H1 & H2 & H3). rewrite map_id. apply CE; auto. apply RB in H3; tauto.
      - intros g h x (H1 & H2 & H3) Hx. apply common_In in Hx. destruct Hx as [X1 X2].
        assert (Hh : In h all1) by (apply RB in H3; tauto).
        assert (Ux : upTo T x) by (apply (UR h x); auto; apply H2).
        split; [split; auto; split; auto; split; auto; apply H2|].
        split; [split; auto; split; auto; split; auto; left; apply H2|].
        split; auto. split; auto. apply RB in X1; tauto.
      - intros g h (H1 & H2 & H3). split; [apply RB in H3; tauto|apply H2].
      - intros g h (H1 & H2 & H3). apply AA; auto. apply RB in H3; tauto.
      - intros g [H1 H2]. split; auto. apply (upTo_in T n1 n2); auto.
      - intros g [H1 H2]. rewrite map_id. symmetry. auto.
      - intros g x [H1 H2] Hx. split; auto. split; auto. split; auto. split; auto. apply (UR g x); auto.
      - intros g [H1 H2]. apply AA; auto.
      - intros g v [H1 H2]. apply RE; auto. }
    assert (LD := local_D O gidx_eq_dec gidx_eq_dec _ _ _ _ (fun i => i) (rank n1 ds dt dl) _ _ _ _ _ _ _ _ _ _ _ _ C1 C2 RK _ _ LO).
    assert (LL := local_L O gidx_eq_dec gidx_eq_dec _ _ _ _ (fun i => i) (rank n1 ds dt dl) _ _ _ _ _ _ _ _ _ _ _ _ C1 C2 RK _ _ LO).
    split; [intros g Hg Hv; apply (LD g); split; auto|].
    intros g h Hg Hh N LE.
    assert (Hg2 : In g all2) by (apply (lead_in T n1 n2 ds dt dl dO g h); auto).
    assert (Hh2 : In h all2) by (apply (upTo_in T n1 n2); auto; apply LE).
    rewrite (factorAt_strict O ds dt dl dO _ n1), (factorAt_strict O ds dt dl dO _ n2) by auto.
    destruct (in_dec gidx_eq_dec h (fwdL k n1 g)) as [H|H].
    - apply (LL g h). auto.
    - rewrite Z1, Z2; auto. rewrite <- RL; auto.
  Qed.

  (** ** block tridiagonal systems *)
  Lemma tri_independent a c p dt n k (V : nat -> Prop) :
    spOf a dt dt -> spOf c dt dt -> validPerm dt p -> tridiagonalBlocks a c p = Ok k ->
    separated (entries a) V -> separatedRect (entries c) V V ->
    forall mt reg1 reg2 A1 B1 wA1 wB1 A2 B2 wA2 wB2 d01 d02,
    inputTri O n dt A1 B1 wA1 wB1 -> declaredTri a c n A1 B1 ->
    inputTri O n dt A2 B2 wA2 wB2 -> declaredTri a c n A2 B2 ->
    (forall t i u j, t < n + 1 -> i < dt -> u < n + 1 -> j < dt -> V i -> V j ->
       triMatAt O A1 B1 wA1 wB1 t i u j = triMatAt O A2 B2 wA2 wB2 t i u j) ->
    (forall i v, i < dt -> V (nth i p 0) -> reg1 v i = reg2 v i) ->
    dataOf k n 0 dt 0 0 d01 -> dataOf k n 0 dt 0 0 d02 ->
    exists d1 d2, tridiagonalFactorize O mt k dt A1 B1 reg1 d01 = Ok d1 /\
      tridiagonalFactorize O mt k dt A2 B2 reg2 d02 = Ok d2 /\
      (forall t i, t < n + 1 -> i < dt -> V (nth i p 0) -> pivotAt O d1 (GT t i) = pivotAt O d2 (GT t i)) /\
      (forall t i u j, t < n + 1 -> i < dt -> u < n + 1 -> j < dt -> (t, i) <> (u, j) -> V (nth i p 0) ->
         factorAt O (o0 O) k d1 (GT t i) (GT u j) = factorAt O (o0 O) k d2 (GT t i) (GT u j)) /\
      forall rhs1 rhs2, blocksOf n dt rhs1 -> blocksOf n dt rhs2 ->
      (forall t i, t < n + 1 -> i < dt -> V i -> vecAt O (nth t rhs1 []) i = vecAt O (nth t rhs2 []) i) ->
      exists x1 x2, tridiagonalSolveInPlace O k d1 rhs1 = Ok x1 /\ tridiagonalSolveInPlace O k d2 rhs2 = Ok x2 /\
        blocksOf n dt x1 /\ blocksOf n dt x2 /\
        forall t i, t < n + 1 -> i < dt -> V i -> vecAt O (nth t x1 []) i = vecAt O (nth t x2 []) i.
  Proof.
    intros SA SC HP HK HV1 HV2 mt reg1 reg2 A1 B1 wA1 wB1 A2 B2 wA2 wB2 d01 d02 IT1 DT1 IT2 DT2 AE RE DO1 DO2.
    unfold tridiagonalFactorize, numRepetitions in *. rewrite (do_nts _ _ _ _ _ _ _ DO1), (do_nts _ _ _ _ _ _ _ DO2).
    assert (TI : forall g, In g (allIdx n 0 dt 0 0) <-> exists t i, g = GT t i /\ t < n + 1 /\ i < dt)
      by (intros; apply in_tri).
    assert (SV : separatedArrow (tridiagonalSparsity a c p) (mkVarSet (fun _ => True) V (fun _ => True) (fun _ => True))).
    { constructor; try exact HV1; try exact HV2; intros x y H; (contradiction || destruct H as [_ []]). }
    destruct (arrow_independent _ 0 dt 0 0 k n _ (tri_dims a c p dt SA SC HP) (tri_k a c p dt k SA SC HK) SV
      mt reg1 reg2 _ _ _ _ d01 d02 (tri_input O n dt A1 B1 wA1 wB1 IT1) (tri_declared a c p n dt A1 B1 DT1)
      (tri_input O n dt A2 B2 wA2 wB2 IT2) (tri_declared a c p n dt A2 B2 DT2)) as (d1 & d2 & E1 & E2 & H1 & H2 & H3); auto.
    - intros g h Hg Hh. apply TI in Hg, Hh. destruct Hg as (t & i & -> & Ht & Hi), Hh as (u & j & -> & Hu & Hj).
      apply AE; auto.
    - intros g v Hg. apply TI in Hg. destruct Hg as (t & i & -> & Ht & Hi). apply RE; auto.
    - exists d1, d2. split; auto. split; auto. split; [intros; apply H1; auto; apply TI; eauto|].
      split; [intros; apply H2; [apply TI; eauto|apply TI; eauto|congruence|auto]|].
      intros rhs1 rhs2 VR1 VR2 RR.
      destruct (H3 _ _ (tri_vec n dt rhs1 VR1) (tri_vec n dt rhs2 VR2)) as (x1 & x2 & ES1 & ES2 & V1 & V2 & HX).
      { intros g Hg. apply TI in Hg. destruct Hg as (t & i & -> & Ht & Hi). apply RR; auto. }
      exists (v_tri x1), (v_tri x2). unfold tridiagonalSolveInPlace. rewrite ES1, ES2.
      split; auto. split; auto. split; [split; apply V1|]. split; [split; apply V2|].
      intros t i Ht Hi Hv. apply (HX (GT t i)); auto. apply TI; eauto.
  Qed.

  Lemma tri_leading a c p dt k T n1 n2 :
    spOf a dt dt -> spOf c dt dt -> validPerm dt p -> tridiagonalBlocks a c p = Ok k ->
    T <= n1 -> T <= n2 ->
    forall mt reg A1 B1 wA1 wB1 A2 B2 wA2 wB2 d01 d02,
    inputTri O n1 dt A1 B1 wA1 wB1 -> declaredTri a c n1 A1 B1 ->
    inputTri O n2 dt A2 B2 wA2 wB2 -> declaredTri a c n2 A2 B2 ->
    (forall t i u j, t <= T -> i < dt -> u <= T -> j < dt ->
       triMatAt O A1 B1 wA1 wB1 t i u j = triMatAt O A2 B2 wA2 wB2 t i u j) ->
    dataOf k n1 0 dt 0 0 d01 -> dataOf k n2 0 dt 0 0 d02 ->
    exists d1 d2, tridiagonalFactorize O mt k dt A1 B1 reg d01 = Ok d1 /\
      tridiagonalFactorize O mt k dt A2 B2 reg d02 = Ok d2 /\
      (forall t i, t <= T -> i < dt -> pivotAt O d1 (GT t i) = pivotAt O d2 (GT t i)) /\
      (forall t i u j, t <= T -> i < dt -> u <= T -> j < dt -> (t, i) <> (u, j) ->
         factorAt O (o0 O) k d1 (GT t i) (GT u j) = factorAt O (o0 O) k d2 (GT t i) (GT u j)).
  Proof.
    intros SA SC HP HK T1 T2 mt reg A1 B1 wA1 wB1 A2 B2 wA2 wB2 d01 d02 IT1 DT1 IT2 DT2 AE DO1 DO2.
    unfold tridiagonalFactorize, numRepetitions in *. rewrite (do_nts _ _ _ _ _ _ _ DO1), (do_nts _ _ _ _ _ _ _ DO2).
    assert (TI : forall g, In g (allIdx n1 0 dt 0 0) <-> exists t i, g = GT t i /\ t < n1 + 1 /\ i < dt)
      by (intros; apply in_tri).
    destruct (arrow_leading _ 0 dt 0 0 k T n1 n2 (tri_dims a c p dt SA SC HP) (tri_k a c p dt k SA SC HK) T1 T2
      mt reg reg _ _ _ _ d01 d02 (tri_input O n1 dt A1 B1 wA1 wB1 IT1) (tri_declared a c p n1 dt A1 B1 DT1)
      (tri_input O n2 dt A2 B2 wA2 wB2 IT2) (tri_declared a c p n2 dt A2 B2 DT2)) as (d1 & d2 & E1 & E2 & H1 & H2); auto.
    - intros g h Hg Hh. apply TI in Hg, Hh. destruct Hg as (t & i & -> & Ht & Hi), Hh as (u & j & -> & Hu & Hj).
      intros [L1 [L2|[]]]. cbn [upTo] in *. apply AE; auto.
    - exists d1, d2. split; auto. split; auto. split.
      + intros t i Ht Hi. apply H1; auto. apply TI. exists t, i. split; auto. split; auto. lia.
      + intros t i u j Ht Hi Hu Hj N. apply H2.
        * apply TI. exists t, i. split; auto. split; auto. lia.
        * apply TI. exists u, j. split; auto. split; auto. lia.
        * congruence.
        * split; cbn [upTo]; auto.
  Qed.
End Run.
