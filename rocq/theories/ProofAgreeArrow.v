(** Arrowhead and block tridiagonal systems: the results do not depend on the sparsity. *)
From Coq Require Import Lia List Arith Bool Permutation Sorted.
From Verif Require Import Base ModelPerm ModelSparsity ModelSymbolic ModelNumeric ModelArrow ModelReg.
From Verif Require Import SpecSymbolic SpecArrow SpecNumeric SpecArrowNum SpecPivot SpecAgree.
From Verif Require Import ProofBase ProofPerm ProofCsr ProofFill ProofDense ProofExact ProofLdl ProofKernel ProofSolve
  ProofSingle ProofSingleMain ProofArrowSym ProofArrowRows ProofArrowDense ProofArrowProduct ProofArrowSolve ProofArrowMain
  ProofArrowSub ProofChain ProofChainKernel ProofChainArrow ProofRoundMain ProofRoundUser ProofRoundTri
  ProofPropSymbolic ProofPropArrow ProofPropPivot ProofSign ProofPropSign ProofAgree ProofPropAgree.
Import ListNotations.
Local Open Scope nat_scope.

Lemma map_sorted {X Y} (R : X -> X -> Prop) (R' : Y -> Y -> Prop) (f : X -> Y) l :
  (forall a b, In a l -> In b l -> R a b -> R' (f a) (f b)) ->
  StronglySorted R l -> StronglySorted R' (map f l).
Proof.
  intros H S. induction S as [|a l S IH FA]; cbn [map]; constructor.
  - apply IH. intros; apply H; auto; right; auto.
  - apply Forall_map. rewrite Forall_forall in *. intros x Hx. apply H; auto; [left|right]; auto.
Qed.

Lemma flat_sorted {Y} (R' : Y -> Y -> Prop) (f : nat -> list Y) l :
  StronglySorted lt l -> (forall t, In t l -> StronglySorted R' (f t)) ->
  (forall t u x y, In t l -> In u l -> t < u -> In x (f t) -> In y (f u) -> R' x y) ->
  StronglySorted R' (flat_map f l).
Proof.
  intros S. induction S as [|a l S IH FA]; intros H1 H2; cbn [flat_map]; [constructor|].
  apply StronglySorted_app.
  - apply H1. left; auto.
  - apply IH; [intros t Ht; apply H1; right; auto|].
    intros t u x y Ht Hu. apply H2; right; auto.
  - intros x y Hx Hy. apply in_flat_map in Hy. destruct Hy as (u & Hu & Hy).
    rewrite Forall_forall in FA. apply (H2 a u x y); auto; [left|right]; auto.
Qed.

Section Sorted.
  Variables (s : arrow_sp) (ds dt dl dO : nat) (k : arrow_blks) (P : arrow_pats) (n : nat).
  Hypothesis AG : arrowGood s ds dt dl dO k P.
  Hypothesis AC : arrowChordal P.
  Local Notation all := (allIdx n ds dt dl dO).
  Local Notation rk := (rank n ds dt dl).
  Definition rlt (a b : gidx) : Prop := rk a < rk b.

  Lemma csorted b nr nc Q pr pc dg : goodBlk b nr nc Q pr pc dg -> forall i, StronglySorted lt (cols (b_sp b) i).
  Proof. intros G i. apply (gb_sorted _ _ _ _ _ _ _ G). Qed.

  Lemma cbound b nr nc Q pr pc dg : goodBlk b nr nc Q pr pc dg -> forall i j, In j (cols (b_sp b) i) -> j < nc.
  Proof.
    intros G i j H. apply cols_In, (wfc_bounds _ (gb_wf _ _ _ _ _ _ _ G)) in H.
    rewrite (gb_cols _ _ _ _ _ _ _ G) in H. tauto.
  Qed.

  Lemma all_sorted : StronglySorted rlt all.
  Proof.
    unfold allIdx. rewrite <- flat_map_concat_map.
    repeat apply StronglySorted_app.
    - apply (map_sorted lt); [|apply seq_sorted]. intros a b _ _ H. exact H.
    - apply flat_sorted; [apply seq_sorted| |].
      + intros t _. apply (map_sorted lt); [|apply seq_sorted]. intros a b _ _ H. unfold rlt. cbn [rank]. lia.
      + intros t u x y _ _ Lt Hx Hy. apply in_map_iff in Hx, Hy. destruct Hx as (i & <- & Hi), Hy as (j & <- & Hj).
        apply in_seq in Hi, Hj. unfold rlt. cbn [rank]. nia.
    - apply (map_sorted lt); [|apply seq_sorted]. intros a b _ _ H. unfold rlt. cbn [rank]. lia.
    - apply (map_sorted lt); [|apply seq_sorted]. intros a b _ _ H. unfold rlt. cbn [rank]. lia.
    - intros x y Hx Hy. apply in_map_iff in Hx, Hy. destruct Hx as (i & <- & Hi), Hy as (j & <- & Hj).
      apply in_seq in Hi, Hj. unfold rlt. cbn [rank]. lia.
    - intros x y Hx Hy. apply in_flat_map in Hx. destruct Hx as (t & Ht & Hx). apply in_seq in Ht.
      apply in_map_iff in Hx. destruct Hx as (i & <- & Hi). apply in_seq in Hi.
      apply in_app_iff in Hy. destruct Hy as [Hy|Hy]; apply in_map_iff in Hy; destruct Hy as (j & <- & Hj);
        unfold rlt; cbn [rank]; nia.
    - intros x y Hx Hy. apply in_map_iff in Hx. destruct Hx as (i & <- & Hi). apply in_seq in Hi.
      rewrite !in_app_iff in Hy. destruct Hy as [Hy|[Hy|Hy]].
      + apply in_flat_map in Hy. destruct Hy as (t & Ht & Hy). apply in_map_iff in Hy. destruct Hy as (j & <- & Hj).
        unfold rlt. cbn [rank]. nia.
      + apply in_map_iff in Hy. destruct Hy as (j & <- & Hj). unfold rlt. cbn [rank]. lia.
      + apply in_map_iff in Hy. destruct Hy as (j & <- & Hj). unfold rlt. cbn [rank]. lia.
  Qed.

  Ltac inm := repeat match goal with
    | H : In _ (_ ++ _) |- _ => apply in_app_iff in H; destruct H as [H|H]
    | H : In _ (flat_map _ _) |- _ => let t := fresh "t" in let Ht := fresh "Ht" in
        apply in_flat_map in H; destruct H as (t & Ht & H); apply in_seq in Ht
    | H : In _ (map _ _) |- _ => let j := fresh "j" in let E := fresh "E" in
        apply in_map_iff in H; destruct H as (j & <- & H)
    end.

  Lemma row_sorted g : In g all -> StronglySorted rlt (fwdL k n g).
  Proof.
    intros Hg. apply in_allIdx in Hg.
    pose proof AG as [Gsd Gsn Gso Gtd Gts Glp Gld Gln Gos God].
    destruct g as [i|[|t] i|i|i]; cbn [fwdL].
    - eapply map_sorted; [|eapply csorted; eauto]. unfold rlt; cbn [rank]; intros; lia.
    - apply StronglySorted_app.
      + eapply map_sorted; [|eapply csorted; eauto]. unfold rlt; cbn [rank]; intros; lia.
      + eapply map_sorted; [|eapply csorted; eauto]. unfold rlt; cbn [rank]; intros; lia.
      + intros x y Hx Hy. inm. apply (cbound _ _ _ _ _ _ _ Gsn) in Hx. unfold rlt; cbn [rank]. lia.
    - apply StronglySorted_app.
      + eapply map_sorted; [|eapply csorted; eauto]. unfold rlt; cbn [rank]; intros; lia.
      + eapply map_sorted; [|eapply csorted; eauto]. unfold rlt; cbn [rank]; intros; lia.
      + intros x y Hx Hy. inm. apply (cbound _ _ _ _ _ _ _ Gts) in Hx. unfold rlt; cbn [rank]. nia.
    - apply StronglySorted_app.
      + eapply map_sorted; [|eapply csorted; eauto]. unfold rlt; cbn [rank]; intros; lia.
      + eapply map_sorted; [|eapply csorted; eauto]. unfold rlt; cbn [rank]; intros; lia.
      + intros x y Hx Hy. inm. apply (cbound _ _ _ _ _ _ _ Glp) in Hx. unfold rlt; cbn [rank]. nia.
    - apply StronglySorted_app; [|apply StronglySorted_app; [|apply StronglySorted_app|]|].
      + eapply map_sorted; [|eapply csorted; eauto]. unfold rlt; cbn [rank]; intros; lia.
      + apply flat_sorted; [apply seq_sorted| |].
        * intros t _. eapply map_sorted; [|eapply csorted; eauto]. unfold rlt; cbn [rank]; intros; lia.
        * intros t u x y _ _ Lt Hx Hy. inm. apply (cbound _ _ _ _ _ _ _ Gos) in Hx. unfold rlt; cbn [rank]. nia.
      + eapply map_sorted; [|eapply csorted; eauto]. unfold rlt; cbn [rank]; intros; lia.
      + eapply map_sorted; [|eapply csorted; eauto]. unfold rlt; cbn [rank]; intros; lia.
      + intros x y Hx Hy. inm. apply (cbound _ _ _ _ _ _ _ Gln) in Hx. unfold rlt; cbn [rank]. nia.
      + intros x y Hx Hy. inm; apply (cbound _ _ _ _ _ _ _ Gos) in Hx; unfold rlt; cbn [rank]; nia.
      + intros x y Hx Hy. inm; apply (cbound _ _ _ _ _ _ _ Gso) in Hx; unfold rlt; cbn [rank]; nia.
  Qed.

  Definition bigL (g : gidx) : list gidx := filter (fun x => rk x <? rk g) all.
  Definition bigC (g : gidx) : list gidx := filter (fun x => rk g <? rk x) (rev all).

  Lemma row_sub g : In g all ->
    fwdL k n g = filter (fun x => memI gidx_eq_dec x (fwdL k n g)) (bigL g).
  Proof.
    intros Hg. apply (sorted_sub gidx_eq_dec rlt).
    - unfold rlt. intros; lia.
    - unfold rlt. intros; lia.
    - apply row_sorted; auto.
    - apply filter_StronglySorted, all_sorted.
    - intros x Hx. destruct (arrow_rank s ds dt dl dO k P n g x AG AC Hg Hx). apply filter_In.
      rewrite Nat.ltb_lt. auto.
  Qed.

  Lemma rows_sorted c nr (f : nat -> gidx) j : (forall a b, a > b -> rk (f a) > rk (f b)) ->
    StronglySorted (fun a b => rlt b a) (map f (rowsOf c nr j)).
  Proof.
    intros H. apply (map_sorted gt); [|apply filter_StronglySorted, rev_seq_sorted].
    intros a b _ _ Hab. apply H. auto.
  Qed.

  Lemma col_sorted g : In g all -> StronglySorted (fun a b => rlt b a) (bwdL ds dt dl dO k n g).
  Proof.
    intros Hg. apply in_allIdx in Hg.
    destruct g as [i|t i|i|i]; cbn [bwdL].
    - repeat apply StronglySorted_app; try (apply rows_sorted; cbn [rank]; intros; lia);
        intros x y Hx Hy; inm; apply rowsOf_In in Hx, Hy; unfold rlt; cbn [rank]; nia.
    - destruct (Nat.eqb_spec t n) as [->|N].
      + repeat apply StronglySorted_app; try (apply rows_sorted; cbn [rank]; intros; lia);
        intros x y Hx Hy; inm; apply rowsOf_In in Hx, Hy; unfold rlt; cbn [rank]; nia.
      + repeat apply StronglySorted_app; try (apply rows_sorted; cbn [rank]; intros; lia);
        intros x y Hx Hy; inm; apply rowsOf_In in Hx, Hy; unfold rlt; cbn [rank]; nia.
    - repeat apply StronglySorted_app; try (apply rows_sorted; cbn [rank]; intros; lia);
        intros x y Hx Hy; inm; apply rowsOf_In in Hx, Hy; unfold rlt; cbn [rank]; nia.
    - apply rows_sorted; cbn [rank]; intros; lia.
  Qed.

  Lemma col_sub g : In g all ->
    bwdL ds dt dl dO k n g = filter (fun x => memI gidx_eq_dec x (bwdL ds dt dl dO k n g)) (bigC g).
  Proof.
    intros Hg. apply (sorted_sub gidx_eq_dec (fun a b => rlt b a)).
    - unfold rlt. intros; lia.
    - unfold rlt. intros; lia.
    - apply col_sorted; auto.
    - apply filter_StronglySorted, (rev_sorted rlt), all_sorted.
    - intros x Hx. apply (cg_in _ _ _ (arrow_cols s ds dt dl dO k P AG n)) in Hx; auto.
      destruct Hx as [Hx Hr]. destruct (arrow_rank s ds dt dl dO k P n x g AG AC Hx Hr). apply filter_In.
      rewrite Nat.ltb_lt, <- in_rev. auto.
  Qed.

  Lemma bigL_rank g x : In g all -> In x (bigL g) -> In x all /\ rk x < rk g.
  Proof. intros _ H. apply filter_In in H. rewrite Nat.ltb_lt in H. auto. Qed.
  Lemma bigC_rank g x : In g all -> In x (bigC g) -> In x all /\ rk g < rk x.
  Proof. intros _ H. apply filter_In in H. rewrite Nat.ltb_lt, <- in_rev in H. auto. Qed.
End Sorted.

Section User.
  Context {F : Type} (O : ops F) (fin : F -> Prop) (same : F -> F -> Prop).
  Context (R : sameRules O fin same).

  Lemma arrow_goodRun s ds dt dl dO k P n m w d :
    arrowDims s ds dt dl dO -> arrowGood s ds dt dl dO k P -> arrowChordal P -> arrowCovers s ds dt dl dO P ->
    inputArrow O n ds dt dl dO m w -> declaredArrow s n m -> dataOf k n ds dt dl dO d ->
    goodRun O gidx_eq_dec (allIdx n ds dt dl dO) (bigL ds dt dl dO n) (fwdL k n)
      (symArrow O n (permFun s (matFun O m w))) (lowArrow O n (strictFun O k d)).
  Proof.
    intros HD AG AC AV IA DA DO.
    pose proof (arrow_rows O s ds dt dl dO k P HD AG AC AV n m w IA DA d) as RG.
    assert (RK := fun g h => arrow_rank s ds dt dl dO k P n g h AG AC).
    constructor.
    - intros g Hg. eapply row_sub; eauto.
    - apply RG.
    - intros g h Hg Hh N. destruct (bigL_rank ds dt dl dO n g h Hg Hh) as [Hh' Lt].
      apply (rg_A _ _ _ _ _ RG); auto.
      + intros ->. lia.
      + intros H. apply RK in H; auto. lia.
    - intros g h x Hg Hh H1 H2. destruct (bigL_rank ds dt dl dO n g h Hg Hh) as [Hh' Lt].
      destruct (rg_closed _ _ _ _ _ RG g h x) as [H|H]; auto.
      + intros ->. lia.
      + apply RK in H; auto. lia.
  Qed.

  Lemma arrow_agree s1 s2 ds dt dl dO k1 k2 n :
    arrowDims s1 ds dt dl dO -> arrowDims s2 ds dt dl dO ->
    arrowBlocks s1 = Ok k1 -> arrowBlocks s2 = Ok k2 ->
    forall mt reg m1 w1 m2 w2 d01 d02 d1,
    let all := allIdx n ds dt dl dO in
    (forall g, In g all -> permIdx s1 g = permIdx s2 g) ->
    inputArrow O n ds dt dl dO m1 w1 -> declaredArrow s1 n m1 ->
    inputArrow O n ds dt dl dO m2 w2 -> declaredArrow s2 n m2 ->
    (forall g h, In g all -> In h all -> agree same (matAt O m1 w1 g h) (matAt O m2 w2 g h)) ->
    regSame fin same reg ->
    dataOf k1 n ds dt dl dO d01 -> dataOf k2 n ds dt dl dO d02 ->
    arrowFactorize O mt k1 m1 reg d01 = Ok d1 ->
    (forall g, In g all -> fin (pivotAt O d1 g) /\ ~ same (pivotAt O d1 g) (o0 O)) ->
    (forall g h, In g all -> In h all -> g <> h -> fin (factorAt O (o0 O) k1 d1 g h)) ->
    exists d2, arrowFactorize O mt k2 m2 reg d02 = Ok d2 /\
      (forall g, In g all -> same (pivotAt O d1 g) (pivotAt O d2 g)) /\
      (forall g h, In g all -> In h all -> g <> h ->
         same (factorAt O (o0 O) k1 d1 g h) (factorAt O (o0 O) k2 d2 g h)) /\
      forall rhs, vecOf n ds dt dl dO rhs ->
      exists x1 x2, arrowSolveInPlace O k1 d1 rhs = Ok x1 /\ arrowSolveInPlace O k2 d2 rhs = Ok x2 /\
        vecOf n ds dt dl dO x1 /\ vecOf n ds dt dl dO x2 /\
        ((forall g, In g all -> fin (gvecAt O x1 g)) ->
         forall g, In g all -> same (gvecAt O x1 g) (gvecAt O x2 g)).
  Proof.
    intros HD1 HD2 HK1 HK2 mt reg m1 w1 m2 w2 d01 d02 d1 all PE IA1 DA1 IA2 DA2 AE RS DO01 DO02 EF1 FD FL.
    destruct (arrow_good s2 ds dt dl dO k2 HD2 HK2) as (P2 & AG2 & AC2 & AV2).
    pose proof (goodInput_of O s2 ds dt dl dO P2 n m2 w2 HD2 AV2 IA2 DA2) as GI2.
    destruct (arrowFactorize_ok O s2 ds dt dl dO k2 P2 AG2 AC2 mt n m2 reg d02 DO02 GI2) as (d2 & EF2 & DO2 & AR2).
    destruct (arrow_run O s1 ds dt dl dO k1 n HD1 HK1 mt m1 w1 reg d01 d1 IA1 DA1 DO01 EF1)
      as (P1 & AG1 & AC1 & AV1 & DO1 & AR1).
    exists d2. split; auto.
    destruct (arrow_chainedF O s1 ds dt dl dO k1 P1 HD1 AG1 AV1 n m1 w1 IA1 DA1 mt reg d1 AR1) as (S1 & C1).
    destruct (arrow_chainedF O s2 ds dt dl dO k2 P2 HD2 AG2 AV2 n m2 w2 IA2 DA2 mt reg d2 AR2) as (S2 & C2).
    pose proof (arrow_goodRun s1 ds dt dl dO k1 P1 n m1 w1 d1 HD1 AG1 AC1 AV1 IA1 DA1 DO1) as R1.
    pose proof (arrow_goodRun s2 ds dt dl dO k2 P2 n m2 w2 d2 HD2 AG2 AC2 AV2 IA2 DA2 DO2) as R2.
    assert (PIn := permIdx_in s1 n ds dt dl dO HD1).
    assert (BR : forall g x, In g all -> In x (bigL ds dt dl dO n g) -> In x all /\ rank n ds dt dl x < rank n ds dt dl g)
      by (intros; apply bigL_rank with (dO := dO); auto).
    assert (FN : finRun O fin same all (fwdL k1 n) (lowArrow O n (strictFun O k1 d1)) (pivotAt O d1)).
    { intros g Hg. destruct (FD g Hg) as [X1 X2]. split; auto. split; auto.
      intros h Hh. destruct (arrow_rank s1 ds dt dl dO k1 P1 n g h AG1 AC1 Hg Hh) as [Hh' Lt].
      rewrite <- (factorAt_strict O ds dt dl dO k1 n); auto; [|intros ->; lia]. apply FL; auto. intros ->; lia. }
    assert (HA : forall g h, In g all -> h = g \/ In h (bigL ds dt dl dO n g) ->
      agree same (symArrow O n (permFun s1 (matFun O m1 w1)) g h) (symArrow O n (permFun s2 (matFun O m2 w2)) g h)).
    { intros g h Hg Hh. assert (Hh' : In h all) by (destruct Hh as [->|Hh]; auto; apply (BR g h); auto).
      rewrite (A_mat O s1 ds dt dl dO n m1 w1 IA1), (A_mat O s2 ds dt dl dO n m2 w2 IA2).
      rewrite <- !PE by auto. apply AE; apply PIn; auto. }
    assert (RG : forall g v, In g all -> (fin (reg v (localIdx g)) -> fin v) /\
      forall v', same v v' -> fin (reg v (localIdx g)) -> same (reg v (localIdx g)) (reg v' (localIdx g)))
      by (intros; apply RS).
    destruct (runs_same O fin same R gidx_eq_dec all (bigL ds dt dl dO n) (rank n ds dt dl) BR
      _ (fun v g => reg v (localIdx g)) _ _ _ _ _ S1 _ S2 _ _ R1 R2 C1 C2 FN HA RG) as [SD SL].
    split; auto. split.
    { intros g h Hg Hh N. rewrite !(factorAt_strict O ds dt dl dO _ n) by auto. apply SL; auto. }
    intros rhs VR.
    destruct (arrow_solve_eqs O s1 ds dt dl dO k1 P1 n d1 rhs AG1 AC1 DO1 VR)
      as (y1 & z1 & x1 & E1 & Nx1 & FE1 & DE1 & BE1).
    destruct (arrow_solve_eqs O s2 ds dt dl dO k2 P2 n d2 rhs AG2 AC2 DO2 VR)
      as (y2 & z2 & x2 & E2 & Nx2 & FE2 & DE2 & BE2).
    exists x1, x2. repeat (split; auto). intros FX g Hg.
    pose proof (Permutation_in _ (Permutation_sym (permIdx_Permutation s1 n ds dt dl dO HD1)) Hg) as Hg'.
    apply in_map_iff in Hg'. destruct Hg' as (g' & <- & Hg').
    assert (EX : gvecAt O x2 (permIdx s1 g') = pvec O s2 x2 g') by (unfold pvec; rewrite PE; auto).
    rewrite EX.
    apply (solves_same O fin same R gidx_eq_dec all (bigL ds dt dl dO n) (rank n ds dt dl) BR
      _ (fun v g => reg v (localIdx g)) _ _ _ _ _ S1 _ S2 _ _ R1 R2 C1 C2 FN HA RG
      (bigC ds dt dl dO n) (bwdL ds dt dl dO k1 n) (bwdL ds dt dl dO k2 n))
      with (b := pvec O s1 rhs) (y1 := y1) (z1 := z1) (x1 := pvec O s1 x1) (y2 := y2) (z2 := z2) (x2 := pvec O s2 x2)
        (top := ds + (n + 1) * dt + dl + dO + 1); auto.
    - intros h x Hh Hx. apply bigC_rank with (dO := dO); auto.
    - intros h Hh. eapply col_sub; eauto.
    - intros h Hh. eapply col_sub; eauto.
    - apply (arrow_cols s1 ds dt dl dO k1 P1 AG1 n).
    - apply (arrow_cols s2 ds dt dl dO k2 P2 AG2 n).
    - intros h Hh. rewrite FE2 by auto. unfold pvec at 1. rewrite <- PE by auto. reflexivity.
    - intros h Hh. apply FX, PIn. auto.
    - intros h Hh. pose proof (rank_le n ds dt dl dO h Hh). lia.
  Qed.

  Lemma tri_agree a1 c1 a2 c2 p dt n k1 k2 :
    spOf a1 dt dt -> spOf c1 dt dt -> spOf a2 dt dt -> spOf c2 dt dt -> validPerm dt p ->
    tridiagonalBlocks a1 c1 p = Ok k1 -> tridiagonalBlocks a2 c2 p = Ok k2 ->
    forall mt reg A1 B1 wA1 wB1 A2 B2 wA2 wB2 d01 d02 d1,
    inputTri O n dt A1 B1 wA1 wB1 -> declaredTri a1 c1 n A1 B1 ->
    inputTri O n dt A2 B2 wA2 wB2 -> declaredTri a2 c2 n A2 B2 ->
    (forall t i u j, t < n + 1 -> i < dt -> u < n + 1 -> j < dt ->
       agree same (triMatAt O A1 B1 wA1 wB1 t i u j) (triMatAt O A2 B2 wA2 wB2 t i u j)) ->
    regSame fin same reg ->
    dataOf k1 n 0 dt 0 0 d01 -> dataOf k2 n 0 dt 0 0 d02 ->
    tridiagonalFactorize O mt k1 dt A1 B1 reg d01 = Ok d1 ->
    (forall t i, t < n + 1 -> i < dt -> fin (pivotAt O d1 (GT t i)) /\ ~ same (pivotAt O d1 (GT t i)) (o0 O)) ->
    (forall t i u j, t < n + 1 -> i < dt -> u < n + 1 -> j < dt -> (t, i) <> (u, j) ->
       fin (factorAt O (o0 O) k1 d1 (GT t i) (GT u j))) ->
    exists d2, tridiagonalFactorize O mt k2 dt A2 B2 reg d02 = Ok d2 /\
      (forall t i, t < n + 1 -> i < dt -> same (pivotAt O d1 (GT t i)) (pivotAt O d2 (GT t i))) /\
      (forall t i u j, t < n + 1 -> i < dt -> u < n + 1 -> j < dt -> (t, i) <> (u, j) ->
         same (factorAt O (o0 O) k1 d1 (GT t i) (GT u j)) (factorAt O (o0 O) k2 d2 (GT t i) (GT u j))) /\
      forall rhs, blocksOf n dt rhs ->
      exists x1 x2, tridiagonalSolveInPlace O k1 d1 rhs = Ok x1 /\ tridiagonalSolveInPlace O k2 d2 rhs = Ok x2 /\
        blocksOf n dt x1 /\ blocksOf n dt x2 /\
        ((forall t i, t < n + 1 -> i < dt -> fin (vecAt O (nth t x1 []) i)) ->
         forall t i, t < n + 1 -> i < dt -> same (vecAt O (nth t x1 []) i) (vecAt O (nth t x2 []) i)).
  Proof.
    intros SA1 SC1 SA2 SC2 HP HK1 HK2 mt reg A1 B1 wA1 wB1 A2 B2 wA2 wB2 d01 d02 d1 IT1 DT1 IT2 DT2 AE RS DO1 DO2 EF FD FL.
    unfold tridiagonalFactorize, numRepetitions in *. rewrite (do_nts _ _ _ _ _ _ _ DO1) in EF.
    rewrite (do_nts _ _ _ _ _ _ _ DO2).
    assert (TI : forall g, In g (allIdx n 0 dt 0 0) <-> exists t i, g = GT t i /\ t < n + 1 /\ i < dt)
      by (intros; apply in_tri).
    pose proof (arrow_agree _ _ 0 dt 0 0 k1 k2 n (tri_dims a1 c1 p dt SA1 SC1 HP) (tri_dims a2 c2 p dt SA2 SC2 HP)
      (tri_k a1 c1 p dt k1 SA1 SC1 HK1) (tri_k a2 c2 p dt k2 SA2 SC2 HK2) mt reg) as HH.
    assert (PE : forall g, In g (allIdx n 0 dt 0 0) ->
      permIdx (tridiagonalSparsity a1 c1 p) g = permIdx (tridiagonalSparsity a2 c2 p) g).
    { intros g Hg. apply TI in Hg. destruct Hg as (t & i & -> & _). reflexivity. }
    specialize (HH _ _ _ _ d01 d02 d1 PE (tri_input O n dt A1 B1 wA1 wB1 IT1) (tri_declared a1 c1 p n dt A1 B1 DT1)
      (tri_input O n dt A2 B2 wA2 wB2 IT2) (tri_declared a2 c2 p n dt A2 B2 DT2)).
    destruct HH as (d2 & E2 & H1 & H2 & H3); auto.
    - intros g h Hg Hh. apply TI in Hg, Hh. destruct Hg as (t & i & -> & Ht & Hi), Hh as (u & j & -> & Hu & Hj).
      apply AE; auto.
    - intros g Hg. apply TI in Hg. destruct Hg as (t & i & -> & Ht & Hi). auto.
    - intros g h Hg Hh N. apply TI in Hg, Hh. destruct Hg as (t & i & -> & Ht & Hi), Hh as (u & j & -> & Hu & Hj).
      apply FL; auto. congruence.
    - exists d2. split; auto. split; [intros; apply H1, TI; eauto|].
      split; [intros; apply H2; [apply TI; eauto|apply TI; eauto|congruence]|].
      intros rhs HV. destruct (H3 _ (tri_vec n dt rhs HV)) as (x1 & x2 & ES1 & ES2 & V1 & V2 & HX).
      exists (v_tri x1), (v_tri x2). unfold tridiagonalSolveInPlace. rewrite ES1, ES2.
      split; auto. split; auto. split; [split; apply V1|]. split; [split; apply V2|].
      intros FX t i Ht Hi. apply HX with (g := GT t i).
      + intros g Hg. apply TI in Hg. destruct Hg as (t' & j & -> & Ht' & Hj). apply FX; auto.
      + apply TI; eauto.
  Qed.
End User.
