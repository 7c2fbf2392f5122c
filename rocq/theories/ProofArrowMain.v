(** Main theorems about the arrowhead factorization. *)
From Coq Require Import List Arith Lia Bool Ring Permutation.
From Verif Require Import Base ModelPerm ModelSparsity ModelSymbolic ModelNumeric ModelArrow ModelReg.
From Verif Require Import SpecSymbolic SpecArrow SpecNumeric SpecArrowNum.
From Verif Require Import ProofBase ProofPerm ProofCsr ProofSparsity ProofFill ProofFill3
  ProofArrowSym ProofDense ProofUpRow ProofUp ProofEntry ProofExact ProofKernel ProofSolve
  ProofLdl ProofSingle ProofMethods ProofArrowRows ProofArrowUniq ProofArrowDense
  ProofArrowProduct ProofArrowSolve.
Import ListNotations.

Section Good.
  Context {F : Type} (O : ops F).

  Lemma goodSym_of m n vals sp (R : pattern) p :
    matOf O m n n vals -> validPerm n p -> declaredLow m sp ->
    (forall i j, permLow (entries sp) n p i j -> R i j) -> goodSym m n R p.
  Proof.
    intros [S I] HP D C. split; [eapply inputOf_readable; eauto|]. split; auto.
    intros i j (Hji & Hi & Hin). apply C. split; auto. split; auto.
    apply D; auto. apply validPerm_isPerm in HP.
    assert (nth i p 0 <> nth j p 0); [|lia].
    intros E. apply isPerm_inj with (n := n) in E; auto; lia.
  Qed.

  Lemma goodRect_of m nr nc vals sp (R : pattern) p q :
    matOf O m nr nc vals -> declaredAll m sp ->
    (forall i j, permRect (entries sp) nr nc p q i j -> R i j) -> goodRect m nr nc R p q.
  Proof.
    intros [S I] D C. split; [eapply inputOf_readable; eauto|]. split; auto.
    intros i j (Hi & Hj & Hin). apply C. split; auto.
  Qed.

  Lemma goodInput_of s ds dt dl dO P n m w :
    arrowDims s ds dt dl dO -> arrowCovers s ds dt dl dO P ->
    inputArrow O n ds dt dl dO m w -> declaredArrow s n m ->
    goodInput s ds dt dl dO P n m.
  Proof.
    intros HD [V1 V2 V3 V4 V5 V6 V7 V8 V9 V10]
      [I1 I2 I3 N4 I4 N5 I5 I6 I7 I8 N9 I9 I10] [D1 D2 D3 D4 D5 D6 D7 D8 D9 D10].
    destruct HD as [_ _ _ _ _ _ _ _ _ _ Ps Pt Pl Po].
    constructor; auto; try (eapply goodSym_of; eauto; fail); try (eapply goodRect_of; eauto; fail).
    - intros t Ht. eapply goodSym_of; eauto.
    - intros t Ht. eapply goodRect_of; eauto.
    - intros t Ht. eapply goodRect_of; eauto.
  Qed.

  (** default construction *)
  Lemma nth_repeat' {A} (a d : A) n i : i < n -> nth i (repeat a n) d = a.
  Proof.
    revert i. induction n as [|n IH]; intros i H; [lia|]. destruct i; cbn; auto. apply IH. lia.
  Qed.

  Lemma arrowCtor_ok s ds dt dl dO k P n : arrowGood s ds dt dl dO k P ->
    exists d, arrowCtor O k n = Ok d /\ dataOf k n ds dt dl dO d.
  Proof.
    intros [Gsd Gsn Gso Gtd Gts Glp Gld Gln Gos God]. unfold arrowCtor.
    set (d := mkAD _ _ _ _ _ _ _ _ _ _).
    assert (H : dataOf k n ds dt dl dO d).
    { unfold d. constructor; cbn [d_sd d_sn d_so d_td d_ts d_lp d_ld d_ln d_os d_od];
        unfold zeroLD, zeroL; cbn [fst snd]; rewrite ?repeat_length; auto;
        try (split; [reflexivity|]; eapply gb_rows; eauto).
      - intros t Ht. rewrite nth_repeat' by auto. cbn [fst snd]. split; [apply repeat_length|].
        rewrite repeat_length. eapply gb_rows; eauto.
      - intros t Ht. rewrite nth_repeat' by auto. apply repeat_length.
      - intros t Ht. rewrite nth_repeat' by auto. apply repeat_length. }
    exists d. split; auto. rewrite (check_ok ds dt dl dO k n d H). reflexivity.
  Qed.
End Good.

Section Perm.
  Variables (s : arrow_sp) (n ds dt dl dO : nat).
  Hypothesis HD : arrowDims s ds dt dl dO.
  Local Notation all := (allIdx n ds dt dl dO).

  Lemma permIdx_in g : In g all -> In (permIdx s g) all.
  Proof.
    destruct HD as [_ _ _ _ _ _ _ _ _ _ Ps Pt Pl Po]. apply validPerm_isPerm in Ps, Pt, Pl, Po.
    rewrite !in_allIdx. destruct g; cbn [permIdx]; intros H;
      try (apply isPerm_lt; auto; fail).
    split; [tauto|]. apply isPerm_lt; auto. tauto.
  Qed.

  Lemma permIdx_inj g h : In g all -> In h all -> permIdx s g = permIdx s h -> g = h.
  Proof.
    destruct HD as [_ _ _ _ _ _ _ _ _ _ Ps Pt Pl Po]. apply validPerm_isPerm in Ps, Pt, Pl, Po.
    rewrite !in_allIdx. destruct g, h; cbn [permIdx]; intros H1 H2 E; try discriminate;
      injection E; intros; subst; f_equal;
      [apply (isPerm_inj ds (ss_perm (as_start s)))|apply (isPerm_inj dt (st_perm (as_tri s)))
      |apply (isPerm_inj dl (sl_perm (as_link s)))|apply (isPerm_inj dO (so_perm (as_outer s)))];
      auto; tauto.
  Qed.

  Lemma permIdx_inv : exists q, forall g, In g all ->
    q (permIdx s g) = g /\ In (q g) all /\ permIdx s (q g) = g.
  Proof.
    destruct HD as [_ _ _ _ _ _ _ _ _ _ Ps Pt Pl Po]. apply validPerm_isPerm in Ps, Pt, Pl, Po.
    destruct (invert_ok _ _ Ps) as (qs & _ & S1 & S2 & S3).
    destruct (invert_ok _ _ Pt) as (qt & _ & T1 & T2 & T3).
    destruct (invert_ok _ _ Pl) as (ql & _ & L1 & L2 & L3).
    destruct (invert_ok _ _ Po) as (qo & _ & O1 & O2 & O3).
    exists (fun g => match g with
      | GS i => GS (nth i qs 0) | GT t i => GT t (nth i qt 0)
      | GL i => GL (nth i ql 0) | GO i => GO (nth i qo 0) end).
    intros g. rewrite !in_allIdx. destruct g; cbn [permIdx]; intros H.
    - rewrite S2, S3 by auto. split; auto. split; auto. apply isPerm_lt; auto.
    - rewrite T2, T3 by tauto. split; auto. split; auto. split; [tauto|]. apply isPerm_lt; auto. tauto.
    - rewrite L2, L3 by auto. split; auto. split; auto. apply isPerm_lt; auto.
    - rewrite O2, O3 by auto. split; auto. split; auto. apply isPerm_lt; auto.
  Qed.

  Lemma permIdx_Permutation : Permutation (map (permIdx s) all) all.
  Proof.
    destruct permIdx_inv as (q & Q). apply NoDup_Permutation_bis.
    - assert (G : forall l, (forall g, In g l -> In g all) -> NoDup l -> NoDup (map (permIdx s) l)).
      { induction l as [|g l IH]; intros Hl ND; cbn [map]; [constructor|].
        inversion ND as [|? ? Ng ND']. subst. constructor.
        - intros H. apply in_map_iff in H. destruct H as (h & E & Hh).
          apply permIdx_inj in E; [subst; auto| |]; apply Hl; [right; auto|left; auto].
        - apply IH; auto. intros h Hh. apply Hl. right; auto. }
      apply G; auto. apply NoDup_allIdx.
    - rewrite map_length. auto.
    - intros g Hg. apply in_map_iff in Hg. destruct Hg as (h & <- & Hh). apply permIdx_in; auto.
  Qed.
End Perm.

Section Main.
  Context {F : Type} (O : ops F) (FL : fieldLaws O).
  Local Notation "0" := (o0 O) : scalar.
  Local Notation "a + b" := (oadd O a b) : scalar.
  Local Notation "a - b" := (osub O a b) : scalar.
  Local Notation "a * b" := (omul O a b) : scalar.
  Local Notation sum := (sumn O).
  Add Ring FrM : (fl_ring FL).

  Lemma symArrow_perm s n A g h :
    symArrow O n (permFun s A) g h = symArrow O n A (permIdx s g) (permIdx s h).
  Proof. destruct g, h; reflexivity. Qed.

  Lemma symFun_perm s (m : arrow_mat (F:=F)) w : symFun (permFun s (matFun O m w)).
  Proof. constructor; intros; cbn [permFun matFun f_sd f_td f_ld f_od]; apply symAt_perm. Qed.

  Section Arrow.
  Variables (s : arrow_sp) (ds dt dl dO : nat) (k : arrow_blks) (P : arrow_pats).
  Hypothesis HD : arrowDims s ds dt dl dO.
  Hypothesis AG : arrowGood s ds dt dl dO k P.
  Hypothesis AC : arrowChordal P.
  Hypothesis AV : arrowCovers s ds dt dl dO P.

  Lemma strictFun_low d : strictLower O (strictFun O k d).
  Proof.
    pose proof AG as [Gsd Gsn Gso Gtd Gts Glp Gld Gln Gos God].
    constructor; intros; cbn [strictFun f_sd f_td f_ld f_od]; apply getL_out; intros Hin.
    - apply (gb_in _ _ _ _ _ _ _ Gsd), (sd_low P AC) in Hin. lia.
    - apply (gb_in _ _ _ _ _ _ _ Gtd), (td_low P AC) in Hin. lia.
    - apply (gb_in _ _ _ _ _ _ _ Gld), (ld_low P AC) in Hin. lia.
    - apply (gb_in _ _ _ _ _ _ _ God), (od_low P AC) in Hin. lia.
  Qed.

  Lemma factorAt_low n d g h : dataOf k n ds dt dl dO d ->
    In g (allIdx n ds dt dl dO) -> In h (allIdx n ds dt dl dO) ->
    factorAt O (fl_one FL) k d g h = lowArrow O n (unitFun O FL (strictFun O k d)) g h.
  Proof.
    intros DO. rewrite !in_allIdx. unfold factorAt. rewrite (do_nts _ _ _ _ _ _ _ DO).
    destruct DO as [[Nsd1 Nsd2] Nsn Nso Ntd Htd Nts Hts Nlp [Nld1 Nld2] Nln Nos Hos [Nod1 Nod2]].
    destruct g as [i|t i|i|i], h as [j|u j|j|j]; intros Hg Hh;
      cbn [lowArrow unitFun factorFun strictFun f_sd f_sn f_so f_td f_ts f_lp f_ld f_ln f_os f_od];
      unfold unitAt; auto; rewrite <- ?getL_dense by auto; auto.
    - destruct (Nat.eqb_spec t u) as [->|N].
      + rewrite getL_dense by (apply Htd; tauto). auto.
      + destruct (Nat.eqb_spec t (u + 1)) as [->|]; auto.
        rewrite getL_dense by (apply Hts; lia). auto.
    - rewrite getL_dense by (apply Hos; tauto). auto.
  Qed.

  Lemma arrow_identity mt n m w reg d0 :
    dataOf k n ds dt dl dO d0 -> inputArrow O n ds dt dl dO m w -> declaredArrow s n m ->
    exists d, arrowFactorize O mt k m reg d0 = Ok d /\ dataOf k n ds dt dl dO d /\
      ((forall g, In g (allIdx n ds dt dl dO) -> pivotAt O d g <> 0%s) ->
       exists E,
         (forall g, In g (allIdx n ds dt dl dO) ->
            pivotAt O d g = reg (pivotAt O d g - E (permIdx s g))%s (localIdx g)) /\
         (forall g h, In g (allIdx n ds dt dl dO) -> In h (allIdx n ds dt dl dO) ->
            gldltAt O (allIdx n ds dt dl dO) (factorAt O (fl_one FL) k d) (pivotAt O d) g h =
            plusDiagG O (matAt O m w) E (permIdx s g) (permIdx s h))).
  Proof.
    intros DO IA DA.
    pose proof (goodInput_of O s ds dt dl dO P n m w HD AV IA DA) as GI.
    destruct (arrowFactorize_ok O s ds dt dl dO k P AG AC mt n m reg d0 DO GI) as (d & E & DO' & AR).
    exists d. split; auto. split; auto. intros HZ.
    assert (ED : arrowDense O ds dt dl dO n (permFun s (matFun O m w)) (strictFun O k d) (pivotAt O d) reg).
    { eapply arrow_dense; eauto.
      - intros i Hi. apply HZ, in_allIdx; auto.
      - intros t i Ht Hi. apply HZ, in_allIdx; auto.
      - intros i Hi. apply HZ, in_allIdx; auto.
      - intros i Hi. apply HZ, in_allIdx; auto. }
    destruct (arrow_product O FL n ds dt dl dO _ _ _ _ ED (strictFun_low d) (symFun_perm s m w))
      as (e & He & Hp).
    destruct (permIdx_inv s n ds dt dl dO HD) as (q & Q).
    exists (fun g => e (q g)). split.
    - intros g Hg. rewrite (proj1 (Q g Hg)). auto.
    - intros g h Hg Hh.
      transitivity (gldltAt O (allIdx n ds dt dl dO) (lowArrow O n (unitFun O FL (strictFun O k d)))
                      (pivotAt O d) g h).
      + unfold gldltAt. apply suml_ext. intros r Hr. rewrite !(factorAt_low n) by auto. auto.
      + rewrite Hp by auto. unfold plusDiagG, matAt. rewrite (ia_nts _ _ _ _ _ _ _ _ IA).
        rewrite <- symArrow_perm. rewrite (proj1 (Q g Hg)).
        destruct (gidx_eq_dec g h) as [->|N].
        * destruct (gidx_eq_dec (permIdx s h) (permIdx s h)); congruence.
        * destruct (gidx_eq_dec (permIdx s g) (permIdx s h)) as [E'|]; auto.
          apply (permIdx_inj s n ds dt dl dO HD) in E'; auto. congruence.
  Qed.

  (** ** methods *)

  Lemma arrowRows_methods mt mt' n m reg d :
    (forall g, In g (allIdx n ds dt dl dO) -> pivotAt O d g <> 0%s) ->
    arrowRows O ds dt dl dO k mt m reg n d -> arrowRows O ds dt dl dO k mt' m reg n d.
  Proof.
    intros HZ ([A1 A2 A3 A4] & Z & Y & ln & [B1 B2 B3 B4 B5 B6 B7 B8]).
    pose proof AG as [Gsd Gsn Gso Gtd Gts Glp Gld Gln Gos God].
    assert (ZS : forall i, i < ds -> getD O (snd (d_sd d)) i <> 0%s).
    { intros i Hi. apply (HZ (GS i)), in_allIdx; auto. }
    assert (ZT : forall t i, t < n + 1 -> i < dt -> getD O (snd (nth t (d_td d) ([], []))) i <> 0%s).
    { intros t i Ht Hi. apply (HZ (GT t i)), in_allIdx; auto. }
    assert (ZL : forall i, i < dl -> getD O (snd (d_ld d)) i <> 0%s).
    { intros i Hi. apply (HZ (GL i)), in_allIdx; auto. }
    assert (ZO : forall i, i < dO -> getD O (snd (d_od d)) i <> 0%s).
    { intros i Hi. apply (HZ (GO i)), in_allIdx; auto. }
    pose proof (fun b nr nc R p q sy (G : goodBlk b nr nc R p q sy) => goodBlk_gcsr _ _ _ _ _ _ _ G) as GC.
    split.
    - constructor.
      + destruct A1 as (X & A1). exists X. unfold step5 in *.
        eapply (kernelRows_methods O FL mt mt' _ _ _ 0 ds); try exact A1; auto.
        * pose proof (single_hyp (k_sd k) ds (p_sd P) (ss_perm (as_start s)) Gsd (ac_sd_low _ AC) (ac_sd _ AC)) as KH.
          destruct KH as [_ G21 _ _ _ _]. eapply GC; eauto.
        * eapply GC; eauto.
        * eapply gb_cols; eauto.
        * intros i Hi. lia.
      + unfold step5 in *. eapply (kernelRows_methods O FL mt mt' _ _ _ ds dt); try exact A2; auto;
          try (eapply GC; eauto; fail); try (eapply gb_cols; eauto; fail).
        intros i Hi. apply ZT; auto. lia.
      + intros t Ht. unfold step5 in *.
        eapply (kernelRows_methods O FL mt mt' _ _ _ dt dt); try exact (A3 t Ht); auto;
          try (eapply GC; eauto; fail); try (eapply gb_cols; eauto; fail);
          intros i Hi; apply ZT; auto; lia.
      + unfold step5 in *. eapply (kernelRows_methods O FL mt mt' _ _ _ dt dl); try exact A4; auto;
          try (eapply GC; eauto; fail); try (eapply gb_cols; eauto; fail).
        intros i Hi. apply ZT; auto. lia.
    - exists Z, Y, ln. constructor; auto.
      unfold step5 in *. eapply (kernelRows_methods O FL mt mt' _ _ _ dl dO); try exact B8; auto;
          try (eapply GC; eauto; fail); try (eapply gb_cols; eauto; fail).
  Qed.

  Lemma arrow_methods mt mt' n m w reg d0 d0' d :
    dataOf k n ds dt dl dO d0 -> dataOf k n ds dt dl dO d0' ->
    inputArrow O n ds dt dl dO m w -> declaredArrow s n m ->
    arrowFactorize O mt k m reg d0 = Ok d ->
    (forall g, In g (allIdx n ds dt dl dO) -> pivotAt O d g <> 0%s) ->
    arrowFactorize O mt' k m reg d0' = Ok d.
  Proof.
    intros DO DO' IA DA E HZ.
    pose proof (goodInput_of O s ds dt dl dO P n m w HD AV IA DA) as GI.
    destruct (arrowFactorize_ok O s ds dt dl dO k P AG AC mt n m reg d0 DO GI) as (r & E1 & D1 & R1).
    destruct (arrowFactorize_ok O s ds dt dl dO k P AG AC mt' n m reg d0' DO' GI) as (r' & E2 & D2 & R2).
    rewrite E in E1. injection E1 as <-. rewrite E2. f_equal.
    eapply arrowRows_unique; eauto. apply (arrowRows_methods mt); auto.
  Qed.

  (** ** solve *)

  Lemma dot_unit n i g (x : nat -> F) : i < n -> g i = 0%s ->
    sum n (fun q => (if i =? q then fl_one FL else g q) * x q)%s =
    (sum n (fun q => g q * x q) + x i)%s.
  Proof.
    intros Hi Hg. rewrite <- (sumn_indicator O FL n i (x i) Hi), <- (sumn_plus O FL).
    apply sumn_ext. intros q Hq. rewrite (Nat.eqb_sym q i).
    destruct (Nat.eqb_spec i q) as [->|]; [rewrite Hg; ring|ring].
  Qed.

  Lemma dot_unit_r n j g (x : nat -> F) : j < n -> g j = 0%s ->
    sum n (fun q => (if q =? j then fl_one FL else g q) * x q)%s =
    (sum n (fun q => g q * x q) + x j)%s.
  Proof.
    intros Hi Hg. rewrite <- (dot_unit n j g x) by auto. apply sumn_ext. intros q Hq.
    rewrite (Nat.eqb_sym q j). auto.
  Qed.

  Ltac z0 := match goal with
    | |- context [sumn O ?m ?f] => rewrite (sumn_0 O FL m f) by (intros; ring)
    end.
  Ltac z00 := match goal with
    | |- context [sumn O ?m ?f] =>
        rewrite (sumn_0 O FL m f) by (intros; apply (sumn_0 O FL); intros; ring)
    end.

  Lemma fwd_global n d b y : fwdEqs O ds dt dl dO k n d b y ->
    forall g, In g (allIdx n ds dt dl dO) ->
    suml O (allIdx n ds dt dl dO)
      (fun q => lowArrow O n (unitFun O FL (strictFun O k d)) g q * y q)%s = b g.
  Proof.
    intros [F1 F2 F3 F4 F5] g. pose proof (strictFun_low d) as [S1 S2 S3 S4].
    rewrite in_allIdx, (suml_allIdx O FL). destruct g as [i|t i|i|i]; intros Hg;
      cbn [lowArrow unitFun f_sd f_sn f_so f_td f_ts f_lp f_ld f_ln f_os f_od].
    - rewrite dot_unit by auto. z00. do 2 z0. rewrite F1 by auto. ring.
    - destruct Hg as [Ht Hi]. destruct t as [|t].
      + cbn [Nat.eqb]. rewrite (sumn_single O FL (n + 1) _ 0%nat).
        * cbn [Nat.eqb]. rewrite dot_unit by auto. do 2 z0. rewrite F2 by auto. ring.
        * lia.
        * intros v Hv N. destruct v as [|v]; [lia|]. cbn [Nat.eqb Nat.add]. apply (sumn_0 O FL).
          intros; ring.
      + rewrite (sum_two O FL (n + 1) _ t).
        * replace (t + 1)%nat with (S t) by lia. rewrite !Nat.eqb_refl. 
          replace (S t =? 0) with false by reflexivity.
          destruct (Nat.eqb_spec (S t) t); [lia|]. rewrite dot_unit by auto. do 3 z0.
          pose proof (F3 t i ltac:(lia) Hi) as H. replace (t + 1)%nat with (S t) in H by lia.
          rewrite H. ring.
        * lia.
        * intros v Hv N N'. destruct (Nat.eqb_spec (S t) v); [lia|].
          destruct (Nat.eqb_spec (S t) (v + 1)); [lia|]. apply (sumn_0 O FL). intros; ring.
    - rewrite (sumn_single O FL (n + 1) _ n).
      + rewrite Nat.eqb_refl, dot_unit by auto. do 2 z0. rewrite F4 by auto. ring.
      + lia.
      + intros v Hv N. destruct (Nat.eqb_spec v n); [lia|]. apply (sumn_0 O FL). intros; ring.
    - rewrite dot_unit by auto. rewrite F5 by auto. ring.
  Qed.

  Lemma bwd_global n d z x : bwdEqs O ds dt dl dO k n d z x ->
    forall g, In g (allIdx n ds dt dl dO) ->
    suml O (allIdx n ds dt dl dO)
      (fun q => lowArrow O n (unitFun O FL (strictFun O k d)) q g * x q)%s = z g.
  Proof.
    intros [F1 F2 F3 F4 F5] g. pose proof (strictFun_low d) as [S1 S2 S3 S4].
    rewrite in_allIdx, (suml_allIdx O FL). destruct g as [i|t i|i|i]; intros Hg;
      cbn [lowArrow unitFun f_sd f_sn f_so f_td f_ts f_lp f_ld f_ln f_os f_od].
    - rewrite (dot_unit_r ds i (fun q => f_sd (strictFun O k d) q i)) by auto.
      rewrite (sumn_single O FL (n + 1) _ 0%nat).
      + cbn [Nat.eqb]. z0. rewrite F5 by auto. ring.
      + lia.
      + intros v Hv N. destruct v as [|v]; [lia|]. cbn [Nat.eqb]. apply (sumn_0 O FL). intros; ring.
    - destruct Hg as [Ht Hi]. destruct (Nat.eq_dec t n) as [->|Nn].
      + rewrite Nat.eqb_refl. rewrite (sumn_single O FL (n + 1) _ n).
        * rewrite Nat.eqb_refl.
          rewrite (dot_unit_r dt i (fun q => f_td (strictFun O k d) n q i)) by auto.
          z0. rewrite F3 by auto. ring.
        * lia.
        * intros v Hv N. destruct (Nat.eqb_spec v n); [lia|].
          destruct (Nat.eqb_spec v (n + 1)); [lia|]. apply (sumn_0 O FL). intros; ring.
      + rewrite (sum_two O FL (n + 1) _ t).
        * rewrite !Nat.eqb_refl. destruct (Nat.eqb_spec (t + 1) t); [lia|].
          destruct (Nat.eqb_spec t n); [lia|].
          rewrite (dot_unit_r dt i (fun q => f_td (strictFun O k d) t q i)) by auto.
          do 2 z0. rewrite F4 by (auto; lia). ring.
        * lia.
        * intros v Hv N N'. destruct (Nat.eqb_spec v t); [lia|].
          destruct (Nat.eqb_spec v (t + 1)); [lia|]. apply (sumn_0 O FL). intros; ring.
    - rewrite (dot_unit_r dl i (fun q => f_ld (strictFun O k d) q i)) by auto.
      z00. z0. rewrite F2 by auto. ring.
    - rewrite (dot_unit_r dO i (fun q => f_od (strictFun O k d) q i)) by auto.
      z00. do 2 z0. rewrite F1 by auto. ring.
  Qed.

  Lemma gvec_ext n v v' : vecOf n ds dt dl dO v -> vecOf n ds dt dl dO v' ->
    (forall g, In g (allIdx n ds dt dl dO) -> gvecAt O v g = gvecAt O v' g) -> v = v'.
  Proof.
    intros [N1 N2 N3 N4 N5] [M1 M2 M3 M4 M5] H. destruct v as [a b c e], v' as [a' b' c' e'].
    cbn [v_start v_tri v_link v_outer] in *.
    f_equal.
    - apply (list_ext _ _ (o0 O)); [lia|]. intros i Hi. apply (H (GS i)), in_allIdx. lia.
    - apply (list_ext _ _ []); [lia|]. intros t Ht. apply (list_ext _ _ (o0 O)).
      + rewrite N3, M3; auto; lia.
      + rewrite N3 by lia. intros i Hi. apply (H (GT t i)), in_allIdx. lia.
    - apply (list_ext _ _ (o0 O)); [lia|]. intros i Hi. apply (H (GL i)), in_allIdx. lia.
    - apply (list_ext _ _ (o0 O)); [lia|]. intros i Hi. apply (H (GO i)), in_allIdx. lia.
  Qed.

  (** solving with any factor with nonzero pivots inverts the product *)
  Lemma arrow_solve n d (A : gidx -> gidx -> F) rhs :
    dataOf k n ds dt dl dO d -> vecOf n ds dt dl dO rhs ->
    (forall g, In g (allIdx n ds dt dl dO) -> pivotAt O d g <> 0%s) ->
    (forall g h, In g (allIdx n ds dt dl dO) -> In h (allIdx n ds dt dl dO) ->
       gldltAt O (allIdx n ds dt dl dO) (factorAt O (fl_one FL) k d) (pivotAt O d) g h =
       A (permIdx s g) (permIdx s h)) ->
    exists x, arrowSolveInPlace O k d rhs = Ok x /\ vecOf n ds dt dl dO x /\
      (forall g, In g (allIdx n ds dt dl dO) ->
         gmatVec O (allIdx n ds dt dl dO) A (gvecAt O x) g = gvecAt O rhs g) /\
      (forall x', vecOf n ds dt dl dO x' ->
         (forall g, In g (allIdx n ds dt dl dO) ->
            gmatVec O (allIdx n ds dt dl dO) A (gvecAt O x') g = gvecAt O rhs g) -> x' = x).
  Proof.
    intros DO VO HZ HP. set (all := allIdx n ds dt dl dO) in *.
    destruct (arrowForward_ok O FL s ds dt dl dO k P AG AC n d rhs DO VO) as (v1 & E1 & V1 & H1).
    destruct (arrowDiagonal_ok O FL s ds dt dl dO k P AG n d v1 DO V1 HZ) as (v2 & E2 & V2 & H2).
    destruct (arrowBackward_ok O FL s ds dt dl dO k P AG AC n d v2 DO V2) as (x & E3 & V3 & H3).
    pose proof (fwd_global n d _ _ H1) as G1. pose proof (bwd_global n d _ _ H3) as G3.
    exists x. split.
    { unfold arrowSolveInPlace. rewrite E1. cbn [bind]. rewrite E2. cbn [bind]. auto. }
    split; auto.
    set (Lh := lowArrow O n (unitFun O FL (strictFun O k d))) in *.
    set (Ap := fun g h => A (permIdx s g) (permIdx s h)).
    assert (Prod : forall g h, In g all -> In h all ->
              Ap g h = suml O all (fun q => Lh g q * pivotAt O d q * Lh h q)%s).
    { intros g h Hg Hh. unfold Ap. rewrite <- HP by auto. unfold gldltAt. apply suml_ext.
      intros q Hq. rewrite !(factorAt_low n) by auto. auto. }
    assert (PS : forall w g, In g all ->
       suml O all (fun h => Ap g h * pvec O s w h)%s = gmatVec O all A (gvecAt O w) (permIdx s g)).
    { intros w g Hg. unfold gmatVec.
      transitivity (suml O (map (permIdx s) all) (fun h => A (permIdx s g) h * gvecAt O w h)%s).
      - rewrite (suml_map O). reflexivity.
      - apply (suml_perm O FL), permIdx_Permutation. auto. }
    assert (SV : forall g, In g all ->
       suml O all (fun h => Ap g h * pvec O s x h)%s = pvec O s rhs g).
    { apply (ldl_solve O FL all Lh Ap (pivotAt O d) (pvec O s v1) (pvec O s v2)); auto. }
    assert (SV' : forall g, In g all -> gmatVec O all A (gvecAt O x) g = gvecAt O rhs g).
    { intros g Hg. destruct (permIdx_inv s n ds dt dl dO HD) as (q & Q).
      destruct (Q g Hg) as (_ & Hq & Eq). rewrite <- Eq. rewrite <- PS by auto.
      rewrite SV by auto. reflexivity. }
    split; auto.
    intros x' Vx' Hx'. apply (gvec_ext n); auto. intros g Hg.
    destruct (permIdx_inv s n ds dt dl dO HD) as (q & Q).
    destruct (Q g Hg) as (_ & Hq & Eq). rewrite <- Eq.
    change (pvec O s x' (q g) = pvec O s x (q g)).
    apply (ldl_unique O FL all Lh Ap (pivotAt O d) (pvec O s x') (pvec O s x)
             (rank n ds dt dl) (ds + (n + 1) * dt + dl + dO)); auto.
    - apply NoDup_allIdx.
    - intros h Hh. apply rank_le with (dO := dO). auto.
    - intros h h'. apply rank_inj with (dO := dO).
    - intros h Hh. eapply Lh_one; eauto.
    - intros h h' Hh Hh'. eapply Lh_low; eauto. apply strictFun_low.
    - intros h Hh. rewrite !PS by auto. rewrite Hx', SV' by (apply permIdx_in; auto). auto.
  Qed.
  End Arrow.
End Main.
