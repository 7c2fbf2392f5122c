(** The matrix market reader stores the file. *)
From Coq Require Import String Ascii List Arith Lia Bool Permutation.
From Verif Require Import Base ModelPerm ModelSparsity ModelSymbolic ModelNumeric ModelArrow ModelMtx.
From Verif Require Import SpecSymbolic SpecArrow SpecNumeric SpecArrowNum SpecMtx.
From Verif Require Import ProofBase ProofPerm ProofCsr ProofSparsity ProofArrowSym ProofArrowProduct
  ProofPropSymbolic ProofSingle ProofMtx ProofMtxPlace.
Import ListNotations.
Local Open Scope nat_scope.
Local Open Scope list_scope.

Lemma blkOf_inj n g h g' h' k : blkOf n g h = Some k -> blkOf n g' h' = Some k ->
  localIdx g = localIdx g' -> localIdx h = localIdx h' -> g = g' /\ h = h'.
Proof.
  destruct g as [i|t i|i|i], h as [j|u j|j|j]; cbn [blkOf localIdx]; intros E; try discriminate E;
    repeat match type of E with context [?a =? ?b] => destruct (Nat.eqb_spec a b); try discriminate E end;
    injection E as <-;
    destruct g' as [i'|t' i'|i'|i'], h' as [j'|u' j'|j'|j']; cbn [blkOf localIdx]; intros E'; try discriminate E';
    repeat match type of E' with context [?a =? ?b] => destruct (Nat.eqb_spec a b); try discriminate E' end;
    try (injection E' as E'); intros; split; f_equal; lia.
Qed.

Section Read.
  Context {F : Type} (O : ops F).
  Context (s : arrow_sp) (n ds dt dl dO : nat).
  Context (AD : arrowDims s ds dt dl dO) (Hdt : 0 < dt).
  Local Notation pos := (posOf n ds dt dl).
  Local Notation all := (allIdx n ds dt dl dO).
  Local Notation dispatch := (dispatch (F:=F) n ds dt dl).
  Local Notation mtx_arrow := (mtx_arrow (F:=F)).

  Definition goodMA (m : mtx_arrow) : Prop :=
    lens n m /\ forall k, okB n k -> goodMM (spB s k) (getB m k).

  Definition rawAt (m : mtx_arrow) (g h : gidx) : F :=
    match blkOf n g h with
    | Some k => mmAt O (getB m k) (localIdx g) (localIdx h)
    | None => o0 O
    end.

  Lemma dispatch_ok m g h v : goodMA m -> In g all -> In h all ->
    declaredAt s n g h -> ~ misread dt g h ->
    exists m', dispatch m (pos g, pos h, v) = Ok m' /\ goodMA m' /\
      forall g' h', In g' all -> In h' all ->
        rawAt m' g' h' = if (pos g =? pos g') && (pos h =? pos h') then v else rawAt m g' h'.
  Proof.
    intros [L G] Hg Hh HD HM. apply (declaredAt_iff s n ds dt dl dO) in HD; auto.
    destruct HD as (Ho & k & Ek & Hin).
    rewrite (dispatch_place n ds dt dl dO) by auto.
    rewrite (placeOf_good n ds dt dl dO), Ek by auto.
    destruct (blkOf_ok n ds dt dl dO g h k Hg Hh Ek) as (Hk & _).
    destruct (addEntry_ok O _ _ _ _ _ _ v (spB_dims s ds dt dl dO k AD) (G k Hk) Hin)
      as (b' & E & Gb & V).
    unfold store. rewrite E. cbn [bind]. eexists. split; [reflexivity|].
    split.
    { split; [apply lens_setB; auto|]. intros k' Hk'. rewrite (getB_setB n) by auto.
      destruct (blk_eq_dec k k') as [<-|]; auto. }
    intros g' h' Hg' Hh'. unfold rawAt.
    destruct ((pos g =? pos g') && (pos h =? pos h')) eqn:B.
    - apply andb_true_iff in B. destruct B as [B1 B2].
      apply Nat.eqb_eq in B1. apply Nat.eqb_eq in B2.
      apply (pos_inj n ds dt dl dO) in B1; auto. apply (pos_inj n ds dt dl dO) in B2; auto. subst.
      rewrite Ek, (getB_setB n) by auto. destruct (blk_eq_dec k k); [|congruence].
      rewrite V, !Nat.eqb_refl. reflexivity.
    - destruct (blkOf n g' h') as [k'|] eqn:E'; auto.
      rewrite (getB_setB n) by auto. destruct (blk_eq_dec k k') as [<-|]; auto.
      rewrite V. destruct (Nat.eqb_spec (localIdx g) (localIdx g')) as [E1|]; auto.
      destruct (Nat.eqb_spec (localIdx h) (localIdx h')) as [E2|]; auto.
      destruct (blkOf_inj n g h g' h' k Ek E' E1 E2) as [-> ->].
      rewrite !Nat.eqb_refl in B. discriminate.
  Qed.

  Lemma dispatch_no m g h v : goodMA m -> In g all -> In h all ->
    ~ declaredAt s n g h -> ~ misread dt g h ->
    dispatch m (pos g, pos h, v) = Err MtxError.
  Proof.
    intros [L G] Hg Hh HD HM. rewrite (declaredAt_iff s n ds dt dl dO) in HD by auto.
    destruct (le_lt_dec (pos h) (pos g)) as [Ho|Ho]; [|apply dispatch_upper; auto].
    rewrite (dispatch_place n ds dt dl dO) by auto.
    rewrite (placeOf_good n ds dt dl dO) by auto.
    destruct (blkOf n g h) as [k|] eqn:Ek; auto.
    destruct (blkOf_ok n ds dt dl dO g h k Hg Hh Ek) as (Hk & Hr & _).
    unfold store. rewrite (addEntry_no _ _ _ _ _ _ v (spB_dims s ds dt dl dO k AD) (G k Hk)); auto.
    intros Hin. apply HD. split; auto. exists k. auto.
  Qed.

  Lemma dispatch_ub m t i j v : goodMA m -> 0 < t -> t * dt + i < (n + 1) * dt + dl ->
    j < ds -> dispatch m (ds + t * dt + i, j, v) = Err UB.
  Proof.
    intros [L G] Ht Hi Hj. unfold ProofMtxPlace.dispatch, mtxDispatch, mtxAddEntryStart.
    assert (dt <= t * dt) by (destruct t; [lia|cbn [Nat.mul]; lia]).
    replace (j <=? ds + t * dt + i) with true by (symmetry; apply Nat.leb_le; lia). cbn [mtxCheck bind].
    replace (j <? ds) with true by (symmetry; apply Nat.ltb_lt; lia).
    replace (ds + t * dt + i <? ds + (n + 1) * dt + dl) with true by (symmetry; apply Nat.ltb_lt; lia).
    replace (ds + t * dt + i <? ds) with false by (symmetry; apply Nat.ltb_ge; lia).
    rewrite subw_ok by lia. cbn [bind].
    rewrite (addEntry_oob _ _ _ _ _ _ v (spB_dims s ds dt dl dO Bsn AD) (G Bsn I)); auto.
    cbn [dimB fst]. lia.
  Qed.

  Lemma read_entries es : forall m, goodMA m ->
    Forall (declaredEntry s n ds dt dl dO) es ->
    Forall (fun e => ~ misreadEntry n ds dt dl dO e) es ->
    exists m', foldM dispatch es m = Ok m' /\ goodMA m' /\
      forall g h, In g all -> In h all ->
        rawAt m' g h = fold_left (fun a e => let '(r', c', v) := e in
                 if (r' =? pos g) && (c' =? pos h) then v else a) es (rawAt m g h).
  Proof.
    induction es as [|[[r c] v] es IH]; intros m G HD HM; cbn [foldM fold_left].
    { exists m. auto. }
    inversion HD as [|e l HD1 HD2]; subst. inversion HM as [|e l HM1 HM2]; subst.
    destruct HD1 as (g0 & h0 & Hg0 & Hh0 & E & D0). cbn [fst] in E. injection E as -> ->.
    destruct (dispatch_ok m g0 h0 v G Hg0 Hh0 D0) as (m1 & E1 & G1 & V1).
    { intros H. apply HM1. exists g0, h0. auto. }
    rewrite E1. cbn [bind]. destruct (IH m1 G1 HD2 HM2) as (m2 & E2 & G2 & V2).
    exists m2. split; auto. split; auto. intros g h Hg Hh. rewrite V2, V1 by auto. reflexivity.
  Qed.

  Lemma reject_entries es : forall m, goodMA m ->
    Forall (fun e => fst (fst e) < totalRows n ds dt dl dO /\ snd (fst e) < totalRows n ds dt dl dO) es ->
    Forall (fun e => ~ misreadEntry n ds dt dl dO e) es ->
    Exists (fun e => ~ declaredEntry s n ds dt dl dO e) es ->
    foldM dispatch es m = Err MtxError.
  Proof.
    induction es as [|[[r c] v] es IH]; intros m G HB HM HE; [inversion HE|].
    cbn [foldM]. inversion HB as [|e l HB1 HB2]; subst. inversion HM as [|e l HM1 HM2]; subst.
    cbn [fst snd] in HB1. destruct HB1 as [Hr Hc].
    destruct (pos_surj n ds dt dl dO r Hdt Hr) as (g0 & Hg0 & <-).
    destruct (pos_surj n ds dt dl dO c Hdt Hc) as (h0 & Hh0 & <-).
    assert (NM : ~ misread dt g0 h0) by (intros H; apply HM1; exists g0, h0; auto).
    assert (DD : {declaredAt s n g0 h0} + {~ declaredAt s n g0 h0}).
    { assert (IN : forall x (l : list entry), {In x l} + {~ In x l})
        by (intros; apply in_dec; decide equality; apply Nat.eq_dec).
      destruct (le_lt_dec (pos h0) (pos g0)) as [Ho|Ho].
      2:{ right. rewrite (declaredAt_iff s n ds dt dl dO) by auto. lia. }
      destruct (blkOf n g0 h0) as [k|] eqn:Ek.
      2:{ right. rewrite (declaredAt_iff s n ds dt dl dO) by auto. intros (_ & k & E & _). congruence. }
      destruct (IN (localIdx g0, localIdx h0) (entries (spB s k))) as [Hi|Hi].
      - left. apply (declaredAt_iff s n ds dt dl dO); auto. split; auto. exists k. auto.
      - right. rewrite (declaredAt_iff s n ds dt dl dO) by auto. intros (_ & k' & E & H).
        rewrite Ek in E. injection E as <-. auto. }
    destruct DD as [D|D].
    - destruct (dispatch_ok m g0 h0 v G Hg0 Hh0 D NM) as (m1 & E1 & G1 & _).
      rewrite E1. cbn [bind]. apply IH; auto.
      inversion HE as [e l H|e l H]; subst; auto. exfalso. apply H. exists g0, h0. auto.
    - rewrite (dispatch_no m g0 h0 v G Hg0 Hh0 D NM). reflexivity.
  Qed.

  (** ** the initial matrix *)

  Definition startMA (sd sn so td ts lp ld ln os od : mtx_matrix (F:=F)) : mtx_arrow :=
    mkMA sd sn so (repeat td (n + 1)) (repeat ts n) lp ld ln (repeat os (n + 1)) od.

  Lemma init_ok sp nr nc : spOf sp nr nc ->
    exists b, mtxInputMatrix O sp = Ok b /\ goodMM sp b /\ (forall i j, mmAt O b i j = o0 O).
  Proof.
    intros HS. destruct (toCSR_ok sp (spOf_wf _ _ _ HS)) as (c & E & _).
    unfold mtxInputMatrix. rewrite E. cbn [bind]. eexists. split; [reflexivity|].
    split; [split; cbn [mm_sp mm_values]; auto; apply repeat_length|].
    intros i j. unfold mmAt, denseAt. cbn [mm_sp mm_values].
    rewrite firstValue_find by apply repeat_length.
    destruct (findEntryIndex _ _) as [k|]; auto.
    destruct (le_lt_dec (c_nnz c) k).
    - apply nth_overflow. rewrite repeat_length. auto.
    - apply nth_repeat_lt. auto.
  Qed.

  Variable scan_header : string -> option (nat * nat * nat).
  Variable scan_entry : string -> option (nat * nat * F).
  Local Notation fileIs := (fileIs scan_header scan_entry).
  Local Notation fileRead := (mtxFileRead O scan_header scan_entry).

  Lemma fileRead_start lines es :
    fileIs lines (totalRows n ds dt dl dO) (totalRows n ds dt dl dO) es ->
    exists m0, goodMA m0 /\ (forall g h, In g all -> In h all -> rawAt m0 g h = o0 O) /\
      fileRead s lines = foldM dispatch es m0.
  Proof.
    intros HF. destruct (header_ok _ _ lines _ _ es HF) as (rest & EH & _).
    destruct (arrowDims_ok s ds dt dl dO AD) as (E1 & E2 & E3 & E4).
    destruct (init_ok _ _ _ (ad_sd _ _ _ _ _ AD)) as (sd & Esd & Gsd & Zsd).
    destruct (init_ok _ _ _ (ad_sn _ _ _ _ _ AD)) as (sn & Esn & Gsn & Zsn).
    destruct (init_ok _ _ _ (ad_so _ _ _ _ _ AD)) as (so & Eso & Gso & Zso).
    destruct (init_ok _ _ _ (ad_td _ _ _ _ _ AD)) as (td & Etd & Gtd & Ztd).
    destruct (init_ok _ _ _ (ad_ts _ _ _ _ _ AD)) as (ts & Ets & Gts & Zts).
    destruct (init_ok _ _ _ (ad_lp _ _ _ _ _ AD)) as (lp & Elp & Glp & Zlp).
    destruct (init_ok _ _ _ (ad_ld _ _ _ _ _ AD)) as (ld & Eld & Gld & Zld).
    destruct (init_ok _ _ _ (ad_ln _ _ _ _ _ AD)) as (ln & Eln & Gln & Zln).
    destruct (init_ok _ _ _ (ad_os _ _ _ _ _ AD)) as (os & Eos & Gos & Zos).
    destruct (init_ok _ _ _ (ad_od _ _ _ _ _ AD)) as (od & Eod & God & Zod).
    exists (startMA sd sn so td ts lp ld ln os od).
    split; [|split].
    - split.
      { repeat split; apply repeat_length. }
      intros k Hk. destruct k; cbn [startMA getB spB okB] in *; unfold startMA; cbn [ma_sd ma_sn ma_so ma_td ma_ts ma_lp ma_ld ma_ln ma_os ma_od];
        auto; rewrite nth_repeat_lt by auto; auto.
    - intros g h Hg Hh. unfold rawAt. destruct (blkOf n g h) as [k|] eqn:Ek; auto.
      destruct (blkOf_ok n ds dt dl dO g h k Hg Hh Ek) as (Hk & _).
      destruct k; cbn [getB okB] in *; unfold startMA; cbn [ma_sd ma_sn ma_so ma_td ma_ts ma_lp ma_ld ma_ln ma_os ma_od];
        auto; rewrite nth_repeat_lt by auto; auto.
    - unfold mtxFileRead. rewrite EH. cbn [bind]. rewrite Nat.eqb_refl. cbn [mtxCheck bind].
      rewrite E1, E2, E3, E4. cbn [bind].
      assert (EN : totalRows n ds dt dl dO - (ds + dl + dO) = (n + 1) * dt) by (unfold totalRows; lia).
      assert (0 < (n + 1) * dt) by (apply Nat.mul_pos_pos; lia).
      replace (ds + dl + dO <? totalRows n ds dt dl dO) with true
        by (symmetry; apply Nat.ltb_lt; unfold totalRows; lia).
      rewrite subw_ok by (unfold totalRows; lia). cbn [mtxCheck bind]. rewrite EN.
      unfold modw, divw. destruct (Nat.eqb_spec dt 0); [lia|]. cbn [bind].
      rewrite Nat.mod_mul by lia. cbn [Nat.eqb mtxCheck bind].
      rewrite Nat.div_mul by lia. rewrite subw_ok by lia. cbn [bind].
      rewrite Esd, Esn, Eso, Etd, Ets, Elp, Eld, Eln, Eos, Eod. cbn [bind].
      replace (n + 1 - 1) with n by lia. rewrite (sp_cols _ _ _ (ad_lp _ _ _ _ _ AD)).
      exact (foreach_ok scan_header scan_entry lines _ _ es _ _ HF).
  Qed.

  (** ** the resulting matrix *)

  Lemma nth_mm t l : t < length l -> nth t (map mm_mat l) (noMat (F:=F)) = mm_mat (nth t l noMM).
  Proof.
    intros H. rewrite (nth_indep _ noMat (mm_mat noMM)) by (rewrite map_length; auto). apply map_nth.
  Qed.
  Lemma nth_vals t (l : list (mtx_matrix (F:=F))) : nth t (map mm_values l) [] = mm_values (nth t l noMM).
  Proof. change (@nil F) with (mm_values (F:=F) noMM) at 1. apply map_nth. Qed.

  Lemma matOf_mm sp nr nc b : spOf sp nr nc -> goodMM sp b -> matOf O (mm_mat b) nr nc (mm_values b).
  Proof.
    intros HS [E L]. destruct (toCSR_inv sp _ (spOf_wf _ _ _ HS) E) as (W & R & C & P & _).
    split.
    - constructor; cbn [mm_mat m_sp].
      + etransitivity; [exact R|]. apply HS.
      + etransitivity; [exact C|]. apply HS.
      + intros i j H. eapply sp_wf; [exact HS|]. eapply Permutation_in; eauto.
    - constructor; cbn [mm_mat m_sp m_val]; auto. intros k Hk. apply rd_nth; auto.
  Qed.

  Lemma mm_entries sp nr nc (b : mtx_matrix (F:=F)) r c : spOf sp nr nc -> goodMM sp b ->
    In (r, c) (entries (m_sp (mm_mat b))) -> In (r, c) (entries sp).
  Proof.
    intros HS [E L] H. destruct (toCSR_inv sp _ (spOf_wf _ _ _ HS) E) as (W & R & C & P & _).
    eapply Permutation_in; eauto.
  Qed.

  Lemma good_input m : goodMA m ->
    inputArrow O n ds dt dl dO (ma_mat m) (mtxVals m) /\ declaredArrow s n (ma_mat m).
  Proof.
    intros [(L1 & L2 & L3) G].
    assert (HM : forall k, okB n k ->
      matOf O (mm_mat (getB m k)) (fst (dimB ds dt dl dO k)) (snd (dimB ds dt dl dO k)) (mm_values (getB m k))).
    { intros k Hk. apply (matOf_mm (spB s k)); auto. apply spB_dims; auto. }
    assert (HE : forall k, okB n k -> forall r c, In (r, c) (entries (m_sp (mm_mat (getB m k)))) ->
      In (r, c) (entries (spB s k))).
    { intros k Hk r c. eapply (mm_entries (spB s k)); auto. apply spB_dims; eauto. }
    split.
    - constructor; cbn [ma_mat mtxVals a_sd a_sn a_so a_td a_ts a_lp a_ld a_ln a_os a_od
        w_sd w_sn w_so w_td w_ts w_lp w_ld w_ln w_os w_od].
      + apply (HM Bsd I). + apply (HM Bsn I). + apply (HM Bso I).
      + rewrite map_length; auto.
      + intros t Ht. rewrite nth_mm, nth_vals by lia. apply (HM (Btd t) Ht).
      + rewrite map_length; auto.
      + intros t Ht. rewrite nth_mm, nth_vals by lia. apply (HM (Bts t) Ht).
      + apply (HM Blp I). + apply (HM Bld I). + apply (HM Bln I).
      + rewrite map_length; auto.
      + intros t Ht. rewrite nth_mm, nth_vals by lia. apply (HM (Bos t) Ht).
      + apply (HM Bod I).
    - constructor; cbn [ma_mat a_sd a_sn a_so a_td a_ts a_lp a_ld a_ln a_os a_od].
      + intros r c H _. apply (HE Bsd I); auto.
      + intros r c H. apply (HE Bsn I); auto.
      + intros r c H. apply (HE Bso I); auto.
      + intros t Ht r c. rewrite nth_mm by lia. intros H _. apply (HE (Btd t) Ht); auto.
      + intros t Ht r c. rewrite nth_mm by lia. intros H. apply (HE (Bts t) Ht); auto.
      + intros r c H. apply (HE Blp I); auto.
      + intros r c H _. apply (HE Bld I); auto.
      + intros r c H. apply (HE Bln I); auto.
      + intros t Ht r c. rewrite nth_mm by lia. intros H. apply (HE (Bos t) Ht); auto.
      + intros r c H _. apply (HE Bod I); auto.
  Qed.

  Lemma matAt_raw m g h : lens n m -> In g all -> In h all -> pos h <= pos g ->
    matAt O (ma_mat m) (mtxVals m) g h = rawAt m g h /\
    matAt O (ma_mat m) (mtxVals m) h g = rawAt m g h.
  Proof.
    intros (L1 & L2 & L3) Hg Hh Ho. apply (order_of n ds dt dl dO) in Ho; auto.
    apply in_allIdx in Hg. apply in_allIdx in Hh.
    unfold matAt. replace (length (a_ts (ma_mat m))) with n
      by (unfold ma_mat; cbn [a_ts]; rewrite map_length; auto).
    unfold rawAt, mmAt.
    destruct g as [i|t i|i|i], h as [j|u j|j|j]; cbn [gbefore] in Ho;
      try (destruct Ho as [Ho|Ho]; [discriminate|tauto]);
      cbn [symArrow matFun f_sd f_sn f_so f_td f_ts f_lp f_ld f_ln f_os f_od blkOf localIdx ma_mat mtxVals
           a_sd a_sn a_so a_td a_ts a_lp a_ld a_ln a_os a_od
           w_sd w_sn w_so w_td w_ts w_lp w_ld w_ln w_os w_od].
    - assert (j <= i) by (destruct Ho as [Ho|Ho]; [injection Ho as ->|]; lia). unfold symAt.
      rewrite Nat.max_l, Nat.min_r, Nat.max_r, Nat.min_l by lia. split; reflexivity.
    - destruct (t =? 0); split; reflexivity.
    - destruct (Nat.eqb_spec t u) as [->|N].
      + rewrite Nat.eqb_refl. rewrite nth_mm, nth_vals by lia. unfold symAt.
        assert (j <= i) by (destruct Ho as [Ho|Ho]; [injection Ho as ->|]; lia).
        rewrite Nat.max_l, Nat.min_r, Nat.max_r, Nat.min_l by lia. split; reflexivity.
      + assert (u < t) by (destruct Ho as [Ho|Ho]; [congruence|lia]).
        destruct (Nat.eqb_spec u t); [lia|]. destruct (Nat.eqb_spec u (t + 1)); [lia|].
        destruct (Nat.eqb_spec t (u + 1)); [|split; reflexivity].
        rewrite nth_mm, nth_vals by lia. split; reflexivity.
    - destruct (u =? n); split; reflexivity.
    - assert (j <= i) by (destruct Ho as [Ho|Ho]; [injection Ho as ->|]; lia). unfold symAt.
      rewrite Nat.max_l, Nat.min_r, Nat.max_r, Nat.min_l by lia. split; reflexivity.
    - rewrite nth_mm, nth_vals by lia. split; reflexivity.
    - assert (j <= i) by (destruct Ho as [Ho|Ho]; [injection Ho as ->|]; lia). unfold symAt.
      rewrite Nat.max_l, Nat.min_r, Nat.max_r, Nat.min_l by lia. split; reflexivity.
  Qed.

  (** ** the theorems *)

  Theorem read_file lines es :
    fileIs lines (totalRows n ds dt dl dO) (totalRows n ds dt dl dO) es ->
    Forall (declaredEntry s n ds dt dl dO) es ->
    Forall (fun e => ~ misreadEntry n ds dt dl dO e) es ->
    exists m, fileRead s lines = Ok m /\
      inputArrow O n ds dt dl dO (ma_mat m) (mtxVals m) /\ declaredArrow s n (ma_mat m) /\
      forall g h, In g all -> In h all ->
        matAt O (ma_mat m) (mtxVals m) g h = fileAt O es (pos g) (pos h).
  Proof.
    intros HF HD HM. destruct (fileRead_start lines es HF) as (m0 & G0 & Z0 & E0).
    destruct (read_entries es m0 G0 HD HM) as (m & E & G & V).
    exists m. split; [congruence|]. destruct (good_input m G) as [H1 H2]. split; auto. split; auto.
    assert (HR : forall g h, In g all -> In h all -> rawAt m g h = lastAt O es (pos g) (pos h)).
    { intros g h Hg Hh. rewrite V, Z0 by auto. reflexivity. }
    intros g h Hg Hh. unfold fileAt. destruct (le_lt_dec (pos h) (pos g)) as [Ho|Ho].
    - rewrite Nat.max_l, Nat.min_r by lia. rewrite <- HR by auto. apply matAt_raw; auto. apply G.
    - rewrite Nat.max_r, Nat.min_l by lia. rewrite <- HR by auto. apply matAt_raw; auto; [apply G|lia].
  Qed.

  Theorem reject_file lines es :
    fileIs lines (totalRows n ds dt dl dO) (totalRows n ds dt dl dO) es ->
    Forall (fun e => ~ misreadEntry n ds dt dl dO e) es ->
    Exists (fun e => ~ declaredEntry s n ds dt dl dO e) es ->
    fileRead s lines = Err MtxError.
  Proof.
    intros HF HM HE. destruct (fileRead_start lines es HF) as (m0 & G0 & Z0 & E0).
    rewrite E0. apply reject_entries; auto.
    destruct HF as (cs & h & rest & _ & _ & _ & _ & H2). clear -H2.
    induction H2 as [|l [[r c] v] rest es (_ & H) H2 IH]; constructor; auto.
  Qed.

  Theorem undefined_file lines es1 t i j v es2 :
    fileIs lines (totalRows n ds dt dl dO) (totalRows n ds dt dl dO)
      (es1 ++ (ds + t * dt + i, j, v) :: es2) ->
    Forall (declaredEntry s n ds dt dl dO) es1 ->
    Forall (fun e => ~ misreadEntry n ds dt dl dO e) es1 ->
    0 < t -> t * dt + i < (n + 1) * dt + dl -> j < ds ->
    fileRead s lines = Err UB.
  Proof.
    intros HF HD HM Ht Hi Hj. destruct (fileRead_start lines _ HF) as (m0 & G0 & Z0 & E0).
    destruct (read_entries es1 m0 G0 HD HM) as (m & E & G & V).
    rewrite E0, foldM_app, E. cbn [bind foldM]. rewrite dispatch_ub by auto. reflexivity.
  Qed.
End Read.

Section Dims.
  Context {F : Type} (O : ops F) (s : arrow_sp) (ds dt dl dO : nat).
  Context (AD : arrowDims s ds dt dl dO).
  Variable scan_header : string -> option (nat * nat * nat).
  Variable scan_entry : string -> option (nat * nat * F).

  Theorem reject_dims lines nr nc es : 0 < dt ->
    fileIs scan_header scan_entry lines nr nc es ->
    (nr <> nc \/ forall n, nr <> totalRows n ds dt dl dO) ->
    mtxFileRead O scan_header scan_entry s lines = Err MtxError.
  Proof.
    intros Hdt HF HN. destruct (header_ok _ _ lines _ _ es HF) as (rest & EH & _).
    destruct (arrowDims_ok s ds dt dl dO AD) as (E1 & E2 & E3 & E4).
    unfold mtxFileRead. rewrite EH. cbn [bind].
    destruct (Nat.eqb_spec nr nc) as [->|N]; [|reflexivity]. cbn [mtxCheck bind].
    destruct HN as [HN|HN]; [tauto|].
    rewrite E1, E2, E3, E4. cbn [bind].
    destruct (Nat.ltb_spec (ds + dl + dO) nc) as [Hl|Hl]; [|reflexivity]. cbn [mtxCheck bind].
    rewrite subw_ok by lia. cbn [bind]. unfold modw.
    destruct (Nat.eqb_spec dt 0); [lia|]. cbn [bind].
    destruct (Nat.eqb_spec ((nc - (ds + dl + dO)) mod dt) 0) as [E|]; [|reflexivity].
    exfalso. pose proof (Nat.div_mod (nc - (ds + dl + dO)) dt ltac:(lia)) as D.
    apply (HN ((nc - (ds + dl + dO)) / dt - 1)). unfold totalRows. rewrite E in D.
    destruct ((nc - (ds + dl + dO)) / dt) as [|q]; [lia|]. cbn [Nat.sub].
    replace (q - 0 + 1) with (S q) by lia. lia.
  Qed.

  Theorem empty_blocks lines nr es : dt = 0 ->
    fileIs scan_header scan_entry lines nr nr es -> ds + dl + dO < nr ->
    mtxFileRead O scan_header scan_entry s lines = Err UB.
  Proof.
    intros Hdt HF HN. destruct (header_ok _ _ lines _ _ es HF) as (rest & EH & _).
    destruct (arrowDims_ok s ds dt dl dO AD) as (E1 & E2 & E3 & E4).
    unfold mtxFileRead. rewrite EH. cbn [bind]. rewrite Nat.eqb_refl. cbn [mtxCheck bind].
    rewrite E1, E2, E3, E4. cbn [bind].
    apply Nat.ltb_lt in HN. rewrite HN. cbn [mtxCheck bind]. apply Nat.ltb_lt in HN.
    rewrite subw_ok by lia. cbn [bind]. unfold modw.
    rewrite Hdt. reflexivity.
  Qed.
End Dims.

(** ** row numbers, and solving the system in the file *)

Lemma map_pos_seq n ds dt dl dO :
  map (posOf n ds dt dl) (allIdx n ds dt dl dO) = seq 0 (totalRows n ds dt dl dO).
Proof.
  unfold allIdx, totalRows. rewrite !map_app, !map_map. cbn [posOf].
  assert (HS : forall a k, map (fun i => a + i) (seq 0 k) = seq a k).
  { intros a k. revert a. induction k as [|k IH]; intros a; auto. cbn [seq map].
    rewrite Nat.add_0_r. f_equal. rewrite <- seq_shift, map_map, <- (IH (S a)).
    apply map_ext. intros; lia. }
  assert (HT : forall q, map (posOf n ds dt dl)
      (concat (map (fun t => map (GT t) (seq 0 dt)) (seq 0 q))) = seq ds (q * dt)).
  { induction q as [|q IH]; auto. rewrite seq_S, map_app, concat_app, map_app, IH. cbn [map concat].
    rewrite app_nil_r, map_map. cbn [posOf Nat.add].
    replace (S q * dt) with (q * dt + dt) by lia. rewrite seq_app. f_equal.
    etransitivity; [|apply HS]. apply map_ext. intros; lia. }
  rewrite HT. rewrite !seq_app. rewrite <- !app_assoc. f_equal.
  - rewrite map_id. auto.
  - f_equal. f_equal; [|]; etransitivity; [|apply HS| |apply HS]; apply map_ext; intros; lia.
Qed.
