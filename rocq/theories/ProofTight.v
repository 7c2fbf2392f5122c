(** Every stored entry of an arrowhead factorization without start block is filled in. *)
From Coq Require Import List Arith Lia Bool.
From Verif Require Import Base ModelPerm ModelSparsity ModelSymbolic ModelNumeric ModelArrow.
From Verif Require Import SpecSymbolic SpecArrow SpecArrowNum SpecTight.
From Verif Require Import ProofBase ProofPerm ProofCsr ProofSparsity ProofEtree ProofFill
  ProofFill3 ProofRep ProofRepeating ProofArrowSym ProofArrowProduct.
Import ListNotations.

Section Tight.
  Variables (s : arrow_sp) (dt dl dO n : nat).
  Hypothesis HD : arrowDims s 0 dt dl dO.
  Local Notation FO := (arrowFill s n 0 dt dl dO).
  Local Notation pt := (st_perm (as_tri s)).
  Local Notation pl := (sl_perm (as_link s)).
  Local Notation po := (so_perm (as_outer s)).

  Lemma af_elim k g h : FO g k -> FO h k -> gbefore k h -> gbefore h g -> FO g h.
  Proof. apply fo_elim. Qed.

  (** symmetric blocks *)
  Lemma low_linked es d p i j (g : nat -> gidx) (Q : nat -> nat -> Prop) :
    permLow es d p i j -> isPerm d p ->
    (forall i j, j < i -> In (i, j) es -> declaredAt s n (g i) (g j)) ->
    linked s n (g (nth i p 0)) (g (nth j p 0)).
  Proof.
    intros (L & Hi & H) IP HQ.
    assert (N : nth i p 0 <> nth j p 0).
    { intros E. apply (isPerm_inj d p) in E; auto; lia. }
    destruct (le_lt_dec (nth i p 0) (nth j p 0)).
    - rewrite (Nat.max_r (nth i p 0) (nth j p 0)), (Nat.min_l (nth i p 0) (nth j p 0)) in H by lia.
      right. apply HQ; auto. lia.
    - rewrite (Nat.max_l (nth i p 0) (nth j p 0)), (Nat.min_r (nth i p 0) (nth j p 0)) in H by lia.
      left. apply HQ; auto.
  Qed.

  Lemma td_fill t i j : t < n + 1 ->
    permLow (entries (st_diag (as_tri s))) dt pt i j -> FO (GT t i) (GT t j).
  Proof.
    intros Ht H. apply fo_base; [|cbn [gbefore]; right; split; auto; apply H].
    pose proof H as (L1 & L2 & _). rewrite !in_allIdx. split; [lia|]. split; [lia|].
    cbn [permIdx]. apply (low_linked _ _ _ i j (GT t) (fun _ _ => True) H).
    - apply validPerm_isPerm, HD.
    - intros a b L Hab. cbn [declaredAt]. split; auto.
  Qed.
  Lemma ts_fill t i j : t < n ->
    permRect (entries (st_subdiag (as_tri s))) dt dt pt pt i j -> FO (GT (S t) i) (GT t j).
  Proof.
    intros Ht (L1 & L2 & H). apply fo_base; [|cbn [gbefore]; left; lia].
    rewrite !in_allIdx. split; [lia|]. split; [lia|]. left. cbn [permIdx declaredAt]. split; [lia|]. right. split; [lia|auto].
  Qed.
  Lemma os_fill t i j : t < n + 1 ->
    permRect (entries (so_subdiag (as_outer s))) dO dt po pt i j -> FO (GO i) (GT t j).
  Proof.
    intros Ht (L1 & L2 & H). apply fo_base; [|exact Logic.I].
    rewrite !in_allIdx. split; [lia|]. split; [lia|]. left. cbn [permIdx declaredAt]. auto.
  Qed.
  Lemma od_fill i j :
    permLow (entries (so_diag (as_outer s))) dO po i j -> FO (GO i) (GO j).
  Proof.
    intros H. apply fo_base; [|apply H].
    pose proof H as (L1 & L2 & _). rewrite !in_allIdx. split; [lia|]. split; [lia|].
    cbn [permIdx]. apply (low_linked _ _ _ i j GO (fun _ _ => True) H).
    - apply validPerm_isPerm, HD.
    - intros a b L Hab. cbn [declaredAt]. auto.
  Qed.
  Lemma ld_fill i j :
    permLow (entries (sl_diag (as_link s))) dl pl i j -> FO (GL i) (GL j).
  Proof.
    intros H. apply fo_base; [|apply H].
    pose proof H as (L1 & L2 & _). rewrite !in_allIdx. split; [lia|]. split; [lia|].
    cbn [permIdx]. apply (low_linked _ _ _ i j GL (fun _ _ => True) H).
    - apply validPerm_isPerm, HD.
    - intros a b L Hab. cbn [declaredAt]. auto.
  Qed.
  Lemma lp_fill i j :
    permRect (entries (sl_prev (as_link s))) dl dt pl pt i j -> FO (GL i) (GT n j).
  Proof.
    intros (L1 & L2 & H). apply fo_base; [|exact Logic.I].
    rewrite !in_allIdx. split; [lia|]. split; [lia|]. left. cbn [permIdx declaredAt]. auto.
  Qed.
  Lemma ln_fill i j :
    permRect (entries (sl_next (as_link s))) dO dl po pl i j -> FO (GO i) (GL j).
  Proof.
    intros (L1 & L2 & H). apply fo_base; [|exact Logic.I].
    rewrite !in_allIdx. split; [lia|]. split; [lia|]. left. cbn [permIdx declaredAt]. auto.
  Qed.

  (** the first stage: one tridiagonal block and the outer block *)
  Definition idx1 (t a : nat) : gidx := if a <? dt then GT t a else GO (a - dt).
  Lemma idx1_before t a b : b < a -> gbefore (idx1 t b) (idx1 t a).
  Proof.
    intros H. unfold idx1. destruct (Nat.ltb_spec b dt), (Nat.ltb_spec a dt); cbn [gbefore]; auto; lia.
  Qed.

  Lemma stage1 e11 e21 e31 p1 a b t : t < n + 1 ->
    filled3 0 dt dO e11 e21 (entries (st_diag (as_tri s))) e31
      (entries (so_subdiag (as_outer s))) (entries (so_diag (as_outer s))) p1 pt po a b ->
    FO (idx1 t a) (idx1 t b).
  Proof.
    intros Ht H. induction H as [i j H L|i j k H1 IH1 H2 IH2 L1 L2].
    - destruct H as [H|[(i' & -> & H)|[(i' & j' & -> & -> & H)|[(i' & -> & H)|
          [(i' & j' & -> & -> & H)|(i' & j' & -> & -> & H)]]]]].
      + destruct H as (_ & H & _). lia.
      + destruct H as (_ & H & _). lia.
      + cbn [Nat.add] in *. unfold idx1. pose proof H as (_ & H' & _).
        destruct (Nat.ltb_spec i' dt), (Nat.ltb_spec j' dt); try lia. apply td_fill; auto.
      + destruct H as (_ & H & _). lia.
      + cbn [Nat.add] in *. unfold idx1. pose proof H as (_ & H' & _).
        destruct (Nat.ltb_spec (dt + i') dt), (Nat.ltb_spec j' dt); try lia.
        replace (dt + i' - dt) with i' by lia. apply os_fill; auto.
      + cbn [Nat.add] in *. unfold idx1.
        destruct (Nat.ltb_spec (dt + i') dt), (Nat.ltb_spec (dt + j') dt); try lia.
        replace (dt + i' - dt) with i' by lia. replace (dt + j' - dt) with j' by lia. apply od_fill; auto.
    - apply (af_elim (idx1 t k)); auto; apply idx1_before; auto.
  Qed.

  (** the second stage: repeated tridiagonal blocks and the outer block; there is one
      more repetition than in the matrix, its columns do not matter *)
  Lemma stage2 (A1 B1 C1 : pattern) :
    (forall t i j, t < n + 1 -> A1 i j -> FO (GT t i) (GT t j)) ->
    (forall t i j, t < n -> B1 i j -> FO (GT (S t) i) (GT t j)) ->
    (forall t i j, t < n + 1 -> C1 i j -> FO (GO i) (GT t j)) ->
    (forall i j, A1 i j -> i < dt /\ j < dt) ->
    (forall i j, B1 i j -> i < dt /\ j < dt) ->
    (forall i j, C1 i j -> j < dt) ->
    forall a b, Fill (repeated (n + 2) dt A1 B1 C1) a b ->
    forall u j, u < n + 1 -> j < dt -> b = u * dt + j ->
      (forall t i, t < n + 1 -> i < dt -> a = t * dt + i -> FO (GT t i) (GT u j)) /\
      (forall i, a = (n + 2) * dt + i -> FO (GO i) (GT u j)).
  Proof.
    intros HA HB HC BA BB BC a b H.
    assert (U : forall t i t' i', i < dt -> i' < dt -> t * dt + i = t' * dt + i' -> t = t' /\ i = i').
    { intros t i t' i' H1 H2 E. rewrite (Nat.mul_comm t), (Nat.mul_comm t') in E.
      apply Nat.div_mod_unique in E; auto. }
    induction H as [a b H L|a b c H1 IH1 H2 IH2 L1 L2]; intros u j Hu Hj Eb.
    - split.
      + intros t i Ht Hi Ea.
        destruct H as [(t' & i' & j' & Ht' & E1 & E2 & H)|[(t' & i' & j' & Ht' & E1 & E2 & H)|(t' & i' & j' & Ht' & E1 & E2 & H)]].
        * destruct (BA _ _ H). destruct (U t i t' i'), (U u j t' j'); auto; try lia. subst. auto.
        * destruct (BB _ _ H). destruct (U t i (S t') i'), (U u j t' j'); auto; try lia. subst.
          apply HB; auto. lia.
        * exfalso. assert (t * dt + i < (n + 2) * dt) by nia. lia.
      + intros i Ea.
        assert (X : forall t' i', t' < n + 2 -> i' < dt -> a = t' * dt + i' -> False).
        { intros t' i' Ht' Hi' E. nia. }
        destruct H as [(t' & i' & j' & Ht' & E1 & E2 & H)|[(t' & i' & j' & Ht' & E1 & E2 & H)|(t' & i' & j' & Ht' & E1 & E2 & H)]].
        * exfalso. apply (X t' i'); auto. apply BA in H. tauto.
        * exfalso. apply (X (S t') i'); auto. apply BB in H. tauto.
        * pose proof (BC _ _ H). destruct (U u j t' j'); auto; try lia. subst t' j'.
          assert (i' = i) by lia. subst i'. auto.
    - assert (Hc : c / dt < n + 1).
      { apply Nat.div_lt_upper_bound; [lia|]. nia. }
      pose proof (Nat.div_mod c dt ltac:(lia)) as Ec. pose proof (Nat.mod_upper_bound c dt ltac:(lia)) as Mc.
      set (v := c / dt) in *. set (l := c mod dt) in *.
      destruct (IH1 v l) as [I1 I2]; auto; [lia|].
      destruct (IH2 v l) as [I3 _]; auto; [lia|]. specialize (I3 u j Hu Hj Eb).
      assert (O1 : gbefore (GT v l) (GT u j)).
      { cbn [gbefore]. assert (v * dt + l < u * dt + j) by lia.
        destruct (lt_eq_lt_dec v u) as [[?| ->]|?]; [left; auto|right; split; auto; lia|]. exfalso. nia. }
      split.
      + intros t i Ht Hi Ea. apply (af_elim (GT v l)); auto.
        cbn [gbefore]. assert (u * dt + j < t * dt + i) by lia.
        destruct (lt_eq_lt_dec u t) as [[?| ->]|?]; [left; auto|right; split; auto; lia|]. exfalso. nia.
      + intros i Ea. apply (af_elim (GT v l)); auto. exact Logic.I.
  Qed.

  (** the third stage: the last tridiagonal block, link and outer block *)
  Definition idx3 (a : nat) : gidx :=
    if a <? dt then GT n a else if a <? dt + dl then GL (a - dt) else GO (a - (dt + dl)).
  Lemma idx3_before a b : b < a -> gbefore (idx3 b) (idx3 a).
  Proof.
    intros H. unfold idx3.
    destruct (Nat.ltb_spec b dt), (Nat.ltb_spec a dt), (Nat.ltb_spec b (dt + dl)), (Nat.ltb_spec a (dt + dl));
      cbn [gbefore]; auto; lia.
  Qed.

  Lemma stage3 (P11 P21 P22 P31 P32 P33 : pattern) :
    (forall i j, P11 i j -> i < dt /\ j < dt /\ FO (GT n i) (GT n j)) ->
    (forall i j, P21 i j -> i < dl /\ j < dt /\ FO (GL i) (GT n j)) ->
    (forall i j, P22 i j -> i < dl /\ j < dl /\ FO (GL i) (GL j)) ->
    (forall i j, P31 i j -> j < dt /\ FO (GO i) (GT n j)) ->
    (forall i j, P32 i j -> j < dl /\ FO (GO i) (GL j)) ->
    (forall i j, P33 i j -> FO (GO i) (GO j)) ->
    forall a b, Fill (asm3 dt dl P11 P21 P22 P31 P32 P33) a b -> FO (idx3 a) (idx3 b).
  Proof.
    intros H11 H21 H22 H31 H32 H33 a b H. induction H as [i j H L|i j k H1 IH1 H2 IH2 L1 L2].
    - assert (I1 : forall x, x < dt -> idx3 x = GT n x).
      { intros x Hx. unfold idx3. destruct (Nat.ltb_spec x dt); auto. lia. }
      assert (I2 : forall x, x < dl -> idx3 (dt + x) = GL x).
      { intros x Hx. unfold idx3. destruct (Nat.ltb_spec (dt + x) dt), (Nat.ltb_spec (dt + x) (dt + dl)); try lia.
        f_equal. lia. }
      assert (I3 : forall x, idx3 (dt + dl + x) = GO x).
      { intros x. unfold idx3. destruct (Nat.ltb_spec (dt + dl + x) dt), (Nat.ltb_spec (dt + dl + x) (dt + dl)); try lia.
        f_equal. lia. }
      destruct H as [H|[(i' & -> & H)|[(i' & j' & -> & -> & H)|[(i' & -> & H)|
          [(i' & j' & -> & -> & H)|(i' & j' & -> & -> & H)]]]]].
      + apply H11 in H. rewrite !I1 by tauto. tauto.
      + apply H21 in H. rewrite I2, I1 by tauto. tauto.
      + apply H22 in H. rewrite !I2 by tauto. tauto.
      + apply H31 in H. rewrite I3, I1 by tauto. tauto.
      + apply H32 in H. rewrite I3, I2 by tauto. tauto.
      + apply H33 in H. rewrite !I3. tauto.
    - apply (af_elim (idx3 k)); auto; apply idx3_before; auto.
  Qed.
End Tight.

Theorem arrow_tight s dt dl dO : arrowDims s 0 dt dl dO ->
  exists k k0, arrowBlocks s = Ok k /\
    forall n g h, k0 <= n -> storedAt k n g h -> fromBlock k0 h ->
      arrowFill s n 0 dt dl dO g h.
Proof.
  intros HD. pose proof HD as [Asd Asn Aso Atd Ats Alp Ald Aln Aos Aod Ps Pt Pl Po].
  apply validPerm_isPerm in Ps, Pt, Pl, Po.
  destruct (arrowBlocks_ok s 0 dt dl dO HD) as (k & P & EK & _). exists k.
  pose proof EK as EK'. unfold arrowBlocks in EK'.
  destruct (arrowDims_ok _ _ _ _ _ HD) as (E1 & E2 & E3 & E4).
  rewrite E1, E2, E3, E4 in EK'. cbn [bind] in EK'.
  (* start *)
  destruct (getFilled3_ok (ss_diag (as_start s)) (ss_next (as_start s)) (st_diag (as_tri s))
     (ss_outer (as_start s)) (so_subdiag (as_outer s)) (so_diag (as_outer s))
     (ss_perm (as_start s)) (st_perm (as_tri s)) (so_perm (as_outer s)) 0 dt dO)
    as (hs & Ehs & H11 & H21 & H22 & H31 & H32 & H33);
    eauto using spOf_dims, spOf_wf.
  rewrite Ehs in EK'. cbn [bind] in EK'.
  pose proof (fun n => stage1 s dt dl dO n HD (entries (ss_diag (as_start s)))
    (entries (ss_next (as_start s))) (entries (ss_outer (as_start s))) (ss_perm (as_start s))) as ST1.
  set (R := filled3 _ _ _ _ _ _ _ _ _ _ _ _) in *.
  assert (RL : forall i j, R i j -> j < i) by (intros i j; apply Fill_lt).
  (* repeating *)
  destruct (permuted_ok (st_subdiag (as_tri s)) (st_perm (as_tri s)) (st_perm (as_tri s)))
    as (ts & Ets & T1 & T2 & T3 & T4 & _).
  { eapply spOf_wf; eauto. }
  { rewrite (sp_rows _ _ _ Ats). auto. }
  { rewrite (sp_cols _ _ _ Ats). auto. }
  rewrite Ets in EK'. cbn [bind] in EK'.
  rewrite (sp_rows _ _ _ Ats), (sp_cols _ _ _ Ats) in T4.
  rewrite (sp_rows _ _ _ Ats) in T1. rewrite (sp_cols _ _ _ Ats) in T2.
  assert (D22 : nrows (block22 hs) = dt /\ ncols (block22 hs) = dt).
  { split; [eapply ib_rows|eapply ib_cols]; eauto. }
  assert (D32 : nrows (block32 hs) = dO /\ ncols (block32 hs) = dt).
  { split; [eapply ib_rows|eapply ib_cols]; eauto. }
  destruct (getFilledRep_ok (block22 hs) ts (block32 hs) (iota_perm dt) (iota_perm dO) dt dO
      D22 (conj T1 T2) D32 (ib_wf _ _ _ _ H22) T3 (ib_wf _ _ _ _ H32)
      (isPerm_iota dt) (isPerm_iota dO))
    as (sf & D & S' & O & Esf & BD & BS & BO & DL & _ & _ & _ & CR & k0 & TI).
  rewrite Esf in EK'. cbn [bind] in EK'.
  (* link *)
  destruct (permuted_ok (sl_prev (as_link s)) (iota_perm dl) (st_perm (as_tri s)))
    as (lp & Elp & U1 & U2 & U3 & U4 & _).
  { eapply spOf_wf; eauto. }
  { rewrite (sp_rows _ _ _ Alp). apply isPerm_iota. }
  { rewrite (sp_cols _ _ _ Alp). auto. }
  rewrite Elp in EK'. cbn [bind] in EK'. rewrite (sp_rows _ _ _ Alp), (sp_cols _ _ _ Alp) in U4.
  rewrite (sp_rows _ _ _ Alp) in U1. rewrite (sp_cols _ _ _ Alp) in U2.
  destruct (permuted_ok (sl_next (as_link s)) (so_perm (as_outer s)) (iota_perm dl))
    as (ln & Eln & V1 & V2 & V3 & V4 & _).
  { eapply spOf_wf; eauto. }
  { rewrite (sp_rows _ _ _ Aln). auto. }
  { rewrite (sp_cols _ _ _ Aln). apply isPerm_iota. }
  rewrite Eln in EK'. cbn [bind] in EK'. rewrite (sp_rows _ _ _ Aln), (sp_cols _ _ _ Aln) in V4.
  rewrite (sp_rows _ _ _ Aln) in V1. rewrite (sp_cols _ _ _ Aln) in V2.
  destruct (getFilled3_ok (ra_diag sf) lp (sl_diag (as_link s)) (ra_outer sf) ln
     (block33 hs) (iota_perm dt) (sl_perm (as_link s)) (iota_perm dO) dt dl dO)
    as (h & Eh & K11 & K21 & K22 & K31 & K32 & K33);
    eauto using spOf_dims, spOf_wf, isPerm_iota, ib_wf.
  { split; [eapply ib_rows|eapply ib_cols]; eauto. }
  { split; [eapply ib_rows|eapply ib_cols]; eauto. }
  { split; [eapply ib_rows|eapply ib_cols]; eauto. }
  rewrite Eh in EK'. cbn [bind] in EK'.
  set (G := filled3 dt dl dO _ _ _ _ _ _ _ _ _) in K11, K21, K22, K31, K32, K33.
  assert (GC : closedPattern G) by apply filled3_closed.
  assert (GL' : forall i j, G i j -> j < i) by (intros i j; apply Fill_lt).
  set (P33 := fun i j => i < dO /\ j < dO /\ R (0 + dt + i) (0 + dt + j)) in *.
  assert (GE : forall i j, G i j <-> Fill (asm3 dt dl D
      (permRect (entries lp) dl dt (sl_perm (as_link s)) (iota_perm dt))
      (permLow (entries (sl_diag (as_link s))) dl (sl_perm (as_link s))) O
      (permRect (entries ln) dO dl (iota_perm dO) (sl_perm (as_link s))) P33) i j).
  { intros i j. apply Fill_ext. intros a b _. apply asm3_ext.
    - apply permLow_isBlk; auto.
    - tauto.
    - tauto.
    - apply permRect_isBlk; auto.
    - tauto.
    - apply permLow_isBlk; auto. unfold P33. intros x y (_ & _ & H). apply RL in H. lia. }
  (* the blocks *)
  destruct (alreadyPermuted_ok _ _ (ss_perm (as_start s)) _ H11) as (sd & Esd & Gsd); auto.
  { intros i j (_ & _ & H). auto. }
  { intros i j m L1 L2 (A1 & A2 & A3) (A4 & A5 & A6). lia. }
  rewrite Esd in EK'. cbn [bind] in EK'.
  destruct (subdiagonal_ok _ _ _ (st_perm (as_tri s)) (ss_perm (as_start s)) _ H21)
    as (sn & Esn & Gsn); auto.
  rewrite Esn in EK'. cbn [bind] in EK'.
  destruct (subdiagonal_ok _ _ _ (so_perm (as_outer s)) (ss_perm (as_start s)) _ H31)
    as (so & Eso & Gso); auto.
  rewrite Eso in EK'. cbn [bind] in EK'.
  assert (DC : closedPattern D) by (intros i j m L1 L2 X Y; eapply (cr_DD _ _ _ CR); eauto).
  destruct (alreadyPermuted_ok _ _ (st_perm (as_tri s)) _ BD) as (td & Etd & Gtd); auto.
  rewrite Etd in EK'. cbn [bind] in EK'.
  destruct (subdiagonal_ok _ _ _ (st_perm (as_tri s)) (st_perm (as_tri s)) _ BS)
    as (ts' & Ets' & Gts); auto.
  rewrite Ets' in EK'. cbn [bind] in EK'.
  destruct (subdiagonal_ok _ _ _ (sl_perm (as_link s)) (st_perm (as_tri s)) _ K21)
    as (lp' & Elp' & Glp); auto.
  rewrite Elp' in EK'. cbn [bind] in EK'.
  destruct (alreadyPermuted_ok _ _ (sl_perm (as_link s)) _ K22) as (ld & Eld & Gld); auto.
  { intros i j (_ & _ & H). apply GL' in H. lia. }
  { intros i j m L1 L2 (A1 & A2 & A3) (A4 & A5 & A6). repeat split; auto.
    eapply GC; [| |exact A3|exact A6]; lia. }
  rewrite Eld in EK'. cbn [bind] in EK'.
  destruct (subdiagonal_ok _ _ _ (so_perm (as_outer s)) (sl_perm (as_link s)) _ K32)
    as (ln' & Eln' & Gln); auto.
  rewrite Eln' in EK'. cbn [bind] in EK'.
  destruct (subdiagonal_ok _ _ _ (so_perm (as_outer s)) (st_perm (as_tri s)) _ BO)
    as (os & Eos & Gos); auto.
  rewrite Eos in EK'. cbn [bind] in EK'.
  destruct (alreadyPermuted_ok _ _ (so_perm (as_outer s)) _ K33) as (od & Eod & God); auto.
  { intros i j (_ & _ & H). apply GL' in H. lia. }
  { intros i j m L1 L2 (A1 & A2 & A3) (A4 & A5 & A6). repeat split; auto.
    eapply GC; [| |exact A3|exact A6]; lia. }
  rewrite Eod in EK'. cbn [bind] in EK'. injection EK' as <-.
  exists (S k0). split; auto. intros n g g' Hn.
  set (FO := arrowFill s n 0 dt dl dO).
  (* bounds *)
  assert (BD' : forall i j, D i j -> i < dt /\ j < dt).
  { intros i j H. apply (ib_in _ _ _ _ BD) in H. apply (ib_wf _ _ _ _ BD) in H.
    rewrite (ib_rows _ _ _ _ BD), (ib_cols _ _ _ _ BD) in H. auto. }
  assert (BO' : forall i j, O i j -> i < dO /\ j < dt).
  { intros i j H. apply (ib_in _ _ _ _ BO) in H. apply (ib_wf _ _ _ _ BO) in H.
    rewrite (ib_rows _ _ _ _ BO), (ib_cols _ _ _ _ BO) in H. auto. }
  assert (BS' : forall i j, S' i j -> i < dt /\ j < dt).
  { intros i j H. apply (ib_in _ _ _ _ BS) in H. apply (ib_wf _ _ _ _ BS) in H.
    rewrite (ib_rows _ _ _ _ BS), (ib_cols _ _ _ _ BS) in H. auto. }
  (* the repeated blocks *)
  assert (ST2 := stage2 s dt dl dO n
    (permLow (entries (block22 hs)) dt (iota_perm dt)) (permRect (entries ts) dt dt (iota_perm dt) (iota_perm dt))
    (permRect (entries (block32 hs)) dO dt (iota_perm dO) (iota_perm dt))).
  specialize (ST2) as ST2'. clear ST2.
  assert (ST2 : forall a b, Fill (repeated (n + 2) dt
    (permLow (entries (block22 hs)) dt (iota_perm dt)) (permRect (entries ts) dt dt (iota_perm dt) (iota_perm dt))
    (permRect (entries (block32 hs)) dO dt (iota_perm dO) (iota_perm dt))) a b ->
    forall u j, u < n + 1 -> j < dt -> b = u * dt + j ->
      (forall t i, t < n + 1 -> i < dt -> a = t * dt + i -> FO (GT t i) (GT u j)) /\
      (forall i, a = (n + 2) * dt + i -> FO (GO i) (GT u j))).
  { apply ST2'; clear ST2'.
    - intros t i j Ht H. apply (permLow_isBlk _ _ _ H22) in H.
      2:{ intros x y (_ & _ & X). apply RL in X. lia. }
      destruct H as (L1 & L2 & H). specialize (ST1 n i j t Ht H). unfold idx1 in ST1.
      destruct (Nat.ltb_spec i dt), (Nat.ltb_spec j dt); try lia. exact ST1.
    - intros t i j Ht (L1 & L2 & H). rewrite !iota_nth in H by auto. apply T4 in H.
      apply (ts_fill s dt dl dO n); auto.
    - intros t i j Ht H. apply (permRect_isBlk _ _ _ _ H32) in H. destruct H as (L1 & L2 & H).
      specialize (ST1 n (dt + i) j t Ht H). unfold idx1 in ST1.
      destruct (Nat.ltb_spec (dt + i) dt), (Nat.ltb_spec j dt); try lia.
      replace (dt + i - dt) with i in ST1 by lia. exact ST1.
    - intros i j (L1 & L2 & _). lia.
    - intros i j (L1 & L2 & _). lia.
    - intros i j (L1 & L2 & _). lia. }
  clear ST2'.
  assert (FD : forall t i j, S k0 <= t -> t < n + 1 -> D i j -> FO (GT t i) (GT t j)).
  { intros t i j L1 L2 H. destruct t as [|t]; [lia|].
    destruct (TI (n + 2) t ltac:(lia) ltac:(lia)) as (X & _ & _). apply X in H as H'.
    apply BD' in H. destruct (ST2 _ _ H' (S t) j) as [Y _]; try tauto. apply Y; tauto. }
  assert (FS : forall t i j, k0 <= t -> t < n -> S' i j -> FO (GT (S t) i) (GT t j)).
  { intros t i j L1 L2 H.
    destruct (TI (n + 2) t ltac:(lia) ltac:(lia)) as (_ & X & _). apply X in H as H'.
    apply BS' in H. destruct (ST2 _ _ H' t j) as [Y _]; try tauto; [lia|]. apply Y; try tauto. lia. }
  assert (FOt : forall t i j, k0 <= t -> t < n + 1 -> O i j -> FO (GO i) (GT t j)).
  { intros t i j L1 L2 H.
    destruct (TI (n + 2) t ltac:(lia) ltac:(lia)) as (_ & _ & X). apply X in H as H'.
    apply BO' in H. destruct (ST2 _ _ H' t j) as [_ Y]; try tauto. apply Y; auto. }
  (* link and outer *)
  assert (ST3 : forall a b, G a b -> FO (idx3 dt dl n a) (idx3 dt dl n b)).
  { intros a b H. apply GE in H. revert H. apply stage3.
    - intros i j H. pose proof (BD' i j H). split; [tauto|]. split; [tauto|]. apply FD; auto. lia.
    - intros i j (L1 & L2 & H). split; auto. split; auto. rewrite iota_nth in H by auto. apply U4 in H.
      apply (lp_fill s dt dl dO n). destruct H as (X1 & X2 & X3). split; auto. split; auto.
      rewrite iota_nth in X3 by auto. exact X3.
    - intros i j H. pose proof H as (L1 & L2 & _). split; auto. split; [lia|]. apply (ld_fill s dt dl dO n); auto.
    - intros i j H. pose proof (BO' i j H). split; [tauto|]. apply FOt; auto; lia.
    - intros i j (L1 & L2 & H). split; auto. rewrite iota_nth in H by auto. apply V4 in H.
      apply (ln_fill s dt dl dO n). destruct H as (X1 & X2 & X3). split; auto. split; auto.
      rewrite iota_nth in X3 by auto. exact X3.
    - intros i j (L1 & L2 & H). specialize (ST1 n _ _ 0 ltac:(lia) H). unfold idx1 in ST1. cbn [Nat.add] in ST1.
      destruct (Nat.ltb_spec (dt + i) dt), (Nat.ltb_spec (dt + j) dt); try lia.
      replace (dt + i - dt) with i in ST1 by lia. replace (dt + j - dt) with j in ST1 by lia. exact ST1. }
  assert (I1 : forall x, x < dt -> idx3 dt dl n x = GT n x).
  { intros x Hx. unfold idx3. destruct (Nat.ltb_spec x dt); auto. lia. }
  assert (I2 : forall x, x < dl -> idx3 dt dl n (dt + x) = GL x).
  { intros x Hx. unfold idx3. destruct (Nat.ltb_spec (dt + x) dt), (Nat.ltb_spec (dt + x) (dt + dl)); try lia.
    f_equal. lia. }
  assert (I3 : forall x, idx3 dt dl n (dt + dl + x) = GO x).
  { intros x. unfold idx3. destruct (Nat.ltb_spec (dt + dl + x) dt), (Nat.ltb_spec (dt + dl + x) (dt + dl)); try lia.
    f_equal. lia. }
  intros HS HF.
  destruct g as [i|t i|i|i], g' as [j|u j|j|j]; cbn [storedAt fromBlock] in HS, HF; cbn in HS; try tauto.
  - apply (gb_in _ _ _ _ _ _ _ Gsd) in HS. lia.
  - destruct HS as [_ HS]. apply (gb_in _ _ _ _ _ _ _ Gsn) in HS. lia.
  - destruct HS as [Ht [[-> HS]|[-> HS]]].
    + apply (gb_in _ _ _ _ _ _ _ Gtd) in HS. apply FD; auto.
    + apply (gb_in _ _ _ _ _ _ _ Gts) in HS. replace (u + 1) with (S u) by lia. apply FS; auto; lia.
  - destruct HS as [-> HS]. apply (gb_in _ _ _ _ _ _ _ Glp) in HS. destruct HS as (L1 & L2 & HS).
    apply ST3 in HS. rewrite I2, I1 in HS by auto. exact HS.
  - apply (gb_in _ _ _ _ _ _ _ Gld) in HS. destruct HS as (L1 & L2 & HS).
    apply ST3 in HS. rewrite !I2 in HS by auto. exact HS.
  - apply (gb_in _ _ _ _ _ _ _ Gso) in HS. lia.
  - destruct HS as [Ht HS]. apply (gb_in _ _ _ _ _ _ _ Gos) in HS. apply FOt; auto. lia.
  - apply (gb_in _ _ _ _ _ _ _ Gln) in HS. destruct HS as (L1 & L2 & HS).
    apply ST3 in HS. rewrite I3, I2 in HS by auto. exact HS.
  - apply (gb_in _ _ _ _ _ _ _ God) in HS. destruct HS as (L1 & L2 & HS).
    apply ST3 in HS. rewrite !I3 in HS. exact HS.
Qed.
