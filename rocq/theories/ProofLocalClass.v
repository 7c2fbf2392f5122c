(** Independent and leading parts of an arrowhead system. *)
From Coq Require Import Lia List Arith Bool Permutation Sorted.
From Verif Require Import Base ModelPerm ModelSparsity ModelSymbolic ModelNumeric ModelArrow ModelReg.
From Verif Require Import SpecSymbolic SpecArrow SpecNumeric SpecArrowNum SpecPivot SpecAgree SpecTight SpecLocal.
From Verif Require Import ProofBase ProofPerm ProofCsr ProofSparsity ProofEtree ProofFill ProofFill3 ProofRep ProofRepeating
  ProofArrowSym ProofArrowProduct ProofLocalSingle.
Import ListNotations.
Local Open Scope nat_scope.

Lemma Fill_class (Q : pattern) (c : nat -> Prop) : (forall i j, Q i j -> (c i <-> c j)) ->
  forall i j, Fill Q i j -> (c i <-> c j).
Proof. intros H i j HF. induction HF as [i j HB _|]; [auto|tauto]. Qed.

Definition class3 (n1 n2 : nat) (c1 c2 c3 : nat -> Prop) (a : nat) : Prop :=
  if a <? n1 then c1 a else if a <? n1 + n2 then c2 (a - n1) else c3 (a - (n1 + n2)).

Lemma class3_1 n1 n2 c1 c2 c3 a : a < n1 -> class3 n1 n2 c1 c2 c3 a = c1 a.
Proof. intros H. unfold class3. destruct (Nat.ltb_spec a n1); auto. lia. Qed.
Lemma class3_2 n1 n2 c1 c2 c3 a : a < n2 -> class3 n1 n2 c1 c2 c3 (n1 + a) = c2 a.
Proof.
  intros H. unfold class3. destruct (Nat.ltb_spec (n1 + a) n1), (Nat.ltb_spec (n1 + a) (n1 + n2)); try lia.
  f_equal. lia.
Qed.
Lemma class3_3 n1 n2 c1 c2 c3 a : class3 n1 n2 c1 c2 c3 (n1 + n2 + a) = c3 a.
Proof.
  unfold class3. destruct (Nat.ltb_spec (n1 + n2 + a) n1), (Nat.ltb_spec (n1 + n2 + a) (n1 + n2)); try lia.
  f_equal. lia.
Qed.

Lemma asm3_class n1 n2 (c1 c2 c3 : nat -> Prop) (P11 P21 P22 P31 P32 P33 : pattern) :
  (forall i j, P11 i j -> i < n1 /\ j < n1 /\ (c1 i <-> c1 j)) ->
  (forall i j, P21 i j -> i < n2 /\ j < n1 /\ (c2 i <-> c1 j)) ->
  (forall i j, P22 i j -> i < n2 /\ j < n2 /\ (c2 i <-> c2 j)) ->
  (forall i j, P31 i j -> j < n1 /\ (c3 i <-> c1 j)) ->
  (forall i j, P32 i j -> j < n2 /\ (c3 i <-> c2 j)) ->
  (forall i j, P33 i j -> (c3 i <-> c3 j)) ->
  forall a b, Fill (asm3 n1 n2 P11 P21 P22 P31 P32 P33) a b ->
    (class3 n1 n2 c1 c2 c3 a <-> class3 n1 n2 c1 c2 c3 b).
Proof.
  intros H11 H21 H22 H31 H32 H33. apply Fill_class. intros i j H.
  destruct H as [H|[(i' & -> & H)|[(i' & j' & -> & -> & H)|[(i' & -> & H)|
      [(i' & j' & -> & -> & H)|(i' & j' & -> & -> & H)]]]]].
  - apply H11 in H. rewrite !class3_1 by tauto. tauto.
  - apply H21 in H. rewrite class3_2, class3_1 by tauto. tauto.
  - apply H22 in H. rewrite !class3_2 by tauto. tauto.
  - apply H31 in H. rewrite class3_3, class3_1 by tauto. tauto.
  - apply H32 in H. rewrite class3_3, class3_2 by tauto. tauto.
  - apply H33 in H. rewrite !class3_3. tauto.
Qed.

Definition classR (N d : nat) (ct co : nat -> Prop) (a : nat) : Prop :=
  if a <? N * d then ct (a mod d) else co (a - N * d).
Lemma classR_t N d ct co t i : t < N -> i < d -> classR N d ct co (t * d + i) = ct i.
Proof.
  intros Ht Hi. unfold classR. destruct (Nat.ltb_spec (t * d + i) (N * d)); [|nia].
  rewrite Nat.add_comm, Nat.mod_add, Nat.mod_small by lia. auto.
Qed.
Lemma classR_o N d ct co i : classR N d ct co (N * d + i) = co i.
Proof.
  unfold classR. destruct (Nat.ltb_spec (N * d + i) (N * d)); [lia|]. f_equal. lia.
Qed.

Lemma repeated_class N d (ct co : nat -> Prop) (A B C : pattern) :
  (forall i j, A i j -> i < d /\ j < d /\ (ct i <-> ct j)) ->
  (forall i j, B i j -> i < d /\ j < d /\ (ct i <-> ct j)) ->
  (forall i j, C i j -> j < d /\ (co i <-> ct j)) ->
  forall a b, Fill (repeated N d A B C) a b -> (classR N d ct co a <-> classR N d ct co b).
Proof.
  intros HA HB HC. apply Fill_class. intros a b H.
  destruct H as [(t & i & j & Ht & -> & -> & H)|[(t & i & j & Ht & -> & -> & H)|(t & i & j & Ht & -> & -> & H)]].
  - apply HA in H. rewrite !classR_t by tauto. tauto.
  - apply HB in H. rewrite !classR_t by (try tauto; lia). tauto.
  - apply HC in H. rewrite classR_o, classR_t by tauto. tauto.
Qed.

Lemma low_class es d p (V : nat -> Prop) i j : validPerm d p -> separated es V ->
  permLow es d p i j -> (V (nth i p 0) <-> V (nth j p 0)).
Proof.
  intros HP HV H. pose proof H as (L1 & L2 & _). apply permLow_coupled in H; auto.
  split; apply HV; auto. apply coupled_sym; auto.
Qed.
Lemma rect_class es nr nc p q (V W : nat -> Prop) i j : separatedRect es V W ->
  permRect es nr nc p q i j -> (V (nth i p 0) <-> W (nth j q 0)).
Proof. intros HV (_ & _ & H). apply HV; auto. Qed.

(** the stored pattern does not couple the variables either *)
Theorem arrow_class s ds dt dl dO k V : arrowDims s ds dt dl dO -> arrowBlocks s = Ok k ->
  separatedArrow s V ->
  forall n g h, storedAt k n g h -> (inVars V (permIdx s g) <-> inVars V (permIdx s h)).
Proof.
  intros HD EK' HV. pose proof HD as [Asd Asn Aso Atd Ats Alp Ald Aln Aos Aod Ps0 Pt0 Pl0 Po0].
  pose proof (validPerm_isPerm _ _ Ps0) as Ps. pose proof (validPerm_isPerm _ _ Pt0) as Pt.
  pose proof (validPerm_isPerm _ _ Pl0) as Pl. pose proof (validPerm_isPerm _ _ Po0) as Po.
  unfold arrowBlocks in EK'.
  destruct (arrowDims_ok _ _ _ _ _ HD) as (E1 & E2 & E3 & E4).
  rewrite E1, E2, E3, E4 in EK'. cbn [bind] in EK'.
  set (cs := fun i => vs_start V (nth i (ss_perm (as_start s)) 0)).
  set (ct := fun i => vs_tri V (nth i (st_perm (as_tri s)) 0)).
  set (cl := fun i => vs_link V (nth i (sl_perm (as_link s)) 0)).
  set (co := fun i => vs_outer V (nth i (so_perm (as_outer s)) 0)).
  (* start *)
  destruct (getFilled3_ok (ss_diag (as_start s)) (ss_next (as_start s)) (st_diag (as_tri s))
     (ss_outer (as_start s)) (so_subdiag (as_outer s)) (so_diag (as_outer s))
     (ss_perm (as_start s)) (st_perm (as_tri s)) (so_perm (as_outer s)) ds dt dO)
    as (hs & Ehs & H11 & H21 & H22 & H31 & H32 & H33);
    eauto using spOf_dims, spOf_wf.
  rewrite Ehs in EK'. cbn [bind] in EK'.
  set (R := filled3 _ _ _ _ _ _ _ _ _ _ _ _) in *.
  assert (RL : forall i j, R i j -> j < i) by (intros i j; apply Fill_lt).
  assert (RC : closedPattern R) by apply filled3_closed.
  assert (ST1 : forall a b, R a b -> class3 ds dt cs ct co a <-> class3 ds dt cs ct co b).
  { apply asm3_class.
    - intros i j H. pose proof H as (L0 & L & _). split; auto. split; [lia|]. eapply low_class; eauto. apply HV.
    - intros i j H. pose proof H as (L1 & L2 & _). split; auto. split; auto. eapply rect_class; eauto. apply HV.
    - intros i j H. pose proof H as (L0 & L & _). split; auto. split; [lia|]. eapply low_class; eauto. apply HV.
    - intros i j H. pose proof H as (L1 & L2 & _). split; auto. eapply rect_class; eauto. apply HV.
    - intros i j H. pose proof H as (L1 & L2 & _). split; auto. eapply rect_class; eauto. apply HV.
    - intros i j H. eapply low_class; eauto. apply HV. }
  (* repeating *)
  destruct (permuted_ok (st_subdiag (as_tri s)) (st_perm (as_tri s)) (st_perm (as_tri s)))
    as (ts & Ets & T1 & T2 & T3 & T4 & _).
  { eapply spOf_wf; eauto. }
  { rewrite (sp_rows _ _ _ Ats). auto. }
  { rewrite (sp_cols _ _ _ Ats). auto. }
  rewrite Ets in EK'. cbn [bind] in EK'.
  rewrite (sp_rows _ _ _ Ats), (sp_cols _ _ _ Ats) in T4.
  rewrite (sp_rows _ _ _ Ats) in T1. rewrite (sp_cols _ _ _ Ats) in T2.
  assert (D22 : nrows (block22 hs) = dt /\ ncols (block22 hs) = dt).
  { split; [eapply ib_rows|eapply ib_cols]; eauto. }
  assert (D32 : nrows (block32 hs) = dO /\ ncols (block32 hs) = dt).
  { split; [eapply ib_rows|eapply ib_cols]; eauto. }
  destruct (getFilledRep_ok (block22 hs) ts (block32 hs) (iota_perm dt) (iota_perm dO) dt dO
      D22 (conj T1 T2) D32 (ib_wf _ _ _ _ H22) T3 (ib_wf _ _ _ _ H32)
      (isPerm_iota dt) (isPerm_iota dO))
    as (sf & D & S' & O & Esf & BD & BS & BO & DL & _ & _ & _ & CR & k0 & TI).
  rewrite Esf in EK'. cbn [bind] in EK'.
  (* link *)
  destruct (permuted_ok (sl_prev (as_link s)) (iota_perm dl) (st_perm (as_tri s)))
    as (lp & Elp & U1 & U2 & U3 & U4 & _).
  { eapply spOf_wf; eauto. }
  { rewrite (sp_rows _ _ _ Alp). apply isPerm_iota. }
  { rewrite (sp_cols _ _ _ Alp). auto. }
  rewrite Elp in EK'. cbn [bind] in EK'. rewrite (sp_rows _ _ _ Alp), (sp_cols _ _ _ Alp) in U4.
  rewrite (sp_rows _ _ _ Alp) in U1. rewrite (sp_cols _ _ _ Alp) in U2.
  destruct (permuted_ok (sl_next (as_link s)) (so_perm (as_outer s)) (iota_perm dl))
    as (ln & Eln & V1 & V2 & V3 & V4 & _).
  { eapply spOf_wf; eauto. }
  { rewrite (sp_rows _ _ _ Aln). auto. }
  { rewrite (sp_cols _ _ _ Aln). apply isPerm_iota. }
  rewrite Eln in EK'. cbn [bind] in EK'. rewrite (sp_rows _ _ _ Aln), (sp_cols _ _ _ Aln) in V4.
  rewrite (sp_rows _ _ _ Aln) in V1. rewrite (sp_cols _ _ _ Aln) in V2.
  destruct (getFilled3_ok (ra_diag sf) lp (sl_diag (as_link s)) (ra_outer sf) ln
     (block33 hs) (iota_perm dt) (sl_perm (as_link s)) (iota_perm dO) dt dl dO)
    as (h & Eh & K11 & K21 & K22 & K31 & K32 & K33);
    eauto using spOf_dims, spOf_wf, isPerm_iota, ib_wf.
  { split; [eapply ib_rows|eapply ib_cols]; eauto. }
  { split; [eapply ib_rows|eapply ib_cols]; eauto. }
  { split; [eapply ib_rows|eapply ib_cols]; eauto. }
  rewrite Eh in EK'. cbn [bind] in EK'.
  set (G := filled3 dt dl dO _ _ _ _ _ _ _ _ _) in K11, K21, K22, K31, K32, K33.
  assert (GC : closedPattern G) by apply filled3_closed.
  assert (GL' : forall i j, G i j -> j < i) by (intros i j; apply Fill_lt).
  set (P33 := fun i j => i < dO /\ j < dO /\ R (ds + dt + i) (ds + dt + j)) in *.
  assert (GE : forall i j, G i j <-> Fill (asm3 dt dl D
      (permRect (entries lp) dl dt (sl_perm (as_link s)) (iota_perm dt))
      (permLow (entries (sl_diag (as_link s))) dl (sl_perm (as_link s))) O
      (permRect (entries ln) dO dl (iota_perm dO) (sl_perm (as_link s))) P33) i j).
  { intros i j. apply Fill_ext. intros a b _. apply asm3_ext.
    - apply permLow_isBlk; auto.
    - tauto.
    - tauto.
    - apply permRect_isBlk; auto.
    - tauto.
    - apply permLow_isBlk; auto. unfold P33. intros x y (_ & _ & H). apply RL in H. lia. }
  (* the blocks *)
  destruct (alreadyPermuted_ok _ _ (ss_perm (as_start s)) _ H11) as (sd & Esd & Gsd); auto.
  { intros i j (_ & _ & H). auto. }
  { intros i j m L1 L2 (A1 & A2 & A3) (A4 & A5 & A6). repeat split; auto. eapply RC; eauto. }
  rewrite Esd in EK'. cbn [bind] in EK'.
  destruct (subdiagonal_ok _ _ _ (st_perm (as_tri s)) (ss_perm (as_start s)) _ H21)
    as (sn & Esn & Gsn); auto.
  rewrite Esn in EK'. cbn [bind] in EK'.
  destruct (subdiagonal_ok _ _ _ (so_perm (as_outer s)) (ss_perm (as_start s)) _ H31)
    as (so & Eso & Gso); auto.
  rewrite Eso in EK'. cbn [bind] in EK'.
  assert (DC : closedPattern D) by (intros i j m L1 L2 X Y; eapply (cr_DD _ _ _ CR); eauto).
  destruct (alreadyPermuted_ok _ _ (st_perm (as_tri s)) _ BD) as (td & Etd & Gtd); auto.
  rewrite Etd in EK'. cbn [bind] in EK'.
  destruct (subdiagonal_ok _ _ _ (st_perm (as_tri s)) (st_perm (as_tri s)) _ BS)
    as (ts' & Ets' & Gts); auto.
  rewrite Ets' in EK'. cbn [bind] in EK'.
  destruct (subdiagonal_ok _ _ _ (sl_perm (as_link s)) (st_perm (as_tri s)) _ K21)
    as (lp' & Elp' & Glp); auto.
  rewrite Elp' in EK'. cbn [bind] in EK'.
  destruct (alreadyPermuted_ok _ _ (sl_perm (as_link s)) _ K22) as (ld & Eld & Gld); auto.
  { intros i j (_ & _ & H). apply GL' in H. lia. }
  { intros i j m L1 L2 (A1 & A2 & A3) (A4 & A5 & A6). repeat split; auto.
    eapply GC; [| |exact A3|exact A6]; lia. }
  rewrite Eld in EK'. cbn [bind] in EK'.
  destruct (subdiagonal_ok _ _ _ (so_perm (as_outer s)) (sl_perm (as_link s)) _ K32)
    as (ln' & Eln' & Gln); auto.
  rewrite Eln' in EK'. cbn [bind] in EK'.
  destruct (subdiagonal_ok _ _ _ (so_perm (as_outer s)) (st_perm (as_tri s)) _ BO)
    as (os & Eos & Gos); auto.
  rewrite Eos in EK'. cbn [bind] in EK'.
  destruct (alreadyPermuted_ok _ _ (so_perm (as_outer s)) _ K33) as (od & Eod & God); auto.
  { intros i j (_ & _ & H). apply GL' in H. lia. }
  { intros i j m L1 L2 (A1 & A2 & A3) (A4 & A5 & A6). repeat split; auto.
    eapply GC; [| |exact A3|exact A6]; lia. }
  rewrite Eod in EK'. cbn [bind] in EK'. injection EK' as <-.
  (* bounds *)
  assert (BD' : forall i j, D i j -> i < dt /\ j < dt).
  { intros i j H. apply (ib_in _ _ _ _ BD) in H. apply (ib_wf _ _ _ _ BD) in H.
    rewrite (ib_rows _ _ _ _ BD), (ib_cols _ _ _ _ BD) in H. auto. }
  assert (BO' : forall i j, O i j -> i < dO /\ j < dt).
  { intros i j H. apply (ib_in _ _ _ _ BO) in H. apply (ib_wf _ _ _ _ BO) in H.
    rewrite (ib_rows _ _ _ _ BO), (ib_cols _ _ _ _ BO) in H. auto. }
  assert (BS' : forall i j, S' i j -> i < dt /\ j < dt).
  { intros i j H. apply (ib_in _ _ _ _ BS) in H. apply (ib_wf _ _ _ _ BS) in H.
    rewrite (ib_rows _ _ _ _ BS), (ib_cols _ _ _ _ BS) in H. auto. }
  (* the repeated blocks *)
  assert (ST2 := repeated_class (k0 + 2) dt ct co
    (permLow (entries (block22 hs)) dt (iota_perm dt)) (permRect (entries ts) dt dt (iota_perm dt) (iota_perm dt))
    (permRect (entries (block32 hs)) dO dt (iota_perm dO) (iota_perm dt))).
  assert (ST2' : forall a b, Fill (repeated (k0 + 2) dt
    (permLow (entries (block22 hs)) dt (iota_perm dt)) (permRect (entries ts) dt dt (iota_perm dt) (iota_perm dt))
    (permRect (entries (block32 hs)) dO dt (iota_perm dO) (iota_perm dt))) a b ->
    classR (k0 + 2) dt ct co a <-> classR (k0 + 2) dt ct co b).
  { apply ST2; clear ST2.
    - intros i j H. apply (permLow_isBlk _ _ _ H22) in H.
      2:{ intros x y (_ & _ & X). apply RL in X. lia. }
      destruct H as (L1 & L2 & H). split; auto. split; auto. apply ST1 in H.
      rewrite !class3_2 in H by auto. exact H.
    - intros i j (L1 & L2 & H). split; auto. split; auto. rewrite !iota_nth in H by auto. apply T4 in H.
      eapply rect_class; eauto. apply HV.
    - intros i j H. apply (permRect_isBlk _ _ _ _ H32) in H. destruct H as (L1 & L2 & H).
      split; auto. apply ST1 in H. rewrite class3_3, class3_2 in H by auto. exact H. }
  clear ST2.
  destruct (TI (k0 + 2) k0 ltac:(lia) ltac:(lia)) as (TD & TS & TO).
  assert (FD : forall i j, D i j -> (ct i <-> ct j)).
  { intros i j H. pose proof (BD' i j H). apply TD, ST2' in H. rewrite !classR_t in H by (try tauto; lia). exact H. }
  assert (FS : forall i j, S' i j -> (ct i <-> ct j)).
  { intros i j H. pose proof (BS' i j H). apply TS, ST2' in H. rewrite !classR_t in H by (try tauto; lia). exact H. }
  assert (FOt : forall i j, O i j -> (co i <-> ct j)).
  { intros i j H. pose proof (BO' i j H). apply TO, ST2' in H. rewrite classR_o, classR_t in H by (try tauto; lia). exact H. }
  (* link and outer *)
  assert (ST3 : forall a b, G a b -> class3 dt dl ct cl co a <-> class3 dt dl ct cl co b).
  { intros a b H. apply GE in H. revert H. apply asm3_class.
    - intros i j H. pose proof (BD' i j H). split; [tauto|]. split; [tauto|]. apply FD; auto.
    - intros i j (L1 & L2 & H). split; auto. split; auto. rewrite iota_nth in H by auto. apply U4 in H.
      destruct H as (X1 & X2 & X3). rewrite iota_nth in X3 by auto. apply (sa_lp _ _ HV). exact X3.
    - intros i j H. pose proof H as (L1 & L2 & _). split; auto. split; [lia|]. eapply low_class; eauto. apply HV.
    - intros i j H. pose proof (BO' i j H). split; [tauto|]. apply FOt; auto.
    - intros i j (L1 & L2 & H). split; auto. rewrite iota_nth in H by auto. apply V4 in H.
      destruct H as (X1 & X2 & X3). rewrite iota_nth in X3 by auto. apply (sa_ln _ _ HV). exact X3.
    - intros i j (L1 & L2 & H). apply ST1 in H. rewrite !class3_3 in H. exact H. }
  intros n g g' HS.
  destruct g as [i|t i|i|i], g' as [j|u j|j|j]; cbn [storedAt] in HS; cbn in HS; try tauto; cbn [permIdx inVars].
  - apply (gb_in _ _ _ _ _ _ _ Gsd) in HS. destruct HS as (L1 & L2 & HS).
    apply ST1 in HS. rewrite !class3_1 in HS by auto. exact HS.
  - destruct HS as [_ HS]. apply (gb_in _ _ _ _ _ _ _ Gsn) in HS. destruct HS as (L1 & L2 & HS).
    apply ST1 in HS. rewrite class3_2, class3_1 in HS by auto. exact HS.
  - destruct HS as [Ht [[-> HS]|[-> HS]]].
    + apply (gb_in _ _ _ _ _ _ _ Gtd) in HS. apply FD; auto.
    + apply (gb_in _ _ _ _ _ _ _ Gts) in HS. apply FS; auto.
  - destruct HS as [-> HS]. apply (gb_in _ _ _ _ _ _ _ Glp) in HS. destruct HS as (L1 & L2 & HS).
    apply ST3 in HS. rewrite class3_2, class3_1 in HS by auto. exact HS.
  - apply (gb_in _ _ _ _ _ _ _ Gld) in HS. destruct HS as (L1 & L2 & HS).
    apply ST3 in HS. rewrite !class3_2 in HS by auto. exact HS.
  - apply (gb_in _ _ _ _ _ _ _ Gso) in HS. destruct HS as (L1 & L2 & HS).
    apply ST1 in HS. rewrite class3_3, class3_1 in HS by auto. exact HS.
  - destruct HS as [Ht HS]. apply (gb_in _ _ _ _ _ _ _ Gos) in HS. apply FOt; auto.
  - apply (gb_in _ _ _ _ _ _ _ Gln) in HS. destruct HS as (L1 & L2 & HS).
    apply ST3 in HS. rewrite class3_3, class3_2 in HS by auto. exact HS.
  - apply (gb_in _ _ _ _ _ _ _ God) in HS. destruct HS as (L1 & L2 & HS).
    apply ST3 in HS. rewrite !class3_3 in HS. exact HS.
Qed.
