(** The stored pattern of an arrowhead system depends on the permuted pattern only. *)
From Coq Require Import Lia List Arith Bool Permutation Sorted.
From Verif Require Import Base ModelPerm ModelSparsity ModelSymbolic ModelNumeric ModelArrow ModelReg.
From Verif Require Import SpecSymbolic SpecArrow SpecNumeric SpecArrowNum SpecPivot SpecAgree SpecTight SpecLocal.
From Verif Require Import ProofBase ProofPerm ProofCsr ProofSparsity ProofEtree ProofFill ProofFill3 ProofRep ProofRepeating
  ProofArrowSym ProofArrowProduct ProofLocalSingle.
Import ListNotations.
Local Open Scope nat_scope.

Lemma repeated_mono N d (A B C A' B' C' : pattern) i j :
  (forall i j, A i j -> A' i j) -> (forall i j, B i j -> B' i j) -> (forall i j, C i j -> C' i j) ->
  Fill (repeated N d A B C) i j -> Fill (repeated N d A' B' C') i j.
Proof.
  intros HA HB HC. apply Fill_mono. intros a b _ [(t & x & y & H1 & H2 & H3 & H)|[(t & x & y & H1 & H2 & H3 & H)|(t & x & y & H1 & H2 & H3 & H)]].
  - left. exists t, x, y. auto.
  - right; left. exists t, x, y. auto.
  - right; right. exists t, x, y. auto.
Qed.

(** the filled-in pattern of the start with the first block and the outer block *)
Definition startPat (s : arrow_sp) ds dt dO : pattern :=
  filled3 ds dt dO (entries (ss_diag (as_start s))) (entries (ss_next (as_start s))) (entries (st_diag (as_tri s)))
    (entries (ss_outer (as_start s))) (entries (so_subdiag (as_outer s))) (entries (so_diag (as_outer s)))
    (ss_perm (as_start s)) (st_perm (as_tri s)) (so_perm (as_outer s)).
Definition charA ds dt (R : pattern) : pattern := fun i j => i < dt /\ j < dt /\ R (ds + i) (ds + j).
Definition charB (s : arrow_sp) dt : pattern :=
  permRect (entries (st_subdiag (as_tri s))) dt dt (st_perm (as_tri s)) (st_perm (as_tri s)).
Definition charC ds dt dO (R : pattern) : pattern := fun i j => i < dO /\ j < dt /\ R (ds + dt + i) (ds + j).
Definition linkPat (s : arrow_sp) ds dt dl dO (R D O : pattern) : pattern :=
  Fill (asm3 dt dl D
    (permRect (entries (sl_prev (as_link s))) dl dt (sl_perm (as_link s)) (st_perm (as_tri s)))
    (permLow (entries (sl_diag (as_link s))) dl (sl_perm (as_link s))) O
    (permRect (entries (sl_next (as_link s))) dO dl (so_perm (as_outer s)) (sl_perm (as_link s)))
    (fun i j => i < dO /\ j < dO /\ R (ds + dt + i) (ds + dt + j))).
Definition charAt ds dt dl dO (R D S' O G : pattern) (n : nat) (g h : gidx) : Prop :=
  match g, h with
  | GS i, GS j => i < ds /\ j < ds /\ R i j
  | GT t i, GS j => t = 0 /\ i < dt /\ j < ds /\ R (ds + i) j
  | GO i, GS j => i < dO /\ j < ds /\ R (ds + dt + i) j
  | GT t i, GT u j => t < n + 1 /\ ((t = u /\ D i j) \/ (t = u + 1 /\ S' i j))
  | GL i, GT u j => u = n /\ i < dl /\ j < dt /\ G (dt + i) j
  | GL i, GL j => i < dl /\ j < dl /\ G (dt + i) (dt + j)
  | GO i, GL j => i < dO /\ j < dl /\ G (dt + dl + i) (dt + j)
  | GO i, GT u j => u < n + 1 /\ O i j
  | GO i, GO j => i < dO /\ j < dO /\ G (dt + dl + i) (dt + dl + j)
  | _, _ => False
  end.

Record arrowChar (s : arrow_sp) ds dt dl dO (k : arrow_blks) (D S' O : pattern) (k0 : nat) : Prop := mkArrowChar {
  ac_D : forall i j, D i j -> j < i /\ i < dt;
  ac_S : forall i j, S' i j -> i < dt /\ j < dt;
  ac_O : forall i j, O i j -> i < dO /\ j < dt;
  ac_closed : closedRepeated D S' O;
  ac_A : forall i j, charA ds dt (startPat s ds dt dO) i j -> D i j;
  ac_B : forall i j, charB s dt i j -> S' i j;
  ac_C : forall i j, charC ds dt dO (startPat s ds dt dO) i j -> O i j;
  ac_tight : forall N t, k0 <= t -> S t < N ->
    let R := startPat s ds dt dO in
    let Q := repeated N dt (charA ds dt R) (charB s dt) (charC ds dt dO R) in
    (forall i j, D i j -> Fill Q (S t * dt + i) (S t * dt + j)) /\
    (forall i j, S' i j -> Fill Q (S t * dt + i) (t * dt + j)) /\
    (forall i j, O i j -> Fill Q (N * dt + i) (t * dt + j));
  ac_stored : forall n g h, storedAt k n g h <->
    charAt ds dt dl dO (startPat s ds dt dO) D S' O (linkPat s ds dt dl dO (startPat s ds dt dO) D O) n g h }.

Theorem arrow_char s ds dt dl dO k : arrowDims s ds dt dl dO -> arrowBlocks s = Ok k ->
  exists D S' O k0, arrowChar s ds dt dl dO k D S' O k0.
Proof.
  intros HD EK'. pose proof HD as [Asd Asn Aso Atd Ats Alp Ald Aln Aos Aod Ps0 Pt0 Pl0 Po0].
  pose proof (validPerm_isPerm _ _ Ps0) as Ps. pose proof (validPerm_isPerm _ _ Pt0) as Pt.
  pose proof (validPerm_isPerm _ _ Pl0) as Pl. pose proof (validPerm_isPerm _ _ Po0) as Po.
  unfold arrowBlocks in EK'.
  destruct (arrowDims_ok _ _ _ _ _ HD) as (E1 & E2 & E3 & E4).
  rewrite E1, E2, E3, E4 in EK'. cbn [bind] in EK'.
  (* start *)
  destruct (getFilled3_ok (ss_diag (as_start s)) (ss_next (as_start s)) (st_diag (as_tri s))
     (ss_outer (as_start s)) (so_subdiag (as_outer s)) (so_diag (as_outer s))
     (ss_perm (as_start s)) (st_perm (as_tri s)) (so_perm (as_outer s)) ds dt dO)
    as (hs & Ehs & H11 & H21 & H22 & H31 & H32 & H33);
    eauto using spOf_dims, spOf_wf.
  rewrite Ehs in EK'. cbn [bind] in EK'.
  set (R := filled3 _ _ _ _ _ _ _ _ _ _ _ _) in *.
  assert (RL : forall i j, R i j -> j < i) by (intros i j; apply Fill_lt).
  assert (RC : closedPattern R) by apply filled3_closed.
  (* repeating *)
  destruct (permuted_ok (st_subdiag (as_tri s)) (st_perm (as_tri s)) (st_perm (as_tri s)))
    as (ts & Ets & T1 & T2 & T3 & T4 & _).
  { eapply spOf_wf; eauto. }
  { rewrite (sp_rows _ _ _ Ats). auto. }
  { rewrite (sp_cols _ _ _ Ats). auto. }
  rewrite Ets in EK'. cbn [bind] in EK'.
  rewrite (sp_rows _ _ _ Ats), (sp_cols _ _ _ Ats) in T4.
  rewrite (sp_rows _ _ _ Ats) in T1. rewrite (sp_cols _ _ _ Ats) in T2.
  assert (D22 : nrows (block22 hs) = dt /\ ncols (block22 hs) = dt).
  { split; [eapply ib_rows|eapply ib_cols]; eauto. }
  assert (D32 : nrows (block32 hs) = dO /\ ncols (block32 hs) = dt).
  { split; [eapply ib_rows|eapply ib_cols]; eauto. }
  destruct (getFilledRep_ok (block22 hs) ts (block32 hs) (iota_perm dt) (iota_perm dO) dt dO
      D22 (conj T1 T2) D32 (ib_wf _ _ _ _ H22) T3 (ib_wf _ _ _ _ H32)
      (isPerm_iota dt) (isPerm_iota dO))
    as (sf & D & S' & O & Esf & BD & BS & BO & DL & AD & BS1 & CO & CR & k0 & TI).
  rewrite Esf in EK'. cbn [bind] in EK'.
  (* link *)
  destruct (permuted_ok (sl_prev (as_link s)) (iota_perm dl) (st_perm (as_tri s)))
    as (lp & Elp & U1 & U2 & U3 & U4 & _).
  { eapply spOf_wf; eauto. }
  { rewrite (sp_rows _ _ _ Alp). apply isPerm_iota. }
  { rewrite (sp_cols _ _ _ Alp). auto. }
  rewrite Elp in EK'. cbn [bind] in EK'. rewrite (sp_rows _ _ _ Alp), (sp_cols _ _ _ Alp) in U4.
  rewrite (sp_rows _ _ _ Alp) in U1. rewrite (sp_cols _ _ _ Alp) in U2.
  destruct (permuted_ok (sl_next (as_link s)) (so_perm (as_outer s)) (iota_perm dl))
    as (ln & Eln & V1 & V2 & V3 & V4 & _).
  { eapply spOf_wf; eauto. }
  { rewrite (sp_rows _ _ _ Aln). auto. }
  { rewrite (sp_cols _ _ _ Aln). apply isPerm_iota. }
  rewrite Eln in EK'. cbn [bind] in EK'. rewrite (sp_rows _ _ _ Aln), (sp_cols _ _ _ Aln) in V4.
  rewrite (sp_rows _ _ _ Aln) in V1. rewrite (sp_cols _ _ _ Aln) in V2.
  destruct (getFilled3_ok (ra_diag sf) lp (sl_diag (as_link s)) (ra_outer sf) ln
     (block33 hs) (iota_perm dt) (sl_perm (as_link s)) (iota_perm dO) dt dl dO)
    as (h & Eh & K11 & K21 & K22 & K31 & K32 & K33);
    eauto using spOf_dims, spOf_wf, isPerm_iota, ib_wf.
  { split; [eapply ib_rows|eapply ib_cols]; eauto. }
  { split; [eapply ib_rows|eapply ib_cols]; eauto. }
  { split; [eapply ib_rows|eapply ib_cols]; eauto. }
  rewrite Eh in EK'. cbn [bind] in EK'.
  set (G := filled3 dt dl dO _ _ _ _ _ _ _ _ _) in K11, K21, K22, K31, K32, K33.
  assert (GC : closedPattern G) by apply filled3_closed.
  assert (GL' : forall i j, G i j -> j < i) by (intros i j; apply Fill_lt).
  set (P33 := fun i j => i < dO /\ j < dO /\ R (ds + dt + i) (ds + dt + j)) in *.
  assert (GE : forall i j, G i j <-> Fill (asm3 dt dl D
      (permRect (entries lp) dl dt (sl_perm (as_link s)) (iota_perm dt))
      (permLow (entries (sl_diag (as_link s))) dl (sl_perm (as_link s))) O
      (permRect (entries ln) dO dl (iota_perm dO) (sl_perm (as_link s))) P33) i j).
  { intros i j. apply Fill_ext. intros a b _. apply asm3_ext.
    - apply permLow_isBlk; auto.
    - tauto.
    - tauto.
    - apply permRect_isBlk; auto.
    - tauto.
    - apply permLow_isBlk; auto. unfold P33. intros x y (_ & _ & H). apply RL in H. lia. }
  (* the blocks *)
  destruct (alreadyPermuted_ok _ _ (ss_perm (as_start s)) _ H11) as (sd & Esd & Gsd); auto.
  { intros i j (_ & _ & H). auto. }
  { intros i j m L1 L2 (A1 & A2 & A3) (A4 & A5 & A6). repeat split; auto. eapply RC; eauto. }
  rewrite Esd in EK'. cbn [bind] in EK'.
  destruct (subdiagonal_ok _ _ _ (st_perm (as_tri s)) (ss_perm (as_start s)) _ H21)
    as (sn & Esn & Gsn); auto.
  rewrite Esn in EK'. cbn [bind] in EK'.
  destruct (subdiagonal_ok _ _ _ (so_perm (as_outer s)) (ss_perm (as_start s)) _ H31)
    as (so & Eso & Gso); auto.
  rewrite Eso in EK'. cbn [bind] in EK'.
  assert (DC : closedPattern D) by (intros i j m L1 L2 X Y; eapply (cr_DD _ _ _ CR); eauto).
  destruct (alreadyPermuted_ok _ _ (st_perm (as_tri s)) _ BD) as (td & Etd & Gtd); auto.
  rewrite Etd in EK'. cbn [bind] in EK'.
  destruct (subdiagonal_ok _ _ _ (st_perm (as_tri s)) (st_perm (as_tri s)) _ BS)
    as (ts' & Ets' & Gts); auto.
  rewrite Ets' in EK'. cbn [bind] in EK'.
  destruct (subdiagonal_ok _ _ _ (sl_perm (as_link s)) (st_perm (as_tri s)) _ K21)
    as (lp' & Elp' & Glp); auto.
  rewrite Elp' in EK'. cbn [bind] in EK'.
  destruct (alreadyPermuted_ok _ _ (sl_perm (as_link s)) _ K22) as (ld & Eld & Gld); auto.
  { intros i j (_ & _ & H). apply GL' in H. lia. }
  { intros i j m L1 L2 (A1 & A2 & A3) (A4 & A5 & A6). repeat split; auto.
    eapply GC; [| |exact A3|exact A6]; lia. }
  rewrite Eld in EK'. cbn [bind] in EK'.
  destruct (subdiagonal_ok _ _ _ (so_perm (as_outer s)) (sl_perm (as_link s)) _ K32)
    as (ln' & Eln' & Gln); auto.
  rewrite Eln' in EK'. cbn [bind] in EK'.
  destruct (subdiagonal_ok _ _ _ (so_perm (as_outer s)) (st_perm (as_tri s)) _ BO)
    as (os & Eos & Gos); auto.
  rewrite Eos in EK'. cbn [bind] in EK'.
  destruct (alreadyPermuted_ok _ _ (so_perm (as_outer s)) _ K33) as (od & Eod & God); auto.
  { intros i j (_ & _ & H). apply GL' in H. lia. }
  { intros i j m L1 L2 (A1 & A2 & A3) (A4 & A5 & A6). repeat split; auto.
    eapply GC; [| |exact A3|exact A6]; lia. }
  rewrite Eod in EK'. cbn [bind] in EK'. injection EK' as <-.
  (* bounds *)
  assert (BD' : forall i j, D i j -> i < dt /\ j < dt).
  { intros i j H. apply (ib_in _ _ _ _ BD) in H. apply (ib_wf _ _ _ _ BD) in H.
    rewrite (ib_rows _ _ _ _ BD), (ib_cols _ _ _ _ BD) in H. auto. }
  assert (BO' : forall i j, O i j -> i < dO /\ j < dt).
  { intros i j H. apply (ib_in _ _ _ _ BO) in H. apply (ib_wf _ _ _ _ BO) in H.
    rewrite (ib_rows _ _ _ _ BO), (ib_cols _ _ _ _ BO) in H. auto. }
  assert (BS' : forall i j, S' i j -> i < dt /\ j < dt).
  { intros i j H. apply (ib_in _ _ _ _ BS) in H. apply (ib_wf _ _ _ _ BS) in H.
    rewrite (ib_rows _ _ _ _ BS), (ib_cols _ _ _ _ BS) in H. auto. }
  assert (CA : forall i j, permLow (entries (block22 hs)) dt (iota_perm dt) i j <-> charA ds dt R i j).
  { apply permLow_isBlk; auto. intros x y (_ & _ & H). apply RL in H. lia. }
  assert (CB : forall i j, permRect (entries ts) dt dt (iota_perm dt) (iota_perm dt) i j <-> charB s dt i j).
  { intros i j. split.
    - intros (L1 & L2 & H). rewrite !iota_nth in H by auto. apply T4 in H. exact H.
    - intros (L1 & L2 & H). split; auto. split; auto. rewrite !iota_nth by auto. apply T4. auto. }
  assert (CC : forall i j, permRect (entries (block32 hs)) dO dt (iota_perm dO) (iota_perm dt) i j <-> charC ds dt dO R i j)
    by (apply permRect_isBlk; auto).
  assert (LE : forall i j, G i j <-> linkPat s ds dt dl dO R D O i j).
  { intros i j. rewrite GE. apply Fill_ext. intros a b _. apply asm3_ext; try tauto.
    - intros x y. split; intros (L1 & L2 & H); split; auto; split; auto.
      + rewrite iota_nth in H by auto. apply U4 in H. destruct H as (_ & X & H). rewrite iota_nth in H; auto.
        eapply isPerm_lt; eauto.
      + rewrite iota_nth by auto. apply U4. assert (nth x (sl_perm (as_link s)) 0 < dl) by (eapply isPerm_lt; eauto).
        split; auto. split; auto. rewrite iota_nth by auto. auto.
    - intros x y. split; intros (L1 & L2 & H); split; auto; split; auto.
      + rewrite iota_nth in H by auto. apply V4 in H. destruct H as (_ & X & H). rewrite iota_nth in H; auto.
      + rewrite iota_nth by auto. apply V4. assert (nth y (sl_perm (as_link s)) 0 < dl) by (eapply isPerm_lt; eauto).
        split; auto. split; auto. rewrite iota_nth by auto. auto.
    - intros x y. unfold P33. tauto. }
  exists D, S', O, k0. constructor.
  - intros i j H. split; [auto|]. apply (BD' i j H).
  - auto.
  - auto.
  - auto.
  - intros i j H. apply AD, CA; auto.
  - intros i j H. apply BS1, CB; auto.
  - intros i j H. apply CO, CC; auto.
  - intros N t Hk Ht. destruct (TI N t Hk Ht) as (TD & TS & TO). cbv zeta.
    split; [|split]; intros i j H; [apply TD in H|apply TS in H|apply TO in H]; revert H; apply repeated_mono; intros; (apply CA || apply CB || apply CC); auto.
  - intros n g g'.
    destruct g as [i|t i|i|i], g' as [j|u j|j|j]; cbn [storedAt charAt]; cbn; try tauto.
    + apply (gb_in _ _ _ _ _ _ _ Gsd).
    + rewrite (gb_in _ _ _ _ _ _ _ Gsn). tauto.
    + rewrite (gb_in _ _ _ _ _ _ _ Gtd), (gb_in _ _ _ _ _ _ _ Gts). tauto.
    + rewrite (gb_in _ _ _ _ _ _ _ Glp). pose proof (LE (dt + i) j); tauto.
    + rewrite (gb_in _ _ _ _ _ _ _ Gld). pose proof (LE (dt + i) (dt + j)); tauto.
    + apply (gb_in _ _ _ _ _ _ _ Gso).
    + rewrite (gb_in _ _ _ _ _ _ _ Gos). tauto.
    + rewrite (gb_in _ _ _ _ _ _ _ Gln). pose proof (LE (dt + dl + i) (dt + j)); tauto.
    + rewrite (gb_in _ _ _ _ _ _ _ God). pose proof (LE (dt + dl + i) (dt + dl + j)); tauto.
Qed.

(** every declared entry of the one is declared in the other, after the permutations *)
Record patSub (s1 s2 : arrow_sp) ds dt dl dO : Prop := mkPatSub {
  ps_sd : forall i j, permLow (entries (ss_diag (as_start s1))) ds (ss_perm (as_start s1)) i j ->
    permLow (entries (ss_diag (as_start s2))) ds (ss_perm (as_start s2)) i j;
  ps_sn : forall i j, permRect (entries (ss_next (as_start s1))) dt ds (st_perm (as_tri s1)) (ss_perm (as_start s1)) i j ->
    permRect (entries (ss_next (as_start s2))) dt ds (st_perm (as_tri s2)) (ss_perm (as_start s2)) i j;
  ps_so : forall i j, permRect (entries (ss_outer (as_start s1))) dO ds (so_perm (as_outer s1)) (ss_perm (as_start s1)) i j ->
    permRect (entries (ss_outer (as_start s2))) dO ds (so_perm (as_outer s2)) (ss_perm (as_start s2)) i j;
  ps_td : forall i j, permLow (entries (st_diag (as_tri s1))) dt (st_perm (as_tri s1)) i j ->
    permLow (entries (st_diag (as_tri s2))) dt (st_perm (as_tri s2)) i j;
  ps_ts : forall i j, charB s1 dt i j -> charB s2 dt i j;
  ps_lp : forall i j, permRect (entries (sl_prev (as_link s1))) dl dt (sl_perm (as_link s1)) (st_perm (as_tri s1)) i j ->
    permRect (entries (sl_prev (as_link s2))) dl dt (sl_perm (as_link s2)) (st_perm (as_tri s2)) i j;
  ps_ld : forall i j, permLow (entries (sl_diag (as_link s1))) dl (sl_perm (as_link s1)) i j ->
    permLow (entries (sl_diag (as_link s2))) dl (sl_perm (as_link s2)) i j;
  ps_ln : forall i j, permRect (entries (sl_next (as_link s1))) dO dl (so_perm (as_outer s1)) (sl_perm (as_link s1)) i j ->
    permRect (entries (sl_next (as_link s2))) dO dl (so_perm (as_outer s2)) (sl_perm (as_link s2)) i j;
  ps_os : forall i j, permRect (entries (so_subdiag (as_outer s1))) dO dt (so_perm (as_outer s1)) (st_perm (as_tri s1)) i j ->
    permRect (entries (so_subdiag (as_outer s2))) dO dt (so_perm (as_outer s2)) (st_perm (as_tri s2)) i j;
  ps_od : forall i j, permLow (entries (so_diag (as_outer s1))) dO (so_perm (as_outer s1)) i j ->
    permLow (entries (so_diag (as_outer s2))) dO (so_perm (as_outer s2)) i j }.

Theorem arrow_stored_mono s1 s2 ds dt dl dO k1 k2 :
  arrowDims s1 ds dt dl dO -> arrowDims s2 ds dt dl dO -> arrowBlocks s1 = Ok k1 -> arrowBlocks s2 = Ok k2 ->
  patSub s1 s2 ds dt dl dO -> forall n g h, storedAt k1 n g h -> storedAt k2 n g h.
Proof.
  intros HD1 HD2 HK1 HK2 [Ssd Ssn Sso Std Sts Slp Sld Sln Sos Sod].
  destruct (arrow_char s1 ds dt dl dO k1 HD1 HK1) as (D1 & S1 & O1 & q1 & C1).
  destruct (arrow_char s2 ds dt dl dO k2 HD2 HK2) as (D2 & S2 & O2 & q2 & C2).
  assert (SR : forall i j, startPat s1 ds dt dO i j -> startPat s2 ds dt dO i j).
  { intros i j. apply Fill_mono. intros a b _. apply asm3_mono; auto. }
  set (R1 := startPat s1 ds dt dO) in *. set (R2 := startPat s2 ds dt dO) in *.
  assert (Hdec : forall t i t' i', i < dt -> i' < dt -> t * dt + i = t' * dt + i' -> t = t' /\ i = i').
  { intros t i t' i' Hi Hi' E.
    assert (t = t') by (destruct (Nat.lt_trichotomy t t') as [L|[L|L]]; auto; nia).
    subst. split; auto. lia. }
  assert (COV : forall N a b, Fill (repeated N dt (charA ds dt R1) (charB s1 dt) (charC ds dt dO R1)) a b ->
      (exists t i j, t < N /\ a = t * dt + i /\ b = t * dt + j /\ D2 i j) \/
      (exists t i j, S t < N /\ a = S t * dt + i /\ b = t * dt + j /\ S2 i j) \/
      (exists t i j, t < N /\ a = N * dt + i /\ b = t * dt + j /\ O2 i j) \/
      (N * dt <= b /\ N * dt <= a)).
  { intros N a b H. apply (repeated_cover dt (charA ds dt R1) (charB s1 dt) (charC ds dt dO R1)); auto.
    - apply (ac_closed _ _ _ _ _ _ _ _ _ _ C2).
    - intros i j (X1 & X2 & X3). apply (ac_A _ _ _ _ _ _ _ _ _ _ C2). split; auto. split; auto. apply SR; auto.
    - intros i j X. apply (ac_B _ _ _ _ _ _ _ _ _ _ C2). auto.
    - intros i j (X1 & X2 & X3). apply (ac_C _ _ _ _ _ _ _ _ _ _ C2). split; auto. split; auto. apply SR; auto.
    - apply (ac_D _ _ _ _ _ _ _ _ _ _ C2).
    - apply (ac_S _ _ _ _ _ _ _ _ _ _ C2).
    - intros i j X. apply (ac_O _ _ _ _ _ _ _ _ _ _ C2 i j X). }
  destruct (ac_tight _ _ _ _ _ _ _ _ _ _ C1 (q1 + 2) q1 ltac:(lia) ltac:(lia)) as (TD & TS & TO).
  fold R1 in TD, TS, TO.
  assert (SD : forall i j, D1 i j -> D2 i j).
  { intros i j H. pose proof (ac_D _ _ _ _ _ _ _ _ _ _ C1 i j H). apply TD, COV in H.
    destruct H as [(t & x & y & H1 & H2 & H3 & H)|[(t & x & y & H1 & H2 & H3 & H)|[(t & x & y & H1 & H2 & H3 & H)|[H1 H2]]]].
    - pose proof (ac_D _ _ _ _ _ _ _ _ _ _ C2 x y H). apply Hdec in H2; [|lia|lia]. apply Hdec in H3; [|lia|lia].
      destruct H2 as [_ ->], H3 as [_ ->]. auto.
    - pose proof (ac_S _ _ _ _ _ _ _ _ _ _ C2 x y H). apply Hdec in H2; [|lia|lia]. apply Hdec in H3; [|lia|lia]. lia.
    - exfalso. nia.
    - exfalso. nia. }
  assert (SS : forall i j, S1 i j -> S2 i j).
  { intros i j H. pose proof (ac_S _ _ _ _ _ _ _ _ _ _ C1 i j H). apply TS, COV in H.
    destruct H as [(t & x & y & H1 & H2 & H3 & H)|[(t & x & y & H1 & H2 & H3 & H)|[(t & x & y & H1 & H2 & H3 & H)|[H1 H2]]]].
    - pose proof (ac_D _ _ _ _ _ _ _ _ _ _ C2 x y H). apply Hdec in H2; [|lia|lia]. apply Hdec in H3; [|lia|lia]. lia.
    - pose proof (ac_S _ _ _ _ _ _ _ _ _ _ C2 x y H). apply Hdec in H2; [|lia|lia]. apply Hdec in H3; [|lia|lia].
      destruct H2 as [_ ->], H3 as [_ ->]. auto.
    - exfalso. nia.
    - exfalso. nia. }
  assert (SO : forall i j, O1 i j -> O2 i j).
  { intros i j H. pose proof (ac_O _ _ _ _ _ _ _ _ _ _ C1 i j H). apply TO, COV in H.
    destruct H as [(t & x & y & H1 & H2 & H3 & H)|[(t & x & y & H1 & H2 & H3 & H)|[(t & x & y & H1 & H2 & H3 & H)|[H1 H2]]]].
    - pose proof (ac_D _ _ _ _ _ _ _ _ _ _ C2 x y H). exfalso. nia.
    - pose proof (ac_S _ _ _ _ _ _ _ _ _ _ C2 x y H). exfalso. nia.
    - pose proof (ac_O _ _ _ _ _ _ _ _ _ _ C2 x y H). apply Hdec in H3; [|lia|lia].
      destruct H3 as [_ ->]. replace i with x by lia. auto.
    - exfalso. nia. }
  assert (SG : forall i j, linkPat s1 ds dt dl dO R1 D1 O1 i j -> linkPat s2 ds dt dl dO R2 D2 O2 i j).
  { intros i j. apply Fill_mono. intros a b _. apply asm3_mono; auto.
    intros x y (X1 & X2 & X3). split; auto. }
  intros n g h. rewrite (ac_stored _ _ _ _ _ _ _ _ _ _ C1), (ac_stored _ _ _ _ _ _ _ _ _ _ C2).
  fold R1 R2.
  destruct g as [i|t i|i|i], h as [j|u j|j|j]; cbn [charAt]; intuition auto.
Qed.
