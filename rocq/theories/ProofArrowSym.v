(** Factor patterns of single matrices and of the arrowhead factorization. *)
From Coq Require Import List Arith Lia Bool Permutation.
From Verif Require Import Base ModelPerm ModelSparsity ModelSymbolic ModelNumeric ModelArrow.
From Verif Require Import SpecSymbolic SpecArrow.
From Verif Require Import ProofBase ProofPerm ProofCsr ProofSparsity ProofEtree ProofFill.
From Verif Require Import ProofFill3 ProofRep ProofRepeating.
Import ListNotations.

Lemma validPerm_isPerm n p : validPerm n p -> isPerm n p.
Proof. intros (H1 & H2 & H3). apply isPerm_intro; auto. Qed.

Lemma isPerm_validPerm n p : isPerm n p -> validPerm n p.
Proof.
  intros H. split; [|split].
  - apply isPerm_length; auto.
  - eapply isPerm_NoDup; eauto.
  - intros x Hx. eapply isPerm_In; eauto.
Qed.

Lemma spOf_wf s nr nc : spOf s nr nc -> wf_sp s.
Proof. intros [H1 H2 H3] i j H. rewrite H1, H2. auto. Qed.

Lemma spOf_dims s nr nc : spOf s nr nc -> nrows s = nr /\ ncols s = nc.
Proof. intros [H1 H2 H3]. auto. Qed.

(** factor block with pattern [R] *)
Record goodBlk (b : blk) (nr nc : nat) (R : pattern) (prow pcol : perm) (sym : bool)
    : Prop := mkGoodBlk {
  gb_wf : wf_csr (b_sp b);
  gb_sorted : csr_sorted (b_sp b);
  gb_rows : c_rows (b_sp b) = nr;
  gb_cols : c_cols (b_sp b) = nc;
  gb_in : forall i j, In (i, j) (c_entries (b_sp b)) <-> R i j;
  gb_prow : b_prow b = prow;
  gb_pcol : b_pcol b = pcol;
  gb_sym : b_sym b = sym;
  gb_p1 : isPerm nr prow;
  gb_p2 : isPerm nc pcol }.

Lemma gb_bound b nr nc R prow pcol sym :
  goodBlk b nr nc R prow pcol sym -> forall i j, R i j -> i < nr /\ j < nc.
Proof.
  intros G i j H. apply (gb_in _ _ _ _ _ _ _ G) in H.
  apply (wfc_bounds _ (gb_wf _ _ _ _ _ _ _ G)) in H.
  rewrite (gb_rows _ _ _ _ _ _ _ G), (gb_cols _ _ _ _ _ _ _ G) in H. auto.
Qed.

Lemma factorizationBlk_ok s n p :
  spOf s n n -> isPerm n p ->
  exists b, factorizationBlk s p = Ok b /\
    goodBlk b n n (Fill (permLow (entries s) n p)) p p true.
Proof.
  intros HS Hp. pose proof HS as [H1 H2 H3]. unfold factorizationBlk.
  replace (isSquare s) with true by (symmetry; apply Nat.eqb_eq; lia).
  cbn [static_assert bind].
  destruct (getFilledInSparsity_blk s p) as (f & E & HB); try lia.
  { eapply spOf_wf; eauto. }
  { rewrite H1. auto. }
  rewrite E. cbn [bind]. rewrite H1 in HB.
  destruct (toCSR_ok f (ib_wf _ _ _ _ HB)) as (c & Ec & _).
  rewrite Ec. cbn [bind]. eexists. split; [reflexivity|].
  destruct (isBlk_csr _ _ _ _ _ HB Ec) as (W & So & Hr & Hc & Hin).
  constructor; cbn [b_sp b_prow b_pcol b_sym]; auto.
Qed.

Lemma alreadyPermuted_ok s n p R :
  isBlk s n n R -> (forall i j, R i j -> j < i) -> closedPattern R -> isPerm n p ->
  exists b, factorizationAlreadyPermutedBlk s p = Ok b /\ goodBlk b n n R p p true.
Proof.
  intros HB Hlow HC Hp. pose proof HB as [H1 H2 H3 H4 H5 H6 H7].
  unfold factorizationAlreadyPermutedBlk.
  destruct (invert_ok n p Hp) as (q & Eq & Hq & Q1 & Q2). rewrite Eq. cbn [bind].
  destruct (lowerTriangle_ok s q H3) as (l & El & L1 & L2 & L3 & L4 & _); try lia.
  { rewrite H1. auto. }
  rewrite El. cbn [bind]. rewrite H1 in *.
  destruct (factorizationBlk_ok l n p) as (b & Eb & GB); auto.
  { constructor; try lia. intros i j Hin. apply L3 in Hin. lia. }
  exists b. split; auto. destruct GB as [G1 G2 G3 G4 G5 G6 G7 G8 G9 G10].
  constructor; auto. intros i j. rewrite G5.
  assert (HE : forall a c, permLow (entries l) n p a c <-> R a c).
  { intros a c. unfold permLow. split.
    - intros (Hca & Ha & Hin). apply L4 in Hin. destruct Hin as (_ & _ & Hin).
      assert (Hx : forall u v, u < n -> v < n ->
        Nat.max (nth (Nat.max (nth u p 0) (nth v p 0)) q 0)
                (nth (Nat.min (nth u p 0) (nth v p 0)) q 0) = Nat.max u v /\
        Nat.min (nth (Nat.max (nth u p 0) (nth v p 0)) q 0)
                (nth (Nat.min (nth u p 0) (nth v p 0)) q 0) = Nat.min u v).
      { intros u v Hu Hv. destruct (Nat.le_ge_cases (nth u p 0) (nth v p 0)).
        - rewrite (Nat.max_r (nth u p 0)), (Nat.min_l (nth u p 0)) by auto.
          rewrite !Q1 by auto. lia.
        - rewrite (Nat.max_l (nth u p 0)), (Nat.min_r (nth u p 0)) by auto.
          rewrite !Q1 by auto. lia. }
      destruct (Hx a c) as [X1 X2]; try lia. rewrite X1, X2 in Hin.
      rewrite Nat.max_l, Nat.min_r in Hin by lia. apply H6; auto.
    - intros HR. pose proof (Hlow _ _ HR) as Hca. apply H6 in HR as Hin.
      pose proof (H3 _ _ Hin) as Hb. split; auto. split; [lia|].
      pose proof (isPerm_lt n p a Hp ltac:(lia)) as B1.
      pose proof (isPerm_lt n p c Hp ltac:(lia)) as B2.
      assert (Hne : nth a p 0 <> nth c p 0).
      { intros E. apply (isPerm_inj n p) in E; auto; lia. }
      apply L4. split; [lia|]. split; [lia|].
      destruct (Nat.le_ge_cases (nth a p 0) (nth c p 0)).
      + rewrite (Nat.max_r (nth a p 0)), (Nat.min_l (nth a p 0)) by auto.
        rewrite !Q1 by lia. rewrite Nat.max_r, Nat.min_l by lia. auto.
      + rewrite (Nat.max_l (nth a p 0)), (Nat.min_r (nth a p 0)) by auto.
        rewrite !Q1 by lia. rewrite Nat.max_l, Nat.min_r by lia. auto. }
  rewrite (Fill_ext _ R) by (intros; apply HE).
  rewrite Fill_of_closed by auto. split; [tauto|]. auto.
Qed.

Lemma subdiagonal_ok s nr nc prow pcol R :
  isBlk s nr nc R -> isPerm nr prow -> isPerm nc pcol ->
  exists b, factorizationSubdiagonalBlk s prow pcol = Ok b /\
    goodBlk b nr nc R prow pcol false.
Proof.
  intros HB Hp Hq. unfold factorizationSubdiagonalBlk.
  destruct (toCSR_ok s (ib_wf _ _ _ _ HB)) as (c & Ec & _).
  rewrite Ec. cbn [bind]. eexists. split; [reflexivity|].
  destruct (isBlk_csr _ _ _ _ _ HB Ec) as (W & So & Hr & Hc & Hin).
  constructor; cbn [b_sp b_prow b_pcol b_sym]; auto.
Qed.

(** closure properties that the numeric kernels rely on *)
Record chord2 (P11 P21 P22 : pattern) : Prop := mkChord2 {
  c2_21 : forall i j k, k < j -> P21 i k -> P11 j k -> P21 i j;
  c2_22 : forall i j k, j < i -> P21 i k -> P21 j k -> P22 i j;
  c2_low : forall i j, P22 i j -> j < i;
  c2_self : closedPattern P22 }.

Record chord3 (P11 P21 P31 P32 P33 : pattern) : Prop := mkChord3 {
  c3_31 : forall i j k, k < j -> P31 i k -> P11 j k -> P31 i j;
  c3_32 : forall i j k, P31 i k -> P21 j k -> P32 i j;
  c3_33 : forall i j k, j < i -> P31 i k -> P31 j k -> P33 i j }.

(** the ten patterns *)
Record arrow_pats := mkAP {
  p_sd : pattern; p_sn : pattern; p_so : pattern; p_td : pattern; p_ts : pattern;
  p_lp : pattern; p_ld : pattern; p_ln : pattern; p_os : pattern; p_od : pattern }.

Record arrowChordal (P : arrow_pats) : Prop := mkArrowChordal {
  ac_sd_low : forall i j, p_sd P i j -> j < i;
  ac_sd : closedPattern (p_sd P);
  ac_start : chord2 (p_sd P) (p_sn P) (p_td P);
  ac_tri : chord2 (p_td P) (p_ts P) (p_td P);
  ac_link : chord2 (p_td P) (p_lp P) (p_ld P);
  ac_outer : chord2 (p_ld P) (p_ln P) (p_od P);
  ac_ostart : chord3 (p_sd P) (p_sn P) (p_so P) (p_os P) (p_od P);
  ac_otri : chord3 (p_td P) (p_ts P) (p_os P) (p_os P) (p_od P);
  ac_olink : chord3 (p_td P) (p_lp P) (p_os P) (p_ln P) (p_od P) }.

(** the permuted input patterns are contained *)
Record arrowCovers (s : arrow_sp) (ds dt dl dO : nat) (P : arrow_pats) : Prop := mkArrowCovers {
  av_sd : forall i j, permLow (entries (ss_diag (as_start s))) ds (ss_perm (as_start s)) i j
            -> p_sd P i j;
  av_sn : forall i j, permRect (entries (ss_next (as_start s))) dt ds
            (st_perm (as_tri s)) (ss_perm (as_start s)) i j -> p_sn P i j;
  av_so : forall i j, permRect (entries (ss_outer (as_start s))) dO ds
            (so_perm (as_outer s)) (ss_perm (as_start s)) i j -> p_so P i j;
  av_td : forall i j, permLow (entries (st_diag (as_tri s))) dt (st_perm (as_tri s)) i j
            -> p_td P i j;
  av_ts : forall i j, permRect (entries (st_subdiag (as_tri s))) dt dt
            (st_perm (as_tri s)) (st_perm (as_tri s)) i j -> p_ts P i j;
  av_lp : forall i j, permRect (entries (sl_prev (as_link s))) dl dt
            (sl_perm (as_link s)) (st_perm (as_tri s)) i j -> p_lp P i j;
  av_ld : forall i j, permLow (entries (sl_diag (as_link s))) dl (sl_perm (as_link s)) i j
            -> p_ld P i j;
  av_ln : forall i j, permRect (entries (sl_next (as_link s))) dO dl
            (so_perm (as_outer s)) (sl_perm (as_link s)) i j -> p_ln P i j;
  av_os : forall i j, permRect (entries (so_subdiag (as_outer s))) dO dt
            (so_perm (as_outer s)) (st_perm (as_tri s)) i j -> p_os P i j;
  av_od : forall i j, permLow (entries (so_diag (as_outer s))) dO (so_perm (as_outer s)) i j
            -> p_od P i j }.

Record arrowGood (s : arrow_sp) (ds dt dl dO : nat) (k : arrow_blks) (P : arrow_pats)
    : Prop := mkArrowGood {
  ag_sd : goodBlk (k_sd k) ds ds (p_sd P) (ss_perm (as_start s)) (ss_perm (as_start s)) true;
  ag_sn : goodBlk (k_sn k) dt ds (p_sn P) (st_perm (as_tri s)) (ss_perm (as_start s)) false;
  ag_so : goodBlk (k_so k) dO ds (p_so P) (so_perm (as_outer s)) (ss_perm (as_start s)) false;
  ag_td : goodBlk (k_td k) dt dt (p_td P) (st_perm (as_tri s)) (st_perm (as_tri s)) true;
  ag_ts : goodBlk (k_ts k) dt dt (p_ts P) (st_perm (as_tri s)) (st_perm (as_tri s)) false;
  ag_lp : goodBlk (k_lp k) dl dt (p_lp P) (sl_perm (as_link s)) (st_perm (as_tri s)) false;
  ag_ld : goodBlk (k_ld k) dl dl (p_ld P) (sl_perm (as_link s)) (sl_perm (as_link s)) true;
  ag_ln : goodBlk (k_ln k) dO dl (p_ln P) (so_perm (as_outer s)) (sl_perm (as_link s)) false;
  ag_os : goodBlk (k_os k) dO dt (p_os P) (so_perm (as_outer s)) (st_perm (as_tri s)) false;
  ag_od : goodBlk (k_od k) dO dO (p_od P) (so_perm (as_outer s)) (so_perm (as_outer s)) true }.

Lemma all_equal_spec l n : (forall x, In x l -> x = n) -> all_equal l = true.
Proof.
  destruct l as [|a l]; cbn [all_equal]; auto. intros H. apply forallb_forall.
  intros x Hx. apply Nat.eqb_eq. rewrite (H a), (H x); auto; [right|left]; auto.
Qed.

Lemma arrowDims_ok s ds dt dl dO : arrowDims s ds dt dl dO ->
  as_dim_start s = Ok ds /\ as_dim_tri s = Ok dt /\ as_dim_link s = Ok dl /\
  as_dim_outer s = Ok dO.
Proof.
  intros [[A1 A2 _] [B1 B2 _] [C1 C2 _] [D1 D2 _] [E1 E2 _] [F1 F2 _] [G1 G2 _]
          [H1 H2 _] [I1 I2 _] [J1 J2 _] [P1 _] [P2 _] [P3 _] [P4 _]].
  assert (Hs : ss_consistent (as_start s) = true).
  { apply (all_equal_spec _ ds). cbn. intros x [<-|[<-|[<-|[<-|[<-|[]]]]]]; auto. }
  assert (Ht : st_consistent (as_tri s) = true).
  { apply (all_equal_spec _ dt). cbn. intros x [<-|[<-|[<-|[<-|[<-|[]]]]]]; auto. }
  assert (Hl : sl_consistent (as_link s) = true).
  { apply (all_equal_spec _ dl). cbn. intros x [<-|[<-|[<-|[<-|[<-|[]]]]]]; auto. }
  assert (Ho : so_consistent (as_outer s) = true).
  { apply (all_equal_spec _ dO). cbn. intros x [<-|[<-|[<-|[<-|[]]]]]; auto. }
  unfold as_dim_start, ss_dim, as_dim_tri, as_consistent_tri, as_dim_link, sl_dim,
    as_dim_outer, as_consistent_outer.
  rewrite Hs, Ht, Hl, Ho. unfold st_dim, so_dim. rewrite Ht, Ho. cbn [pre bind].
  rewrite (all_equal_spec [nrows (ss_next (as_start s)); _; _; _] dt).
  2:{ cbn. intros x [<-|[<-|[<-|[<-|[]]]]]; auto. }
  rewrite (all_equal_spec [nrows (ss_outer (as_start s)); _; _] dO).
  2:{ cbn. intros x [<-|[<-|[<-|[]]]]; auto. }
  cbn [pre bind]. rewrite A2, D1, G1, J1. auto.
Qed.

Lemma filled3_closed n1 n2 n3 e11 e21 e22 e31 e32 e33 p1 p2 p3 :
  closedPattern (filled3 n1 n2 n3 e11 e21 e22 e31 e32 e33 p1 p2 p3).
Proof. apply Fill_closed. Qed.

(** columns of a closed leading block are not changed *)
Lemma Fill_lead n1 n2 (P11 P21 P22 P31 P32 P33 : pattern) :
  (forall i j, P11 i j -> j < i /\ i < n1) -> closedPattern P11 ->
  (forall i j, P21 i j -> i < n2) ->
  (forall i j, P22 i j -> i < n2) ->
  (forall i j, P31 i j -> j < n1) ->
  (forall i j k, k < j -> P31 i k -> P11 j k -> P31 i j) ->
  forall i j, Fill (asm3 n1 n2 P11 P21 P22 P31 P32 P33) i j -> j < n1 ->
    (i < n1 -> P11 i j) /\ (n1 + n2 <= i -> P31 (i - (n1 + n2)) j).
Proof.
  intros B11 C11 B21 B22 B31 C31 i j HF.
  induction HF as [i j Hb Hl|i j k H1 IH1 H2 IH2 Hk Hj]; intros Hj1.
  - destruct Hb as [H|[(i' & -> & H)|[(i' & j' & -> & -> & H)|[(i' & -> & H)|
          [(i' & j' & -> & -> & H)|(i' & j' & -> & -> & H)]]]]].
    + split; auto. apply B11 in H. lia.
    + split; [lia|]. apply B21 in H. lia.
    + split; lia.
    + split; [lia|]. intros _. replace (n1 + n2 + i' - (n1 + n2)) with i' by lia. auto.
    + lia.
    + lia.
  - destruct (IH1 ltac:(lia)) as [A1 A2]. destruct (IH2 ltac:(lia)) as [A3 _]. split.
    + intros Hi. eapply C11; eauto.
    + intros Hi. eapply C31; eauto.
Qed.

Lemma permLow_isBlk s n R : isBlk s n n R -> (forall i j, R i j -> j < i) ->
  forall i j, permLow (entries s) n (iota_perm n) i j <-> R i j.
Proof.
  intros HB Hlow i j. pose proof HB as [H1 H2 H3 H4 H5 H6 H7].
  unfold wf_sp in H3. rewrite H1, H2 in H3.
  rewrite permLow_iota by auto. rewrite H6. split; [tauto|]. auto.
Qed.

Lemma permRect_isBlk s n m R : isBlk s n m R ->
  forall i j, permRect (entries s) n m (iota_perm n) (iota_perm m) i j <-> R i j.
Proof.
  intros HB i j. pose proof HB as [H1 H2 H3 H4 H5 H6 H7].
  unfold wf_sp in H3. rewrite H1, H2 in H3.
  rewrite permRect_iota by auto. apply H6.
Qed.

Theorem arrowBlocks_ok s ds dt dl dO : arrowDims s ds dt dl dO ->
  exists k P, arrowBlocks s = Ok k /\ arrowGood s ds dt dl dO k P /\ arrowChordal P /\
    arrowCovers s ds dt dl dO P.
Proof.
  intros HD. pose proof HD as [Asd Asn Aso Atd Ats Alp Ald Aln Aos Aod Ps Pt Pl Po].
  apply validPerm_isPerm in Ps, Pt, Pl, Po.
  destruct (arrowDims_ok _ _ _ _ _ HD) as (E1 & E2 & E3 & E4).
  unfold arrowBlocks. rewrite E1, E2, E3, E4. cbn [bind].
  (* start *)
  destruct (getFilled3_ok (ss_diag (as_start s)) (ss_next (as_start s)) (st_diag (as_tri s))
     (ss_outer (as_start s)) (so_subdiag (as_outer s)) (so_diag (as_outer s))
     (ss_perm (as_start s)) (st_perm (as_tri s)) (so_perm (as_outer s)) ds dt dO)
    as (hs & Ehs & H11 & H21 & H22 & H31 & H32 & H33);
    eauto using spOf_dims, spOf_wf.
  rewrite Ehs. cbn [bind]. set (R := filled3 _ _ _ _ _ _ _ _ _ _ _ _) in *.
  assert (RC : closedPattern R) by apply filled3_closed.
  assert (RL : forall i j, R i j -> j < i) by (intros i j; apply Fill_lt).
  assert (RB : forall i j, asm3 ds dt
     (permLow (entries (ss_diag (as_start s))) ds (ss_perm (as_start s)))
     (permRect (entries (ss_next (as_start s))) dt ds (st_perm (as_tri s)) (ss_perm (as_start s)))
     (permLow (entries (st_diag (as_tri s))) dt (st_perm (as_tri s)))
     (permRect (entries (ss_outer (as_start s))) dO ds (so_perm (as_outer s)) (ss_perm (as_start s)))
     (permRect (entries (so_subdiag (as_outer s))) dO dt (so_perm (as_outer s)) (st_perm (as_tri s)))
     (permLow (entries (so_diag (as_outer s))) dO (so_perm (as_outer s))) i j -> R i j).
  { intros i j H. apply Fill_base; auto. unfold asm3, permLow, permRect in H.
    destruct H as [Hq|[(i' & -> & Hq)|[(i' & j' & -> & -> & Hq)|[(i' & -> & Hq)|
          [(i' & j' & -> & -> & Hq)|(i' & j' & -> & -> & Hq)]]]]]; lia. }
  (* repeating *)
  destruct (permuted_ok (st_subdiag (as_tri s)) (st_perm (as_tri s)) (st_perm (as_tri s)))
    as (ts & Ets & T1 & T2 & T3 & T4 & _).
  { eapply spOf_wf; eauto. }
  { rewrite (sp_rows _ _ _ Ats). auto. }
  { rewrite (sp_cols _ _ _ Ats). auto. }
  rewrite Ets. cbn [bind].
  rewrite (sp_rows _ _ _ Ats), (sp_cols _ _ _ Ats) in T4.
  rewrite (sp_rows _ _ _ Ats) in T1. rewrite (sp_cols _ _ _ Ats) in T2.
  assert (D22 : nrows (block22 hs) = dt /\ ncols (block22 hs) = dt).
  { split; [eapply ib_rows|eapply ib_cols]; eauto. }
  assert (D32 : nrows (block32 hs) = dO /\ ncols (block32 hs) = dt).
  { split; [eapply ib_rows|eapply ib_cols]; eauto. }
  destruct (getFilledRep_ok (block22 hs) ts (block32 hs) (iota_perm dt) (iota_perm dO) dt dO
      D22 (conj T1 T2) D32 (ib_wf _ _ _ _ H22) T3 (ib_wf _ _ _ _ H32)
      (isPerm_iota dt) (isPerm_iota dO))
    as (sf & D & S' & O & Esf & BD & BS & BO & DL & HA & HB & HC & CR & _).
  rewrite Esf. cbn [bind].
  (* link *)
  destruct (permuted_ok (sl_prev (as_link s)) (iota_perm dl) (st_perm (as_tri s)))
    as (lp & Elp & U1 & U2 & U3 & U4 & _).
  { eapply spOf_wf; eauto. }
  { rewrite (sp_rows _ _ _ Alp). apply isPerm_iota. }
  { rewrite (sp_cols _ _ _ Alp). auto. }
  rewrite Elp. cbn [bind]. rewrite (sp_rows _ _ _ Alp), (sp_cols _ _ _ Alp) in U4.
  rewrite (sp_rows _ _ _ Alp) in U1. rewrite (sp_cols _ _ _ Alp) in U2.
  destruct (permuted_ok (sl_next (as_link s)) (so_perm (as_outer s)) (iota_perm dl))
    as (ln & Eln & V1 & V2 & V3 & V4 & _).
  { eapply spOf_wf; eauto. }
  { rewrite (sp_rows _ _ _ Aln). auto. }
  { rewrite (sp_cols _ _ _ Aln). apply isPerm_iota. }
  rewrite Eln. cbn [bind]. rewrite (sp_rows _ _ _ Aln), (sp_cols _ _ _ Aln) in V4.
  rewrite (sp_rows _ _ _ Aln) in V1. rewrite (sp_cols _ _ _ Aln) in V2.
  destruct (getFilled3_ok (ra_diag sf) lp (sl_diag (as_link s)) (ra_outer sf) ln
     (block33 hs) (iota_perm dt) (sl_perm (as_link s)) (iota_perm dO) dt dl dO)
    as (h & Eh & K11 & K21 & K22 & K31 & K32 & K33);
    eauto using spOf_dims, spOf_wf, isPerm_iota, ib_wf.
  { split; [eapply ib_rows|eapply ib_cols]; eauto. }
  { split; [eapply ib_rows|eapply ib_cols]; eauto. }
  { split; [eapply ib_rows|eapply ib_cols]; eauto. }
  rewrite Eh. cbn [bind]. set (G := filled3 dt dl dO _ _ _ _ _ _ _ _ _) in K11, K21, K22, K31, K32, K33.
  assert (GC : closedPattern G) by apply filled3_closed.
  assert (GL : forall i j, G i j -> j < i) by (intros i j; apply Fill_lt).
  set (P33 := fun i j => i < dO /\ j < dO /\ R (ds + dt + i) (ds + dt + j)) in *.
  assert (GE : forall i j, G i j <-> Fill (asm3 dt dl D
      (permRect (entries lp) dl dt (sl_perm (as_link s)) (iota_perm dt))
      (permLow (entries (sl_diag (as_link s))) dl (sl_perm (as_link s))) O
      (permRect (entries ln) dO dl (iota_perm dO) (sl_perm (as_link s))) P33) i j).
  { intros i j. apply Fill_ext. intros a b _. apply asm3_ext.
    - apply permLow_isBlk; auto.
    - tauto.
    - tauto.
    - apply permRect_isBlk; auto.
    - tauto.
    - apply permLow_isBlk; auto. unfold P33. intros x y (_ & _ & H). apply RL in H. lia. }
  assert (GB : forall i j, asm3 dt dl D
      (permRect (entries lp) dl dt (sl_perm (as_link s)) (iota_perm dt))
      (permLow (entries (sl_diag (as_link s))) dl (sl_perm (as_link s))) O
      (permRect (entries ln) dO dl (iota_perm dO) (sl_perm (as_link s))) P33 i j ->
      j < i -> G i j).
  { intros i j H L. apply GE. apply Fill_base; auto. }
  assert (BD' : forall i j, D i j -> j < i /\ i < dt).
  { intros i j H. split; auto. apply (ib_in _ _ _ _ BD) in H.
    apply (ib_wf _ _ _ _ BD) in H. rewrite (ib_rows _ _ _ _ BD) in H. lia. }
  assert (BO' : forall i j, O i j -> i < dO /\ j < dt).
  { intros i j H. apply (ib_in _ _ _ _ BO) in H. apply (ib_wf _ _ _ _ BO) in H.
    rewrite (ib_rows _ _ _ _ BO), (ib_cols _ _ _ _ BO) in H. auto. }
  assert (BS' : forall i j, S' i j -> i < dt /\ j < dt).
  { intros i j H. apply (ib_in _ _ _ _ BS) in H. apply (ib_wf _ _ _ _ BS) in H.
    rewrite (ib_rows _ _ _ _ BS), (ib_cols _ _ _ _ BS) in H. auto. }
  pose proof CR as [CDD CSD CSS COD COS].
  (* G restricted to the leading columns *)
  assert (GO : forall i j, G (dt + dl + i) j -> j < dt -> O i j).
  { intros i j H L. apply GE in H.
    apply (Fill_lead dt dl D _ _ O _ _) in H; auto.
    - destruct H as [_ H]. specialize (H ltac:(lia)).
      replace (dt + dl + i - (dt + dl)) with i in H by lia. auto.
    - intros a b Hab. unfold permRect in Hab. lia.
    - intros a b Hab. unfold permLow in Hab. lia.
    - intros a b Hab. apply BO' in Hab. lia. }
  (* the ten blocks *)
  destruct (alreadyPermuted_ok _ _ (ss_perm (as_start s)) _ H11) as (sd & Esd & Gsd); auto.
  { intros i j (_ & _ & H). auto. }
  { intros i j m L1 L2 (A1 & A2 & A3) (A4 & A5 & A6). repeat split; auto. eapply RC; eauto. }
  rewrite Esd. cbn [bind].
  destruct (subdiagonal_ok _ _ _ (st_perm (as_tri s)) (ss_perm (as_start s)) _ H21)
    as (sn & Esn & Gsn); auto.
  rewrite Esn. cbn [bind].
  destruct (subdiagonal_ok _ _ _ (so_perm (as_outer s)) (ss_perm (as_start s)) _ H31)
    as (so & Eso & Gso); auto.
  rewrite Eso. cbn [bind].
  destruct (alreadyPermuted_ok _ _ (st_perm (as_tri s)) _ BD) as (td & Etd & Gtd); auto.
  rewrite Etd. cbn [bind].
  destruct (subdiagonal_ok _ _ _ (st_perm (as_tri s)) (st_perm (as_tri s)) _ BS)
    as (ts' & Ets' & Gts); auto.
  rewrite Ets'. cbn [bind].
  destruct (subdiagonal_ok _ _ _ (sl_perm (as_link s)) (st_perm (as_tri s)) _ K21)
    as (lp' & Elp' & Glp); auto.
  rewrite Elp'. cbn [bind].
  destruct (alreadyPermuted_ok _ _ (sl_perm (as_link s)) _ K22) as (ld & Eld & Gld); auto.
  { intros i j (_ & _ & H). apply GL in H. lia. }
  { intros i j m L1 L2 (A1 & A2 & A3) (A4 & A5 & A6). repeat split; auto.
    eapply GC; [| |exact A3|exact A6]; lia. }
  rewrite Eld. cbn [bind].
  destruct (subdiagonal_ok _ _ _ (so_perm (as_outer s)) (sl_perm (as_link s)) _ K32)
    as (ln' & Eln' & Gln); auto.
  rewrite Eln'. cbn [bind].
  destruct (subdiagonal_ok _ _ _ (so_perm (as_outer s)) (st_perm (as_tri s)) _ BO)
    as (os & Eos & Gos); auto.
  rewrite Eos. cbn [bind].
  destruct (alreadyPermuted_ok _ _ (so_perm (as_outer s)) _ K33) as (od & Eod & God); auto.
  { intros i j (_ & _ & H). apply GL in H. lia. }
  { intros i j m L1 L2 (A1 & A2 & A3) (A4 & A5 & A6). repeat split; auto.
    eapply GC; [| |exact A3|exact A6]; lia. }
  rewrite Eod. cbn [bind].
  exists (mkAB sd sn so td ts' lp' ld ln' os od).
  exists (mkAP (fun i j => i < ds /\ j < ds /\ R i j)
     (fun i j => i < dt /\ j < ds /\ R (ds + i) j)
     (fun i j => i < dO /\ j < ds /\ R (ds + dt + i) j) D S'
     (fun i j => i < dl /\ j < dt /\ G (dt + i) j)
     (fun i j => i < dl /\ j < dl /\ G (dt + i) (dt + j))
     (fun i j => i < dO /\ j < dl /\ G (dt + dl + i) (dt + j)) O
     (fun i j => i < dO /\ j < dO /\ G (dt + dl + i) (dt + dl + j))).
  split; [reflexivity|].
  (* inclusions *)
  assert (I22 : forall i j, i < dt -> j < dt -> R (ds + i) (ds + j) -> D i j).
  { intros i j Hi Hj H. apply HA. apply permLow_isBlk with (R := fun i j => i < dt /\ j < dt /\
      R (ds + i) (ds + j)); auto. intros a b (_ & _ & Hab). apply RL in Hab. lia. }
  assert (I32 : forall i j, i < dO -> j < dt -> R (ds + dt + i) (ds + j) -> O i j).
  { intros i j Hi Hj H. apply HC. apply permRect_isBlk with (R := fun i j => i < dO /\ j < dt /\
      R (ds + dt + i) (ds + j)); auto. }
  assert (I33 : forall i j, i < dO -> j < dO -> R (ds + dt + i) (ds + dt + j) ->
                  G (dt + dl + i) (dt + dl + j)).
  { intros i j Hi Hj H. pose proof (RL _ _ H). apply GB; [|lia].
    do 5 right. exists i, j. split; auto. split; auto. unfold P33. auto. }
  assert (ID : forall i j, D i j -> G i j).
  { intros i j H. apply GB; [left; auto|]. apply DL in H. lia. }
  assert (IO : forall i j, O i j -> G (dt + dl + i) j).
  { intros i j H. apply GB; [do 3 right; left; eauto|]. apply BO' in H. lia. }
  split; [|split].
  - constructor; cbn; auto.
  - constructor; cbn [p_sd p_sn p_so p_td p_ts p_lp p_ld p_ln p_os p_od].
    + intros i j (_ & _ & H). auto.
    + intros i j m L1 L2 (A1 & A2 & A3) (A4 & A5 & A6). repeat split; auto. eapply RC; eauto.
    + constructor; auto.
      * intros i j m L (A1 & A2 & A3) (A4 & A5 & A6). repeat split; auto.
        eapply RC; [| |exact A3|exact A6]; lia.
      * intros i j m L (A1 & A2 & A3) (A4 & A5 & A6). apply I22; auto.
        eapply RC; [| |exact A3|exact A6]; lia.
    + constructor; auto.
    + constructor.
      * intros i j m L (A1 & A2 & A3) HDj. pose proof (BD' _ _ HDj). repeat split; auto; [lia|].
        apply ID in HDj. eapply GC; [| |exact A3|exact HDj]; lia.
      * intros i j m L (A1 & A2 & A3) (A4 & A5 & A6). repeat split; auto.
        eapply GC; [| |exact A3|exact A6]; lia.
      * intros i j (_ & _ & H). apply GL in H. lia.
      * intros i j m L1 L2 (A1 & A2 & A3) (A4 & A5 & A6). repeat split; auto.
        eapply GC; [| |exact A3|exact A6]; lia.
    + constructor.
      * intros i j m L (A1 & A2 & A3) (A4 & A5 & A6). repeat split; auto.
        eapply GC; [| |exact A3|exact A6]; lia.
      * intros i j m L (A1 & A2 & A3) (A4 & A5 & A6). repeat split; auto.
        eapply GC; [| |exact A3|exact A6]; lia.
      * intros i j (_ & _ & H). apply GL in H. lia.
      * intros i j m L1 L2 (A1 & A2 & A3) (A4 & A5 & A6). repeat split; auto.
        eapply GC; [| |exact A3|exact A6]; lia.
    + constructor.
      * intros i j m L (A1 & A2 & A3) (A4 & A5 & A6). repeat split; auto.
        eapply RC; [| |exact A3|exact A6]; lia.
      * intros i j m (A1 & A2 & A3) (A4 & A5 & A6). apply I32; auto.
        eapply RC; [| |exact A3|exact A6]; lia.
      * intros i j m L (A1 & A2 & A3) (A4 & A5 & A6). repeat split; auto.
        apply I33; auto. eapply RC; [| |exact A3|exact A6]; lia.
    + constructor; auto.
      intros i j m L O1 O2. pose proof (BO' _ _ O1). pose proof (BO' _ _ O2).
      apply IO in O1, O2. repeat split; auto; try lia.
      eapply GC; [| |exact O1|exact O2]; lia.
    + constructor; auto.
      * intros i j m O1 (A4 & A5 & A6). pose proof (BO' _ _ O1). apply IO in O1.
        repeat split; auto; [lia|]. eapply GC; [| |exact O1|exact A6]; lia.
      * intros i j m L O1 O2. pose proof (BO' _ _ O1). pose proof (BO' _ _ O2).
        apply IO in O1, O2. repeat split; auto; try lia.
        eapply GC; [| |exact O1|exact O2]; lia.
  - constructor; cbn [p_sd p_sn p_so p_td p_ts p_lp p_ld p_ln p_os p_od].
    + intros i j H. pose proof H as (L1 & L2 & _). repeat split; try lia.
      apply RB. left. auto.
    + intros i j H. pose proof H as (L1 & L2 & _). repeat split; try lia.
      apply RB. right; left. eauto.
    + intros i j H. pose proof H as (L1 & L2 & _). repeat split; try lia.
      apply RB. do 3 right; left. eauto.
    + intros i j H. pose proof H as (L1 & L2 & _). apply I22; try lia.
      apply RB. do 2 right; left. eauto.
    + intros i j H. pose proof H as (L1 & L2 & H').
      apply HB. assert (Hin : In (i, j) (entries ts)) by (apply T4; auto).
      apply permRect_iota; auto.
      intros a b Hab. apply T3 in Hab. rewrite T1, T2 in Hab. auto.
    + intros i j H. pose proof H as (L1 & L2 & H'). repeat split; auto.
      apply GB; [|lia]. right; left. exists i. split; auto. unfold permRect.
      split; auto. split; auto. rewrite iota_nth by auto. apply U4.
      pose proof (isPerm_lt dl _ i Pl L1). split; auto. split; auto.
      rewrite iota_nth by auto. auto.
    + intros i j H. pose proof H as (L1 & L2 & H'). repeat split; auto; [lia|].
      apply GB; [|lia]. do 2 right; left. exists i, j. auto.
    + intros i j H. pose proof H as (L1 & L2 & H'). repeat split; auto.
      apply GB; [|lia]. do 4 right; left. exists i, j. split; auto. split; auto. unfold permRect.
      split; auto. split; auto. rewrite iota_nth by auto. apply V4.
      pose proof (isPerm_lt dl _ j Pl L2). split; auto. split; auto.
      rewrite iota_nth by auto. auto.
    + intros i j H. pose proof H as (L1 & L2 & H'). apply I32; auto.
      apply RB. do 4 right; left. exists i, j. auto.
    + intros i j H. pose proof H as (L1 & L2 & H'). repeat split; auto; [lia|].
      apply I33; auto; [lia|]. apply RB. do 5 right. exists i, j. auto.
Qed.
