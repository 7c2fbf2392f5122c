(** The arrowhead factorization succeeds; its result is described block by block. *)
From Coq Require Import List Arith Lia Bool.
From Verif Require Import Base ModelPerm ModelSparsity ModelSymbolic ModelNumeric ModelArrow.
From Verif Require Import SpecSymbolic SpecArrow SpecNumeric SpecArrowNum.
From Verif Require Import ProofBase ProofPerm ProofCsr ProofSparsity ProofFill ProofFill3
  ProofArrowSym ProofDense ProofUpRow ProofUp ProofEntry ProofExact ProofKernel ProofSolve
  ProofLdl ProofSingle ProofMethods.
Import ListNotations.

Section Steps.
  Context {F : Type} (O : ops F).
  Local Notation get := (getL O).

  (** one call of the 2 block kernel *)
  Definition step5 (mt : method) (b11 b21 b22 : blk) (n2 : nat) (L11 D11 : list F)
      (i21 i22 : init) (reg : F -> nat -> F) (L21 L22 D22 L21' L22' D22' : list F) : Prop :=
    kernelRows O mt (b_sp b11) (b_sp b21) (b_sp b22) n2 (get (b_sp b11) L11) (getD O D11)
      (initL O i21 b21 L21) (initL O i22 b22 L22) (initD O i22 b22 D22) reg
      (get (b_sp b21) L21') (get (b_sp b22) L22') (getD O D22').

  (** one call of the 3 block kernel *)
  Definition stepP (b11 b21 b31 b32 b33 : blk) (n3 : nat) (L11 D11 L21 : list F)
      (i31 i32 i33 : init) (L31 L32 L33 D33 L31' L32' L33' D33' : list F) : Prop :=
    exists s, forall i, i < n3 ->
      partRow O (b_sp b11) (b_sp b21) (b_sp b31) (b_sp b32) (b_sp b33)
        (get (b_sp b11) L11) (getD O D11) (get (b_sp b21) L21)
        (initL O i31 b31 L31) (initL O i32 b32 L32) (initL O i33 b33 L33) (getD O D33) i
        (s i) (get (b_sp b31) L31') (get (b_sp b32) L32') (get (b_sp b33) L33') (getD O D33').

  Definition step1 (mt : method) (b : blk) (n : nat) (i : init) (reg : F -> nat -> F)
      (L D : list F) : Prop :=
    exists X, step5 mt emptyDiagBlk (emptyLeftBlk b) b n [] []
      (Some (emptyMatrixInput n 0)) i reg [] [] [] X L D.

  Lemma step5_unique mt b11 b21 b22 n1 n2 R11 R21 R22 q1 p1 p2 sy1 L11 D11 i21 i22 reg
      L21 L22 D22 A B D A' B' D' :
    kernelHyp b11 b21 b22 n1 n2 R11 R21 R22 q1 p1 p2 sy1 ->
    length A = c_nnz (b_sp b21) -> length B = c_nnz (b_sp b22) -> length D = n2 ->
    length A' = c_nnz (b_sp b21) -> length B' = c_nnz (b_sp b22) -> length D' = n2 ->
    step5 mt b11 b21 b22 n2 L11 D11 i21 i22 reg L21 L22 D22 A B D ->
    step5 mt b11 b21 b22 n2 L11 D11 i21 i22 reg L21 L22 D22 A' B' D' ->
    A = A' /\ B = B' /\ D = D'.
  Proof.
    intros KH NA NB ND NA' NB' ND' K K'.
    destruct KH as [G11 G21 G22 Low Cl [C1 C2 C3 C4]].
    pose proof (kernelRows_unique O mt (b_sp b11) (b_sp b21) (b_sp b22) n2 _ _ _ _ _ _ _ _ _ _ _ _ _ _ _
      (fun i j H => Low i j (proj1 (gb_in _ _ _ _ _ _ _ G11 i j) H))
      (fun i j H => C3 i j (proj1 (gb_in _ _ _ _ _ _ _ G22 i j) H))
      (fun i j _ => eq_refl) (fun i j _ => eq_refl) (fun i _ => eq_refl) K K') as U.
    split; [|split].
    - apply (getL_ext O (b_sp b21)); auto; [eapply goodBlk_gcsr; eauto|]. intros i j H.
      apply U; [|apply cols_In; auto].
      apply (wfc_bounds _ (gb_wf _ _ _ _ _ _ _ G21)) in H.
      rewrite (gb_rows _ _ _ _ _ _ _ G21) in H. lia.
    - apply (getL_ext O (b_sp b22)); auto; [eapply goodBlk_gcsr; eauto|]. intros i j H.
      apply U; [|apply cols_In; auto].
      apply (wfc_bounds _ (gb_wf _ _ _ _ _ _ _ G22)) in H.
      rewrite (gb_rows _ _ _ _ _ _ _ G22) in H. lia.
    - apply (list_ext _ _ (o0 O)); [lia|]. intros k Hk. apply (U k). lia.
  Qed.

  Lemma stepP_unique b11 b21 b31 b32 b33 n1 n2 n3 R11 R21 R31 R32 R33 q1 p2 p1 p3 o1 o2 sy1
      L11 D11 L21 i31 i32 i33 L31 L32 L33 D33 A B C D A' B' C' D' :
    partHyp b11 b21 b31 b32 b33 n1 n2 n3 R11 R21 R31 R32 R33 q1 p2 p1 p3 o1 o2 sy1 ->
    length A = c_nnz (b_sp b31) -> length B = c_nnz (b_sp b32) ->
    length C = c_nnz (b_sp b33) -> length D = n3 ->
    length A' = c_nnz (b_sp b31) -> length B' = c_nnz (b_sp b32) ->
    length C' = c_nnz (b_sp b33) -> length D' = n3 ->
    stepP b11 b21 b31 b32 b33 n3 L11 D11 L21 i31 i32 i33 L31 L32 L33 D33 A B C D ->
    stepP b11 b21 b31 b32 b33 n3 L11 D11 L21 i31 i32 i33 L31 L32 L33 D33 A' B' C' D' ->
    A = A' /\ B = B' /\ C = C' /\ D = D'.
  Proof.
    intros [G11 G21 G31 G32 G33 Low Low3 CH] NA NB NC ND NA' NB' NC' ND' (s & K) (s' & K').
    pose proof (partRow_unique O (b_sp b11) (b_sp b21) (b_sp b31) (b_sp b32) (b_sp b33) n3
      _ _ _ _ _ _ _ _ _ _ _ _ _ _ _ _ _ _ _ _ _
      (fun i j H => Low i j (proj1 (gb_in _ _ _ _ _ _ _ G11 i j) H))
      (fun i j H => Low3 i j (proj1 (gb_in _ _ _ _ _ _ _ G33 i j) H))
      (fun i j _ => eq_refl) (fun i j _ => eq_refl) (fun i j _ => eq_refl) (fun i _ => eq_refl)
      K K') as U.
    assert (BD : forall b nc R p q sy i j, goodBlk b n3 nc R p q sy ->
              In (i, j) (c_entries (b_sp b)) -> i < n3).
    { intros b nc R p q sy i j G H. apply (wfc_bounds _ (gb_wf _ _ _ _ _ _ _ G)) in H.
      rewrite (gb_rows _ _ _ _ _ _ _ G) in H. lia. }
    split; [|split; [|split]].
    - apply (getL_ext O (b_sp b31)); auto; [eapply goodBlk_gcsr; eauto|]. intros i j H.
      apply U; [eapply BD; [exact G31|eauto]|apply cols_In; auto].
    - apply (getL_ext O (b_sp b32)); auto; [eapply goodBlk_gcsr; eauto|]. intros i j H.
      apply U; [eapply BD; [exact G32|eauto]|apply cols_In; auto].
    - apply (getL_ext O (b_sp b33)); auto; [eapply goodBlk_gcsr; eauto|]. intros i j H.
      apply U; [eapply BD; [exact G33|eauto]|apply cols_In; auto].
    - apply (list_ext _ _ (o0 O)); [lia|]. intros k Hk. apply (U k). lia.
  Qed.

  (** ** filling a block with the input values *)

  Record filled (m : mat (F:=F)) (b : blk) (n : nat) (Z : list F * list F) : Prop := mkFilled {
    fi_nL : length (fst Z) = c_nnz (b_sp b);
    fi_nD : length (snd Z) = n;
    fi_L : forall i j, In (i, j) (c_entries (b_sp b)) ->
      get (b_sp b) (fst Z) i j = initL O (Some m) b [] i j;
    fi_D : forall i, i < n -> getD O (snd Z) i = initD O (Some m) b [] i }.

  Lemma fill_ok m b n R p L D :
    goodBlk b n n R p p true -> readable m -> length L = c_nnz (b_sp b) -> length D = n ->
    exists Z, fillWithOriginalMatrixValuesIncludingDiagonal O m b (L, D) = Ok Z /\ filled m b n Z.
  Proof.
    intros G Hm HL HD. unfold fillWithOriginalMatrixValuesIncludingDiagonal.
    rewrite (gb_rows _ _ _ _ _ _ _ G). set (f := fun LD i => _).
    destruct (foldM_seq f (fun i (Z : list F * list F) =>
      length (fst Z) = c_nnz (b_sp b) /\ length (snd Z) = n /\
      (forall r j, r < i -> In (r, j) (c_entries (b_sp b)) ->
         get (b_sp b) (fst Z) r j = initL O (Some m) b [] r j) /\
      (forall r, r < i -> getD O (snd Z) r = initD O (Some m) b [] r)) 0 n (L, D))
      as (Z & E & H1 & H2 & H3 & H4).
    - cbn [fst snd]. split; [auto|]. split; [auto|]. split; intros; lia.
    - intros i [A B] Hi (H1 & H2 & H3 & H4). cbn [fst snd] in H1, H2, H3, H4. unfold f.
      cbn [fst snd].
      destruct (fillRow_ok O m b n n R p p true A i) as (A' & EA & NA & HA); auto; try lia.
      rewrite EA. cbn [bind]. unfold fillDiagonalWithOriginalMatrixValue.
      unfold origRowIndex. rewrite (gb_prow _ _ _ _ _ _ _ G).
      rewrite (isPerm_rd n) by (try lia; eapply gb_p1; eauto). cbn [bind].
      rewrite getMatrixValueAt_ok by auto. cbn [bind]. rewrite wr_ok by lia. cbn [bind].
      eexists. split; [reflexivity|]. cbn [fst snd]. rewrite upd_length.
      split; [lia|]. split; [auto|]. split.
      + intros r j Hr Hin. rewrite HA by auto. destruct (Nat.eqb_spec r i) as [->|N]; auto.
        apply H3; auto. lia.
      + intros r Hr. unfold getD. destruct (Nat.eq_dec r i) as [->|N].
        * rewrite nth_upd_eq by lia. cbn [initD]. rewrite (gb_prow _ _ _ _ _ _ _ G). auto.
        * rewrite nth_upd_neq by lia. apply H4. lia.
    - exists Z. split; auto. constructor; auto.
      intros i j Hin. apply H3; auto. apply (wfc_bounds _ (gb_wf _ _ _ _ _ _ _ G)) in Hin.
      rewrite (gb_rows _ _ _ _ _ _ _ G) in Hin. lia.
  Qed.

  Lemma filled_unique m b n R p Z Z' :
    goodBlk b n n R p p true -> filled m b n Z -> filled m b n Z' -> Z = Z'.
  Proof.
    intros G [N1 N2 H1 H2] [N1' N2' H1' H2']. destruct Z as [A B], Z' as [A' B'].
    cbn [fst snd] in *. f_equal.
    - apply (getL_ext O (b_sp b)); auto; [eapply goodBlk_gcsr; eauto|].
      intros i j H. rewrite H1, H1'; auto.
    - apply (list_ext _ _ (o0 O)); [lia|]. intros k Hk.
      change (getD O B k = getD O B' k). rewrite H2, H2' by lia. auto.
  Qed.
End Steps.

(** ** the whole factorization *)

Section Arrow.
  Context {F : Type} (O : ops F).
  Local Notation get := (getL O).
  Variables (s : arrow_sp) (ds dt dl dO : nat) (k : arrow_blks) (P : arrow_pats).
  Hypothesis AG : arrowGood s ds dt dl dO k P.
  Hypothesis AC : arrowChordal P.
  Local Notation ps := (ss_perm (as_start s)).
  Local Notation pt := (st_perm (as_tri s)).
  Local Notation pl := (sl_perm (as_link s)).
  Local Notation po := (so_perm (as_outer s)).

  (** the input can be read and is covered by the factor *)
  Definition goodSym (m : mat (F:=F)) n R p := readable m /\ coverSym (Some m) n R p.
  Definition goodRect (m : mat (F:=F)) nr nc R p q := readable m /\ coverRect (Some m) nr nc R p q.

  Record goodInput (n : nat) (m : arrow_mat (F:=F)) : Prop := mkGoodInput {
    gi_sd : goodSym (a_sd m) ds (p_sd P) ps;
    gi_sn : goodRect (a_sn m) dt ds (p_sn P) pt ps;
    gi_so : goodRect (a_so m) dO ds (p_so P) po ps;
    gi_ntd : length (a_td m) = n + 1;
    gi_td : forall t, t < n + 1 -> goodSym (nth t (a_td m) noMat) dt (p_td P) pt;
    gi_nts : length (a_ts m) = n;
    gi_ts : forall t, t < n -> goodRect (nth t (a_ts m) noMat) dt dt (p_ts P) pt pt;
    gi_lp : goodRect (a_lp m) dl dt (p_lp P) pl pt;
    gi_ld : goodSym (a_ld m) dl (p_ld P) pl;
    gi_ln : goodRect (a_ln m) dO dl (p_ln P) po pl;
    gi_nos : length (a_os m) = n + 1;
    gi_os : forall t, t < n + 1 -> goodRect (nth t (a_os m) noMat) dO dt (p_os P) po pt;
    gi_od : goodSym (a_od m) dO (p_od P) po }.

  (** the outer part only has to be readable *)
  Record readOuter (n : nat) (m : arrow_mat (F:=F)) : Prop := mkReadOuter {
    ro_so : readable (a_so m);
    ro_ln : readable (a_ln m);
    ro_nos : length (a_os m) = n + 1;
    ro_os : forall t, t < n + 1 -> readable (nth t (a_os m) noMat);
    ro_od : readable (a_od m) }.

  Lemma goodInput_outer n m : goodInput n m -> readOuter n m.
  Proof.
    intros G. constructor; apply G; auto.
  Qed.

  (** kernel hypotheses of the calls *)
  Lemma hyp_sd : kernelHyp emptyDiagBlk (emptyLeftBlk (k_sd k)) (k_sd k) 0 ds noPat noPat (p_sd P)
    [] [] ps true.
  Proof. apply single_hyp; [eapply ag_sd; eauto|eapply ac_sd_low; eauto|eapply ac_sd; eauto]. Qed.

  Lemma hyp_start : kernelHyp (k_sd k) (k_sn k) (k_td k) ds dt (p_sd P) (p_sn P) (p_td P) ps ps pt true.
  Proof.
    constructor; try (apply AG); [apply (ac_sd_low _ AC)|apply (ac_sd _ AC)|apply (ac_start _ AC)].
  Qed.

  Lemma td_low i j : p_td P i j -> j < i.
  Proof. destruct (ac_tri _ AC) as [_ _ H _]. auto. Qed.
  Lemma td_closed : closedPattern (p_td P).
  Proof. destruct (ac_tri _ AC) as [_ _ _ H]. auto. Qed.
  Lemma ld_low i j : p_ld P i j -> j < i.
  Proof. destruct (ac_link _ AC) as [_ _ H _]. auto. Qed.
  Lemma ld_closed : closedPattern (p_ld P).
  Proof. destruct (ac_link _ AC) as [_ _ _ H]. auto. Qed.
  Lemma od_low i j : p_od P i j -> j < i.
  Proof. destruct (ac_outer _ AC) as [_ _ H _]. auto. Qed.
  Lemma sd_low i j : p_sd P i j -> j < i.
  Proof. apply (ac_sd_low _ AC). Qed.

  Lemma hyp_tri : kernelHyp (k_td k) (k_ts k) (k_td k) dt dt (p_td P) (p_ts P) (p_td P) pt pt pt true.
  Proof. constructor; try (apply AG); [apply td_low|apply td_closed|apply (ac_tri _ AC)]. Qed.
  Lemma hyp_link : kernelHyp (k_td k) (k_lp k) (k_ld k) dt dl (p_td P) (p_lp P) (p_ld P) pt pt pl true.
  Proof. constructor; try (apply AG); [apply td_low|apply td_closed|apply (ac_link _ AC)]. Qed.
  Lemma hyp_outer : kernelHyp (k_ld k) (k_ln k) (k_od k) dl dO (p_ld P) (p_ln P) (p_od P) pl pl po true.
  Proof. constructor; try (apply AG); [apply ld_low|apply ld_closed|apply (ac_outer _ AC)]. Qed.

  Lemma hyp_ostart : partHyp (k_sd k) (k_sn k) (k_so k) (k_os k) (k_od k) ds dt dO
    (p_sd P) (p_sn P) (p_so P) (p_os P) (p_od P) ps pt ps po ps pt true.
  Proof. constructor; try (apply AG); [apply sd_low|apply od_low|apply (ac_ostart _ AC)]. Qed.
  Lemma hyp_otri : partHyp (k_td k) (k_ts k) (k_os k) (k_os k) (k_od k) dt dt dO
    (p_td P) (p_ts P) (p_os P) (p_os P) (p_od P) pt pt pt po pt pt true.
  Proof. constructor; try (apply AG); [apply td_low|apply od_low|apply (ac_otri _ AC)]. Qed.
  Lemma hyp_olink : partHyp (k_td k) (k_lp k) (k_os k) (k_ln k) (k_od k) dt dl dO
    (p_td P) (p_lp P) (p_os P) (p_ln P) (p_od P) pt pl pt po pt pl true.
  Proof. constructor; try (apply AG); [apply td_low|apply od_low|apply (ac_olink _ AC)]. Qed.

  Local Notation tdL d t := (fst (nth t (d_td d) ([], []))).
  Local Notation tdD d t := (snd (nth t (d_td d) ([], []))).
  Local Notation tsL d t := (nth t (d_ts d) []).
  Local Notation osL d t := (nth t (d_os d) []).
  Local Notation itd m t := (nth t (a_td m) noMat).
  Local Notation its m t := (nth t (a_ts m) noMat).
  Local Notation ios m t := (nth t (a_os m) noMat).

  Record triRows (mt : method) (m : arrow_mat (F:=F)) (reg : F -> nat -> F) (n : nat)
      (d : arrow_data (F:=F)) : Prop := mkTriRows {
    tr_sd : step1 O mt (k_sd k) ds (Some (a_sd m)) reg (fst (d_sd d)) (snd (d_sd d));
    tr_t0 : step5 O mt (k_sd k) (k_sn k) (k_td k) dt (fst (d_sd d)) (snd (d_sd d))
      (Some (a_sn m)) (Some (itd m 0)) reg [] [] [] (d_sn d) (tdL d 0) (tdD d 0);
    tr_ts : forall t, t < n ->
      step5 O mt (k_td k) (k_ts k) (k_td k) dt (tdL d t) (tdD d t)
        (Some (its m t)) (Some (itd m (t + 1))) reg [] [] []
        (tsL d t) (tdL d (t + 1)) (tdD d (t + 1));
    tr_ld : step5 O mt (k_td k) (k_lp k) (k_ld k) dl (tdL d n) (tdD d n)
      (Some (a_lp m)) (Some (a_ld m)) reg [] [] [] (d_lp d) (fst (d_ld d)) (snd (d_ld d)) }.

  (** [Z t] is the outer block before the step with number t, [Y t] the outer
      subdiagonal block t before it is divided, [ln] likewise *)
  Record outRows (mt : method) (m : arrow_mat (F:=F)) (reg : F -> nat -> F) (n : nat)
      (d : arrow_data (F:=F)) (Z : nat -> list F * list F) (Y : nat -> list F) (ln : list F)
      : Prop := mkOutRows {
    or_nZ : forall t, length (fst (Z t)) = c_nnz (b_sp (k_od k)) /\ length (snd (Z t)) = dO;
    or_nY : forall t, length (Y t) = c_nnz (b_sp (k_os k));
    or_nln : length ln = c_nnz (b_sp (k_ln k));
    or_fill : filled O (a_od m) (k_od k) dO (Z 0);
    or_start : stepP O (k_sd k) (k_sn k) (k_so k) (k_os k) (k_od k) dO
      (fst (d_sd d)) (snd (d_sd d)) (d_sn d) (Some (a_so m)) (Some (ios m 0)) None
      [] [] (fst (Z 0)) (snd (Z 0)) (d_so d) (Y 0) (fst (Z 1)) (snd (Z 1));
    or_tri : forall t, t < n ->
      stepP O (k_td k) (k_ts k) (k_os k) (k_os k) (k_od k) dO (tdL d t) (tdD d t) (tsL d t)
        None (Some (ios m (t + 1))) None (Y t) [] (fst (Z (t + 1))) (snd (Z (t + 1)))
        (osL d t) (Y (t + 1)) (fst (Z (t + 2))) (snd (Z (t + 2)));
    or_link : stepP O (k_td k) (k_lp k) (k_os k) (k_ln k) (k_od k) dO (tdL d n) (tdD d n) (d_lp d)
        None (Some (a_ln m)) None (Y n) [] (fst (Z (n + 1))) (snd (Z (n + 1)))
        (osL d n) ln (fst (Z (n + 2))) (snd (Z (n + 2)));
    or_last : step5 O mt (k_ld k) (k_ln k) (k_od k) dO (fst (d_ld d)) (snd (d_ld d))
        None None reg ln (fst (Z (n + 2))) (snd (Z (n + 2)))
        (d_ln d) (fst (d_od d)) (snd (d_od d)) }.

  Definition arrowRows mt m reg n d : Prop :=
    triRows mt m reg n d /\ exists Z Y ln, outRows mt m reg n d Z Y ln.

  Lemma factorizeTri_ok mt n m reg d :
    dataOf k n ds dt dl dO d -> goodInput n m ->
    exists d', factorizeTri O mt k m reg d = Ok d' /\
      dataOf k n ds dt dl dO d' /\ triRows mt m reg n d' /\
      d_so d' = d_so d /\ d_ln d' = d_ln d /\ d_os d' = d_os d /\ d_od d' = d_od d.
  Proof.
    intros DO GI.
    destruct DO as [[Nsd1 Nsd2] Nsn Nso Ntd Htd Nts Hts Nlp [Nld1 Nld2] Nln Nos Hos [Nod1 Nod2]].
    destruct GI as [Isd Isn Iso Mtd Itd Mts Its Ilp Ild Iln Mos Ios Iod].
    unfold factorizeTri, numRepetitions. rewrite Nts.
    (* start *)
    destruct (d_sd d) as [Lsd0 Dsd0] eqn:Esd0. cbn [fst snd] in Nsd1, Nsd2.
    assert (F1 : exists L D, factorize O mt (k_sd k) (Some (a_sd m)) reg (Lsd0, Dsd0) = Ok (L, D) /\
      length L = c_nnz (b_sp (k_sd k)) /\ length D = ds /\
      step1 O mt (k_sd k) ds (Some (a_sd m)) reg L D).
    { unfold factorize. cbn [fst snd]. rewrite (gb_rows _ _ _ _ _ _ _ (ag_sd _ _ _ _ _ _ _ AG)).
      destruct (factorize5_ok O mt emptyDiagBlk (emptyLeftBlk (k_sd k)) (k_sd k) 0 ds noPat noPat
         (p_sd P) [] [] ps true [] [] (Some (emptyMatrixInput ds 0)) (Some (a_sd m)) reg [] Lsd0 Dsd0)
        as (X & L & D & E & _ & H2 & H3 & K); auto.
      - apply hyp_sd.
      - split; [constructor; auto; intros i j []|]. intros i j (_ & Hj & _). lia.
      - apply Isd.
      - intros q Hq. cbn in Hq. lia.
      - apply Isd.
      - rewrite E. cbn [bind]. exists L, D. split; auto. split; auto. split; auto. exists X. exact K. }
    destruct F1 as (Lsd & Dsd & E1 & NL1 & ND1 & S1). rewrite E1. cbn [bind fst snd]. clear E1.
    (* first tridiagonal block *)
    rewrite (rd_nth (a_td m) 0 noMat) by lia. cbn [bind].
    rewrite (rd_nth (d_td d) 0 ([], [])) by lia. cbn [bind].
    destruct (Htd 0 ltac:(lia)) as [Nt0 Nt0'].
    destruct (factorize5_ok O mt (k_sd k) (k_sn k) (k_td k) ds dt (p_sd P) (p_sn P) (p_td P) ps ps pt
       true Lsd Dsd (Some (a_sn m)) (Some (itd m 0)) reg (d_sn d) (tdL d 0) (tdD d 0))
      as (sn & L0 & D0 & E2 & Nsn' & NL2 & ND2 & S2); auto.
    { apply hyp_start. } { apply Isn. } { apply (Itd 0); lia. } { apply Isn. } { apply (Itd 0); lia. }
    rewrite E2. cbn [bind]. clear E2. rewrite wr_ok by lia. cbn [bind].
    (* loop *)
    set (f := fun st i => _).
    destruct (foldM_seq f (fun i (st : list (list F * list F) * list (list F)) =>
      length (fst st) = n + 1 /\ length (snd st) = n /\
      (forall t, t < n + 1 -> length (fst (nth t (fst st) ([], []))) = c_nnz (b_sp (k_td k)) /\
                              length (snd (nth t (fst st) ([], []))) = dt) /\
      (forall t, t < n -> length (nth t (snd st) []) = c_nnz (b_sp (k_ts k))) /\
      nth 0 (fst st) ([], []) = (L0, D0) /\
      (forall t, t < i ->
        step5 O mt (k_td k) (k_ts k) (k_td k) dt (fst (nth t (fst st) ([], [])))
          (snd (nth t (fst st) ([], []))) (Some (its m t)) (Some (itd m (t + 1))) reg [] [] []
          (nth t (snd st) []) (fst (nth (t + 1) (fst st) ([], [])))
          (snd (nth (t + 1) (fst st) ([], []))))) 0 n (upd (d_td d) 0 (L0, D0), d_ts d))
      as ([td ts] & E3 & M1 & M2 & M3 & M4 & M5 & M6).
    - cbn [fst snd]. rewrite upd_length. split; [auto|]. split; [auto|]. split; [|split; [auto|split]].
      + intros t Ht. rewrite nth_upd by lia. destruct (0 =? t); auto.
      + apply nth_upd_eq. lia.
      + intros t Ht; lia.
    - intros i [td ts] Hi (M1 & M2 & M3 & M4 & M5 & M6). cbn [fst snd] in M1, M2, M3, M4, M5, M6.
      unfold f. cbn [fst snd].
      rewrite (rd_nth td i ([], [])) by lia. cbn [bind].
      rewrite (rd_nth (a_ts m) i noMat) by lia. cbn [bind].
      rewrite (rd_nth (a_td m) (i + 1) noMat) by lia. cbn [bind].
      rewrite (rd_nth ts i []) by lia. cbn [bind].
      rewrite (rd_nth td (i + 1) ([], [])) by lia. cbn [bind].
      destruct (factorize5_ok O mt (k_td k) (k_ts k) (k_td k) dt dt (p_td P) (p_ts P) (p_td P) pt pt pt
         true (fst (nth i td ([], []))) (snd (nth i td ([], []))) (Some (its m i))
         (Some (itd m (i + 1))) reg (nth i ts []) (fst (nth (i + 1) td ([], [])))
         (snd (nth (i + 1) td ([], [])))) as (A & B & D & E & NA & NB & ND & S); auto;
        try (apply M3; lia); try (apply M4; lia); try (apply (Its i); lia);
        try (apply (Itd (i + 1)); lia).
      { apply hyp_tri. }
      rewrite E. cbn [bind]. rewrite wr_ok by lia. cbn [bind]. rewrite wr_ok by lia. cbn [bind].
      eexists. split; [reflexivity|]. cbn [fst snd]. rewrite !upd_length.
      split; [auto|]. split; [auto|]. split; [|split; [|split]].
      + intros t Ht. rewrite nth_upd by lia. destruct (i + 1 =? t); auto.
      + intros t Ht. rewrite nth_upd by lia. destruct (i =? t); auto.
      + rewrite nth_upd_neq by lia. auto.
      + intros t Ht. rewrite (nth_upd_neq td (i + 1) t) by lia.
        destruct (Nat.eq_dec t i) as [->|N].
        * rewrite !nth_upd_eq by lia. exact S.
        * rewrite !nth_upd_neq by lia. apply M6. lia.
    - rewrite E3. cbn [bind]. cbn [fst snd] in M1, M2, M3, M4, M5, M6.
      rewrite (rd_nth td n ([], [])) by lia. cbn [bind].
      destruct (M3 n ltac:(lia)) as [Nn1 Nn2].
      destruct (factorize5_ok O mt (k_td k) (k_lp k) (k_ld k) dt dl (p_td P) (p_lp P) (p_ld P) pt pt pl
         true (fst (nth n td ([], []))) (snd (nth n td ([], []))) (Some (a_lp m)) (Some (a_ld m)) reg
         (d_lp d) (fst (d_ld d)) (snd (d_ld d))) as (A & B & D & E & NA & NB & ND & S); auto.
      { apply hyp_link. } { apply Ilp. } { apply Ild. } { apply Ilp. } { apply Ild. }
      rewrite E. cbn [bind]. eexists. split; [reflexivity|].
      split; [constructor; cbn; auto|]. split; [|cbn; auto].
      constructor; cbn [d_sd d_sn d_td d_ts d_lp d_ld fst snd]; auto.
      + rewrite M5. exact S2.
  Qed.

  Lemma factorizeOuter_ok mt n m reg d :
    dataOf k n ds dt dl dO d -> readOuter n m -> triRows mt m reg n d ->
    exists d', factorizeOuter O mt k m reg d = Ok d' /\
      dataOf k n ds dt dl dO d' /\ arrowRows mt m reg n d'.
  Proof.
    intros DO GI TR.
    destruct DO as [[Nsd1 Nsd2] Nsn Nso Ntd Htd Nts Hts Nlp [Nld1 Nld2] Nln Nos Hos [Nod1 Nod2]].
    destruct GI as [Iso Iln Mos Ios Iod].
    unfold factorizeOuter, numRepetitions. rewrite Nts.
    destruct (d_od d) as [Lod0 Dod0] eqn:Eod0. cbn [fst snd] in Nod1, Nod2.
    destruct (fill_ok O (a_od m) (k_od k) dO (p_od P) po Lod0 Dod0) as (Z0 & E0 & F0); auto.
    { apply AG. }
    rewrite E0. cbn [bind]. clear E0.
    rewrite (rd_nth (a_os m) 0 noMat) by lia. cbn [bind].
    rewrite (rd_nth (d_os d) 0 []) by lia. cbn [bind].
    (* start *)
    pose proof hyp_ostart as HS. destruct HS as [S1 S2 S3 S4 S5 S6 S7 S8].
    destruct (factorizePartial_ok O (k_sd k) (k_sn k) (k_so k) (k_os k) (k_od k) ds dt dO
      (p_sd P) (p_sn P) (p_so P) (p_os P) (p_od P) ps pt ps po ps pt true
      (fst (d_sd d)) (snd (d_sd d)) (d_sn d) (Some (a_so m)) (Some (ios m 0)) None
      (d_so d) (osL d 0) (fst Z0) (snd Z0))
      as (so & os0 & L1 & D1 & sc & E1 & N1 & N2 & N3 & N4 & K1); auto;
      try (apply F0); try (apply Iso); try (apply (Ios 0); lia); try (apply Hos; lia).
    { exact I. }
    rewrite E1. cbn [bind]. clear E1. rewrite wr_ok by lia. cbn [bind].
    clear S1 S2 S3 S4 S5 S6 S7 S8.
    (* loop *)
    set (f := fun st i => _).
    destruct (foldM_seq f (fun i (st : list (list F) * list F * list F) =>
      let '(os, L, D) := st in
      length os = n + 1 /\ length L = c_nnz (b_sp (k_od k)) /\ length D = dO /\
      (forall t, t < n + 1 -> length (nth t os []) = c_nnz (b_sp (k_os k))) /\
      exists (Z : nat -> list F * list F) (Y : nat -> list F),
        (forall t, length (fst (Z t)) = c_nnz (b_sp (k_od k)) /\ length (snd (Z t)) = dO) /\
        (forall t, length (Y t) = c_nnz (b_sp (k_os k))) /\
        Z 0 = Z0 /\ Z 1 = (L1, D1) /\ Y 0 = os0 /\ Z (i + 1) = (L, D) /\ Y i = nth i os [] /\
        (forall t, t < i ->
          stepP O (k_td k) (k_ts k) (k_os k) (k_os k) (k_od k) dO (tdL d t) (tdD d t) (tsL d t)
            None (Some (ios m (t + 1))) None (Y t) [] (fst (Z (t + 1))) (snd (Z (t + 1)))
            (nth t os []) (Y (t + 1)) (fst (Z (t + 2))) (snd (Z (t + 2)))))
      0 n (upd (d_os d) 0 os0, L1, D1)) as ([[os Ln] Dn] & E2 & H).
    - rewrite upd_length. split; [auto|]. split; [auto|]. split; [auto|]. split.
      + intros t Ht. rewrite nth_upd by lia. destruct (0 =? t); auto.
      + exists (fun t => if t =? 0 then Z0 else (L1, D1)), (fun _ => os0).
        split; [|split; [auto|]].
        * intros t. destruct (t =? 0); [split; apply F0|]. auto.
        * split; [auto|]. split; [auto|]. split; [auto|]. split; [auto|]. split.
          -- rewrite nth_upd_eq by lia. auto.
          -- intros t Ht; lia.
    - intros i [[os L] D] Hi (M1 & M2 & M3 & M4 & Z & Y & NZ & NY & HZ0 & HZ1 & HY0 & HZi & HYi & M5).
      unfold f.
      rewrite (rd_nth (d_td d) i ([], [])) by lia. cbn [bind].
      rewrite (rd_nth (d_ts d) i []) by lia. cbn [bind].
      rewrite (rd_nth (a_os m) (i + 1) noMat) by lia. cbn [bind].
      rewrite (rd_nth os i []) by lia. cbn [bind].
      rewrite (rd_nth os (i + 1) []) by lia. cbn [bind].
      pose proof hyp_otri as HS. destruct HS as [S1 S2 S3 S4 S5 S6 S7 S8].
      destruct (factorizePartial_ok O (k_td k) (k_ts k) (k_os k) (k_os k) (k_od k) dt dt dO
        (p_td P) (p_ts P) (p_os P) (p_os P) (p_od P) pt pt pt po pt pt true
        (tdL d i) (tdD d i) (tsL d i) None (Some (ios m (i + 1))) None
        (nth i os []) (nth (i + 1) os []) L D)
        as (A & B & L' & D' & sc' & E & NA & NB & NL & ND & K); auto;
        try exact I; try (apply (Ios (i + 1)); lia); try (apply Htd; lia); try (apply Hts; lia);
        try (apply M4; lia).
      rewrite E. cbn [bind]. rewrite wr_ok by lia. cbn [bind].
      rewrite wr_ok by (rewrite upd_length; lia). cbn [bind].
      eexists. split; [reflexivity|]. cbn beta iota. rewrite !upd_length.
      split; [auto|]. split; [auto|]. split; [auto|]. split.
      + intros t Ht. rewrite nth_upd by (rewrite upd_length; lia). destruct (i + 1 =? t); auto.
        rewrite nth_upd by lia. destruct (i =? t); auto.
      + exists (fun t => if t =? i + 2 then (L', D') else Z t), (fun t => if t =? i + 1 then B else Y t).
        split; [|split; [|split; [|split; [|split; [|split; [|split]]]]]].
        * intros t. destruct (t =? i + 2); auto.
        * intros t. destruct (t =? i + 1); auto.
        * destruct (Nat.eqb_spec 0 (i + 2)); [lia|auto].
        * destruct (Nat.eqb_spec 1 (i + 2)); [lia|auto].
        * destruct (Nat.eqb_spec 0 (i + 1)); [lia|auto].
        * replace (1 + i + 1) with (i + 2) by lia. rewrite Nat.eqb_refl. auto.
        * replace (1 + i) with (i + 1) by lia. rewrite Nat.eqb_refl.
          rewrite nth_upd_eq by (rewrite upd_length; lia). auto.
        * intros t Ht. rewrite (nth_upd_neq (upd os i A) (i + 1) t) by lia.
          destruct (Nat.eq_dec t i) as [->|N].
          -- rewrite nth_upd_eq by lia. rewrite !Nat.eqb_refl.
             destruct (Nat.eqb_spec i (i + 1)); [lia|]. destruct (Nat.eqb_spec (i + 1) (i + 2)); [lia|].
             rewrite HZi, HYi. exists sc'. exact K.
          -- rewrite nth_upd_neq by lia.
             destruct (Nat.eqb_spec t (i + 1)); [lia|]. destruct (Nat.eqb_spec (t + 1) (i + 2)); [lia|].
             destruct (Nat.eqb_spec (t + 1) (i + 1)); [lia|].
             destruct (Nat.eqb_spec (t + 2) (i + 2)); [lia|]. apply M5. lia.
    - rewrite E2. cbn [bind]. cbn beta iota in H.
      destruct H as (M1 & M2 & M3 & M4 & Z & Y & NZ & NY & HZ0 & HZ1 & HY0 & HZi & HYi & M5).
      rewrite Nat.add_0_l in HZi, HYi.
      rewrite (rd_nth (d_td d) n ([], [])) by lia. cbn [bind].
      rewrite (rd_nth os n []) by lia. cbn [bind].
      pose proof hyp_olink as HS. destruct HS as [S1 S2 S3 S4 S5 S6 S7 S8].
      destruct (factorizePartial_ok O (k_td k) (k_lp k) (k_os k) (k_ln k) (k_od k) dt dl dO
        (p_td P) (p_lp P) (p_os P) (p_ln P) (p_od P) pt pl pt po pt pl true
        (tdL d n) (tdD d n) (d_lp d) None (Some (a_ln m)) None
        (nth n os []) (d_ln d) Ln Dn)
        as (A & B & L' & D' & sc' & E & NA & NB & NL & ND & K); auto;
        try exact I; try (apply Iln; lia); try (apply Htd; lia); try (apply M4; lia).
      clear S1 S2 S3 S4 S5 S6 S7 S8.
      rewrite E. cbn [bind]. rewrite wr_ok by lia. cbn [bind].
      destruct (factorize5_ok O mt (k_ld k) (k_ln k) (k_od k) dl dO (p_ld P) (p_ln P) (p_od P) pl pl po
         true (fst (d_ld d)) (snd (d_ld d)) None None reg B L' D')
        as (ln & Lod & Dod & E' & NA' & NB' & ND' & S'); auto; try exact I.
      { apply hyp_outer. }
      rewrite E'. cbn [bind]. eexists. split; [reflexivity|].
      split.
      { constructor; cbn [d_sd d_sn d_so d_td d_ts d_lp d_ld d_ln d_os d_od fst snd]; auto.
        - rewrite upd_length. auto.
        - intros t Ht. rewrite nth_upd by lia. destruct (n =? t); auto. }
      split; [constructor; apply TR|].
      exists (fun t => if t =? n + 2 then (L', D') else Z t), Y, B.
      constructor; cbn [d_sd d_sn d_so d_td d_ts d_lp d_ld d_ln d_os d_od fst snd].
      + intros t. destruct (t =? n + 2); auto.
      + auto.
      + auto.
      + destruct (Nat.eqb_spec 0 (n + 2)); [lia|]. rewrite HZ0. auto.
      + destruct (Nat.eqb_spec 0 (n + 2)); [lia|]. destruct (Nat.eqb_spec 1 (n + 2)); [lia|].
        rewrite HZ0, HZ1, HY0. exists sc. exact K1.
      + intros t Ht. rewrite nth_upd_neq by lia.
        destruct (Nat.eqb_spec (t + 1) (n + 2)); [lia|].
        destruct (Nat.eqb_spec (t + 2) (n + 2)); [lia|]. apply M5. lia.
      + rewrite nth_upd_eq by lia. rewrite Nat.eqb_refl.
        destruct (Nat.eqb_spec (n + 1) (n + 2)); [lia|]. rewrite HZi, HYi. exists sc'. exact K.
      + rewrite Nat.eqb_refl. exact S'.
  Qed.

  Lemma arrowFactorize_ok mt n m reg d :
    dataOf k n ds dt dl dO d -> goodInput n m ->
    exists d', arrowFactorize O mt k m reg d = Ok d' /\
      dataOf k n ds dt dl dO d' /\ arrowRows mt m reg n d'.
  Proof.
    intros DO GI. unfold arrowFactorize.
    destruct (factorizeTri_ok mt n m reg d DO GI) as (d1 & E1 & DO1 & TR & _). rewrite E1.
    cbn [bind]. apply factorizeOuter_ok; auto using goodInput_outer.
  Qed.
End Arrow.
