(** In exact arithmetic with nonzero pivots both methods compute the same factor. *)
From Coq Require Import List Arith Lia Bool Ring.
From Verif Require Import Base ModelPerm ModelSparsity ModelSymbolic ModelNumeric.
From Verif Require Import SpecSymbolic SpecArrow SpecNumeric.
From Verif Require Import ProofBase ProofPerm ProofCsr ProofSparsity ProofFill ProofFill3
  ProofArrowSym ProofDense ProofUpRow ProofUp ProofEntry ProofExact ProofKernel ProofSolve
  ProofLdl ProofSingle ProofSingleMain.
Import ListNotations.

Section Methods.
  Context {F : Type} (O : ops F) (FL : fieldLaws O).
  Local Notation get := (getL O).
  Local Notation "0" := (o0 O) : scalar.
  Local Notation "a + b" := (oadd O a b) : scalar.
  Local Notation "a - b" := (osub O a b) : scalar.
  Local Notation "a * b" := (omul O a b) : scalar.
  Local Notation "a / b" := (odiv O a b) : scalar.
  Add Ring Fr5 : (fl_ring FL).

  Lemma dfold_subf d l s D :
    dfold O d l s D = subf O d l (fun _ => true) (fun k => (s k * (s k / D k))%s).
  Proof. reflexivity. Qed.

  Lemma up_ew c11 c21 c22 G11 D1 a21 a22 ad reg i s21 s22 G21 G22 D2 :
    (forall k, In k (cols c21 i) -> D1 k <> 0%s) ->
    (forall k, In k (cols c22 i) -> D2 k <> 0%s) ->
    upRow O c11 c21 c22 G11 D1 a21 a22 ad reg i s21 s22 G21 G22 D2 ->
    ewRow O c11 c21 c22 G11 D1 a21 a22 ad reg i G21 G22 D2.
  Proof.
    intros Z1 Z2 [U1 U2 U3 U4 U5].
    assert (S21 : forall k, In k (cols c21 i) -> s21 k = (G21 i k * D1 k)%s).
    { intros k Hk. rewrite U2 by auto. symmetry. apply (fl_div FL). auto. }
    assert (S22 : forall k, In k (cols c22 i) -> s22 k = (G22 i k * D2 k)%s).
    { intros k Hk. rewrite U4 by auto. symmetry. apply (fl_div FL). auto. }
    constructor.
    - intros j Hj. rewrite U2, U1 by auto. f_equal. apply subf_ext; auto.
      intros k Hk _. rewrite S21 by auto. ring.
    - intros j Hj. rewrite U4, U3 by auto. f_equal.
      rewrite (subf_ext O (a22 i j) (cols c21 i) (nzb c21 j) (fun k => (G21 j k * s21 k)%s)
        (nzb c21 j) (fun k => (G21 i k * G21 j k * D1 k)%s)); auto.
      + apply subf_ext; auto. intros k Hk _. rewrite S22 by auto. ring.
      + intros k Hk _. rewrite S21 by auto. ring.
    - rewrite U5. f_equal. rewrite !dfold_subf.
      rewrite (subf_ext O (ad i) (cols c21 i) (fun _ => true) (fun k => (s21 k * (s21 k / D1 k))%s)
        (fun _ => true) (fun k => (G21 i k * G21 i k * D1 k)%s)); auto.
      + apply subf_ext; auto. intros k Hk _. rewrite <- U4, S22 by auto. ring.
      + intros k Hk _. rewrite <- U2, S21 by auto. ring.
  Qed.

  Lemma ew_up c11 c21 c22 G11 D1 a21 a22 ad reg i G21 G22 D2 :
    (forall k, In k (cols c21 i) -> D1 k <> 0%s) ->
    (forall k, In k (cols c22 i) -> D2 k <> 0%s) ->
    ewRow O c11 c21 c22 G11 D1 a21 a22 ad reg i G21 G22 D2 ->
    upRow O c11 c21 c22 G11 D1 a21 a22 ad reg i
      (fun k => (G21 i k * D1 k)%s) (fun k => (G22 i k * D2 k)%s) G21 G22 D2.
  Proof.
    intros Z1 Z2 [U1 U2 U3].
    constructor.
    - intros j Hj. rewrite (U1 j Hj) at 1. rewrite (fl_div FL) by auto.
      apply subf_ext; auto. intros; ring.
    - intros j Hj. symmetry. apply (div_eq O FL); auto.
    - intros j Hj. rewrite (U2 j Hj) at 1. rewrite (fl_div FL) by auto.
      rewrite (subf_ext O (a22 i j) (cols c21 i) (nzb c21 j) (fun k => (G21 i k * G21 j k * D1 k)%s)
        (nzb c21 j) (fun k => (G21 j k * (G21 i k * D1 k))%s)); auto.
      + apply subf_ext; auto. intros; ring.
      + intros; ring.
    - intros j Hj. symmetry. apply (div_eq O FL); auto.
    - rewrite U3 at 1. f_equal. rewrite !dfold_subf.
      rewrite (subf_ext O (ad i) (cols c21 i) (fun _ => true)
        (fun k => (G21 i k * G21 i k * D1 k)%s)
        (fun _ => true) (fun k => (G21 i k * D1 k * (G21 i k * D1 k / D1 k))%s)); auto.
      + apply subf_ext; auto. intros k Hk _. rewrite (div_eq O FL _ (D2 k) (G22 i k)) by auto. ring.
      + intros k Hk _. rewrite (div_eq O FL _ (D1 k) (G21 i k)) by auto. ring.
  Qed.

  Lemma kernelRows_methods mt mt' c11 c21 c22 n1 n2 G11 D1 a21 a22 ad reg G21 G22 D2 :
    gcsr c21 -> c_cols c21 = n1 -> gcsr c22 -> c_cols c22 = n2 ->
    (forall k, k < n1 -> D1 k <> 0%s) -> (forall k, k < n2 -> D2 k <> 0%s) ->
    kernelRows O mt c11 c21 c22 n2 G11 D1 a21 a22 ad reg G21 G22 D2 ->
    kernelRows O mt' c11 c21 c22 n2 G11 D1 a21 a22 ad reg G21 G22 D2.
  Proof.
    intros [W21 _] N21 [W22 _] N22 Z1 Z2 K.
    assert (B1 : forall i k, In k (cols c21 i) -> D1 k <> 0%s).
    { intros i k H. apply cols_In, (wfc_bounds _ W21) in H. apply Z1. lia. }
    assert (B2 : forall i k, In k (cols c22 i) -> D2 k <> 0%s).
    { intros i k H. apply cols_In, (wfc_bounds _ W22) in H. apply Z2. lia. }
    destruct mt, mt'; cbn [kernelRows] in *; auto.
    - destruct K as (s1 & s2 & K). intros i Hi.
      apply (up_ew _ _ _ _ _ _ _ _ _ _ (s1 i) (s2 i)); auto. eapply B1. eapply B2.
    - exists (fun i k => (G21 i k * D1 k)%s), (fun i k => (G22 i k * D2 k)%s).
      intros i Hi. apply ew_up; auto. eapply B1. eapply B2.
  Qed.

  (** the kernels agree if the pivots of one of them are nonzero *)
  Lemma factorize5_methods mt mt' b11 b21 b22 n1 n2 R11 R21 R22 q1 p1 p2 sy1 L11 D11
      init21 init22 reg L21 L22 D22 L21' L22' D22' :
    kernelHyp b11 b21 b22 n1 n2 R11 R21 R22 q1 p1 p2 sy1 ->
    coverRect init21 n2 n1 R21 p2 p1 -> coverSym init22 n2 R22 p2 ->
    readableI init21 -> readableI init22 ->
    length L11 = c_nnz (b_sp b11) -> length D11 = n1 ->
    length L21 = c_nnz (b_sp b21) -> length L22 = c_nnz (b_sp b22) -> length D22 = n2 ->
    factorize5 O mt b11 b21 b22 L11 D11 init21 init22 reg (L21, L22, D22) =
      Ok (L21', L22', D22') ->
    (forall k, k < n1 -> getD O D11 k <> 0%s) -> (forall k, k < n2 -> getD O D22' k <> 0%s) ->
    factorize5 O mt' b11 b21 b22 L11 D11 init21 init22 reg (L21, L22, D22) =
      Ok (L21', L22', D22').
  Proof.
    intros KH V21 V22 R1 R2 N11 ND1 N21 N22 ND2 EF Z1 Z2.
    destruct (factorize5_ok O mt b11 b21 b22 n1 n2 R11 R21 R22 q1 p1 p2 sy1 L11 D11
       init21 init22 reg L21 L22 D22) as (A & B & D & E & NA & NB & ND & K); auto.
    rewrite EF in E. injection E as <- <- <-.
    destruct (factorize5_ok O mt' b11 b21 b22 n1 n2 R11 R21 R22 q1 p1 p2 sy1 L11 D11
       init21 init22 reg L21 L22 D22) as (A' & B' & D' & E' & NA' & NB' & ND' & K'); auto.
    rewrite E'. destruct KH as [G11 G21 G22 Low Cl [C1 C2 C3 C4]].
    apply (kernelRows_methods mt mt' _ _ _ n1 n2) in K; auto;
      try (eapply goodBlk_gcsr; eauto; fail); try (eapply gb_cols; eauto; fail).
    pose proof (kernelRows_unique O mt' (b_sp b11) (b_sp b21) (b_sp b22) n2 _ _ _ _ _ _ _ _ _ _ _ _ _ _ _
      (fun i j H => Low i j (proj1 (gb_in _ _ _ _ _ _ _ G11 i j) H))
      (fun i j H => C3 i j (proj1 (gb_in _ _ _ _ _ _ _ G22 i j) H))
      (fun i j _ => eq_refl) (fun i j _ => eq_refl) (fun i _ => eq_refl) K' K) as U.
    assert (EqA : A' = L21').
    { apply (getL_ext O (b_sp b21)); auto; [eapply goodBlk_gcsr; eauto|]. intros i j H.
      apply U; [|apply cols_In; auto].
      apply (wfc_bounds _ (gb_wf _ _ _ _ _ _ _ G21)) in H.
      rewrite (gb_rows _ _ _ _ _ _ _ G21) in H. lia. }
    assert (EqB : B' = L22').
    { apply (getL_ext O (b_sp b22)); auto; [eapply goodBlk_gcsr; eauto|]. intros i j H.
      apply U; [|apply cols_In; auto].
      apply (wfc_bounds _ (gb_wf _ _ _ _ _ _ _ G22)) in H.
      rewrite (gb_rows _ _ _ _ _ _ _ G22) in H. lia. }
    assert (EqD : D' = D22').
    { apply (list_ext _ _ (o0 O)); [lia|]. intros k Hk. apply (U k). lia. }
    congruence.
  Qed.

  Lemma single_methods mt mt' s n p b m sp vals reg L0 D0 L D L0' D0' :
    spOf s n n -> validPerm n p -> factorizationBlk s p = Ok b ->
    inputOf O m sp vals -> spOf sp n n -> coveredSym (entries sp) (entries s) n p ->
    length L0 = c_nnz (b_sp b) -> length D0 = n ->
    length L0' = c_nnz (b_sp b) -> length D0' = n ->
    factorize O mt b (Some m) reg (L0, D0) = Ok (L, D) ->
    (forall k, k < n -> vecAt O D k <> 0%s) ->
    factorize O mt' b (Some m) reg (L0', D0') = Ok (L, D).
  Proof.
    intros HS HP HB HI HSI HC N1 N2 N3 N4 EF HZ.
    rewrite (proj1 (single_indep O mt' s n p b m sp vals m sp vals reg L0' D0' L0 D0
      HS HP HB HI HSI HC HI HSI HC (fun _ _ _ _ => eq_refl) N3 N4 N1 N2)).
    destruct (block_ok s n p HS HP) as (b' & EB & G). rewrite HB in EB. injection EB as <-.
    unfold factorize in *. cbn [fst snd] in *. rewrite (gb_rows _ _ _ _ _ _ _ G) in *.
    set (Q := factorize5 O mt emptyDiagBlk (emptyLeftBlk b) b [] []
      (Some (emptyMatrixInput n 0)) (Some m) reg ([], L0, D0)) in EF.
    destruct Q as [[[X L1] D1]|] eqn:EQ; cbn [bind] in EF; [|discriminate].
    injection EF as -> ->. subst Q.
    rewrite (factorize5_methods mt mt' emptyDiagBlk (emptyLeftBlk b) b 0 n noPat noPat
      (Fill (permLow (entries s) n p)) [] [] p true [] [] _ _ reg [] L0 D0 X L D); auto.
    - apply single_hyp; auto using Fill_closed. intros; eapply Fill_low; eauto.
    - split.
      + constructor; auto. intros i j [].
      + intros i j (_ & Hj & _). lia.
    - split; auto. rewrite (io_sp _ _ _ _ HI). auto. rewrite (io_sp _ _ _ _ HI). auto.
    - intros k Hk. cbn in Hk. lia.
    - eapply inputOf_readable; eauto.
    - intros k Hk. lia.
  Qed.
End Methods.
