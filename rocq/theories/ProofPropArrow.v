(** The properties of the arrowhead linked factorization and of the block
    tridiagonal one. *)
From Coq Require Import List Arith Lia Bool Ring.
From Verif Require Import Base ModelPerm ModelSparsity ModelSymbolic ModelNumeric ModelArrow ModelReg.
From Verif Require Import SpecSymbolic SpecArrow SpecNumeric SpecArrowNum.
From Verif Require Import ProofBase ProofPerm ProofExact ProofLdl ProofMultiply ProofArrowSym ProofArrowRows.
From Verif Require Import ProofArrowUniq ProofArrowDense ProofArrowProduct ProofArrowMain ProofArrowMultiply.
Import ListNotations.

Section LawFree.
  Context {F : Type} (O : ops F).

  (** C18 *)
  Lemma arrow_compiles s ds dt dl dO : arrowDims s ds dt dl dO ->
    exists k, arrowBlocks s = Ok k /\
      forall n, (exists d, arrowCtor O k n = Ok d /\ dataOf k n ds dt dl dO d) /\
      forall mt reg m w d0, dataOf k n ds dt dl dO d0 ->
        inputArrow O n ds dt dl dO m w -> declaredArrow s n m ->
        exists d, arrowFactorize O mt k m reg d0 = Ok d /\ dataOf k n ds dt dl dO d.
  Proof.
    intros HD. destruct (arrowBlocks_ok s ds dt dl dO HD) as (k & P & Ek & AG & AC & AV).
    exists k. split; auto. intros n. split; [apply (arrowCtor_ok O s ds dt dl dO k P n AG)|].
    intros mt reg m w d0 DO IA DA.
    pose proof (goodInput_of O s ds dt dl dO P n m w HD AV IA DA) as GI.
    destruct (arrowFactorize_ok O s ds dt dl dO k P AG AC mt n m reg d0 DO GI) as (d & E & DO' & _).
    eauto.
  Qed.

  (** C11 *)
  Lemma arrow_reusable s ds dt dl dO k n mt reg m w d d' :
    arrowDims s ds dt dl dO -> arrowBlocks s = Ok k ->
    inputArrow O n ds dt dl dO m w -> declaredArrow s n m ->
    dataOf k n ds dt dl dO d -> dataOf k n ds dt dl dO d' ->
    arrowFactorize O mt k m reg d = arrowFactorize O mt k m reg d'.
  Proof.
    intros HD Ek IA DA D1 D2.
    destruct (arrowBlocks_ok s ds dt dl dO HD) as (k' & P & Ek' & AG & AC & AV).
    rewrite Ek in Ek'. injection Ek' as <-.
    pose proof (goodInput_of O s ds dt dl dO P n m w HD AV IA DA) as GI.
    exact (arrow_reuse O s ds dt dl dO k P AG AC mt n m reg d d' D1 D2 GI).
  Qed.
End LawFree.

Section Exact.
  Context {F : Type} (O : ops F) (FL : fieldLaws O).
  Local Notation "0" := (o0 O) : scalar.
  Local Notation "a + b" := (oadd O a b) : scalar.
  Local Notation "a - b" := (osub O a b) : scalar.
  Local Notation "a * b" := (omul O a b) : scalar.
  Local Notation sum := (sumn O).
  Local Notation vat := (vecAt O).
  Add Ring FrPA : (fl_ring FL).

  (** C08 *)
  Lemma arrow_reproduces mt s ds dt dl dO n m w reg :
    arrowDims s ds dt dl dO -> inputArrow O n ds dt dl dO m w -> declaredArrow s n m ->
    exists k, arrowBlocks s = Ok k /\
      (exists d, arrowCtor O k n = Ok d /\ dataOf k n ds dt dl dO d) /\
      forall d0, dataOf k n ds dt dl dO d0 ->
      exists d, arrowFactorize O mt k m reg d0 = Ok d /\ dataOf k n ds dt dl dO d /\
        (forall g, In g (allIdx n ds dt dl dO) -> factorAt O (fl_one FL) k d g g = fl_one FL) /\
        (forall g h, In g (allIdx n ds dt dl dO) -> In h (allIdx n ds dt dl dO) ->
           gbefore g h -> factorAt O (fl_one FL) k d g h = 0%s) /\
        ((forall g, In g (allIdx n ds dt dl dO) -> pivotAt O d g <> 0%s) ->
         exists E,
           (forall g, In g (allIdx n ds dt dl dO) ->
              pivotAt O d g = reg (pivotAt O d g - E (permIdx s g))%s (localIdx g)) /\
           (forall g h, In g (allIdx n ds dt dl dO) -> In h (allIdx n ds dt dl dO) ->
              gldltAt O (allIdx n ds dt dl dO) (factorAt O (fl_one FL) k d) (pivotAt O d) g h =
              plusDiagG O (matAt O m w) E (permIdx s g) (permIdx s h))).
  Proof.
    intros HD IA DA. destruct (arrowBlocks_ok s ds dt dl dO HD) as (k & P & Ek & AG & AC & AV).
    exists k. split; auto. split; [apply (arrowCtor_ok O s ds dt dl dO k P n AG)|].
    intros d0 DO.
    destruct (arrow_identity O FL s ds dt dl dO k P HD AG AC AV mt n m w reg d0 DO IA DA)
      as (d & E & DO' & H).
    exists d. split; auto. split; auto. split; [|split; auto].
    - intros g Hg. rewrite (factorAt_low O FL ds dt dl dO k n d g g DO' Hg Hg).
      destruct g as [i|t i|i|i]; cbn [lowArrow unitFun f_sd f_td f_ld f_od];
        rewrite ?Nat.eqb_refl; auto.
    - intros g h Hg Hh Hlt. rewrite (factorAt_low O FL ds dt dl dO k n d g h DO' Hg Hh).
      pose proof (strictFun_low O s ds dt dl dO k P AG AC d) as [S1 S2 S3 S4].
      destruct g as [i|t i|i|i], h as [j|u j|j|j]; cbn [gbefore] in Hlt; try tauto;
        cbn [lowArrow unitFun f_sd f_td f_ld f_od]; auto;
        try (destruct (Nat.eqb_spec i j); [lia|]);
        [apply S1; lia| |apply S3; lia|apply S4; lia].
      destruct (Nat.eqb_spec t u).
      + destruct (Nat.eqb_spec i j); [lia|]. apply S2. lia.
      + destruct (Nat.eqb_spec t (u + 1)); [lia|]. auto.
  Qed.

  Lemma arrow_methods_agree s ds dt dl dO k n mt mt' reg m w d0 d0' d :
    arrowDims s ds dt dl dO -> arrowBlocks s = Ok k ->
    inputArrow O n ds dt dl dO m w -> declaredArrow s n m ->
    dataOf k n ds dt dl dO d0 -> dataOf k n ds dt dl dO d0' ->
    arrowFactorize O mt k m reg d0 = Ok d ->
    (forall g, In g (allIdx n ds dt dl dO) -> pivotAt O d g <> 0%s) ->
    arrowFactorize O mt' k m reg d0' = Ok d.
  Proof.
    intros HD Ek IA DA D1 D2 E HZ.
    destruct (arrowBlocks_ok s ds dt dl dO HD) as (k' & P & Ek' & AG & AC & AV).
    rewrite Ek in Ek'. injection Ek' as <-.
    exact (arrow_methods O FL s ds dt dl dO k P HD AG AC AV mt mt' n m w reg d0 d0' d D1 D2 IA DA E HZ).
  Qed.

  (** C09 *)
  Lemma arrow_solves mt s ds dt dl dO k n m w reg d0 d :
    arrowDims s ds dt dl dO -> arrowBlocks s = Ok k ->
    inputArrow O n ds dt dl dO m w -> declaredArrow s n m ->
    dataOf k n ds dt dl dO d0 ->
    arrowFactorize O mt k m reg d0 = Ok d ->
    (forall g, In g (allIdx n ds dt dl dO) -> pivotAt O d g <> 0%s) ->
    exists E,
      (forall g, In g (allIdx n ds dt dl dO) ->
         pivotAt O d g = reg (pivotAt O d g - E (permIdx s g))%s (localIdx g)) /\
      forall rhs, vecOf n ds dt dl dO rhs ->
      exists x, arrowSolveInPlace O k d rhs = Ok x /\ vecOf n ds dt dl dO x /\
        (forall g, In g (allIdx n ds dt dl dO) ->
           gmatVec O (allIdx n ds dt dl dO) (plusDiagG O (matAt O m w) E) (gvecAt O x) g =
           gvecAt O rhs g) /\
        (forall x', vecOf n ds dt dl dO x' ->
           (forall g, In g (allIdx n ds dt dl dO) ->
              gmatVec O (allIdx n ds dt dl dO) (plusDiagG O (matAt O m w) E) (gvecAt O x') g =
              gvecAt O rhs g) -> x' = x).
  Proof.
    intros HD Ek IA DA DO EF HZ.
    destruct (arrowBlocks_ok s ds dt dl dO HD) as (k' & P & Ek' & AG & AC & AV).
    rewrite Ek in Ek'. injection Ek' as <-.
    destruct (arrow_identity O FL s ds dt dl dO k P HD AG AC AV mt n m w reg d0 DO IA DA)
      as (d' & EF' & DO' & H). rewrite EF in EF'. injection EF' as <-.
    destruct (H HZ) as (E & HE & HP). exists E. split; auto. intros rhs HV.
    exact (arrow_solve O FL s ds dt dl dO k P HD AG AC n d (plusDiagG O (matAt O m w) E) rhs
             DO' HV HZ HP).
  Qed.

  (** RegularizationNone: E vanishes *)
  Lemma arrow_none_E s n ds dt dl dO (D E : gidx -> F) : arrowDims s ds dt dl dO ->
    (forall g, In g (allIdx n ds dt dl dO) ->
       D g = regularizationNone (D g - E (permIdx s g))%s (localIdx g)) ->
    forall g, In g (allIdx n ds dt dl dO) -> E g = 0%s.
  Proof.
    intros HD H g Hg. destruct (permIdx_inv s n ds dt dl dO HD) as (q & Q).
    destruct (Q g Hg) as (_ & Hq & Eq). rewrite <- Eq. specialize (H _ Hq).
    unfold regularizationNone in H.
    transitivity (D (q g) - (D (q g) - E (permIdx s (q g))))%s; [ring|]. rewrite <- H. ring.
  Qed.

  Lemma plusDiagG_0 A E g h : E g = 0%s -> plusDiagG O A E g h = A g h.
  Proof. intros H. unfold plusDiagG. destruct (gidx_eq_dec g h); auto. rewrite H. ring. Qed.

  Lemma arrow_solves_none mt s ds dt dl dO k n m w d0 d rhs :
    arrowDims s ds dt dl dO -> arrowBlocks s = Ok k ->
    inputArrow O n ds dt dl dO m w -> declaredArrow s n m ->
    dataOf k n ds dt dl dO d0 ->
    arrowFactorize O mt k m regularizationNone d0 = Ok d ->
    (forall g, In g (allIdx n ds dt dl dO) -> pivotAt O d g <> 0%s) ->
    vecOf n ds dt dl dO rhs ->
    exists x, arrowSolveInPlace O k d rhs = Ok x /\ vecOf n ds dt dl dO x /\
      (forall g, In g (allIdx n ds dt dl dO) ->
         gmatVec O (allIdx n ds dt dl dO) (matAt O m w) (gvecAt O x) g = gvecAt O rhs g) /\
      (forall x', vecOf n ds dt dl dO x' ->
         (forall g, In g (allIdx n ds dt dl dO) ->
            gmatVec O (allIdx n ds dt dl dO) (matAt O m w) (gvecAt O x') g = gvecAt O rhs g) ->
         x' = x).
  Proof.
    intros HD Ek IA DA DO EF HZ HV.
    destruct (arrow_solves mt s ds dt dl dO k n m w regularizationNone d0 d HD Ek IA DA DO EF HZ)
      as (E & HE & HS).
    pose proof (arrow_none_E s n ds dt dl dO (pivotAt O d) E HD HE) as E0.
    assert (Eq : forall x g, In g (allIdx n ds dt dl dO) ->
      gmatVec O (allIdx n ds dt dl dO) (plusDiagG O (matAt O m w) E) x g =
      gmatVec O (allIdx n ds dt dl dO) (matAt O m w) x g).
    { intros x g Hg. unfold gmatVec. apply suml_ext. intros h _.
      rewrite plusDiagG_0; auto. }
    destruct (HS rhs HV) as (x & ES & VX & H1 & H2). exists x. split; auto. split; auto. split.
    - intros g Hg. rewrite <- Eq by auto. auto.
    - intros x' VX' H'. apply H2; auto. intros g Hg. rewrite Eq; auto.
  Qed.

  (** with simple entry lists the product uses the same matrix *)
  Lemma product_is_matrix n ds dt dl dO m w g h :
    inputArrow O n ds dt dl dO m w -> simpleArrow n m ->
    In g (allIdx n ds dt dl dO) -> In h (allIdx n ds dt dl dO) ->
    productAt O m w g h = matAt O m w g h.
  Proof.
    intros [I1 I2 I3 N4 I4 N5 I5 I6 I7 I8 N9 I9 I10] [S1 S2 S3 S4 S5 S6 S7 S8 S9 S10].
    rewrite !in_allIdx.
    assert (KS : forall mm nn vals i j, matOf O mm nn nn vals -> simpleSym mm ->
      kindAt O Symmetric (entries (m_sp mm)) vals i j = symAt O (entries (m_sp mm)) vals i j).
    { intros mm nn vals i j [_ I] [ND LT]. apply (kindAt_sym O FL); auto. apply (io_len _ _ _ _ I). }
    assert (KR : forall mm nr nc vals i j, matOf O mm nr nc vals -> simpleRect mm ->
      totalAt O (entries (m_sp mm)) vals i j = denseAt O (entries (m_sp mm)) vals i j).
    { intros mm nr nc vals i j [_ I] ND. apply (total_first O FL); auto. apply (io_len _ _ _ _ I). }
    unfold productAt, matAt. rewrite N5.
    destruct g as [i|t i|i|i], h as [j|u j|j|j]; intros Hg Hh;
      cbn [symArrow multFun matFun f_sd f_sn f_so f_td f_ts f_lp f_ld f_ln f_os f_od]; auto;
      try (eapply KS; eauto; fail); try (eapply KR; eauto; fail);
      try (destruct (_ =? _); auto; eapply KR; eauto; fail).
    - destruct (Nat.eqb_spec t u); [eapply KS; [apply I4|apply S4]; tauto|].
      destruct (Nat.eqb_spec t (u + 1)); [eapply KR; [apply I5|apply S5]; lia|].
      destruct (Nat.eqb_spec u (t + 1)); [eapply KR; [apply I5|apply S5]; lia|]. auto.
    - eapply KR; [apply I9|apply S9]; tauto.
    - eapply KR; [apply I9|apply S9]; tauto.
  Qed.

  Lemma zeroVec_of n ds dt dl dO : vecOf n ds dt dl dO (zeroVec O n ds dt dl dO).
  Proof.
    constructor; cbn [zeroVec v_start v_tri v_link v_outer]; rewrite ?repeat_length; auto.
    intros t Ht. rewrite nth_repeat' by auto. apply repeat_length.
  Qed.

  Lemma zeroVec_at n ds dt dl dO g : In g (allIdx n ds dt dl dO) ->
    gvecAt O (zeroVec O n ds dt dl dO) g = 0%s.
  Proof.
    rewrite in_allIdx. destruct g as [i|t i|i|i]; intros Hg;
      cbn [gvecAt zeroVec v_start v_tri v_link v_outer]; rewrite ?nth_repeat' by tauto;
      apply (vecAt_repeat0 O).
  Qed.

  (** C10 *)
  Lemma arrow_round_trip mt s ds dt dl dO k n m w d0 d x :
    arrowDims s ds dt dl dO -> arrowBlocks s = Ok k ->
    inputArrow O n ds dt dl dO m w -> declaredArrow s n m -> simpleArrow n m ->
    dataOf k n ds dt dl dO d0 ->
    arrowFactorize O mt k m regularizationNone d0 = Ok d ->
    (forall g, In g (allIdx n ds dt dl dO) -> pivotAt O d g <> 0%s) ->
    vecOf n ds dt dl dO x ->
    exists rhs, arrowMultiply O m x (zeroVec O n ds dt dl dO) = Ok rhs /\
      arrowSolveInPlace O k d rhs = Ok x.
  Proof.
    intros HD Ek IA DA SI DO EF HZ VX.
    destruct (arrow_multiply_ok O FL n ds dt dl dO m w x (zeroVec O n ds dt dl dO) IA VX
                (zeroVec_of n ds dt dl dO)) as (rhs & EM & VR & HR).
    exists rhs. split; auto.
    destruct (arrow_solves_none mt s ds dt dl dO k n m w d0 d rhs HD Ek IA DA DO EF HZ VR)
      as (y & ES & VY & _ & U).
    rewrite ES. f_equal. symmetry. apply U; auto. intros g Hg. rewrite HR by auto.
    rewrite zeroVec_at by auto. 
    transitivity (gmatVec O (allIdx n ds dt dl dO) (productAt O m w) (gvecAt O x) g); [|ring].
    unfold gmatVec. apply suml_ext. intros h Hh.
    rewrite (product_is_matrix n ds dt dl dO m w g h IA SI Hg Hh). auto.
  Qed.

  (** permutation independence *)
  Lemma arrow_permutation_indep mt mt' s s' ds dt dl dO k k' n m w d0 d0' d d' rhs :
    arrowDims s ds dt dl dO -> arrowBlocks s = Ok k ->
    arrowDims s' ds dt dl dO -> arrowBlocks s' = Ok k' ->
    inputArrow O n ds dt dl dO m w -> declaredArrow s n m -> declaredArrow s' n m ->
    dataOf k n ds dt dl dO d0 -> dataOf k' n ds dt dl dO d0' ->
    arrowFactorize O mt k m regularizationNone d0 = Ok d ->
    arrowFactorize O mt' k' m regularizationNone d0' = Ok d' ->
    (forall g, In g (allIdx n ds dt dl dO) -> pivotAt O d g <> 0%s) ->
    (forall g, In g (allIdx n ds dt dl dO) -> pivotAt O d' g <> 0%s) ->
    vecOf n ds dt dl dO rhs ->
    exists x, arrowSolveInPlace O k d rhs = Ok x /\ arrowSolveInPlace O k' d' rhs = Ok x.
  Proof.
    intros HD Ek HD' Ek' IA DA DA' DO DO' EF EF' HZ HZ' VR.
    destruct (arrow_solves_none mt s ds dt dl dO k n m w d0 d rhs HD Ek IA DA DO EF HZ VR)
      as (x & ES & VX & H1 & H2).
    destruct (arrow_solves_none mt' s' ds dt dl dO k' n m w d0' d' rhs HD' Ek' IA DA' DO' EF' HZ' VR)
      as (x' & ES' & VX' & H1' & H2').
    exists x. split; auto. rewrite ES'. f_equal. apply H2; auto.
  Qed.

  (** ** the block tridiagonal wrapper *)

  Lemma spOf_empty nr nc : spOf (emptySparsity nr nc) nr nc.
  Proof. constructor; auto. intros i j []. Qed.

  Lemma matOf_empty nr nc : matOf O (emptyMatrixInput nr nc) nr nc [].
  Proof.
    split; [apply spOf_empty|]. constructor; auto. intros i Hi. cbn in Hi. lia.
  Qed.

  Lemma tri_dims A B p dt : spOf A dt dt -> spOf B dt dt -> validPerm dt p ->
    arrowDims (tridiagonalSparsity A B p) 0 dt 0 0.
  Proof.
    intros SA SB HP. unfold tridiagonalSparsity.
    rewrite (sp_rows _ _ _ SA), (sp_cols _ _ _ SA).
    assert (V0 : validPerm 0 (iota_perm 0)).
    { split; auto. split; [constructor|intros x []]. }
    constructor; cbn [as_start as_tri as_link as_outer ss_diag ss_next ss_outer ss_perm st_diag
      st_subdiag st_perm sl_prev sl_diag sl_next sl_perm so_subdiag so_diag so_perm]; auto;
      apply spOf_empty.
  Qed.

  Lemma tri_blocks A B p dt : spOf A dt dt -> spOf B dt dt ->
    tridiagonalBlocks A B p = arrowBlocks (tridiagonalSparsity A B p).
  Proof.
    intros SA SB. unfold tridiagonalBlocks, isSquare.
    rewrite (sp_rows _ _ _ SA), (sp_cols _ _ _ SA), (sp_rows _ _ _ SB), (sp_cols _ _ _ SB).
    rewrite Nat.eqb_refl. reflexivity.
  Qed.

  Definition triVals n (wA wB : list (list F)) : arrow_vals F :=
    mkVals [] [] [] wA wB [] [] [] (repeat [] (n + 1)) [].

  Lemma tri_input n dt A B wA wB : inputTri O n dt A B wA wB ->
    inputArrow O n 0 dt 0 0 (tridiagonalInput dt A B n) (triVals n wA wB).
  Proof.
    intros [N1 I1 N2 I2]. constructor; cbn [tridiagonalInput triVals a_sd a_sn a_so a_td a_ts a_lp a_ld
      a_ln a_os a_od w_sd w_sn w_so w_td w_ts w_lp w_ld w_ln w_os w_od]; auto;
      try apply matOf_empty.
    - apply repeat_length.
    - intros t Ht. rewrite !nth_repeat' by auto. apply matOf_empty.
  Qed.

  Lemma tri_declared a b p n dt (A B : list (mat (F:=F))) : declaredTri a b n A B ->
    declaredArrow (tridiagonalSparsity a b p) n (tridiagonalInput dt A B n).
  Proof.
    intros [D1 D2]. constructor; cbn [tridiagonalInput tridiagonalSparsity a_sd a_sn a_so a_td a_ts
      a_lp a_ld a_ln a_os a_od as_start as_tri as_link as_outer ss_diag ss_next ss_outer ss_perm st_diag
      st_subdiag st_perm sl_prev sl_diag sl_next sl_perm so_subdiag so_diag so_perm]; auto;
      try (intros r c []; fail); try (intros r c [] _).
    intros t Ht. rewrite nth_repeat' by auto. intros r c [].
  Qed.

  Lemma tri_vec n dt (v : list (list F)) : blocksOf n dt v -> vecOf n 0 dt 0 0 (mkAV [] v [] []).
  Proof. intros [H1 H2]. constructor; auto. Qed.

  Lemma in_tri n dt g : In g (allIdx n 0 dt 0 0) <->
    exists t i, g = GT t i /\ t < n + 1 /\ i < dt.
  Proof.
    rewrite in_allIdx. destruct g as [i|t i|i|i]; split; intros H; try lia; eauto;
      destruct H as (t' & i' & E & H); try discriminate. injection E as -> ->. auto.
  Qed.

  Lemma tri_matVec n dt A B wA wB E x t i : inputTri O n dt A B wA wB -> t < n + 1 -> i < dt ->
    gmatVec O (allIdx n 0 dt 0 0)
      (plusDiagG O (matAt O (tridiagonalInput dt A B n) (triVals n wA wB)) E)
      (gvecAt O (mkAV [] x [] [])) (GT t i) =
    triMatVec O n dt (plusDiagT O (triMatAt O A B wA wB) (fun t i => E (GT t i))) x t i.
  Proof.
    intros [N1 I1 N2 I2] Ht Hi. unfold gmatVec, triMatVec. rewrite (suml_allIdx O FL). cbn [sumn].
    transitivity (sum (n + 1) (fun u => sum dt (fun j =>
      plusDiagG O (matAt O (tridiagonalInput dt A B n) (triVals n wA wB)) E (GT t i) (GT u j) *
      gvecAt O (mkAV [] x [] []) (GT u j)))%s); [ring|].
    apply sumn_ext. intros u Hu. apply sumn_ext. intros j Hj. f_equal.
    unfold plusDiagG, plusDiagT.
    destruct (gidx_eq_dec (GT t i) (GT u j)) as [Eq|Ne].
    - injection Eq as <- <-. rewrite !Nat.eqb_refl. reflexivity.
    - destruct ((t =? u) && (i =? j)) eqn:Eb; auto.
      apply andb_true_iff in Eb. rewrite !Nat.eqb_eq in Eb. destruct Eb. congruence.
  Qed.

  (** C12 *)
  Lemma tri_factorizes mt a b p dt n A B wA wB reg :
    spOf a dt dt -> spOf b dt dt -> validPerm dt p ->
    inputTri O n dt A B wA wB -> declaredTri a b n A B ->
    exists k, tridiagonalBlocks a b p = Ok k /\
      (exists d, arrowCtor O k n = Ok d /\ dataOf k n 0 dt 0 0 d) /\
      forall d0, dataOf k n 0 dt 0 0 d0 ->
      exists d, tridiagonalFactorize O mt k dt A B reg d0 = Ok d /\ dataOf k n 0 dt 0 0 d /\
        ((forall t i, t < n + 1 -> i < dt -> pivotAt O d (GT t i) <> 0%s) ->
         exists E,
           (forall t i, t < n + 1 -> i < dt ->
              pivotAt O d (GT t i) = reg (pivotAt O d (GT t i) - E t (nth i p 0%nat))%s i) /\
           (forall t i u j, t < n + 1 -> i < dt -> u < n + 1 -> j < dt ->
              gldltAt O (allIdx n 0 dt 0 0) (factorAt O (fl_one FL) k d) (pivotAt O d) (GT t i) (GT u j) =
              plusDiagT O (triMatAt O A B wA wB) E t (nth i p 0%nat) u (nth j p 0%nat)) /\
           forall rhs, blocksOf n dt rhs ->
           exists x, tridiagonalSolveInPlace O k d rhs = Ok x /\ blocksOf n dt x /\
             (forall t i, t < n + 1 -> i < dt ->
                triMatVec O n dt (plusDiagT O (triMatAt O A B wA wB) E) x t i =
                vat (nth t rhs []) i) /\
             (forall x', blocksOf n dt x' ->
                (forall t i, t < n + 1 -> i < dt ->
                   triMatVec O n dt (plusDiagT O (triMatAt O A B wA wB) E) x' t i =
                   vat (nth t rhs []) i) -> x' = x)).
  Proof.
    intros SA SB HP IT DT.
    pose proof (tri_dims a b p dt SA SB HP) as HD. pose proof (tri_input n dt A B wA wB IT) as IA.
    pose proof (tri_declared a b p n dt A B DT) as DA.
    destruct (arrow_reproduces mt _ _ _ _ _ n _ _ reg HD IA DA) as (k & Ek & HC & HF).
    exists k. split; [rewrite (tri_blocks a b p dt); auto|]. split; auto.
    intros d0 DO. destruct (HF d0 DO) as (d & EF & DO' & _ & _ & HX). exists d.
    split; [|split; auto].
    { unfold tridiagonalFactorize, numRepetitions. rewrite (do_nts _ _ _ _ _ _ _ DO). auto. }
    intros HZ.
    assert (HZ' : forall g, In g (allIdx n 0 dt 0 0) -> pivotAt O d g <> 0%s).
    { intros g Hg. apply in_tri in Hg. destruct Hg as (t & i & -> & Ht & Hi). auto. }
    destruct (HX HZ') as (E & HE & HL). exists (fun t i => E (GT t i)). split; [|split].
    - intros t i Ht Hi. apply (HE (GT t i)). apply in_tri. eauto.
    - intros t i u j Ht Hi Hu Hj. rewrite HL by (apply in_tri; eauto).
      cbn [permIdx tridiagonalSparsity as_tri st_perm].
      unfold plusDiagG, plusDiagT.
      destruct (gidx_eq_dec _ _) as [Eq|Ne].
      + injection Eq as -> Eq. rewrite Eq, !Nat.eqb_refl. reflexivity.
      + destruct ((t =? u) && _) eqn:Eb.
        * apply andb_true_iff in Eb. rewrite !Nat.eqb_eq in Eb. destruct Eb. congruence.
        * reflexivity.
    - intros rhs HV.
      destruct (arrowBlocks_ok _ _ _ _ _ HD) as (k' & P & Ek' & AG & AC & AV).
      rewrite Ek in Ek'. injection Ek' as <-.
      destruct (arrow_solve O FL _ 0 dt 0 0 k P HD AG AC n d _ (mkAV [] rhs [] []) DO' (tri_vec n dt rhs HV)
        HZ' HL) as (y & ES & VY & H1 & H2).
      exists (v_tri y). unfold tridiagonalSolveInPlace. rewrite ES. split; auto.
      assert (Ey : y = mkAV [] (v_tri y) [] []).
      { destruct y as [y1 y2 y3 y4], VY as [V1 V2 V3 V4 V5]. cbn [v_start v_tri v_link v_outer] in *.
        destruct y1, y3, y4; cbn in V1, V4, V5; try lia. auto. }
      split; [split; [apply VY|apply VY]|]. split.
      + intros t i Ht Hi. rewrite <- (tri_matVec n dt A B wA wB) by auto. rewrite <- Ey.
        apply (H1 (GT t i)). apply in_tri. eauto.
      + intros x' VX' H'. specialize (H2 (mkAV [] x' [] []) (tri_vec n dt x' VX')).
        rewrite <- H2; auto. intros g Hg. apply in_tri in Hg. destruct Hg as (t & i & -> & Ht & Hi).
        rewrite tri_matVec by auto. apply H'; auto.
  Qed.

  Lemma tri_product_is_matrix n dt A B wA wB t i u j :
    inputTri O n dt A B wA wB -> simpleTri n A B -> t < n + 1 -> u < n + 1 ->
    triProductAt O A B wA wB t i u j = triMatAt O A B wA wB t i u j.
  Proof.
    intros [N1 I1 N2 I2] [S1 S2] Ht Hu. unfold triProductAt, triMatAt, triAt.
    assert (KR : forall v i j, v < n -> totalAt O (entries (m_sp (nth v B noMat))) (nth v wB []) i j =
      denseAt O (entries (m_sp (nth v B noMat))) (nth v wB []) i j).
    { intros v i' j' Hv. apply (total_first O FL); [apply S2; auto|].
      destruct (I2 v Hv) as [_ I]. apply (io_len _ _ _ _ I). }
    destruct (Nat.eqb_spec t u).
    - destruct (I1 t Ht) as [_ I]. apply (kindAt_sym O FL); try apply (S1 t Ht).
      apply (io_len _ _ _ _ I).
    - destruct (Nat.eqb_spec t (u + 1)); [apply KR; lia|].
      destruct (Nat.eqb_spec u (t + 1)); [apply KR; lia|]. auto.
  Qed.

  Lemma tri_round_trip mt a b p dt n k A B wA wB d0 d x :
    spOf a dt dt -> spOf b dt dt -> validPerm dt p -> tridiagonalBlocks a b p = Ok k ->
    inputTri O n dt A B wA wB -> declaredTri a b n A B -> simpleTri n A B ->
    dataOf k n 0 dt 0 0 d0 ->
    tridiagonalFactorize O mt k dt A B regularizationNone d0 = Ok d ->
    (forall t i, t < n + 1 -> i < dt -> pivotAt O d (GT t i) <> 0%s) ->
    blocksOf n dt x ->
    exists rhs, multiplyRepeatingBlockTridiagonal O A B x (repeat (repeat (o0 O) dt) (n + 1)) = Ok rhs /\
      tridiagonalSolveInPlace O k d rhs = Ok x.
  Proof.
    intros SA SB HP Ek IT DT ST DO EF HZ [X1 X2].
    destruct (tri_factorizes mt a b p dt n A B wA wB regularizationNone SA SB HP IT DT)
      as (k' & Ek' & _ & HF). rewrite Ek in Ek'. injection Ek' as <-.
    destruct (HF d0 DO) as (d' & EF' & DO' & HX). rewrite EF in EF'. injection EF' as <-.
    destruct (HX HZ) as (E & HE & _ & HS).
    assert (E0 : forall t i, t < n + 1 -> i < dt -> E t i = 0%s).
    { intros t i Ht Hi. pose proof HP as HP'. apply validPerm_isPerm in HP'.
      destruct (isPerm_surj dt p i HP' Hi) as (g & Hg & <-). specialize (HE t g Ht Hg).
      unfold regularizationNone in HE.
      transitivity (pivotAt O d (GT t g) - (pivotAt O d (GT t g) - E t (nth g p 0%nat)))%s; [ring|].
      rewrite <- HE. ring. }
    destruct IT as [N1 I1 N2 I2].
    destruct (tri_multiply_ok O FL n dt A B wA wB x (repeat (repeat (o0 O) dt) (n + 1)))
      as (rhs & EM & R1 & R2 & HR); auto.
    { apply repeat_length. }
    { intros t Ht. rewrite nth_repeat' by auto. apply repeat_length. }
    exists rhs. split; auto.
    destruct (HS rhs (conj R1 R2)) as (y & ES & VY & _ & U). rewrite ES. f_equal. symmetry.
    apply U; [split; auto|]. intros t i Ht Hi. rewrite HR by auto.
    rewrite nth_repeat' by auto. rewrite (vecAt_repeat0 O). unfold triMatVec.
    match goal with |- _ = (_ + ?s)%s => transitivity s; [|ring] end.
    apply sumn_ext. intros u Hu. apply sumn_ext. intros j Hj. f_equal.
    unfold plusDiagT. rewrite E0 by auto.
    fold (triProductAt O A B wA wB).
    rewrite (tri_product_is_matrix n dt) by (auto; constructor; auto).
    destruct ((t =? u) && (i =? j)); auto. ring.
  Qed.
End Exact.
