(** Rounding errors of factorize and solveInPlace: single matrix and arrowhead systems. *)
From Coq Require Import Reals Lra Lia List Arith Bool Permutation.
From Verif Require Import Base ModelPerm ModelSparsity ModelSymbolic ModelNumeric ModelArrow ModelReg.
From Verif Require Import SpecSymbolic SpecArrow SpecNumeric SpecArrowNum SpecReg SpecRound.
From Verif Require Import ProofBase ProofPerm ProofCsr ProofFill ProofDense ProofExact ProofLdl ProofKernel ProofSolve
  ProofSingle ProofSingleMain ProofMultiply ProofArrowSym ProofArrowRows ProofArrowUniq ProofArrowDense ProofArrowProduct ProofArrowSolve ProofArrowMain
  ProofArrowSub ProofChain ProofChainKernel ProofChainArrow ProofRound ProofRoundLdl ProofRoundMain.
Import ListNotations.
Local Open Scope R_scope.
Local Notation rsum := (suml Or).

Lemma rsum_permut {I} (l l' : list I) f : Permutation l l' -> rsum l f = rsum l' f.
Proof. apply (suml_perm Or FLr). Qed.

Lemma rsum_perm n p f : isPerm n p -> rsum (seq 0 n) (fun i => f (nth i p 0%nat)) = rsum (seq 0 n) f.
Proof.
  intros P. rewrite !(suml_seq Or FLr). apply (sumn_perm Or FLr); auto.
Qed.

Section User.
  Context {F : Type} (O : ops F) (fin : F -> Prop) (val : F -> R) (u eta : R).
  Context (RO : rounding O fin val u eta).

  Section Single.
  Variables (s : sparsity) (n : nat) (p : perm) (b : blk).
  Hypothesis HS : spOf s n n.
  Hypothesis HP : validPerm n p.
  Hypothesis HB : factorizationBlk s p = Ok b.
  Local Notation es := (c_entries (b_sp b)).
  Local Notation U L := (unitL O val es L).
  Local Notation V D := (fun k => val (vecAt O D k)).
  Local Notation all := (seq 0 n).
  Local Notation q i := (nth i p 0%nat).

  Lemma blk_good : goodBlk b n n (Fill (permLow (entries s) n p)) p p true.
  Proof.
    destruct (block_ok s n p HS HP) as (b' & EB & G). rewrite HB in EB. injection EB as <-. auto.
  Qed.
  Lemma blk_low i j : Fill (permLow (entries s) n p) i j -> (j < i)%nat.
  Proof. intros; eapply Fill_low; eauto. Qed.

  Lemma unitL_get L g h : length L = c_nnz (b_sp b) ->
    unitOf Nat.eq_dec (fun i j => val (getL O (b_sp b) L i j)) g h = U L g h.
  Proof. intros H. unfold unitL, unitOf. rewrite (getL_dense O) by auto. auto. Qed.

  Lemma getL_fin L i j : (forall v, In v L -> fin v) -> length L = c_nnz (b_sp b) -> fin (getL O (b_sp b) L i j).
  Proof.
    intros H HL. unfold getL. destruct (findEntryIndex (c_entries (b_sp b)) (i, j)) as [k|]; [|apply RO].
    destruct (nth_in_or_default k L (o0 O)) as [Hi| ->]; auto. apply RO.
  Qed.
  Lemma vecAt_fin D i : (forall v, In v D -> fin v) -> fin (vecAt O D i).
  Proof.
    intros H. unfold vecAt. destruct (nth_in_or_default i D (o0 O)) as [Hi| ->]; auto. apply RO.
  Qed.

  Lemma single_solve_rounding L D rhs cc :
    length L = c_nnz (b_sp b) -> length D = n -> length rhs = n ->
    (forall v, In v D -> fin v) ->
    (forall j, (j < n)%nat -> (colCount es j <= cc)%nat) ->
    exists x, solveInPlace O b (L, D) rhs = Ok x /\ length x = n /\
      ((forall v, In v x -> fin v) -> forall i, (i < n)%nat ->
       Rabs (val (vecAt O rhs (q i)) -
             rsum all (fun j => prodAt all (U L) (V D) i j * val (vecAt O x (q j)))) <=
       solveBound all (U L) (V D) u eta (rowCount es i) cc (fun j => val (vecAt O x (q j))) i).
  Proof.
    intros NL ND NR FD CC.
    destruct (single_solve_eqs O b n _ p L D rhs blk_good blk_low NL ND NR)
      as (y & z & x & E & Nx & FE & DE & BE).
    exists x. split; auto. split; auto. intros FX i Hi.
    pose proof (solve_bound O fin val u eta RO Nat.eq_dec all (cols (b_sp b)) (fun _ _ => o0 O)
      (getL O (b_sp b) L) (getD O D) (fun g _ => vecAt_fin D g FD) (rowsOf (b_sp b) n)
      (vat O p rhs) y z (vat O p x) cc
      (single_rows0 O b n _ p blk_good blk_low (Fill_closed _) L) (single_cols b n) FE DE BE) as H.
    specialize (H ltac:(intros g Hg; apply in_seq in Hg; eapply Nat.le_trans; [apply rowsOf_count|]; apply CC; lia)).
    specialize (H (fun g _ => vecAt_fin x (q g) FX)).
    assert (Hin : In i all) by (apply in_seq; lia).
    specialize (H i Hin). rewrite cols_count in H.
    rewrite (solveBound_ext all _ (U L) _ (V D) (fun g h _ _ => unitL_get L g h NL) (fun g _ => eq_refl)
      u eta _ cc _ (fun j => val (vecAt O x (q j))) i Hin (fun h _ => eq_refl)) in H.
    eapply Rle_trans; [|exact H]. right. f_equal. f_equal. apply rsum_ext. intros h Hh.
    f_equal. symmetry. apply (prodAt_ext all); auto. intros; apply unitL_get; auto.
  Qed.

  Section Factor.
  Variables (mt : method) (a : sparsity) (vals : list F) (m : mat (F:=F)) (reg : F -> nat -> F).
  Variables (L0 D0 L D : list F).
  Hypothesis HA : spOf a n n.
  Hypothesis HI : inputOf O m a vals.
  Hypothesis HC : coveredSym (entries a) (entries s) n p.
  Hypothesis N1 : length L0 = c_nnz (b_sp b).
  Hypothesis N2 : length D0 = n.
  Hypothesis EF : factorize O mt b (Some m) reg (L0, D0) = Ok (L, D).
  Hypothesis FD : forall v, In v D -> fin v.
  Local Notation A i j := (val (symAt O (entries a) vals (q i) (q j))).

  Lemma factor_len : length L = c_nnz (b_sp b) /\ length D = n.
  Proof.
    destruct (factorize_ok O mt b n (Fill (permLow (entries s) n p)) p m a vals reg L0 D0)
      as (L1 & D1 & E & M1 & M2 & _); auto using blk_good, blk_low, Fill_closed.
    rewrite EF in E. injection E as <- <-. auto.
  Qed.

  Let CH := single_chained O mt b n _ p m a vals reg L0 D0 L D blk_good blk_low (Fill_closed _) HI HA HC N1 N2 EF.
  Let RG := ProofChainKernel.single_rows O b n _ p m a vals L0 D0 L blk_good blk_low (Fill_closed _) HI HA HC N1 N2.

  Lemma single_factor_rounding : (forall v, In v L -> fin v) ->
    exists P, (forall i, (i < n)%nat -> vecAt O D i = reg (P i) i) /\
      (forall i, (i < n)%nat -> fin (P i) ->
         Rabs (A i i + (V D i - val (P i)) - prodAt all (U L) (V D) i i) <=
         factorBound all (U L) (V D) u eta (rowCount es i) i i +
         gam u (rowCount es i + 1) * Rabs (V D i - val (P i))) /\
      (forall i j, (i < n)%nat -> (j < n)%nat -> i <> j ->
         Rabs (A i j - prodAt all (U L) (V D) i j) <=
         factorBound all (U L) (V D) u eta (rowCount es i) i j).
  Proof.
    intros FL. destruct factor_len as [NL ND].
    destruct (factor_bound O fin val u eta RO Nat.eq_dec all (cols (b_sp b)) _ _ _ reg
      (fun g _ => vecAt_fin D g FD) RG CH (fun g h _ _ => getL_fin L g h FL NL)) as (P & H1 & H2 & H3).
    assert (In_ : forall i, (i < n)%nat -> In i all) by (intros; apply in_seq; lia).
    assert (UE : forall g h, In g all -> In h all ->
      unitOf Nat.eq_dec (fun i j => val (getL O (b_sp b) L i j)) g h = U L g h) by (intros; apply unitL_get; auto).
    exists P. split; [|split].
    - intros i Hi. apply H1; auto.
    - intros i Hi Hf. specialize (H2 i (In_ i Hi) Hf). rewrite cols_count in H2.
      rewrite (factorBound_ext all _ (U L) _ (V D) UE (fun g _ => eq_refl)) in H2 by auto.
      rewrite (prodAt_ext all _ (U L) _ (V D) UE (fun g _ => eq_refl)) in H2 by auto.
      exact H2.
    - intros i j Hi Hj N. specialize (H3 i j (In_ i Hi) (In_ j Hj) N). rewrite cols_count in H3.
      rewrite (factorBound_ext all _ (U L) _ (V D) UE (fun g _ => eq_refl)) in H3 by auto.
      rewrite (prodAt_ext all _ (U L) _ (V D) UE (fun g _ => eq_refl)) in H3 by auto.
      exact H3.
  Qed.

  Lemma single_total_rounding rhs cc : length rhs = n ->
    (forall j, (j < n)%nat -> (colCount es j <= cc)%nat) ->
    exists x, solveInPlace O b (L, D) rhs = Ok x /\ length x = n /\
      ((forall v, In v x -> fin v) ->
       exists P, (forall i, (i < n)%nat -> vecAt O D i = reg (P i) i) /\
         forall i, (i < n)%nat -> fin (P i) ->
         Rabs (val (vecAt O rhs (q i)) -
               rsum all (fun c => val (symAt O (entries a) vals (q i) c) * val (vecAt O x c)) -
               (V D i - val (P i)) * val (vecAt O x (q i))) <=
         solveBound all (U L) (V D) u eta (rowCount es i) cc (fun j => val (vecAt O x (q j))) i +
         rsum all (fun j => factorBound all (U L) (V D) u eta (rowCount es i) i j *
                            Rabs (val (vecAt O x (q j)))) +
         gam u (rowCount es i + 1) * Rabs (V D i - val (P i)) * Rabs (val (vecAt O x (q i)))).
  Proof.
    intros NR CC. destruct factor_len as [NL ND].
    destruct (single_solve_eqs O b n _ p L D rhs blk_good blk_low NL ND NR)
      as (y & z & x & E & Nx & FE & DE & BE).
    exists x. split; auto. split; auto. intros FX.
    destruct (total_bound O fin val u eta RO Nat.eq_dec all (cols (b_sp b)) _
      (getL O (b_sp b) L) (getD O D) reg (fun g _ => vecAt_fin D g FD) (rowsOf (b_sp b) n)
      (vat O p rhs) y z (vat O p x) cc RG (single_cols b n) FE DE BE) as (P & H1 & H2); auto.
    { intros g Hg. apply in_seq in Hg. eapply Nat.le_trans; [apply rowsOf_count|]. apply CC; lia. }
    { intros g _. apply vecAt_fin. auto. }
    assert (In_ : forall i, (i < n)%nat -> In i all) by (intros; apply in_seq; lia).
    assert (UE : forall g h, In g all -> In h all ->
      unitOf Nat.eq_dec (fun i j => val (getL O (b_sp b) L i j)) g h = U L g h) by (intros; apply unitL_get; auto).
    exists P. split; [intros; apply H1; auto|]. intros i Hi Hf. specialize (H2 i (In_ i Hi) Hf).
    rewrite cols_count in H2.
    rewrite (solveBound_ext all _ (U L) _ (V D) UE (fun g _ => eq_refl)
      u eta _ cc _ (fun j => val (vecAt O x (q j))) i (In_ i Hi) (fun h _ => eq_refl)) in H2.
    rewrite (rsum_ext all (fun h => factorBound all _ _ u eta _ i h * _)
      (fun j => factorBound all (U L) (V D) u eta (rowCount es i) i j * Rabs (val (vecAt O x (q j))))) in H2.
    2:{ intros h Hh. f_equal. apply factorBound_ext; auto. }
    rewrite <- (rsum_perm n p (fun c => val (symAt O (entries a) vals (q i) c) * val (vecAt O x c)))
      by (apply validPerm_isPerm; auto).
    exact H2.
  Qed.
  End Factor.

  (** RegularizationNone *)
  Lemma single_factor_none mt a vals m L0 D0 L D :
    spOf a n n -> inputOf O m a vals -> coveredSym (entries a) (entries s) n p ->
    length L0 = c_nnz (b_sp b) -> length D0 = n ->
    factorize O mt b (Some m) regularizationNone (L0, D0) = Ok (L, D) ->
    (forall v, In v L -> fin v) -> (forall v, In v D -> fin v) ->
    forall i j, (i < n)%nat -> (j < n)%nat ->
      Rabs (val (symAt O (entries a) vals (q i) (q j)) - prodAt all (U L) (V D) i j) <=
      factorBound all (U L) (V D) u eta (rowCount es i) i j.
  Proof.
    intros HA HI HC N1 N2 EF FL FD i j Hi Hj.
    destruct (single_factor_rounding mt a vals m regularizationNone L0 D0 L D HA HI HC N1 N2 EF FD FL)
      as (P & H1 & H2 & H3).
    destruct (Nat.eq_dec i j) as [<-|N]; [|auto].
    specialize (H1 i Hi). unfold regularizationNone in H1.
    assert (Hf : fin (P i)) by (rewrite <- H1; apply vecAt_fin; auto).
    specialize (H2 i Hi Hf). rewrite <- H1 in H2.
    replace (val (vecAt O D i) - val (vecAt O D i)) with 0 in H2 by ring.
    rewrite Rabs_R0, Rmult_0_r, !Rplus_0_r in H2. exact H2.
  Qed.

  Lemma single_total_none mt a vals m L0 D0 L D rhs cc :
    spOf a n n -> inputOf O m a vals -> coveredSym (entries a) (entries s) n p ->
    length L0 = c_nnz (b_sp b) -> length D0 = n ->
    factorize O mt b (Some m) regularizationNone (L0, D0) = Ok (L, D) ->
    (forall v, In v D -> fin v) -> length rhs = n ->
    (forall j, (j < n)%nat -> (colCount es j <= cc)%nat) ->
    exists x, solveInPlace O b (L, D) rhs = Ok x /\ length x = n /\
      ((forall v, In v x -> fin v) -> forall i, (i < n)%nat ->
       Rabs (val (vecAt O rhs (q i)) -
             rsum all (fun c => val (symAt O (entries a) vals (q i) c) * val (vecAt O x c))) <=
       solveBound all (U L) (V D) u eta (rowCount es i) cc (fun j => val (vecAt O x (q j))) i +
       rsum all (fun j => factorBound all (U L) (V D) u eta (rowCount es i) i j *
                          Rabs (val (vecAt O x (q j))))).
  Proof.
    intros HA HI HC N1 N2 EF FD NR CC.
    destruct (single_total_rounding mt a vals m regularizationNone L0 D0 L D HA HI HC N1 N2 EF FD rhs cc NR CC)
      as (x & ES & NX & H). exists x. split; auto. split; auto. intros FX i Hi.
    destruct (H FX) as (P & H1 & H2). specialize (H1 i Hi). unfold regularizationNone in H1.
    assert (Hf : fin (P i)) by (rewrite <- H1; apply vecAt_fin; auto).
    specialize (H2 i Hi Hf). rewrite <- H1 in H2.
    replace (val (vecAt O D i) - val (vecAt O D i)) with 0 in H2 by ring.
    rewrite Rabs_R0, Rmult_0_r, !Rmult_0_l, Rminus_0_r, Rplus_0_r in H2. exact H2.
  Qed.
  End Single.

  Section Arrow.
  Variables (s : arrow_sp) (ds dt dl dO : nat) (k : arrow_blks) (n : nat).
  Hypothesis HD : arrowDims s ds dt dl dO.
  Hypothesis HK : arrowBlocks s = Ok k.
  Local Notation all := (allIdx n ds dt dl dO).
  Local Notation U d := (unitG O val k d).
  Local Notation V d := (fun g => val (pivotAt O d g)).
  Local Notation q := (permIdx s).

  Lemma arrow_good : exists P, arrowGood s ds dt dl dO k P /\ arrowChordal P /\ arrowCovers s ds dt dl dO P.
  Proof.
    destruct (arrowBlocks_ok s ds dt dl dO HD) as (k' & P & Ek & AG & AC & AV).
    rewrite HK in Ek. injection Ek as <-. eauto.
  Qed.

  Lemma factorAt_strict d g h : dataOf k n ds dt dl dO d -> In g all -> In h all -> g <> h ->
    factorAt O (o0 O) k d g h = lowArrow O n (strictFun O k d) g h.
  Proof.
    intros DO. rewrite !in_allIdx. unfold factorAt. rewrite (do_nts _ _ _ _ _ _ _ DO).
    destruct DO as [[Nsd1 Nsd2] Nsn Nso Ntd Htd Nts Hts Nlp [Nld1 Nld2] Nln Nos Hos [Nod1 Nod2]].
    assert (UN : forall c L i j, i <> j -> length L = c_nnz c ->
      unitAt O (o0 O) (c_entries c) L i j = getL O c L i j).
    { intros c L i j N NL. unfold unitAt. destruct (Nat.eqb_spec i j); [congruence|].
      rewrite getL_dense; auto. }
    destruct g as [i|t i|i|i], h as [j|v j|j|j]; intros Hg Hh N;
      cbn [lowArrow factorFun strictFun f_sd f_sn f_so f_td f_ts f_lp f_ld f_ln f_os f_od]; auto.
    all: try (apply UN; [congruence|]; auto; fail).
    all: rewrite <- ?getL_dense by auto; auto.
    - destruct (Nat.eqb_spec t v) as [->|].
      + apply UN; [congruence|]. apply Htd; tauto.
      + destruct (Nat.eqb_spec t (v + 1)) as [->|]; auto. rewrite getL_dense; auto. apply Hts. lia.
    - rewrite getL_dense; auto. apply Hos. tauto.
  Qed.

  Lemma unitG_strict d g h : dataOf k n ds dt dl dO d -> In g all -> In h all ->
    unitOf gidx_eq_dec (fun g h => val (lowArrow O n (strictFun O k d) g h)) g h = U d g h.
  Proof.
    intros DO Hg Hh. unfold unitG, unitOf. destruct (gidx_eq_dec g h) as [|N]; auto.
    rewrite factorAt_strict; auto.
  Qed.

  Lemma gvec_perm (f : gidx -> R) : rsum all (fun h => f (q h)) = rsum all f.
  Proof.
    rewrite <- (rsum_permut _ _ f (permIdx_Permutation s n ds dt dl dO HD)).
    symmetry. apply (suml_map Or).
  Qed.

  Lemma arrow_solve_rounding d rhs cc :
    dataOf k n ds dt dl dO d -> vecOf n ds dt dl dO rhs ->
    (forall g, In g all -> fin (pivotAt O d g)) ->
    (forall g, In g all -> (colCountG k n g <= cc)%nat) ->
    exists x, arrowSolveInPlace O k d rhs = Ok x /\ vecOf n ds dt dl dO x /\
      ((forall g, In g all -> fin (gvecAt O x g)) -> forall g, In g all ->
       Rabs (val (gvecAt O rhs (q g)) -
             rsum all (fun h => prodAt all (U d) (V d) g h * val (gvecAt O x (q h)))) <=
       solveBound all (U d) (V d) u eta (rowCountG k n g) cc (fun h => val (gvecAt O x (q h))) g).
  Proof.
    intros DO VO FD CC. destruct arrow_good as (P & AG & AC & AV).
    destruct (arrow_solve_eqs O s ds dt dl dO k P n d rhs AG AC DO VO)
      as (y & z & x & E & Nx & FE & DE & BE).
    exists x. split; auto. split; auto. intros FX g Hg.
    pose proof (solve_bound O fin val u eta RO gidx_eq_dec all (fwdL k n) (fun _ _ => o0 O)
      (lowArrow O n (strictFun O k d)) (pivotAt O d) FD (bwdL ds dt dl dO k n)
      (pvec O s rhs) y z (pvec O s x) cc
      (arrow_rows0 O s ds dt dl dO k P AG AC n d) (arrow_cols s ds dt dl dO k P AG n) FE DE BE) as H.
    specialize (H ltac:(intros g' Hg'; eapply Nat.le_trans; [apply bwdL_count|]; auto)).
    specialize (H (fun h Hh => FX (q h) (permIdx_in s n ds dt dl dO HD h Hh)) g Hg).
    rewrite fwdL_count in H.
    rewrite (solveBound_ext all _ (U d) _ (V d) (fun g h => unitG_strict d g h DO) (fun g _ => eq_refl)
      u eta _ cc _ (fun h => val (gvecAt O x (q h))) g Hg (fun h _ => eq_refl)) in H.
    eapply Rle_trans; [|exact H]. right. f_equal. f_equal. apply rsum_ext. intros h Hh.
    f_equal. symmetry. apply (prodAt_ext all); auto. intros; apply unitG_strict; auto.
  Qed.

  Section Factor.
  Variables (mt : method) (m : arrow_mat (F:=F)) (w : arrow_vals F) (reg : F -> nat -> F).
  Variables (d0 d : arrow_data (F:=F)).
  Hypothesis IA : inputArrow O n ds dt dl dO m w.
  Hypothesis DA : declaredArrow s n m.
  Hypothesis DO0 : dataOf k n ds dt dl dO d0.
  Hypothesis EF : arrowFactorize O mt k m reg d0 = Ok d.
  Hypothesis FD : forall g, In g all -> fin (pivotAt O d g).
  Local Notation A g h := (val (matAt O m w (q g) (q h))).

  Lemma arrow_run : exists P, arrowGood s ds dt dl dO k P /\ arrowChordal P /\ arrowCovers s ds dt dl dO P /\
    dataOf k n ds dt dl dO d /\ arrowRows O ds dt dl dO k mt m reg n d.
  Proof.
    destruct arrow_good as (P & AG & AC & AV). exists P.
    pose proof (goodInput_of O s ds dt dl dO P n m w HD AV IA DA) as GI.
    destruct (arrowFactorize_ok O s ds dt dl dO k P AG AC mt n m reg d0 DO0 GI) as (r & E1 & D1 & R1).
    rewrite EF in E1. injection E1 as <-. auto.
  Qed.

  Lemma A_mat g h : symArrow O n (permFun s (matFun O m w)) g h = matAt O m w (q g) (q h).
  Proof. rewrite symArrow_perm. unfold matAt. rewrite (ia_nts _ _ _ _ _ _ _ _ IA). auto. Qed.

  Lemma arrow_factor_rounding :
    (forall g h, In g all -> In h all -> fin (factorAt O (o0 O) k d g h)) ->
    exists P, (forall g, In g all -> pivotAt O d g = reg (P g) (localIdx g)) /\
      (forall g, In g all -> fin (P g) ->
         Rabs (A g g + (V d g - val (P g)) - prodAt all (U d) (V d) g g) <=
         factorBound all (U d) (V d) u eta (rowCountG k n g) g g +
         gam u (rowCountG k n g + 1) * Rabs (V d g - val (P g))) /\
      (forall g h, In g all -> In h all -> g <> h ->
         Rabs (A g h - prodAt all (U d) (V d) g h) <=
         factorBound all (U d) (V d) u eta (rowCountG k n g) g h).
  Proof.
    intros FL. destruct arrow_run as (P' & AG & AC & AV & DO & AR).
    pose proof (arrow_rows O s ds dt dl dO k P' HD AG AC AV n m w IA DA d) as RG.
    destruct (factor_bound O fin val u eta RO gidx_eq_dec all (fwdL k n) _ _ _ _ FD RG
      (arrow_chained O s ds dt dl dO k P' HD AG AV n m w IA DA mt reg d AR)) as (P & H1 & H2 & H3).
    { intros g h Hg Hh. assert (Ha : In h all) by exact (rg_in _ _ _ _ _ RG g h Hg Hh).
      rewrite <- factorAt_strict; auto. intros ->. exact (rg_irr _ _ _ _ _ RG h Hg Hh). }
    assert (UE := fun g h => unitG_strict d g h DO).
    exists P. split; [|split].
    - exact H1.
    - intros g Hg Hf. specialize (H2 g Hg Hf). rewrite fwdL_count, A_mat in H2.
      rewrite (factorBound_ext all _ (U d) _ (V d) UE (fun g _ => eq_refl)) in H2 by auto.
      rewrite (prodAt_ext all _ (U d) _ (V d) UE (fun g _ => eq_refl)) in H2 by auto.
      exact H2.
    - intros g h Hg Hh N. specialize (H3 g h Hg Hh N). rewrite fwdL_count, A_mat in H3.
      rewrite (factorBound_ext all _ (U d) _ (V d) UE (fun g _ => eq_refl)) in H3 by auto.
      rewrite (prodAt_ext all _ (U d) _ (V d) UE (fun g _ => eq_refl)) in H3 by auto.
      exact H3.
  Qed.

  Lemma arrow_total_rounding rhs cc : vecOf n ds dt dl dO rhs ->
    (forall g, In g all -> (colCountG k n g <= cc)%nat) ->
    exists x, arrowSolveInPlace O k d rhs = Ok x /\ vecOf n ds dt dl dO x /\
      ((forall g, In g all -> fin (gvecAt O x g)) ->
       exists P, (forall g, In g all -> pivotAt O d g = reg (P g) (localIdx g)) /\
         forall g, In g all -> fin (P g) ->
         Rabs (val (gvecAt O rhs (q g)) -
               rsum all (fun c => val (matAt O m w (q g) c) * val (gvecAt O x c)) -
               (V d g - val (P g)) * val (gvecAt O x (q g))) <=
         solveBound all (U d) (V d) u eta (rowCountG k n g) cc (fun h => val (gvecAt O x (q h))) g +
         rsum all (fun h => factorBound all (U d) (V d) u eta (rowCountG k n g) g h *
                            Rabs (val (gvecAt O x (q h)))) +
         gam u (rowCountG k n g + 1) * Rabs (V d g - val (P g)) * Rabs (val (gvecAt O x (q g)))).
  Proof.
    intros VO CC. destruct arrow_run as (P' & AG & AC & AV & DO & AR).
    destruct (arrow_solve_eqs O s ds dt dl dO k P' n d rhs AG AC DO VO)
      as (y & z & x & E & Nx & FE & DE & BE).
    exists x. split; auto. split; auto. intros FX.
    pose proof (arrow_rows O s ds dt dl dO k P' HD AG AC AV n m w IA DA d) as RG.
    destruct (total_bound O fin val u eta RO gidx_eq_dec all (fwdL k n) _
      (lowArrow O n (strictFun O k d)) (pivotAt O d) _ FD (bwdL ds dt dl dO k n)
      (pvec O s rhs) y z (pvec O s x) cc RG (arrow_cols s ds dt dl dO k P' AG n) FE DE BE
      (fun g Hg => Nat.le_trans _ _ _ (bwdL_count ds dt dl dO k n g) (CC g Hg))
      (fun h Hh => FX (q h) (permIdx_in s n ds dt dl dO HD h Hh))
      (arrow_chained O s ds dt dl dO k P' HD AG AV n m w IA DA mt reg d AR))
      as (P & H1 & H2).
    assert (UE := fun g h => unitG_strict d g h DO).
    exists P. split; [exact H1|]. intros g Hg Hf. specialize (H2 g Hg Hf).
    rewrite fwdL_count in H2.
    rewrite (solveBound_ext all _ (U d) _ (V d) UE (fun g _ => eq_refl)
      u eta _ cc _ (fun j => val (gvecAt O x (q j))) g Hg (fun h _ => eq_refl)) in H2.
    rewrite (rsum_ext all (fun h => factorBound all _ _ u eta _ g h * _)
      (fun j => factorBound all (U d) (V d) u eta (rowCountG k n g) g j * Rabs (val (gvecAt O x (q j))))) in H2.
    2:{ intros h Hh. f_equal. apply factorBound_ext; auto. }
    rewrite <- (gvec_perm (fun c => val (matAt O m w (q g) c) * val (gvecAt O x c))).
    rewrite (rsum_ext all _ (fun h => val (matAt O m w (q g) (q h)) * val (gvecAt O x (q h)))) in H2.
    2:{ intros h Hh. rewrite A_mat. reflexivity. }
    exact H2.
  Qed.
  End Factor.

  (** RegularizationNone *)
  Lemma arrow_factor_none mt m w d0 d :
    inputArrow O n ds dt dl dO m w -> declaredArrow s n m -> dataOf k n ds dt dl dO d0 ->
    arrowFactorize O mt k m regularizationNone d0 = Ok d ->
    (forall g h, In g all -> In h all -> fin (factorAt O (o0 O) k d g h)) ->
    (forall g, In g all -> fin (pivotAt O d g)) ->
    forall g h, In g all -> In h all ->
      Rabs (val (matAt O m w (q g) (q h)) - prodAt all (U d) (V d) g h) <=
      factorBound all (U d) (V d) u eta (rowCountG k n g) g h.
  Proof.
    intros IA DA DO EF FL FD g h Hg Hh.
    destruct (arrow_factor_rounding mt m w regularizationNone d0 d IA DA DO EF FD FL)
      as (P & H1 & H2 & H3).
    destruct (gidx_eq_dec g h) as [<-|N]; [|auto].
    specialize (H1 g Hg). unfold regularizationNone in H1.
    assert (Hf : fin (P g)) by (rewrite <- H1; auto).
    specialize (H2 g Hg Hf). rewrite <- H1 in H2.
    replace (val (pivotAt O d g) - val (pivotAt O d g)) with 0 in H2 by ring.
    rewrite Rabs_R0, Rmult_0_r, !Rplus_0_r in H2. exact H2.
  Qed.

  Lemma arrow_total_none mt m w d0 d rhs cc :
    inputArrow O n ds dt dl dO m w -> declaredArrow s n m -> dataOf k n ds dt dl dO d0 ->
    arrowFactorize O mt k m regularizationNone d0 = Ok d ->
    (forall g, In g all -> fin (pivotAt O d g)) ->
    vecOf n ds dt dl dO rhs ->
    (forall g, In g all -> (colCountG k n g <= cc)%nat) ->
    exists x, arrowSolveInPlace O k d rhs = Ok x /\ vecOf n ds dt dl dO x /\
      ((forall g, In g all -> fin (gvecAt O x g)) -> forall g, In g all ->
       Rabs (val (gvecAt O rhs (q g)) -
             rsum all (fun c => val (matAt O m w (q g) c) * val (gvecAt O x c))) <=
       solveBound all (U d) (V d) u eta (rowCountG k n g) cc (fun h => val (gvecAt O x (q h))) g +
       rsum all (fun h => factorBound all (U d) (V d) u eta (rowCountG k n g) g h *
                          Rabs (val (gvecAt O x (q h))))).
  Proof.
    intros IA DA DO EF FD VO CC.
    destruct (arrow_total_rounding mt m w regularizationNone d0 d IA DA DO EF FD rhs cc VO CC)
      as (x & ES & NX & H). exists x. split; auto. split; auto. intros FX g Hg.
    destruct (H FX) as (P & H1 & H2). specialize (H1 g Hg). unfold regularizationNone in H1.
    assert (Hf : fin (P g)) by (rewrite <- H1; auto).
    specialize (H2 g Hg Hf). rewrite <- H1 in H2.
    replace (val (pivotAt O d g) - val (pivotAt O d g)) with 0 in H2 by ring.
    rewrite Rabs_R0, Rmult_0_r, !Rmult_0_l, Rminus_0_r, Rplus_0_r in H2. exact H2.
  Qed.
  End Arrow.
End User.
