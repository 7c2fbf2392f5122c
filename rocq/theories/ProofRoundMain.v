(** Rounding errors of the factorizations and solves of the library. *)
From Coq Require Import Reals Lra Lia List Arith Bool Permutation.
From Verif Require Import Base ModelPerm ModelSparsity ModelSymbolic ModelNumeric ModelArrow ModelReg.
From Verif Require Import SpecSymbolic SpecArrow SpecNumeric SpecArrowNum SpecReg SpecRound.
From Verif Require Import ProofBase ProofPerm ProofCsr ProofFill ProofDense ProofExact ProofKernel ProofSolve
  ProofSingle ProofSingleMain ProofArrowSym ProofArrowRows ProofArrowDense ProofArrowSolve ProofArrowMain
  ProofArrowSub ProofChain ProofChainKernel ProofChainArrow ProofRound ProofRoundLdl.
Import ListNotations.
Local Open Scope R_scope.
Local Notation rsum := (suml Or).

Section Ext.
  Context {I : Type} (all : list I) (U U' : I -> I -> R) (D D' : I -> R).
  Hypothesis HU : forall g h, In g all -> In h all -> U g h = U' g h.
  Hypothesis HD : forall g, In g all -> D g = D' g.

  Lemma prodAt_ext g h : In g all -> In h all -> prodAt all U D g h = prodAt all U' D' g h.
  Proof. intros. unfold prodAt. apply rsum_ext. intros k Hk. rewrite !HU, HD; auto. Qed.
  Lemma absProdAt_ext g h : In g all -> In h all -> absProdAt all U D g h = absProdAt all U' D' g h.
  Proof. intros. unfold absProdAt. apply rsum_ext. intros k Hk. rewrite !HU, HD; auto. Qed.
  Lemma underAt_ext g h : In g all -> In h all -> underAt all U D g h = underAt all U' D' g h.
  Proof. intros. unfold underAt. apply rsum_ext. intros k Hk. rewrite !HU, HD; auto. Qed.
  Lemma factorBound_ext u eta c g h : In g all -> In h all ->
    factorBound all U D u eta c g h = factorBound all U' D' u eta c g h.
  Proof. intros. unfold factorBound. rewrite absProdAt_ext, underAt_ext; auto. Qed.
  Lemma solveBound_ext u eta cr cc x x' g : In g all -> (forall h, In h all -> x h = x' h) ->
    solveBound all U D u eta cr cc x g = solveBound all U' D' u eta cr cc x' g.
  Proof.
    intros Hg Hx. unfold solveBound. f_equal; [f_equal|f_equal; f_equal; f_equal; f_equal].
    - apply rsum_ext. intros h Hh. rewrite absProdAt_ext, Hx; auto.
    - apply rsum_ext. intros h Hh. rewrite HU, HD; auto.
  Qed.
End Ext.

Section Ldl.
  Context {F : Type} (O : ops F) (fin : F -> Prop) (val : F -> R) (u eta : R).
  Context (RO : rounding O fin val u eta).
  Context {I : Type} (dec : forall a b : I, {a = b} + {a <> b}).
  Variables (all : list I) (row : I -> list I).
  Variables (A L : I -> I -> F) (D : I -> F) (reg : F -> I -> F).
  Hypothesis HD : forall g, In g all -> fin (D g).
  Local Notation U := (unitOf dec (fun g k => val (L g k))).
  Local Notation V := (fun k => val (D k)).

  Lemma gam_1 m : / (1 - u) ^ m = 1 + gam u m.
  Proof. unfold gam. ring. Qed.

  Lemma factor_bound :
    rowsGood O all row A L -> chained O dec all row A L D reg ->
    (forall g h, In g all -> In h (row g) -> fin (L g h)) ->
    exists P, (forall g, In g all -> D g = reg (P g) g) /\
    (forall g, In g all -> fin (P g) ->
      Rabs (val (A g g) + (V g - val (P g)) - prodAt all U V g g) <=
        factorBound all U V u eta (length (row g)) g g +
        gam u (length (row g) + 1) * Rabs (V g - val (P g))) /\
    (forall g h, In g all -> In h all -> g <> h ->
      Rabs (val (A g h) - prodAt all U V g h) <= factorBound all U V u eta (length (row g)) g h).
  Proof.
    intros RG CH HL.
    destruct (factor_error O fin val u eta RO dec all row A L D reg RG HD HL CH) as (P & H1 & H2 & H3).
    exists P. split; auto. split.
    - intros g Hg Hf. eapply Rle_trans; [apply H2; auto|]. right. rewrite gam_1. unfold factorBound.
      rewrite Nat.add_1_r. ring.
    - intros g h Hg Hh N. eapply Rle_trans; [apply H3; auto|]. right. rewrite gam_1. unfold factorBound.
      rewrite Nat.add_1_r. ring.
  Qed.

  Section Solve.
  Variables (col : I -> list I) (b y z x : I -> F) (wc : nat).
  Hypothesis RG : rowsGood O all row A L.
  Hypothesis CG : colsGood all row col.
  Hypothesis FE : forwardEq O all row L b y.
  Hypothesis DE : diagonalEq O all D y z.
  Hypothesis BE : backwardEq O all L col z x.
  Hypothesis WC : forall g, In g all -> (length (col g) <= wc)%nat.
  Hypothesis FX : forall g, In g all -> fin (x g).

  Lemma solve_bound g : In g all ->
    Rabs (val (b g) - rsum all (fun h => prodAt all U V g h * val (x h))) <=
      solveBound all U V u eta (length (row g)) wc (fun h => val (x h)) g.
  Proof.
    intros Hg. eapply Rle_trans;
      [apply (solve_error O fin val u eta RO dec all row A L D RG HD col b y z x wc CG FE DE BE WC FX); auto|].
    right. rewrite gam_1. reflexivity.
  Qed.

  (** the entries used by the backward substitution are finite *)
  Lemma col_fin g h : In g all -> In h (col g) -> fin (L h g).
  Proof.
    intros Hg Hh. pose proof (FX g Hg) as H. rewrite (BE g Hg) in H.
    apply (subl_fin O fin val u eta RO) in H. destruct H as [_ H]. specialize (H h Hh). cbv beta in H.
    apply (rd_mul _ _ _ _ _ RO) in H. tauto.
  Qed.

  Lemma row_fin g h : In g all -> In h (row g) -> fin (L g h).
  Proof.
    intros Hg Hh. assert (Ha : In h all) by (eapply rg_in; eauto).
    apply col_fin; auto. apply (cg_in _ _ _ CG); auto.
  Qed.

  (** residual with respect to the matrix plus the regularization *)
  Lemma total_bound :
    chained O dec all row A L D reg ->
    exists P, (forall g, In g all -> D g = reg (P g) g) /\
      forall g, In g all -> fin (P g) ->
        Rabs (val (b g) - rsum all (fun h => val (A g h) * val (x h)) -
              (V g - val (P g)) * val (x g)) <=
        solveBound all U V u eta (length (row g)) wc (fun h => val (x h)) g +
        rsum all (fun h => factorBound all U V u eta (length (row g)) g h * Rabs (val (x h))) +
        gam u (length (row g) + 1) * Rabs (V g - val (P g)) * Rabs (val (x g)).
  Proof.
    intros CH. destruct (factor_bound RG CH row_fin) as (P & H1 & H2 & H3).
    exists P. split; auto. intros g Hg Hf.
    pose proof (solve_bound g Hg) as HS. set (E := V g - val (P g)) in *.
    set (c := length (row g)) in *.
    set (e := fun h => if dec g h then E * val (x g) else 0).
    assert (ES : rsum all e = E * val (x g)).
    { unfold e. rewrite (rsum_sub dec [g] all).
      - rewrite rsum_cons. destruct (dec g g); [|congruence]. unfold suml. cbn. ring.
      - constructor; [intros []|constructor].
      - apply RG.
      - intros k [<-|[]]; auto.
      - intros k _ Hk. destruct (dec g k); auto. exfalso. apply Hk. left; auto. }
    set (ab := fun h => if dec g h then gam u (c + 1) * Rabs E * Rabs (val (x g)) else 0).
    assert (AS : rsum all ab = gam u (c + 1) * Rabs E * Rabs (val (x g))).
    { unfold ab. rewrite (rsum_sub dec [g] all).
      - rewrite rsum_cons. destruct (dec g g); [|congruence]. unfold suml. cbn. ring.
      - constructor; [intros []|constructor].
      - apply RG.
      - intros k [<-|[]]; auto.
      - intros k _ Hk. destruct (dec g k); auto. exfalso. apply Hk. left; auto. }
    set (d := fun h => prodAt all U V g h * val (x h) - val (A g h) * val (x h) - e h).
    assert (DS : rsum all d = rsum all (fun h => prodAt all U V g h * val (x h)) -
       rsum all (fun h => val (A g h) * val (x h)) - E * val (x g)).
    { rewrite <- ES. unfold d.
      transitivity (rsum all (fun h => (prodAt all U V g h * val (x h) +
        -1 * (val (A g h) * val (x h) + e h)))).
      { apply rsum_ext. intros; ring. }
      rewrite (rsum_plus all (fun h => prodAt all U V g h * val (x h))
        (fun h => -1 * (val (A g h) * val (x h) + e h))).
      rewrite (rsum_scal all (-1) (fun h => val (A g h) * val (x h) + e h)).
      rewrite (rsum_plus all (fun h => val (A g h) * val (x h)) e). ring. }
    replace (val (b g) - rsum all (fun h => val (A g h) * val (x h)) - E * val (x g))
      with ((val (b g) - rsum all (fun h => prodAt all U V g h * val (x h))) + rsum all d)
      by (rewrite DS; ring).
    eapply Rle_trans; [apply Rabs_triang|]. rewrite Rplus_assoc. apply Rplus_le_compat; [exact HS|].
    rewrite <- AS.
    rewrite <- (rsum_plus all (fun h => factorBound all U V u eta c g h * Rabs (val (x h))) ab).
    eapply Rle_trans; [apply rsum_abs|]. apply rsum_le. intros h Hh. unfold d, e, ab.
    destruct (dec g h) as [<-|N].
    - replace (prodAt all U V g g * val (x g) - val (A g g) * val (x g) - E * val (x g))
        with (- (val (A g g) + E - prodAt all U V g g) * val (x g)) by ring.
      rewrite Rabs_mult, Rabs_Ropp.
      rewrite <- Rmult_plus_distr_r. apply Rmult_le_compat_r; [apply Rabs_pos|].
      exact (H2 g Hg Hf).
    - replace (prodAt all U V g h * val (x h) - val (A g h) * val (x h) - 0)
        with (- (val (A g h) - prodAt all U V g h) * val (x h)) by ring.
      rewrite Rabs_mult, Rabs_Ropp, Rplus_0_r. apply Rmult_le_compat_r; [apply Rabs_pos|]. exact (H3 g h Hg Hh N).
  Qed.
  End Solve.
End Ldl.

(** ** gam *)
Lemma gam_0 m : gam 0 m = 0.
Proof. unfold gam. rewrite Rminus_0_r, pow1, Rinv_1. ring. Qed.

Lemma bernoulli u m : 0 <= u < 1 -> 1 - INR m * u <= (1 - u) ^ m.
Proof.
  intros Hu. induction m as [|m IH]; [cbn; lra|].
  rewrite S_INR. cbn [pow].
  assert (0 <= INR m) by apply pos_INR.
  assert (X : (1 - u) * (1 - INR m * u) <= (1 - u) * (1 - u) ^ m) by (apply Rmult_le_compat_l; lra).
  nra.
Qed.

Lemma gam_le u m : 0 <= u -> INR m * u < 1 -> u < 1 -> gam u m <= INR m * u / (1 - INR m * u).
Proof.
  intros H0 H1 H2. pose proof (bernoulli u m ltac:(lra)) as B. unfold gam.
  replace (INR m * u / (1 - INR m * u)) with (/ (1 - INR m * u) - 1) by (field; lra).
  apply Rplus_le_compat_r. apply Rinv_le_contravar; lra.
Qed.

(** ** counting entries *)
Lemma cols_count c i : length (cols c i) = rowCount (c_entries c) i.
Proof. unfold cols, rowCount, rowf. apply map_length. Qed.

Lemma rowsOf_count c nr j : (length (rowsOf c nr j) <= colCount (c_entries c) j)%nat.
Proof.
  unfold colCount. rewrite <- (map_length fst). apply NoDup_incl_length; [apply rowsOf_NoDup|].
  intros i Hi. apply rowsOf_In in Hi. apply in_map_iff. exists (i, j). split; auto.
  apply filter_In. split; [tauto|]. apply Nat.eqb_refl.
Qed.

Lemma fwdL_count k n g : length (fwdL k n g) = rowCountG k n g.
Proof.
  destruct g as [i|t i|i|i]; cbn [fwdL rowCountG]; rewrite ?app_length, ?map_length, ?cols_count; auto.
  - f_equal. destruct t; rewrite map_length, cols_count; auto.
  - assert (X : forall l : list nat, length (flat_map (fun t => map (GT t) (cols (b_sp (k_os k)) i)) l) =
      (length l * rowCount (c_entries (b_sp (k_os k))) i)%nat).
    { induction l as [|t l IH]; auto. cbn [flat_map length Nat.mul].
      rewrite app_length, map_length, cols_count, IH. auto. }
    rewrite X, seq_length. lia.
Qed.

Lemma bwdL_count ds dt dl dO k n g : (length (bwdL ds dt dl dO k n g) <= colCountG k n g)%nat.
Proof.
  pose proof rowsOf_count as X.
  destruct g as [i|t i|i|i]; cbn [bwdL colCountG]; rewrite ?app_length, ?map_length.
  - pose proof (X (b_sp (k_so k)) dO i). pose proof (X (b_sp (k_sn k)) dt i). pose proof (X (b_sp (k_sd k)) ds i). lia.
  - pose proof (X (b_sp (k_os k)) dO i). pose proof (X (b_sp (k_td k)) dt i).
    pose proof (X (b_sp (k_lp k)) dl i). pose proof (X (b_sp (k_ts k)) dt i).
    destruct (t =? n)%nat; rewrite map_length; lia.
  - pose proof (X (b_sp (k_ln k)) dO i). pose proof (X (b_sp (k_ld k)) dl i). lia.
  - apply X.
Qed.

(** ** the solves as equations, without algebraic laws *)
Section Solves.
  Context {F : Type} (O : ops F).

  Lemma single_solve_eqs b n R p L D rhs :
    goodBlk b n n R p p true -> (forall i j, R i j -> (j < i)%nat) ->
    length L = c_nnz (b_sp b) -> length D = n -> length rhs = n ->
    exists y z x, solveInPlace O b (L, D) rhs = Ok x /\ length x = n /\
      forwardEq O (seq 0 n) (cols (b_sp b)) (getL O (b_sp b) L) (vat O p rhs) y /\
      diagonalEq O (seq 0 n) (getD O D) y z /\
      backwardEq O (seq 0 n) (getL O (b_sp b) L) (rowsOf (b_sp b) n) z (vat O p x).
  Proof.
    intros G Low HL HD Hr.
    destruct (fwdSelf_ok O b n R p true L rhs) as (v1 & E1 & N1 & H1); auto.
    destruct (diagSolve_ok O b n R p true D v1) as (v2 & E2 & N2 & H2); auto.
    destruct (bwdSelf_ok O b n R p true L v2) as (v3 & E3 & N3 & H3); auto.
    exists (vat O p v1), (vat O p v2), v3. unfold solveInPlace. cbn [fst snd].
    rewrite E1. cbn [bind]. rewrite E2. cbn [bind]. rewrite E3. split; auto. split; auto.
    split; [|split]; intros g Hg; apply in_seq in Hg.
    - rewrite H1 at 1 by lia. apply subf_true.
    - apply H2. lia.
    - rewrite H3 at 1 by lia. apply subf_filter.
  Qed.

  Lemma arrow_solve_eqs s ds dt dl dO k P n d rhs :
    arrowGood s ds dt dl dO k P -> arrowChordal P ->
    dataOf k n ds dt dl dO d -> vecOf n ds dt dl dO rhs ->
    exists y z x, arrowSolveInPlace O k d rhs = Ok x /\ vecOf n ds dt dl dO x /\
      forwardEq O (allIdx n ds dt dl dO) (fwdL k n) (lowArrow O n (strictFun O k d)) (pvec O s rhs) y /\
      diagonalEq O (allIdx n ds dt dl dO) (pivotAt O d) y z /\
      backwardEq O (allIdx n ds dt dl dO) (lowArrow O n (strictFun O k d)) (bwdL ds dt dl dO k n) z (pvec O s x).
  Proof.
    intros AG AC DO VO.
    destruct (arrowForward_sub O s ds dt dl dO k P AG AC n d rhs DO VO) as (v1 & E1 & V1 & H1).
    destruct (arrowDiagonal_sub O s ds dt dl dO k P AG n d v1 DO V1) as (v2 & E2 & V2 & H2).
    destruct (arrowBackward_sub O s ds dt dl dO k P AG AC n d v2 DO V2) as (v3 & E3 & V3 & H3).
    exists (pvec O s v1), (pvec O s v2), v3. unfold arrowSolveInPlace.
    rewrite E1. cbn [bind]. rewrite E2. cbn [bind]. rewrite E3. auto.
  Qed.

  (** ** no arithmetic makes the library fail *)
  Lemma single_any s n p : spOf s n n -> validPerm n p ->
    exists b, factorizationBlk s p = Ok b /\
      (forall mt a vals m reg L0 D0,
         spOf a n n -> inputOf O m a vals -> coveredSym (entries a) (entries s) n p ->
         length L0 = c_nnz (b_sp b) -> length D0 = n ->
         exists L D, factorize O mt b (Some m) reg (L0, D0) = Ok (L, D) /\
           length L = c_nnz (b_sp b) /\ length D = n) /\
      (forall L D rhs, length L = c_nnz (b_sp b) -> length D = n -> length rhs = n ->
         exists x, solveInPlace O b (L, D) rhs = Ok x /\ length x = n).
  Proof.
    intros HS HP. destruct (block_ok s n p HS HP) as (b & EB & G). exists b. split; auto.
    assert (Low : forall i j, Fill (permLow (entries s) n p) i j -> (j < i)%nat)
      by (intros; eapply Fill_low; eauto).
    split.
    - intros mt a vals m reg L0 D0 HA HI HC N1 N2.
      destruct (factorize_ok O mt b n (Fill (permLow (entries s) n p)) p m a vals reg L0 D0)
        as (L1 & D1 & E & M1 & M2 & _); auto using Fill_closed.
      exists L1, D1. auto.
    - intros L D rhs N1 N2 N3.
      destruct (single_solve_eqs b n (Fill (permLow (entries s) n p)) p L D rhs) as (y & z & x & E & Nx & _); auto.
      exists x. auto.
  Qed.

  Lemma arrow_any s ds dt dl dO : arrowDims s ds dt dl dO ->
    exists k, arrowBlocks s = Ok k /\
      (forall n, exists d, arrowCtor O k n = Ok d /\ dataOf k n ds dt dl dO d) /\
      (forall mt n m w reg d0,
         inputArrow O n ds dt dl dO m w -> declaredArrow s n m -> dataOf k n ds dt dl dO d0 ->
         exists d, arrowFactorize O mt k m reg d0 = Ok d /\ dataOf k n ds dt dl dO d) /\
      (forall n d rhs, dataOf k n ds dt dl dO d -> vecOf n ds dt dl dO rhs ->
         exists x, arrowSolveInPlace O k d rhs = Ok x /\ vecOf n ds dt dl dO x).
  Proof.
    intros HD. destruct (arrowBlocks_ok s ds dt dl dO HD) as (k & P & Ek & AG & AC & AV).
    exists k. split; auto. split; [|split].
    - intros n. eapply arrowCtor_ok; eauto.
    - intros mt n m w reg d0 IA DA DO.
      pose proof (goodInput_of O s ds dt dl dO P n m w HD AV IA DA) as GI.
      destruct (arrowFactorize_ok O s ds dt dl dO k P AG AC mt n m reg d0 DO GI) as (r & E1 & D1 & _).
      exists r. auto.
    - intros n d rhs DO VO.
      destruct (arrow_solve_eqs s ds dt dl dO k P n d rhs AG AC DO VO) as (y & z & x & E & V & _).
      exists x. auto.
  Qed.
End Solves.
