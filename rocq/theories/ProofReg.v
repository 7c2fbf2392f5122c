(** The factorizations with a regularization. *)
From Coq Require Import List Arith Lia Bool Ring Permutation.
From Verif Require Import Base ModelPerm ModelSparsity ModelSymbolic ModelNumeric ModelArrow ModelReg.
From Verif Require Import SpecSymbolic SpecArrow SpecNumeric SpecArrowNum SpecPivot.
From Verif Require Import ProofBase ProofPerm ProofCsr ProofFill ProofDense ProofExact ProofLdl ProofUp ProofEntry
  ProofKernel ProofSingle ProofSingleMain ProofMethods ProofArrowSym ProofArrowRows ProofArrowUniq
  ProofMultiply ProofArrowDense ProofArrowProduct ProofArrowMain ProofPropSingle ProofPropArrow ProofPivot
  ProofPivotMain.
Import ListNotations.

(** ** without algebraic laws: every pivot is a result of the regularization *)
Section Results.
  Context {F : Type} (O : ops F).

  Lemma single_pivot_reg mt s n p b m a vals reg L0 D0 L D :
    spOf s n n -> validPerm n p -> factorizationBlk s p = Ok b ->
    spOf a n n -> inputOf O m a vals -> coveredSym (entries a) (entries s) n p ->
    length L0 = c_nnz (b_sp b) -> length D0 = n ->
    factorize O mt b (Some m) reg (L0, D0) = Ok (L, D) ->
    forall i, i < n -> exists t, vecAt O D i = reg t i.
  Proof.
    intros HS HP HB HA HI HC N1 N2 EF.
    destruct (block_ok s n p HS HP) as (b' & EB & G). rewrite HB in EB. injection EB as <-.
    assert (Low : forall i j, Fill (permLow (entries s) n p) i j -> j < i)
      by (intros; eapply Fill_low; eauto).
    destruct (factorize_ok O mt b n (Fill (permLow (entries s) n p)) p m a vals reg L0 D0)
      as (L1 & D1 & E & _ & _ & X & K); auto using Fill_closed.
    rewrite EF in E. injection E as <- <-.
    intros i Hi. destruct mt; cbn [kernelRows] in K.
    - destruct K as (s1 & s2 & K). eexists. exact (ur_D _ _ _ _ _ _ _ _ _ _ _ _ _ _ _ _ (K i Hi)).
    - eexists. exact (er_D _ _ _ _ _ _ _ _ _ _ _ _ _ _ (K i Hi)).
  Qed.

  Lemma single_regularized mt s n p a vals m reg :
    spOf s n n -> validPerm n p ->
    spOf a n n -> inputOf O m a vals -> coveredSym (entries a) (entries s) n p ->
    exists b, factorizationBlk s p = Ok b /\
      forall L0 D0, length L0 = c_nnz (b_sp b) -> length D0 = n ->
      exists L D, factorize O mt b (Some m) reg (L0, D0) = Ok (L, D) /\
        forall i, i < n -> exists t, vecAt O D i = reg t i.
  Proof.
    intros HS HP HA HI HC. destruct (block_ok s n p HS HP) as (b & EB & G).
    exists b. split; auto. intros L0 D0 N1 N2.
    assert (Low : forall i j, Fill (permLow (entries s) n p) i j -> j < i)
      by (intros; eapply Fill_low; eauto).
    destruct (factorize_ok O mt b n (Fill (permLow (entries s) n p)) p m a vals reg L0 D0)
      as (L1 & D1 & E & _ & _ & X & K); auto using Fill_closed.
    exists L1, D1. split; auto.
    exact (single_pivot_reg mt s n p b m a vals reg L0 D0 L1 D1 HS HP EB HA HI HC N1 N2 E).
  Qed.

  Lemma arrow_regularized mt s ds dt dl dO n m w reg :
    arrowDims s ds dt dl dO -> inputArrow O n ds dt dl dO m w -> declaredArrow s n m ->
    exists k, arrowBlocks s = Ok k /\
      forall d0, dataOf k n ds dt dl dO d0 ->
      exists d, arrowFactorize O mt k m reg d0 = Ok d /\
        forall g, In g (allIdx n ds dt dl dO) -> exists t, pivotAt O d g = reg t (localIdx g).
  Proof.
    intros HD IA DA. destruct (arrowBlocks_ok s ds dt dl dO HD) as (k & P & Ek & AG & AC & AV).
    exists k. split; auto. intros d0 DO.
    pose proof (goodInput_of O s ds dt dl dO P n m w HD AV IA DA) as GI.
    destruct (arrowFactorize_ok O s ds dt dl dO k P AG AC mt n m reg d0 DO GI) as (r & E1 & D1 & R1).
    exists r. split; auto.
    exact (arrow_pivot_reg O s ds dt dl dO k n m w HD Ek IA DA mt reg d0 r DO E1).
  Qed.

  (** a regularization that would not have changed the pivots *)
  Lemma single_inactive mt s n p b m a vals reg L0 D0 L D :
    spOf s n n -> validPerm n p -> factorizationBlk s p = Ok b ->
    spOf a n n -> inputOf O m a vals -> coveredSym (entries a) (entries s) n p ->
    length L0 = c_nnz (b_sp b) -> length D0 = n ->
    factorize O mt b (Some m) regularizationNone (L0, D0) = Ok (L, D) ->
    (forall i, i < n -> reg (vecAt O D i) i = vecAt O D i) ->
    factorize O mt b (Some m) reg (L0, D0) = Ok (L, D).
  Proof.
    intros HS HP HB HA HI HC N1 N2 EF HR.
    apply (single_reg O mt s n p b m a vals regularizationNone reg); auto.
    intros i t Hi. unfold regularizationNone. intros E. rewrite <- E, HR; auto.
  Qed.

  Lemma arrow_inactive mt s ds dt dl dO k n m w reg d0 d :
    arrowDims s ds dt dl dO -> arrowBlocks s = Ok k ->
    inputArrow O n ds dt dl dO m w -> declaredArrow s n m ->
    dataOf k n ds dt dl dO d0 ->
    arrowFactorize O mt k m regularizationNone d0 = Ok d ->
    (forall g, In g (allIdx n ds dt dl dO) -> reg (pivotAt O d g) (localIdx g) = pivotAt O d g) ->
    arrowFactorize O mt k m reg d0 = Ok d.
  Proof.
    intros HD Ek IA DA DO EF HR.
    apply (arrow_reg O mt s ds dt dl dO k n m w regularizationNone reg d0 d); auto.
    intros g t Hg. unfold regularizationNone. intros E. rewrite <- E, HR; auto.
  Qed.
End Results.

(** ** the pivot of L D L^T as a value of its quadratic form *)
Section Quad.
  Context {F : Type} (O : ops F) (FL : fieldLaws O).
  Local Notation "0" := (o0 O) : scalar.
  Local Notation "a + b" := (oadd O a b) : scalar.
  Local Notation "a - b" := (osub O a b) : scalar.
  Local Notation "a * b" := (omul O a b) : scalar.
  Add Ring FrRG : (fl_ring FL).
  Context {I : Type} (all : list I) (rank : I -> nat) (eqd : forall a b : I, {a = b} + {a <> b})
    (ND : NoDup all) (Inj : forall g h, In g all -> In h all -> rank g = rank h -> g = h).
  Local Notation sum := (suml O all).

  Lemma pivot_quad (Lh A : I -> I -> F) (D : I -> F) g : In g all ->
    (forall g, In g all -> Lh g g = fl_one FL) ->
    (forall g k, In g all -> In k all -> k <> g -> ~ rank k < rank g -> Lh g k = 0%s) ->
    (forall g h, In g all -> In h all -> sum (fun k => Lh g k * D k * Lh h k)%s = A g h) ->
    exists x, D g = quadForm O all A x.
  Proof.
    intros Hg L1 L0 HA.
    destruct (back_subst O FL all rank eqd ND Inj Lh L1 L0 g Hg) as (x & X1 & X2 & X3).
    exists x. symmetry.
    assert (Q : quadForm O all A x = sum (fun k => D k * (unitVec O FL eqd g k * unitVec O FL eqd g k))%s).
    { rewrite (quad_form O FL).
      rewrite (suml_ext O all _ (fun r => sum (fun k => (x r * Lh r k) * (D k * unitVec O FL eqd g k)))%s).
      - rewrite (suml_swap O FL). apply suml_ext. intros k Hk. rewrite (suml_mult_r O FL).
        rewrite (suml_ext O all _ (fun h => (Lh h k * x h)%s)) by (intros; ring).
        rewrite X3 by auto. ring.
      - intros r Hr.
        rewrite (suml_ext O all (fun h => (A r h * x h)%s)
          (fun h => sum (fun k => (Lh r k * D k) * (Lh h k * x h)))%s).
        + rewrite (suml_swap O FL), <- (suml_mult_l O FL). apply suml_ext. intros k Hk.
          rewrite (suml_mult_l O FL), X3 by auto. ring.
        + intros h Hh. rewrite <- HA, <- (suml_mult_r O FL) by auto. apply suml_ext. intros; ring. }
    rewrite Q, (suml_single O FL all _ g); auto.
    - unfold unitVec. destruct (eqd g g); [ring|congruence].
    - intros h Hh N. unfold unitVec. destruct (eqd h g); [congruence|ring].
  Qed.

  Lemma quad_plus (A : I -> I -> F) (E x : I -> F) :
    quadForm O all (fun g h => if eqd g h then (A g h + E g)%s else A g h) x =
    (quadForm O all A x + sum (fun g => E g * (x g * x g)))%s.
  Proof.
    unfold quadForm. rewrite <- (suml_plus O FL). apply suml_ext. intros g Hg.
    rewrite (suml_ext O all _ (fun h => x g * A g h * x h +
      (if eqd g h then x g * E g * x h else 0))%s).
    - rewrite (suml_plus O FL). f_equal. rewrite (suml_single O FL all _ g); auto.
      + destruct (eqd g g); [ring|congruence].
      + intros h Hh N. destruct (eqd g h); [congruence|auto].
    - intros h Hh. destruct (eqd g h); ring.
  Qed.
End Quad.

(** ** RegularizationSmallPositiveConstant without algebraic laws *)
Section Small.
  Context {F : Type} (O : ops F) (S : scalarFns F).
  Let reg := regularizationSmallPositiveConstant S.
  Let tol := fn_pow S (fn_epsilon S) (fn_0625 S).
  Let c := fn_pow S (fn_epsilon S) (fn_05 S).

  Lemma small_result d t i : d = reg t i -> d = c \/ fn_ltb S (fn_abs S d) tol = false.
  Proof.
    unfold reg, regularizationSmallPositiveConstant. fold tol c.
    destruct (fn_ltb S (fn_abs S t) tol) eqn:E; intros ->; auto.
  Qed.

  Lemma single_small_any mt s n p a vals m :
    spOf s n n -> validPerm n p ->
    spOf a n n -> inputOf O m a vals -> coveredSym (entries a) (entries s) n p ->
    exists b, factorizationBlk s p = Ok b /\
      forall L0 D0, length L0 = c_nnz (b_sp b) -> length D0 = n ->
      exists L D, factorize O mt b (Some m) reg (L0, D0) = Ok (L, D) /\
        forall i, i < n -> vecAt O D i = c \/ fn_ltb S (fn_abs S (vecAt O D i)) tol = false.
  Proof.
    intros HS HP HA HI HC.
    destruct (single_regularized O mt s n p a vals m reg HS HP HA HI HC) as (b & EB & H).
    exists b. split; auto. intros L0 D0 N1 N2. destruct (H L0 D0 N1 N2) as (L & D & EF & HR).
    exists L, D. split; auto. intros i Hi. destruct (HR i Hi) as (t & Ht).
    eapply small_result; eauto.
  Qed.

  Lemma arrow_small_any mt s ds dt dl dO n m w :
    arrowDims s ds dt dl dO -> inputArrow O n ds dt dl dO m w -> declaredArrow s n m ->
    exists k, arrowBlocks s = Ok k /\
      forall d0, dataOf k n ds dt dl dO d0 ->
      exists d, arrowFactorize O mt k m reg d0 = Ok d /\
        forall g, In g (allIdx n ds dt dl dO) ->
          pivotAt O d g = c \/ fn_ltb S (fn_abs S (pivotAt O d g)) tol = false.
  Proof.
    intros HD IA DA. destruct (arrow_regularized O mt s ds dt dl dO n m w reg HD IA DA) as (k & Ek & H).
    exists k. split; auto. intros d0 DO. destruct (H d0 DO) as (d & EF & HR).
    exists d. split; auto. intros g Hg. destruct (HR g Hg) as (t & Ht). eapply small_result; eauto.
  Qed.
End Small.
