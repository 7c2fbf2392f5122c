(** Positive definite systems in rounded arithmetic: final statements. *)
From Coq Require Import ZArith Reals Lra Lia List Arith Bool Permutation.
From Flocq Require Import Core BinarySingleNaN.
From Verif Require Import Base ModelPerm ModelSparsity ModelSymbolic ModelNumeric ModelArrow ModelReg ModelIeee.
From Verif Require Import SpecSymbolic SpecArrow SpecNumeric SpecArrowNum SpecReg SpecRound SpecDominant SpecFlat SpecDomFloat SpecPosFloat.
From Verif Require Import ProofBase ProofPerm ProofCsr ProofFill ProofDense ProofExact ProofLdl ProofKernel ProofUp ProofSolve
  ProofSingle ProofSingleMain ProofMultiply ProofArrowSym ProofArrowRows ProofArrowUniq ProofArrowDense ProofArrowProduct ProofArrowSolve ProofArrowMain
  ProofArrowSub ProofChain ProofChainKernel ProofChainArrow ProofRound ProofRoundLdl ProofRoundMain ProofRoundUser ProofRoundTri
  ProofPropSymbolic ProofPropArrow ProofPropPivot ProofSign ProofPropSign ProofAgree ProofPropAgree ProofAgreeArrow ProofAgreeFlat
  ProofIeee ProofDomReal ProofDomFloat ProofDomSolve ProofDomMain ProofDomUser ProofDomExist ProofDomIeee ProofPropDomFloat
  ProofPosReal ProofPosFloat ProofPosSolve ProofPosMain ProofPosExist ProofPosUser ProofPosIeee.
Import ListNotations.
Local Open Scope R_scope.
Local Notation rsum := (suml Or).

Section Any.
  Context {F : Type} (O : ops F) (fin : F -> Prop) (val : F -> R) (u eta Om : R).
  Context (RO : rounding O fin val u eta) (NO : noOverflow O fin val Om).

  (** ** single matrix *)
  Section Single.
  Variables (mt : method) (s : sparsity) (n : nat) (p : perm) (b : blk).
  Variables (a : sparsity) (vals : list F) (m : mat (F:=F)) (lam amin amax : R) (r : nat).
  Local Notation all := (seq 0 n).
  Local Notation q i := (nth i p 0%nat).
  Local Notation M := (fun i j => val (symAt O (entries a) vals i j)).
  Hypothesis HS : spOf s n n.
  Hypothesis HP : validPerm n p.
  Hypothesis HB : factorizationBlk s p = Ok b.
  Hypothesis HA : spOf a n n.
  Hypothesis HI : inputOf O m a vals.
  Hypothesis HC : coveredSym (entries a) (entries s) n p.
  Hypothesis FA : forall i j, (i < n)%nat -> (j < n)%nat -> fin (symAt O (entries a) vals i j).
  Hypothesis PD : positiveBy all M lam.
  Hypothesis RNG : forall i, (i < n)%nat -> amin <= M i i <= amax.
  Hypothesis FIT : posFits u eta Om lam amin amax n r.

  Definition singlePosWorks (L0 D0 : list F) : Prop :=
    exists L D, factorize O mt b (Some m) regularizationNone (L0, D0) = Ok (L, D) /\
      length L = c_nnz (b_sp b) /\ length D = n /\
      (forall v, In v L -> fin v) /\
      (forall i, (i < n)%nat -> posPivot fin val lam (symAt O (entries a) vals (q i) (q i)) (vecAt O D i)) /\
      forall rhs B, length rhs = n -> (forall v, In v rhs -> fin v /\ Rabs (val v) <= B) ->
        posRhsFits Om lam amin amax n B ->
        exists x, solveInPlace O b (L, D) rhs = Ok x /\ length x = n /\
          (forall v, In v x -> fin v /\ lam * amin * Rabs (val v) <= 9 * (INR n * B)) /\
          exists xs, onlySolution all M (fun i => val (vecAt O rhs i)) xs /\
            diagNorm all M (fun i => val (vecAt O x i) - xs i) <=
            posError u eta lam amin amax n r (diagNorm all M (fun i => val (vecAt O x i))).

  Lemma single_pos_works L0 D0 :
    (forall i, (i < n)%nat -> (length (cols (b_sp b) i) <= r)%nat) ->
    (forall j, (j < n)%nat -> (length (rowsOf (b_sp b) n j) <= r)%nat) ->
    length L0 = c_nnz (b_sp b) -> length D0 = n -> singlePosWorks L0 D0.
  Proof.
    intros MR MC N1 N2.
    destruct (single_pos_core O fin val u eta Om RO NO mt s n p b a vals m lam amin amax r HS HP HB HA HI HC FA PD RNG FIT
      MR MC L0 D0 N1 N2) as (L & D & EF & FL & PV & SO).
    destruct (factor_len O s n p b HS HP HB mt a vals m regularizationNone L0 D0 L D HA HI HC N1 N2 EF) as [NL ND].
    exists L, D. split; auto. split; auto. split; auto. split; auto. split; auto.
    intros rhs B NR FR RF. destruct (SO rhs B NR FR RF) as (x & ES & NX & FX & BX & H).
    exists x. split; auto. split; auto. split.
    { intros v Hv. split; auto. apply In_nth with (d := o0 O) in Hv. destruct Hv as (i & Hi & <-). apply BX. lia. }
    destruct (positive_solution Nat.eq_dec all M lam (fun i => val (vecAt O rhs i))) as (xs & H1 & H2); auto.
    - apply seq_NoDup.
    - apply FIT.
    - intros g Hg. apply in_seq in Hg. apply Rlt_le_trans with amin; [apply FIT|apply RNG; lia].
    - exists xs. split; [split; auto|]. apply H. intros i Hi. apply (H1 i). apply in_seq. lia.
  Qed.
  End Single.

  Theorem single_pos_finite mt s n p b a vals m lam amin amax r :
    spOf s n n -> validPerm n p -> factorizationBlk s p = Ok b ->
    spOf a n n -> inputOf O m a vals -> coveredSym (entries a) (entries s) n p ->
    (forall i j, (i < n)%nat -> (j < n)%nat -> fin (symAt O (entries a) vals i j)) ->
    positiveBy (seq 0 n) (fun i j => val (symAt O (entries a) vals i j)) lam ->
    (forall i, (i < n)%nat -> amin <= val (symAt O (entries a) vals i i) <= amax) ->
    (forall i, (i < n)%nat -> (rowCount (c_entries (b_sp b)) i <= r)%nat /\ (colCount (c_entries (b_sp b)) i <= r)%nat) ->
    posFits u eta Om lam amin amax n r ->
    forall L0 D0, length L0 = c_nnz (b_sp b) -> length D0 = n ->
    exists L D, factorize O mt b (Some m) regularizationNone (L0, D0) = Ok (L, D) /\
      (forall v, In v L -> fin v) /\
      (forall i, (i < n)%nat ->
         posPivot fin val lam (symAt O (entries a) vals (nth i p 0%nat) (nth i p 0%nat)) (vecAt O D i)) /\
      forall rhs B, length rhs = n -> (forall v, In v rhs -> fin v /\ Rabs (val v) <= B) ->
        posRhsFits Om lam amin amax n B ->
        exists x, solveInPlace O b (L, D) rhs = Ok x /\ length x = n /\
          forall v, In v x -> fin v /\ lam * amin * Rabs (val v) <= 9 * (INR n * B).
  Proof.
    intros HS HP HB HA HI HC FA PD RNG CN FIT L0 D0 N1 N2.
    destruct (single_pos_works mt s n p b a vals m lam amin amax r HS HP HB HA HI HC FA PD RNG FIT L0 D0) as (L & D & W); auto.
    - intros i Hi. rewrite cols_count. apply CN; auto.
    - intros j Hj. eapply Nat.le_trans; [apply rowsOf_count|]. apply CN; auto.
    - destruct W as (W1 & _ & _ & W2 & W3 & W4). exists L, D. split; auto. split; auto. split; auto.
      intros rhs B NR FR RF. destruct (W4 rhs B NR FR RF) as (x & X1 & X2 & X3 & _). eauto.
  Qed.

  Theorem single_pos_error mt s n p b a vals m lam amin amax r :
    spOf s n n -> validPerm n p -> factorizationBlk s p = Ok b ->
    spOf a n n -> inputOf O m a vals -> coveredSym (entries a) (entries s) n p ->
    (forall i j, (i < n)%nat -> (j < n)%nat -> fin (symAt O (entries a) vals i j)) ->
    positiveBy (seq 0 n) (fun i j => val (symAt O (entries a) vals i j)) lam ->
    (forall i, (i < n)%nat -> amin <= val (symAt O (entries a) vals i i) <= amax) ->
    (forall i, (i < n)%nat -> (rowCount (c_entries (b_sp b)) i <= r)%nat /\ (colCount (c_entries (b_sp b)) i <= r)%nat) ->
    posFits u eta Om lam amin amax n r ->
    forall L0 D0 L D rhs B x, length L0 = c_nnz (b_sp b) -> length D0 = n ->
    factorize O mt b (Some m) regularizationNone (L0, D0) = Ok (L, D) ->
    length rhs = n -> (forall v, In v rhs -> fin v /\ Rabs (val v) <= B) ->
    posRhsFits Om lam amin amax n B ->
    solveInPlace O b (L, D) rhs = Ok x ->
    exists xs, onlySolution (seq 0 n) (fun i j => val (symAt O (entries a) vals i j)) (fun i => val (vecAt O rhs i)) xs /\
      let M := fun i j => val (symAt O (entries a) vals i j) in
      diagNorm (seq 0 n) M (fun i => val (vecAt O x i) - xs i) <=
      posError u eta lam amin amax n r (diagNorm (seq 0 n) M (fun i => val (vecAt O x i))).
  Proof.
    intros HS HP HB HA HI HC FA PD RNG CN FIT L0 D0 L D rhs B x N1 N2 EF NR FR RF ES.
    destruct (single_pos_works mt s n p b a vals m lam amin amax r HS HP HB HA HI HC FA PD RNG FIT L0 D0) as (L1 & D1 & W); auto.
    - intros i Hi. rewrite cols_count. apply CN; auto.
    - intros j Hj. eapply Nat.le_trans; [apply rowsOf_count|]. apply CN; auto.
    - destruct W as (W1 & _ & _ & _ & _ & W4). rewrite EF in W1. injection W1 as <- <-.
      destruct (W4 rhs B NR FR RF) as (x1 & X1 & _ & _ & X4). rewrite ES in X1. injection X1 as <-. auto.
  Qed.

  (** ** arrowhead *)
  Section Arrow.
  Variables (mt : method) (s : arrow_sp) (ds dt dl dO : nat) (k : arrow_blks) (n : nat).
  Variables (m : arrow_mat (F:=F)) (w : arrow_vals F) (lam amin amax : R) (r : nat).
  Local Notation all := (allIdx n ds dt dl dO).
  Local Notation q := (permIdx s).
  Local Notation M := (fun g h => val (matAt O m w g h)).
  Local Notation N := (flatDim n ds dt dl dO).
  Hypothesis HD : arrowDims s ds dt dl dO.
  Hypothesis HK : arrowBlocks s = Ok k.
  Hypothesis IA : inputArrow O n ds dt dl dO m w.
  Hypothesis DA : declaredArrow s n m.
  Hypothesis FA : forall g h, In g all -> In h all -> fin (matAt O m w g h).
  Hypothesis PD : positiveBy all M lam.
  Hypothesis RNG : forall g, In g all -> amin <= M g g <= amax.
  Hypothesis FIT : posFits u eta Om lam amin amax N r.

  Definition arrowPosWorks (d0 : arrow_data (F:=F)) : Prop :=
    exists d, arrowFactorize O mt k m regularizationNone d0 = Ok d /\ dataOf k n ds dt dl dO d /\
      (forall g h, In g all -> In h all -> fin (factorAt O (o0 O) k d g h)) /\
      (forall g, In g all -> posPivot fin val lam (matAt O m w (q g) (q g)) (pivotAt O d g)) /\
      forall rhs B, vecOf n ds dt dl dO rhs ->
        (forall g, In g all -> fin (gvecAt O rhs g) /\ Rabs (val (gvecAt O rhs g)) <= B) ->
        posRhsFits Om lam amin amax N B ->
        exists x, arrowSolveInPlace O k d rhs = Ok x /\ vecOf n ds dt dl dO x /\
          (forall g, In g all -> fin (gvecAt O x g) /\ lam * amin * Rabs (val (gvecAt O x g)) <= 9 * (INR N * B)) /\
          exists xs, onlySolution all M (fun g => val (gvecAt O rhs g)) xs /\
            diagNorm all M (fun g => val (gvecAt O x g) - xs g) <=
            posError u eta lam amin amax N r (diagNorm all M (fun g => val (gvecAt O x g))).

  Lemma arrow_pos_works d0 :
    (forall g, In g all -> (length (fwdL k n g) <= r)%nat) ->
    (forall g, In g all -> (length (bwdL ds dt dl dO k n g) <= r)%nat) ->
    dataOf k n ds dt dl dO d0 -> arrowPosWorks d0.
  Proof.
    intros MR MC DO0.
    destruct (arrow_pos_core O fin val u eta Om RO NO mt s ds dt dl dO k n m w lam amin amax r HD HK IA DA FA PD RNG FIT MR MC d0 DO0)
      as (d & EF & DO & FL & PV & SO).
    exists d. split; auto. split; auto. split; auto. split; auto.
    intros rhs B VR FR RF. destruct (SO rhs B VR FR RF) as (x & ES & NX & FX & BX & H).
    exists x. split; auto. split; auto. split; auto.
    destruct (positive_solution gidx_eq_dec all M lam (fun g => val (gvecAt O rhs g))) as (xs & H1 & H2); auto.
    - apply NoDup_allIdx.
    - apply FIT.
    - intros g Hg. apply Rlt_le_trans with amin; [apply FIT|apply RNG; auto].
    - exists xs. split; [split; auto|]. apply H; auto.
  Qed.
  End Arrow.

  Theorem arrow_pos_finite mt s ds dt dl dO k n m w lam amin amax r :
    arrowDims s ds dt dl dO -> arrowBlocks s = Ok k ->
    inputArrow O n ds dt dl dO m w -> declaredArrow s n m ->
    (forall g h, In g (allIdx n ds dt dl dO) -> In h (allIdx n ds dt dl dO) -> fin (matAt O m w g h)) ->
    positiveBy (allIdx n ds dt dl dO) (fun g h => val (matAt O m w g h)) lam ->
    (forall g, In g (allIdx n ds dt dl dO) -> amin <= val (matAt O m w g g) <= amax) ->
    (forall g, In g (allIdx n ds dt dl dO) -> (rowCountG k n g <= r)%nat /\ (colCountG k n g <= r)%nat) ->
    posFits u eta Om lam amin amax (flatDim n ds dt dl dO) r ->
    forall d0, dataOf k n ds dt dl dO d0 ->
    exists d, arrowFactorize O mt k m regularizationNone d0 = Ok d /\
      (forall g h, In g (allIdx n ds dt dl dO) -> In h (allIdx n ds dt dl dO) -> fin (factorAt O (o0 O) k d g h)) /\
      (forall g, In g (allIdx n ds dt dl dO) ->
         posPivot fin val lam (matAt O m w (permIdx s g) (permIdx s g)) (pivotAt O d g)) /\
      forall rhs B, vecOf n ds dt dl dO rhs ->
        (forall g, In g (allIdx n ds dt dl dO) -> fin (gvecAt O rhs g) /\ Rabs (val (gvecAt O rhs g)) <= B) ->
        posRhsFits Om lam amin amax (flatDim n ds dt dl dO) B ->
        exists x, arrowSolveInPlace O k d rhs = Ok x /\ vecOf n ds dt dl dO x /\
          forall g, In g (allIdx n ds dt dl dO) ->
            fin (gvecAt O x g) /\ lam * amin * Rabs (val (gvecAt O x g)) <= 9 * (INR (flatDim n ds dt dl dO) * B).
  Proof.
    intros HD HK IA DA FA PD RNG CN FIT d0 DO0.
    destruct (arrow_pos_works mt s ds dt dl dO k n m w lam amin amax r HD HK IA DA FA PD RNG FIT d0) as (d & W); auto.
    - intros g Hg. rewrite fwdL_count. apply CN; auto.
    - intros g Hg. eapply Nat.le_trans; [apply bwdL_count|]. apply CN; auto.
    - destruct W as (W1 & _ & W2 & W3 & W4). exists d. split; auto. split; auto. split; auto.
      intros rhs Bd VR FR RF. destruct (W4 rhs Bd VR FR RF) as (x & X1 & X2 & X3 & _). eauto.
  Qed.

  Theorem arrow_pos_error mt s ds dt dl dO k n m w lam amin amax r :
    arrowDims s ds dt dl dO -> arrowBlocks s = Ok k ->
    inputArrow O n ds dt dl dO m w -> declaredArrow s n m ->
    (forall g h, In g (allIdx n ds dt dl dO) -> In h (allIdx n ds dt dl dO) -> fin (matAt O m w g h)) ->
    positiveBy (allIdx n ds dt dl dO) (fun g h => val (matAt O m w g h)) lam ->
    (forall g, In g (allIdx n ds dt dl dO) -> amin <= val (matAt O m w g g) <= amax) ->
    (forall g, In g (allIdx n ds dt dl dO) -> (rowCountG k n g <= r)%nat /\ (colCountG k n g <= r)%nat) ->
    posFits u eta Om lam amin amax (flatDim n ds dt dl dO) r ->
    forall d0 d rhs Bd x, dataOf k n ds dt dl dO d0 ->
    arrowFactorize O mt k m regularizationNone d0 = Ok d ->
    vecOf n ds dt dl dO rhs ->
    (forall g, In g (allIdx n ds dt dl dO) -> fin (gvecAt O rhs g) /\ Rabs (val (gvecAt O rhs g)) <= Bd) ->
    posRhsFits Om lam amin amax (flatDim n ds dt dl dO) Bd ->
    arrowSolveInPlace O k d rhs = Ok x ->
    exists xs, onlySolution (allIdx n ds dt dl dO) (fun g h => val (matAt O m w g h)) (fun g => val (gvecAt O rhs g)) xs /\
      let M := fun g h => val (matAt O m w g h) in
      diagNorm (allIdx n ds dt dl dO) M (fun g => val (gvecAt O x g) - xs g) <=
      posError u eta lam amin amax (flatDim n ds dt dl dO) r
        (diagNorm (allIdx n ds dt dl dO) M (fun g => val (gvecAt O x g))).
  Proof.
    intros HD HK IA DA FA PD RNG CN FIT d0 d rhs Bd x DO0 EF VR FR RF ES.
    destruct (arrow_pos_works mt s ds dt dl dO k n m w lam amin amax r HD HK IA DA FA PD RNG FIT d0) as (d1 & W); auto.
    - intros g Hg. rewrite fwdL_count. apply CN; auto.
    - intros g Hg. eapply Nat.le_trans; [apply bwdL_count|]. apply CN; auto.
    - destruct W as (W1 & _ & _ & _ & W4). rewrite EF in W1. injection W1 as <-.
      destruct (W4 rhs Bd VR FR RF) as (x1 & X1 & _ & _ & X4). rewrite ES in X1. injection X1 as <-. auto.
  Qed.

  (** ** block tridiagonal *)
  Section Tri.
  Variables (mt : method) (a b : sparsity) (p : perm) (dt n : nat) (k : arrow_blks).
  Variables (A B : list (mat (F:=F))) (wA wB : list (list F)) (lam amin amax : R) (r : nat).
  Local Notation rows := (list_prod (seq 0 (n + 1)) (seq 0 dt)).
  Local Notation T := (fun r c => triMatAt O A B wA wB (fst r) (snd r) (fst c) (snd c)).
  Local Notation all := (allIdx n 0 dt 0 0).
  Local Notation X := (tridiagonalInput dt A B n).
  Local Notation W := (triVals n wA wB).
  Hypotheses (SA : spOf a dt dt) (SB : spOf b dt dt) (HP : validPerm dt p).
  Hypothesis HK : tridiagonalBlocks a b p = Ok k.
  Hypothesis IT : inputTri O n dt A B wA wB.
  Hypothesis DT : declaredTri a b n A B.
  Hypothesis FA : forall g h, In g rows -> In h rows -> fin (T g h).
  Hypothesis PD : positiveBy rows (fun g h => val (T g h)) lam.
  Hypothesis RNG : forall g, In g rows -> amin <= val (T g g) <= amax.
  Hypothesis FIT : posFits u eta Om lam amin amax ((n + 1) * dt) r.

  Definition triPosWorks (d0 : arrow_data (F:=F)) : Prop :=
    exists d, tridiagonalFactorize O mt k dt A B regularizationNone d0 = Ok d /\
      (forall g h, In g all -> In h all -> fin (factorAt O (o0 O) k d g h)) /\
      (forall t i, In (t, i) rows ->
         posPivot fin val lam (triMatAt O A B wA wB t (nth i p 0%nat) t (nth i p 0%nat)) (pivotAt O d (GT t i))) /\
      forall rhs Bd, blocksOf n dt rhs ->
        (forall t i, In (t, i) rows -> fin (vecAt O (nth t rhs []) i) /\ Rabs (val (vecAt O (nth t rhs []) i)) <= Bd) ->
        posRhsFits Om lam amin amax ((n + 1) * dt) Bd ->
        exists x, tridiagonalSolveInPlace O k d rhs = Ok x /\ blocksOf n dt x /\
          (forall t i, In (t, i) rows -> fin (vecAt O (nth t x []) i) /\
             lam * amin * Rabs (val (vecAt O (nth t x []) i)) <= 9 * (INR ((n + 1) * dt) * Bd)) /\
          exists xs, onlySolution rows (fun g h => val (T g h)) (fun g => val (vecAt O (nth (fst g) rhs []) (snd g))) xs /\
            diagNorm rows (fun g h => val (T g h)) (fun g => val (vecAt O (nth (fst g) x []) (snd g)) - xs g) <=
            posError u eta lam amin amax ((n + 1) * dt) r
              (diagNorm rows (fun g h => val (T g h)) (fun g => val (vecAt O (nth (fst g) x []) (snd g)))).

  Lemma tri_pos_works d0 :
    (forall g, In g all -> (length (fwdL k n g) <= r)%nat) ->
    (forall g, In g all -> (length (bwdL 0 dt 0 0 k n g) <= r)%nat) ->
    dataOf k n 0 dt 0 0 d0 -> triPosWorks d0.
  Proof.
    intros MR MC DO0.
    assert (ND : flatDim n 0 dt 0 0 = ((n + 1) * dt)%nat) by (unfold flatDim; lia).
    destruct (arrow_pos_works mt (tridiagonalSparsity a b p) 0 dt 0 0 k n X W lam amin amax r
      (tri_dims a b p dt SA SB HP) (tri_k a b p dt k SA SB HK) (tri_input O n dt A B wA wB IT) (tri_declared a b p n dt A B DT))
      with (d0 := d0) as (d & EF & DO & FL & PV & SO); auto.
    - intros g h Hg Hh. apply in_all in Hg, Hh. destruct Hg as (g' & Hg & ->), Hh as (h' & Hh & ->).
      rewrite (tri_matAt O n dt A B wA wB g' h' IT). auto.
    - intros z. rewrite !sum_all.
      rewrite (rsum_ext rows _ (fun c => val (T c c) * (z (triRow c) * z (triRow c))))
        by (intros c _; rewrite (tri_matAt O n dt A B wA wB c c IT); auto).
      eapply Rle_trans; [apply (PD (fun c => z (triRow c)))|]. right. apply rsum_ext. intros c _. rewrite sum_all.
      apply rsum_ext. intros h _. rewrite (tri_matAt O n dt A B wA wB c h IT). auto.
    - intros g Hg. apply in_all in Hg. destruct Hg as (g' & Hg & ->).
      rewrite (tri_matAt O n dt A B wA wB g' g' IT). auto.
    - rewrite ND. auto.
    - exists d. unfold tridiagonalFactorize, numRepetitions. rewrite (do_nts _ _ _ _ _ _ _ DO0). split; auto. split; auto.
      assert (INA : forall t i, In (t, i) rows -> In (GT t i) all) by (intros t i H; apply in_all; exists (t, i); auto).
      split; [intros t i H; exact (PV (GT t i) (INA t i H))|].
      intros rhs Bd HV FR RF.
      destruct (SO (mkAV [] rhs [] []) Bd (tri_vec n dt rhs HV)) as (y & ES & VY & FY & xs & [S1 S2] & HX).
      { intros g Hg. apply in_all in Hg. destruct Hg as ([t i] & Hg & ->). apply (FR t i Hg). }
      { rewrite ND. exact RF. }
      exists (v_tri y). unfold tridiagonalSolveInPlace. rewrite ES. split; auto.
      split; [split; apply VY|].
      assert (Ey : y = mkAV [] (v_tri y) [] []).
      { destruct y as [y1 y2 y3 y4], VY as [V1 V2 V3 V4 V5]. cbn [v_start v_tri v_link v_outer] in *.
        destruct y1, y3, y4; cbn in V1, V4, V5; try lia. auto. }
      rewrite ND in *. split; [intros t i H; exact (FY (GT t i) (INA t i H))|].
      assert (TR : forall (ys : gidx -> R) c, rsum all (fun h => val (matAt O X W (triRow c) h) * ys h) =
        rsum rows (fun h => val (T c h) * ys (triRow h))).
      { intros ys c. rewrite sum_all. apply rsum_ext. intros h _. rewrite (tri_matAt O n dt A B wA wB c h IT). auto. }
      exists (fun c => xs (triRow c)). split; [split|].
      + intros c Hc. rewrite <- TR. rewrite (S1 (triRow c)) by (apply in_all; eauto). destruct c; reflexivity.
      + intros ys HY c Hc. rewrite <- (S2 (fun g => match g with GT t i => ys (t, i) | _ => 0 end)); auto.
        * destruct c; reflexivity.
        * intros g Hg. apply in_all in Hg. destruct Hg as (c' & Hc' & ->). rewrite TR.
          eapply eq_trans; [|eapply eq_trans; [apply (HY c' Hc')|destruct c'; reflexivity]].
          apply rsum_ext. intros [t i] _. reflexivity.
        * apply in_all. eauto.
      + assert (DN : forall (v : gidx -> R) (w : nat * nat -> R), (forall c, v (triRow c) = w c) ->
          diagNorm all (fun g h => val (matAt O X W g h)) v = diagNorm rows (fun g h => val (T g h)) w).
        { intros v w E. unfold diagNorm. f_equal. rewrite sum_all. apply rsum_ext. intros c _.
          rewrite (tri_matAt O n dt A B wA wB c c IT), E. auto. }
        rewrite (DN _ (fun g => val (vecAt O (nth (fst g) (v_tri y) []) (snd g)) - xs (triRow g))) in HX by (intros [t i]; reflexivity).
        rewrite (DN _ (fun g => val (vecAt O (nth (fst g) (v_tri y) []) (snd g)))) in HX by (intros [t i]; reflexivity).
        exact HX.
  Qed.
  End Tri.

  Theorem tri_pos_finite mt a b p dt n k A B wA wB lam amin amax r :
    spOf a dt dt -> spOf b dt dt -> validPerm dt p -> tridiagonalBlocks a b p = Ok k ->
    inputTri O n dt A B wA wB -> declaredTri a b n A B ->
    let rows := list_prod (seq 0 (n + 1)) (seq 0 dt) in
    let M := fun r c => triMatAt O A B wA wB (fst r) (snd r) (fst c) (snd c) in
    (forall g h, In g rows -> In h rows -> fin (M g h)) ->
    positiveBy rows (fun g h => val (M g h)) lam ->
    (forall g, In g rows -> amin <= val (M g g) <= amax) ->
    (forall t i, In (t, i) rows -> (rowCountG k n (GT t i) <= r)%nat /\ (colCountG k n (GT t i) <= r)%nat) ->
    posFits u eta Om lam amin amax ((n + 1) * dt) r ->
    forall d0, dataOf k n 0 dt 0 0 d0 ->
    exists d, tridiagonalFactorize O mt k dt A B regularizationNone d0 = Ok d /\
      (forall g h, In g (allIdx n 0 dt 0 0) -> In h (allIdx n 0 dt 0 0) -> fin (factorAt O (o0 O) k d g h)) /\
      (forall t i, In (t, i) rows -> posPivot fin val lam (M (t, nth i p 0%nat) (t, nth i p 0%nat)) (pivotAt O d (GT t i))) /\
      forall rhs Bd, blocksOf n dt rhs ->
        (forall t i, In (t, i) rows -> fin (vecAt O (nth t rhs []) i) /\ Rabs (val (vecAt O (nth t rhs []) i)) <= Bd) ->
        posRhsFits Om lam amin amax ((n + 1) * dt) Bd ->
        exists x, tridiagonalSolveInPlace O k d rhs = Ok x /\ blocksOf n dt x /\
          forall t i, In (t, i) rows -> fin (vecAt O (nth t x []) i) /\
             lam * amin * Rabs (val (vecAt O (nth t x []) i)) <= 9 * (INR ((n + 1) * dt) * Bd).
  Proof.
    intros SA SB HP HK IT DT rows M FA PD RNG CN FIT d0 DO0.
    destruct (tri_pos_works mt a b p dt n k A B wA wB lam amin amax r SA SB HP HK IT DT FA PD RNG FIT d0) as (d & W); auto.
    - intros g Hg. apply in_all in Hg. destruct Hg as ([t i] & Hg & ->). rewrite fwdL_count. apply CN; auto.
    - intros g Hg. apply in_all in Hg. destruct Hg as ([t i] & Hg & ->).
      eapply Nat.le_trans; [apply bwdL_count|]. apply CN; auto.
    - destruct W as (W1 & W2 & W3 & W4). exists d. split; auto. split; auto. split; auto.
      intros rhs Bd VR FR RF. destruct (W4 rhs Bd VR FR RF) as (x & X1 & X2 & X3 & _). eauto.
  Qed.

  Theorem tri_pos_error mt a b p dt n k A B wA wB lam amin amax r :
    spOf a dt dt -> spOf b dt dt -> validPerm dt p -> tridiagonalBlocks a b p = Ok k ->
    inputTri O n dt A B wA wB -> declaredTri a b n A B ->
    let rows := list_prod (seq 0 (n + 1)) (seq 0 dt) in
    let M := fun r c => triMatAt O A B wA wB (fst r) (snd r) (fst c) (snd c) in
    (forall g h, In g rows -> In h rows -> fin (M g h)) ->
    positiveBy rows (fun g h => val (M g h)) lam ->
    (forall g, In g rows -> amin <= val (M g g) <= amax) ->
    (forall t i, In (t, i) rows -> (rowCountG k n (GT t i) <= r)%nat /\ (colCountG k n (GT t i) <= r)%nat) ->
    posFits u eta Om lam amin amax ((n + 1) * dt) r ->
    forall d0 d rhs Bd x, dataOf k n 0 dt 0 0 d0 ->
    tridiagonalFactorize O mt k dt A B regularizationNone d0 = Ok d ->
    blocksOf n dt rhs ->
    (forall t i, In (t, i) rows -> fin (vecAt O (nth t rhs []) i) /\ Rabs (val (vecAt O (nth t rhs []) i)) <= Bd) ->
    posRhsFits Om lam amin amax ((n + 1) * dt) Bd ->
    tridiagonalSolveInPlace O k d rhs = Ok x ->
    exists xs, onlySolution rows (fun g h => val (M g h)) (fun g => val (vecAt O (nth (fst g) rhs []) (snd g))) xs /\
      diagNorm rows (fun g h => val (M g h)) (fun g => val (vecAt O (nth (fst g) x []) (snd g)) - xs g) <=
      posError u eta lam amin amax ((n + 1) * dt) r
        (diagNorm rows (fun g h => val (M g h)) (fun g => val (vecAt O (nth (fst g) x []) (snd g)))).
  Proof.
    intros SA SB HP HK IT DT rows M FA PD RNG CN FIT d0 d rhs Bd x DO0 EF VR FR RF ES.
    destruct (tri_pos_works mt a b p dt n k A B wA wB lam amin amax r SA SB HP HK IT DT FA PD RNG FIT d0) as (d1 & W); auto.
    - intros g Hg. apply in_all in Hg. destruct Hg as ([t i] & Hg & ->). rewrite fwdL_count. apply CN; auto.
    - intros g Hg. apply in_all in Hg. destruct Hg as ([t i] & Hg & ->).
      eapply Nat.le_trans; [apply bwdL_count|]. apply CN; auto.
    - destruct W as (W1 & _ & _ & W4). rewrite EF in W1. injection W1 as <-.
      destruct (W4 rhs Bd VR FR RF) as (x1 & X1 & _ & _ & X4). rewrite ES in X1. injection X1 as <-. auto.
  Qed.
End Any.

(** ** doubles *)
Local Existing Instance prec64.
Local Existing Instance emax64.
Local Notation fin := (ieeeFinite 53 1024).
Local Notation val := (ieeeVal 53 1024).
Local Notation rd := (ieee_rounding 53 1024 prec64 emax64).
Local Notation no := (ieee_noOverflow 53 1024 prec64 emax64).

Theorem single_pos_double mt s n p b a vals m lam r :
  (Z.of_nat n <= 2 ^ 20)%Z -> (INR r + 1) * (INR r + 1) * bpow radix2 (-47) <= lam <= 1 ->
  spOf s n n -> validPerm n p -> factorizationBlk s p = Ok b ->
  spOf a n n -> inputOf Od m a vals -> coveredSym (entries a) (entries s) n p ->
  (forall v, In v vals -> fin v) ->
  let M := fun i j => val (symAt Od (entries a) vals i j) in
  positiveBy (seq 0 n) M lam ->
  (forall i, (i < n)%nat -> bpow radix2 (-200) <= M i i <= bpow radix2 200) ->
  (forall i, (i < n)%nat -> (rowCount (c_entries (b_sp b)) i <= r)%nat /\ (colCount (c_entries (b_sp b)) i <= r)%nat) ->
  forall L0 D0, length L0 = c_nnz (b_sp b) -> length D0 = n ->
  exists L D, factorize Od mt b (Some m) regularizationNone (L0, D0) = Ok (L, D) /\
    (forall v, In v L -> fin v) /\
    (forall i, (i < n)%nat ->
       posPivot fin val lam (symAt Od (entries a) vals (nth i p 0%nat) (nth i p 0%nat)) (vecAt Od D i)) /\
    forall rhs, length rhs = n -> (forall v, In v rhs -> fin v /\ Rabs (val v) <= bpow radix2 200) ->
      exists x, solveInPlace Od b (L, D) rhs = Ok x /\ length x = n /\ (forall v, In v x -> fin v) /\
        exists xs, onlySolution (seq 0 n) M (fun i => val (vecAt Od rhs i)) xs /\
          diagNorm (seq 0 n) M (fun i => val (vecAt Od x i) - xs i) <=
          ((INR r + 1) * (INR r + 1) * bpow radix2 (-48) * diagNorm (seq 0 n) M (fun i => val (vecAt Od x i)) +
           bpow radix2 (-700)) / lam.
Proof.
  intros HN HL HS HP HB HA HI HC FV M PD RNG CN L0 D0 N1 N2.
  assert (FA : forall i j, (i < n)%nat -> (j < n)%nat -> fin (symAt Od (entries a) vals i j)).
  { intros i j _ _. unfold symAt, denseAt.
    assert (FC : forall e, In e (combine (entries a) vals) -> fin (snd e)).
    { intros [e v] He. apply in_combine_r in He. auto. }
    revert FC. generalize (combine (entries a) vals). intros l.
    induction l as [|[[r0 c] v] l IH]; intros FC; cbn [firstValue]; [reflexivity|].
    destruct (_ && _); [apply (FC (r0, c, v)); left; auto|apply IH; intros; apply FC; right; auto]. }
  destruct (single_pos_works Od fin val _ _ _ rd no mt s n p b a vals m lam _ _ r HS HP HB HA HI HC FA PD RNG
    (pos_double_fits n r lam HN HL) L0 D0) as (L & D & W1 & _ & _ & W2 & W3 & W4); auto.
  - intros i Hi. rewrite cols_count. apply CN; auto.
  - intros j Hj. eapply Nat.le_trans; [apply rowsOf_count|]. apply CN; auto.
  - exists L, D. split; auto. split; auto. split; auto. intros rhs NR FR.
    destruct (W4 rhs _ NR FR (pos_double_rhs n r lam HN HL)) as (x & X1 & X2 & X3 & xs & X4 & X5).
    exists x. split; auto. split; auto. split; [intros v Hv; apply (X3 v Hv)|]. exists xs. split; auto.
    eapply Rle_trans; [exact X5|]. apply pos_double_error; auto. apply sqrt_pos.
Qed.

Theorem arrow_pos_double mt s ds dt dl dO k n m w lam r :
  (Z.of_nat (flatDim n ds dt dl dO) <= 2 ^ 20)%Z -> (INR r + 1) * (INR r + 1) * bpow radix2 (-47) <= lam <= 1 ->
  arrowDims s ds dt dl dO -> arrowBlocks s = Ok k ->
  inputArrow Od n ds dt dl dO m w -> declaredArrow s n m ->
  let all := allIdx n ds dt dl dO in
  let M := fun g h => val (matAt Od m w g h) in
  (forall g h, In g all -> In h all -> fin (matAt Od m w g h)) ->
  positiveBy all M lam ->
  (forall g, In g all -> bpow radix2 (-200) <= M g g <= bpow radix2 200) ->
  (forall g, In g all -> (rowCountG k n g <= r)%nat /\ (colCountG k n g <= r)%nat) ->
  forall d0, dataOf k n ds dt dl dO d0 ->
  exists d, arrowFactorize Od mt k m regularizationNone d0 = Ok d /\
    (forall g h, In g all -> In h all -> fin (factorAt Od (o0 Od) k d g h)) /\
    (forall g, In g all -> posPivot fin val lam (matAt Od m w (permIdx s g) (permIdx s g)) (pivotAt Od d g)) /\
    forall rhs, vecOf n ds dt dl dO rhs ->
      (forall g, In g all -> fin (gvecAt Od rhs g) /\ Rabs (val (gvecAt Od rhs g)) <= bpow radix2 200) ->
      exists x, arrowSolveInPlace Od k d rhs = Ok x /\ vecOf n ds dt dl dO x /\
        (forall g, In g all -> fin (gvecAt Od x g)) /\
        exists xs, onlySolution all M (fun g => val (gvecAt Od rhs g)) xs /\
          diagNorm all M (fun g => val (gvecAt Od x g) - xs g) <=
          ((INR r + 1) * (INR r + 1) * bpow radix2 (-48) * diagNorm all M (fun g => val (gvecAt Od x g)) +
           bpow radix2 (-700)) / lam.
Proof.
  intros HN HL HD HK IA DA all M FA PD RNG CN d0 DO0.
  destruct (arrow_pos_works Od fin val _ _ _ rd no mt s ds dt dl dO k n m w lam _ _ r
    HD HK IA DA FA PD RNG (pos_double_fits _ r lam HN HL) d0) as (d & W1 & _ & W2 & W3 & W4); auto.
  - intros g Hg. rewrite fwdL_count. apply CN; auto.
  - intros g Hg. eapply Nat.le_trans; [apply bwdL_count|]. apply CN; auto.
  - exists d. split; auto. split; auto. split; auto. intros rhs VR FR.
    destruct (W4 rhs _ VR FR (pos_double_rhs _ r lam HN HL)) as (x & X1 & X2 & X3 & xs & X4 & X5).
    exists x. split; auto. split; auto. split; [intros g Hg; apply (X3 g Hg)|]. exists xs. split; auto.
    eapply Rle_trans; [exact X5|]. apply pos_double_error; auto. apply sqrt_pos.
Qed.

Theorem tri_pos_double mt a b p dt n k A B wA wB lam r :
  (Z.of_nat ((n + 1) * dt) <= 2 ^ 20)%Z -> (INR r + 1) * (INR r + 1) * bpow radix2 (-47) <= lam <= 1 ->
  spOf a dt dt -> spOf b dt dt -> validPerm dt p -> tridiagonalBlocks a b p = Ok k ->
  inputTri Od n dt A B wA wB -> declaredTri a b n A B ->
  let rows := list_prod (seq 0 (n + 1)) (seq 0 dt) in
  let M := fun r c => triMatAt Od A B wA wB (fst r) (snd r) (fst c) (snd c) in
  (forall g h, In g rows -> In h rows -> fin (M g h)) ->
  positiveBy rows (fun g h => val (M g h)) lam ->
  (forall g, In g rows -> bpow radix2 (-200) <= val (M g g) <= bpow radix2 200) ->
  (forall t i, In (t, i) rows -> (rowCountG k n (GT t i) <= r)%nat /\ (colCountG k n (GT t i) <= r)%nat) ->
  forall d0, dataOf k n 0 dt 0 0 d0 ->
  exists d, tridiagonalFactorize Od mt k dt A B regularizationNone d0 = Ok d /\
    (forall g h, In g (allIdx n 0 dt 0 0) -> In h (allIdx n 0 dt 0 0) -> fin (factorAt Od (o0 Od) k d g h)) /\
    (forall t i, In (t, i) rows -> posPivot fin val lam (M (t, nth i p 0%nat) (t, nth i p 0%nat)) (pivotAt Od d (GT t i))) /\
    forall rhs, blocksOf n dt rhs ->
      (forall t i, In (t, i) rows ->
         fin (vecAt Od (nth t rhs []) i) /\ Rabs (val (vecAt Od (nth t rhs []) i)) <= bpow radix2 200) ->
      exists x, tridiagonalSolveInPlace Od k d rhs = Ok x /\ blocksOf n dt x /\
        (forall t i, In (t, i) rows -> fin (vecAt Od (nth t x []) i)) /\
        let X := fun g => val (vecAt Od (nth (fst g) x []) (snd g)) in
        exists xs, onlySolution rows (fun g h => val (M g h)) (fun g => val (vecAt Od (nth (fst g) rhs []) (snd g))) xs /\
          diagNorm rows (fun g h => val (M g h)) (fun g => X g - xs g) <=
          ((INR r + 1) * (INR r + 1) * bpow radix2 (-48) * diagNorm rows (fun g h => val (M g h)) X +
           bpow radix2 (-700)) / lam.
Proof.
  intros HN HL SA SB HP HK IT DT rows M FA PD RNG CN d0 DO0.
  destruct (tri_pos_works Od fin val _ _ _ rd no mt a b p dt n k A B wA wB lam _ _ r
    SA SB HP HK IT DT FA PD RNG (pos_double_fits _ r lam HN HL) d0) as (d & W1 & W2 & W3 & W4); auto.
  - intros g Hg. apply in_all in Hg. destruct Hg as ([t i] & Hg & ->). rewrite fwdL_count. apply CN; auto.
  - intros g Hg. apply in_all in Hg. destruct Hg as ([t i] & Hg & ->).
    eapply Nat.le_trans; [apply bwdL_count|]. apply CN; auto.
  - exists d. split; auto. split; auto. split; auto. intros rhs VR FR.
    destruct (W4 rhs _ VR FR (pos_double_rhs _ r lam HN HL)) as (x & X1 & X2 & X3 & xs & X4 & X5).
    exists x. split; auto. split; auto. split; [intros t i H; apply (X3 t i H)|]. cbv zeta. exists xs. split; auto.
    eapply Rle_trans; [exact X5|]. apply pos_double_error; auto. apply sqrt_pos.
Qed.
