(** Diagonally dominant systems in rounded arithmetic: final statements. *)
From Coq Require Import ZArith Reals Lra Lia List Arith Bool Permutation.
From Flocq Require Import Core BinarySingleNaN.
From Verif Require Import Base ModelPerm ModelSparsity ModelSymbolic ModelNumeric ModelArrow ModelReg ModelIeee.
From Verif Require Import SpecSymbolic SpecArrow SpecNumeric SpecArrowNum SpecReg SpecRound SpecDominant SpecFlat SpecDomFloat.
From Verif Require Import ProofBase ProofPerm ProofCsr ProofFill ProofDense ProofExact ProofLdl ProofKernel ProofUp ProofSolve
  ProofSingle ProofSingleMain ProofMultiply ProofArrowSym ProofArrowRows ProofArrowUniq ProofArrowDense ProofArrowProduct ProofArrowSolve ProofArrowMain
  ProofArrowSub ProofChain ProofChainKernel ProofChainArrow ProofRound ProofRoundLdl ProofRoundMain ProofRoundUser ProofRoundTri
  ProofPropSymbolic ProofPropArrow ProofPropPivot ProofSign ProofPropSign ProofAgree ProofPropAgree ProofAgreeArrow ProofAgreeFlat
  ProofIeee ProofDomReal ProofDomFloat ProofDomSolve ProofDomMain ProofDomUser ProofDomExist ProofDomIeee.
Import ListNotations.
Local Open Scope R_scope.
Local Notation rsum := (suml Or).

Section Any.
  Context {F : Type} (O : ops F) (fin : F -> Prop) (val : F -> R) (u eta Om : R).
  Context (RO : rounding O fin val u eta) (NO : noOverflow O fin val Om).

  Lemma nz_of (v : F) amin amax : 0 < amin -> amin <= Rabs (val v) <= amax -> val v <> 0.
  Proof. intros A B E. rewrite E, Rabs_R0 in B. lra. Qed.

  (** ** single matrix *)
  Section Single.
  Variables (mt : method) (s : sparsity) (n : nat) (p : perm) (b : blk).
  Variables (a : sparsity) (vals : list F) (m : mat (F:=F)) (th amin amax : R) (r : nat).
  Local Notation all := (seq 0 n).
  Local Notation q i := (nth i p 0%nat).
  Local Notation M := (fun i j => val (symAt O (entries a) vals i j)).
  Hypothesis HS : spOf s n n.
  Hypothesis HP : validPerm n p.
  Hypothesis HB : factorizationBlk s p = Ok b.
  Hypothesis HA : spOf a n n.
  Hypothesis HI : inputOf O m a vals.
  Hypothesis HC : coveredSym (entries a) (entries s) n p.
  Hypothesis FA : forall i j, (i < n)%nat -> (j < n)%nat -> fin (symAt O (entries a) vals i j).
  Hypothesis DOM : dominatedBy Nat.eq_dec all M th.
  Hypothesis RNG : forall i, (i < n)%nat -> amin <= Rabs (M i i) <= amax.
  Hypothesis FIT : domFits u eta Om th amin amax n r.

  Definition singleWorks (L0 D0 : list F) : Prop :=
    exists L D, factorize O mt b (Some m) regularizationNone (L0, D0) = Ok (L, D) /\
      length L = c_nnz (b_sp b) /\ length D = n /\
      (forall v, In v L -> fin v) /\
      (forall i, (i < n)%nat -> goodPivot fin val th (symAt O (entries a) vals (q i) (q i)) (vecAt O D i)) /\
      forall rhs, length rhs = n -> (forall v, In v rhs -> fin v) ->
        rhsFits eta Om th amin n (rsum all (fun i => Rabs (val (vecAt O rhs i)))) ->
        exists x, solveInPlace O b (L, D) rhs = Ok x /\ length x = n /\ (forall v, In v x -> fin v) /\
          exists xs, onlySolution all M (fun i => val (vecAt O rhs i)) xs /\
            forall X, (forall i, (i < n)%nat -> Rabs (val (vecAt O x i)) <= X) ->
            forall i, (i < n)%nat -> Rabs (val (vecAt O x i) - xs i) <= domError u eta th amin amax n r X.

  Lemma single_works L0 D0 :
    (forall i, (i < n)%nat -> (length (cols (b_sp b) i) <= r)%nat) ->
    (forall j, (j < n)%nat -> (length (rowsOf (b_sp b) n j) <= r)%nat) ->
    length L0 = c_nnz (b_sp b) -> length D0 = n -> singleWorks L0 D0.
  Proof.
    intros MR MC N1 N2.
    destruct (single_core O fin val u eta Om RO NO mt s n p b a vals m th amin amax r HS HP HB HA HI HC FA DOM RNG FIT
      MR MC L0 D0 N1 N2) as (L & D & EF & FL & PV & SO).
    destruct (factor_len O s n p b HS HP HB mt a vals m regularizationNone L0 D0 L D HA HI HC N1 N2 EF) as [NL ND].
    exists L, D. split; auto. split; auto. split; auto. split; auto. split; auto.
    intros rhs NR FR RF. destruct (SO rhs NR FR RF) as (x & ES & NX & FX & H).
    exists x. split; auto. split; auto. split; auto.
    destruct (dominated_solution Nat.eq_dec all M th (fun i => val (vecAt O rhs i))) as (xs & H1 & H2); auto.
    - apply seq_NoDup.
    - apply FIT.
    - intros g Hg. apply in_seq in Hg. apply (nz_of _ amin amax); [apply FIT|apply RNG; lia].
    - exists xs. split; [split; auto|]. intros X HX. apply H; auto. intros i Hi. apply (H1 i). apply in_seq. lia.
  Qed.

  Lemma single_dim : forall i, (i < n)%nat ->
    (length (cols (b_sp b) i) <= n)%nat /\ (length (rowsOf (b_sp b) n i) <= n)%nat.
  Proof.
    intros i Hi. pose proof (blk_good s n p b HS HP HB) as GB.
    pose proof (single_rows0 O b n _ p GB (blk_low s n p) (Fill_closed _) []) as RG.
    assert (Hin : In i all) by (apply in_seq; lia).
    assert (X : forall l, NoDup l -> incl l all -> (length l <= n)%nat).
    { intros l Hl Hi'. rewrite <- (seq_length n 0). apply NoDup_incl_length; auto. }
    split; apply X.
    - apply (rg_nodup _ _ _ _ _ RG); auto.
    - intros j Hj. exact (rg_in _ _ _ _ _ RG i j Hin Hj).
    - apply (cg_nodup _ _ _ (single_cols b n)); auto.
    - intros j Hj. apply (cg_in _ _ _ (single_cols b n)) in Hj; auto. tauto.
  Qed.
  End Single.

  Theorem single_dom_finite mt s n p b a vals m th amin amax r :
    spOf s n n -> validPerm n p -> factorizationBlk s p = Ok b ->
    spOf a n n -> inputOf O m a vals -> coveredSym (entries a) (entries s) n p ->
    (forall i j, (i < n)%nat -> (j < n)%nat -> fin (symAt O (entries a) vals i j)) ->
    dominatedBy Nat.eq_dec (seq 0 n) (fun i j => val (symAt O (entries a) vals i j)) th ->
    (forall i, (i < n)%nat -> amin <= Rabs (val (symAt O (entries a) vals i i)) <= amax) ->
    (forall i, (i < n)%nat -> (rowCount (c_entries (b_sp b)) i <= r)%nat /\ (colCount (c_entries (b_sp b)) i <= r)%nat) ->
    domFits u eta Om th amin amax n r ->
    forall L0 D0, length L0 = c_nnz (b_sp b) -> length D0 = n ->
    exists L D, factorize O mt b (Some m) regularizationNone (L0, D0) = Ok (L, D) /\
      (forall v, In v L -> fin v) /\
      (forall i, (i < n)%nat ->
         goodPivot fin val th (symAt O (entries a) vals (nth i p 0%nat) (nth i p 0%nat)) (vecAt O D i)) /\
      forall rhs, length rhs = n -> (forall v, In v rhs -> fin v) ->
        rhsFits eta Om th amin n (rsum (seq 0 n) (fun i => Rabs (val (vecAt O rhs i)))) ->
        exists x, solveInPlace O b (L, D) rhs = Ok x /\ length x = n /\ (forall v, In v x -> fin v).
  Proof.
    intros HS HP HB HA HI HC FA DOM RNG CN FIT L0 D0 N1 N2.
    destruct (single_works mt s n p b a vals m th amin amax r HS HP HB HA HI HC FA DOM RNG FIT L0 D0) as (L & D & W); auto.
    - intros i Hi. rewrite cols_count. apply CN; auto.
    - intros j Hj. eapply Nat.le_trans; [apply rowsOf_count|]. apply CN; auto.
    - destruct W as (W1 & _ & _ & W2 & W3 & W4). exists L, D. split; auto. split; auto. split; auto.
      intros rhs NR FR RF. destruct (W4 rhs NR FR RF) as (x & X1 & X2 & X3 & _). eauto.
  Qed.

  Theorem single_dom_error mt s n p b a vals m th amin amax r :
    spOf s n n -> validPerm n p -> factorizationBlk s p = Ok b ->
    spOf a n n -> inputOf O m a vals -> coveredSym (entries a) (entries s) n p ->
    (forall i j, (i < n)%nat -> (j < n)%nat -> fin (symAt O (entries a) vals i j)) ->
    dominatedBy Nat.eq_dec (seq 0 n) (fun i j => val (symAt O (entries a) vals i j)) th ->
    (forall i, (i < n)%nat -> amin <= Rabs (val (symAt O (entries a) vals i i)) <= amax) ->
    (forall i, (i < n)%nat -> (rowCount (c_entries (b_sp b)) i <= r)%nat /\ (colCount (c_entries (b_sp b)) i <= r)%nat) ->
    domFits u eta Om th amin amax n r ->
    forall L0 D0 L D rhs x, length L0 = c_nnz (b_sp b) -> length D0 = n ->
    factorize O mt b (Some m) regularizationNone (L0, D0) = Ok (L, D) ->
    length rhs = n -> (forall v, In v rhs -> fin v) ->
    rhsFits eta Om th amin n (rsum (seq 0 n) (fun i => Rabs (val (vecAt O rhs i)))) ->
    solveInPlace O b (L, D) rhs = Ok x ->
    exists xs, onlySolution (seq 0 n) (fun i j => val (symAt O (entries a) vals i j)) (fun i => val (vecAt O rhs i)) xs /\
      forall X, (forall i, (i < n)%nat -> Rabs (val (vecAt O x i)) <= X) ->
      forall i, (i < n)%nat -> Rabs (val (vecAt O x i) - xs i) <= domError u eta th amin amax n r X.
  Proof.
    intros HS HP HB HA HI HC FA DOM RNG CN FIT L0 D0 L D rhs x N1 N2 EF NR FR RF ES.
    destruct (single_works mt s n p b a vals m th amin amax r HS HP HB HA HI HC FA DOM RNG FIT L0 D0) as (L1 & D1 & W); auto.
    - intros i Hi. rewrite cols_count. apply CN; auto.
    - intros j Hj. eapply Nat.le_trans; [apply rowsOf_count|]. apply CN; auto.
    - destruct W as (W1 & _ & _ & _ & _ & W4). rewrite EF in W1. injection W1 as <- <-.
      destruct (W4 rhs NR FR RF) as (x1 & X1 & _ & _ & X4). rewrite ES in X1. injection X1 as <-. auto.
  Qed.

  (** ** arrowhead *)
  Section Arrow.
  Variables (mt : method) (s : arrow_sp) (ds dt dl dO : nat) (k : arrow_blks) (n : nat).
  Variables (m : arrow_mat (F:=F)) (w : arrow_vals F) (th amin amax : R) (r : nat).
  Local Notation all := (allIdx n ds dt dl dO).
  Local Notation q := (permIdx s).
  Local Notation M := (fun g h => val (matAt O m w g h)).
  Local Notation N := (flatDim n ds dt dl dO).
  Hypothesis HD : arrowDims s ds dt dl dO.
  Hypothesis HK : arrowBlocks s = Ok k.
  Hypothesis IA : inputArrow O n ds dt dl dO m w.
  Hypothesis DA : declaredArrow s n m.
  Hypothesis FA : forall g h, In g all -> In h all -> fin (matAt O m w g h).
  Hypothesis DOM : dominatedBy gidx_eq_dec all M th.
  Hypothesis RNG : forall g, In g all -> amin <= Rabs (M g g) <= amax.
  Hypothesis FIT : domFits u eta Om th amin amax N r.

  Definition arrowWorks (d0 : arrow_data (F:=F)) : Prop :=
    exists d, arrowFactorize O mt k m regularizationNone d0 = Ok d /\ dataOf k n ds dt dl dO d /\
      (forall g h, In g all -> In h all -> fin (factorAt O (o0 O) k d g h)) /\
      (forall g, In g all -> goodPivot fin val th (matAt O m w (q g) (q g)) (pivotAt O d g)) /\
      forall rhs, vecOf n ds dt dl dO rhs -> (forall g, In g all -> fin (gvecAt O rhs g)) ->
        rhsFits eta Om th amin N (rsum all (fun g => Rabs (val (gvecAt O rhs g)))) ->
        exists x, arrowSolveInPlace O k d rhs = Ok x /\ vecOf n ds dt dl dO x /\
          (forall g, In g all -> fin (gvecAt O x g)) /\
          exists xs, onlySolution all M (fun g => val (gvecAt O rhs g)) xs /\
            forall X, (forall g, In g all -> Rabs (val (gvecAt O x g)) <= X) ->
            forall g, In g all -> Rabs (val (gvecAt O x g) - xs g) <= domError u eta th amin amax N r X.

  Lemma arrow_works d0 :
    (forall g, In g all -> (length (fwdL k n g) <= r)%nat) ->
    (forall g, In g all -> (length (bwdL ds dt dl dO k n g) <= r)%nat) ->
    dataOf k n ds dt dl dO d0 -> arrowWorks d0.
  Proof.
    intros MR MC DO0.
    destruct (arrow_core O fin val u eta Om RO NO mt s ds dt dl dO k n m w th amin amax r HD HK IA DA FA DOM RNG FIT MR MC d0 DO0)
      as (d & EF & DO & FL & PV & SO).
    exists d. split; auto. split; auto. split; auto. split; auto.
    intros rhs VR FR RF. destruct (SO rhs VR FR RF) as (x & ES & NX & FX & H).
    exists x. split; auto. split; auto. split; auto.
    destruct (dominated_solution gidx_eq_dec all M th (fun g => val (gvecAt O rhs g))) as (xs & H1 & H2); auto.
    - apply NoDup_allIdx.
    - apply FIT.
    - intros g Hg. apply (nz_of _ amin amax); [apply FIT|apply RNG; auto].
    - exists xs. split; [split; auto|]. intros X HX. apply H; auto.
  Qed.

  Lemma arrow_dim (d0 : arrow_data (F:=F)) : forall g, In g all ->
    (length (fwdL k n g) <= N)%nat /\ (length (bwdL ds dt dl dO k n g) <= N)%nat.
  Proof.
    intros g Hg. destruct (arrow_good s ds dt dl dO k HD HK) as (P & AG & AC & AV).
    pose proof (arrow_rows0 O s ds dt dl dO k P AG AC n d0) as RG.
    pose proof (arrow_cols s ds dt dl dO k P AG n) as CG.
    split; rewrite <- (all_length n ds dt dl dO); apply NoDup_incl_length.
    - apply (rg_nodup _ _ _ _ _ RG); auto.
    - intros j Hj. exact (rg_in _ _ _ _ _ RG g j Hg Hj).
    - apply (cg_nodup _ _ _ CG); auto.
    - intros j Hj. apply (cg_in _ _ _ CG) in Hj; auto. tauto.
  Qed.
  End Arrow.

  Theorem arrow_dom_finite mt s ds dt dl dO k n m w th amin amax r :
    arrowDims s ds dt dl dO -> arrowBlocks s = Ok k ->
    inputArrow O n ds dt dl dO m w -> declaredArrow s n m ->
    (forall g h, In g (allIdx n ds dt dl dO) -> In h (allIdx n ds dt dl dO) -> fin (matAt O m w g h)) ->
    dominatedBy gidx_eq_dec (allIdx n ds dt dl dO) (fun g h => val (matAt O m w g h)) th ->
    (forall g, In g (allIdx n ds dt dl dO) -> amin <= Rabs (val (matAt O m w g g)) <= amax) ->
    (forall g, In g (allIdx n ds dt dl dO) -> (rowCountG k n g <= r)%nat /\ (colCountG k n g <= r)%nat) ->
    domFits u eta Om th amin amax (flatDim n ds dt dl dO) r ->
    forall d0, dataOf k n ds dt dl dO d0 ->
    exists d, arrowFactorize O mt k m regularizationNone d0 = Ok d /\
      (forall g h, In g (allIdx n ds dt dl dO) -> In h (allIdx n ds dt dl dO) -> fin (factorAt O (o0 O) k d g h)) /\
      (forall g, In g (allIdx n ds dt dl dO) ->
         goodPivot fin val th (matAt O m w (permIdx s g) (permIdx s g)) (pivotAt O d g)) /\
      forall rhs, vecOf n ds dt dl dO rhs -> (forall g, In g (allIdx n ds dt dl dO) -> fin (gvecAt O rhs g)) ->
        rhsFits eta Om th amin (flatDim n ds dt dl dO)
          (rsum (allIdx n ds dt dl dO) (fun g => Rabs (val (gvecAt O rhs g)))) ->
        exists x, arrowSolveInPlace O k d rhs = Ok x /\ vecOf n ds dt dl dO x /\
          forall g, In g (allIdx n ds dt dl dO) -> fin (gvecAt O x g).
  Proof.
    intros HD HK IA DA FA DOM RNG CN FIT d0 DO0.
    destruct (arrow_works mt s ds dt dl dO k n m w th amin amax r HD HK IA DA FA DOM RNG FIT d0) as (d & W); auto.
    - intros g Hg. rewrite fwdL_count. apply CN; auto.
    - intros g Hg. eapply Nat.le_trans; [apply bwdL_count|]. apply CN; auto.
    - destruct W as (W1 & _ & W2 & W3 & W4). exists d. split; auto. split; auto. split; auto.
      intros rhs VR FR RF. destruct (W4 rhs VR FR RF) as (x & X1 & X2 & X3 & _). eauto.
  Qed.

  Theorem arrow_dom_error mt s ds dt dl dO k n m w th amin amax r :
    arrowDims s ds dt dl dO -> arrowBlocks s = Ok k ->
    inputArrow O n ds dt dl dO m w -> declaredArrow s n m ->
    (forall g h, In g (allIdx n ds dt dl dO) -> In h (allIdx n ds dt dl dO) -> fin (matAt O m w g h)) ->
    dominatedBy gidx_eq_dec (allIdx n ds dt dl dO) (fun g h => val (matAt O m w g h)) th ->
    (forall g, In g (allIdx n ds dt dl dO) -> amin <= Rabs (val (matAt O m w g g)) <= amax) ->
    (forall g, In g (allIdx n ds dt dl dO) -> (rowCountG k n g <= r)%nat /\ (colCountG k n g <= r)%nat) ->
    domFits u eta Om th amin amax (flatDim n ds dt dl dO) r ->
    forall d0 d rhs x, dataOf k n ds dt dl dO d0 ->
    arrowFactorize O mt k m regularizationNone d0 = Ok d ->
    vecOf n ds dt dl dO rhs -> (forall g, In g (allIdx n ds dt dl dO) -> fin (gvecAt O rhs g)) ->
    rhsFits eta Om th amin (flatDim n ds dt dl dO)
      (rsum (allIdx n ds dt dl dO) (fun g => Rabs (val (gvecAt O rhs g)))) ->
    arrowSolveInPlace O k d rhs = Ok x ->
    exists xs, onlySolution (allIdx n ds dt dl dO) (fun g h => val (matAt O m w g h)) (fun g => val (gvecAt O rhs g)) xs /\
      forall X, (forall g, In g (allIdx n ds dt dl dO) -> Rabs (val (gvecAt O x g)) <= X) ->
      forall g, In g (allIdx n ds dt dl dO) ->
        Rabs (val (gvecAt O x g) - xs g) <= domError u eta th amin amax (flatDim n ds dt dl dO) r X.
  Proof.
    intros HD HK IA DA FA DOM RNG CN FIT d0 d rhs x DO0 EF VR FR RF ES.
    destruct (arrow_works mt s ds dt dl dO k n m w th amin amax r HD HK IA DA FA DOM RNG FIT d0) as (d1 & W); auto.
    - intros g Hg. rewrite fwdL_count. apply CN; auto.
    - intros g Hg. eapply Nat.le_trans; [apply bwdL_count|]. apply CN; auto.
    - destruct W as (W1 & _ & _ & _ & W4). rewrite EF in W1. injection W1 as <-.
      destruct (W4 rhs VR FR RF) as (x1 & X1 & _ & _ & X4). rewrite ES in X1. injection X1 as <-. auto.
  Qed.

  (** ** block tridiagonal *)
  Section Tri.
  Variables (mt : method) (a b : sparsity) (p : perm) (dt n : nat) (k : arrow_blks).
  Variables (A B : list (mat (F:=F))) (wA wB : list (list F)) (th amin amax : R) (r : nat).
  Local Notation rows := (list_prod (seq 0 (n + 1)) (seq 0 dt)).
  Local Notation T := (fun r c => triMatAt O A B wA wB (fst r) (snd r) (fst c) (snd c)).
  Local Notation all := (allIdx n 0 dt 0 0).
  Local Notation X := (tridiagonalInput dt A B n).
  Local Notation W := (triVals n wA wB).
  Hypotheses (SA : spOf a dt dt) (SB : spOf b dt dt) (HP : validPerm dt p).
  Hypothesis HK : tridiagonalBlocks a b p = Ok k.
  Hypothesis IT : inputTri O n dt A B wA wB.
  Hypothesis DT : declaredTri a b n A B.
  Hypothesis FA : forall g h, In g rows -> In h rows -> fin (T g h).
  Hypothesis DOM : dominatedBy pair_eq_dec rows (fun g h => val (T g h)) th.
  Hypothesis RNG : forall g, In g rows -> amin <= Rabs (val (T g g)) <= amax.
  Hypothesis FIT : domFits u eta Om th amin amax ((n + 1) * dt) r.

  Definition triWorksF (d0 : arrow_data (F:=F)) : Prop :=
    exists d, tridiagonalFactorize O mt k dt A B regularizationNone d0 = Ok d /\
      (forall g h, In g all -> In h all -> fin (factorAt O (o0 O) k d g h)) /\
      (forall t i, In (t, i) rows ->
         goodPivot fin val th (triMatAt O A B wA wB t (nth i p 0%nat) t (nth i p 0%nat)) (pivotAt O d (GT t i))) /\
      forall rhs, blocksOf n dt rhs -> (forall t i, In (t, i) rows -> fin (vecAt O (nth t rhs []) i)) ->
        rhsFits eta Om th amin ((n + 1) * dt) (rsum rows (fun g => Rabs (val (vecAt O (nth (fst g) rhs []) (snd g))))) ->
        exists x, tridiagonalSolveInPlace O k d rhs = Ok x /\ blocksOf n dt x /\
          (forall t i, In (t, i) rows -> fin (vecAt O (nth t x []) i)) /\
          exists xs, onlySolution rows (fun g h => val (T g h)) (fun g => val (vecAt O (nth (fst g) rhs []) (snd g))) xs /\
            forall B, (forall t i, In (t, i) rows -> Rabs (val (vecAt O (nth t x []) i)) <= B) ->
            forall t i, In (t, i) rows ->
              Rabs (val (vecAt O (nth t x []) i) - xs (t, i)) <= domError u eta th amin amax ((n + 1) * dt) r B.

  Lemma in_all g : In g all <-> exists c, In c rows /\ g = triRow c.
  Proof. rewrite allIdx_tri, in_map_iff. split; intros (c & H1 & H2); exists c; auto. Qed.
  Lemma sum_all (f : gidx -> R) : rsum all f = rsum rows (fun c => f (triRow c)).
  Proof. rewrite allIdx_tri. apply (suml_map Or). Qed.

  Lemma tri_works_float d0 :
    (forall g, In g all -> (length (fwdL k n g) <= r)%nat) ->
    (forall g, In g all -> (length (bwdL 0 dt 0 0 k n g) <= r)%nat) ->
    dataOf k n 0 dt 0 0 d0 -> triWorksF d0.
  Proof.
    intros MR MC DO0.
    assert (ND : flatDim n 0 dt 0 0 = ((n + 1) * dt)%nat) by (unfold flatDim; lia).
    destruct (arrow_works mt (tridiagonalSparsity a b p) 0 dt 0 0 k n X W th amin amax r
      (tri_dims a b p dt SA SB HP) (tri_k a b p dt k SA SB HK) (tri_input O n dt A B wA wB IT) (tri_declared a b p n dt A B DT))
      with (d0 := d0) as (d & EF & DO & FL & PV & SO); auto.
    - intros g h Hg Hh. apply in_all in Hg, Hh. destruct Hg as (g' & Hg & ->), Hh as (h' & Hh & ->).
      rewrite (tri_matAt O n dt A B wA wB g' h' IT). auto.
    - intros g Hg. apply in_all in Hg. destruct Hg as (g' & Hg & ->). rewrite sum_all.
      rewrite (tri_matAt O n dt A B wA wB g' g' IT). eapply Rle_trans; [|apply (DOM g' Hg)]. right.
      apply rsum_ext. intros c _. rewrite (tri_matAt O n dt A B wA wB g' c IT). destruct g' as [t i], c as [t' j].
      unfold triRow. cbn [fst snd].
      destruct (gidx_eq_dec (GT t i) (GT t' j)) as [E|E], (pair_eq_dec (t, i) (t', j)) as [E'|E']; auto; congruence.
    - intros g Hg. apply in_all in Hg. destruct Hg as (g' & Hg & ->).
      rewrite (tri_matAt O n dt A B wA wB g' g' IT). auto.
    - rewrite ND. auto.
    - exists d. unfold tridiagonalFactorize, numRepetitions. rewrite (do_nts _ _ _ _ _ _ _ DO0). split; auto. split; auto.
      assert (INA : forall t i, In (t, i) rows -> In (GT t i) all) by (intros t i H; apply in_all; exists (t, i); auto).
      split; [intros t i H; exact (PV (GT t i) (INA t i H))|].
      intros rhs HV FR RF.
      destruct (SO (mkAV [] rhs [] []) (tri_vec n dt rhs HV)) as (y & ES & VY & FY & xs & [S1 S2] & HX).
      { intros g Hg. apply in_all in Hg. destruct Hg as ([t i] & Hg & ->). apply FR; auto. }
      { rewrite ND, sum_all. exact RF. }
      exists (v_tri y). unfold tridiagonalSolveInPlace. rewrite ES. split; auto.
      split; [split; apply VY|].
      assert (Ey : y = mkAV [] (v_tri y) [] []).
      { destruct y as [y1 y2 y3 y4], VY as [V1 V2 V3 V4 V5]. cbn [v_start v_tri v_link v_outer] in *.
        destruct y1, y3, y4; cbn in V1, V4, V5; try lia. auto. }
      split; [intros t i H; exact (FY (GT t i) (INA t i H))|].
      assert (TR : forall (ys : gidx -> R) c, rsum all (fun h => val (matAt O X W (triRow c) h) * ys h) =
        rsum rows (fun h => val (T c h) * ys (triRow h))).
      { intros ys c. rewrite sum_all. apply rsum_ext. intros h _. rewrite (tri_matAt O n dt A B wA wB c h IT). auto. }
      exists (fun c => xs (triRow c)). split; [split|].
      + intros c Hc. rewrite <- TR. rewrite (S1 (triRow c)) by (apply in_all; eauto). destruct c; reflexivity.
      + intros ys HY c Hc. rewrite <- (S2 (fun g => match g with GT t i => ys (t, i) | _ => 0 end)); auto.
        * destruct c; reflexivity.
        * intros g Hg. apply in_all in Hg. destruct Hg as (c' & Hc' & ->). rewrite TR.
          eapply eq_trans; [|eapply eq_trans; [apply (HY c' Hc')|destruct c'; reflexivity]].
          apply rsum_ext. intros [t i] _. reflexivity.
        * apply in_all. eauto.
      + intros Bd HB t i H. rewrite <- ND. refine (HX Bd _ (GT t i) (INA t i H)).
        intros g Hg. apply in_all in Hg. destruct Hg as ([t' j] & Hg & ->). apply (HB t' j Hg).
  Qed.
  End Tri.

  Theorem tri_dom_finite mt a b p dt n k A B wA wB th amin amax r :
    spOf a dt dt -> spOf b dt dt -> validPerm dt p -> tridiagonalBlocks a b p = Ok k ->
    inputTri O n dt A B wA wB -> declaredTri a b n A B ->
    let rows := list_prod (seq 0 (n + 1)) (seq 0 dt) in
    let M := fun r c => triMatAt O A B wA wB (fst r) (snd r) (fst c) (snd c) in
    (forall g h, In g rows -> In h rows -> fin (M g h)) ->
    dominatedBy pair_eq_dec rows (fun g h => val (M g h)) th ->
    (forall g, In g rows -> amin <= Rabs (val (M g g)) <= amax) ->
    (forall t i, In (t, i) rows -> (rowCountG k n (GT t i) <= r)%nat /\ (colCountG k n (GT t i) <= r)%nat) ->
    domFits u eta Om th amin amax ((n + 1) * dt) r ->
    forall d0, dataOf k n 0 dt 0 0 d0 ->
    exists d, tridiagonalFactorize O mt k dt A B regularizationNone d0 = Ok d /\
      (forall g h, In g (allIdx n 0 dt 0 0) -> In h (allIdx n 0 dt 0 0) -> fin (factorAt O (o0 O) k d g h)) /\
      (forall t i, In (t, i) rows -> goodPivot fin val th (M (t, nth i p 0%nat) (t, nth i p 0%nat)) (pivotAt O d (GT t i))) /\
      forall rhs, blocksOf n dt rhs -> (forall t i, In (t, i) rows -> fin (vecAt O (nth t rhs []) i)) ->
        rhsFits eta Om th amin ((n + 1) * dt) (rsum rows (fun g => Rabs (val (vecAt O (nth (fst g) rhs []) (snd g))))) ->
        exists x, tridiagonalSolveInPlace O k d rhs = Ok x /\ blocksOf n dt x /\
          forall t i, In (t, i) rows -> fin (vecAt O (nth t x []) i).
  Proof.
    intros SA SB HP HK IT DT rows M FA DOM RNG CN FIT d0 DO0.
    destruct (tri_works_float mt a b p dt n k A B wA wB th amin amax r SA SB HP HK IT DT FA DOM RNG FIT d0) as (d & W); auto.
    - intros g Hg. apply in_all in Hg. destruct Hg as ([t i] & Hg & ->). rewrite fwdL_count. apply CN; auto.
    - intros g Hg. apply in_all in Hg. destruct Hg as ([t i] & Hg & ->).
      eapply Nat.le_trans; [apply bwdL_count|]. apply CN; auto.
    - destruct W as (W1 & W2 & W3 & W4). exists d. split; auto. split; auto. split; auto.
      intros rhs VR FR RF. destruct (W4 rhs VR FR RF) as (x & X1 & X2 & X3 & _). eauto.
  Qed.

  Theorem tri_dom_error mt a b p dt n k A B wA wB th amin amax r :
    spOf a dt dt -> spOf b dt dt -> validPerm dt p -> tridiagonalBlocks a b p = Ok k ->
    inputTri O n dt A B wA wB -> declaredTri a b n A B ->
    let rows := list_prod (seq 0 (n + 1)) (seq 0 dt) in
    let M := fun r c => triMatAt O A B wA wB (fst r) (snd r) (fst c) (snd c) in
    (forall g h, In g rows -> In h rows -> fin (M g h)) ->
    dominatedBy pair_eq_dec rows (fun g h => val (M g h)) th ->
    (forall g, In g rows -> amin <= Rabs (val (M g g)) <= amax) ->
    (forall t i, In (t, i) rows -> (rowCountG k n (GT t i) <= r)%nat /\ (colCountG k n (GT t i) <= r)%nat) ->
    domFits u eta Om th amin amax ((n + 1) * dt) r ->
    forall d0 d rhs x, dataOf k n 0 dt 0 0 d0 ->
    tridiagonalFactorize O mt k dt A B regularizationNone d0 = Ok d ->
    blocksOf n dt rhs -> (forall t i, In (t, i) rows -> fin (vecAt O (nth t rhs []) i)) ->
    rhsFits eta Om th amin ((n + 1) * dt) (rsum rows (fun g => Rabs (val (vecAt O (nth (fst g) rhs []) (snd g))))) ->
    tridiagonalSolveInPlace O k d rhs = Ok x ->
    exists xs, onlySolution rows (fun g h => val (M g h)) (fun g => val (vecAt O (nth (fst g) rhs []) (snd g))) xs /\
      forall X, (forall t i, In (t, i) rows -> Rabs (val (vecAt O (nth t x []) i)) <= X) ->
      forall t i, In (t, i) rows ->
        Rabs (val (vecAt O (nth t x []) i) - xs (t, i)) <= domError u eta th amin amax ((n + 1) * dt) r X.
  Proof.
    intros SA SB HP HK IT DT rows M FA DOM RNG CN FIT d0 d rhs x DO0 EF VR FR RF ES.
    destruct (tri_works_float mt a b p dt n k A B wA wB th amin amax r SA SB HP HK IT DT FA DOM RNG FIT d0) as (d1 & W); auto.
    - intros g Hg. apply in_all in Hg. destruct Hg as ([t i] & Hg & ->). rewrite fwdL_count. apply CN; auto.
    - intros g Hg. apply in_all in Hg. destruct Hg as ([t i] & Hg & ->).
      eapply Nat.le_trans; [apply bwdL_count|]. apply CN; auto.
    - destruct W as (W1 & _ & _ & W4). rewrite EF in W1. injection W1 as <-.
      destruct (W4 rhs VR FR RF) as (x1 & X1 & _ & _ & X4). rewrite ES in X1. injection X1 as <-. auto.
  Qed.
End Any.

(** ** doubles *)
Local Existing Instance prec64.
Local Existing Instance emax64.
Local Notation fin := (ieeeFinite 53 1024).
Local Notation val := (ieeeVal 53 1024).
Local Notation rd := (ieee_rounding 53 1024 prec64 emax64).
Local Notation no := (ieee_noOverflow 53 1024 prec64 emax64).

Lemma small_sum {I} (l : list I) (f : I -> R) c N : length l = N -> (forall g, In g l -> f g <= c) ->
  rsum l f <= INR N * c.
Proof. intros <- H. rewrite <- rsum_const. apply rsum_le. auto. Qed.

Theorem single_dom_double mt s n p b a vals m :
  (Z.of_nat n <= 2 ^ 20)%Z ->
  spOf s n n -> validPerm n p -> factorizationBlk s p = Ok b ->
  spOf a n n -> inputOf Od m a vals -> coveredSym (entries a) (entries s) n p ->
  (forall v, In v vals -> fin v) ->
  dominatedBy Nat.eq_dec (seq 0 n) (fun i j => val (symAt Od (entries a) vals i j)) (/ 2) ->
  (forall i, (i < n)%nat ->
     bpow radix2 (-400) <= Rabs (val (symAt Od (entries a) vals i i)) <= bpow radix2 400) ->
  forall L0 D0, length L0 = c_nnz (b_sp b) -> length D0 = n ->
  exists L D, factorize Od mt b (Some m) regularizationNone (L0, D0) = Ok (L, D) /\
    (forall v, In v L -> fin v) /\
    (forall i, (i < n)%nat ->
       goodPivot fin val (/ 2) (symAt Od (entries a) vals (nth i p 0%nat) (nth i p 0%nat)) (vecAt Od D i)) /\
    forall rhs, length rhs = n -> (forall v, In v rhs -> fin v /\ Rabs (val v) <= bpow radix2 400) ->
      exists x, solveInPlace Od b (L, D) rhs = Ok x /\ length x = n /\ (forall v, In v x -> fin v) /\
        exists xs, onlySolution (seq 0 n) (fun i j => val (symAt Od (entries a) vals i j))
            (fun i => val (vecAt Od rhs i)) xs /\
          forall X, (forall v, In v x -> Rabs (val v) <= X) ->
          forall i, (i < n)%nat ->
            Rabs (val (vecAt Od x i) - xs i) <= INR n * bpow radix2 (-44) * X + bpow radix2 (-650).
Proof.
  intros HN HS HP HB HA HI HC FV DOM RNG L0 D0 N1 N2.
  assert (FA : forall i j, (i < n)%nat -> (j < n)%nat -> fin (symAt Od (entries a) vals i j)).
  { intros i j _ _. unfold symAt, denseAt.
    assert (FC : forall e, In e (combine (entries a) vals) -> fin (snd e)).
    { intros [e v] He. apply in_combine_r in He. auto. }
    revert FC. generalize (combine (entries a) vals). intros l.
    induction l as [|[[r c] v] l IH]; intros FC; cbn [firstValue]; [reflexivity|].
    destruct (_ && _); [apply (FC (r, c, v)); left; auto|apply IH; intros; apply FC; right; auto]. }
  destruct (single_works Od fin val _ _ _ rd no mt s n p b a vals m (/ 2) _ _ n HS HP HB HA HI HC FA DOM RNG (double_fits n HN) L0 D0)
    as (L & D & W1 & _ & _ & W2 & W3 & W4); auto;
    try (intros i Hi; apply (single_dim Od s n p b HS HP HB i Hi)).
  exists L, D. split; auto. split; auto. split; auto. intros rhs NR FR.
  assert (VR : forall i, (i < n)%nat -> In (vecAt Od rhs i) rhs) by (intros i Hi; apply nth_In; lia).
  destruct (W4 rhs NR) as (x & X1 & X2 & X3 & xs & X4 & X5).
  - intros v Hv. apply (FR v Hv).
  - apply double_rhs_fits; auto. apply small_sum; [apply seq_length|].
    intros i Hi. apply in_seq in Hi. apply (FR (vecAt Od rhs i)). apply VR. lia.
  - exists x. split; auto. split; auto. split; auto. exists xs. split; auto. intros X HX i Hi.
    assert (VX : forall j, (j < n)%nat -> Rabs (val (vecAt Od x j)) <= X) by (intros j Hj; apply HX, nth_In; lia).
    eapply Rle_trans; [apply (X5 X VX i Hi)|]. apply double_domError; auto; [lia|].
    eapply Rle_trans; [apply Rabs_pos|apply (VX i Hi)].
Qed.

Theorem arrow_dom_double mt s ds dt dl dO k n m w :
  (Z.of_nat (flatDim n ds dt dl dO) <= 2 ^ 20)%Z ->
  arrowDims s ds dt dl dO -> arrowBlocks s = Ok k ->
  inputArrow Od n ds dt dl dO m w -> declaredArrow s n m ->
  let all := allIdx n ds dt dl dO in
  (forall g h, In g all -> In h all -> fin (matAt Od m w g h)) ->
  dominatedBy gidx_eq_dec all (fun g h => val (matAt Od m w g h)) (/ 2) ->
  (forall g, In g all -> bpow radix2 (-400) <= Rabs (val (matAt Od m w g g)) <= bpow radix2 400) ->
  forall d0, dataOf k n ds dt dl dO d0 ->
  exists d, arrowFactorize Od mt k m regularizationNone d0 = Ok d /\
    (forall g h, In g all -> In h all -> fin (factorAt Od (o0 Od) k d g h)) /\
    (forall g, In g all -> goodPivot fin val (/ 2) (matAt Od m w (permIdx s g) (permIdx s g)) (pivotAt Od d g)) /\
    forall rhs, vecOf n ds dt dl dO rhs ->
      (forall g, In g all -> fin (gvecAt Od rhs g) /\ Rabs (val (gvecAt Od rhs g)) <= bpow radix2 400) ->
      exists x, arrowSolveInPlace Od k d rhs = Ok x /\ vecOf n ds dt dl dO x /\
        (forall g, In g all -> fin (gvecAt Od x g)) /\
        exists xs, onlySolution all (fun g h => val (matAt Od m w g h)) (fun g => val (gvecAt Od rhs g)) xs /\
          forall X, (forall g, In g all -> Rabs (val (gvecAt Od x g)) <= X) ->
          forall g, In g all -> Rabs (val (gvecAt Od x g) - xs g) <=
            INR (flatDim n ds dt dl dO) * bpow radix2 (-44) * X + bpow radix2 (-650).
Proof.
  intros HN HD HK IA DA all FA DOM RNG d0 DO0.
  destruct (arrow_works Od fin val _ _ _ rd no mt s ds dt dl dO k n m w (/ 2) _ _ (flatDim n ds dt dl dO)
    HD HK IA DA FA DOM RNG (double_fits _ HN) d0)
    as (d & W1 & _ & W2 & W3 & W4); auto;
    try (intros g Hg; apply (arrow_dim Od s ds dt dl dO k n HD HK d0 g Hg)).
  exists d. split; auto. split; auto. split; auto. intros rhs VR FR.
  destruct (W4 rhs VR) as (x & X1 & X2 & X3 & xs & X4 & X5).
  - intros g Hg. apply (FR g Hg).
  - apply double_rhs_fits; auto. apply small_sum; [apply all_length|]. intros g Hg. apply (FR g Hg).
  - exists x. split; auto. split; auto. split; auto. exists xs. split; auto. intros X HX g Hg.
    eapply Rle_trans; [apply (X5 X HX g Hg)|]. apply double_domError; auto.
    + pose proof (rank_lt n ds dt dl dO g Hg). lia.
    + eapply Rle_trans; [apply Rabs_pos|apply (HX g Hg)].
Qed.

Theorem tri_dom_double mt a b p dt n k A B wA wB :
  (Z.of_nat ((n + 1) * dt) <= 2 ^ 20)%Z ->
  spOf a dt dt -> spOf b dt dt -> validPerm dt p -> tridiagonalBlocks a b p = Ok k ->
  inputTri Od n dt A B wA wB -> declaredTri a b n A B ->
  let rows := list_prod (seq 0 (n + 1)) (seq 0 dt) in
  let M := fun r c => triMatAt Od A B wA wB (fst r) (snd r) (fst c) (snd c) in
  (forall g h, In g rows -> In h rows -> fin (M g h)) ->
  dominatedBy pair_eq_dec rows (fun g h => val (M g h)) (/ 2) ->
  (forall g, In g rows -> bpow radix2 (-400) <= Rabs (val (M g g)) <= bpow radix2 400) ->
  forall d0, dataOf k n 0 dt 0 0 d0 ->
  exists d, tridiagonalFactorize Od mt k dt A B regularizationNone d0 = Ok d /\
    (forall g h, In g (allIdx n 0 dt 0 0) -> In h (allIdx n 0 dt 0 0) -> fin (factorAt Od (o0 Od) k d g h)) /\
    (forall t i, In (t, i) rows -> goodPivot fin val (/ 2) (M (t, nth i p 0%nat) (t, nth i p 0%nat)) (pivotAt Od d (GT t i))) /\
    forall rhs, blocksOf n dt rhs ->
      (forall t i, In (t, i) rows ->
         fin (vecAt Od (nth t rhs []) i) /\ Rabs (val (vecAt Od (nth t rhs []) i)) <= bpow radix2 400) ->
      exists x, tridiagonalSolveInPlace Od k d rhs = Ok x /\ blocksOf n dt x /\
        (forall t i, In (t, i) rows -> fin (vecAt Od (nth t x []) i)) /\
        exists xs, onlySolution rows (fun g h => val (M g h)) (fun g => val (vecAt Od (nth (fst g) rhs []) (snd g))) xs /\
          forall X, (forall t i, In (t, i) rows -> Rabs (val (vecAt Od (nth t x []) i)) <= X) ->
          forall t i, In (t, i) rows -> Rabs (val (vecAt Od (nth t x []) i) - xs (t, i)) <=
            INR ((n + 1) * dt) * bpow radix2 (-44) * X + bpow radix2 (-650).
Proof.
  intros HN SA SB HP HK IT DT rows M FA DOM RNG d0 DO0.
  assert (ND : flatDim n 0 dt 0 0 = ((n + 1) * dt)%nat) by (unfold flatDim; lia).
  assert (DIM := arrow_dim Od (tridiagonalSparsity a b p) 0 dt 0 0 k n (tri_dims a b p dt SA SB HP) (tri_k a b p dt k SA SB HK) d0).
  rewrite ND in DIM.
  destruct (tri_works_float Od fin val _ _ _ rd no mt a b p dt n k A B wA wB (/ 2) _ _ ((n + 1) * dt)
    SA SB HP HK IT DT FA DOM RNG (double_fits _ HN) d0)
    as (d & W1 & W2 & W3 & W4); auto; try (intros g Hg; apply (DIM g Hg)).
  exists d. split; auto. split; auto. split; auto. intros rhs VR FR.
  destruct (W4 rhs VR) as (x & X1 & X2 & X3 & xs & X4 & X5).
  - intros t i H. apply (FR t i H).
  - apply double_rhs_fits; auto. apply small_sum; [rewrite prod_length, !seq_length; auto|].
    intros [t i] H. apply (FR t i H).
  - exists x. split; auto. split; auto. split; auto. exists xs. split; auto. intros X HX t i H.
    eapply Rle_trans; [apply (X5 X HX t i H)|]. apply double_domError; auto.
    + apply in_prod_iff in H. destruct H as [H1 H2]. apply in_seq in H1, H2. nia.
    + eapply Rle_trans; [apply Rabs_pos|apply (HX t i H)].
Qed.
