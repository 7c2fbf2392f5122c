(** Properties C29, C40 and C41: when factorizations without regularization do
    not break down. *)
From Coq Require Import List Arith Lia Bool QArith Qcanon.
From Verif Require Import Base ModelPerm ModelSparsity ModelSymbolic ModelNumeric ModelArrow ModelReg.
From Verif Require Import SpecSymbolic SpecArrow SpecNumeric SpecArrowNum SpecPivot.
From Verif Require Import ExampleData ExampleArrow ExamplePivot.
From Verif Require Import ProofPivot ProofPropPivot PropSingle.
Import ListNotations.
Local Open Scope nat_scope.

(** ** C29: positive definite matrices *)

Theorem C29_positive_definite :
  forall {F : Type} (O : ops F) (FL : fieldLaws O) (OL : ordLaws FL) mt s n p a vals m,
  spOf s n n -> validPerm n p ->
  spOf a n n -> inputOf O m a vals -> coveredSym (entries a) (entries s) n p ->
  posDef OL (seq 0 n) (symAt O (entries a) vals) ->
  exists b, factorizationBlk s p = Ok b /\
    forall L0 D0, length L0 = c_nnz (b_sp b) -> length D0 = n ->
    exists L D, factorize O mt b (Some m) regularizationNone (L0, D0) = Ok (L, D) /\
      (forall i, i < n -> ol_pos OL (vecAt O D i)) /\
      (forall i j, i < n -> j < n ->
         ldltAt O (fl_one FL) n (c_entries (b_sp b)) L D i j =
         symAt O (entries a) vals (nth i p 0) (nth j p 0)) /\
      forall rhs, length rhs = n ->
      exists x, solveInPlace O b (L, D) rhs = Ok x /\ length x = n /\
        (forall i, i < n -> matVec O n (symAt O (entries a) vals) x i = vecAt O rhs i) /\
        (forall x', length x' = n ->
           (forall i, i < n -> matVec O n (symAt O (entries a) vals) x' i = vecAt O rhs i) ->
           x' = x).
Proof. exact @single_posdef. Qed.
Print Assumptions C29_positive_definite.

(** the pivots tell whether the matrix is positive definite *)
Theorem C29_positive_pivots :
  forall {F : Type} (O : ops F) (FL : fieldLaws O) (OL : ordLaws FL) mt s n p a vals m,
  spOf s n n -> validPerm n p ->
  spOf a n n -> inputOf O m a vals -> coveredSym (entries a) (entries s) n p ->
  exists b, factorizationBlk s p = Ok b /\
    forall L0 D0, length L0 = c_nnz (b_sp b) -> length D0 = n ->
    (exists L D, factorize O mt b (Some m) regularizationNone (L0, D0) = Ok (L, D) /\
       forall i, i < n -> ol_pos OL (vecAt O D i)) <->
    posDef OL (seq 0 n) (symAt O (entries a) vals).
Proof. exact @single_posdef_iff. Qed.
Print Assumptions C29_positive_pivots.

Theorem C29_arrowhead_positive_definite :
  forall {F : Type} (O : ops F) (FL : fieldLaws O) (OL : ordLaws FL) mt s ds dt dl dO n m w,
  arrowDims s ds dt dl dO -> inputArrow O n ds dt dl dO m w -> declaredArrow s n m ->
  posDef OL (allIdx n ds dt dl dO) (matAt O m w) ->
  exists k, arrowBlocks s = Ok k /\
    forall d0, dataOf k n ds dt dl dO d0 ->
    exists d, arrowFactorize O mt k m regularizationNone d0 = Ok d /\ dataOf k n ds dt dl dO d /\
      (forall g, In g (allIdx n ds dt dl dO) -> ol_pos OL (pivotAt O d g)) /\
      (forall g h, In g (allIdx n ds dt dl dO) -> In h (allIdx n ds dt dl dO) ->
         gldltAt O (allIdx n ds dt dl dO) (factorAt O (fl_one FL) k d) (pivotAt O d) g h =
         matAt O m w (permIdx s g) (permIdx s h)) /\
      forall rhs, vecOf n ds dt dl dO rhs ->
      exists x, arrowSolveInPlace O k d rhs = Ok x /\ vecOf n ds dt dl dO x /\
        (forall g, In g (allIdx n ds dt dl dO) ->
           gmatVec O (allIdx n ds dt dl dO) (matAt O m w) (gvecAt O x) g = gvecAt O rhs g) /\
        (forall x', vecOf n ds dt dl dO x' ->
           (forall g, In g (allIdx n ds dt dl dO) ->
              gmatVec O (allIdx n ds dt dl dO) (matAt O m w) (gvecAt O x') g = gvecAt O rhs g) ->
           x' = x).
Proof. exact @arrow_posdef. Qed.
Print Assumptions C29_arrowhead_positive_definite.

Theorem C29_arrowhead_positive_pivots :
  forall {F : Type} (O : ops F) (FL : fieldLaws O) (OL : ordLaws FL) mt s ds dt dl dO n m w,
  arrowDims s ds dt dl dO -> inputArrow O n ds dt dl dO m w -> declaredArrow s n m ->
  exists k, arrowBlocks s = Ok k /\
    forall d0, dataOf k n ds dt dl dO d0 ->
    (exists d, arrowFactorize O mt k m regularizationNone d0 = Ok d /\
       forall g, In g (allIdx n ds dt dl dO) -> ol_pos OL (pivotAt O d g)) <->
    posDef OL (allIdx n ds dt dl dO) (matAt O m w).
Proof. exact @arrow_posdef_iff. Qed.
Print Assumptions C29_arrowhead_positive_pivots.

Theorem C29_tridiagonal_positive_definite :
  forall {F : Type} (O : ops F) (FL : fieldLaws O) (OL : ordLaws FL) mt a b p dt n A B wA wB,
  spOf a dt dt -> spOf b dt dt -> validPerm dt p ->
  inputTri O n dt A B wA wB -> declaredTri a b n A B ->
  posDef OL (list_prod (seq 0 (n + 1)) (seq 0 dt))
    (fun r c => triMatAt O A B wA wB (fst r) (snd r) (fst c) (snd c)) ->
  exists k, tridiagonalBlocks a b p = Ok k /\
    forall d0, dataOf k n 0 dt 0 0 d0 ->
    exists d, tridiagonalFactorize O mt k dt A B regularizationNone d0 = Ok d /\
      dataOf k n 0 dt 0 0 d /\
      (forall t i, t < n + 1 -> i < dt -> ol_pos OL (pivotAt O d (GT t i))) /\
      (forall t i u j, t < n + 1 -> i < dt -> u < n + 1 -> j < dt ->
         gldltAt O (allIdx n 0 dt 0 0) (factorAt O (fl_one FL) k d) (pivotAt O d) (GT t i) (GT u j) =
         triMatAt O A B wA wB t (nth i p 0) u (nth j p 0)) /\
      forall rhs, blocksOf n dt rhs ->
      exists x, tridiagonalSolveInPlace O k d rhs = Ok x /\ blocksOf n dt x /\
        (forall t i, t < n + 1 -> i < dt ->
           triMatVec O n dt (triMatAt O A B wA wB) x t i = vecAt O (nth t rhs []) i) /\
        (forall x', blocksOf n dt x' ->
           (forall t i, t < n + 1 -> i < dt ->
              triMatVec O n dt (triMatAt O A B wA wB) x' t i = vecAt O (nth t rhs []) i) ->
           x' = x).
Proof. exact @tri_posdef. Qed.
Print Assumptions C29_tridiagonal_positive_definite.

(** ** C40: quasi-definite matrices *)

Theorem C40_quasidefinite :
  forall {F : Type} (O : ops F) (FL : fieldLaws O) (OL : ordLaws FL) mt s n p a vals m R,
  spOf s n n -> validPerm n p ->
  spOf a n n -> inputOf O m a vals -> coveredSym (entries a) (entries s) n p ->
  quasiDef OL (seq 0 n) R (symAt O (entries a) vals) ->
  exists b, factorizationBlk s p = Ok b /\
    forall L0 D0, length L0 = c_nnz (b_sp b) -> length D0 = n ->
    exists L D, factorize O mt b (Some m) regularizationNone (L0, D0) = Ok (L, D) /\
      (forall i, i < n -> hasSign OL (R (nth i p 0)) (vecAt O D i)) /\
      (forall i j, i < n -> j < n ->
         ldltAt O (fl_one FL) n (c_entries (b_sp b)) L D i j =
         symAt O (entries a) vals (nth i p 0) (nth j p 0)) /\
      forall rhs, length rhs = n ->
      exists x, solveInPlace O b (L, D) rhs = Ok x /\ length x = n /\
        (forall i, i < n -> matVec O n (symAt O (entries a) vals) x i = vecAt O rhs i) /\
        (forall x', length x' = n ->
           (forall i, i < n -> matVec O n (symAt O (entries a) vals) x' i = vecAt O rhs i) ->
           x' = x).
Proof. exact @single_quasidef. Qed.
Print Assumptions C40_quasidefinite.

Theorem C40_arrowhead_quasidefinite :
  forall {F : Type} (O : ops F) (FL : fieldLaws O) (OL : ordLaws FL) mt s ds dt dl dO n m w R,
  arrowDims s ds dt dl dO -> inputArrow O n ds dt dl dO m w -> declaredArrow s n m ->
  quasiDef OL (allIdx n ds dt dl dO) R (matAt O m w) ->
  exists k, arrowBlocks s = Ok k /\
    forall d0, dataOf k n ds dt dl dO d0 ->
    exists d, arrowFactorize O mt k m regularizationNone d0 = Ok d /\ dataOf k n ds dt dl dO d /\
      (forall g, In g (allIdx n ds dt dl dO) -> hasSign OL (R (permIdx s g)) (pivotAt O d g)) /\
      (forall g h, In g (allIdx n ds dt dl dO) -> In h (allIdx n ds dt dl dO) ->
         gldltAt O (allIdx n ds dt dl dO) (factorAt O (fl_one FL) k d) (pivotAt O d) g h =
         matAt O m w (permIdx s g) (permIdx s h)) /\
      forall rhs, vecOf n ds dt dl dO rhs ->
      exists x, arrowSolveInPlace O k d rhs = Ok x /\ vecOf n ds dt dl dO x /\
        (forall g, In g (allIdx n ds dt dl dO) ->
           gmatVec O (allIdx n ds dt dl dO) (matAt O m w) (gvecAt O x) g = gvecAt O rhs g) /\
        (forall x', vecOf n ds dt dl dO x' ->
           (forall g, In g (allIdx n ds dt dl dO) ->
              gmatVec O (allIdx n ds dt dl dO) (matAt O m w) (gvecAt O x') g = gvecAt O rhs g) ->
           x' = x).
Proof. exact @arrow_quasidef. Qed.
Print Assumptions C40_arrowhead_quasidefinite.

Theorem C40_tridiagonal_quasidefinite :
  forall {F : Type} (O : ops F) (FL : fieldLaws O) (OL : ordLaws FL) mt a b p dt n A B wA wB R,
  spOf a dt dt -> spOf b dt dt -> validPerm dt p ->
  inputTri O n dt A B wA wB -> declaredTri a b n A B ->
  quasiDef OL (list_prod (seq 0 (n + 1)) (seq 0 dt)) (fun r => R (fst r) (snd r))
    (fun r c => triMatAt O A B wA wB (fst r) (snd r) (fst c) (snd c)) ->
  exists k, tridiagonalBlocks a b p = Ok k /\
    forall d0, dataOf k n 0 dt 0 0 d0 ->
    exists d, tridiagonalFactorize O mt k dt A B regularizationNone d0 = Ok d /\
      dataOf k n 0 dt 0 0 d /\
      (forall t i, t < n + 1 -> i < dt -> hasSign OL (R t (nth i p 0)) (pivotAt O d (GT t i))) /\
      (forall t i u j, t < n + 1 -> i < dt -> u < n + 1 -> j < dt ->
         gldltAt O (allIdx n 0 dt 0 0) (factorAt O (fl_one FL) k d) (pivotAt O d) (GT t i) (GT u j) =
         triMatAt O A B wA wB t (nth i p 0) u (nth j p 0)) /\
      forall rhs, blocksOf n dt rhs ->
      exists x, tridiagonalSolveInPlace O k d rhs = Ok x /\ blocksOf n dt x /\
        (forall t i, t < n + 1 -> i < dt ->
           triMatVec O n dt (triMatAt O A B wA wB) x t i = vecAt O (nth t rhs []) i) /\
        (forall x', blocksOf n dt x' ->
           (forall t i, t < n + 1 -> i < dt ->
              triMatVec O n dt (triMatAt O A B wA wB) x' t i = vecAt O (nth t rhs []) i) ->
           x' = x).
Proof. exact @tri_quasidef. Qed.
Print Assumptions C40_tridiagonal_quasidefinite.

(** ** C41: the pivots are nonzero exactly if all leading blocks are regular *)

Theorem C41_breakdown :
  forall {F : Type} (O : ops F) (FL : fieldLaws O) (IL : infLaws F) mt s n p a vals m,
  spOf s n n -> validPerm n p ->
  spOf a n n -> inputOf O m a vals -> coveredSym (entries a) (entries s) n p ->
  exists b, factorizationBlk s p = Ok b /\
    forall L0 D0, length L0 = c_nnz (b_sp b) -> length D0 = n ->
    (exists L D, factorize O mt b (Some m) regularizationNone (L0, D0) = Ok (L, D) /\
       forall i, i < n -> vecAt O D i <> o0 O) <->
    (forall i, i < n -> regularUpTo O (seq 0 n) (fun j => i < j)
       (fun i j => symAt O (entries a) vals (nth i p 0) (nth j p 0))).
Proof. exact @single_breakdown. Qed.
Print Assumptions C41_breakdown.

Theorem C41_arrowhead_breakdown :
  forall {F : Type} (O : ops F) (FL : fieldLaws O) (IL : infLaws F) mt s ds dt dl dO n m w,
  arrowDims s ds dt dl dO -> inputArrow O n ds dt dl dO m w -> declaredArrow s n m ->
  exists k, arrowBlocks s = Ok k /\
    forall d0, dataOf k n ds dt dl dO d0 ->
    (exists d, arrowFactorize O mt k m regularizationNone d0 = Ok d /\
       forall g, In g (allIdx n ds dt dl dO) -> pivotAt O d g <> o0 O) <->
    (forall g, In g (allIdx n ds dt dl dO) ->
       regularUpTo O (allIdx n ds dt dl dO) (gbefore g)
         (fun g h => matAt O m w (permIdx s g) (permIdx s h))).
Proof. exact @arrow_breakdown. Qed.
Print Assumptions C41_arrowhead_breakdown.

(** ** examples *)

Definition positiveq (x : Qc) : bool := match this x with Qmake (Zpos _) _ => true | _ => false end.
Lemma positiveq_ok x : positiveq x = true -> ol_pos OLq x.
Proof.
  unfold positiveq. cbn [OLq ol_pos]. unfold Qclt, Qlt. destruct (this x) as [[|z|z] d]; cbn; try discriminate.
  intros _. reflexivity.
Qed.

(** [exM] has positive pivots in one order, so it is positive definite; then the
    pivots are positive in the other order as well *)
Lemma exM_posdef : posDef OLq (seq 0 4) (symAt Oq (entries exS) (qs exVals)).
Proof.
  destruct (C29_positive_pivots Oq FLq OLq UpLooking exS 4 exP exS (qs exVals) exM
    exS_ok exP_ok exS_ok exM_ok exM_covered) as (b & Eb & H).
  rewrite exB_ok in Eb. injection Eb as <-.
  apply (H exL0 exD0 eq_refl eq_refl). do 2 eexists. split; [vm_compute; reflexivity|].
  intros [|[|[|[|i]]]] Hi; try lia; vm_compute; reflexivity.
Qed.

Example C29_example :
  spOf exS 4 4 /\ validPerm 4 exP' /\ inputOf Oq exM exS (qs exVals) /\
  coveredSym (entries exS) (entries exS) 4 exP' /\
  posDef OLq (seq 0 4) (symAt Oq (entries exS) (qs exVals)) /\
  match factorize Oq EntryWise exB' (Some exM) regularizationNone (exL0', exD0) with
  | Ok (L, D) => map this D = [7; 5; 6; 314 # 105]%Q
  | Err _ => False
  end.
Proof.
  split; [exact exS_ok|]. split; [exact exP'_ok|]. split; [exact exM_ok|].
  split; [exact exM_covered'|]. split; [exact exM_posdef|]. vm_compute. reflexivity.
Qed.

(** a matrix that is not positive definite has a pivot that is not positive *)
Example C29_example_indefinite :
  ~ posDef OLq (seq 0 4) (symAt Oq (entries exQS) (qs exQVals)).
Proof.
  intros H.
  destruct (C29_positive_pivots Oq FLq OLq EntryWise exQS 4 exQP exQS (qs exQVals) exQM
    exQS_ok exQP_ok exQS_ok exQM_ok) as (b & Eb & HI).
  { apply declared_is_covered; auto. exact exQP_ok. }
  vm_compute in Eb. injection Eb as <-.
  apply (HI (qs [0;0;0]%Z) exD0 eq_refl eq_refl) in H. destruct H as (L & D & EF & HD).
  vm_compute in EF. injection EF as _ <-. specialize (HD 0 ltac:(lia)). vm_compute in HD. discriminate.
Qed.

Lemma exIn_posdef : posDef OLq (allIdx 2 2 3 2 2) (matAt Oq exIn exW).
Proof.
  destruct (C29_arrowhead_positive_pivots Oq FLq OLq UpLooking exA 2 3 2 2 2 exIn exW
    exA_dims exIn_ok exIn_declared) as (k & Ek & H).
  rewrite exK_ok in Ek.
  apply (f_equal (fun r => match r with Ok k => k | Err _ => exK end)) in Ek. cbv beta iota in Ek. subst k.
  apply (H exD exD_ok).
  assert (A : match arrowFactorize Oq UpLooking exK exIn regularizationNone exD with
              | Ok d => forallb (fun g => positiveq (pivotAt Oq d g)) (allIdx 2 2 3 2 2)
              | Err _ => false
              end = true) by (vm_compute; reflexivity).
  destruct (arrowFactorize Oq UpLooking exK exIn regularizationNone exD) as [d|]; [|discriminate].
  exists d. split; [reflexivity|].
  intros g Hg. rewrite forallb_forall in A. apply positiveq_ok, A, Hg.
Qed.

Example C29_arrowhead_example :
  arrowDims exA' 2 3 2 2 /\ inputArrow Oq 2 2 3 2 2 exIn exW /\ declaredArrow exA' 2 exIn /\
  posDef OLq (allIdx 2 2 3 2 2) (matAt Oq exIn exW).
Proof.
  split; [exact exA'_dims|]. split; [exact exIn_ok|]. split; [exact exIn_declared'|].
  exact exIn_posdef.
Qed.

Example C40_example :
  spOf exQS 4 4 /\ validPerm 4 exQP /\ inputOf Oq exQM exQS (qs exQVals) /\
  coveredSym (entries exQS) (entries exQS) 4 exQP /\
  quasiDef OLq (seq 0 4) exQR (symAt Oq (entries exQS) (qs exQVals)) /\
  match factorizationBlk exQS exQP with
  | Ok b =>
      match factorize Oq UpLooking b (Some exQM) regularizationNone (qs [0;0;0]%Z, exD0) with
      | Ok (L, D) => map this D = [-1; 3; -1; 8 # 3]%Q /\ map exQR exQP = [false; true; false; true]
      | Err _ => False
      end
  | Err _ => False
  end.
Proof.
  split; [exact exQS_ok|]. split; [exact exQP_ok|]. split; [exact exQM_ok|].
  split; [apply declared_is_covered; auto; exact exQP_ok|]. split; [exact exQ_def|].
  vm_compute. split; reflexivity.
Qed.

Example C40_arrowhead_example :
  arrowDims exQA 1 1 1 1 /\ inputArrow Oq 1 1 1 1 1 exQIn exQW /\ declaredArrow exQA 1 exQIn /\
  quasiDef OLq (allIdx 1 1 1 1 1) exQAR (matAt Oq exQIn exQW) /\
  match arrowFactorize Oq EntryWise exQK exQIn regularizationNone exQD with
  | Ok d => map (fun g => this (pivotAt Oq d g)) (allIdx 1 1 1 1 1) =
              [3; -10 # 3; -27 # 10; 118 # 27; -607 # 118]%Q /\
            map exQAR (allIdx 1 1 1 1 1) = [true; false; false; true; false]
  | Err _ => False
  end.
Proof.
  split; [exact exQA_dims|]. split; [exact exQIn_ok|]. split; [exact exQIn_declared|].
  split; [exact exQA_def|]. vm_compute. split; reflexivity.
Qed.

(** a regular matrix with a zero on the diagonal: the first order breaks down, as
    the leading 1 x 1 block is singular, the second order does not *)
Definition exZS : sparsity := mkSp 3 3 [(0,0); (1,0); (1,1); (2,1); (2,2)].
Definition exZVals : list Z := [0; 1; 3; 2; 5]%Z.
Lemma exZS_ok : spOf exZS 3 3.
Proof. apply spOf_check_ok. reflexivity. Qed.
Lemma exZM_ok : inputOf Oq (ExampleData.matOf exZS exZVals) exZS (qs exZVals).
Proof. apply matOf_input. reflexivity. Qed.
Lemma exZP_ok : validPerm 3 [0; 1; 2] /\ validPerm 3 [2; 1; 0].
Proof. split; apply validPerm_check; reflexivity. Qed.

Example C41_example_breakdown :
  ~ (forall i, i < 3 -> regularUpTo Oq (seq 0 3) (fun j => i < j)
       (fun i j => symAt Oq (entries exZS) (qs exZVals) (nth i [0; 1; 2] 0) (nth j [0; 1; 2] 0))).
Proof.
  destruct (C41_breakdown Oq FLq ILq EntryWise exZS 3 [0; 1; 2] exZS (qs exZVals) _
    exZS_ok (proj1 exZP_ok) exZS_ok exZM_ok) as (b & Eb & H).
  { apply declared_is_covered; auto. apply exZP_ok. }
  vm_compute in Eb. injection Eb as <-. intros HR.
  apply (H (qs [0; 0]%Z) (qs [0; 0; 0]%Z) eq_refl eq_refl) in HR. destruct HR as (L & D & EF & HD).
  vm_compute in EF. injection EF as _ <-. apply (HD 0); [lia|]. apply Qc_is_canon. vm_compute. reflexivity.
Qed.

Example C41_example :
  forall i, i < 3 -> regularUpTo Oq (seq 0 3) (fun j => i < j)
    (fun i j => symAt Oq (entries exZS) (qs exZVals) (nth i [2; 1; 0] 0) (nth j [2; 1; 0] 0)).
Proof.
  destruct (C41_breakdown Oq FLq ILq EntryWise exZS 3 [2; 1; 0] exZS (qs exZVals) _
    exZS_ok (proj2 exZP_ok) exZS_ok exZM_ok) as (b & Eb & H).
  { apply declared_is_covered; auto. apply exZP_ok. }
  vm_compute in Eb. injection Eb as <-.
  apply (H (qs [0; 0]%Z) (qs [0; 0; 0]%Z) eq_refl eq_refl). do 2 eexists.
  split; [vm_compute; reflexivity|].
  intros [|[|[|i]]] Hi E; try lia; apply (f_equal this) in E; vm_compute in E; discriminate E.
Qed.
