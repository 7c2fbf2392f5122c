(** Property C47: the signs of the pivots tell the inertia of the matrix. *)
From Coq Require Import List Arith Lia Bool QArith Qcanon.
From Verif Require Import Base ModelPerm ModelSparsity ModelSymbolic ModelNumeric ModelArrow ModelReg.
From Verif Require Import SpecSymbolic SpecArrow SpecNumeric SpecArrowNum SpecPivot SpecInertia.
From Verif Require Import ExampleData ExampleArrow ExamplePivot.
From Verif Require Import ProofPropInertia PropSingle.
Import ListNotations.
Local Open Scope nat_scope.

(** [definiteOn OL rows true A k] (SpecInertia.v): A is positive definite on some
    subspace of dimension k. The largest such k is the number of positive eigenvalues. *)

Theorem C47_inertia :
  forall {F : Type} (O : ops F) (FL : fieldLaws O) (OL : ordLaws FL) mt s n p a vals m b L0 D0 L D,
  spOf s n n -> validPerm n p -> factorizationBlk s p = Ok b ->
  spOf a n n -> inputOf O m a vals -> coveredSym (entries a) (entries s) n p ->
  length L0 = c_nnz (b_sp b) -> length D0 = n ->
  factorize O mt b (Some m) regularizationNone (L0, D0) = Ok (L, D) ->
  (forall i, i < n -> vecAt O D i <> o0 O) ->
  forall positive k,
  definiteOn OL (seq 0 n) positive (symAt O (entries a) vals) k <->
  k <= countSign OL (seq 0 n) positive (vecAt O D).
Proof. exact @single_inertia. Qed.
Print Assumptions C47_inertia.

(** whatever the sparsity, the permutation and the method *)
Theorem C47_same_for_all_orders :
  forall {F : Type} (O : ops F) (FL : fieldLaws O) (OL : ordLaws FL) n a vals m,
  spOf a n n -> inputOf O m a vals ->
  forall mt mt' s s' p p' b b' L0 D0 L0' D0' L D L' D',
  spOf s n n -> validPerm n p -> factorizationBlk s p = Ok b ->
  spOf s' n n -> validPerm n p' -> factorizationBlk s' p' = Ok b' ->
  coveredSym (entries a) (entries s) n p -> coveredSym (entries a) (entries s') n p' ->
  length L0 = c_nnz (b_sp b) -> length D0 = n ->
  length L0' = c_nnz (b_sp b') -> length D0' = n ->
  factorize O mt b (Some m) regularizationNone (L0, D0) = Ok (L, D) ->
  factorize O mt' b' (Some m) regularizationNone (L0', D0') = Ok (L', D') ->
  (forall i, i < n -> vecAt O D i <> o0 O) -> (forall i, i < n -> vecAt O D' i <> o0 O) ->
  forall positive,
  countSign OL (seq 0 n) positive (vecAt O D) = countSign OL (seq 0 n) positive (vecAt O D').
Proof. exact @single_same_inertia. Qed.
Print Assumptions C47_same_for_all_orders.

Theorem C47_arrowhead_inertia :
  forall {F : Type} (O : ops F) (FL : fieldLaws O) (OL : ordLaws FL) mt s ds dt dl dO k n m w d0 d,
  arrowDims s ds dt dl dO -> arrowBlocks s = Ok k ->
  inputArrow O n ds dt dl dO m w -> declaredArrow s n m ->
  dataOf k n ds dt dl dO d0 ->
  arrowFactorize O mt k m regularizationNone d0 = Ok d ->
  let all := allIdx n ds dt dl dO in
  (forall g, In g all -> pivotAt O d g <> o0 O) ->
  forall positive c,
  definiteOn OL all positive (matAt O m w) c <-> c <= countSign OL all positive (pivotAt O d).
Proof. exact @arrow_inertia. Qed.
Print Assumptions C47_arrowhead_inertia.

Theorem C47_arrowhead_same_for_all_orders :
  forall {F : Type} (O : ops F) (FL : fieldLaws O) (OL : ordLaws FL) ds dt dl dO n m w,
  inputArrow O n ds dt dl dO m w ->
  forall mt mt' s s' k k' d0 d0' d d',
  arrowDims s ds dt dl dO -> arrowBlocks s = Ok k -> declaredArrow s n m ->
  arrowDims s' ds dt dl dO -> arrowBlocks s' = Ok k' -> declaredArrow s' n m ->
  dataOf k n ds dt dl dO d0 -> dataOf k' n ds dt dl dO d0' ->
  arrowFactorize O mt k m regularizationNone d0 = Ok d ->
  arrowFactorize O mt' k' m regularizationNone d0' = Ok d' ->
  let all := allIdx n ds dt dl dO in
  (forall g, In g all -> pivotAt O d g <> o0 O) -> (forall g, In g all -> pivotAt O d' g <> o0 O) ->
  forall positive,
  countSign OL all positive (pivotAt O d) = countSign OL all positive (pivotAt O d').
Proof. exact @arrow_same_inertia. Qed.
Print Assumptions C47_arrowhead_same_for_all_orders.

Theorem C47_tridiagonal_inertia :
  forall {F : Type} (O : ops F) (FL : fieldLaws O) (OL : ordLaws FL) mt a b p dt n k A B wA wB d0 d,
  spOf a dt dt -> spOf b dt dt -> validPerm dt p -> tridiagonalBlocks a b p = Ok k ->
  inputTri O n dt A B wA wB -> declaredTri a b n A B -> dataOf k n 0 dt 0 0 d0 ->
  tridiagonalFactorize O mt k dt A B regularizationNone d0 = Ok d ->
  let rows := list_prod (seq 0 (n + 1)) (seq 0 dt) in
  (forall t i, t < n + 1 -> i < dt -> pivotAt O d (GT t i) <> o0 O) ->
  forall positive c,
  definiteOn OL rows positive (fun r q => triMatAt O A B wA wB (fst r) (snd r) (fst q) (snd q)) c <->
  c <= countSign OL rows positive (fun r => pivotAt O d (GT (fst r) (snd r))).
Proof. exact @tri_inertia. Qed.
Print Assumptions C47_tridiagonal_inertia.

Theorem C47_tridiagonal_same_for_all_orders :
  forall {F : Type} (O : ops F) (FL : fieldLaws O) (OL : ordLaws FL) dt n A B wA wB,
  inputTri O n dt A B wA wB ->
  forall mt mt' a a' b b' p p' k k' d0 d0' d d',
  spOf a dt dt -> spOf b dt dt -> validPerm dt p -> tridiagonalBlocks a b p = Ok k -> declaredTri a b n A B ->
  spOf a' dt dt -> spOf b' dt dt -> validPerm dt p' -> tridiagonalBlocks a' b' p' = Ok k' ->
  declaredTri a' b' n A B ->
  dataOf k n 0 dt 0 0 d0 -> dataOf k' n 0 dt 0 0 d0' ->
  tridiagonalFactorize O mt k dt A B regularizationNone d0 = Ok d ->
  tridiagonalFactorize O mt' k' dt A B regularizationNone d0' = Ok d' ->
  (forall t i, t < n + 1 -> i < dt -> pivotAt O d (GT t i) <> o0 O) ->
  (forall t i, t < n + 1 -> i < dt -> pivotAt O d' (GT t i) <> o0 O) ->
  let rows := list_prod (seq 0 (n + 1)) (seq 0 dt) in
  forall positive,
  countSign OL rows positive (fun r => pivotAt O d (GT (fst r) (snd r))) =
  countSign OL rows positive (fun r => pivotAt O d' (GT (fst r) (snd r))).
Proof. exact @tri_same_inertia. Qed.
Print Assumptions C47_tridiagonal_same_for_all_orders.

(** The matrix
<<
    0  1  .
    1  3  2
    .  2  5
>>
    with two positive eigenvalues and a negative one, in two orders *)
Definition exIS : sparsity := mkSp 3 3 [(0,0); (1,0); (1,1); (2,1); (2,2)].
Definition exIVals : list Z := [0; 1; 3; 2; 5]%Z.
Definition exIM : mat := ExampleData.matOf exIS exIVals.
Lemma exIS_ok : spOf exIS 3 3.
Proof. apply spOf_check_ok. reflexivity. Qed.
Lemma exIM_ok : inputOf Oq exIM exIS (qs exIVals).
Proof. apply matOf_input. reflexivity. Qed.

Definition nonzeroq (l : list Qc) : bool := forallb (fun v => negb (Qeq_bool (this v) 0)) l.
Definition pivotsOf (mt : method) (p : perm) (L0 D0 : list Qc) : list Q :=
  match factorizationBlk exIS p with
  | Ok b => match factorize Oq mt b (Some exIM) regularizationNone (L0, D0) with
            | Ok (L, D) => map this D
            | Err _ => []
            end
  | Err _ => []
  end.

Example C47_example :
  validPerm 3 [2; 1; 0] /\ validPerm 3 [1; 2; 0] /\
  coveredSym (entries exIS) (entries exIS) 3 [2; 1; 0] /\
  coveredSym (entries exIS) (entries exIS) 3 [1; 2; 0] /\
  pivotsOf UpLooking [2; 1; 0] (qs [0; 0]%Z) (qs [0; 0; 0]%Z) = [5; 11 # 5; -5 # 11]%Q /\
  pivotsOf EntryWise [1; 2; 0] (qs [0; 0; 0]%Z) (qs [0; 0; 0]%Z) = [3; 11 # 3; -5 # 11]%Q.
Proof.
  assert (P1 : validPerm 3 [2; 1; 0]) by (apply validPerm_check; reflexivity).
  assert (P2 : validPerm 3 [1; 2; 0]) by (apply validPerm_check; reflexivity).
  split; auto. split; auto.
  split; [apply declared_is_covered; auto; exact exIS_ok|].
  split; [apply declared_is_covered; auto; exact exIS_ok|].
  split; vm_compute; reflexivity.
Qed.

(** hence there is a plane on which the matrix is positive definite, and no larger subspace *)
Definition exIB : blk :=
  match factorizationBlk exIS [2; 1; 0] with Ok b => b | Err _ => emptyDiagBlk end.
Definition exIF : list Qc * list Qc :=
  match factorize Oq UpLooking exIB (Some exIM) regularizationNone (qs [0; 0]%Z, qs [0; 0; 0]%Z) with
  | Ok r => r
  | Err _ => ([], [])
  end.
Example C47_example_inertia :
  forall k, definiteOn OLq (seq 0 3) true (symAt Oq (entries exIS) (qs exIVals)) k <-> k <= 2.
Proof.
  assert (P1 : validPerm 3 [2; 1; 0]) by (apply validPerm_check; reflexivity).
  intros k.
  rewrite (C47_inertia Oq FLq OLq UpLooking exIS 3 [2; 1; 0] exIS (qs exIVals) exIM exIB
    (qs [0; 0]%Z) (qs [0; 0; 0]%Z) (fst exIF) (snd exIF) exIS_ok P1 eq_refl exIS_ok exIM_ok).
  - vm_compute. tauto.
  - apply declared_is_covered; auto; exact exIS_ok.
  - reflexivity.
  - reflexivity.
  - vm_compute. reflexivity.
  - intros [|[|[|i]]] Hi E; try lia; apply (f_equal this) in E; vm_compute in E; discriminate.
Qed.

(** an indefinite arrowhead matrix *)
Example C47_arrowhead_example :
  arrowDims exQA 1 1 1 1 /\ inputArrow Oq 1 1 1 1 1 exQIn exQW /\ declaredArrow exQA 1 exQIn /\
  match arrowFactorize Oq EntryWise exQK exQIn regularizationNone exQD with
  | Ok d => nonzeroq (map (pivotAt Oq d) (allIdx 1 1 1 1 1)) = true /\
            countSign OLq (allIdx 1 1 1 1 1) true (pivotAt Oq d) = 2 /\
            countSign OLq (allIdx 1 1 1 1 1) false (pivotAt Oq d) = 3
  | Err _ => False
  end.
Proof.
  split; [exact exQA_dims|]. split; [exact exQIn_ok|]. split; [exact exQIn_declared|].
  vm_compute. repeat split; reflexivity.
Qed.
