(** Properties C01 - C07 and C26: factorization, solve and product of a single
    symmetric matrix. *)
From Coq Require Import List Arith Lia Bool QArith Qcanon.
From Verif Require Import Base ModelPerm ModelSparsity ModelSymbolic ModelNumeric ModelReg.
From Verif Require Import SpecSymbolic SpecArrow SpecNumeric ExampleData.
From Verif Require Import ProofArrowSym ProofSingleMain ProofMethods ProofMultiply ProofPropSingle.
Import ListNotations.
Local Open Scope nat_scope.

(** An input is covered if all of its entries below the diagonal are declared. *)
Theorem declared_is_covered : forall input declared n p,
  validPerm n p ->
  (forall r c, In (r, c) input -> c < r -> In (r, c) declared) ->
  coveredSym input declared n p.
Proof. exact coveredSym_incl. Qed.
Print Assumptions declared_is_covered.

Lemma exM_covered : coveredSym (entries exS) (entries exS) 4 exP.
Proof. apply declared_is_covered; auto. exact exP_ok. Qed.
Lemma exM_covered' : coveredSym (entries exS) (entries exS) 4 exP'.
Proof. apply declared_is_covered; auto. exact exP'_ok. Qed.

(** ** C01: the up-looking factorization reproduces the matrix *)

Theorem C01_uplooking_reproduces_matrix :
  forall {F : Type} (O : ops F) (FL : fieldLaws O) s n p a vals m reg,
  spOf s n n -> validPerm n p ->
  spOf a n n -> inputOf O m a vals -> coveredSym (entries a) (entries s) n p ->
  exists b, factorizationBlk s p = Ok b /\
    NoDup (c_entries (b_sp b)) /\
    (forall i j, In (i, j) (c_entries (b_sp b)) -> j < i /\ i < n) /\
    forall L0 D0, length L0 = c_nnz (b_sp b) -> length D0 = n ->
    exists L D, factorize O UpLooking b (Some m) reg (L0, D0) = Ok (L, D) /\
      length L = c_nnz (b_sp b) /\ length D = n /\
      ((forall k, k < n -> vecAt O D k <> o0 O) ->
       exists E,
         (forall i, i < n ->
            vecAt O D i = reg (osub O (vecAt O D i) (E (nth i p 0))) i) /\
         (forall i j, i < n -> j < n ->
            ldltAt O (fl_one FL) n (c_entries (b_sp b)) L D i j =
            plusDiag O (symAt O (entries a) vals) E (nth i p 0) (nth j p 0))).
Proof. intros F O FL. exact (factorization_identity O FL UpLooking). Qed.
Print Assumptions C01_uplooking_reproduces_matrix.

Theorem C01_uplooking_without_regularization :
  forall {F : Type} (O : ops F) (FL : fieldLaws O) s n p a vals m,
  spOf s n n -> validPerm n p ->
  spOf a n n -> inputOf O m a vals -> coveredSym (entries a) (entries s) n p ->
  exists b, factorizationBlk s p = Ok b /\
    forall L0 D0, length L0 = c_nnz (b_sp b) -> length D0 = n ->
    exists L D, factorize O UpLooking b (Some m) regularizationNone (L0, D0) = Ok (L, D) /\
      length L = c_nnz (b_sp b) /\ length D = n /\
      ((forall k, k < n -> vecAt O D k <> o0 O) ->
       forall i j, i < n -> j < n ->
         ldltAt O (fl_one FL) n (c_entries (b_sp b)) L D i j =
         symAt O (entries a) vals (nth i p 0) (nth j p 0)).
Proof. intros F O FL. exact (factorization_identity_none O FL UpLooking). Qed.
Print Assumptions C01_uplooking_without_regularization.

(** the hypotheses hold for [exM], and its pivots are nonzero *)
Example C01_example :
  spOf exS 4 4 /\ validPerm 4 exP /\ inputOf Oq exM exS (qs exVals) /\
  coveredSym (entries exS) (entries exS) 4 exP /\
  match factorize Oq UpLooking exB (Some exM) regularizationNone (exL0, exD0) with
  | Ok (L, D) =>
      nonzerob D = true /\
      map this L = [1#2; 1#4; -1#10; 1#4; -1#10; -3#47]%Q /\
      map this D = [4#1; 5#1; 47#10; 314#47]%Q /\
      this (ldltAt Oq 1%Qc 4 (c_entries (b_sp exB)) L D 3 2) = 0%Q /\
      this (ldltAt Oq 1%Qc 4 (c_entries (b_sp exB)) L D 2 0) = 1%Q
  | Err _ => False
  end.
Proof.
  split; [exact exS_ok|]. split; [exact exP_ok|]. split; [exact exM_ok|].
  split; [exact exM_covered|]. vm_compute. repeat split; reflexivity.
Qed.

(** ** C02: the entry-wise method computes the same factor *)

Theorem C02_entrywise_reproduces_matrix :
  forall {F : Type} (O : ops F) (FL : fieldLaws O) s n p a vals m reg,
  spOf s n n -> validPerm n p ->
  spOf a n n -> inputOf O m a vals -> coveredSym (entries a) (entries s) n p ->
  exists b, factorizationBlk s p = Ok b /\
    NoDup (c_entries (b_sp b)) /\
    (forall i j, In (i, j) (c_entries (b_sp b)) -> j < i /\ i < n) /\
    forall L0 D0, length L0 = c_nnz (b_sp b) -> length D0 = n ->
    exists L D, factorize O EntryWise b (Some m) reg (L0, D0) = Ok (L, D) /\
      length L = c_nnz (b_sp b) /\ length D = n /\
      ((forall k, k < n -> vecAt O D k <> o0 O) ->
       exists E,
         (forall i, i < n ->
            vecAt O D i = reg (osub O (vecAt O D i) (E (nth i p 0))) i) /\
         (forall i j, i < n -> j < n ->
            ldltAt O (fl_one FL) n (c_entries (b_sp b)) L D i j =
            plusDiag O (symAt O (entries a) vals) E (nth i p 0) (nth j p 0))).
Proof. intros F O FL. exact (factorization_identity O FL EntryWise). Qed.
Print Assumptions C02_entrywise_reproduces_matrix.

(** It suffices that the pivots of one of the methods are nonzero; the previous
    contents may differ. *)
Theorem C02_methods_agree :
  forall {F : Type} (O : ops F) (FL : fieldLaws O) s n p a vals m reg b L0 D0 L0' D0' Lu Du Le De,
  spOf s n n -> validPerm n p -> factorizationBlk s p = Ok b ->
  spOf a n n -> inputOf O m a vals -> coveredSym (entries a) (entries s) n p ->
  length L0 = c_nnz (b_sp b) -> length D0 = n ->
  length L0' = c_nnz (b_sp b) -> length D0' = n ->
  factorize O UpLooking b (Some m) reg (L0, D0) = Ok (Lu, Du) ->
  factorize O EntryWise b (Some m) reg (L0', D0') = Ok (Le, De) ->
  (forall k, k < n -> vecAt O Du k <> o0 O) \/ (forall k, k < n -> vecAt O De k <> o0 O) ->
  Lu = Le /\ Du = De.
Proof. exact @methods_agree. Qed.
Print Assumptions C02_methods_agree.

Example C02_example :
  match factorize Oq UpLooking exB (Some exM) regularizationNone (exL0, exD0),
        factorize Oq EntryWise exB (Some exM) regularizationNone (qs [0;0;0;0;0;0]%Z, exD0) with
  | Ok (Lu, Du), Ok (Le, De) =>
      nonzerob Du = true /\ map this Lu = map this Le /\ map this Du = map this De
  | _, _ => False
  end.
Proof. vm_compute. repeat split; reflexivity. Qed.

(** ** C03: solveInPlace solves the factorized system *)

Theorem C03_solve :
  forall {F : Type} (O : ops F) (FL : fieldLaws O) mt s n p a vals m reg b L0 D0 L D,
  spOf s n n -> validPerm n p -> factorizationBlk s p = Ok b ->
  spOf a n n -> inputOf O m a vals -> coveredSym (entries a) (entries s) n p ->
  length L0 = c_nnz (b_sp b) -> length D0 = n ->
  factorize O mt b (Some m) reg (L0, D0) = Ok (L, D) ->
  (forall k, k < n -> vecAt O D k <> o0 O) ->
  exists E,
    (forall i, i < n -> vecAt O D i = reg (osub O (vecAt O D i) (E (nth i p 0))) i) /\
    (forall i j, i < n -> j < n ->
       ldltAt O (fl_one FL) n (c_entries (b_sp b)) L D i j =
       plusDiag O (symAt O (entries a) vals) E (nth i p 0) (nth j p 0)) /\
    forall rhs, length rhs = n ->
    exists x, solveInPlace O b (L, D) rhs = Ok x /\ length x = n /\
      (forall i, i < n ->
         matVec O n (plusDiag O (symAt O (entries a) vals) E) x i = vecAt O rhs i) /\
      (forall x', length x' = n ->
         (forall i, i < n ->
            matVec O n (plusDiag O (symAt O (entries a) vals) E) x' i = vecAt O rhs i) ->
         x' = x).
Proof. exact @solves. Qed.
Print Assumptions C03_solve.

Theorem C03_solve_without_regularization :
  forall {F : Type} (O : ops F) (FL : fieldLaws O) mt s n p a vals m b L0 D0 L D rhs,
  spOf s n n -> validPerm n p -> factorizationBlk s p = Ok b ->
  spOf a n n -> inputOf O m a vals -> coveredSym (entries a) (entries s) n p ->
  length L0 = c_nnz (b_sp b) -> length D0 = n ->
  factorize O mt b (Some m) regularizationNone (L0, D0) = Ok (L, D) ->
  (forall k, k < n -> vecAt O D k <> o0 O) ->
  length rhs = n ->
  exists x, solveInPlace O b (L, D) rhs = Ok x /\ length x = n /\
    (forall i, i < n -> matVec O n (symAt O (entries a) vals) x i = vecAt O rhs i) /\
    (forall x', length x' = n ->
       (forall i, i < n -> matVec O n (symAt O (entries a) vals) x' i = vecAt O rhs i) ->
       x' = x).
Proof. exact @solves_none. Qed.
Print Assumptions C03_solve_without_regularization.

(** with a regularization that changes the second pivot from 5 to 7; the
    solution is that of the matrix with 8 instead of 6 at (2, 2) *)
Example C03_example :
  match (let* f := factorize Oq UpLooking exB (Some exM)
                     (fun d i => if i =? 1 then d + q 2 else d)%Qc (exL0, exD0) in
         let* x := solveInPlace Oq exB f (qs [1; 2; 3; 4]%Z) in Ok (f, x)) with
  | Ok ((L, D), x) =>
      nonzerob D = true /\
      map (fun i => this (matVec Oq 4 (plusDiag Oq (symAt Oq (entries exS) (qs exVals))
                            (fun i => if i =? 2 then q 2 else q 0)) x i)) [0; 1; 2; 3]
      = [1; 2; 3; 4]%Q
  | Err _ => False
  end.
Proof. vm_compute. repeat split; reflexivity. Qed.

(** ** C04: multiply, factorize and solve is the identity *)

Theorem C04_round_trip :
  forall {F : Type} (O : ops F) (FL : fieldLaws O) mt s n p a vals m b L0 D0 L D x,
  spOf s n n -> validPerm n p -> factorizationBlk s p = Ok b ->
  spOf a n n -> inputOf O m a vals -> coveredSym (entries a) (entries s) n p ->
  NoDup (entries a) -> (forall r c, In (r, c) (entries a) -> c <= r) ->
  length L0 = c_nnz (b_sp b) -> length D0 = n ->
  factorize O mt b (Some m) regularizationNone (L0, D0) = Ok (L, D) ->
  (forall k, k < n -> vecAt O D k <> o0 O) ->
  length x = n ->
  exists rhs, multiply O Symmetric m x (repeat (o0 O) n) = Ok rhs /\
    solveInPlace O b (L, D) rhs = Ok x.
Proof. exact @round_trip_prop. Qed.
Print Assumptions C04_round_trip.

Example C04_example :
  NoDup (entries exS) /\ (forall r c, In (r, c) (entries exS) -> c <= r) /\
  match (let* f := factorize Oq EntryWise exB (Some exM) regularizationNone (exL0, exD0) in
         let* rhs := multiply Oq Symmetric exM (qs [1; -2; 3; 5]%Z) (qs [0; 0; 0; 0]%Z) in
         let* x := solveInPlace Oq exB f rhs in Ok (f, rhs, x)) with
  | Ok (L, D, rhs, x) =>
      nonzerob D = true /\ map this rhs = [13; -9; 20; 36]%Q /\ map this x = [1; -2; 3; 5]%Q
  | Err _ => False
  end.
Proof.
  split.
  { repeat constructor; cbn; intuition discriminate. }
  split.
  { intros r c H. cbn in H.
    repeat (destruct H as [H|H]; [injection H as <- <-; lia|]). destruct H. }
  vm_compute. repeat split; reflexivity.
Qed.

(** ** C05: the permutation does not influence the solution *)

Theorem C05_permutation_irrelevant :
  forall {F : Type} (O : ops F) (FL : fieldLaws O) mt mt' s s' n p p' a vals m b b'
    L0 D0 L0' D0' L D L' D' rhs,
  spOf s n n -> validPerm n p -> factorizationBlk s p = Ok b ->
  spOf s' n n -> validPerm n p' -> factorizationBlk s' p' = Ok b' ->
  spOf a n n -> inputOf O m a vals ->
  coveredSym (entries a) (entries s) n p -> coveredSym (entries a) (entries s') n p' ->
  length L0 = c_nnz (b_sp b) -> length D0 = n ->
  length L0' = c_nnz (b_sp b') -> length D0' = n ->
  factorize O mt b (Some m) regularizationNone (L0, D0) = Ok (L, D) ->
  factorize O mt' b' (Some m) regularizationNone (L0', D0') = Ok (L', D') ->
  (forall k, k < n -> vecAt O D k <> o0 O) ->
  (forall k, k < n -> vecAt O D' k <> o0 O) ->
  length rhs = n ->
  exists x, solveInPlace O b (L, D) rhs = Ok x /\ solveInPlace O b' (L', D') rhs = Ok x.
Proof. exact @permutation_irrelevant. Qed.
Print Assumptions C05_permutation_irrelevant.

Example C05_example :
  match (let* f := factorize Oq UpLooking exB (Some exM) regularizationNone (exL0, exD0) in
         let* f' := factorize Oq EntryWise exB' (Some exM) regularizationNone (exL0', exD0) in
         let* x := solveInPlace Oq exB f (qs [1; 2; 3; 4]%Z) in
         let* x' := solveInPlace Oq exB' f' (qs [1; 2; 3; 4]%Z) in Ok (f, f', x, x')) with
  | Ok ((L, D), (L', D'), x, x') =>
      nonzerob D = true /\ nonzerob D' = true /\ map this L <> map this L' /\
      map this x = map this x'
  | Err _ => False
  end.
Proof. vm_compute. repeat split; try reflexivity. discriminate. Qed.

(** ** C06: a factorization object can be reused; no law of arithmetic is used *)

Theorem C06_reuse :
  forall {F : Type} (O : ops F) mt s n p a vals m reg b L0 D0 L0' D0',
  spOf s n n -> validPerm n p -> factorizationBlk s p = Ok b ->
  spOf a n n -> inputOf O m a vals -> coveredSym (entries a) (entries s) n p ->
  length L0 = c_nnz (b_sp b) -> length D0 = n ->
  length L0' = c_nnz (b_sp b) -> length D0' = n ->
  exists L D, length L = c_nnz (b_sp b) /\ length D = n /\
    factorize O mt b (Some m) reg (L0, D0) = Ok (L, D) /\
    factorize O mt b (Some m) reg (L0', D0') = Ok (L, D).
Proof. exact @reuse. Qed.
Print Assumptions C06_reuse.

Example C06_example :
  match (let* f := factorize Oq UpLooking exB (Some exM) regularizationNone (exL0, exD0) in
         let* f' := factorize Oq UpLooking exB (Some exM) regularizationNone f in
         Ok (f, f')) with
  | Ok ((L, D), (L', D')) => map this L = map this L' /\ map this D = map this D'
  | Err _ => False
  end.
Proof. vm_compute. split; reflexivity. Qed.

(** ** C07: only the lower triangle of the input is read *)

Theorem C07_only_lower_triangle :
  forall {F : Type} (O : ops F) mt s n p a vals m a' vals' m' reg b L0 D0,
  spOf s n n -> validPerm n p -> factorizationBlk s p = Ok b ->
  spOf a n n -> inputOf O m a vals -> coveredSym (entries a) (entries s) n p ->
  spOf a' n n -> inputOf O m' a' vals' -> coveredSym (entries a') (entries s) n p ->
  (forall i j, j <= i -> i < n ->
     denseAt O (entries a) vals i j = denseAt O (entries a') vals' i j) ->
  length L0 = c_nnz (b_sp b) -> length D0 = n ->
  exists L D, length L = c_nnz (b_sp b) /\ length D = n /\
    factorize O mt b (Some m) reg (L0, D0) = Ok (L, D) /\
    factorize O mt b (Some m') reg (L0, D0) = Ok (L, D).
Proof. exact @only_lower. Qed.
Print Assumptions C07_only_lower_triangle.

(** a different order, an entry above the diagonal and a repeated entry *)
Definition exS7 : sparsity :=
  mkSp 4 4 [(3,3); (0,2); (3,0); (2,2); (2,0); (1,1); (1,0); (0,0); (1,1)].
Definition exM7 : mat := matOf exS7 [7; 99; 1; 6; 2; 5; 1; 4; 88]%Z.

Example C07_example :
  spOf exS7 4 4 /\ inputOf Oq exM7 exS7 (qs [7; 99; 1; 6; 2; 5; 1; 4; 88]%Z) /\
  coveredSym (entries exS7) (entries exS) 4 exP /\
  (forall i j, j <= i -> i < 4 ->
     denseAt Oq (entries exS) (qs exVals) i j =
     denseAt Oq (entries exS7) (qs [7; 99; 1; 6; 2; 5; 1; 4; 88]%Z) i j).
Proof.
  split; [apply spOf_check_ok; reflexivity|]. split; [apply matOf_input; reflexivity|]. split.
  - apply declared_is_covered; [exact exP_ok|]. intros r c H Hlt. cbn in H.
    repeat (destruct H as [H|H];
      [injection H as <- <-; first [lia | (cbn; tauto)]|]); destruct H.
  - intros i j Hj Hi.
    destruct i as [|[|[|[|i]]]]; try lia; destruct j as [|[|[|[|j]]]]; try lia; reflexivity.
Qed.

(** ** C26: multiply adds the matrix-vector product *)

Theorem C26_multiply_normal :
  forall {F : Type} (O : ops F) (FL : fieldLaws O) m a vals nr nc x rhs,
  spOf a nr nc -> inputOf O m a vals -> length x = nc -> length rhs = nr ->
  exists r, multiply O Normal m x rhs = Ok r /\ length r = nr /\
    forall i, i < nr ->
      vecAt O r i = oadd O (vecAt O rhs i) (matVec O nc (totalAt O (entries a) vals) x i).
Proof. exact @multiply_normal. Qed.
Print Assumptions C26_multiply_normal.

Theorem C26_multiply_transposed :
  forall {F : Type} (O : ops F) (FL : fieldLaws O) m a vals nr nc x rhs,
  spOf a nr nc -> inputOf O m a vals -> length x = nr -> length rhs = nc ->
  exists r, multiply O Transposed m x rhs = Ok r /\ length r = nc /\
    forall i, i < nc ->
      vecAt O r i =
      oadd O (vecAt O rhs i) (matVec O nr (fun i j => totalAt O (entries a) vals j i) x i).
Proof. exact @multiply_transposed. Qed.
Print Assumptions C26_multiply_transposed.

Theorem C26_multiply_symmetric :
  forall {F : Type} (O : ops F) (FL : fieldLaws O) m a vals n x rhs,
  spOf a n n -> inputOf O m a vals -> length x = n -> length rhs = n ->
  exists r, multiply O Symmetric m x rhs = Ok r /\ length r = n /\
    forall i, i < n ->
      vecAt O r i =
      oadd O (vecAt O rhs i)
        (matVec O n
           (fun i j =>
              if i =? j then totalAt O (entries a) vals i i
              else oadd O (totalAt O (entries a) vals i j) (totalAt O (entries a) vals j i))
           x i).
Proof. exact @multiply_symmetric. Qed.
Print Assumptions C26_multiply_symmetric.

(** 2 x 3 with a repeated entry *)
Definition exS26 : sparsity := mkSp 2 3 [(0,1); (1,2); (0,1); (1,0)].
Definition exM26 : mat := matOf exS26 [2; 3; 5; 7]%Z.
Example C26_example :
  spOf exS26 2 3 /\ inputOf Oq exM26 exS26 (qs [2; 3; 5; 7]%Z) /\
  match multiply Oq Normal exM26 (qs [1; 10; 100]%Z) (qs [1; 2]%Z) with
  | Ok r => map this r = [71; 309]%Q | Err _ => False end /\
  match multiply Oq Transposed exM26 (qs [1; 10]%Z) (qs [1; 2; 3]%Z) with
  | Ok r => map this r = [71; 9; 33]%Q | Err _ => False end /\
  match multiply Oq Symmetric exM7 (qs [1; 10; 100; 1000]%Z) (qs [0; 0; 0; 0]%Z) with
  | Ok r => map this r = [11114; 931; 701; 7001]%Q | Err _ => False end.
Proof.
  split; [apply spOf_check_ok; reflexivity|]. split; [apply matOf_input; reflexivity|].
  vm_compute. repeat split; reflexivity.
Qed.
