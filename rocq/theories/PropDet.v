(** Property C70: pivots and determinants, in exact arithmetic. *)
From Coq Require Import List Arith Lia Bool QArith Qcanon.
From Verif Require Import Base ModelPerm ModelSparsity ModelSymbolic ModelNumeric ModelArrow ModelReg.
From Verif Require Import SpecSymbolic SpecArrow SpecNumeric SpecArrowNum SpecDet.
From Verif Require Import ExampleData ExampleArrow ExampleDet.
From Verif Require Import ProofPropDet PropSingle.
Import ListNotations.
Local Open Scope nat_scope.

Theorem C70_determinant :
  forall {F : Type} (O : ops F) (FL : fieldLaws O) mt s n p a vals m,
  spOf s n n -> validPerm n p ->
  spOf a n n -> inputOf O m a vals -> coveredSym (entries a) (entries s) n p ->
  exists b, factorizationBlk s p = Ok b /\
    forall L0 D0, length L0 = c_nnz (b_sp b) -> length D0 = n ->
    exists L D, factorize O mt b (Some m) regularizationNone (L0, D0) = Ok (L, D) /\
      (* the products of the first pivots are the leading minors in the order of elimination *)
      (forall q, q <= n -> (forall i, S i < q -> vecAt O D i <> o0 O) ->
         prodn O (fl_one FL) q (vecAt O D) =
         det O (fl_one FL) q (fun i j => symAt O (entries a) vals (nth i p 0) (nth j p 0))) /\
      (* the product of all pivots is the determinant of the matrix *)
      ((forall i, S i < n -> vecAt O D i <> o0 O) ->
         prodn O (fl_one FL) n (vecAt O D) = det O (fl_one FL) n (symAt O (entries a) vals)) /\
      (* no pivot is zero exactly if no leading minor is zero *)
      ((forall i, i < n -> vecAt O D i <> o0 O) <->
       (forall q, q <= n ->
          det O (fl_one FL) q (fun i j => symAt O (entries a) vals (nth i p 0) (nth j p 0)) <> o0 O)).
Proof. exact @single_det. Qed.
Print Assumptions C70_determinant.

Example C70_example :
  spOf exS 4 4 /\ validPerm 4 exP /\ inputOf Oq exM exS (qs exVals) /\
  coveredSym (entries exS) (entries exS) 4 exP /\
  match factorize Oq UpLooking exB (Some exM) regularizationNone (exL0, exD0) with
  | Ok (L, D) =>
      (forall i, i < 4 -> vecAt Oq D i <> o0 Oq) /\
      map (fun q => this (prodn Oq (fl_one FLq) q (vecAt Oq D))) [0; 1; 2; 3; 4] = [1; 4; 20; 94; 628]%Q /\
      map (fun q => this (det Oq (fl_one FLq) q (fun i j => symAt Oq (entries exS) (qs exVals) (nth i exP 0) (nth j exP 0))))
        [0; 1; 2; 3; 4] = [1; 4; 20; 94; 628]%Q /\
      this (det Oq (fl_one FLq) 4 (symAt Oq (entries exS) (qs exVals))) = 628%Q
  | Err _ => False
  end.
Proof.
  split; [exact exS_ok|]. split; [exact exP_ok|]. split; [exact exM_ok|].
  split; [apply declared_is_covered; auto; exact exP_ok|].
  destruct (factorize Oq UpLooking exB (Some exM) regularizationNone (exL0, exD0)) as [[L D]|e] eqn:E;
    vm_compute in E; [|discriminate].
  assert (ED : D = snd (match factorize Oq UpLooking exB (Some exM) regularizationNone (exL0, exD0) with
    | Ok x => x | Err _ => (exL0, exD0) end)) by (vm_compute; congruence).
  clear E. subst D. split.
  - intros i Hi. apply nonzerob_ok; [vm_compute; reflexivity|exact Hi].
  - vm_compute. repeat split; reflexivity.
Qed.

(** A matrix that is not singular can have a zero pivot: the determinant of the matrix with
    rows 0 1 and 1 0 is -1. *)
Theorem C70_not_singular_refuted :
  exists s n p b m L0 D0 L D,
    spOf s n n /\ validPerm n p /\ factorizationBlk s p = Ok b /\ inputOf Oq m s (qs offVals) /\
    length L0 = c_nnz (b_sp b) /\ length D0 = n /\
    factorize Oq UpLooking b (Some m) regularizationNone (L0, D0) = Ok (L, D) /\
    det Oq (fl_one FLq) n (symAt Oq (entries s) (qs offVals)) <> o0 Oq /\
    exists i, i < n /\ vecAt Oq D i = o0 Oq.
Proof.
  exists offS, 2, [0;1], offB, (matOf offS offVals), (qs [7]%Z), (qs [8;9]%Z).
  destruct (factorize Oq UpLooking offB (Some (matOf offS offVals)) regularizationNone (qs [7]%Z, qs [8;9]%Z))
    as [[L D]|e] eqn:E; [|vm_compute in E; discriminate].
  exists L, D.
  split; [apply spOf_check_ok; reflexivity|]. split; [apply validPerm_check; reflexivity|].
  split; [exact offB_ok|]. split; [apply matOf_input; reflexivity|]. split; [reflexivity|]. split; [reflexivity|].
  split; [reflexivity|]. split; [vm_compute; discriminate|].
  exists 0. split; [lia|]. vm_compute in E.
  assert (ED : D = snd (match factorize Oq UpLooking offB (Some (matOf offS offVals)) regularizationNone (qs [7]%Z, qs [8;9]%Z) with
    | Ok x => x | Err _ => ([], []) end)) by (vm_compute; congruence).
  rewrite ED. apply Qc_is_canon. vm_compute. reflexivity.
Qed.
Print Assumptions C70_not_singular_refuted.

Theorem C70_arrowhead_determinant :
  forall {F : Type} (O : ops F) (FL : fieldLaws O) mt s ds dt dl dO n m w,
  let all := allIdx n ds dt dl dO in
  let A := fun g h => matAt O m w (permIdx s g) (permIdx s h) in
  arrowDims s ds dt dl dO -> inputArrow O n ds dt dl dO m w -> declaredArrow s n m ->
  exists k, arrowBlocks s = Ok k /\
    forall d0, dataOf k n ds dt dl dO d0 ->
    exists d, arrowFactorize O mt k m regularizationNone d0 = Ok d /\
      (forall q, q <= length all -> (forall i, S i < q -> pivotAt O d (nth i all (GS 0)) <> o0 O) ->
         prodOf O (fl_one FL) (GS 0) (firstn q all) (pivotAt O d) = detOf O (fl_one FL) (GS 0) (firstn q all) A) /\
      ((forall i, S i < length all -> pivotAt O d (nth i all (GS 0)) <> o0 O) ->
         prodOf O (fl_one FL) (GS 0) all (pivotAt O d) = detOf O (fl_one FL) (GS 0) all (matAt O m w)) /\
      ((forall g, In g all -> pivotAt O d g <> o0 O) <->
       (forall q, q <= length all -> detOf O (fl_one FL) (GS 0) (firstn q all) A <> o0 O)).
Proof. exact @arrow_det. Qed.
Print Assumptions C70_arrowhead_determinant.

Example C70_arrowhead_example :
  arrowDims detA 1 2 1 1 /\ inputArrow Oq 1 1 2 1 1 detIn detW /\ declaredArrow detA 1 detIn /\
  arrowBlocks detA = Ok detK /\ dataOf detK 1 1 2 1 1 detD /\
  match arrowFactorize Oq UpLooking detK detIn regularizationNone detD with
  | Ok d =>
      map (fun q => this (prodOf Oq (fl_one FLq) (GS 0) (firstn q (allIdx 1 1 2 1 1)) (pivotAt Oq d))) (seq 0 8) =
        [1; 3; 15; 7; 42; 63; 252; -14856]%Q /\
      map (fun q => this (detOf Oq (fl_one FLq) (GS 0) (firstn q (allIdx 1 1 2 1 1))
          (fun g h => matAt Oq detIn detW (permIdx detA g) (permIdx detA h)))) (seq 0 8) =
        [1; 3; 15; 7; 42; 63; 252; -14856]%Q /\
      this (detOf Oq (fl_one FLq) (GS 0) (allIdx 1 1 2 1 1) (matAt Oq detIn detW)) = (-14856)%Q
  | Err _ => False
  end.
Proof.
  split; [exact detA_ok|]. split; [exact detIn_ok|]. split; [exact detIn_declared|].
  split; [exact detK_ok|]. split; [exact detD_ok|].
  vm_compute. repeat split; reflexivity.
Qed.

Theorem C70_tridiagonal_determinant :
  forall {F : Type} (O : ops F) (FL : fieldLaws O) mt a c p dt n A B wA wB,
  let all := list_prod (seq 0 (n + 1)) (seq 0 dt) in
  let M := fun x y => triMatAt O A B wA wB (fst x) (nth (snd x) p 0) (fst y) (nth (snd y) p 0) in
  spOf a dt dt -> spOf c dt dt -> validPerm dt p ->
  inputTri O n dt A B wA wB -> declaredTri a c n A B ->
  exists k, tridiagonalBlocks a c p = Ok k /\
    forall d0, dataOf k n 0 dt 0 0 d0 ->
    exists d, tridiagonalFactorize O mt k dt A B regularizationNone d0 = Ok d /\
      let D := fun x => pivotAt O d (GT (fst x) (snd x)) in
      (forall q, q <= (n + 1) * dt -> (forall i, S i < q -> D (nth i all (0, 0)) <> o0 O) ->
         prodOf O (fl_one FL) (0, 0) (firstn q all) D = detOf O (fl_one FL) (0, 0) (firstn q all) M) /\
      ((forall i, S i < (n + 1) * dt -> D (nth i all (0, 0)) <> o0 O) ->
         prodOf O (fl_one FL) (0, 0) all D =
         detOf O (fl_one FL) (0, 0) all (fun x y => triMatAt O A B wA wB (fst x) (snd x) (fst y) (snd y))) /\
      ((forall t i, t < n + 1 -> i < dt -> D (t, i) <> o0 O) <->
       (forall q, q <= (n + 1) * dt -> detOf O (fl_one FL) (0, 0) (firstn q all) M <> o0 O)).
Proof. exact @tri_det. Qed.
Print Assumptions C70_tridiagonal_determinant.

Example C70_tridiagonal_example :
  spOf detTA 2 2 /\ spOf detTB 2 2 /\ validPerm 2 [1;0] /\
  inputTri Oq 1 2 (a_td detIn) (a_ts detIn) (w_td detW) (w_ts detW) /\
  declaredTri detTA detTB 1 (a_td detIn) (a_ts detIn) /\
  tridiagonalBlocks detTA detTB [1;0] = Ok detTK /\ dataOf detTK 1 0 2 0 0 detTD /\
  match tridiagonalFactorize Oq UpLooking detTK 2 (a_td detIn) (a_ts detIn) regularizationNone detTD with
  | Ok d =>
      map (fun q => this (prodOf Oq (fl_one FLq) (0, 0) (firstn q (list_prod (seq 0 2) (seq 0 2)))
          (fun x => pivotAt Oq d (GT (fst x) (snd x))))) (seq 0 5) = [1; 5; 9; 54; 249]%Q /\
      this (detOf Oq (fl_one FLq) (0, 0) (list_prod (seq 0 2) (seq 0 2))
          (fun x y => triMatAt Oq (a_td detIn) (a_ts detIn) (w_td detW) (w_ts detW) (fst x) (snd x) (fst y) (snd y))) = 249%Q
  | Err _ => False
  end.
Proof.
  split; [apply spOf_check_ok; reflexivity|]. split; [apply spOf_check_ok; reflexivity|].
  split; [apply validPerm_check; reflexivity|]. split; [exact detT_ok|]. split; [exact detT_declared|].
  split; [exact detTK_ok|]. split; [exact detTD_ok|].
  vm_compute. repeat split; reflexivity.
Qed.
