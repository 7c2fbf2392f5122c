(** Property C73: the trailing part of the factorization belongs to the Schur complement. *)
From Coq Require Import List Arith Lia Bool QArith Qcanon.
From Verif Require Import Base ModelPerm ModelSparsity ModelSymbolic ModelNumeric ModelArrow ModelReg.
From Verif Require Import SpecSymbolic SpecArrow SpecNumeric SpecArrowNum SpecSchur.
From Verif Require Import ExampleData ExampleArrow ExampleDet.
From Verif Require Import ProofPropSchur PropSingle.
Import ListNotations.
Local Open Scope nat_scope.

Theorem C73_schur_complement :
  forall {F : Type} (O : ops F) (FL : fieldLaws O) mt s n p a vals m reg,
  spOf s n n -> validPerm n p ->
  spOf a n n -> inputOf O m a vals -> coveredSym (entries a) (entries s) n p ->
  exists b, factorizationBlk s p = Ok b /\
    forall L0 D0, length L0 = c_nnz (b_sp b) -> length D0 = n ->
    exists L D, factorize O mt b (Some m) reg (L0, D0) = Ok (L, D) /\
      ((forall k, k < n -> vecAt O D k <> o0 O) ->
       exists E,
         (forall i, i < n -> vecAt O D i = reg (osub O (vecAt O D i) (E (nth i p 0))) i) /\
         let B := fun i j => plusDiag O (symAt O (entries a) vals) E (nth i p 0) (nth j p 0) in
         forall q, q <= n ->
           (exists X, eliminates O n q B X) /\
           forall X, eliminates O n q B X -> forall g h, q <= g -> g < n -> q <= h -> h < n ->
             trailAt O n q (unitAt O (fl_one FL) (c_entries (b_sp b)) L) (vecAt O D) g h = schurAt O q B X g h).
Proof. exact @single_schur. Qed.
Print Assumptions C73_schur_complement.

(** the first two of four variables eliminated *)
Definition exX2 (v h : nat) : Qc := Q2Qc (if v =? 0 then 3#10 else -1#10).
Definition exPM (i j : nat) : Qc := symAt Oq (entries exS) (qs exVals) (nth i exP 0) (nth j exP 0).
Example C73_example :
  spOf exS 4 4 /\ validPerm 4 exP /\ inputOf Oq exM exS (qs exVals) /\
  coveredSym (entries exS) (entries exS) 4 exP /\
  eliminates Oq 4 2 exPM exX2 /\
  match factorize Oq UpLooking exB (Some exM) regularizationNone (exL0, exD0) with
  | Ok (L, D) =>
      nonzerob D = true /\
      map (fun e => this (trailAt Oq 4 2 (unitAt Oq (fl_one FLq) (c_entries (b_sp exB)) L) (vecAt Oq D) (fst e) (snd e)))
        [(2,2); (3,2); (3,3)] = [47#10; -3#10; 67#10]%Q /\
      map (fun e => this (schurAt Oq 2 exPM exX2 (fst e) (snd e))) [(2,2); (3,2); (3,3)] = [47#10; -3#10; 67#10]%Q
  | Err _ => False
  end.
Proof.
  split; [exact exS_ok|]. split; [exact exP_ok|]. split; [exact exM_ok|].
  split; [apply declared_is_covered; auto; exact exP_ok|]. split.
  - intros [|[|u]] [|[|[|[|h]]]] H1 H2 H3; try lia; apply Qc_is_canon; vm_compute; reflexivity.
  - vm_compute. repeat split; reflexivity.
Qed.

Theorem C73_arrowhead_schur_complement :
  forall {F : Type} (O : ops F) (FL : fieldLaws O) mt s ds dt dl dO n m w reg,
  let all := allIdx n ds dt dl dO in
  let N := length all in
  let var := fun i => nth i all (GS 0) in
  arrowDims s ds dt dl dO -> inputArrow O n ds dt dl dO m w -> declaredArrow s n m ->
  exists k, arrowBlocks s = Ok k /\
    forall d0, dataOf k n ds dt dl dO d0 ->
    exists d, arrowFactorize O mt k m reg d0 = Ok d /\
      ((forall g, In g all -> pivotAt O d g <> o0 O) ->
       exists E,
         (forall g, In g all ->
            pivotAt O d g = reg (osub O (pivotAt O d g) (E (permIdx s g))) (localIdx g)) /\
         let B := fun i j => plusDiagG O (matAt O m w) E (permIdx s (var i)) (permIdx s (var j)) in
         forall q, q <= N ->
           (exists X, eliminates O N q B X) /\
           forall X, eliminates O N q B X -> forall g h, q <= g -> g < N -> q <= h -> h < N ->
             trailAt O N q (fun i j => factorAt O (fl_one FL) k d (var i) (var j)) (fun i => pivotAt O d (var i)) g h =
             schurAt O q B X g h).
Proof. exact @arrow_schur. Qed.
Print Assumptions C73_arrowhead_schur_complement.

(** all variables but the outer one eliminated *)
Definition detVar (i : nat) : gidx := nth i (allIdx 1 1 2 1 1) (GS 0).
Definition detPM (i j : nat) : Qc := matAt Oq detIn detW (permIdx detA (detVar i)) (permIdx detA (detVar j)).
Definition detX (v h : nat) : Qc := Q2Qc (nth v [358#21; 5#7; -165#7; -13#3; 20#3; 2#1]%Q 0%Q).
Example C73_arrowhead_example :
  arrowDims detA 1 2 1 1 /\ inputArrow Oq 1 1 2 1 1 detIn detW /\ declaredArrow detA 1 detIn /\
  arrowBlocks detA = Ok detK /\ dataOf detK 1 1 2 1 1 detD /\
  detVar 6 = GO 0 /\ eliminates Oq 7 6 detPM detX /\
  match arrowFactorize Oq UpLooking detK detIn regularizationNone detD with
  | Ok d =>
      forallb (fun g => negb (Qeq_bool (this (pivotAt Oq d g)) 0)) (allIdx 1 1 2 1 1) = true /\
      this (trailAt Oq 7 6 (fun i j => factorAt Oq (fl_one FLq) detK d (detVar i) (detVar j))
        (fun i => pivotAt Oq d (detVar i)) 6 6) = (-1238#21)%Q
  | Err _ => False
  end /\
  this (schurAt Oq 6 detPM detX 6 6) = (-1238#21)%Q.
Proof.
  split; [exact detA_ok|]. split; [exact detIn_ok|]. split; [exact detIn_declared|].
  split; [exact detK_ok|]. split; [exact detD_ok|]. split; [reflexivity|]. split.
  - intros u h H1 H2 H3. assert (h = 6) as -> by lia.
    destruct u as [|[|[|[|[|[|u]]]]]]; try lia; apply Qc_is_canon; vm_compute; reflexivity.
  - vm_compute. repeat split; reflexivity.
Qed.

Theorem C73_tridiagonal_schur_complement :
  forall {F : Type} (O : ops F) (FL : fieldLaws O) mt a c p dt n A B wA wB reg,
  let all := list_prod (seq 0 (n + 1)) (seq 0 dt) in
  let N := (n + 1) * dt in
  let var := fun i => nth i all (0, 0) in
  spOf a dt dt -> spOf c dt dt -> validPerm dt p ->
  inputTri O n dt A B wA wB -> declaredTri a c n A B ->
  exists k, tridiagonalBlocks a c p = Ok k /\
    forall d0, dataOf k n 0 dt 0 0 d0 ->
    exists d, tridiagonalFactorize O mt k dt A B reg d0 = Ok d /\
      let D := fun i => pivotAt O d (GT (fst (var i)) (snd (var i))) in
      let L := fun i j => factorAt O (fl_one FL) k d (GT (fst (var i)) (snd (var i))) (GT (fst (var j)) (snd (var j))) in
      ((forall i, i < N -> D i <> o0 O) ->
       exists E,
         (forall t i, t < n + 1 -> i < dt ->
            pivotAt O d (GT t i) = reg (osub O (pivotAt O d (GT t i)) (E t (nth i p 0))) i) /\
         let M := fun i j => plusDiagT O (triMatAt O A B wA wB) E
                     (fst (var i)) (nth (snd (var i)) p 0) (fst (var j)) (nth (snd (var j)) p 0) in
         forall q, q <= N ->
           (exists X, eliminates O N q M X) /\
           forall X, eliminates O N q M X -> forall g h, q <= g -> g < N -> q <= h -> h < N ->
             trailAt O N q L D g h = schurAt O q M X g h).
Proof. exact @tri_schur. Qed.
Print Assumptions C73_tridiagonal_schur_complement.

(** the first of two blocks eliminated *)
Definition detTVar (i : nat) : nat * nat := nth i (list_prod (seq 0 2) (seq 0 2)) (0, 0).
Definition detTM (i j : nat) : Qc :=
  triMatAt Oq (a_td detIn) (a_ts detIn) (w_td detW) (w_ts detW)
    (fst (detTVar i)) (nth (snd (detTVar i)) [1;0] 0) (fst (detTVar j)) (nth (snd (detTVar j)) [1;0] 0).
Definition detTX (v h : nat) : Qc := if h =? 3 then Q2Qc (if v =? 0 then 4#9 else 7#9) else Q2Qc 0.
Example C73_tridiagonal_example :
  spOf detTA 2 2 /\ spOf detTB 2 2 /\ validPerm 2 [1;0] /\
  inputTri Oq 1 2 (a_td detIn) (a_ts detIn) (w_td detW) (w_ts detW) /\
  declaredTri detTA detTB 1 (a_td detIn) (a_ts detIn) /\
  tridiagonalBlocks detTA detTB [1;0] = Ok detTK /\ dataOf detTK 1 0 2 0 0 detTD /\
  eliminates Oq 4 2 detTM detTX /\
  match tridiagonalFactorize Oq UpLooking detTK 2 (a_td detIn) (a_ts detIn) regularizationNone detTD with
  | Ok d =>
      map (fun e => this (trailAt Oq 4 2
          (fun i j => factorAt Oq (fl_one FLq) detTK d (GT (fst (detTVar i)) (snd (detTVar i))) (GT (fst (detTVar j)) (snd (detTVar j))))
          (fun i => pivotAt Oq d (GT (fst (detTVar i)) (snd (detTVar i)))) (fst e) (snd e)))
        [(2,2); (3,2); (3,3)] = [6#1; 3#1; 55#9]%Q
  | Err _ => False
  end /\
  map (fun e => this (schurAt Oq 2 detTM detTX (fst e) (snd e))) [(2,2); (3,2); (3,3)] = [6#1; 3#1; 55#9]%Q.
Proof.
  split; [apply spOf_check_ok; reflexivity|]. split; [apply spOf_check_ok; reflexivity|].
  split; [apply validPerm_check; reflexivity|]. split; [exact detT_ok|]. split; [exact detT_declared|].
  split; [exact detTK_ok|]. split; [exact detTD_ok|]. split.
  - intros [|[|u]] [|[|[|[|h]]]] H1 H2 H3; try lia; apply Qc_is_canon; vm_compute; reflexivity.
  - vm_compute. repeat split; reflexivity.
Qed.
