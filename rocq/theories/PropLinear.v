(** Property C76: solving is linear and symmetric, in exact arithmetic. *)
From Coq Require Import List Arith Lia Bool ZArith QArith Qcanon.
From Flocq Require Import BinarySingleNaN.
From Verif Require Import Base ModelPerm ModelSparsity ModelSymbolic ModelNumeric ModelArrow ModelReg ModelIeee.
From Verif Require Import SpecSymbolic SpecArrow SpecNumeric SpecArrowNum.
From Verif Require Import ExampleData ExampleArrow ExampleDet.
From Verif Require Import ProofLinear PropSingle.
Import ListNotations.
Local Open Scope nat_scope.

(** ** C76 *)

(** One factorization, three right-hand sides of which the third is the first plus a multiple
    of the second: so is its solution. The product of the second right-hand side with the
    first solution equals that of the first right-hand side with the second solution. This
    also holds if the regularization changed pivots. *)
Theorem C76_solve :
  forall {F : Type} (O : ops F) (FL : fieldLaws O) mt s n p a vals m reg b L0 D0 L D rhs rhs' rhs2 c x x',
  spOf s n n -> validPerm n p -> factorizationBlk s p = Ok b ->
  spOf a n n -> inputOf O m a vals -> coveredSym (entries a) (entries s) n p ->
  length L0 = c_nnz (b_sp b) -> length D0 = n ->
  factorize O mt b (Some m) reg (L0, D0) = Ok (L, D) ->
  (forall k, k < n -> vecAt O D k <> o0 O) ->
  length rhs = n -> length rhs' = n -> length rhs2 = n ->
  (forall i, i < n -> vecAt O rhs2 i = oadd O (vecAt O rhs i) (omul O c (vecAt O rhs' i))) ->
  solveInPlace O b (L, D) rhs = Ok x -> solveInPlace O b (L, D) rhs' = Ok x' ->
  (exists x2, solveInPlace O b (L, D) rhs2 = Ok x2 /\ length x2 = n /\
    forall i, i < n -> vecAt O x2 i = oadd O (vecAt O x i) (omul O c (vecAt O x' i))) /\
  sumn O n (fun i => omul O (vecAt O rhs' i) (vecAt O x i)) = sumn O n (fun i => omul O (vecAt O rhs i) (vecAt O x' i)).
Proof. exact @single_linear. Qed.
Print Assumptions C76_solve.

Theorem C76_arrowhead_solve :
  forall {F : Type} (O : ops F) (FL : fieldLaws O) mt s ds dt dl dO k n m w reg d0 d rhs rhs' rhs2 c x x',
  arrowDims s ds dt dl dO -> arrowBlocks s = Ok k ->
  inputArrow O n ds dt dl dO m w -> declaredArrow s n m -> dataOf k n ds dt dl dO d0 ->
  arrowFactorize O mt k m reg d0 = Ok d ->
  (forall g, In g (allIdx n ds dt dl dO) -> pivotAt O d g <> o0 O) ->
  vecOf n ds dt dl dO rhs -> vecOf n ds dt dl dO rhs' -> vecOf n ds dt dl dO rhs2 ->
  (forall g, In g (allIdx n ds dt dl dO) -> gvecAt O rhs2 g = oadd O (gvecAt O rhs g) (omul O c (gvecAt O rhs' g))) ->
  arrowSolveInPlace O k d rhs = Ok x -> arrowSolveInPlace O k d rhs' = Ok x' ->
  (exists x2, arrowSolveInPlace O k d rhs2 = Ok x2 /\ vecOf n ds dt dl dO x2 /\
    forall g, In g (allIdx n ds dt dl dO) -> gvecAt O x2 g = oadd O (gvecAt O x g) (omul O c (gvecAt O x' g))) /\
  suml O (allIdx n ds dt dl dO) (fun g => omul O (gvecAt O rhs' g) (gvecAt O x g)) =
  suml O (allIdx n ds dt dl dO) (fun g => omul O (gvecAt O rhs g) (gvecAt O x' g)).
Proof. exact @arrow_linear. Qed.
Print Assumptions C76_arrowhead_solve.

Theorem C76_tridiagonal_solve :
  forall {F : Type} (O : ops F) (FL : fieldLaws O) mt a b p dt n k A B wA wB reg d0 d rhs rhs' rhs2 c x x',
  spOf a dt dt -> spOf b dt dt -> validPerm dt p -> tridiagonalBlocks a b p = Ok k ->
  inputTri O n dt A B wA wB -> declaredTri a b n A B -> dataOf k n 0 dt 0 0 d0 ->
  tridiagonalFactorize O mt k dt A B reg d0 = Ok d ->
  (forall t i, t < n + 1 -> i < dt -> pivotAt O d (GT t i) <> o0 O) ->
  blocksOf n dt rhs -> blocksOf n dt rhs' -> blocksOf n dt rhs2 ->
  (forall t i, t < n + 1 -> i < dt -> vecAt O (nth t rhs2 []) i = oadd O (vecAt O (nth t rhs []) i) (omul O c (vecAt O (nth t rhs' []) i))) ->
  tridiagonalSolveInPlace O k d rhs = Ok x -> tridiagonalSolveInPlace O k d rhs' = Ok x' ->
  (exists x2, tridiagonalSolveInPlace O k d rhs2 = Ok x2 /\ blocksOf n dt x2 /\
    forall t i, t < n + 1 -> i < dt -> vecAt O (nth t x2 []) i = oadd O (vecAt O (nth t x []) i) (omul O c (vecAt O (nth t x' []) i))) /\
  sumn O (n + 1) (fun t => sumn O dt (fun i => omul O (vecAt O (nth t rhs' []) i) (vecAt O (nth t x []) i))) =
  sumn O (n + 1) (fun t => sumn O dt (fun i => omul O (vecAt O (nth t rhs []) i) (vecAt O (nth t x' []) i))).
Proof. exact @tri_linear. Qed.
Print Assumptions C76_tridiagonal_solve.

(** Not in double precision, as the results are rounded: 1/10 + 2/10 is not 3/10. *)
Theorem C76_double_refuted :
  exists (s : sparsity) (b : blk) (m : mat (F:=ieee 53 1024)) rhs rhs',
    spOf s 1 1 /\ factorizationBlk s [0] = Ok b /\ inputOf Od m s [dbl 10 0] /\
    match (let* LD := factorize Od UpLooking b (Some m) regularizationNone ([], [dbl 0 0]) in
           let* x := solveInPlace Od b LD [rhs] in
           let* x' := solveInPlace Od b LD [rhs'] in
           let* x2 := solveInPlace Od b LD [oadd Od rhs rhs'] in Ok (x, x', x2)) with
    | Ok (x, x', x2) => show (vecAt Od x2 0) <> show (oadd Od (vecAt Od x 0) (vecAt Od x' 0))
    | Err _ => False
    end.
Proof.
  exists (mkSp 1 1 [(0, 0)]). eexists. exists (mkMat (mkSp 1 1 [(0, 0)]) (rd [dbl 10 0])), (dbl 1 0), (dbl 2 0).
  split; [apply spOf_check_ok; reflexivity|]. split; [vm_compute; reflexivity|].
  split; [constructor; [reflexivity|reflexivity|]; intros [|k] Hk; [reflexivity|cbn in Hk; lia]|].
  vm_compute. discriminate.
Qed.
Print Assumptions C76_double_refuted.

(** ** examples *)

Definition exDot (b x : list Qc) : Q := this (sumn Oq 4 (fun i => omul Oq (vecAt Oq b i) (vecAt Oq x i))).
(** with a regularization that adds 2 to the second pivot *)
Definition exLinReg (v : Qc) (i : nat) : Qc := if i =? 1 then (v + Q2Qc 2)%Qc else v.
Example C76_example :
  spOf exS 4 4 /\ validPerm 4 exP /\ inputOf Oq exM exS (qs exVals) /\
  coveredSym (entries exS) (entries exS) 4 exP /\
  match (let* f := factorize Oq UpLooking exB (Some exM) exLinReg (exL0, exD0) in
         let* x := solveInPlace Oq exB f (qs [1; 0; 2; -1]%Z) in
         let* x' := solveInPlace Oq exB f (qs [3; 1; 0; 4]%Z) in
         let* x2 := solveInPlace Oq exB f (qs [7; 2; 2; 7]%Z) in Ok (f, x, x', x2)) with
  | Ok (f, x, x', x2) =>
      nonzerob (snd f) = true /\ map this x <> map this x' /\
      map this x2 = map (fun i => this (oadd Oq (vecAt Oq x i) (omul Oq (Q2Qc 2) (vecAt Oq x' i)))) (seq 0 4) /\
      exDot (qs [3; 1; 0; 4]%Z) x = exDot (qs [1; 0; 2; -1]%Z) x' /\ ~ (exDot (qs [3; 1; 0; 4]%Z) x == 0)%Q
  | Err _ => False
  end.
Proof.
  split; [exact exS_ok|]. split; [exact exP_ok|]. split; [exact exM_ok|].
  split; [apply declared_is_covered; auto; exact exP_ok|].
  vm_compute. repeat split; try reflexivity; discriminate.
Qed.

Definition exLinVec (s : Z) (ts : list (list Z)) (l o : Z) : arrow_vec := mkAV (qs [s]) (map qs ts) (qs [l]) (qs [o]).
Definition exLinDot (b x : arrow_vec) : Q :=
  this (suml Oq (allIdx 1 1 2 1 1) (fun g => omul Oq (gvecAt Oq b g) (gvecAt Oq x g))).
Example C76_arrowhead_example :
  arrowDims detA 1 2 1 1 /\ inputArrow Oq 1 1 2 1 1 detIn detW /\ declaredArrow detA 1 detIn /\
  arrowBlocks detA = Ok detK /\ dataOf detK 1 1 2 1 1 detD /\
  match (let* d := arrowFactorize Oq UpLooking detK detIn regularizationNone detD in
         let* x := arrowSolveInPlace Oq detK d (exLinVec 1%Z [[0; 2]; [1; -1]]%Z 3%Z 0%Z) in
         let* x' := arrowSolveInPlace Oq detK d (exLinVec 0%Z [[1; 1]; [2; 0]]%Z 0%Z 5%Z) in
         let* x2 := arrowSolveInPlace Oq detK d (exLinVec 1%Z [[-1; 1]; [-1; -1]]%Z 3%Z (-5)%Z) in Ok (d, x, x', x2)) with
  | Ok (d, x, x', x2) =>
      forallb (fun g => negb (Qc_eq_bool (pivotAt Oq d g) 0%Qc)) (allIdx 1 1 2 1 1) = true /\
      map (fun g => this (gvecAt Oq x2 g)) (allIdx 1 1 2 1 1) =
        map (fun g => this (oadd Oq (gvecAt Oq x g) (omul Oq (Q2Qc (-1)) (gvecAt Oq x' g)))) (allIdx 1 1 2 1 1) /\
      exLinDot (exLinVec 0%Z [[1; 1]; [2; 0]]%Z 0%Z 5%Z) x = exLinDot (exLinVec 1%Z [[0; 2]; [1; -1]]%Z 3%Z 0%Z) x' /\
      ~ (exLinDot (exLinVec 0%Z [[1; 1]; [2; 0]]%Z 0%Z 5%Z) x == 0)%Q
  | Err _ => False
  end.
Proof.
  split; [exact detA_ok|]. split; [exact detIn_ok|]. split; [exact detIn_declared|].
  split; [exact detK_ok|]. split; [exact detD_ok|].
  vm_compute. repeat split; try reflexivity; discriminate.
Qed.

Definition exLinDotT (b x : list (list Qc)) : Q :=
  this (sumn Oq 2 (fun t => sumn Oq 2 (fun i => omul Oq (vecAt Oq (nth t b []) i) (vecAt Oq (nth t x []) i)))).
Example C76_tridiagonal_example :
  spOf detTA 2 2 /\ spOf detTB 2 2 /\ validPerm 2 [1;0] /\
  inputTri Oq 1 2 (a_td detIn) (a_ts detIn) (w_td detW) (w_ts detW) /\
  declaredTri detTA detTB 1 (a_td detIn) (a_ts detIn) /\
  tridiagonalBlocks detTA detTB [1;0] = Ok detTK /\ dataOf detTK 1 0 2 0 0 detTD /\
  match (let* d := tridiagonalFactorize Oq UpLooking detTK 2 (a_td detIn) (a_ts detIn) regularizationNone detTD in
         let* x := tridiagonalSolveInPlace Oq detTK d [qs [1; 0]%Z; qs [2; 3]%Z] in
         let* x' := tridiagonalSolveInPlace Oq detTK d [qs [0; 1]%Z; qs [1; -1]%Z] in
         let* x2 := tridiagonalSolveInPlace Oq detTK d [qs [1; 3]%Z; qs [5; 0]%Z] in Ok (d, x, x', x2)) with
  | Ok (d, x, x', x2) =>
      forallb (fun g => negb (Qc_eq_bool (pivotAt Oq d g) 0%Qc)) (allIdx 1 0 2 0 0) = true /\
      map this (List.concat x2) = map (fun g => this (oadd Oq (vecAt Oq (nth (fst g) x []) (snd g))
        (omul Oq (Q2Qc 3) (vecAt Oq (nth (fst g) x' []) (snd g))))) (list_prod (seq 0 2) (seq 0 2)) /\
      exLinDotT [qs [0; 1]%Z; qs [1; -1]%Z] x = exLinDotT [qs [1; 0]%Z; qs [2; 3]%Z] x' /\
      ~ (exLinDotT [qs [0; 1]%Z; qs [1; -1]%Z] x == 0)%Q
  | Err _ => False
  end.
Proof.
  split; [apply spOf_check_ok; reflexivity|]. split; [apply spOf_check_ok; reflexivity|].
  split; [apply validPerm_check; reflexivity|]. split; [exact detT_ok|]. split; [exact detT_declared|].
  split; [exact detTK_ok|]. split; [exact detTD_ok|].
  vm_compute. repeat split; try reflexivity; discriminate.
Qed.
