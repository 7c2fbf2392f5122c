(** Property C79: matrices whose definiteness has a margin. *)
From Coq Require Import Reals Lra Lia List Arith Bool ZArith QArith Qcanon.
From Verif Require Import Base ModelPerm ModelSparsity ModelSymbolic ModelNumeric ModelArrow ModelReg.
From Verif Require Import SpecSymbolic SpecArrow SpecNumeric SpecArrowNum SpecReg SpecPivot SpecPivotBound.
From Verif Require Import ExampleData ExampleArrow ExamplePivot.
From Verif Require Import ProofSingle ProofPivotBound PropSingle PropReg PropRefine.
Import ListNotations.
Local Open Scope R_scope.

(** ** C79 *)

(** The rows P form a matrix with all eigenvalues at least lam, the others one with all
    eigenvalues at most -lam, with arbitrary entries between the two. Every pivot is at least
    lam away from zero on the side of its row, the regularization changes nothing if its
    tolerance is not above lam, and the solution is at most 1/lam times as long as the
    right-hand side. *)
Theorem C79_quasidefinite :
  forall mt s n p a vals m P lam,
  0 < lam ->
  spOf s n n -> validPerm n p ->
  spOf a n n -> inputOf Or m a vals -> coveredSym (entries a) (entries s) n p ->
  quasiDefBy (seq 0 n) P (symAt Or (entries a) vals) lam ->
  exists b, factorizationBlk s p = Ok b /\
    forall L0 D0, length L0 = c_nnz (b_sp b) -> length D0 = n ->
    exists L D, factorize Or mt b (Some m) regularizationNone (L0, D0) = Ok (L, D) /\
      (forall i, (i < n)%nat -> awayFromZero (P (nth i p 0%nat)) lam (vecAt Or D i)) /\
      (forall eps, Rpower eps (5/8) <= lam ->
         factorize Or mt b (Some m) (regularizationSmallPositiveConstant (realFns eps)) (L0, D0) = Ok (L, D)) /\
      forall rhs, length rhs = n ->
      exists x, solveInPlace Or b (L, D) rhs = Ok x /\ length x = n /\
        (forall i, (i < n)%nat -> matVec Or n (symAt Or (entries a) vals) x i = vecAt Or rhs i) /\
        lam * lam * squares (seq 0 n) (vecAt Or x) <= squares (seq 0 n) (vecAt Or rhs).
Proof. exact @single_margin. Qed.
Print Assumptions C79_quasidefinite.

Theorem C79_arrowhead_quasidefinite :
  forall mt s ds dt dl dO n m w P lam,
  0 < lam ->
  arrowDims s ds dt dl dO -> inputArrow Or n ds dt dl dO m w -> declaredArrow s n m ->
  let all := allIdx n ds dt dl dO in
  quasiDefBy all P (matAt Or m w) lam ->
  exists k, arrowBlocks s = Ok k /\
    forall d0, dataOf k n ds dt dl dO d0 ->
    exists d, arrowFactorize Or mt k m regularizationNone d0 = Ok d /\
      (forall g, In g all -> awayFromZero (P (permIdx s g)) lam (pivotAt Or d g)) /\
      (forall eps, Rpower eps (5/8) <= lam ->
         arrowFactorize Or mt k m (regularizationSmallPositiveConstant (realFns eps)) d0 = Ok d) /\
      forall rhs, vecOf n ds dt dl dO rhs ->
      exists x, arrowSolveInPlace Or k d rhs = Ok x /\ vecOf n ds dt dl dO x /\
        (forall g, In g all -> gmatVec Or all (matAt Or m w) (gvecAt Or x) g = gvecAt Or rhs g) /\
        lam * lam * squares all (gvecAt Or x) <= squares all (gvecAt Or rhs).
Proof. exact @arrow_margin. Qed.
Print Assumptions C79_arrowhead_quasidefinite.

Theorem C79_tridiagonal_quasidefinite :
  forall mt a b p dt n A B wA wB P lam,
  0 < lam ->
  spOf a dt dt -> spOf b dt dt -> validPerm dt p ->
  inputTri Or n dt A B wA wB -> declaredTri a b n A B ->
  let rows := list_prod (seq 0 (n + 1)) (seq 0 dt) in
  quasiDefBy rows P (fun r c => triMatAt Or A B wA wB (fst r) (snd r) (fst c) (snd c)) lam ->
  exists k, tridiagonalBlocks a b p = Ok k /\
    forall d0, dataOf k n 0 dt 0 0 d0 ->
    exists d, tridiagonalFactorize Or mt k dt A B regularizationNone d0 = Ok d /\
      (forall t i, (t < n + 1)%nat -> (i < dt)%nat -> awayFromZero (P (t, nth i p 0%nat)) lam (pivotAt Or d (GT t i))) /\
      (forall eps, Rpower eps (5/8) <= lam ->
         tridiagonalFactorize Or mt k dt A B (regularizationSmallPositiveConstant (realFns eps)) d0 = Ok d) /\
      forall rhs, blocksOf n dt rhs ->
      exists x, tridiagonalSolveInPlace Or k d rhs = Ok x /\ blocksOf n dt x /\
        (forall t i, (t < n + 1)%nat -> (i < dt)%nat ->
           triMatVec Or n dt (triMatAt Or A B wA wB) x t i = vecAt Or (nth t rhs []) i) /\
        lam * lam * squares rows (fun r => vecAt Or (nth (fst r) x []) (snd r)) <=
        squares rows (fun r => vecAt Or (nth (fst r) rhs []) (snd r)).
Proof. exact @tri_margin. Qed.
Print Assumptions C79_tridiagonal_quasidefinite.

(** No eigenvalue below lam: no pivot is below lam or above the diagonal entry of its row, and
    the entries of the factor are bounded by the diagonal entries too. *)
Theorem C79_no_growth :
  forall mt s n p a vals m lam,
  0 < lam ->
  spOf s n n -> validPerm n p ->
  spOf a n n -> inputOf Or m a vals -> coveredSym (entries a) (entries s) n p ->
  posDefBy (seq 0 n) (symAt Or (entries a) vals) lam ->
  exists b, factorizationBlk s p = Ok b /\
    forall L0 D0, length L0 = c_nnz (b_sp b) -> length D0 = n ->
    exists L D, factorize Or mt b (Some m) regularizationNone (L0, D0) = Ok (L, D) /\
      forall i, (i < n)%nat ->
        let d := symAt Or (entries a) vals (nth i p 0%nat) (nth i p 0%nat) in
        lam <= vecAt Or D i <= d /\
        forall j, (j < n)%nat -> unitAt Or 1 (c_entries (b_sp b)) L i j * unitAt Or 1 (c_entries (b_sp b)) L i j * vecAt Or D j <= d.
Proof. exact @single_no_growth. Qed.
Print Assumptions C79_no_growth.

Theorem C79_arrowhead_no_growth :
  forall mt s ds dt dl dO n m w lam,
  0 < lam ->
  arrowDims s ds dt dl dO -> inputArrow Or n ds dt dl dO m w -> declaredArrow s n m ->
  let all := allIdx n ds dt dl dO in
  posDefBy all (matAt Or m w) lam ->
  exists k, arrowBlocks s = Ok k /\
    forall d0, dataOf k n ds dt dl dO d0 ->
    exists d, arrowFactorize Or mt k m regularizationNone d0 = Ok d /\
      forall g, In g all ->
        lam <= pivotAt Or d g <= matAt Or m w (permIdx s g) (permIdx s g) /\
        forall h, In h all -> factorAt Or 1 k d g h * factorAt Or 1 k d g h * pivotAt Or d h <= matAt Or m w (permIdx s g) (permIdx s g).
Proof. exact @arrow_no_growth. Qed.
Print Assumptions C79_arrowhead_no_growth.

Theorem C79_tridiagonal_no_growth :
  forall mt a b p dt n A B wA wB lam,
  0 < lam ->
  spOf a dt dt -> spOf b dt dt -> validPerm dt p ->
  inputTri Or n dt A B wA wB -> declaredTri a b n A B ->
  posDefBy (list_prod (seq 0 (n + 1)) (seq 0 dt)) (fun r c => triMatAt Or A B wA wB (fst r) (snd r) (fst c) (snd c)) lam ->
  exists k, tridiagonalBlocks a b p = Ok k /\
    forall d0, dataOf k n 0 dt 0 0 d0 ->
    exists d, tridiagonalFactorize Or mt k dt A B regularizationNone d0 = Ok d /\
      forall t i, (t < n + 1)%nat -> (i < dt)%nat ->
        let e := triMatAt Or A B wA wB t (nth i p 0%nat) t (nth i p 0%nat) in
        lam <= pivotAt Or d (GT t i) <= e /\
        forall u j, (u < n + 1)%nat -> (j < dt)%nat ->
          factorAt Or 1 k d (GT t i) (GT u j) * factorAt Or 1 k d (GT t i) (GT u j) * pivotAt Or d (GT u j) <= e.
Proof. exact @tri_no_growth. Qed.
Print Assumptions C79_tridiagonal_no_growth.

(** ** examples *)

(** the tolerance for doubles *)
Example C79_tolerance_example : Rpower (/ 2 ^ 52) (5/8) <= 1.
Proof.
  unfold Rpower. rewrite <- exp_0. left. apply exp_increasing.
  assert (H : ln (/ 2 ^ 52) < ln 1) by (apply ln_increasing; lra). rewrite ln_1 in H. lra.
Qed.

(** the rows 2 7 0, 7 -3 0, 0 0 1: the first and the last row form a positive definite matrix *)
Definition exPbP (i : nat) : bool := match i with 1%nat => false | _ => true end.
Definition exPbM (vals : list R) : mat := mkMat exRS (fun e => Ok (nth e vals 0)).
Lemma exPbM_ok vals : length vals = 4%nat -> inputOf Or (exPbM vals) exRS vals.
Proof. intros H. constructor; auto. Qed.
Example C79_example :
  spOf exRS 3 3 /\ validPerm 3 [1; 2; 0]%nat /\ coveredSym (entries exRS) (entries exRS) 3 [1; 2; 0]%nat /\
  inputOf Or (exPbM [2; 7; -3; 1]) exRS [2; 7; -3; 1] /\
  quasiDefBy (seq 0 3) exPbP (symAt Or (entries exRS) [2; 7; -3; 1]) 1 /\
  inputOf Or (exPbM [2; 1; 2; 1]) exRS [2; 1; 2; 1] /\
  posDefBy (seq 0 3) (symAt Or (entries exRS) [2; 1; 2; 1]) 1.
Proof.
  split; [exact exRS_ok|]. split; [exact exRP_ok|].
  split; [apply declared_is_covered; auto; exact exRP_ok|].
  split; [apply exPbM_ok; reflexivity|]. split.
  { intros z. unfold quadForm, squares. split; intros H.
    - assert (E : z 1%nat = 0) by (apply H; cbn; auto). cbn. rewrite E.
      pose proof (Rle_0_sqr (z 0%nat)). unfold Rsqr in *. lra.
    - assert (E0 : z 0%nat = 0) by (apply H; cbn; auto). assert (E2 : z 2%nat = 0) by (apply H; cbn; auto).
      cbn. rewrite E0, E2. pose proof (Rle_0_sqr (z 1%nat)). unfold Rsqr in *. lra. }
  split; [apply exPbM_ok; reflexivity|].
  intros z. pose proof (Rle_0_sqr (z 0%nat + z 1%nat)). unfold quadForm, squares, Rsqr in *. cbn. lra.
Qed.

(** the two factorizations with rationals; the second also with the tolerance 1/100 *)
Example C79_computed_example :
  let run := fun vals reg =>
    match factorize Oq UpLooking exRB (Some (ExampleData.matOf exRS vals)) reg (qs [0]%Z, qs [0; 0; 0]%Z) with
    | Ok (L, D) => (map this L, map this D)
    | Err _ => ([], [])
    end in
  run [2; 7; -3; 1]%Z regularizationNone = ([-7 # 3], [-3; 1; 55 # 3])%Q /\
  run [2; 1; 2; 1]%Z regularizationNone = ([1 # 2], [2; 1; 3 # 2])%Q /\
  run [2; 1; 2; 1]%Z (regularizationSmallPositiveConstant exFns) = run [2; 1; 2; 1]%Z regularizationNone.
Proof. vm_compute. repeat split; reflexivity. Qed.

(** the rows of the start and of the link are those with positive eigenvalues *)
Definition exPbA (g : gidx) : bool := match g with GS _ | GL _ => true | _ => false end.
Definition exPbIn : arrow_mat (F:=R) :=
  mkAM (cellR 2) (cellR 5) (cellR 7) [cellR (-2); cellR (-3)] [cellR 1] (cellR 9) (cellR 4) (cellR 11)
    [cellR 0; cellR 0] (cellR (-1)).
Definition exPbW : arrow_vals R :=
  mkVals [2] [5] [7] [[-2]; [-3]] [[1]] [9] [4] [11] [[0]; [0]] [-1].
(** the matrix of the example of C77 with one added to the diagonal *)
Definition exPbIn1 : arrow_mat (F:=R) :=
  mkAM (cellR 2) (cellR 0) (cellR 1) [cellR 2; cellR 3] [cellR 1] (cellR 1) (cellR 2) (cellR 0)
    [cellR 0; cellR 0] (cellR 2).
Definition exPbW1 : arrow_vals R :=
  mkVals [2] [0] [1] [[2]; [3]] [[1]] [1] [2] [0] [[0]; [0]] [2].
Example C79_arrowhead_example :
  arrowDims exQA 1 1 1 1 /\
  inputArrow Or 1 1 1 1 1 exPbIn exPbW /\ declaredArrow exQA 1 exPbIn /\
  quasiDefBy (allIdx 1 1 1 1 1) exPbA (matAt Or exPbIn exPbW) 1 /\
  inputArrow Or 1 1 1 1 1 exPbIn1 exPbW1 /\ declaredArrow exQA 1 exPbIn1 /\
  posDefBy (allIdx 1 1 1 1 1) (matAt Or exPbIn1 exPbW1) 1.
Proof.
  split; [exact exQA_dims|]. split.
  { constructor; try apply cellR_ok; try reflexivity.
    - intros [|[|t]] H; try lia; apply cellR_ok.
    - intros [|t] H; try lia; apply cellR_ok.
    - intros [|[|t]] H; try lia; apply cellR_ok. }
  split.
  { constructor; try (intros r c H _; exact H); try (intros r c H; exact H).
    - intros [|[|t]] H; try lia; intros r c Hin _; exact Hin.
    - intros [|t] H; try lia; intros r c Hin; exact Hin.
    - intros [|[|t]] H; try lia; intros r c Hin; exact Hin. }
  split.
  { intros z. unfold quadForm, squares. split; intros H.
    - assert (E0 : z (GT 0 0) = 0) by (apply H; vm_compute; auto 9). assert (E1 : z (GT 1 0) = 0) by (apply H; vm_compute; auto 9).
      assert (E2 : z (GO 0) = 0) by (apply H; vm_compute; auto 9). cbn. rewrite E0, E1, E2.
      pose proof (Rle_0_sqr (z (GS 0))). pose proof (Rle_0_sqr (z (GL 0))). unfold Rsqr in *. lra.
    - assert (E0 : z (GS 0) = 0) by (apply H; vm_compute; auto 9). assert (E1 : z (GL 0) = 0) by (apply H; vm_compute; auto 9).
      cbn. rewrite E0, E1. pose proof (Rle_0_sqr (z (GT 0 0) - z (GT 1 0))). pose proof (Rle_0_sqr (z (GT 1 0))).
      unfold Rsqr in *. lra. }
  split.
  { constructor; try apply cellR_ok; try reflexivity.
    - intros [|[|t]] H; try lia; apply cellR_ok.
    - intros [|t] H; try lia; apply cellR_ok.
    - intros [|[|t]] H; try lia; apply cellR_ok. }
  split.
  { constructor; try (intros r c H _; exact H); try (intros r c H; exact H).
    - intros [|[|t]] H; try lia; intros r c Hin _; exact Hin.
    - intros [|t] H; try lia; intros r c Hin; exact Hin.
    - intros [|[|t]] H; try lia; intros r c Hin; exact Hin. }
  intros x. pose proof (Rle_0_sqr (x (GS 0) + x (GO 0))) as H1. pose proof (Rle_0_sqr (x (GT 0 0) + x (GT 1 0))) as H2.
  pose proof (Rle_0_sqr (x (GT 1 0) + x (GL 0))) as H3. unfold Rsqr in *. unfold quadForm, squares. cbn. lra.
Qed.

(** two blocks of dimension one: one row with a positive and one with a negative diagonal entry,
    and two rows with the quadratic form (t0 + t1)^2 + t0^2 + t1^2 *)
Example C79_tridiagonal_example :
  let A := [cellR 2; cellR (-3)] in let A1 := [cellR 2; cellR 2] in let B := [cellR 7] in let B1 := [cellR 1] in
  let rows := list_prod (seq 0 (1 + 1)) (seq 0 1) in
  spOf ex11 1 1 /\ validPerm 1 [0]%nat /\
  inputTri Or 1 1 A B [[2]; [-3]] [[7]] /\ declaredTri ex11 ex11 1 A B /\
  quasiDefBy rows (fun r => Nat.eqb (fst r) 0)
    (fun r c => triMatAt Or A B [[2]; [-3]] [[7]] (fst r) (snd r) (fst c) (snd c)) 1 /\
  inputTri Or 1 1 A1 B1 [[2]; [2]] [[1]] /\ declaredTri ex11 ex11 1 A1 B1 /\
  posDefBy rows (fun r c => triMatAt Or A1 B1 [[2]; [2]] [[1]] (fst r) (snd r) (fst c) (snd c)) 1.
Proof.
  cbv zeta. split; [apply spOf_check_ok; reflexivity|]. split; [apply validPerm_check; reflexivity|].
  split.
  { constructor; try reflexivity.
    - intros [|[|t]] H; try lia; apply cellR_ok.
    - intros [|t] H; try lia; apply cellR_ok. }
  split.
  { split.
    - intros [|[|t]] H; try lia; intros r c Hin _; exact Hin.
    - intros [|t] H; try lia; intros r c Hin; exact Hin. }
  split.
  { intros z. unfold quadForm, squares. split; intros H.
    - assert (E : z (1, 0)%nat = 0) by (apply H; cbn; auto). cbn. rewrite E.
      pose proof (Rle_0_sqr (z (0, 0)%nat)). unfold Rsqr in *. lra.
    - assert (E : z (0, 0)%nat = 0) by (apply H; cbn; auto). cbn. rewrite E.
      pose proof (Rle_0_sqr (z (1, 0)%nat)). unfold Rsqr in *. lra. }
  split.
  { constructor; try reflexivity.
    - intros [|[|t]] H; try lia; apply cellR_ok.
    - intros [|t] H; try lia; apply cellR_ok. }
  split.
  { split.
    - intros [|[|t]] H; try lia; intros r c Hin _; exact Hin.
    - intros [|t] H; try lia; intros r c Hin; exact Hin. }
  intros x. pose proof (Rle_0_sqr (x (0, 0)%nat + x (1, 0)%nat)) as H1. unfold Rsqr in *. unfold quadForm, squares. cbn. lra.
Qed.
