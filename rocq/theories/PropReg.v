(** Property C28: RegularizationSmallPositiveConstant. *)
From Coq Require Import List Arith Lia Bool Reals Lra QArith Qcanon.
From Verif Require Import Base ModelPerm ModelSparsity ModelSymbolic ModelNumeric ModelArrow ModelReg.
From Verif Require Import SpecSymbolic SpecArrow SpecNumeric SpecArrowNum SpecPivot SpecReg.
From Verif Require Import ExampleData ExampleArrow ExamplePivot.
From Verif Require Import ProofReg ProofRegReal PropSingle.
Import ListNotations.
Local Open Scope R_scope.

(** the constants for a machine epsilon in (0,1) *)
Theorem C28_constants : forall eps, 0 < eps < 1 -> 0 < Rpower eps (5/8) < Rpower eps (1/2).
Proof. intros eps H. exact (conj (tol_pos eps) (tol_c eps H)). Qed.
Print Assumptions C28_constants.

Theorem C28_never_breaks_down :
  forall eps mt s n p a vals m, 0 < eps < 1 ->
  spOf s n n -> validPerm n p ->
  spOf a n n -> inputOf Or m a vals -> coveredSym (entries a) (entries s) n p ->
  exists b, factorizationBlk s p = Ok b /\
    forall L0 D0, length L0 = c_nnz (b_sp b) -> length D0 = n ->
    exists L D E, factorize Or mt b (Some m) (regularizationSmallPositiveConstant (realFns eps)) (L0, D0) = Ok (L, D) /\
      (forall i, (i < n)%nat -> Rpower eps (5/8) <= Rabs (vecAt Or D i)) /\
      (forall i, (i < n)%nat -> E (nth i p 0%nat) = 0 \/
         (vecAt Or D i = Rpower eps (1/2) /\ Rabs (vecAt Or D i - E (nth i p 0%nat)) < Rpower eps (5/8) /\
          Rpower eps (1/2) - Rpower eps (5/8) < E (nth i p 0%nat) < Rpower eps (1/2) + Rpower eps (5/8))) /\
      (forall i, (i < n)%nat -> 0 <= E i) /\
      (posSemiDef (seq 0 n) (symAt Or (entries a) vals) ->
         forall i, (i < n)%nat -> 0 < vecAt Or D i) /\
      (forall i j, (i < n)%nat -> (j < n)%nat ->
         ldltAt Or 1 n (c_entries (b_sp b)) L D i j =
         plusDiag Or (symAt Or (entries a) vals) E (nth i p 0%nat) (nth j p 0%nat)) /\
      forall rhs, length rhs = n ->
      exists x, solveInPlace Or b (L, D) rhs = Ok x /\ length x = n /\
        (forall i, (i < n)%nat ->
           matVec Or n (plusDiag Or (symAt Or (entries a) vals) E) x i = vecAt Or rhs i) /\
        (forall x', length x' = n ->
           (forall i, (i < n)%nat ->
              matVec Or n (plusDiag Or (symAt Or (entries a) vals) E) x' i = vecAt Or rhs i) ->
           x' = x).
Proof. intros eps mt s n p a vals m H. exact (@single_small eps H mt s n p a vals m). Qed.
Print Assumptions C28_never_breaks_down.

Theorem C28_inactive :
  forall eps mt s n p b m a vals L0 D0 L D,
  spOf s n n -> validPerm n p -> factorizationBlk s p = Ok b ->
  spOf a n n -> inputOf Or m a vals -> coveredSym (entries a) (entries s) n p ->
  length L0 = c_nnz (b_sp b) -> length D0 = n ->
  factorize Or mt b (Some m) regularizationNone (L0, D0) = Ok (L, D) ->
  (forall i, (i < n)%nat -> Rpower eps (5/8) <= Rabs (vecAt Or D i)) ->
  factorize Or mt b (Some m) (regularizationSmallPositiveConstant (realFns eps)) (L0, D0) = Ok (L, D).
Proof. exact @single_small_inactive. Qed.
Print Assumptions C28_inactive.

Theorem C28_arrowhead_never_breaks_down :
  forall eps mt s ds dt dl dO n m w, 0 < eps < 1 ->
  arrowDims s ds dt dl dO -> inputArrow Or n ds dt dl dO m w -> declaredArrow s n m ->
  exists k, arrowBlocks s = Ok k /\
    forall d0, dataOf k n ds dt dl dO d0 ->
    exists d E, arrowFactorize Or mt k m (regularizationSmallPositiveConstant (realFns eps)) d0 = Ok d /\ dataOf k n ds dt dl dO d /\
      (forall g, In g (allIdx n ds dt dl dO) -> Rpower eps (5/8) <= Rabs (pivotAt Or d g)) /\
      (forall g, In g (allIdx n ds dt dl dO) -> E (permIdx s g) = 0 \/
         (pivotAt Or d g = Rpower eps (1/2) /\ Rabs (pivotAt Or d g - E (permIdx s g)) < Rpower eps (5/8) /\
          Rpower eps (1/2) - Rpower eps (5/8) < E (permIdx s g) < Rpower eps (1/2) + Rpower eps (5/8))) /\
      (forall g, In g (allIdx n ds dt dl dO) -> 0 <= E g) /\
      (posSemiDef (allIdx n ds dt dl dO) (matAt Or m w) ->
         forall g, In g (allIdx n ds dt dl dO) -> 0 < pivotAt Or d g) /\
      (forall g h, In g (allIdx n ds dt dl dO) -> In h (allIdx n ds dt dl dO) ->
         gldltAt Or (allIdx n ds dt dl dO) (factorAt Or 1 k d) (pivotAt Or d) g h =
         plusDiagG Or (matAt Or m w) E (permIdx s g) (permIdx s h)) /\
      forall rhs, vecOf n ds dt dl dO rhs ->
      exists x, arrowSolveInPlace Or k d rhs = Ok x /\ vecOf n ds dt dl dO x /\
        (forall g, In g (allIdx n ds dt dl dO) ->
           gmatVec Or (allIdx n ds dt dl dO) (plusDiagG Or (matAt Or m w) E) (gvecAt Or x) g =
           gvecAt Or rhs g) /\
        (forall x', vecOf n ds dt dl dO x' ->
           (forall g, In g (allIdx n ds dt dl dO) ->
              gmatVec Or (allIdx n ds dt dl dO) (plusDiagG Or (matAt Or m w) E) (gvecAt Or x') g =
              gvecAt Or rhs g) -> x' = x).
Proof. intros eps mt s ds dt dl dO n m w H. exact (@arrow_small eps H mt s ds dt dl dO n m w). Qed.
Print Assumptions C28_arrowhead_never_breaks_down.

Theorem C28_arrowhead_inactive :
  forall eps mt s ds dt dl dO k n m w d0 d,
  arrowDims s ds dt dl dO -> arrowBlocks s = Ok k ->
  inputArrow Or n ds dt dl dO m w -> declaredArrow s n m ->
  dataOf k n ds dt dl dO d0 ->
  arrowFactorize Or mt k m regularizationNone d0 = Ok d ->
  (forall g, In g (allIdx n ds dt dl dO) -> Rpower eps (5/8) <= Rabs (pivotAt Or d g)) ->
  arrowFactorize Or mt k m (regularizationSmallPositiveConstant (realFns eps)) d0 = Ok d.
Proof. exact @arrow_small_inactive. Qed.
Print Assumptions C28_arrowhead_inactive.

Theorem C28_tridiagonal_never_breaks_down :
  forall eps mt a b p dt n A B wA wB, 0 < eps < 1 ->
  spOf a dt dt -> spOf b dt dt -> validPerm dt p ->
  inputTri Or n dt A B wA wB -> declaredTri a b n A B ->
  exists k, tridiagonalBlocks a b p = Ok k /\
    forall d0, dataOf k n 0 dt 0 0 d0 ->
    exists d E, tridiagonalFactorize Or mt k dt A B (regularizationSmallPositiveConstant (realFns eps)) d0 = Ok d /\ dataOf k n 0 dt 0 0 d /\
      (forall t i, (t < n + 1)%nat -> (i < dt)%nat -> Rpower eps (5/8) <= Rabs (pivotAt Or d (GT t i))) /\
      (forall t i, (t < n + 1)%nat -> (i < dt)%nat -> E t (nth i p 0%nat) = 0 \/
         (pivotAt Or d (GT t i) = Rpower eps (1/2) /\ Rabs (pivotAt Or d (GT t i) - E t (nth i p 0%nat)) < Rpower eps (5/8) /\
          Rpower eps (1/2) - Rpower eps (5/8) < E t (nth i p 0%nat) < Rpower eps (1/2) + Rpower eps (5/8))) /\
      (forall t i u j, (t < n + 1)%nat -> (i < dt)%nat -> (u < n + 1)%nat -> (j < dt)%nat ->
         gldltAt Or (allIdx n 0 dt 0 0) (factorAt Or 1 k d) (pivotAt Or d) (GT t i) (GT u j) =
         plusDiagT Or (triMatAt Or A B wA wB) E t (nth i p 0%nat) u (nth j p 0%nat)) /\
      forall rhs, blocksOf n dt rhs ->
      exists x, tridiagonalSolveInPlace Or k d rhs = Ok x /\ blocksOf n dt x /\
        (forall t i, (t < n + 1)%nat -> (i < dt)%nat ->
           triMatVec Or n dt (plusDiagT Or (triMatAt Or A B wA wB) E) x t i =
           vecAt Or (nth t rhs []) i) /\
        (forall x', blocksOf n dt x' ->
           (forall t i, (t < n + 1)%nat -> (i < dt)%nat ->
              triMatVec Or n dt (plusDiagT Or (triMatAt Or A B wA wB) E) x' t i =
              vecAt Or (nth t rhs []) i) -> x' = x).
Proof. intros eps mt a b p dt n A B wA wB H. exact (@tri_small eps H mt a b p dt n A B wA wB). Qed.
Print Assumptions C28_tridiagonal_never_breaks_down.


(** For any arithmetic whatsoever, so also for floating point numbers: a pivot is
    the regularization constant or compares as not smaller than the tolerance. *)
Theorem C28_any_arithmetic :
  forall {F : Type} (O : ops F) (S : scalarFns F) mt s n p a vals m,
  spOf s n n -> validPerm n p ->
  spOf a n n -> inputOf O m a vals -> coveredSym (entries a) (entries s) n p ->
  exists b, factorizationBlk s p = Ok b /\
    forall L0 D0, length L0 = c_nnz (b_sp b) -> length D0 = n ->
    exists L D, factorize O mt b (Some m) (regularizationSmallPositiveConstant S) (L0, D0) = Ok (L, D) /\
      forall i, (i < n)%nat ->
        vecAt O D i = fn_pow S (fn_epsilon S) (fn_05 S) \/
        fn_ltb S (fn_abs S (vecAt O D i)) (fn_pow S (fn_epsilon S) (fn_0625 S)) = false.
Proof. exact @single_small_any. Qed.
Print Assumptions C28_any_arithmetic.

Theorem C28_arrowhead_any_arithmetic :
  forall {F : Type} (O : ops F) (S : scalarFns F) mt s ds dt dl dO n m w,
  arrowDims s ds dt dl dO -> inputArrow O n ds dt dl dO m w -> declaredArrow s n m ->
  exists k, arrowBlocks s = Ok k /\
    forall d0, dataOf k n ds dt dl dO d0 ->
    exists d, arrowFactorize O mt k m (regularizationSmallPositiveConstant S) d0 = Ok d /\
      forall g, In g (allIdx n ds dt dl dO) ->
        pivotAt O d g = fn_pow S (fn_epsilon S) (fn_05 S) \/
        fn_ltb S (fn_abs S (pivotAt O d g)) (fn_pow S (fn_epsilon S) (fn_0625 S)) = false.
Proof. exact @arrow_small_any. Qed.
Print Assumptions C28_arrowhead_any_arithmetic.

(** ** examples *)

(** a singular positive semidefinite matrix *)
Definition exRS : sparsity := mkSp 3 3 [(0,0); (1,0); (1,1); (2,2)]%nat.
Definition exRVals : list R := [1; 1; 1; 0].
Definition exRM : mat := mkMat exRS (fun e => Ok (nth e exRVals 0)).

Lemma exRS_ok : spOf exRS 3 3.
Proof. apply spOf_check_ok. reflexivity. Qed.
Lemma exRP_ok : validPerm 3 [1; 2; 0]%nat.
Proof. apply validPerm_check. reflexivity. Qed.
Lemma exRM_ok : inputOf Or exRM exRS exRVals.
Proof. constructor; auto. Qed.

Example C28_example :
  spOf exRS 3 3 /\ validPerm 3 [1; 2; 0]%nat /\ inputOf Or exRM exRS exRVals /\
  coveredSym (entries exRS) (entries exRS) 3 [1; 2; 0]%nat /\
  0 < / 2 ^ 52 < 1 /\
  posSemiDef (seq 0 3) (symAt Or (entries exRS) exRVals) /\
  (forall i, matVec Or 3 (symAt Or (entries exRS) exRVals) [1; -1; 5] i = 0).
Proof.
  split; [exact exRS_ok|]. split; [exact exRP_ok|]. split; [exact exRM_ok|].
  split; [apply declared_is_covered; auto; exact exRP_ok|].
  split; [lra|]. split.
  - intros x. pose proof (Rle_0_sqr (x 0%nat + x 1%nat)) as H. unfold Rsqr in H. unfold quadForm. cbn. lra.
  - intros i. destruct i as [|[|[|i]]]; cbn; try lra.
Qed.

(** the same matrix with rationals and round numbers in place of the powers *)
Definition exFns : scalarFns Qc :=
  mkScalarFns Qc (fun x => if Qlt_le_dec (this x) 0 then Qcopp x else x)
    (fun x y => if Qlt_le_dec (this x) (this y) then true else false)
    (fun x y => Qcmult x y) (Q2Qc (1 # 10)) (Q2Qc (1 # 10)) (Q2Qc 1).

Example C28_any_example :
  match factorizationBlk exRS [1; 2; 0]%nat with
  | Ok b =>
      match factorize Oq UpLooking b (Some (ExampleData.matOf exRS [1; 1; 1; 0]%Z))
              (regularizationSmallPositiveConstant exFns) (qs [0]%Z, qs [0; 0; 0]%Z) with
      | Ok (L, D) => map this D = [1; 1 # 10; 1 # 10]%Q
      | Err _ => False
      end
  | Err _ => False
  end.
Proof. vm_compute. reflexivity. Qed.

(** a singular arrowhead matrix with zero diagonal blocks over the real numbers *)
Definition cellR (v : R) : mat (F:=R) := mkMat ex11 (fun e => Ok (nth e [v] 0)).
Definition exRIn : arrow_mat (F:=R) :=
  mkAM (cellR 0) (cellR 1) (cellR 1) [cellR 0; cellR 0] [cellR 0] (cellR 2) (cellR 0) (cellR 2)
    [cellR 1; cellR 1] (cellR 0).
Definition exRW : arrow_vals R :=
  mkVals [0] [1] [1] [[0]; [0]] [[0]] [2] [0] [2] [[1]; [1]] [0].

Lemma cellR_ok v : SpecArrowNum.matOf Or (cellR v) 1 1 [v].
Proof.
  split; [apply spOf_check_ok; reflexivity|]. constructor; auto.
Qed.

Example C28_arrowhead_example :
  arrowDims exQA 1 1 1 1 /\ inputArrow Or 1 1 1 1 1 exRIn exRW /\ declaredArrow exQA 1 exRIn /\
  inputTri Or 1 1 (a_td exRIn) (a_ts exRIn) (w_td exRW) (w_ts exRW) /\
  declaredTri ex11 ex11 1 (a_td exRIn) (a_ts exRIn).
Proof.
  split; [exact exQA_dims|]. split.
  { constructor; try apply cellR_ok; try reflexivity.
    - intros [|[|t]] H; try lia; apply cellR_ok.
    - intros [|t] H; try lia; apply cellR_ok.
    - intros [|[|t]] H; try lia; apply cellR_ok. }
  split.
  { constructor; try (intros r c H _; exact H); try (intros r c H; exact H).
    - intros [|[|t]] H; try lia; intros r c Hin _; exact Hin.
    - intros [|t] H; try lia; intros r c Hin; exact Hin.
    - intros [|[|t]] H; try lia; intros r c Hin; exact Hin. }
  split.
  { constructor; try reflexivity.
    - intros [|[|t]] H; try lia; apply cellR_ok.
    - intros [|t] H; try lia; apply cellR_ok. }
  split.
  - intros [|[|t]] H; try lia; intros r c Hin _; exact Hin.
  - intros [|t] H; try lia; intros r c Hin; exact Hin.
Qed.

(** with rationals, the zero blocks of such a matrix are regularized *)
Example C28_arrowhead_any_example :
  match arrowFactorize Oq EntryWise exQK
    (let c := fun v => ExampleData.matOf ex11 [v]%Z in
     mkAM (c 0%Z) (c 1%Z) (c 1%Z) [c 0%Z; c 0%Z] [c 0%Z] (c 2%Z) (c 0%Z) (c 2%Z) [c 1%Z; c 1%Z] (c 0%Z))
    (regularizationSmallPositiveConstant exFns) exQD with
  | Ok d => map (fun g => this (pivotAt Oq d g)) (allIdx 1 1 1 1 1) =
              [1 # 10; -10; 1 # 10; -40; -19 # 5]%Q
  | Err _ => False
  end.
Proof. vm_compute. reflexivity. Qed.
