(** Property C77: iterative refinement undoes the effect of the regularization. *)
From Coq Require Import Reals Lra Lia List Arith Bool ZArith QArith Qcanon.
From Verif Require Import Base ModelPerm ModelSparsity ModelSymbolic ModelNumeric ModelArrow ModelReg.
From Verif Require Import SpecSymbolic SpecArrow SpecNumeric SpecArrowNum SpecReg SpecPivot SpecRefine.
From Verif Require Import ExampleData ExampleArrow ExamplePivot.
From Verif Require Import ProofSingle ProofRefine PropSingle PropReg.
Import ListNotations.
Local Open Scope R_scope.

(** ** C77 *)

(** A positive semidefinite matrix, possibly singular, and a right-hand side for which there
    is a solution xs. With the small positive constants added to the diagonal the solution of
    the factorized system can be far away from xs, but repeated refinement with the same
    factorization leads to a solution of the original system. *)
Theorem C77_refine :
  forall eps mt s n p a vals m b L0 D0 rhs xs x0 k,
  0 < eps < 1 ->
  spOf s n n -> validPerm n p -> factorizationBlk s p = Ok b ->
  spOf a n n -> inputOf Or m a vals -> coveredSym (entries a) (entries s) n p ->
  NoDup (entries a) -> (forall r c, In (r, c) (entries a) -> (c <= r)%nat) ->
  length L0 = c_nnz (b_sp b) -> length D0 = n ->
  posSemiDef (seq 0 n) (symAt Or (entries a) vals) ->
  length rhs = n -> (forall i, (i < n)%nat -> matVec Or n (symAt Or (entries a) vals) xs i = vecAt Or rhs i) ->
  length x0 = n ->
  exists L D x, factorize Or mt b (Some m) (regularizationSmallPositiveConstant (realFns eps)) (L0, D0) = Ok (L, D) /\
    refineSingle Or n m b (L, D) rhs k x0 = Ok x /\ length x = n /\
    refined (seq 0 n) (symAt Or (entries a) vals) (Rpower eps (1/2) + Rpower eps (5/8)) k
      (fun i => vecAt Or x0 i - vecAt Or xs i) (fun i => vecAt Or x i - vecAt Or xs i).
Proof. exact @single_refine. Qed.
Print Assumptions C77_refine.

Theorem C77_arrowhead_refine :
  forall eps mt s ds dt dl dO k n m w d0 rhs xs x0 j,
  0 < eps < 1 ->
  arrowDims s ds dt dl dO -> arrowBlocks s = Ok k ->
  inputArrow Or n ds dt dl dO m w -> declaredArrow s n m -> simpleArrow n m -> dataOf k n ds dt dl dO d0 ->
  posSemiDef (allIdx n ds dt dl dO) (matAt Or m w) ->
  vecOf n ds dt dl dO rhs ->
  (forall g, In g (allIdx n ds dt dl dO) ->
     gmatVec Or (allIdx n ds dt dl dO) (matAt Or m w) (gvecAt Or xs) g = gvecAt Or rhs g) ->
  vecOf n ds dt dl dO x0 ->
  exists d x, arrowFactorize Or mt k m (regularizationSmallPositiveConstant (realFns eps)) d0 = Ok d /\
    refineArrow Or n ds dt dl dO m k d rhs j x0 = Ok x /\ vecOf n ds dt dl dO x /\
    refined (allIdx n ds dt dl dO) (matAt Or m w) (Rpower eps (1/2) + Rpower eps (5/8)) j
      (fun g => gvecAt Or x0 g - gvecAt Or xs g) (fun g => gvecAt Or x g - gvecAt Or xs g).
Proof. exact @arrow_refine. Qed.
Print Assumptions C77_arrowhead_refine.

Theorem C77_tridiagonal_refine :
  forall eps mt a b p dt n k A B wA wB d0 rhs xs x0 j,
  0 < eps < 1 ->
  spOf a dt dt -> spOf b dt dt -> validPerm dt p -> tridiagonalBlocks a b p = Ok k ->
  inputTri Or n dt A B wA wB -> declaredTri a b n A B -> simpleTri n A B -> dataOf k n 0 dt 0 0 d0 ->
  let rows := list_prod (seq 0 (n + 1)) (seq 0 dt) in
  let M := fun g h => triMatAt Or A B wA wB (fst g) (snd g) (fst h) (snd h) in
  posSemiDef rows M ->
  blocksOf n dt rhs ->
  (forall t i, (t < n + 1)%nat -> (i < dt)%nat ->
     triMatVec Or n dt (triMatAt Or A B wA wB) xs t i = vecAt Or (nth t rhs []) i) ->
  blocksOf n dt x0 ->
  exists d x, tridiagonalFactorize Or mt k dt A B (regularizationSmallPositiveConstant (realFns eps)) d0 = Ok d /\
    refineTri Or n dt A B k d rhs j x0 = Ok x /\ blocksOf n dt x /\
    refined rows M (Rpower eps (1/2) + Rpower eps (5/8)) j
      (fun g => vecAt Or (nth (fst g) x0 []) (snd g) - vecAt Or (nth (fst g) xs []) (snd g))
      (fun g => vecAt Or (nth (fst g) x []) (snd g) - vecAt Or (nth (fst g) xs []) (snd g)).
Proof. exact @tri_refine. Qed.
Print Assumptions C77_tridiagonal_refine.

(** ** examples *)

(** the singular matrix with the rows 1 1 0, 1 1 0, 0 0 0 *)
Definition exRB : blk := match factorizationBlk exRS [1; 2; 0]%nat with Ok b => b | Err _ => emptyDiagBlk end.
Example C77_example :
  0 < / 2 ^ 52 < 1 /\ spOf exRS 3 3 /\ validPerm 3 [1; 2; 0]%nat /\ factorizationBlk exRS [1; 2; 0]%nat = Ok exRB /\
  inputOf Or exRM exRS exRVals /\ coveredSym (entries exRS) (entries exRS) 3 [1; 2; 0]%nat /\
  NoDup (entries exRS) /\ (forall r c, In (r, c) (entries exRS) -> (c <= r)%nat) /\
  length [5] = c_nnz (b_sp exRB) /\ length [1; 2; 3] = 3%nat /\
  posSemiDef (seq 0 3) (symAt Or (entries exRS) exRVals) /\
  (forall i, (i < 3)%nat -> matVec Or 3 (symAt Or (entries exRS) exRVals) [1; 2; 7] i = vecAt Or [3; 3; 0] i).
Proof.
  split; [lra|]. split; [exact exRS_ok|]. split; [exact exRP_ok|]. split; [reflexivity|]. split; [exact exRM_ok|].
  split; [apply declared_is_covered; auto; exact exRP_ok|].
  split; [cbn; repeat (constructor; [cbn; intuition congruence|]); constructor|].
  split; [intros r c H; cbn in H; repeat (destruct H as [H|H]; [injection H as <- <-; lia|]); destruct H|].
  split; [reflexivity|]. split; [reflexivity|]. split.
  - intros x. pose proof (Rle_0_sqr (x 0%nat + x 1%nat)) as H. unfold Rsqr in H. unfold quadForm. cbn. lra.
  - intros i Hi. destruct i as [|[|[|i]]]; try lia; cbn; lra.
Qed.

(** with rationals, the tolerance 1/100 and the constant 1/10: two pivots of the matrix with the
    rows 1 1 0, 1 201/200 0, 0 0 1/200 are changed, the first solution is far from 1, 2, 3, and
    each step decreases the error, the one of the last component from 3 by a twentieth *)
Example C77_computed_example :
  let vals := map Q2Qc [1; 1; 201 # 200; 1 # 200]%Q in
  let m := mkMat exRS (fun e => Ok (nth e vals 0%Qc)) in
  let rhs := map Q2Qc [3; 301 # 100; 3 # 200]%Q in
  let run := fun k =>
    let* LD := factorize Oq UpLooking exRB (Some m) (regularizationSmallPositiveConstant exFns) (qs [0]%Z, qs [0; 0; 0]%Z) in
    refineSingle Oq 3 m exRB LD rhs k (qs [0; 0; 0]%Z) in
  map (fun k => match run k with Ok x => map this x | Err _ => [] end) [1; 2; 3]%nat =
  [[10 # 201; 119002 # 40401; 3 # 20];
   [3920 # 40401; 23537402 # 8120601; 117 # 400];
   [1152730 # 8120601; 4658055802 # 1632240801; 3423 # 8000]]%Q.
Proof. vm_compute. reflexivity. Qed.

(** the quadratic form is (s + o)^2 + (t0 + t1)^2 + (t1 + l)^2 *)
Definition exRfIn : arrow_mat (F:=R) :=
  mkAM (cellR 1) (cellR 0) (cellR 1) [cellR 1; cellR 2] [cellR 1] (cellR 1) (cellR 1) (cellR 0)
    [cellR 0; cellR 0] (cellR 1).
Definition exRfW : arrow_vals R :=
  mkVals [1] [0] [1] [[1]; [2]] [[1]] [1] [1] [0] [[0]; [0]] [1].
Definition noDataR : arrow_data (F:=R) := mkAD ([], []) [] [] [] [] [] ([], []) [] [] ([], []).
Definition exRfD : arrow_data := match arrowCtor Or exQK 1 with Ok d => d | Err _ => noDataR end.
Example C77_arrowhead_example :
  arrowDims exQA 1 1 1 1 /\ arrowBlocks exQA = Ok exQK /\
  inputArrow Or 1 1 1 1 1 exRfIn exRfW /\ declaredArrow exQA 1 exRfIn /\ simpleArrow 1 exRfIn /\
  dataOf exQK 1 1 1 1 1 exRfD /\
  posSemiDef (allIdx 1 1 1 1 1) (matAt Or exRfIn exRfW) /\
  (forall g, In g (allIdx 1 1 1 1 1) ->
     gmatVec Or (allIdx 1 1 1 1 1) (matAt Or exRfIn exRfW) (gvecAt Or (mkAV [1] [[2]; [3]] [4] [5])) g =
     gvecAt Or (mkAV [6] [[5]; [12]] [7] [6]) g).
Proof.
  split; [exact exQA_dims|]. split; [exact exQK_ok|]. split.
  { constructor; try apply cellR_ok; try reflexivity.
    - intros [|[|t]] H; try lia; apply cellR_ok.
    - intros [|t] H; try lia; apply cellR_ok.
    - intros [|[|t]] H; try lia; apply cellR_ok. }
  split.
  { constructor; try (intros r c H _; exact H); try (intros r c H; exact H).
    - intros [|[|t]] H; try lia; intros r c Hin _; exact Hin.
    - intros [|t] H; try lia; intros r c Hin; exact Hin.
    - intros [|[|t]] H; try lia; intros r c Hin; exact Hin. }
  assert (N : NoDup [(0, 0)%nat]) by (constructor; [intros []|constructor]).
  assert (SS : forall v, simpleSym (cellR v)).
  { intros v. split; [exact N|]. intros r c [H|[]]. injection H as <- <-. lia. }
  assert (SR : forall v, simpleRect (cellR v)) by (intros v; exact N).
  split.
  { constructor; try apply SS; try apply SR.
    - intros [|[|t]] H; try lia; apply SS.
    - intros [|t] H; try lia; apply SR.
    - intros [|[|t]] H; try lia; apply SR. }
  split; [data_of|]. split.
  - intros x. pose proof (Rle_0_sqr (x (GS 0) + x (GO 0))) as H1. pose proof (Rle_0_sqr (x (GT 0 0) + x (GT 1 0))) as H2.
    pose proof (Rle_0_sqr (x (GT 1 0) + x (GL 0))) as H3. unfold Rsqr in *. unfold quadForm. cbn. lra.
  - intros g Hg. vm_compute in Hg.
    destruct Hg as [<-|[<-|[<-|[<-|[<-|[]]]]]]; cbn; lra.
Qed.

(** two blocks of dimension one, with the quadratic form (t0 + t1)^2 *)
Definition exRfK : arrow_blks := match tridiagonalBlocks ex11 ex11 [0]%nat with Ok k => k | Err _ => noBlks end.
Definition exRfTD : arrow_data := match arrowCtor Or exRfK 1 with Ok d => d | Err _ => noDataR end.
Example C77_tridiagonal_example :
  let A := [cellR 1; cellR 1] in let B := [cellR 1] in
  let rows := list_prod (seq 0 (1 + 1)) (seq 0 1) in
  let M := fun g h => triMatAt Or A B [[1]; [1]] [[1]] (fst g) (snd g) (fst h) (snd h) in
  spOf ex11 1 1 /\ validPerm 1 [0]%nat /\ tridiagonalBlocks ex11 ex11 [0]%nat = Ok exRfK /\
  inputTri Or 1 1 A B [[1]; [1]] [[1]] /\ declaredTri ex11 ex11 1 A B /\ simpleTri 1 A B /\
  dataOf exRfK 1 0 1 0 0 exRfTD /\ posSemiDef rows M /\
  (forall t i, (t < 1 + 1)%nat -> (i < 1)%nat ->
     triMatVec Or 1 1 (triMatAt Or A B [[1]; [1]] [[1]]) [[2]; [3]] t i = vecAt Or (nth t [[5]; [5]] []) i).
Proof.
  cbv zeta. split; [apply spOf_check_ok; reflexivity|]. split; [apply validPerm_check; reflexivity|]. split; [reflexivity|].
  split.
  { constructor; try reflexivity.
    - intros [|[|t]] H; try lia; apply cellR_ok.
    - intros [|t] H; try lia; apply cellR_ok. }
  split.
  { split.
    - intros [|[|t]] H; try lia; intros r c Hin _; exact Hin.
    - intros [|t] H; try lia; intros r c Hin; exact Hin. }
  assert (N : NoDup [(0, 0)%nat]) by (constructor; [intros []|constructor]).
  split.
  { split.
    - assert (SS : forall v, simpleSym (cellR v)).
      { intros v. split; [exact N|]. intros r c [H|[]]. injection H as <- <-. lia. }
      intros [|[|t]] H; try lia; apply SS.
    - intros [|t] H; try lia; exact N. }
  split; [data_of|]. split.
  - intros x. pose proof (Rle_0_sqr (x (0, 0)%nat + x (1, 0)%nat)) as H1. unfold Rsqr in *. unfold quadForm. cbn. lra.
  - intros [|[|t]] [|i] Ht Hi; try lia; cbn; lra.
Qed.
