(** Property C84: larger matrices have larger pivots. *)
From Coq Require Import Reals Lra Lia List Arith Bool ZArith QArith Qcanon.
From Verif Require Import Base ModelPerm ModelSparsity ModelSymbolic ModelNumeric ModelArrow ModelReg.
From Verif Require Import SpecSymbolic SpecArrow SpecNumeric SpecArrowNum SpecReg SpecPivot SpecPivotBound SpecMinimize SpecPivotOrder.
From Verif Require Import ExampleData ExampleArrow ExamplePivot.
From Verif Require Import ProofSingle ProofPivotBound ProofMinimize ProofPivotOrder PropSingle PropReg PropRefine PropPivotBound.
Import ListNotations.
Local Open Scope R_scope.

(** ** C84 *)

(** Two matrices of the same structure whose rows P form positive definite matrices and whose
    other rows form negative definite ones, with arbitrary entries between the two. If z^T A z is
    never above z^T A' z, no pivot of A is above that of A'. *)
Theorem C84_larger_matrix :
  forall mt mt' s n p a vals m a' vals' m' P,
  spOf s n n -> validPerm n p ->
  spOf a n n -> inputOf Or m a vals -> coveredSym (entries a) (entries s) n p ->
  spOf a' n n -> inputOf Or m' a' vals' -> coveredSym (entries a') (entries s) n p ->
  let all := seq 0 n in let A := symAt Or (entries a) vals in let A' := symAt Or (entries a') vals' in
  splitDef all P A -> splitDef all P A' -> formBelow all A A' ->
  exists b, factorizationBlk s p = Ok b /\
    forall L0 D0 L0' D0', length L0 = c_nnz (b_sp b) -> length D0 = n -> length L0' = c_nnz (b_sp b) -> length D0' = n ->
    exists L D L' D',
      factorize Or mt b (Some m) regularizationNone (L0, D0) = Ok (L, D) /\
      factorize Or mt' b (Some m') regularizationNone (L0', D0') = Ok (L', D') /\
      forall i, (i < n)%nat -> vecAt Or D i <= vecAt Or D' i.
Proof. exact @single_order. Qed.
Print Assumptions C84_larger_matrix.

Theorem C84_arrowhead_larger_matrix :
  forall mt mt' s ds dt dl dO n m w m' w' P,
  arrowDims s ds dt dl dO ->
  inputArrow Or n ds dt dl dO m w -> declaredArrow s n m ->
  inputArrow Or n ds dt dl dO m' w' -> declaredArrow s n m' ->
  let all := allIdx n ds dt dl dO in let A := matAt Or m w in let A' := matAt Or m' w' in
  splitDef all P A -> splitDef all P A' -> formBelow all A A' ->
  exists k, arrowBlocks s = Ok k /\
    forall d0 d0', dataOf k n ds dt dl dO d0 -> dataOf k n ds dt dl dO d0' ->
    exists d d',
      arrowFactorize Or mt k m regularizationNone d0 = Ok d /\
      arrowFactorize Or mt' k m' regularizationNone d0' = Ok d' /\
      forall g, In g all -> pivotAt Or d g <= pivotAt Or d' g.
Proof. exact @arrow_order. Qed.
Print Assumptions C84_arrowhead_larger_matrix.

Theorem C84_tridiagonal_larger_matrix :
  forall mt mt' a b p dt n A B wA wB A' B' wA' wB' P,
  spOf a dt dt -> spOf b dt dt -> validPerm dt p ->
  inputTri Or n dt A B wA wB -> declaredTri a b n A B ->
  inputTri Or n dt A' B' wA' wB' -> declaredTri a b n A' B' ->
  let rows := list_prod (seq 0 (n + 1)) (seq 0 dt) in
  let M := fun r c => triMatAt Or A B wA wB (fst r) (snd r) (fst c) (snd c) in
  let M' := fun r c => triMatAt Or A' B' wA' wB' (fst r) (snd r) (fst c) (snd c) in
  splitDef rows P M -> splitDef rows P M' -> formBelow rows M M' ->
  exists k, tridiagonalBlocks a b p = Ok k /\
    forall d0 d0', dataOf k n 0 dt 0 0 d0 -> dataOf k n 0 dt 0 0 d0' ->
    exists d d',
      tridiagonalFactorize Or mt k dt A B regularizationNone d0 = Ok d /\
      tridiagonalFactorize Or mt' k dt A' B' regularizationNone d0' = Ok d' /\
      forall t i, (t < n + 1)%nat -> (i < dt)%nat -> pivotAt Or d (GT t i) <= pivotAt Or d' (GT t i).
Proof. exact @tri_order. Qed.
Print Assumptions C84_tridiagonal_larger_matrix.

(** In particular larger diagonal entries of a positive definite matrix make no pivot smaller. *)
Theorem C84_larger_diagonal :
  forall mt mt' s n p a vals m a' vals' m',
  spOf s n n -> validPerm n p ->
  spOf a n n -> inputOf Or m a vals -> coveredSym (entries a) (entries s) n p ->
  spOf a' n n -> inputOf Or m' a' vals' -> coveredSym (entries a') (entries s) n p ->
  let all := seq 0 n in let A := symAt Or (entries a) vals in let A' := symAt Or (entries a') vals' in
  positiveDef all A -> largerDiagonal all A A' ->
  exists b, factorizationBlk s p = Ok b /\
    forall L0 D0 L0' D0', length L0 = c_nnz (b_sp b) -> length D0 = n -> length L0' = c_nnz (b_sp b) -> length D0' = n ->
    exists L D L' D',
      factorize Or mt b (Some m) regularizationNone (L0, D0) = Ok (L, D) /\
      factorize Or mt' b (Some m') regularizationNone (L0', D0') = Ok (L', D') /\
      forall i, (i < n)%nat -> 0 < vecAt Or D i <= vecAt Or D' i.
Proof. exact @single_diagonal. Qed.
Print Assumptions C84_larger_diagonal.

Theorem C84_arrowhead_larger_diagonal :
  forall mt mt' s ds dt dl dO n m w m' w',
  arrowDims s ds dt dl dO ->
  inputArrow Or n ds dt dl dO m w -> declaredArrow s n m ->
  inputArrow Or n ds dt dl dO m' w' -> declaredArrow s n m' ->
  let all := allIdx n ds dt dl dO in let A := matAt Or m w in let A' := matAt Or m' w' in
  positiveDef all A -> largerDiagonal all A A' ->
  exists k, arrowBlocks s = Ok k /\
    forall d0 d0', dataOf k n ds dt dl dO d0 -> dataOf k n ds dt dl dO d0' ->
    exists d d',
      arrowFactorize Or mt k m regularizationNone d0 = Ok d /\
      arrowFactorize Or mt' k m' regularizationNone d0' = Ok d' /\
      forall g, In g all -> 0 < pivotAt Or d g <= pivotAt Or d' g.
Proof. exact @arrow_diagonal. Qed.
Print Assumptions C84_arrowhead_larger_diagonal.

Theorem C84_tridiagonal_larger_diagonal :
  forall mt mt' a b p dt n A B wA wB A' B' wA' wB',
  spOf a dt dt -> spOf b dt dt -> validPerm dt p ->
  inputTri Or n dt A B wA wB -> declaredTri a b n A B ->
  inputTri Or n dt A' B' wA' wB' -> declaredTri a b n A' B' ->
  let rows := list_prod (seq 0 (n + 1)) (seq 0 dt) in
  let M := fun r c => triMatAt Or A B wA wB (fst r) (snd r) (fst c) (snd c) in
  let M' := fun r c => triMatAt Or A' B' wA' wB' (fst r) (snd r) (fst c) (snd c) in
  positiveDef rows M -> largerDiagonal rows M M' ->
  exists k, tridiagonalBlocks a b p = Ok k /\
    forall d0 d0', dataOf k n 0 dt 0 0 d0 -> dataOf k n 0 dt 0 0 d0' ->
    exists d d',
      tridiagonalFactorize Or mt k dt A B regularizationNone d0 = Ok d /\
      tridiagonalFactorize Or mt' k dt A' B' regularizationNone d0' = Ok d' /\
      forall t i, (t < n + 1)%nat -> (i < dt)%nat -> 0 < pivotAt Or d (GT t i) <= pivotAt Or d' (GT t i).
Proof. exact @tri_diagonal. Qed.
Print Assumptions C84_tridiagonal_larger_diagonal.

(** ** examples *)

(** rows 2 7 0, 7 -3 0, 0 0 1 below rows 4 8 0, 8 -2 0, 0 0 1; rows 2 1 0, 1 2 0, 0 0 1 and the
    same with the diagonal 3 2 5 *)
Example C84_example :
  spOf exRS 3 3 /\ validPerm 3 [1; 2; 0]%nat /\ coveredSym (entries exRS) (entries exRS) 3 [1; 2; 0]%nat /\
  (forall v, length v = 4%nat -> inputOf Or (exPbM v) exRS v) /\
  splitDef (seq 0 3) exPbP (symAt Or (entries exRS) [2; 7; -3; 1]) /\
  splitDef (seq 0 3) exPbP (symAt Or (entries exRS) [4; 8; -2; 1]) /\
  formBelow (seq 0 3) (symAt Or (entries exRS) [2; 7; -3; 1]) (symAt Or (entries exRS) [4; 8; -2; 1]) /\
  positiveDef (seq 0 3) (symAt Or (entries exRS) [2; 1; 2; 1]) /\
  largerDiagonal (seq 0 3) (symAt Or (entries exRS) [2; 1; 2; 1]) (symAt Or (entries exRS) [3; 1; 2; 5]).
Proof.
  destruct C79_example as (H1 & H2 & H3 & H4 & H5 & H6 & H7). do 3 (split; auto).
  split; [exact exPbM_ok|]. split; [exact (margin_split _ _ _ 1 Rlt_0_1 H5)|]. split.
  { apply (margin_split _ _ _ 1 Rlt_0_1). intros z. unfold quadForm, squares. split; intros H.
    - assert (E : z 1%nat = 0) by (apply H; cbn; auto). cbn. rewrite E.
      pose proof (Rle_0_sqr (z 0%nat)). unfold Rsqr in *. lra.
    - assert (E0 : z 0%nat = 0) by (apply H; cbn; auto). assert (E2 : z 2%nat = 0) by (apply H; cbn; auto).
      cbn. rewrite E0, E2. pose proof (Rle_0_sqr (z 1%nat)). unfold Rsqr in *. lra. }
  split.
  { intros z. unfold quadForm. cbn. pose proof (Rle_0_sqr (z 0%nat)). pose proof (Rle_0_sqr (z 0%nat + z 1%nat)). unfold Rsqr in *. lra. }
  split; [exact (margin_positive _ _ 1 Rlt_0_1 H7)|].
  intros g h Hg Hh. cbn in Hg, Hh.
  destruct Hg as [<-|[<-|[<-|[]]]]; destruct Hh as [<-|[<-|[<-|[]]]]; cbn; split; intros; lra || lia.
Qed.

(** the pivots of these matrices, computed with rationals *)
Example C84_computed_example :
  let run := fun vals =>
    match factorize Oq UpLooking exRB (Some (ExampleData.matOf exRS vals)) regularizationNone (qs [0]%Z, qs [0; 0; 0]%Z) with
    | Ok (L, D) => map this D
    | Err _ => []
    end in
  run [2; 7; -3; 1]%Z = [-3; 1; 55 # 3]%Q /\ run [4; 8; -2; 1]%Z = [-2; 1; 36]%Q /\
  run [2; 1; 2; 1]%Z = [2; 1; 3 # 2]%Q /\ run [3; 1; 2; 5]%Z = [2; 5; 5 # 2]%Q.
Proof. vm_compute. repeat split; reflexivity. Qed.

(** the matrices of the examples of C79, compared with those with one more on the diagonal *)
Definition exPoIn : arrow_mat (F:=R) :=
  mkAM (cellR 3) (cellR 5) (cellR 7) [cellR (-2); cellR (-3)] [cellR 1] (cellR 9) (cellR 5) (cellR 11)
    [cellR 0; cellR 0] (cellR (-1)).
Definition exPoW : arrow_vals R :=
  mkVals [3] [5] [7] [[-2]; [-3]] [[1]] [9] [5] [11] [[0]; [0]] [-1].
Definition exPoIn1 : arrow_mat (F:=R) :=
  mkAM (cellR 3) (cellR 0) (cellR 1) [cellR 3; cellR 4] [cellR 1] (cellR 1) (cellR 3) (cellR 0)
    [cellR 0; cellR 0] (cellR 3).
Definition exPoW1 : arrow_vals R :=
  mkVals [3] [0] [1] [[3]; [4]] [[1]] [1] [3] [0] [[0]; [0]] [3].
Lemma exPoIn_ok : inputArrow Or 1 1 1 1 1 exPoIn exPoW /\ declaredArrow exQA 1 exPoIn.
Proof.
  split.
  { constructor; try apply cellR_ok; try reflexivity.
    - intros [|[|t]] H; try lia; apply cellR_ok.
    - intros [|t] H; try lia; apply cellR_ok.
    - intros [|[|t]] H; try lia; apply cellR_ok. }
  constructor; try (intros r c H _; exact H); try (intros r c H; exact H).
  - intros [|[|t]] H; try lia; intros r c Hin _; exact Hin.
  - intros [|t] H; try lia; intros r c Hin; exact Hin.
  - intros [|[|t]] H; try lia; intros r c Hin; exact Hin.
Qed.
Lemma exPoIn1_ok : inputArrow Or 1 1 1 1 1 exPoIn1 exPoW1 /\ declaredArrow exQA 1 exPoIn1.
Proof.
  split.
  { constructor; try apply cellR_ok; try reflexivity.
    - intros [|[|t]] H; try lia; apply cellR_ok.
    - intros [|t] H; try lia; apply cellR_ok.
    - intros [|[|t]] H; try lia; apply cellR_ok. }
  constructor; try (intros r c H _; exact H); try (intros r c H; exact H).
  - intros [|[|t]] H; try lia; intros r c Hin _; exact Hin.
  - intros [|t] H; try lia; intros r c Hin; exact Hin.
  - intros [|[|t]] H; try lia; intros r c Hin; exact Hin.
Qed.
Example C84_arrowhead_example :
  arrowDims exQA 1 1 1 1 /\
  inputArrow Or 1 1 1 1 1 exPbIn exPbW /\ declaredArrow exQA 1 exPbIn /\
  inputArrow Or 1 1 1 1 1 exPoIn exPoW /\ declaredArrow exQA 1 exPoIn /\
  splitDef (allIdx 1 1 1 1 1) exPbA (matAt Or exPbIn exPbW) /\
  splitDef (allIdx 1 1 1 1 1) exPbA (matAt Or exPoIn exPoW) /\
  formBelow (allIdx 1 1 1 1 1) (matAt Or exPbIn exPbW) (matAt Or exPoIn exPoW) /\
  inputArrow Or 1 1 1 1 1 exPbIn1 exPbW1 /\ declaredArrow exQA 1 exPbIn1 /\
  inputArrow Or 1 1 1 1 1 exPoIn1 exPoW1 /\ declaredArrow exQA 1 exPoIn1 /\
  positiveDef (allIdx 1 1 1 1 1) (matAt Or exPbIn1 exPbW1) /\
  largerDiagonal (allIdx 1 1 1 1 1) (matAt Or exPbIn1 exPbW1) (matAt Or exPoIn1 exPoW1).
Proof.
  destruct C79_arrowhead_example as (H1 & H2 & H3 & H4 & H5 & H6 & H7). do 3 (split; auto).
  split; [exact (proj1 exPoIn_ok)|]. split; [exact (proj2 exPoIn_ok)|]. split; [exact (margin_split _ _ _ 1 Rlt_0_1 H4)|].
  split.
  { apply (margin_split _ _ _ 1 Rlt_0_1). intros z. unfold quadForm, squares. split; intros H.
    - assert (E0 : z (GT 0 0) = 0) by (apply H; vm_compute; auto 9). assert (E1 : z (GT 1 0) = 0) by (apply H; vm_compute; auto 9).
      assert (E2 : z (GO 0) = 0) by (apply H; vm_compute; auto 9). cbn. rewrite E0, E1, E2.
      pose proof (Rle_0_sqr (z (GS 0))). pose proof (Rle_0_sqr (z (GL 0))). unfold Rsqr in *. lra.
    - assert (E0 : z (GS 0) = 0) by (apply H; vm_compute; auto 9). assert (E1 : z (GL 0) = 0) by (apply H; vm_compute; auto 9).
      cbn. rewrite E0, E1. pose proof (Rle_0_sqr (z (GT 0 0) - z (GT 1 0))). pose proof (Rle_0_sqr (z (GT 1 0))).
      unfold Rsqr in *. lra. }
  split.
  { intros z. unfold quadForm. cbn. pose proof (Rle_0_sqr (z (GS 0))). pose proof (Rle_0_sqr (z (GL 0))). unfold Rsqr in *. lra. }
  do 2 (split; auto). split; [exact (proj1 exPoIn1_ok)|]. split; [exact (proj2 exPoIn1_ok)|].
  split; [exact (margin_positive _ _ 1 Rlt_0_1 H7)|].
  intros g h Hg Hh. cbn in Hg, Hh.
  destruct Hg as [<-|[<-|[<-|[<-|[<-|[]]]]]]; destruct Hh as [<-|[<-|[<-|[<-|[<-|[]]]]]]; cbn; split; intros; lra || congruence.
Qed.

Example C84_tridiagonal_example :
  let A := [cellR 2; cellR (-3)] in let A' := [cellR 3; cellR (-2)] in let B := [cellR 7] in
  let rows := list_prod (seq 0 (1 + 1)) (seq 0 1) in
  let M := fun A B wA wB (r c : nat * nat) => triMatAt Or A B wA wB (fst r) (snd r) (fst c) (snd c) in
  let A1 := [cellR 2; cellR 2] in let A1' := [cellR 2; cellR 5] in let B1 := [cellR 1] in
  spOf ex11 1 1 /\ validPerm 1 [0]%nat /\
  inputTri Or 1 1 A B [[2]; [-3]] [[7]] /\ declaredTri ex11 ex11 1 A B /\
  inputTri Or 1 1 A' B [[3]; [-2]] [[7]] /\ declaredTri ex11 ex11 1 A' B /\
  splitDef rows (fun r => Nat.eqb (fst r) 0) (M A B [[2]; [-3]] [[7]]) /\
  splitDef rows (fun r => Nat.eqb (fst r) 0) (M A' B [[3]; [-2]] [[7]]) /\
  formBelow rows (M A B [[2]; [-3]] [[7]]) (M A' B [[3]; [-2]] [[7]]) /\
  inputTri Or 1 1 A1 B1 [[2]; [2]] [[1]] /\ declaredTri ex11 ex11 1 A1 B1 /\
  inputTri Or 1 1 A1' B1 [[2]; [5]] [[1]] /\ declaredTri ex11 ex11 1 A1' B1 /\
  positiveDef rows (M A1 B1 [[2]; [2]] [[1]]) /\
  largerDiagonal rows (M A1 B1 [[2]; [2]] [[1]]) (M A1' B1 [[2]; [5]] [[1]]).
Proof.
  destruct C79_tridiagonal_example as (H1 & H2 & H3 & H4 & H5 & H6 & H7 & H8). cbv zeta. do 4 (split; auto).
  split.
  { constructor; try reflexivity.
    - intros [|[|t]] H; try lia; apply cellR_ok.
    - intros [|t] H; try lia; apply cellR_ok. }
  split.
  { split.
    - intros [|[|t]] H; try lia; intros r c Hin _; exact Hin.
    - intros [|t] H; try lia; intros r c Hin; exact Hin. }
  split; [exact (margin_split _ _ _ 1 Rlt_0_1 H5)|]. split.
  { apply (margin_split _ _ _ 1 Rlt_0_1). intros z. unfold quadForm, squares. split; intros H.
    - assert (E : z (1, 0)%nat = 0) by (apply H; cbn; auto). cbn. rewrite E.
      pose proof (Rle_0_sqr (z (0, 0)%nat)). unfold Rsqr in *. lra.
    - assert (E : z (0, 0)%nat = 0) by (apply H; cbn; auto). cbn. rewrite E.
      pose proof (Rle_0_sqr (z (1, 0)%nat)). unfold Rsqr in *. lra. }
  split.
  { intros z. unfold quadForm. cbn. pose proof (Rle_0_sqr (z (0, 0)%nat)). pose proof (Rle_0_sqr (z (1, 0)%nat)). unfold Rsqr in *. lra. }
  do 2 (split; auto). split.
  { constructor; try reflexivity.
    - intros [|[|t]] H; try lia; apply cellR_ok.
    - intros [|t] H; try lia; apply cellR_ok. }
  split.
  { split.
    - intros [|[|t]] H; try lia; intros r c Hin _; exact Hin.
    - intros [|t] H; try lia; intros r c Hin; exact Hin. }
  split; [exact (margin_positive _ _ 1 Rlt_0_1 H8)|].
  intros g h Hg Hh. cbn in Hg, Hh.
  destruct Hg as [<-|[<-|[]]]; destruct Hh as [<-|[<-|[]]]; cbn; split; intros; lra || congruence.
Qed.
