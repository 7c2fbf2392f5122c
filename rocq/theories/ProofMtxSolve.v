(** Reading a matrix market file, factorizing and solving. *)
From Coq Require Import String Ascii List Arith Lia Bool.
From Verif Require Import Base ModelPerm ModelSparsity ModelSymbolic ModelNumeric ModelArrow ModelReg ModelMtx.
From Verif Require Import SpecSymbolic SpecArrow SpecNumeric SpecArrowNum SpecMtx.
From Verif Require Import ProofBase ProofArrowProduct ProofPropArrow ProofMtx ProofMtxPlace ProofMtxRead.
Import ListNotations.
Local Open Scope nat_scope.
Local Open Scope list_scope.

Lemma suml_In_ext {F A} (O : ops F) (l : list A) (f g : A -> F) :
  (forall a, In a l -> f a = g a) -> suml O l f = suml O l g.
Proof.
  induction l as [|a l IH]; intros H; auto. unfold suml in *. cbn [fold_right].
  rewrite (H a) by (left; auto). rewrite IH; auto. intros. apply H. right. auto.
Qed.

Theorem solve_file {F : Type} (O : ops F) (FL : fieldLaws O) mt s ds dt dl dO k n
    scan_header scan_entry lines es d0 m d rhs :
  arrowDims s ds dt dl dO -> 0 < dt -> arrowBlocks s = Ok k ->
  fileIs scan_header scan_entry lines (totalRows n ds dt dl dO) (totalRows n ds dt dl dO) es ->
  Forall (declaredEntry s n ds dt dl dO) es ->
  Forall (fun e => ~ misreadEntry n ds dt dl dO e) es ->
  mtxFileRead O scan_header scan_entry s lines = Ok m ->
  dataOf k n ds dt dl dO d0 ->
  arrowFactorize O mt k (ma_mat m) regularizationNone d0 = Ok d ->
  (forall g, In g (allIdx n ds dt dl dO) -> pivotAt O d g <> o0 O) ->
  vecOf n ds dt dl dO rhs ->
  exists x, arrowSolveInPlace O k d rhs = Ok x /\ vecOf n ds dt dl dO x /\
    (forall g, In g (allIdx n ds dt dl dO) ->
       suml O (allIdx n ds dt dl dO) (fun h =>
         omul O (fileAt O es (posOf n ds dt dl g) (posOf n ds dt dl h)) (gvecAt O x h)) =
       gvecAt O rhs g).
Proof.
  intros AD Hdt EK HF HD HM ER D0 EF NZ HV.
  destruct (read_file O s n ds dt dl dO AD Hdt scan_header scan_entry lines es HF HD HM)
    as (m' & E & IA & DA & V).
  rewrite ER in E. injection E as <-.
  destruct (arrow_solves_none O FL mt s ds dt dl dO k n (ma_mat m) (mtxVals m) d0 d rhs
              AD EK IA DA D0 EF NZ HV) as (x & EX & VX & HX & _).
  exists x. split; auto. split; auto. intros g Hg. rewrite <- HX by auto.
  unfold gmatVec. apply suml_In_ext. intros h Hh. rewrite V by auto. reflexivity.
Qed.
