(** Property C50: strictly diagonally dominant matrices are factorized without breakdown
    in every order, and each pivot has the sign of its diagonal entry. *)
From Coq Require Import List Arith Lia Bool QArith Qcanon.
From Verif Require Import Base ModelPerm ModelSparsity ModelSymbolic ModelNumeric ModelArrow ModelReg.
From Verif Require Import SpecSymbolic SpecArrow SpecNumeric SpecArrowNum SpecPivot SpecInertia SpecDominant.
From Verif Require Import ExampleData ExampleArrow ExamplePivot.
From Verif Require Import ProofPropDominant PropSingle PropPivot.
Import ListNotations.
Local Open Scope nat_scope.

Theorem C50_dominant :
  forall {F : Type} (O : ops F) (FL : fieldLaws O) (OL : ordLaws FL) mt s n p a vals m,
  spOf s n n -> validPerm n p ->
  spOf a n n -> inputOf O m a vals -> coveredSym (entries a) (entries s) n p ->
  dominant OL Nat.eq_dec (seq 0 n) (symAt O (entries a) vals) ->
  exists b, factorizationBlk s p = Ok b /\
    forall L0 D0, length L0 = c_nnz (b_sp b) -> length D0 = n ->
    exists L D, factorize O mt b (Some m) regularizationNone (L0, D0) = Ok (L, D) /\
      (forall i, i < n -> hasSign OL (isPos OL (symAt O (entries a) vals (nth i p 0) (nth i p 0))) (vecAt O D i)) /\
      (forall i j, i < n -> j < n ->
         ldltAt O (fl_one FL) n (c_entries (b_sp b)) L D i j =
         symAt O (entries a) vals (nth i p 0) (nth j p 0)) /\
      forall rhs, length rhs = n ->
      exists x, solveInPlace O b (L, D) rhs = Ok x /\ length x = n /\
        (forall i, i < n -> matVec O n (symAt O (entries a) vals) x i = vecAt O rhs i) /\
        (forall x', length x' = n ->
           (forall i, i < n -> matVec O n (symAt O (entries a) vals) x' i = vecAt O rhs i) ->
           x' = x).
Proof. exact @single_dominant. Qed.
Print Assumptions C50_dominant.

Theorem C50_arrowhead_dominant :
  forall {F : Type} (O : ops F) (FL : fieldLaws O) (OL : ordLaws FL) mt s ds dt dl dO n m w,
  arrowDims s ds dt dl dO -> inputArrow O n ds dt dl dO m w -> declaredArrow s n m ->
  dominant OL gidx_eq_dec (allIdx n ds dt dl dO) (matAt O m w) ->
  exists k, arrowBlocks s = Ok k /\
    forall d0, dataOf k n ds dt dl dO d0 ->
    exists d, arrowFactorize O mt k m regularizationNone d0 = Ok d /\ dataOf k n ds dt dl dO d /\
      (forall g, In g (allIdx n ds dt dl dO) ->
         hasSign OL (isPos OL (matAt O m w (permIdx s g) (permIdx s g))) (pivotAt O d g)) /\
      (forall g h, In g (allIdx n ds dt dl dO) -> In h (allIdx n ds dt dl dO) ->
         gldltAt O (allIdx n ds dt dl dO) (factorAt O (fl_one FL) k d) (pivotAt O d) g h =
         matAt O m w (permIdx s g) (permIdx s h)) /\
      forall rhs, vecOf n ds dt dl dO rhs ->
      exists x, arrowSolveInPlace O k d rhs = Ok x /\ vecOf n ds dt dl dO x /\
        (forall g, In g (allIdx n ds dt dl dO) ->
           gmatVec O (allIdx n ds dt dl dO) (matAt O m w) (gvecAt O x) g = gvecAt O rhs g) /\
        (forall x', vecOf n ds dt dl dO x' ->
           (forall g, In g (allIdx n ds dt dl dO) ->
              gmatVec O (allIdx n ds dt dl dO) (matAt O m w) (gvecAt O x') g = gvecAt O rhs g) ->
           x' = x).
Proof. exact @arrow_dominant. Qed.
Print Assumptions C50_arrowhead_dominant.

Theorem C50_tridiagonal_dominant :
  forall {F : Type} (O : ops F) (FL : fieldLaws O) (OL : ordLaws FL) mt a b p dt n A B wA wB,
  spOf a dt dt -> spOf b dt dt -> validPerm dt p ->
  inputTri O n dt A B wA wB -> declaredTri a b n A B ->
  dominant OL pair_eq_dec (list_prod (seq 0 (n + 1)) (seq 0 dt))
    (fun r c => triMatAt O A B wA wB (fst r) (snd r) (fst c) (snd c)) ->
  exists k, tridiagonalBlocks a b p = Ok k /\
    forall d0, dataOf k n 0 dt 0 0 d0 ->
    exists d, tridiagonalFactorize O mt k dt A B regularizationNone d0 = Ok d /\
      dataOf k n 0 dt 0 0 d /\
      (forall t i, t < n + 1 -> i < dt ->
         hasSign OL (isPos OL (triMatAt O A B wA wB t (nth i p 0) t (nth i p 0))) (pivotAt O d (GT t i))) /\
      (forall t i u j, t < n + 1 -> i < dt -> u < n + 1 -> j < dt ->
         gldltAt O (allIdx n 0 dt 0 0) (factorAt O (fl_one FL) k d) (pivotAt O d) (GT t i) (GT u j) =
         triMatAt O A B wA wB t (nth i p 0) u (nth j p 0)) /\
      forall rhs, blocksOf n dt rhs ->
      exists x, tridiagonalSolveInPlace O k d rhs = Ok x /\ blocksOf n dt x /\
        (forall t i, t < n + 1 -> i < dt ->
           triMatVec O n dt (triMatAt O A B wA wB) x t i = vecAt O (nth t rhs []) i) /\
        (forall x', blocksOf n dt x' ->
           (forall t i, t < n + 1 -> i < dt ->
              triMatVec O n dt (triMatAt O A B wA wB) x' t i = vecAt O (nth t rhs []) i) ->
           x' = x).
Proof. exact @tri_dominant. Qed.
Print Assumptions C50_tridiagonal_dominant.

(** ** examples *)

Definition exDomVals : list Z := [5; 1; -5; -2; 6; 1; -7]%Z.
Definition exDomM := ExampleData.matOf exS exDomVals.
Lemma exDom_ok : dominant OLq Nat.eq_dec (seq 0 4) (symAt Oq (entries exS) (qs exDomVals)).
Proof.
  intros g Hg. apply in_seq in Hg. destruct g as [|[|[|[|g]]]]; [vm_compute; reflexivity..|lia].
Qed.

(** diagonal 5, -5, 6, -7; the order is [exP'] *)
Example C50_example :
  spOf exS 4 4 /\ validPerm 4 exP' /\ inputOf Oq exDomM exS (qs exDomVals) /\
  coveredSym (entries exS) (entries exS) 4 exP' /\
  dominant OLq Nat.eq_dec (seq 0 4) (symAt Oq (entries exS) (qs exDomVals)) /\
  map (fun i => this (symAt Oq (entries exS) (qs exDomVals) i i)) exP' = [-7; -5; 6; 5]%Q /\
  match factorize Oq EntryWise exB' (Some exDomM) regularizationNone (exL0', exD0) with
  | Ok (L, D) => map this D = [-7; -5; 6; 491 # 105]%Q
  | Err _ => False
  end.
Proof.
  split; [exact exS_ok|]. split; [exact exP'_ok|]. split; [apply matOf_input; reflexivity|].
  split; [exact exM_covered'|]. split; [exact exDom_ok|]. vm_compute. split; reflexivity.
Qed.

(** diagonal 3, -4 and -4, 4, -5 *)
Definition exDomIn : arrow_mat (F:=Qc) :=
  let c := fun v => ExampleData.matOf ex11 [v]%Z in
  mkAM (c 3%Z) (c 1%Z) (c 1%Z) [c (-4)%Z; c (-4)%Z] [c 1%Z] (c 1%Z) (c 4%Z) (c 1%Z)
    [c 1%Z; c 1%Z] (c (-5)%Z).
Definition exDomW : arrow_vals Qc :=
  let c := fun v => qs [v]%Z in
  mkVals (c 3%Z) (c 1%Z) (c 1%Z) [c (-4)%Z; c (-4)%Z] [c 1%Z] (c 1%Z) (c 4%Z) (c 1%Z)
    [c 1%Z; c 1%Z] (c (-5)%Z).
Example C50_arrowhead_example :
  arrowDims exQA 1 1 1 1 /\ inputArrow Oq 1 1 1 1 1 exDomIn exDomW /\ declaredArrow exQA 1 exDomIn /\
  dominant OLq gidx_eq_dec (allIdx 1 1 1 1 1) (matAt Oq exDomIn exDomW) /\
  match arrowFactorize Oq EntryWise exQK exDomIn regularizationNone exQD with
  | Ok d => map (fun g => this (pivotAt Oq d g)) (allIdx 1 1 1 1 1) = [3; -13 # 3; -49 # 13; 209 # 49; -1103 # 209]%Q
  | Err _ => False
  end.
Proof.
  split; [exact exQA_dims|]. split; [|split].
  - constructor; try (apply qmat; reflexivity); try reflexivity.
    + intros [|[|t]] H; try lia; apply qmat; reflexivity.
    + intros [|t] H; try lia; apply qmat; reflexivity.
    + intros [|[|t]] H; try lia; apply qmat; reflexivity.
  - constructor; try (intros r c H _; exact H); try (intros r c H; exact H).
    + intros [|[|t]] H; try lia; intros r c Hin _; exact Hin.
    + intros [|t] H; try lia; intros r c Hin; exact Hin.
    + intros [|[|t]] H; try lia; intros r c Hin; exact Hin.
  - split; [|vm_compute; reflexivity].
    intros g Hg. cbn in Hg. destruct Hg as [<-|[<-|[<-|[<-|[<-|[]]]]]]; vm_compute; reflexivity.
Qed.

Example C50_tridiagonal_example :
  spOf exTA 3 3 /\ spOf exTB 3 3 /\ validPerm 3 [2;0;1] /\
  inputTri Oq 2 3 (a_td exIn) (a_ts exIn) (w_td exW) (w_ts exW) /\
  declaredTri exTA exTB 2 (a_td exIn) (a_ts exIn) /\
  dominant OLq pair_eq_dec (list_prod (seq 0 (2 + 1)) (seq 0 3))
    (fun r c => triMatAt Oq (a_td exIn) (a_ts exIn) (w_td exW) (w_ts exW) (fst r) (snd r) (fst c) (snd c)).
Proof.
  split; [exact exT_spA|]. split; [exact exT_spB|]. split; [exact exT_perm|].
  split; [exact exT_ok|]. split; [exact exT_declared|].
  intros g Hg. cbn in Hg. repeat destruct Hg as [<-|Hg]; [vm_compute; reflexivity..|destruct Hg].
Qed.
