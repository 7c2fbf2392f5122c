(** Property C49: matrices with non-positive off-diagonal entries and positive pivots
    have factors with non-positive off-diagonal entries, and right hand sides without
    negative elements have solutions without negative elements; with rounding as well. *)
From Coq Require Import List Arith Lia Bool ZArith QArith Qcanon Reals.
From Flocq Require Import Core.Core BinarySingleNaN.
From Verif Require Import Base ModelPerm ModelSparsity ModelSymbolic ModelNumeric ModelArrow ModelReg ModelIeee.
From Verif Require Import SpecSymbolic SpecArrow SpecNumeric SpecArrowNum SpecPivot SpecSign.
From Verif Require Import ExampleData ExampleArrow ExamplePivot ExampleIeee.
From Verif Require Import ProofSign ProofSignIeee ProofPropSign PropSingle PropPivot.
Import ListNotations.
Local Open Scope nat_scope.

(** ** The arithmetic: ordered fields and IEEE numbers of every precision *)

Theorem C49_field_signs :
  forall {F : Type} {O : ops F} {FL : fieldLaws O} (OL : ordLaws FL),
  signRules O (fun _ => True) (ol_pos OL) (atLeast0 OL) (atMost0 OL).
Proof. exact @field_signs. Qed.
Print Assumptions C49_field_signs.

Theorem C49_ieee_signs :
  forall prec emax (Hp : Prec_gt_0 prec) (Hm : Prec_lt_emax prec emax),
  signRules (ieeeOps prec emax Hp Hm) (ieeeFinite prec emax)
    (fun x => 0 < ieeeVal prec emax x)%R (fun x => 0 <= ieeeVal prec emax x)%R
    (fun x => ieeeVal prec emax x <= 0)%R.
Proof. exact ieee_signs. Qed.
Print Assumptions C49_ieee_signs.

(** ** Whatever the regularization, and even if the factorization is inaccurate *)

Theorem C49_signs :
  forall {F : Type} (O : ops F) fin pos nonneg nonpos, signRules O fin pos nonneg nonpos ->
  forall s n p b,
  spOf s n n -> validPerm n p -> factorizationBlk s p = Ok b ->
  forall mt a vals m reg L0 D0 L D,
  spOf a n n -> inputOf O m a vals -> coveredSym (entries a) (entries s) n p ->
  length L0 = c_nnz (b_sp b) -> length D0 = n ->
  factorize O mt b (Some m) reg (L0, D0) = Ok (L, D) ->
  (forall i j, i < n -> j < n -> i <> j -> nonpos (symAt O (entries a) vals i j)) ->
  (forall i, i < n -> fin (vecAt O D i) /\ pos (vecAt O D i)) ->
  (forall i j, i < n -> j < n ->
     fin (denseAt O (c_entries (b_sp b)) L i j) -> nonpos (denseAt O (c_entries (b_sp b)) L i j)) /\
  forall rhs, length rhs = n -> (forall i, i < n -> nonneg (vecAt O rhs i)) ->
  exists x, solveInPlace O b (L, D) rhs = Ok x /\ length x = n /\
    ((forall i, i < n -> fin (vecAt O x i)) -> forall i, i < n -> nonneg (vecAt O x i)).
Proof. exact @single_signs. Qed.
Print Assumptions C49_signs.

Theorem C49_arrowhead_signs :
  forall {F : Type} (O : ops F) fin pos nonneg nonpos, signRules O fin pos nonneg nonpos ->
  forall s ds dt dl dO k n,
  arrowDims s ds dt dl dO -> arrowBlocks s = Ok k ->
  forall mt m w reg d0 d,
  inputArrow O n ds dt dl dO m w -> declaredArrow s n m -> dataOf k n ds dt dl dO d0 ->
  arrowFactorize O mt k m reg d0 = Ok d ->
  let all := allIdx n ds dt dl dO in
  (forall g h, In g all -> In h all -> g <> h -> nonpos (matAt O m w g h)) ->
  (forall g, In g all -> fin (pivotAt O d g) /\ pos (pivotAt O d g)) ->
  (forall g h, In g all -> In h all -> g <> h ->
     fin (factorAt O (o0 O) k d g h) -> nonpos (factorAt O (o0 O) k d g h)) /\
  forall rhs, vecOf n ds dt dl dO rhs -> (forall g, In g all -> nonneg (gvecAt O rhs g)) ->
  exists x, arrowSolveInPlace O k d rhs = Ok x /\ vecOf n ds dt dl dO x /\
    ((forall g, In g all -> fin (gvecAt O x g)) -> forall g, In g all -> nonneg (gvecAt O x g)).
Proof. exact @arrow_signs. Qed.
Print Assumptions C49_arrowhead_signs.

Theorem C49_tridiagonal_signs :
  forall {F : Type} (O : ops F) fin pos nonneg nonpos, signRules O fin pos nonneg nonpos ->
  forall a b p dt n k,
  spOf a dt dt -> spOf b dt dt -> validPerm dt p -> tridiagonalBlocks a b p = Ok k ->
  forall mt A B wA wB reg d0 d,
  inputTri O n dt A B wA wB -> declaredTri a b n A B -> dataOf k n 0 dt 0 0 d0 ->
  tridiagonalFactorize O mt k dt A B reg d0 = Ok d ->
  (forall t i u j, t < n + 1 -> i < dt -> u < n + 1 -> j < dt -> (t, i) <> (u, j) ->
     nonpos (triMatAt O A B wA wB t i u j)) ->
  (forall t i, t < n + 1 -> i < dt -> fin (pivotAt O d (GT t i)) /\ pos (pivotAt O d (GT t i))) ->
  (forall t i u j, t < n + 1 -> i < dt -> u < n + 1 -> j < dt -> (t, i) <> (u, j) ->
     fin (factorAt O (o0 O) k d (GT t i) (GT u j)) ->
     nonpos (factorAt O (o0 O) k d (GT t i) (GT u j))) /\
  forall rhs, blocksOf n dt rhs ->
  (forall t i, t < n + 1 -> i < dt -> nonneg (vecAt O (nth t rhs []) i)) ->
  exists x, tridiagonalSolveInPlace O k d rhs = Ok x /\ blocksOf n dt x /\
    ((forall t i, t < n + 1 -> i < dt -> fin (vecAt O (nth t x []) i)) ->
     forall t i, t < n + 1 -> i < dt -> nonneg (vecAt O (nth t x []) i)).
Proof. exact @tri_signs. Qed.
Print Assumptions C49_tridiagonal_signs.

(** ** Exact arithmetic: positive definite matrices *)

Theorem C49_positive_definite :
  forall {F : Type} (O : ops F) (FL : fieldLaws O) (OL : ordLaws FL) mt s n p a vals m,
  spOf s n n -> validPerm n p ->
  spOf a n n -> inputOf O m a vals -> coveredSym (entries a) (entries s) n p ->
  posDef OL (seq 0 n) (symAt O (entries a) vals) ->
  (forall i j, i < n -> j < n -> i <> j -> atMost0 OL (symAt O (entries a) vals i j)) ->
  exists b, factorizationBlk s p = Ok b /\
    forall L0 D0, length L0 = c_nnz (b_sp b) -> length D0 = n ->
    exists L D, factorize O mt b (Some m) regularizationNone (L0, D0) = Ok (L, D) /\
      (forall i j, i < n -> j < n -> atMost0 OL (denseAt O (c_entries (b_sp b)) L i j)) /\
      forall rhs, length rhs = n -> (forall i, i < n -> atLeast0 OL (vecAt O rhs i)) ->
      exists x, solveInPlace O b (L, D) rhs = Ok x /\ length x = n /\
        (forall i, i < n -> matVec O n (symAt O (entries a) vals) x i = vecAt O rhs i) /\
        (forall i, i < n -> atLeast0 OL (vecAt O x i)).
Proof. exact @single_stieltjes. Qed.
Print Assumptions C49_positive_definite.

Theorem C49_arrowhead_positive_definite :
  forall {F : Type} (O : ops F) (FL : fieldLaws O) (OL : ordLaws FL) mt s ds dt dl dO n m w,
  arrowDims s ds dt dl dO -> inputArrow O n ds dt dl dO m w -> declaredArrow s n m ->
  let all := allIdx n ds dt dl dO in
  posDef OL all (matAt O m w) ->
  (forall g h, In g all -> In h all -> g <> h -> atMost0 OL (matAt O m w g h)) ->
  exists k, arrowBlocks s = Ok k /\
    forall d0, dataOf k n ds dt dl dO d0 ->
    exists d, arrowFactorize O mt k m regularizationNone d0 = Ok d /\ dataOf k n ds dt dl dO d /\
      (forall g h, In g all -> In h all -> g <> h -> atMost0 OL (factorAt O (o0 O) k d g h)) /\
      forall rhs, vecOf n ds dt dl dO rhs -> (forall g, In g all -> atLeast0 OL (gvecAt O rhs g)) ->
      exists x, arrowSolveInPlace O k d rhs = Ok x /\ vecOf n ds dt dl dO x /\
        (forall g, In g all -> gmatVec O all (matAt O m w) (gvecAt O x) g = gvecAt O rhs g) /\
        (forall g, In g all -> atLeast0 OL (gvecAt O x g)).
Proof. exact @arrow_stieltjes. Qed.
Print Assumptions C49_arrowhead_positive_definite.

Theorem C49_tridiagonal_positive_definite :
  forall {F : Type} (O : ops F) (FL : fieldLaws O) (OL : ordLaws FL) mt a b p dt n A B wA wB,
  spOf a dt dt -> spOf b dt dt -> validPerm dt p ->
  inputTri O n dt A B wA wB -> declaredTri a b n A B ->
  posDef OL (list_prod (seq 0 (n + 1)) (seq 0 dt))
    (fun r c => triMatAt O A B wA wB (fst r) (snd r) (fst c) (snd c)) ->
  (forall t i u j, t < n + 1 -> i < dt -> u < n + 1 -> j < dt -> (t, i) <> (u, j) ->
     atMost0 OL (triMatAt O A B wA wB t i u j)) ->
  exists k, tridiagonalBlocks a b p = Ok k /\
    forall d0, dataOf k n 0 dt 0 0 d0 ->
    exists d, tridiagonalFactorize O mt k dt A B regularizationNone d0 = Ok d /\
      dataOf k n 0 dt 0 0 d /\
      (forall t i u j, t < n + 1 -> i < dt -> u < n + 1 -> j < dt -> (t, i) <> (u, j) ->
         atMost0 OL (factorAt O (o0 O) k d (GT t i) (GT u j))) /\
      forall rhs, blocksOf n dt rhs ->
      (forall t i, t < n + 1 -> i < dt -> atLeast0 OL (vecAt O (nth t rhs []) i)) ->
      exists x, tridiagonalSolveInPlace O k d rhs = Ok x /\ blocksOf n dt x /\
        (forall t i, t < n + 1 -> i < dt ->
           triMatVec O n dt (triMatAt O A B wA wB) x t i = vecAt O (nth t rhs []) i) /\
        (forall t i, t < n + 1 -> i < dt -> atLeast0 OL (vecAt O (nth t x []) i)).
Proof. exact @tri_stieltjes. Qed.
Print Assumptions C49_tridiagonal_positive_definite.

(** ** Examples *)

(** signs of doubles, as shown by posb_ok, nonnegb_ok and nonposb_ok *)
Definition posb (x : double) : bool := match x with B754_finite false _ _ _ => true | _ => false end.
Definition nonnegb (x : double) : bool := match x with B754_zero _ | B754_finite false _ _ _ => true | _ => false end.
Definition nonposb (x : double) : bool := match x with B754_zero _ | B754_finite true _ _ _ => true | _ => false end.
Lemma posb_ok x : posb x = true -> ieeeFinite 53 1024 x /\ (0 < ieeeVal 53 1024 x)%R.
Proof.
  destruct x as [s| | |[] m e H]; try discriminate. intros _. split; [reflexivity|].
  unfold ieeeVal, B2R. apply F2R_gt_0. reflexivity.
Qed.
Lemma nonnegb_ok x : nonnegb x = true -> ieeeFinite 53 1024 x /\ (0 <= ieeeVal 53 1024 x)%R.
Proof.
  destruct x as [s| | |[] m e H]; try discriminate; intros _; (split; [reflexivity|]).
  - apply Rle_refl.
  - unfold ieeeVal, B2R. apply F2R_ge_0. cbn. lia.
Qed.
Lemma nonposb_ok x : nonposb x = true -> ieeeFinite 53 1024 x /\ (ieeeVal 53 1024 x <= 0)%R.
Proof.
  destruct x as [s| | |[] m e H]; try discriminate; intros _; (split; [reflexivity|]).
  - apply Rle_refl.
  - unfold ieeeVal, B2R. apply F2R_le_0. cbn. lia.
Qed.

(** The matrix of the other examples with negative entries beside the diagonal, in double
    precision. The right hand side contains the smallest positive double. *)
Definition exNVals : list Z := [4; -1; 5; -2; 6; -1; 7]%Z.
Definition exNM : mat := matD exS exNVals.
Lemma exNM_ok : inputOf Od exNM exS (dzs exNVals).
Proof. apply matD_input. reflexivity. Qed.

Example C49_example :
  forallb (fun i => forallb (fun j => (i =? j) || nonposb (symAt Od (entries exS) (dzs exNVals) i j))
    (seq 0 4)) (seq 0 4) = true /\
  match factorize Od UpLooking exB (Some exNM) regularizationNone (exLd0, exDd0) with
  | Ok (L, D) => forallb posb D = true /\ forallb nonposb L = true /\
      match solveInPlace Od exB (L, D) [dz 1; dz 0; dbl 1 (-1074); dz 0] with
      | Ok x => forallb nonnegb x = true
      | Err _ => False
      end
  | Err _ => False
  end /\
  (* positive entries beside the diagonal: a negative element in the solution *)
  match factorize Od UpLooking exB (Some exMd) regularizationNone (exLd0, exDd0) with
  | Ok (L, D) => forallb posb D = true /\ forallb nonposb L = false /\
      match solveInPlace Od exB (L, D) [dz 1; dz 0; dz 0; dz 0] with
      | Ok x => forallb nonnegb x = false
      | Err _ => False
      end
  | Err _ => False
  end.
Proof. vm_compute. repeat split; reflexivity. Qed.

(** its positive definiteness in exact arithmetic *)
Definition exNMq : mat := ExampleData.matOf exS exNVals.
Lemma exNMq_ok : inputOf Oq exNMq exS (qs exNVals).
Proof. apply matOf_input. reflexivity. Qed.
Definition exNF : list Qc * list Qc :=
  match factorize Oq UpLooking exB (Some exNMq) regularizationNone (qs [0;0;0;0;0;0]%Z, qs [0;0;0;0]%Z) with
  | Ok r => r
  | Err _ => ([], [])
  end.
Example C49_example_positive_definite :
  posDef OLq (seq 0 4) (symAt Oq (entries exS) (qs exNVals)) /\
  (forall i j, i < 4 -> j < 4 -> i <> j -> atMost0 OLq (symAt Oq (entries exS) (qs exNVals) i j)).
Proof.
  split.
  - destruct (C29_positive_pivots Oq FLq OLq UpLooking exS 4 exP exS (qs exNVals) exNMq exS_ok exP_ok exS_ok exNMq_ok)
      as (b & Eb & H).
    { apply declared_is_covered; auto using exP_ok; exact exS_ok. }
    assert (E : b = exB) by (unfold exB; rewrite Eb; reflexivity). subst b.
    apply (H (qs [0;0;0;0;0;0]%Z) (qs [0;0;0;0]%Z) eq_refl eq_refl).
    exists (fst exNF), (snd exNF). split; [vm_compute; reflexivity|].
    intros [|[|[|[|i]]]] Hi; try lia; vm_compute; reflexivity.
  - intros i j Hi Hj N.
    destruct i as [|[|[|[|i]]]]; try lia; destruct j as [|[|[|[|j]]]]; try lia;
      try (left; apply Qc_is_canon; reflexivity); right; vm_compute; reflexivity.
Qed.

(** an arrowhead system and its tridiagonal part in double precision *)
Definition exNTd : list (list Z) := [[7;9;5;-1]; [17;9;8;-1]; [17;9;8;0]]%Z.
Definition exNTs : list (list Z) := [[-1;-2]; [-1;-2]]%Z.
Definition exNOs : list (list Z) := [[-3]; [-4]; [-5]]%Z.
Definition exNIn : arrow_mat (F:=double) := mkAM
  (matD (ss_diag (as_start exA)) [7;-1;5]%Z)
  (matD (ss_next (as_start exA)) [-2;-3]%Z)
  (matD (ss_outer (as_start exA)) [-4]%Z)
  (map (matD (st_diag (as_tri exA))) exNTd)
  (map (matD (st_subdiag (as_tri exA))) exNTs)
  (matD (sl_prev (as_link exA)) [-3]%Z)
  (matD (sl_diag (as_link exA)) [7;9;-5]%Z)
  (matD (sl_next (as_link exA)) [-2]%Z)
  (map (matD (so_subdiag (as_outer exA))) exNOs)
  (matD (so_diag (as_outer exA)) [17;19]%Z).
Definition exNW : arrow_vals double := mkVals (dzs [7;-1;5]%Z) (dzs [-2;-3]%Z) (dzs [-4]%Z)
  (map dzs exNTd) (map dzs exNTs) (dzs [-3]%Z) (dzs [7;9;-5]%Z) (dzs [-2]%Z) (map dzs exNOs) (dzs [17;19]%Z).
Lemma exNIn_ok : inputArrow Od 2 2 3 2 2 exNIn exNW.
Proof.
  constructor; try (apply dmat; reflexivity); try reflexivity.
  - intros [|[|[|t]]] H; try lia; apply dmat; reflexivity.
  - intros [|[|t]] H; try lia; apply dmat; reflexivity.
  - intros [|[|[|t]]] H; try lia; apply dmat; reflexivity.
Qed.
Lemma exNIn_declared : declaredArrow exA 2 exNIn.
Proof.
  constructor; try (intros r c H; exact H); try (intros r c H _; exact H).
  - intros [|[|[|t]]] Ht r c H _; try lia; exact H.
  - intros [|[|t]] Ht r c H; try lia; exact H.
  - intros [|[|[|t]]] Ht r c H; try lia; exact H.
Qed.
Lemma exNT_ok : inputTri Od 2 3 (a_td exNIn) (a_ts exNIn) (w_td exNW) (w_ts exNW).
Proof. constructor; try reflexivity; apply exNIn_ok. Qed.

Definition offDiag {A} (f : gidx -> gidx -> A) (p : A -> bool) (l : list gidx) : bool :=
  forallb (fun g => forallb (fun h => (if gidx_eq_dec g h then true else p (f g h))) l) l.

Example C49_arrowhead_example :
  let all := allIdx 2 2 3 2 2 in
  offDiag (matAt Od exNIn exNW) nonposb all = true /\
  match arrowFactorize Od EntryWise exK exNIn regularizationNone exDD with
  | Ok d => forallb (fun g => posb (pivotAt Od d g)) all = true /\
      offDiag (factorAt Od (o0 Od) exK d) nonposb all = true /\
      match arrowSolveInPlace Od exK d exXD with
      | Ok x => forallb (fun g => nonnegb (gvecAt Od x g)) all = true
      | Err _ => False
      end
  | Err _ => False
  end /\
  let tri := allIdx 2 0 3 0 0 in
  match tridiagonalFactorize Od UpLooking exTK 3 (a_td exNIn) (a_ts exNIn) regularizationNone exTDd with
  | Ok d => forallb (fun g => posb (pivotAt Od d g)) tri = true /\
      offDiag (factorAt Od (o0 Od) exTK d) nonposb tri = true /\
      match tridiagonalSolveInPlace Od exTK d (v_tri exXD) with
      | Ok x => forallb (forallb nonnegb) x = true
      | Err _ => False
      end
  | Err _ => False
  end.
Proof. vm_compute. repeat split; reflexivity. Qed.
