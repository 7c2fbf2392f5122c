(** Property C52: the results do not depend on which zeros are declared or stored. *)
From Coq Require Import List Arith Lia Bool ZArith Reals QArith Qcanon.
From Flocq Require Import BinarySingleNaN.
From Verif Require Import Base ModelPerm ModelSparsity ModelSymbolic ModelNumeric ModelArrow ModelReg ModelIeee.
From Verif Require Import SpecSymbolic SpecArrow SpecNumeric SpecArrowNum SpecAgree.
From Verif Require Import ExampleData ExampleArrow ExampleIeee.
From Verif Require Import ProofAgree ProofPropAgree ProofAgreeDense ProofAgreeArrow ProofAgreeIeee PropSingle.
Import ListNotations.
Local Open Scope nat_scope.

Theorem C52_sparsity_irrelevant :
  forall {F : Type} (O : ops F) (fin : F -> Prop) (same : F -> F -> Prop),
  sameRules O fin same ->
  forall s1 s2 n p b1 b2,
  spOf s1 n n -> spOf s2 n n -> validPerm n p ->
  factorizationBlk s1 p = Ok b1 -> factorizationBlk s2 p = Ok b2 ->
  forall mt reg a1 vals1 m1 a2 vals2 m2 L01 D01 L02 D02 L1 D1,
  spOf a1 n n -> inputOf O m1 a1 vals1 -> coveredSym (entries a1) (entries s1) n p ->
  spOf a2 n n -> inputOf O m2 a2 vals2 -> coveredSym (entries a2) (entries s2) n p ->
  (forall i j, i < n -> j < n ->
     agree same (symAt O (entries a1) vals1 i j) (symAt O (entries a2) vals2 i j)) ->
  regSame fin same reg ->
  length L01 = c_nnz (b_sp b1) -> length D01 = n ->
  length L02 = c_nnz (b_sp b2) -> length D02 = n ->
  factorize O mt b1 (Some m1) reg (L01, D01) = Ok (L1, D1) ->
  (forall i, i < n -> fin (vecAt O D1 i) /\ ~ same (vecAt O D1 i) (o0 O)) ->
  (forall i j, i < n -> j < n -> fin (denseAt O (c_entries (b_sp b1)) L1 i j)) ->
  exists L2 D2, factorize O mt b2 (Some m2) reg (L02, D02) = Ok (L2, D2) /\
    (forall i, i < n -> same (vecAt O D1 i) (vecAt O D2 i)) /\
    (forall i j, i < n -> j < n ->
       same (denseAt O (c_entries (b_sp b1)) L1 i j) (denseAt O (c_entries (b_sp b2)) L2 i j)) /\
    forall rhs, length rhs = n ->
    exists x1 x2, solveInPlace O b1 (L1, D1) rhs = Ok x1 /\ solveInPlace O b2 (L2, D2) rhs = Ok x2 /\
      length x1 = n /\ length x2 = n /\
      ((forall i, i < n -> fin (vecAt O x1 i)) -> forall i, i < n -> same (vecAt O x1 i) (vecAt O x2 i)).
Proof. exact @single_agree. Qed.
Print Assumptions C52_sparsity_irrelevant.

Theorem C52_dense :
  forall {F : Type} (O : ops F) (fin : F -> Prop) (same : F -> F -> Prop),
  sameRules O fin same ->
  forall s n p b,
  spOf s n n -> validPerm n p -> factorizationBlk s p = Ok b ->
  forall mt reg a vals m L0 D0,
  spOf a n n -> inputOf O m a vals -> coveredSym (entries a) (entries s) n p ->
  regSame fin same reg ->
  length L0 = c_nnz (b_sp b) -> length D0 = n ->
  exists L D, factorize O mt b (Some m) reg (L0, D0) = Ok (L, D) /\
    forall Ld Sd Dd,
    denseLDL O mt reg n (fun i j => symAt O (entries a) vals (nth i p 0) (nth j p 0)) Ld Sd Dd ->
    ((forall i, i < n -> fin (vecAt O D i) /\ ~ same (vecAt O D i) (o0 O)) /\
     (forall i j, j < i -> i < n -> fin (denseAt O (c_entries (b_sp b)) L i j))) \/
    ((forall i, i < n -> fin (Dd i) /\ ~ same (Dd i) (o0 O)) /\
     (forall i j, j < i -> i < n -> fin (Ld i j))) ->
    (forall i, i < n -> same (vecAt O D i) (Dd i)) /\
    (forall i j, j < i -> i < n -> same (denseAt O (c_entries (b_sp b)) L i j) (Ld i j)).
Proof. exact @single_dense. Qed.
Print Assumptions C52_dense.

Theorem C52_dense_exists :
  forall {F : Type} (O : ops F) mt reg n A,
  exists L S D, denseLDL O mt reg n A L S D.
Proof. exact @dense_exists. Qed.
Print Assumptions C52_dense_exists.

Theorem C52_dense_unique :
  forall {F : Type} (O : ops F) mt reg n A L S D L' S' D',
  denseLDL O mt reg n A L S D -> denseLDL O mt reg n A L' S' D' ->
  (forall i j, j < i -> i < n -> L i j = L' i j) /\ (forall i, i < n -> D i = D' i).
Proof. exact @dense_unique. Qed.
Print Assumptions C52_dense_unique.

Theorem C52_arrowhead_sparsity_irrelevant :
  forall {F : Type} (O : ops F) (fin : F -> Prop) (same : F -> F -> Prop),
  sameRules O fin same ->
  forall s1 s2 ds dt dl dO k1 k2 n,
  arrowDims s1 ds dt dl dO -> arrowDims s2 ds dt dl dO ->
  arrowBlocks s1 = Ok k1 -> arrowBlocks s2 = Ok k2 ->
  forall mt reg m1 w1 m2 w2 d01 d02 d1,
  let all := allIdx n ds dt dl dO in
  (forall g, In g all -> permIdx s1 g = permIdx s2 g) ->
  inputArrow O n ds dt dl dO m1 w1 -> declaredArrow s1 n m1 ->
  inputArrow O n ds dt dl dO m2 w2 -> declaredArrow s2 n m2 ->
  (forall g h, In g all -> In h all -> agree same (matAt O m1 w1 g h) (matAt O m2 w2 g h)) ->
  regSame fin same reg ->
  dataOf k1 n ds dt dl dO d01 -> dataOf k2 n ds dt dl dO d02 ->
  arrowFactorize O mt k1 m1 reg d01 = Ok d1 ->
  (forall g, In g all -> fin (pivotAt O d1 g) /\ ~ same (pivotAt O d1 g) (o0 O)) ->
  (forall g h, In g all -> In h all -> g <> h -> fin (factorAt O (o0 O) k1 d1 g h)) ->
  exists d2, arrowFactorize O mt k2 m2 reg d02 = Ok d2 /\
    (forall g, In g all -> same (pivotAt O d1 g) (pivotAt O d2 g)) /\
    (forall g h, In g all -> In h all -> g <> h ->
       same (factorAt O (o0 O) k1 d1 g h) (factorAt O (o0 O) k2 d2 g h)) /\
    forall rhs, vecOf n ds dt dl dO rhs ->
    exists x1 x2, arrowSolveInPlace O k1 d1 rhs = Ok x1 /\ arrowSolveInPlace O k2 d2 rhs = Ok x2 /\
      vecOf n ds dt dl dO x1 /\ vecOf n ds dt dl dO x2 /\
      ((forall g, In g all -> fin (gvecAt O x1 g)) ->
       forall g, In g all -> same (gvecAt O x1 g) (gvecAt O x2 g)).
Proof. exact @arrow_agree. Qed.
Print Assumptions C52_arrowhead_sparsity_irrelevant.

Theorem C52_tridiagonal_sparsity_irrelevant :
  forall {F : Type} (O : ops F) (fin : F -> Prop) (same : F -> F -> Prop),
  sameRules O fin same ->
  forall a1 c1 a2 c2 p dt n k1 k2,
  spOf a1 dt dt -> spOf c1 dt dt -> spOf a2 dt dt -> spOf c2 dt dt -> validPerm dt p ->
  tridiagonalBlocks a1 c1 p = Ok k1 -> tridiagonalBlocks a2 c2 p = Ok k2 ->
  forall mt reg A1 B1 wA1 wB1 A2 B2 wA2 wB2 d01 d02 d1,
  inputTri O n dt A1 B1 wA1 wB1 -> declaredTri a1 c1 n A1 B1 ->
  inputTri O n dt A2 B2 wA2 wB2 -> declaredTri a2 c2 n A2 B2 ->
  (forall t i u j, t < n + 1 -> i < dt -> u < n + 1 -> j < dt ->
     agree same (triMatAt O A1 B1 wA1 wB1 t i u j) (triMatAt O A2 B2 wA2 wB2 t i u j)) ->
  regSame fin same reg ->
  dataOf k1 n 0 dt 0 0 d01 -> dataOf k2 n 0 dt 0 0 d02 ->
  tridiagonalFactorize O mt k1 dt A1 B1 reg d01 = Ok d1 ->
  (forall t i, t < n + 1 -> i < dt -> fin (pivotAt O d1 (GT t i)) /\ ~ same (pivotAt O d1 (GT t i)) (o0 O)) ->
  (forall t i u j, t < n + 1 -> i < dt -> u < n + 1 -> j < dt -> (t, i) <> (u, j) ->
     fin (factorAt O (o0 O) k1 d1 (GT t i) (GT u j))) ->
  exists d2, tridiagonalFactorize O mt k2 dt A2 B2 reg d02 = Ok d2 /\
    (forall t i, t < n + 1 -> i < dt -> same (pivotAt O d1 (GT t i)) (pivotAt O d2 (GT t i))) /\
    (forall t i u j, t < n + 1 -> i < dt -> u < n + 1 -> j < dt -> (t, i) <> (u, j) ->
       same (factorAt O (o0 O) k1 d1 (GT t i) (GT u j)) (factorAt O (o0 O) k2 d2 (GT t i) (GT u j))) /\
    forall rhs, blocksOf n dt rhs ->
    exists x1 x2, tridiagonalSolveInPlace O k1 d1 rhs = Ok x1 /\ tridiagonalSolveInPlace O k2 d2 rhs = Ok x2 /\
      blocksOf n dt x1 /\ blocksOf n dt x2 /\
      ((forall t i, t < n + 1 -> i < dt -> fin (vecAt O (nth t x1 []) i)) ->
       forall t i, t < n + 1 -> i < dt -> same (vecAt O (nth t x1 []) i) (vecAt O (nth t x2 []) i)).
Proof. exact @tri_agree. Qed.
Print Assumptions C52_tridiagonal_sparsity_irrelevant.

(** exact arithmetic: all scalars are finite, equal values are equal *)
Theorem C52_field :
  forall {F : Type} (O : ops F) (FL : fieldLaws O), sameRules O (fun _ => True) eq.
Proof. exact @field_same. Qed.
Print Assumptions C52_field.

(** IEEE arithmetic: numbers of the same value, which may be zeros of different signs *)
Theorem C52_ieee :
  forall prec emax (Hp : FLX.Prec_gt_0 prec) (Hm : Prec_lt_emax prec emax),
  sameRules (ieeeOps prec emax Hp Hm) (ieeeFinite prec emax)
    (fun a b => ieeeFinite prec emax a /\ ieeeFinite prec emax b /\ ieeeVal prec emax a = ieeeVal prec emax b).
Proof. exact ieee_same. Qed.
Print Assumptions C52_ieee.

(** the library's regularizations: none ... *)
Theorem C52_regularization_none :
  forall {F : Type} (fin : F -> Prop) (same : F -> F -> Prop), regSame fin same regularizationNone.
Proof. intros F fin same i v. unfold regularizationNone. auto. Qed.
Print Assumptions C52_regularization_none.

(** ... and the small positive constant, whatever std::pow returns *)
Theorem C52_regularization_constant :
  forall prec emax (S : scalarFns (ieee prec emax)),
  fn_abs S = Babs -> fn_ltb S = Bltb ->
  regSame (ieeeFinite prec emax)
    (fun a b => ieeeFinite prec emax a /\ ieeeFinite prec emax b /\ ieeeVal prec emax a = ieeeVal prec emax b)
    (regularizationSmallPositiveConstant S).
Proof. exact ieee_regSame. Qed.
Print Assumptions C52_regularization_constant.

(** ** examples in double precision *)

Notation sameD := (ieeeSame 53 1024).
Definition sameb (x y : double) : bool := is_finite x && is_finite y && Beqb x y.
Lemma sameb_ok x y : sameb x y = true -> sameD x y.
Proof.
  unfold sameb. rewrite !andb_true_iff. intros [[F1 F2] E]. split; auto. split; auto.
  rewrite Beqb_correct in E by auto. unfold ieeeVal. revert E. destruct (Raux.Req_bool_spec (B2R x) (B2R y)); auto; discriminate.
Qed.
Lemma nonzero_ok x : is_finite x && negb (Beqb x (o0 Od)) = true -> ieeeFinite 53 1024 x /\ ~ sameD x (o0 Od).
Proof.
  rewrite andb_true_iff, negb_true_iff. intros [F E]. split; auto. intros (_ & F0 & V).
  rewrite Beqb_correct in E by auto. unfold ieeeVal in V. rewrite Raux.Req_bool_true in E by auto. discriminate.
Qed.

(** The matrix of the other examples with all its entries stored, some of the zeros with a
    negative sign. With the permutation [exP'] its sparse form has no fill-in. *)
Definition exF : sparsity := mkSp 4 4 [(0,0); (1,0); (1,1); (2,0); (2,1); (2,2); (3,0); (3,1); (3,2); (3,3)].
Definition nz : double := B754_zero true.
Definition exFVals : list double := [dz 4; dz 1; dz 5; dz 2; nz; dz 6; dz 1; dz 0; nz; dz 7].
Definition exFM : mat (F:=double) := mkMat exF (rd exFVals).
Lemma exF_ok : spOf exF 4 4.
Proof. apply spOf_check_ok. reflexivity. Qed.
Lemma exFM_ok : inputOf Od exFM exF exFVals.
Proof.
  constructor; auto. intros k Hk. cbn [m_val exFM]. unfold rd. rewrite (nth_error_nth' _ (o0 Od)) by exact Hk. auto.
Qed.
Definition exFB : blk := match factorizationBlk exF exP' with Ok b => b | Err _ => emptyDiagBlk end.
Lemma exFB_ok : factorizationBlk exF exP' = Ok exFB.
Proof. reflexivity. Qed.

Definition nonzerod (x : double) : bool := is_finite x && negb (Beqb x (o0 Od)).

(** both results: more entries are stored, some of them with the value -0, but the values
    of the factors and of the solutions are the same *)
Example C52_example :
  spOf exS 4 4 /\ spOf exF 4 4 /\ validPerm 4 exP' /\
  inputOf Od exMd exS (dzs exVals) /\ inputOf Od exFM exF exFVals /\
  coveredSym (entries exS) (entries exS) 4 exP' /\ coveredSym (entries exF) (entries exF) 4 exP' /\
  c_nnz (b_sp exB') = 3 /\ c_nnz (b_sp exFB) = 6 /\
  (forall i j, i < 4 -> j < 4 ->
     agree sameD (symAt Od (entries exS) (dzs exVals) i j) (symAt Od (entries exF) exFVals i j)) /\
  match factorize Od UpLooking exB' (Some exMd) regularizationNone (dzs [9;8;7]%Z, exDd0),
        factorize Od UpLooking exFB (Some exFM) regularizationNone (exLd0, exDd0) with
  | Ok (L1, D1), Ok (L2, D2) =>
      forallb nonzerod D1 = true /\ forallb is_finite L1 = true /\
      map show (filter (fun x => Beqb x (dz 0)) L2) =
        [SpecFloat.S754_zero false; SpecFloat.S754_zero true; SpecFloat.S754_zero false] /\
      match solveInPlace Od exB' (L1, D1) (dzs [1;2;3;4]%Z), solveInPlace Od exFB (L2, D2) (dzs [1;2;3;4]%Z) with
      | Ok x1, Ok x2 => forallb is_finite x1 = true /\ map show x1 = map show x2
      | _, _ => False
      end
  | _, _ => False
  end.
Proof.
  split; [exact exS_ok|]. split; [exact exF_ok|]. split; [exact exP'_ok|]. split; [exact exMd_ok|].
  split; [exact exFM_ok|].
  split; [apply declared_is_covered; auto using exP'_ok; exact exS_ok|].
  split; [apply declared_is_covered; auto using exP'_ok; exact exF_ok|].
  split; [reflexivity|]. split; [reflexivity|].
  split; [|vm_compute; repeat split; reflexivity].
  intros i j Hi Hj. right. apply sameb_ok.
  destruct i as [|[|[|[|i]]]]; try lia; destruct j as [|[|[|[|j]]]]; try lia; vm_compute; reflexivity.
Qed.

(** An infinite entry shows why the results have to be finite: next to it, a stored zero
    turns into NaN, a zero that is not stored does not. *)
Definition exInfVals : list double := [dz 4; dz 1; dz 5; dz 2; dz 6; B754_infinity false; dz 7].
Definition exInfVals' : list double := [dz 4; dz 1; dz 5; dz 2; dz 0; dz 6; B754_infinity false; dz 0; dz 0; dz 7].
Example C52_infinite_example :
  match factorize Od UpLooking exB' (Some (mkMat exS (rd exInfVals))) regularizationNone (dzs [9;8;7]%Z, exDd0),
        factorize Od UpLooking exFB (Some (mkMat exF (rd exInfVals'))) regularizationNone (exLd0, exDd0) with
  | Ok (L1, D1), Ok (L2, D2) =>
      sameb (vecAt Od L1 1) (dbl 7205759403792794 (-55)) = true /\
      is_nan (denseAt Od (c_entries (b_sp exFB)) L2 3 1) = true
  | _, _ => False
  end.
Proof. vm_compute. repeat split; reflexivity. Qed.

(** An arrowhead system: the same input with the sparsity of the input and with full blocks *)
Definition fullSp (nr nc : nat) : sparsity := mkSp nr nc (flat_map (fun i => map (fun j => (i, j)) (seq 0 nc)) (seq 0 nr)).
Definition lowSp (n : nat) : sparsity := mkSp n n (flat_map (fun i => map (fun j => (i, j)) (seq 0 (i + 1))) (seq 0 n)).
Definition exAF : arrow_sp := mkAS
  (mkSS (lowSp 2) (fullSp 3 2) (fullSp 2 2) [1;0])
  (mkST (lowSp 3) (fullSp 3 3) [2;0;1])
  (mkSL (fullSp 2 3) (lowSp 2) (fullSp 2 2) [1;0])
  (mkSO (fullSp 2 3) (lowSp 2) [0;1]).
Lemma exAF_dims : arrowDims exAF 2 3 2 2.
Proof. arrow_dims. Qed.
Definition exKF : arrow_blks := match arrowBlocks exAF with Ok k => k | Err _ => noBlks end.
Lemma exKF_ok : arrowBlocks exAF = Ok exKF.
Proof. vm_compute. reflexivity. Qed.
Definition exDF : arrow_data := match arrowCtor Od exKF 2 with Ok d => d | Err _ => noDataD end.
Lemma exDF_ok : dataOf exKF 2 2 3 2 2 exDF.
Proof. data_of. Qed.
Lemma exAF_declared : declaredArrow exAF 2 exInD.
Proof.
  constructor; try (intros r c H; cbn in H |- *; intuition congruence); try (intros r c H _; cbn in H |- *; intuition congruence).
  - intros [|[|[|t]]] Ht r c H _; try lia; cbn in H |- *; intuition congruence.
  - intros [|[|t]] Ht r c H; try lia; cbn in H |- *; intuition congruence.
  - intros [|[|[|t]]] Ht r c H; try lia; cbn in H |- *; intuition congruence.
Qed.

Definition pairsb (f : gidx -> gidx -> bool) (l : list gidx) : bool :=
  forallb (fun g => forallb (fun h => if gidx_eq_dec g h then true else f g h) l) l.

Example C52_arrowhead_example :
  let all := allIdx 2 2 3 2 2 in
  (forall g, permIdx exA g = permIdx exAF g) /\
  match arrowFactorize Od UpLooking exK exInD regularizationNone exDD,
        arrowFactorize Od UpLooking exKF exInD regularizationNone exDF with
  | Ok d1, Ok d2 =>
      forallb (fun g => nonzerod (pivotAt Od d1 g)) all = true /\
      pairsb (fun g h => is_finite (factorAt Od (o0 Od) exK d1 g h)) all = true /\
      pairsb (fun g h => sameb (factorAt Od (o0 Od) exK d1 g h) (factorAt Od (o0 Od) exKF d2 g h)) all = true /\
      length (d_sn d1) = 3 /\ length (d_sn d2) = 6 /\
      match arrowSolveInPlace Od exK d1 exXD, arrowSolveInPlace Od exKF d2 exXD with
      | Ok x1, Ok x2 => forallb (fun g => is_finite (gvecAt Od x1 g)) all = true /\
          forallb (fun g => sameb (gvecAt Od x1 g) (gvecAt Od x2 g)) all = true
      | _, _ => False
      end
  | _, _ => False
  end.
Proof. split; [intros [i|t i|i|i]; reflexivity|]. vm_compute. repeat split; reflexivity. Qed.

(** the tridiagonal part *)
Definition exTKF : arrow_blks :=
  match tridiagonalBlocks (lowSp 3) (fullSp 3 3) [2;0;1] with Ok k => k | Err _ => noBlks end.
Definition exTDF : arrow_data := match arrowCtor Od exTKF 2 with Ok d => d | Err _ => noDataD end.
Lemma exTDF_ok : dataOf exTKF 2 0 3 0 0 exTDF.
Proof. data_of. Qed.
Example C52_tridiagonal_example :
  let all := allIdx 2 0 3 0 0 in
  match tridiagonalFactorize Od EntryWise exTK 3 (a_td exInD) (a_ts exInD) regularizationNone exTDd,
        tridiagonalFactorize Od EntryWise exTKF 3 (a_td exInD) (a_ts exInD) regularizationNone exTDF with
  | Ok d1, Ok d2 =>
      forallb (fun g => nonzerod (pivotAt Od d1 g)) all = true /\
      pairsb (fun g h => is_finite (factorAt Od (o0 Od) exTK d1 g h)) all = true /\
      pairsb (fun g h => sameb (factorAt Od (o0 Od) exTK d1 g h) (factorAt Od (o0 Od) exTKF d2 g h)) all = true /\
      length (nth 0 (d_ts d1) []) < length (nth 0 (d_ts d2) [])
  | _, _ => False
  end.
Proof. vm_compute. repeat split; auto. Qed.
