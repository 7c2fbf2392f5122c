(** * C57: scaling a system *)
From Coq Require Import List Arith Bool ZArith Reals QArith Qcanon Lia.
From Flocq Require Import Core BinarySingleNaN.
From Verif Require Import Base ModelPerm ModelSparsity ModelSymbolic ModelNumeric ModelArrow ModelReg ModelIeee.
From Verif Require Import SpecSymbolic SpecArrow SpecNumeric SpecArrowNum SpecReg SpecAgree SpecScale SpecUnderflow.
From Verif Require Import ProofScaleIeee ProofPropScale ProofPropScaleIeee ProofAgreeIeee.
From Verif Require Import ExampleData ExampleArrow ExampleIeee ExamplePivot PropSingle.
Import ListNotations.
Local Open Scope nat_scope.

(** The entry (i, j) of the matrix is multiplied by c s_i s_j and the right-hand side i by
    t s_i. Then the pivot of row i is multiplied by c s_i^2, the entry (i, j) of the factor by
    s_i / s_j and the solution i by t / (c s_i). This holds in every arithmetic that commutes
    with the scaling ([scaleRules]), with both methods. *)
Theorem C57_scaling :
  forall {G F1 F2 : Type} (OG : ops G) (FL : fieldLaws OG) (ok : G -> Prop) (O1 : ops F1) (O2 : ops F2)
    (fin1 : F1 -> Prop) (fin2 : F2 -> Prop) (nz : F1 -> Prop) (rel : G -> F1 -> F2 -> Prop),
  scaleRules OG ok O1 O2 fin1 fin2 nz rel ->
  forall sp n p b,
  spOf sp n n -> validPerm n p -> factorizationBlk sp p = Ok b ->
  forall mt c (s : nat -> G) reg1 reg2 a1 vals1 m1 a2 vals2 m2 L01 D01 L02 D02 L1 D1 L2 D2,
  ok c -> (forall i, i < n -> ok (s i)) ->
  spOf a1 n n -> inputOf O1 m1 a1 vals1 -> coveredSym (entries a1) (entries sp) n p ->
  spOf a2 n n -> inputOf O2 m2 a2 vals2 -> coveredSym (entries a2) (entries sp) n p ->
  (forall i j, i < n -> j < n ->
     rel (scaleA OG c s i j) (symAt O1 (entries a1) vals1 i j) (symAt O2 (entries a2) vals2 i j)) ->
  (forall i, i < n -> regScaled fin1 fin2 rel (scaleA OG c s i i) reg1 reg2) ->
  length L01 = c_nnz (b_sp b) -> length D01 = n ->
  length L02 = c_nnz (b_sp b) -> length D02 = n ->
  factorize O1 mt b (Some m1) reg1 (L01, D01) = Ok (L1, D1) ->
  factorize O2 mt b (Some m2) reg2 (L02, D02) = Ok (L2, D2) ->
  (forall i, i < n -> fin1 (vecAt O1 D1 i) /\ nz (vecAt O1 D1 i)) ->
  (forall i, i < n -> fin2 (vecAt O2 D2 i)) ->
  (forall i j, j < i -> i < n -> fin1 (denseAt O1 (c_entries (b_sp b)) L1 i j)) ->
  (forall i j, j < i -> i < n -> fin2 (denseAt O2 (c_entries (b_sp b)) L2 i j)) ->
  let sp := fun i => s (nth i p 0) in
  (forall i, i < n -> rel (scaleA OG c sp i i) (vecAt O1 D1 i) (vecAt O2 D2 i)) /\
  (forall i j, i < n -> j < n -> rel (scaleL OG sp i j)
     (denseAt O1 (c_entries (b_sp b)) L1 i j) (denseAt O2 (c_entries (b_sp b)) L2 i j)) /\
  forall t rhs1 rhs2 x1 x2, ok t -> length rhs1 = n -> length rhs2 = n ->
  (forall i, i < n -> rel (scaleB OG t s i) (vecAt O1 rhs1 i) (vecAt O2 rhs2 i)) ->
  solveInPlace O1 b (L1, D1) rhs1 = Ok x1 -> solveInPlace O2 b (L2, D2) rhs2 = Ok x2 ->
  (forall i, i < n -> fin1 (vecAt O1 x1 i)) -> (forall i, i < n -> fin2 (vecAt O2 x2 i)) ->
  forall i, i < n -> rel (scaleX OG c t s i) (vecAt O1 x1 i) (vecAt O2 x2 i).
Proof. exact @single_scaled. Qed.
Print Assumptions C57_scaling.

(** arrowhead systems *)
Theorem C57_arrowhead_scaling :
  forall {G F1 F2 : Type} (OG : ops G) (FL : fieldLaws OG) (ok : G -> Prop) (O1 : ops F1) (O2 : ops F2)
    (fin1 : F1 -> Prop) (fin2 : F2 -> Prop) (nz : F1 -> Prop) (rel : G -> F1 -> F2 -> Prop),
  scaleRules OG ok O1 O2 fin1 fin2 nz rel ->
  forall sp ds dt dl dO k n,
  arrowDims sp ds dt dl dO -> arrowBlocks sp = Ok k ->
  forall mt c (s : gidx -> G) reg1 reg2 m1 w1 m2 w2 d01 d02 d1 d2,
  let all := allIdx n ds dt dl dO in
  ok c -> (forall g, In g all -> ok (s g)) ->
  inputArrow O1 n ds dt dl dO m1 w1 -> declaredArrow sp n m1 ->
  inputArrow O2 n ds dt dl dO m2 w2 -> declaredArrow sp n m2 ->
  (forall g h, In g all -> In h all -> rel (scaleA OG c s g h) (matAt O1 m1 w1 g h) (matAt O2 m2 w2 g h)) ->
  (forall g, In g all -> regScaled fin1 fin2 rel (scaleA OG c s g g) reg1 reg2) ->
  dataOf k n ds dt dl dO d01 -> dataOf k n ds dt dl dO d02 ->
  arrowFactorize O1 mt k m1 reg1 d01 = Ok d1 ->
  arrowFactorize O2 mt k m2 reg2 d02 = Ok d2 ->
  (forall g, In g all -> fin1 (pivotAt O1 d1 g) /\ nz (pivotAt O1 d1 g)) ->
  (forall g, In g all -> fin2 (pivotAt O2 d2 g)) ->
  (forall g h, In g all -> In h all -> g <> h -> fin1 (factorAt O1 (o0 O1) k d1 g h)) ->
  (forall g h, In g all -> In h all -> g <> h -> fin2 (factorAt O2 (o0 O2) k d2 g h)) ->
  let sq := fun g => s (permIdx sp g) in
  (forall g, In g all -> rel (scaleA OG c sq g g) (pivotAt O1 d1 g) (pivotAt O2 d2 g)) /\
  (forall g h, In g all -> In h all -> g <> h -> rel (scaleL OG sq g h)
     (factorAt O1 (o0 O1) k d1 g h) (factorAt O2 (o0 O2) k d2 g h)) /\
  forall t rhs1 rhs2 x1 x2, ok t -> vecOf n ds dt dl dO rhs1 -> vecOf n ds dt dl dO rhs2 ->
  (forall g, In g all -> rel (scaleB OG t s g) (gvecAt O1 rhs1 g) (gvecAt O2 rhs2 g)) ->
  arrowSolveInPlace O1 k d1 rhs1 = Ok x1 -> arrowSolveInPlace O2 k d2 rhs2 = Ok x2 ->
  (forall g, In g all -> fin1 (gvecAt O1 x1 g)) -> (forall g, In g all -> fin2 (gvecAt O2 x2 g)) ->
  forall g, In g all -> rel (scaleX OG c t s g) (gvecAt O1 x1 g) (gvecAt O2 x2 g).
Proof. exact @arrow_scaled. Qed.
Print Assumptions C57_arrowhead_scaling.

(** tridiagonal systems *)
Theorem C57_tridiagonal_scaling :
  forall {G F1 F2 : Type} (OG : ops G) (FL : fieldLaws OG) (ok : G -> Prop) (O1 : ops F1) (O2 : ops F2)
    (fin1 : F1 -> Prop) (fin2 : F2 -> Prop) (nz : F1 -> Prop) (rel : G -> F1 -> F2 -> Prop),
  scaleRules OG ok O1 O2 fin1 fin2 nz rel ->
  forall a b p dt n k,
  spOf a dt dt -> spOf b dt dt -> validPerm dt p -> tridiagonalBlocks a b p = Ok k ->
  forall mt c (s : nat -> nat -> G) reg1 reg2 A1 B1 wA1 wB1 A2 B2 wA2 wB2 d01 d02 d1 d2,
  ok c -> (forall u i, u < n + 1 -> i < dt -> ok (s u i)) ->
  inputTri O1 n dt A1 B1 wA1 wB1 -> declaredTri a b n A1 B1 ->
  inputTri O2 n dt A2 B2 wA2 wB2 -> declaredTri a b n A2 B2 ->
  (forall u i v j, u < n + 1 -> i < dt -> v < n + 1 -> j < dt ->
     rel (omul OG c (omul OG (s u i) (s v j)))
       (triMatAt O1 A1 B1 wA1 wB1 u i v j) (triMatAt O2 A2 B2 wA2 wB2 u i v j)) ->
  (forall u i, u < n + 1 -> i < dt -> regScaled fin1 fin2 rel (omul OG c (omul OG (s u i) (s u i))) reg1 reg2) ->
  dataOf k n 0 dt 0 0 d01 -> dataOf k n 0 dt 0 0 d02 ->
  tridiagonalFactorize O1 mt k dt A1 B1 reg1 d01 = Ok d1 ->
  tridiagonalFactorize O2 mt k dt A2 B2 reg2 d02 = Ok d2 ->
  (forall u i, u < n + 1 -> i < dt -> fin1 (pivotAt O1 d1 (GT u i)) /\ nz (pivotAt O1 d1 (GT u i))) ->
  (forall u i, u < n + 1 -> i < dt -> fin2 (pivotAt O2 d2 (GT u i))) ->
  (forall u i v j, u < n + 1 -> i < dt -> v < n + 1 -> j < dt -> (u, i) <> (v, j) ->
     fin1 (factorAt O1 (o0 O1) k d1 (GT u i) (GT v j))) ->
  (forall u i v j, u < n + 1 -> i < dt -> v < n + 1 -> j < dt -> (u, i) <> (v, j) ->
     fin2 (factorAt O2 (o0 O2) k d2 (GT u i) (GT v j))) ->
  let sq := fun u i => s u (nth i p 0) in
  (forall u i, u < n + 1 -> i < dt ->
     rel (omul OG c (omul OG (sq u i) (sq u i))) (pivotAt O1 d1 (GT u i)) (pivotAt O2 d2 (GT u i))) /\
  (forall u i v j, u < n + 1 -> i < dt -> v < n + 1 -> j < dt -> (u, i) <> (v, j) ->
     rel (odiv OG (sq u i) (sq v j))
       (factorAt O1 (o0 O1) k d1 (GT u i) (GT v j)) (factorAt O2 (o0 O2) k d2 (GT u i) (GT v j))) /\
  forall t rhs1 rhs2 x1 x2, ok t -> blocksOf n dt rhs1 -> blocksOf n dt rhs2 ->
  (forall u i, u < n + 1 -> i < dt ->
     rel (omul OG t (s u i)) (vecAt O1 (nth u rhs1 []) i) (vecAt O2 (nth u rhs2 []) i)) ->
  tridiagonalSolveInPlace O1 k d1 rhs1 = Ok x1 -> tridiagonalSolveInPlace O2 k d2 rhs2 = Ok x2 ->
  (forall u i, u < n + 1 -> i < dt -> fin1 (vecAt O1 (nth u x1 []) i)) ->
  (forall u i, u < n + 1 -> i < dt -> fin2 (vecAt O2 (nth u x2 []) i)) ->
  forall u i, u < n + 1 -> i < dt ->
    rel (odiv OG (odiv OG t c) (s u i)) (vecAt O1 (nth u x1 []) i) (vecAt O2 (nth u x2 []) i).
Proof. exact @tri_scaled. Qed.
Print Assumptions C57_tridiagonal_scaling.

(** exact arithmetic: any factors except zero *)
Theorem C57_field :
  forall {F : Type} (O : ops F) (FL : fieldLaws O),
  scaleRules O (fun k => k <> o0 O) O O (fun _ => True) (fun _ => True) (fun x => x <> o0 O)
    (fun k a b => b = omul O k a).
Proof. exact @field_scale. Qed.
Print Assumptions C57_field.

(** rounded arithmetic with unbounded exponents: powers of two and their negatives *)
Theorem C57_unbounded_exponents :
  forall prec : Z,
  scaleRules Or pow2 (flxOps prec) (flxOps prec) (fun _ => True) (fun _ => True) (fun x => x <> 0%R)
    (fun k a b => b = (k * a)%R).
Proof. exact flx_scale. Qed.
Print Assumptions C57_unbounded_exponents.

(** IEEE arithmetic: factors 1 and -1, if the results of the first system are finite *)
Theorem C57_signs :
  forall prec emax (Hp : FLX.Prec_gt_0 prec) (Hm : Prec_lt_emax prec emax),
  let O := ieeeOps prec emax Hp Hm in let fin := ieeeFinite prec emax in let val := ieeeVal prec emax in
  scaleRules Or (fun k => k = 1%R \/ k = (-1)%R) O O fin (fun _ => True) (fun x => val x <> 0%R)
    (fun k a b => fin a /\ fin b /\ val b = (k * val a)%R).
Proof. exact sign_scale. Qed.
Print Assumptions C57_signs.

(** IEEE arithmetic with trapped underflow: powers of two and their negatives *)
Theorem C57_trapped :
  forall prec emax (Hp : FLX.Prec_gt_0 prec) (Hm : Prec_lt_emax prec emax),
  let T := trapOps prec emax Hp Hm in let fin := ieeeFinite prec emax in let val := ieeeVal prec emax in
  scaleRules Or pow2 T T fin fin (fun x => val x <> 0%R)
    (fun k a b => fin a /\ fin b /\ val b = (k * val a)%R).
Proof. exact trap_scale. Qed.
Print Assumptions C57_trapped.

(** ** regularization: none with every scaling, and the small positive constant if the
    scaling does not change the pivots (factors 1 and -1 of the rows) *)
Theorem C57_regularization_none :
  forall {G F1 F2} (fin1 : F1 -> Prop) (fin2 : F2 -> Prop) (rel : G -> F1 -> F2 -> Prop) k,
  regScaled fin1 fin2 rel k regularizationNone regularizationNone.
Proof. exact @regNone_scaled. Qed.
Print Assumptions C57_regularization_none.

Theorem C57_regularization_constant :
  forall prec emax (S : scalarFns (ieee prec emax)), fn_abs S = Babs -> fn_ltb S = Bltb ->
  let fin := ieeeFinite prec emax in let val := ieeeVal prec emax in
  regScaled fin (fun _ => True) (fun k a b => fin a /\ fin b /\ val b = (k * val a)%R) 1%R
    (regularizationSmallPositiveConstant S) (regularizationSmallPositiveConstant S).
Proof. intros prec emax S HA HL. exact (regScaled_same prec emax _ (ieee_regSame prec emax S HA HL)). Qed.
Print Assumptions C57_regularization_constant.

(** If a run with trapped underflow is finite then the usual arithmetic gives the same result. *)
Theorem C57_no_underflow :
  forall prec emax (Hp : FLX.Prec_gt_0 prec) (Hm : Prec_lt_emax prec emax),
  let O := ieeeOps prec emax Hp Hm in let T := trapOps prec emax Hp Hm in
  let fin := ieeeFinite prec emax in let val := ieeeVal prec emax in let none := regularizationNone in
  forall sp n p b,
  spOf sp n n -> validPerm n p -> factorizationBlk sp p = Ok b ->
  forall mt a vals m L0 D0 L D,
  spOf a n n -> inputOf O m a vals -> coveredSym (entries a) (entries sp) n p ->
  (forall i j, i < n -> j < n -> fin (symAt O (entries a) vals i j)) ->
  length L0 = c_nnz (b_sp b) -> length D0 = n ->
  factorize T mt b (Some m) none (L0, D0) = Ok (L, D) ->
  (forall i, i < n -> fin (vecAt O D i) /\ val (vecAt O D i) <> 0%R) ->
  (forall i j, j < i -> i < n -> fin (denseAt O (c_entries (b_sp b)) L i j)) ->
  exists L' D', factorize O mt b (Some m) none (L0, D0) = Ok (L', D') /\
    (forall i, i < n -> vecAt O D' i = vecAt O D i) /\
    (forall i j, i < n -> j < n ->
       denseAt O (c_entries (b_sp b)) L' i j = denseAt O (c_entries (b_sp b)) L i j) /\
    forall rhs x, length rhs = n -> (forall i, i < n -> fin (vecAt O rhs i)) ->
    solveInPlace T b (L, D) rhs = Ok x -> (forall i, i < n -> fin (vecAt O x i)) ->
    exists x', solveInPlace O b (L', D') rhs = Ok x' /\ forall i, i < n -> vecAt O x' i = vecAt O x i.
Proof. exact @single_trap. Qed.
Print Assumptions C57_no_underflow.

Theorem C57_arrowhead_no_underflow :
  forall prec emax (Hp : FLX.Prec_gt_0 prec) (Hm : Prec_lt_emax prec emax),
  let O := ieeeOps prec emax Hp Hm in let T := trapOps prec emax Hp Hm in
  let fin := ieeeFinite prec emax in let val := ieeeVal prec emax in let none := regularizationNone in
  forall sp ds dt dl dO k n,
  arrowDims sp ds dt dl dO -> arrowBlocks sp = Ok k ->
  forall mt m w d0 d,
  let all := allIdx n ds dt dl dO in
  inputArrow O n ds dt dl dO m w -> declaredArrow sp n m ->
  (forall g h, In g all -> In h all -> fin (matAt O m w g h)) ->
  dataOf k n ds dt dl dO d0 ->
  arrowFactorize T mt k m none d0 = Ok d ->
  (forall g, In g all -> fin (pivotAt O d g) /\ val (pivotAt O d g) <> 0%R) ->
  (forall g h, In g all -> In h all -> g <> h -> fin (factorAt O (o0 O) k d g h)) ->
  exists d', arrowFactorize O mt k m none d0 = Ok d' /\
    (forall g, In g all -> pivotAt O d' g = pivotAt O d g) /\
    (forall g h, In g all -> In h all -> g <> h -> factorAt O (o0 O) k d' g h = factorAt O (o0 O) k d g h) /\
    forall rhs x, vecOf n ds dt dl dO rhs -> (forall g, In g all -> fin (gvecAt O rhs g)) ->
    arrowSolveInPlace T k d rhs = Ok x -> (forall g, In g all -> fin (gvecAt O x g)) ->
    exists x', arrowSolveInPlace O k d' rhs = Ok x' /\ forall g, In g all -> gvecAt O x' g = gvecAt O x g.
Proof. exact @arrow_trap. Qed.
Print Assumptions C57_arrowhead_no_underflow.

(** Hence scaling by powers of two commutes with the factorization and the solve in
    IEEE arithmetic, bit for bit up to the exponents, unless an operation underflows or
    overflows. *)
Theorem C57_powers_of_two :
  forall prec emax (Hp : FLX.Prec_gt_0 prec) (Hm : Prec_lt_emax prec emax),
  let O := ieeeOps prec emax Hp Hm in let T := trapOps prec emax Hp Hm in
  let fin := ieeeFinite prec emax in let val := ieeeVal prec emax in let none := regularizationNone in
  forall sp n p b,
  spOf sp n n -> validPerm n p -> factorizationBlk sp p = Ok b ->
  forall mt c (s : nat -> R) a1 vals1 m1 a2 vals2 m2 L01 D01 L02 D02 L1 D1 L2 D2,
  pow2 c -> (forall i, i < n -> pow2 (s i)) ->
  spOf a1 n n -> inputOf O m1 a1 vals1 -> coveredSym (entries a1) (entries sp) n p ->
  spOf a2 n n -> inputOf O m2 a2 vals2 -> coveredSym (entries a2) (entries sp) n p ->
  (forall i j, i < n -> j < n ->
     fin (symAt O (entries a1) vals1 i j) /\ fin (symAt O (entries a2) vals2 i j) /\
     val (symAt O (entries a2) vals2 i j) = (c * (s i * s j) * val (symAt O (entries a1) vals1 i j))%R) ->
  length L01 = c_nnz (b_sp b) -> length D01 = n ->
  length L02 = c_nnz (b_sp b) -> length D02 = n ->
  factorize T mt b (Some m1) none (L01, D01) = Ok (L1, D1) ->
  factorize T mt b (Some m2) none (L02, D02) = Ok (L2, D2) ->
  (forall i, i < n -> fin (vecAt O D1 i) /\ fin (vecAt O D2 i) /\ val (vecAt O D1 i) <> 0%R) ->
  (forall i j, j < i -> i < n ->
     fin (denseAt O (c_entries (b_sp b)) L1 i j) /\ fin (denseAt O (c_entries (b_sp b)) L2 i j)) ->
  exists L1' D1' L2' D2',
  factorize O mt b (Some m1) none (L01, D01) = Ok (L1', D1') /\
  factorize O mt b (Some m2) none (L02, D02) = Ok (L2', D2') /\
  (forall i, i < n ->
     val (vecAt O D2' i) = (c * (s (nth i p 0%nat) * s (nth i p 0%nat)) * val (vecAt O D1' i))%R) /\
  (forall i j, i < n -> j < n -> val (denseAt O (c_entries (b_sp b)) L2' i j) =
     (s (nth i p 0%nat) / s (nth j p 0%nat) * val (denseAt O (c_entries (b_sp b)) L1' i j))%R) /\
  forall t rhs1 rhs2 x1 x2, pow2 t -> length rhs1 = n -> length rhs2 = n ->
  (forall i, i < n -> fin (vecAt O rhs1 i) /\ fin (vecAt O rhs2 i) /\
     val (vecAt O rhs2 i) = (t * s i * val (vecAt O rhs1 i))%R) ->
  solveInPlace T b (L1, D1) rhs1 = Ok x1 -> solveInPlace T b (L2, D2) rhs2 = Ok x2 ->
  (forall i, i < n -> fin (vecAt O x1 i) /\ fin (vecAt O x2 i)) ->
  exists x1' x2', solveInPlace O b (L1', D1') rhs1 = Ok x1' /\ solveInPlace O b (L2', D2') rhs2 = Ok x2' /\
  forall i, i < n -> val (vecAt O x2' i) = (t / c / s i * val (vecAt O x1' i))%R.
Proof. exact @single_ieee_scaled. Qed.
Print Assumptions C57_powers_of_two.

Theorem C57_arrowhead_powers_of_two :
  forall prec emax (Hp : FLX.Prec_gt_0 prec) (Hm : Prec_lt_emax prec emax),
  let O := ieeeOps prec emax Hp Hm in let T := trapOps prec emax Hp Hm in
  let fin := ieeeFinite prec emax in let val := ieeeVal prec emax in let none := regularizationNone in
  forall sp ds dt dl dO k n,
  arrowDims sp ds dt dl dO -> arrowBlocks sp = Ok k ->
  forall mt c (s : gidx -> R) m1 w1 m2 w2 d01 d02 d1 d2,
  let all := allIdx n ds dt dl dO in
  pow2 c -> (forall g, In g all -> pow2 (s g)) ->
  inputArrow O n ds dt dl dO m1 w1 -> declaredArrow sp n m1 ->
  inputArrow O n ds dt dl dO m2 w2 -> declaredArrow sp n m2 ->
  (forall g h, In g all -> In h all ->
     fin (matAt O m1 w1 g h) /\ fin (matAt O m2 w2 g h) /\
     val (matAt O m2 w2 g h) = (c * (s g * s h) * val (matAt O m1 w1 g h))%R) ->
  dataOf k n ds dt dl dO d01 -> dataOf k n ds dt dl dO d02 ->
  arrowFactorize T mt k m1 none d01 = Ok d1 ->
  arrowFactorize T mt k m2 none d02 = Ok d2 ->
  (forall g, In g all -> fin (pivotAt O d1 g) /\ fin (pivotAt O d2 g) /\ val (pivotAt O d1 g) <> 0%R) ->
  (forall g h, In g all -> In h all -> g <> h ->
     fin (factorAt O (o0 O) k d1 g h) /\ fin (factorAt O (o0 O) k d2 g h)) ->
  exists d1' d2',
  arrowFactorize O mt k m1 none d01 = Ok d1' /\ arrowFactorize O mt k m2 none d02 = Ok d2' /\
  (forall g, In g all ->
     val (pivotAt O d2' g) = (c * (s (permIdx sp g) * s (permIdx sp g)) * val (pivotAt O d1' g))%R) /\
  (forall g h, In g all -> In h all -> g <> h -> val (factorAt O (o0 O) k d2' g h) =
     (s (permIdx sp g) / s (permIdx sp h) * val (factorAt O (o0 O) k d1' g h))%R) /\
  forall t rhs1 rhs2 x1 x2, pow2 t -> vecOf n ds dt dl dO rhs1 -> vecOf n ds dt dl dO rhs2 ->
  (forall g, In g all -> fin (gvecAt O rhs1 g) /\ fin (gvecAt O rhs2 g) /\
     val (gvecAt O rhs2 g) = (t * s g * val (gvecAt O rhs1 g))%R) ->
  arrowSolveInPlace T k d1 rhs1 = Ok x1 -> arrowSolveInPlace T k d2 rhs2 = Ok x2 ->
  (forall g, In g all -> fin (gvecAt O x1 g) /\ fin (gvecAt O x2 g)) ->
  exists x1' x2', arrowSolveInPlace O k d1' rhs1 = Ok x1' /\ arrowSolveInPlace O k d2' rhs2 = Ok x2' /\
  forall g, In g all -> val (gvecAt O x2' g) = (t / c / s g * val (gvecAt O x1' g))%R.
Proof. exact @arrow_ieee_scaled. Qed.
Print Assumptions C57_arrowhead_powers_of_two.

(** ** examples *)

(** values multiplied by the factors of their entries *)
Definition scaleVals {F} (O : ops F) (c : F) (s : list F) (es : list (nat * nat)) (vals : list F) : list F :=
  map (fun x => match x with ((i, j), v) =>
         omul O (omul O c (omul O (nth i s (o0 O)) (nth j s (o0 O)))) v end) (combine es vals).
Definition mapAt {F} (O : ops F) (f : nat -> F) (v : list F) : list F :=
  map (fun i => omul O (f i) (vecAt O v i)) (seq 0 (length v)).

(** exact arithmetic *)
Definition exScS : list Qc := qs [1; 2; -3; 5]%Z.
Definition exScM : mat := mkMat exS (rd (scaleVals Oq (Q2Qc (-2)) exScS (entries exS) (qs exVals))).
Example C57_field_example :
  match factorize Oq UpLooking exB (Some exM) regularizationNone (qs [9;8;7;6;5;4]%Z, qs [3;2;1;0]%Z),
        factorize Oq UpLooking exB (Some exScM) regularizationNone (qs [9;8;7;6;5;4]%Z, qs [3;2;1;0]%Z) with
  | Ok (L1, D1), Ok (L2, D2) =>
      let s i := nth (nth i exP 0) exScS (Q2Qc 0) in
      map this D2 = map this (mapAt Oq (fun i => omul Oq (Q2Qc (-2)) (omul Oq (s i) (s i))) D1) /\
      (forall i j, i < 4 -> j < i -> this (denseAt Oq (c_entries (b_sp exB)) L2 i j) =
         this (omul Oq (odiv Oq (s i) (s j)) (denseAt Oq (c_entries (b_sp exB)) L1 i j))) /\
      map this D1 = [4#1; 5#1; 47#10; 314#47]%Q /\
      match solveInPlace Oq exB (L1, D1) (qs [1;2;3;4]%Z),
            solveInPlace Oq exB (L2, D2) (mapAt Oq (fun i => omul Oq (Q2Qc 7) (nth i exScS (Q2Qc 0))) (qs [1;2;3;4]%Z)) with
      | Ok x1, Ok x2 =>
          map this x2 = map this (mapAt Oq (fun i => odiv Oq (odiv Oq (Q2Qc 7) (Q2Qc (-2))) (nth i exScS (Q2Qc 0))) x1)
      | _, _ => False
      end
  | _, _ => False
  end.
Proof.
  vm_compute. split; [reflexivity|]. split.
  - intros i j Hi Hj. destruct i as [|[|[|[|i]]]]; try (exfalso; lia); destruct j as [|[|[|j]]]; try (exfalso; lia); reflexivity.
  - split; reflexivity.
Qed.

(** double precision: powers of two *)
Notation Td := (trapOps 53 1024 prec64 emax64).
Definition eqd (x y : double) : bool := is_finite x && is_finite y && Beqb x y.
Definition nzd (x : double) : bool := is_finite x && negb (Beqb x (o0 Od)).
Definition eqds (l l' : list double) : bool :=
  (length l =? length l') && forallb (fun x => eqd (fst x) (snd x)) (combine l l').
Definition scaledFactor (c : double) (s : list double) (b : blk) (p : perm) (n : nat) (L1 D1 L2 D2 : list double) : bool :=
  let sq i := nth (nth i p 0) s (dz 0) in
  eqds D2 (mapAt Od (fun i => omul Od c (omul Od (sq i) (sq i))) D1) &&
  forallb (fun i => forallb (fun j => eqd (denseAt Od (c_entries (b_sp b)) L2 i j)
    (omul Od (odiv Od (sq i) (sq j)) (denseAt Od (c_entries (b_sp b)) L1 i j))) (seq 0 i)) (seq 0 n).
Definition exScD : list double := [dbl 1 (-3); dbl (-1) 5; dbl 1 2; dbl 1 40].
Definition exScMd (c : double) : mat := mkMat exS (rd (scaleVals Od c exScD (entries exS) (dzs exVals))).
Example C57_powers_of_two_example : forall mt,
  let c := dbl 1 100 in
  match factorize Td mt exB (Some exMd) regularizationNone (exLd0, exDd0),
        factorize Td mt exB (Some (exScMd c)) regularizationNone (exLd0, exDd0),
        factorize Od mt exB (Some exMd) regularizationNone (exLd0, exDd0),
        factorize Od mt exB (Some (exScMd c)) regularizationNone (exLd0, exDd0) with
  | Ok (T1, E1), Ok (T2, E2), Ok (L1, D1), Ok (L2, D2) =>
      forallb nzd E1 && finb T1 && finb E2 && finb T2 = true /\
      eqds T1 L1 && eqds E1 D1 && eqds T2 L2 && eqds E2 D2 = true /\
      scaledFactor c exScD exB exP 4 L1 D1 L2 D2 = true /\
      show (vecAt Od D1 3) <> show (dz 6) /\
      let rhs := dzs [1;2;3;4]%Z in
      let rhs' := mapAt Od (fun i => omul Od (dbl 1 (-20)) (nth i exScD (dz 0))) rhs in
      match solveInPlace Td exB (T1, E1) rhs, solveInPlace Td exB (T2, E2) rhs',
            solveInPlace Od exB (L1, D1) rhs, solveInPlace Od exB (L2, D2) rhs' with
      | Ok y1, Ok y2, Ok x1, Ok x2 =>
          eqds y1 x1 && eqds y2 x2 = true /\
          eqds x2 (mapAt Od (fun i => odiv Od (dbl 1 (-120)) (nth i exScD (dz 0))) x1) = true
      | _, _, _, _ => False
      end
  | _, _, _, _ => False
  end.
Proof. intros []; vm_compute; repeat split; congruence. Qed.

(** With underflow the results differ, and the trap notices it. *)
Example C57_underflow_example :
  let c := dbl 1 (-1070) in let one := dzs [1;1;1;1]%Z in
  let m := mkMat exS (rd (scaleVals Od c one (entries exS) (dzs exVals))) in
  match factorize Od UpLooking exB (Some exMd) regularizationNone (exLd0, exDd0),
        factorize Od UpLooking exB (Some m) regularizationNone (exLd0, exDd0),
        factorize Td UpLooking exB (Some m) regularizationNone (exLd0, exDd0) with
  | Ok (L1, D1), Ok (L2, D2), Ok (T2, E2) =>
      finb L2 && finb D2 = true /\ scaledFactor c one exB exP 4 L1 D1 L2 D2 = false /\
      existsb is_nan E2 = true
  | _, _, _ => False
  end.
Proof. vm_compute; repeat split. Qed.

(** Other factors than powers of two change the rounding errors. *)
Example C57_three_example :
  let c := dz 3 in let one := dzs [1;1;1;1]%Z in
  let m := mkMat exS (rd (scaleVals Od c one (entries exS) (dzs exVals))) in
  match factorize Od UpLooking exB (Some exMd) regularizationNone (exLd0, exDd0),
        factorize Od UpLooking exB (Some m) regularizationNone (exLd0, exDd0) with
  | Ok (L1, D1), Ok (L2, D2) => scaledFactor c one exB exP 4 L1 D1 L2 D2 = false
  | _, _ => False
  end.
Proof. vm_compute; repeat split. Qed.

(** signs, with regularization of the first pivot, which is zero *)
Definition regSmall : double -> nat -> double :=
  regularizationSmallPositiveConstant (mkScalarFns double Babs Bltb
    (fun _ y => if Bltb (dbl 1 (-1)) y then dbl 1 (-33) else dbl 1 (-26)) (dbl 1 (-52)) (dbl 5 (-3)) (dbl 1 (-1))).
Example C57_signs_example : forall mt,
  let s := dzs [-1; 1; 1; -1]%Z in
  let m := mkMat exS (rd (scaleVals Od (dz 1) s (entries exS) (dzs [0;1;5;2;6;1;7]%Z))) in
  match factorize Od mt exB (Some exMz) regSmall (exLd0, exDd0),
        factorize Od mt exB (Some m) regSmall (exLd0, exDd0) with
  | Ok (L1, D1), Ok (L2, D2) =>
      forallb nzd D1 && finb L1 = true /\ scaledFactor (dz 1) s exB exP 4 L1 D1 L2 D2 = true /\
      show (vecAt Od D1 0) <> show (dz 0) /\ show (vecAt Od L1 0) <> show (vecAt Od L2 0)
  | _, _ => False
  end.
Proof. intros []; vm_compute; repeat split; congruence. Qed.

(** an arrowhead system scaled by powers of two of both signs *)
Definition exScA (g : gidx) : double :=
  match g with
  | GS i => dbl 1 (Z.of_nat i + 3)
  | GT t i => dbl (if Nat.even i then 1 else -1) (2 - 5 * Z.of_nat t)
  | GL i => dbl (-1) 10
  | GO i => dbl 1 (-6 * Z.of_nat i)
  end.
Definition scaleM (c : double) (row col : nat -> gidx) (sp : sparsity) (vals : list Z) : mat (F:=double) :=
  mkMat sp (rd (map (fun x => match x with ((i, j), v) =>
    omul Od (omul Od c (omul Od (exScA (row i)) (exScA (col j)))) (dz v) end) (combine (entries sp) vals))).
Definition exScIn (c : double) : arrow_mat (F:=double) := mkAM
  (scaleM c GS GS (ss_diag (as_start exA)) [7;1;5]%Z)
  (scaleM c (GT 0) GS (ss_next (as_start exA)) [2;3]%Z)
  (scaleM c GO GS (ss_outer (as_start exA)) [4]%Z)
  (map (fun x => scaleM c (GT (fst x)) (GT (fst x)) (st_diag (as_tri exA)) (snd x)) (combine (seq 0 3) exTd))
  (map (fun x => scaleM c (GT (fst x + 1)) (GT (fst x)) (st_subdiag (as_tri exA)) (snd x)) (combine (seq 0 2) exTs))
  (scaleM c GL (GT 2) (sl_prev (as_link exA)) [3]%Z)
  (scaleM c GL GL (sl_diag (as_link exA)) [7;9;5]%Z)
  (scaleM c GO GL (sl_next (as_link exA)) [2]%Z)
  (map (fun x => scaleM c GO (GT (fst x)) (so_subdiag (as_outer exA)) (snd x)) (combine (seq 0 3) exOs))
  (scaleM c GO GO (so_diag (as_outer exA)) [17;19]%Z).
Definition exScX (t : double) : arrow_vec (F:=double) :=
  let f c l := map (fun i => omul Od (omul Od t (exScA (c i))) (dz (nth i l 0%Z))) (seq 0 (length l)) in
  mkAV (f GS [1;2]%Z) [f (GT 0) [3;4;5]%Z; f (GT 1) [6;7;8]%Z; f (GT 2) [9;10;11]%Z] (f GL [12;13]%Z) (f GO [14;15]%Z).
Example C57_arrowhead_example : forall mt,
  let all := allIdx 2 2 3 2 2 in let c := dbl (-1) 30 in let t := dbl 1 7 in
  let sq g := exScA (permIdx exA g) in
  let pairs f := forallb (fun g => forallb (fun h => if gidx_eq_dec g h then true else f g h) all) all in
  match arrowFactorize Td mt exK exInD regularizationNone exDD,
        arrowFactorize Td mt exK (exScIn c) regularizationNone exDD,
        arrowFactorize Od mt exK exInD regularizationNone exDD,
        arrowFactorize Od mt exK (exScIn c) regularizationNone exDD with
  | Ok e1, Ok e2, Ok d1, Ok d2 =>
      forallb (fun g => nzd (pivotAt Od e1 g) && is_finite (pivotAt Od e2 g)) all = true /\
      pairs (fun g h => is_finite (factorAt Od (o0 Od) exK e1 g h) && is_finite (factorAt Od (o0 Od) exK e2 g h)) = true /\
      forallb (fun g => eqd (pivotAt Od d2 g) (omul Od (omul Od c (omul Od (sq g) (sq g))) (pivotAt Od d1 g))) all = true /\
      pairs (fun g h => eqd (factorAt Od (o0 Od) exK d2 g h)
        (omul Od (odiv Od (sq g) (sq h)) (factorAt Od (o0 Od) exK d1 g h))) = true /\
      match arrowSolveInPlace Td exK e1 exXD, arrowSolveInPlace Td exK e2 (exScX t),
            arrowSolveInPlace Od exK d1 exXD, arrowSolveInPlace Od exK d2 (exScX t) with
      | Ok y1, Ok y2, Ok x1, Ok x2 =>
          forallb (fun g => is_finite (gvecAt Od y1 g) && is_finite (gvecAt Od y2 g)) all = true /\
          forallb (fun g => eqd (gvecAt Od x2 g) (omul Od (odiv Od (odiv Od t c) (exScA g)) (gvecAt Od x1 g))) all = true
      | _, _, _, _ => False
      end
  | _, _, _, _ => False
  end.
Proof. intros []; vm_compute; repeat split; congruence. Qed.

(** the tridiagonal part *)
Example C57_tridiagonal_example : forall mt,
  let all := allIdx 2 0 3 0 0 in let c := dbl (-1) 30 in
  let sq g := match g with GT t i => exScA (GT t (nth i (st_perm (as_tri exA)) 0)) | _ => dz 0 end in
  let pairs f := forallb (fun g => forallb (fun h => if gidx_eq_dec g h then true else f g h) all) all in
  match tridiagonalFactorize Td mt exTK 3 (a_td exInD) (a_ts exInD) regularizationNone exTDd,
        tridiagonalFactorize Td mt exTK 3 (a_td (exScIn c)) (a_ts (exScIn c)) regularizationNone exTDd with
  | Ok d1, Ok d2 =>
      forallb (fun g => nzd (pivotAt Od d1 g) && is_finite (pivotAt Od d2 g)) all = true /\
      forallb (fun g => eqd (pivotAt Od d2 g) (omul Od (omul Od c (omul Od (sq g) (sq g))) (pivotAt Od d1 g))) all = true /\
      pairs (fun g h => eqd (factorAt Od (o0 Od) exTK d2 g h)
        (omul Od (odiv Od (sq g) (sq h)) (factorAt Od (o0 Od) exTK d1 g h))) = true
  | _, _ => False
  end.
Proof. intros []; vm_compute; repeat split; congruence. Qed.
