(** Properties C43 to C45: rounding errors of factorize and solveInPlace.

    [rounding O fin val u eta] (SpecRound.v) is any arithmetic whose finite results are
    accurate up to the relative error u and the absolute error eta. Overflow, NaN and
    division by zero are allowed to happen anywhere: the only assumption is that the
    numbers that come out at the end are finite. *)
From Coq Require Import List Arith Lia Bool ZArith Reals.
From Flocq Require Import Core.Core BinarySingleNaN.
From Verif Require Import Base ModelPerm ModelSparsity ModelSymbolic ModelNumeric ModelArrow ModelReg ModelIeee.
From Verif Require Import SpecSymbolic SpecArrow SpecNumeric SpecArrowNum SpecReg SpecRound.
From Verif Require Import ExampleData ExampleArrow ExampleIeee.
From Verif Require Import ProofRoundMain ProofRoundUser ProofRoundTri ProofIeee PropSingle.
Import ListNotations.
Local Open Scope R_scope.
Local Notation rsum := (suml Or).

(** ** The arithmetic *)

(** IEEE arithmetic of every precision with rounding to nearest even is of this kind;
    [Od] and [Of] are double and float. *)
Theorem C43_ieee_arithmetic :
  forall prec emax (Hp : Prec_gt_0 prec) (Hm : Prec_lt_emax prec emax),
  rounding (ieeeOps prec emax Hp Hm) (ieeeFinite prec emax) (ieeeVal prec emax)
    (bpow radix2 (- prec)) (bpow radix2 (2 - emax - prec)).
Proof. exact ieee_rounding. Qed.
Print Assumptions C43_ieee_arithmetic.

Theorem C43_gamma : forall u m, 0 <= u -> INR m * u < 1 -> u < 1 ->
  gam u m <= INR m * u / (1 - INR m * u).
Proof. exact gam_le. Qed.
Print Assumptions C43_gamma.

(** ** C43: the factorization *)

Theorem C43_factorization_error :
  forall {F : Type} (O : ops F) fin val u eta, rounding O fin val u eta ->
  forall s n p b, spOf s n n -> validPerm n p -> factorizationBlk s p = Ok b ->
  forall mt a vals m L0 D0 L D,
  spOf a n n -> inputOf O m a vals -> coveredSym (entries a) (entries s) n p ->
  length L0 = c_nnz (b_sp b) -> length D0 = n ->
  factorize O mt b (Some m) regularizationNone (L0, D0) = Ok (L, D) ->
  (forall v, In v L -> fin v) -> (forall v, In v D -> fin v) ->
  forall i j, (i < n)%nat -> (j < n)%nat ->
  let es := c_entries (b_sp b) in
  let U := unitL O val es L in
  let V := fun k => val (vecAt O D k) in
  Rabs (val (symAt O (entries a) vals (nth i p 0%nat) (nth j p 0%nat)) - prodAt (seq 0 n) U V i j) <=
  factorBound (seq 0 n) U V u eta (rowCount es i) i j.
Proof. exact @single_factor_none. Qed.
Print Assumptions C43_factorization_error.

(** with regularization: P are the pivots before the regularization; what it adds to
    them is added to the diagonal of the matrix *)
Theorem C43_regularized_factorization_error :
  forall {F : Type} (O : ops F) fin val u eta, rounding O fin val u eta ->
  forall s n p b, spOf s n n -> validPerm n p -> factorizationBlk s p = Ok b ->
  forall mt a vals m reg L0 D0 L D,
  spOf a n n -> inputOf O m a vals -> coveredSym (entries a) (entries s) n p ->
  length L0 = c_nnz (b_sp b) -> length D0 = n ->
  factorize O mt b (Some m) reg (L0, D0) = Ok (L, D) ->
  (forall v, In v D -> fin v) -> (forall v, In v L -> fin v) ->
  let es := c_entries (b_sp b) in
  let U := unitL O val es L in
  let V := fun k => val (vecAt O D k) in
  let A := fun i j => val (symAt O (entries a) vals (nth i p 0%nat) (nth j p 0%nat)) in
  exists P, (forall i, (i < n)%nat -> vecAt O D i = reg (P i) i) /\
    (forall i, (i < n)%nat -> fin (P i) ->
       Rabs (A i i + (V i - val (P i)) - prodAt (seq 0 n) U V i i) <=
       factorBound (seq 0 n) U V u eta (rowCount es i) i i +
       gam u (rowCount es i + 1) * Rabs (V i - val (P i))) /\
    (forall i j, (i < n)%nat -> (j < n)%nat -> i <> j ->
       Rabs (A i j - prodAt (seq 0 n) U V i j) <=
       factorBound (seq 0 n) U V u eta (rowCount es i) i j).
Proof. exact @single_factor_rounding. Qed.
Print Assumptions C43_regularized_factorization_error.

Theorem C43_arrowhead_factorization_error :
  forall {F : Type} (O : ops F) fin val u eta, rounding O fin val u eta ->
  forall s ds dt dl dO k n, arrowDims s ds dt dl dO -> arrowBlocks s = Ok k ->
  forall mt m w d0 d,
  inputArrow O n ds dt dl dO m w -> declaredArrow s n m -> dataOf k n ds dt dl dO d0 ->
  arrowFactorize O mt k m regularizationNone d0 = Ok d ->
  let all := allIdx n ds dt dl dO in
  (forall g h, In g all -> In h all -> fin (factorAt O (o0 O) k d g h)) ->
  (forall g, In g all -> fin (pivotAt O d g)) ->
  forall g h, In g all -> In h all ->
  let U := unitG O val k d in
  let V := fun g => val (pivotAt O d g) in
  Rabs (val (matAt O m w (permIdx s g) (permIdx s h)) - prodAt all U V g h) <=
  factorBound all U V u eta (rowCountG k n g) g h.
Proof. exact @arrow_factor_none. Qed.
Print Assumptions C43_arrowhead_factorization_error.

Theorem C43_regularized_arrowhead_factorization_error :
  forall {F : Type} (O : ops F) fin val u eta, rounding O fin val u eta ->
  forall s ds dt dl dO k n, arrowDims s ds dt dl dO -> arrowBlocks s = Ok k ->
  forall mt m w reg d0 d,
  inputArrow O n ds dt dl dO m w -> declaredArrow s n m -> dataOf k n ds dt dl dO d0 ->
  arrowFactorize O mt k m reg d0 = Ok d ->
  let all := allIdx n ds dt dl dO in
  (forall g, In g all -> fin (pivotAt O d g)) ->
  (forall g h, In g all -> In h all -> fin (factorAt O (o0 O) k d g h)) ->
  let U := unitG O val k d in
  let V := fun g => val (pivotAt O d g) in
  let A := fun g h => val (matAt O m w (permIdx s g) (permIdx s h)) in
  exists P, (forall g, In g all -> pivotAt O d g = reg (P g) (localIdx g)) /\
    (forall g, In g all -> fin (P g) ->
       Rabs (A g g + (V g - val (P g)) - prodAt all U V g g) <=
       factorBound all U V u eta (rowCountG k n g) g g +
       gam u (rowCountG k n g + 1) * Rabs (V g - val (P g))) /\
    (forall g h, In g all -> In h all -> g <> h ->
       Rabs (A g h - prodAt all U V g h) <=
       factorBound all U V u eta (rowCountG k n g) g h).
Proof. exact @arrow_factor_rounding. Qed.
Print Assumptions C43_regularized_arrowhead_factorization_error.

Theorem C43_tridiagonal_factorization_error :
  forall {F : Type} (O : ops F) fin val u eta, rounding O fin val u eta ->
  forall a b p dt n k, spOf a dt dt -> spOf b dt dt -> validPerm dt p ->
  tridiagonalBlocks a b p = Ok k ->
  forall mt A B wA wB d0 d,
  inputTri O n dt A B wA wB -> declaredTri a b n A B -> dataOf k n 0 dt 0 0 d0 ->
  tridiagonalFactorize O mt k dt A B regularizationNone d0 = Ok d ->
  let all := allIdx n 0 dt 0 0 in
  (forall g h, In g all -> In h all -> fin (factorAt O (o0 O) k d g h)) ->
  (forall g, In g all -> fin (pivotAt O d g)) ->
  forall t i t' j, (t < n + 1)%nat -> (i < dt)%nat -> (t' < n + 1)%nat -> (j < dt)%nat ->
  let U := unitG O val k d in
  let V := fun g => val (pivotAt O d g) in
  Rabs (val (triMatAt O A B wA wB t (nth i p 0%nat) t' (nth j p 0%nat)) -
        prodAt all U V (GT t i) (GT t' j)) <=
  factorBound all U V u eta (rowCountG k n (GT t i)) (GT t i) (GT t' j).
Proof. exact @tri_factor_none. Qed.
Print Assumptions C43_tridiagonal_factorization_error.

(** in double precision: everything is finite, and 1/4, 1/10, ... are rounded *)
Example C43_example :
  spOf exS 4 4 /\ validPerm 4 exP /\ factorizationBlk exS exP = Ok exB /\
  inputOf Od exMd exS (dzs exVals) /\ coveredSym (entries exS) (entries exS) 4 exP /\
  match factorize Od UpLooking exB (Some exMd) regularizationNone (exLd0, exDd0) with
  | Ok (L, D) =>
      finb L = true /\ finb D = true /\
      map (rowCount (c_entries (b_sp exB))) (seq 0 4) = [0; 1; 2; 3]%nat /\
      map show D = [SpecFloat.S754_finite false 4503599627370496 (-50);
                    SpecFloat.S754_finite false 5629499534213120 (-50);
                    SpecFloat.S754_finite false 5291729562160333 (-50);
                    SpecFloat.S754_finite false 7521969590395403 (-50)]
  | Err _ => False
  end.
Proof.
  split; [exact exS_ok|]. split; [exact exP_ok|]. split; [exact exB_ok|]. split; [exact exMd_ok|].
  split; [exact exM_covered|]. vm_compute. repeat split; reflexivity.
Qed.

Example C43_arrowhead_example :
  arrowDims exA 2 3 2 2 /\ arrowBlocks exA = Ok exK /\
  inputArrow Od 2 2 3 2 2 exInD exWD /\ declaredArrow exA 2 exInD /\ dataOf exK 2 2 3 2 2 exDD /\
  match arrowFactorize Od UpLooking exK exInD regularizationNone exDD with
  | Ok d => finData exK (allIdx 2 2 3 2 2) d = true
  | Err _ => False
  end /\
  spOf exTA 3 3 /\ spOf exTB 3 3 /\ validPerm 3 [2;0;1]%nat /\
  tridiagonalBlocks exTA exTB [2;0;1]%nat = Ok exTK /\
  inputTri Od 2 3 (a_td exInD) (a_ts exInD) (w_td exWD) (w_ts exWD) /\
  declaredTri exTA exTB 2 (a_td exInD) (a_ts exInD) /\ dataOf exTK 2 0 3 0 0 exTDd /\
  match tridiagonalFactorize Od EntryWise exTK 3 (a_td exInD) (a_ts exInD) regularizationNone exTDd with
  | Ok d => finData exTK (allIdx 2 0 3 0 0) d = true
  | Err _ => False
  end.
Proof.
  split; [exact exA_dims|]. split; [exact exK_ok|]. split; [exact exInD_ok|].
  split; [exact exInD_declared|]. split; [exact exDD_ok|]. split; [vm_compute; reflexivity|].
  split; [exact exT_spA|]. split; [exact exT_spB|]. split; [exact exT_perm|].
  split; [exact exTK_ok|]. split; [exact exTd_ok|]. split; [exact exTd_declared|].
  split; [exact exTDd_ok|]. vm_compute; reflexivity.
Qed.

(** ** C44: solving with a given factor

    The factor is arbitrary, it need not come from a factorization. *)

Theorem C44_solve_residual :
  forall {F : Type} (O : ops F) fin val u eta, rounding O fin val u eta ->
  forall s n p b, spOf s n n -> validPerm n p -> factorizationBlk s p = Ok b ->
  forall L D rhs cc,
  length L = c_nnz (b_sp b) -> length D = n -> length rhs = n ->
  (forall v, In v D -> fin v) ->
  let es := c_entries (b_sp b) in
  (forall j, (j < n)%nat -> (colCount es j <= cc)%nat) ->
  exists x, solveInPlace O b (L, D) rhs = Ok x /\ length x = n /\
    ((forall v, In v x -> fin v) -> forall i, (i < n)%nat ->
     let U := unitL O val es L in
     let V := fun k => val (vecAt O D k) in
     let xp := fun j => val (vecAt O x (nth j p 0%nat)) in
     Rabs (val (vecAt O rhs (nth i p 0%nat)) -
           rsum (seq 0 n) (fun j => prodAt (seq 0 n) U V i j * xp j)) <=
     solveBound (seq 0 n) U V u eta (rowCount es i) cc xp i).
Proof. exact @single_solve_rounding. Qed.
Print Assumptions C44_solve_residual.

Theorem C44_arrowhead_solve_residual :
  forall {F : Type} (O : ops F) fin val u eta, rounding O fin val u eta ->
  forall s ds dt dl dO k n, arrowDims s ds dt dl dO -> arrowBlocks s = Ok k ->
  forall d rhs cc, dataOf k n ds dt dl dO d -> vecOf n ds dt dl dO rhs ->
  let all := allIdx n ds dt dl dO in
  (forall g, In g all -> fin (pivotAt O d g)) ->
  (forall g, In g all -> (colCountG k n g <= cc)%nat) ->
  exists x, arrowSolveInPlace O k d rhs = Ok x /\ vecOf n ds dt dl dO x /\
    ((forall g, In g all -> fin (gvecAt O x g)) -> forall g, In g all ->
     let U := unitG O val k d in
     let V := fun g => val (pivotAt O d g) in
     let xp := fun h => val (gvecAt O x (permIdx s h)) in
     Rabs (val (gvecAt O rhs (permIdx s g)) - rsum all (fun h => prodAt all U V g h * xp h)) <=
     solveBound all U V u eta (rowCountG k n g) cc xp g).
Proof. exact @arrow_solve_rounding. Qed.
Print Assumptions C44_arrowhead_solve_residual.

Example C44_example :
  length exLd0 = c_nnz (b_sp exB) /\ length (dzs [3;2;1;5]%Z) = 4%nat /\ finb (dzs [3;2;1;5]%Z) = true /\
  forallb (fun j => colCount (c_entries (b_sp exB)) j <=? 3)%nat (seq 0 4) = true /\
  match solveInPlace Od exB (exLd0, dzs [3;2;1;5]%Z) (dzs [1;2;3;4]%Z) with
  | Ok x => finb x = true
  | Err _ => False
  end.
Proof. vm_compute. repeat split; reflexivity. Qed.

(** ** C45: factorizing and solving *)

Theorem C45_residual :
  forall {F : Type} (O : ops F) fin val u eta, rounding O fin val u eta ->
  forall s n p b, spOf s n n -> validPerm n p -> factorizationBlk s p = Ok b ->
  forall mt a vals m L0 D0 L D rhs cc,
  spOf a n n -> inputOf O m a vals -> coveredSym (entries a) (entries s) n p ->
  length L0 = c_nnz (b_sp b) -> length D0 = n ->
  factorize O mt b (Some m) regularizationNone (L0, D0) = Ok (L, D) ->
  (forall v, In v D -> fin v) -> length rhs = n ->
  let es := c_entries (b_sp b) in
  (forall j, (j < n)%nat -> (colCount es j <= cc)%nat) ->
  exists x, solveInPlace O b (L, D) rhs = Ok x /\ length x = n /\
    ((forall v, In v x -> fin v) -> forall i, (i < n)%nat ->
     let U := unitL O val es L in
     let V := fun k => val (vecAt O D k) in
     let xp := fun j => val (vecAt O x (nth j p 0%nat)) in
     Rabs (val (vecAt O rhs (nth i p 0%nat)) -
           rsum (seq 0 n) (fun c => val (symAt O (entries a) vals (nth i p 0%nat) c) * val (vecAt O x c))) <=
     solveBound (seq 0 n) U V u eta (rowCount es i) cc xp i +
     rsum (seq 0 n) (fun j => factorBound (seq 0 n) U V u eta (rowCount es i) i j * Rabs (xp j))).
Proof. exact @single_total_none. Qed.
Print Assumptions C45_residual.

Theorem C45_regularized_residual :
  forall {F : Type} (O : ops F) fin val u eta, rounding O fin val u eta ->
  forall s n p b, spOf s n n -> validPerm n p -> factorizationBlk s p = Ok b ->
  forall mt a vals m reg L0 D0 L D,
  spOf a n n -> inputOf O m a vals -> coveredSym (entries a) (entries s) n p ->
  length L0 = c_nnz (b_sp b) -> length D0 = n ->
  factorize O mt b (Some m) reg (L0, D0) = Ok (L, D) ->
  (forall v, In v D -> fin v) ->
  forall rhs cc, length rhs = n ->
  let es := c_entries (b_sp b) in
  (forall j, (j < n)%nat -> (colCount es j <= cc)%nat) ->
  exists x, solveInPlace O b (L, D) rhs = Ok x /\ length x = n /\
    ((forall v, In v x -> fin v) ->
     exists P, (forall i, (i < n)%nat -> vecAt O D i = reg (P i) i) /\
       forall i, (i < n)%nat -> fin (P i) ->
       let U := unitL O val es L in
       let V := fun k => val (vecAt O D k) in
       let xp := fun j => val (vecAt O x (nth j p 0%nat)) in
       Rabs (val (vecAt O rhs (nth i p 0%nat)) -
             rsum (seq 0 n) (fun c => val (symAt O (entries a) vals (nth i p 0%nat) c) * val (vecAt O x c)) -
             (V i - val (P i)) * xp i) <=
       solveBound (seq 0 n) U V u eta (rowCount es i) cc xp i +
       rsum (seq 0 n) (fun j => factorBound (seq 0 n) U V u eta (rowCount es i) i j * Rabs (xp j)) +
       gam u (rowCount es i + 1) * Rabs (V i - val (P i)) * Rabs (xp i)).
Proof. exact @single_total_rounding. Qed.
Print Assumptions C45_regularized_residual.

Theorem C45_arrowhead_residual :
  forall {F : Type} (O : ops F) fin val u eta, rounding O fin val u eta ->
  forall s ds dt dl dO k n, arrowDims s ds dt dl dO -> arrowBlocks s = Ok k ->
  forall mt m w d0 d rhs cc,
  inputArrow O n ds dt dl dO m w -> declaredArrow s n m -> dataOf k n ds dt dl dO d0 ->
  arrowFactorize O mt k m regularizationNone d0 = Ok d ->
  let all := allIdx n ds dt dl dO in
  (forall g, In g all -> fin (pivotAt O d g)) ->
  vecOf n ds dt dl dO rhs ->
  (forall g, In g all -> (colCountG k n g <= cc)%nat) ->
  exists x, arrowSolveInPlace O k d rhs = Ok x /\ vecOf n ds dt dl dO x /\
    ((forall g, In g all -> fin (gvecAt O x g)) -> forall g, In g all ->
     let U := unitG O val k d in
     let V := fun g => val (pivotAt O d g) in
     let xp := fun h => val (gvecAt O x (permIdx s h)) in
     Rabs (val (gvecAt O rhs (permIdx s g)) -
           rsum all (fun c => val (matAt O m w (permIdx s g) c) * val (gvecAt O x c))) <=
     solveBound all U V u eta (rowCountG k n g) cc xp g +
     rsum all (fun h => factorBound all U V u eta (rowCountG k n g) g h * Rabs (xp h))).
Proof. exact @arrow_total_none. Qed.
Print Assumptions C45_arrowhead_residual.

Theorem C45_regularized_arrowhead_residual :
  forall {F : Type} (O : ops F) fin val u eta, rounding O fin val u eta ->
  forall s ds dt dl dO k n, arrowDims s ds dt dl dO -> arrowBlocks s = Ok k ->
  forall mt m w reg d0 d,
  inputArrow O n ds dt dl dO m w -> declaredArrow s n m -> dataOf k n ds dt dl dO d0 ->
  arrowFactorize O mt k m reg d0 = Ok d ->
  let all := allIdx n ds dt dl dO in
  (forall g, In g all -> fin (pivotAt O d g)) ->
  forall rhs cc, vecOf n ds dt dl dO rhs ->
  (forall g, In g all -> (colCountG k n g <= cc)%nat) ->
  exists x, arrowSolveInPlace O k d rhs = Ok x /\ vecOf n ds dt dl dO x /\
    ((forall g, In g all -> fin (gvecAt O x g)) ->
     exists P, (forall g, In g all -> pivotAt O d g = reg (P g) (localIdx g)) /\
       forall g, In g all -> fin (P g) ->
       let U := unitG O val k d in
       let V := fun g => val (pivotAt O d g) in
       let xp := fun h => val (gvecAt O x (permIdx s h)) in
       Rabs (val (gvecAt O rhs (permIdx s g)) -
             rsum all (fun c => val (matAt O m w (permIdx s g) c) * val (gvecAt O x c)) -
             (V g - val (P g)) * xp g) <=
       solveBound all U V u eta (rowCountG k n g) cc xp g +
       rsum all (fun h => factorBound all U V u eta (rowCountG k n g) g h * Rabs (xp h)) +
       gam u (rowCountG k n g + 1) * Rabs (V g - val (P g)) * Rabs (xp g)).
Proof. exact @arrow_total_rounding. Qed.
Print Assumptions C45_regularized_arrowhead_residual.

Theorem C45_tridiagonal_residual :
  forall {F : Type} (O : ops F) fin val u eta, rounding O fin val u eta ->
  forall a b p dt n k, spOf a dt dt -> spOf b dt dt -> validPerm dt p ->
  tridiagonalBlocks a b p = Ok k ->
  forall mt A B wA wB d0 d rhs cc,
  inputTri O n dt A B wA wB -> declaredTri a b n A B -> dataOf k n 0 dt 0 0 d0 ->
  tridiagonalFactorize O mt k dt A B regularizationNone d0 = Ok d ->
  let all := allIdx n 0 dt 0 0 in
  (forall g, In g all -> fin (pivotAt O d g)) ->
  blocksOf n dt rhs ->
  (forall g, In g all -> (colCountG k n g <= cc)%nat) ->
  exists x, tridiagonalSolveInPlace O k d rhs = Ok x /\ blocksOf n dt x /\
    ((forall t i, (t < n + 1)%nat -> (i < dt)%nat -> fin (vecAt O (nth t x []) i)) ->
     forall t i, (t < n + 1)%nat -> (i < dt)%nat ->
     let U := unitG O val k d in
     let V := fun g => val (pivotAt O d g) in
     let xp := fun h => val (gvecAt O (mkAV [] x [] []) (permIdx (tridiagonalSparsity a b p) h)) in
     Rabs (val (vecAt O (nth t rhs []) (nth i p 0%nat)) -
           sumn Or (n + 1) (fun t' => sumn Or dt (fun j =>
             val (triMatAt O A B wA wB t (nth i p 0%nat) t' j) * val (vecAt O (nth t' x []) j)))) <=
     solveBound all U V u eta (rowCountG k n (GT t i)) cc xp (GT t i) +
     rsum all (fun h => factorBound all U V u eta (rowCountG k n (GT t i)) (GT t i) h * Rabs (xp h))).
Proof. exact @tri_total_none. Qed.
Print Assumptions C45_tridiagonal_residual.

(** in double precision, together with the hypotheses shown in C43 *)
Example C45_example :
  match factorize Od UpLooking exB (Some exMd) regularizationNone (exLd0, exDd0) with
  | Ok (L, D) => finb D = true /\
      match solveInPlace Od exB (L, D) (dzs [1;2;3;4]%Z) with
      | Ok x => finb x = true /\
          nth_error (map show x) 3 = Some (SpecFloat.S754_finite false 5564957501336791 (-53))
      | Err _ => False
      end
  | Err _ => False
  end /\
  match arrowFactorize Od UpLooking exK exInD regularizationNone exDD with
  | Ok d => forallb (fun g => (is_finite (pivotAt Od d g)) && (colCountG exK 2 g <=? 4)%nat)
              (allIdx 2 2 3 2 2) = true /\
      match arrowSolveInPlace Od exK d exXD with
      | Ok x => forallb (fun g => is_finite (gvecAt Od x g)) (allIdx 2 2 3 2 2) = true
      | Err _ => False
      end
  | Err _ => False
  end /\
  match tridiagonalFactorize Od EntryWise exTK 3 (a_td exInD) (a_ts exInD) regularizationNone exTDd with
  | Ok d => forallb (fun g => (is_finite (pivotAt Od d g)) && (colCountG exTK 2 g <=? 3)%nat)
              (allIdx 2 0 3 0 0) = true /\
      match tridiagonalSolveInPlace Od exTK d (v_tri exXD) with
      | Ok x => forallb finb x = true
      | Err _ => False
      end
  | Err _ => False
  end.
Proof. vm_compute. repeat split; reflexivity. Qed.
