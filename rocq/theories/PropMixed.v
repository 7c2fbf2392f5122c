(** Property C46: matrices, factor and vectors of different scalar types.

    The input is converted to the type of the factor, the factor to the type of the
    vectors (ModelMixed.v). The bounds are those of C43 and C45 with the precision of the
    factor for factorizing, the precision of the vectors for solving, plus what the
    conversion of the matrix contributes. *)
From Coq Require Import List Arith Lia Bool ZArith Reals.
From Flocq Require Import Core.Core BinarySingleNaN.
From Verif Require Import Base ModelPerm ModelSparsity ModelSymbolic ModelNumeric ModelArrow ModelReg ModelIeee ModelMixed.
From Verif Require Import SpecSymbolic SpecArrow SpecNumeric SpecArrowNum SpecReg SpecRound SpecMixed.
From Verif Require Import ExampleData ExampleArrow ExampleIeee.
From Verif Require Import ProofMixed ProofIeeeCast PropSingle.
Import ListNotations.
Local Open Scope R_scope.
Local Notation rsum := (suml Or).

(** ** The conversions *)

(** between floating point formats: rounded, unless the result overflows *)
Theorem C46_ieee_conversion :
  forall p e p' e' (Hp : Prec_gt_0 p') (Hm : Prec_lt_emax p' e'),
  roundedCast (ieeeFinite p e) (ieeeVal p e) (ieeeFinite p' e') (ieeeVal p' e')
    (bpow radix2 (- p')) (bpow radix2 (2 - e' - p')) (ieeeCast p e p' e' Hp Hm).
Proof. exact ieee_cast_rounded. Qed.
Print Assumptions C46_ieee_conversion.

(** to a format that is at least as large: exact *)
Theorem C46_ieee_widening :
  forall p e p' e' (Hp : Prec_gt_0 p') (Hm : Prec_lt_emax p' e'),
  (p <= p')%Z -> (e <= e')%Z ->
  exactCast (ieeeFinite p e) (ieeeVal p e) (ieeeFinite p' e') (ieeeVal p' e') (ieeeCast p e p' e' Hp Hm).
Proof. exact ieee_cast_exact. Qed.
Print Assumptions C46_ieee_widening.

(** ** The factorization *)

Theorem C46_factorization_error :
  forall {I F : Type} (OI : ops I) (O : ops F) (castI : I -> F) finI valI fin val u eta,
  rounding O fin val u eta -> castI (o0 OI) = o0 O -> roundedCast finI valI fin val u eta castI ->
  forall s n p b,
  spOf s n n -> validPerm n p -> factorizationBlk s p = Ok b ->
  forall mt a vals m L0 D0 L D,
  spOf a n n -> inputOf OI m a vals -> coveredSym (entries a) (entries s) n p ->
  length L0 = c_nnz (b_sp b) -> length D0 = n ->
  factorizeMixed castI O mt b m regularizationNone (L0, D0) = Ok (L, D) ->
  (forall v, In v vals -> fin (castI v)) ->
  (forall v, In v L -> fin v) -> (forall v, In v D -> fin v) ->
  forall i j, (i < n)%nat -> (j < n)%nat ->
  let es := c_entries (b_sp b) in
  let U := unitL O val es L in
  let V := fun k => val (vecAt O D k) in
  let A := valI (symAt OI (entries a) vals (nth i p 0%nat) (nth j p 0%nat)) in
  Rabs (A - prodAt (seq 0 n) U V i j) <=
  factorBound (seq 0 n) U V u eta (rowCount es i) i j + (u * Rabs A + eta).
Proof. intros I F OI O castI finI valI fin val u eta RO C0 CI. exact (mixed_factor_single OI O castI valI fin val finI u eta RO C0 CI). Qed.
Print Assumptions C46_factorization_error.

Theorem C46_arrowhead_factorization_error :
  forall {I F : Type} (OI : ops I) (O : ops F) (castI : I -> F) finI valI fin val u eta,
  rounding O fin val u eta -> castI (o0 OI) = o0 O -> roundedCast finI valI fin val u eta castI ->
  forall s ds dt dl dO k n,
  arrowDims s ds dt dl dO -> arrowBlocks s = Ok k ->
  forall mt m w d0 d,
  inputArrow OI n ds dt dl dO m w -> declaredArrow s n m -> dataOf k n ds dt dl dO d0 ->
  arrowFactorizeMixed castI O mt k m regularizationNone d0 = Ok d ->
  let all := allIdx n ds dt dl dO in
  (forall g h, In g all -> In h all -> fin (castI (matAt OI m w g h))) ->
  (forall g h, In g all -> In h all -> fin (factorAt O (o0 O) k d g h)) ->
  (forall g, In g all -> fin (pivotAt O d g)) ->
  forall g h, In g all -> In h all ->
  let U := unitG O val k d in
  let V := fun g => val (pivotAt O d g) in
  let A := valI (matAt OI m w (permIdx s g) (permIdx s h)) in
  Rabs (A - prodAt all U V g h) <=
  factorBound all U V u eta (rowCountG k n g) g h + (u * Rabs A + eta).
Proof. intros I F OI O castI finI valI fin val u eta RO C0 CI. exact (mixed_factor_arrow OI O castI valI fin val finI u eta RO C0 CI). Qed.
Print Assumptions C46_arrowhead_factorization_error.

Theorem C46_tridiagonal_factorization_error :
  forall {I F : Type} (OI : ops I) (O : ops F) (castI : I -> F) finI valI fin val u eta,
  rounding O fin val u eta -> castI (o0 OI) = o0 O -> roundedCast finI valI fin val u eta castI ->
  forall a b p dt n k,
  spOf a dt dt -> spOf b dt dt -> validPerm dt p -> tridiagonalBlocks a b p = Ok k ->
  forall mt A B wA wB d0 d,
  inputTri OI n dt A B wA wB -> declaredTri a b n A B -> dataOf k n 0 dt 0 0 d0 ->
  tridiagonalFactorizeMixed castI O mt k dt A B regularizationNone d0 = Ok d ->
  let all := allIdx n 0 dt 0 0 in
  (forall t i t' j, (t < n + 1)%nat -> (i < dt)%nat -> (t' < n + 1)%nat -> (j < dt)%nat ->
     fin (castI (triMatAt OI A B wA wB t i t' j))) ->
  (forall g h, In g all -> In h all -> fin (factorAt O (o0 O) k d g h)) ->
  (forall g, In g all -> fin (pivotAt O d g)) ->
  forall t i t' j, (t < n + 1)%nat -> (i < dt)%nat -> (t' < n + 1)%nat -> (j < dt)%nat ->
  let U := unitG O val k d in
  let V := fun g => val (pivotAt O d g) in
  let M := valI (triMatAt OI A B wA wB t (nth i p 0%nat) t' (nth j p 0%nat)) in
  Rabs (M - prodAt all U V (GT t i) (GT t' j)) <=
  factorBound all U V u eta (rowCountG k n (GT t i)) (GT t i) (GT t' j) + (u * Rabs M + eta).
Proof. intros I F OI O castI finI valI fin val u eta RO C0 CI. exact (mixed_factor_tri OI O castI valI fin val finI u eta RO C0 CI). Qed.
Print Assumptions C46_tridiagonal_factorization_error.

(** ** Factorizing and solving *)

Theorem C46_residual :
  forall {I F G : Type} (OI : ops I) (O : ops F) (P : ops G) (castI : I -> F) (castF : F -> G)
    finI valI fin val fin' val' u eta u' eta',
  rounding O fin val u eta -> rounding P fin' val' u' eta' ->
  castI (o0 OI) = o0 O -> castF (o0 O) = o0 P ->
  roundedCast finI valI fin val u eta castI -> exactCast fin val fin' val' castF ->
  forall s n p b,
  spOf s n n -> validPerm n p -> factorizationBlk s p = Ok b ->
  forall mt a vals m L0 D0 L D rhs cc,
  spOf a n n -> inputOf OI m a vals -> coveredSym (entries a) (entries s) n p ->
  length L0 = c_nnz (b_sp b) -> length D0 = n ->
  factorizeMixed castI O mt b m regularizationNone (L0, D0) = Ok (L, D) ->
  (forall v, In v vals -> fin (castI v)) ->
  (forall v, In v L -> fin v) -> (forall v, In v D -> fin v) -> length rhs = n ->
  let es := c_entries (b_sp b) in
  (forall j, (j < n)%nat -> (colCount es j <= cc)%nat) ->
  exists x, solveInPlaceMixed castF P b (L, D) rhs = Ok x /\ length x = n /\
    ((forall v, In v x -> fin' v) -> forall i, (i < n)%nat ->
     let U := unitL O val es L in
     let V := fun k => val (vecAt O D k) in
     let A := fun c => valI (symAt OI (entries a) vals (nth i p 0%nat) c) in
     let xp := fun j => val' (vecAt P x (nth j p 0%nat)) in
     Rabs (val' (vecAt P rhs (nth i p 0%nat)) -
           rsum (seq 0 n) (fun c => A c * val' (vecAt P x c))) <=
     solveBound (seq 0 n) U V u' eta' (rowCount es i) cc xp i +
     rsum (seq 0 n) (fun j => factorBound (seq 0 n) U V u eta (rowCount es i) i j * Rabs (xp j)) +
     rsum (seq 0 n) (fun c => (u * Rabs (A c) + eta) * Rabs (val' (vecAt P x c)))).
Proof. intros I F G OI O P castI castF finI valI fin val fin' val' u eta u' eta' RO RP CI0 CF0 CI CF. exact (mixed_single OI O P castI castF valI fin val fin' val' finI u eta u' eta' RO RP CI0 CF0 CI CF). Qed.
Print Assumptions C46_residual.

Theorem C46_arrowhead_residual :
  forall {I F G : Type} (OI : ops I) (O : ops F) (P : ops G) (castI : I -> F) (castF : F -> G)
    finI valI fin val fin' val' u eta u' eta',
  rounding O fin val u eta -> rounding P fin' val' u' eta' ->
  castI (o0 OI) = o0 O -> castF (o0 O) = o0 P ->
  roundedCast finI valI fin val u eta castI -> exactCast fin val fin' val' castF ->
  forall s ds dt dl dO k n,
  arrowDims s ds dt dl dO -> arrowBlocks s = Ok k ->
  forall mt m w d0 d rhs cc,
  inputArrow OI n ds dt dl dO m w -> declaredArrow s n m -> dataOf k n ds dt dl dO d0 ->
  arrowFactorizeMixed castI O mt k m regularizationNone d0 = Ok d ->
  let all := allIdx n ds dt dl dO in
  (forall g h, In g all -> In h all -> fin (castI (matAt OI m w g h))) ->
  (forall g h, In g all -> In h all -> fin (factorAt O (o0 O) k d g h)) ->
  (forall g, In g all -> fin (pivotAt O d g)) ->
  vecOf n ds dt dl dO rhs ->
  (forall g, In g all -> (colCountG k n g <= cc)%nat) ->
  exists x, arrowSolveInPlaceMixed castF P k d rhs = Ok x /\ vecOf n ds dt dl dO x /\
    ((forall g, In g all -> fin' (gvecAt P x g)) -> forall g, In g all ->
     let U := unitG O val k d in
     let V := fun g => val (pivotAt O d g) in
     let A := fun c => valI (matAt OI m w (permIdx s g) c) in
     let xp := fun h => val' (gvecAt P x (permIdx s h)) in
     Rabs (val' (gvecAt P rhs (permIdx s g)) - rsum all (fun c => A c * val' (gvecAt P x c))) <=
     solveBound all U V u' eta' (rowCountG k n g) cc xp g +
     rsum all (fun h => factorBound all U V u eta (rowCountG k n g) g h * Rabs (xp h)) +
     rsum all (fun c => (u * Rabs (A c) + eta) * Rabs (val' (gvecAt P x c)))).
Proof. intros I F G OI O P castI castF finI valI fin val fin' val' u eta u' eta' RO RP CI0 CF0 CI CF. exact (mixed_arrow OI O P castI castF valI fin val fin' val' finI u eta u' eta' RO RP CI0 CF0 CI CF). Qed.
Print Assumptions C46_arrowhead_residual.

Theorem C46_tridiagonal_residual :
  forall {I F G : Type} (OI : ops I) (O : ops F) (P : ops G) (castI : I -> F) (castF : F -> G)
    finI valI fin val fin' val' u eta u' eta',
  rounding O fin val u eta -> rounding P fin' val' u' eta' ->
  castI (o0 OI) = o0 O -> castF (o0 O) = o0 P ->
  roundedCast finI valI fin val u eta castI -> exactCast fin val fin' val' castF ->
  forall a b p dt n k,
  spOf a dt dt -> spOf b dt dt -> validPerm dt p -> tridiagonalBlocks a b p = Ok k ->
  forall mt A B wA wB d0 d rhs cc,
  inputTri OI n dt A B wA wB -> declaredTri a b n A B -> dataOf k n 0 dt 0 0 d0 ->
  tridiagonalFactorizeMixed castI O mt k dt A B regularizationNone d0 = Ok d ->
  let all := allIdx n 0 dt 0 0 in
  (forall t i t' j, (t < n + 1)%nat -> (i < dt)%nat -> (t' < n + 1)%nat -> (j < dt)%nat ->
     fin (castI (triMatAt OI A B wA wB t i t' j))) ->
  (forall g h, In g all -> In h all -> fin (factorAt O (o0 O) k d g h)) ->
  (forall g, In g all -> fin (pivotAt O d g)) ->
  blocksOf n dt rhs ->
  (forall g, In g all -> (colCountG k n g <= cc)%nat) ->
  exists x, tridiagonalSolveInPlaceMixed castF P k d rhs = Ok x /\ blocksOf n dt x /\
    ((forall t i, (t < n + 1)%nat -> (i < dt)%nat -> fin' (vecAt P (nth t x []) i)) ->
     forall t i, (t < n + 1)%nat -> (i < dt)%nat ->
     let U := unitG O val k d in
     let V := fun g => val (pivotAt O d g) in
     let M := fun t' j => valI (triMatAt OI A B wA wB t (nth i p 0%nat) t' j) in
     let X := fun t' j => val' (vecAt P (nth t' x []) j) in
     let xp := fun h => val' (gvecAt P (mkAV [] x [] []) (permIdx (tridiagonalSparsity a b p) h)) in
     Rabs (val' (vecAt P (nth t rhs []) (nth i p 0%nat)) -
           sumn Or (n + 1) (fun t' => sumn Or dt (fun j => M t' j * X t' j))) <=
     solveBound all U V u' eta' (rowCountG k n (GT t i)) cc xp (GT t i) +
     rsum all (fun h => factorBound all U V u eta (rowCountG k n (GT t i)) (GT t i) h * Rabs (xp h)) +
     sumn Or (n + 1) (fun t' => sumn Or dt (fun j => (u * Rabs (M t' j) + eta) * Rabs (X t' j)))).
Proof. intros I F G OI O P castI castF finI valI fin val fin' val' u eta u' eta' RO RP CI0 CF0 CI CF. exact (mixed_tri OI O P castI castF valI fin val fin' val' finI u eta u' eta' RO RP CI0 CF0 CI CF). Qed.
Print Assumptions C46_tridiagonal_residual.

(** Matrix in double, factor in float, vectors in double, as in
    tests/multiply_factorize_solve_correct/. The values of the matrix are not floats: they
    change when they are converted. *)
Definition toF (z : Z) : ieee 24 128 := toFloat (dz z).
Definition exValsM : list double := map (fun z => dbl (z * 2 ^ 40 + 1) (-40)) exVals.
Definition exMm : mat (F:=double) := mkMat exS (rd exValsM).
Definition exLf0 : list (ieee 24 128) := map toF [9; 8; 7; 6; 5; 4]%Z.
Definition exDf0 : list (ieee 24 128) := map toF [3; 2; 1; 0]%Z.

Example C46_example :
  toFloat (o0 Od) = o0 Of /\ toDouble (o0 Of) = o0 Od /\
  inputOf Od exMm exS exValsM /\
  forallb (fun v => is_finite (toFloat v)) exValsM = true /\
  map show (map toDouble (map toFloat exValsM)) <> map show exValsM /\
  length exLf0 = c_nnz (b_sp exB) /\ length exDf0 = 4%nat /\
  match factorizeMixed toFloat Of UpLooking exB exMm regularizationNone (exLf0, exDf0) with
  | Ok (L, D) => forallb is_finite L = true /\ forallb is_finite D = true /\
      match solveInPlaceMixed toDouble Od exB (L, D) (dzs [1;2;3;4]%Z) with
      | Ok x => finb x = true /\
          map show x = [SpecFloat.S754_finite true 5851811176392846 (-54);
                        SpecFloat.S754_finite false 8376122018300210 (-54);
                        SpecFloat.S754_finite false 5478901502213579 (-53);
                        SpecFloat.S754_finite false 5564957593949421 (-53)]
      | Err _ => False
      end
  | Err _ => False
  end.
Proof.
  split; [reflexivity|]. split; [reflexivity|]. split.
  { constructor; auto. intros k Hk. cbn [m_val exMm]. unfold rd. rewrite (nth_error_nth' _ (o0 Od)) by auto. auto. }
  split; [reflexivity|]. split; [vm_compute; discriminate|]. vm_compute. repeat split; reflexivity.
Qed.

(** an arrowhead and a block tridiagonal matrix in double, factors in float *)
Definition finDataF (k : arrow_blks) (idx : list gidx) (d : arrow_data (F:=ieee 24 128)) : bool :=
  forallb (fun g => is_finite (pivotAt Of d g) &&
                    forallb (fun h => is_finite (factorAt Of (o0 Of) k d g h)) idx) idx.

Definition noDataF : arrow_data (F:=ieee 24 128) :=
  mkAD ([], []) [] [] [] [] [] ([], []) [] [] ([], []).
Definition exDF : arrow_data := match arrowCtor Of exK 2 with Ok d => d | Err _ => noDataF end.
Definition exTDF : arrow_data := match arrowCtor Of exTK 2 with Ok d => d | Err _ => noDataF end.

Example C46_block_example :
  inputArrow Od 2 2 3 2 2 exInD exWD /\ declaredArrow exA 2 exInD /\
  vecOf 2 2 3 2 2 exXD /\ dataOf exK 2 2 3 2 2 exDF /\ dataOf exTK 2 0 3 0 0 exTDF /\
  match arrowFactorizeMixed toFloat Of UpLooking exK exInD regularizationNone exDF with
  | Ok d => finDataF exK (allIdx 2 2 3 2 2) d = true /\
      forallb (fun g => forallb (fun h => is_finite (toFloat (matAt Od exInD exWD g h)))
                          (allIdx 2 2 3 2 2)) (allIdx 2 2 3 2 2) = true /\
      forallb (fun g => colCountG exK 2 g <=? 4)%nat (allIdx 2 2 3 2 2) = true /\
      match arrowSolveInPlaceMixed toDouble Od exK d exXD with
      | Ok x => forallb (fun g => is_finite (gvecAt Od x g)) (allIdx 2 2 3 2 2) = true
      | Err _ => False
      end
  | Err _ => False
  end /\
  match tridiagonalFactorizeMixed toFloat Of EntryWise exTK 3 (a_td exInD) (a_ts exInD) regularizationNone exTDF with
  | Ok d => finDataF exTK (allIdx 2 0 3 0 0) d = true /\
      match tridiagonalSolveInPlaceMixed toDouble Od exTK d (v_tri exXD) with
      | Ok x => forallb finb x = true
      | Err _ => False
      end
  | Err _ => False
  end.
Proof.
  split; [exact exInD_ok|]. split; [exact exInD_declared|]. split; [exact exXD_ok|].
  split; [data_of|]. split; [data_of|].
  vm_compute. repeat split; reflexivity.
Qed.
