(** Properties C58 and C59: rounding errors of the matrix-vector products.

    As in PropRound.v, [rounding O fin val u eta] is any arithmetic whose finite results
    are accurate up to the relative error u and the absolute error eta; float and double
    are such arithmetics (C43_ieee_arithmetic). *)
From Coq Require Import List Arith Lia Bool ZArith Reals.
From Flocq Require Import Core.Core BinarySingleNaN.
From Verif Require Import Base ModelPerm ModelSparsity ModelSymbolic ModelNumeric ModelArrow ModelReg ModelMixed ModelIeee.
From Verif Require Import SpecSymbolic SpecArrow SpecNumeric SpecArrowNum SpecReg SpecRound SpecMixed SpecProduct.
From Verif Require Import ExampleData ExampleArrow ExampleIeee.
From Verif Require Import ProofProduct ProofPropProduct ProofInteger PropSingle.
Import ListNotations.
Local Open Scope R_scope.
Local Notation rsum := (suml Or).

(** ** C58: the products *)

(** all kinds of products; duplicate entries add up *)
Theorem C58_multiply :
  forall {F : Type} (O : ops F) fin val u eta, rounding O fin val u eta ->
  forall kind m sp vals nr nc x rhs,
  inputOf O m sp vals -> spOf sp nr nc -> (kind = Symmetric -> nr = nc) ->
  length x = mulCols kind nr nc -> length rhs = mulRows kind nr nc ->
  exists r, multiply O kind m x rhs = Ok r /\ length r = length rhs /\
    forall i, (i < length rhs)%nat -> fin (vecAt O r i) ->
    Rabs (val (vecAt O r i) - (val (vecAt O rhs i) + 
       sumn Or (mulCols kind nr nc) (fun j => kindAt Or kind (entries sp) (map val vals) i j * val (vecAt O x j)))) <=
    productBound u eta (mulCount kind (entries sp) i) (Rabs (val (vecAt O rhs i)) + 
       sumn Or (mulCols kind nr nc) (fun j => kindAt Or kind (entries sp) (map (fun v => Rabs (val v)) vals) i j * Rabs (val (vecAt O x j)))).
Proof. exact @multiply_round. Qed.
Print Assumptions C58_multiply.

Theorem C58_tridiagonal_multiply :
  forall {F : Type} (O : ops F) fin val u eta, rounding O fin val u eta ->
  forall n dt A B wA wB x rhs,
  inputTri O n dt A B wA wB -> blocksOf n dt x -> blocksOf n dt rhs ->
  exists r, multiplyRepeatingBlockTridiagonal O A B x rhs = Ok r /\ blocksOf n dt r /\
    forall t i, (t < n + 1)%nat -> (i < dt)%nat -> fin (vecAt O (nth t r []) i) ->
    Rabs (val (vecAt O (nth t r []) i) -
          (val (vecAt O (nth t rhs []) i) + triExact O val n dt A B wA wB x t i)) <=
    productBound u eta (mulCountT A B t i)
      (Rabs (val (vecAt O (nth t rhs []) i)) + triExact O (fun v => Rabs (val v)) n dt A B wA wB x t i).
Proof. exact @tri_round. Qed.
Print Assumptions C58_tridiagonal_multiply.

Theorem C58_arrowhead_multiply :
  forall {F : Type} (O : ops F) fin val u eta, rounding O fin val u eta ->
  forall n ds dt dl dO m w x rhs,
  inputArrow O n ds dt dl dO m w -> vecOf n ds dt dl dO x -> vecOf n ds dt dl dO rhs ->
  let all := allIdx n ds dt dl dO in
  exists r, arrowMultiply O m x rhs = Ok r /\ vecOf n ds dt dl dO r /\
    forall g, In g all -> fin (gvecAt O r g) ->
    Rabs (val (gvecAt O r g) - (val (gvecAt O rhs g) + arrowExact O val all m w x g)) <=
    productBound u eta (mulCountG m g) (Rabs (val (gvecAt O rhs g)) + arrowExact O (fun v => Rabs (val v)) all m w x g).
Proof. exact @arrow_round. Qed.
Print Assumptions C58_arrowhead_multiply.

(** the symmetric matrix that is factorized *)
Theorem C58_symmetric :
  forall {F : Type} (O : ops F) fin val u eta, rounding O fin val u eta ->
  forall m a vals n x rhs,
  spOf a n n -> inputOf O m a vals -> length x = n -> length rhs = n ->
  NoDup (entries a) -> (forall r c, In (r, c) (entries a) -> (c <= r)%nat) ->
  exists r, multiply O Symmetric m x rhs = Ok r /\ length r = n /\
    forall i, (i < n)%nat -> fin (vecAt O r i) ->
    let A := fun j => val (symAt O (entries a) vals i j) in
    Rabs (val (vecAt O r i) - (val (vecAt O rhs i) + rsum (seq 0 n) (fun j => A j * val (vecAt O x j)))) <=
    productBound u eta (mulCount Symmetric (entries a) i)
      (Rabs (val (vecAt O rhs i)) + rsum (seq 0 n) (fun j => Rabs (A j * val (vecAt O x j)))).
Proof. exact @symmetric_round. Qed.
Print Assumptions C58_symmetric.

Theorem C58_tridiagonal_symmetric :
  forall {F : Type} (O : ops F) fin val u eta, rounding O fin val u eta ->
  forall n dt A B wA wB x rhs,
  inputTri O n dt A B wA wB -> (forall t, (t < n + 1)%nat -> simpleSym (nth t A noMat)) ->
  (forall t, (t < n)%nat -> simpleRect (nth t B noMat)) -> blocksOf n dt x -> blocksOf n dt rhs ->
  exists r, multiplyRepeatingBlockTridiagonal O A B x rhs = Ok r /\ blocksOf n dt r /\
    forall t i, (t < n + 1)%nat -> (i < dt)%nat -> fin (vecAt O (nth t r []) i) ->
    let M := fun t' j => val (triMatAt O A B wA wB t i t' j) in
    let X := fun t' j => val (vecAt O (nth t' x []) j) in
    Rabs (val (vecAt O (nth t r []) i) - (val (vecAt O (nth t rhs []) i) +
       sumn Or (n + 1) (fun t' => sumn Or dt (fun j => M t' j * X t' j)))) <=
    productBound u eta (mulCountT A B t i) (Rabs (val (vecAt O (nth t rhs []) i)) +
       sumn Or (n + 1) (fun t' => sumn Or dt (fun j => Rabs (M t' j * X t' j)))).
Proof. exact @tri_symmetric_round. Qed.
Print Assumptions C58_tridiagonal_symmetric.

Theorem C58_arrowhead_symmetric :
  forall {F : Type} (O : ops F) fin val u eta, rounding O fin val u eta ->
  forall n ds dt dl dO m w x rhs,
  inputArrow O n ds dt dl dO m w -> simpleArrow n m ->
  vecOf n ds dt dl dO x -> vecOf n ds dt dl dO rhs ->
  let all := allIdx n ds dt dl dO in
  exists r, arrowMultiply O m x rhs = Ok r /\ vecOf n ds dt dl dO r /\
    forall g, In g all -> fin (gvecAt O r g) ->
    let A := fun h => val (matAt O m w g h) in
    Rabs (val (gvecAt O r g) - (val (gvecAt O rhs g) + rsum all (fun h => A h * val (gvecAt O x h)))) <=
    productBound u eta (mulCountG m g)
      (Rabs (val (gvecAt O rhs g)) + rsum all (fun h => Rabs (A h * val (gvecAt O x h)))).
Proof. exact @arrow_symmetric_round. Qed.
Print Assumptions C58_arrowhead_symmetric.

(** multiply, factorize and solve: the matrix times the difference of what comes out and
    what went in is small. This is what the tests of the library do. *)
Theorem C58_round_trip :
  forall {F : Type} (O : ops F) fin val u eta, rounding O fin val u eta ->
  forall s n p b,
  spOf s n n -> validPerm n p -> factorizationBlk s p = Ok b ->
  forall mt a vals m L0 D0 L D x cc,
  spOf a n n -> inputOf O m a vals -> coveredSym (entries a) (entries s) n p ->
  NoDup (entries a) -> (forall r c, In (r, c) (entries a) -> (c <= r)%nat) ->
  length L0 = c_nnz (b_sp b) -> length D0 = n -> length x = n ->
  factorize O mt b (Some m) regularizationNone (L0, D0) = Ok (L, D) ->
  (forall v, In v D -> fin v) ->
  let es := c_entries (b_sp b) in
  (forall j, (j < n)%nat -> (colCount es j <= cc)%nat) ->
  exists rhs y, multiply O Symmetric m x (repeat (o0 O) n) = Ok rhs /\
    solveInPlace O b (L, D) rhs = Ok y /\ length y = n /\
    ((forall v, In v y -> fin v) -> (forall v, In v rhs -> fin v) -> forall i, (i < n)%nat ->
     let U := unitL O val es L in
     let V := fun k => val (vecAt O D k) in
     let yp := fun j => val (vecAt O y (nth j p 0%nat)) in
     let A := fun c => val (symAt O (entries a) vals (nth i p 0%nat) c) in
     Rabs (rsum (seq 0 n) (fun c => A c * (val (vecAt O y c) - val (vecAt O x c)))) <=
     solveBound (seq 0 n) U V u eta (rowCount es i) cc yp i +
     rsum (seq 0 n) (fun j => factorBound (seq 0 n) U V u eta (rowCount es i) i j * Rabs (yp j)) +
     productBound u eta (mulCount Symmetric (entries a) (nth i p 0%nat))
       (rsum (seq 0 n) (fun c => Rabs (A c * val (vecAt O x c))))).
Proof. exact @single_trip. Qed.
Print Assumptions C58_round_trip.

Theorem C58_tridiagonal_round_trip :
  forall {F : Type} (O : ops F) fin val u eta, rounding O fin val u eta ->
  forall a b p dt n k,
  spOf a dt dt -> spOf b dt dt -> validPerm dt p ->
  tridiagonalBlocks a b p = Ok k ->
  forall mt A B wA wB d0 d x cc,
  inputTri O n dt A B wA wB -> declaredTri a b n A B ->
  (forall t, (t < n + 1)%nat -> simpleSym (nth t A noMat)) ->
  (forall t, (t < n)%nat -> simpleRect (nth t B noMat)) ->
  dataOf k n 0 dt 0 0 d0 ->
  tridiagonalFactorize O mt k dt A B regularizationNone d0 = Ok d ->
  let all := allIdx n 0 dt 0 0 in
  (forall g, In g all -> fin (pivotAt O d g)) ->
  blocksOf n dt x ->
  (forall g, In g all -> (colCountG k n g <= cc)%nat) ->
  exists rhs y, multiplyRepeatingBlockTridiagonal O A B x (repeat (repeat (o0 O) dt) (n + 1)) = Ok rhs /\
    tridiagonalSolveInPlace O k d rhs = Ok y /\ blocksOf n dt y /\
    ((forall t i, (t < n + 1)%nat -> (i < dt)%nat -> fin (vecAt O (nth t y []) i)) ->
     (forall t i, (t < n + 1)%nat -> (i < dt)%nat -> fin (vecAt O (nth t rhs []) i)) ->
     forall t i, (t < n + 1)%nat -> (i < dt)%nat ->
     let U := unitG O val k d in
     let V := fun g => val (pivotAt O d g) in
     let yp := fun h => val (gvecAt O (mkAV [] y [] []) (permIdx (tridiagonalSparsity a b p) h)) in
     let M := fun t' j => val (triMatAt O A B wA wB t (nth i p 0%nat) t' j) in
     Rabs (sumn Or (n + 1) (fun t' => sumn Or dt (fun j =>
       M t' j * (val (vecAt O (nth t' y []) j) - val (vecAt O (nth t' x []) j))))) <=
     solveBound all U V u eta (rowCountG k n (GT t i)) cc yp (GT t i) +
     rsum all (fun h => factorBound all U V u eta (rowCountG k n (GT t i)) (GT t i) h * Rabs (yp h)) +
     productBound u eta (mulCountT A B t (nth i p 0%nat))
       (sumn Or (n + 1) (fun t' => sumn Or dt (fun j => Rabs (M t' j * val (vecAt O (nth t' x []) j)))))).
Proof. exact @tri_trip. Qed.
Print Assumptions C58_tridiagonal_round_trip.

Theorem C58_arrowhead_round_trip :
  forall {F : Type} (O : ops F) fin val u eta, rounding O fin val u eta ->
  forall s ds dt dl dO k n,
  arrowDims s ds dt dl dO -> arrowBlocks s = Ok k ->
  forall mt m w d0 d x cc,
  inputArrow O n ds dt dl dO m w -> declaredArrow s n m -> simpleArrow n m -> dataOf k n ds dt dl dO d0 ->
  arrowFactorize O mt k m regularizationNone d0 = Ok d ->
  let all := allIdx n ds dt dl dO in
  (forall g, In g all -> fin (pivotAt O d g)) ->
  vecOf n ds dt dl dO x ->
  (forall g, In g all -> (colCountG k n g <= cc)%nat) ->
  exists rhs y, arrowMultiply O m x (zeroVec O n ds dt dl dO) = Ok rhs /\
    arrowSolveInPlace O k d rhs = Ok y /\ vecOf n ds dt dl dO y /\
    ((forall g, In g all -> fin (gvecAt O y g)) -> (forall g, In g all -> fin (gvecAt O rhs g)) ->
     forall g, In g all ->
     let U := unitG O val k d in
     let V := fun g => val (pivotAt O d g) in
     let yp := fun h => val (gvecAt O y (permIdx s h)) in
     let A := fun c => val (matAt O m w (permIdx s g) c) in
     Rabs (rsum all (fun c => A c * (val (gvecAt O y c) - val (gvecAt O x c)))) <=
     solveBound all U V u eta (rowCountG k n g) cc yp g +
     rsum all (fun h => factorBound all U V u eta (rowCountG k n g) g h * Rabs (yp h)) +
     productBound u eta (mulCountG m (permIdx s g)) (rsum all (fun c => Rabs (A c * val (gvecAt O x c))))).
Proof. exact @arrow_trip. Qed.
Print Assumptions C58_arrowhead_round_trip.

Definition thirds (l : list Z) : list double := map (fun z => odiv Od (dz z) (dz 3)) l.

(** the exact values are 5, -3, 26/3 and 12 up to the rounding of the thirds *)
Example C58_example :
  spOf exS 4 4 /\ inputOf Od exMd exS (dzs exVals) /\
  NoDup (entries exS) /\ (forall r c, In (r, c) (entries exS) -> (c <= r)%nat) /\
  map (mulCount Symmetric (entries exS)) (seq 0 4) = [4; 2; 2; 2]%nat /\
  map (mulCount Normal (entries exS)) (seq 0 4) = [1; 2; 2; 2]%nat /\
  map (mulCount Transposed (entries exS)) (seq 0 4) = [4; 1; 1; 1]%nat /\
  match multiply Od Symmetric exMd (thirds [1; -2; 4; 5]%Z) (dzs [0; 0; 0; 0]%Z) with
  | Ok r => finb r = true /\ map show r <> map show (dzs [5; -3]%Z ++ thirds [26; 36]%Z) /\
      match factorize Od UpLooking exB (Some exMd) regularizationNone (exLd0, exDd0) with
      | Ok LD => finb (snd LD) = true /\
          match solveInPlace Od exB LD r with
          | Ok y => finb y = true /\ map show y <> map show (thirds [1; -2; 4; 5]%Z)
          | Err _ => False
          end
      | Err _ => False
      end
  | Err _ => False
  end.
Proof.
  split; [exact exS_ok|]. split; [exact exMd_ok|].
  split; [apply nodup2b_ok; reflexivity|]. split.
  { intros r c H. cbn in H. repeat (destruct H as [H|H]; [injection H; lia|]). contradiction. }
  split; [reflexivity|]. split; [reflexivity|]. split; [reflexivity|].
  vm_compute. repeat split; discriminate.
Qed.

Lemma simple_symD (m : mat (F:=double)) :
  nodup2b (entries (m_sp m)) && forallb (fun e => (snd e <=? fst e)%nat) (entries (m_sp m)) = true ->
  simpleSym m.
Proof.
  rewrite andb_true_iff, forallb_forall. intros [H1 H2]. split; [apply nodup2b_ok; auto|].
  intros r c Hin. apply H2 in Hin. apply Nat.leb_le in Hin. auto.
Qed.
Lemma simple_rectD (m : mat (F:=double)) : nodup2b (entries (m_sp m)) = true -> simpleRect m.
Proof. apply nodup2b_ok. Qed.
Lemma exInD_simple : simpleArrow 2 exInD.
Proof.
  constructor; try (apply simple_symD; reflexivity); try (apply simple_rectD; reflexivity).
  - intros [|[|[|t]]] H; try lia; apply simple_symD; reflexivity.
  - intros [|[|t]] H; try lia; apply simple_rectD; reflexivity.
  - intros [|[|[|t]]] H; try lia; apply simple_rectD; reflexivity.
Qed.
Definition exXT : arrow_vec (F:=double) :=
  mkAV (thirds [1;2]%Z) (map thirds [[3;4;5]; [6;7;8]; [9;10;11]]%Z) (thirds [12;13]%Z) (thirds [14;15]%Z).

Definition flat (x : arrow_vec (F:=double)) : list double := v_start x ++ concat (v_tri x) ++ v_link x ++ v_outer x.
Example C58_arrowhead_example :
  arrowDims exA 2 3 2 2 /\ arrowBlocks exA = Ok exK /\
  inputArrow Od 2 2 3 2 2 exInD exWD /\ declaredArrow exA 2 exInD /\ simpleArrow 2 exInD /\
  dataOf exK 2 2 3 2 2 exDD /\ vecOf 2 2 3 2 2 exXT /\
  match arrowMultiply Od exInD exXT (zeroVec Od 2 2 3 2 2) with
  | Ok r => forallb (fun g => is_finite (gvecAt Od r g)) (allIdx 2 2 3 2 2) = true /\
      match arrowFactorize Od UpLooking exK exInD regularizationNone exDD with
      | Ok d => finData exK (allIdx 2 2 3 2 2) d = true /\
          match arrowSolveInPlace Od exK d r with
          | Ok y => forallb (fun g => is_finite (gvecAt Od y g)) (allIdx 2 2 3 2 2) = true /\
              map show (flat y) <> map show (flat exXT)
          | Err _ => False
          end
      | Err _ => False
      end
  | Err _ => False
  end.
Proof.
  split; [exact exA_dims|]. split; [exact exK_ok|]. split; [exact exInD_ok|].
  split; [exact exInD_declared|]. split; [exact exInD_simple|]. split; [exact exDD_ok|]. split.
  { constructor; try reflexivity. intros [|[|[|t]]] H; try lia; reflexivity. }
  vm_compute. repeat split; discriminate.
Qed.

Example C58_tridiagonal_example :
  tridiagonalBlocks exTA exTB [2; 0; 1]%nat = Ok exTK /\
  inputTri Od 2 3 (a_td exInD) (a_ts exInD) (w_td exWD) (w_ts exWD) /\
  declaredTri exTA exTB 2 (a_td exInD) (a_ts exInD) /\
  (forall t, (t < 2 + 1)%nat -> simpleSym (nth t (a_td exInD) noMat)) /\
  (forall t, (t < 2)%nat -> simpleRect (nth t (a_ts exInD) noMat)) /\
  dataOf exTK 2 0 3 0 0 exTDd /\ blocksOf 2 3 (v_tri exXT) /\
  match multiplyRepeatingBlockTridiagonal Od (a_td exInD) (a_ts exInD) (v_tri exXT)
          (repeat (repeat (o0 Od) 3) 3) with
  | Ok r => forallb finb r = true /\
      match tridiagonalFactorize Od EntryWise exTK 3 (a_td exInD) (a_ts exInD) regularizationNone exTDd with
      | Ok d => finData exTK (allIdx 2 0 3 0 0) d = true /\
          match tridiagonalSolveInPlace Od exTK d r with
          | Ok y => forallb finb y = true /\ map (map show) y <> map (map show) (v_tri exXT)
          | Err _ => False
          end
      | Err _ => False
      end
  | Err _ => False
  end.
Proof.
  split; [exact exTK_ok|]. split; [exact exTd_ok|]. split; [exact exTd_declared|].
  split; [apply exInD_simple|]. split; [apply exInD_simple|]. split; [exact exTDd_ok|]. split.
  { split; [reflexivity|]. intros [|[|[|t]]] H; try lia; reflexivity. }
  vm_compute. repeat split; discriminate.
Qed.

(** ** C59: products of integers are exact *)

(** IEEE arithmetic with precision prec: up to 2^prec *)
Theorem C59_ieee :
  forall prec emax (Hp : Prec_gt_0 prec) (Hm : Prec_lt_emax prec emax),
  intExact (ieeeOps prec emax Hp Hm) (ieeeFinite prec emax) (ieeeVal prec emax) (bpow radix2 prec).
Proof. exact ieee_int. Qed.
Print Assumptions C59_ieee.

Theorem C59_multiply :
  forall {F : Type} (O : ops F) fin val B, intExact O fin val B ->
  forall kind m sp vals nr nc x rhs,
  inputOf O m sp vals -> spOf sp nr nc -> (kind = Symmetric -> nr = nc) ->
  length x = mulCols kind nr nc -> length rhs = mulRows kind nr nc ->
  (forall v, In v vals -> isInt fin val v) -> (forall v, In v x -> isInt fin val v) -> (forall v, In v rhs -> isInt fin val v) ->
  exists r, multiply O kind m x rhs = Ok r /\ length r = length rhs /\
    forall i, (i < length rhs)%nat ->
    Rabs (val (vecAt O rhs i)) + sumn Or (mulCols kind nr nc) (fun j =>
       kindAt Or kind (entries sp) (map (fun v => Rabs (val v)) vals) i j * Rabs (val (vecAt O x j))) <= B ->
    fin (vecAt O r i) /\
    val (vecAt O r i) = val (vecAt O rhs i) + sumn Or (mulCols kind nr nc) (fun j =>
       kindAt Or kind (entries sp) (map val vals) i j * val (vecAt O x j)).
Proof. exact @multiply_int. Qed.
Print Assumptions C59_multiply.

Theorem C59_tridiagonal_multiply :
  forall {F : Type} (O : ops F) fin val B, intExact O fin val B ->
  forall n dt A C wA wC x rhs,
  inputTri O n dt A C wA wC -> blocksOf n dt x -> blocksOf n dt rhs ->
  (forall t v, (t < n + 1)%nat -> In v (nth t wA []) -> isInt fin val v) ->
  (forall t v, (t < n)%nat -> In v (nth t wC []) -> isInt fin val v) ->
  (forall t i, (t < n + 1)%nat -> (i < dt)%nat -> isInt fin val (vecAt O (nth t x []) i)) ->
  (forall t i, (t < n + 1)%nat -> (i < dt)%nat -> isInt fin val (vecAt O (nth t rhs []) i)) ->
  exists r, multiplyRepeatingBlockTridiagonal O A C x rhs = Ok r /\ blocksOf n dt r /\
    forall t i, (t < n + 1)%nat -> (i < dt)%nat ->
    Rabs (val (vecAt O (nth t rhs []) i)) + triExact O (fun v => Rabs (val v)) n dt A C wA wC x t i <= B ->
    fin (vecAt O (nth t r []) i) /\
    val (vecAt O (nth t r []) i) = val (vecAt O (nth t rhs []) i) + triExact O val n dt A C wA wC x t i.
Proof. exact @tri_int. Qed.
Print Assumptions C59_tridiagonal_multiply.

Theorem C59_arrowhead_multiply :
  forall {F : Type} (O : ops F) fin val B, intExact O fin val B ->
  forall n ds dt dl dO m w x rhs,
  inputArrow O n ds dt dl dO m w -> vecOf n ds dt dl dO x -> vecOf n ds dt dl dO rhs ->
  intVals (isInt fin val) n w ->
  let all := allIdx n ds dt dl dO in
  (forall g, In g all -> isInt fin val (gvecAt O x g)) -> (forall g, In g all -> isInt fin val (gvecAt O rhs g)) ->
  exists r, arrowMultiply O m x rhs = Ok r /\ vecOf n ds dt dl dO r /\
    forall g, In g all ->
    Rabs (val (gvecAt O rhs g)) + arrowExact O (fun v => Rabs (val v)) all m w x g <= B ->
    fin (gvecAt O r g) /\ val (gvecAt O r g) = val (gvecAt O rhs g) + arrowExact O val all m w x g.
Proof. exact @arrow_int. Qed.
Print Assumptions C59_arrowhead_multiply.

Local Notation intD := (isInt (ieeeFinite 53 1024) (ieeeVal 53 1024)).
Lemma dz_int z : (Z.abs z <= 2 ^ 53)%Z -> intD (dz z) /\ ieeeVal 53 1024 (dz z) = IZR z.
Proof.
  intros H. assert (L : Rabs (IZR z) <= bpow radix2 53).
  { rewrite <- abs_IZR. change (bpow radix2 53) with (IZR (2 ^ 53)). apply IZR_le. exact H. }
  destruct (int_rnd 53 1024 prec64 emax64 z L) as [E1 E2].
  pose proof (binary_normalize_correct 53 1024 prec64 emax64 mode_NE z 0 false) as C. cbv zeta in C.
  assert (E : F2R (Float radix2 z 0) = IZR z) by (unfold F2R; cbn; ring).
  rewrite E, E1 in C. rewrite E1 in E2. rewrite Rlt_bool_true in C by exact E2. destruct C as (C1 & C2 & _).
  change (binary_normalize 53 1024 prec64 emax64 mode_NE z 0 false) with (dz z) in C1, C2.
  split; [|exact C1]. split; [exact C2|]. exists z. exact C1.
Qed.
Lemma dzs_int l : forallb (fun z => (Z.abs z <=? 2 ^ 53)%Z) l = true -> forall v, In v (dzs l) -> intD v.
Proof.
  rewrite forallb_forall. intros H v Hv. apply in_map_iff in Hv. destruct Hv as (z & <- & Hz).
  apply H, Z.leb_le in Hz. apply dz_int. exact Hz.
Qed.

Example C59_example :
  spOf exS 4 4 /\ inputOf Od exMd exS (dzs exVals) /\
  (forall v, In v (dzs exVals) -> intD v) /\
  (forall v, In v (dzs [1; -2; 4; 5]%Z) -> intD v) /\ (forall v, In v (dzs [8; 7; 6; 5]%Z) -> intD v) /\
  match multiply Od Symmetric exMd (dzs [1; -2; 4; 5]%Z) (dzs [8; 7; 6; 5]%Z) with
  | Ok r => map show r = map show (dzs [23; -2; 32; 41]%Z)
  | Err _ => False
  end.
Proof.
  split; [exact exS_ok|]. split; [exact exMd_ok|].
  split; [apply dzs_int; reflexivity|]. split; [apply dzs_int; reflexivity|].
  split; [apply dzs_int; reflexivity|]. vm_compute. reflexivity.
Qed.

(** one more than the bound: 2^53 + 1 * 1 is not representable *)
Example C59_too_large :
  match multiply Od Normal (matD (mkSp 1 1 [(0, 0)%nat]) [1]%Z) (dzs [1]%Z) (dzs [2 ^ 53]%Z) with
  | Ok r => map show r = map show (dzs [2 ^ 53]%Z)
  | Err _ => False
  end.
Proof. vm_compute. reflexivity. Qed.

Example C59_arrowhead_example :
  inputArrow Od 2 2 3 2 2 exInD exWD /\ vecOf 2 2 3 2 2 exXD /\
  intVals intD 2 exWD /\ (forall g, In g (allIdx 2 2 3 2 2) -> intD (gvecAt Od exXD g)) /\
  match arrowMultiply Od exInD exXD exXD with
  | Ok r => map show (flat r) =
      map show (dzs [85; 19; 47; 40; 87; 141; 76; 147; 181; 148; 183; 191; 218; 278; 406]%Z)
  | Err _ => False
  end.
Proof.
  split; [exact exInD_ok|]. split; [exact exXD_ok|]. split.
  { constructor; try (apply dzs_int; reflexivity);
      intros [|[|[|t]]] v H; try lia; apply dzs_int; reflexivity. }
  split.
  { assert (H : forall v, In v (flat exXD) -> intD v)
      by (apply (dzs_int [1;2;3;4;5;6;7;8;9;10;11;12;13;14;15]%Z); reflexivity).
    intros g Hg. apply H. unfold allIdx in Hg.
    Opaque dz. cbn in Hg.
    repeat (destruct Hg as [<-|Hg]; [cbn; repeat (try (left; reflexivity); right)|]). contradiction. }
  Transparent dz.
  vm_compute. reflexivity.
Qed.
