(** Properties C08 - C12, C18, C27 and C39: the arrowhead linked factorization,
    the block tridiagonal one, and the block products. *)
From Coq Require Import List Arith Lia Bool QArith Qcanon.
From Verif Require Import Base ModelPerm ModelSparsity ModelSymbolic ModelNumeric ModelArrow ModelReg.
From Verif Require Import SpecSymbolic SpecArrow SpecNumeric SpecArrowNum ExampleData ExampleArrow.
From Verif Require Import ProofArrowMultiply ProofPropArrow.
Import ListNotations.
Local Open Scope nat_scope.

(** ** C08: the arrowhead linked factorization reproduces the assembled matrix *)

Theorem C08_arrowhead_reproduces_matrix :
  forall {F : Type} (O : ops F) (FL : fieldLaws O) mt s ds dt dl dO n m w reg,
  arrowDims s ds dt dl dO -> inputArrow O n ds dt dl dO m w -> declaredArrow s n m ->
  exists k, arrowBlocks s = Ok k /\
    (exists d, arrowCtor O k n = Ok d /\ dataOf k n ds dt dl dO d) /\
    forall d0, dataOf k n ds dt dl dO d0 ->
    exists d, arrowFactorize O mt k m reg d0 = Ok d /\ dataOf k n ds dt dl dO d /\
      (forall g, In g (allIdx n ds dt dl dO) -> factorAt O (fl_one FL) k d g g = fl_one FL) /\
      (forall g h, In g (allIdx n ds dt dl dO) -> In h (allIdx n ds dt dl dO) ->
         gbefore g h -> factorAt O (fl_one FL) k d g h = o0 O) /\
      ((forall g, In g (allIdx n ds dt dl dO) -> pivotAt O d g <> o0 O) ->
       exists E,
         (forall g, In g (allIdx n ds dt dl dO) ->
            pivotAt O d g = reg (osub O (pivotAt O d g) (E (permIdx s g))) (localIdx g)) /\
         (forall g h, In g (allIdx n ds dt dl dO) -> In h (allIdx n ds dt dl dO) ->
            gldltAt O (allIdx n ds dt dl dO) (factorAt O (fl_one FL) k d) (pivotAt O d) g h =
            plusDiagG O (matAt O m w) E (permIdx s g) (permIdx s h))).
Proof. exact @arrow_reproduces. Qed.
Print Assumptions C08_arrowhead_reproduces_matrix.

(** the pivots of one method are nonzero: the other method computes the same *)
Theorem C08_methods_agree :
  forall {F : Type} (O : ops F) (FL : fieldLaws O) s ds dt dl dO k n mt mt' reg m w d0 d0' d,
  arrowDims s ds dt dl dO -> arrowBlocks s = Ok k ->
  inputArrow O n ds dt dl dO m w -> declaredArrow s n m ->
  dataOf k n ds dt dl dO d0 -> dataOf k n ds dt dl dO d0' ->
  arrowFactorize O mt k m reg d0 = Ok d ->
  (forall g, In g (allIdx n ds dt dl dO) -> pivotAt O d g <> o0 O) ->
  arrowFactorize O mt' k m reg d0' = Ok d.
Proof. exact @arrow_methods_agree. Qed.
Print Assumptions C08_methods_agree.

Definition exEntries : list (gidx * gidx) :=
  [(GS 1, GS 0); (GT 1 0, GT 0 2); (GT 1 1, GT 2 2); (GL 1, GT 2 2); (GL 0, GO 0); (GO 1, GT 0 0);
   (GO 0, GO 0); (GO 1, GO 1); (GL 0, GT 1 2)].

Example C08_example :
  arrowDims exA 2 3 2 2 /\ inputArrow Oq 2 2 3 2 2 exIn exW /\ declaredArrow exA 2 exIn /\
  arrowBlocks exA = Ok exK /\ dataOf exK 2 2 3 2 2 exD /\
  match arrowFactorize Oq UpLooking exK exIn regularizationNone exD,
        arrowFactorize Oq EntryWise exK exIn regularizationNone exDused with
  | Ok d, Ok d' =>
      nonzeroG (pivotAt Oq d) = true /\
      allQ (pivotAt Oq d) = allQ (pivotAt Oq d') /\
      map (fun e => this (gldltAt Oq (allIdx 2 2 3 2 2) (factorAt Oq 1%Qc exK d) (pivotAt Oq d)
                            (fst e) (snd e))) exEntries =
      map (fun e => this (matAt Oq exIn exW (permIdx exA (fst e)) (permIdx exA (snd e)))) exEntries /\
      map (fun e => this (matAt Oq exIn exW (permIdx exA (fst e)) (permIdx exA (snd e)))) exEntries =
      [1#1; 0#1; 2#1; 3#1; 2#1; 3#1; 17#1; 19#1; 0#1]%Q
  | _, _ => False
  end.
Proof.
  split; [exact exA_dims|]. split; [exact exIn_ok|]. split; [exact exIn_declared|].
  split; [exact exK_ok|]. split; [exact exD_ok|]. vm_compute. repeat split; reflexivity.
Qed.

(** ** C09: solving *)

Theorem C09_arrowhead_solve :
  forall {F : Type} (O : ops F) (FL : fieldLaws O) mt s ds dt dl dO k n m w reg d0 d,
  arrowDims s ds dt dl dO -> arrowBlocks s = Ok k ->
  inputArrow O n ds dt dl dO m w -> declaredArrow s n m ->
  dataOf k n ds dt dl dO d0 ->
  arrowFactorize O mt k m reg d0 = Ok d ->
  (forall g, In g (allIdx n ds dt dl dO) -> pivotAt O d g <> o0 O) ->
  exists E,
    (forall g, In g (allIdx n ds dt dl dO) ->
       pivotAt O d g = reg (osub O (pivotAt O d g) (E (permIdx s g))) (localIdx g)) /\
    forall rhs, vecOf n ds dt dl dO rhs ->
    exists x, arrowSolveInPlace O k d rhs = Ok x /\ vecOf n ds dt dl dO x /\
      (forall g, In g (allIdx n ds dt dl dO) ->
         gmatVec O (allIdx n ds dt dl dO) (plusDiagG O (matAt O m w) E) (gvecAt O x) g =
         gvecAt O rhs g) /\
      (forall x', vecOf n ds dt dl dO x' ->
         (forall g, In g (allIdx n ds dt dl dO) ->
            gmatVec O (allIdx n ds dt dl dO) (plusDiagG O (matAt O m w) E) (gvecAt O x') g =
            gvecAt O rhs g) -> x' = x).
Proof. exact @arrow_solves. Qed.
Print Assumptions C09_arrowhead_solve.

Theorem C09_arrowhead_solve_without_regularization :
  forall {F : Type} (O : ops F) (FL : fieldLaws O) mt s ds dt dl dO k n m w d0 d rhs,
  arrowDims s ds dt dl dO -> arrowBlocks s = Ok k ->
  inputArrow O n ds dt dl dO m w -> declaredArrow s n m ->
  dataOf k n ds dt dl dO d0 ->
  arrowFactorize O mt k m regularizationNone d0 = Ok d ->
  (forall g, In g (allIdx n ds dt dl dO) -> pivotAt O d g <> o0 O) ->
  vecOf n ds dt dl dO rhs ->
  exists x, arrowSolveInPlace O k d rhs = Ok x /\ vecOf n ds dt dl dO x /\
    (forall g, In g (allIdx n ds dt dl dO) ->
       gmatVec O (allIdx n ds dt dl dO) (matAt O m w) (gvecAt O x) g = gvecAt O rhs g) /\
    (forall x', vecOf n ds dt dl dO x' ->
       (forall g, In g (allIdx n ds dt dl dO) ->
          gmatVec O (allIdx n ds dt dl dO) (matAt O m w) (gvecAt O x') g = gvecAt O rhs g) ->
       x' = x).
Proof. exact @arrow_solves_none. Qed.
Print Assumptions C09_arrowhead_solve_without_regularization.

(** the solution does not depend on the four permutations, nor on the method *)
Theorem C09_permutation_independent :
  forall {F : Type} (O : ops F) (FL : fieldLaws O)
    mt mt' s s' ds dt dl dO k k' n m w d0 d0' d d' rhs,
  arrowDims s ds dt dl dO -> arrowBlocks s = Ok k ->
  arrowDims s' ds dt dl dO -> arrowBlocks s' = Ok k' ->
  inputArrow O n ds dt dl dO m w -> declaredArrow s n m -> declaredArrow s' n m ->
  dataOf k n ds dt dl dO d0 -> dataOf k' n ds dt dl dO d0' ->
  arrowFactorize O mt k m regularizationNone d0 = Ok d ->
  arrowFactorize O mt' k' m regularizationNone d0' = Ok d' ->
  (forall g, In g (allIdx n ds dt dl dO) -> pivotAt O d g <> o0 O) ->
  (forall g, In g (allIdx n ds dt dl dO) -> pivotAt O d' g <> o0 O) ->
  vecOf n ds dt dl dO rhs ->
  exists x, arrowSolveInPlace O k d rhs = Ok x /\ arrowSolveInPlace O k' d' rhs = Ok x.
Proof. exact @arrow_permutation_indep. Qed.
Print Assumptions C09_permutation_independent.

Definition exSolve (k : arrow_blks) (mt : method) : res (arrow_vec (F:=Qc)) :=
  let* d := arrowCtor Oq k 2 in
  let* d := arrowFactorize Oq mt k exIn regularizationNone d in
  arrowSolveInPlace Oq k d exX.

Example C09_example :
  arrowDims exA' 2 3 2 2 /\ arrowBlocks exA' = Ok exK' /\ declaredArrow exA' 2 exIn /\
  vecOf 2 2 3 2 2 exX /\
  match exSolve exK UpLooking, exSolve exK' EntryWise with
  | Ok x, Ok x' =>
      allQ (gvecAt Oq x) = allQ (gvecAt Oq x') /\
      allQ (gmatVec Oq (allIdx 2 2 3 2 2) (matAt Oq exIn exW) (gvecAt Oq x)) =
      map inject_Z [1;2;3;4;5;6;7;8;9;10;11;12;13;14;15]%Z
  | _, _ => False
  end.
Proof.
  split; [exact exA'_dims|]. split; [exact exK'_ok|]. split; [exact exIn_declared'|].
  split; [exact exX_ok|]. vm_compute. repeat split; reflexivity.
Qed.

(** ** C10: multiply, factorize and solve is the identity *)

Theorem C10_arrowhead_round_trip :
  forall {F : Type} (O : ops F) (FL : fieldLaws O) mt s ds dt dl dO k n m w d0 d x,
  arrowDims s ds dt dl dO -> arrowBlocks s = Ok k ->
  inputArrow O n ds dt dl dO m w -> declaredArrow s n m -> simpleArrow n m ->
  dataOf k n ds dt dl dO d0 ->
  arrowFactorize O mt k m regularizationNone d0 = Ok d ->
  (forall g, In g (allIdx n ds dt dl dO) -> pivotAt O d g <> o0 O) ->
  vecOf n ds dt dl dO x ->
  exists rhs, arrowMultiply O m x (zeroVec O n ds dt dl dO) = Ok rhs /\
    arrowSolveInPlace O k d rhs = Ok x.
Proof. exact @arrow_round_trip. Qed.
Print Assumptions C10_arrowhead_round_trip.

Example C10_example :
  simpleArrow 2 exIn /\
  match (let* d := arrowFactorize Oq UpLooking exK exIn regularizationNone exDused in
         let* b := arrowMultiply Oq exIn exX (zeroVec Oq 2 2 3 2 2) in
         let* x := arrowSolveInPlace Oq exK d b in Ok (d, b, x)) with
  | Ok (d, b, x) =>
      nonzeroG (pivotAt Oq d) = true /\ allQ (gvecAt Oq x) = allQ (gvecAt Oq exX) /\
      allQ (gvecAt Oq b) =
      map inject_Z [84; 17; 44; 36; 82; 135; 69; 139; 172; 138; 172; 179; 205; 264; 391]%Z
  | Err _ => False
  end.
Proof. split; [exact exIn_simple|]. vm_compute. repeat split; reflexivity. Qed.

(** ** C11: the object can be reused *)

Theorem C11_arrowhead_reuse :
  forall {F : Type} (O : ops F) s ds dt dl dO k n mt reg m w d d',
  arrowDims s ds dt dl dO -> arrowBlocks s = Ok k ->
  inputArrow O n ds dt dl dO m w -> declaredArrow s n m ->
  dataOf k n ds dt dl dO d -> dataOf k n ds dt dl dO d' ->
  arrowFactorize O mt k m reg d = arrowFactorize O mt k m reg d'.
Proof. exact @arrow_reusable. Qed.
Print Assumptions C11_arrowhead_reuse.

Example C11_example :
  dataOf exK 2 2 3 2 2 exD /\ dataOf exK 2 2 3 2 2 exDused /\
  allQ (pivotAt Oq exD) <> allQ (pivotAt Oq exDused) /\
  match arrowFactorize Oq UpLooking exK exIn regularizationNone exD,
        arrowFactorize Oq UpLooking exK exIn regularizationNone exDused with
  | Ok d, Ok d' => map this (d_lp d) = map this (d_lp d') /\
                   allQ (pivotAt Oq d) = allQ (pivotAt Oq d') /\
                   allQ (pivotAt Oq d) <> allQ (pivotAt Oq exDused)
  | _, _ => False
  end.
Proof.
  split; [exact exD_ok|]. split; [exact exDused_ok|]. vm_compute.
  repeat split; try reflexivity; discriminate.
Qed.

(** ** C12: the block tridiagonal factorization *)

Theorem C12_tridiagonal_solves :
  forall {F : Type} (O : ops F) (FL : fieldLaws O) mt a b p dt n A B wA wB reg,
  spOf a dt dt -> spOf b dt dt -> validPerm dt p ->
  inputTri O n dt A B wA wB -> declaredTri a b n A B ->
  exists k, tridiagonalBlocks a b p = Ok k /\
    (exists d, arrowCtor O k n = Ok d /\ dataOf k n 0 dt 0 0 d) /\
    forall d0, dataOf k n 0 dt 0 0 d0 ->
    exists d, tridiagonalFactorize O mt k dt A B reg d0 = Ok d /\ dataOf k n 0 dt 0 0 d /\
      ((forall t i, t < n + 1 -> i < dt -> pivotAt O d (GT t i) <> o0 O) ->
       exists E,
         (forall t i, t < n + 1 -> i < dt ->
            pivotAt O d (GT t i) = reg (osub O (pivotAt O d (GT t i)) (E t (nth i p 0))) i) /\
         (forall t i u j, t < n + 1 -> i < dt -> u < n + 1 -> j < dt ->
            gldltAt O (allIdx n 0 dt 0 0) (factorAt O (fl_one FL) k d) (pivotAt O d) (GT t i) (GT u j) =
            plusDiagT O (triMatAt O A B wA wB) E t (nth i p 0) u (nth j p 0)) /\
         forall rhs, blocksOf n dt rhs ->
         exists x, tridiagonalSolveInPlace O k d rhs = Ok x /\ blocksOf n dt x /\
           (forall t i, t < n + 1 -> i < dt ->
              triMatVec O n dt (plusDiagT O (triMatAt O A B wA wB) E) x t i =
              vecAt O (nth t rhs []) i) /\
           (forall x', blocksOf n dt x' ->
              (forall t i, t < n + 1 -> i < dt ->
                 triMatVec O n dt (plusDiagT O (triMatAt O A B wA wB) E) x' t i =
                 vecAt O (nth t rhs []) i) -> x' = x)).
Proof. exact @tri_factorizes. Qed.
Print Assumptions C12_tridiagonal_solves.

Theorem C12_tridiagonal_round_trip :
  forall {F : Type} (O : ops F) (FL : fieldLaws O) mt a b p dt n k A B wA wB d0 d x,
  spOf a dt dt -> spOf b dt dt -> validPerm dt p -> tridiagonalBlocks a b p = Ok k ->
  inputTri O n dt A B wA wB -> declaredTri a b n A B -> simpleTri n A B ->
  dataOf k n 0 dt 0 0 d0 ->
  tridiagonalFactorize O mt k dt A B regularizationNone d0 = Ok d ->
  (forall t i, t < n + 1 -> i < dt -> pivotAt O d (GT t i) <> o0 O) ->
  blocksOf n dt x ->
  exists rhs, multiplyRepeatingBlockTridiagonal O A B x (repeat (repeat (o0 O) dt) (n + 1)) = Ok rhs /\
    tridiagonalSolveInPlace O k d rhs = Ok x.
Proof. exact @tri_round_trip. Qed.
Print Assumptions C12_tridiagonal_round_trip.

Example C12_example :
  spOf exTA 3 3 /\ spOf exTB 3 3 /\ validPerm 3 [2;0;1] /\
  tridiagonalBlocks exTA exTB [2;0;1] = Ok exTK /\
  inputTri Oq 2 3 (a_td exIn) (a_ts exIn) (w_td exW) (w_ts exW) /\
  declaredTri exTA exTB 2 (a_td exIn) (a_ts exIn) /\ simpleTri 2 (a_td exIn) (a_ts exIn) /\
  dataOf exTK 2 0 3 0 0 exTD /\
  match (let* d := tridiagonalFactorize Oq EntryWise exTK 3 (a_td exIn) (a_ts exIn)
                     regularizationNone exTD in
         let* b := multiplyRepeatingBlockTridiagonal Oq (a_td exIn) (a_ts exIn) (v_tri exX)
                     (repeat (qs [0;0;0]%Z) 3) in
         let* x := tridiagonalSolveInPlace Oq exTK d b in Ok (d, b, x)) with
  | Ok (d, b, x) =>
      forallb (fun g => negb (Qeq_bool (this (pivotAt Oq d g)) 0)) (allIdx 2 0 3 0 0) = true /\
      map (map this) x = map (map this) (v_tri exX) /\
      map (map this) b = map (map inject_Z) [[40;36;34]; [135;69;79]; [172;102;97]]%Z
  | Err _ => False
  end.
Proof.
  split; [exact exT_spA|]. split; [exact exT_spB|]. split; [exact exT_perm|].
  split; [exact exTK_ok|]. split; [exact exT_ok|]. split; [exact exT_declared|].
  split; [exact exT_simple|]. split; [exact exTD_ok|]. vm_compute. repeat split; reflexivity.
Qed.

(** ** C18: every consistent sparsity compiles

    [arrowBlocks] and [arrowFactorize] return [Err StaticAssert], [Err CAssert],
    [Err AssertViolation], [Err UB], ... for every static_assert, assertion and out
    of bounds access on the way; the scalar operations are arbitrary. *)

Theorem C18_consistent_sparsity_compiles :
  forall {F : Type} (O : ops F) s ds dt dl dO, arrowDims s ds dt dl dO ->
  exists k, arrowBlocks s = Ok k /\
    forall n, (exists d, arrowCtor O k n = Ok d /\ dataOf k n ds dt dl dO d) /\
    forall mt reg m w d0, dataOf k n ds dt dl dO d0 ->
      inputArrow O n ds dt dl dO m w -> declaredArrow s n m ->
      exists d, arrowFactorize O mt k m reg d0 = Ok d /\ dataOf k n ds dt dl dO d.
Proof. exact @arrow_compiles. Qed.
Print Assumptions C18_consistent_sparsity_compiles.

(** also with empty start, link and outer blocks, and with empty sparsities *)
Definition exEmpty : arrow_sp :=
  mkAS (mkSS (mkSp 0 0 []) (mkSp 3 0 []) (mkSp 1 0 []) [])
       (mkST (mkSp 3 3 [(2,0)]) (mkSp 3 3 [(0,1)]) [1;2;0])
       (mkSL (mkSp 0 3 []) (mkSp 0 0 []) (mkSp 1 0 []) [])
       (mkSO (mkSp 1 3 []) (mkSp 1 1 []) [0]).
Example C18_example :
  arrowDims exEmpty 0 3 0 1 /\ arrowDims exA 2 3 2 2 /\
  (match arrowBlocks exEmpty with Ok k => c_entries (b_sp (k_td k)) | Err _ => [] end) = [(2, 1)] /\
  (match arrowBlocks exA with Ok k => length (c_entries (b_sp (k_os k))) | Err _ => 0 end) = 3.
Proof. split; [arrow_dims|]. split; [exact exA_dims|]. vm_compute. split; reflexivity. Qed.

(** ** C27: block products *)

Theorem C27_arrowhead_multiply :
  forall {F : Type} (O : ops F) (FL : fieldLaws O) n ds dt dl dO m w x rhs,
  inputArrow O n ds dt dl dO m w -> vecOf n ds dt dl dO x -> vecOf n ds dt dl dO rhs ->
  exists r, arrowMultiply O m x rhs = Ok r /\ vecOf n ds dt dl dO r /\
    forall g, In g (allIdx n ds dt dl dO) ->
      gvecAt O r g =
      oadd O (gvecAt O rhs g)
             (gmatVec O (allIdx n ds dt dl dO) (productAt O m w) (gvecAt O x) g).
Proof. exact @arrow_multiply_ok. Qed.
Print Assumptions C27_arrowhead_multiply.

(** For entry lists without duplicates and, in the diagonal blocks, without entries
    above the diagonal this is the matrix that is factorized. *)
Theorem C27_same_matrix :
  forall {F : Type} (O : ops F) (FL : fieldLaws O) n ds dt dl dO m w g h,
  inputArrow O n ds dt dl dO m w -> simpleArrow n m ->
  In g (allIdx n ds dt dl dO) -> In h (allIdx n ds dt dl dO) ->
  productAt O m w g h = matAt O m w g h.
Proof. exact @product_is_matrix. Qed.
Print Assumptions C27_same_matrix.

Theorem C27_tridiagonal_multiply :
  forall {F : Type} (O : ops F) (FL : fieldLaws O) n dt A B wA wB x rhs,
  length A = n + 1 -> length B = n -> length x = n + 1 -> length rhs = n + 1 ->
  (forall t, t < n + 1 -> SpecArrowNum.matOf O (nth t A noMat) dt dt (nth t wA [])) ->
  (forall t, t < n -> SpecArrowNum.matOf O (nth t B noMat) dt dt (nth t wB [])) ->
  (forall t, t < n + 1 -> length (nth t x []) = dt) ->
  (forall t, t < n + 1 -> length (nth t rhs []) = dt) ->
  exists r, multiplyRepeatingBlockTridiagonal O A B x rhs = Ok r /\
    length r = n + 1 /\ (forall t, t < n + 1 -> length (nth t r []) = dt) /\
    forall t i, t < n + 1 -> i < dt ->
      vecAt O (nth t r []) i =
      oadd O (vecAt O (nth t rhs []) i) (triMatVec O n dt (triProductAt O A B wA wB) x t i).
Proof. exact @tri_multiply_ok. Qed.
Print Assumptions C27_tridiagonal_multiply.

(** inconsistent numbers of tridiagonal blocks violate a precondition *)
Theorem C27_tridiagonal_counts_rejected :
  forall {F : Type} (O : ops F) (A B : list (mat (F:=F))) x rhs,
  ~ (length A = length B + 1 /\ length x = length B + 1 /\ length rhs = length B + 1) ->
  multiplyRepeatingBlockTridiagonal O A B x rhs = Err PreViolation.
Proof. exact @tri_multiply_counts. Qed.
Print Assumptions C27_tridiagonal_counts_rejected.

Theorem C27_arrowhead_counts_rejected :
  forall {F : Type} (O : ops F) (FL : fieldLaws O) ds dt dO m w x rhs,
  SpecArrowNum.matOf O (a_sd m) ds ds (w_sd w) -> SpecArrowNum.matOf O (a_sn m) dt ds (w_sn w) ->
  SpecArrowNum.matOf O (a_so m) dO ds (w_so w) ->
  length (v_start x) = ds -> length (v_outer x) = dO -> length (v_start rhs) = ds ->
  v_tri x <> [] -> length (nth 0 (v_tri x) []) = dt ->
  v_tri rhs <> [] -> length (nth 0 (v_tri rhs) []) = dt ->
  ~ (length (a_td m) = length (a_ts m) + 1 /\
     length (v_tri x) = length (a_ts m) + 1 /\
     length (v_tri rhs) = length (a_ts m) + 1) ->
  arrowMultiply O m x rhs = Err PreViolation.
Proof. exact @arrow_multiply_counts. Qed.
Print Assumptions C27_arrowhead_counts_rejected.

(** duplicates in the outer diagonal and upper entries in the start diagonal *)
Definition exMul : arrow_mat (F:=Qc) :=
  mkAM (ExampleData.matOf (mkSp 2 2 [(0,1); (1,1)]) [3;5]%Z) (a_sn exIn) (a_so exIn) (a_td exIn)
       (a_ts exIn) (a_lp exIn) (a_ld exIn) (a_ln exIn) (a_os exIn)
       (ExampleData.matOf (mkSp 2 2 [(0,0); (1,0); (1,0)]) [17;1;2]%Z).
Example C27_example :
  match arrowMultiply Oq exIn exX exX, arrowMultiply Oq exMul exX exX with
  | Ok r, Ok r' =>
      allQ (gvecAt Oq r) =
      map inject_Z [85; 19; 47; 40; 87; 141; 76; 147; 181; 148; 183; 191; 218; 278; 406]%Z /\
      map this (v_start r') = map inject_Z [82; 21]%Z /\
      map this (v_outer r') = map inject_Z [323; 163]%Z
  | _, _ => False
  end /\
  arrowMultiply Oq exIn exX (mkAV (v_start exX) (map qs [[3;4;5]; [6;7;8]]%Z) (v_link exX) (v_outer exX)) =
  Err PreViolation.
Proof. vm_compute. repeat split; reflexivity. Qed.

(** ** C39: wrong numbers of blocks

    "factorize, solveInPlace and the arrowhead product reject inputs whose numbers of
    blocks do not fit" does not hold: blocks that are too many are ignored, so that
    another system is solved, and missing blocks are read out of bounds. *)

Definition exLong : arrow_mat (F:=Qc) :=
  mkAM (a_sd exIn) (a_sn exIn) (a_so exIn) (a_td exIn ++ a_td exIn) (a_ts exIn ++ a_td exIn)
       (a_lp exIn) (a_ld exIn) (a_ln exIn) (a_os exIn ++ a_os exIn) (a_od exIn).
Definition exShort : arrow_mat (F:=Qc) :=
  mkAM (a_sd exIn) (a_sn exIn) (a_so exIn) (tl (a_td exIn)) (tl (a_ts exIn))
       (a_lp exIn) (a_ld exIn) (a_ln exIn) (tl (a_os exIn)) (a_od exIn).

Theorem C39_factorize_ignores_extra_blocks_refuted :
  exists (m m' : arrow_mat (F:=Qc)) d,
    arrowCtor Oq exK 2 = Ok exD /\ length (a_td m) = 6 /\ length (a_os m) = 6 /\
    length (a_td m') = 3 /\
    arrowFactorize Oq UpLooking exK m regularizationNone exD = Ok d /\
    arrowFactorize Oq UpLooking exK m' regularizationNone exD = Ok d.
Proof.
  exists exLong, exIn.
  assert (E : arrowFactorize Oq UpLooking exK exLong regularizationNone exD =
              arrowFactorize Oq UpLooking exK exIn regularizationNone exD) by (vm_compute; reflexivity).
  rewrite E.
  destruct (arrowFactorize Oq UpLooking exK exIn regularizationNone exD) as [d|e] eqn:Ed.
  - exists d. repeat split; auto.
  - exfalso. revert Ed. vm_compute. discriminate.
Qed.
Print Assumptions C39_factorize_ignores_extra_blocks_refuted.

Theorem C39_missing_blocks_refuted :
  exists (m : arrow_mat (F:=Qc)),
    length (a_td m) = 2 /\ length (a_ts m) = 1 /\ length (a_os m) = 2 /\
    arrowCtor Oq exK 2 = Ok exD /\
    arrowFactorize Oq UpLooking exK m regularizationNone exD = Err UB.
Proof. exists exShort. vm_compute. repeat split; reflexivity. Qed.
Print Assumptions C39_missing_blocks_refuted.

Theorem C39_multiply_outer_counts_refuted :
  (exists (m : arrow_mat (F:=Qc)) x rhs r,
     length (a_os m) = 6 /\ length (a_td m) = 3 /\ arrowMultiply Oq m x rhs = Ok r) /\
  (exists (m : arrow_mat (F:=Qc)) x rhs,
     length (a_os m) = 2 /\ length (a_td m) = 3 /\ arrowMultiply Oq m x rhs = Err UB) /\
  (exists (m : arrow_mat (F:=Qc)) x rhs, v_tri x = [] /\ arrowMultiply Oq m x rhs = Err UB).
Proof.
  split; [|split].
  - exists (mkAM (a_sd exIn) (a_sn exIn) (a_so exIn) (a_td exIn) (a_ts exIn) (a_lp exIn) (a_ld exIn)
                 (a_ln exIn) (a_os exIn ++ a_os exIn) (a_od exIn)), exX, exX.
    eexists. split; [reflexivity|]. split; [reflexivity|]. vm_compute. reflexivity.
  - exists (mkAM (a_sd exIn) (a_sn exIn) (a_so exIn) (a_td exIn) (a_ts exIn) (a_lp exIn) (a_ld exIn)
                 (a_ln exIn) (tl (a_os exIn)) (a_od exIn)), exX, exX.
    vm_compute. repeat split; reflexivity.
  - exists exIn, (mkAV (v_start exX) [] (v_link exX) (v_outer exX)), exX.
    vm_compute. repeat split; reflexivity.
Qed.
Print Assumptions C39_multiply_outer_counts_refuted.

(** too many or too few right hand side blocks *)
Theorem C39_solve_counts_refuted :
  exists d (rhs : arrow_vec (F:=Qc)) x (short : arrow_vec (F:=Qc)),
    arrowFactorize Oq UpLooking exK exIn regularizationNone exD = Ok d /\
    length (v_tri rhs) = 6 /\ length (v_tri short) = 2 /\
    arrowSolveInPlace Oq exK d rhs = Ok x /\
    arrowSolveInPlace Oq exK d short = Err UB.
Proof.
  assert (H : match (let* d := arrowFactorize Oq UpLooking exK exIn regularizationNone exD in
                     arrowSolveInPlace Oq exK d
                       (mkAV (v_start exX) (v_tri exX ++ v_tri exX) (v_link exX) (v_outer exX))) with
              | Ok x => length (v_tri x) = 6 | Err _ => False end) by (vm_compute; reflexivity).
  assert (H' : (let* d := arrowFactorize Oq UpLooking exK exIn regularizationNone exD in
                 arrowSolveInPlace Oq exK d
                   (mkAV (v_start exX) (tl (v_tri exX)) (v_link exX) (v_outer exX))) = Err UB)
    by (vm_compute; reflexivity).
  destruct (arrowFactorize Oq UpLooking exK exIn regularizationNone exD) as [d|e]; [|contradiction].
  cbn [bind] in H, H'.
  destruct (arrowSolveInPlace Oq exK d
              (mkAV (v_start exX) (v_tri exX ++ v_tri exX) (v_link exX) (v_outer exX))) as [x|e] eqn:Ex;
    [|contradiction].
  exists d, (mkAV (v_start exX) (v_tri exX ++ v_tri exX) (v_link exX) (v_outer exX)), x,
    (mkAV (v_start exX) (tl (v_tri exX)) (v_link exX) (v_outer exX)).
  repeat split; auto.
Qed.
Print Assumptions C39_solve_counts_refuted.
