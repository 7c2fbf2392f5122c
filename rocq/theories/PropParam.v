(** Properties C65 - C67: the number type is a parameter. Computing with two number types gives
    related results, intervals enclose the solutions of all systems within the input, and numbers
    with derivatives give the derivative of the solution. *)
From Coq Require Import List Arith Lia Bool QArith Qcanon Reals Lra.
From Verif Require Import Base ModelPerm ModelSparsity ModelSymbolic ModelNumeric ModelArrow ModelReg ModelIeee.
From Verif Require Import SpecSymbolic SpecArrow SpecNumeric SpecArrowNum SpecReg SpecParam ExampleData ExampleArrow ExampleIeee.
From Verif Require Import ProofParam ProofInterval ProofPropParam PropSingle.
Import ListNotations.
Local Open Scope nat_scope.

(** ** C65: related inputs give related results *)

Theorem C65_factorize_and_solve :
  forall {F G : Type} (OF : ops F) (OG : ops G) (R : F -> G -> Prop) (OR : opsRel OF OG R) mt s n p a vals m m' reg reg' b L0 D0 L0' D0',
  spOf s n n -> validPerm n p -> factorizationBlk s p = Ok b ->
  spOf a n n -> inputOf OF m a vals -> coveredSym (entries a) (entries s) n p ->
  matRel R m m' -> regRel R reg reg' ->
  length L0 = c_nnz (b_sp b) -> length D0 = n -> length L0' = c_nnz (b_sp b) -> length D0' = n ->
  exists L1 D1 L1' D1',
    factorize OF mt b (Some m) reg (L0, D0) = Ok (L1, D1) /\
    factorize OG mt b (Some m') reg' (L0', D0') = Ok (L1', D1') /\
    length D1 = n /\ listRel R L1 L1' /\ listRel R D1 D1' /\
    forall rhs rhs', listRel R rhs rhs' -> resRel (listRel R) (solveInPlace OF b (L1, D1) rhs) (solveInPlace OG b (L1', D1') rhs').
Proof. exact @single_related. Qed.
Print Assumptions C65_factorize_and_solve.

Theorem C65_arrowhead :
  forall {F G : Type} (OF : ops F) (OG : ops G) (R : F -> G -> Prop) (OR : opsRel OF OG R) mt s ds dt dl dO k n m m' w reg reg' d0 d0',
  arrowDims s ds dt dl dO -> arrowBlocks s = Ok k ->
  inputArrow OF n ds dt dl dO m w -> declaredArrow s n m ->
  arrowMatRel R m m' -> regRel R reg reg' ->
  dataOf k n ds dt dl dO d0 -> dataOf k n ds dt dl dO d0' ->
  exists d d',
    arrowFactorize OF mt k m reg d0 = Ok d /\ arrowFactorize OG mt k m' reg' d0' = Ok d' /\
    dataOf k n ds dt dl dO d /\ arrowDataRel R d d' /\
    forall rhs rhs', arrowVecRel R rhs rhs' ->
      resRel (arrowVecRel R) (arrowSolveInPlace OF k d rhs) (arrowSolveInPlace OG k d' rhs').
Proof. exact @arrow_related. Qed.
Print Assumptions C65_arrowhead.

Theorem C65_tridiagonal :
  forall {F G : Type} (OF : ops F) (OG : ops G) (R : F -> G -> Prop) (OR : opsRel OF OG R) mt a b p dt n k A A' B B' wA wB reg reg' d0 d0',
  spOf a dt dt -> spOf b dt dt -> validPerm dt p -> tridiagonalBlocks a b p = Ok k ->
  inputTri OF n dt A B wA wB -> declaredTri a b n A B ->
  listRel (matRel R) A A' -> listRel (matRel R) B B' -> regRel R reg reg' ->
  dataOf k n 0 dt 0 0 d0 -> dataOf k n 0 dt 0 0 d0' ->
  exists d d',
    tridiagonalFactorize OF mt k dt A B reg d0 = Ok d /\ tridiagonalFactorize OG mt k dt A' B' reg' d0' = Ok d' /\
    dataOf k n 0 dt 0 0 d /\ arrowDataRel R d d' /\
    forall rhs rhs', listRel (listRel R) rhs rhs' ->
      resRel (listRel (listRel R)) (tridiagonalSolveInPlace OF k d rhs) (tridiagonalSolveInPlace OG k d' rhs').
Proof. exact @tri_related. Qed.
Print Assumptions C65_tridiagonal.

(** products, and the constructor *)
Theorem C65_multiply :
  forall {F G : Type} (OF : ops F) (OG : ops G) (R : F -> G -> Prop) (OR : opsRel OF OG R) kind m m' x x' y y',
  matRel R m m' -> listRel R x x' -> listRel R y y' ->
  resRel (listRel R) (multiply OF kind m x y) (multiply OG kind m' x' y').
Proof. exact @multiply_r. Qed.
Print Assumptions C65_multiply.

Theorem C65_arrowhead_multiply :
  forall {F G : Type} (OF : ops F) (OG : ops G) (R : F -> G -> Prop) (OR : opsRel OF OG R) m m' x x' y y',
  arrowMatRel R m m' -> arrowVecRel R x x' -> arrowVecRel R y y' ->
  resRel (arrowVecRel R) (arrowMultiply OF m x y) (arrowMultiply OG m' x' y').
Proof. exact @arrowMultiply_r. Qed.
Print Assumptions C65_arrowhead_multiply.

Theorem C65_tridiagonal_multiply :
  forall {F G : Type} (OF : ops F) (OG : ops G) (R : F -> G -> Prop) (OR : opsRel OF OG R) A A' B B' x x' y y',
  listRel (matRel R) A A' -> listRel (matRel R) B B' ->
  listRel (listRel R) x x' -> listRel (listRel R) y y' ->
  resRel (listRel (listRel R)) (multiplyRepeatingBlockTridiagonal OF A B x y)
    (multiplyRepeatingBlockTridiagonal OG A' B' x' y').
Proof. exact @triMultiply_r. Qed.
Print Assumptions C65_tridiagonal_multiply.

Theorem C65_arrowhead_construct :
  forall {F G : Type} (OF : ops F) (OG : ops G) (R : F -> G -> Prop) (OR : opsRel OF OG R) k n,
  resRel (arrowDataRel R) (arrowCtor OF k n) (arrowCtor OG k n).
Proof. exact @arrowCtor_r. Qed.
Print Assumptions C65_arrowhead_construct.

(** Whether a call succeeds and how it fails (rejected at compile time, violated precondition, access
    out of range) is decided by sparsities and sizes alone: not by the numbers nor by their type.
    This holds for all blocks and arrays, also for those no constructor produces. *)
Theorem C65_outcome :
  forall {F G : Type} (OF : ops F) (OG : ops G) mt b m m' reg reg' x x' v v',
  matRel (fun _ _ => True) m m' ->
  length (fst x) = length (fst x') -> length (snd x) = length (snd x') -> length v = length v' ->
  resRel (fun y y' => length (fst y) = length (fst y') /\ length (snd y) = length (snd y'))
    (factorize OF mt b (Some m) reg x) (factorize OG mt b (Some m') reg' x') /\
  resRel (fun y y' => length y = length y') (solveInPlace OF b x v) (solveInPlace OG b x' v').
Proof. exact @same_outcome. Qed.
Print Assumptions C65_outcome.

Theorem C65_arrowhead_outcome :
  forall {F G : Type} (OF : ops F) (OG : ops G) mt k m m' reg reg' d d' v v',
  arrowMatRel (fun _ _ => True) m m' -> arrowDataRel (fun _ _ => True) d d' ->
  arrowVecRel (fun _ _ => True) v v' ->
  resRel (arrowDataRel (fun _ _ => True)) (arrowFactorize OF mt k m reg d) (arrowFactorize OG mt k m' reg' d') /\
  resRel (arrowVecRel (fun _ _ => True)) (arrowSolveInPlace OF k d v) (arrowSolveInPlace OG k d' v').
Proof. exact @arrow_same_outcome. Qed.
Print Assumptions C65_arrowhead_outcome.

(** Numbers with several lanes: every lane computes what a call with the numbers of this lane
    computes. No law of arithmetic is used, so the lanes can be IEEE numbers. *)
Theorem C65_lanes :
  forall {I F : Type} (O : ops F) mt s n p a vals m reg b L0 D0,
  spOf s n n -> validPerm n p -> factorizationBlk s p = Ok b ->
  spOf a n n -> inputOf (lanesOps O) m a vals -> coveredSym (entries a) (entries s) n p ->
  length L0 = c_nnz (b_sp b) -> length D0 = n ->
  exists L D, factorize (lanesOps O) mt b (Some m) reg (L0, D0) = Ok (L, D) /\
    forall (i : I) mi regi L0i D0i,
    inputOf O mi a (lane i vals) -> (forall v k, reg v k i = regi (v i) k) ->
    length L0i = c_nnz (b_sp b) -> length D0i = n ->
    factorize O mt b (Some mi) regi (L0i, D0i) = Ok (lane i L, lane i D) /\
    forall rhs x, solveInPlace (lanesOps O) b (L, D) rhs = Ok x ->
      solveInPlace O b (lane i L, lane i D) (lane i rhs) = Ok (lane i x).
Proof. exact @lanes_single. Qed.
Print Assumptions C65_lanes.

(** the operations of lanes are related to those of one lane, for the blocked matrices *)
Theorem C65_lanes_related :
  forall {I F : Type} (O : ops F) (i : I), opsRel (lanesOps O) O (laneOf i).
Proof. exact @lanes_lane. Qed.
Print Assumptions C65_lanes_related.

(** two lanes of doubles: the matrix of the other examples, and one with a zero pivot *)
Definition ex65Vals : list (bool -> double) :=
  map (fun z (i : bool) => if i then dz (fst z) else dz (snd z)) (combine exVals [0; 0; 0; 1; 0; 1; 0]%Z).
Definition ex65M : mat := mkMat exS (rd ex65Vals).
Definition ex65Zero (n : nat) : list (bool -> double) := repeat (fun _ => dz 0) n.
Definition ex65B : list (bool -> double) := map (fun z (_ : bool) => dz z) [1; 2; 3; 4]%Z.
Example C65_example :
  inputOf (lanesOps Od) ex65M exS ex65Vals /\
  lane true ex65Vals = dzs exVals /\
  length (ex65Zero 6) = c_nnz (b_sp exB) /\
  match (let* f := factorize (lanesOps Od) UpLooking exB (Some ex65M) regularizationNone (ex65Zero 6, ex65Zero 4) in
         solveInPlace (lanesOps Od) exB f ex65B),
        (let* f := factorize Od UpLooking exB (Some exMd) regularizationNone (exLd0, exDd0) in
         solveInPlace Od exB f (dzs [1; 2; 3; 4]%Z)) with
  | Ok x, Ok y => map show (lane true x) = map show y /\ finb (lane true x) = true /\ finb (lane false x) = false
  | _, _ => False
  end.
Proof.
  split; [|split; [reflexivity|split; [reflexivity|]]].
  - constructor; try reflexivity. intros k Hk. cbn [m_val ex65M]. unfold rd.
    rewrite (nth_error_nth' _ (o0 (lanesOps Od))) by auto. reflexivity.
  - vm_compute. repeat split; reflexivity.
Qed.

(** ** C66: intervals *)

Theorem C66_enclosure :
  forall {F G : Type} (OF : ops F) (FL : fieldLaws OF) (OG : ops G) (R : F -> G -> Prop) (OR : opsRel OF OG R) mt s n p a vals m m' b L0' D0' L' D' rhs rhs' x',
  spOf s n n -> validPerm n p -> factorizationBlk s p = Ok b ->
  spOf a n n -> coveredSym (entries a) (entries s) n p ->
  length L0' = c_nnz (b_sp b) -> length D0' = n ->
  factorize OG mt b (Some m') regularizationNone (L0', D0') = Ok (L', D') ->
  (forall k z, k < n -> R z (vecAt OG D' k) -> z <> o0 OF) ->
  solveInPlace OG b (L', D') rhs' = Ok x' ->
  inputOf OF m a vals -> matRel R m m' -> length rhs = n -> listRel R rhs rhs' ->
  exists x, length x = n /\
    (forall i, i < n -> matVec OF n (symAt OF (entries a) vals) x i = vecAt OF rhs i) /\
    (forall y, length y = n ->
       (forall i, i < n -> matVec OF n (symAt OF (entries a) vals) y i = vecAt OF rhs i) -> y = x) /\
    listRel R x x'.
Proof. exact @enclosed. Qed.
Print Assumptions C66_enclosure.

Theorem C66_arrowhead_enclosure :
  forall {F G : Type} (OF : ops F) (FL : fieldLaws OF) (OG : ops G) (R : F -> G -> Prop) (OR : opsRel OF OG R) mt s ds dt dl dO k n m m' w d0' d' rhs rhs' x',
  arrowDims s ds dt dl dO -> arrowBlocks s = Ok k ->
  dataOf k n ds dt dl dO d0' ->
  arrowFactorize OG mt k m' regularizationNone d0' = Ok d' ->
  (forall g z, In g (allIdx n ds dt dl dO) -> R z (pivotAt OG d' g) -> z <> o0 OF) ->
  arrowSolveInPlace OG k d' rhs' = Ok x' ->
  inputArrow OF n ds dt dl dO m w -> declaredArrow s n m -> arrowMatRel R m m' ->
  vecOf n ds dt dl dO rhs -> arrowVecRel R rhs rhs' ->
  exists x, vecOf n ds dt dl dO x /\
    (forall g, In g (allIdx n ds dt dl dO) ->
       gmatVec OF (allIdx n ds dt dl dO) (matAt OF m w) (gvecAt OF x) g = gvecAt OF rhs g) /\
    (forall y, vecOf n ds dt dl dO y ->
       (forall g, In g (allIdx n ds dt dl dO) ->
          gmatVec OF (allIdx n ds dt dl dO) (matAt OF m w) (gvecAt OF y) g = gvecAt OF rhs g) -> y = x) /\
    arrowVecRel R x x'.
Proof. exact @arrow_enclosed. Qed.
Print Assumptions C66_arrowhead_enclosure.

Theorem C66_tridiagonal_enclosure :
  forall {F G : Type} (OF : ops F) (FL : fieldLaws OF) (OG : ops G) (R : F -> G -> Prop) (OR : opsRel OF OG R) mt a b p dt n k A A' B B' wA wB d0' d' rhs rhs' x',
  spOf a dt dt -> spOf b dt dt -> validPerm dt p -> tridiagonalBlocks a b p = Ok k ->
  dataOf k n 0 dt 0 0 d0' ->
  tridiagonalFactorize OG mt k dt A' B' regularizationNone d0' = Ok d' ->
  (forall t i z, t < n + 1 -> i < dt -> R z (pivotAt OG d' (GT t i)) -> z <> o0 OF) ->
  tridiagonalSolveInPlace OG k d' rhs' = Ok x' ->
  inputTri OF n dt A B wA wB -> declaredTri a b n A B -> listRel (matRel R) A A' -> listRel (matRel R) B B' ->
  blocksOf n dt rhs -> listRel (listRel R) rhs rhs' ->
  exists x, blocksOf n dt x /\
    (forall t i, t < n + 1 -> i < dt ->
       triMatVec OF n dt (triMatAt OF A B wA wB) x t i = vecAt OF (nth t rhs []) i) /\
    (forall y, blocksOf n dt y ->
       (forall t i, t < n + 1 -> i < dt ->
          triMatVec OF n dt (triMatAt OF A B wA wB) y t i = vecAt OF (nth t rhs []) i) -> y = x) /\
    listRel (listRel R) x x'.
Proof. exact @tri_enclosed. Qed.
Print Assumptions C66_tridiagonal_enclosure.

(** intervals with rational bounds *)
Theorem C66_intervals : opsRel Oq intervalOps inInterval.
Proof. exact intervals_enclose. Qed.
Print Assumptions C66_intervals.

(** the matrix of the other examples where each value is known up to 1/10 *)
Definition tenth (z : Z) : Qc := Q2Qc (z # 10).
Definition around (z : Z) : interval := Some (tenth (10 * z - 1), tenth (10 * z + 1)).
Definition ex66M : mat (F:=interval) := mkMat exS (rd (map around exVals)).
Definition ex66B : list interval := map (fun z => Some (q z, q z)) [1; 2; 3; 4]%Z.
Definition no0 (i : interval) : bool :=
  match i with
  | Some (a, b) => if Qclt_le_dec 0 a then true else if Qclt_le_dec b 0 then true else false
  | None => false
  end.
Lemma no0_ok i z : no0 i = true -> inInterval z i -> z <> o0 Oq.
Proof.
  destruct i as [[a b]|]; [|discriminate]. cbn. intros H [A B] E. subst z.
  destruct (Qclt_le_dec 0 a) as [P|P]; [exact (Qclt_not_le _ _ P A)|].
  destruct (Qclt_le_dec b 0) as [N|N]; [exact (Qclt_not_le _ _ N B)|discriminate].
Qed.
Definition bounds (i : interval) : option (Z * Z) :=
  match i with
  | Some (a, b) => Some (Qround.Qfloor (this a * 1000), Qround.Qceiling (this b * 1000))%Q
  | None => None
  end.

Example C66_example :
  matRel inInterval exM ex66M /\ listRel inInterval (qs [1; 2; 3; 4]%Z) ex66B /\
  match factorize intervalOps EntryWise exB' (Some ex66M) regularizationNone
          (repeat None 3, repeat None 4) with
  | Ok (L, D) =>
      forallb no0 D = true /\
      match solveInPlace intervalOps exB' (L, D) ex66B with
      | Ok x => map bounds x = [Some (-430, -243); Some (435, 505); Some (567, 662); Some (594, 649)]%Z
      | Err _ => False
      end
  | Err _ => False
  end.
Proof.
  split; [|split].
  - split; [reflexivity|]. intros k Hk. do 7 (destruct k as [|k]; [vm_compute; split; discriminate|]). cbn in Hk. lia.
  - repeat constructor; vm_compute; discriminate.
  - vm_compute. repeat split; reflexivity.
Qed.

(** if an interval of D contains zero nothing is claimed; the result is the set of all numbers *)
Example C66_zero_example :
  match factorize intervalOps EntryWise exB' (Some (mkMat exS (rd (map around [4; 1; 0; 2; 6; 1; 7]%Z)))) regularizationNone
          (repeat None 3, repeat None 4) with
  | Ok (L, D) =>
      forallb no0 D = false /\
      match solveInPlace intervalOps exB' (L, D) ex66B with
      | Ok x => map bounds x = [None; None; None; None]
      | Err _ => False
      end
  | Err _ => False
  end.
Proof. vm_compute. repeat split; reflexivity. Qed.

(** ** C67: derivatives *)

Theorem C67_derivative :
  forall mt s n p a vals t m m' b L0' D0' f' rhs rhs' x',
  spOf s n n -> validPerm n p -> factorizationBlk s p = Ok b ->
  spOf a n n -> coveredSym (entries a) (entries s) n p ->
  inputOf curveOps m a vals -> matRel (tangent t) m m' -> listRel (tangent t) rhs rhs' ->
  length L0' = c_nnz (b_sp b) -> length D0' = n ->
  factorize dualOps mt b (Some m') regularizationNone (L0', D0') = Ok f' ->
  solveInPlace dualOps b f' rhs' = Ok x' ->
  exists x, listRel (tangent t) x x' /\
    forall u mu ru L0 D0, matRel (laneOf u) m mu -> listRel (laneOf u) rhs ru ->
      length L0 = c_nnz (b_sp b) -> length D0 = n ->
      exists f xu, factorize Or mt b (Some mu) regularizationNone (L0, D0) = Ok f /\
        solveInPlace Or b f ru = Ok xu /\ listRel (laneOf u) x xu.
Proof. exact @derivative. Qed.
Print Assumptions C67_derivative.

Theorem C67_arrowhead_derivative :
  forall mt s ds dt dl dO k n t m m' w d0' d' rhs rhs' x',
  arrowDims s ds dt dl dO -> arrowBlocks s = Ok k ->
  inputArrow curveOps n ds dt dl dO m w -> declaredArrow s n m ->
  arrowMatRel (tangent t) m m' -> arrowVecRel (tangent t) rhs rhs' ->
  dataOf k n ds dt dl dO d0' ->
  arrowFactorize dualOps mt k m' regularizationNone d0' = Ok d' ->
  arrowSolveInPlace dualOps k d' rhs' = Ok x' ->
  exists x, arrowVecRel (tangent t) x x' /\
    forall u mu ru d0, arrowMatRel (laneOf u) m mu -> arrowVecRel (laneOf u) rhs ru ->
      dataOf k n ds dt dl dO d0 ->
      exists d xu, arrowFactorize Or mt k mu regularizationNone d0 = Ok d /\
        arrowSolveInPlace Or k d ru = Ok xu /\ arrowVecRel (laneOf u) x xu.
Proof. exact @arrow_derivative. Qed.
Print Assumptions C67_arrowhead_derivative.

Theorem C67_tridiagonal_derivative :
  forall mt a b p dt n k t A A' B B' wA wB d0' d' rhs rhs' x',
  spOf a dt dt -> spOf b dt dt -> validPerm dt p -> tridiagonalBlocks a b p = Ok k ->
  inputTri curveOps n dt A B wA wB -> declaredTri a b n A B ->
  listRel (matRel (tangent t)) A A' -> listRel (matRel (tangent t)) B B' ->
  listRel (listRel (tangent t)) rhs rhs' ->
  dataOf k n 0 dt 0 0 d0' ->
  tridiagonalFactorize dualOps mt k dt A' B' regularizationNone d0' = Ok d' ->
  tridiagonalSolveInPlace dualOps k d' rhs' = Ok x' ->
  exists x, listRel (listRel (tangent t)) x x' /\
    forall u Au Bu ru d0, listRel (matRel (laneOf u)) A Au -> listRel (matRel (laneOf u)) B Bu ->
      listRel (listRel (laneOf u)) rhs ru -> dataOf k n 0 dt 0 0 d0 ->
      exists d xu, tridiagonalFactorize Or mt k dt Au Bu regularizationNone d0 = Ok d /\
        tridiagonalSolveInPlace Or k d ru = Ok xu /\ listRel (listRel (laneOf u)) x xu.
Proof. exact @tri_derivative. Qed.
Print Assumptions C67_tridiagonal_derivative.

(** the matrix ((t, 1), (1, 2)) with right-hand side (t, 0), at t = 2. The solution is
    (2 t / (2 t - 1), - t / (2 t - 1)). *)
Definition ex67S : sparsity := mkSp 2 2 [(0,0); (1,0); (1,1)].
Definition ex67P : perm := [1; 0].
Definition ex67Blk : blk := match factorizationBlk ex67S ex67P with Ok b => b | Err _ => emptyDiagBlk end.
Definition ex67Vals : list (R -> R) := [fun t => t; fun _ => 1; fun _ => 2]%R.
Definition ex67M : mat := mkMat ex67S (rd ex67Vals).
Definition ex67Dual : mat (F:=dual) := mkMat ex67S (rd [Some (2, 1); Some (1, 0); Some (2, 0)]%R).
Definition ex67Rhs : list (R -> R) := [fun t => t; fun _ => 0]%R.
Definition ex67RhsDual : list dual := [Some (2, 1); Some (0, 0)]%R.

Lemma pair_is (v v' d d' : R) : v = v' -> d = d' -> Some (v, d) = Some (v', d').
Proof. intros -> ->. reflexivity. Qed.
Example C67_example :
  spOf ex67S 2 2 /\ validPerm 2 ex67P /\ factorizationBlk ex67S ex67P = Ok ex67Blk /\
  coveredSym (entries ex67S) (entries ex67S) 2 ex67P /\
  inputOf curveOps ex67M ex67S ex67Vals /\
  matRel (tangent 2) ex67M ex67Dual /\ listRel (tangent 2) ex67Rhs ex67RhsDual /\
  match (let* f := factorize dualOps UpLooking ex67Blk (Some ex67Dual) regularizationNone ([None], [None; None]) in
         solveInPlace dualOps ex67Blk f ex67RhsDual) with
  | Ok x => x = [Some (4 / 3, - 2 / 9); Some (- 2 / 3, 1 / 9)]%R
  | Err _ => False
  end.
Proof.
  assert (T : tangent 2 (fun t => t) (Some (2, 1)%R)) by (split; [reflexivity|apply derivable_pt_lim_id]).
  assert (K : forall c, tangent 2 (fun _ => c) (Some (c, 0)%R)) by (intros c; split; [reflexivity|apply derivable_pt_lim_const]).
  split; [apply spOf_check_ok; reflexivity|]. split; [apply validPerm_check; reflexivity|]. split; [reflexivity|].
  split; [apply declared_is_covered; [apply validPerm_check; reflexivity|auto]|].
  split.
  { constructor; try reflexivity. intros k Hk. cbn [m_val ex67M]. unfold rd.
    rewrite (nth_error_nth' _ (o0 curveOps)) by auto. reflexivity. }
  split.
  { split; [reflexivity|]. intros k Hk. do 3 (destruct k as [|k]; [cbn -[tangent]; first [exact T|apply K]|]). cbn in Hk. lia. }
  split; [constructor; [exact T|constructor; [apply K|constructor]]|].
  cbv -[Rplus Rminus Rmult Rdiv Rinv Ropp Req_EM_T IZR].
  destruct (Req_EM_T 2 0) as [E|_]; [lra|]. cbv beta iota.
  match goal with |- context [Req_EM_T ?a 0] => destruct (Req_EM_T a 0) as [E|_]; [exfalso; lra|] end. cbv beta iota.
  f_equal; [apply pair_is; field|]. f_equal. apply pair_is; field.
Qed.

