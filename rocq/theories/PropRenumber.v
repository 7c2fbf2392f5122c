(** Property C80: a permutation amounts to numbering the variables in another way. In any
    arithmetic, thus bit by bit in IEEE arithmetic. *)
From Coq Require Import List Arith Lia Bool ZArith.
From Flocq Require Import BinarySingleNaN.
From Verif Require Import Base ModelPerm ModelSparsity ModelSymbolic ModelNumeric ModelArrow ModelReg ModelIeee.
From Verif Require Import SpecSymbolic SpecArrow SpecNumeric SpecArrowNum SpecTight SpecLocal SpecRenumber.
From Verif Require Import ExampleData ExampleArrow ExampleIeee ExampleLocal.
From Verif Require Import ProofArrowProduct ProofRenumber PropSingle.
Import ListNotations.
Local Open Scope nat_scope.

(** ** one matrix *)
Theorem C80_renumber :
  forall {F : Type} (O : ops F) s1 s2 n p1 p2 b1 b2 f,
  spOf s1 n n -> validPerm n p1 -> factorizationBlk s1 p1 = Ok b1 ->
  spOf s2 n n -> validPerm n p2 -> factorizationBlk s2 p2 = Ok b2 ->
  renumbered n f (entries s1) (entries s2) p1 p2 ->
  (forall i j, In (i, j) (c_entries (b_sp b1)) <-> In (i, j) (c_entries (b_sp b2))) /\
  forall mt reg a1 vals1 m1 a2 vals2 m2 L01 D01 L02 D02,
  spOf a1 n n -> inputOf O m1 a1 vals1 -> coveredSym (entries a1) (entries s1) n p1 ->
  spOf a2 n n -> inputOf O m2 a2 vals2 -> coveredSym (entries a2) (entries s2) n p2 ->
  (forall r c, r < n -> c < n -> symAt O (entries a1) vals1 r c = symAt O (entries a2) vals2 (f r) (f c)) ->
  length L01 = c_nnz (b_sp b1) -> length D01 = n ->
  length L02 = c_nnz (b_sp b2) -> length D02 = n ->
  exists L1 D1 L2 D2,
    factorize O mt b1 (Some m1) reg (L01, D01) = Ok (L1, D1) /\
    factorize O mt b2 (Some m2) reg (L02, D02) = Ok (L2, D2) /\
    (forall i, i < n -> vecAt O D1 i = vecAt O D2 i) /\
    (forall i j, i < n -> j < n ->
       denseAt O (c_entries (b_sp b1)) L1 i j = denseAt O (c_entries (b_sp b2)) L2 i j) /\
    forall rhs1 rhs2, length rhs1 = n -> length rhs2 = n ->
    (forall r, r < n -> vecAt O rhs1 r = vecAt O rhs2 (f r)) ->
    exists x1 x2, solveInPlace O b1 (L1, D1) rhs1 = Ok x1 /\ solveInPlace O b2 (L2, D2) rhs2 = Ok x2 /\
      length x1 = n /\ length x2 = n /\
      forall r, r < n -> vecAt O x1 r = vecAt O x2 (f r).
Proof. exact @single_renumber. Qed.
Print Assumptions C80_renumber.

(** The permutation [2;0;1], and the matrix renumbered in this way without a permutation. *)
Definition renS1 : sparsity := mkSp 3 3 [(0,0); (1,0); (1,1); (2,0); (2,2)].
Definition renS2 : sparsity := mkSp 3 3 [(0,0); (1,0); (1,1); (2,1); (2,2)].
Definition renF (r : nat) : nat := match r with 2 => 0 | _ => r + 1 end.
Definition renB1 : blk := match factorizationBlk renS1 [2;0;1] with Ok b => b | Err _ => exB end.
Definition renB2 : blk := match factorizationBlk renS2 [0;1;2] with Ok b => b | Err _ => exB end.
Example C80_renumber_example :
  spOf renS1 3 3 /\ validPerm 3 [2;0;1] /\ factorizationBlk renS1 [2;0;1] = Ok renB1 /\
  spOf renS2 3 3 /\ validPerm 3 [0;1;2] /\ factorizationBlk renS2 [0;1;2] = Ok renB2 /\
  renumbered 3 renF (entries renS1) (entries renS2) [2;0;1] [0;1;2] /\
  inputOf Od (matD renS1 [4;1;6;3;7]%Z) renS1 (dzs [4;1;6;3;7]%Z) /\
  inputOf Od (matD renS2 [7;3;4;1;6]%Z) renS2 (dzs [7;3;4;1;6]%Z) /\
  coveredSym (entries renS1) (entries renS1) 3 [2;0;1] /\ coveredSym (entries renS2) (entries renS2) 3 [0;1;2] /\
  (forall r c, r < 3 -> c < 3 ->
     symAt Od (entries renS1) (dzs [4;1;6;3;7]%Z) r c = symAt Od (entries renS2) (dzs [7;3;4;1;6]%Z) (renF r) (renF c)) /\
  match factorize Od UpLooking renB1 (Some (matD renS1 [4;1;6;3;7]%Z)) regularizationNone (dzs [1;2]%Z, dzs [1;2;3]%Z),
        factorize Od UpLooking renB2 (Some (matD renS2 [7;3;4;1;6]%Z)) regularizationNone (dzs [5;6]%Z, dzs [4;5;6]%Z) with
  | Ok (L1, D1), Ok (L2, D2) =>
      map show D1 = map show D2 /\
      match solveInPlace Od renB1 (L1, D1) (dzs [1;2;3]%Z), solveInPlace Od renB2 (L2, D2) (dzs [3;1;2]%Z) with
      | Ok x1, Ok x2 =>
          map is_finite x1 = [true; true; true] /\
          map (fun r => show (vecAt Od x1 r)) [0; 1; 2] = map (fun r => show (vecAt Od x2 r)) [1; 2; 0]
      | _, _ => False
      end
  | _, _ => False
  end.
Proof.
  assert (V1 : validPerm 3 [2;0;1]) by (apply validPerm_check; reflexivity).
  assert (V2 : validPerm 3 [0;1;2]) by (apply validPerm_check; reflexivity).
  split; [apply spOf_check_ok; reflexivity|]. split; [exact V1|]. split; [vm_compute; reflexivity|].
  split; [apply spOf_check_ok; reflexivity|]. split; [exact V2|]. split; [vm_compute; reflexivity|].
  split.
  { constructor.
    - intros [|[|[|i]]] H; try lia; reflexivity.
    - intros r c Hr Hc. unfold coupled. cbn [entries renS1 renS2 In].
      destruct r as [|[|[|r]]], c as [|[|[|c]]]; try lia; cbn [renF Nat.add Nat.max Nat.min];
        split; intros [N H]; (split; [lia|]); repeat (destruct H as [H|H]; [try discriminate H; tauto|]); contradiction. }
  split; [apply matD_input; reflexivity|]. split; [apply matD_input; reflexivity|].
  split; [apply declared_is_covered; auto|]. split; [apply declared_is_covered; auto|].
  split. { intros [|[|[|r]]] [|[|[|c]]] H1 H2; try lia; reflexivity. }
  vm_compute. repeat split; reflexivity.
Qed.

(** ** arrowhead systems *)
Theorem C80_arrowhead :
  forall {F : Type} (O : ops F) s1 s2 ds dt dl dO k1 k2 f,
  arrowDims s1 ds dt dl dO -> arrowDims s2 ds dt dl dO -> arrowBlocks s1 = Ok k1 -> arrowBlocks s2 = Ok k2 ->
  renumberedArrow ds dt dl dO f s1 s2 ->
  forall n, (forall g h, storedAt k1 n g h <-> storedAt k2 n g h) /\
  forall mt reg m1 w1 m2 w2 d01 d02,
  let all := allIdx n ds dt dl dO in
  inputArrow O n ds dt dl dO m1 w1 -> declaredArrow s1 n m1 ->
  inputArrow O n ds dt dl dO m2 w2 -> declaredArrow s2 n m2 ->
  (forall g h, In g all -> In h all -> matAt O m1 w1 g h = matAt O m2 w2 (newIdx f g) (newIdx f h)) ->
  dataOf k1 n ds dt dl dO d01 -> dataOf k2 n ds dt dl dO d02 ->
  exists d1 d2, arrowFactorize O mt k1 m1 reg d01 = Ok d1 /\ arrowFactorize O mt k2 m2 reg d02 = Ok d2 /\
    (forall g, In g all -> pivotAt O d1 g = pivotAt O d2 g) /\
    (forall g h, In g all -> In h all -> g <> h ->
       factorAt O (o0 O) k1 d1 g h = factorAt O (o0 O) k2 d2 g h) /\
    forall rhs1 rhs2, vecOf n ds dt dl dO rhs1 -> vecOf n ds dt dl dO rhs2 ->
    (forall g, In g all -> gvecAt O rhs1 g = gvecAt O rhs2 (newIdx f g)) ->
    exists x1 x2, arrowSolveInPlace O k1 d1 rhs1 = Ok x1 /\ arrowSolveInPlace O k2 d2 rhs2 = Ok x2 /\
      vecOf n ds dt dl dO x1 /\ vecOf n ds dt dl dO x2 /\
      forall g, In g all -> gvecAt O x1 g = gvecAt O x2 (newIdx f g).
Proof. exact @arrow_renumber. Qed.
Print Assumptions C80_arrowhead.

(** The two variables of every tridiagonal block in the other order. *)
Definition swapTri : numbering := mkNumbering (fun i => i) (fun i => 1 - i) (fun i => i) (fun i => i).
Definition renA1 : arrow_sp := mkAS
  (mkSS (mkSp 1 1 [(0,0)]) (mkSp 2 1 [(0,0)]) (mkSp 1 1 [(0,0)]) [0])
  (mkST (mkSp 2 2 [(0,0); (1,0); (1,1)]) (mkSp 2 2 [(0,1)]) [1;0])
  (mkSL (mkSp 1 2 [(0,1)]) (mkSp 1 1 [(0,0)]) (mkSp 1 1 [(0,0)]) [0])
  (mkSO (mkSp 1 2 [(0,0)]) (mkSp 1 1 [(0,0)]) [0]).
Definition renA2 : arrow_sp := mkAS
  (mkSS (mkSp 1 1 [(0,0)]) (mkSp 2 1 [(1,0)]) (mkSp 1 1 [(0,0)]) [0])
  (mkST (mkSp 2 2 [(0,0); (1,0); (1,1)]) (mkSp 2 2 [(1,0)]) [0;1])
  (mkSL (mkSp 1 2 [(0,0)]) (mkSp 1 1 [(0,0)]) (mkSp 1 1 [(0,0)]) [0])
  (mkSO (mkSp 1 2 [(0,1)]) (mkSp 1 1 [(0,0)]) [0]).
Definition renK1 : arrow_blks := match arrowBlocks renA1 with Ok k => k | Err _ => noBlks end.
Definition renK2 : arrow_blks := match arrowBlocks renA2 with Ok k => k | Err _ => noBlks end.
Definition renIn (s : arrow_sp) (td : list (list Z)) : arrow_mat (F:=double) := mkAM
  (matD (ss_diag (as_start s)) [7]%Z)
  (matD (ss_next (as_start s)) [2]%Z)
  (matD (ss_outer (as_start s)) [4]%Z)
  (map (matD (st_diag (as_tri s))) td)
  (map (matD (st_subdiag (as_tri s))) [[3]]%Z)
  (matD (sl_prev (as_link s)) [3]%Z)
  (matD (sl_diag (as_link s)) [7]%Z)
  (matD (sl_next (as_link s)) [5]%Z)
  (map (matD (so_subdiag (as_outer s))) [[1]; [2]]%Z)
  (matD (so_diag (as_outer s)) [17]%Z).
Definition renW (td : list (list Z)) : arrow_vals double := mkVals (dzs [7]%Z) (dzs [2]%Z) (dzs [4]%Z)
  (map dzs td) (map dzs [[3]]%Z) (dzs [3]%Z) (dzs [7]%Z) (dzs [5]%Z) (map dzs [[1]; [2]]%Z) (dzs [17]%Z).
Definition renTd1 : list (list Z) := [[8;1;5]; [9;2;6]]%Z.
Definition renTd2 : list (list Z) := [[5;1;8]; [6;2;9]]%Z.
Definition renD (k : arrow_blks) : arrow_data (F:=double) := match arrowCtor Od k 1 with Ok d => d | Err _ => noDataD end.
Example C80_arrowhead_example :
  let all := allIdx 1 1 2 1 1 in
  arrowDims renA1 1 2 1 1 /\ arrowDims renA2 1 2 1 1 /\
  arrowBlocks renA1 = Ok renK1 /\ arrowBlocks renA2 = Ok renK2 /\
  renumberedArrow 1 2 1 1 swapTri renA1 renA2 /\
  inputArrow Od 1 1 2 1 1 (renIn renA1 renTd1) (renW renTd1) /\ declaredArrow renA1 1 (renIn renA1 renTd1) /\
  inputArrow Od 1 1 2 1 1 (renIn renA2 renTd2) (renW renTd2) /\ declaredArrow renA2 1 (renIn renA2 renTd2) /\
  (forall g h, In g all -> In h all -> matAt Od (renIn renA1 renTd1) (renW renTd1) g h =
     matAt Od (renIn renA2 renTd2) (renW renTd2) (newIdx swapTri g) (newIdx swapTri h)) /\
  dataOf renK1 1 1 2 1 1 (renD renK1) /\ dataOf renK2 1 1 2 1 1 (renD renK2) /\
  match arrowFactorize Od EntryWise renK1 (renIn renA1 renTd1) regularizationNone (renD renK1),
        arrowFactorize Od EntryWise renK2 (renIn renA2 renTd2) regularizationNone (renD renK2) with
  | Ok d1, Ok d2 =>
      map (fun g => show (pivotAt Od d1 g)) all = map (fun g => show (pivotAt Od d2 g)) all /\
      match arrowSolveInPlace Od renK1 d1 (mkAV (dzs [1]%Z) (map dzs [[2;3]; [4;5]]%Z) (dzs [6]%Z) (dzs [7]%Z)),
            arrowSolveInPlace Od renK2 d2 (mkAV (dzs [1]%Z) (map dzs [[3;2]; [5;4]]%Z) (dzs [6]%Z) (dzs [7]%Z)) with
      | Ok x1, Ok x2 =>
          forallb (fun g => is_finite (gvecAt Od x1 g)) all = true /\
          map (fun g => show (gvecAt Od x1 g)) all = map (fun g => show (gvecAt Od x2 (newIdx swapTri g))) all
      | _, _ => False
      end
  | _, _ => False
  end.
Proof.
  intros all.
  split; [constructor; try (apply spOf_check_ok; reflexivity); apply validPerm_check; reflexivity|].
  split; [constructor; try (apply spOf_check_ok; reflexivity); apply validPerm_check; reflexivity|].
  split; [vm_compute; reflexivity|]. split; [vm_compute; reflexivity|].
  assert (CC : forall n f es1 es2 p1 p2, (forall i, i < n -> nth i p2 0 = f (nth i p1 0)) ->
    (forall r c, r < n -> c < n -> coupled es1 r c <-> coupled es2 (f r) (f c)) -> renumbered n f es1 es2 p1 p2)
    by (intros; constructor; auto).
  split.
  { constructor;
      match goal with
      | |- renumbered _ _ _ _ _ _ => apply CC; [intros [|[|i]] H; try lia; reflexivity|]
      | |- _ => idtac
      end;
      intros [|[|r]] [|[|c]] Hr Hc; try lia; unfold coupled; cbn; intuition (try lia; try congruence). }
  assert (IN : forall s td, (s = renA1 /\ td = renTd1) \/ (s = renA2 /\ td = renTd2) ->
    inputArrow Od 1 1 2 1 1 (renIn s td) (renW td) /\ declaredArrow s 1 (renIn s td)).
  { intros s td HS. split.
    - destruct HS as [[-> ->]|[-> ->]]; constructor; try (apply dmat; reflexivity); try reflexivity;
        try (intros [|[|t]] H; try lia; apply dmat; reflexivity); intros [|t] H; try lia; apply dmat; reflexivity.
    - constructor; try (intros r c H; exact H); try (intros r c H _; exact H).
      + destruct HS as [[-> ->]|[-> ->]]; intros [|[|t]] Ht r c H _; try lia; exact H.
      + intros [|t] Ht r c H; try lia; exact H.
      + intros [|[|t]] Ht r c H; try lia; exact H. }
  split; [apply IN; auto|]. split; [apply IN; auto|]. split; [apply IN; auto|]. split; [apply IN; auto|].
  split.
  { intros g h Hg Hh. apply in_allIdx in Hg, Hh.
    destruct g as [[|i]|[|[|t]] [|[|i]]|[|i]|[|i]], h as [[|j]|[|[|u]] [|[|j]]|[|j]|[|j]]; try lia; reflexivity. }
  split; [data_of|]. split; [data_of|]. vm_compute. repeat split; reflexivity.
Qed.

(** ** block tridiagonal systems *)
Theorem C80_tridiagonal :
  forall {F : Type} (O : ops F) a1 c1 p1 a2 c2 p2 dt k1 k2 f,
  spOf a1 dt dt -> spOf c1 dt dt -> validPerm dt p1 -> tridiagonalBlocks a1 c1 p1 = Ok k1 ->
  spOf a2 dt dt -> spOf c2 dt dt -> validPerm dt p2 -> tridiagonalBlocks a2 c2 p2 = Ok k2 ->
  renumbered dt f (entries a1) (entries a2) p1 p2 -> renumberedRect dt dt f f (entries c1) (entries c2) ->
  forall n mt reg A1 B1 wA1 wB1 A2 B2 wA2 wB2 d01 d02,
  inputTri O n dt A1 B1 wA1 wB1 -> declaredTri a1 c1 n A1 B1 ->
  inputTri O n dt A2 B2 wA2 wB2 -> declaredTri a2 c2 n A2 B2 ->
  (forall t i u j, t < n + 1 -> i < dt -> u < n + 1 -> j < dt ->
     triMatAt O A1 B1 wA1 wB1 t i u j = triMatAt O A2 B2 wA2 wB2 t (f i) u (f j)) ->
  dataOf k1 n 0 dt 0 0 d01 -> dataOf k2 n 0 dt 0 0 d02 ->
  exists d1 d2, tridiagonalFactorize O mt k1 dt A1 B1 reg d01 = Ok d1 /\
    tridiagonalFactorize O mt k2 dt A2 B2 reg d02 = Ok d2 /\
    (forall t i, t < n + 1 -> i < dt -> pivotAt O d1 (GT t i) = pivotAt O d2 (GT t i)) /\
    (forall t i u j, t < n + 1 -> i < dt -> u < n + 1 -> j < dt -> (t, i) <> (u, j) ->
       factorAt O (o0 O) k1 d1 (GT t i) (GT u j) = factorAt O (o0 O) k2 d2 (GT t i) (GT u j)) /\
    forall rhs1 rhs2, blocksOf n dt rhs1 -> blocksOf n dt rhs2 ->
    (forall t i, t < n + 1 -> i < dt -> vecAt O (nth t rhs1 []) i = vecAt O (nth t rhs2 []) (f i)) ->
    exists x1 x2, tridiagonalSolveInPlace O k1 d1 rhs1 = Ok x1 /\ tridiagonalSolveInPlace O k2 d2 rhs2 = Ok x2 /\
      blocksOf n dt x1 /\ blocksOf n dt x2 /\
      forall t i, t < n + 1 -> i < dt -> vecAt O (nth t x1 []) i = vecAt O (nth t x2 []) (f i).
Proof. exact @tri_renumber. Qed.
Print Assumptions C80_tridiagonal.

Definition renTS : sparsity := mkSp 2 2 [(0,0); (1,0); (1,1)].
Definition renTC1 : sparsity := mkSp 2 2 [(0,1)].
Definition renTC2 : sparsity := mkSp 2 2 [(1,0)].
Definition renTK1 : arrow_blks := match tridiagonalBlocks renTS renTC1 [1;0] with Ok k => k | Err _ => noBlks end.
Definition renTK2 : arrow_blks := match tridiagonalBlocks renTS renTC2 [0;1] with Ok k => k | Err _ => noBlks end.
Example C80_tridiagonal_example :
  let f := fun i => 1 - i in
  let A1 := map (matD renTS) renTd1 in let A2 := map (matD renTS) renTd2 in
  let B1 := [matD renTC1 [3]%Z] in let B2 := [matD renTC2 [3]%Z] in
  let w := [dzs [3]%Z] in
  spOf renTS 2 2 /\ spOf renTC1 2 2 /\ spOf renTC2 2 2 /\ validPerm 2 [1;0] /\ validPerm 2 [0;1] /\
  tridiagonalBlocks renTS renTC1 [1;0] = Ok renTK1 /\ tridiagonalBlocks renTS renTC2 [0;1] = Ok renTK2 /\
  renumbered 2 f (entries renTS) (entries renTS) [1;0] [0;1] /\
  renumberedRect 2 2 f f (entries renTC1) (entries renTC2) /\
  inputTri Od 1 2 A1 B1 (map dzs renTd1) w /\ declaredTri renTS renTC1 1 A1 B1 /\
  inputTri Od 1 2 A2 B2 (map dzs renTd2) w /\ declaredTri renTS renTC2 1 A2 B2 /\
  (forall t i u j, t < 1 + 1 -> i < 2 -> u < 1 + 1 -> j < 2 ->
     triMatAt Od A1 B1 (map dzs renTd1) w t i u j = triMatAt Od A2 B2 (map dzs renTd2) w t (f i) u (f j)) /\
  dataOf renTK1 1 0 2 0 0 (renD renTK1) /\ dataOf renTK2 1 0 2 0 0 (renD renTK2) /\
  match tridiagonalFactorize Od UpLooking renTK1 2 A1 B1 regularizationNone (renD renTK1),
        tridiagonalFactorize Od UpLooking renTK2 2 A2 B2 regularizationNone (renD renTK2) with
  | Ok d1, Ok d2 =>
      match tridiagonalSolveInPlace Od renTK1 d1 (map dzs [[2;3]; [4;5]]%Z),
            tridiagonalSolveInPlace Od renTK2 d2 (map dzs [[3;2]; [5;4]]%Z) with
      | Ok x1, Ok x2 =>
          map (map is_finite) x1 = [[true; true]; [true; true]] /\
          map (map show) x1 = map (fun v => rev (map show v)) x2
      | _, _ => False
      end
  | _, _ => False
  end.
Proof.
  intros f A1 A2 B1 B2 w.
  do 3 (split; [apply spOf_check_ok; reflexivity|]). do 2 (split; [apply validPerm_check; reflexivity|]).
  do 2 (split; [vm_compute; reflexivity|]).
  split.
  { constructor.
    - intros [|[|i]] H; try lia; reflexivity.
    - intros [|[|r]] [|[|c]] Hr Hc; try lia; unfold coupled; cbn; intuition (try lia; try congruence). }
  split. { intros [|[|r]] [|[|c]] Hr Hc; try lia; cbn; intuition (try lia; try congruence). }
  assert (IN : forall td C, (td = renTd1 \/ td = renTd2) -> (C = renTC1 \/ C = renTC2) ->
    inputTri Od 1 2 (map (matD renTS) td) [matD C [3]%Z] (map dzs td) w /\
    declaredTri renTS C 1 (map (matD renTS) td) [matD C [3]%Z]).
  { intros td C HT HC. split.
    - destruct HT as [->| ->], HC as [->| ->]; constructor; try reflexivity;
        try (intros [|[|t]] H; try lia; apply dmat; reflexivity); intros [|t] H; try lia; apply dmat; reflexivity.
    - destruct HT as [->| ->], HC as [->| ->]; split;
        try (intros [|[|t]] Ht r c H _; try lia; exact H); intros [|t] Ht r c H; try lia; exact H. }
  split; [apply IN; auto|]. split; [apply IN; auto|]. split; [apply IN; auto|]. split; [apply IN; auto|].
  split. { intros [|[|t]] [|[|i]] [|[|u]] [|[|j]] H1 H2 H3 H4; try lia; reflexivity. }
  split; [data_of|]. split; [data_of|]. vm_compute. repeat split; reflexivity.
Qed.
