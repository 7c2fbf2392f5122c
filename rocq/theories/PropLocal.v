(** Properties C68 and C69: parts of a system that do not depend on the rest. In any
    arithmetic, thus bit by bit in IEEE arithmetic and also if infinities and NaN occur. *)
From Coq Require Import List Arith Lia Bool ZArith.
From Flocq Require Import BinarySingleNaN.
From Verif Require Import Base ModelPerm ModelSparsity ModelSymbolic ModelNumeric ModelArrow ModelReg ModelIeee.
From Verif Require Import SpecSymbolic SpecArrow SpecNumeric SpecArrowNum SpecTight SpecLocal.
From Verif Require Import ExampleData ExampleArrow ExampleIeee ExampleLocal.
From Verif Require Import ProofArrowProduct ProofLocalSingle ProofLocalArrow PropSingle.
Import ListNotations.
Local Open Scope nat_scope.

(** ** C68: variables that are not coupled with the others *)

Theorem C68_independent :
  forall {F : Type} (O : ops F) s n p b (V : nat -> Prop),
  spOf s n n -> validPerm n p -> factorizationBlk s p = Ok b -> separated (entries s) V ->
  forall mt reg1 reg2 a1 vals1 m1 a2 vals2 m2 L01 D01 L02 D02,
  spOf a1 n n -> inputOf O m1 a1 vals1 -> coveredSym (entries a1) (entries s) n p ->
  spOf a2 n n -> inputOf O m2 a2 vals2 -> coveredSym (entries a2) (entries s) n p ->
  (forall r c, r < n -> c < n -> V r -> V c ->
     symAt O (entries a1) vals1 r c = symAt O (entries a2) vals2 r c) ->
  (forall i v, i < n -> V (nth i p 0) -> reg1 v i = reg2 v i) ->
  length L01 = c_nnz (b_sp b) -> length D01 = n ->
  length L02 = c_nnz (b_sp b) -> length D02 = n ->
  exists L1 D1 L2 D2,
    factorize O mt b (Some m1) reg1 (L01, D01) = Ok (L1, D1) /\
    factorize O mt b (Some m2) reg2 (L02, D02) = Ok (L2, D2) /\
    (forall i, i < n -> V (nth i p 0) -> vecAt O D1 i = vecAt O D2 i) /\
    (forall i j, i < n -> V (nth i p 0) ->
       denseAt O (c_entries (b_sp b)) L1 i j = denseAt O (c_entries (b_sp b)) L2 i j) /\
    forall rhs1 rhs2, length rhs1 = n -> length rhs2 = n ->
    (forall r, r < n -> V r -> vecAt O rhs1 r = vecAt O rhs2 r) ->
    exists x1 x2, solveInPlace O b (L1, D1) rhs1 = Ok x1 /\ solveInPlace O b (L2, D2) rhs2 = Ok x2 /\
      length x1 = n /\ length x2 = n /\
      forall r, r < n -> V r -> vecAt O x1 r = vecAt O x2 r.
Proof. exact @single_independent. Qed.
Print Assumptions C68_independent.

(** In double precision: variables 0, 2, 4 are not coupled with 1, 3. If the pivot of
    variable 1 becomes zero, the results for the others are the same. *)
Example C68_example :
  spOf twoS 5 5 /\ validPerm 5 twoP /\ factorizationBlk twoS twoP = Ok twoB /\
  separated (entries twoS) twoIn /\
  inputOf Od (matD twoS twoVals) twoS (dzs twoVals) /\ inputOf Od (matD twoS twoVals') twoS (dzs twoVals') /\
  coveredSym (entries twoS) (entries twoS) 5 twoP /\
  (forall r c, r < 5 -> c < 5 -> twoIn r -> twoIn c ->
     symAt Od (entries twoS) (dzs twoVals) r c = symAt Od (entries twoS) (dzs twoVals') r c) /\
  match factorize Od UpLooking twoB (Some (matD twoS twoVals)) regularizationNone (dzs [1;2;3;4]%Z, dzs [1;2;3;4;5]%Z),
        factorize Od UpLooking twoB (Some (matD twoS twoVals')) regularizationNone (dzs [4;5;6;7]%Z, dzs [5;4;3;2;1]%Z) with
  | Ok (L1, D1), Ok (L2, D2) =>
      map is_finite D1 = [true; true; true; true; true] /\
      map is_finite D2 = [true; true; true; false; true] /\
      match solveInPlace Od twoB (L1, D1) (dzs [1;2;3;4;5]%Z), solveInPlace Od twoB (L2, D2) (dzs [1;9;3;9;5]%Z) with
      | Ok x1, Ok x2 =>
          map is_finite x1 = [true; true; true; true; true] /\
          map is_finite x2 = [true; false; true; false; true] /\
          map (fun i => show (vecAt Od x1 i)) [0; 2; 4] = map (fun i => show (vecAt Od x2 i)) [0; 2; 4]
      | _, _ => False
      end
  | _, _ => False
  end.
Proof.
  split; [apply spOf_check_ok; reflexivity|]. split; [apply validPerm_check; reflexivity|].
  split; [exact twoB_ok|]. split; [exact two_separated|].
  split; [apply matD_input; reflexivity|]. split; [apply matD_input; reflexivity|].
  split; [apply declared_is_covered; auto; apply validPerm_check; reflexivity|]. split.
  - intros r c _ _ Hr Hc. destruct Hr as [->|[->| ->]], Hc as [->|[->| ->]]; reflexivity.
  - vm_compute. repeat split; reflexivity.
Qed.

Theorem C68_alone :
  forall {F : Type} (O : ops F) s1 s2 n1 n2 p1 p2 b1 b2 (f pos : nat -> nat),
  spOf s1 n1 n1 -> validPerm n1 p1 -> factorizationBlk s1 p1 = Ok b1 ->
  spOf s2 n2 n2 -> validPerm n2 p2 -> factorizationBlk s2 p2 = Ok b2 ->
  (forall i, i < n1 -> pos i < n2 /\ nth (pos i) p2 0 = f (nth i p1 0)) ->
  (forall i j, i < j -> j < n1 -> pos i < pos j) ->
  (forall r c, r < n1 -> c < n1 -> coupled (entries s1) r c <-> coupled (entries s2) (f r) (f c)) ->
  (forall r c, r < n1 -> c < n2 -> coupled (entries s2) (f r) c -> exists c', c' < n1 /\ c = f c') ->
  forall mt reg1 reg2 a1 vals1 m1 a2 vals2 m2 L01 D01 L02 D02,
  spOf a1 n1 n1 -> inputOf O m1 a1 vals1 -> coveredSym (entries a1) (entries s1) n1 p1 ->
  spOf a2 n2 n2 -> inputOf O m2 a2 vals2 -> coveredSym (entries a2) (entries s2) n2 p2 ->
  (forall r c, r < n1 -> c < n1 ->
     symAt O (entries a1) vals1 r c = symAt O (entries a2) vals2 (f r) (f c)) ->
  (forall i v, i < n1 -> reg1 v i = reg2 v (pos i)) ->
  length L01 = c_nnz (b_sp b1) -> length D01 = n1 ->
  length L02 = c_nnz (b_sp b2) -> length D02 = n2 ->
  exists L1 D1 L2 D2,
    factorize O mt b1 (Some m1) reg1 (L01, D01) = Ok (L1, D1) /\
    factorize O mt b2 (Some m2) reg2 (L02, D02) = Ok (L2, D2) /\
    (forall i, i < n1 -> vecAt O D1 i = vecAt O D2 (pos i)) /\
    (forall i j, i < n1 -> j < n1 ->
       denseAt O (c_entries (b_sp b1)) L1 i j = denseAt O (c_entries (b_sp b2)) L2 (pos i) (pos j)) /\
    forall rhs1 rhs2, length rhs1 = n1 -> length rhs2 = n2 ->
    (forall r, r < n1 -> vecAt O rhs1 r = vecAt O rhs2 (f r)) ->
    exists x1 x2, solveInPlace O b1 (L1, D1) rhs1 = Ok x1 /\ solveInPlace O b2 (L2, D2) rhs2 = Ok x2 /\
      length x1 = n1 /\ length x2 = n2 /\
      forall r, r < n1 -> vecAt O x1 r = vecAt O x2 (f r).
Proof. exact @single_alone. Qed.
Print Assumptions C68_alone.

(** The first part alone, and in the larger system where the other part fails. *)
Example C68_alone_example :
  spOf oneS 3 3 /\ validPerm 3 oneP /\ factorizationBlk oneS oneP = Ok oneB /\
  (forall i, i < 3 -> onePos i < 5 /\ nth (onePos i) twoP 0 = oneVar (nth i oneP 0)) /\
  (forall i j, i < j -> j < 3 -> onePos i < onePos j) /\
  (forall r c, r < 3 -> c < 3 -> coupled (entries oneS) r c <-> coupled (entries twoS) (oneVar r) (oneVar c)) /\
  (forall r c, r < 3 -> c < 5 -> coupled (entries twoS) (oneVar r) c -> exists c', c' < 3 /\ c = oneVar c') /\
  (forall r c, r < 3 -> c < 3 ->
     symAt Od (entries oneS) (dzs oneVals) r c = symAt Od (entries twoS) (dzs twoVals') (oneVar r) (oneVar c)) /\
  match factorize Od UpLooking oneB (Some (matD oneS oneVals)) regularizationNone (dzs [1;2;3]%Z, dzs [1;2;3]%Z),
        factorize Od UpLooking twoB (Some (matD twoS twoVals')) regularizationNone (dzs [4;5;6;7]%Z, dzs [5;4;3;2;1]%Z) with
  | Ok (L1, D1), Ok (L2, D2) =>
      match solveInPlace Od oneB (L1, D1) (dzs [1;3;5]%Z), solveInPlace Od twoB (L2, D2) (dzs [1;9;3;9;5]%Z) with
      | Ok x1, Ok x2 =>
          map is_finite x1 = [true; true; true] /\
          map is_finite x2 = [true; false; true; false; true] /\
          map (fun r => show (vecAt Od x1 r)) [0; 1; 2] = map (fun r => show (vecAt Od x2 (oneVar r))) [0; 1; 2]
      | _, _ => False
      end
  | _, _ => False
  end.
Proof.
  split; [apply spOf_check_ok; reflexivity|]. split; [apply validPerm_check; reflexivity|].
  split; [exact oneB_ok|]. split.
  { intros [|[|[|i]]] H; try lia; split; try reflexivity; vm_compute; lia. }
  split. { intros [|[|[|i]]] [|[|[|j]]] H1 H2; try lia; vm_compute; lia. }
  split.
  { intros r c Hr Hc. unfold coupled, oneVar. cbn [entries oneS twoS In].
    destruct r as [|[|[|r]]], c as [|[|[|c]]]; try lia; cbn [Nat.mul Nat.add Nat.max Nat.min];
      split; intros [N H]; (split; [lia|]); repeat (destruct H as [H|H]; [try discriminate H; tauto|]); contradiction. }
  split.
  { intros r c Hr Hc [N H]. cbn [entries twoS In] in H. unfold oneVar in *.
    assert (X : c = 0 \/ c = 2 \/ c = 4).
    { destruct H as [H|[H|[H|[H|[H|[H|[H|[H|[]]]]]]]]]; injection H as H1 H2; lia. }
    destruct X as [->|[->| ->]]; [exists 0|exists 1|exists 2]; lia. }
  split.
  { intros [|[|[|r]]] [|[|[|c]]] H1 H2; try lia; reflexivity. }
  vm_compute. repeat split; reflexivity.
Qed.

Theorem C68_arrowhead :
  forall {F : Type} (O : ops F) s ds dt dl dO k n V,
  arrowDims s ds dt dl dO -> arrowBlocks s = Ok k -> separatedArrow s V ->
  forall mt reg1 reg2 m1 w1 m2 w2 d01 d02,
  let all := allIdx n ds dt dl dO in
  inputArrow O n ds dt dl dO m1 w1 -> declaredArrow s n m1 ->
  inputArrow O n ds dt dl dO m2 w2 -> declaredArrow s n m2 ->
  (forall g h, In g all -> In h all -> inVars V g -> inVars V h -> matAt O m1 w1 g h = matAt O m2 w2 g h) ->
  (forall g v, In g all -> inVars V (permIdx s g) -> reg1 v (localIdx g) = reg2 v (localIdx g)) ->
  dataOf k n ds dt dl dO d01 -> dataOf k n ds dt dl dO d02 ->
  exists d1 d2, arrowFactorize O mt k m1 reg1 d01 = Ok d1 /\ arrowFactorize O mt k m2 reg2 d02 = Ok d2 /\
    (forall g, In g all -> inVars V (permIdx s g) -> pivotAt O d1 g = pivotAt O d2 g) /\
    (forall g h, In g all -> In h all -> g <> h -> inVars V (permIdx s g) ->
       factorAt O (o0 O) k d1 g h = factorAt O (o0 O) k d2 g h) /\
    forall rhs1 rhs2, vecOf n ds dt dl dO rhs1 -> vecOf n ds dt dl dO rhs2 ->
    (forall g, In g all -> inVars V g -> gvecAt O rhs1 g = gvecAt O rhs2 g) ->
    exists x1 x2, arrowSolveInPlace O k d1 rhs1 = Ok x1 /\ arrowSolveInPlace O k d2 rhs2 = Ok x2 /\
      vecOf n ds dt dl dO x1 /\ vecOf n ds dt dl dO x2 /\
      forall g, In g all -> inVars V g -> gvecAt O x1 g = gvecAt O x2 g.
Proof. exact @arrow_independent. Qed.
Print Assumptions C68_arrowhead.

(** A zero pivot in one part of an arrowhead system; the other part is not affected. *)
Example C68_arrowhead_example :
  let all := allIdx 1 1 2 1 1 in
  arrowDims sepA 1 2 1 1 /\ arrowBlocks sepA = Ok sepK /\ separatedArrow sepA sepV /\
  inputArrow Od 1 1 2 1 1 (sepIn 5) (sepW 5) /\ declaredArrow sepA 1 (sepIn 5) /\
  inputArrow Od 1 1 2 1 1 (sepIn 0) (sepW 0) /\ declaredArrow sepA 1 (sepIn 0) /\
  (forall g h, In g all -> In h all -> inVars sepV g -> inVars sepV h ->
     matAt Od (sepIn 5) (sepW 5) g h = matAt Od (sepIn 0) (sepW 0) g h) /\
  dataOf sepK 1 1 2 1 1 sepD /\
  match arrowFactorize Od EntryWise sepK (sepIn 5) regularizationNone sepD,
        arrowFactorize Od EntryWise sepK (sepIn 0) regularizationNone sepD with
  | Ok d1, Ok d2 =>
      let X := mkAV (dzs [1]%Z) (map dzs [[2;3]; [4;5]]%Z) (dzs [6]%Z) (dzs [7]%Z) in
      match arrowSolveInPlace Od sepK d1 X, arrowSolveInPlace Od sepK d2 X with
      | Ok x1, Ok x2 =>
          forallb (fun g => is_finite (gvecAt Od x1 g)) all = true /\
          map (fun g => is_finite (gvecAt Od x2 g)) [GT 0 1; GT 1 1; GL 0] = [false; false; false] /\
          map (fun g => show (gvecAt Od x1 g)) [GS 0; GT 0 0; GT 1 0; GO 0] =
          map (fun g => show (gvecAt Od x2 g)) [GS 0; GT 0 0; GT 1 0; GO 0]
      | _, _ => False
      end
  | _, _ => False
  end.
Proof.
  intros all. split; [exact sepA_ok|]. split; [exact sepK_ok|]. split; [exact sep_separated|].
  split; [apply sepIn_ok|]. split; [apply sepIn_declared|]. split; [apply sepIn_ok|]. split; [apply sepIn_declared|].
  split.
  { intros g h Hg Hh. apply in_allIdx in Hg, Hh.
    destruct g as [[|i]|[|[|t]] [|[|i]]|[|i]|[|i]], h as [[|j]|[|[|u]] [|[|j]]|[|j]|[|j]]; cbn [inVars sepV vs_start vs_tri vs_link vs_outer];
      intros H1 H2; try lia; try contradiction; reflexivity. }
  split; [exact sepD_ok|]. vm_compute. repeat split; reflexivity.
Qed.

Theorem C68_tridiagonal :
  forall {F : Type} (O : ops F) a c p dt n k (V : nat -> Prop),
  spOf a dt dt -> spOf c dt dt -> validPerm dt p -> tridiagonalBlocks a c p = Ok k ->
  separated (entries a) V -> separatedRect (entries c) V V ->
  forall mt reg1 reg2 A1 B1 wA1 wB1 A2 B2 wA2 wB2 d01 d02,
  inputTri O n dt A1 B1 wA1 wB1 -> declaredTri a c n A1 B1 ->
  inputTri O n dt A2 B2 wA2 wB2 -> declaredTri a c n A2 B2 ->
  (forall t i u j, t < n + 1 -> i < dt -> u < n + 1 -> j < dt -> V i -> V j ->
     triMatAt O A1 B1 wA1 wB1 t i u j = triMatAt O A2 B2 wA2 wB2 t i u j) ->
  (forall i v, i < dt -> V (nth i p 0) -> reg1 v i = reg2 v i) ->
  dataOf k n 0 dt 0 0 d01 -> dataOf k n 0 dt 0 0 d02 ->
  exists d1 d2, tridiagonalFactorize O mt k dt A1 B1 reg1 d01 = Ok d1 /\
    tridiagonalFactorize O mt k dt A2 B2 reg2 d02 = Ok d2 /\
    (forall t i, t < n + 1 -> i < dt -> V (nth i p 0) -> pivotAt O d1 (GT t i) = pivotAt O d2 (GT t i)) /\
    (forall t i u j, t < n + 1 -> i < dt -> u < n + 1 -> j < dt -> (t, i) <> (u, j) -> V (nth i p 0) ->
       factorAt O (o0 O) k d1 (GT t i) (GT u j) = factorAt O (o0 O) k d2 (GT t i) (GT u j)) /\
    forall rhs1 rhs2, blocksOf n dt rhs1 -> blocksOf n dt rhs2 ->
    (forall t i, t < n + 1 -> i < dt -> V i -> vecAt O (nth t rhs1 []) i = vecAt O (nth t rhs2 []) i) ->
    exists x1 x2, tridiagonalSolveInPlace O k d1 rhs1 = Ok x1 /\ tridiagonalSolveInPlace O k d2 rhs2 = Ok x2 /\
      blocksOf n dt x1 /\ blocksOf n dt x2 /\
      forall t i, t < n + 1 -> i < dt -> V i -> vecAt O (nth t x1 []) i = vecAt O (nth t x2 []) i.
Proof. exact @tri_independent. Qed.
Print Assumptions C68_tridiagonal.

(** A zero pivot in one part of a tridiagonal system. *)
Definition sepTS : sparsity := mkSp 2 2 [(0,0); (1,1)].
Definition sepTK : arrow_blks :=
  match tridiagonalBlocks sepTS sepTS [1;0] with Ok k => k | Err _ => noBlks end.
Definition sepTd (x : Z) : list (mat (F:=double)) := map (matD sepTS) [[8;x]; [9;6]]%Z.
Definition sepTw (x : Z) : list (list double) := map dzs [[8;x]; [9;6]]%Z.
Definition sepTs : list (mat (F:=double)) := map (matD sepTS) [[2;3]]%Z.
Definition sepTv : list (list double) := map dzs [[2;3]]%Z.
Definition sepTD : arrow_data (F:=double) := match arrowCtor Od sepTK 1 with Ok d => d | Err _ => noDataD end.
Lemma sepT_input x : inputTri Od 1 2 (sepTd x) sepTs (sepTw x) sepTv.
Proof.
  constructor; try reflexivity.
  - intros [|[|t]] H; try lia; apply (dmat _ _ _ [_; _]); reflexivity.
  - intros [|t] H; try lia; apply dmat; reflexivity.
Qed.
Lemma sepT_declared x : declaredTri sepTS sepTS 1 (sepTd x) sepTs.
Proof.
  split.
  - intros [|[|t]] Ht r c H _; try lia; exact H.
  - intros [|t] Ht r c H; try lia; exact H.
Qed.
Example C68_tridiagonal_example :
  let V := fun i => i = 0 in
  spOf sepTS 2 2 /\ validPerm 2 [1;0] /\ tridiagonalBlocks sepTS sepTS [1;0] = Ok sepTK /\
  separated (entries sepTS) V /\ separatedRect (entries sepTS) V V /\
  inputTri Od 1 2 (sepTd 5) sepTs (sepTw 5) sepTv /\ declaredTri sepTS sepTS 1 (sepTd 5) sepTs /\
  inputTri Od 1 2 (sepTd 0) sepTs (sepTw 0) sepTv /\ declaredTri sepTS sepTS 1 (sepTd 0) sepTs /\
  (forall t i u j, t < 1 + 1 -> i < 2 -> u < 1 + 1 -> j < 2 -> V i -> V j ->
     triMatAt Od (sepTd 5) sepTs (sepTw 5) sepTv t i u j = triMatAt Od (sepTd 0) sepTs (sepTw 0) sepTv t i u j) /\
  dataOf sepTK 1 0 2 0 0 sepTD /\
  match tridiagonalFactorize Od UpLooking sepTK 2 (sepTd 5) sepTs regularizationNone sepTD,
        tridiagonalFactorize Od UpLooking sepTK 2 (sepTd 0) sepTs regularizationNone sepTD with
  | Ok d1, Ok d2 =>
      match tridiagonalSolveInPlace Od sepTK d1 (map dzs [[2;3]; [4;5]]%Z),
            tridiagonalSolveInPlace Od sepTK d2 (map dzs [[2;7]; [4;7]]%Z) with
      | Ok x1, Ok x2 =>
          map (map is_finite) x1 = [[true; true]; [true; true]] /\
          map (map is_finite) x2 = [[true; false]; [true; false]] /\
          map (fun v => show (vecAt Od v 0)) x1 = map (fun v => show (vecAt Od v 0)) x2
      | _, _ => False
      end
  | _, _ => False
  end.
Proof.
  intros V. split; [apply spOf_check_ok; reflexivity|]. split; [apply validPerm_check; reflexivity|].
  split; [vm_compute; reflexivity|].
  split. { intros r c [N [H|[H|[]]]]; injection H as H1 H2; lia. }
  split. { intros r c [H|[H|[]]]; inversion H; subst; unfold V; lia. }
  split; [apply sepT_input|]. split; [apply sepT_declared|]. split; [apply sepT_input|]. split; [apply sepT_declared|].
  split. { intros [|[|t]] i [|[|u]] j H1 _ H2 _ -> ->; try lia; reflexivity. }
  split; [data_of|]. vm_compute. repeat split; reflexivity.
Qed.

(** The set must be the same in every block: all blocks share one stored pattern, and a
    stored entry is divided by its pivot even if it is not declared. Here variable 1 of the
    first block is not coupled with any other variable, but if the pivot of variable 0
    of this block is zero then the pivot of variable 1 is not a number. *)
Theorem C68_each_block_refuted :
  exists a c p dt n k (A1 A2 B : list (mat (F:=double))) wA1 wA2 wB d0 d1 d2 (W : nat -> nat -> Prop) t i,
    spOf a dt dt /\ spOf c dt dt /\ validPerm dt p /\ tridiagonalBlocks a c p = Ok k /\
    inputTri Od n dt A1 B wA1 wB /\ declaredTri a c n A1 B /\
    inputTri Od n dt A2 B wA2 wB /\ declaredTri a c n A2 B /\
    (* no declared entry couples W with the other variables *)
    (forall t i u j, t < n + 1 -> i < dt -> u < n + 1 -> j < dt ->
       linked (tridiagonalSparsity a c p) n (GT t i) (GT u j) -> W t i -> W u j) /\
    (* the numbers of W are the same *)
    (forall t i u j, t < n + 1 -> i < dt -> u < n + 1 -> j < dt -> W t i -> W u j ->
       triMatAt Od A1 B wA1 wB t i u j = triMatAt Od A2 B wA2 wB t i u j) /\
    dataOf k n 0 dt 0 0 d0 /\
    tridiagonalFactorize Od UpLooking k dt A1 B regularizationNone d0 = Ok d1 /\
    tridiagonalFactorize Od UpLooking k dt A2 B regularizationNone d0 = Ok d2 /\
    t < n + 1 /\ i < dt /\ W t (nth i p 0) /\
    is_finite (pivotAt Od d1 (GT t i)) = true /\ is_nan (pivotAt Od d2 (GT t i)) = true.
Proof.
  assert (X1 : match tridiagonalFactorize Od UpLooking soloK 2 (soloTd 4) soloTs regularizationNone soloD with
    | Ok d => is_finite (pivotAt Od d (GT 0 1)) | Err _ => false end = true) by (vm_compute; reflexivity).
  assert (X2 : match tridiagonalFactorize Od UpLooking soloK 2 (soloTd 0) soloTs regularizationNone soloD with
    | Ok d => is_nan (pivotAt Od d (GT 0 1)) | Err _ => false end = true) by (vm_compute; reflexivity).
  destruct (tridiagonalFactorize Od UpLooking soloK 2 (soloTd 4) soloTs regularizationNone soloD) as [d1|e1] eqn:E1;
    [|discriminate X1].
  destruct (tridiagonalFactorize Od UpLooking soloK 2 (soloTd 0) soloTs regularizationNone soloD) as [d2|e2] eqn:E2;
    [|discriminate X2].
  exists soloA, soloC, [0;1], 2, 1, soloK, (soloTd 4), (soloTd 0), soloTs, (soloWd 4), (soloWd 0), soloWs,
    soloD, d1, d2, (fun t i => t = 0 /\ i = 1), 0, 1.
  split; [apply spOf_check_ok; reflexivity|]. split; [apply spOf_check_ok; reflexivity|].
  split; [apply validPerm_check; reflexivity|]. split; [exact soloK_ok|].
  split; [apply solo_ok|]. split; [apply solo_declared|]. split; [apply solo_ok|]. split; [apply solo_declared|].
  split.
  { intros t i u j Ht Hi Hu Hj L [-> ->]. exfalso. unfold linked in L.
    cbn [declaredAt tridiagonalSparsity as_tri st_diag st_subdiag entries soloA soloC In] in L.
    destruct L as [L|L].
    all: repeat match goal with
      | H : _ /\ _ |- _ => destruct H
      | H : _ \/ _ |- _ => destruct H
      | H : (_, _) = (_, _) |- _ => inversion H; clear H; subst
      end; try lia. }
  split. { intros t i u j _ _ _ _ [-> ->] [-> ->]. reflexivity. }
  split; [exact soloD_ok|]. split; [exact E1|]. split; [exact E2|]. split; [lia|]. split; [lia|]. split; [auto|].
  split; [exact X1|exact X2].
Qed.
Print Assumptions C68_each_block_refuted.

(** ** C69: the leading part *)

Theorem C69_leading :
  forall {F : Type} (O : ops F) s1 s2 n1 n2 p1 p2 b1 b2,
  spOf s1 n1 n1 -> validPerm n1 p1 -> factorizationBlk s1 p1 = Ok b1 ->
  spOf s2 n2 n2 -> validPerm n2 p2 -> factorizationBlk s2 p2 = Ok b2 ->
  n1 <= n2 ->
  (forall i j, j < i -> i < n1 ->
     coupled (entries s1) (nth i p1 0) (nth j p1 0) <-> coupled (entries s2) (nth i p2 0) (nth j p2 0)) ->
  forall mt reg1 reg2 a1 vals1 m1 a2 vals2 m2 L01 D01 L02 D02,
  spOf a1 n1 n1 -> inputOf O m1 a1 vals1 -> coveredSym (entries a1) (entries s1) n1 p1 ->
  spOf a2 n2 n2 -> inputOf O m2 a2 vals2 -> coveredSym (entries a2) (entries s2) n2 p2 ->
  (forall i j, i < n1 -> j < n1 ->
     symAt O (entries a1) vals1 (nth i p1 0) (nth j p1 0) =
     symAt O (entries a2) vals2 (nth i p2 0) (nth j p2 0)) ->
  (forall i v, i < n1 -> reg1 v i = reg2 v i) ->
  length L01 = c_nnz (b_sp b1) -> length D01 = n1 ->
  length L02 = c_nnz (b_sp b2) -> length D02 = n2 ->
  exists L1 D1 L2 D2,
    factorize O mt b1 (Some m1) reg1 (L01, D01) = Ok (L1, D1) /\
    factorize O mt b2 (Some m2) reg2 (L02, D02) = Ok (L2, D2) /\
    (forall i, i < n1 -> vecAt O D1 i = vecAt O D2 i) /\
    (forall i j, i < n1 -> j < n1 ->
       denseAt O (c_entries (b_sp b1)) L1 i j = denseAt O (c_entries (b_sp b2)) L2 i j).
Proof. exact @single_leading. Qed.
Print Assumptions C69_leading.

(** the matrix with rows 0, 2, 4 as before and one more row that couples everything *)
Definition leadS : sparsity := mkSp 4 4 [(0,0); (1,0); (1,1); (2,0); (2,2); (3,0); (3,1); (3,2); (3,3)].
Definition leadP : perm := [0;2;1;3].
Definition leadVals : list Z := [4; 1; 6; 3; 8; 1; 2; 3; 0]%Z.
Definition leadB : blk := match factorizationBlk leadS leadP with Ok b => b | Err _ => exB end.
Example C69_example :
  spOf oneS 3 3 /\ validPerm 3 oneP /\ factorizationBlk oneS oneP = Ok oneB /\
  spOf leadS 4 4 /\ validPerm 4 leadP /\ factorizationBlk leadS leadP = Ok leadB /\
  (forall i j, j < i -> i < 3 ->
     coupled (entries oneS) (nth i oneP 0) (nth j oneP 0) <-> coupled (entries leadS) (nth i leadP 0) (nth j leadP 0)) /\
  (forall i j, i < 3 -> j < 3 ->
     symAt Od (entries oneS) (dzs oneVals) (nth i oneP 0) (nth j oneP 0) =
     symAt Od (entries leadS) (dzs leadVals) (nth i leadP 0) (nth j leadP 0)) /\
  match factorize Od EntryWise oneB (Some (matD oneS oneVals)) regularizationNone (dzs [1;2;3]%Z, dzs [1;2;3]%Z),
        factorize Od EntryWise leadB (Some (matD leadS leadVals)) regularizationNone (dzs [1;2;3;4;5;6]%Z, dzs [1;2;3;4]%Z) with
  | Ok (L1, D1), Ok (L2, D2) => length D1 = 3 /\ map show D1 = firstn 3 (map show D2)
  | _, _ => False
  end.
Proof.
  split; [apply spOf_check_ok; reflexivity|]. split; [apply validPerm_check; reflexivity|]. split; [exact oneB_ok|].
  split; [apply spOf_check_ok; reflexivity|]. split; [apply validPerm_check; reflexivity|]. split; [vm_compute; reflexivity|].
  split.
  { intros i j Hj Hi. unfold coupled. cbn [entries oneS leadS In].
    destruct i as [|[|[|i]]], j as [|[|[|j]]]; try lia; cbn [nth oneP leadP Nat.max Nat.min];
      split; intros [N H]; (split; [lia|]); repeat (destruct H as [H|H]; [try discriminate H; tauto|]); contradiction. }
  split. { intros [|[|[|i]]] [|[|[|j]]] H1 H2; try lia; reflexivity. }
  vm_compute. repeat split; reflexivity.
Qed.

Theorem C69_arrowhead :
  forall {F : Type} (O : ops F) s ds dt dl dO k T n1 n2,
  arrowDims s ds dt dl dO -> arrowBlocks s = Ok k -> T <= n1 -> T <= n2 ->
  forall mt reg1 reg2 m1 w1 m2 w2 d01 d02,
  inputArrow O n1 ds dt dl dO m1 w1 -> declaredArrow s n1 m1 ->
  inputArrow O n2 ds dt dl dO m2 w2 -> declaredArrow s n2 m2 ->
  (forall g h, In g (allIdx n1 ds dt dl dO) -> In h (allIdx n1 ds dt dl dO) -> leadEntry T g h ->
     matAt O m1 w1 g h = matAt O m2 w2 g h) ->
  (forall g v, In g (allIdx n1 ds dt dl dO) -> upTo T g -> reg1 v (localIdx g) = reg2 v (localIdx g)) ->
  dataOf k n1 ds dt dl dO d01 -> dataOf k n2 ds dt dl dO d02 ->
  exists d1 d2, arrowFactorize O mt k m1 reg1 d01 = Ok d1 /\ arrowFactorize O mt k m2 reg2 d02 = Ok d2 /\
    (forall g, In g (allIdx n1 ds dt dl dO) -> upTo T g -> pivotAt O d1 g = pivotAt O d2 g) /\
    (forall g h, In g (allIdx n1 ds dt dl dO) -> In h (allIdx n1 ds dt dl dO) -> g <> h -> leadEntry T g h ->
       factorAt O (o0 O) k d1 g h = factorAt O (o0 O) k d2 g h).
Proof. exact @arrow_leading. Qed.
Print Assumptions C69_arrowhead.

(** The arrowhead matrix of the other examples, with two repetitions and with one. *)
Definition exCutD : arrow_mat (F:=double) := mkAM (a_sd exInD) (a_sn exInD) (a_so exInD)
  (firstn 2 (a_td exInD)) (firstn 1 (a_ts exInD)) (a_lp exInD) (a_ld exInD) (a_ln exInD)
  (firstn 2 (a_os exInD)) (a_od exInD).
Definition exCutW : arrow_vals double := mkVals (w_sd exWD) (w_sn exWD) (w_so exWD)
  (firstn 2 (w_td exWD)) (firstn 1 (w_ts exWD)) (w_lp exWD) (w_ld exWD) (w_ln exWD)
  (firstn 2 (w_os exWD)) (w_od exWD).
Definition exCutDD : arrow_data (F:=double) := match arrowCtor Od exK 1 with Ok d => d | Err _ => noDataD end.
Example C69_arrowhead_example :
  inputArrow Od 1 2 3 2 2 exCutD exCutW /\ declaredArrow exA 1 exCutD /\ dataOf exK 1 2 3 2 2 exCutDD /\
  (forall g h, In g (allIdx 1 2 3 2 2) -> In h (allIdx 1 2 3 2 2) -> leadEntry 1 g h ->
     matAt Od exCutD exCutW g h = matAt Od exInD exWD g h) /\
  match arrowFactorize Od UpLooking exK exCutD regularizationNone exCutDD,
        arrowFactorize Od UpLooking exK exInD regularizationNone exDD with
  | Ok d1, Ok d2 =>
      map (fun g => show (pivotAt Od d1 g)) [GS 0; GS 1; GT 0 0; GT 0 1; GT 0 2; GT 1 0; GT 1 1; GT 1 2] =
      map (fun g => show (pivotAt Od d2 g)) [GS 0; GS 1; GT 0 0; GT 0 1; GT 0 2; GT 1 0; GT 1 1; GT 1 2]
  | _, _ => False
  end.
Proof.
  split.
  { destruct exInD_ok. constructor; auto; try reflexivity.
    - intros [|[|t]] Ht; try lia; [apply (ia_td 0)|apply (ia_td 1)]; lia.
    - intros [|t] Ht; try lia; apply (ia_ts 0); lia.
    - intros [|[|t]] Ht; try lia; [apply (ia_os 0)|apply (ia_os 1)]; lia. }
  split.
  { constructor; try (intros r c H; exact H); try (intros r c H _; exact H).
    - intros [|[|t]] Ht r c H _; try lia; exact H.
    - intros [|t] Ht r c H; try lia; exact H.
    - intros [|[|t]] Ht r c H; try lia; exact H. }
  split; [data_of|]. split.
  { intros g h Hg Hh [H1 H2]. apply in_allIdx in Hg, Hh.
    destruct h as [j|[|[|u]] j|j|j], g as [i|[|[|t]] i|i|i]; cbn [upTo] in *; try tauto; try lia; reflexivity. }
  vm_compute. reflexivity.
Qed.

Theorem C69_tridiagonal :
  forall {F : Type} (O : ops F) a c p dt k T n1 n2,
  spOf a dt dt -> spOf c dt dt -> validPerm dt p -> tridiagonalBlocks a c p = Ok k ->
  T <= n1 -> T <= n2 ->
  forall mt reg A1 B1 wA1 wB1 A2 B2 wA2 wB2 d01 d02,
  inputTri O n1 dt A1 B1 wA1 wB1 -> declaredTri a c n1 A1 B1 ->
  inputTri O n2 dt A2 B2 wA2 wB2 -> declaredTri a c n2 A2 B2 ->
  (forall t i u j, t <= T -> i < dt -> u <= T -> j < dt ->
     triMatAt O A1 B1 wA1 wB1 t i u j = triMatAt O A2 B2 wA2 wB2 t i u j) ->
  dataOf k n1 0 dt 0 0 d01 -> dataOf k n2 0 dt 0 0 d02 ->
  exists d1 d2, tridiagonalFactorize O mt k dt A1 B1 reg d01 = Ok d1 /\
    tridiagonalFactorize O mt k dt A2 B2 reg d02 = Ok d2 /\
    (forall t i, t <= T -> i < dt -> pivotAt O d1 (GT t i) = pivotAt O d2 (GT t i)) /\
    (forall t i u j, t <= T -> i < dt -> u <= T -> j < dt -> (t, i) <> (u, j) ->
       factorAt O (o0 O) k d1 (GT t i) (GT u j) = factorAt O (o0 O) k d2 (GT t i) (GT u j)).
Proof. exact @tri_leading. Qed.
Print Assumptions C69_tridiagonal.

(** The tridiagonal part of it. *)
Definition exCutT : arrow_data (F:=double) := match arrowCtor Od exTK 1 with Ok d => d | Err _ => noDataD end.
Example C69_tridiagonal_example :
  inputTri Od 1 3 (firstn 2 (a_td exInD)) (firstn 1 (a_ts exInD)) (firstn 2 (w_td exWD)) (firstn 1 (w_ts exWD)) /\
  declaredTri exTA exTB 1 (firstn 2 (a_td exInD)) (firstn 1 (a_ts exInD)) /\
  dataOf exTK 1 0 3 0 0 exCutT /\
  (forall t i u j, t <= 1 -> i < 3 -> u <= 1 -> j < 3 ->
     triMatAt Od (firstn 2 (a_td exInD)) (firstn 1 (a_ts exInD)) (firstn 2 (w_td exWD)) (firstn 1 (w_ts exWD)) t i u j =
     triMatAt Od (a_td exInD) (a_ts exInD) (w_td exWD) (w_ts exWD) t i u j) /\
  match tridiagonalFactorize Od EntryWise exTK 3 (firstn 2 (a_td exInD)) (firstn 1 (a_ts exInD)) regularizationNone exCutT,
        tridiagonalFactorize Od EntryWise exTK 3 (a_td exInD) (a_ts exInD) regularizationNone exTDd with
  | Ok d1, Ok d2 =>
      map (fun g => show (pivotAt Od d1 g)) [GT 0 0; GT 0 1; GT 0 2; GT 1 0; GT 1 1; GT 1 2] =
      map (fun g => show (pivotAt Od d2 g)) [GT 0 0; GT 0 1; GT 0 2; GT 1 0; GT 1 1; GT 1 2]
  | _, _ => False
  end.
Proof.
  split.
  { destruct exTd_ok. constructor; auto; try reflexivity.
    - intros [|[|t]] Ht; try lia; apply dmat; reflexivity.
    - intros [|t] Ht; try lia; apply dmat; reflexivity. }
  split.
  { split.
    - intros [|[|t]] Ht r c H _; try lia; exact H.
    - intros [|t] Ht r c H; try lia; exact H. }
  split; [data_of|]. split.
  { intros [|[|t]] i [|[|u]] j H1 _ H2 _; try lia; reflexivity. }
  vm_compute. reflexivity.
Qed.
