(** Properties C37 and C38: which matrix an input stands for, and inputs that
    the declared sparsity does not cover. *)
From Coq Require Import List Arith Lia Bool QArith Qcanon.
From Verif Require Import Base ModelPerm ModelSparsity ModelSymbolic ModelNumeric ModelArrow ModelReg.
From Verif Require Import SpecSymbolic SpecArrow SpecNumeric SpecArrowNum SpecReject
  ExampleData ExampleArrow.
From Verif Require Import ProofReject ProofSame.
Import ListNotations.
Local Open Scope nat_scope.

(** ** C37: multiply and factorize mean the same matrix

    The full statement, for every sparsity, is false: see the two refutations
    below. It holds for sparsities without duplicates and without entries above
    the diagonal. The matrix of the factorization is [symAt], by C01 - C03. *)

Theorem C37_clean_inputs :
  forall {F : Type} (O : ops F) (FL : fieldLaws O) m a vals n x rhs,
  spOf a n n -> inputOf O m a vals -> length x = n -> length rhs = n ->
  NoDup (entries a) -> (forall r c, In (r, c) (entries a) -> c <= r) ->
  exists r, multiply O Symmetric m x rhs = Ok r /\ length r = n /\
    forall i, i < n ->
      vecAt O r i = oadd O (vecAt O rhs i) (matVec O n (symAt O (entries a) vals) x i).
Proof. exact @clean_product. Qed.
Print Assumptions C37_clean_inputs.

(** and for no other sparsity: there are values for which the matrix of the
    product (C26) differs *)
Theorem C37_only_clean_inputs :
  forall {F : Type} (O : ops F) (FL : fieldLaws O) a n,
  spOf a n n -> ~ (NoDup (entries a) /\ forall r c, In (r, c) (entries a) -> c <= r) ->
  exists vals, length vals = length (entries a) /\
    exists i j, i < n /\ j < n /\
      (if i =? j then totalAt O (entries a) vals i i
       else oadd O (totalAt O (entries a) vals i j) (totalAt O (entries a) vals j i)) <>
      symAt O (entries a) vals i j.
Proof. exact @same_exactly_clean. Qed.
Print Assumptions C37_only_clean_inputs.

Definition exDup : sparsity := mkSp 2 2 [(0,0); (1,1); (1,0); (1,0)].
Definition exUpper : sparsity := mkSp 2 2 [(0,0); (1,1); (1,0); (0,1)].
Definition exBlk (s : sparsity) : blk :=
  match factorizationBlk s [1;0] with Ok b => b | Err _ => emptyDiagBlk end.

Example C37_example :
  NoDup (entries exS) /\ (forall r c, In (r, c) (entries exS) -> c <= r) /\
  ~ NoDup (entries exDup) /\ In (0, 1) (entries exUpper) /\
  map this (match multiply Oq Symmetric exM (qs [1; -2; 3; 5]%Z) (qs [0; 0; 0; 1]%Z) with
            | Ok r => r | Err _ => [] end) = [13; -9; 20; 37]%Q.
Proof.
  split. { repeat constructor; cbn; intuition discriminate. }
  split.
  { intros r c H. cbn in H.
    repeat (destruct H as [H|H]; [injection H as <- <-; lia|]). destruct H. }
  split. { intros H. inversion_clear H as [|? ? _ H1]. inversion_clear H1 as [|? ? _ H2].
    inversion_clear H2 as [|? ? H3 _]. apply H3. left. reflexivity. }
  split; [right; right; right; left; reflexivity|]. vm_compute. reflexivity.
Qed.

(** the values of a round trip: factorize, multiply, solve *)
Definition roundTrip (s : sparsity) (vals x : list Z) : option (list Qc * list Qc) :=
  match (let* f := factorize Oq UpLooking (exBlk s) (Some (ExampleData.matOf s vals))
                     regularizationNone (repeat (o0 Oq) (c_nnz (b_sp (exBlk s))), qs [0; 0]%Z) in
         let* rhs := multiply Oq Symmetric (ExampleData.matOf s vals) (qs x) (qs [0; 0]%Z) in
         let* y := solveInPlace Oq (exBlk s) f rhs in Ok (snd f, y)) with
  | Ok r => Some r
  | Err _ => None
  end.

Theorem C37_duplicates_refuted :
  exists s vals x D y,
    spOf s 2 2 /\ factorizationBlk s [1;0] = Ok (exBlk s) /\
    inputOf Oq (ExampleData.matOf s vals) s (qs vals) /\
    roundTrip s vals x = Some (D, y) /\ nonzerob D = true /\ y <> qs x.
Proof.
  exists exDup, [7; 5; 1; 2]%Z, [1; 1]%Z.
  destruct (roundTrip exDup [7; 5; 1; 2]%Z [1; 1]%Z) as [[D y]|] eqn:E;
    [|vm_compute in E; discriminate].
  exists D, y. split; [apply spOf_check_ok; reflexivity|]. split; [vm_compute; reflexivity|].
  split; [apply matOf_input; reflexivity|]. split; [reflexivity|].
  assert (H : match roundTrip exDup [7; 5; 1; 2]%Z [1; 1]%Z with
              | Some (D, y) => nonzerob D = true /\ map this y <> [1; 1]%Q
              | None => False end) by (vm_compute; split; [reflexivity|discriminate]).
  rewrite E in H. destruct H as [H1 H2]. split; auto. intros Hy. apply H2. rewrite Hy. reflexivity.
Qed.
Print Assumptions C37_duplicates_refuted.

Theorem C37_upper_entries_refuted :
  exists s vals x D y,
    spOf s 2 2 /\ NoDup (entries s) /\ factorizationBlk s [1;0] = Ok (exBlk s) /\
    inputOf Oq (ExampleData.matOf s vals) s (qs vals) /\
    roundTrip s vals x = Some (D, y) /\ nonzerob D = true /\ y <> qs x.
Proof.
  exists exUpper, [7; 5; 1; 1]%Z, [1; 1]%Z.
  destruct (roundTrip exUpper [7; 5; 1; 1]%Z [1; 1]%Z) as [[D y]|] eqn:E;
    [|vm_compute in E; discriminate].
  exists D, y. split; [apply spOf_check_ok; reflexivity|].
  split. { repeat constructor; cbn; intuition discriminate. }
  split; [vm_compute; reflexivity|].
  split; [apply matOf_input; reflexivity|]. split; [reflexivity|].
  assert (H : match roundTrip exUpper [7; 5; 1; 1]%Z [1; 1]%Z with
              | Some (D, y) => nonzerob D = true /\ map this y <> [1; 1]%Q
              | None => False end) by (vm_compute; split; [reflexivity|discriminate]).
  rewrite E in H. destruct H as [H1 H2]. split; auto. intros Hy. apply H2. rewrite Hy. reflexivity.
Qed.
Print Assumptions C37_upper_entries_refuted.

(** ** C38: matrices that are not covered are rejected

    A single matrix is rejected at compile time exactly if it is not covered
    (with cover, C01 says that it is accepted). *)
Theorem C38_single_rejected :
  forall {F : Type} (O : ops F) mt s n p b a vals m reg L0 D0,
  spOf s n n -> validPerm n p -> factorizationBlk s p = Ok b ->
  spOf a n n -> inputOf O m a vals ->
  length L0 = c_nnz (b_sp b) -> length D0 = n ->
  (exists i j, permLow (entries a) n p i j /\ ~ Fill (permLow (entries s) n p) i j) ->
  factorize O mt b (Some m) reg (L0, D0) = Err StaticAssert.
Proof. exact @single_rejects. Qed.
Print Assumptions C38_single_rejected.

(** For the arrowhead linked factorization this is true of the blocks
    start.diag, start.next, tridiag.diag, tridiag.subdiag, link.prev, link.diag,
    and only of them: the outer blocks may have any entries. *)
Theorem C38_arrowhead_rejected :
  forall {F : Type} (O : ops F) mt s ds dt dl dO k n m w reg d,
  arrowDims s ds dt dl dO -> arrowBlocks s = Ok k -> inputArrow O n ds dt dl dO m w ->
  dataOf k n ds dt dl dO d ->
  (uncoveredInner s k n ds dt dl m -> arrowFactorize O mt k m reg d = Err StaticAssert) /\
  (~ uncoveredInner s k n ds dt dl m ->
   exists d', arrowFactorize O mt k m reg d = Ok d' /\ dataOf k n ds dt dl dO d').
Proof. exact @arrow_rejects. Qed.
Print Assumptions C38_arrowhead_rejected.

(** What is not stored in the factor is ignored: two accepted inputs that agree
    on the diagonal and on the stored positions have the same factor. *)
Theorem C38_only_stored_positions_matter :
  forall {F : Type} (O : ops F) mt s ds dt dl dO k n m w m' w' reg d d',
  arrowDims s ds dt dl dO -> arrowBlocks s = Ok k ->
  inputArrow O n ds dt dl dO m w -> inputArrow O n ds dt dl dO m' w' ->
  dataOf k n ds dt dl dO d -> dataOf k n ds dt dl dO d' ->
  ~ uncoveredInner s k n ds dt dl m -> ~ uncoveredInner s k n ds dt dl m' ->
  (forall g h, In g (allIdx n ds dt dl dO) -> In h (allIdx n ds dt dl dO) ->
     g = h \/ storedAt k n g h ->
     matAt O m w (permIdx s g) (permIdx s h) = matAt O m' w' (permIdx s g) (permIdx s h)) ->
  arrowFactorize O mt k m reg d = arrowFactorize O mt k m' reg d'.
Proof. exact @arrow_only_stored. Qed.
Print Assumptions C38_only_stored_positions_matter.

(** an arrowhead system with blocks of size one and an outer block of size two *)
Definition s11 : sparsity := mkSp 1 1 [(0,0)].
Definition s21 : sparsity := mkSp 2 1 [(0,0)].
Definition s21' : sparsity := mkSp 2 1 [(0,0); (1,0)].
Definition s22 : sparsity := mkSp 2 2 [(0,0); (1,1)].
Definition s22' : sparsity := mkSp 2 2 [(0,0); (1,1); (1,0)].
Definition rjA : arrow_sp := mkAS (mkSS s11 s11 s21 [0]) (mkST s11 s11 [0])
  (mkSL s11 s11 s21 [0]) (mkSO s21 s22 [0;1]).
Definition rjK : arrow_blks := match arrowBlocks rjA with Ok k => k | Err _ => noBlks end.
Definition rjD : arrow_data := match arrowCtor Oq rjK 1 with Ok d => d | Err _ => noData end.

(** input with the blocks start.outer, link.next, outer.subdiag[1], outer.diag
    as given *)
Definition rjIn (so ln os od : sparsity * list Z) : arrow_mat (F:=Qc) :=
  let M x := ExampleData.matOf (fst x) (snd x) in
  mkAM (ExampleData.matOf s11 [3]%Z) (ExampleData.matOf s11 [1]%Z) (M so)
    [ExampleData.matOf s11 [5]%Z; ExampleData.matOf s11 [5]%Z] [ExampleData.matOf s11 [1]%Z]
    (ExampleData.matOf s11 [1]%Z) (ExampleData.matOf s11 [5]%Z) (M ln)
    [ExampleData.matOf s21 [1]%Z; M os] (M od).
Definition rjW (so ln os od : sparsity * list Z) : arrow_vals Qc :=
  mkVals (qs [3]%Z) (qs [1]%Z) (qs (snd so)) [qs [5]%Z; qs [5]%Z] [qs [1]%Z]
    (qs [1]%Z) (qs [5]%Z) (qs (snd ln)) [qs [1]%Z; qs (snd os)] (qs (snd od)).
Definition rjRhs : arrow_vec (F:=Qc) := mkAV (qs [1]%Z) [qs [1]%Z; qs [1]%Z] (qs [1]%Z) (qs [1;1]%Z).

(** the factorization and the solve succeed with nonzero pivots, but the result
    does not solve the system *)
Definition wrongSolution (m : arrow_mat (F:=Qc)) (w : arrow_vals Qc) : Prop :=
  inputArrow Oq 1 1 1 1 2 m w /\
  exists d x g,
    arrowFactorize Oq UpLooking rjK m regularizationNone rjD = Ok d /\
    (forall h, In h (allIdx 1 1 1 1 2) -> pivotAt Oq d h <> o0 Oq) /\
    arrowSolveInPlace Oq rjK d rjRhs = Ok x /\
    In g (allIdx 1 1 1 1 2) /\
    gmatVec Oq (allIdx 1 1 1 1 2) (matAt Oq m w) (gvecAt Oq x) g <> gvecAt Oq rjRhs g.

Definition wrongb (m : arrow_mat (F:=Qc)) (w : arrow_vals Qc) (g : gidx) : bool :=
  match arrowFactorize Oq UpLooking rjK m regularizationNone rjD with
  | Ok d =>
      forallb (fun h => negb (Qeq_bool (this (pivotAt Oq d h)) 0)) (allIdx 1 1 1 1 2) &&
      match arrowSolveInPlace Oq rjK d rjRhs with
      | Ok x => negb (Qeq_bool
          (this (gmatVec Oq (allIdx 1 1 1 1 2) (matAt Oq m w) (gvecAt Oq x) g))
          (this (gvecAt Oq rjRhs g)))
      | Err _ => false
      end
  | Err _ => false
  end.

Lemma wrongb_ok m w g :
  inputArrow Oq 1 1 1 1 2 m w -> In g (allIdx 1 1 1 1 2) -> wrongb m w g = true ->
  wrongSolution m w.
Proof.
  intros IA Hg. unfold wrongb. split; auto.
  destruct (arrowFactorize Oq UpLooking rjK m regularizationNone rjD) as [d|]; [|discriminate].
  apply andb_true_iff in H. destruct H as [H1 H2].
  destruct (arrowSolveInPlace Oq rjK d rjRhs) as [x|] eqn:E; [|discriminate].
  exists d, x, g. split; auto. split; [|split; [auto|split; auto]].
  - intros h Hh E0. rewrite forallb_forall in H1. apply H1 in Hh. rewrite E0 in Hh.
    discriminate Hh.
  - intros E0. rewrite E0 in H2. apply negb_true_iff in H2.
    rewrite Qeq_bool_refl in H2. discriminate.
Qed.

Lemma rjIn_ok so ln os od :
  spOf_check (fst so) 2 1 = true -> length (snd so) = length (entries (fst so)) ->
  spOf_check (fst ln) 2 1 = true -> length (snd ln) = length (entries (fst ln)) ->
  spOf_check (fst os) 2 1 = true -> length (snd os) = length (entries (fst os)) ->
  spOf_check (fst od) 2 2 = true -> length (snd od) = length (entries (fst od)) ->
  inputArrow Oq 1 1 1 1 2 (rjIn so ln os od) (rjW so ln os od).
Proof.
  intros. constructor; try (apply qmat; auto); try reflexivity.
  - intros [|[|t]] Ht; try lia; apply qmat; reflexivity.
  - intros [|t] Ht; try lia; apply qmat; reflexivity.
  - intros [|[|t]] Ht; try lia; apply qmat; auto.
Qed.

(** Full statement: an input whose start.outer, link.next, outer.subdiag or
    outer.diag has an entry that is not covered by the factor is rejected. False
    for each of these blocks. *)
Theorem C38_outer_refuted :
  arrowDims rjA 1 1 1 2 /\ arrowBlocks rjA = Ok rjK /\ arrowCtor Oq rjK 1 = Ok rjD /\
  (exists m w, uncoveredRect (a_so m) 2 1 [0;1] [0] (c_entries (b_sp (k_so rjK))) /\
     wrongSolution m w) /\
  (exists m w, uncoveredRect (a_ln m) 2 1 [0;1] [0] (c_entries (b_sp (k_ln rjK))) /\
     wrongSolution m w) /\
  (exists m w, uncoveredRect (nth 1 (a_os m) noMat) 2 1 [0;1] [0] (c_entries (b_sp (k_os rjK))) /\
     wrongSolution m w) /\
  (exists m w, uncoveredSym (a_od m) 2 [0;1] (c_entries (b_sp (k_od rjK))) /\
     wrongSolution m w).
Proof.
  split; [arrow_dims|]. split; [vm_compute; reflexivity|]. split; [vm_compute; reflexivity|].
  split; [|split; [|split]].
  - exists (rjIn (s21', [1;3]%Z) (s21, [1]%Z) (s21, [1]%Z) (s22, [9;7]%Z)),
           (rjW (s21', [1;3]%Z) (s21, [1]%Z) (s21, [1]%Z) (s22, [9;7]%Z)).
    split.
    + exists 1, 0. split; [split; [lia|split; [lia|right; left; reflexivity]]|].
      vm_compute. intros [H|[]]. discriminate.
    + apply (wrongb_ok _ _ (GO 1)); [apply rjIn_ok; reflexivity|vm_compute; auto 10|].
      vm_compute. reflexivity.
  - exists (rjIn (s21, [1]%Z) (s21', [1;3]%Z) (s21, [1]%Z) (s22, [9;7]%Z)),
           (rjW (s21, [1]%Z) (s21', [1;3]%Z) (s21, [1]%Z) (s22, [9;7]%Z)).
    split.
    + exists 1, 0. split; [split; [lia|split; [lia|right; left; reflexivity]]|].
      vm_compute. intros [H|[]]. discriminate.
    + apply (wrongb_ok _ _ (GO 1)); [apply rjIn_ok; reflexivity|vm_compute; auto 10|].
      vm_compute. reflexivity.
  - exists (rjIn (s21, [1]%Z) (s21, [1]%Z) (s21', [1;3]%Z) (s22, [9;7]%Z)),
           (rjW (s21, [1]%Z) (s21, [1]%Z) (s21', [1;3]%Z) (s22, [9;7]%Z)).
    split.
    + exists 1, 0. split; [split; [lia|split; [lia|right; left; reflexivity]]|].
      vm_compute. intros [H|[]]. discriminate.
    + apply (wrongb_ok _ _ (GO 1)); [apply rjIn_ok; reflexivity|vm_compute; auto 10|].
      vm_compute. reflexivity.
  - exists (rjIn (s21, [1]%Z) (s21, [1]%Z) (s21, [1]%Z) (s22', [9;7;3]%Z)),
           (rjW (s21, [1]%Z) (s21, [1]%Z) (s21, [1]%Z) (s22', [9;7;3]%Z)).
    split.
    + exists 1, 0. split; [split; [lia|split; [lia|right; right; left; reflexivity]]|].
      vm_compute. intros [].
    + apply (wrongb_ok _ _ (GO 1)); [apply rjIn_ok; reflexivity|vm_compute; auto 10|].
      vm_compute. reflexivity.
Qed.
Print Assumptions C38_outer_refuted.

(** entry (2, 0) of tridiag.subdiag is not in the factor of [exA], and neither
    is entry (0, 0) of start.outer *)
Definition exBad (inner : bool) : arrow_mat (F:=Qc) :=
  mkAM (a_sd exIn) (a_sn exIn)
    (if inner then a_so exIn else ExampleData.matOf (mkSp 2 2 [(1,0); (0,0)]) [4; 100]%Z)
    (a_td exIn)
    (if inner then [nth 0 (a_ts exIn) noMat; ExampleData.matOf (mkSp 3 3 [(2,0)]) [1]%Z]
     else a_ts exIn)
    (a_lp exIn) (a_ld exIn) (a_ln exIn) (a_os exIn) (a_od exIn).
Definition exBadW (inner : bool) : arrow_vals Qc :=
  mkVals (w_sd exW) (w_sn exW) (if inner then w_so exW else qs [4; 100]%Z) (w_td exW)
    (if inner then [nth 0 (w_ts exW) []; qs [1]%Z] else w_ts exW)
    (w_lp exW) (w_ld exW) (w_ln exW) (w_os exW) (w_od exW).

Lemma exBad_ok inner : inputArrow Oq 2 2 3 2 2 (exBad inner) (exBadW inner).
Proof.
  destruct inner; constructor; try (apply qmat; reflexivity); try reflexivity.
  all: try (intros [|[|[|t]]] H; try lia; apply qmat; reflexivity).
Qed.

Example C38_example :
  uncoveredInner exA exK 2 2 3 2 (exBad true) /\
  arrowFactorize Oq EntryWise exK (exBad true) regularizationNone exD = Err StaticAssert /\
  uncoveredRect (a_so (exBad false)) 2 2 [0;1] [1;0] (c_entries (b_sp (k_so exK))) /\
  arrowFactorize Oq EntryWise exK (exBad false) regularizationNone exD =
  arrowFactorize Oq EntryWise exK exIn regularizationNone exDused /\
  (exists d, arrowFactorize Oq EntryWise exK (exBad false) regularizationNone exD = Ok d) /\
  (let* b := factorizationBlk (mkSp 3 3 [(0,0); (1,1); (2,2); (1,0)]) [0;2;1] in
   factorize Oq UpLooking b
     (Some (ExampleData.matOf (mkSp 3 3 [(0,0); (1,1); (2,2); (2,0)]) [4; 5; 6; 1]%Z))
     regularizationNone (qs [0]%Z, qs [0; 0; 0]%Z)) = Err StaticAssert /\
  permLow [(0,0); (1,1); (2,2); (2,0)] 3 [0;2;1] 1 0.
Proof.
  split.
  { right. right. right. left. exists 1. split; [lia|]. exists 0, 1.
    split; [split; [lia|split; [lia|left; reflexivity]]|]. vm_compute. intuition discriminate. }
  split; [vm_compute; reflexivity|].
  split.
  { exists 0, 1. split; [split; [lia|split; [lia|right; left; reflexivity]]|].
    vm_compute. intuition discriminate. }
  split; [vm_compute; reflexivity|]. split.
  { destruct (arrowFactorize Oq EntryWise exK (exBad false) regularizationNone exD) as [d|] eqn:E;
      [exists d; auto|]. vm_compute in E. discriminate. }
  split; [vm_compute; reflexivity|].
  split; [lia|split; [lia|]]. cbn. auto 10.
Qed.
