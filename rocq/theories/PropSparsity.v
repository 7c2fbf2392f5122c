(** Properties C20 - C25, C30 and C34 - C36: sparsity patterns, permutations,
    vectors. *)
From Coq Require Import List Arith Lia Bool Sorted Permutation NArith.
From Verif Require Import Base ModelPerm ModelSparsity ModelSymbolic ModelNumeric ModelArrow.
From Verif Require Import SpecSymbolic SpecArrow SpecPerm ExampleData.
From Verif Require Import ProofPropSymbolic ProofEnum ProofSmall ProofPropSparsity.
Import ListNotations.

Ltac spdec := apply spOf_check_ok; reflexivity.
Ltac permdec := apply validPerm_check; reflexivity.

(** ** C20: subset and equality of patterns *)

Theorem C20_subset : forall lhs rhs nr nc,
  spOf lhs nr nc -> spOf rhs nr nc ->
  exists b, isSparsitySubset lhs rhs None None = Ok b /\
    (b = true <-> forall i j, In (i, j) (entries lhs) -> In (i, j) (entries rhs)).
Proof. exact subset. Qed.
Print Assumptions C20_subset.

Theorem C20_subset_permuted : forall lhs rhs prow pcol nr nc,
  spOf lhs nr nc -> spOf rhs nr nc -> validPerm nr prow -> validPerm nc pcol ->
  exists b, isSparsitySubset lhs rhs (Some prow) (Some pcol) = Ok b /\
    (b = true <->
     forall i j, i < nr -> j < nc ->
       In (nth i prow 0, nth j pcol 0) (entries lhs) -> In (i, j) (entries rhs)).
Proof. exact subset_perm. Qed.
Print Assumptions C20_subset_permuted.

Theorem C20_subset_lower_triangle : forall lhs rhs p n,
  spOf lhs n n -> spOf rhs n n -> validPerm n p ->
  exists b, isSparsitySubsetLowerTriangle lhs rhs p = Ok b /\
    (b = true <-> forall i j, permLow (entries lhs) n p i j -> In (i, j) (entries rhs)).
Proof. exact subset_lower. Qed.
Print Assumptions C20_subset_lower_triangle.

Theorem C20_equal : forall lhs rhs nr nc,
  spOf lhs nr nc -> spOf rhs nr nc ->
  exists b, isSparsityEqual lhs rhs = Ok b /\
    (b = true <-> forall i j, In (i, j) (entries lhs) <-> In (i, j) (entries rhs)).
Proof. exact equal. Qed.
Print Assumptions C20_equal.

Theorem C20_subset_dims : forall lhs rhs prow pcol,
  ~ (nrows lhs = nrows rhs /\ ncols lhs = ncols rhs) ->
  isSparsitySubset lhs rhs prow pcol = Err PreViolation.
Proof. exact subset_dims. Qed.
Print Assumptions C20_subset_dims.

Theorem C20_equal_dims : forall lhs rhs,
  ~ (nrows lhs = nrows rhs /\ ncols lhs = ncols rhs) ->
  isSparsityEqual lhs rhs = Err PreViolation.
Proof. exact equal_dims. Qed.
Print Assumptions C20_equal_dims.

Example C20_example :
  let a := mkSp 2 3 [(1,2); (0,0)] in
  let b := mkSp 2 3 [(0,0); (1,0); (1,2)] in
  spOf a 2 3 /\ spOf b 2 3 /\ validPerm 2 [1; 0] /\ validPerm 3 [1; 2; 0] /\
  isSparsitySubset a b None None = Ok true /\
  isSparsitySubset b a None None = Ok false /\
  isSparsitySubset a b (Some [1; 0]) (Some [1; 2; 0]) = Ok false /\
  isSparsitySubset (mkSp 2 3 [(0,1); (1,1)]) b (Some [1; 0]) (Some [1; 2; 0]) = Ok true /\
  isSparsityEqual a b = Ok false /\ isSparsityEqual a (mkSp 2 3 [(0,0); (1,2); (0,0)]) = Ok true /\
  isSparsityEqual a (mkSp 3 3 [(1,2); (0,0)]) = Err PreViolation /\
  isSparsitySubsetLowerTriangle (mkSp 3 3 [(2,0); (0,1)]) (mkSp 3 3 [(1,0)]) [2; 0; 1] = Ok true.
Proof.
  cbv zeta. split; [spdec|]. split; [spdec|]. split; [permdec|]. split; [permdec|].
  repeat split; reflexivity.
Qed.

(** ** C21: compressed sparse row form *)

Theorem C21_csr : forall s nr nc,
  spOf s nr nc ->
  exists c, toCSR s = Ok c /\ c_rows c = nr /\ c_cols c = nc /\
    Permutation (c_entries c) (entries s) /\
    (forall i, i < nr -> rowView c i = Ok (filter (fun e => fst e =? i) (entries s))) /\
    (forall i j, i < nr -> exists b, isNonZero c i j = Ok b /\
       (b = true <-> In (i, j) (entries s))) /\
    (forall i j, In (i, j) (entries s) -> exists k, entryIndex c i j = Ok k /\
       nth_error (c_entries c) k = Some (i, j)) /\
    (forall i j, ~ In (i, j) (entries s) -> exists e, entryIndex c i j = Err e) /\
    (forall i j, nr <= i -> rowView c i = Err UB /\ isNonZero c i j = Err UB /\
       entryIndex c i j = Err UB).
Proof. exact csr_conversion. Qed.
Print Assumptions C21_csr.

Example C21_example :
  let s := mkSp 3 2 [(2,1); (0,1); (2,0); (0,1)] in
  spOf s 3 2 /\
  match toCSR s with
  | Ok c => c_entries c = [(0,1); (0,1); (2,1); (2,0)] /\ row_begin c = [0; 2; 2; 4] /\
            rowView c 1 = Ok [] /\ entryIndex c 2 0 = Ok 3 /\ entryIndex c 1 0 = Err CAssert /\
            rowView c 3 = Err UB
  | Err _ => False
  end.
Proof. cbv zeta. split; [spdec|]. vm_compute. repeat split; reflexivity. Qed.

(** ** C22: inverse permutations and permuted patterns *)

Theorem C22_inverse : forall n p,
  validPerm n p ->
  exists q, invertPermutation p = Ok q /\ validPerm n q /\
    (forall i, i < n -> nth (nth i p 0) q 0 = i) /\
    (forall i, i < n -> nth (nth i q 0) p 0 = i).
Proof. exact inverse_perm. Qed.
Print Assumptions C22_inverse.

Theorem C22_permuted : forall s nr nc prow pcol,
  spOf s nr nc -> validPerm nr prow -> validPerm nc pcol ->
  exists s', getSparsityDynamicPermuted s prow pcol = Ok s' /\ spOf s' nr nc /\
    length (entries s') = length (entries s) /\
    (forall i j, i < nr -> j < nc ->
       In (i, j) (entries s') <-> In (nth i prow 0, nth j pcol 0) (entries s)).
Proof. exact permuted_sp. Qed.
Print Assumptions C22_permuted.

Theorem C22_lower_triangle : forall s n p,
  spOf s n n -> validPerm n p ->
  exists s', getSparsityDynamicLowerTriangle s p = Ok s' /\ spOf s' n n /\
    (forall i j, In (i, j) (entries s') <-> permLow (entries s) n p i j).
Proof. exact lower_sp. Qed.
Print Assumptions C22_lower_triangle.

Example C22_example :
  validPerm 4 [2; 0; 3; 1] /\ invertPermutation [2; 0; 3; 1] = Ok [1; 3; 0; 2] /\
  getSparsityDynamicPermuted (mkSp 2 4 [(0,2); (1,1)]) [1; 0] [2; 0; 3; 1] =
    Ok (mkSp 2 4 [(1,0); (0,3)]) /\
  getSparsityDynamicLowerTriangle (mkSp 4 4 [(2,0); (0,2); (3,3); (3,2)]) [2; 0; 3; 1] =
    Ok (mkSp 4 4 [(1,0); (2,0)]).
Proof. split; [permdec|]. repeat split; reflexivity. Qed.

(** ** C23: enumeration of permutations *)

(** For every dimension the result consists of distinct permutations in
    lexicographic order without gaps, starting with the identity; their number
    is dim! modulo 2^64. *)
Theorem C23_enumeration : forall dim,
  let ps := enumeratePermutationsStatic dim in
  N.of_nat (length ps) = (N.of_nat (fact dim) mod 2 ^ 64)%N /\
  StronglySorted lexLt ps /\
  (forall p, In p ps -> validPerm dim p) /\
  (forall p p', In p' ps -> validPerm dim p -> lexLt p p' -> In p ps) /\
  (ps <> [] -> hd [] ps = seq 0 dim).
Proof. exact enumerate_any. Qed.
Print Assumptions C23_enumeration.

(** Up to dimension 20 nothing is missing. *)
Theorem C23_enumeration_complete : forall dim,
  dim <= 20 ->
  let ps := enumeratePermutationsStatic dim in
  NoDup ps /\ length ps = fact dim /\ hd [] ps = seq 0 dim /\
  (forall p, In p ps <-> validPerm dim p).
Proof. exact enumerate_small. Qed.
Print Assumptions C23_enumeration_complete.

(** From dimension 21 on the number wraps around and permutations are missing. *)
Theorem C23_enumeration_incomplete : forall dim,
  21 <= dim -> exists p, validPerm dim p /\ ~ In p (enumeratePermutationsStatic dim).
Proof. exact enumerate_large. Qed.
Print Assumptions C23_enumeration_incomplete.

Example C23_example :
  enumeratePermutationsStatic 3 =
    [[0; 1; 2]; [0; 2; 1]; [1; 0; 2]; [1; 2; 0]; [2; 0; 1]; [2; 1; 0]] /\
  enumeratePermutationsStatic 0 = [[]].
Proof. split; reflexivity. Qed.

(** ** C24: contributions *)

Theorem C24_contributions : forall sA sB cA cB nrA ncA nrB ncB i j limit,
  spOf sA nrA ncA -> spOf sB nrB ncB -> colSorted (entries sA) -> colSorted (entries sB) ->
  toCSR sA = Ok cA -> toCSR sB = Ok cB -> i < nrB -> j < nrA ->
  exists cs, getContributionsMixedLimit cA cB i j limit = Ok cs /\
    StronglySorted lt (map snd cs) /\
    (forall k, In k (map snd cs) <->
       k < limit /\ In (i, k) (entries sB) /\ In (j, k) (entries sA)) /\
    (forall ik jk k, In (ik, jk, k) cs ->
       nth_error (c_entries cB) ik = Some (i, k) /\ nth_error (c_entries cA) jk = Some (j, k)).
Proof. exact contributions. Qed.
Print Assumptions C24_contributions.

Theorem C24_contributions_mixed : forall sA sB cA cB nrA ncA nrB ncB i j,
  spOf sA nrA ncA -> spOf sB nrB ncB -> colSorted (entries sA) -> colSorted (entries sB) ->
  toCSR sA = Ok cA -> toCSR sB = Ok cB -> i < nrB -> j < nrA ->
  exists cs, getContributionsMixed cA cB i j = Ok cs /\
    StronglySorted lt (map snd cs) /\
    (forall k, In k (map snd cs) <-> In (i, k) (entries sB) /\ In (j, k) (entries sA)) /\
    (forall ik jk k, In (ik, jk, k) cs ->
       nth_error (c_entries cB) ik = Some (i, k) /\ nth_error (c_entries cA) jk = Some (j, k)).
Proof. exact contributions_all. Qed.
Print Assumptions C24_contributions_mixed.

(** The columns must ascend within each row, also if the pattern is as small as
    the following one. *)
Theorem C24_unsorted_refuted : exists s c i j k cs,
  spOf s 2 2 /\ toCSR s = Ok c /\ In (i, k) (entries s) /\ In (j, k) (entries s) /\
  getContributionsRectangular c i j = Ok cs /\ ~ In k (map snd cs).
Proof.
  exists (mkSp 2 2 [(0,1); (0,0); (1,0); (1,1)]),
    (match toCSR (mkSp 2 2 [(0,1); (0,0); (1,0); (1,1)]) with
     | Ok c => c | Err _ => mkCsr (mkSp 0 0 []) [] end), 0, 1, 0, [(0, 3, 1)].
  split; [spdec|]. split; [reflexivity|]. split; [cbn; auto|]. split; [cbn; auto|].
  split; [reflexivity|]. cbn. intros [H|[]]. discriminate.
Qed.
Print Assumptions C24_unsorted_refuted.

Lemma colSorted_check es :
  forallb (fun a => forallb (fun b =>
    match nth_error es a, nth_error es b with
    | Some (ra, ca), Some (rb, cb) => negb (a <? b) || negb (ra =? rb) || (ca <? cb)
    | _, _ => true
    end) (seq 0 (length es))) (seq 0 (length es)) = true -> colSorted es.
Proof.
  intros H a b r ca cb Hab Ea Eb. rewrite forallb_forall in H.
  assert (La : a < length es) by (apply nth_error_Some; congruence).
  assert (Lb : b < length es) by (apply nth_error_Some; congruence).
  specialize (H a (proj2 (in_seq _ _ _) (conj (Nat.le_0_l _) La))).
  rewrite forallb_forall in H.
  specialize (H b (proj2 (in_seq _ _ _) (conj (Nat.le_0_l _) Lb))).
  rewrite Ea, Eb, Nat.eqb_refl in H. apply Nat.ltb_lt in Hab. rewrite Hab in H.
  apply Nat.ltb_lt. exact H.
Qed.

Example C24_example :
  let a := mkSp 3 4 [(2,0); (0,1); (2,1); (0,3); (2,3)] in
  let b := mkSp 2 4 [(1,0); (1,1); (0,2); (1,3)] in
  spOf a 3 4 /\ spOf b 2 4 /\ colSorted (entries a) /\ colSorted (entries b) /\
  match toCSR a, toCSR b with
  | Ok ca, Ok cb =>
      getContributionsMixed ca cb 1 2 = Ok [(1, 2, 0); (2, 3, 1); (3, 4, 3)] /\
      getContributionsMixedLimit ca cb 1 2 3 = Ok [(1, 2, 0); (2, 3, 1)] /\
      getContributionsLowerTriangle ca 2 0 = Ok []
  | _, _ => False
  end.
Proof.
  cbv zeta. split; [spdec|]. split; [spdec|].
  split; [apply colSorted_check; reflexivity|]. split; [apply colSorted_check; reflexivity|].
  vm_compute. repeat split; reflexivity.
Qed.

(** ** C25: influenced entries *)

Theorem C25_influenced : forall sS sT cS cT nrS ncS nrT ncT i j,
  spOf sS nrS ncS -> spOf sT nrT ncT -> colSorted (entries sS) -> colSorted (entries sT) ->
  toCSR sS = Ok cS -> toCSR sT = Ok cT -> ncT <= nrS ->
  (forall k, k < ncT -> In (k, j) (entries sS) -> In (i, k) (entries sT)) ->
  exists lst ks, getInfluencedList i j cS cT = Ok lst /\
    StronglySorted lt ks /\ (forall k, In k ks <-> k < ncT /\ In (k, j) (entries sS)) /\
    map (fun st => nth_error (c_entries cS) (fst st)) lst = map (fun k => Some (k, j)) ks /\
    map (fun st => nth_error (c_entries cT) (snd st)) lst = map (fun k => Some (i, k)) ks.
Proof. exact influenced_rect. Qed.
Print Assumptions C25_influenced.

(** Below a diagonal block only the columns left of the diagonal are affected. *)
Theorem C25_influenced_lower_triangle : forall sS sT cS cT nrS ncS nrT ncT i j,
  spOf sS nrS ncS -> spOf sT nrT ncT -> colSorted (entries sS) -> colSorted (entries sT) ->
  toCSR sS = Ok cS -> toCSR sT = Ok cT -> i <= nrS ->
  (forall k, k < i -> In (k, j) (entries sS) -> In (i, k) (entries sT)) ->
  exists lst ks, getInfluencedListLowerTriangle i j cS cT = Ok lst /\
    StronglySorted lt ks /\ (forall k, In k ks <-> k < i /\ In (k, j) (entries sS)) /\
    map (fun st => nth_error (c_entries cS) (fst st)) lst = map (fun k => Some (k, j)) ks /\
    map (fun st => nth_error (c_entries cT) (snd st)) lst = map (fun k => Some (i, k)) ks.
Proof. exact influenced_low. Qed.
Print Assumptions C25_influenced_lower_triangle.

(** A missing target entry is detected. *)
Theorem C25_missing_target : forall sS sT cS cT nrS ncS nrT ncT i j k,
  spOf sS nrS ncS -> spOf sT nrT ncT ->
  toCSR sS = Ok cS -> toCSR sT = Ok cT -> i < nrT ->
  In (k, j) (entries sS) -> ~ In (i, k) (entries sT) ->
  (ncT <= nrS -> k < ncT -> getInfluencedList i j cS cT = Err CAssert) /\
  (i <= nrS -> k < i -> getInfluencedListLowerTriangle i j cS cT = Err CAssert).
Proof. exact influenced_missing. Qed.
Print Assumptions C25_missing_target.

Example C25_example :
  let source := mkSp 3 2 [(0,1); (2,0); (2,1)] in
  let target := mkSp 2 3 [(1,0); (1,2)] in
  spOf source 3 2 /\ spOf target 2 3 /\ colSorted (entries source) /\ colSorted (entries target) /\
  match toCSR source, toCSR target with
  | Ok cs, Ok ct =>
      getInfluencedList 1 1 cs ct = Ok [(0, 0); (2, 1)] /\
      getInfluencedListLowerTriangle 1 1 cs ct = Ok [(0, 0)] /\
      getInfluencedList 0 1 cs ct = Err CAssert
  | _, _ => False
  end.
Proof.
  cbv zeta. split; [spdec|]. split; [spdec|].
  split; [apply colSorted_check; reflexivity|]. split; [apply colSorted_check; reflexivity|].
  vm_compute. repeat split; reflexivity.
Qed.

(** ** C30: constructors check their entries *)

Theorem C30_accepts : forall nr nc es,
  (forall i j, In (i, j) es -> i < nr /\ j < nc) ->
  exists s, mkSparsity nr nc es = Ok s /\ nrows s = nr /\ ncols s = nc /\ entries s = es.
Proof. exact constructor_ok. Qed.
Print Assumptions C30_accepts.

Theorem C30_rejects : forall nr nc es i j,
  In (i, j) es -> ~ (i < nr /\ j < nc) -> mkSparsity nr nc es = Err PreViolation.
Proof. exact constructor_err. Qed.
Print Assumptions C30_rejects.

Example C30_example :
  mkSparsity 2 3 [(1,2); (0,0)] = Ok (mkSp 2 3 [(1,2); (0,0)]) /\
  mkSparsity 2 3 [(0,0); (2,0)] = Err PreViolation /\
  mkSparsity 2 3 [(0,3)] = Err PreViolation.
Proof. repeat split; reflexivity. Qed.

(** ** C34: blocking and flattening *)

Theorem C34_flatten_block : forall {V} (v0 : V) d flat,
  0 < d ->
  exists bs, block v0 d flat = Ok bs /\ Forall (fun b => length b = d) bs /\
    flatten bs = firstn (length flat / d * d) flat.
Proof. exact @flatten_block. Qed.
Print Assumptions C34_flatten_block.

Theorem C34_block_flatten : forall {V} (v0 : V) d w,
  0 < d -> Forall (fun b => length b = d) w ->
  block v0 d (flatten w) = Ok w.
Proof. exact @block_flatten. Qed.
Print Assumptions C34_block_flatten.

Example C34_example :
  block 0 3 [1; 2; 3; 4; 5; 6; 7] = Ok [[1; 2; 3]; [4; 5; 6]] /\
  flatten [[1; 2; 3]; [4; 5; 6]] = [1; 2; 3; 4; 5; 6] /\
  block 0 0 [1; 2] = Err UB.
Proof. repeat split; reflexivity. Qed.

(** ** C35: boolean matrices *)

Theorem C35_bool_matrix : forall m nr nc,
  length m = nr -> Forall (fun row => length row = nc) m ->
  exists es, makeSparseEntriesFromBoolMatrix nr nc m = Ok es /\
    rowMajor es /\ length es = boolNnz m /\
    (forall i j, In (i, j) es <-> i < nr /\ j < nc /\ nth j (nth i m []) false = true).
Proof. exact bool_matrix_ok. Qed.
Print Assumptions C35_bool_matrix.

Example C35_example :
  makeSparseEntriesFromBoolMatrix 3 2 [[false; true]; [false; false]; [true; true]] =
    Ok [(0,1); (2,0); (2,1)] /\
  boolNnz [[false; true]; [false; false]; [true; true]] = 3.
Proof. split; reflexivity. Qed.

(** ** C36: dimension checks *)

Theorem C36_dimensions_agree : forall s ds dt dl dO,
  startAgrees (as_start s) ds -> triAgrees s dt -> linkAgrees (as_link s) dl -> outerAgrees s dO ->
  as_dim_start s = Ok ds /\ as_dim_tri s = Ok dt /\ as_dim_link s = Ok dl /\
  as_dim_outer s = Ok dO.
Proof. exact dims_agree. Qed.
Print Assumptions C36_dimensions_agree.

Theorem C36_dimensions_disagree : forall s,
  ((forall d, ~ startAgrees (as_start s) d) -> as_dim_start s = Err PreViolation) /\
  ((forall d, ~ triAgrees s d) -> as_dim_tri s = Err PreViolation) /\
  ((forall d, ~ linkAgrees (as_link s) d) -> as_dim_link s = Err PreViolation) /\
  ((forall d, ~ outerAgrees s d) -> as_dim_outer s = Err PreViolation).
Proof. exact dims_disagree. Qed.
Print Assumptions C36_dimensions_disagree.

(** in either case no factorization can be instantiated *)
Theorem C36_checked_first : forall s,
  ~ (exists ds dt dl dO, startAgrees (as_start s) ds /\ triAgrees s dt /\
       linkAgrees (as_link s) dl /\ outerAgrees s dO) ->
  arrowBlocks s = Err PreViolation.
Proof. exact dims_checked. Qed.
Print Assumptions C36_checked_first.

Definition exDims (rows : nat) : arrow_sp :=
  mkAS (mkSS (mkSp 1 1 []) (mkSp 2 1 [(1,0)]) (mkSp 1 1 []) [0])
       (mkST (mkSp 2 2 []) (mkSp 2 2 [(0,1)]) [1; 0])
       (mkSL (mkSp 1 rows []) (mkSp 1 1 []) (mkSp 1 1 []) [0])
       (mkSO (mkSp 1 2 []) (mkSp 1 1 []) [0]).

Example C36_example :
  startAgrees (as_start (exDims 2)) 1 /\ triAgrees (exDims 2) 2 /\
  linkAgrees (as_link (exDims 2)) 1 /\ outerAgrees (exDims 2) 1 /\
  as_dim_tri (exDims 3) = Err PreViolation /\ arrowBlocks (exDims 3) = Err PreViolation /\
  (exists k, arrowBlocks (exDims 2) = Ok k).
Proof.
  split; [repeat split|]. split; [repeat split|]. split; [repeat split|].
  split; [repeat split|]. split; [reflexivity|]. split; [reflexivity|].
  eexists. vm_compute. reflexivity.
Qed.
