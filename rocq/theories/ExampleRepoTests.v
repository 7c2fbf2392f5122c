(** The unit tests of the repository, run on the model.
    The expected values are copied from the test files. *)
From Coq Require Import List Arith Bool.
From Verif Require Import Base ModelPerm ModelSparsity ModelSymbolic ModelNumeric ModelArrow.
Import ListNotations.

(** ctldl/symbolic/compute_elimination_tree_blocked.hpp:59-67 *)
Definition computeEliminationTreeBlocked (sp11 sp21 sp22 : csr) : res tree :=
  let* e31 := toCSR (emptySparsity 0 (c_cols sp11)) in
  let* e32 := toCSR (emptySparsity 0 (c_cols sp22)) in
  let* e33 := toCSR (emptySparsity 0 0) in
  computeEliminationTreeBlocked3x3 sp11 sp21 sp22 e31 e32 e33.

(** makeSparsityStaticCSR<num_rows, num_cols>(entries) *)
Definition makeCSR (num_rows num_cols : nat) (es : list entry) : res csr :=
  let* s := mkSparsity num_rows num_cols es in toCSR s.

(** An EliminationTree(dim) with the given assignments to [parent] *)
Definition treeOf (dim : nat) (parents : list (nat * nat)) : tree :=
  fold_left (fun t ij => upd t (fst ij) (Some (snd ij))) parents (emptyTree dim).

(** ctldl/symbolic/compute_elimination_tree_blocked.test.cpp:11-31 *)
Example ComputeEliminationTreeBlockedNos2Test :
  (let* sparsity11 := makeCSR 3 3 [] in
   let* sparsity21 := makeCSR 3 3 [(0, 0); (1, 1); (1, 2); (2, 1); (2, 2)] in
   let* sparsity22 := makeCSR 3 3 [] in
   computeEliminationTreeBlocked sparsity11 sparsity21 sparsity22) =
  Ok (treeOf 6 [(0, 3); (1, 4); (2, 4); (4, 5)]).
Proof. vm_compute. reflexivity. Qed.

(** ctldl/symbolic/compute_elimination_tree_repeating.test.cpp:12-34 *)
Example ComputeEliminationTreeRepeatingExample0 :
  (let* sparsity_A := makeCSR 5 5 [(3, 2)] in
   let* sparsity_B := makeCSR 5 5 [(0, 3); (2, 0); (2, 1); (2, 4); (4, 4)] in
   computeEliminationTreeRepeating sparsity_A sparsity_B) =
  Ok (treeOf (2 * 5)
        [(0, 2); (1, 2 + 5); (2, 3); (3, 4); (4, 0 + 5);
         (0 + 5, 2 + 5); (2 + 5, 3 + 5); (3 + 5, 4 + 5)]).
Proof. vm_compute. reflexivity. Qed.

(** ctldl/symbolic/compute_elimination_tree_repeating.test.cpp:36-58 *)
Example ComputeEliminationTreeRepeatingExample1 :
  (let* sparsity_A := makeCSR 7 7 [(1, 0); (2, 0); (2, 1)] in
   let* sparsity_B := makeCSR 7 7 [(0, 5); (0, 6); (1, 3); (1, 4); (1, 5); (2, 4); (2, 6)] in
   computeEliminationTreeRepeating sparsity_A sparsity_B) =
  Ok (treeOf (2 * 7)
        [(0, 1); (1, 2); (3, 1 + 7); (4, 1 + 7); (0 + 5, 0 + 7);
         (1 + 5, 0 + 7); (2 + 5, 1 + 7); (3 + 5, 2 + 7)]).
Proof. vm_compute. reflexivity. Qed.

(** CTLDL_TEST_SPARSITY_EQUAL *)
Definition equalTo (lhs : sparsity) (num_rows num_cols : nat) (es : list entry) : res bool :=
  let* rhs := mkSparsity num_rows num_cols es in isSparsityEqual lhs rhs.

(** ctldl/symbolic/filled_in_sparsity_blocked.test.cpp:14-20 *)
Example FilledInSparsityBlockedEmptyTest :
  (let empty := emptySparsity 1 1 in
   let* filled := getFilledInSparsityBlocked empty empty empty in
   mapM (fun s => equalTo s 1 1 []) [b2_11 filled; b2_21 filled; b2_22 filled]) =
  Ok [true; true; true].
Proof. vm_compute. reflexivity. Qed.

(** ctldl/symbolic/filled_in_sparsity_blocked.test.cpp:22-37 *)
Example FilledInSparsityBlockedNos2Test :
  (let sparsity11 := emptySparsity 3 3 in
   let es21 := [(0, 0); (1, 1); (1, 2); (2, 1); (2, 2)] in
   let* sparsity21 := mkSparsity 3 3 es21 in
   let* filled := getFilledInSparsityBlocked sparsity11 sparsity21 sparsity11 in
   let* e11 := equalTo (b2_11 filled) 3 3 [] in
   let* e21 := equalTo (b2_21 filled) 3 3 es21 in
   let* e22 := equalTo (b2_22 filled) 3 3 [(2, 1)] in
   Ok (e11, e21, e22)) = Ok (true, true, true).
Proof. vm_compute. reflexivity. Qed.

(** The outer block of the filled-in arrowhead for one outer row *)
Definition outerOk (dim : nat) (A B C expected : list entry) : res bool :=
  let* sparsity_A := mkSparsity dim dim A in
  let* sparsity_B := mkSparsity dim dim B in
  let* sparsity_C := mkSparsity 1 dim C in
  let* filled := getFilledInSparsityRepeatingArrowhead sparsity_A sparsity_B sparsity_C
                   (iota_perm dim) (iota_perm 1) in
  equalTo (ra_outer filled) 1 dim expected.

(** ctldl/symbolic/filled_in_sparsity_repeating_arrowhead.test.cpp:14-20 *)
Example FilledInSparsityRepeatingArrowheadEmptyTest :
  outerOk 1 [] [] [] [] = Ok true.
Proof. vm_compute. reflexivity. Qed.

(** ctldl/symbolic/filled_in_sparsity_repeating_arrowhead.test.cpp:22-35 *)
Example FilledInSparsityRepeatingArrowheadFromDiagonalTest :
  outerOk 3 [(1, 0); (2, 1)] [] [(0, 0)] [(0, 0); (0, 1); (0, 2)] = Ok true.
Proof. vm_compute. reflexivity. Qed.

(** ctldl/symbolic/filled_in_sparsity_repeating_arrowhead.test.cpp:37-50 *)
Example FilledInSparsityRepeatingArrowheadFromBothTest :
  outerOk 3 [(2, 1)] [(1, 0)] [(0, 0)] [(0, 0); (0, 1); (0, 2)] = Ok true.
Proof. vm_compute. reflexivity. Qed.

(** ctldl/symbolic/filled_in_sparsity_repeating_arrowhead.test.cpp:52-66 *)
Example FilledInSparsityRepeatingArrowheadBackwardsTest :
  outerOk 4 [] [(0, 1); (1, 2); (2, 3)] [(0, 3)] [(0, 0); (0, 1); (0, 2); (0, 3)] = Ok true.
Proof. vm_compute. reflexivity. Qed.

(** A start block of dimension 4 and a repeated block of dimension 7 with
    nothing else; the sparsity of FactorTridiagDiag and FactorTridiagSubdiag *)
Definition splineOk (start_next tri_diag tri_subdiag diag_correct subdiag_correct : list entry)
    (p_tri : perm) : res (bool * bool) :=
  let* next := mkSparsity 7 4 start_next in
  let* diag := mkSparsity 7 7 tri_diag in
  let* subdiag := mkSparsity 7 7 tri_subdiag in
  let s := mkAS
    (mkSS (emptySparsity 4 4) next (emptySparsity 0 4) (iota_perm 4))
    (mkST diag subdiag p_tri)
    (mkSL (emptySparsity 0 7) (emptySparsity 0 0) (emptySparsity 0 0) (iota_perm 0))
    (mkSO (emptySparsity 0 7) (emptySparsity 0 0) (iota_perm 0)) in
  let* k := arrowBlocks s in
  let* d := equalTo (csp (b_sp (k_td k))) 7 7 diag_correct in
  let* e := equalTo (csp (b_sp (k_ts k))) 7 7 subdiag_correct in
  Ok (d, e).

Definition spline_diag : list entry :=
  [(3, 0); (3, 2); (4, 2); (4, 3); (5, 1); (5, 3); (5, 4); (6, 4); (6, 5)].
Definition spline_subdiag : list entry :=
  [(3, 0);         (3, 2); (3, 3); (3, 4); (3, 5); (3, 6);
                   (4, 2); (4, 3); (4, 4); (4, 5); (4, 6);
           (5, 1);                         (5, 5); (5, 6)].

(** ctldl/factor_data/factorization_repeating_block_tridiagonal_arrowhead_linked.test.cpp:17-58 *)
Example FactorSparsity_SplinePrepermuted :
  splineOk
    [(3, 0); (3, 1); (4, 1); (4, 3); (5, 2); (5, 3)]
    [(3, 0); (3, 2); (4, 2); (5, 1); (6, 4); (6, 5)]
    [(3, 0); (3, 2); (4, 2); (4, 6); (5, 1); (5, 6)]
    spline_diag spline_subdiag (iota_perm 7) = Ok (true, true).
Proof. vm_compute. reflexivity. Qed.

(** ctldl/factor_data/factorization_repeating_block_tridiagonal_arrowhead_linked.test.cpp:60-108 *)
Example FactorSparsity_Spline :
  splineOk
    [(0, 0); (0, 1); (1, 1); (1, 3); (2, 2); (2, 3)]
    [(3, 0); (4, 0); (4, 1); (5, 2); (6, 1); (6, 2)]
    [(0, 3); (0, 4); (1, 4); (1, 6); (2, 5); (2, 6)]
    spline_diag spline_subdiag [3; 5; 4; 0; 1; 2; 6] = Ok (true, true).
Proof. vm_compute. reflexivity. Qed.
