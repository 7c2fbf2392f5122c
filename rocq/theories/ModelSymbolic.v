(** Model of ctldl/symbolic. *)
From Coq Require Import List Arith Lia Bool.
From Verif Require Import Base ModelPerm ModelSparsity.
Import ListNotations.

(** ctldl/symbolic/elimination_tree.hpp:12-27; the sentinel no_parent
    (SIZE_MAX) is [None] *)
Definition tree := list (option nat).

Definition emptyTree (dim : nat) : tree := repeat None dim.

Definition option_nat_eqb (a b : option nat) : bool :=
  match a, b with
  | Some x, Some y => x =? y
  | None, None => true
  | _, _ => false
  end.

(** ctldl/symbolic/elimination_tree.hpp:29-32 *)
Definition tree_eqb : tree -> tree -> bool := list_eqb option_nat_eqb.

(** ctldl/symbolic/elimination_tree.hpp:21-24 *)
Definition getParent (t : tree) (node : nat) : res nat :=
  let* p := rd t node in
  match p with
  | Some q => Ok q
  | None => Err CAssert
  end.

(** ctldl/symbolic/add_row_elimination_tree.hpp:23-30, the while loop. Every
    iteration either moves to a greater node or is followed by the exit test,
    so [length anc + 2] steps are enough (proved, not assumed). *)
Fixpoint climb (fuel : nat) (i j : nat) (st : tree * list nat)
    : res (tree * list nat) :=
  match fuel with
  | 0 => Err Fuel
  | S fuel' =>
      let (t, anc) := st in
      let* a := rd anc j in
      if a <? i then
        let* p := rd t j in
        let* t' := match p with
                   | None => wr t j (Some i)
                   | Some _ => Ok t
                   end in
        let* anc' := wr anc j i in
        climb fuel' i a (t', anc')
      else Ok (t, anc)
  end.

(** ctldl/symbolic/add_row_elimination_tree.hpp:12-32 *)
Definition addRowEliminationTree (sp : csr) (row_index : nat)
    (row_offset col_offset : nat) (st : tree * list nat)
    : res (tree * list nat) :=
  let* _ := pre (c_rows sp <=? length (fst st)) in
  let i := row_index + row_offset in
  let* row := rowView sp row_index in
  foldM (fun st e =>
           climb (length (snd st) + 2) i (snd e + col_offset) st)
        row st.

(** ctldl/symbolic/compute_elimination_tree.hpp:15-26 *)
Definition computeEliminationTree (sp : csr) : res tree :=
  let* _ := pre (isSquare (csp sp)) in
  let dim := c_rows sp in
  let* st := foldM (fun st i => addRowEliminationTree sp i 0 0 st)
                   (seq 0 dim) (emptyTree dim, seq 0 dim) in
  Ok (fst st).

(** ctldl/symbolic/compute_elimination_tree_blocked.hpp:16-57 *)
Definition computeEliminationTreeBlocked3x3
    (sp11 sp21 sp22 sp31 sp32 sp33 : csr) : res tree :=
  let* _ := pre (isSquare (csp sp11)) in
  let* _ := pre (isSquare (csp sp22)) in
  let* _ := pre (isSquare (csp sp33)) in
  let* _ := pre (c_cols sp21 =? c_cols sp11) in
  let* _ := pre (c_rows sp21 =? c_rows sp22) in
  let* _ := pre (c_cols sp31 =? c_cols sp11) in
  let* _ := pre (c_cols sp32 =? c_cols sp22) in
  let* _ := pre (c_rows sp31 =? c_rows sp33) in
  let* _ := pre (c_rows sp32 =? c_rows sp33) in
  let num_rows := c_rows sp11 + c_rows sp22 + c_rows sp33 in
  let* st := foldM (fun st i => addRowEliminationTree sp11 i 0 0 st)
                   (seq 0 (c_rows sp11)) (emptyTree num_rows, seq 0 num_rows) in
  let* st :=
    foldM (fun st i =>
             let row_offset := c_rows sp11 in
             let col_offset := c_cols sp21 in
             let* st := addRowEliminationTree sp21 i row_offset 0 st in
             addRowEliminationTree sp22 i row_offset col_offset st)
          (seq 0 (c_rows sp21)) st in
  let* st :=
    foldM (fun st i =>
             let row_offset := c_rows sp11 + c_rows sp22 in
             let col_offset2 := c_cols sp11 in
             let col_offset3 := c_cols sp11 + c_cols sp22 in
             let* st := addRowEliminationTree sp31 i row_offset 0 st in
             let* st := addRowEliminationTree sp32 i row_offset col_offset2 st in
             addRowEliminationTree sp33 i row_offset col_offset3 st)
          (seq 0 (c_rows sp31)) st in
  Ok (fst st).

(** ctldl/symbolic/elimination_tree_subtree.hpp:12-24 *)
Definition subtreeBack (t : tree) (dim_subtree : nat) : res tree :=
  let* _ := pre (dim_subtree <=? length t) in
  let dim := length t in
  mapM (fun node =>
          match node with
          | None => Ok None
          | Some q =>
              let* d := subw dim dim_subtree in
              let* q' := subw q d in
              Ok (Some q')
          end)
       (skipn (dim - dim_subtree) t).

(** ctldl/symbolic/elimination_tree_subtree.hpp:26-30 *)
Definition clearSubtreeBack (t : tree) (dim_subtree : nat) : res tree :=
  if dim_subtree <=? length t then
    Ok (firstn (length t - dim_subtree) t ++ repeat None dim_subtree)
  else Err UB.

(** ctldl/symbolic/elimination_tree_subtree.hpp:32-36 *)
Definition setSubtreeFront (t subtree : tree) : res tree :=
  let* _ := pre (length subtree <=? length t) in
  Ok (subtree ++ skipn (length subtree) t).

(** ctldl/symbolic/compute_elimination_tree_repeating.hpp:34-40 *)
Definition repeatingPass (A B : csr) (dim : nat) (st : tree * list nat)
    : res (tree * list nat) :=
  foldM (fun st i =>
           let* st := addRowEliminationTree B i dim 0 st in
           addRowEliminationTree A i dim dim st)
        (seq 0 dim) st.

(** ctldl/symbolic/compute_elimination_tree_repeating.hpp:32-55, the
    while(true) loop. *)
Fixpoint repeatingLoop (fuel : nat) (A B : csr) (dim : nat)
    (t tree_init : tree) (anc : list nat) : res tree :=
  match fuel with
  | 0 => Err Fuel
  | S fuel' =>
      let tree_init_previous := tree_init in
      let* st := repeatingPass A B dim (t, anc) in
      let (t, anc) := (st : tree * list nat) in
      let* tree_init := subtreeBack t dim in
      if tree_eqb tree_init tree_init_previous then Ok t
      else
        let* t := setSubtreeFront t tree_init in
        let* t := clearSubtreeBack t dim in
        let* front := mapM (fun a => subw a dim) (skipn dim anc) in
        let anc := front ++ seq dim dim in
        repeatingLoop fuel' A B dim t tree_init anc
  end.

(** ctldl/symbolic/compute_elimination_tree_repeating.hpp:19-58 *)
Definition computeEliminationTreeRepeating (A B : csr) : res tree :=
  let* _ := pre (isSquare (csp A)) in
  let* _ := pre (isSquare (csp B)) in
  let* _ := pre (c_rows A =? c_rows B) in
  let dim := c_rows A in
  repeatingLoop (dim * dim + 2) A B dim
    (emptyTree (2 * dim)) (emptyTree dim) (seq 0 (2 * dim)).

(** ctldl/symbolic/foreach_ancestor_in_subtree.hpp:22-26, the while loop. The
    calls f(i, j) are recorded as a list in call order, here as everywhere where
    the C++ code takes a callback. Each iteration marks a new node in the
    visitor, so [length visitor + 1] steps are enough (proved). *)
Fixpoint walk (fuel : nat) (get_parent : nat -> res nat) (i j : nat)
    (st : list nat * list entry) : res (list nat * list entry) :=
  match fuel with
  | 0 => Err Fuel
  | S fuel' =>
      let (visitor, calls) := st in
      let* v := rd visitor j in
      if v =? i then Ok (visitor, calls)
      else
        let* visitor' := wr visitor j i in
        let* j' := get_parent j in
        walk fuel' get_parent i j' (visitor', calls ++ [(i, j)])
  end.

(** ctldl/symbolic/foreach_ancestor_in_subtree.hpp:13-28 *)
Definition foreachAncestorInSubtreeImpl (sp : csr)
    (get_parent : nat -> res nat) (row_index row_offset col_offset : nat)
    (st : list nat * list entry) : res (list nat * list entry) :=
  let i := row_index + row_offset in
  let* row := rowView sp row_index in
  foldM (fun st e =>
           walk (length (fst st) + 1) get_parent i (snd e + col_offset) st)
        row st.

(** ctldl/symbolic/foreach_ancestor_in_subtree.hpp:30-43 *)
Definition foreachAncestorInSubtree (sp : csr) (t : tree)
    (row_index row_offset col_offset : nat)
    (st : list nat * list entry) : res (list nat * list entry) :=
  foreachAncestorInSubtreeImpl sp (getParent t) row_index row_offset
    col_offset st.

(** ctldl/symbolic/foreach_nonzero_with_fill.hpp:15-27 *)
Definition foreachNonZeroWithFill (sp : csr) : res (list entry) :=
  let* _ := pre (isSquare (csp sp)) in
  let dim := c_rows sp in
  let* t := computeEliminationTree sp in
  let* st := foldM (fun st i => foreachAncestorInSubtree sp t i 0 0 st)
                   (seq 0 dim) (seq 0 dim, []) in
  Ok (snd st).

(** ctldl/symbolic/foreach_nonzero_with_fill_blocked.hpp:15-54 *)
Definition foreachNonZeroWithFillBlocked3x3
    (sp11 sp21 sp22 sp31 sp32 sp33 : csr) : res (list entry) :=
  let* _ := pre (isSquare (csp sp11)) in
  let* _ := pre (isSquare (csp sp22)) in
  let* _ := pre (c_cols sp21 =? c_cols sp11) in
  let* _ := pre (c_rows sp22 =? c_rows sp21) in
  let num_rows := c_rows sp11 + c_rows sp22 + c_rows sp33 in
  let* t := computeEliminationTreeBlocked3x3 sp11 sp21 sp22 sp31 sp32 sp33 in
  let* st := foldM (fun st i => foreachAncestorInSubtree sp11 t i 0 0 st)
                   (seq 0 (c_rows sp11)) (seq 0 num_rows, []) in
  let* st :=
    foldM (fun st i =>
             let row_offset := c_rows sp11 in
             let col_offset := c_cols sp21 in
             let* st := foreachAncestorInSubtree sp21 t i row_offset 0 st in
             foreachAncestorInSubtree sp22 t i row_offset col_offset st)
          (seq 0 (c_rows sp21)) st in
  let* st :=
    foldM (fun st i =>
             let row_offset := c_rows sp11 + c_rows sp22 in
             let col_offset2 := c_cols sp11 in
             let col_offset3 := c_cols sp11 + c_cols sp22 in
             let* st := foreachAncestorInSubtree sp31 t i row_offset 0 st in
             let* st := foreachAncestorInSubtree sp32 t i row_offset col_offset2 st in
             foreachAncestorInSubtree sp33 t i row_offset col_offset3 st)
          (seq 0 (c_rows sp31)) st in
  Ok (snd st).

(** ctldl/symbolic/foreach_nonzero_with_fill_repeating_arrowhead.hpp:24-39;
    [% dim] of a node with [dim = 0] would divide by zero *)
Definition outerParent (t : tree) (dim : nat) (j : nat) : res nat :=
  let* p := rd t j in
  match p with
  | None => Ok j
  | Some q => if dim =? 0 then Err UB else Ok (q mod dim)
  end.

(** ctldl/symbolic/foreach_nonzero_with_fill_repeating_arrowhead.hpp:17-42 *)
Definition foreachAncestorInSubtreeRepeatingOuter (sp : csr) (t : tree)
    (row_index row_offset col_offset : nat)
    (st : list nat * list entry) : res (list nat * list entry) :=
  let dim := length (fst st) in
  foreachAncestorInSubtreeImpl sp (outerParent t dim) row_index row_offset
    col_offset st.

(** ctldl/symbolic/foreach_nonzero_with_fill_repeating_arrowhead.hpp:44-74 *)
Definition foreachNonZeroWithFillRepeatingArrowhead
    (sp_diag sp_subdiag sp_outer : csr) : res (list entry) :=
  let* _ := pre (isSquare (csp sp_diag)) in
  let* _ := pre (isSquare (csp sp_subdiag)) in
  let* _ := pre (c_rows sp_subdiag =? c_rows sp_diag) in
  let* _ := pre (c_cols sp_outer =? c_cols sp_diag) in
  let dim := c_rows sp_diag in
  let dim_outer := c_rows sp_outer in
  let* t := computeEliminationTreeRepeating sp_diag sp_subdiag in
  let* st :=
    foldM (fun st i =>
             let row_offset := dim in
             let col_offset := dim in
             let* st := foreachAncestorInSubtree sp_subdiag t i row_offset 0 st in
             foreachAncestorInSubtree sp_diag t i row_offset col_offset st)
          (seq 0 dim) (seq 0 (2 * dim), []) in
  let* st :=
    foldM (fun st i =>
             let row_offset := 2 * dim in
             foreachAncestorInSubtreeRepeatingOuter sp_outer t i row_offset 0 st)
          (seq 0 dim_outer) (seq 0 dim, snd st) in
  Ok (snd st).

(** ctldl/symbolic/get_entries_with_fill.hpp:13-22 *)
Definition getEntriesWithFill (sp : csr) : res (list entry) :=
  let* es := foreachNonZeroWithFill sp in
  Ok (sortEntriesRowMajorSorted es).

(** ctldl/symbolic/filled_in_sparsity.hpp:14-23 *)
Definition getFilledInSparsity (s : sparsity) (p : perm) : res sparsity :=
  let* _ := pre (isSquare s) in
  let* _ := pre (length p =? nrows s) in
  let dim := nrows s in
  let* low := getSparsityDynamicLowerTriangle s p in
  let* c := toCSR low in
  let* es := getEntriesWithFill c in
  mkSparsity dim dim es.

(** ctldl/symbolic/lower_triangle_blocked.hpp:7-15 *)
Record blocked3x3 (T : Type) := mkB3 {
  block11 : T; block21 : T; block22 : T;
  block31 : T; block32 : T; block33 : T }.
Arguments mkB3 {T}.
Arguments block11 {T}. Arguments block21 {T}. Arguments block22 {T}.
Arguments block31 {T}. Arguments block32 {T}. Arguments block33 {T}.

(** ctldl/symbolic/filled_in_sparsity_blocked.hpp:49-73, add_nonzero;
    n1, n2 stand for the numbers of rows, m1, m2 for the numbers of columns *)
Definition addNonzero3x3 (n1 n2 m1 m2 : nat)
    (b : blocked3x3 (list entry)) (e : entry) : res (blocked3x3 (list entry)) :=
  let (i, j) := (e : nat * nat) in
  if j <? m1 then
    if i <? n1 then
      Ok (mkB3 (block11 b ++ [(i, j)]) (block21 b) (block22 b)
               (block31 b) (block32 b) (block33 b))
    else if i <? n1 + n2 then
      let* i' := subw i n1 in
      Ok (mkB3 (block11 b) (block21 b ++ [(i', j)]) (block22 b)
               (block31 b) (block32 b) (block33 b))
    else
      let* i' := subw i n1 in
      let* i'' := subw i' n2 in
      Ok (mkB3 (block11 b) (block21 b) (block22 b)
               (block31 b ++ [(i'', j)]) (block32 b) (block33 b))
  else if j <? m1 + m2 then
    if i <? n1 + n2 then
      let* i' := subw i n1 in
      let* j' := subw j m1 in
      Ok (mkB3 (block11 b) (block21 b) (block22 b ++ [(i', j')])
               (block31 b) (block32 b) (block33 b))
    else
      let* i' := subw i n1 in
      let* i'' := subw i' n2 in
      let* j' := subw j m1 in
      Ok (mkB3 (block11 b) (block21 b) (block22 b)
               (block31 b) (block32 b ++ [(i'', j')]) (block33 b))
  else
    let* i' := subw i n1 in
    let* i'' := subw i' n2 in
    let* j' := subw j m1 in
    let* j'' := subw j' m2 in
    Ok (mkB3 (block11 b) (block21 b) (block22 b)
             (block31 b) (block32 b) (block33 b ++ [(i'', j'')])).

(** ctldl/symbolic/filled_in_sparsity_blocked.hpp:19-93 *)
Definition getFilledInSparsityBlocked3x3
    (sp11_in sp21_in sp22_in sp31_in sp32_in sp33_in : sparsity)
    (p1 p2 p3 : perm) : res (blocked3x3 sparsity) :=
  let* _ := pre (isSquare sp11_in) in
  let* _ := pre (isSquare sp22_in) in
  let* _ := pre (ncols sp21_in =? ncols sp11_in) in
  let* _ := pre (nrows sp22_in =? nrows sp21_in) in
  let* s11 := getSparsityDynamicLowerTriangle sp11_in p1 in
  let* sp11 := toCSR s11 in
  let* s21 := getSparsityDynamicPermuted sp21_in p2 p1 in
  let* sp21 := toCSR s21 in
  let* s22 := getSparsityDynamicLowerTriangle sp22_in p2 in
  let* sp22 := toCSR s22 in
  let* s31 := getSparsityDynamicPermuted sp31_in p3 p1 in
  let* sp31 := toCSR s31 in
  let* s32 := getSparsityDynamicPermuted sp32_in p3 p2 in
  let* sp32 := toCSR s32 in
  let* s33 := getSparsityDynamicLowerTriangle sp33_in p3 in
  let* sp33 := toCSR s33 in
  let* calls := foreachNonZeroWithFillBlocked3x3 sp11 sp21 sp22 sp31 sp32 sp33 in
  let* b := foldM (addNonzero3x3 (c_rows sp11) (c_rows sp22)
                                 (c_cols sp11) (c_cols sp22))
                  calls (mkB3 [] [] [] [] [] []) in
  let* b11 := mkSparsity (c_rows sp11) (c_cols sp11)
                (sortEntriesRowMajorSorted (block11 b)) in
  let* b21 := mkSparsity (c_rows sp21) (c_cols sp21)
                (sortEntriesRowMajorSorted (block21 b)) in
  let* b22 := mkSparsity (c_rows sp22) (c_cols sp22)
                (sortEntriesRowMajorSorted (block22 b)) in
  let* b31 := mkSparsity (c_rows sp31) (c_cols sp31)
                (sortEntriesRowMajorSorted (block31 b)) in
  let* b32 := mkSparsity (c_rows sp32) (c_cols sp32)
                (sortEntriesRowMajorSorted (block32 b)) in
  let* b33 := mkSparsity (c_rows sp33) (c_cols sp33)
                (sortEntriesRowMajorSorted (block33 b)) in
  Ok (mkB3 b11 b21 b22 b31 b32 b33).

(** ctldl/symbolic/lower_triangle_blocked.hpp:29-34 *)
Record blocked (T : Type) := mkB2 { b2_11 : T; b2_21 : T; b2_22 : T }.
Arguments mkB2 {T}.
Arguments b2_11 {T}. Arguments b2_21 {T}. Arguments b2_22 {T}.

(** ctldl/symbolic/filled_in_sparsity_blocked.hpp:95-111 *)
Definition getFilledInSparsityBlockedPerm (sp11 sp21 sp22 : sparsity)
    (p1 p2 : perm) : res (blocked sparsity) :=
  let* b := getFilledInSparsityBlocked3x3 sp11 sp21 sp22
              (emptySparsity 0 (ncols sp11)) (emptySparsity 0 (ncols sp22))
              (emptySparsity 0 0) p1 p2 (iota_perm 0) in
  Ok (mkB2 (block11 b) (block21 b) (block22 b)).

(** ctldl/symbolic/filled_in_sparsity_blocked.hpp:113-119 *)
Definition getFilledInSparsityBlocked (sp11 sp21 sp22 : sparsity)
    : res (blocked sparsity) :=
  getFilledInSparsityBlockedPerm sp11 sp21 sp22
    (iota_perm (nrows sp11)) (iota_perm (nrows sp22)).

(** ctldl/symbolic/is_chordal_blocked.hpp:12-27 *)
Definition isChordalBlocked (sp11 sp21 sp22 : sparsity) : res bool :=
  let* _ := pre (isSquare sp11) in
  let* _ := pre (isSquare sp22) in
  let* _ := pre (ncols sp21 =? ncols sp11) in
  let* _ := pre (nrows sp22 =? nrows sp21) in
  if negb (isLowerTriangle sp11) || negb (isLowerTriangle sp22) then Ok false
  else
    let* filled := getFilledInSparsityBlocked sp11 sp21 sp22 in
    Ok ((nnz (b2_11 filled) =? nnz sp11) &&
        (nnz (b2_21 filled) =? nnz sp21) &&
        (nnz (b2_22 filled) =? nnz sp22)).

(** ctldl/symbolic/repeating_block_tridiagonal_arrowhead.hpp:7-12 *)
Record rep_arrow (T : Type) := mkRA { ra_diag : T; ra_subdiag : T; ra_outer : T }.
Arguments mkRA {T}.
Arguments ra_diag {T}. Arguments ra_subdiag {T}. Arguments ra_outer {T}.

(** ctldl/symbolic/filled_in_sparsity_repeating_arrowhead.hpp:40-51 *)
Definition addNonzeroRepeating (dim : nat) (b : rep_arrow (list entry))
    (e : entry) : res (rep_arrow (list entry)) :=
  let (i, j) := (e : nat * nat) in
  if 2 * dim <=? i then
    let* i' := subw i (2 * dim) in
    let* j' := if dim =? 0 then Err UB else Ok (j mod dim) in
    Ok (mkRA (ra_diag b) (ra_subdiag b) (ra_outer b ++ [(i', j')]))
  else if dim <=? j then
    let* i' := subw i dim in
    let* j' := subw j dim in
    Ok (mkRA (ra_diag b ++ [(i', j')]) (ra_subdiag b) (ra_outer b))
  else
    let* i' := subw i dim in
    Ok (mkRA (ra_diag b) (ra_subdiag b ++ [(i', j)]) (ra_outer b)).

(** ctldl/symbolic/filled_in_sparsity_repeating_arrowhead.hpp:19-64 *)
Definition getFilledInSparsityRepeatingArrowhead
    (in_A in_B in_C : sparsity) (p p_C : perm) : res (rep_arrow sparsity) :=
  let* _ := pre (isSquare in_A) in
  let* _ := pre (isSquare in_B) in
  let* _ := pre (nrows in_B =? nrows in_A) in
  let* _ := pre (ncols in_C =? ncols in_A) in
  let dim := nrows in_A in
  let dim_outer := nrows in_C in
  let* sA := getSparsityDynamicLowerTriangle in_A p in
  let* A := toCSR sA in
  let* sB := getSparsityDynamicPermuted in_B p p in
  let* B := toCSR sB in
  let* sC := getSparsityDynamicPermuted in_C p_C p in
  let* C := toCSR sC in
  let* calls := foreachNonZeroWithFillRepeatingArrowhead A B C in
  let* b := foldM (addNonzeroRepeating dim) calls (mkRA [] [] []) in
  let* d := mkSparsity dim dim (sortEntriesRowMajorSorted (ra_diag b)) in
  let* s := mkSparsity dim dim (sortEntriesRowMajorSorted (ra_subdiag b)) in
  let* o := mkSparsity dim_outer dim (sortEntriesRowMajorSorted (ra_outer b)) in
  Ok (mkRA d s o).
