(** Model of ctldl/sparsity. *)
From Coq Require Import List Arith Lia Bool.
From Verif Require Import Base ModelPerm.
Import ListNotations.

(** ctldl/sparsity/entry.hpp:7-10, (row_index, col_index) *)
Notation entry := (nat * nat)%type (only parsing).

(** ctldl/sparsity/entry.hpp:12-17 *)
Definition entry_eqb (a b : entry) : bool :=
  (fst a =? fst b) && (snd a =? snd b).

(** SparsityStatic, SparsityDynamic, SparsityView and SparsityViewStructural
    (ctldl/sparsity/sparsity.hpp:45-210) only differ in their storage. *)
Record sparsity := mkSp { nrows : nat; ncols : nat; entries : list entry }.

(** ctldl/sparsity/sparsity.hpp:47,112,156,205 *)
Definition nnz (s : sparsity) : nat := length (entries s).

(** ctldl/sparsity/sparsity.hpp:28-41 *)
Definition inBounds (nr nc : nat) (e : entry) : bool :=
  (fst e <? nr) && (snd e <? nc).

(** ctldl/sparsity/sparsity.hpp:57-63, 114-125, 159-163, 187-197 *)
Definition mkSparsity (nr nc : nat) (es : list entry) : res sparsity :=
  let* _ := pre (forallb (inBounds nr nc) es) in
  Ok (mkSp nr nc es).

(** ctldl/sparsity/sparsity.hpp:97-100 and 134-137 *)
Definition emptySparsity (nr nc : nat) : sparsity := mkSp nr nc [].

(** ctldl/sparsity/is_square.hpp:7-9 *)
Definition isSquare (s : sparsity) : bool := nrows s =? ncols s.

(** ctldl/sparsity/is_lower_triangle.hpp:7-14 *)
Definition isLowerTriangle (s : sparsity) : bool :=
  forallb (fun e => negb (fst e <=? snd e)) (entries s).

(** ctldl/sparsity/get_entries_csr.hpp:16-22 *)
Definition getRowCounts (s : sparsity) : res (list nat) :=
  foldM (fun cnt e => let* c := rd cnt (fst e) in wr cnt (fst e) (c + 1))
        (entries s) (repeat 0 (nrows s)).

(** std::partial_sum *)
Fixpoint partial_sum (acc : nat) (l : list nat) : list nat :=
  match l with
  | [] => []
  | x :: l' => (acc + x) :: partial_sum (acc + x) l'
  end.

(** ctldl/sparsity/get_entries_csr.hpp:24-34; the precondition
    [size < SIZE_MAX] is part of the representability assumption *)
Definition getRowBeginIndices (counts : list nat) : list nat :=
  0 :: partial_sum 0 counts.

(** ctldl/sparsity/get_entries_csr.hpp:41-53 *)
Definition getEntriesCSR (s : sparsity) : res (list entry * list nat) :=
  let* counts := getRowCounts s in
  let rb := getRowBeginIndices counts in
  let* st :=
    foldM (fun (st : list entry * list nat) (e : entry) =>
             let (es, ins) := st in
             let* pos := rd ins (fst e) in
             let* es' := wr es pos e in
             let* ins' := wr ins (fst e) (pos + 1) in
             Ok (es', ins'))
          (entries s) (repeat (0, 0) (nnz s), rb) in
  Ok (fst st, rb).

(** SparsityStaticCSR, SparsityDynamicCSR, SparsityViewCSR
    (ctldl/sparsity/sparsity_csr.hpp:15-186) *)
Record csr := mkCsr { csp : sparsity; row_begin : list nat }.
Definition c_rows (c : csr) := nrows (csp c).
Definition c_cols (c : csr) := ncols (csp c).
Definition c_entries (c : csr) := entries (csp c).
Definition c_nnz (c : csr) := nnz (csp c).

(** ctldl/sparsity/sparsity_csr.hpp:20-35, 89-98, 188-200 *)
Definition toCSR (s : sparsity) : res csr :=
  let* er := getEntriesCSR s in
  let* s' := mkSparsity (nrows s) (ncols s) (fst er) in
  Ok (mkCsr s' (snd er)).

(** ctldl/sparsity/sparsity_csr.hpp:37-40, 111-114, 167-170: begin, end *)
Definition rowRange (c : csr) (i : nat) : res (nat * nat) :=
  let* b := rd (row_begin c) i in
  let* e := rd (row_begin c) (i + 1) in
  if (b <=? e) && (e <=? length (c_entries c)) then Ok (b, e) else Err UB.

Definition rowView (c : csr) (i : nat) : res (list entry) :=
  let* be := rowRange c i in
  Ok (firstn (snd be - fst be) (skipn (fst be) (c_entries c))).

Fixpoint find_col (j : nat) (row : list entry) : option nat :=
  match row with
  | [] => None
  | e :: row' =>
      if snd e =? j then Some 0
      else match find_col j row' with
           | Some k => Some (S k)
           | None => None
           end
  end.

(** ctldl/sparsity/sparsity_csr.hpp:42-50, 116-124, 172-180 *)
Definition isNonZero (c : csr) (i j : nat) : res bool :=
  let* row := rowView c i in
  Ok (match find_col j row with Some _ => true | None => false end).

(** ctldl/sparsity/sparsity_csr.hpp:52-55, 126-129, 182-185 *)
Definition entryIndex (c : csr) (i j : nat) : res nat :=
  let* nz := isNonZero c i j in
  let* _ := c_assert nz in
  let* be := rowRange c i in
  let* row := rowView c i in
  let* be0 := rowRange c 0 in
  match find_col j row with
  | Some k => subw (fst be + k) (fst be0)
  | None => Err CAssert
  end.

(** ctldl/sparsity/get_matrix_value_at.hpp:13-24 *)
Fixpoint findEntryIndex (es : list entry) (e : entry) : option nat :=
  match es with
  | [] => None
  | e' :: es' =>
      if entry_eqb e' e then Some 0
      else match findEntryIndex es' e with
           | Some k => Some (S k)
           | None => None
           end
  end.

(** ctldl/sparsity/sort_entries_row_major_sorted.hpp:11-14 *)
Definition entry_ltb (a b : entry) : bool :=
  (fst a <? fst b) || ((fst a =? fst b) && (snd a <? snd b)).

(** ctldl/sparsity/sort_entries_row_major_sorted.hpp:10-16; std::ranges::sort is
    insertion sort here: equivalent entries are equal, so every correct sorting
    algorithm returns the same list *)
Fixpoint insert_entry (x : entry) (l : list entry) : list entry :=
  match l with
  | [] => [x]
  | y :: l' => if entry_ltb y x then y :: insert_entry x l' else x :: l
  end.

Fixpoint sortEntriesRowMajorSorted (l : list entry) : list entry :=
  match l with
  | [] => []
  | x :: l' => insert_entry x (sortEntriesRowMajorSorted l')
  end.

(** ctldl/sparsity/sparsity_lower_triangle.hpp:14-21 *)
Definition getNnzLowerTriangle (s : sparsity) : res nat :=
  let* _ := pre (isSquare s) in
  Ok (fold_left (fun n e => n + (if snd e <? fst e then 1 else 0)) (entries s) 0).

(** ctldl/sparsity/sparsity_lower_triangle.hpp:23-39 *)
Definition getEntriesLowerTriangle (s : sparsity) (p : perm)
    : res (list entry) :=
  let* _ := pre (isSquare s) in
  let* inv := invertPermutation p in
  mapM (fun e => permutedEntryLowerTriangle e inv)
       (filter (fun e => snd e <? fst e) (entries s)).

(** ctldl/sparsity/sparsity_lower_triangle.hpp:41-46 *)
Definition getSparsityDynamicLowerTriangle (s : sparsity) (p : perm)
    : res sparsity :=
  let* _ := pre (isSquare s) in
  let* es := getEntriesLowerTriangle s p in
  mkSparsity (nrows s) (ncols s) es.

(** ctldl/sparsity/sparsity_permuted.hpp:13-27 *)
Definition getEntriesPermuted (s : sparsity) (prow pcol : perm)
    : res (list entry) :=
  let* irow := invertPermutation prow in
  let* icol := invertPermutation pcol in
  mapM (fun e => permutedEntry e irow icol) (entries s).

(** ctldl/sparsity/sparsity_permuted.hpp:29-35 *)
Definition getSparsityDynamicPermuted (s : sparsity) (prow pcol : perm)
    : res sparsity :=
  let* es := getEntriesPermuted s prow pcol in
  mkSparsity (nrows s) (ncols s) es.

Definition value_or {A} (o : option A) (d : A) : A :=
  match o with Some a => a | None => d end.

(** ctldl/sparsity/is_sparsity_subset.hpp:34-49, one row: mark the columns of
    the right hand side, test those of the left hand side, unmark *)
Fixpoint subset_rows (lhs rhs : csr) (rows : list nat) (marker : list bool)
    : res bool :=
  match rows with
  | [] => Ok true
  | r :: rows' =>
      let* row_rhs := rowView rhs r in
      let* marker1 := foldM (fun m e => wr m (snd e) true) row_rhs marker in
      let* row_lhs := rowView lhs r in
      let* ok := forallM (fun e => rd marker1 (snd e)) row_lhs in
      if ok then
        let* marker2 := foldM (fun m e => wr m (snd e) false) row_rhs marker1 in
        subset_rows lhs rhs rows' marker2
      else Ok false
  end.

(** ctldl/sparsity/is_sparsity_subset.hpp:15-52 *)
Definition isSparsitySubset (lhs_in rhs_in : sparsity)
    (prow pcol : option perm) : res bool :=
  let* _ := pre (nrows lhs_in =? nrows rhs_in) in
  let* _ := pre (ncols lhs_in =? ncols rhs_in) in
  let* lhs_p :=
    getSparsityDynamicPermuted lhs_in
      (value_or prow (iota_perm (nrows lhs_in)))
      (value_or pcol (iota_perm (ncols lhs_in))) in
  let* lhs := toCSR lhs_p in
  let* rhs_s := mkSparsity (nrows rhs_in) (ncols rhs_in) (entries rhs_in) in
  let* rhs := toCSR rhs_s in
  subset_rows lhs rhs (seq 0 (c_rows lhs)) (repeat false (c_cols lhs)).

(** ctldl/sparsity/is_sparsity_subset.hpp:54-59 *)
Definition isSparsitySubsetLowerTriangle (lhs rhs : sparsity) (p : perm)
    : res bool :=
  let* l := getSparsityDynamicLowerTriangle lhs p in
  isSparsitySubset l rhs None None.

(** ctldl/sparsity/is_sparsity_equal.hpp:8-12 *)
Definition isSparsityEqual (lhs rhs : sparsity) : res bool :=
  let* b := isSparsitySubset lhs rhs None None in
  if b then isSparsitySubset rhs lhs None None else Ok false.

(** ctldl/sparsity/get_contributions.hpp:10-14:
    (entry_index_ik, entry_index_jk, k) *)
Definition contribution := (nat * nat * nat)%type.

(** ctldl/sparsity/get_contributions.hpp:28-41. Each step advances at least one
    of the two indices, so the number of steps is bounded by the row lengths. *)
Fixpoint contrib_loop (fuel : nat) (sp below : csr) (limit : nat)
    (ik end_i jk end_j : nat) : res (list contribution) :=
  match fuel with
  | 0 => Err Fuel
  | S fuel' =>
      if negb (ik =? end_i) && negb (jk =? end_j) then
        let* ei := rd (c_entries below) ik in
        let* ej := rd (c_entries sp) jk in
        let ci := snd ei in
        let cj := snd ej in
        if (limit <=? ci) || (limit <=? cj) then Ok []
        else
          let* rest :=
            contrib_loop fuel' sp below limit
              (ik + (if ci <=? cj then 1 else 0)) end_i
              (jk + (if cj <=? ci then 1 else 0)) end_j in
          Ok (if ci =? cj then (ik, jk, ci) :: rest else rest)
      else Ok []
  end.

(** ctldl/sparsity/get_contributions.hpp:16-58 *)
Definition getContributionsMixedLimit (sp below : csr) (i j limit : nat)
    : res (list contribution) :=
  let* bi := rd (row_begin below) i in
  let* ei := rd (row_begin below) (i + 1) in
  let* bj := rd (row_begin sp) j in
  let* ej := rd (row_begin sp) (j + 1) in
  contrib_loop (S ((ei - bi) + (ej - bj))) sp below limit bi ei bj ej.

(** ctldl/sparsity/get_contributions.hpp:60-66 *)
Definition getContributionsMixed (sp below : csr) (i j : nat)
    : res (list contribution) :=
  getContributionsMixedLimit sp below i j (Nat.min (c_cols sp) (c_cols below)).

(** ctldl/sparsity/get_contributions.hpp:68-72 *)
Definition getContributionsLowerTriangle (sp : csr) (i j : nat)
    : res (list contribution) :=
  getContributionsMixedLimit sp sp i j j.

(** ctldl/sparsity/get_contributions.hpp:74-78 *)
Definition getContributionsRectangular (sp : csr) (i j : nat)
    : res (list contribution) :=
  getContributionsMixed sp sp i j.

(** ctldl/sparsity/get_influenced.hpp:10-13:
    (entry_index_source, entry_index_target) *)
Definition influenced := (nat * nat)%type.

(** ctldl/sparsity/get_influenced.hpp:39-51 *)
Definition getInfluencedListLimit (i j : nat) (source target : csr)
    (limit : nat) : res (list influenced) :=
  foldM (fun acc k =>
           let* nz := isNonZero source k j in
           if nz then
             let* s := entryIndex source k j in
             let* t := entryIndex target i k in
             Ok (acc ++ [(s, t)])
           else Ok acc)
        (seq 0 limit) [].

(** ctldl/sparsity/get_influenced.hpp:53-58 *)
Definition getInfluencedList (i j : nat) (source target : csr)
    : res (list influenced) :=
  getInfluencedListLimit i j source target (c_cols target).

(** ctldl/sparsity/get_influenced.hpp:64-69 *)
Definition getInfluencedListLowerTriangle (i j : nat) (source target : csr)
    : res (list influenced) :=
  getInfluencedListLimit i j source target i.

(** ctldl/sparsity/bool_matrix.hpp:20-33, the matrix is its list of rows;
    std::accumulate / std::ranges::count *)
Definition bool_matrix := list (list bool).

Definition boolNnz (m : bool_matrix) : nat :=
  fold_left (fun carry row => carry + count_occ bool_dec row true) m 0.

(** ctldl/sparsity/bool_matrix.hpp:35-54 *)
Definition makeSparseEntriesFromBoolMatrix (num_rows num_cols : nat)
    (m : bool_matrix) : res (list entry) :=
  let n := boolNnz m in
  let* st :=
    foldM (fun (st : list entry * nat) i =>
             foldM (fun (st : list entry * nat) j =>
                      let* row := rd m i in
                      let* b := rd row j in
                      if b then
                        let* es := wr (fst st) (snd st) (i, j) in
                        Ok (es, snd st + 1)
                      else Ok st)
                   (seq 0 num_cols) st)
          (seq 0 num_rows) (repeat (0, 0) n, 0) in
  let* _ := c_assert (snd st =? n) in
  Ok (fst st).
