(** Model of ctldl/fileio. *)
From Coq Require Import List Arith Lia Bool String Ascii.
From Verif Require Import Base ModelPerm ModelSparsity ModelSymbolic ModelNumeric
  ModelArrow.
Import ListNotations.
Local Open Scope nat_scope.
Local Open Scope list_scope.

Section Mtx.
  Context {F : Type} (O : ops F).

  (** std::sscanf(line, " %zu %zu %zu") and std::sscanf(line, " %zu %zu %lf"):
      the libc number parser is not part of the project. [None] means that fewer
      than three conversions succeeded. *)
  Variable scan_header : string -> option (nat * nat * nat).
  Variable scan_entry : string -> option (nat * nat * F).

  (** ctldl/fileio/mtx_check.cpp:13-17 *)
  Definition mtxCheck (b : bool) : res unit := if b then Ok tt else Err MtxError.

  Definition scanned {A} (o : option A) : res A :=
    match o with Some a => Ok a | None => Err MtxError end.

  (** ctldl/fileio/mtx_foreach_entry.hpp: row_index, col_index, value *)
  Definition mtx_entry := (nat * nat * F)%type.

  Definition is_comment (line : string) : bool :=
    match line with
    | String c _ => Ascii.eqb c "%"
    | EmptyString => false
    end.

  (** ctldl/fileio/mtx_read_header.cpp:18-21. A file is the list of its lines as
      delivered by std::getline. Returns the line that ended the loop and the
      remaining lines. For an exhausted stream this is the empty string
      (std::getline clears it; if the last comment lacks its line end, the comment
      is left instead, which is no number either). *)
  Fixpoint skip_comments (lines : list string) : string * list string :=
    match lines with
    | [] => (EmptyString, [])
    | l :: rest => if is_comment l then skip_comments rest else (l, rest)
    end.

  (** ctldl/fileio/mtx_read_header.cpp:17-30: (num_rows, num_cols, nnz) and the
      remaining stream *)
  Definition mtxReadHeader (lines : list string)
      : res (nat * nat * nat * list string) :=
    let (line, rest) := skip_comments lines in
    let* h := scanned (scan_header line) in
    Ok (h, rest).

  (** ctldl/fileio/mtx_foreach_entry.cpp:14-41; [func] is the callback acting on
      a state *)
  Definition mtxForeachEntry {S} (lines : list string)
      (func : S -> mtx_entry -> res S) (s : S) : res S :=
    let* hr := mtxReadHeader lines in
    let '(num_rows, num_cols, n, rest) := hr in
    let* st :=
      foldM (fun (st : S * nat) line =>
               let* rcv := scanned (scan_entry line) in
               let '(r, c, v) := rcv in
               let* _ := mtxCheck (0 <? r) in
               let* _ := mtxCheck (0 <? c) in
               let* _ := mtxCheck (r <=? num_rows) in
               let* _ := mtxCheck (c <=? num_cols) in
               let* r := subw r 1 in
               let* c := subw c 1 in
               let* s := func (fst st) (r, c, v) in
               Ok (s, snd st + 1))
            rest (s, 0) in
    let* _ := mtxCheck (snd st =? n) in
    Ok (fst st).

  (** ctldl/fileio/mtx_file_read_...hpp:84-91, MtxInputMatrix: static sparsity
      (CSR) and values *)
  Record mtx_matrix := mkMM { mm_sp : csr; mm_values : list F }.

  Definition mtxInputMatrix (s : sparsity) : res mtx_matrix :=
    let* c := toCSR s in
    Ok (mkMM c (repeat (o0 O) (c_nnz c))).

  (** the matrix as input of factorize and multiply *)
  Definition mm_mat (m : mtx_matrix) : mat (F:=F) :=
    mkMat (csp (mm_sp m)) (fun k => rd (mm_values m) k).

  (** ctldl/fileio/mtx_file_read_...hpp:19-26 *)
  Definition mtxAddEntry (e : mtx_entry) (m : mtx_matrix) : res mtx_matrix :=
    let '(r, c, v) := e in
    let* nz := isNonZero (mm_sp m) r c in
    let* _ := mtxCheck nz in
    let* k := entryIndex (mm_sp m) r c in
    let* vs := wr (mm_values m) k v in
    Ok (mkMM (mm_sp m) vs).

  Record mtx_arrow := mkMA {
    ma_sd : mtx_matrix; ma_sn : mtx_matrix; ma_so : mtx_matrix;
    ma_td : list mtx_matrix; ma_ts : list mtx_matrix;
    ma_lp : mtx_matrix; ma_ld : mtx_matrix; ma_ln : mtx_matrix;
    ma_os : list mtx_matrix; ma_od : mtx_matrix }.

  Definition ma_mat (m : mtx_arrow) : arrow_mat (F:=F) :=
    mkAM (mm_mat (ma_sd m)) (mm_mat (ma_sn m)) (mm_mat (ma_so m))
         (map mm_mat (ma_td m)) (map mm_mat (ma_ts m))
         (mm_mat (ma_lp m)) (mm_mat (ma_ld m)) (mm_mat (ma_ln m))
         (map mm_mat (ma_os m)) (mm_mat (ma_od m)).

  (** ctldl/fileio/mtx_file_read_...hpp:28-37 *)
  Definition mtxAddEntryStart (dim : nat) (e : mtx_entry) (m : mtx_arrow)
      : res mtx_arrow :=
    let '(r, c, v) := e in
    if r <? dim then
      let* sd := mtxAddEntry (r, c, v) (ma_sd m) in
      Ok (mkMA sd (ma_sn m) (ma_so m) (ma_td m) (ma_ts m) (ma_lp m) (ma_ld m)
               (ma_ln m) (ma_os m) (ma_od m))
    else
      let* r' := subw r dim in
      let* sn := mtxAddEntry (r', c, v) (ma_sn m) in
      Ok (mkMA (ma_sd m) sn (ma_so m) (ma_td m) (ma_ts m) (ma_lp m) (ma_ld m)
               (ma_ln m) (ma_os m) (ma_od m)).

  (** division and remainder of unsigned numbers *)
  Definition divw (a b : nat) : res nat := if b =? 0 then Err UB else Ok (a / b).
  Definition modw (a b : nat) : res nat :=
    if b =? 0 then Err UB else Ok (a mod b).

  (** ctldl/fileio/mtx_file_read_...hpp:39-53 *)
  Definition mtxAddEntryTridiag (dim : nat) (e : mtx_entry) (m : mtx_arrow)
      : res mtx_arrow :=
    let '(r, c, v) := e in
    let* rep := divw c dim in
    let* rrep := divw r dim in
    let* rb := modw r dim in
    let* cb := modw c dim in
    if rrep =? rep then
      let* b := rd (ma_td m) rep in
      let* b := mtxAddEntry (rb, cb, v) b in
      let* td := wr (ma_td m) rep b in
      Ok (mkMA (ma_sd m) (ma_sn m) (ma_so m) td (ma_ts m) (ma_lp m) (ma_ld m)
               (ma_ln m) (ma_os m) (ma_od m))
    else
      let* b := rd (ma_ts m) rep in
      let* b := mtxAddEntry (rb, cb, v) b in
      let* ts := wr (ma_ts m) rep b in
      Ok (mkMA (ma_sd m) (ma_sn m) (ma_so m) (ma_td m) ts (ma_lp m) (ma_ld m)
               (ma_ln m) (ma_os m) (ma_od m)).

  (** ctldl/fileio/mtx_file_read_...hpp:55-63 *)
  Definition mtxAddEntryOuterSubdiag (dim_inner : nat) (e : mtx_entry)
      (m : mtx_arrow) : res mtx_arrow :=
    let '(r, c, v) := e in
    let* rep := divw c dim_inner in
    let* rb := modw r dim_inner in
    let* cb := modw c dim_inner in
    let* b := rd (ma_os m) rep in
    let* b := mtxAddEntry (rb, cb, v) b in
    let* os := wr (ma_os m) rep b in
    Ok (mkMA (ma_sd m) (ma_sn m) (ma_so m) (ma_td m) (ma_ts m) (ma_lp m)
             (ma_ld m) (ma_ln m) os (ma_od m)).

  (** ctldl/fileio/mtx_file_read_...hpp:65-82 *)
  Definition mtxAddEntryLink (dim_prev dim : nat) (e : mtx_entry)
      (m : mtx_arrow) : res mtx_arrow :=
    let '(r, c, v) := e in
    if c <? dim_prev then
      let* lp := mtxAddEntry (r, c, v) (ma_lp m) in
      Ok (mkMA (ma_sd m) (ma_sn m) (ma_so m) (ma_td m) (ma_ts m) lp (ma_ld m)
               (ma_ln m) (ma_os m) (ma_od m))
    else if dim <=? r then
      let* r' := subw r dim in
      let* c' := subw c dim_prev in
      let* ln := mtxAddEntry (r', c', v) (ma_ln m) in
      Ok (mkMA (ma_sd m) (ma_sn m) (ma_so m) (ma_td m) (ma_ts m) (ma_lp m)
               (ma_ld m) ln (ma_os m) (ma_od m))
    else
      let* c' := subw c dim_prev in
      let* ld := mtxAddEntry (r, c', v) (ma_ld m) in
      Ok (mkMA (ma_sd m) (ma_sn m) (ma_so m) (ma_td m) (ma_ts m) (ma_lp m)
               ld (ma_ln m) (ma_os m) (ma_od m)).

  (** ctldl/fileio/mtx_file_read_...hpp:134-179, the callback *)
  Definition mtxDispatch (dim_start dim_tri dim_link dim_prev tridiag_end
      outer_begin : nat) (m : mtx_arrow) (e : mtx_entry) : res mtx_arrow :=
    let '(r, c, v) := e in
    let tridiag_begin := dim_start in
    let* _ := mtxCheck (c <=? r) in
    if c <? tridiag_begin then
      if r <? outer_begin then mtxAddEntryStart dim_start (r, c, v) m
      else
        let* r' := subw r outer_begin in
        let* so := mtxAddEntry (r', c, v) (ma_so m) in
        Ok (mkMA (ma_sd m) (ma_sn m) so (ma_td m) (ma_ts m) (ma_lp m) (ma_ld m)
                 (ma_ln m) (ma_os m) (ma_od m))
    else if r <? tridiag_end then
      let* r' := subw r tridiag_begin in
      let* c' := subw c tridiag_begin in
      mtxAddEntryTridiag dim_tri (r', c', v) m
    else if (outer_begin <=? r) && (outer_begin <=? c) then
      let* r' := subw r outer_begin in
      let* c' := subw c outer_begin in
      let* od := mtxAddEntry (r', c', v) (ma_od m) in
      Ok (mkMA (ma_sd m) (ma_sn m) (ma_so m) (ma_td m) (ma_ts m) (ma_lp m)
               (ma_ld m) (ma_ln m) (ma_os m) od)
    else if (outer_begin <=? r) && (c <? tridiag_end) then
      let* r' := subw r outer_begin in
      let* c' := subw c tridiag_begin in
      mtxAddEntryOuterSubdiag dim_tri (r', c', v) m
    else
      let* last := subw tridiag_end dim_tri in
      let* _ := mtxCheck (last <=? c) in
      let* r' := subw r tridiag_end in
      let* c' := subw c last in
      mtxAddEntryLink dim_prev dim_link (r', c', v) m.

  (** ctldl/fileio/mtx_file_read_...hpp:93-182 *)
  Definition mtxFileRead (s : arrow_sp) (lines : list string) : res mtx_arrow :=
    let* h := mtxReadHeader lines in
    let '(num_rows, num_cols, _, _) := h in
    let* _ := mtxCheck (num_rows =? num_cols) in
    let* dim_start := as_dim_start s in
    let* dim_link := as_dim_link s in
    let* dim_outer := as_dim_outer s in
    let nonrep := dim_start + dim_link + dim_outer in
    let* _ := mtxCheck (nonrep <? num_rows) in
    let* rows_tri := subw num_rows nonrep in
    let* dim_tri := as_dim_tri s in
    let* rm := modw rows_tri dim_tri in
    let* _ := mtxCheck (rm =? 0) in
    let* q := divw rows_tri dim_tri in
    let* n := subw q 1 in
    let* sd := mtxInputMatrix (ss_diag (as_start s)) in
    let* sn := mtxInputMatrix (ss_next (as_start s)) in
    let* so := mtxInputMatrix (ss_outer (as_start s)) in
    let* td := mtxInputMatrix (st_diag (as_tri s)) in
    let* ts := mtxInputMatrix (st_subdiag (as_tri s)) in
    let* lp := mtxInputMatrix (sl_prev (as_link s)) in
    let* ld := mtxInputMatrix (sl_diag (as_link s)) in
    let* ln := mtxInputMatrix (sl_next (as_link s)) in
    let* os := mtxInputMatrix (so_subdiag (as_outer s)) in
    let* od := mtxInputMatrix (so_diag (as_outer s)) in
    let m0 := mkMA sd sn so (repeat td (n + 1)) (repeat ts n) lp ld ln
                (repeat os (n + 1)) od in
    let tridiag_end := dim_start + (n + 1) * dim_tri in
    let outer_begin := tridiag_end + dim_link in
    mtxForeachEntry lines
      (mtxDispatch dim_start dim_tri dim_link (ncols (sl_prev (as_link s)))
         tridiag_end outer_begin) m0.
End Mtx.
