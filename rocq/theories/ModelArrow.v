(** Model of the repeating block tridiagonal arrowhead factorization
    (ctldl/factor_data) and of the block matrix-vector product
    (ctldl/matrix). *)
From Coq Require Import List Arith Lia Bool.
From Verif Require Import Base ModelPerm ModelSparsity ModelSymbolic ModelNumeric.
Import ListNotations.

(** ctldl/utility/all_equal.hpp:9-13 *)
Definition all_equal (l : list nat) : bool :=
  match l with
  | [] => true
  | x :: l' => forallb (fun y => y =? x) l'
  end.

(** ctldl/factor_data/sparsity_to_factorize_start.hpp:30-34 *)
Record sp_start := mkSS {
  ss_diag : sparsity; ss_next : sparsity; ss_outer : sparsity; ss_perm : perm }.

(** ctldl/factor_data/sparsity_to_factorize_start.hpp:36-39 *)
Definition ss_consistent (s : sp_start) : bool :=
  all_equal [nrows (ss_diag s); ncols (ss_diag s); ncols (ss_next s);
             ncols (ss_outer s); length (ss_perm s)].

(** ctldl/factor_data/sparsity_to_factorize_start.hpp:41-44 *)
Definition ss_dim (s : sp_start) : res nat :=
  let* _ := pre (ss_consistent s) in Ok (ncols (ss_diag s)).

(** ctldl/factor_data/sparsity_to_factorize_tridiagonal.hpp:28-31 *)
Record sp_tri := mkST { st_diag : sparsity; st_subdiag : sparsity; st_perm : perm }.

(** ctldl/factor_data/sparsity_to_factorize_tridiagonal.hpp:33-36 *)
Definition st_consistent (s : sp_tri) : bool :=
  all_equal [nrows (st_diag s); ncols (st_diag s); nrows (st_subdiag s);
             ncols (st_subdiag s); length (st_perm s)].

(** ctldl/factor_data/sparsity_to_factorize_tridiagonal.hpp:38-41 *)
Definition st_dim (s : sp_tri) : res nat :=
  let* _ := pre (st_consistent s) in Ok (nrows (st_diag s)).

(** ctldl/factor_data/sparsity_to_factorize_link.hpp:31-35 *)
Record sp_link := mkSL {
  sl_prev : sparsity; sl_diag : sparsity; sl_next : sparsity; sl_perm : perm }.

(** ctldl/factor_data/sparsity_to_factorize_link.hpp:37-40 *)
Definition sl_consistent (s : sp_link) : bool :=
  all_equal [nrows (sl_diag s); ncols (sl_diag s); nrows (sl_prev s);
             ncols (sl_next s); length (sl_perm s)].

(** ctldl/factor_data/sparsity_to_factorize_link.hpp:42-45 *)
Definition sl_dim (s : sp_link) : res nat :=
  let* _ := pre (sl_consistent s) in Ok (nrows (sl_diag s)).

(** ctldl/factor_data/sparsity_to_factorize_outer.hpp:36-39 *)
Record sp_outer := mkSO { so_subdiag : sparsity; so_diag : sparsity; so_perm : perm }.

(** ctldl/factor_data/sparsity_to_factorize_outer.hpp:41-44 *)
Definition so_consistent (s : sp_outer) : bool :=
  all_equal [nrows (so_diag s); ncols (so_diag s); nrows (so_subdiag s);
             length (so_perm s)].

(** ctldl/factor_data/sparsity_to_factorize_outer.hpp:46-49 *)
Definition so_dim (s : sp_outer) : res nat :=
  let* _ := pre (so_consistent s) in Ok (nrows (so_diag s)).

(** ctldl/factor_data/sparsity_to_factorize_tridiagonal_arrowhead_linked.hpp:30-34 *)
Record arrow_sp := mkAS {
  as_start : sp_start; as_tri : sp_tri; as_link : sp_link; as_outer : sp_outer }.

(** ctldl/factor_data/sparsity_to_factorize_tridiagonal_arrowhead_linked.hpp:36-40 *)
Definition as_consistent_tri (s : arrow_sp) : res bool :=
  if st_consistent (as_tri s) then
    let* d := st_dim (as_tri s) in
    Ok (all_equal [nrows (ss_next (as_start s)); d; ncols (sl_prev (as_link s));
                   ncols (so_subdiag (as_outer s))])
  else Ok false.

(** ctldl/factor_data/sparsity_to_factorize_tridiagonal_arrowhead_linked.hpp:42-45 *)
Definition as_consistent_outer (s : arrow_sp) : res bool :=
  if so_consistent (as_outer s) then
    let* d := so_dim (as_outer s) in
    Ok (all_equal [nrows (ss_outer (as_start s)); nrows (sl_next (as_link s)); d])
  else Ok false.

(** ctldl/factor_data/sparsity_to_factorize_tridiagonal_arrowhead_linked.hpp:47-59 *)
Definition as_dim_start (s : arrow_sp) : res nat := ss_dim (as_start s).
Definition as_dim_tri (s : arrow_sp) : res nat :=
  let* c := as_consistent_tri s in
  let* _ := pre c in
  st_dim (as_tri s).
Definition as_dim_link (s : arrow_sp) : res nat := sl_dim (as_link s).
Definition as_dim_outer (s : arrow_sp) : res nat :=
  let* c := as_consistent_outer s in
  let* _ := pre c in
  so_dim (as_outer s).

(** The ten factor block types of
    ctldl/factor_data/factorization_repeating_block_tridiagonal_arrowhead_linked.hpp:91-119 *)
Record arrow_blks := mkAB {
  k_sd : blk;   (* FactorStartDiag *)
  k_sn : blk;   (* FactorStartTridiag *)
  k_so : blk;   (* FactorStartOuter *)
  k_td : blk;   (* FactorTridiagDiag *)
  k_ts : blk;   (* FactorTridiagSubdiag *)
  k_lp : blk;   (* FactorLinkTridiag *)
  k_ld : blk;   (* FactorLinkDiag *)
  k_ln : blk;   (* FactorLinkOuter *)
  k_os : blk;   (* FactorOuterSubdiag *)
  k_od : blk }. (* FactorOuterDiag *)

(** .../factorization_repeating_block_tridiagonal_arrowhead_linked.hpp:42-119,
    everything that is computed when the class template is instantiated *)
Definition arrowBlocks (s : arrow_sp) : res arrow_blks :=
  let* dim_start := as_dim_start s in
  let* dim_tri := as_dim_tri s in
  let* dim_link := as_dim_link s in
  let* dim_outer := as_dim_outer s in
  let p_start := ss_perm (as_start s) in
  let p_tri := st_perm (as_tri s) in
  let p_link := sl_perm (as_link s) in
  let p_outer := so_perm (as_outer s) in
  let* hs := getFilledInSparsityBlocked3x3
               (ss_diag (as_start s)) (ss_next (as_start s))
               (st_diag (as_tri s)) (ss_outer (as_start s))
               (so_subdiag (as_outer s)) (so_diag (as_outer s))
               p_start p_tri p_outer in
  let* tri_subdiag := getSparsityDynamicPermuted (st_subdiag (as_tri s))
                        p_tri p_tri in
  let* sf := getFilledInSparsityRepeatingArrowhead (block22 hs) tri_subdiag
               (block32 hs) (iota_perm dim_tri) (iota_perm dim_outer) in
  let* link_tri := getSparsityDynamicPermuted (sl_prev (as_link s))
                     (iota_perm dim_link) p_tri in
  let* link_outer := getSparsityDynamicPermuted (sl_next (as_link s))
                       p_outer (iota_perm dim_link) in
  let* h := getFilledInSparsityBlocked3x3
              (ra_diag sf) link_tri (sl_diag (as_link s)) (ra_outer sf)
              link_outer (block33 hs)
              (iota_perm dim_tri) p_link (iota_perm dim_outer) in
  let* sd := factorizationAlreadyPermutedBlk (block11 hs) p_start in
  let* sn := factorizationSubdiagonalBlk (block21 hs) p_tri p_start in
  let* so := factorizationSubdiagonalBlk (block31 hs) p_outer p_start in
  let* td := factorizationAlreadyPermutedBlk (ra_diag sf) p_tri in
  let* ts := factorizationSubdiagonalBlk (ra_subdiag sf) p_tri p_tri in
  let* lp := factorizationSubdiagonalBlk (block21 h) p_link p_tri in
  let* ld := factorizationAlreadyPermutedBlk (block22 h) p_link in
  let* ln := factorizationSubdiagonalBlk (block32 h) p_outer p_link in
  let* os := factorizationSubdiagonalBlk (ra_outer sf) p_outer p_tri in
  let* od := factorizationAlreadyPermutedBlk (block33 h) p_outer in
  Ok (mkAB sd sn so td ts lp ld ln os od).

Section Arrow.
  Context {F : Type} (O : ops F).

  (** m_data,
      .../factorization_repeating_block_tridiagonal_arrowhead_linked.hpp:121-129,
      281-284. Diagonal blocks hold (L, D), the others L. *)
  Record arrow_data := mkAD {
    d_sd : list F * list F;
    d_sn : list F;
    d_so : list F;
    d_td : list (list F * list F);
    d_ts : list (list F);
    d_lp : list F;
    d_ld : list F * list F;
    d_ln : list F;
    d_os : list (list F);
    d_od : list F * list F }.

  (** the value-initialized factor blocks *)
  Definition zeroL (b : blk) : list F := repeat (o0 O) (c_nnz (b_sp b)).
  Definition zeroLD (b : blk) : list F * list F :=
    (zeroL b, repeat (o0 O) (c_rows (b_sp b))).

  (** .../factorization_repeating_block_tridiagonal_arrowhead_linked.hpp:144-157;
      [numRepetitions() < SIZE_MAX] is part of the representability assumption *)
  Definition numRepetitions (d : arrow_data) : nat := length (d_ts d).
  Definition checkNumRepetitionsClassInvariant (d : arrow_data) : res unit :=
    let* _ := contract_assert (length (d_td d) =? numRepetitions d + 1) in
    let* _ := contract_assert (length (d_ts d) =? numRepetitions d) in
    contract_assert (length (d_os d) =? numRepetitions d + 1).

  (** .../factorization_repeating_block_tridiagonal_arrowhead_linked.hpp:131-142 *)
  Definition arrowCtor (k : arrow_blks) (num_repetitions : nat) : res arrow_data :=
    let d := mkAD (zeroLD (k_sd k)) (zeroL (k_sn k)) (zeroL (k_so k))
               (repeat (zeroLD (k_td k)) (num_repetitions + 1))
               (repeat (zeroL (k_ts k)) num_repetitions)
               (zeroL (k_lp k)) (zeroLD (k_ld k)) (zeroL (k_ln k))
               (repeat (zeroL (k_os k)) (num_repetitions + 1))
               (zeroLD (k_od k)) in
    let* _ := checkNumRepetitionsClassInvariant d in
    Ok d.

  (** MatrixTridiagonalArrowheadLinked of input matrices
      (ctldl/matrix/matrix_tridiagonal_arrowhead_linked.hpp, matrix_start.hpp,
      matrix_tridiagonal.hpp, matrix_link.hpp, matrix_outer.hpp). All matrices of
      one container have the same type in C++, in the model each one carries
      its own sparsity. *)
  Record arrow_mat := mkAM {
    a_sd : mat (F:=F); a_sn : mat (F:=F); a_so : mat (F:=F);
    a_td : list (mat (F:=F)); a_ts : list (mat (F:=F));
    a_lp : mat (F:=F); a_ld : mat (F:=F); a_ln : mat (F:=F);
    a_os : list (mat (F:=F)); a_od : mat (F:=F) }.

  (** .../factorization_repeating_block_tridiagonal_arrowhead_linked.hpp:160-180.
      static_asserts are evaluated with the call they belong to. *)
  Definition factorizeTri (mt : method) (k : arrow_blks) (input : arrow_mat)
      (reg : F -> nat -> F) (d : arrow_data) : res arrow_data :=
    let n := numRepetitions d in
    let* sd := factorize O mt (k_sd k) (Some (a_sd input)) reg (d_sd d) in
    let* in_td0 := rd (a_td input) 0 in
    let* td0 := rd (d_td d) 0 in
    let* r := factorize5 O mt (k_sd k) (k_sn k) (k_td k) (fst sd) (snd sd)
                (Some (a_sn input)) (Some in_td0) reg
                (d_sn d, fst td0, snd td0) in
    let '(sn, Ltd0, Dtd0) := r in
    let* td := wr (d_td d) 0 (Ltd0, Dtd0) in
    let* tt' :=
      foldM (fun (st : list (list F * list F) * list (list F)) i =>
               let (td, ts) := st in
               let* tdi := rd td i in
               let* in_ts := rd (a_ts input) i in
               let* in_td := rd (a_td input) (i + 1) in
               let* tsi := rd ts i in
               let* tdi1 := rd td (i + 1) in
               let* r := factorize5 O mt (k_td k) (k_ts k) (k_td k)
                           (fst tdi) (snd tdi) (Some in_ts) (Some in_td) reg
                           (tsi, fst tdi1, snd tdi1) in
               let '(L21, L22, D22) := r in
               let* ts := wr ts i L21 in
               let* td := wr td (i + 1) (L22, D22) in
               Ok (td, ts))
            (seq 0 n) (td, d_ts d) in
    let (td, ts) := (tt' : list (list F * list F) * list (list F)) in
    let* tdn := rd td n in
    let* r := factorize5 O mt (k_td k) (k_lp k) (k_ld k) (fst tdn) (snd tdn)
                (Some (a_lp input)) (Some (a_ld input)) reg
                (d_lp d, fst (d_ld d), snd (d_ld d)) in
    let '(lp, Lld, Dld) := r in
    Ok (mkAD sd sn (d_so d) td ts lp (Lld, Dld) (d_ln d) (d_os d) (d_od d)).

  (** .../factorization_repeating_block_tridiagonal_arrowhead_linked.hpp:181-205 *)
  Definition factorizeOuter (mt : method) (k : arrow_blks) (input : arrow_mat)
      (reg : F -> nat -> F) (d : arrow_data) : res arrow_data :=
    let n := numRepetitions d in
    let* od := fillWithOriginalMatrixValuesIncludingDiagonal O (a_od input)
                 (k_od k) (d_od d) in
    let* in_os0 := rd (a_os input) 0 in
    let* os0 := rd (d_os d) 0 in
    let* r := factorizePartialUpLooking O (k_sd k) (k_sn k) (k_so k) (k_os k)
                (k_od k) (fst (d_sd d)) (snd (d_sd d)) (d_sn d)
                (Some (a_so input)) (Some in_os0) None
                (d_so d, os0, fst od, snd od) in
    let '(so, os0, Lod, Dod) := r in
    let* os := wr (d_os d) 0 os0 in
    let* oo :=
      foldM (fun (st : list (list F) * list F * list F) i =>
               let '(os, Lod, Dod) := st in
               let* tdi := rd (d_td d) i in
               let* tsi := rd (d_ts d) i in
               let* in_os := rd (a_os input) (i + 1) in
               let* osi := rd os i in
               let* osi1 := rd os (i + 1) in
               let* r := factorizePartialUpLooking O (k_td k) (k_ts k) (k_os k)
                           (k_os k) (k_od k) (fst tdi) (snd tdi) tsi
                           None (Some in_os) None (osi, osi1, Lod, Dod) in
               let '(osi, osi1, Lod, Dod) := r in
               let* os := wr os i osi in
               let* os := wr os (i + 1) osi1 in
               Ok (os, Lod, Dod))
            (seq 0 n) (os, Lod, Dod) in
    let '(os, Lod, Dod) := oo in
    let* tdn := rd (d_td d) n in
    let* osn := rd os n in
    let* r := factorizePartialUpLooking O (k_td k) (k_lp k) (k_os k) (k_ln k)
                (k_od k) (fst tdn) (snd tdn) (d_lp d)
                None (Some (a_ln input)) None
                (osn, d_ln d, Lod, Dod) in
    let '(osn, ln, Lod, Dod) := r in
    let* os := wr os n osn in
    let* r := factorize5 O mt (k_ld k) (k_ln k) (k_od k)
                (fst (d_ld d)) (snd (d_ld d)) None None reg (ln, Lod, Dod) in
    let '(ln, Lod, Dod) := r in
    Ok (mkAD (d_sd d) (d_sn d) so (d_td d) (d_ts d) (d_lp d) (d_ld d) ln os
             (Lod, Dod)).

  (** .../factorization_repeating_block_tridiagonal_arrowhead_linked.hpp:160-205 *)
  Definition arrowFactorize (mt : method) (k : arrow_blks) (input : arrow_mat)
      (reg : F -> nat -> F) (d : arrow_data) : res arrow_data :=
    let* d := factorizeTri mt k input reg d in
    factorizeOuter mt k input reg d.

  (** ctldl/vector/vector_tridiagonal_arrowhead_linked.hpp:5-11 *)
  Record arrow_vec := mkAV {
    v_start : list F; v_tri : list (list F); v_link : list F; v_outer : list F }.

  (** .../factorization_repeating_block_tridiagonal_arrowhead_linked.hpp:214-236 *)
  Definition arrowForward (k : arrow_blks) (d : arrow_data) (rhs : arrow_vec)
      : res arrow_vec :=
    let* _ := checkNumRepetitionsClassInvariant d in
    let n := numRepetitions d in
    let* vs := solveForwardSubstitution O (k_sd k) (fst (d_sd d)) None
                 (v_start rhs) in
    let* td0 := rd (d_td d) 0 in
    let* t0 := rd (v_tri rhs) 0 in
    let* t0 := solveForwardSubstitutionLeft O (k_td k) (fst td0) (k_sn k)
                 (d_sn d) vs t0 in
    let* vt := wr (v_tri rhs) 0 t0 in
    let* vt :=
      foldM (fun vt i =>
               let* tdi := rd (d_td d) i in
               let* ti := rd vt i in
               let* im := subw i 1 in
               let* tsi := rd (d_ts d) im in
               let* tim := rd vt im in
               let* ti := solveForwardSubstitutionLeft O (k_td k) (fst tdi)
                            (k_ts k) tsi tim ti in
               wr vt i ti)
            (seq 1 n) vt in
    let* tn := rd vt n in
    let* vl := solveForwardSubstitutionLeft O (k_ld k) (fst (d_ld d)) (k_lp k)
                 (d_lp d) tn (v_link rhs) in
    let* vo := solveForwardSubstitution O (k_so k) (d_so d) (Some vs)
                 (v_outer rhs) in
    let* vo :=
      foldM (fun vo i =>
               let* osi := rd (d_os d) i in
               let* ti := rd vt i in
               solveForwardSubstitution O (k_os k) osi (Some ti) vo)
            (seq 0 (n + 1)) vo in
    let* vo := solveForwardSubstitution O (k_ln k) (d_ln d) (Some vl) vo in
    let* vo := solveForwardSubstitution O (k_od k) (fst (d_od d)) None vo in
    Ok (mkAV vs vt vl vo).

  (** .../factorization_repeating_block_tridiagonal_arrowhead_linked.hpp:238-249 *)
  Definition arrowDiagonal (k : arrow_blks) (d : arrow_data) (rhs : arrow_vec)
      : res arrow_vec :=
    let* _ := checkNumRepetitionsClassInvariant d in
    let n := numRepetitions d in
    let* vs := diagonalSolve O (k_sd k) (snd (d_sd d)) (v_start rhs) in
    let* vt :=
      foldM (fun vt i =>
               let* tdi := rd (d_td d) i in
               let* ti := rd vt i in
               let* ti := diagonalSolve O (k_td k) (snd tdi) ti in
               wr vt i ti)
            (seq 0 (n + 1)) (v_tri rhs) in
    let* vl := diagonalSolve O (k_ld k) (snd (d_ld d)) (v_link rhs) in
    let* vo := diagonalSolve O (k_od k) (snd (d_od d)) (v_outer rhs) in
    Ok (mkAV vs vt vl vo).

  (** .../factorization_repeating_block_tridiagonal_arrowhead_linked.hpp:251-279 *)
  Definition arrowBackward (k : arrow_blks) (d : arrow_data) (rhs : arrow_vec)
      : res arrow_vec :=
    let* _ := checkNumRepetitionsClassInvariant d in
    let n := numRepetitions d in
    let* vo := solveBackwardSubstitution O (k_od k) (fst (d_od d)) None
                 (v_outer rhs) in
    let* vl := solveBackwardSubstitution O (k_ln k) (d_ln d) (Some vo)
                 (v_link rhs) in
    let* vl := solveBackwardSubstitution O (k_ld k) (fst (d_ld d)) None vl in
    let* osn := rd (d_os d) n in
    let* tn := rd (v_tri rhs) n in
    let* tn := solveBackwardSubstitution O (k_os k) osn (Some vo) tn in
    let* tn := solveBackwardSubstitution O (k_lp k) (d_lp d) (Some vl) tn in
    let* tdn := rd (d_td d) n in
    let* tn := solveBackwardSubstitution O (k_td k) (fst tdn) None tn in
    let* vt := wr (v_tri rhs) n tn in
    let* vt :=
      foldM (fun vt i =>
               let* im := subw i 1 in
               let* osi := rd (d_os d) im in
               let* t := rd vt im in
               let* t := solveBackwardSubstitution O (k_os k) osi (Some vo) t in
               let* tsi := rd (d_ts d) im in
               let* ti := rd vt i in
               let* t := solveBackwardSubstitution O (k_ts k) tsi (Some ti) t in
               let* tdi := rd (d_td d) im in
               let* t := solveBackwardSubstitution O (k_td k) (fst tdi) None t in
               wr vt im t)
            (rev (seq 1 n)) vt in
    let* vs := solveBackwardSubstitution O (k_so k) (d_so d) (Some vo)
                 (v_start rhs) in
    let* t0 := rd vt 0 in
    let* vs := solveBackwardSubstitution O (k_sn k) (d_sn d) (Some t0) vs in
    let* vs := solveBackwardSubstitution O (k_sd k) (fst (d_sd d)) None vs in
    Ok (mkAV vs vt vl vo).

  (** .../factorization_repeating_block_tridiagonal_arrowhead_linked.hpp:207-212 *)
  Definition arrowSolveInPlace (k : arrow_blks) (d : arrow_data)
      (rhs : arrow_vec) : res arrow_vec :=
    let* rhs := arrowForward k d rhs in
    let* rhs := arrowDiagonal k d rhs in
    arrowBackward k d rhs.

  (** ctldl/matrix/multiply_repeating_block_tridiagonal.hpp:11-28;
      [num_repetitions < SIZE_MAX] is part of the representability assumption *)
  Definition multiplyRepeatingBlockTridiagonal
      (A B : list (mat (F:=F))) (solution rhs : list (list F))
      : res (list (list F)) :=
    let n := length B in
    let* _ := pre (length A =? n + 1) in
    let* _ := pre (length solution =? n + 1) in
    let* _ := pre (length rhs =? n + 1) in
    let* A0 := rd A 0 in
    let* s0 := rd solution 0 in
    let* r0 := rd rhs 0 in
    let* r0 := multiply O Symmetric A0 s0 r0 in
    let* rhs := wr rhs 0 r0 in
    foldM (fun rhs i =>
             let* Bi := rd B i in
             let* s1 := rd solution (i + 1) in
             let* r := rd rhs i in
             let* r := multiply O Transposed Bi s1 r in
             let* rhs := wr rhs i r in
             let* s := rd solution i in
             let* r1 := rd rhs (i + 1) in
             let* r1 := multiply O Normal Bi s r1 in
             let* A1 := rd A (i + 1) in
             let* r1 := multiply O Symmetric A1 s1 r1 in
             wr rhs (i + 1) r1)
          (seq 0 n) rhs.

  (** ctldl/matrix/multiply_repeating_block_tridiagonal_arrowhead_linked.hpp:11-42 *)
  Definition arrowMultiply (m : arrow_mat) (x rhs : arrow_vec)
      : res arrow_vec :=
    let* rs := multiply O Symmetric (a_sd m) (v_start x) (v_start rhs) in
    let* x0 := rd (v_tri x) 0 in
    let* rs := multiply O Transposed (a_sn m) x0 rs in
    let* rs := multiply O Transposed (a_so m) (v_outer x) rs in
    let* r0 := rd (v_tri rhs) 0 in
    let* r0 := multiply O Normal (a_sn m) (v_start x) r0 in
    let* rt := wr (v_tri rhs) 0 r0 in
    let* rt := multiplyRepeatingBlockTridiagonal (a_td m) (a_ts m) (v_tri x) rt in
    let n := length (a_ts m) in
    let* rr :=
      foldM (fun (st : list (list F) * list F) i =>
               let (rt, ro) := st in
               let* os := rd (a_os m) i in
               let* r := rd rt i in
               let* r := multiply O Transposed os (v_outer x) r in
               let* rt := wr rt i r in
               let* xi := rd (v_tri x) i in
               let* ro := multiply O Normal os xi ro in
               Ok (rt, ro))
            (seq 0 (n + 1)) (rt, v_outer rhs) in
    let (rt, ro) := (rr : list (list F) * list F) in
    let* rn := rd rt n in
    let* rn := multiply O Transposed (a_lp m) (v_link x) rn in
    let* rt := wr rt n rn in
    let* xn := rd (v_tri x) n in
    let* rl := multiply O Normal (a_lp m) xn (v_link rhs) in
    let* rl := multiply O Transposed (a_ln m) (v_outer x) rl in
    let* rl := multiply O Symmetric (a_ld m) (v_link x) rl in
    let* ro := multiply O Normal (a_so m) (v_start x) ro in
    let* ro := multiply O Normal (a_ln m) (v_link x) ro in
    let* ro := multiply O Symmetric (a_od m) (v_outer x) ro in
    Ok (mkAV rs rt rl ro).

  (** ctldl/factor_data/factorization_repeating_block_tridiagonal.hpp:31-41,
      with sparsity_to_factorize_start.hpp:50-57, _link.hpp:51-57,
      _outer.hpp:54-60 *)
  Definition tridiagonalSparsity (A B : sparsity) (p : perm) : arrow_sp :=
    mkAS (mkSS (emptySparsity 0 0) (emptySparsity (nrows A) 0)
               (emptySparsity 0 0) (iota_perm 0))
         (mkST A B p)
         (mkSL (emptySparsity 0 (ncols A)) (emptySparsity 0 0)
               (emptySparsity 0 0) (iota_perm 0))
         (mkSO (emptySparsity 0 (ncols A)) (emptySparsity 0 0) (iota_perm 0)).

  Definition tridiagonalBlocks (A B : sparsity) (p : perm) : res arrow_blks :=
    let* _ := static_assert (isSquare A) in
    let* _ := static_assert (isSquare B) in
    let* _ := static_assert (nrows B =? nrows A) in
    arrowBlocks (tridiagonalSparsity A B p).

  (** ctldl/factor_data/factorization_repeating_block_tridiagonal.hpp:56-68,
      ctldl/matrix/matrix_start.hpp:15-21, matrix_link.hpp:15-21,
      matrix_outer.hpp:16-23; a DummyRange is the list of its elements *)
  Definition tridiagonalInput (dim : nat) (values_A values_B : list (mat (F:=F)))
      (num_repetitions : nat) : arrow_mat :=
    mkAM (emptyMatrixInput 0 0) (emptyMatrixInput dim 0) (emptyMatrixInput 0 0)
         values_A values_B
         (emptyMatrixInput 0 dim) (emptyMatrixInput 0 0) (emptyMatrixInput 0 0)
         (repeat (emptyMatrixInput 0 dim) (num_repetitions + 1))
         (emptyMatrixInput 0 0).

  Definition tridiagonalFactorize (mt : method) (k : arrow_blks) (dim : nat)
      (values_A values_B : list (mat (F:=F))) (reg : F -> nat -> F)
      (d : arrow_data) : res arrow_data :=
    arrowFactorize mt k (tridiagonalInput dim values_A values_B (numRepetitions d))
      reg d.

  (** ctldl/factor_data/factorization_repeating_block_tridiagonal.hpp:70-76 *)
  Definition tridiagonalSolveInPlace (k : arrow_blks) (d : arrow_data)
      (rhs : list (list F)) : res (list (list F)) :=
    let* r := arrowSolveInPlace k d (mkAV [] rhs [] []) in
    Ok (v_tri r).
End Arrow.

(** ctldl/vector/block.hpp:10-23; [n / 0] is undefined behaviour *)
Definition block {V} (v0 : V) (block_dim : nat) (flat : list V)
    : res (list (list V)) :=
  if block_dim =? 0 then Err UB
  else
    let num_blocks := length flat / block_dim in
    let* st :=
      foldM (fun (st : list (list V) * nat) b =>
               foldM (fun (st : list (list V) * nat) v =>
                        let (blocks, it) := st in
                        let* x := rd flat it in
                        let* blk := rd blocks b in
                        let* blk := wr blk v x in
                        let* blocks := wr blocks b blk in
                        Ok (blocks, it + 1))
                     (seq 0 block_dim) st)
            (seq 0 num_blocks)
            (repeat (repeat v0 block_dim) num_blocks, 0) in
    Ok (fst st).

(** ctldl/vector/flatten.hpp:12-20 *)
Definition flatten {V} (blocked : list (list V)) : list V :=
  fold_left (fun acc b => acc ++ b) blocked [].
