(** Model of ctldl/factorize, ctldl/solve, ctldl/matrix/multiply.hpp and the
    single block classes of ctldl/factor_data.

    All scalars have one type [F]; static_cast between scalar types is the
    identity. No law is assumed for the operations, so this also describes
    floating point arithmetic. *)
From Coq Require Import List Arith Lia Bool.
From Verif Require Import Base ModelPerm ModelSparsity ModelSymbolic.
Import ListNotations.

Record ops (F : Type) := mkOps {
  o0 : F;                    (* Value{0.0} *)
  oadd : F -> F -> F;
  osub : F -> F -> F;
  omul : F -> F -> F;
  odiv : F -> F -> F }.
Arguments o0 {F}. Arguments oadd {F}. Arguments osub {F}.
Arguments omul {F}. Arguments odiv {F}.

Declare Scope scalar.
Delimit Scope scalar with s.

Section Numeric.
  Context {F : Type} (O : ops F).
  Local Notation "a + b" := (oadd O a b) : scalar.
  Local Notation "a - b" := (osub O a b) : scalar.
  Local Notation "a * b" := (omul O a b) : scalar.
  Local Notation "a / b" := (odiv O a b) : scalar.

  (** An input matrix: a user type with a static [sparsity] and [valueAt], see
      e.g. ctldl/fileio/mtx_file_read_...hpp:84-91 *)
  Record mat := mkMat { m_sp : sparsity; m_val : nat -> res F }.

  (** ctldl/matrix/empty_matrix_input.hpp:10-24 *)
  Definition emptyMatrixInput (nr nc : nat) : mat :=
    mkMat (emptySparsity nr nc) (fun _ => Err CAssert).

  (** ctldl/sparsity/get_matrix_value_at.hpp:26-36 *)
  Definition getMatrixValueAt (m : mat) (e : entry) : res F :=
    match findEntryIndex (entries (m_sp m)) e with
    | Some k => m_val m k
    | None => Ok (o0 O)
    end.

  (** The static part of a factor block: Factorization
      (ctldl/factor_data/factorization.hpp:22-90, [b_sym = true]) or
      FactorizationSubdiagonalBlock
      (ctldl/factor_data/factorization_subdiagonal_block.hpp:17-56,
      [b_sym = false]). The values L and D are kept separately. *)
  Record blk := mkBlk {
    b_sp : csr; b_prow : perm; b_pcol : perm; b_sym : bool }.

  (** ctldl/factor_data/factorization.hpp:26, 59-63 *)
  Definition factorizationBlk (sp_orig : sparsity) (p : perm) : res blk :=
    let* _ := static_assert (isSquare sp_orig) in
    let* f := getFilledInSparsity sp_orig p in
    let* c := toCSR f in
    Ok (mkBlk c p p true).

  (** ctldl/factor_data/factorization_already_permuted.hpp:16-21 *)
  Definition factorizationAlreadyPermutedBlk (sp : sparsity) (p : perm)
      : res blk :=
    let* inv := invertPermutation p in
    let* orig := getSparsityDynamicLowerTriangle sp inv in
    factorizationBlk orig p.

  (** ctldl/factor_data/factorization_subdiagonal_block.hpp:22-28 *)
  Definition factorizationSubdiagonalBlk (sp : sparsity) (prow pcol : perm)
      : res blk :=
    let* c := toCSR sp in
    Ok (mkBlk c prow pcol false).

  (** ctldl/sparsity/sparsity_csr.hpp:80-83 *)
  Definition emptyCSR (nr nc : nat) : csr :=
    mkCsr (emptySparsity nr nc) (repeat 0%nat (nr + 1)).

  (** ctldl/factor_data/empty_factor_data_left.hpp:12-30 *)
  Definition emptyLeftBlk (b : blk) : blk :=
    mkBlk (emptyCSR (c_rows (b_sp b)) 0) (b_prow b) (iota_perm 0) false.

  (** ctldl/factor_data/empty_factor_data_diagonal.hpp:9-15 *)
  Definition emptyDiagBlk : blk := mkBlk (emptyCSR 0 0) [] [] true.

  (** ctldl/factor_data/factorization.hpp:39-41,
      factorization_subdiagonal_block.hpp:35-37, empty_factor_data_left.hpp:27-29 *)
  Definition origEntry (b : blk) (e : entry) : res entry :=
    if b_sym b then permutedEntryLowerTriangle e (b_prow b)
    else permutedEntry e (b_prow b) (b_pcol b).

  (** ctldl/factor_data/factorization.hpp:47-57,
      factorization_subdiagonal_block.hpp:43-53 *)
  Definition origRowIndex (b : blk) (i : nat) : res nat := rd (b_prow b) i.
  Definition origColIndex (b : blk) (j : nat) : res nat := rd (b_pcol b) j.

  (** The initial value argument: [None] is FactorInitNone
      (ctldl/factorize/factor_initialization.hpp:12-16), which keeps what is
      already stored in the factor. *)
  Definition init := option mat.

  (** the sparsity member of an init *)
  Definition init_sp (ini : init) (b : blk) : sparsity :=
    match ini with
    | None => emptySparsity (c_rows (b_sp b)) (c_cols (b_sp b))
    | Some m => m_sp m
    end.

  (** ctldl/factorize/factor_initialization.hpp:18-37 *)
  Definition getInitialFactorValueL (ini : init) (b : blk) (L : list F)
      (entry_index : nat) : res F :=
    match ini with
    | None => rd L entry_index
    | Some m =>
        let* e := rd (c_entries (b_sp b)) entry_index in
        let* eo := origEntry b e in
        getMatrixValueAt m eo
    end.

  (** ctldl/factorize/factor_initialization.hpp:39-56 *)
  Definition getInitialFactorValueD (ini : init) (b : blk) (D : list F)
      (row_index : nat) : res F :=
    match ini with
    | None => rd D row_index
    | Some m =>
        let* io := origRowIndex b row_index in
        getMatrixValueAt m (io, io)
    end.

  (** ctldl/factorize/fill_with_original_matrix.hpp:10-16 *)
  Definition fillDiagonalWithOriginalMatrixValue (m : mat) (b : blk)
      (D : list F) (i : nat) : res (list F) :=
    let* io := origRowIndex b i in
    let* v := getMatrixValueAt m (io, io) in
    wr D i v.

  (** ctldl/factorize/fill_with_original_matrix.hpp:18-31 *)
  Definition fillRowWithOriginalMatrixValues (m : mat) (b : blk) (L : list F)
      (i : nat) : res (list F) :=
    let* rb := rd (row_begin (b_sp b)) i in
    let* re := rd (row_begin (b_sp b)) (i + 1) in
    foldM (fun L k =>
             let* e := rd (c_entries (b_sp b)) k in
             let* eo := origEntry b e in
             let* v := getMatrixValueAt m eo in
             wr L k v)
          (irange rb re) L.

  (** ctldl/factorize/fill_with_original_matrix.hpp:41-49 *)
  Definition fillWithOriginalMatrixValuesIncludingDiagonal (m : mat) (b : blk)
      (LD : list F * list F) : res (list F * list F) :=
    foldM (fun (LD : list F * list F) i =>
             let* L := fillRowWithOriginalMatrixValues m b (fst LD) i in
             let* D := fillDiagonalWithOriginalMatrixValue m b (snd LD) i in
             Ok (L, D))
          (seq 0 (c_rows (b_sp b))) LD.

  (** ctldl/factorize/factor_initialization.hpp:58-65 *)
  Definition initializeFactorRow (ini : init) (b : blk) (L : list F) (i : nat)
      : res (list F) :=
    match ini with
    | None => Ok L
    | Some m => fillRowWithOriginalMatrixValues m b L i
    end.

  (** The loops over an influenced list in
      ctldl/factorize/factorize_up_looking.hpp:39-42, 75-78, 82-85, 123-126,
      130-133, 137-140. [src = None]: the source values are those being
      modified (InnerSelf). *)
  Definition applyInfluenced (src : option (list F)) (scaled : F)
      (lst : list influenced) (Lt : list F) : res (list F) :=
    foldM (fun Lt (st : influenced) =>
             let* t := rd Lt (snd st) in
             let* s := rd (match src with Some Ls => Ls | None => Lt end)
                          (fst st) in
             wr Lt (snd st) (t - s * scaled)%s)
          lst Lt.

  (** ctldl/factorize/factorize_up_looking.hpp:28-47; returns the new L and the
      contribution to the diagonal *)
  Definition factorizeUpLookingInnerSelf (b : blk) (D : list F) (k : nat)
      (L : list F) : res (list F * F) :=
    let* e := rd (c_entries (b_sp b)) k in
    let (i, j) := (e : nat * nat) in
    let* scaled := rd L k in
    let* lst := getInfluencedListLowerTriangle i j (b_sp b) (b_sp b) in
    let* L := applyInfluenced None scaled lst L in
    let* dj := rd D j in
    let lij := (scaled / dj)%s in
    let* L := wr L k lij in
    Ok (L, (scaled * lij)%s).

  (** ctldl/factorize/factorize_up_looking.hpp:63-90 *)
  Definition factorizeUpLookingInnerLeft2 (b11 b21 b22 : blk)
      (L11 D11 : list F) (k : nat) (st : list F * list F)
      : res (list F * list F * F) :=
    let (L21, L22) := st in
    let* e := rd (c_entries (b_sp b21)) k in
    let (i, j) := (e : nat * nat) in
    let* scaled := rd L21 k in
    let* lst21 := getInfluencedList i j (b_sp b11) (b_sp b21) in
    let* L21 := applyInfluenced (Some L11) scaled lst21 L21 in
    let* lst22 := getInfluencedListLowerTriangle i j (b_sp b21) (b_sp b22) in
    let* L22 := applyInfluenced (Some L21) scaled lst22 L22 in
    let* dj := rd D11 j in
    let lij := (scaled / dj)%s in
    let* L21 := wr L21 k lij in
    Ok (L21, L22, (scaled * lij)%s).

  (** ctldl/factorize/factorize_up_looking.hpp:105-145 *)
  Definition factorizeUpLookingInnerLeft3 (b11 b21 b31 b32 b33 : blk)
      (L11 D11 L21 : list F) (k : nat) (st : list F * list F * list F)
      : res (list F * list F * list F * F) :=
    let '(L31, L32, L33) := st in
    let* e := rd (c_entries (b_sp b31)) k in
    let (i, j) := (e : nat * nat) in
    let* scaled := rd L31 k in
    let* lst31 := getInfluencedList i j (b_sp b11) (b_sp b31) in
    let* L31 := applyInfluenced (Some L11) scaled lst31 L31 in
    let* lst32 := getInfluencedList i j (b_sp b21) (b_sp b32) in
    let* L32 := applyInfluenced (Some L21) scaled lst32 L32 in
    let* lst33 := getInfluencedListLowerTriangle i j (b_sp b31) (b_sp b33) in
    let* L33 := applyInfluenced (Some L31) scaled lst33 L33 in
    let* dj := rd D11 j in
    let lij := (scaled / dj)%s in
    let* L31 := wr L31 k lij in
    Ok (L31, L32, L33, (scaled * lij)%s).

  (** ctldl/factorize/factorize_up_looking.hpp:147-176, one row. [reg] is the
      regularize member function of the regularization object
      (ctldl/factorize/regularization.hpp:8-11). *)
  Definition factorizeUpLookingImpl (b11 b21 b22 : blk) (L11 D11 : list F)
      (init21 init22 : init) (reg : F -> nat -> F) (i : nat)
      (st : list F * list F * list F) : res (list F * list F * list F) :=
    let '(L21, L22, D22) := st in
    let* _ := static_assert (c_rows (b_sp b22) =? c_rows (b_sp b21)) in
    let* Di := getInitialFactorValueD init22 b22 D22 i in
    let* L21 := initializeFactorRow init21 b21 L21 i in
    let* L22 := initializeFactorRow init22 b22 L22 i in
    let* rb21 := rd (row_begin (b_sp b21)) i in
    let* re21 := rd (row_begin (b_sp b21)) (i + 1) in
    let* st1 :=
      foldM (fun (st : list F * list F * F) k =>
               let '(L21, L22, Di) := st in
               let* r := factorizeUpLookingInnerLeft2 b11 b21 b22 L11 D11 k
                           (L21, L22) in
               let '(L21, L22, c) := r in
               Ok (L21, L22, (Di - c)%s))
            (irange rb21 re21) (L21, L22, Di) in
    let '(L21, L22, Di) := st1 in
    let* rb22 := rd (row_begin (b_sp b22)) i in
    let* re22 := rd (row_begin (b_sp b22)) (i + 1) in
    let* st2 :=
      foldM (fun (st : list F * F) k =>
               let (L22, Di) := st in
               let* r := factorizeUpLookingInnerSelf b22 D22 k L22 in
               let (L22, c) := (r : list F * F) in
               Ok (L22, (Di - c)%s))
            (irange rb22 re22) (L22, Di) in
    let (L22, Di) := (st2 : list F * F) in
    let Di := reg Di i in
    let* D22 := wr D22 i Di in
    Ok (L21, L22, D22).

  (** the static_asserts ctldl/factorize/factorize_up_looking.hpp:200-207 and
      ctldl/factorize/factorize_entry_wise.hpp:207-214 *)
  Definition factorizeStaticAsserts (b11 b21 b22 : blk) (init21 init22 : init)
      : res unit :=
    let* ch := isChordalBlocked (csp (b_sp b11)) (csp (b_sp b21)) (csp (b_sp b22)) in
    let* _ := static_assert ch in
    let* s22 := isSparsitySubsetLowerTriangle (init_sp init22 b22)
                  (csp (b_sp b22)) (b_prow b22) in
    let* _ := static_assert s22 in
    let* s21 := isSparsitySubset (init_sp init21 b21) (csp (b_sp b21))
                  (Some (b_prow b21)) (Some (b_pcol b21)) in
    static_assert s21.

  (** ctldl/factorize/factorize_up_looking.hpp:194-213;
      the state is (L21, L22, D22) *)
  Definition factorizeUpLooking (b11 b21 b22 : blk) (L11 D11 : list F)
      (init21 init22 : init) (reg : F -> nat -> F)
      (st : list F * list F * list F) : res (list F * list F * list F) :=
    let* _ := factorizeStaticAsserts b11 b21 b22 init21 init22 in
    foldM (fun st i =>
             factorizeUpLookingImpl b11 b21 b22 L11 D11 init21 init22 reg i st)
          (seq 0 (c_rows (b_sp b22))) st.

  (** ctldl/factorize/factorize_up_looking.hpp:252-275, one row;
      the state is (L31, L32, L33, D33) *)
  Definition factorizePartialUpLookingImpl (b11 b21 b31 b32 b33 : blk)
      (L11 D11 L21 : list F) (init31 init32 init33 : init) (i : nat)
      (st : list F * list F * list F * list F)
      : res (list F * list F * list F * list F) :=
    let '(L31, L32, L33, D33) := st in
    let* L31 := initializeFactorRow init31 b31 L31 i in
    let* L32 := initializeFactorRow init32 b32 L32 i in
    let* L33 := initializeFactorRow init33 b33 L33 i in
    let* Di := rd D33 i in
    let* rb31 := rd (row_begin (b_sp b31)) i in
    let* re31 := rd (row_begin (b_sp b31)) (i + 1) in
    let* st1 :=
      foldM (fun (st : list F * list F * list F * F) k =>
               let '(L31, L32, L33, Di) := st in
               let* r := factorizeUpLookingInnerLeft3 b11 b21 b31 b32 b33
                           L11 D11 L21 k (L31, L32, L33) in
               let '(L31, L32, L33, c) := r in
               Ok (L31, L32, L33, (Di - c)%s))
            (irange rb31 re31) (L31, L32, L33, Di) in
    let '(L31, L32, L33, Di) := st1 in
    let* D33 := wr D33 i Di in
    Ok (L31, L32, L33, D33).

  (** ctldl/factorize/factorize_up_looking.hpp:295-308 *)
  Definition factorizePartialUpLooking (b11 b21 b31 b32 b33 : blk)
      (L11 D11 L21 : list F) (init31 init32 init33 : init)
      (st : list F * list F * list F * list F)
      : res (list F * list F * list F * list F) :=
    foldM (fun st i =>
             factorizePartialUpLookingImpl b11 b21 b31 b32 b33 L11 D11 L21
               init31 init32 init33 i st)
          (seq 0 (c_rows (b_sp b31))) st.

  (** ctldl/factorize/factorize_entry_wise.hpp:34-53 *)
  Definition factorEntryWiseSubdiagonalImplRow (b11 b21 : blk)
      (L11 D11 : list F) (init21 : init) (k : nat) (L21 : list F)
      : res (list F) :=
    let* e := rd (c_entries (b_sp b21)) k in
    let (i, j) := (e : nat * nat) in
    let* lij := getInitialFactorValueL init21 b21 L21 k in
    let* cs := getContributionsMixed (b_sp b11) (b_sp b21) i j in
    let* lij :=
      foldM (fun lij (c : contribution) =>
               let '(ik, jk, kk) := c in
               let* a := rd L21 ik in
               let* b := rd L11 jk in
               let* d := rd D11 kk in
               Ok (lij - a * b * d)%s)
            cs lij in
    let* dj := rd D11 j in
    wr L21 k (lij / dj)%s.

  (** std::views::pairwise *)
  Fixpoint pairwise (l : list nat) : list (nat * nat) :=
    match l with
    | a :: (b :: _) as t => (a, b) :: pairwise t
    | _ => []
    end.

  (** ctldl/factorize/factorize_entry_wise.hpp:65-77 *)
  Definition factorizeEntryWiseSubdiagonal (b11 b21 : blk) (L11 D11 : list F)
      (init21 : init) (L21 : list F) : res (list F) :=
    foldM (fun L21 (be : nat * nat) =>
             foldM (fun L21 k =>
                      factorEntryWiseSubdiagonalImplRow b11 b21 L11 D11 init21
                        k L21)
                   (irange (fst be) (snd be)) L21)
          (pairwise (row_begin (b_sp b21))) L21.

  (** ctldl/factorize/factorize_entry_wise.hpp:79-94, square.hpp:6-8 *)
  Definition applyContributionsRowDiagonal (b : blk) (L : list F)
      (Ddiag : list F) (i : nat) (value_init : F) : res F :=
    let* rb := rd (row_begin (b_sp b)) i in
    let* re := rd (row_begin (b_sp b)) (i + 1) in
    foldM (fun v k =>
             let* e := rd (c_entries (b_sp b)) k in
             let* l := rd L k in
             let* d := rd Ddiag (snd e) in
             Ok (v - l * l * d)%s)
          (irange rb re) value_init.

  (** ctldl/factorize/factorize_entry_wise.hpp:96-106 *)
  Definition applyContributions (L : list F) (Ddiag : list F)
      (cs : list contribution) (value_init : F) : res F :=
    foldM (fun v (c : contribution) =>
             let '(ik, jk, kk) := c in
             let* a := rd L ik in
             let* b := rd L jk in
             let* d := rd Ddiag kk in
             Ok (v - a * b * d)%s)
          cs value_init.

  (** ctldl/factorize/factorize_entry_wise.hpp:122-146 *)
  Definition factorizeEntryWiseImplRow (b21 b22 : blk) (D11 : list F)
      (L21 : list F) (init22 : init) (D22 : list F) (k : nat) (L22 : list F)
      : res (list F * F) :=
    let* e := rd (c_entries (b_sp b22)) k in
    let (i, j) := (e : nat * nat) in
    let* lij := getInitialFactorValueL init22 b22 L22 k in
    let* cs21 := getContributionsRectangular (b_sp b21) i j in
    let* cs22 := getContributionsLowerTriangle (b_sp b22) i j in
    let* lij := applyContributions L21 D11 cs21 lij in
    let* lij := applyContributions L22 D22 cs22 lij in
    let* dj := rd D22 j in
    let lij := (lij / dj)%s in
    let* L22 := wr L22 k lij in
    Ok (L22, (lij * lij * dj)%s).

  (** ctldl/factorize/factorize_entry_wise.hpp:159-183; the state is
      (L22, D22) *)
  Definition factorizeEntryWiseDiag (b21 b22 : blk) (D11 L21 : list F)
      (init22 : init) (reg : F -> nat -> F) (st : list F * list F)
      : res (list F * list F) :=
    let* _ := static_assert (c_rows (b_sp b22) =? c_rows (b_sp b21)) in
    foldM (fun (st : list F * list F) i =>
             let (L22, D22) := st in
             let* rb := rd (row_begin (b_sp b22)) i in
             let* re := rd (row_begin (b_sp b22)) (i + 1) in
             let* Di := getInitialFactorValueD init22 b22 D22 i in
             let* Di := applyContributionsRowDiagonal b21 L21 D11 i Di in
             let* st1 :=
               foldM (fun (st : list F * F) k =>
                        let (L22, Di) := st in
                        let* r := factorizeEntryWiseImplRow b21 b22 D11 L21
                                    init22 D22 k L22 in
                        let (L22, c) := (r : list F * F) in
                        Ok (L22, (Di - c)%s))
                     (irange rb re) (L22, Di) in
             let (L22, Di) := (st1 : list F * F) in
             let Di := reg Di i in
             let* D22 := wr D22 i Di in
             Ok (L22, D22))
          (seq 0 (c_rows (b_sp b21))) st.

  (** ctldl/factorize/factorize_entry_wise.hpp:201-217 *)
  Definition factorizeEntryWise (b11 b21 b22 : blk) (L11 D11 : list F)
      (init21 init22 : init) (reg : F -> nat -> F)
      (st : list F * list F * list F) : res (list F * list F * list F) :=
    let '(L21, L22, D22) := st in
    let* _ := factorizeStaticAsserts b11 b21 b22 init21 init22 in
    let* L21 := factorizeEntryWiseSubdiagonal b11 b21 L11 D11 init21 L21 in
    let* LD := factorizeEntryWiseDiag b21 b22 D11 L21 init22 reg (L22, D22) in
    let (L22, D22) := (LD : list F * list F) in
    Ok (L21, L22, D22).

  (** ctldl/factorize/factorize_method.hpp:5-10 *)
  Inductive method := UpLooking | EntryWise.

  (** ctldl/factorize/factorize_up_looking.hpp:234-243,
      factorize_entry_wise.hpp:238-247 *)
  Definition factorize5 (mt : method) (b11 b21 b22 : blk) (L11 D11 : list F)
      (init21 init22 : init) (reg : F -> nat -> F)
      (st : list F * list F * list F) : res (list F * list F * list F) :=
    match mt with
    | UpLooking =>
        factorizeUpLooking b11 b21 b22 L11 D11 init21 init22 reg st
    | EntryWise =>
        factorizeEntryWise b11 b21 b22 L11 D11 init21 init22 reg st
    end.

  (** ctldl/factorize/factorize_up_looking.hpp:224-232, 245-250 and
      factorize_entry_wise.hpp:228-236, 249-254; with
      ctldl/factor_data/factorization.hpp:65-70. The state is (L, D). *)
  Definition factorize (mt : method) (b : blk) (ini : init)
      (reg : F -> nat -> F) (st : list F * list F) : res (list F * list F) :=
    let b21 := emptyLeftBlk b in
    let b11 := emptyDiagBlk in
    let empty_init21 := Some (emptyMatrixInput (c_rows (b_sp b)) 0) in
    let* r := factorize5 mt b11 b21 b [] [] empty_init21 ini reg
                ([], fst st, snd st) in
    let '(_, L, D) := r in
    Ok (L, D).

  (** ctldl/solve/solve_forward_substitution.hpp:10-26 *)
  Definition solveForwardSubstitutionRow (b : blk) (L : list F) (i : nat)
      (solution : list F) (value_init : F) : res F :=
    let* rb := rd (row_begin (b_sp b)) i in
    let* re := rd (row_begin (b_sp b)) (i + 1) in
    foldM (fun v k =>
             let* e := rd (c_entries (b_sp b)) k in
             let* jo := origColIndex b (snd e) in
             let* l := rd L k in
             let* x := rd solution jo in
             Ok (v - l * x)%s)
          (irange rb re) value_init.

  (** ctldl/solve/solve_forward_substitution.hpp:50-60; [solution = None]: the
      same vector as [partial] (the in-place overload, lines 105-109) *)
  Definition solveForwardSubstitution (b : blk) (L : list F)
      (solution : option (list F)) (partial : list F) : res (list F) :=
    foldM (fun partial i =>
             let* io := origRowIndex b i in
             let* v := rd partial io in
             let* v' := solveForwardSubstitutionRow b L i
                          (value_or solution partial) v in
             wr partial io v')
          (seq 0 (c_rows (b_sp b))) partial.

  (** ctldl/solve/solve_forward_substitution.hpp:85-103 *)
  Definition solveForwardSubstitutionLeft (bd : blk) (Ld : list F)
      (bl : blk) (Ll : list F) (solution_left : list F) (rhs : list F)
      : res (list F) :=
    let* _ := static_assert (c_rows (b_sp bd) =? c_rows (b_sp bl)) in
    let* _ := static_assert (perm_eqb (b_prow bd) (b_prow bl)) in
    foldM (fun rhs i =>
             let* io := origRowIndex bd i in
             let* v := rd rhs io in
             let* v := solveForwardSubstitutionRow bl Ll i solution_left v in
             let* v := solveForwardSubstitutionRow bd Ld i rhs v in
             wr rhs io v)
          (seq 0 (c_rows (b_sp bd))) rhs.

  (** ctldl/solve/solve_backward_substitution.hpp:10-26 *)
  Definition solveBackwardSubstitutionRow (b : blk) (L : list F) (i : nat)
      (solution_i : F) (partial : list F) : res (list F) :=
    let* rb := rd (row_begin (b_sp b)) i in
    let* re := rd (row_begin (b_sp b)) (i + 1) in
    foldM (fun partial k =>
             let* e := rd (c_entries (b_sp b)) k in
             let* jo := origColIndex b (snd e) in
             let* v := rd partial jo in
             let* l := rd L k in
             wr partial jo (v - l * solution_i)%s)
          (irange rb re) partial.

  (** ctldl/solve/solve_backward_substitution.hpp:51-62, [solution = None]:
      in place (lines 76-81) *)
  Definition solveBackwardSubstitution (b : blk) (L : list F)
      (solution : option (list F)) (partial : list F) : res (list F) :=
    foldM (fun partial i =>
             let* io := origRowIndex b i in
             let* s := rd (value_or solution partial) io in
             solveBackwardSubstitutionRow b L i s partial)
          (rev (seq 0 (c_rows (b_sp b)))) partial.

  (** ctldl/factor_data/factorization.hpp:79-86; [dim] is the dimension of the
      block *)
  Definition diagonalSolve (b : blk) (D : list F) (rhs : list F)
      : res (list F) :=
    foldM (fun rhs i =>
             let* io := origRowIndex b i in
             let* v := rd rhs io in
             let* d := rd D i in
             wr rhs io (v / d)%s)
          (seq 0 (c_rows (b_sp b))) rhs.

  (** ctldl/factor_data/factorization.hpp:72-77 *)
  Definition solveInPlace (b : blk) (LD : list F * list F) (rhs : list F)
      : res (list F) :=
    let* rhs := solveForwardSubstitution b (fst LD) None rhs in
    let* rhs := diagonalSolve b (snd LD) rhs in
    solveBackwardSubstitution b (fst LD) None rhs.

  (** ctldl/matrix/multiply_kind.hpp:7-16: (Normal bit, Transposed bit) *)
  Inductive multiplyKind := Normal | Transposed | Symmetric.
  Definition hasNormal (k : multiplyKind) : bool :=
    match k with Transposed => false | _ => true end.
  Definition hasTransposed (k : multiplyKind) : bool :=
    match k with Normal => false | _ => true end.
  Definition isSymmetric (k : multiplyKind) : bool :=
    match k with Symmetric => true | _ => false end.

  (** ctldl/matrix/multiply.hpp:10-33 *)
  Definition multiply (kind : multiplyKind) (m : mat) (solution rhs : list F)
      : res (list F) :=
    foldM (fun rhs k =>
             let* e := rd (entries (m_sp m)) k in
             let (r, c) := (e : nat * nat) in
             let* v := m_val m k in
             let* rhs :=
               if hasNormal kind then
                 let* a := rd rhs r in
                 let* x := rd solution c in
                 wr rhs r (a + v * x)%s
               else Ok rhs in
             if isSymmetric kind && (r =? c) then Ok rhs
             else if hasTransposed kind then
               let* a := rd rhs c in
               let* x := rd solution r in
               wr rhs c (a + v * x)%s
             else Ok rhs)
          (seq 0 (nnz (m_sp m))) rhs.
End Numeric.
