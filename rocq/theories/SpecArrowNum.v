(** The assembled matrix, factor and vector of a repeating block tridiagonal
    arrowhead linked system. *)
From Coq Require Import List Arith Bool.
From Verif Require Import Base ModelPerm ModelSparsity ModelSymbolic ModelNumeric ModelArrow.
From Verif Require Import SpecSymbolic SpecArrow SpecNumeric.
Import ListNotations.

(** row or column of the assembled matrix: of the start block, of the
    tridiagonal block number t, of the link block, of the outer block *)
Inductive gidx :=
| GS (i : nat)
| GT (t i : nat)
| GL (i : nat)
| GO (i : nat).

Definition gidx_eq_dec (g h : gidx) : {g = h} + {g <> h}.
Proof. decide equality; apply Nat.eq_dec. Defined.

(** all rows for n repetitions, i.e. n+1 tridiagonal blocks *)
Definition allIdx (n ds dt dl dO : nat) : list gidx :=
  map GS (seq 0 ds) ++
  concat (map (fun t => map (GT t) (seq 0 dt)) (seq 0 (n + 1))) ++
  map GL (seq 0 dl) ++ map GO (seq 0 dO).

(** row of the original matrix that is row [g] of the permuted matrix *)
Definition permIdx (s : arrow_sp) (g : gidx) : gidx :=
  match g with
  | GS i => GS (nth i (ss_perm (as_start s)) 0)
  | GT t i => GT t (nth i (st_perm (as_tri s)) 0)
  | GL i => GL (nth i (sl_perm (as_link s)) 0)
  | GO i => GO (nth i (so_perm (as_outer s)) 0)
  end.

(** order of the rows of the assembled matrix *)
Definition gbefore (g h : gidx) : Prop :=
  match g, h with
  | GS i, GS j => i < j
  | GS _, _ => True
  | GT t i, GT u j => t < u \/ (t = u /\ i < j)
  | GT _ _, (GL _ | GO _) => True
  | GL i, GL j => i < j
  | GL _, GO _ => True
  | GO i, GO j => i < j
  | _, _ => False
  end.

(** the blocks as functions *)
Record arrow_fun {F : Type} := mkAF {
  f_sd : nat -> nat -> F; f_sn : nat -> nat -> F; f_so : nat -> nat -> F;
  f_td : nat -> nat -> nat -> F; f_ts : nat -> nat -> nat -> F;
  f_lp : nat -> nat -> F; f_ld : nat -> nat -> F; f_ln : nat -> nat -> F;
  f_os : nat -> nat -> nat -> F; f_od : nat -> nat -> F }.
Arguments arrow_fun : clear implicits.

Section Assembled.
  Context {F : Type} (O : ops F).

  (** symmetric matrix with n+1 tridiagonal blocks *)
  Definition symArrow (n : nat) (f : arrow_fun F) (g h : gidx) : F :=
    match g, h with
    | GS i, GS j => f_sd f i j
    | GT t i, GS j | GS j, GT t i => if t =? 0 then f_sn f i j else o0 O
    | GL _, GS _ | GS _, GL _ => o0 O
    | GO i, GS j | GS j, GO i => f_so f i j
    | GT t i, GT u j =>
        if t =? u then f_td f t i j
        else if t =? u + 1 then f_ts f u i j
        else if u =? t + 1 then f_ts f t j i
        else o0 O
    | GL i, GT t j | GT t j, GL i => if t =? n then f_lp f i j else o0 O
    | GO i, GT t j | GT t j, GO i => f_os f t i j
    | GL i, GL j => f_ld f i j
    | GO i, GL j | GL j, GO i => f_ln f i j
    | GO i, GO j => f_od f i j
    end.

  (** block lower triangular matrix *)
  Definition lowArrow (n : nat) (f : arrow_fun F) (g h : gidx) : F :=
    match g, h with
    | GS i, GS j => f_sd f i j
    | GT t i, GS j => if t =? 0 then f_sn f i j else o0 O
    | GO i, GS j => f_so f i j
    | GT t i, GT u j =>
        if t =? u then f_td f t i j
        else if t =? u + 1 then f_ts f u i j
        else o0 O
    | GL i, GT t j => if t =? n then f_lp f i j else o0 O
    | GO i, GT t j => f_os f t i j
    | GL i, GL j => f_ld f i j
    | GO i, GL j => f_ln f i j
    | GO i, GO j => f_od f i j
    | _, _ => o0 O
    end.

  (** values of the ten kinds of blocks *)
  Record arrow_vals := mkVals {
    w_sd : list F; w_sn : list F; w_so : list F;
    w_td : list (list F); w_ts : list (list F);
    w_lp : list F; w_ld : list F; w_ln : list F;
    w_os : list (list F); w_od : list F }.

  Definition noMat : mat (F:=F) := mkMat (emptySparsity 0 0) (fun _ => Err UB).

  (** entry (g, h) of the assembled input matrix; the diagonal blocks are given
      by their lower triangles *)
  Definition matFun (m : arrow_mat (F:=F)) (w : arrow_vals) : arrow_fun F := mkAF F
    (symAt O (entries (m_sp (a_sd m))) (w_sd w))
    (denseAt O (entries (m_sp (a_sn m))) (w_sn w))
    (denseAt O (entries (m_sp (a_so m))) (w_so w))
    (fun t => symAt O (entries (m_sp (nth t (a_td m) noMat))) (nth t (w_td w) []))
    (fun t => denseAt O (entries (m_sp (nth t (a_ts m) noMat))) (nth t (w_ts w) []))
    (denseAt O (entries (m_sp (a_lp m))) (w_lp w))
    (symAt O (entries (m_sp (a_ld m))) (w_ld w))
    (denseAt O (entries (m_sp (a_ln m))) (w_ln w))
    (fun t => denseAt O (entries (m_sp (nth t (a_os m) noMat))) (nth t (w_os w) []))
    (symAt O (entries (m_sp (a_od m))) (w_od w)).
  Definition matAt (m : arrow_mat (F:=F)) (w : arrow_vals) : gidx -> gidx -> F :=
    symArrow (length (a_ts m)) (matFun m w).

  (** entry (g, h) of the assembled matrix as used by the product: duplicate
      entries add up, an entry of a diagonal block also stands for its
      transposed entry *)
  Definition multFun (m : arrow_mat (F:=F)) (w : arrow_vals) : arrow_fun F := mkAF F
    (kindAt O Symmetric (entries (m_sp (a_sd m))) (w_sd w))
    (totalAt O (entries (m_sp (a_sn m))) (w_sn w))
    (totalAt O (entries (m_sp (a_so m))) (w_so w))
    (fun t => kindAt O Symmetric (entries (m_sp (nth t (a_td m) noMat))) (nth t (w_td w) []))
    (fun t => totalAt O (entries (m_sp (nth t (a_ts m) noMat))) (nth t (w_ts w) []))
    (totalAt O (entries (m_sp (a_lp m))) (w_lp w))
    (kindAt O Symmetric (entries (m_sp (a_ld m))) (w_ld w))
    (totalAt O (entries (m_sp (a_ln m))) (w_ln w))
    (fun t => totalAt O (entries (m_sp (nth t (a_os m) noMat))) (nth t (w_os w) []))
    (kindAt O Symmetric (entries (m_sp (a_od m))) (w_od w)).
  Definition productAt (m : arrow_mat (F:=F)) (w : arrow_vals) : gidx -> gidx -> F :=
    symArrow (length (a_ts m)) (multFun m w).

  (** entry (i, j) of block (t, u) of a block tridiagonal matrix *)
  Definition triAt (td ts : nat -> nat -> nat -> F) (t i u j : nat) : F :=
    if t =? u then td t i j
    else if t =? u + 1 then ts u i j
    else if u =? t + 1 then ts t j i
    else o0 O.

  (** entry (g, h) of the assembled unit lower triangular factor *)
  Definition factorFun (one : F) (k : arrow_blks) (d : arrow_data (F:=F)) : arrow_fun F := mkAF F
    (unitAt O one (c_entries (b_sp (k_sd k))) (fst (d_sd d)))
    (denseAt O (c_entries (b_sp (k_sn k))) (d_sn d))
    (denseAt O (c_entries (b_sp (k_so k))) (d_so d))
    (fun t => unitAt O one (c_entries (b_sp (k_td k))) (fst (nth t (d_td d) ([], []))))
    (fun t => denseAt O (c_entries (b_sp (k_ts k))) (nth t (d_ts d) []))
    (denseAt O (c_entries (b_sp (k_lp k))) (d_lp d))
    (unitAt O one (c_entries (b_sp (k_ld k))) (fst (d_ld d)))
    (denseAt O (c_entries (b_sp (k_ln k))) (d_ln d))
    (fun t => denseAt O (c_entries (b_sp (k_os k))) (nth t (d_os d) []))
    (unitAt O one (c_entries (b_sp (k_od k))) (fst (d_od d))).
  Definition factorAt (one : F) (k : arrow_blks) (d : arrow_data (F:=F)) : gidx -> gidx -> F :=
    lowArrow (length (d_ts d)) (factorFun one k d).

  (** entry g of the assembled diagonal *)
  Definition pivotAt (d : arrow_data (F:=F)) (g : gidx) : F :=
    match g with
    | GS i => vecAt O (snd (d_sd d)) i
    | GT t i => vecAt O (snd (nth t (d_td d) ([], []))) i
    | GL i => vecAt O (snd (d_ld d)) i
    | GO i => vecAt O (snd (d_od d)) i
    end.

  (** row number that the regularization is called with *)
  Definition localIdx (g : gidx) : nat :=
    match g with GS i => i | GT _ i => i | GL i => i | GO i => i end.

  (** entry g of a blocked vector *)
  Definition gvecAt (v : arrow_vec (F:=F)) (g : gidx) : F :=
    match g with
    | GS i => vecAt O (v_start v) i
    | GT t i => vecAt O (nth t (v_tri v) []) i
    | GL i => vecAt O (v_link v) i
    | GO i => vecAt O (v_outer v) i
    end.

  Definition plusDiagG (A : gidx -> gidx -> F) (E : gidx -> F) (g h : gidx) : F :=
    if gidx_eq_dec g h then oadd O (A g h) (E g) else A g h.

  (** matrix-vector product and L D L^T over a list of indices *)
  Definition gmatVec (all : list gidx) (A : gidx -> gidx -> F) (x : gidx -> F) (g : gidx) : F :=
    suml O all (fun h => omul O (A g h) (x h)).
  Definition gldltAt (all : list gidx) (L : gidx -> gidx -> F) (D : gidx -> F) (g h : gidx) : F :=
    suml O all (fun k => omul O (omul O (L g k) (D k)) (L h k)).

  (** block tridiagonal matrix plus a diagonal, and product with a blocked vector *)
  Definition plusDiagT (A : nat -> nat -> nat -> nat -> F) (E : nat -> nat -> F)
      (t i u j : nat) : F :=
    if (t =? u) && (i =? j) then oadd O (A t i u j) (E t i) else A t i u j.
  Definition triMatVec (n dt : nat) (A : nat -> nat -> nat -> nat -> F)
      (x : list (list F)) (t i : nat) : F :=
    sumn O (n + 1) (fun u => sumn O dt (fun j =>
      omul O (A t i u j) (vecAt O (nth u x []) j))).

  (** sizes of the arrays of a factorization with n repetitions *)
  Record dataOf (k : arrow_blks) (n ds dt dl dO : nat) (d : arrow_data (F:=F)) : Prop := mkDataOf {
    do_sd : length (fst (d_sd d)) = c_nnz (b_sp (k_sd k)) /\ length (snd (d_sd d)) = ds;
    do_sn : length (d_sn d) = c_nnz (b_sp (k_sn k));
    do_so : length (d_so d) = c_nnz (b_sp (k_so k));
    do_ntd : length (d_td d) = n + 1;
    do_td : forall t, t < n + 1 ->
      length (fst (nth t (d_td d) ([], []))) = c_nnz (b_sp (k_td k)) /\
      length (snd (nth t (d_td d) ([], []))) = dt;
    do_nts : length (d_ts d) = n;
    do_ts : forall t, t < n -> length (nth t (d_ts d) []) = c_nnz (b_sp (k_ts k));
    do_lp : length (d_lp d) = c_nnz (b_sp (k_lp k));
    do_ld : length (fst (d_ld d)) = c_nnz (b_sp (k_ld k)) /\ length (snd (d_ld d)) = dl;
    do_ln : length (d_ln d) = c_nnz (b_sp (k_ln k));
    do_nos : length (d_os d) = n + 1;
    do_os : forall t, t < n + 1 -> length (nth t (d_os d) []) = c_nnz (b_sp (k_os k));
    do_od : length (fst (d_od d)) = c_nnz (b_sp (k_od k)) /\ length (snd (d_od d)) = dO }.

  (** sizes of a blocked vector *)
  Record vecOf (n ds dt dl dO : nat) (v : arrow_vec (F:=F)) : Prop := mkVecOf {
    vo_start : length (v_start v) = ds;
    vo_ntri : length (v_tri v) = n + 1;
    vo_tri : forall t, t < n + 1 -> length (nth t (v_tri v) []) = dt;
    vo_link : length (v_link v) = dl;
    vo_outer : length (v_outer v) = dO }.

  (** n+1 blocks of size dt *)
  Definition blocksOf (n dt : nat) (v : list (list F)) : Prop :=
    length v = n + 1 /\ forall t, t < n + 1 -> length (nth t v []) = dt.

  (** all zeros *)
  Definition zeroVec (n ds dt dl dO : nat) : arrow_vec (F:=F) :=
    mkAV (repeat (o0 O) ds) (repeat (repeat (o0 O) dt) (n + 1))
         (repeat (o0 O) dl) (repeat (o0 O) dO).

  (** the matrix [m] has size nr x nc and values [vals] *)
  Definition matOf (m : mat (F:=F)) (nr nc : nat) (vals : list F) : Prop :=
    spOf (m_sp m) nr nc /\ inputOf O m (m_sp m) vals.

  (** an input matrix for n repetitions with values [w] *)
  Record inputArrow (n ds dt dl dO : nat) (m : arrow_mat (F:=F)) (w : arrow_vals) : Prop :=
    mkInputArrow {
    ia_sd : matOf (a_sd m) ds ds (w_sd w);
    ia_sn : matOf (a_sn m) dt ds (w_sn w);
    ia_so : matOf (a_so m) dO ds (w_so w);
    ia_ntd : length (a_td m) = n + 1;
    ia_td : forall t, t < n + 1 -> matOf (nth t (a_td m) noMat) dt dt (nth t (w_td w) []);
    ia_nts : length (a_ts m) = n;
    ia_ts : forall t, t < n -> matOf (nth t (a_ts m) noMat) dt dt (nth t (w_ts w) []);
    ia_lp : matOf (a_lp m) dl dt (w_lp w);
    ia_ld : matOf (a_ld m) dl dl (w_ld w);
    ia_ln : matOf (a_ln m) dO dl (w_ln w);
    ia_nos : length (a_os m) = n + 1;
    ia_os : forall t, t < n + 1 -> matOf (nth t (a_os m) noMat) dO dt (nth t (w_os w) []);
    ia_od : matOf (a_od m) dO dO (w_od w) }.

  (** block tridiagonal input with n+1 diagonal and n subdiagonal blocks *)
  Record inputTri (n dt : nat) (A B : list (mat (F:=F))) (wA wB : list (list F)) : Prop :=
    mkInputTri {
    it_nA : length A = n + 1;
    it_A : forall t, t < n + 1 -> matOf (nth t A noMat) dt dt (nth t wA []);
    it_nB : length B = n;
    it_B : forall t, t < n -> matOf (nth t B noMat) dt dt (nth t wB []) }.
  (** the symmetric matrix it stands for *)
  Definition triMatAt (A B : list (mat (F:=F))) (wA wB : list (list F)) :=
    triAt (fun t => symAt O (entries (m_sp (nth t A noMat))) (nth t wA []))
          (fun t => denseAt O (entries (m_sp (nth t B noMat))) (nth t wB [])).
  (** and the one that products use *)
  Definition triProductAt (A B : list (mat (F:=F))) (wA wB : list (list F)) :=
    triAt (fun t => kindAt O Symmetric (entries (m_sp (nth t A noMat))) (nth t wA []))
          (fun t => totalAt O (entries (m_sp (nth t B noMat))) (nth t wB [])).

  (** each entry is listed once, of diagonal blocks only in the lower triangle *)
  Definition simpleSym (m : mat (F:=F)) : Prop :=
    NoDup (entries (m_sp m)) /\ forall r c, In (r, c) (entries (m_sp m)) -> c <= r.
  Definition simpleRect (m : mat (F:=F)) : Prop := NoDup (entries (m_sp m)).
  Record simpleArrow (n : nat) (m : arrow_mat (F:=F)) : Prop := mkSimpleArrow {
    si_sd : simpleSym (a_sd m);
    si_sn : simpleRect (a_sn m);
    si_so : simpleRect (a_so m);
    si_td : forall t, t < n + 1 -> simpleSym (nth t (a_td m) noMat);
    si_ts : forall t, t < n -> simpleRect (nth t (a_ts m) noMat);
    si_lp : simpleRect (a_lp m);
    si_ld : simpleSym (a_ld m);
    si_ln : simpleRect (a_ln m);
    si_os : forall t, t < n + 1 -> simpleRect (nth t (a_os m) noMat);
    si_od : simpleSym (a_od m) }.

  (** all entries of the input (of diagonal blocks: below the diagonal) are declared *)
  Definition declaredLow (m : mat (F:=F)) (s : sparsity) : Prop :=
    forall r c, In (r, c) (entries (m_sp m)) -> c < r -> In (r, c) (entries s).
  Definition declaredAll (m : mat (F:=F)) (s : sparsity) : Prop :=
    forall r c, In (r, c) (entries (m_sp m)) -> In (r, c) (entries s).

  Record declaredArrow (s : arrow_sp) (n : nat) (m : arrow_mat (F:=F)) : Prop := mkDeclaredArrow {
    da_sd : declaredLow (a_sd m) (ss_diag (as_start s));
    da_sn : declaredAll (a_sn m) (ss_next (as_start s));
    da_so : declaredAll (a_so m) (ss_outer (as_start s));
    da_td : forall t, t < n + 1 -> declaredLow (nth t (a_td m) noMat) (st_diag (as_tri s));
    da_ts : forall t, t < n -> declaredAll (nth t (a_ts m) noMat) (st_subdiag (as_tri s));
    da_lp : declaredAll (a_lp m) (sl_prev (as_link s));
    da_ld : declaredLow (a_ld m) (sl_diag (as_link s));
    da_ln : declaredAll (a_ln m) (sl_next (as_link s));
    da_os : forall t, t < n + 1 -> declaredAll (nth t (a_os m) noMat) (so_subdiag (as_outer s));
    da_od : declaredLow (a_od m) (so_diag (as_outer s)) }.

  Definition declaredTri (a b : sparsity) n (A B : list (mat (F:=F))) : Prop :=
    (forall t, t < n + 1 -> declaredLow (nth t A noMat) a) /\
    (forall t, t < n -> declaredAll (nth t B noMat) b).

  Definition simpleTri n (A B : list (mat (F:=F))) : Prop :=
    (forall t, t < n + 1 -> simpleSym (nth t A noMat)) /\
    (forall t, t < n -> simpleRect (nth t B noMat)).
End Assembled.
Arguments arrow_vals : clear implicits.
