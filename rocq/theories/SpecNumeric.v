(** Exact arithmetic and dense linear algebra used in the statements. *)
From Coq Require Import List Arith Bool Ring_theory.
From Verif Require Import Base ModelSparsity ModelNumeric SpecSymbolic.

(** The scalars form a field ("exact arithmetic"). Division by zero is left
    unspecified. *)
Record fieldLaws {F} (O : ops F) := mkFieldLaws {
  fl_one : F;
  fl_opp : F -> F;
  fl_ring : ring_theory (o0 O) fl_one (oadd O) (omul O) (osub O) fl_opp (@eq F);
  fl_div : forall a b, b <> o0 O -> omul O (odiv O a b) b = a;
  fl_10 : fl_one <> o0 O }.
Arguments fl_one {F O}. Arguments fl_opp {F O}. Arguments fl_ring {F O}.
Arguments fl_div {F O}. Arguments fl_10 {F O}.

Section Sum.
  Context {F : Type} (O : ops F).

  (** f 0 + ... + f (n-1) *)
  Fixpoint sumn (n : nat) (f : nat -> F) : F :=
    match n with
    | 0 => o0 O
    | S m => oadd O (sumn m f) (f m)
    end.

  (** sum over a list *)
  Definition suml {A} (l : list A) (f : A -> F) : F :=
    fold_right (fun a s => oadd O (f a) s) (o0 O) l.
End Sum.

Section Dense.
  Context {F : Type} (O : ops F).

  (** the first value in a list of entries with values, zero if there is none *)
  Fixpoint firstValue (l : list ((nat * nat) * F)) (i j : nat) : F :=
    match l with
    | nil => o0 O
    | cons ((r, c), v) l' => if (r =? i) && (c =? j) then v else firstValue l' i j
    end.

  (** dense view of a list of entries [es] with values [vals] *)
  Definition denseAt (es : list (nat * nat)) (vals : list F) (i j : nat) : F :=
    firstValue (combine es vals) i j.

  (** the symmetric matrix given by its lower triangle *)
  Definition symAt (es : list (nat * nat)) (vals : list F) (i j : nat) : F :=
    denseAt es vals (Nat.max i j) (Nat.min i j).

  (** the unit lower triangular matrix whose strictly lower entries are [es] *)
  Definition unitAt (one : F) (es : list (nat * nat)) (L : list F) (i k : nat) : F :=
    if i =? k then one else denseAt es L i k.

  (** [A + diag E] *)
  Definition plusDiag (A : nat -> nat -> F) (E : nat -> F) (i j : nat) : F :=
    if i =? j then oadd O (A i j) (E i) else A i j.

  (** an input matrix (user type with members [sparsity] and [valueAt]) with
      values [vals] *)
  Record inputOf (m : mat) (sp : sparsity) (vals : list F) : Prop := mkInputOf {
    io_sp : m_sp m = sp;
    io_len : length vals = length (entries sp);
    io_val : forall k, k < length vals -> m_val m k = Ok (nth k vals (o0 O)) }.

  Definition vecAt (v : list F) (i : nat) : F := nth i v (o0 O).

  (** entry (i, j) of L D L^T, where L is unit lower triangular with strictly
      lower entries [es] *)
  Definition ldltAt (one : F) (n : nat) (es : list (nat * nat)) (L D : list F)
      (i j : nat) : F :=
    sumn O n (fun k =>
      omul O (omul O (unitAt one es L i k) (vecAt D k)) (unitAt one es L j k)).

  (** component i of the product of an n-column matrix with a vector *)
  Definition matVec (n : nat) (A : nat -> nat -> F) (x : list F) (i : nat) : F :=
    sumn O n (fun j => omul O (A i j) (vecAt x j)).

  (** the sum of the values of all entries at a position *)
  Definition totalAt (es : list (nat * nat)) (vals : list F) (i j : nat) : F :=
    suml O (combine es vals)
      (fun e => if (fst (fst e) =? i) && (snd (fst e) =? j) then snd e else o0 O).

  (** A, A^T, and A + A^T - diag(A), where duplicate entries of A add up *)
  Definition kindAt (kind : multiplyKind) (es : list (nat * nat)) (vals : list F)
      (i j : nat) : F :=
    match kind with
    | Normal => totalAt es vals i j
    | Transposed => totalAt es vals j i
    | Symmetric =>
        if i =? j then totalAt es vals i i
        else oadd O (totalAt es vals i j) (totalAt es vals j i)
    end.
End Dense.

(** The strictly lower triangle of the permuted input matrix is contained in the
    factor of the permuted declared matrix. In particular this is the case if
    all entries of the input below the diagonal have been declared. *)
Definition coveredSym (input declared : list (nat * nat)) (n : nat) (p : list nat) : Prop :=
  forall i j, permLow input n p i j -> Fill (permLow declared n p) i j.
