(** Rounded arithmetic. The scalars are of any type; [fin] are the finite ones and
    [val] is the real number they stand for. An operation with a finite result has
    finite operands and returns the exact result up to a relative error of at most u
    and an absolute error of at most eta (underflow). Nothing is said about results
    that are not finite. *)
From Coq Require Import Reals List Arith.
From Verif Require Import ModelSparsity ModelNumeric ModelArrow SpecNumeric SpecArrowNum SpecReg.
Local Open Scope R_scope.

Definition near (u eta x y : R) : Prop :=
  exists d e, Rabs d <= u /\ Rabs e <= eta /\ y = x * (1 + d) + e.

Record rounding {F : Type} (O : ops F) (fin : F -> Prop) (val : F -> R) (u eta : R) : Prop := mkRounding {
  rd_u : 0 <= u < 1;
  rd_eta : 0 <= eta;
  rd_0 : val (o0 O) = 0;
  rd_fin0 : fin (o0 O);
  rd_add : forall a b, fin (oadd O a b) ->
    fin a /\ fin b /\ near u eta (val a + val b) (val (oadd O a b));
  rd_sub : forall a b, fin (osub O a b) ->
    fin a /\ fin b /\ near u eta (val a - val b) (val (osub O a b));
  rd_mul : forall a b, fin (omul O a b) ->
    fin a /\ fin b /\ near u eta (val a * val b) (val (omul O a b));
  rd_div : forall a b, fin b -> fin (odiv O a b) ->
    fin a /\ val b <> 0 /\ near u eta (val a / val b) (val (odiv O a b)) }.

(** error of m roundings: at most m u / (1 - m u) if m u < 1 *)
Definition gam (u : R) (m : nat) : R := / (1 - u) ^ m - 1.

(** unit triangular matrix with the off-diagonal entries [M] *)
Definition unitOf {I : Type} (dec : forall a b : I, {a = b} + {a <> b}) (M : I -> I -> R)
    (g k : I) : R := if dec g k then 1 else M g k.

(** Over any finite index set [all]: a unit triangular matrix [U] and pivots [D]. *)
Section Product.
  Context {I : Type} (all : list I) (U : I -> I -> R) (D : I -> R).

  (** entry (g, h) of U D U^T and of |U| |D| |U^T| *)
  Definition prodAt (g h : I) : R := suml Or all (fun k => U g k * D k * U h k).
  Definition absProdAt (g h : I) : R := suml Or all (fun k => Rabs (U g k * D k * U h k)).
  (** weights of the underflows *)
  Definition underAt (g h : I) : R :=
    suml Or all (fun k => 2 + Rabs (D k) * (1 + Rabs (U g k) + Rabs (U h k))).

  (** bound for the error of entry (g, h) of the factorization, where row g of the
      factor has c entries left of the diagonal *)
  Definition factorBound (u eta : R) (c : nat) (g h : I) : R :=
    gam u (c + 1) * absProdAt g h + eta * underAt g h * (1 + gam u (c + 1)).

  (** bound for the residual of a solution [x] in row g, where row g of the factor has
      cr entries left of the diagonal and no column has more than cc entries below the
      diagonal *)
  Definition solveBound (u eta : R) (cr cc : nat) (x : I -> R) (g : I) : R :=
    gam u (cr + cc + 1) * suml Or all (fun h => absProdAt g h * Rabs (x h)) +
    eta * (2 * INR cr + (2 * INR cc + 1) * suml Or all (fun k => Rabs (U g k * D k))) *
      (1 + gam u (cr + cc + 1)).
End Product.

(** numbers of entries in row i and in column j *)
Definition rowCount (es : list (nat * nat)) (i : nat) : nat :=
  length (filter (fun e => fst e =? i)%nat es).
Definition colCount (es : list (nat * nat)) (j : nat) : nat :=
  length (filter (fun e => snd e =? j)%nat es).

(** numbers of stored entries left of and below the diagonal of the assembled factor
    of an arrowhead system with n+1 tridiagonal blocks *)
Definition rowCountG (k : arrow_blks) (n : nat) (g : gidx) : nat :=
  let c b i := rowCount (c_entries (b_sp b)) i in
  (match g with
  | GS i => c (k_sd k) i
  | GT t i => (if t =? 0 then c (k_sn k) i else c (k_ts k) i) + c (k_td k) i
  | GL i => c (k_lp k) i + c (k_ld k) i
  | GO i => c (k_so k) i + (n + 1) * c (k_os k) i + c (k_ln k) i + c (k_od k) i
  end)%nat.
Definition colCountG (k : arrow_blks) (n : nat) (g : gidx) : nat :=
  let c b j := colCount (c_entries (b_sp b)) j in
  (match g with
  | GS j => c (k_sd k) j + c (k_sn k) j + c (k_so k) j
  | GT t j => c (k_td k) j + (if t =? n then c (k_lp k) j else c (k_ts k) j) + c (k_os k) j
  | GL j => c (k_ld k) j + c (k_ln k) j
  | GO j => c (k_od k) j
  end)%nat.

(** the computed unit triangular factors *)
Definition unitL {F} (O : ops F) (val : F -> R) (es : list (nat * nat)) (L : list F) : nat -> nat -> R :=
  unitOf Nat.eq_dec (fun i k => val (denseAt O es L i k)).
Definition unitG {F} (O : ops F) (val : F -> R) (k : arrow_blks) (d : arrow_data (F:=F)) :
    gidx -> gidx -> R :=
  unitOf gidx_eq_dec (fun g h => val (factorAt O (o0 O) k d g h)).
