(** Rounded arithmetic with overflow: an operation on finite scalars whose exact result
    is at most Om in absolute value has a finite result. *)
From Coq Require Import Reals List.
From Verif Require Import ModelNumeric SpecNumeric SpecReg SpecRound.
Local Open Scope R_scope.

Record noOverflow {F : Type} (O : ops F) (fin : F -> Prop) (val : F -> R) (Om : R) : Prop := mkNoOverflow {
  no_add : forall a b, fin a -> fin b -> Rabs (val a + val b) <= Om -> fin (oadd O a b);
  no_sub : forall a b, fin a -> fin b -> Rabs (val a - val b) <= Om -> fin (osub O a b);
  no_mul : forall a b, fin a -> fin b -> Rabs (val a * val b) <= Om -> fin (omul O a b);
  no_div : forall a b, fin a -> fin b -> val b <> 0 -> Rabs (val a / val b) <= Om -> fin (odiv O a b) }.

(** The absolute values of the entries off the diagonal sum up to at most [th] times the
    absolute value of the entry on the diagonal, in every row. *)
Definition dominatedBy {I : Type} (eqd : forall a b : I, {a = b} + {a <> b}) (all : list I)
    (M : I -> I -> R) (th : R) : Prop :=
  forall g, In g all ->
    suml Or all (fun h => if eqd g h then 0 else Rabs (M g h)) <= th * Rabs (M g g).

(** The range of the numbers is large enough for the factorization of a matrix of
    dimension n that is dominated by its diagonal with the factor th, where the absolute
    values on the diagonal are between amin and amax and the factor has at most r entries
    off the diagonal in each row. *)
Record domFits (u eta Om th amin amax : R) (n r : nat) : Prop := mkDomFits {
  df_th : 0 <= th < 1;
  df_min : 0 < amin;
  df_gam : 80 * gam u (r + 1) <= (1 - th) * (1 - th);
  df_eta : 8 * (INR n * (eta * (INR n * (4 + 12 * amax)))) <= (1 - th) * amin;
  df_one : 1 <= Om;
  df_max : 24 * amax <= (1 - th) * Om;
  df_quot : 24 * amax <= (1 - th) * (1 - th) * amin * Om }.

(** The same for the solution with a right-hand side whose absolute values sum up to
    bsum. *)
Record rhsFits (eta Om th amin : R) (n : nat) (bsum : R) : Prop := mkRhsFits {
  rf_max : 8 * (bsum + 2 * (INR n * INR n * eta)) <= (1 - th) * Om;
  rf_quot : 25 * (bsum + 2 * (INR n * INR n * eta)) <= (1 - th) * (1 - th) * (1 - th) * amin * Om }.

(** bound for the distance of the computed to the exact solution, where X bounds the
    absolute values of the computed one *)
Definition domError (u eta th amin amax : R) (n r : nat) (X : R) : R :=
  (16 * gam u (2 * r + 1) / ((1 - th) * (1 - th)) +
   INR n * (eta * (INR n * (4 + 12 * amax))) / ((1 - th) * amin)) * X +
  eta * (4 * INR r / ((1 - th) * amin) + (16 * INR r + 8) / ((1 - th) * (1 - th))).

(** The pivot p that belongs to the entry a on the diagonal is finite, not zero, of the
    same sign and about as large. *)
Definition goodPivot {F : Type} (fin : F -> Prop) (val : F -> R) (th : R) (a p : F) : Prop :=
  fin p /\ (1 - th) / 2 * Rabs (val a) <= Rabs (val p) <= 2 * Rabs (val a) /\ 0 < val a * val p.

(** xs solves the system M xs = b in real numbers, and nothing else does *)
Definition solves {I : Type} (all : list I) (M : I -> I -> R) (b xs : I -> R) : Prop :=
  forall g, In g all -> suml Or all (fun h => M g h * xs h) = b g.
Definition onlySolution {I : Type} (all : list I) (M : I -> I -> R) (b xs : I -> R) : Prop :=
  solves all M b xs /\ forall ys, solves all M b ys -> forall g, In g all -> ys g = xs g.
