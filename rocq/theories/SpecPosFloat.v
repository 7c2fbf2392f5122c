(** Positive definite matrices in rounded arithmetic: what is asked of the matrix, of the
    range of the numbers and of the result. *)
From Coq Require Import Reals List.
From Verif Require Import ModelNumeric SpecNumeric SpecReg SpecRound SpecDomFloat.
Local Open Scope R_scope.

(** The quadratic form of the matrix is at least [lam] times the quadratic form of its
    diagonal. If the diagonal is positive and lam is positive then the matrix is positive
    definite. The largest such lam is the smallest eigenvalue of the matrix after it has
    been scaled from both sides such that its diagonal is one. *)
Definition positiveBy {I : Type} (all : list I) (M : I -> I -> R) (lam : R) : Prop :=
  forall z : I -> R,
    lam * suml Or all (fun j => M j j * (z j * z j)) <=
    suml Or all (fun j => suml Or all (fun k => M j k * z j * z k)).

(** The range and the precision of the numbers are sufficient for the factorization of a
    matrix of dimension n whose diagonal is between amin and amax, where the factor has
    at most r entries off the diagonal in each row and in each column. *)
Record posFits (u eta Om lam amin amax : R) (n r : nat) : Prop := mkPosFits {
  pf_lam : 0 < lam;
  pf_min : 0 < amin;
  pf_gam : 16 * ((INR r + 1) * gam u (r + 1)) <= lam;
  pf_eta : 16 * (INR n * (eta * (INR n * (4 + 12 * amax)))) <= lam * amin;
  pf_one : 1 <= Om;
  pf_max : 24 * amax <= Om;
  pf_quot : 24 * amax <= lam * amin * Om }.

(** The same for the solution with a right-hand side whose absolute values are at most B. *)
Record posRhsFits (Om lam amin amax : R) (n : nat) (B : R) : Prop := mkPosRhsFits {
  pr_min : amin <= B;
  pr_max : 64 * (INR n * (B * amax)) <= lam * amin * Om;
  pr_quot : 64 * (INR n * B) <= lam * lam * amin * Om }.

(** The pivot p that belongs to the entry a on the diagonal is finite, positive and about
    as large. *)
Definition posPivot {F : Type} (fin : F -> Prop) (val : F -> R) (lam : R) (a p : F) : Prop :=
  fin p /\ lam / 4 * val a <= val p <= 2 * val a /\ 0 < val p.

(** The size of a vector, where each element is weighted with the entry on the diagonal of
    the matrix. *)
Definition diagNorm {I : Type} (all : list I) (M : I -> I -> R) (v : I -> R) : R :=
  sqrt (suml Or all (fun j => M j j * (v j * v j))).

(** bound for the distance of the computed to the exact solution, where nx is the size of
    the computed one *)
Definition posError (u eta lam amin amax : R) (n r : nat) (nx : R) : R :=
  ((4 * ((INR r + 1) * gam u (2 * r + 1)) + INR n * (eta * (INR n * (4 + 12 * amax))) / amin) * nx +
   sqrt (INR n / amin) * (eta * (4 * INR r + (4 * INR r + 2) * ((INR n + 1) * amax)))) / lam.
