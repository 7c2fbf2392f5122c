(** Floating-point arithmetic without underflow, for comparison. *)
From Coq Require Import ZArith Reals Bool.
From Flocq Require Import Core BinarySingleNaN.
From Verif Require Import ModelNumeric ModelIeee.
Local Open Scope R_scope.

(** Rounding to nearest even with precision [prec] and unbounded exponents. *)
Definition flxRound (prec : Z) : R -> R := round radix2 (FLX_exp prec) ZnearestE.
Definition flxOps (prec : Z) : ops R :=
  mkOps R 0 (fun x y => flxRound prec (x + y)) (fun x y => flxRound prec (x - y))
    (fun x y => flxRound prec (x * y)) (fun x y => flxRound prec (x / y)).

(** powers of two and their negatives *)
Definition pow2 (k : R) : Prop := exists e : Z, Rabs k = bpow radix2 e.

(** The smallest normal number. *)
Definition minNormal (prec emax : Z) {Hp : Prec_gt_0 prec} {Hm : Prec_lt_emax prec emax} : ieee prec emax :=
  binary_normalize prec emax Hp Hm mode_NE 1 (2 - emax) false.

(** IEEE arithmetic that traps underflow: a product of nonzero numbers or a quotient of a
    nonzero number is NaN if its magnitude is not above the smallest normal number. (Sums
    and differences do not underflow.) *)
Definition trapOps (prec emax : Z) (Hp : Prec_gt_0 prec) (Hm : Prec_lt_emax prec emax) : ops (ieee prec emax) :=
  let isZero (x : ieee prec emax) := Beqb x (B754_zero false) in
  let tiny r := Bleb (Babs r) (minNormal prec emax) in
  mkOps (ieee prec emax) (B754_zero false) (Bplus mode_NE) (Bminus mode_NE)
    (fun x y => let r := Bmult mode_NE x y in
       if negb (isZero x) && negb (isZero y) && tiny r then B754_nan else r)
    (fun x y => let r := Bdiv mode_NE x y in
       if negb (isZero x) && tiny r then B754_nan else r).
