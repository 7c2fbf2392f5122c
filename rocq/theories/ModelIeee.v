(** IEEE 754 binary floating point numbers, rounded to nearest even, as scalars.

    The library is templated on the scalar type (ctldl/factorize/*.hpp,
    ctldl/solve/*.hpp, ctldl/matrix/*.hpp); float and double are the types in its
    tests. Modelled by Flocq's formalization, including signed zeros, infinities, NaN,
    subnormal numbers and overflow. The expressions are assumed to be evaluated in the
    scalar type, operation by operation (no contraction to fused multiply-add, no
    excess precision, default rounding mode). *)
From Coq Require Import ZArith Reals.
From Flocq Require Import Core BinarySingleNaN.
From Verif Require Import ModelNumeric.
Local Open Scope Z_scope.

Section Ieee.
  Variables (prec emax : Z).
  Context (Hp : Prec_gt_0 prec) (Hm : Prec_lt_emax prec emax).
  Definition ieee : Type := binary_float prec emax.

  (** +, -, *, / of ctldl/factorize/factorize.hpp:37-71 and the other kernels *)
  Definition ieeeOps : ops ieee :=
    mkOps ieee (B754_zero false) (Bplus mode_NE) (Bminus mode_NE) (Bmult mode_NE) (Bdiv mode_NE).
  Definition ieeeFinite (x : ieee) : Prop := is_finite x = true.
  Definition ieeeVal (x : ieee) : R := B2R x.
  (** unit roundoff and half of the smallest positive number *)
  Definition ieeeU : R := bpow radix2 (- prec).
  Definition ieeeEta : R := bpow radix2 (2 - emax - prec).
End Ieee.

(** double *)
Definition prec64 : Prec_gt_0 53 := eq_refl.
Definition emax64 : Prec_lt_emax 53 1024 := eq_refl.
Definition Od : ops (ieee 53 1024) := ieeeOps 53 1024 prec64 emax64.
(** float *)
Definition prec32 : Prec_gt_0 24 := eq_refl.
Definition emax32 : Prec_lt_emax 24 128 := eq_refl.
Definition Of : ops (ieee 24 128) := ieeeOps 24 128 prec32 emax32.

(** integers and binary fractions m * 2^e as numbers *)
Definition dbl (m e : Z) : ieee 53 1024 := binary_normalize 53 1024 prec64 emax64 mode_NE m e false.
(** numbers as sign, mantissa, exponent; NaN and infinities as themselves *)
Definition show {p e} (x : binary_float p e) := B2SF x.
