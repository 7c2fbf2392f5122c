(** Different scalar types for the input matrix, the factor and the vectors.

    Every value of the input is converted to the type of the factor when it is read
    (ctldl/factorize/fill_with_original_matrix.hpp:15, 28-29,
    ctldl/factorize/factor_initialization.hpp:35, 54), and every value of the factor to
    the type of the vectors when it is used (ctldl/solve/solve_forward_substitution.hpp:22,
    ctldl/solve/solve_backward_substitution.hpp:23, ctldl/factor_data/factorization.hpp:84).
    In between, only values of one type are combined. So the functions are those for one
    type applied to converted values. Simplification: one type for all vectors. *)
From Coq Require Import List ZArith Reals.
From Flocq Require Import Core BinarySingleNaN.
From Verif Require Import Base ModelPerm ModelSparsity ModelNumeric ModelArrow ModelIeee.

Section Cast.
  Context {F G : Type} (cast : F -> G).

  (** static_cast on valueAt, fill_with_original_matrix.hpp:15, 28-29 *)
  Definition castMat (m : mat (F:=F)) : mat (F:=G) :=
    mkMat (m_sp m) (fun k => let* v := m_val m k in Ok (cast v)).
  Definition castArrowMat (m : arrow_mat (F:=F)) : arrow_mat (F:=G) := mkAM
    (castMat (a_sd m)) (castMat (a_sn m)) (castMat (a_so m))
    (map castMat (a_td m)) (map castMat (a_ts m))
    (castMat (a_lp m)) (castMat (a_ld m)) (castMat (a_ln m))
    (map castMat (a_os m)) (castMat (a_od m)).

  (** static_cast on L and D, solve_forward_substitution.hpp:22,
      solve_backward_substitution.hpp:23, factorization.hpp:84 *)
  Definition castFactor (ld : list F * list F) : list G * list G :=
    (map cast (fst ld), map cast (snd ld)).
  Definition castData (d : arrow_data (F:=F)) : arrow_data (F:=G) := mkAD
    (castFactor (d_sd d)) (map cast (d_sn d)) (map cast (d_so d))
    (map castFactor (d_td d)) (map (map cast) (d_ts d))
    (map cast (d_lp d)) (castFactor (d_ld d)) (map cast (d_ln d))
    (map (map cast) (d_os d)) (castFactor (d_od d)).
End Cast.

Section Mixed.
  Context {I F G : Type} (castI : I -> F) (castF : F -> G) (O : ops F) (P : ops G).

  (** ctldl/factor_data/factorization.hpp:65-70 *)
  Definition factorizeMixed (mt : method) (b : blk) (m : mat (F:=I)) (reg : F -> nat -> F)
      (ld : list F * list F) : res (list F * list F) :=
    factorize O mt b (Some (castMat castI m)) reg ld.
  (** ctldl/factor_data/factorization.hpp:72-77 *)
  Definition solveInPlaceMixed (b : blk) (ld : list F * list F) (rhs : list G) : res (list G) :=
    solveInPlace P b (castFactor castF ld) rhs.

  (** .../factorization_repeating_block_tridiagonal_arrowhead_linked.hpp:160-205 *)
  Definition arrowFactorizeMixed (mt : method) (k : arrow_blks) (m : arrow_mat (F:=I))
      (reg : F -> nat -> F) (d : arrow_data (F:=F)) : res (arrow_data (F:=F)) :=
    arrowFactorize O mt k (castArrowMat castI m) reg d.
  (** .../factorization_repeating_block_tridiagonal_arrowhead_linked.hpp:207-279 *)
  Definition arrowSolveInPlaceMixed (k : arrow_blks) (d : arrow_data (F:=F))
      (rhs : arrow_vec (F:=G)) : res (arrow_vec (F:=G)) :=
    arrowSolveInPlace P k (castData castF d) rhs.

  (** .../factorization_repeating_block_tridiagonal.hpp:56-69 *)
  Definition tridiagonalFactorizeMixed (mt : method) (k : arrow_blks) (dim : nat)
      (A B : list (mat (F:=I))) (reg : F -> nat -> F) (d : arrow_data (F:=F)) :
      res (arrow_data (F:=F)) :=
    tridiagonalFactorize O mt k dim (map (castMat castI) A) (map (castMat castI) B) reg d.
  (** .../factorization_repeating_block_tridiagonal.hpp:70-76 *)
  Definition tridiagonalSolveInPlaceMixed (k : arrow_blks) (d : arrow_data (F:=F))
      (rhs : list (list G)) : res (list (list G)) :=
    tridiagonalSolveInPlace P k (castData castF d) rhs.
End Mixed.

(** conversions between floating point formats, rounded to nearest even *)
Definition ieeeCast (p e p' e' : Z) (Hp : Prec_gt_0 p') (Hm : Prec_lt_emax p' e')
    (x : ieee p e) : ieee p' e' :=
  match x with
  | B754_zero s => B754_zero s
  | B754_infinity s => B754_infinity s
  | B754_nan => B754_nan
  | B754_finite s m x _ => binary_normalize p' e' Hp Hm mode_NE (cond_Zopp s (Zpos m)) x s
  end.
Definition toFloat : ieee 53 1024 -> ieee 24 128 := ieeeCast 53 1024 24 128 prec32 emax32.
Definition toDouble : ieee 24 128 -> ieee 53 1024 := ieeeCast 24 128 53 1024 prec64 emax64.
