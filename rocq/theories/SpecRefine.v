(** Iterative refinement as a user of the library writes it (there is no such function in the
    library): the residual is computed with the product and solved for with the factorization. *)
From Coq Require Import List Reals.
From Verif Require Import Base ModelPerm ModelSparsity ModelSymbolic ModelNumeric ModelArrow SpecNumeric SpecArrowNum SpecReg SpecPivot.
Import ListNotations.

Section Refine.
  Context {F : Type} (O : ops F).

  (** k times: x := x + solve(rhs - A x) *)
  Fixpoint refine {V : Type} (product solve : V -> res V) (sub add : V -> V -> V) (rhs : V) (k : nat) (x : V) : res V :=
    match k with
    | 0 => Ok x
    | S k =>
        let* ax := product x in
        let* dx := solve (sub rhs ax) in
        refine product solve sub add rhs k (add x dx)
    end.

  Definition map2 {A : Type} (f : A -> A -> A) (x y : list A) : list A := map (fun ab => f (fst ab) (snd ab)) (combine x y).
  Definition vecMap2 (f : F -> F -> F) (x y : arrow_vec (F:=F)) : arrow_vec (F:=F) :=
    mkAV (map2 f (v_start x) (v_start y)) (map2 (map2 f) (v_tri x) (v_tri y))
      (map2 f (v_link x) (v_link y)) (map2 f (v_outer x) (v_outer y)).

  Definition refineSingle n (m : mat (F:=F)) (b : blk) (LD : list F * list F) : list F -> nat -> list F -> res (list F) :=
    refine (fun x => multiply O Symmetric m x (repeat (o0 O) n)) (solveInPlace O b LD) (map2 (osub O)) (map2 (oadd O)).
  Definition refineArrow n ds dt dl dO (m : arrow_mat (F:=F)) k (d : arrow_data (F:=F)) :
      arrow_vec (F:=F) -> nat -> arrow_vec (F:=F) -> res (arrow_vec (F:=F)) :=
    refine (fun x => arrowMultiply O m x (zeroVec O n ds dt dl dO)) (arrowSolveInPlace O k d)
      (vecMap2 (osub O)) (vecMap2 (oadd O)).
  Definition refineTri n dt (A B : list (mat (F:=F))) k (d : arrow_data (F:=F)) :
      list (list F) -> nat -> list (list F) -> res (list (list F)) :=
    refine (fun x => multiplyRepeatingBlockTridiagonal O A B x (repeat (repeat (o0 O) dt) (n + 1)))
      (tridiagonalSolveInPlace O k d) (map2 (map2 (osub O))) (map2 (map2 (oadd O))).
End Refine.

(** The size of the error e = x - xs after k steps, where c bounds what the regularization
    adds to the diagonal: e^T A e is at most c |e0|^2 / 2k, and it decreases geometrically if
    the matrix is definite. *)
Local Open Scope R_scope.
Definition refined {I : Type} (all : list I) (A : I -> I -> R) (c : R) (k : nat) (e0 e : I -> R) : Prop :=
  2 * INR k * quadForm Or all A e <= c * suml Or all (fun g => e0 g * e0 g) /\
  quadForm Or all A e <= quadForm Or all A e0 /\
  forall lam, 0 < lam -> (forall z, lam * suml Or all (fun g => z g * z g) <= quadForm Or all A z) ->
    quadForm Or all A e <= (c / (2 * lam)) ^ k * quadForm Or all A e0.
