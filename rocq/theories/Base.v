(** Result monad, checked array accesses and loops used by the model.

    Everything in the C++ code that can go wrong is a distinct outcome: *)
From Coq Require Import List Arith Lia Bool.
Import ListNotations.

Inductive err : Type :=
| UB              (* out-of-bounds access, integer division by zero *)
| PreViolation    (* ctldl/utility/contracts.hpp:11-17, pre(false) *)
| AssertViolation (* ctldl/utility/contracts.hpp:27-34, contract_assert_(false) *)
| CAssert         (* the C assert macro *)
| StaticAssert    (* a static_assert that does not hold: the program is ill-formed *)
| Wrap            (* an unsigned subtraction that would wrap around *)
| MtxError        (* ctldl/fileio/mtx_check.cpp:13-17, MtxReadException *)
| Fuel.           (* a while loop that did not finish within the given number of steps *)

Inductive res (A : Type) : Type :=
| Ok (a : A)
| Err (e : err).
Arguments Ok {A} a.
Arguments Err {A} e.

Definition bind {A B} (m : res A) (f : A -> res B) : res B :=
  match m with
  | Ok a => f a
  | Err e => Err e
  end.

Notation "'let*' x ':=' m 'in' k" := (bind m (fun x => k))
  (at level 200, x pattern, m at level 100, k at level 200, right associativity).

(** Read [l[i]] *)
Definition rd {A} (l : list A) (i : nat) : res A :=
  match nth_error l i with
  | Some a => Ok a
  | None => Err UB
  end.

Fixpoint upd {A} (l : list A) (i : nat) (a : A) : list A :=
  match l, i with
  | [], _ => []
  | _ :: l', 0 => a :: l'
  | x :: l', S i' => x :: upd l' i' a
  end.

(** Write [l[i] = a] *)
Definition wr {A} (l : list A) (i : nat) (a : A) : res (list A) :=
  if i <? length l then Ok (upd l i a) else Err UB.

(** [a - b] for unsigned numbers *)
Definition subw (a b : nat) : res nat :=
  if b <=? a then Ok (a - b) else Err Wrap.

(** Checks *)
Definition pre (b : bool) : res unit := if b then Ok tt else Err PreViolation.
Definition contract_assert (b : bool) : res unit :=
  if b then Ok tt else Err AssertViolation.
Definition c_assert (b : bool) : res unit := if b then Ok tt else Err CAssert.
Definition static_assert (b : bool) : res unit :=
  if b then Ok tt else Err StaticAssert.

(** Loops over an index list *)
Fixpoint foldM {S X} (f : S -> X -> res S) (l : list X) (s : S) : res S :=
  match l with
  | [] => Ok s
  | x :: l' => let* s' := f s x in foldM f l' s'
  end.

Fixpoint mapM {X Y} (f : X -> res Y) (l : list X) : res (list Y) :=
  match l with
  | [] => Ok []
  | x :: l' =>
      let* y := f x in
      let* ys := mapM f l' in
      Ok (y :: ys)
  end.

(** Loop with early return of [false] *)
Fixpoint forallM {X} (f : X -> res bool) (l : list X) : res bool :=
  match l with
  | [] => Ok true
  | x :: l' =>
      let* b := f x in
      if b then forallM f l' else Ok false
  end.

(** [std::views::iota(a, b)] *)
Definition irange (a b : nat) : list nat := seq a (b - a).
