(** Model of ctldl/permutation.

    PermutationStatic, PermutationDynamic, PermutationView and
    PermutationViewStructural (ctldl/permutation/permutation.hpp:15-134) only
    differ in how the indices are stored, all of them are modelled by the list
    of indices. As in the code, nothing checks that the list is a permutation
    (permutation.hpp:90-93 "TODO: check invariant"). *)
From Coq Require Import List Arith Lia Bool NArith.
From Verif Require Import Base.
Import ListNotations.

Definition perm := list nat.

(** ctldl/permutation/permutation.hpp:19-25 and 49-54, default: identity *)
Definition iota_perm (dim : nat) : perm := seq 0 dim.

(** ctldl/permutation/invert_permutation.hpp:11-17 *)
Definition invertPermutation (p : perm) : res perm :=
  foldM (fun inv i => let* pi := rd p i in wr inv pi i)
        (seq 0 (length p)) (repeat 0 (length p)).

(** ctldl/permutation/permuted_entry.hpp:11-17 *)
Definition permutedEntry (e : nat * nat) (prow pcol : perm) : res (nat * nat) :=
  let* r := rd prow (fst e) in
  let* c := rd pcol (snd e) in
  Ok (r, c).

(** ctldl/permutation/permuted_entry_lower_triangle.hpp:12-18 *)
Definition permutedEntryLowerTriangle (e : nat * nat) (p : perm)
    : res (nat * nat) :=
  let* r := rd p (fst e) in
  let* c := rd p (snd e) in
  Ok (Nat.max r c, Nat.min r c).

(** ctldl/permutation/permutation.hpp:98-101, operator==, std::ranges::equal *)
Fixpoint list_eqb {A} (eqb : A -> A -> bool) (l1 l2 : list A) : bool :=
  match l1, l2 with
  | [], [] => true
  | a :: l1', b :: l2' => eqb a b && list_eqb eqb l1' l2'
  | _, _ => false
  end.

Definition perm_eqb : perm -> perm -> bool := list_eqb Nat.eqb.

(** ctldl/permutation/factorial.hpp:7-13, with the wrap-around of a 64 bit
    std::size_t. The loop counter [i] does not wrap around for
    [n < 2^64 - 1]. *)
Definition size_t_mod : N := (2 ^ 64)%N.

Definition factorial (n : nat) : N :=
  fold_left (fun value i => ((value * N.of_nat i) mod size_t_mod)%N)
            (irange 2 (n + 1)) 1%N.

(** std::ranges::next_permutation (standard library).
    [next_perm_aux l] looks for the longest non-increasing suffix from the
    right; returns [None] if the whole list is non-increasing (last
    permutation) and otherwise the next list. *)
Fixpoint insert_swap (x : nat) (rev_suffix : list nat) : option (nat * list nat) :=
  (* rev_suffix is the reversed (thus non-decreasing) suffix: find the first
     element greater than x (the rightmost one in the original order), swap *)
  match rev_suffix with
  | [] => None
  | y :: t =>
      if x <? y then Some (y, x :: t)
      else match insert_swap x t with
           | Some (z, t') => Some (z, y :: t')
           | None => None
           end
  end.

Fixpoint next_perm_aux (l : list nat) : option (list nat) :=
  match l with
  | [] => None
  | x :: t =>
      match next_perm_aux t with
      | Some t' => Some (x :: t')
      | None =>
          (* t is non-increasing *)
          match insert_swap x (rev t) with
          | Some (y, t') => Some (y :: t')
          | None => None
          end
      end
  end.

(** wraps around to the sorted list, i.e. the reversal of the last one *)
Definition next_permutation (l : list nat) : list nat :=
  match next_perm_aux l with
  | Some l' => l'
  | None => rev l
  end.

(** ctldl/permutation/permutation_enumeration.hpp:14-23 *)
Definition enumeratePermutationsStatic (dim : nat) : list perm :=
  rev (snd (N.iter (factorial dim)
         (fun '(current, ret) => (next_permutation current, current :: ret))
         (seq 0 dim, []))).
