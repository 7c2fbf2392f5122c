(** The generators of the test inputs, tests/utility/random.

    std::size_t has 64 bits; it is a number of type N where its wrap-around matters. *)
From Coq Require Import List Arith Bool NArith.
From Verif Require Import Base ModelPerm ModelSparsity ModelArrow.
Import ListNotations.

(** tests/utility/random/linear_congruence_generator.hpp:22-25, the state after a call,
    which is also its result *)
Definition lcgMultiplier : N := 6364136223846793005%N.
Definition lcgNext (state : N) : N := ((state * lcgMultiplier + 1) mod size_t_mod)%N.

(** .../linear_congruence_generator.hpp:14-20 *)
Definition lcgMin : N := 0%N.
Definition lcgMax : N := (size_t_mod - 1)%N.

(** tests/utility/random/uniform_int_distribution.hpp:10-27, for [T = std::ptrdiff_t] with
    bounds that are not negative, as in shuffle. Returns the value and the state of the
    generator afterwards. *)
Definition uniformInt (a b : nat) (g : N) : res (nat * N) :=
  let* _ := c_assert (a <=? b) in
  if b =? a then Ok (a, g)
  else
    let g := lcgNext g in
    let value := (g - lcgMin)%N in
    let diff := N.of_nat (b - a) in
    Ok (N.to_nat (value mod diff) + a, g).

(** tests/utility/random/shuffle.hpp:11-28; iterators are positions of the array.
    [num_remaining] starts with the length and is decremented before its use. *)
Definition shuffle (l : list nat) (g : N) : res (list nat * N) :=
  let* st :=
    foldM (fun (st : list nat * N * nat) it =>
             let '(l, g, num_remaining) := st in
             let* num_remaining := subw num_remaining 1 in
             let* r := uniformInt 0 num_remaining g in
             let (i, g) := (r : nat * N) in
             if i =? 0 then Ok (l, g, num_remaining)
             else
               let* x := rd l it in
               let* y := rd l (it + i) in
               let* l := wr l it y in
               let* l := wr l (it + i) x in
               Ok (l, g, num_remaining))
          (seq 0 (length l)) (l, g, length l) in
  Ok (fst (fst st), snd (fst st)).

(** tests/utility/random/procedural_test_permutation.hpp:14-36,
    tests/utility/random/compile_time_generate.hpp:11-17: the value and the state of
    next_generator *)
Definition proceduralTestPermutation (seed : N) (dim : nat) : res (perm * N) :=
  shuffle (iota_perm dim) seed.

(** tests/utility/random/bernoulli_distribution.hpp:9-21 with the probability given by the
    threshold static_cast<std::size_t>(probability * static_cast<double>(max - min)) *)
Definition bernoulli (threshold : N) (g : N) : bool * N :=
  let g := lcgNext g in ((g - lcgMin <? threshold)%N, g).

(** the threshold for the probability 0.5; the largest std::size_t is rounded to 2^64 when
    converted to double *)
Definition threshold05 : N := (2 ^ 63)%N.

(** tests/utility/random/bool_matrix_distribution.hpp:14-26; the uninitialized matrix is
    all false *)
Definition boolMatrixDistribution (num_rows num_cols : nat) (g : N) : res (bool_matrix * N) :=
  foldM (fun (st : bool_matrix * N) i =>
           foldM (fun (st : bool_matrix * N) j =>
                    let (m, g) := st in
                    let (b, g) := bernoulli threshold05 g in
                    let* row := rd m i in
                    let* row := wr row j b in
                    let* m := wr m i row in
                    Ok (m, g))
                 (seq 0 num_cols) st)
        (seq 0 num_rows) (repeat (repeat false num_cols) num_rows, g).

(** tests/utility/random/procedural_test_matrix.hpp:14-16 *)
Inductive matrixKind := AnySparsity | SymmetricSparsity.

(** tests/utility/random/procedural_test_matrix.hpp:18-34 *)
Definition applyRandomMatrixSparsityKind (kind : matrixKind) (num_rows num_cols : nat)
    (m : bool_matrix) : res bool_matrix :=
  match kind with
  | AnySparsity => Ok m
  | SymmetricSparsity =>
      let* _ := static_assert (num_rows =? num_cols) in
      let* m :=
        foldM (fun m i =>
                 foldM (fun m j =>
                          let* row := rd m i in
                          let* row := wr row j false in
                          wr m i row)
                       (irange (i + 1) num_cols) m)
              (seq 0 num_rows) m in
      foldM (fun m i =>
               let* row := rd m i in
               let* row := wr row i true in
               wr m i row)
            (seq 0 num_rows) m
  end.

(** tests/utility/random/procedural_test_matrix.hpp:36-51, 64-76: the sparsity and the
    state of next_generator. The values (std::normal_distribution) are not modelled. *)
Definition proceduralTestMatrix (seed : N) (num_rows num_cols : nat) (kind : matrixKind)
    : res (sparsity * N) :=
  let* r := boolMatrixDistribution num_rows num_cols seed in
  let* is_nonzero := applyRandomMatrixSparsityKind kind num_rows num_cols (fst r) in
  let* es := makeSparseEntriesFromBoolMatrix num_rows num_cols is_nonzero in
  let* s := mkSparsity num_rows num_cols es in
  Ok (s, snd r).

(** tests/multiply_factorize_solve_correct/repeating/test_functor_random.hpp:18-26: the
    two sparsities and the permutation of a random block tridiagonal system *)
Definition randomTridiagonal (seed : N) (dim : nat) : res (sparsity * sparsity * perm) :=
  let* diag := proceduralTestMatrix seed dim dim SymmetricSparsity in
  let* subdiag := proceduralTestMatrix (snd diag) dim dim AnySparsity in
  let* p := proceduralTestPermutation (snd subdiag) dim in
  Ok (fst diag, fst subdiag, fst p).

(** tests/multiply_factorize_solve_correct/repeating_arrowhead_linked/test_functor_random.hpp:21-50
    with test_functor.hpp:58-81. The permutations of the start and of the repeated block
    come from the same seed, as there. *)
Definition randomArrow (seed0 : N) (dim_start dim_tri dim_link dim_outer : nat) : res arrow_sp :=
  let* sd := proceduralTestMatrix seed0 dim_start dim_start SymmetricSparsity in
  let* st := proceduralTestMatrix (snd sd) dim_tri dim_start AnySparsity in
  let* so := proceduralTestMatrix (snd st) dim_outer dim_start AnySparsity in
  let* td := proceduralTestMatrix (snd so) dim_tri dim_tri SymmetricSparsity in
  let* ts := proceduralTestMatrix (snd td) dim_tri dim_tri AnySparsity in
  let* lt := proceduralTestMatrix (snd ts) dim_link dim_tri AnySparsity in
  let* ld := proceduralTestMatrix (snd lt) dim_link dim_link SymmetricSparsity in
  let* lo := proceduralTestMatrix (snd ld) dim_outer dim_link AnySparsity in
  let* os := proceduralTestMatrix (snd lo) dim_outer dim_tri AnySparsity in
  let* od := proceduralTestMatrix (snd os) dim_outer dim_outer SymmetricSparsity in
  let* ps := proceduralTestPermutation (snd od) dim_start in
  let* pt := proceduralTestPermutation (snd od) dim_tri in
  let* pl := proceduralTestPermutation (snd pt) dim_link in
  let* po := proceduralTestPermutation (snd pl) dim_outer in
  Ok (mkAS (mkSS (fst sd) (fst st) (fst so) (fst ps))
           (mkST (fst td) (fst ts) (fst pt))
           (mkSL (fst lt) (fst ld) (fst lo) (fst pl))
           (mkSO (fst os) (fst od) (fst po))).
