(** C54-C56: the generators of the test inputs, tests/utility/random. *)
From Coq Require Import List Arith Bool NArith ZArith Lia.
From Flocq Require Import BinarySingleNaN.
From Verif Require Import Base ModelPerm ModelSparsity ModelArrow ModelRandom ModelIeee.
From Verif Require Import SpecSymbolic SpecArrow SpecRandom ProofRandom ProofRandomPeriod.
Import ListNotations.

(** ** C54: generated test inputs are well-formed *)

(** A permutation for every seed, without violated assertion or access out of bounds. *)
Theorem C54_permutation : forall seed dim,
  exists p g, proceduralTestPermutation seed dim = Ok (p, g) /\ validPerm dim p.
Proof. exact permutation_valid. Qed.
Print Assumptions C54_permutation.

(** tests/utility/random/procedural_test_permutation.test.cpp *)
Example C54_permutation_example :
  proceduralTestPermutation 0 5 = Ok ([1; 2; 3; 0; 4], draws 4 0) /\
  proceduralTestPermutation 7 5 = Ok ([0; 3; 2; 1; 4], draws 4 7).
Proof. split; vm_compute; reflexivity. Qed.

(** A sparsity without duplicates; the entry (i, j) is there exactly if the generator's
    result number i * num_cols + j + 1 is in the lower half of its range, and the next
    generator continues after the last of them. *)
Theorem C54_matrix : forall seed nr nc,
  exists s, proceduralTestMatrix seed nr nc AnySparsity = Ok (s, draws (nr * nc) seed) /\
    spOf s nr nc /\ rowMajor (entries s) /\
    forall i j, i < nr -> j < nc ->
      (In (i, j) (entries s) <-> (draws (i * nc + j + 1) seed < 2 ^ 63)%N).
Proof. exact matrix_any. Qed.
Print Assumptions C54_matrix.

(** For symmetric matrices: nothing above the diagonal and everything on it. *)
Theorem C54_symmetric_matrix : forall seed n,
  exists s, proceduralTestMatrix seed n n SymmetricSparsity = Ok (s, draws (n * n) seed) /\
    spOf s n n /\ rowMajor (entries s) /\
    (forall i, i < n -> In (i, i) (entries s)) /\
    (forall i j, In (i, j) (entries s) -> j <= i) /\
    forall i j, j < i -> i < n ->
      (In (i, j) (entries s) <-> (draws (i * n + j + 1) seed < 2 ^ 63)%N).
Proof. exact matrix_symmetric. Qed.
Print Assumptions C54_symmetric_matrix.


(** the bound 2^63 is what the conversions of BernoulliDistribution(0.5) give *)
Example C54_threshold_example :
  (let max := binary_normalize 53 1024 prec64 emax64 mode_NE (Z.of_N lcgMax) 0 false in
   Btrunc (@Bmult 53 1024 prec64 emax64 mode_NE (dbl 1 (-1)) max)) = Z.of_N threshold05.
Proof. vm_compute. reflexivity. Qed.

(** The random systems of the tests: every seed gives consistent sparsities and
    permutations, which the factorization accepts. *)
Theorem C54_random_tridiagonal : forall seed dim,
  exists A B p, randomTridiagonal seed dim = Ok (A, B, p) /\
    spOf A dim dim /\ spOf B dim dim /\ validPerm dim p.
Proof. exact random_tridiagonal. Qed.
Print Assumptions C54_random_tridiagonal.

Theorem C54_random_arrowhead : forall seed ds dt dl dO,
  exists s k, randomArrow seed ds dt dl dO = Ok s /\ arrowDims s ds dt dl dO /\ arrowBlocks s = Ok k.
Proof. exact random_arrow. Qed.
Print Assumptions C54_random_arrowhead.

Example C54_matrix_example :
  proceduralTestMatrix 0 2 4 AnySparsity =
    Ok (mkSp 2 4 [(0, 0); (0, 1); (1, 1); (1, 2)], draws 8 0) /\
  proceduralTestMatrix 0 4 4 SymmetricSparsity =
    Ok (mkSp 4 4 [(0, 0); (1, 1); (2, 0); (2, 2); (3, 1); (3, 3)], draws 16 0) /\
  randomTridiagonal 1 3 =
    Ok (mkSp 3 3 [(0, 0); (1, 1); (2, 1); (2, 2)],
        mkSp 3 3 [(0, 0); (1, 0); (2, 1); (2, 2)], [0; 1; 2]).
Proof. split; [|split]; vm_compute; reflexivity. Qed.

(** ** C55: which permutations are generated *)

(** UniformIntDistribution(a, b) is half-open, unlike std::uniform_int_distribution, *)
Theorem C55_upper_bound_refuted :
  exists a b, a < b /\ forall g v g', uniformInt a b g = Ok (v, g') -> v <> b.
Proof. exact upper_bound_never. Qed.
Print Assumptions C55_upper_bound_refuted.

(** so shuffle does not generate all permutations: *)
Theorem C55_all_permutations_refuted :
  exists dim p, validPerm dim p /\ forall seed g, proceduralTestPermutation seed dim <> Ok (p, g).
Proof. exact all_permutations_never. Qed.
Print Assumptions C55_all_permutations_refuted.

(** the last index is always fixed, *)
Theorem C55_last_index_fixed : forall seed dim p g,
  0 < dim -> proceduralTestPermutation seed dim = Ok (p, g) -> nth (dim - 1) p 0 = dim - 1.
Proof. exact permutation_last. Qed.
Print Assumptions C55_last_index_fixed.

(** for two indices there is only the identity, *)
Theorem C55_two : forall seed, proceduralTestPermutation seed 2 = Ok ([0; 1], draws 1 seed).
Proof. exact permutation_two. Qed.
Print Assumptions C55_two.

(** and for three only the parity of the seed matters. *)
Theorem C55_three : forall seed,
  proceduralTestPermutation seed 3 =
    Ok (if N.odd seed then [0; 1; 2] else [1; 0; 2], draws 2 seed).
Proof. exact permutation_three_parity. Qed.
Print Assumptions C55_three.

Example C55_example :
  map (fun seed => match proceduralTestPermutation seed 4 with Ok (p, _) => p | Err _ => [] end)
    [0; 1; 2; 3; 4; 5]%N =
    [[1; 0; 2; 3]; [1; 2; 0; 3]; [1; 0; 2; 3]; [0; 2; 1; 3]; [0; 1; 2; 3]; [0; 2; 1; 3]].
Proof. vm_compute. reflexivity. Qed.

(** ** C56: the generator has the full period *)

Theorem C56_period : forall m n g, (g < 2 ^ 64)%N ->
  (draws m g = draws n g <-> (Z.of_nat m mod 2 ^ 64 = Z.of_nat n mod 2 ^ 64)%Z).
Proof. exact draws_period. Qed.
Print Assumptions C56_period.

(** every state is reached from every other one *)
Theorem C56_all_states : forall g h, (g < 2 ^ 64)%N -> (h < 2 ^ 64)%N -> exists n, draws n g = h.
Proof. exact draws_onto. Qed.
Print Assumptions C56_all_states.

(** but its lowest bit only alternates *)
Theorem C56_lowest_bit : forall g, N.odd (lcgNext g) = negb (N.odd g).
Proof. exact draws_parity. Qed.
Print Assumptions C56_lowest_bit.

Example C56_example :
  map (fun n => draws n 5) [0; 1; 2; 3] =
    [5; 13373937045524413410; 7075136697979364539; 17854410917725272544]%N.
Proof. vm_compute. reflexivity. Qed.
