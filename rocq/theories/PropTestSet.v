(** Property C72: sets of test cases. *)
From Coq Require Import List Arith Lia.
From Verif Require Import ModelTestSet ProofTestSet.
Import ListNotations.

(** the combination of two test sets: all combinations of their cases, each once,
    with those of the second changing first *)
Theorem C72_product :
  forall {A : Type} (l r : testSet A),
  length (cartesianProductTestSets l r) = length l * length r /\
  (forall z, In z (cartesianProductTestSets l r) <-> exists x y, In x l /\ In y r /\ z = x ++ y) /\
  (forall k, (forall x, In x l -> length x = k) -> NoDup l -> NoDup r -> NoDup (cartesianProductTestSets l r)) /\
  (forall i j d, i < length l -> j < length r ->
     nth (i * length r + j) (cartesianProductTestSets l r) d = nth i l d ++ nth j r d).
Proof. exact @product_all. Qed.
Print Assumptions C72_product.

Theorem C72_join :
  forall {A : Type} (l r : testSet A),
  length (joinTestSets l r) = length l + length r /\ (forall z, In z (joinTestSets l r) <-> In z l \/ In z r) /\
  (NoDup l -> NoDup r -> (forall z, In z l -> ~ In z r) -> NoDup (joinTestSets l r)).
Proof. exact @join_all. Qed.
Print Assumptions C72_join.

Theorem C72_zip :
  forall {A : Type} (l r : testSet A),
  length (zipTestSets l r) = Nat.min (length l) (length r) /\
  (forall i d, i < length l -> i < length r -> nth i (zipTestSets l r) d = nth i l d ++ nth i r d).
Proof. exact @zip_all. Qed.
Print Assumptions C72_zip.

(** If the sets have different lengths, the rest of the longer one is not tested. *)
Theorem C72_zip_refuted :
  exists (l r : testSet nat) x, In x l /\ ~ exists y, In (x ++ y) (zipTestSets l r).
Proof.
  exists (makeArgument [1; 2; 3]), (makeArgument [4; 5]), [3]. split; [cbn; auto|].
  intros (y & [H|[H|[]]]); discriminate H.
Qed.
Print Assumptions C72_zip_refuted.

(** the test is called with every pair of template and function arguments, each once,
    with the function arguments changing first *)
Theorem C72_foreach :
  forall {A B : Type} (l : testSet A) (r : testSet B),
  length (foreach l r) = length l * length r /\
  (forall x y, In (x, y) (foreach l r) <-> In x l /\ In y r) /\
  (NoDup l -> NoDup r -> NoDup (foreach l r)) /\
  (forall i j a b, i < length l -> j < length r ->
     nth (i * length r + j) (foreach l r) (a, b) = (nth i l a, nth j r b)).
Proof. exact @foreach_all. Qed.
Print Assumptions C72_foreach.

(** the test suites of the repository: groups of matrices, each group with its own
    permutations, all with the same further arguments *)
Theorem C72_suite :
  forall {A B : Type} (ms ps : list (list A)) (ts : list A) (fs : testSet B),
  length ms = length ps ->
  (forall i j x y, i < length ms -> j < length ms -> i <> j -> In x (nth i ms []) -> In y (nth j ms []) -> x <> y) ->
  (forall i, i < length ms -> NoDup (nth i ms []) /\ NoDup (nth i ps [])) -> NoDup ts -> NoDup fs ->
  let cases := cartesianProductTestSets
    (fold_right joinTestSets []
      (map (fun mp => cartesianProductTestSets (makeArgument (fst mp)) (makeArgument (snd mp))) (combine ms ps)))
    (makeArgument ts) in
  NoDup (foreach cases fs) /\
  forall a f, In (a, f) (foreach cases fs) <->
    exists i m p t, i < length ms /\ In m (nth i ms []) /\ In p (nth i ps []) /\ In t ts /\ In f fs /\ a = [m; p; t].
Proof. exact @suite_once. Qed.
Print Assumptions C72_suite.

Example C72_example :
  NoDup [11; 12] /\
  foreach (cartesianProductTestSets
      (joinTestSets (cartesianProductTestSets (makeArgument [11; 12]) (makeArgument [1; 2]))
                    (cartesianProductTestSets (makeArgument [13]) (makeArgument [3])))
      (makeArgument [7; 8])) (makeArgument [true; false]) =
    list_prod [[11;1;7]; [11;1;8]; [11;2;7]; [11;2;8]; [12;1;7]; [12;1;8]; [12;2;7]; [12;2;8]; [13;3;7]; [13;3;8]]
      [[true]; [false]] /\
  zipTestSets (makeArgument [1; 2]) (makeArgument [3; 4]) = [[1;3]; [2;4]].
Proof. repeat split; try reflexivity. repeat constructor; cbn; intuition discriminate. Qed.
