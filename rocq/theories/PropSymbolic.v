(** Properties C13 - C17 and C19: symbolic factorization. *)
From Coq Require Import List Arith Lia Bool Sorted.
From Verif Require Import Base ModelPerm ModelSparsity ModelSymbolic ModelNumeric.
From Verif Require Import SpecSymbolic SpecArrow ExampleData.
From Verif Require Import ProofPropSymbolic.
Import ListNotations.

(** ** C13: the computed pattern is exactly the structure of the factor *)

Theorem C13_fill_is_exact : forall s n p,
  spOf s n n -> validPerm n p ->
  exists f b, getFilledInSparsity s p = Ok f /\ factorizationBlk s p = Ok b /\
    spOf f n n /\ rowMajor (entries f) /\ rowMajor (c_entries (b_sp b)) /\
    (forall i j, In (i, j) (entries f) <-> Fill (permLow (entries s) n p) i j) /\
    (forall i j, In (i, j) (c_entries (b_sp b)) <-> Fill (permLow (entries s) n p) i j).
Proof. exact fill_exact. Qed.
Print Assumptions C13_fill_is_exact.

(** Without mentioning [Fill]: it contains the pattern of the matrix, is closed
    under elimination and is the smallest such pattern. *)
Theorem C13_fill_is_smallest : forall s n p f,
  spOf s n n -> validPerm n p -> getFilledInSparsity s p = Ok f ->
  (forall i j, permLow (entries s) n p i j -> In (i, j) (entries f)) /\
  (forall i j, In (i, j) (entries f) -> j < i /\ i < n) /\
  closedPattern (entriesPat (entries f)) /\
  (forall R : pattern, (forall i j, permLow (entries s) n p i j -> R i j) -> closedPattern R ->
     forall i j, In (i, j) (entries f) -> R i j).
Proof. exact fill_smallest. Qed.
Print Assumptions C13_fill_is_smallest.

(** the 4 x 4 arrow matrix: eliminating the dense row first fills everything,
    eliminating it last fills nothing *)
Example C13_example :
  spOf exS 4 4 /\ validPerm 4 exP /\ validPerm 4 exP' /\
  getFilledInSparsity exS exP = Ok (mkSp 4 4 [(1,0); (2,0); (2,1); (3,0); (3,1); (3,2)]) /\
  getFilledInSparsity exS exP' = Ok (mkSp 4 4 [(3,0); (3,1); (3,2)]).
Proof.
  split; [exact exS_ok|]. split; [exact exP_ok|]. split; [exact exP'_ok|].
  split; reflexivity.
Qed.

(** ** C14: filling in block by block gives the blocks of the filled matrix *)

Theorem C14_blocked3x3 : forall s11 s21 s22 s31 s32 s33 p1 p2 p3 n1 n2 n3,
  spOf s11 n1 n1 -> spOf s21 n2 n1 -> spOf s22 n2 n2 ->
  spOf s31 n3 n1 -> spOf s32 n3 n2 -> spOf s33 n3 n3 ->
  validPerm n1 p1 -> validPerm n2 p2 -> validPerm n3 p3 ->
  let R := Fill (asm3 n1 n2
     (permLow (entries s11) n1 p1) (permRect (entries s21) n2 n1 p2 p1)
     (permLow (entries s22) n2 p2) (permRect (entries s31) n3 n1 p3 p1)
     (permRect (entries s32) n3 n2 p3 p2) (permLow (entries s33) n3 p3)) in
  exists b, getFilledInSparsityBlocked3x3 s11 s21 s22 s31 s32 s33 p1 p2 p3 = Ok b /\
    (spOf (block11 b) n1 n1 /\ rowMajor (entries (block11 b)) /\
     forall i j, i < n1 -> j < n1 -> In (i, j) (entries (block11 b)) <-> R i j) /\
    (spOf (block21 b) n2 n1 /\ rowMajor (entries (block21 b)) /\
     forall i j, i < n2 -> j < n1 -> In (i, j) (entries (block21 b)) <-> R (n1 + i) j) /\
    (spOf (block22 b) n2 n2 /\ rowMajor (entries (block22 b)) /\
     forall i j, i < n2 -> j < n2 -> In (i, j) (entries (block22 b)) <-> R (n1 + i) (n1 + j)) /\
    (spOf (block31 b) n3 n1 /\ rowMajor (entries (block31 b)) /\
     forall i j, i < n3 -> j < n1 -> In (i, j) (entries (block31 b)) <-> R (n1 + n2 + i) j) /\
    (spOf (block32 b) n3 n2 /\ rowMajor (entries (block32 b)) /\
     forall i j, i < n3 -> j < n2 ->
       In (i, j) (entries (block32 b)) <-> R (n1 + n2 + i) (n1 + j)) /\
    (spOf (block33 b) n3 n3 /\ rowMajor (entries (block33 b)) /\
     forall i j, i < n3 -> j < n3 ->
       In (i, j) (entries (block33 b)) <-> R (n1 + n2 + i) (n1 + n2 + j)).
Proof. exact fill3. Qed.
Print Assumptions C14_blocked3x3.

Theorem C14_blocked2x2 : forall s11 s21 s22 p1 p2 n1 n2,
  spOf s11 n1 n1 -> spOf s21 n2 n1 -> spOf s22 n2 n2 ->
  validPerm n1 p1 -> validPerm n2 p2 ->
  let R := Fill (asm2 n1 (permLow (entries s11) n1 p1) (permRect (entries s21) n2 n1 p2 p1)
                  (permLow (entries s22) n2 p2)) in
  exists b, getFilledInSparsityBlockedPerm s11 s21 s22 p1 p2 = Ok b /\
    (spOf (b2_11 b) n1 n1 /\ rowMajor (entries (b2_11 b)) /\
     forall i j, i < n1 -> j < n1 -> In (i, j) (entries (b2_11 b)) <-> R i j) /\
    (spOf (b2_21 b) n2 n1 /\ rowMajor (entries (b2_21 b)) /\
     forall i j, i < n2 -> j < n1 -> In (i, j) (entries (b2_21 b)) <-> R (n1 + i) j) /\
    (spOf (b2_22 b) n2 n2 /\ rowMajor (entries (b2_22 b)) /\
     forall i j, i < n2 -> j < n2 -> In (i, j) (entries (b2_22 b)) <-> R (n1 + i) (n1 + j)).
Proof. exact fill2. Qed.
Print Assumptions C14_blocked2x2.

Definition ex11 := mkSp 2 2 [(0,0); (1,0); (1,1)].
Definition ex21 := mkSp 3 2 [(2,0); (0,1)].
Definition ex22 := mkSp 3 3 [(1,0)].
Definition ex31 := mkSp 2 2 [(1,1)].
Definition ex32 := mkSp 2 3 [(0,2)].
Definition ex33 := mkSp 2 2 [(0,0); (1,1)].

Example C14_example :
  spOf ex11 2 2 /\ spOf ex21 3 2 /\ spOf ex22 3 3 /\ spOf ex31 2 2 /\ spOf ex32 2 3 /\
  spOf ex33 2 2 /\ validPerm 2 [1; 0] /\ validPerm 3 [2; 0; 1] /\
  getFilledInSparsityBlocked3x3 ex11 ex21 ex22 ex31 ex32 ex33 [1; 0] [2; 0; 1] [1; 0] =
  Ok (mkB3 (mkSp 2 2 [(1,0)]) (mkSp 3 2 [(0,1); (1,0); (1,1)]) (mkSp 3 3 [(1,0); (2,1)])
           (mkSp 2 2 [(0,0); (0,1)]) (mkSp 2 3 [(0,0); (0,1); (0,2); (1,0); (1,1); (1,2)])
           (mkSp 2 2 [(1,0)])).
Proof.
  repeat (split; [apply spOf_check_ok; reflexivity|]).
  repeat (split; [apply validPerm_check; reflexivity|]). reflexivity.
Qed.

(** ** C15: elimination trees *)

Theorem C15_elimination_tree : forall s n,
  spOf s n n ->
  exists c t, toCSR s = Ok c /\ computeEliminationTree c = Ok t /\ length t = n /\
    forall j, isParent (entriesPat (entries s)) j (nth j t None).
Proof. exact etree. Qed.
Print Assumptions C15_elimination_tree.

Theorem C15_elimination_tree_blocked : forall s11 s21 s22 s31 s32 s33 n1 n2 n3,
  spOf s11 n1 n1 -> spOf s21 n2 n1 -> spOf s22 n2 n2 ->
  spOf s31 n3 n1 -> spOf s32 n3 n2 -> spOf s33 n3 n3 ->
  exists c11 c21 c22 c31 c32 c33 t,
    toCSR s11 = Ok c11 /\ toCSR s21 = Ok c21 /\ toCSR s22 = Ok c22 /\
    toCSR s31 = Ok c31 /\ toCSR s32 = Ok c32 /\ toCSR s33 = Ok c33 /\
    computeEliminationTreeBlocked3x3 c11 c21 c22 c31 c32 c33 = Ok t /\
    length t = n1 + n2 + n3 /\
    forall j, isParent (asm3 n1 n2 (entriesPat (entries s11)) (entriesPat (entries s21))
      (entriesPat (entries s22)) (entriesPat (entries s31)) (entriesPat (entries s32))
      (entriesPat (entries s33))) j (nth j t None).
Proof. exact etree3. Qed.
Print Assumptions C15_elimination_tree_blocked.

Example C15_example :
  spOf (mkSp 5 5 [(2,0); (3,0); (4,1)]) 5 5 /\
  match toCSR (mkSp 5 5 [(2,0); (3,0); (4,1)]) with
  | Ok c => computeEliminationTree c = Ok [Some 2; Some 4; Some 3; None; None]
  | Err _ => False
  end.
Proof. split; [apply spOf_check_ok; reflexivity|reflexivity]. Qed.

(** ** C16: the repeating blocks cover the fill-in for every number of
       repetitions; C17: they are no larger than necessary *)

Theorem C16_repeating_covers : forall sA sB sC p pC d dO,
  spOf sA d d -> spOf sB d d -> spOf sC dO d -> validPerm d p -> validPerm dO pC ->
  let A := permLow (entries sA) d p in
  let B := permRect (entries sB) d d p p in
  let C := permRect (entries sC) dO d pC p in
  exists r, getFilledInSparsityRepeatingArrowhead sA sB sC p pC = Ok r /\
    spOf (ra_diag r) d d /\ spOf (ra_subdiag r) d d /\ spOf (ra_outer r) dO d /\
    rowMajor (entries (ra_diag r)) /\ rowMajor (entries (ra_subdiag r)) /\
    rowMajor (entries (ra_outer r)) /\
    (forall i j, In (i, j) (entries (ra_diag r)) -> j < i) /\
    (forall N a b, Fill (repeated N d A B C) a b ->
      (exists t i j, t < N /\ a = t * d + i /\ b = t * d + j /\
         In (i, j) (entries (ra_diag r))) \/
      (exists t i j, S t < N /\ a = S t * d + i /\ b = t * d + j /\
         In (i, j) (entries (ra_subdiag r))) \/
      (exists t i j, t < N /\ a = N * d + i /\ b = t * d + j /\
         In (i, j) (entries (ra_outer r))) \/
      (N * d <= b /\ N * d <= a)).
Proof.
  intros. destruct (repeating sA sB sC p pC d dO) as (r & HR); auto.
  exists r. tauto.
Qed.
Print Assumptions C16_repeating_covers.

Theorem C17_repeating_is_tight : forall sA sB sC p pC d dO,
  spOf sA d d -> spOf sB d d -> spOf sC dO d -> validPerm d p -> validPerm dO pC ->
  let A := permLow (entries sA) d p in
  let B := permRect (entries sB) d d p p in
  let C := permRect (entries sC) dO d pC p in
  exists r, getFilledInSparsityRepeatingArrowhead sA sB sC p pC = Ok r /\
    (exists k, forall N t, k <= t -> S t < N ->
      (forall i j, In (i, j) (entries (ra_diag r)) ->
         Fill (repeated N d A B C) (S t * d + i) (S t * d + j)) /\
      (forall i j, In (i, j) (entries (ra_subdiag r)) ->
         Fill (repeated N d A B C) (S t * d + i) (t * d + j)) /\
      (forall i j, In (i, j) (entries (ra_outer r)) ->
         Fill (repeated N d A B C) (N * d + i) (t * d + j))).
Proof.
  intros. destruct (repeating sA sB sC p pC d dO) as (r & HR); auto.
  exists r. tauto.
Qed.
Print Assumptions C17_repeating_is_tight.

(** the diagonal block itself is empty, its fill-in comes from the previous one *)
Example C16_example :
  spOf (mkSp 3 3 [(0,0)]) 3 3 /\ spOf (mkSp 3 3 [(1,0); (2,0); (2,1)]) 3 3 /\
  spOf (mkSp 2 3 [(1,0)]) 2 3 /\ validPerm 3 [0; 2; 1] /\ validPerm 2 [1; 0] /\
  match getFilledInSparsityRepeatingArrowhead (mkSp 3 3 [(0,0)])
          (mkSp 3 3 [(1,0); (2,0); (2,1)]) (mkSp 2 3 [(1,0)]) [0; 2; 1] [1; 0] with
  | Ok r => entries (ra_diag r) = [(2,1)] /\
            entries (ra_subdiag r) = [(1,0); (1,2); (2,0)] /\
            entries (ra_outer r) = [(0,0); (0,1); (0,2)]
  | Err _ => False
  end.
Proof.
  repeat (split; [apply spOf_check_ok; reflexivity|]).
  repeat (split; [apply validPerm_check; reflexivity|]). vm_compute. repeat split; reflexivity.
Qed.

(** ** C19: chordality test *)

Theorem C19_chordal : forall s11 s21 s22 n1 n2,
  spOf s11 n1 n1 -> spOf s21 n2 n1 -> spOf s22 n2 n2 ->
  NoDup (entries s11) -> NoDup (entries s21) -> NoDup (entries s22) ->
  exists b, isChordalBlocked s11 s21 s22 = Ok b /\
    (b = true <->
     (forall i j, In (i, j) (entries s11) -> j < i) /\
     (forall i j, In (i, j) (entries s22) -> j < i) /\
     closedPattern (asm2 n1 (entriesPat (entries s11)) (entriesPat (entries s21))
                      (entriesPat (entries s22)))).
Proof. exact chordal. Qed.
Print Assumptions C19_chordal.

Theorem C19_inconsistent_dims : forall s11 s21 s22,
  ~ (nrows s11 = ncols s11 /\ nrows s22 = ncols s22 /\ ncols s21 = ncols s11 /\
     nrows s22 = nrows s21) ->
  isChordalBlocked s11 s21 s22 = Err PreViolation.
Proof. exact chordal_dims. Qed.
Print Assumptions C19_inconsistent_dims.

(** With duplicates the test compares numbers that do not count the same
    thing. *)
Theorem C19_duplicates_refuted : exists s11 s21 s22 n1 n2,
  spOf s11 n1 n1 /\ spOf s21 n2 n1 /\ spOf s22 n2 n2 /\
  isChordalBlocked s11 s21 s22 = Ok true /\
  ~ closedPattern (asm2 n1 (entriesPat (entries s11)) (entriesPat (entries s21))
                     (entriesPat (entries s22))).
Proof.
  exists (mkSp 1 1 []), (mkSp 3 1 []), (mkSp 3 3 [(1,0); (1,0); (2,0)]), 1, 3.
  split; [apply spOf_check_ok; reflexivity|]. split; [apply spOf_check_ok; reflexivity|].
  split; [apply spOf_check_ok; reflexivity|]. split; [reflexivity|].
  intros H. assert (K := H 3 2 1 ltac:(lia) ltac:(lia)). unfold asm2, entriesPat in K.
  cbn [entries In] in K.
  destruct K as [K|[(i & _ & K)|(i & j & E1 & E2 & K)]].
  - right. right. exists 2, 0. split; [reflexivity|]. split; [reflexivity|]. auto.
  - right. right. exists 1, 0. split; [reflexivity|]. split; [reflexivity|]. auto.
  - exact K.
  - exact K.
  - assert (i = 2) by lia. assert (j = 1) by lia. subst.
    repeat (destruct K as [K|K]; [discriminate|]). destruct K.
Qed.
Print Assumptions C19_duplicates_refuted.

Example C19_example :
  let s11 := mkSp 2 2 [(1,0)] in let s21 := mkSp 2 2 [(0,0); (0,1); (1,1)] in
  spOf s11 2 2 /\ spOf s21 2 2 /\ spOf (mkSp 2 2 [(1,0)]) 2 2 /\
  isChordalBlocked s11 s21 (mkSp 2 2 [(1,0)]) = Ok true /\
  isChordalBlocked s11 s21 (mkSp 2 2 []) = Ok false /\
  isChordalBlocked s11 s21 (mkSp 3 3 []) = Err PreViolation.
Proof.
  cbv zeta. repeat (split; [apply spOf_check_ok; reflexivity|]). repeat split; reflexivity.
Qed.
