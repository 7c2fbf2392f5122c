(** Property C48: an entry of the factor is stored exactly if the graph of the matrix has
    a path between its two variables through variables that are eliminated before both. *)
From Coq Require Import List Arith Lia.
From Verif Require Import Base ModelPerm ModelSparsity ModelSymbolic ModelNumeric.
From Verif Require Import SpecSymbolic SpecArrow SpecFillPath ExampleData ProofFillPath.
Import ListNotations.

(** Entry (i, j) belongs to the variables p[i] and p[j]; those eliminated before are the
    first j of p. *)
Theorem C48_fill_paths : forall s n p, spOf s n n -> validPerm n p ->
  exists f b, getFilledInSparsity s p = Ok f /\ factorizationBlk s p = Ok b /\
    forall i j,
      (In (i, j) (entries f) <->
       j < i /\ i < n /\ exists l, walk (adjacent (entries s)) (nth i p 0) l (nth j p 0) /\
         Forall (fun v => In v (firstn j p)) l) /\
      (In (i, j) (c_entries (b_sp b)) <-> In (i, j) (entries f)).
Proof. exact fill_paths. Qed.
Print Assumptions C48_fill_paths.

(** a cycle of five variables: variables 1 and 2 are eliminated first, so that variables
    0 and 3 are connected by a path of three edges and entry (3, 2) is filled in, while
    variables 3 and 1 only are connected through 2, which is eliminated later than 1 *)
Definition exCycle := mkSp 5 5 [(1,0); (2,1); (3,2); (4,3); (4,0)].
Definition exCycleP := [1; 2; 3; 0; 4].
Example C48_example :
  spOf exCycle 5 5 /\ validPerm 5 exCycleP /\
  walk (adjacent (entries exCycle)) (nth 3 exCycleP 0) [1; 2] (nth 2 exCycleP 0) /\
  Forall (fun v => In v (firstn 2 exCycleP)) [1; 2] /\
  walk (adjacent (entries exCycle)) (nth 2 exCycleP 0) [2] (nth 0 exCycleP 0) /\
  ~ Forall (fun v => In v (firstn 0 exCycleP)) [2] /\
  match getFilledInSparsity exCycle exCycleP with
  | Ok f => entries f = [(1,0); (2,1); (3,0); (3,1); (3,2); (4,2); (4,3)]
  | Err _ => False
  end.
Proof.
  split; [apply spOf_check_ok; reflexivity|]. split; [apply validPerm_check; reflexivity|].
  split; [cbn; unfold adjacent; cbn; repeat split; intuition congruence|].
  split; [cbn; repeat constructor; cbn; tauto|].
  split; [cbn; unfold adjacent; cbn; repeat split; intuition congruence|].
  split; [cbn; intros H; inversion H; auto|]. vm_compute. reflexivity.
Qed.
