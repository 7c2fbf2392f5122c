(** Property C81: declaring more entries only adds entries to the factor. *)
From Coq Require Import List Arith Lia.
From Verif Require Import Base ModelPerm ModelSparsity ModelSymbolic ModelNumeric ModelArrow.
From Verif Require Import SpecSymbolic SpecArrow SpecNumeric SpecArrowNum SpecTight SpecLocal SpecRenumber.
From Verif Require Import ExampleData ExampleArrow ProofDeclareMore.
Import ListNotations.
Local Open Scope nat_scope.

Theorem C81_single :
  forall s1 s2 n p b1 b2,
  spOf s1 n n -> spOf s2 n n -> validPerm n p -> factorizationBlk s1 p = Ok b1 -> factorizationBlk s2 p = Ok b2 ->
  incl (entries s1) (entries s2) ->
  incl (c_entries (b_sp b1)) (c_entries (b_sp b2)) /\ c_nnz (b_sp b1) <= c_nnz (b_sp b2).
Proof. exact single_more. Qed.
Print Assumptions C81_single.

(** One more entry, which makes two others necessary. *)
Example C81_single_example :
  let s1 := mkSp 4 4 [(0,0); (1,0); (3,2)] in let s2 := mkSp 4 4 [(0,0); (1,0); (2,0); (3,2)] in
  spOf s1 4 4 /\ spOf s2 4 4 /\ validPerm 4 [0;2;1;3] /\ incl (entries s1) (entries s2) /\
  match factorizationBlk s1 [0;2;1;3], factorizationBlk s2 [0;2;1;3] with
  | Ok b1, Ok b2 => c_entries (b_sp b1) = [(2,0); (3,1)] /\
      c_entries (b_sp b2) = [(1,0); (2,0); (2,1); (3,1); (3,2)]
  | _, _ => False
  end.
Proof.
  intros s1 s2. do 2 (split; [apply spOf_check_ok; reflexivity|]). split; [apply validPerm_check; reflexivity|].
  split; [intros e; cbn; tauto|]. vm_compute. auto.
Qed.

Theorem C81_arrowhead :
  forall s1 s2 ds dt dl dO k1 k2,
  arrowDims s1 ds dt dl dO -> arrowDims s2 ds dt dl dO -> arrowBlocks s1 = Ok k1 -> arrowBlocks s2 = Ok k2 ->
  samePerms s1 s2 -> declaresMore s1 s2 ->
  (forall n g h, storedAt k1 n g h -> storedAt k2 n g h) /\
  Forall2 le (storedCounts k1) (storedCounts k2).
Proof. exact arrow_more. Qed.
Print Assumptions C81_arrowhead.

Definition fewA : arrow_sp := mkAS
  (mkSS (mkSp 1 1 [(0,0)]) (mkSp 2 1 []) (mkSp 1 1 [(0,0)]) [0])
  (mkST (mkSp 2 2 [(0,0); (1,1)]) (mkSp 2 2 [(0,1)]) [1;0])
  (mkSL (mkSp 1 2 [(0,1)]) (mkSp 1 1 [(0,0)]) (mkSp 1 1 [(0,0)]) [0])
  (mkSO (mkSp 1 2 []) (mkSp 1 1 [(0,0)]) [0]).
Definition manyA : arrow_sp := mkAS
  (mkSS (mkSp 1 1 [(0,0)]) (mkSp 2 1 [(0,0)]) (mkSp 1 1 [(0,0)]) [0])
  (mkST (mkSp 2 2 [(0,0); (1,0); (1,1)]) (mkSp 2 2 [(0,1)]) [1;0])
  (mkSL (mkSp 1 2 [(0,1)]) (mkSp 1 1 [(0,0)]) (mkSp 1 1 [(0,0)]) [0])
  (mkSO (mkSp 1 2 []) (mkSp 1 1 [(0,0)]) [0]).
Example C81_arrowhead_example :
  arrowDims fewA 1 2 1 1 /\ arrowDims manyA 1 2 1 1 /\ samePerms fewA manyA /\ declaresMore fewA manyA /\
  match arrowBlocks fewA, arrowBlocks manyA with
  | Ok k1, Ok k2 => storedCounts k1 = [0; 0; 1; 0; 1; 1; 0; 1; 0; 0] /\
      storedCounts k2 = [0; 1; 1; 1; 2; 2; 0; 1; 1; 0]
  | _, _ => False
  end.
Proof.
  do 2 (split; [constructor; try (apply spOf_check_ok; reflexivity); apply validPerm_check; reflexivity|]).
  split; [repeat split|]. split; [constructor; intros e; cbn; tauto|]. vm_compute. auto.
Qed.

Theorem C81_tridiagonal :
  forall a1 c1 a2 c2 p dt k1 k2,
  spOf a1 dt dt -> spOf c1 dt dt -> spOf a2 dt dt -> spOf c2 dt dt -> validPerm dt p ->
  tridiagonalBlocks a1 c1 p = Ok k1 -> tridiagonalBlocks a2 c2 p = Ok k2 ->
  incl (entries a1) (entries a2) -> incl (entries c1) (entries c2) ->
  incl (c_entries (b_sp (k_td k1))) (c_entries (b_sp (k_td k2))) /\
  incl (c_entries (b_sp (k_ts k1))) (c_entries (b_sp (k_ts k2))) /\
  c_nnz (b_sp (k_td k1)) <= c_nnz (b_sp (k_td k2)) /\ c_nnz (b_sp (k_ts k1)) <= c_nnz (b_sp (k_ts k2)).
Proof. exact tri_more. Qed.
Print Assumptions C81_tridiagonal.

Example C81_tridiagonal_example :
  let a1 := mkSp 2 2 [(0,0); (1,1)] in let a2 := mkSp 2 2 [(0,0); (1,0); (1,1)] in let c := mkSp 2 2 [(0,1)] in
  spOf a1 2 2 /\ spOf a2 2 2 /\ spOf c 2 2 /\ validPerm 2 [1;0] /\ incl (entries a1) (entries a2) /\
  match tridiagonalBlocks a1 c [1;0], tridiagonalBlocks a2 c [1;0] with
  | Ok k1, Ok k2 => map (fun k => (c_nnz (b_sp (k_td k)), c_nnz (b_sp (k_ts k)))) [k1; k2] = [(0, 1); (1, 2)]
  | _, _ => False
  end.
Proof.
  intros a1 a2 c. do 3 (split; [apply spOf_check_ok; reflexivity|]). split; [apply validPerm_check; reflexivity|].
  split; [intros e; cbn; tauto|]. vm_compute. auto.
Qed.
