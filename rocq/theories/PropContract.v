(** Property C71: what a violated condition reports. *)
From Coq Require Import List Arith Bool NArith String Ascii Lia.
From Verif Require Import ModelContract SpecContract.
From Verif Require Import ProofContract.
Import ListNotations.

(** ** C71 *)

Theorem C71_violation :
  forall u k site given,
  check u k site true given = Continue /\ exists what, check u k site false given = LogicError what.
Proof. intros u k site given. split; [destruct k; reflexivity|apply check_throws]. Qed.
Print Assumptions C71_violation.

(** if the caller passes the place, the message tells the kind of the condition and the
    place; file names contain no colon *)
Theorem C71_given_place :
  forall u1 u2 k1 k2 site1 site2 l1 l2,
  avoids ":"%char (loc_file l1) -> avoids ":"%char (loc_file l2) ->
  check u1 k1 site1 false (Some l1) = check u2 k2 site2 false (Some l2) -> k1 = k2 /\ l1 = l2.
Proof. exact check_message. Qed.
Print Assumptions C71_given_place.

Definition here : location :=
  mkLoc "ctldl/factor_data/factorization_repeating_block_tridiagonal_arrowhead_linked.hpp" 147
    "checkNumRepetitionsClassInvariant".
Definition there : location := mkLoc "ctldl/symbolic/filled_in_sparsity.hpp" 16 "getFilledInSparsity".
Example C71_example :
  avoids ":"%char (loc_file here) /\
  check there KAssert here false (Some here) =
  LogicError ("Contract assertion violation at ctldl/factor_data/factorization_repeating_block_tridiagonal_arrowhead_linked.hpp:147"
    ++ " in function checkNumRepetitionsClassInvariant").
Proof. split; [cbn; repeat split; discriminate|reflexivity]. Qed.

(** With a colon in the name of the file, two places can have the same message. *)
Theorem C71_colon_refuted :
  exists l1 l2, l1 <> l2 /\ forall u k site, check u k site false (Some l1) = check u k site false (Some l2).
Proof.
  exists (mkLoc "a" 1 "f:2 in function g"), (mkLoc "a:1 in function f" 2 "g"). split; [discriminate|].
  intros u [] site; reflexivity.
Qed.
Print Assumptions C71_colon_refuted.

(** The conditions of the library that pass no place (all preconditions) do not report it:
    the messages of violations at different places are the same. *)
Theorem C71_site_refuted :
  forall u k, exists site1 site2,
    loc_file site1 <> loc_file site2 /\ loc_line site1 <> loc_line site2 /\ loc_function site1 <> loc_function site2 /\
    check u k site1 false None = check u k site2 false None.
Proof.
  intros u k. exists here, there. split; [discriminate|]. split; [discriminate|]. split; [discriminate|].
  apply check_site.
Qed.
Print Assumptions C71_site_refuted.

(** the text that stands for a permutation in messages of tests *)
Theorem C71_permutation_text : forall p q : list N, toTestInfo p = toTestInfo q -> p = q.
Proof. exact testInfo_inj. Qed.
Print Assumptions C71_permutation_text.

Example C71_permutation_text_example :
  toTestInfo [10; 0; 3]%N = "[10 0 3]"%string /\ toTestInfo [1; 0; 0; 3]%N = "[1 0 0 3]"%string /\ toTestInfo [] = "[]"%string.
Proof. repeat split; reflexivity. Qed.
