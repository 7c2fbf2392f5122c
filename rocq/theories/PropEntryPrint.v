(** Property C82: printed entries can be told apart. *)
From Coq Require Import String List Arith.
From Verif Require Import Base ModelSparsity ModelEntryPrint SpecEntryPrint ProofEntryPrint.
Import ListNotations.
Local Open Scope nat_scope.

Theorem C82_read : forall e rest, readEntry (printEntry e ++ rest) = Some (e, rest).
Proof. exact entry_read. Qed.
Print Assumptions C82_read.

Theorem C82_distinct : forall e1 e2 r1 r2,
  (printEntry e1 ++ r1 = printEntry e2 ++ r2)%string -> e1 = e2 /\ r1 = r2.
Proof. exact entry_print_inj. Qed.
Print Assumptions C82_distinct.

Theorem C82_list : forall sep l rest,
  readEntries sep (List.length l) (fold_right (fun e s => printEntry e ++ sep ++ s)%string rest l) = Some (l, rest).
Proof. exact entries_read. Qed.
Print Assumptions C82_list.

Example C82_example :
  printEntry (120, 7) = "Entry{.row_index=120, .col_index=7}"%string /\
  printEntry (12, 0) = "Entry{.row_index=12, .col_index=0}"%string /\
  readEntry "Entry{.row_index=120, .col_index=7}!" = Some ((120, 7), "!"%string) /\
  readEntry "Entry{.row_index=012, .col_index=7}" = None /\
  readEntries ", " 2 "Entry{.row_index=1, .col_index=0}, Entry{.row_index=10, .col_index=3}, " =
    Some ([(1, 0); (10, 3)], ""%string).
Proof. repeat split; reflexivity. Qed.
