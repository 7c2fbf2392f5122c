(** Model of tests/utility/test_set.hpp and test_set_foreach.hpp: sets of test cases.

    Simplifications: the arguments of a test case, types and constants or values of
    different types, are elements of one type; ranges are lists. [operator*], [operator+]
    and [operator^] call the three functions with the same arguments. The overloads of
    joinTestSets and zipTestSets for TestSetFunction (lines 124-139) leave template
    parameters to deduction that cannot be deduced; they are not modelled. *)
From Coq Require Import List Arith.
Import ListNotations.

Section TestSet.
  Context {A : Type}.
  (** TestSetTemplate and TestSetFunction (tests/utility/test_set.hpp:27-37, 94-105): a
      list of test cases, each with its arguments *)
  Definition testSet := list (list A).

  (** makeTemplateArgument, makeFunctionArgument (tests/utility/test_set.hpp:39-52, 107-111) *)
  Definition makeArgument (values : list A) : testSet := map (fun value => [value]) values.

  (** std::views::cartesian_product: the last range varies fastest *)
  Definition cartesian_product {X Y} (l : list X) (r : list Y) : list (X * Y) :=
    flat_map (fun x => map (fun y => (x, y)) r) l.

  (** cartesianProductTestSets (tests/utility/test_set.hpp:54-62, 113-122) *)
  Definition cartesianProductTestSets (lhs rhs : testSet) : testSet :=
    map (fun t => fst t ++ snd t) (cartesian_product lhs rhs).

  (** joinTestSets (tests/utility/test_set.hpp:64-67) *)
  Definition joinTestSets (lhs rhs : testSet) : testSet := lhs ++ rhs.

  (** zipTestSets (tests/utility/test_set.hpp:69-77); std::views::zip ends with the
      shorter range *)
  Definition zipTestSets (lhs rhs : testSet) : testSet :=
    map (fun t => fst t ++ snd t) (combine lhs rhs).
End TestSet.
Arguments testSet : clear implicits.

(** foreach (tests/utility/test_set_foreach.hpp:12-22): the calls of the test, each with
    its template arguments and its function arguments, in order *)
Definition foreach {A B} (test_set_template : testSet A) (test_set_function : testSet B) : list (list A * list B) :=
  flat_map (fun args_template => map (fun args_function => (args_template, args_function)) test_set_function)
    test_set_template.
