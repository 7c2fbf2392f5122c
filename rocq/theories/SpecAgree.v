(** Results that do not depend on which entries are stored. *)
From Coq Require Import List.
From Verif Require Import ModelNumeric.
Import ListNotations.

(** [fin] are the finite scalars and [same] says that two scalars are finite and have the
    same value (as +0 and -0 do). An operation with a finite result has finite operands, its
    result depends only on the values of the operands, subtracting a zero changes nothing
    and products and quotients of zeros are zero. Nothing is said about results that are
    not finite. *)
Record sameRules {F : Type} (O : ops F) (fin : F -> Prop) (same : F -> F -> Prop) : Prop := mkSameRules {
  sm_fin : forall a b, same a b -> fin a /\ fin b;
  sm_refl : forall a, fin a -> same a a;
  sm_sym : forall a b, same a b -> same b a;
  sm_trans : forall a b c, same a b -> same b c -> same a c;
  sm_0 : fin (o0 O);
  sm_sub_fin : forall a b, fin (osub O a b) -> fin a /\ fin b;
  sm_mul_fin : forall a b, fin (omul O a b) -> fin a /\ fin b;
  sm_div_fin : forall a b, fin b -> ~ same b (o0 O) -> fin (odiv O a b) -> fin a;
  sm_sub : forall a a' b b', same a a' -> same b b' -> fin (osub O a b) -> same (osub O a b) (osub O a' b');
  sm_mul : forall a a' b b', same a a' -> same b b' -> fin (omul O a b) -> same (omul O a b) (omul O a' b');
  sm_div : forall a a' b b', same a a' -> same b b' -> ~ same b (o0 O) -> fin (odiv O a b) ->
    same (odiv O a b) (odiv O a' b');
  sm_sub0 : forall a b, fin a -> same b (o0 O) -> same (osub O a b) a;
  sm_mul0 : forall a b, same a (o0 O) -> fin b ->
    same (omul O a b) (o0 O) /\ same (omul O b a) (o0 O);
  sm_div0 : forall a b, same a (o0 O) -> fin b -> ~ same b (o0 O) -> same (odiv O a b) (o0 O) }.

(** equal or, at least, of the same value *)
Definition agree {F : Type} (same : F -> F -> Prop) (a b : F) : Prop := a = b \/ same a b.

(** the regularization of a pivot depends only on its value and does not hide a pivot that
    is not finite *)
Definition regSame {F : Type} (fin : F -> Prop) (same : F -> F -> Prop) (reg : F -> nat -> F) : Prop :=
  forall i v, (fin (reg v i) -> fin v) /\
    forall v', same v v' -> fin (reg v i) -> same (reg v i) (reg v' i).

(** [a] minus the terms of the indices in the list, one after the other *)
Definition minusAll {F I : Type} (O : ops F) (a : F) (l : list I) (t : I -> F) : F :=
  fold_left (fun v k => osub O v (t k)) l a.

(** The factorization of a dense matrix A with n rows by the two methods, without skipping
    any entry: S are the entries of the factor L before the division by the pivots D. *)
Record denseLDL {F : Type} (O : ops F) (mt : method) (reg : F -> nat -> F) (n : nat)
    (A L S : nat -> nat -> F) (D : nat -> F) : Prop := mkDenseLDL {
  dl_S : forall i j, j < i -> i < n ->
    S i j = minusAll O (A i j) (seq 0 j)
      (match mt with
       | UpLooking => fun k => omul O (L j k) (S i k)
       | EntryWise => fun k => omul O (omul O (L i k) (L j k)) (D k)
       end);
  dl_L : forall i j, j < i -> i < n -> L i j = odiv O (S i j) (D j);
  dl_D : forall i, i < n ->
    D i = reg (minusAll O (A i i) (seq 0 i)
      (match mt with
       | UpLooking => fun k => omul O (S i k) (L i k)
       | EntryWise => fun k => omul O (omul O (L i k) (L i k)) (D k)
       end)) i }.
