(** Results for scaled systems. *)
From Coq Require Import List.
From Verif Require Import ModelNumeric SpecNumeric.
Import ListNotations.

(** [rel k a b] says that b is k times a, where a is a scalar of the first arithmetic and b
    of the second one and the factors k are numbers of a field, restricted to [ok]. An
    operation whose operands are scaled has a scaled result, provided that the results are
    fine in the respective arithmetic ([fin1], [fin2]); and results that are fine come
    from operands that are fine. [nz] are the divisors that are allowed. *)
Record scaleRules {G F1 F2 : Type} (OG : ops G) (ok : G -> Prop) (O1 : ops F1) (O2 : ops F2)
    (fin1 : F1 -> Prop) (fin2 : F2 -> Prop) (nz : F1 -> Prop) (rel : G -> F1 -> F2 -> Prop) : Prop := mkScaleRules {
  sc_nz : forall k, ok k -> k <> o0 OG;
  sc_okmul : forall k d, ok k -> ok d -> ok (omul OG k d);
  sc_okdiv : forall k d, ok k -> ok d -> ok (odiv OG k d);
  sc_0 : forall k, ok k -> rel k (o0 O1) (o0 O2);
  sc_sub_fin1 : forall a b, fin1 (osub O1 a b) -> fin1 a /\ fin1 b;
  sc_sub_fin2 : forall a b, fin2 (osub O2 a b) -> fin2 a /\ fin2 b;
  sc_mul_fin1 : forall a b, fin1 (omul O1 a b) -> fin1 a /\ fin1 b;
  sc_mul_fin2 : forall a b, fin2 (omul O2 a b) -> fin2 a /\ fin2 b;
  sc_div_fin : forall d a a' b b', ok d -> rel d b b' -> nz b ->
    (fin1 (odiv O1 a b) -> fin1 a) /\ (fin2 (odiv O2 a' b') -> fin2 a');
  sc_sub : forall k a a' b b', ok k -> rel k a a' -> rel k b b' ->
    fin1 (osub O1 a b) -> fin2 (osub O2 a' b') -> rel k (osub O1 a b) (osub O2 a' b');
  sc_mul : forall k d a a' b b', ok k -> ok d -> rel k a a' -> rel d b b' ->
    fin1 (omul O1 a b) -> fin2 (omul O2 a' b') -> rel (omul OG k d) (omul O1 a b) (omul O2 a' b');
  sc_div : forall k d a a' b b', ok k -> ok d -> rel k a a' -> rel d b b' -> nz b ->
    fin1 (odiv O1 a b) -> fin2 (odiv O2 a' b') -> rel (odiv OG k d) (odiv O1 a b) (odiv O2 a' b') }.

(** the regularizations of the two factorizations agree on pivots scaled by [k] *)
Definition regScaled {G F1 F2 : Type} (fin1 : F1 -> Prop) (fin2 : F2 -> Prop) (rel : G -> F1 -> F2 -> Prop) (k : G)
    (reg1 : F1 -> nat -> F1) (reg2 : F2 -> nat -> F2) : Prop :=
  forall i v v', (fin1 (reg1 v i) -> fin1 v) /\ (fin2 (reg2 v' i) -> fin2 v') /\
    (rel k v v' -> fin1 (reg1 v i) -> fin2 (reg2 v' i) -> rel k (reg1 v i) (reg2 v' i)).

(** the factors of the scaled system: the entry (i, j) of the matrix is scaled by c s_i s_j
    and the right-hand side i by t s_i *)
Definition scaleA {G I : Type} (OG : ops G) (c : G) (s : I -> G) (i j : I) : G := omul OG c (omul OG (s i) (s j)).
Definition scaleL {G I : Type} (OG : ops G) (s : I -> G) (i j : I) : G := odiv OG (s i) (s j).
Definition scaleB {G I : Type} (OG : ops G) (t : G) (s : I -> G) (i : I) : G := omul OG t (s i).
Definition scaleX {G I : Type} (OG : ops G) (c t : G) (s : I -> G) (i : I) : G := odiv OG (odiv OG t c) (s i).
