(** Rounding errors of matrix-vector products. *)
From Coq Require Import Reals List Arith Bool.
From Verif Require Import Base ModelSparsity ModelNumeric ModelArrow ModelMixed.
From Verif Require Import SpecNumeric SpecArrowNum SpecReg SpecMixed.
Import ListNotations.

(** number of products that are added to component i *)
Definition mulCount (kind : multiplyKind) (es : list (nat * nat)) (i : nat) : nat :=
  let row := length (filter (fun e => fst e =? i) es) in
  match kind with
  | Normal => row
  | Transposed => length (filter (fun e => snd e =? i) es)
  | Symmetric => row + length (filter (fun e => (snd e =? i) && negb (fst e =? i)) es)
  end.

(** the same for component g of the product with an arrowhead matrix and for block t,
    component i of the product with a block tridiagonal matrix *)
Definition mulCountT {F} (A B : list (mat (F:=F))) (t i : nat) : nat :=
  let c kind l t := mulCount kind (entries (m_sp (nth t l noMat))) i in
  (if t =? 0 then 0 else c Normal B (t - 1)) + c Symmetric A t +
  (if t =? length B then 0 else c Transposed B t).
Definition mulCountG {F} (m : arrow_mat (F:=F)) (g : gidx) : nat :=
  let c kind b := mulCount kind (entries (m_sp b)) in
  let os t := nth t (a_os m) noMat in
  let n := length (a_ts m) in
  match g with
  | GS i => c Symmetric (a_sd m) i + c Transposed (a_sn m) i + c Transposed (a_so m) i
  | GT t i =>
      (if t =? 0 then c Normal (a_sn m) i else 0) + mulCountT (a_td m) (a_ts m) t i +
      (if t =? n then c Transposed (a_lp m) i else 0) + c Transposed (os t) i
  | GL i => c Normal (a_lp m) i + c Symmetric (a_ld m) i + c Transposed (a_ln m) i
  | GO i =>
      c Normal (a_so m) i + list_sum (map (fun t => c Normal (os t) i) (seq 0 (n + 1))) +
      c Normal (a_ln m) i + c Symmetric (a_od m) i
  end.

Local Open Scope R_scope.

(** bound for the error of a sum of c products and a starting value whose absolute
    values add up to s *)
Definition productBound (u eta : R) (c : nat) (s : R) : R :=
  ((1 + u) ^ (c + 1) - 1) * s + 2 * INR c * eta * (1 + u) ^ (c + 1).

(** sums and products of finite numbers that are integers of absolute value at most B
    are exact *)
Record intExact {F} (O : ops F) (fin : F -> Prop) (val : F -> R) (B : R) : Prop := mkIntExact {
  ie_add : forall a b z, fin a -> fin b -> val a + val b = IZR z -> Rabs (IZR z) <= B ->
    fin (oadd O a b) /\ val (oadd O a b) = IZR z;
  ie_mul : forall a b z, fin a -> fin b -> val a * val b = IZR z -> Rabs (IZR z) <= B ->
    fin (omul O a b) /\ val (omul O a b) = IZR z }.

(** finite, and an integer *)
Definition isInt {F} (fin : F -> Prop) (val : F -> R) (v : F) : Prop := fin v /\ exists z, val v = IZR z.

(** all values of the blocks of an arrowhead matrix satisfy P *)
Record intVals {F} (P : F -> Prop) (n : nat) (w : arrow_vals F) : Prop := mkIntVals {
  iv_sd : forall v, In v (w_sd w) -> P v; iv_sn : forall v, In v (w_sn w) -> P v;
  iv_so : forall v, In v (w_so w) -> P v;
  iv_td : forall t v, (t < n + 1)%nat -> In v (nth t (w_td w) []) -> P v;
  iv_ts : forall t v, (t < n)%nat -> In v (nth t (w_ts w) []) -> P v;
  iv_lp : forall v, In v (w_lp w) -> P v; iv_ld : forall v, In v (w_ld w) -> P v;
  iv_ln : forall v, In v (w_ln w) -> P v;
  iv_os : forall t v, (t < n + 1)%nat -> In v (nth t (w_os w) []) -> P v;
  iv_od : forall v, In v (w_od w) -> P v }.

(** component of the exact product of the matrix and the vector whose values are
    replaced by the real numbers f v *)
Section Exact.
  Context {F : Type} (O : ops F).
  Definition triExact (f : F -> R) n dt A B wA wB (x : list (list F)) t i : R :=
    sumn Or (n + 1) (fun v => sumn Or dt (fun j =>
      triProductAt Or (map (castMat f) A) (map (castMat f) B) (map (map f) wA) (map (map f) wB) t i v j *
      f (vecAt O (nth v x []) j))).

  Definition arrowExact (f : F -> R) all m w (x : arrow_vec (F:=F)) (g : gidx) : R :=
    gmatVec Or all (productAt Or (castArrowMat f m) (castVals f w)) (fun h => f (gvecAt O x h)) g.
End Exact.

(** sizes of the result and of the vector of a product with an nr x nc matrix *)
Definition mulRows (kind : multiplyKind) (nr nc : nat) : nat :=
  match kind with Transposed => nc | _ => nr end.
Definition mulCols (kind : multiplyKind) (nr nc : nat) : nat :=
  match kind with Transposed => nr | _ => nc end.
