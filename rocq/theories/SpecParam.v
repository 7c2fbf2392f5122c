(** Two number types with operations that preserve a relation between them. *)
From Coq Require Import List QArith Qcanon Reals.
From Verif Require Import Base ModelSparsity ModelNumeric ModelArrow SpecReg.
Import ListNotations.
Local Open Scope nat_scope.

(** The operations preserve the relation. *)
Record opsRel {F G : Type} (OF : ops F) (OG : ops G) (R : F -> G -> Prop) : Prop := mkOpsRel {
  or_0 : R (o0 OF) (o0 OG);
  or_add : forall a a' b b', R a a' -> R b b' -> R (oadd OF a b) (oadd OG a' b');
  or_sub : forall a a' b b', R a a' -> R b b' -> R (osub OF a b) (osub OG a' b');
  or_mul : forall a a' b b', R a a' -> R b b' -> R (omul OF a b) (omul OG a' b');
  or_div : forall a a' b b', R a a' -> R b b' -> R (odiv OF a b) (odiv OG a' b') }.

(** Both calls succeed with related results or both fail in the same way. *)
Definition resRel {A B : Type} (R : A -> B -> Prop) (x : res A) (y : res B) : Prop :=
  match x, y with
  | Ok a, Ok b => R a b
  | Err e, Err e' => e = e'
  | _, _ => False
  end.

(** Arrays and matrices of related numbers. The matrices have the same sparsity. *)
Definition listRel {A B : Type} (R : A -> B -> Prop) : list A -> list B -> Prop := Forall2 R.
Definition pairRel {A B C D : Type} (R : A -> B -> Prop) (S : C -> D -> Prop) (x : A * C) (y : B * D) : Prop :=
  R (fst x) (fst y) /\ S (snd x) (snd y).

Section Rel.
  Context {F G : Type} (R : F -> G -> Prop).
  Definition matRel (m : mat (F:=F)) (m' : mat (F:=G)) : Prop :=
    m_sp m = m_sp m' /\ forall k, k < nnz (m_sp m) -> resRel R (m_val m k) (m_val m' k).
  Definition regRel (r : F -> nat -> F) (r' : G -> nat -> G) : Prop :=
    forall a a' i, R a a' -> R (r a i) (r' a' i).

  Local Notation L := (listRel R).
  Local Notation LD := (pairRel (listRel R) (listRel R)).

  Record arrowMatRel (m : arrow_mat (F:=F)) (m' : arrow_mat (F:=G)) : Prop := mkArrowMatRel {
    mr_sd : matRel (a_sd m) (a_sd m');
    mr_sn : matRel (a_sn m) (a_sn m');
    mr_so : matRel (a_so m) (a_so m');
    mr_td : listRel matRel (a_td m) (a_td m');
    mr_ts : listRel matRel (a_ts m) (a_ts m');
    mr_lp : matRel (a_lp m) (a_lp m');
    mr_ld : matRel (a_ld m) (a_ld m');
    mr_ln : matRel (a_ln m) (a_ln m');
    mr_os : listRel matRel (a_os m) (a_os m');
    mr_od : matRel (a_od m) (a_od m') }.

  Record arrowDataRel (d : arrow_data (F:=F)) (d' : arrow_data (F:=G)) : Prop := mkArrowDataRel {
    dr_sd : LD (d_sd d) (d_sd d');
    dr_sn : L (d_sn d) (d_sn d');
    dr_so : L (d_so d) (d_so d');
    dr_td : listRel LD (d_td d) (d_td d');
    dr_ts : listRel L (d_ts d) (d_ts d');
    dr_lp : L (d_lp d) (d_lp d');
    dr_ld : LD (d_ld d) (d_ld d');
    dr_ln : L (d_ln d) (d_ln d');
    dr_os : listRel L (d_os d) (d_os d');
    dr_od : LD (d_od d) (d_od d') }.

  Record arrowVecRel (v : arrow_vec (F:=F)) (v' : arrow_vec (F:=G)) : Prop := mkArrowVecRel {
    vr_start : L (v_start v) (v_start v');
    vr_tri : listRel L (v_tri v) (v_tri v');
    vr_link : L (v_link v) (v_link v');
    vr_outer : L (v_outer v) (v_outer v') }.
End Rel.

(** Number types of users: intervals with rational bounds, [None] is the set of all numbers *)
Definition interval : Type := option (Qc * Qc).
Definition inInterval (x : Qc) (i : interval) : Prop :=
  match i with
  | Some (a, b) => (a <= x)%Qc /\ (x <= b)%Qc
  | None => True
  end.
Definition qmin (a b : Qc) : Qc := if Qclt_le_dec a b then a else b.
Definition qmax (a b : Qc) : Qc := if Qclt_le_dec a b then b else a.
Definition interval2 (f : Qc * Qc -> Qc * Qc -> interval) (i j : interval) : interval :=
  match i, j with
  | Some x, Some y => f x y
  | _, _ => None
  end.
Definition hull (a b c d : Qc) : interval :=
  Some (qmin (qmin a b) (qmin c d), qmax (qmax a b) (qmax c d)).
Definition intervalOps : ops interval :=
  mkOps interval (Some (0, 0))%Qc
    (interval2 (fun x y => Some (fst x + fst y, snd x + snd y)))%Qc
    (interval2 (fun x y => Some (fst x - snd y, snd x - fst y)))%Qc
    (interval2 (fun x y => hull (fst x * fst y) (fst x * snd y) (snd x * fst y) (snd x * snd y)))%Qc
    (interval2 (fun x y =>
       if Qclt_le_dec 0 (fst y) then hull (fst x / fst y) (fst x / snd y) (snd x / fst y) (snd x / snd y)
       else if Qclt_le_dec (snd y) 0 then hull (fst x / fst y) (fst x / snd y) (snd x / fst y) (snd x / snd y)
       else None))%Qc.

(** Numbers with their derivative, [None] is an invalid result like a NaN *)
Definition dual : Type := option (R * R).
Definition dual2 (f : R * R -> R * R -> dual) (i j : dual) : dual :=
  match i, j with
  | Some x, Some y => f x y
  | _, _ => None
  end.
Definition dualOps : ops dual :=
  mkOps dual (Some (0, 0))%R
    (dual2 (fun x y => Some (fst x + fst y, snd x + snd y)))%R
    (dual2 (fun x y => Some (fst x - fst y, snd x - snd y)))%R
    (dual2 (fun x y => Some (fst x * fst y, snd x * fst y + fst x * snd y)))%R
    (dual2 (fun x y =>
       if Req_EM_T (fst y) 0 then None
       else Some (fst x / fst y, (snd x * fst y - snd y * fst x) / (fst y * fst y))))%R.

(** Several numbers in one value (lanes of a vector register): operations in each lane *)
Definition lanesOps {I F : Type} (O : ops F) : ops (I -> F) :=
  mkOps (I -> F) (fun _ => o0 O) (fun f g i => oadd O (f i) (g i)) (fun f g i => osub O (f i) (g i))
    (fun f g i => omul O (f i) (g i)) (fun f g i => odiv O (f i) (g i)).
Definition laneOf {I F : Type} (i : I) (f : I -> F) (x : F) : Prop := f i = x.
Definition lane {I F : Type} (i : I) (v : list (I -> F)) : list F := map (fun f => f i) v.

(** Functions of one variable; [tangent t f x] says that x is the value and the derivative of f at t *)
Definition curveOps : ops (R -> R) := lanesOps Or.
Definition tangent (t : R) (f : R -> R) (x : dual) : Prop :=
  match x with
  | Some (v, d) => f t = v /\ derivable_pt_lim f t d
  | None => True
  end.
