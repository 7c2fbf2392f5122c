(** Products of two kinds of scalars, compared step by step. *)
From Coq Require Import List Arith Lia Bool.
From Verif Require Import Base ModelPerm ModelSparsity ModelSymbolic ModelNumeric ModelArrow.
Import ListNotations.

Definition resRel {A B} (R : A -> B -> Prop) (r : res A) (r' : res B) : Prop :=
  match r, r' with
  | Ok a, Ok b => R a b
  | Err e, Err e' => e = e'
  | _, _ => False
  end.

Lemma Forall2_length {A B} (R : A -> B -> Prop) l l' : Forall2 R l l' -> length l = length l'.
Proof. induction 1; cbn; auto. Qed.

Lemma bind_rel {A B A' B'} (R : A -> B -> Prop) (R' : A' -> B' -> Prop) r r' f f' :
  resRel R r r' -> (forall a b, R a b -> resRel R' (f a) (f' b)) ->
  resRel R' (bind r f) (bind r' f').
Proof. destruct r, r'; cbn; auto; tauto. Qed.

Lemma rd_rel {A B} (R : A -> B -> Prop) l l' i : Forall2 R l l' -> resRel R (rd l i) (rd l' i).
Proof.
  intros H. revert i. induction H as [|a b l l' Hab H IH]; intros [|i]; cbn; auto.
  apply (IH i).
Qed.

Lemma upd_rel {A B} (R : A -> B -> Prop) l l' i a b :
  Forall2 R l l' -> R a b -> Forall2 R (upd l i a) (upd l' i b).
Proof.
  intros H Hab. revert i. induction H as [|a' b' l l' Hab' H IH]; intros [|i]; cbn; auto.
Qed.

Lemma wr_rel {A B} (R : A -> B -> Prop) l l' i a b :
  Forall2 R l l' -> R a b -> resRel (Forall2 R) (wr l i a) (wr l' i b).
Proof.
  intros H Hab. unfold wr. rewrite (Forall2_length _ _ _ H).
  destruct (i <? length l'); cbn; auto. apply upd_rel; auto.
Qed.

Lemma foldM_rel {S S' X} (R : S -> S' -> Prop) (f : S -> X -> res S) (f' : S' -> X -> res S') l :
  (forall s s' x, R s s' -> resRel R (f s x) (f' s' x)) ->
  forall s s', R s s' -> resRel R (foldM f l s) (foldM f' l s').
Proof.
  intros H. induction l as [|x l IH]; intros s s' Hs; cbn; auto.
  apply (bind_rel R); auto.
Qed.

Section Rel.
  Context {F F' : Type} (O : ops F) (O' : ops F').
  (** values of the matrix, of the vector and of the result *)
  Context (RV RX RY : F -> F' -> Prop).
  Hypothesis step : forall a a' v v' x x', RY a a' -> RV v v' -> RX x x' ->
    RY (oadd O a (omul O v x)) (oadd O' a' (omul O' v' x')).

  Definition matRel (m : mat (F:=F)) (m' : mat (F:=F')) : Prop :=
    m_sp m = m_sp m' /\ forall k, k < length (entries (m_sp m')) -> resRel RV (m_val m k) (m_val m' k).

  Lemma multiply_rel kind m m' x x' r r' :
    matRel m m' -> Forall2 RX x x' -> Forall2 RY r r' ->
    resRel (Forall2 RY) (multiply O kind m x r) (multiply O' kind m' x' r').
  Proof.
    intros [Hs Hv] Hx Hr. unfold multiply. rewrite Hs.
    apply (foldM_rel (Forall2 RY)); auto. clear r r' Hr. intros r r' k Hr.
    destruct (rd (entries (m_sp m')) k) as [[i j]|e] eqn:Ek; cbn [bind]; [|reflexivity].
    assert (Hk : k < length (entries (m_sp m'))).
    { apply nth_error_Some. unfold rd in Ek. destruct (nth_error _ k); discriminate. }
    apply (bind_rel RV); auto. intros v v' Hvv.
    assert (P : forall i j r r', Forall2 RY r r' -> resRel (Forall2 RY)
        (let* a := rd r i in let* x := rd x j in wr r i (oadd O a (omul O v x)))
        (let* a := rd r' i in let* x := rd x' j in wr r' i (oadd O' a (omul O' v' x)))).
    { intros i0 j0 s s' Hss. apply (bind_rel RY); [apply rd_rel; auto|]. intros a b Hab.
      apply (bind_rel RX); [apply rd_rel; auto|]. intros y y' Hy. apply wr_rel; auto. }
    apply (bind_rel (Forall2 RY)).
    - destruct (hasNormal kind); [apply P; auto|cbn; auto].
    - intros s s' Hss. destruct (isSymmetric kind && (i =? j)); [cbn; auto|].
      destruct (hasTransposed kind); [apply P; auto|cbn; auto].
  Qed.

  Lemma tri_multiply_rel A A' B B' x x' r r' :
    Forall2 matRel A A' -> Forall2 matRel B B' ->
    Forall2 (Forall2 RX) x x' -> Forall2 (Forall2 RY) r r' ->
    resRel (Forall2 (Forall2 RY)) (multiplyRepeatingBlockTridiagonal O A B x r)
      (multiplyRepeatingBlockTridiagonal O' A' B' x' r').
  Proof.
    intros HA HB Hx Hr. unfold multiplyRepeatingBlockTridiagonal.
    rewrite (Forall2_length _ _ _ HA), (Forall2_length _ _ _ HB), (Forall2_length _ _ _ Hx), (Forall2_length _ _ _ Hr).
    apply (bind_rel eq); [unfold pre; destruct (_ =? _); cbn; auto|intros _ _ _].
    apply (bind_rel eq); [unfold pre; destruct (_ =? _); cbn; auto|intros _ _ _].
    apply (bind_rel eq); [unfold pre; destruct (_ =? _); cbn; auto|intros _ _ _].
    apply (bind_rel matRel); [apply rd_rel; auto|intros a a' Ha].
    apply (bind_rel (Forall2 RX)); [apply rd_rel; auto|intros s s' Hs].
    apply (bind_rel (Forall2 RY)); [apply rd_rel; auto|intros q q' Hq].
    apply (bind_rel (Forall2 RY)); [apply multiply_rel; auto|intros q1 q1' Hq1].
    apply (bind_rel (Forall2 (Forall2 RY))); [apply wr_rel; auto|intros rs rs' Hrs].
    apply (foldM_rel (Forall2 (Forall2 RY))); auto. intros z z' i Hz.
    apply (bind_rel matRel); [apply rd_rel; auto|intros b b' Hb].
    apply (bind_rel (Forall2 RX)); [apply rd_rel; auto|intros s1 s1' Hs1].
    apply (bind_rel (Forall2 RY)); [apply rd_rel; auto|intros q2 q2' Hq2].
    apply (bind_rel (Forall2 RY)); [apply multiply_rel; auto|intros q3 q3' Hq3].
    apply (bind_rel (Forall2 (Forall2 RY))); [apply wr_rel; auto|intros z1 z1' Hz1].
    apply (bind_rel (Forall2 RX)); [apply rd_rel; auto|intros s2 s2' Hs2].
    apply (bind_rel (Forall2 RY)); [apply rd_rel; auto|intros q4 q4' Hq4].
    apply (bind_rel (Forall2 RY)); [apply multiply_rel; auto|intros q5 q5' Hq5].
    apply (bind_rel matRel); [apply rd_rel; auto|intros a1 a1' Ha1].
    apply (bind_rel (Forall2 RY)); [apply multiply_rel; auto|intros q6 q6' Hq6].
    apply wr_rel; auto.
  Qed.

  Record arrowRel (m : arrow_mat (F:=F)) (m' : arrow_mat (F:=F')) : Prop := mkArrowRel {
    ar_sd : matRel (a_sd m) (a_sd m'); ar_sn : matRel (a_sn m) (a_sn m');
    ar_so : matRel (a_so m) (a_so m');
    ar_td : Forall2 matRel (a_td m) (a_td m'); ar_ts : Forall2 matRel (a_ts m) (a_ts m');
    ar_lp : matRel (a_lp m) (a_lp m'); ar_ld : matRel (a_ld m) (a_ld m');
    ar_ln : matRel (a_ln m) (a_ln m');
    ar_os : Forall2 matRel (a_os m) (a_os m'); ar_od : matRel (a_od m) (a_od m') }.

  Definition vecRel (R : F -> F' -> Prop) (x : arrow_vec (F:=F)) (x' : arrow_vec (F:=F')) : Prop :=
    Forall2 R (v_start x) (v_start x') /\ Forall2 (Forall2 R) (v_tri x) (v_tri x') /\
    Forall2 R (v_link x) (v_link x') /\ Forall2 R (v_outer x) (v_outer x').

  Lemma arrow_multiply_rel m m' x x' r r' :
    arrowRel m m' -> vecRel RX x x' -> vecRel RY r r' ->
    resRel (vecRel RY) (arrowMultiply O m x r) (arrowMultiply O' m' x' r').
  Proof.
    intros [M1 M2 M3 M4 M5 M6 M7 M8 M9 M10] (X1 & X2 & X3 & X4) (R1 & R2 & R3 & R4).
    unfold arrowMultiply. rewrite (Forall2_length _ _ _ M5).
    apply (bind_rel (Forall2 RY)); [apply multiply_rel; auto|intros s1 s1' S1].
    apply (bind_rel (Forall2 RX)); [apply rd_rel; auto|intros x0 x0' X0].
    apply (bind_rel (Forall2 RY)); [apply multiply_rel; auto|intros s2 s2' S2].
    apply (bind_rel (Forall2 RY)); [apply multiply_rel; auto|intros s3 s3' S3].
    apply (bind_rel (Forall2 RY)); [apply rd_rel; auto|intros q0 q0' Q0].
    apply (bind_rel (Forall2 RY)); [apply multiply_rel; auto|intros q1 q1' Q1].
    apply (bind_rel (Forall2 (Forall2 RY))); [apply wr_rel; auto|intros t t' T].
    apply (bind_rel (Forall2 (Forall2 RY))); [apply tri_multiply_rel; auto|intros t1 t1' T1].
    apply (bind_rel (fun a b => Forall2 (Forall2 RY) (fst a) (fst b) /\ Forall2 RY (snd a) (snd b))).
    { apply foldM_rel; [|cbn; auto]. intros [a b] [a' b'] i [Ha Hb]. cbn [fst snd] in *.
      apply (bind_rel matRel); [apply rd_rel; auto|intros o o' Ho].
      apply (bind_rel (Forall2 RY)); [apply rd_rel; auto|intros y y' Y].
      apply (bind_rel (Forall2 RY)); [apply multiply_rel; auto|intros y1 y1' Y1].
      apply (bind_rel (Forall2 (Forall2 RY))); [apply wr_rel; auto|intros t2 t2' T2].
      apply (bind_rel (Forall2 RX)); [apply rd_rel; auto|intros xi xi' Xi].
      apply (bind_rel (Forall2 RY)); [apply multiply_rel; auto|intros y2 y2' Y2].
      cbn. auto. }
    intros [t2 o] [t2' o'] [T2 Ho]. cbn [fst snd] in *.
    apply (bind_rel (Forall2 RY)); [apply rd_rel; auto|intros n0 n0' N0].
    apply (bind_rel (Forall2 RY)); [apply multiply_rel; auto|intros n1 n1' N1].
    apply (bind_rel (Forall2 (Forall2 RY))); [apply wr_rel; auto|intros t3 t3' T3].
    apply (bind_rel (Forall2 RX)); [apply rd_rel; auto|intros xn xn' Xn].
    apply (bind_rel (Forall2 RY)); [apply multiply_rel; auto|intros l1 l1' L1].
    apply (bind_rel (Forall2 RY)); [apply multiply_rel; auto|intros l2 l2' L2].
    apply (bind_rel (Forall2 RY)); [apply multiply_rel; auto|intros l3 l3' L3].
    apply (bind_rel (Forall2 RY)); [apply multiply_rel; auto|intros o1 o1' O1].
    apply (bind_rel (Forall2 RY)); [apply multiply_rel; auto|intros o2 o2' O2].
    apply (bind_rel (Forall2 RY)); [apply multiply_rel; auto|intros o3 o3' O3].
    cbn. unfold vecRel. cbn. auto.
  Qed.
End Rel.
