(** Concrete data for the examples beside the property theorems: exact rational
    arithmetic and small matrices. *)
From Coq Require Import List Arith Bool QArith Qcanon Lia.
From Verif Require Import Base ModelPerm ModelSparsity ModelSymbolic ModelNumeric ModelArrow ModelReg.
From Verif Require Import SpecSymbolic SpecArrow SpecNumeric.
Import ListNotations.
Local Open Scope nat_scope.

(** ** rational numbers *)

Definition Oq : ops Qc := mkOps Qc (Q2Qc 0) Qcplus Qcminus Qcmult Qcdiv.
Definition FLq : fieldLaws Oq.
Proof.
  refine (mkFieldLaws Qc Oq 1%Qc Qcopp Qcrt _ _).
  - intros a b H. cbn. unfold Qcdiv. rewrite <- Qcmult_assoc, (Qcmult_comm (/ b)).
    rewrite Qcmult_inv_r by exact H. apply Qcmult_1_r.
  - cbn. intros H. apply (f_equal this) in H. discriminate.
Defined.

Definition q (x : Z) : Qc := Q2Qc (inject_Z x).
Definition qs (l : list Z) : list Qc := map q l.

(** ** checking hypotheses by computation *)

Definition spOf_check (s : sparsity) nr nc : bool :=
  (nrows s =? nr) && (ncols s =? nc) &&
  forallb (fun e => (fst e <? nr) && (snd e <? nc)) (entries s).

Lemma spOf_check_ok s nr nc : spOf_check s nr nc = true -> spOf s nr nc.
Proof.
  unfold spOf_check. rewrite !andb_true_iff, !Nat.eqb_eq, forallb_forall.
  intros [[E1 E2] H]. constructor; auto. intros i j Hij. apply H in Hij.
  cbn [fst snd] in Hij. rewrite andb_true_iff, !Nat.ltb_lt in Hij. auto.
Qed.

Fixpoint nodupb (l : list nat) : bool :=
  match l with
  | [] => true
  | a :: r => negb (existsb (Nat.eqb a) r) && nodupb r
  end.

Lemma nodupb_ok l : nodupb l = true -> NoDup l.
Proof.
  induction l as [|a l IH]; cbn [nodupb]; intros H; [constructor|].
  apply andb_true_iff in H. destruct H as [H1 H2]. constructor; auto.
  intros Hin. apply negb_true_iff in H1.
  assert (existsb (Nat.eqb a) l = true); [|congruence].
  apply existsb_exists. exists a. split; auto. apply Nat.eqb_refl.
Qed.

Lemma validPerm_check n p :
  (length p =? n) && nodupb p && forallb (fun x => x <? n) p = true -> validPerm n p.
Proof.
  rewrite !andb_true_iff, forallb_forall, Nat.eqb_eq. intros [[H1 H2] H3].
  split; auto. split; [apply nodupb_ok; auto|]. intros x Hx. apply Nat.ltb_lt; auto.
Qed.

Definition nonzerob (D : list Qc) : bool := forallb (fun d => negb (Qeq_bool (this d) 0)) D.

Lemma nonzerob_ok D k : nonzerob D = true -> k < length D -> vecAt Oq D k <> o0 Oq.
Proof.
  unfold nonzerob. rewrite forallb_forall. intros H Hk E.
  assert (H' := H (vecAt Oq D k) (nth_In _ _ Hk)). apply negb_true_iff in H'.
  rewrite E in H'. discriminate.
Qed.

(** an input matrix with integer values; reading past the end is undefined *)
Definition matOf (s : sparsity) (vals : list Z) : mat (F:=Qc) := mkMat s (rd (qs vals)).

Lemma matOf_input s vals :
  length vals = length (entries s) -> inputOf Oq (matOf s vals) s (qs vals).
Proof.
  intros H. constructor; auto.
  - unfold qs. rewrite map_length. auto.
  - intros k Hk. cbn [m_val matOf]. unfold rd.
    rewrite (nth_error_nth' _ (o0 Oq)) by auto. auto.
Qed.

(** ** a 4 x 4 matrix with fill-in

<<
    4 1 2 1
    1 5 . .
    2 . 6 .
    1 . . 7
>> *)

Definition exS : sparsity :=
  mkSp 4 4 [(0,0); (1,0); (1,1); (2,0); (2,2); (3,0); (3,3)].
Definition exVals : list Z := [4; 1; 5; 2; 6; 1; 7]%Z.
Definition exM : mat := matOf exS exVals.
Definition exP : perm := [0; 2; 1; 3].    (* fills everything *)
Definition exP' : perm := [3; 1; 2; 0].   (* no fill at all *)

Lemma exS_ok : spOf exS 4 4.
Proof. apply spOf_check_ok. reflexivity. Qed.
Lemma exP_ok : validPerm 4 exP.
Proof. apply validPerm_check. reflexivity. Qed.
Lemma exP'_ok : validPerm 4 exP'.
Proof. apply validPerm_check. reflexivity. Qed.
Lemma exM_ok : inputOf Oq exM exS (qs exVals).
Proof. apply matOf_input. reflexivity. Qed.

Definition exB : blk := match factorizationBlk exS exP with Ok b => b | Err _ => emptyDiagBlk end.
Definition exB' : blk := match factorizationBlk exS exP' with Ok b => b | Err _ => emptyDiagBlk end.
Lemma exB_ok : factorizationBlk exS exP = Ok exB.
Proof. reflexivity. Qed.
Lemma exB'_ok : factorizationBlk exS exP' = Ok exB'.
Proof. reflexivity. Qed.

(** previous contents of L and D *)
Definition exL0 : list Qc := qs [9; 8; 7; 6; 5; 4]%Z.
Definition exL0' : list Qc := qs [9; 8; 7]%Z.
Definition exD0 : list Qc := qs [3; 2; 1; 0]%Z.
