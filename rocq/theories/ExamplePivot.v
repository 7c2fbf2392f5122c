(** Concrete data for the examples about definite matrices: the order of the
    rational numbers and small quasi-definite matrices. *)
From Coq Require Import List Arith Bool QArith Qcanon FinFun Lia.
From Verif Require Import Base ModelPerm ModelSparsity ModelSymbolic ModelNumeric ModelArrow ModelReg.
From Verif Require Import SpecSymbolic SpecArrow SpecNumeric SpecArrowNum SpecPivot ExampleData ExampleArrow.
Import ListNotations.
Local Open Scope nat_scope.

Definition OLq : ordLaws FLq.
Proof.
  refine (mkOrdLaws Qc Oq FLq (fun x => (0 < x)%Qc) _ _ _ _); cbn.
  - intros a b Ha Hb. apply Qclt_le_trans with (0 + b)%Qc.
    + rewrite Qcplus_0_l. auto.
    + apply Qcplus_le_compat; [apply Qclt_le_weak; auto|apply Qcle_refl].
  - intros a b Ha Hb. rewrite <- (Qcmult_0_l b). apply Qcmult_lt_compat_r; auto.
  - intros H. apply (Qclt_not_eq _ _ H). reflexivity.
  - intros a. destruct (Qc_dec 0%Qc a) as [[H|H]|H].
    + left. left. exact H.
    + right. replace 0%Qc with (- (0))%Qc by reflexivity. unfold Qclt, Qcopp in *. cbn [this Q2Qc] in *.
      rewrite !Qred_correct. apply Qopp_lt_compat in H. exact H.
    + left. right. symmetry. exact H.
Defined.

Definition ILq : infLaws Qc.
Proof.
  refine (mkInfLaws Qc Qc_eq_dec _).
  (* the first number of 0, 1, 2, ... that is missing *)
  intros l.
  assert (K : forall m, NoDup (map (fun k => q (Z.of_nat k)) (seq 0 m))).
  { intros m. apply Injective_map_NoDup; [|apply seq_NoDup]. intros a b E.
    apply Q2Qc_eq_iff in E. unfold Qeq, inject_Z in E. cbn [Qnum Qden] in E. lia. }
  destruct (Exists_dec (fun x => ~ In x l) (map (fun k => q (Z.of_nat k)) (seq 0 (S (length l))))) as [E|N].
  - intros x. destruct (in_dec Qc_eq_dec x l); [right|left]; tauto.
  - apply Exists_exists in E. destruct E as (x & _ & Hx). exists x. exact Hx.
  - exfalso. assert (S (length l) <= length l); [|lia].
    rewrite <- (seq_length (S (length l)) 0), <- (map_length (fun k => q (Z.of_nat k))) at 1.
    apply NoDup_incl_length; [apply K|]. intros x Hx.
    destruct (in_dec Qc_eq_dec x l); auto. exfalso. apply N, Exists_exists. eauto.
Defined.

(** a sum of squares *)
Lemma squares_pos (l : list Qc) : Exists (fun x => x <> 0%Qc) l ->
  (0 < fold_right (fun x s => x * x + s)%Qc 0%Qc l)%Qc.
Proof.
  assert (SQ : forall x : Qc, (0 <= x * x)%Qc).
  { intros x. destruct (Qc_dec 0%Qc x) as [[H|H]|H].
    - apply Qclt_le_weak. apply (ol_mul OLq x x H H).
    - replace (x * x)%Qc with ((-x) * (-x))%Qc by ring. apply Qclt_le_weak.
      destruct (ol_dec OLq x) as [[P|E]|P].
      + exfalso. apply (Qclt_not_le _ _ P), Qclt_le_weak, H.
      + exfalso. apply (Qclt_not_eq _ _ H). exact E.
      + apply (ol_mul OLq _ _ P P).
    - rewrite <- H. apply Qcle_refl. }
  assert (NN : forall l : list Qc, (0 <= fold_right (fun x s => x * x + s)%Qc 0%Qc l)%Qc).
  { clear l. induction l as [|x l IH]; cbn [fold_right]; [apply Qcle_refl|].
    apply Qcle_trans with (0 + 0)%Qc; [apply Qcle_refl|]. apply Qcplus_le_compat; auto. }
  assert (SP : forall x : Qc, x <> 0%Qc -> (0 < x * x)%Qc).
  { intros x N. destruct (ol_dec OLq x) as [[P|E]|P]; [apply (ol_mul OLq x x P P)|contradiction|].
    replace (x * x)%Qc with ((-x) * (-x))%Qc by ring. apply (ol_mul OLq _ _ P P). }
  assert (LA : forall a b : Qc, (0 <= a)%Qc -> (0 < b)%Qc -> (0 < a + b)%Qc).
  { intros a b Ha Hb. apply Qclt_le_trans with (0 + b)%Qc; [rewrite Qcplus_0_l; auto|].
    apply Qcplus_le_compat; auto. apply Qcle_refl. }
  induction 1 as [x l N|x l _ IH]; cbn [fold_right].
  - rewrite Qcplus_comm. apply LA; auto.
  - apply LA; auto.
Qed.

(** the quasi-definite matrix
<<
    2  1  1  .
    1  2  .  1
    1  . -1  .
    .  1  . -1
>> *)
Definition exQS : sparsity := mkSp 4 4 [(0,0); (1,0); (1,1); (2,0); (2,2); (3,1); (3,3)].
Definition exQVals : list Z := [2; 1; 2; 1; -1; 1; -1]%Z.
Definition exQM : mat := ExampleData.matOf exQS exQVals.
Definition exQP : perm := [2; 0; 3; 1].
Definition exQR (i : nat) : bool := i <? 2.
Lemma exQS_ok : spOf exQS 4 4.
Proof. apply spOf_check_ok. reflexivity. Qed.
Lemma exQP_ok : validPerm 4 exQP.
Proof. apply validPerm_check. reflexivity. Qed.
Lemma exQM_ok : inputOf Oq exQM exQS (qs exQVals).
Proof. apply matOf_input. reflexivity. Qed.

Lemma qc_lit x : Q2Qc (inject_Z x) = q x. Proof. reflexivity. Qed.
Lemma q_m1 : q (-1) = (- (1))%Qc. Proof. apply Qc_is_canon. reflexivity. Qed.
Lemma q_0 : q 0 = 0%Qc. Proof. reflexivity. Qed.
Lemma q_1 : q 1 = 1%Qc. Proof. reflexivity. Qed.
Lemma q_2 : q 2 = (1 + 1)%Qc. Proof. apply Qc_is_canon. reflexivity. Qed.
Lemma q_3 : q 3 = (1 + 1 + 1)%Qc. Proof. apply Qc_is_canon. reflexivity. Qed.
Lemma q_4 : q 4 = (1 + 1 + 1 + 1)%Qc. Proof. apply Qc_is_canon. reflexivity. Qed.
Lemma q_m3 : q (-3) = (- (1 + 1 + 1))%Qc. Proof. apply Qc_is_canon. reflexivity. Qed.
Lemma q_m5 : q (-5) = (- (1 + 1 + 1 + 1 + 1))%Qc. Proof. apply Qc_is_canon. reflexivity. Qed.

Lemma exQ_quad x : quadForm Oq (seq 0 4) (symAt Oq (entries exQS) (qs exQVals)) x =
  ((1 + 1) * x 0%nat * x 0%nat + (1 + 1) * x 0%nat * x 1%nat + (1 + 1) * x 1%nat * x 1%nat +
   (1 + 1) * x 0%nat * x 2%nat + (1 + 1) * x 1%nat * x 3%nat - x 2%nat * x 2%nat - x 3%nat * x 3%nat)%Qc.
Proof.
  unfold quadForm. cbn [seq suml fold_right].
  repeat match goal with |- context [symAt Oq (entries exQS) (qs exQVals) ?i ?j] =>
    let v := eval cbv -[q Q2Qc] in (symAt Oq (entries exQS) (qs exQVals) i j) in
    change (symAt Oq (entries exQS) (qs exQVals) i j) with v end.
  rewrite ?q_m1, ?q_1, ?q_2. change (Q2Qc 0) with 0%Qc.
  cbn [Oq o0 oadd omul]. ring.
Qed.

Lemma exQ_def : quasiDef OLq (seq 0 4) exQR (symAt Oq (entries exQS) (qs exQVals)).
Proof.
  intros x (g & Hg & Nz). rewrite exQ_quad. split; intros HZ.
  - assert (Z2 : x 2%nat = 0%Qc) by (apply HZ; [cbn; auto 10|reflexivity]).
    assert (Z3 : x 3%nat = 0%Qc) by (apply HZ; [cbn; auto 10|reflexivity]).
    match goal with |- ol_pos OLq ?t =>
      replace t with (fold_right (fun x s => x * x + s)%Qc 0%Qc [x 0%nat; x 1%nat; x 0%nat + x 1%nat]%Qc) end.
    + apply squares_pos. cbn in Hg. destruct Hg as [<-|[<-|[<-|[<-|[]]]]]; try contradiction; auto.
    + cbn [fold_right]. rewrite Z2, Z3. ring.
  - assert (Z0 : x 0%nat = 0%Qc) by (apply HZ; [cbn; auto 10|reflexivity]).
    assert (Z1 : x 1%nat = 0%Qc) by (apply HZ; [cbn; auto 10|reflexivity]).
    match goal with |- ol_pos OLq ?t =>
      replace t with (fold_right (fun x s => x * x + s)%Qc 0%Qc [x 2%nat; x 3%nat]%Qc) end.
    + apply squares_pos. cbn in Hg. destruct Hg as [<-|[<-|[<-|[<-|[]]]]]; try contradiction; auto.
    + cbn [fold_right fl_opp FLq]. rewrite Z0, Z1. ring.
Qed.

(** a quasi-definite arrowhead linked matrix with rows S, T0, T1, L, O
<<
     3  1  .  .  1
     1 -3  1  .  1
     .  1 -3  1  1
     .  .  1  4  1
     1  1  1  1 -5
>> *)
Definition ex11 : sparsity := mkSp 1 1 [(0,0)].
Definition exQA : arrow_sp := mkAS
  (mkSS ex11 ex11 ex11 [0]) (mkST ex11 ex11 [0]) (mkSL ex11 ex11 ex11 [0]) (mkSO ex11 ex11 [0]).
Definition exQIn : arrow_mat (F:=Qc) :=
  let c := fun v => ExampleData.matOf ex11 [v]%Z in
  mkAM (c 3%Z) (c 1%Z) (c 1%Z) [c (-3)%Z; c (-3)%Z] [c 1%Z] (c 1%Z) (c 4%Z) (c 1%Z)
    [c 1%Z; c 1%Z] (c (-5)%Z).
Definition exQW : arrow_vals Qc :=
  let c := fun v => qs [v]%Z in
  mkVals (c 3%Z) (c 1%Z) (c 1%Z) [c (-3)%Z; c (-3)%Z] [c 1%Z] (c 1%Z) (c 4%Z) (c 1%Z)
    [c 1%Z; c 1%Z] (c (-5)%Z).
Definition exQAR (g : gidx) : bool :=
  match g with GS _ | GL _ => true | _ => false end.

Lemma exQA_dims : arrowDims exQA 1 1 1 1.
Proof. arrow_dims. Qed.
Lemma exQIn_ok : inputArrow Oq 1 1 1 1 1 exQIn exQW.
Proof.
  constructor; try (apply qmat; reflexivity); try reflexivity.
  - intros [|[|t]] H; try lia; apply qmat; reflexivity.
  - intros [|t] H; try lia; apply qmat; reflexivity.
  - intros [|[|t]] H; try lia; apply qmat; reflexivity.
Qed.
Lemma exQIn_declared : declaredArrow exQA 1 exQIn.
Proof.
  constructor; try (intros r c H _; exact H); try (intros r c H; exact H).
  - intros [|[|t]] H; try lia; intros r c Hin _; exact Hin.
  - intros [|t] H; try lia; intros r c Hin; exact Hin.
  - intros [|[|t]] H; try lia; intros r c Hin; exact Hin.
Qed.

Lemma exQA_quad x : quadForm Oq (allIdx 1 1 1 1 1) (matAt Oq exQIn exQW) x =
  ((1 + 1 + 1) * x (GS 0) * x (GS 0) + (1 + 1 + 1 + 1) * x (GL 0) * x (GL 0)
   - (1 + 1 + 1) * x (GT 0 0) * x (GT 0 0) - (1 + 1 + 1) * x (GT 1 0) * x (GT 1 0)
   - (1 + 1 + 1 + 1 + 1) * x (GO 0) * x (GO 0)
   + (1 + 1) * (x (GS 0) * x (GT 0 0) + x (GT 0 0) * x (GT 1 0) + x (GT 1 0) * x (GL 0)
      + x (GO 0) * (x (GS 0) + x (GT 0 0) + x (GT 1 0) + x (GL 0))))%Qc.
Proof.
  unfold quadForm. cbn [allIdx seq map concat app Nat.add suml fold_right].
  repeat match goal with |- context [matAt Oq exQIn exQW ?i ?j] =>
    let v := eval cbv -[q Q2Qc] in (matAt Oq exQIn exQW i j) in
    change (matAt Oq exQIn exQW i j) with v end.
  rewrite ?q_m3, ?q_m5, ?q_1, ?q_3, ?q_4. change (Q2Qc 0) with 0%Qc.
  cbn [Oq o0 oadd omul]. ring.
Qed.

Lemma exQA_def : quasiDef OLq (allIdx 1 1 1 1 1) exQAR (matAt Oq exQIn exQW).
Proof.
  intros x (g & Hg & Nz). rewrite exQA_quad. apply (in_map (fun g => g)) in Hg.
  cbn in Hg. split; intros HZ.
  - assert (Z1 : x (GT 0 0) = 0%Qc) by (apply HZ; [cbn; auto 10|reflexivity]).
    assert (Z2 : x (GT 1 0) = 0%Qc) by (apply HZ; [cbn; auto 10|reflexivity]).
    assert (Z3 : x (GO 0) = 0%Qc) by (apply HZ; [cbn; auto 10|reflexivity]).
    match goal with |- ol_pos OLq ?t =>
      replace t with (fold_right (fun x s => x * x + s)%Qc 0%Qc
        [x (GS 0); x (GL 0); x (GS 0); x (GL 0); x (GS 0); x (GL 0); x (GL 0)]%Qc) end.
    + apply squares_pos. destruct Hg as [<-|[<-|[<-|[<-|[<-|[]]]]]]; try contradiction; auto.
    + cbn [fold_right]. rewrite Z1, Z2, Z3. ring.
  - assert (Z1 : x (GS 0) = 0%Qc) by (apply HZ; [cbn; auto 10|reflexivity]).
    assert (Z2 : x (GL 0) = 0%Qc) by (apply HZ; [cbn; auto 10|reflexivity]).
    match goal with |- ol_pos OLq ?t =>
      replace t with (fold_right (fun x s => x * x + s)%Qc 0%Qc
        [x (GT 0 0); x (GT 1 0); x (GO 0); x (GO 0); x (GO 0);
         x (GT 0 0) - x (GT 1 0); x (GT 0 0) - x (GO 0); x (GT 1 0) - x (GO 0)]%Qc) end.
    + apply squares_pos. destruct Hg as [<-|[<-|[<-|[<-|[<-|[]]]]]]; try contradiction; auto.
    + cbn [fold_right fl_opp FLq]. rewrite Z1, Z2. ring.
Qed.

Definition exQK : arrow_blks := match arrowBlocks exQA with Ok k => k | Err _ => noBlks end.
Lemma exQK_ok : arrowBlocks exQA = Ok exQK.
Proof. reflexivity. Qed.
Definition exQD : arrow_data :=
  match arrowCtor Oq exQK 1 with Ok d => d | Err _ => noData end.
Lemma exQD_ok : dataOf exQK 1 1 1 1 1 exQD.
Proof. data_of. Qed.
