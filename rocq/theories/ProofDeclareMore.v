(** Declaring more entries stores more entries. *)
From Coq Require Import Lia List Arith Bool.
From Verif Require Import Base ModelPerm ModelSparsity ModelSymbolic ModelNumeric ModelArrow ModelReg.
From Verif Require Import SpecSymbolic SpecArrow SpecNumeric SpecArrowNum SpecTight SpecLocal SpecRenumber.
From Verif Require Import ProofBase ProofPerm ProofCsr ProofFill ProofDense ProofExact ProofLdl ProofKernel ProofSolve
  ProofSingle ProofSingleMain ProofArrowSym ProofArrowRows ProofArrowDense ProofArrowProduct ProofArrowSolve ProofArrowMain
  ProofArrowSub ProofChain ProofChainKernel ProofChainArrow ProofRoundMain ProofRoundUser ProofRoundTri
  ProofPropSymbolic ProofPropArrow ProofPropPivot ProofSign ProofPropSign ProofAgree ProofPropAgree ProofAgreeDense
  ProofAgreeArrow ProofTightNum ProofLocal ProofLocalSingle ProofLocalArrow ProofEtree ProofRenumberSym.
Import ListNotations.
Local Open Scope nat_scope.

Lemma low_incl es1 es2 n p : validPerm n p -> incl es1 es2 ->
  forall i j, permLow es1 n p i j -> permLow es2 n p i j.
Proof.
  intros HP HI i j H. pose proof H as (L1 & L2 & _). apply permLow_coupled in H; auto. apply permLow_coupled; auto.
  destruct H as [N H]. split; auto.
Qed.
Lemma rect_incl es1 es2 nr nc pr pc : incl es1 es2 ->
  forall i j, permRect es1 nr nc pr pc i j -> permRect es2 nr nc pr pc i j.
Proof. intros HI i j (L1 & L2 & H). split; auto. Qed.

Lemma nnz_mono c1 c2 : wf_csr c1 -> csr_sorted c1 ->
  (forall i j, In (i, j) (c_entries c1) -> In (i, j) (c_entries c2)) -> c_nnz c1 <= c_nnz c2.
Proof.
  intros W S H. apply NoDup_incl_length; [apply csr_sorted_NoDup; auto|]. intros [i j]. apply H.
Qed.

Lemma single_more s1 s2 n p b1 b2 :
  spOf s1 n n -> spOf s2 n n -> validPerm n p -> factorizationBlk s1 p = Ok b1 -> factorizationBlk s2 p = Ok b2 ->
  incl (entries s1) (entries s2) ->
  incl (c_entries (b_sp b1)) (c_entries (b_sp b2)) /\ c_nnz (b_sp b1) <= c_nnz (b_sp b2).
Proof.
  intros HS1 HS2 HP HB1 HB2 HI.
  assert (X : forall i j, In (i, j) (c_entries (b_sp b1)) -> In (i, j) (c_entries (b_sp b2))).
  { intros i j H. apply cols_In, (single_row s1 n p b1 HS1 HP HB1) in H. apply cols_In, (single_row s2 n p b2 HS2 HP HB2).
    revert H. apply Fill_mono. intros a b _. apply low_incl; auto. }
  split; [intros [i j]; apply X|].
  pose proof (blk_good s1 n p b1 HS1 HP HB1) as G. apply nnz_mono; auto; apply G.
Qed.

Lemma arrow_more s1 s2 ds dt dl dO k1 k2 :
  arrowDims s1 ds dt dl dO -> arrowDims s2 ds dt dl dO -> arrowBlocks s1 = Ok k1 -> arrowBlocks s2 = Ok k2 ->
  samePerms s1 s2 -> declaresMore s1 s2 ->
  (forall n g h, storedAt k1 n g h -> storedAt k2 n g h) /\
  Forall2 le (storedCounts k1) (storedCounts k2).
Proof.
  intros HD1 HD2 HK1 HK2 (E1 & E2 & E3 & E4) HM.
  pose proof HD1 as [_ _ _ _ _ _ _ _ _ _ Ps1 Pt1 Pl1 Po1].
  pose proof HM as [Msd Msn Mso Mtd Mts Mlp Mld Mln Mos Mod].
  assert (PS : patSub s1 s2 ds dt dl dO).
  { constructor; unfold charB; rewrite <- ?E1, <- ?E2, <- ?E3, <- ?E4;
      first [apply low_incl; auto; fail|apply rect_incl; auto; fail|idtac]. }
  pose proof (arrow_stored_mono s1 s2 ds dt dl dO k1 k2 HD1 HD2 HK1 HK2 PS) as ST.
  split; [exact ST|].
  destruct (arrow_good s1 ds dt dl dO k1 HD1 HK1) as (P & [Gsd Gsn Gso Gtd Gts Glp Gld Gln Gos God] & _ & _).
  unfold storedCounts. cbn [map].
  repeat constructor; apply nnz_mono; (eapply gb_wf; eassumption) || (eapply gb_sorted; eassumption) || idtac; intros i j H.
  - apply (ST 0 (GS i) (GS j)). exact H.
  - apply (ST 0 (GT 0 i) (GS j)). split; auto.
  - apply (ST 0 (GO i) (GS j)). exact H.
  - destruct (ST 0 (GT 0 i) (GT 0 j)) as [_ [[_ X]|[X _]]]; [split; [lia|left; auto]|exact X|lia].
  - destruct (ST 1 (GT 1 i) (GT 0 j)) as [_ [[X _]|[_ X]]]; [split; [lia|right; auto]|lia|exact X].
  - apply (ST 0 (GL i) (GT 0 j)). split; auto.
  - apply (ST 0 (GL i) (GL j)). exact H.
  - apply (ST 0 (GO i) (GL j)). exact H.
  - apply (ST 0 (GO i) (GT 0 j)). split; [lia|auto].
  - apply (ST 0 (GO i) (GO j)). exact H.
Qed.

Lemma tri_more a1 c1 a2 c2 p dt k1 k2 :
  spOf a1 dt dt -> spOf c1 dt dt -> spOf a2 dt dt -> spOf c2 dt dt -> validPerm dt p ->
  tridiagonalBlocks a1 c1 p = Ok k1 -> tridiagonalBlocks a2 c2 p = Ok k2 ->
  incl (entries a1) (entries a2) -> incl (entries c1) (entries c2) ->
  incl (c_entries (b_sp (k_td k1))) (c_entries (b_sp (k_td k2))) /\
  incl (c_entries (b_sp (k_ts k1))) (c_entries (b_sp (k_ts k2))) /\
  c_nnz (b_sp (k_td k1)) <= c_nnz (b_sp (k_td k2)) /\ c_nnz (b_sp (k_ts k1)) <= c_nnz (b_sp (k_ts k2)).
Proof.
  intros SA1 SC1 SA2 SC2 HP HK1 HK2 HA HC.
  destruct (arrow_more _ _ 0 dt 0 0 k1 k2 (tri_dims a1 c1 p dt SA1 SC1 HP) (tri_dims a2 c2 p dt SA2 SC2 HP)
    (tri_k a1 c1 p dt k1 SA1 SC1 HK1) (tri_k a2 c2 p dt k2 SA2 SC2 HK2)) as [ST FC].
  - repeat split.
  - constructor; try exact HA; try exact HC; apply incl_refl.
  - split; [|split].
    + intros [i j] H. destruct (ST 0 (GT 0 i) (GT 0 j)) as [_ [[_ X]|[X _]]]; [split; [lia|left; auto]|exact X|lia].
    + intros [i j] H. destruct (ST 1 (GT 1 i) (GT 0 j)) as [_ [[X _]|[_ X]]]; [split; [lia|right; auto]|lia|exact X].
    + unfold storedCounts in FC. cbn [map] in FC.
      do 3 (match type of FC with Forall2 _ (_ :: ?l) (_ :: ?l') =>
        assert (FC' : Forall2 le l l') by (inversion FC; assumption); clear FC; rename FC' into FC end).
      inversion FC as [|x y l l' X FC' E1 E2]; subst. inversion FC' as [|x y l l' Y _ E1 E2]; subst. auto.
Qed.
