(** The remaining statements of PropSparsity in the form used there. *)
From Coq Require Import List Arith Lia Bool Sorted Permutation NArith.
From Verif Require Import Base ModelPerm ModelSparsity ModelSymbolic ModelNumeric ModelArrow.
From Verif Require Import SpecSymbolic SpecArrow SpecPerm.
From Verif Require Import ProofBase ProofPerm ProofArrowSym ProofPropSymbolic ProofEnum ProofSmall.
Import ListNotations.

Lemma lex_SS_NoDup l : StronglySorted lexLt l -> NoDup l.
Proof.
  induction 1 as [|a l HS IH HF]; constructor; auto.
  intros H. rewrite Forall_forall in HF. apply (lexLt_irrefl a), HF; auto.
Qed.

Lemma nth_firstn_lt k i (l : list nat) : i < k -> nth i (firstn k l) 0 = nth i l 0.
Proof.
  revert i l. induction k as [|k IH]; intros i l H; [lia|].
  destruct l as [|a l]; [auto|]. destruct i as [|i]; cbn [firstn nth]; auto. apply IH; lia.
Qed.

Lemma lexLt_trans a b c : lexLt a b -> lexLt b c -> lexLt a c.
Proof.
  intros (k & E1 & A1 & B1 & L1) (m & E2 & A2 & B2 & L2).
  assert (N1 : forall i, i < k -> nth i a 0 = nth i b 0).
  { intros i Hi. rewrite <- (nth_firstn_lt k i a Hi), <- (nth_firstn_lt k i b Hi), E1. auto. }
  assert (N2 : forall i, i < m -> nth i b 0 = nth i c 0).
  { intros i Hi. rewrite <- (nth_firstn_lt m i b Hi), <- (nth_firstn_lt m i c Hi), E2. auto. }
  assert (X : forall (u v w : list nat) j j', j' <= j -> firstn j u = firstn j v -> firstn j' u = firstn j' v).
  { intros u v _ j j' Hj E. replace j' with (Nat.min j' j) by lia.
    rewrite <- !firstn_firstn, E. auto. }
  destruct (Nat.lt_trichotomy k m) as [L|[->|L]].
  - exists k. split; [rewrite E1; apply (X b c b m k); auto; lia|].
    split; auto. split.
    + assert (length (firstn m b) = length (firstn m c)) by (rewrite E2; auto).
      rewrite !firstn_length in *. lia.
    + rewrite <- N2 by auto. auto.
  - exists m. split; [congruence|]. split; auto. split; auto. lia.
  - exists m. split; [rewrite <- E2; apply (X a b b k m); auto; lia|].
    split.
    + assert (length (firstn k a) = length (firstn k b)) by (rewrite E1; auto).
      rewrite !firstn_length in *. lia.
    + split; auto. rewrite N1 by auto. auto.
Qed.

Lemma valid_perm_seq dim p : validPerm dim p <-> Permutation p (seq 0 dim).
Proof. split; [apply validPerm_isPerm|apply isPerm_validPerm]. Qed.

Lemma enumerate_any dim :
  let ps := enumeratePermutationsStatic dim in
  N.of_nat (length ps) = (N.of_nat (fact dim) mod 2 ^ 64)%N /\
  StronglySorted lexLt ps /\
  (forall p, In p ps -> validPerm dim p) /\
  (forall p p', In p' ps -> validPerm dim p -> lexLt p p' -> In p ps) /\
  (ps <> [] -> hd [] ps = seq 0 dim).
Proof.
  cbv zeta. rewrite enumerate_firstn. set (k := N.to_nat _).
  set (L := lexperms dim (seq 0 dim)).
  assert (HL : length L = fact dim) by (apply lexperms_length, seq_length).
  assert (HS : StronglySorted lexLt L) by (apply lexperms_sorted; [apply seq_length|apply seq_sorted]).
  assert (HI : forall p, In p L <-> validPerm dim p).
  { intros p. rewrite valid_perm_seq. apply lexperms_In, seq_length. }
  assert (Hk : k <= fact dim).
  { unfold k. assert (N.of_nat (fact dim) mod size_t_mod <= N.of_nat (fact dim))%N
      by (apply N.mod_le; discriminate). lia. }
  assert (SP : L = firstn k L ++ skipn k L) by (symmetry; apply firstn_skipn).
  split; [|split; [|split; [|split]]].
  - rewrite firstn_length_le by lia. unfold k. rewrite N2Nat.id. reflexivity.
  - rewrite SP in HS. apply SS_inv_app in HS. tauto.
  - intros p Hp. apply HI. rewrite SP. apply in_or_app; auto.
  - intros p p' Hp' HV HLt. apply HI in HV. rewrite SP in HV. apply in_app_or in HV.
    destruct HV as [HV|HV]; auto. exfalso. rewrite SP in HS. apply SS_inv_app in HS.
    destruct HS as (_ & _ & HS). specialize (HS p' p Hp' HV).
    apply (lexLt_irrefl p). eapply lexLt_trans; eauto.
  - intros HN. destruct (lexperms_chain dim (seq 0 dim)) as ((l & E) & _);
      [apply seq_length|apply seq_sorted|]. fold L in E. rewrite E in *.
    destruct k; [exfalso; apply HN; reflexivity|]. reflexivity.
Qed.

Lemma enumerate_small dim : dim <= 20 ->
  let ps := enumeratePermutationsStatic dim in
  NoDup ps /\ length ps = fact dim /\ hd [] ps = seq 0 dim /\
  (forall p, In p ps <-> validPerm dim p).
Proof.
  intros Hd. cbv zeta. destruct (enumerate_any dim) as (H1 & H2 & H3 & H4 & H5).
  pose proof (fact_small dim Hd) as HF.
  assert (HL : length (enumeratePermutationsStatic dim) = fact dim).
  { apply Nat2N.inj. rewrite H1. apply N.mod_small. exact HF. }
  split; [apply lex_SS_NoDup; auto|]. split; auto.
  pose proof (lt_O_fact dim).
  split; [apply H5; intros E; rewrite E in HL; cbn in HL; lia|].
  intros p. split; [apply H3|]. intros HV.
  rewrite enumerate_firstn in *. rewrite N.mod_small, Nat2N.id by exact HF.
  rewrite firstn_all2; [apply lexperms_In; [apply seq_length|apply valid_perm_seq; auto]|].
  rewrite lexperms_length; auto. apply seq_length.
Qed.

Lemma enumerate_missing dim : (factN dim mod size_t_mod < factN dim)%N ->
  exists p, validPerm dim p /\ ~ In p (enumeratePermutationsStatic dim).
Proof.
  intros Hlt. rewrite <- factN_fact in Hlt.
  destruct (lexperms_chain dim (seq 0 dim)) as (_ & (l & E) & _);
    [apply seq_length|apply seq_sorted|].
  exists (rev (seq 0 dim)).
  split; [apply valid_perm_seq; symmetry; apply Permutation_rev|].
  intros Hin. rewrite enumerate_firstn in Hin.
  assert (ND : NoDup (lexperms dim (seq 0 dim))).
  { apply lex_SS_NoDup, lexperms_sorted; [apply seq_length|apply seq_sorted]. }
  pose proof (lexperms_length dim (seq 0 dim) (seq_length _ _)) as HL.
  set (k := N.to_nat _) in *. assert (Hk : k < fact dim) by (unfold k; lia).
  rewrite E in Hin, ND, HL. rewrite app_length in HL. cbn [length] in HL.
  rewrite firstn_app in Hin. replace (k - length l) with 0 in Hin by lia.
  cbn [firstn] in Hin. rewrite app_nil_r in Hin.
  apply NoDup_remove_2 in ND. apply ND. rewrite app_nil_r.
  rewrite <- (firstn_skipn k l). apply in_or_app. left; auto.
Qed.

Lemma factN_big dim : 21 <= dim -> (size_t_mod <= factN dim)%N.
Proof.
  induction 1 as [|m _ IH]; [vm_compute; discriminate|].
  cbn [factN]. eapply N.le_trans; [exact IH|].
  rewrite <- (N.mul_1_l (factN m)) at 1. apply N.mul_le_mono_r. lia.
Qed.

Lemma enumerate_large dim : 21 <= dim ->
  exists p, validPerm dim p /\ ~ In p (enumeratePermutationsStatic dim).
Proof.
  intros H. apply enumerate_missing. pose proof (factN_big dim H) as HB.
  eapply N.lt_le_trans; [apply N.mod_lt; discriminate|exact HB].
Qed.

Lemma bool_matrix_ok m nr nc :
  length m = nr -> Forall (fun row => length row = nc) m ->
  exists es, makeSparseEntriesFromBoolMatrix nr nc m = Ok es /\
    rowMajor es /\ length es = boolNnz m /\
    (forall i j, In (i, j) es <-> i < nr /\ j < nc /\ nth j (nth i m []) false = true).
Proof.
  intros H1 H2. exists (allTrues m nr nc). split; [apply bool_entries_ok; auto|].
  destruct (allTrues_spec m nr nc) as [A B]. split; auto. split; auto.
  symmetry. apply boolNnz_ok; auto.
Qed.

Lemma dims_agree s ds dt dl dO :
  startAgrees (as_start s) ds -> triAgrees s dt -> linkAgrees (as_link s) dl -> outerAgrees s dO ->
  as_dim_start s = Ok ds /\ as_dim_tri s = Ok dt /\ as_dim_link s = Ok dl /\
  as_dim_outer s = Ok dO.
Proof.
  intros. split; [apply dim_start_ok; auto|]. split; [apply dim_tri_ok; auto|].
  split; [apply dim_link_ok; auto|apply dim_outer_ok; auto].
Qed.

Lemma dims_disagree s :
  ((forall d, ~ startAgrees (as_start s) d) -> as_dim_start s = Err PreViolation) /\
  ((forall d, ~ triAgrees s d) -> as_dim_tri s = Err PreViolation) /\
  ((forall d, ~ linkAgrees (as_link s) d) -> as_dim_link s = Err PreViolation) /\
  ((forall d, ~ outerAgrees s d) -> as_dim_outer s = Err PreViolation).
Proof.
  split; [apply dim_start_err|]. split; [apply dim_tri_err|].
  split; [apply dim_link_err|apply dim_outer_err].
Qed.
