(** Triangular and diagonal solves: equations of the result. No algebraic laws. *)
From Coq Require Import List Arith Lia Bool.
From Verif Require Import Base ModelPerm ModelSparsity ModelSymbolic ModelNumeric.
From Verif Require Import SpecSymbolic SpecArrow SpecNumeric.
From Verif Require Import ProofBase ProofPerm ProofCsr ProofSparsity ProofFill ProofFill3
  ProofArrowSym ProofDense ProofUpRow ProofUp.
Import ListNotations.

Section Solve.
  Context {F : Type} (O : ops F).
  Local Notation get := (getL O).
  Local Notation "a - b" := (osub O a b) : scalar.
  Local Notation "a * b" := (omul O a b) : scalar.
  Local Notation "a / b" := (odiv O a b) : scalar.

  (** permuted view of a vector *)
  Definition vat (p : perm) (v : list F) (i : nat) : F := nth (nth i p 0) v (o0 O).

  Lemma vat_upd n p v i x j :
    isPerm n p -> length v = n -> i < n -> j < n ->
    vat p (upd v (nth i p 0) x) j = if j =? i then x else vat p v j.
  Proof.
    intros P Hv Hi Hj. unfold vat. destruct (Nat.eqb_spec j i) as [->|N].
    - apply nth_upd_eq. rewrite Hv. eapply isPerm_lt; eauto.
    - apply nth_upd_neq. intros E. apply N. eapply isPerm_inj; eauto.
  Qed.

  Lemma vat_ext n p v w :
    isPerm n p -> length v = n -> length w = n ->
    (forall i, i < n -> vat p v i = vat p w i) -> v = w.
  Proof.
    intros P Hv Hw H. apply (list_ext _ _ (o0 O)); [lia|]. intros k Hk. rewrite Hv in Hk.
    destruct (isPerm_surj n p k P Hk) as (i & Hi & <-). apply H; auto.
  Qed.

  Lemma vat_rd n p v i : isPerm n p -> length v = n -> i < n ->
    rd v (nth i p 0) = Ok (vat p v i).
  Proof. intros P Hv Hi. apply rd_nth. rewrite Hv. eapply isPerm_lt; eauto. Qed.

  (** ** forward *)

  Lemma fwdRow_ok b nr nc R prow pcol sym L i sol v :
    goodBlk b nr nc R prow pcol sym -> length L = c_nnz (b_sp b) -> length sol = nc -> i < nr ->
    solveForwardSubstitutionRow O b L i sol v =
    Ok (subf O v (cols (b_sp b) i) (fun _ => true)
          (fun k => (get (b_sp b) L i k * vat pcol sol k)%s)).
  Proof.
    intros G HL Hs Hi. pose proof (goodBlk_gcsr _ _ _ _ _ _ _ G) as GC.
    pose proof G as [W _ r c I _ pc _ _ P].
    unfold solveForwardSubstitutionRow. rewrite !(wf_rd_rb _ W) by lia. cbn [bind].
    set (f := fun v k => _).
    destruct (row_fold (b_sp b) f (fun pre x => x = subf O v pre (fun _ => true)
          (fun k => (get (b_sp b) L i k * vat pcol sol k)%s)) i v GC)
      as (x & E & Hx); try lia; auto.
    - intros pre q post k x Ec Ek Hq Hpre Hpost ->. unfold f.
      rewrite (proj2 (rd_ok _ _ _) Ek). cbn [bind snd]. unfold origColIndex. rewrite pc.
      rewrite (isPerm_rd nc) by (auto; lia). cbn [bind].
      rewrite (rd_at O (b_sp b) L i q k) by auto. cbn [bind].
      rewrite (vat_rd nc) by (auto; lia). cbn [bind].
      eexists. split; [reflexivity|]. rewrite subf_snoc. auto.
    - subst x. auto.
  Qed.

  Lemma fwdLeft_ok bd bl n m R Rl p pl sy syl Ld Ll sol rhs :
    goodBlk bd n n R p p sy -> goodBlk bl n m Rl p pl syl ->
    (forall i j, R i j -> j < i) ->
    length Ld = c_nnz (b_sp bd) -> length Ll = c_nnz (b_sp bl) ->
    length sol = m -> length rhs = n ->
    exists v, solveForwardSubstitutionLeft O bd Ld bl Ll sol rhs = Ok v /\ length v = n /\
      forall i, i < n -> vat p v i =
        subf O (subf O (vat p rhs i) (cols (b_sp bl) i) (fun _ => true)
                  (fun k => (get (b_sp bl) Ll i k * vat pl sol k)%s))
          (cols (b_sp bd) i) (fun _ => true) (fun k => (get (b_sp bd) Ld i k * vat p v k)%s).
  Proof.
    intros G Gl Low HL HLl Hs Hr.
    pose proof G as [W _ r c I pr pc _ P _]. pose proof Gl as [Wl _ rl cl Il prl pcl _ _ Pl].
    unfold solveForwardSubstitutionLeft.
    rewrite r, rl, pr, prl, Nat.eqb_refl. cbn [static_assert bind].
    replace (perm_eqb p p) with true by (symmetry; apply perm_eqb_spec; auto).
    cbn [static_assert bind].
    set (f := fun rhs i => _).
    destruct (foldM_seq f (fun i v => length v = n /\
      (forall q, i <= q -> q < n -> vat p v q = vat p rhs q) /\
      forall q, q < i -> vat p v q =
        subf O (subf O (vat p rhs q) (cols (b_sp bl) q) (fun _ => true)
                  (fun k => (get (b_sp bl) Ll q k * vat pl sol k)%s))
          (cols (b_sp bd) q) (fun _ => true) (fun k => (get (b_sp bd) Ld q k * vat p v k)%s))
      0 n rhs) as (v & E & Hv & _ & H).
    - split; auto. split; auto. intros q Hq; lia.
    - intros i v Hi (H1 & H2 & H3). unfold f. unfold origRowIndex. rewrite pr.
      rewrite (isPerm_rd n) by (auto; lia). cbn [bind].
      rewrite (vat_rd n) by (auto; lia). cbn [bind].
      rewrite (fwdRow_ok bl n m Rl p pl syl) by (auto; lia). cbn [bind].
      rewrite (fwdRow_ok bd n n R p p sy) by (auto; lia). cbn [bind].
      rewrite wr_ok by (rewrite H1; eapply isPerm_lt; eauto; lia).
      eexists. split; [reflexivity|]. rewrite upd_length. split; auto.
      set (x := subf O _ (cols (b_sp bd) i) _ _).
      assert (VU : forall q, q < n -> q <> i -> vat p (upd v (nth i p 0) x) q = vat p v q).
      { intros q Hq N. rewrite (vat_upd n) by (auto; lia). destruct (Nat.eqb_spec q i); [lia|auto]. }
      assert (LT : forall q k, In k (cols (b_sp bd) q) -> k < q).
      { intros q k H. apply cols_In in H. apply Low, I, H. }
      split.
      + intros q Hq Hq'. rewrite VU by lia. apply H2; lia.
      + intros q Hq. destruct (Nat.eq_dec q i) as [->|N].
        * rewrite (vat_upd n) by (auto; lia). rewrite Nat.eqb_refl. unfold x at 1.
          rewrite H2 by lia. apply subf_ext; auto. intros k Hk _. apply LT in Hk.
          rewrite VU by lia. auto.
        * rewrite VU by lia. rewrite H3 by lia. apply subf_ext; auto. intros k Hk _.
          apply LT in Hk. rewrite VU by lia. auto.
    - exists v. auto.
  Qed.

  Lemma fwdSelf_ok bd n R p sy Ld rhs :
    goodBlk bd n n R p p sy -> (forall i j, R i j -> j < i) ->
    length Ld = c_nnz (b_sp bd) -> length rhs = n ->
    exists v, solveForwardSubstitution O bd Ld None rhs = Ok v /\ length v = n /\
      forall i, i < n -> vat p v i =
        subf O (vat p rhs i) (cols (b_sp bd) i) (fun _ => true)
          (fun k => (get (b_sp bd) Ld i k * vat p v k)%s).
  Proof.
    intros G Low HL Hr. pose proof G as [W _ r c I pr pc _ P _].
    unfold solveForwardSubstitution. rewrite r. cbn [value_or].
    set (f := fun rhs i => _).
    destruct (foldM_seq f (fun i v => length v = n /\
      (forall q, i <= q -> q < n -> vat p v q = vat p rhs q) /\
      forall q, q < i -> vat p v q =
        subf O (vat p rhs q) (cols (b_sp bd) q) (fun _ => true)
          (fun k => (get (b_sp bd) Ld q k * vat p v k)%s)) 0 n rhs) as (v & E & Hv & _ & H).
    - split; auto. split; auto. intros q Hq; lia.
    - intros i v Hi (H1 & H2 & H3). unfold f. unfold origRowIndex. rewrite pr.
      rewrite (isPerm_rd n) by (auto; lia). cbn [bind].
      rewrite (vat_rd n) by (auto; lia). cbn [bind].
      rewrite (fwdRow_ok bd n n R p p sy) by (auto; lia). cbn [bind].
      rewrite wr_ok by (rewrite H1; eapply isPerm_lt; eauto; lia).
      eexists. split; [reflexivity|]. rewrite upd_length. split; auto.
      set (x := subf O _ (cols (b_sp bd) i) _ _).
      assert (VU : forall q, q < n -> q <> i -> vat p (upd v (nth i p 0) x) q = vat p v q).
      { intros q Hq N. rewrite (vat_upd n) by (auto; lia). destruct (Nat.eqb_spec q i); [lia|auto]. }
      assert (LT : forall q k, In k (cols (b_sp bd) q) -> k < q).
      { intros q k H. apply cols_In in H. apply Low, I, H. }
      split.
      + intros q Hq Hq'. rewrite VU by lia. apply H2; lia.
      + intros q Hq. destruct (Nat.eq_dec q i) as [->|N].
        * rewrite (vat_upd n) by (auto; lia). rewrite Nat.eqb_refl. unfold x at 1.
          rewrite H2 by lia. apply subf_ext; auto. intros k Hk _. apply LT in Hk.
          rewrite VU by lia. auto.
        * rewrite VU by lia. rewrite H3 by lia. apply subf_ext; auto. intros k Hk _.
          apply LT in Hk. rewrite VU by lia. auto.
    - exists v. auto.
  Qed.

  Lemma fwdRect_ok b nr nc R prow pcol sy L sol rhs :
    goodBlk b nr nc R prow pcol sy ->
    length L = c_nnz (b_sp b) -> length sol = nc -> length rhs = nr ->
    exists v, solveForwardSubstitution O b L (Some sol) rhs = Ok v /\ length v = nr /\
      forall i, i < nr -> vat prow v i =
        subf O (vat prow rhs i) (cols (b_sp b) i) (fun _ => true)
          (fun k => (get (b_sp b) L i k * vat pcol sol k)%s).
  Proof.
    intros G HL Hs Hr. pose proof G as [W _ r c I pr pc _ P P2].
    unfold solveForwardSubstitution. rewrite r. cbn [value_or].
    set (f := fun rhs i => _).
    destruct (foldM_seq f (fun i v => length v = nr /\
      (forall q, q < nr -> vat prow v q = if q <? i then
        subf O (vat prow rhs q) (cols (b_sp b) q) (fun _ => true)
          (fun k => (get (b_sp b) L q k * vat pcol sol k)%s) else vat prow rhs q)) 0 nr rhs)
      as (v & E & Hv & H).
    - split; auto.
    - intros i v Hi (H1 & H2). unfold f. unfold origRowIndex. rewrite pr.
      rewrite (isPerm_rd nr) by (auto; lia). cbn [bind].
      rewrite (vat_rd nr) by (auto; lia). cbn [bind].
      rewrite (fwdRow_ok b nr nc R prow pcol sy) by (auto; lia). cbn [bind].
      rewrite wr_ok by (rewrite H1; eapply isPerm_lt; eauto; lia).
      eexists. split; [reflexivity|]. rewrite upd_length. split; auto.
      intros q Hq. rewrite (vat_upd nr) by (auto; lia).
      destruct (Nat.eqb_spec q i) as [->|N].
      + replace (i <? 1 + i) with true by (symmetry; apply Nat.ltb_lt; lia).
        rewrite H2 by auto. rewrite Nat.ltb_irrefl. auto.
      + rewrite H2 by auto. destruct (Nat.ltb_spec q i), (Nat.ltb_spec q (1 + i)); auto; lia.
    - exists v. split; auto. split; auto. intros i Hi. rewrite H by auto.
      replace (i <? 0 + nr) with true by (symmetry; apply Nat.ltb_lt; lia). auto.
  Qed.

  (** ** diagonal *)

  Lemma diagSolve_ok b n R p sy D rhs :
    goodBlk b n n R p p sy -> length D = n -> length rhs = n ->
    exists v, diagonalSolve O b D rhs = Ok v /\ length v = n /\
      forall i, i < n -> vat p v i = (vat p rhs i / getD O D i)%s.
  Proof.
    intros G HD Hr. pose proof G as [W _ r c I pr pc _ P _].
    unfold diagonalSolve. rewrite r. set (f := fun rhs i => _).
    destruct (foldM_seq f (fun i v => length v = n /\
      (forall q, q < n -> vat p v q = if q <? i then (vat p rhs q / getD O D q)%s
         else vat p rhs q)) 0 n rhs) as (v & E & Hv & H).
    - split; auto.
    - intros i v Hi (H1 & H2). unfold f. unfold origRowIndex. rewrite pr.
      rewrite (isPerm_rd n) by (auto; lia). cbn [bind].
      rewrite (vat_rd n) by (auto; lia). cbn [bind].
      rewrite (rd_nth D i (o0 O)) by lia. cbn [bind].
      rewrite wr_ok by (rewrite H1; eapply isPerm_lt; eauto; lia).
      eexists. split; [reflexivity|]. rewrite upd_length. split; auto.
      intros q Hq. rewrite (vat_upd n) by (auto; lia).
      destruct (Nat.eqb_spec q i) as [->|N].
      + replace (i <? 1 + i) with true by (symmetry; apply Nat.ltb_lt; lia).
        rewrite H2 by auto. rewrite Nat.ltb_irrefl. auto.
      + rewrite H2 by auto. destruct (Nat.ltb_spec q i), (Nat.ltb_spec q (1 + i)); auto; lia.
    - exists v. split; auto. split; auto. intros i Hi. rewrite H by auto.
      replace (i <? 0 + n) with true by (symmetry; apply Nat.ltb_lt; lia). auto.
  Qed.

  (** ** backward *)

  Lemma bwdRow_ok b nr nc R prow pcol sym L i x v :
    goodBlk b nr nc R prow pcol sym -> length L = c_nnz (b_sp b) -> length v = nc -> i < nr ->
    exists v', solveBackwardSubstitutionRow O b L i x v = Ok v' /\ length v' = nc /\
      forall j, j < nc -> vat pcol v' j =
        if nzb (b_sp b) i j then (vat pcol v j - get (b_sp b) L i j * x)%s else vat pcol v j.
  Proof.
    intros G HL Hv Hi. pose proof (goodBlk_gcsr _ _ _ _ _ _ _ G) as GC.
    pose proof G as [W _ r c I _ pc _ _ P].
    unfold solveBackwardSubstitutionRow. rewrite !(wf_rd_rb _ W) by lia. cbn [bind].
    set (f := fun v k => _).
    destruct (row_fold (b_sp b) f (fun pre w => length w = nc /\ forall j, j < nc ->
        vat pcol w j = if existsb (Nat.eqb j) pre
          then (vat pcol v j - get (b_sp b) L i j * x)%s else vat pcol v j) i v GC)
      as (w & E & Hw & H); try lia.
    - split; auto.
    - intros pre q post k w Ec Ek Hq Hpre Hpost (H1 & H2). unfold f.
      rewrite (proj2 (rd_ok _ _ _) Ek). cbn [bind snd]. unfold origColIndex. rewrite pc.
      rewrite (isPerm_rd nc) by (auto; lia). cbn [bind].
      rewrite (vat_rd nc) by (auto; lia). cbn [bind].
      rewrite (rd_at O (b_sp b) L i q k) by auto. cbn [bind].
      rewrite wr_ok by (rewrite H1; eapply isPerm_lt; eauto; lia).
      eexists. split; [reflexivity|]. rewrite upd_length. split; auto.
      intros j Hj. rewrite (vat_upd nc) by (auto; lia).
      rewrite existsb_app. cbn [existsb]. rewrite orb_false_r.
      destruct (Nat.eqb_spec j q) as [->|N].
      + rewrite orb_true_r. rewrite H2 by auto.
        replace (existsb (Nat.eqb q) pre) with false; auto.
        symmetry. apply not_true_is_false. intros Hx. apply existsb_exists in Hx.
        destruct Hx as (y & Hy & Ey). apply Nat.eqb_eq in Ey. apply Hpre in Hy. lia.
      + rewrite orb_false_r. apply H2; auto.
    - exists w. split; auto. split; auto. intros j Hj. rewrite H by auto.
      replace (existsb (Nat.eqb j) (cols (b_sp b) i)) with (nzb (b_sp b) i j); auto.
      destruct (nzb (b_sp b) i j) eqn:En.
      + symmetry. apply existsb_exists. exists j. split; [apply cols_In, nzb_In; auto|].
        apply Nat.eqb_refl.
      + symmetry. apply not_true_is_false. intros Hx. apply existsb_exists in Hx.
        destruct Hx as (y & Hy & Ey). apply Nat.eqb_eq in Ey. subst y.
        apply cols_In in Hy. apply nzb_false in En. auto.
  Qed.

  (** the rows that have been processed, last one first *)
  Definition rowsDown (n i : nat) : list nat := rev (seq i (n - i)).

  Lemma rowsDown_step n i : i < n -> rowsDown n i = rowsDown n (S i) ++ [i].
  Proof.
    intros H. unfold rowsDown. replace (n - i) with (S (n - S i)) by lia. reflexivity.
  Qed.

  Lemma rowsDown_all n : rowsDown n 0 = rev (seq 0 n).
  Proof. unfold rowsDown. rewrite Nat.sub_0_r. auto. Qed.

  Lemma rowsDown_In n i k : In k (rowsDown n i) <-> i <= k < n.
  Proof. unfold rowsDown. rewrite <- in_rev, in_seq. lia. Qed.

  (** loops over all rows, last one first *)
  Lemma foldM_down {St} (f : St -> nat -> res St) (P : nat -> St -> Prop) n s :
    P n s -> (forall i s, i < n -> P (S i) s -> exists s', f s i = Ok s' /\ P i s') ->
    exists s', foldM f (rev (seq 0 n)) s = Ok s' /\ P 0 s'.
  Proof.
    revert s. induction n as [|n IH]; intros s H0 Hs.
    - exists s. auto.
    - rewrite seq_S, rev_app_distr. cbn [rev app foldM Nat.add].
      destruct (Hs n s) as (s' & E & H'); auto. rewrite E. cbn [bind].
      apply IH; auto.
  Qed.

  Lemma bwdRect_ok b nr nc R prow pcol sy L sol v :
    goodBlk b nr nc R prow pcol sy ->
    length L = c_nnz (b_sp b) -> length sol = nr -> length v = nc ->
    exists v', solveBackwardSubstitution O b L (Some sol) v = Ok v' /\ length v' = nc /\
      forall j, j < nc -> vat pcol v' j =
        subf O (vat pcol v j) (rev (seq 0 nr)) (fun i => nzb (b_sp b) i j)
          (fun i => (get (b_sp b) L i j * vat prow sol i)%s).
  Proof.
    intros G HL Hs Hv. pose proof G as [W _ r c I pr pc _ P P2].
    unfold solveBackwardSubstitution. rewrite r. cbn [value_or].
    set (f := fun v i => _).
    destruct (foldM_down f (fun i w => length w = nc /\ forall j, j < nc ->
       vat pcol w j = subf O (vat pcol v j) (rowsDown nr i) (fun i => nzb (b_sp b) i j)
          (fun i => (get (b_sp b) L i j * vat prow sol i)%s)) nr v) as (w & E & Hw & H).
    - split; auto. unfold rowsDown. rewrite Nat.sub_diag. auto.
    - intros i w Hi (H1 & H2). unfold f. unfold origRowIndex. rewrite pr.
      rewrite (isPerm_rd nr) by (auto; lia). cbn [bind].
      rewrite (vat_rd nr) by (auto; lia). cbn [bind].
      destruct (bwdRow_ok b nr nc R prow pcol sy L i (vat prow sol i) w)
        as (w' & E & Hw' & H'); auto.
      exists w'. split; auto. split; auto. intros j Hj. rewrite H' by auto.
      rewrite rowsDown_step, subf_snoc by auto. rewrite H2 by auto. auto.
    - exists w. split; auto. split; auto. rewrite <- rowsDown_all. auto.
  Qed.

  Lemma bwdSelf_ok b n R p sy L v :
    goodBlk b n n R p p sy -> (forall i j, R i j -> j < i) ->
    length L = c_nnz (b_sp b) -> length v = n ->
    exists v', solveBackwardSubstitution O b L None v = Ok v' /\ length v' = n /\
      forall j, j < n -> vat p v' j =
        subf O (vat p v j) (rev (seq 0 n)) (fun i => nzb (b_sp b) i j)
          (fun i => (get (b_sp b) L i j * vat p v' i)%s).
  Proof.
    intros G Low HL Hv. pose proof G as [W _ r c I pr pc _ P P2].
    unfold solveBackwardSubstitution. rewrite r. cbn [value_or].
    set (f := fun v i => _).
    destruct (foldM_down f (fun i w => length w = n /\ forall j, j < n ->
       vat p w j = subf O (vat p v j) (rowsDown n i) (fun i => nzb (b_sp b) i j)
          (fun i => (get (b_sp b) L i j * vat p w i)%s)) n v) as (w & E & Hw & H).
    - split; auto. unfold rowsDown. rewrite Nat.sub_diag. auto.
    - intros i w Hi (H1 & H2). unfold f. unfold origRowIndex. rewrite pr.
      rewrite (isPerm_rd n) by (auto; lia). cbn [bind].
      rewrite (vat_rd n) by (auto; lia). cbn [bind].
      destruct (bwdRow_ok b n n R p p sy L i (vat p w i) w)
        as (w' & E & Hw' & H'); auto.
      exists w'. split; auto. split; auto.
      assert (Same : forall j, i <= j -> j < n -> vat p w' j = vat p w j).
      { intros j Hj Hjn. rewrite H' by auto. replace (nzb (b_sp b) i j) with false; auto.
        symmetry. apply nzb_false. intros Hx. apply I, Low in Hx. lia. }
      intros j Hj. rewrite rowsDown_step, subf_snoc by auto. rewrite H' by auto.
      rewrite (Same i) by lia.
      rewrite <- (subf_ext O (vat p v j) (rowsDown n (S i)) (fun i => nzb (b_sp b) i j)
        (fun i => (get (b_sp b) L i j * vat p w i)%s)); auto.
      + rewrite <- H2 by auto. auto.
      + intros k Hk _. apply rowsDown_In in Hk. rewrite Same by lia. auto.
    - exists w. split; auto. split; auto. rewrite <- rowsDown_all. auto.
  Qed.
End Solve.
