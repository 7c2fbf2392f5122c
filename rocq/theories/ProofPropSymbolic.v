(** The statements of PropSymbolic and PropSparsity in the form used there. *)
From Coq Require Import List Arith Lia Bool Permutation Sorted.
From Verif Require Import Base ModelPerm ModelSparsity ModelSymbolic ModelNumeric.
From Verif Require Import SpecSymbolic SpecArrow.
From Verif Require Import ProofBase ProofPerm ProofCsr ProofSparsity ProofEtree ProofFill ProofFill3
  ProofRep ProofRepeating ProofArrowSym ProofDense ProofEntry.
Import ListNotations.

(** ** orders *)

Lemma StronglySorted_app {A} (R : A -> A -> Prop) l1 l2 :
  StronglySorted R l1 -> StronglySorted R l2 ->
  (forall a b, In a l1 -> In b l2 -> R a b) -> StronglySorted R (l1 ++ l2).
Proof.
  induction 1 as [|a l HS IH HF]; cbn [app]; intros H2 H; auto.
  constructor.
  - apply IH; auto. intros; apply H; auto. right; auto.
  - apply Forall_app. split; auto. apply Forall_forall. intros b Hb. apply H; auto. left; auto.
Qed.

Lemma row_major es i : StronglySorted lt (map snd (rowf es i)) -> rowMajor (rowf es i).
Proof.
  unfold rowf. induction es as [|[r c] es IH]; cbn [filter fst]; intros H; [constructor|].
  destruct (Nat.eqb_spec r i) as [->|]; auto. cbn [map] in H.
  inversion H as [|? ? HS HF]; subst. constructor; [apply IH; auto|].
  rewrite Forall_forall in *. intros [r' c'] Hin. right. cbn [fst snd].
  assert (r' = i) by (apply filter_In in Hin; cbn in Hin; apply Nat.eqb_eq; tauto).
  split; auto. apply HF. apply in_map_iff. exists (r', c'). auto.
Qed.

Lemma gcsr_major c : gcsr c -> rowMajor (c_entries c).
Proof.
  intros [W HS]. rewrite (wfc_entries c W). generalize (c_rows c) as n.
  assert (G : forall n a, rowMajor (flat_map (rowf (c_entries c)) (seq a n))).
  { induction n as [|n IH]; intros a; cbn [seq flat_map]; [constructor|].
    apply StronglySorted_app; [apply row_major, HS|apply IH|].
    intros [r1 c1] [r2 c2] H1 H2. apply rowf_In in H1. apply in_flat_map in H2.
    destruct H2 as (r & Hr & H2). apply rowf_In in H2. apply in_seq in Hr. cbn in *. lia. }
  intros n. apply G.
Qed.

Lemma colSorted_rows es : colSorted es -> forall i, StronglySorted lt (map snd (rowf es i)).
Proof.
  intros H i. induction es as [|[r c] es IH]; cbn [rowf filter map]; [constructor|].
  assert (H' : colSorted es).
  { intros a b r' ca cb Hab Ha Hb. apply (H (S a) (S b) r'); auto. lia. }
  specialize (IH H'). fold (rowf es i). cbn [fst].
  destruct (Nat.eqb_spec r i) as [->|]; auto. cbn [map snd]. constructor; auto.
  apply Forall_forall. intros x Hx. apply in_map_iff in Hx. destruct Hx as ([r' c'] & <- & Hin).
  apply rowf_In in Hin. cbn in Hin. destruct Hin as [Hin ->].
  apply In_nth_error in Hin. destruct Hin as (k & Hk).
  apply (H 0 (S k) i); auto. lia.
Qed.

Lemma toCSR_sorted s nr nc c : spOf s nr nc -> colSorted (entries s) -> toCSR s = Ok c ->
  gcsr c /\ c_rows c = nr /\ c_cols c = nc /\
  (forall e, In e (c_entries c) <-> In e (entries s)).
Proof.
  intros HS HC E. destruct (toCSR_inv _ _ (spOf_wf _ _ _ HS) E) as (W & Hr & Hc & HP & Hrows).
  destruct (spOf_dims _ _ _ HS) as [D1 D2].
  split; [split; auto|].
  - intros i. rewrite Hrows. apply colSorted_rows; auto.
  - split; [congruence|]. split; [congruence|].
    intros e. split; apply Permutation_in; auto. apply Permutation_sym; auto.
Qed.

(** ** C13 *)

Lemma isBlk_spOf s nr nc R : isBlk s nr nc R -> spOf s nr nc.
Proof.
  intros [H1 H2 H3 _ _ _ _]. constructor; auto. intros i j Hin. apply H3 in Hin. rewrite H1, H2 in Hin. auto.
Qed.

Lemma fill_exact s n p : spOf s n n -> validPerm n p ->
  exists f b, getFilledInSparsity s p = Ok f /\ factorizationBlk s p = Ok b /\
    spOf f n n /\ rowMajor (entries f) /\ rowMajor (c_entries (b_sp b)) /\
    (forall i j, In (i, j) (entries f) <-> Fill (permLow (entries s) n p) i j) /\
    (forall i j, In (i, j) (c_entries (b_sp b)) <-> Fill (permLow (entries s) n p) i j).
Proof.
  intros HS HP. pose proof (spOf_dims _ _ _ HS) as [D1 D2]. pose proof (validPerm_isPerm _ _ HP) as P.
  destruct (getFilledInSparsity_blk s p) as (f & Ef & Bf);
    [eapply spOf_wf; eauto|congruence|rewrite D1; auto|].
  destruct (factorizationBlk_ok s n p) as (b & Eb & G); auto.
  rewrite D1 in Bf. exists f, b. split; auto. split; auto. split; [eapply isBlk_spOf; eauto|].
  split; [apply (ib_major _ _ _ _ Bf)|]. split; [apply gcsr_major; split; [apply (gb_wf _ _ _ _ _ _ _ G)|apply (gb_sorted _ _ _ _ _ _ _ G)]|].
  split; [apply (ib_in _ _ _ _ Bf)|apply (gb_in _ _ _ _ _ _ _ G)].
Qed.

Lemma fill_smallest s n p f : spOf s n n -> validPerm n p -> getFilledInSparsity s p = Ok f ->
  (forall i j, permLow (entries s) n p i j -> In (i, j) (entries f)) /\
  (forall i j, In (i, j) (entries f) -> j < i /\ i < n) /\
  closedPattern (entriesPat (entries f)) /\
  (forall R : pattern, (forall i j, permLow (entries s) n p i j -> R i j) -> closedPattern R ->
     forall i j, In (i, j) (entries f) -> R i j).
Proof.
  intros HS HP E. destruct (fill_exact s n p HS HP) as (f' & b & E' & _ & Sf & _ & _ & H & _).
  rewrite E in E'. injection E' as <-.
  split; [|split; [|split]].
  - intros i j Hp. apply H. apply Fill_base; auto. unfold permLow in Hp. tauto.
  - intros i j Hin. pose proof (sp_wf _ _ _ Sf i j Hin). apply H in Hin. apply Fill_lt in Hin. lia.
  - intros i j k H1 H2 H3 H4. apply H. apply H in H3, H4. eapply Fill_elim; eauto.
  - intros R HR HC i j Hin. apply H in Hin. eapply Fill_of_closed; [exact HC|].
    eapply Fill_mono; [|exact Hin]. intros a b' _ Hab. apply HR; auto.
Qed.

(** ** C14 *)

Lemma fill3 s11 s21 s22 s31 s32 s33 p1 p2 p3 n1 n2 n3 :
  spOf s11 n1 n1 -> spOf s21 n2 n1 -> spOf s22 n2 n2 ->
  spOf s31 n3 n1 -> spOf s32 n3 n2 -> spOf s33 n3 n3 ->
  validPerm n1 p1 -> validPerm n2 p2 -> validPerm n3 p3 ->
  let R := Fill (asm3 n1 n2
     (permLow (entries s11) n1 p1) (permRect (entries s21) n2 n1 p2 p1)
     (permLow (entries s22) n2 p2) (permRect (entries s31) n3 n1 p3 p1)
     (permRect (entries s32) n3 n2 p3 p2) (permLow (entries s33) n3 p3)) in
  exists b, getFilledInSparsityBlocked3x3 s11 s21 s22 s31 s32 s33 p1 p2 p3 = Ok b /\
    (spOf (block11 b) n1 n1 /\ rowMajor (entries (block11 b)) /\
     forall i j, i < n1 -> j < n1 -> In (i, j) (entries (block11 b)) <-> R i j) /\
    (spOf (block21 b) n2 n1 /\ rowMajor (entries (block21 b)) /\
     forall i j, i < n2 -> j < n1 -> In (i, j) (entries (block21 b)) <-> R (n1 + i) j) /\
    (spOf (block22 b) n2 n2 /\ rowMajor (entries (block22 b)) /\
     forall i j, i < n2 -> j < n2 -> In (i, j) (entries (block22 b)) <-> R (n1 + i) (n1 + j)) /\
    (spOf (block31 b) n3 n1 /\ rowMajor (entries (block31 b)) /\
     forall i j, i < n3 -> j < n1 -> In (i, j) (entries (block31 b)) <-> R (n1 + n2 + i) j) /\
    (spOf (block32 b) n3 n2 /\ rowMajor (entries (block32 b)) /\
     forall i j, i < n3 -> j < n2 ->
       In (i, j) (entries (block32 b)) <-> R (n1 + n2 + i) (n1 + j)) /\
    (spOf (block33 b) n3 n3 /\ rowMajor (entries (block33 b)) /\
     forall i j, i < n3 -> j < n3 ->
       In (i, j) (entries (block33 b)) <-> R (n1 + n2 + i) (n1 + n2 + j)).
Proof.
  intros H11 H21 H22 H31 H32 H33 P1 P2 P3 R.
  destruct (getFilled3_ok s11 s21 s22 s31 s32 s33 p1 p2 p3 n1 n2 n3)
    as (b & E & B11 & B21 & B22 & B31 & B32 & B33);
    eauto using spOf_dims, spOf_wf, validPerm_isPerm.
  assert (K : forall s nr nc (Q : pattern), isBlk s nr nc (fun i j => i < nr /\ j < nc /\ Q i j) ->
     spOf s nr nc /\ rowMajor (entries s) /\
     forall i j, i < nr -> j < nc -> In (i, j) (entries s) <-> Q i j).
  { intros s nr nc Q B. split; [eapply isBlk_spOf; eauto|]. split; [apply (ib_major _ _ _ _ B)|].
    intros i j Hi Hj. rewrite (ib_in _ _ _ _ B). tauto. }
  exists b. split; auto. split; [apply K; auto|]. split; [apply K with (Q := fun i j => R (n1 + i) j); auto|].
  split; [apply K with (Q := fun i j => R (n1 + i) (n1 + j)); auto|].
  split; [apply K with (Q := fun i j => R (n1 + n2 + i) j); auto|].
  split; [apply K with (Q := fun i j => R (n1 + n2 + i) (n1 + j)); auto|].
  apply K with (Q := fun i j => R (n1 + n2 + i) (n1 + n2 + j)); auto.
Qed.

Lemma fill2 s11 s21 s22 p1 p2 n1 n2 :
  spOf s11 n1 n1 -> spOf s21 n2 n1 -> spOf s22 n2 n2 ->
  validPerm n1 p1 -> validPerm n2 p2 ->
  let R := Fill (asm2 n1 (permLow (entries s11) n1 p1) (permRect (entries s21) n2 n1 p2 p1)
                  (permLow (entries s22) n2 p2)) in
  exists b, getFilledInSparsityBlockedPerm s11 s21 s22 p1 p2 = Ok b /\
    (spOf (b2_11 b) n1 n1 /\ rowMajor (entries (b2_11 b)) /\
     forall i j, i < n1 -> j < n1 -> In (i, j) (entries (b2_11 b)) <-> R i j) /\
    (spOf (b2_21 b) n2 n1 /\ rowMajor (entries (b2_21 b)) /\
     forall i j, i < n2 -> j < n1 -> In (i, j) (entries (b2_21 b)) <-> R (n1 + i) j) /\
    (spOf (b2_22 b) n2 n2 /\ rowMajor (entries (b2_22 b)) /\
     forall i j, i < n2 -> j < n2 -> In (i, j) (entries (b2_22 b)) <-> R (n1 + i) (n1 + j)).
Proof.
  intros H11 H21 H22 P1 P2 R.
  destruct (getFilled2_ok s11 s21 s22 p1 p2 n1 n2) as (b & E & B11 & B21 & B22);
    eauto using spOf_dims, spOf_wf, validPerm_isPerm.
  assert (K : forall s nr nc (Q : pattern), isBlk s nr nc (fun i j => i < nr /\ j < nc /\ Q i j) ->
     spOf s nr nc /\ rowMajor (entries s) /\
     forall i j, i < nr -> j < nc -> In (i, j) (entries s) <-> Q i j).
  { intros s nr nc Q B. split; [eapply isBlk_spOf; eauto|]. split; [apply (ib_major _ _ _ _ B)|].
    intros i j Hi Hj. rewrite (ib_in _ _ _ _ B). tauto. }
  exists b. split; [exact E|]. split; [apply K; exact B11|].
  split; [apply K with (Q := fun i j => R (n1 + i) j); exact B21|].
  apply K with (Q := fun i j => R (n1 + i) (n1 + j)); exact B22.
Qed.

(** ** C15 *)

Lemma entriesPat_csr s nr nc c : spOf s nr nc -> toCSR s = Ok c ->
  wf_csr c /\ c_rows c = nr /\ c_cols c = nc /\
  (forall i j, entriesPat (c_entries c) i j <-> entriesPat (entries s) i j).
Proof.
  intros HS E. destruct (toCSR_inv _ _ (spOf_wf _ _ _ HS) E) as (W & Hr & Hc & HP & Hrows).
  destruct (spOf_dims _ _ _ HS) as [D1 D2].
  split; auto. split; [congruence|]. split; [congruence|].
  intros i j. split; apply Permutation_in; auto. apply Permutation_sym; auto.
Qed.

Lemma etree s n : spOf s n n ->
  exists c t, toCSR s = Ok c /\ computeEliminationTree c = Ok t /\ length t = n /\
    forall j, isParent (entriesPat (entries s)) j (nth j t None).
Proof.
  intros HS. destruct (toCSR_ok s (spOf_wf _ _ _ HS)) as (c & E & _).
  destruct (entriesPat_csr s n n c HS E) as (W & Hr & Hc & HE).
  destruct (computeEliminationTree_ok c W) as (t & Et & Nt & HT); [congruence|].
  exists c, t. split; auto. split; auto. split; [congruence|].
  intros j. eapply isEtree_ext with (T := par t); [|exact HT]. intros; apply HE.
Qed.

Lemma etree3 s11 s21 s22 s31 s32 s33 n1 n2 n3 :
  spOf s11 n1 n1 -> spOf s21 n2 n1 -> spOf s22 n2 n2 ->
  spOf s31 n3 n1 -> spOf s32 n3 n2 -> spOf s33 n3 n3 ->
  exists c11 c21 c22 c31 c32 c33 t,
    toCSR s11 = Ok c11 /\ toCSR s21 = Ok c21 /\ toCSR s22 = Ok c22 /\
    toCSR s31 = Ok c31 /\ toCSR s32 = Ok c32 /\ toCSR s33 = Ok c33 /\
    computeEliminationTreeBlocked3x3 c11 c21 c22 c31 c32 c33 = Ok t /\
    length t = n1 + n2 + n3 /\
    forall j, isParent (asm3 n1 n2 (entriesPat (entries s11)) (entriesPat (entries s21))
      (entriesPat (entries s22)) (entriesPat (entries s31)) (entriesPat (entries s32))
      (entriesPat (entries s33))) j (nth j t None).
Proof.
  intros H11 H21 H22 H31 H32 H33.
  assert (K : forall s nr nc, spOf s nr nc -> exists c, toCSR s = Ok c /\
    wf_csr c /\ c_rows c = nr /\ c_cols c = nc /\
    (forall i j, entriesPat (c_entries c) i j <-> entriesPat (entries s) i j)).
  { intros s nr nc HS. destruct (toCSR_ok s (spOf_wf _ _ _ HS)) as (c & E & _).
    exists c. split; auto. apply entriesPat_csr; auto. }
  destruct (K _ _ _ H11) as (c11 & E11 & W11 & R11 & K11 & I11).
  destruct (K _ _ _ H21) as (c21 & E21 & W21 & R21 & K21 & I21).
  destruct (K _ _ _ H22) as (c22 & E22 & W22 & R22 & K22 & I22).
  destruct (K _ _ _ H31) as (c31 & E31 & W31 & R31 & K31 & I31).
  destruct (K _ _ _ H32) as (c32 & E32 & W32 & R32 & K32 & I32).
  destruct (K _ _ _ H33) as (c33 & E33 & W33 & R33 & K33 & I33).
  destruct (computeEtree3_ok c11 c21 c22 c31 c32 c33 W11 W21 W22 W31 W32 W33 n1 n2 n3) as (t & Et & Nt & HT); auto.
  exists c11, c21, c22, c31, c32, c33, t. repeat (split; [assumption|]).
  intros j. eapply isEtree_ext with (T := par t); [|exact HT]. intros a b _.
  apply asm3_ext; auto.
Qed.

(** ** C16, C17 *)

Lemma repeating sA sB sC p pC d dO :
  spOf sA d d -> spOf sB d d -> spOf sC dO d -> validPerm d p -> validPerm dO pC ->
  let A := permLow (entries sA) d p in
  let B := permRect (entries sB) d d p p in
  let C := permRect (entries sC) dO d pC p in
  exists r, getFilledInSparsityRepeatingArrowhead sA sB sC p pC = Ok r /\
    spOf (ra_diag r) d d /\ spOf (ra_subdiag r) d d /\ spOf (ra_outer r) dO d /\
    rowMajor (entries (ra_diag r)) /\ rowMajor (entries (ra_subdiag r)) /\
    rowMajor (entries (ra_outer r)) /\
    (forall i j, In (i, j) (entries (ra_diag r)) -> j < i) /\
    (* every fill-in entry is covered *)
    (forall N a b, Fill (repeated N d A B C) a b ->
      (exists t i j, t < N /\ a = t * d + i /\ b = t * d + j /\
         In (i, j) (entries (ra_diag r))) \/
      (exists t i j, S t < N /\ a = S t * d + i /\ b = t * d + j /\
         In (i, j) (entries (ra_subdiag r))) \/
      (exists t i j, t < N /\ a = N * d + i /\ b = t * d + j /\
         In (i, j) (entries (ra_outer r))) \/
      (N * d <= b /\ N * d <= a)) /\
    (* from some block on, every entry is a fill-in entry *)
    (exists k, forall N t, k <= t -> S t < N ->
      (forall i j, In (i, j) (entries (ra_diag r)) ->
         Fill (repeated N d A B C) (S t * d + i) (S t * d + j)) /\
      (forall i j, In (i, j) (entries (ra_subdiag r)) ->
         Fill (repeated N d A B C) (S t * d + i) (t * d + j)) /\
      (forall i j, In (i, j) (entries (ra_outer r)) ->
         Fill (repeated N d A B C) (N * d + i) (t * d + j))).
Proof.
  intros HA HB HC HP HPC A B C.
  destruct (getFilledRep_ok sA sB sC p pC d dO)
    as (r & D & S' & O & E & BD & BS & BO & DL & AD & BS' & CO & CR & (k & Hk));
    eauto using spOf_dims, spOf_wf, validPerm_isPerm.
  fold A in AD, Hk. fold B in BS', Hk. fold C in CO, Hk.
  exists r. split; auto. split; [eapply isBlk_spOf; eauto|]. split; [eapply isBlk_spOf; eauto|].
  split; [eapply isBlk_spOf; eauto|]. split; [apply (ib_major _ _ _ _ BD)|].
  split; [apply (ib_major _ _ _ _ BS)|]. split; [apply (ib_major _ _ _ _ BO)|].
  pose proof (ib_in _ _ _ _ BD) as ID. pose proof (ib_in _ _ _ _ BS) as IS.
  pose proof (ib_in _ _ _ _ BO) as IO.
  assert (BB : forall s nr nc R i j, isBlk s nr nc R -> R i j -> i < nr /\ j < nc).
  { intros s nr nc R i j HBk HR. apply (ib_in _ _ _ _ HBk) in HR.
    apply (sp_wf _ _ _ (isBlk_spOf _ _ _ _ HBk)) in HR. auto. }
  split; [intros i j Hin; apply DL, ID; auto|]. split.
  - intros N a b HF.
    destruct (repeated_cover d A B C) with (D := D) (S' := S') (O := O) (N := N) (a := a) (b := b)
      as [(t & i & j & H1 & H2 & H3 & H4)|[(t & i & j & H1 & H2 & H3 & H4)|
         [(t & i & j & H1 & H2 & H3 & H4)|H]]]; auto.
    + intros i j H. pose proof (BB _ _ _ _ _ _ BD H). apply DL in H. lia.
    + intros i j H. pose proof (BB _ _ _ _ _ _ BS H). lia.
    + intros i j H. pose proof (BB _ _ _ _ _ _ BO H). lia.
    + left. exists t, i, j. rewrite ID. auto.
    + right. left. exists t, i, j. rewrite IS. auto.
    + right. right. left. exists t, i, j. rewrite IO. auto.
  - exists k. intros N t Ht HN. destruct (Hk N t Ht HN) as (H1 & H2 & H3).
    split; [|split]; intros i j Hin; [apply H1, ID|apply H2, IS|apply H3, IO]; auto.
Qed.

(** ** C19, C20 *)

Lemma chordal s11 s21 s22 n1 n2 :
  spOf s11 n1 n1 -> spOf s21 n2 n1 -> spOf s22 n2 n2 ->
  NoDup (entries s11) -> NoDup (entries s21) -> NoDup (entries s22) ->
  exists b, isChordalBlocked s11 s21 s22 = Ok b /\
    (b = true <->
     (forall i j, In (i, j) (entries s11) -> j < i) /\
     (forall i j, In (i, j) (entries s22) -> j < i) /\
     closedPattern (asm2 n1 (entriesPat (entries s11)) (entriesPat (entries s21))
                      (entriesPat (entries s22)))).
Proof. intros. apply isChordalBlocked_ok with (n2 := n2); eauto using spOf_dims, spOf_wf. Qed.

Lemma chordal_dims s11 s21 s22 :
  ~ (nrows s11 = ncols s11 /\ nrows s22 = ncols s22 /\ ncols s21 = ncols s11 /\
     nrows s22 = nrows s21) ->
  isChordalBlocked s11 s21 s22 = Err PreViolation.
Proof.
  intros H. unfold isChordalBlocked, isSquare.
  destruct (Nat.eqb_spec (nrows s11) (ncols s11)); cbn [pre bind]; auto.
  destruct (Nat.eqb_spec (nrows s22) (ncols s22)); cbn [pre bind]; auto.
  destruct (Nat.eqb_spec (ncols s21) (ncols s11)); cbn [pre bind]; auto.
  destruct (Nat.eqb_spec (nrows s22) (nrows s21)); cbn [pre bind]; auto.
  tauto.
Qed.

Lemma subset_perm lhs rhs prow pcol nr nc :
  spOf lhs nr nc -> spOf rhs nr nc -> validPerm nr prow -> validPerm nc pcol ->
  exists b, isSparsitySubset lhs rhs (Some prow) (Some pcol) = Ok b /\
    (b = true <->
     forall i j, i < nr -> j < nc ->
       In (nth i prow 0, nth j pcol 0) (entries lhs) -> In (i, j) (entries rhs)).
Proof.
  intros HL HR P1 P2. pose proof (spOf_dims _ _ _ HL) as [D1 D2].
  pose proof (spOf_dims _ _ _ HR) as [D3 D4].
  destruct (isSparsitySubset_perm_ok lhs rhs (Some prow) (Some pcol)) as (b & E & H);
    eauto using spOf_wf; try congruence; try (cbn [value_or]; rewrite ?D1, ?D2;
      apply validPerm_isPerm; auto).
  exists b. split; auto. cbn [value_or] in H. rewrite D1, D2 in H. exact H.
Qed.

Lemma subset lhs rhs nr nc :
  spOf lhs nr nc -> spOf rhs nr nc ->
  exists b, isSparsitySubset lhs rhs None None = Ok b /\
    (b = true <-> forall i j, In (i, j) (entries lhs) -> In (i, j) (entries rhs)).
Proof.
  intros HL HR. pose proof (spOf_dims _ _ _ HL) as [D1 D2].
  pose proof (spOf_dims _ _ _ HR) as [D3 D4].
  destruct (isSparsitySubset_ok lhs rhs) as (b & E & H); eauto using spOf_wf; try congruence.
  exists b. split; auto. rewrite H. split; [auto|]. intros H' [i j]. auto.
Qed.

Lemma equal lhs rhs nr nc :
  spOf lhs nr nc -> spOf rhs nr nc ->
  exists b, isSparsityEqual lhs rhs = Ok b /\
    (b = true <-> forall i j, In (i, j) (entries lhs) <-> In (i, j) (entries rhs)).
Proof.
  intros HL HR. pose proof (spOf_dims _ _ _ HL) as [D1 D2].
  pose proof (spOf_dims _ _ _ HR) as [D3 D4].
  destruct (isSparsityEqual_ok lhs rhs) as (b & E & H); eauto using spOf_wf; try congruence.
  exists b. split; auto. rewrite H. split; [auto|]. intros H' [i j]. auto.
Qed.

Lemma subset_lower lhs rhs p n :
  spOf lhs n n -> spOf rhs n n -> validPerm n p ->
  exists b, isSparsitySubsetLowerTriangle lhs rhs p = Ok b /\
    (b = true <-> forall i j, permLow (entries lhs) n p i j -> In (i, j) (entries rhs)).
Proof.
  intros HL HR P. pose proof (spOf_dims _ _ _ HL) as [D1 D2].
  pose proof (spOf_dims _ _ _ HR) as [D3 D4].
  destruct (isSparsitySubsetLowerTriangle_ok lhs rhs p) as (b & E & H);
    eauto using spOf_wf; try congruence; try (rewrite D1; apply validPerm_isPerm; auto).
  exists b. split; auto. rewrite H, D1. unfold permLow. split.
  - intros H' i j (A1 & A2 & A3). auto.
  - intros H' i j A1 A2 A3. auto.
Qed.

Lemma subset_dims lhs rhs prow pcol :
  ~ (nrows lhs = nrows rhs /\ ncols lhs = ncols rhs) ->
  isSparsitySubset lhs rhs prow pcol = Err PreViolation.
Proof.
  intros H. unfold isSparsitySubset.
  destruct (Nat.eqb_spec (nrows lhs) (nrows rhs)); cbn [pre bind]; auto.
  destruct (Nat.eqb_spec (ncols lhs) (ncols rhs)); cbn [pre bind]; auto.
  tauto.
Qed.

Lemma equal_dims lhs rhs :
  ~ (nrows lhs = nrows rhs /\ ncols lhs = ncols rhs) ->
  isSparsityEqual lhs rhs = Err PreViolation.
Proof. intros H. unfold isSparsityEqual. rewrite subset_dims by auto. auto. Qed.

(** ** C21 *)

Lemma rowView_out c i : wf_csr c -> c_rows c <= i -> rowView c i = Err UB.
Proof.
  intros W Hi. unfold rowView, rowRange.
  destruct (rd (row_begin c) i) as [b|e] eqn:E.
  - cbn [bind]. assert (rd (row_begin c) (i + 1) = Err UB) as ->; auto.
    unfold rd. rewrite (wfc_rb c W), nth_error_map.
    replace (nth_error (seq 0 (c_rows c + 1)) (i + 1)) with (@None nat); auto.
    symmetry. apply nth_error_None. rewrite seq_length. lia.
  - unfold rd in E. destruct (nth_error (row_begin c) i); [discriminate|]. injection E as <-. auto.
Qed.

Lemma csr_conversion s nr nc : spOf s nr nc ->
  exists c, toCSR s = Ok c /\ c_rows c = nr /\ c_cols c = nc /\
    Permutation (c_entries c) (entries s) /\
    (forall i, i < nr -> rowView c i = Ok (filter (fun e => fst e =? i) (entries s))) /\
    (forall i j, i < nr -> exists b, isNonZero c i j = Ok b /\
       (b = true <-> In (i, j) (entries s))) /\
    (forall i j, In (i, j) (entries s) -> exists k, entryIndex c i j = Ok k /\
       nth_error (c_entries c) k = Some (i, j)) /\
    (forall i j, ~ In (i, j) (entries s) -> exists e, entryIndex c i j = Err e) /\
    (forall i j, nr <= i -> rowView c i = Err UB /\ isNonZero c i j = Err UB /\
       entryIndex c i j = Err UB).
Proof.
  intros HS. pose proof (spOf_dims _ _ _ HS) as [D1 D2].
  destruct (toCSR_ok s (spOf_wf _ _ _ HS)) as (c & E & W & Hr & Hc & HP & Hrows).
  assert (HI : forall e, In e (c_entries c) <-> In e (entries s)).
  { intros e. split; apply Permutation_in; auto. apply Permutation_sym; auto. }
  exists c. split; auto. split; [congruence|]. split; [congruence|]. split; auto.
  split; [|split; [|split; [|split]]].
  - intros i Hi. rewrite (wf_rowView c W) by congruence. rewrite Hrows. auto.
  - intros i j Hi. rewrite (wf_isNonZero c W) by congruence. eexists. split; auto.
    rewrite inb_In. apply HI.
  - intros i j Hin. apply HI in Hin. destruct (findEntryIndex_In _ _ Hin) as (k & Ek).
    exists k. split; [apply (wf_entryIndex c W); auto|]. apply findEntryIndex_Some in Ek. tauto.
  - intros i j Hin. unfold entryIndex. destruct (Nat.lt_ge_cases i (c_rows c)) as [Hi|Hi].
    + rewrite (wf_isNonZero c W) by auto. cbn [bind].
      assert (inb (c_entries c) (i, j) = false) as -> by (apply inb_false; rewrite HI; auto).
      cbn. eauto.
    + unfold isNonZero. rewrite (rowView_out c i W Hi). cbn. eauto.
  - intros i j Hi. assert (Hi' : c_rows c <= i) by lia.
    unfold entryIndex, isNonZero. rewrite (rowView_out c i W Hi'). auto.
Qed.

(** ** C22 *)

Lemma inverse_perm n p : validPerm n p ->
  exists q, invertPermutation p = Ok q /\ validPerm n q /\
    (forall i, i < n -> nth (nth i p 0) q 0 = i) /\
    (forall i, i < n -> nth (nth i q 0) p 0 = i).
Proof.
  intros HP. destruct (invert_ok n p (validPerm_isPerm _ _ HP)) as (q & E & HQ & H1 & H2).
  exists q. split; auto. split; [apply isPerm_validPerm; auto|]. auto.
Qed.

Lemma permuted_sp s nr nc prow pcol :
  spOf s nr nc -> validPerm nr prow -> validPerm nc pcol ->
  exists s', getSparsityDynamicPermuted s prow pcol = Ok s' /\ spOf s' nr nc /\
    length (entries s') = length (entries s) /\
    (forall i j, i < nr -> j < nc ->
       In (i, j) (entries s') <-> In (nth i prow 0, nth j pcol 0) (entries s)).
Proof.
  intros HS P1 P2. pose proof (spOf_dims _ _ _ HS) as [D1 D2].
  destruct (permuted_ok s prow pcol) as (s' & E & H1 & H2 & H3 & H4 & _);
    eauto using spOf_wf; try (rewrite ?D1, ?D2; apply validPerm_isPerm; auto).
  exists s'. split; auto. split.
  { constructor; [congruence|congruence|]. intros i j Hin. apply H3 in Hin. lia. }
  split.
  - unfold getSparsityDynamicPermuted, getEntriesPermuted in E.
    apply bind_inv in E. destruct E as (es & E & Em).
    apply mkSparsity_inv in Em. destruct Em as [_ ->]. cbn [entries].
    apply bind_inv in E. destruct E as (q1 & _ & E).
    apply bind_inv in E. destruct E as (q2 & _ & E).
    apply mapM_inv in E. clear -E. induction E; cbn [length]; auto.
  - intros i j Hi Hj. rewrite H4, D1, D2. tauto.
Qed.

Lemma lower_sp s n p : spOf s n n -> validPerm n p ->
  exists s', getSparsityDynamicLowerTriangle s p = Ok s' /\ spOf s' n n /\
    (forall i j, In (i, j) (entries s') <-> permLow (entries s) n p i j).
Proof.
  intros HS HP. pose proof (spOf_dims _ _ _ HS) as [D1 D2].
  destruct (lowerTriangle_ok s p) as (s' & E & H1 & H2 & H3 & H4 & _);
    eauto using spOf_wf; try congruence; try (rewrite D1; apply validPerm_isPerm; auto).
  exists s'. split; auto. split.
  { constructor; [congruence|congruence|]. intros i j Hin. apply H3 in Hin. lia. }
  intros i j. rewrite H4, D1. reflexivity.
Qed.

(** ** C24 *)

Lemma StronglySorted_filter {A} (R : A -> A -> Prop) f l :
  StronglySorted R l -> StronglySorted R (filter f l).
Proof. apply filter_StronglySorted. Qed.

Lemma contributions sA sB cA cB nrA ncA nrB ncB i j limit :
  spOf sA nrA ncA -> spOf sB nrB ncB -> colSorted (entries sA) -> colSorted (entries sB) ->
  toCSR sA = Ok cA -> toCSR sB = Ok cB -> i < nrB -> j < nrA ->
  exists cs, getContributionsMixedLimit cA cB i j limit = Ok cs /\
    StronglySorted lt (map snd cs) /\
    (forall k, In k (map snd cs) <->
       k < limit /\ In (i, k) (entries sB) /\ In (j, k) (entries sA)) /\
    (forall ik jk k, In (ik, jk, k) cs ->
       nth_error (c_entries cB) ik = Some (i, k) /\ nth_error (c_entries cA) jk = Some (j, k)).
Proof.
  intros HA HB SA SB EA EB Hi Hj.
  destruct (toCSR_sorted _ _ _ _ HA SA EA) as (GA & RA & KA & IA).
  destruct (toCSR_sorted _ _ _ _ HB SB EB) as (GB & RB & KB & IB).
  destruct (contributions_ok cA cB i j limit) as (cs & E & H1 & H2 & H3); auto; try lia.
  set (ks := filter (fun k => nzb cA j k && (k <? limit)) (cols cB i)) in *.
  exists cs. split; auto. split; [|split].
  - rewrite H3. apply StronglySorted_filter, cols_sorted; auto.
  - intros k. rewrite H3. unfold ks. rewrite filter_In, cols_In, andb_true_iff, nzb_In, Nat.ltb_lt.
    rewrite IA, IB. tauto.
  - intros ik jk k Hin. apply In_nth_error in Hin. destruct Hin as (t & Ht).
    apply (f_equal (fun l => nth_error l t)) in H1, H2, H3.
    rewrite (map_nth_error _ _ _ Ht) in H1. rewrite (map_nth_error _ _ _ Ht) in H2.
    rewrite (map_nth_error _ _ _ Ht) in H3. cbn [fst snd] in H1, H2, H3.
    symmetry in H1, H2, H3. rewrite (map_nth_error _ _ _ H3) in H1.
    rewrite (map_nth_error _ _ _ H3) in H2. split; congruence.
Qed.

(** ** C25 *)

Lemma influenced_ok sS sT cS cT nrS ncS nrT ncT i j limit :
  spOf sS nrS ncS -> spOf sT nrT ncT -> colSorted (entries sS) -> colSorted (entries sT) ->
  toCSR sS = Ok cS -> toCSR sT = Ok cT -> limit <= nrS ->
  (forall k, k < limit -> In (k, j) (entries sS) -> In (i, k) (entries sT)) ->
  exists lst ks, getInfluencedListLimit i j cS cT limit = Ok lst /\
    StronglySorted lt ks /\ (forall k, In k ks <-> k < limit /\ In (k, j) (entries sS)) /\
    map (fun st => nth_error (c_entries cS) (fst st)) lst = map (fun k => Some (k, j)) ks /\
    map (fun st => nth_error (c_entries cT) (snd st)) lst = map (fun k => Some (i, k)) ks.
Proof.
  intros HS HT SS ST ES ET HL HX.
  destruct (toCSR_sorted _ _ _ _ HS SS ES) as (GS & RS & KS & IS).
  destruct (toCSR_sorted _ _ _ _ HT ST ET) as (GT & RT & KT & IT).
  destruct (influencedList_ok cS cT i j limit) as (lst & E & H1 & H2); auto; try lia.
  { intros k Hk Hin. apply IT, HX; auto. apply IS; auto. }
  exists lst, (filter (fun k => nzb cS k j) (seq 0 limit)). split; auto. split; [|split; [|split]]; auto.
  - apply StronglySorted_filter. clear. generalize 0 as a. induction limit as [|n IH]; intros a; cbn [seq];
      constructor; auto. apply Forall_forall. intros x Hx. apply in_seq in Hx. lia.
  - intros k. rewrite filter_In, in_seq, nzb_In, IS. intuition lia.
Qed.

(** a missing target entry is a violated assertion *)
Lemma influenced_err sS sT cS cT nrS ncS nrT ncT i j limit k :
  spOf sS nrS ncS -> spOf sT nrT ncT ->
  toCSR sS = Ok cS -> toCSR sT = Ok cT -> limit <= nrS -> i < nrT ->
  k < limit -> In (k, j) (entries sS) -> ~ In (i, k) (entries sT) ->
  getInfluencedListLimit i j cS cT limit = Err CAssert.
Proof.
  intros HS HT ES ET HL Hi Hk Hin Hout.
  destruct (entriesPat_csr _ _ _ _ HS ES) as (WS & RS & KS & IS).
  destruct (entriesPat_csr _ _ _ _ HT ET) as (WT & RT & KT & IT).
  unfold entriesPat in IS, IT. unfold getInfluencedListLimit.
  set (f := fun acc k => _).
  assert (G : forall n a acc, a <= k < a + n -> a + n <= limit -> foldM f (seq a n) acc = Err CAssert).
  { induction n as [|n IH]; intros a acc Ha Hn; [lia|]. cbn [seq foldM].
    unfold f at 1. rewrite (wf_isNonZero cS WS) by lia. cbn [bind].
    destruct (inb (c_entries cS) (a, j)) eqn:Ea.
    - apply inb_In in Ea. destruct (findEntryIndex_In _ _ Ea) as (ks & Eks).
      rewrite (wf_entryIndex cS WS _ _ _ Eks). cbn [bind].
      destruct (inb (c_entries cT) (i, a)) eqn:Ta.
      + apply inb_In in Ta. destruct (findEntryIndex_In _ _ Ta) as (kt & Ekt).
        rewrite (wf_entryIndex cT WT _ _ _ Ekt). cbn [bind].
        apply inb_In in Ea. apply IH; [|lia].
        assert (a <> k); [|lia]. intros ->. apply IT in Ta. contradiction.
      + unfold entryIndex. rewrite (wf_isNonZero cT WT) by lia. rewrite Ta. reflexivity.
    - cbn [bind]. apply IH; [|lia]. assert (a <> k); [|lia]. intros ->.
      apply inb_false in Ea. apply Ea, IS; auto. }
  apply G; lia.
Qed.

Lemma csr_cols_of s c nr nc : spOf s nr nc -> toCSR s = Ok c -> c_cols c = nc.
Proof.
  intros H E. destruct (entriesPat_csr _ _ _ _ H E) as (_ & _ & K & _). auto.
Qed.

Lemma influenced_rect sS sT cS cT nrS ncS nrT ncT i j :
  spOf sS nrS ncS -> spOf sT nrT ncT -> colSorted (entries sS) -> colSorted (entries sT) ->
  toCSR sS = Ok cS -> toCSR sT = Ok cT -> ncT <= nrS ->
  (forall k, k < ncT -> In (k, j) (entries sS) -> In (i, k) (entries sT)) ->
  exists lst ks, getInfluencedList i j cS cT = Ok lst /\
    StronglySorted lt ks /\ (forall k, In k ks <-> k < ncT /\ In (k, j) (entries sS)) /\
    map (fun st => nth_error (c_entries cS) (fst st)) lst = map (fun k => Some (k, j)) ks /\
    map (fun st => nth_error (c_entries cT) (snd st)) lst = map (fun k => Some (i, k)) ks.
Proof.
  intros HS HT SS ST ES ET. unfold getInfluencedList. rewrite (csr_cols_of _ _ _ _ HT ET).
  exact (influenced_ok sS sT cS cT nrS ncS nrT ncT i j ncT HS HT SS ST ES ET).
Qed.

Lemma influenced_low sS sT cS cT nrS ncS nrT ncT i j :
  spOf sS nrS ncS -> spOf sT nrT ncT -> colSorted (entries sS) -> colSorted (entries sT) ->
  toCSR sS = Ok cS -> toCSR sT = Ok cT -> i <= nrS ->
  (forall k, k < i -> In (k, j) (entries sS) -> In (i, k) (entries sT)) ->
  exists lst ks, getInfluencedListLowerTriangle i j cS cT = Ok lst /\
    StronglySorted lt ks /\ (forall k, In k ks <-> k < i /\ In (k, j) (entries sS)) /\
    map (fun st => nth_error (c_entries cS) (fst st)) lst = map (fun k => Some (k, j)) ks /\
    map (fun st => nth_error (c_entries cT) (snd st)) lst = map (fun k => Some (i, k)) ks.
Proof.
  intros HS HT SS ST ES ET.
  exact (influenced_ok sS sT cS cT nrS ncS nrT ncT i j i HS HT SS ST ES ET).
Qed.

Lemma influenced_missing sS sT cS cT nrS ncS nrT ncT i j k :
  spOf sS nrS ncS -> spOf sT nrT ncT ->
  toCSR sS = Ok cS -> toCSR sT = Ok cT -> i < nrT ->
  In (k, j) (entries sS) -> ~ In (i, k) (entries sT) ->
  (ncT <= nrS -> k < ncT -> getInfluencedList i j cS cT = Err CAssert) /\
  (i <= nrS -> k < i -> getInfluencedListLowerTriangle i j cS cT = Err CAssert).
Proof.
  intros HS HT ES ET Hi Hin Hout. split; intros HL Hk.
  - unfold getInfluencedList. rewrite (csr_cols_of _ _ _ _ HT ET).
    exact (influenced_err sS sT cS cT nrS ncS nrT ncT i j ncT k HS HT ES ET HL Hi Hk Hin Hout).
  - exact (influenced_err sS sT cS cT nrS ncS nrT ncT i j i k HS HT ES ET HL Hi Hk Hin Hout).
Qed.

(** ** C30 *)

Lemma constructor_ok nr nc es :
  (forall i j, In (i, j) es -> i < nr /\ j < nc) ->
  exists s, mkSparsity nr nc es = Ok s /\ nrows s = nr /\ ncols s = nc /\ entries s = es.
Proof. intros H. rewrite mkSparsity_ok by auto. eexists. split; auto. Qed.

Lemma constructor_err nr nc es i j :
  In (i, j) es -> ~ (i < nr /\ j < nc) -> mkSparsity nr nc es = Err PreViolation.
Proof.
  intros Hin H. unfold mkSparsity. destruct (forallb (inBounds nr nc) es) eqn:E; auto.
  rewrite forallb_forall in E. apply E in Hin. apply inBounds_spec in Hin. cbn in Hin. tauto.
Qed.

(** the entry points with the default limits *)
Lemma contributions_all sA sB cA cB nrA ncA nrB ncB i j :
  spOf sA nrA ncA -> spOf sB nrB ncB -> colSorted (entries sA) -> colSorted (entries sB) ->
  toCSR sA = Ok cA -> toCSR sB = Ok cB -> i < nrB -> j < nrA ->
  exists cs, getContributionsMixed cA cB i j = Ok cs /\
    StronglySorted lt (map snd cs) /\
    (forall k, In k (map snd cs) <-> In (i, k) (entries sB) /\ In (j, k) (entries sA)) /\
    (forall ik jk k, In (ik, jk, k) cs ->
       nth_error (c_entries cB) ik = Some (i, k) /\ nth_error (c_entries cA) jk = Some (j, k)).
Proof.
  intros HA HB SA SB EA EB Hi Hj.
  destruct (toCSR_sorted _ _ _ _ HA SA EA) as (GA & RA & KA & IA).
  destruct (toCSR_sorted _ _ _ _ HB SB EB) as (GB & RB & KB & IB).
  destruct (contributions sA sB cA cB nrA ncA nrB ncB i j (Nat.min ncA ncB))
    as (cs & E & H1 & H2 & H3); auto.
  exists cs. unfold getContributionsMixed. rewrite KA, KB. split; auto. split; auto. split; auto.
  intros k. rewrite H2. split; [tauto|]. intros [X Y]. split; auto.
  pose proof (sp_wf _ _ _ HB _ _ X). pose proof (sp_wf _ _ _ HA _ _ Y). lia.
Qed.
