(** Filled-in block sparsities and the chordality test. *)
From Coq Require Import List Arith Lia Bool Permutation Sorted.
From Verif Require Import Base ModelPerm ModelSparsity ModelSymbolic SpecSymbolic.
From Verif Require Import ProofBase ProofPerm ProofCsr ProofSparsity ProofEtree ProofFill.
Import ListNotations.

Definition rowSorted (es : list entry) : Prop :=
  forall i, StronglySorted lt (map snd (rowf es i)).

(** sparsity of the given size, without duplicates, with sorted rows, whose
    entries are exactly those of [R] *)
Record isBlk (s : sparsity) (nr nc : nat) (R : pattern) : Prop := mkIsBlk {
  ib_rows : nrows s = nr;
  ib_cols : ncols s = nc;
  ib_wf : wf_sp s;
  ib_nodup : NoDup (entries s);
  ib_sorted : rowSorted (entries s);
  ib_in : forall i j, In (i, j) (entries s) <-> R i j;
  ib_major : rowMajor (entries s) }.

Lemma sort_major es : NoDup es -> rowMajor (sortEntriesRowMajorSorted es).
Proof.
  intros ND.
  assert (ND' : NoDup (sortEntriesRowMajorSorted es)).
  { eapply Permutation_NoDup; [apply Permutation_sym, sort_perm|auto]. }
  pose proof (sort_sorted es) as HS. clear ND.
  induction HS as [|a l HS IH HF]; [constructor|].
  inversion ND' as [|? ? Na ND2]; subst. constructor; [apply IH; auto|].
  rewrite Forall_forall in *. intros b Hb. specialize (HF b Hb).
  unfold entry_le in HF. destruct HF as [H|[H1 H2]]; auto. right. split; auto.
  destruct (Nat.eq_dec (snd a) (snd b)) as [E|]; [|lia].
  exfalso. apply Na. destruct a, b. cbn in *. subst. auto.
Qed.

Lemma isBlk_ext s nr nc (R R' : pattern) :
  (forall i j, i < nr -> j < nc -> R i j <-> R' i j) ->
  (forall i j, R' i j -> i < nr /\ j < nc) ->
  isBlk s nr nc R -> isBlk s nr nc R'.
Proof.
  intros H HB [H1 H2 H3 H4 H5 H6 H7]. constructor; auto. intros i j. split.
  - intros Hin. pose proof (H3 _ _ Hin). apply H, H6; auto; lia.
  - intros HR. pose proof (HB _ _ HR). apply H6, H; tauto.
Qed.

Lemma mkSorted_ok nr nc es (R : pattern) :
  NoDup es -> (forall i j, In (i, j) es <-> R i j) ->
  (forall i j, R i j -> i < nr /\ j < nc) ->
  exists s, mkSparsity nr nc (sortEntriesRowMajorSorted es) = Ok s /\ isBlk s nr nc R.
Proof.
  intros ND Hin HB.
  assert (HS : forall i j, In (i, j) (sortEntriesRowMajorSorted es) <-> R i j).
  { intros i j. rewrite <- Hin.
    split; apply Permutation_in; [|apply Permutation_sym]; apply sort_perm. }
  rewrite mkSparsity_ok by (intros i j H; apply HB, HS; auto).
  eexists. split; [reflexivity|]. constructor; cbn; auto.
  - intros i j H. apply HB, HS; auto.
  - eapply Permutation_NoDup; [apply Permutation_sym, sort_perm|auto].
  - intros i. apply sorted_rows; auto.
  - apply sort_major; auto.
Qed.

Lemma isBlk_csr s nr nc R c :
  isBlk s nr nc R -> toCSR s = Ok c ->
  wf_csr c /\ csr_sorted c /\ c_rows c = nr /\ c_cols c = nc /\
  (forall i j, In (i, j) (c_entries c) <-> R i j).
Proof.
  intros [H1 H2 H3 H4 H5 H6 H7] E.
  destruct (toCSR_inv _ _ H3 E) as (W & Hr & Hc & HP & Hrows).
  split; [exact W|]. split; [intros i; rewrite Hrows; apply H5|].
  split; [congruence|]. split; [congruence|].
  intros i j. rewrite <- H6.
  split; apply Permutation_in; [|apply Permutation_sym]; auto.
Qed.

Lemma getFilledInSparsity_blk s p :
  wf_sp s -> nrows s = ncols s -> isPerm (nrows s) p ->
  exists s', getFilledInSparsity s p = Ok s' /\
    isBlk s' (nrows s) (nrows s) (Fill (permLow (entries s) (nrows s) p)).
Proof.
  intros Hw Hsq Hp.
  destruct (getFilledInSparsity_ok s p Hw Hsq Hp)
    as (s' & E & H1 & H2 & H3 & (es & ND & Es) & H4).
  exists s'. split; auto. constructor; auto.
  - rewrite Es. eapply Permutation_NoDup; [apply Permutation_sym, sort_perm|auto].
  - intros i. rewrite Es. apply sorted_rows; auto.
  - rewrite Es. apply sort_major; auto.
Qed.

Lemma asm3_mono n1 n2 (P11 P21 P22 P31 P32 P33 P11' P21' P22' P31' P32' P33' : pattern) i j :
  (forall i j, P11 i j -> P11' i j) -> (forall i j, P21 i j -> P21' i j) ->
  (forall i j, P22 i j -> P22' i j) -> (forall i j, P31 i j -> P31' i j) ->
  (forall i j, P32 i j -> P32' i j) -> (forall i j, P33 i j -> P33' i j) ->
  asm3 n1 n2 P11 P21 P22 P31 P32 P33 i j -> asm3 n1 n2 P11' P21' P22' P31' P32' P33' i j.
Proof.
  intros H1 H2 H3 H4 H5 H6. unfold asm3.
  intros [H|[(i' & E & H)|[(i' & j' & E & E' & H)|[(i' & E & H)|
          [(i' & j' & E & E' & H)|(i' & j' & E & E' & H)]]]]]; eauto 12.
Qed.

Lemma asm3_ext n1 n2 (P11 P21 P22 P31 P32 P33 P11' P21' P22' P31' P32' P33' : pattern) i j :
  (forall i j, P11 i j <-> P11' i j) -> (forall i j, P21 i j <-> P21' i j) ->
  (forall i j, P22 i j <-> P22' i j) -> (forall i j, P31 i j <-> P31' i j) ->
  (forall i j, P32 i j <-> P32' i j) -> (forall i j, P33 i j <-> P33' i j) ->
  asm3 n1 n2 P11 P21 P22 P31 P32 P33 i j <-> asm3 n1 n2 P11' P21' P22' P31' P32' P33' i j.
Proof.
  intros H1 H2 H3 H4 H5 H6.
  split; apply asm3_mono; intros;
    first [apply H1|apply H2|apply H3|apply H4|apply H5|apply H6]; auto.
Qed.

(** what the factor of the assembled permuted matrix looks like *)
Definition filled3 (n1 n2 n3 : nat) (e11 e21 e22 e31 e32 e33 : list entry)
    (p1 p2 p3 : perm) : pattern :=
  Fill (asm3 n1 n2 (permLow e11 n1 p1) (permRect e21 n2 n1 p2 p1) (permLow e22 n2 p2)
          (permRect e31 n3 n1 p3 p1) (permRect e32 n3 n2 p3 p2) (permLow e33 n3 p3)).

Lemma lowcsr s n p : nrows s = n /\ ncols s = n -> wf_sp s -> isPerm n p ->
  exists l c, getSparsityDynamicLowerTriangle s p = Ok l /\ toCSR l = Ok c /\
    wf_csr c /\ c_rows c = n /\ c_cols c = n /\
    (forall i j, In (i, j) (c_entries c) <-> permLow (entries s) n p i j).
Proof.
  intros [E1 E2] W Hp. subst n.
  destruct (lowerTriangle_ok s p W) as (l & El & H1 & H2 & H3 & H4 & _); auto.
  destruct (toCSR_ok l H3) as (c & Ec & Wc & Hr & Hc & HP & _).
  exists l, c. split; auto. split; auto. split; auto. split; [lia|]. split; [lia|].
  intros i j. unfold permLow. rewrite <- H4.
  split; apply Permutation_in; [|apply Permutation_sym]; auto.
Qed.

Lemma rectcsr s n m p q : nrows s = n /\ ncols s = m -> wf_sp s -> isPerm n p ->
  isPerm m q ->
  exists l c, getSparsityDynamicPermuted s p q = Ok l /\ toCSR l = Ok c /\
    wf_csr c /\ c_rows c = n /\ c_cols c = m /\
    (forall i j, In (i, j) (c_entries c) <-> permRect (entries s) n m p q i j).
Proof.
  intros [E1 E2] W Hp Hq. subst n m.
  destruct (permuted_ok s p q W Hp Hq) as (l & El & H1 & H2 & H3 & H4 & _); auto.
  destruct (toCSR_ok l H3) as (c & Ec & Wc & Hr & Hc & HP & _).
  exists l, c. split; auto. split; auto. split; auto. split; [lia|]. split; [lia|].
  intros i j. unfold permRect. rewrite <- H4.
  split; apply Permutation_in; [|apply Permutation_sym]; auto.
Qed.

Section Filled3.
  Context (s11 s21 s22 s31 s32 s33 : sparsity) (p1 p2 p3 : perm) (n1 n2 n3 : nat).
  Context (D11 : nrows s11 = n1 /\ ncols s11 = n1) (D21 : nrows s21 = n2 /\ ncols s21 = n1)
          (D22 : nrows s22 = n2 /\ ncols s22 = n2) (D31 : nrows s31 = n3 /\ ncols s31 = n1)
          (D32 : nrows s32 = n3 /\ ncols s32 = n2) (D33 : nrows s33 = n3 /\ ncols s33 = n3).
  Context (W11 : wf_sp s11) (W21 : wf_sp s21) (W22 : wf_sp s22)
          (W31 : wf_sp s31) (W32 : wf_sp s32) (W33 : wf_sp s33).
  Context (Hp1 : isPerm n1 p1) (Hp2 : isPerm n2 p2) (Hp3 : isPerm n3 p3).
  Let R := filled3 n1 n2 n3 (entries s11) (entries s21) (entries s22)
             (entries s31) (entries s32) (entries s33) p1 p2 p3.

  Lemma filled3_bound i j : R i j -> j < i /\ i < n1 + n2 + n3.
  Proof.
    intros H. split; [eapply Fill_lt; eauto|].
    pose proof (Fill_lt _ _ _ H).
    assert (i <= n1 + n2 + n3 - 1); [|lia].
    eapply Fill_rows; [|exact H]. intros a b Hq L.
    unfold asm3, permLow, permRect in Hq.
    destruct Hq as [Hq|[(i' & -> & Hq)|[(i' & j' & -> & -> & Hq)|[(i' & -> & Hq)|
          [(i' & j' & -> & -> & Hq)|(i' & j' & -> & -> & Hq)]]]]]; lia.
  Qed.

  Lemma getFilled3_ok :
    exists b, getFilledInSparsityBlocked3x3 s11 s21 s22 s31 s32 s33 p1 p2 p3 = Ok b /\
      isBlk (block11 b) n1 n1 (fun i j => i < n1 /\ j < n1 /\ R i j) /\
      isBlk (block21 b) n2 n1 (fun i j => i < n2 /\ j < n1 /\ R (n1 + i) j) /\
      isBlk (block22 b) n2 n2 (fun i j => i < n2 /\ j < n2 /\ R (n1 + i) (n1 + j)) /\
      isBlk (block31 b) n3 n1 (fun i j => i < n3 /\ j < n1 /\ R (n1 + n2 + i) j) /\
      isBlk (block32 b) n3 n2 (fun i j => i < n3 /\ j < n2 /\ R (n1 + n2 + i) (n1 + j)) /\
      isBlk (block33 b) n3 n3
        (fun i j => i < n3 /\ j < n3 /\ R (n1 + n2 + i) (n1 + n2 + j)).
  Proof.
    unfold getFilledInSparsityBlocked3x3, isSquare.
    repeat (rewrite pre_ok by (apply Nat.eqb_eq; lia); cbn [bind]).
    destruct (lowcsr s11 n1 p1 D11 W11 Hp1) as (l11 & c11 & E1 & E1' & C11 & R11 & K11 & I11).
    rewrite E1. cbn [bind]. rewrite E1'. cbn [bind].
    destruct (rectcsr s21 n2 n1 p2 p1 D21 W21 Hp2 Hp1)
      as (l21 & c21 & E2 & E2' & C21 & R21 & K21 & I21).
    rewrite E2. cbn [bind]. rewrite E2'. cbn [bind].
    destruct (lowcsr s22 n2 p2 D22 W22 Hp2) as (l22 & c22 & E3 & E3' & C22 & R22 & K22 & I22).
    rewrite E3. cbn [bind]. rewrite E3'. cbn [bind].
    destruct (rectcsr s31 n3 n1 p3 p1 D31 W31 Hp3 Hp1)
      as (l31 & c31 & E4 & E4' & C31 & R31 & K31 & I31).
    rewrite E4. cbn [bind]. rewrite E4'. cbn [bind].
    destruct (rectcsr s32 n3 n2 p3 p2 D32 W32 Hp3 Hp2)
      as (l32 & c32 & E5 & E5' & C32 & R32 & K32 & I32).
    rewrite E5. cbn [bind]. rewrite E5'. cbn [bind].
    destruct (lowcsr s33 n3 p3 D33 W33 Hp3) as (l33 & c33 & E6 & E6' & C33 & R33 & K33 & I33).
    rewrite E6. cbn [bind]. rewrite E6'. cbn [bind].
    assert (HQ : forall i j, asm3 n1 n2
       (entriesPat (c_entries c11)) (entriesPat (c_entries c21)) (entriesPat (c_entries c22))
       (entriesPat (c_entries c31)) (entriesPat (c_entries c32)) (entriesPat (c_entries c33)) i j
       <-> asm3 n1 n2 (permLow (entries s11) n1 p1) (permRect (entries s21) n2 n1 p2 p1)
          (permLow (entries s22) n2 p2) (permRect (entries s31) n3 n1 p3 p1)
          (permRect (entries s32) n3 n2 p3 p2) (permLow (entries s33) n3 p3) i j).
    { intros i j. apply asm3_ext; auto. }
    destruct (foreachNonZero3_ok c11 c21 c22 c31 c32 c33 C11 C21 C22 C31 C32 C33 n1 n2 n3)
      as (calls & E & ND & Hc); auto.
    { intros i j H. apply HQ in H. unfold asm3, permLow, permRect in H.
      destruct H as [Hq|[(i' & -> & Hq)|[(i' & j' & -> & -> & Hq)|[(i' & -> & Hq)|
          [(i' & j' & -> & -> & Hq)|(i' & j' & -> & -> & Hq)]]]]]; lia. }
    rewrite E. cbn [bind].
    assert (HR : forall i j, In (i, j) calls <-> R i j).
    { intros i j. rewrite Hc. unfold R, filled3. apply Fill_ext. intros; apply HQ. }
    rewrite R11, R22, K11, K22, R21, K21, R31, K31, R32, K32, R33, K33.
    pose proof filled3_bound as HB.
    rewrite foldM_split3 by (intros i j H; apply HB, HR; auto). cbn [bind].
    destruct (split3_NoDup n1 n2 R calls HR) as (N1 & N2 & N3 & N4 & N5 & N6); auto.
    { intros i j H. apply HB in H. lia. }
    assert (Hlt : forall i j, R i j -> j < i) by (intros i j H; apply HB in H; lia).
    assert (Hn : forall i j, R i j -> i < n1 + n2 + n3) by (intros i j H; apply HB in H; lia).
    destruct (mkSorted_ok n1 n1 _ _ N1 (split3_11 n1 n2 R calls HR))
      as (b11 & F1 & B1); [lia|]. rewrite F1. cbn [bind].
    destruct (mkSorted_ok n2 n1 _ _ N2 (split3_21 n1 n2 R calls HR))
      as (b21 & F2 & B2); [lia|]. rewrite F2. cbn [bind].
    destruct (mkSorted_ok n2 n2 _ _ N3 (split3_22 n1 n2 R calls HR Hlt))
      as (b22 & F3 & B3); [lia|]. rewrite F3. cbn [bind].
    destruct (mkSorted_ok n3 n1 _ _ N4 (split3_31 n1 n2 R calls n3 HR Hn))
      as (b31 & F4 & B4); [lia|]. rewrite F4. cbn [bind].
    destruct (mkSorted_ok n3 n2 _ _ N5 (split3_32 n1 n2 R calls n3 HR Hn))
      as (b32 & F5 & B5); [lia|]. rewrite F5. cbn [bind].
    destruct (mkSorted_ok n3 n3 _ _ N6 (split3_33 n1 n2 R calls n3 HR Hlt Hn))
      as (b33 & F6 & B6); [lia|]. rewrite F6. cbn [bind].
    eexists. split; [reflexivity|].
    cbn [block11 block21 block22 block31 block32 block33]. auto 10.
  Qed.
End Filled3.

(** ** 2x2 blocks *)

Lemma asm3_asm2 n1 n2 P11 P21 P22 i j :
  asm3 n1 n2 P11 P21 P22 (permRect [] 0 n1 (iota_perm 0) (iota_perm n1))
    (permRect [] 0 n2 (iota_perm 0) (iota_perm n2)) (permLow [] 0 (iota_perm 0)) i j <->
  asm2 n1 P11 P21 P22 i j.
Proof.
  unfold asm3, asm2, permRect, permLow. split.
  - intros [H|[H|[H|[(i' & _ & H)|[(i' & j' & _ & _ & H)|(i' & j' & _ & _ & H)]]]]]; auto;
      lia.
  - intros [H|[H|H]]; auto.
Qed.

Lemma getFilled2_ok s11 s21 s22 p1 p2 n1 n2 :
  nrows s11 = n1 /\ ncols s11 = n1 -> nrows s21 = n2 /\ ncols s21 = n1 ->
  nrows s22 = n2 /\ ncols s22 = n2 -> wf_sp s11 -> wf_sp s21 -> wf_sp s22 ->
  isPerm n1 p1 -> isPerm n2 p2 ->
  let R := Fill (asm2 n1 (permLow (entries s11) n1 p1) (permRect (entries s21) n2 n1 p2 p1)
                  (permLow (entries s22) n2 p2)) in
  exists b, getFilledInSparsityBlockedPerm s11 s21 s22 p1 p2 = Ok b /\
    isBlk (b2_11 b) n1 n1 (fun i j => i < n1 /\ j < n1 /\ R i j) /\
    isBlk (b2_21 b) n2 n1 (fun i j => i < n2 /\ j < n1 /\ R (n1 + i) j) /\
    isBlk (b2_22 b) n2 n2 (fun i j => i < n2 /\ j < n2 /\ R (n1 + i) (n1 + j)).
Proof.
  intros D11 D21 D22 W11 W21 W22 Hp1 Hp2 R.
  unfold getFilledInSparsityBlockedPerm.
  destruct (getFilled3_ok s11 s21 s22 (emptySparsity 0 (ncols s11))
     (emptySparsity 0 (ncols s22)) (emptySparsity 0 0) p1 p2 (iota_perm 0) n1 n2 0)
    as (b & E & B1 & B2 & B3 & _); auto; try (intros ? ? []); try apply isPerm_iota;
    try (cbn; lia).
  rewrite E. cbn [bind]. eexists. split; [reflexivity|]. cbn [b2_11 b2_21 b2_22].
  assert (HE : forall i j, filled3 n1 n2 0 (entries s11) (entries s21) (entries s22)
     [] [] [] p1 p2 (iota_perm 0) i j <-> R i j).
  { intros i j. unfold filled3, R. apply Fill_ext. intros a c _.
    unfold asm3, asm2, permRect, permLow. split.
    - intros [H|[H|[H|[(i' & _ & H)|[(i' & j' & _ & _ & H)|(i' & j' & _ & _ & H)]]]]];
        auto; lia.
    - intros [H|[H|H]]; auto. }
  split; [|split].
  - eapply isBlk_ext; [| |exact B1]; cbn beta; [|lia]. intros. rewrite HE. tauto.
  - eapply isBlk_ext; [| |exact B2]; cbn beta; [|lia]. intros. rewrite HE. tauto.
  - eapply isBlk_ext; [| |exact B3]; cbn beta; [|lia]. intros. rewrite HE. tauto.
Qed.

Lemma permLow_iota es n i j :
  inBoundsP n n es ->
  permLow es n (iota_perm n) i j <-> j < i /\ In (i, j) es.
Proof.
  intros HB. unfold permLow. split.
  - intros (Hji & Hi & Hin). rewrite !iota_nth, Nat.max_l, Nat.min_r in Hin by lia. auto.
  - intros (Hji & Hin). pose proof (HB _ _ Hin). split; auto. split; [lia|].
    rewrite !iota_nth, Nat.max_l, Nat.min_r by lia. auto.
Qed.

Lemma permRect_iota es n m i j :
  inBoundsP n m es ->
  permRect es n m (iota_perm n) (iota_perm m) i j <-> In (i, j) es.
Proof.
  intros HB. unfold permRect. split.
  - intros (Hi & Hj & Hin). rewrite !iota_nth in Hin by lia. auto.
  - intros Hin. pose proof (HB _ _ Hin). rewrite !iota_nth by lia. tauto.
Qed.

(** ** chordality *)

Lemma NoDup_incl_length_eq {A} (l1 l2 : list A) :
  NoDup l1 -> NoDup l2 -> incl l1 l2 -> (length l2 = length l1 <-> incl l2 l1).
Proof.
  intros N1 N2 H. split.
  - intros E. apply NoDup_length_incl; auto. lia.
  - intros H2. apply Nat.le_antisymm; apply NoDup_incl_length; auto.
Qed.

Lemma isChordalBlocked_ok s11 s21 s22 n1 n2 :
  nrows s11 = n1 /\ ncols s11 = n1 -> nrows s21 = n2 /\ ncols s21 = n1 ->
  nrows s22 = n2 /\ ncols s22 = n2 -> wf_sp s11 -> wf_sp s21 -> wf_sp s22 ->
  NoDup (entries s11) -> NoDup (entries s21) -> NoDup (entries s22) ->
  exists b, isChordalBlocked s11 s21 s22 = Ok b /\
    (b = true <->
     (forall i j, In (i, j) (entries s11) -> j < i) /\
     (forall i j, In (i, j) (entries s22) -> j < i) /\
     closedPattern (asm2 n1 (entriesPat (entries s11)) (entriesPat (entries s21))
                      (entriesPat (entries s22)))).
Proof.
  intros D11 D21 D22 W11 W21 W22 N11 N21 N22.
  unfold isChordalBlocked. unfold isSquare.
  repeat (rewrite pre_ok by (apply Nat.eqb_eq; lia); cbn [bind]).
  assert (HL : forall s, isLowerTriangle s = true <->
                (forall i j, In (i, j) (entries s) -> j < i)).
  { intros s. unfold isLowerTriangle. rewrite forallb_forall. split.
    - intros H i j Hin. apply H in Hin. cbn in Hin.
      apply negb_true_iff, Nat.leb_gt in Hin. auto.
    - intros H [i j] Hin. apply negb_true_iff, Nat.leb_gt. cbn. auto. }
  set (Q := asm2 _ _ _ _).
  destruct (isLowerTriangle s11) eqn:L1; cbn [negb orb].
  2:{ exists false. split; auto. split; [discriminate|]. intros (H & _).
      apply HL in H. congruence. }
  destruct (isLowerTriangle s22) eqn:L2; cbn [negb orb].
  2:{ exists false. split; auto. split; [discriminate|]. intros (_ & H & _).
      apply HL in H. congruence. }
  pose proof (proj1 (HL s11) L1) as Low1. pose proof (proj1 (HL s22) L2) as Low2.
  unfold getFilledInSparsityBlocked.
  destruct (getFilled2_ok s11 s21 s22 (iota_perm n1) (iota_perm n2) n1 n2)
    as (b & E & B1 & B2 & B3); auto; try apply isPerm_iota.
  rewrite (proj1 D11), (proj1 D22), E. cbn [bind].
  eexists. split; [reflexivity|].
  assert (W11' : inBoundsP n1 n1 (entries s11)).
  { destruct D11 as [E1 E2]. unfold wf_sp in W11. rewrite E1, E2 in W11. auto. }
  assert (W21' : inBoundsP n2 n1 (entries s21)).
  { destruct D21 as [E1 E2]. unfold wf_sp in W21. rewrite E1, E2 in W21. auto. }
  assert (W22' : inBoundsP n2 n2 (entries s22)).
  { destruct D22 as [E1 E2]. unfold wf_sp in W22. rewrite E1, E2 in W22. auto. }
  assert (HQ : forall i j, Fill (asm2 n1 (permLow (entries s11) n1 (iota_perm n1))
     (permRect (entries s21) n2 n1 (iota_perm n2) (iota_perm n1))
     (permLow (entries s22) n2 (iota_perm n2))) i j <-> Fill Q i j).
  { intros i j. apply Fill_ext. intros a c Hac. unfold Q, asm2, entriesPat. split.
    - intros [H|[(i' & -> & H)|(i' & j' & -> & -> & H)]].
      + apply permLow_iota in H; auto. tauto.
      + apply permRect_iota in H; auto. eauto.
      + apply permLow_iota in H; auto. right; right. exists i', j'. tauto.
    - intros [H|[(i' & -> & H)|(i' & j' & -> & -> & H)]].
      + left. apply permLow_iota; auto.
      + right; left. exists i'. rewrite permRect_iota; auto.
      + right; right. exists i', j'. rewrite permLow_iota by auto. auto. }
  assert (I1 : forall i j, In (i, j) (entries (b2_11 b)) <-> i < n1 /\ j < n1 /\ Fill Q i j).
  { intros i j. rewrite (ib_in _ _ _ _ B1), HQ. tauto. }
  assert (I2 : forall i j, In (i, j) (entries (b2_21 b)) <-> i < n2 /\ j < n1 /\ Fill Q (n1 + i) j).
  { intros i j. rewrite (ib_in _ _ _ _ B2), HQ. tauto. }
  assert (I3 : forall i j, In (i, j) (entries (b2_22 b)) <-> i < n2 /\ j < n2 /\ Fill Q (n1 + i) (n1 + j)).
  { intros i j. rewrite (ib_in _ _ _ _ B3), HQ. tauto. }
  assert (C1 : incl (entries s11) (entries (b2_11 b))).
  { intros [i j] Hin. pose proof (W11' _ _ Hin). apply I1.
    split; [lia|]. split; [lia|]. apply Fill_base; [left; auto|auto]. }
  assert (C2 : incl (entries s21) (entries (b2_21 b))).
  { intros [i j] Hin. pose proof (W21' _ _ Hin). apply I2.
    split; [lia|]. split; [lia|]. apply Fill_base; [right; left; exists i; auto|lia]. }
  assert (C3 : incl (entries s22) (entries (b2_22 b))).
  { intros [i j] Hin. pose proof (W22' _ _ Hin). apply I3.
    split; [lia|]. split; [lia|]. apply Low2 in Hin as Hlt.
    apply Fill_base; [right; right; exists i, j; auto|lia]. }
  rewrite !andb_true_iff, !Nat.eqb_eq. unfold nnz.
  rewrite (NoDup_incl_length_eq _ _ N11 (ib_nodup _ _ _ _ B1) C1).
  rewrite (NoDup_incl_length_eq _ _ N21 (ib_nodup _ _ _ _ B2) C2).
  rewrite (NoDup_incl_length_eq _ _ N22 (ib_nodup _ _ _ _ B3) C3).
  assert (HQd : forall i j, Q i j -> j < i /\ i < n1 + n2).
  { unfold Q, asm2, entriesPat.
    intros i j [H|[(i' & -> & H)|(i' & j' & -> & -> & H)]].
    - pose proof (W11' _ _ H). apply Low1 in H. lia.
    - pose proof (W21' _ _ H). lia.
    - pose proof (W22' _ _ H). apply Low2 in H. lia. }
  split.
  - intros [[H1 H2] H3]. split; auto. split; auto.
    assert (HF : forall i j, Fill Q i j -> Q i j).
    { intros i j HF.
      assert (Hi : i < n1 + n2).
      { pose proof (Fill_lt _ _ _ HF).
        assert (i <= n1 + n2 - 1); [|lia].
        eapply Fill_rows; [|exact HF]. intros a c Hq _. apply HQd in Hq. lia. }
      pose proof (Fill_lt _ _ _ HF).
      destruct (Nat.lt_ge_cases i n1) as [L|L].
      - left. apply H1, I1. split; [lia|]. split; [lia|auto].
      - replace i with (n1 + (i - n1)) in * by lia.
        destruct (Nat.lt_ge_cases j n1) as [L'|L'].
        + right; left. exists (i - n1). split; auto. apply H2, I2.
          split; [lia|]. split; [lia|auto].
        + replace j with (n1 + (j - n1)) in * by lia.
          right; right. exists (i - n1), (j - n1). split; auto. split; auto.
          apply H3, I3. split; [lia|]. split; [lia|auto]. }
    intros i j k Hk Hj Q1 Q2. apply HF.
    apply Fill_elim with (k := k); auto; apply Fill_base; auto; lia.
  - intros (_ & _ & HC).
    assert (HF : forall i j, Fill Q i j -> Q i j).
    { intros i j H. apply Fill_of_closed in H; tauto. }
    split; [split|].
    + intros [i j] Hin. apply I1 in Hin. destruct Hin as (Hi & Hj & H). apply HF in H.
      unfold Q, asm2, entriesPat in H.
      destruct H as [H|[(i' & -> & H)|(i' & j' & -> & -> & H)]]; auto; lia.
    + intros [i j] Hin. apply I2 in Hin. destruct Hin as (Hi & Hj & H). apply HF in H.
      unfold Q, asm2, entriesPat in H.
      destruct H as [H|[(i' & E' & H)|(i' & j' & E' & -> & H)]]; try lia.
      * pose proof (W11' _ _ H). lia.
      * replace i with i' by lia. auto.
    + intros [i j] Hin. apply I3 in Hin. destruct Hin as (Hi & Hj & H). apply HF in H.
      unfold Q, asm2, entriesPat in H.
      destruct H as [H|[(i' & E' & H)|(i' & j' & E' & E'' & H)]].
      * pose proof (W11' _ _ H). lia.
      * pose proof (W21' _ _ H). lia.
      * replace i with i' by lia. replace j with j' by lia. auto.
Qed.
