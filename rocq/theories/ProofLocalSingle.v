(** Independent and leading parts of a single system. *)
From Coq Require Import Lia List Arith Bool Permutation Sorted.
From Verif Require Import Base ModelPerm ModelSparsity ModelSymbolic ModelNumeric ModelArrow ModelReg.
From Verif Require Import SpecSymbolic SpecArrow SpecNumeric SpecArrowNum SpecPivot SpecAgree SpecLocal.
From Verif Require Import ProofBase ProofPerm ProofCsr ProofFill ProofDense ProofExact ProofLdl ProofKernel ProofSolve
  ProofSingle ProofSingleMain ProofArrowSym ProofArrowRows ProofArrowDense ProofArrowProduct ProofArrowSolve ProofArrowMain
  ProofArrowSub ProofChain ProofChainKernel ProofChainArrow ProofRoundMain ProofRoundUser ProofRoundTri
  ProofPropSymbolic ProofPropArrow ProofPropPivot ProofSign ProofPropSign ProofAgree ProofPropAgree ProofAgreeDense
  ProofAgreeArrow ProofLocal.
Import ListNotations.
Local Open Scope nat_scope.

Lemma permLow_coupled es n p i j : validPerm n p -> j < i -> i < n ->
  permLow es n p i j <-> coupled es (nth i p 0) (nth j p 0).
Proof.
  intros HP Hj Hi. apply validPerm_isPerm in HP. unfold permLow, coupled. split.
  - intros (_ & _ & H). split; auto. intros E. apply (isPerm_inj n p) in E; auto; lia.
  - intros [_ H]. auto.
Qed.

Lemma coupled_sym es r c : coupled es r c -> coupled es c r.
Proof. unfold coupled. rewrite Nat.max_comm, Nat.min_comm. intuition. Qed.

Lemma Fill_bound es n p i j : Fill (permLow es n p) i j -> j < i /\ i < n.
Proof. intros H. split; [eapply Fill_low; eauto|]. induction H as [i j (_ & H & _)|]; auto. Qed.

Section Run.
  Context {F : Type} (O : ops F).

  Lemma single_bundle s n p b : spOf s n n -> validPerm n p -> factorizationBlk s p = Ok b ->
    forall mt reg a vals m L0 D0, spOf a n n -> inputOf O m a vals ->
    coveredSym (entries a) (entries s) n p ->
    length L0 = c_nnz (b_sp b) -> length D0 = n ->
    exists L D S, factorize O mt b (Some m) reg (L0, D0) = Ok (L, D) /\
      length L = c_nnz (b_sp b) /\ length D = n /\
      chainedF O Nat.eq_dec (seq 0 n) (cols (b_sp b)) (fun dg _ _ => kernForm mt dg)
        (fun i j => symAt O (entries a) vals (nth i p 0) (nth j p 0))
        (getL O (b_sp b) L) S (getD O D) reg.
  Proof.
    intros HS HP HB mt reg a vals m L0 D0 HA HI HC N1 N2.
    pose proof (blk_good s n p b HS HP HB) as G. pose proof (blk_low s n p) as Low.
    destruct (factorize_ok O mt b n _ p m a vals reg L0 D0 G Low (Fill_closed _) HI HA HC N1 N2)
      as (L & D & EF & NL & ND & _).
    destruct (single_chainedF O mt b n _ p m a vals reg L0 D0 L D G Low (Fill_closed _) HI HA HC N1 N2 EF)
      as (S & C).
    exists L, D, S. auto.
  Qed.

  Lemma single_row s n p b : spOf s n n -> validPerm n p -> factorizationBlk s p = Ok b ->
    forall g h, In h (cols (b_sp b) g) <-> Fill (permLow (entries s) n p) g h.
  Proof.
    intros HS HP HB g h. pose proof (blk_good s n p b HS HP HB) as G.
    rewrite cols_In. apply (gb_in _ _ _ _ _ _ _ G).
  Qed.

  Lemma single_col s n p b : spOf s n n -> validPerm n p -> factorizationBlk s p = Ok b ->
    forall g h, In h (rowsOf (b_sp b) n g) <-> Fill (permLow (entries s) n p) h g.
  Proof.
    intros HS HP HB g h. pose proof (blk_good s n p b HS HP HB) as G.
    rewrite rowsOf_In, (gb_in _ _ _ _ _ _ _ G). split; [tauto|]. intros H. split; auto.
    apply Fill_bound in H. tauto.
  Qed.

  (** ** variables that are not coupled with the others *)
  Lemma single_independent s n p b (V : nat -> Prop) :
    spOf s n n -> validPerm n p -> factorizationBlk s p = Ok b -> separated (entries s) V ->
    forall mt reg1 reg2 a1 vals1 m1 a2 vals2 m2 L01 D01 L02 D02,
    spOf a1 n n -> inputOf O m1 a1 vals1 -> coveredSym (entries a1) (entries s) n p ->
    spOf a2 n n -> inputOf O m2 a2 vals2 -> coveredSym (entries a2) (entries s) n p ->
    (forall r c, r < n -> c < n -> V r -> V c ->
       symAt O (entries a1) vals1 r c = symAt O (entries a2) vals2 r c) ->
    (forall i v, i < n -> V (nth i p 0) -> reg1 v i = reg2 v i) ->
    length L01 = c_nnz (b_sp b) -> length D01 = n ->
    length L02 = c_nnz (b_sp b) -> length D02 = n ->
    exists L1 D1 L2 D2,
      factorize O mt b (Some m1) reg1 (L01, D01) = Ok (L1, D1) /\
      factorize O mt b (Some m2) reg2 (L02, D02) = Ok (L2, D2) /\
      (forall i, i < n -> V (nth i p 0) -> vecAt O D1 i = vecAt O D2 i) /\
      (forall i j, i < n -> V (nth i p 0) ->
         denseAt O (c_entries (b_sp b)) L1 i j = denseAt O (c_entries (b_sp b)) L2 i j) /\
      forall rhs1 rhs2, length rhs1 = n -> length rhs2 = n ->
      (forall r, r < n -> V r -> vecAt O rhs1 r = vecAt O rhs2 r) ->
      exists x1 x2, solveInPlace O b (L1, D1) rhs1 = Ok x1 /\ solveInPlace O b (L2, D2) rhs2 = Ok x2 /\
        length x1 = n /\ length x2 = n /\
        forall r, r < n -> V r -> vecAt O x1 r = vecAt O x2 r.
  Proof.
    intros HS HP HB HV mt reg1 reg2 a1 vals1 m1 a2 vals2 m2 L01 D01 L02 D02 HA1 HI1 HC1 HA2 HI2 HC2 AE RE N1 N2 N3 N4.
    destruct (single_bundle s n p b HS HP HB mt reg1 a1 vals1 m1 L01 D01 HA1 HI1 HC1 N1 N2)
      as (L1 & D1 & S1 & EF1 & NL1 & ND1 & C1).
    destruct (single_bundle s n p b HS HP HB mt reg2 a2 vals2 m2 L02 D02 HA2 HI2 HC2 N3 N4)
      as (L2 & D2 & S2 & EF2 & NL2 & ND2 & C2).
    exists L1, D1, L2, D2. split; auto. split; auto.
    pose proof (blk_good s n p b HS HP HB) as G. pose proof (blk_low s n p) as Low.
    pose proof (validPerm_isPerm _ _ HP) as IP.
    assert (PB : forall i, i < n -> nth i p 0 < n) by (intros; eapply isPerm_lt; eauto).
    assert (RW := single_row s n p b HS HP HB). assert (CW := single_col s n p b HS HP HB).
    assert (FV : forall i j, Fill (permLow (entries s) n p) i j -> (V (nth i p 0) <-> V (nth j p 0))).
    { intros i j H. induction H as [i j H L|i j k H1 IH1 H2 IH2 _ _]; [|tauto].
      pose proof H as (_ & Hi & _). apply permLow_coupled in H; auto.
      split; apply HV; auto. apply coupled_sym; auto. }
    set (P := fun i => i < n /\ V (nth i p 0)).
    assert (RI : forall g h, In g (seq 0 n) -> In h (cols (b_sp b) g) -> In h (seq 0 n)).
    { intros g h Hg Hh. apply RW, Fill_bound in Hh. apply in_seq. lia. }
    assert (RK : forall g h, In g (seq 0 n) -> In h (cols (b_sp b) g) -> h < g).
    { intros g h Hg Hh. apply RW, Fill_bound in Hh. lia. }
    assert (LO : local Nat.eq_dec Nat.eq_dec (seq 0 n) (seq 0 n) (cols (b_sp b)) (cols (b_sp b)) (fun g => g)
      (fun dg _ _ => kernForm mt dg) (fun dg _ _ => kernForm mt dg)
      (fun i j => symAt O (entries a1) vals1 (nth i p 0) (nth j p 0)) reg1
      (fun i j => symAt O (entries a2) vals2 (nth i p 0) (nth j p 0)) reg2
      (fun g h => P g /\ In h (cols (b_sp b) g)) P).
    { apply closed_local.
      - intros g [H _]. apply in_seq. lia.
      - intros g h [H1 H2] Hh. apply RW in Hh. pose proof (Fill_bound _ _ _ _ _ Hh).
        split; [lia|]. apply (FV g h); auto.
      - intros g h [H1 H2] [H3 H4]. apply AE; auto.
      - intros g v [H1 H2]. apply RE; auto. }
    assert (LD := local_D O Nat.eq_dec Nat.eq_dec _ _ _ _ _ (fun i => i) _ _ _ _ _ _ _ _ _ _ _ _ C1 C2 RK _ _ LO).
    assert (LL := local_L O Nat.eq_dec Nat.eq_dec _ _ _ _ _ (fun i => i) _ _ _ _ _ _ _ _ _ _ _ _ C1 C2 RK _ _ LO).
    split; [intros i Hi Hv; apply (LD i); split; auto|]. split.
    { intros i j Hi Hv. rewrite <- !(getL_dense O) by auto.
      destruct (in_dec Nat.eq_dec j (cols (b_sp b) i)) as [H|H].
      - apply (LL i j). split; auto. split; auto.
      - rewrite cols_In in H. rewrite !(getL_out O) by auto. reflexivity. }
    intros rhs1 rhs2 NR1 NR2 RE2.
    destruct (single_solve_eqs O b n _ p L1 D1 rhs1 G Low NL1 ND1 NR1) as (y1 & z1 & x1 & E1 & Nx1 & FE1 & DE1 & BE1).
    destruct (single_solve_eqs O b n _ p L2 D2 rhs2 G Low NL2 ND2 NR2) as (y2 & z2 & x2 & E2 & Nx2 & FE2 & DE2 & BE2).
    exists x1, x2. do 4 (split; [assumption|]). intros r Hr Hv.
    destruct (isPerm_surj n p r IP Hr) as (i & Hi & <-).
    change (vat O p x1 i = vat O p x2 i).
    apply (local_solve O Nat.eq_dec Nat.eq_dec _ _ _ _ (fun g => g) (fun i => i) _ _ _ _ _ _ _ _ _ _ _ _ C1 C2 RK _ _ LO
      (rowsOf (b_sp b) n) (rowsOf (b_sp b) n)) with (b1 := vat O p rhs1) (b2 := vat O p rhs2) (y1 := y1) (y2 := y2)
      (z1 := z1) (z2 := z2) (top := n); auto.
    - eapply single_cols; eauto.
    - intros. symmetry. apply map_id.
    - intros g k [H1 H2] Hk. apply CW in Hk. pose proof (Fill_bound _ _ _ _ _ Hk).
      split; [lia|]. apply (FV k g); auto.
    - intros g [H1 H2]. apply RE2; auto.
    - intros g Hg. apply in_seq in Hg. lia.
    - split; auto.
  Qed.

  (** ** a system whose factor is a part of the factor of a larger system *)
  Section Embed.
    Variables (s1 s2 : sparsity) (n1 n2 : nat) (p1 p2 : perm) (b1 b2 : blk) (f : nat -> nat).
    Hypothesis HS1 : spOf s1 n1 n1.
    Hypothesis HP1 : validPerm n1 p1.
    Hypothesis HB1 : factorizationBlk s1 p1 = Ok b1.
    Hypothesis HS2 : spOf s2 n2 n2.
    Hypothesis HP2 : validPerm n2 p2.
    Hypothesis HB2 : factorizationBlk s2 p2 = Ok b2.
    Local Notation F1 := (Fill (permLow (entries s1) n1 p1)).
    Local Notation F2 := (Fill (permLow (entries s2) n2 p2)).
    Hypothesis FB : forall i, i < n1 -> f i < n2.
    Hypothesis FM : forall i j, i < j -> j < n1 -> f i < f j.
    Hypothesis FQ : forall i j, j < i -> i < n1 ->
      (permLow (entries s1) n1 p1 i j <-> permLow (entries s2) n2 p2 (f i) (f j)).
    Hypothesis FC : forall i k, i < n1 -> F2 (f i) k -> exists j, j < n1 /\ k = f j.

    Lemma f_inj i j : i < n1 -> j < n1 -> f i = f j -> i = j.
    Proof.
      intros Hi Hj E. destruct (Nat.lt_trichotomy i j) as [H|[H|H]]; auto.
      - apply FM in H; auto. lia.
      - apply FM in H; auto. lia.
    Qed.
    Lemma f_lt i j : i < n1 -> j < n1 -> f i < f j -> i < j.
    Proof.
      intros Hi Hj H. destruct (Nat.lt_trichotomy i j) as [L|[L|L]]; auto.
      - subst. lia.
      - apply FM in L; auto. lia.
    Qed.

    Lemma fill_to i j : F1 i j -> F2 (f i) (f j).
    Proof.
      intros H. induction H as [i j H L|i j k H1 IH1 H2 IH2 L1 L2].
      - pose proof H as (_ & Hi & _). apply Fill_base; [apply FQ; auto|apply FM; auto].
      - pose proof (Fill_bound _ _ _ _ _ H1). apply Fill_elim with (f k); auto; apply FM; lia.
    Qed.
    Lemma fill_from a b : F2 a b -> forall i j, i < n1 -> j < n1 -> a = f i -> b = f j -> F1 i j.
    Proof.
      intros H. induction H as [a b H L|a b c H1 IH1 H2 IH2 L1 L2]; intros i j Hi Hj -> ->.
      - apply f_lt in L; auto. apply Fill_base; auto. apply FQ; auto.
      - destruct (FC i c Hi H1) as (k & Hk & ->).
        apply Fill_elim with k; auto; apply f_lt; auto.
    Qed.
    Lemma fill_iff i j : i < n1 -> j < n1 -> (F1 i j <-> F2 (f i) (f j)).
    Proof. intros Hi Hj. split; [apply fill_to|]. intros H. eapply fill_from; eauto. Qed.

    Lemma embed_row i : i < n1 -> cols (b_sp b2) (f i) = map f (cols (b_sp b1) i).
    Proof.
      intros Hi. pose proof (single_row s1 n1 p1 b1 HS1 HP1 HB1) as R1.
      pose proof (single_row s2 n2 p2 b2 HS2 HP2 HB2) as R2.
      apply (sorted_same lt Nat.lt_irrefl Nat.lt_trans).
      - pose proof (blk_good s2 n2 p2 b2 HS2 HP2 HB2) as G. apply cols_sorted. split; [apply (gb_wf _ _ _ _ _ _ _ G)|apply (gb_sorted _ _ _ _ _ _ _ G)].
      - apply (map_sorted lt).
        + intros a b Ha Hb L. apply FM; auto. apply R1, Fill_bound in Hb. lia.
        + pose proof (blk_good s1 n1 p1 b1 HS1 HP1 HB1) as G. apply cols_sorted. split; [apply (gb_wf _ _ _ _ _ _ _ G)|apply (gb_sorted _ _ _ _ _ _ _ G)].
      - intros x. rewrite R2, in_map_iff. split.
        + intros H. destruct (FC i x Hi H) as (j & Hj & ->). exists j. split; auto.
          apply R1, fill_iff; auto.
        + intros (j & <- & H). apply R1 in H. apply fill_to; auto.
    Qed.

    Lemma embed_common i j : i < n1 -> j < n1 ->
      common Nat.eq_dec (cols (b_sp b2)) (f i) (f j) = map f (common Nat.eq_dec (cols (b_sp b1)) i j).
    Proof.
      intros Hi Hj. unfold common. rewrite (embed_row i Hi), filter_map'.
      f_equal. apply filter_ext_in. intros k Hk.
      pose proof (single_row s1 n1 p1 b1 HS1 HP1 HB1) as R1.
      assert (Hk' : k < n1) by (apply R1, Fill_bound in Hk; lia).
      apply eq_true_iff_eq. rewrite !memI_In, (embed_row j Hj), in_map_iff. split.
      - intros (k' & E & H). assert (k' < n1) by (apply R1, Fill_bound in H; lia).
        apply f_inj in E; auto. subst. auto.
      - intros H. eauto.
    Qed.

    Lemma single_embed mt reg1 reg2 a1 vals1 m1 a2 vals2 m2 L01 D01 L02 D02 :
      spOf a1 n1 n1 -> inputOf O m1 a1 vals1 -> coveredSym (entries a1) (entries s1) n1 p1 ->
      spOf a2 n2 n2 -> inputOf O m2 a2 vals2 -> coveredSym (entries a2) (entries s2) n2 p2 ->
      (forall i j, i < n1 -> j < n1 ->
         symAt O (entries a1) vals1 (nth i p1 0) (nth j p1 0) =
         symAt O (entries a2) vals2 (nth (f i) p2 0) (nth (f j) p2 0)) ->
      (forall i v, i < n1 -> reg1 v i = reg2 v (f i)) ->
      length L01 = c_nnz (b_sp b1) -> length D01 = n1 ->
      length L02 = c_nnz (b_sp b2) -> length D02 = n2 ->
      exists L1 D1 L2 D2,
        factorize O mt b1 (Some m1) reg1 (L01, D01) = Ok (L1, D1) /\
        factorize O mt b2 (Some m2) reg2 (L02, D02) = Ok (L2, D2) /\
        (forall i, i < n1 -> vecAt O D1 i = vecAt O D2 (f i)) /\
        (forall i j, i < n1 -> j < n1 ->
           denseAt O (c_entries (b_sp b1)) L1 i j = denseAt O (c_entries (b_sp b2)) L2 (f i) (f j)) /\
        ((forall i k, i < n1 -> F2 k (f i) -> exists j, j < n1 /\ k = f j) ->
         forall rhs1 rhs2, length rhs1 = n1 -> length rhs2 = n2 ->
         (forall i, i < n1 -> vecAt O rhs1 (nth i p1 0) = vecAt O rhs2 (nth (f i) p2 0)) ->
         exists x1 x2, solveInPlace O b1 (L1, D1) rhs1 = Ok x1 /\ solveInPlace O b2 (L2, D2) rhs2 = Ok x2 /\
           length x1 = n1 /\ length x2 = n2 /\
           forall i, i < n1 -> vecAt O x1 (nth i p1 0) = vecAt O x2 (nth (f i) p2 0)).
    Proof.
      intros HA1 HI1 HC1 HA2 HI2 HC2 AE RE N1 N2 N3 N4.
      destruct (single_bundle s1 n1 p1 b1 HS1 HP1 HB1 mt reg1 a1 vals1 m1 L01 D01 HA1 HI1 HC1 N1 N2)
        as (L1 & D1 & S1 & EF1 & NL1 & ND1 & C1).
      destruct (single_bundle s2 n2 p2 b2 HS2 HP2 HB2 mt reg2 a2 vals2 m2 L02 D02 HA2 HI2 HC2 N3 N4)
        as (L2 & D2 & S2 & EF2 & NL2 & ND2 & C2).
      exists L1, D1, L2, D2. split; auto. split; auto.
      pose proof (blk_good s1 n1 p1 b1 HS1 HP1 HB1) as G1. pose proof (blk_low s1 n1 p1) as Low1.
      pose proof (blk_good s2 n2 p2 b2 HS2 HP2 HB2) as G2. pose proof (blk_low s2 n2 p2) as Low2.
      pose proof (single_row s1 n1 p1 b1 HS1 HP1 HB1) as R1.
      pose proof (single_row s2 n2 p2 b2 HS2 HP2 HB2) as R2.
      assert (RK : forall g h, In g (seq 0 n1) -> In h (cols (b_sp b1) g) -> h < g).
      { intros g h Hg Hh. apply R1, Fill_bound in Hh. lia. }
      assert (BD : forall g h, In h (cols (b_sp b1) g) -> g < n1 /\ h < n1).
      { intros g h Hh. apply R1, Fill_bound in Hh. lia. }
      assert (LO : local Nat.eq_dec Nat.eq_dec (seq 0 n1) (seq 0 n2) (cols (b_sp b1)) (cols (b_sp b2)) f
        (fun dg _ _ => kernForm mt dg) (fun dg _ _ => kernForm mt dg)
        (fun i j => symAt O (entries a1) vals1 (nth i p1 0) (nth j p1 0)) reg1
        (fun i j => symAt O (entries a2) vals2 (nth i p2 0) (nth j p2 0)) reg2
        (fun g h => In h (cols (b_sp b1) g)) (fun g => g < n1)).
      { constructor.
        - intros g h H. pose proof (BD g h H) as [X Y]. rewrite !in_seq. pose proof (FB g X).
          repeat split; auto; try lia. rewrite (embed_row g X). apply in_map. auto.
        - intros g h H. pose proof (BD g h H) as [X Y]. apply embed_common; auto.
        - intros g h k H Hk. apply common_In in Hk. destruct Hk as [K1 K2]. pose proof (BD g k K1). tauto.
        - intros g h H. apply (BD g h H).
        - intros g h H. pose proof (BD g h H) as [X Y]. apply AE; auto.
        - intros g H. rewrite !in_seq. pose proof (FB g H). lia.
        - intros g H. apply embed_row; auto.
        - auto.
        - intros g H. apply AE; auto.
        - intros g v H. apply RE; auto. }
      assert (LD := local_D O Nat.eq_dec Nat.eq_dec _ _ _ _ f (fun i => i) _ _ _ _ _ _ _ _ _ _ _ _ C1 C2 RK _ _ LO).
      assert (LL := local_L O Nat.eq_dec Nat.eq_dec _ _ _ _ f (fun i => i) _ _ _ _ _ _ _ _ _ _ _ _ C1 C2 RK _ _ LO).
      split; [intros i Hi; apply (LD i); auto|]. split.
      { intros i j Hi Hj. rewrite <- !(getL_dense O) by auto.
        destruct (in_dec Nat.eq_dec j (cols (b_sp b1) i)) as [H|H].
        - apply (LL i j). auto.
        - rewrite !(getL_out O); auto.
          + rewrite <- cols_In, R2. rewrite <- fill_iff by auto. rewrite <- R1. auto.
          + rewrite <- cols_In. auto. }
      intros CC rhs1 rhs2 NR1 NR2 RE2.
      destruct (single_solve_eqs O b1 n1 _ p1 L1 D1 rhs1 G1 Low1 NL1 ND1 NR1) as (y1 & z1 & x1 & E1 & Nx1 & FE1 & DE1 & BE1).
      destruct (single_solve_eqs O b2 n2 _ p2 L2 D2 rhs2 G2 Low2 NL2 ND2 NR2) as (y2 & z2 & x2 & E2 & Nx2 & FE2 & DE2 & BE2).
      exists x1, x2. do 4 (split; [assumption|]). intros i Hi.
      change (vat O p1 x1 i = vat O p2 x2 (f i)).
      apply (local_solve O Nat.eq_dec Nat.eq_dec _ _ _ _ f (fun i => i) _ _ _ _ _ _ _ _ _ _ _ _ C1 C2 RK _ _ LO
        (rowsOf (b_sp b1) n1) (rowsOf (b_sp b2) n2)) with (b1 := vat O p1 rhs1) (b2 := vat O p2 rhs2) (y1 := y1) (y2 := y2)
        (z1 := z1) (z2 := z2) (top := n1); auto.
      - eapply single_cols; eauto.
      - intros g Hg. apply (sorted_same gt).
        + intros; lia.
        + intros; lia.
        + apply filter_StronglySorted, rev_seq_sorted.
        + apply (map_sorted gt).
          * intros a b Ha Hb L. apply FM; auto.
            apply (single_col s1 n1 p1 b1 HS1 HP1 HB1), Fill_bound in Ha. lia.
          * apply filter_StronglySorted, rev_seq_sorted.
        + intros x. rewrite (single_col s2 n2 p2 b2 HS2 HP2 HB2), in_map_iff. split.
          * intros H. destruct (CC g x Hg H) as (j & Hj & ->). exists j. split; auto.
            apply (single_col s1 n1 p1 b1 HS1 HP1 HB1), fill_iff; auto.
          * intros (j & <- & H). apply (single_col s1 n1 p1 b1 HS1 HP1 HB1) in H. apply fill_to; auto.
      - intros g k Hg Hk. apply (single_col s1 n1 p1 b1 HS1 HP1 HB1), Fill_bound in Hk. lia.
      - intros g Hg. apply in_seq in Hg. lia.
    Qed.
  End Embed.

  (** ** the leading part *)
  Lemma single_leading s1 s2 n1 n2 p1 p2 b1 b2 :
    spOf s1 n1 n1 -> validPerm n1 p1 -> factorizationBlk s1 p1 = Ok b1 ->
    spOf s2 n2 n2 -> validPerm n2 p2 -> factorizationBlk s2 p2 = Ok b2 ->
    n1 <= n2 ->
    (forall i j, j < i -> i < n1 ->
       coupled (entries s1) (nth i p1 0) (nth j p1 0) <-> coupled (entries s2) (nth i p2 0) (nth j p2 0)) ->
    forall mt reg1 reg2 a1 vals1 m1 a2 vals2 m2 L01 D01 L02 D02,
    spOf a1 n1 n1 -> inputOf O m1 a1 vals1 -> coveredSym (entries a1) (entries s1) n1 p1 ->
    spOf a2 n2 n2 -> inputOf O m2 a2 vals2 -> coveredSym (entries a2) (entries s2) n2 p2 ->
    (forall i j, i < n1 -> j < n1 ->
       symAt O (entries a1) vals1 (nth i p1 0) (nth j p1 0) =
       symAt O (entries a2) vals2 (nth i p2 0) (nth j p2 0)) ->
    (forall i v, i < n1 -> reg1 v i = reg2 v i) ->
    length L01 = c_nnz (b_sp b1) -> length D01 = n1 ->
    length L02 = c_nnz (b_sp b2) -> length D02 = n2 ->
    exists L1 D1 L2 D2,
      factorize O mt b1 (Some m1) reg1 (L01, D01) = Ok (L1, D1) /\
      factorize O mt b2 (Some m2) reg2 (L02, D02) = Ok (L2, D2) /\
      (forall i, i < n1 -> vecAt O D1 i = vecAt O D2 i) /\
      (forall i j, i < n1 -> j < n1 ->
         denseAt O (c_entries (b_sp b1)) L1 i j = denseAt O (c_entries (b_sp b2)) L2 i j).
  Proof.
    intros HS1 HP1 HB1 HS2 HP2 HB2 LE HQ mt reg1 reg2 a1 vals1 m1 a2 vals2 m2 L01 D01 L02 D02
      HA1 HI1 HC1 HA2 HI2 HC2 AE RE N1 N2 N3 N4.
    destruct (single_embed s1 s2 n1 n2 p1 p2 b1 b2 (fun i => i) HS1 HP1 HB1 HS2 HP2 HB2) with
      (mt := mt) (reg1 := reg1) (reg2 := reg2) (a1 := a1) (vals1 := vals1) (m1 := m1) (a2 := a2) (vals2 := vals2) (m2 := m2)
      (L01 := L01) (D01 := D01) (L02 := L02) (D02 := D02) as (L1 & D1 & L2 & D2 & EF1 & EF2 & X1 & X2 & _); auto.
    - intros; lia.
    - intros i j Hj Hi. rewrite !permLow_coupled by (auto; lia). auto.
    - intros i k Hi H. apply Fill_bound in H. exists k. split; auto. lia.
    - exists L1, D1, L2, D2. auto.
  Qed.

  (** ** a system that is a part of a larger one without being coupled to the rest *)
  Lemma single_alone s1 s2 n1 n2 p1 p2 b1 b2 (f pos : nat -> nat) :
    spOf s1 n1 n1 -> validPerm n1 p1 -> factorizationBlk s1 p1 = Ok b1 ->
    spOf s2 n2 n2 -> validPerm n2 p2 -> factorizationBlk s2 p2 = Ok b2 ->
    (forall i, i < n1 -> pos i < n2 /\ nth (pos i) p2 0 = f (nth i p1 0)) ->
    (forall i j, i < j -> j < n1 -> pos i < pos j) ->
    (forall r c, r < n1 -> c < n1 -> coupled (entries s1) r c <-> coupled (entries s2) (f r) (f c)) ->
    (forall r c, r < n1 -> c < n2 -> coupled (entries s2) (f r) c -> exists c', c' < n1 /\ c = f c') ->
    forall mt reg1 reg2 a1 vals1 m1 a2 vals2 m2 L01 D01 L02 D02,
    spOf a1 n1 n1 -> inputOf O m1 a1 vals1 -> coveredSym (entries a1) (entries s1) n1 p1 ->
    spOf a2 n2 n2 -> inputOf O m2 a2 vals2 -> coveredSym (entries a2) (entries s2) n2 p2 ->
    (forall r c, r < n1 -> c < n1 ->
       symAt O (entries a1) vals1 r c = symAt O (entries a2) vals2 (f r) (f c)) ->
    (forall i v, i < n1 -> reg1 v i = reg2 v (pos i)) ->
    length L01 = c_nnz (b_sp b1) -> length D01 = n1 ->
    length L02 = c_nnz (b_sp b2) -> length D02 = n2 ->
    exists L1 D1 L2 D2,
      factorize O mt b1 (Some m1) reg1 (L01, D01) = Ok (L1, D1) /\
      factorize O mt b2 (Some m2) reg2 (L02, D02) = Ok (L2, D2) /\
      (forall i, i < n1 -> vecAt O D1 i = vecAt O D2 (pos i)) /\
      (forall i j, i < n1 -> j < n1 ->
         denseAt O (c_entries (b_sp b1)) L1 i j = denseAt O (c_entries (b_sp b2)) L2 (pos i) (pos j)) /\
      forall rhs1 rhs2, length rhs1 = n1 -> length rhs2 = n2 ->
      (forall r, r < n1 -> vecAt O rhs1 r = vecAt O rhs2 (f r)) ->
      exists x1 x2, solveInPlace O b1 (L1, D1) rhs1 = Ok x1 /\ solveInPlace O b2 (L2, D2) rhs2 = Ok x2 /\
        length x1 = n1 /\ length x2 = n2 /\
        forall r, r < n1 -> vecAt O x1 r = vecAt O x2 (f r).
  Proof.
    intros HS1 HP1 HB1 HS2 HP2 HB2 FP FM FQ FC mt reg1 reg2 a1 vals1 m1 a2 vals2 m2 L01 D01 L02 D02
      HA1 HI1 HC1 HA2 HI2 HC2 AE RE N1 N2 N3 N4.
    pose proof (validPerm_isPerm _ _ HP1) as IP1. pose proof (validPerm_isPerm _ _ HP2) as IP2.
    assert (PB1 : forall i, i < n1 -> nth i p1 0 < n1) by (intros; eapply isPerm_lt; eauto).
    assert (PB2 : forall i, i < n2 -> nth i p2 0 < n2) by (intros; eapply isPerm_lt; eauto).
    assert (CI : forall i k, i < n1 -> k < n2 -> coupled (entries s2) (nth (pos i) p2 0) (nth k p2 0) ->
      exists j, j < n1 /\ k = pos j).
    { intros i k Hi Hk H. rewrite (proj2 (FP i Hi)) in H.
      destruct (FC _ _ (PB1 i Hi) (PB2 k Hk) H) as (c' & Hc & E).
      destruct (isPerm_surj n1 p1 c' IP1 Hc) as (j & Hj & <-). exists j. split; auto.
      destruct (FP j Hj) as [X1 X2]. apply (isPerm_inj n2 p2); auto. rewrite X2. auto. }
    assert (FI : forall a b, Fill (permLow (entries s2) n2 p2) a b ->
      (exists i, i < n1 /\ a = pos i) <-> (exists j, j < n1 /\ b = pos j)).
    { intros a b H. induction H as [a b H L|a b c H1 IH1 H2 IH2 _ _]; [|tauto].
      pose proof H as (_ & Ha & _). apply permLow_coupled in H; auto. split.
      - intros (i & Hi & ->). apply (CI i b); auto. lia.
      - intros (j & Hj & ->). apply (CI j a); auto. apply coupled_sym. auto. }
    destruct (single_embed s1 s2 n1 n2 p1 p2 b1 b2 pos HS1 HP1 HB1 HS2 HP2 HB2) with
      (mt := mt) (reg1 := reg1) (reg2 := reg2) (a1 := a1) (vals1 := vals1) (m1 := m1) (a2 := a2) (vals2 := vals2) (m2 := m2)
      (L01 := L01) (D01 := D01) (L02 := L02) (D02 := D02) as (L1 & D1 & L2 & D2 & EF1 & EF2 & X1 & X2 & X3); auto.
    - intros i Hi. apply FP; auto.
    - intros i j Hj Hi. destruct (FP i Hi) as [Y1 Y2]. destruct (FP j ltac:(lia)) as [Y3 Y4].
      rewrite !permLow_coupled by (auto; try lia; apply FM; auto). rewrite Y2, Y4. apply FQ; apply PB1; lia.
    - intros i k Hi H. apply (FI (pos i) k H). eauto.
    - intros i j Hi Hj. rewrite (proj2 (FP i Hi)), (proj2 (FP j Hj)). apply AE; auto.
    - exists L1, D1, L2, D2. do 4 (split; [assumption|]). intros rhs1 rhs2 NR1 NR2 RR.
      destruct X3 with (rhs1 := rhs1) (rhs2 := rhs2) as (x1 & x2 & E1 & E2 & M1 & M2 & HX); auto.
      + intros i k Hi H. apply (FI k (pos i) H). eauto.
      + intros i Hi. rewrite (proj2 (FP i Hi)). apply RR; auto.
      + exists x1, x2. do 4 (split; [assumption|]). intros r Hr.
        destruct (isPerm_surj n1 p1 r IP1 Hr) as (i & Hi & <-). rewrite (HX i Hi).
        rewrite (proj2 (FP i Hi)). reflexivity.
  Qed.
End Run.
