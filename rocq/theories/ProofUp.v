(** The up-looking kernels satisfy a system of row equations. No algebraic laws
    are used. *)
From Coq Require Import List Arith Lia Bool.
From Verif Require Import Base ModelPerm ModelSparsity ModelSymbolic ModelNumeric.
From Verif Require Import SpecSymbolic SpecArrow.
From Verif Require Import ProofBase ProofPerm ProofCsr ProofSparsity ProofFill ProofFill3
  ProofArrowSym ProofDense ProofUpRow.
Import ListNotations.

Lemma goodBlk_gcsr b nr nc R prow pcol sym : goodBlk b nr nc R prow pcol sym -> gcsr (b_sp b).
Proof. intros G. split; [eapply gb_wf|eapply gb_sorted]; eauto. Qed.

Section Up.
  Context {F : Type} (O : ops F).
  Local Notation get := (getL O).
  Local Notation "a - b" := (osub O a b) : scalar.
  Local Notation "a * b" := (omul O a b) : scalar.
  Local Notation "a / b" := (odiv O a b) : scalar.

  (** ** input matrices *)

  Definition readable (m : mat (F:=F)) : Prop :=
    forall k, k < nnz (m_sp m) -> exists v, m_val m k = Ok v.

  Definition matVal (m : mat (F:=F)) (e : nat * nat) : F :=
    match findEntryIndex (entries (m_sp m)) e with
    | Some k => match m_val m k with Ok v => v | Err _ => o0 O end
    | None => o0 O
    end.

  Lemma getMatrixValueAt_ok m e : readable m -> getMatrixValueAt O m e = Ok (matVal m e).
  Proof.
    intros H. unfold getMatrixValueAt, matVal.
    destruct (findEntryIndex (entries (m_sp m)) e) as [k|] eqn:E; auto.
    apply findEntryIndex_Some in E. destruct E as [E _].
    destruct (H k) as (v & Ev).
    - apply nth_error_Some. congruence.
    - rewrite Ev. auto.
  Qed.

  Lemma matVal_out m e : ~ In e (entries (m_sp m)) -> matVal m e = o0 O.
  Proof. intros H. unfold matVal. apply findEntryIndex_None in H. rewrite H. auto. Qed.

  Definition origP (b : blk) (i j : nat) : nat * nat :=
    if b_sym b
    then (Nat.max (nth i (b_prow b) 0) (nth j (b_prow b) 0),
          Nat.min (nth i (b_prow b) 0) (nth j (b_prow b) 0))
    else (nth i (b_prow b) 0, nth j (b_pcol b) 0).

  Definition initL (ini : init) (b : blk) (L : list F) (i j : nat) : F :=
    match ini with
    | None => get (b_sp b) L i j
    | Some m => matVal m (origP b i j)
    end.

  Definition initD (ini : init) (b : blk) (D : list F) (i : nat) : F :=
    match ini with
    | None => getD O D i
    | Some m => matVal m (nth i (b_prow b) 0, nth i (b_prow b) 0)
    end.

  Definition readableI (ini : init (F:=F)) : Prop :=
    match ini with None => True | Some m => readable m end.

  Lemma origEntry_ok b nr nc R prow pcol sym i j :
    goodBlk b nr nc R prow pcol sym -> (sym = true -> nr = nc /\ prow = pcol) ->
    i < nr -> j < nc -> origEntry b (i, j) = Ok (origP b i j).
  Proof.
    intros G Hs Hi Hj. unfold origEntry, origP.
    pose proof (gb_p1 _ _ _ _ _ _ _ G) as P1. pose proof (gb_p2 _ _ _ _ _ _ _ G) as P2.
    rewrite (gb_sym _ _ _ _ _ _ _ G), (gb_prow _ _ _ _ _ _ _ G), (gb_pcol _ _ _ _ _ _ _ G).
    destruct sym.
    - destruct Hs as [-> ->]; auto. apply (permutedEntryLT_ok nc); auto.
    - apply (permutedEntry_ok nr nc); auto.
  Qed.

  Lemma fillRow_ok m b nr nc R prow pcol sym L i :
    goodBlk b nr nc R prow pcol sym -> (sym = true -> nr = nc /\ prow = pcol) ->
    readable m -> i < nr -> length L = c_nnz (b_sp b) ->
    exists L', fillRowWithOriginalMatrixValues O m b L i = Ok L' /\
      length L' = length L /\
      (forall r j, In (r, j) (c_entries (b_sp b)) ->
         get (b_sp b) L' r j = if r =? i then matVal m (origP b r j) else get (b_sp b) L r j).
  Proof.
    intros G Hs Hm Hi HL. pose proof (goodBlk_gcsr _ _ _ _ _ _ _ G) as GC.
    pose proof (proj1 GC) as W. pose proof (gb_rows _ _ _ _ _ _ _ G) as Hr.
    pose proof (gb_cols _ _ _ _ _ _ _ G) as Hc.
    unfold fillRowWithOriginalMatrixValues.
    rewrite !(wf_rd_rb _ W) by lia. cbn [bind].
    set (f := fun L k => _).
    destruct (row_fold (b_sp b) f (fun pre A => length A = length L /\
       (forall r j, In (r, j) (c_entries (b_sp b)) ->
          get (b_sp b) A r j = if (r =? i) && existsb (Nat.eqb j) pre
            then matVal m (origP b r j) else get (b_sp b) L r j)) i L GC) as (L' & E & H1 & H2).
    - lia.
    - split; auto. intros r j _. cbn [existsb]. rewrite andb_false_r. auto.
    - intros pre c post k A Ec Ek Hcc Hpre Hpost (H1 & H2). unfold f.
      rewrite (proj2 (rd_ok _ _ _) Ek). cbn [bind].
      rewrite (origEntry_ok _ _ _ _ _ _ _ _ _ G Hs) by lia. cbn [bind].
      rewrite getMatrixValueAt_ok by auto. cbn [bind].
      assert (Hk : k < length A).
      { rewrite H1, HL. eapply nth_error_nnz; eauto. }
      rewrite wr_ok by auto. eexists. split; [reflexivity|].
      rewrite upd_length. split; auto. intros r j Hin.
      rewrite (getL_upd O _ _ i c) by (auto; lia).
      rewrite existsb_app. cbn [existsb]. rewrite orb_false_r, H2 by auto.
      destruct (Nat.eqb_spec r i) as [->|]; cbn [andb]; auto.
      destruct (Nat.eqb_spec j c) as [->|]; cbn [andb].
      + rewrite orb_true_r. auto.
      + rewrite orb_false_r. auto.
    - exists L'. split; auto. split; auto. intros r j Hin. rewrite H2 by auto.
      destruct (Nat.eqb_spec r i) as [->|]; cbn [andb]; auto.
      replace (existsb (Nat.eqb j) (cols (b_sp b) i)) with true; auto.
      symmetry. apply existsb_exists. exists j. split; [apply cols_In; auto|apply Nat.eqb_refl].
  Qed.

  Lemma initRow_ok ini b nr nc R prow pcol sym L i :
    goodBlk b nr nc R prow pcol sym -> (sym = true -> nr = nc /\ prow = pcol) ->
    readableI ini -> i < nr -> length L = c_nnz (b_sp b) ->
    exists L', initializeFactorRow O ini b L i = Ok L' /\
      length L' = length L /\
      (forall j, In (i, j) (c_entries (b_sp b)) ->
         get (b_sp b) L' i j = initL ini b L i j) /\
      (forall r j, r <> i -> get (b_sp b) L' r j = get (b_sp b) L r j).
  Proof.
    intros G Hs Hm Hi HL. destruct ini as [m|]; cbn [initializeFactorRow initL].
    - destruct (fillRow_ok m b nr nc R prow pcol sym L i G Hs Hm Hi HL) as (L' & E & H1 & H2).
      exists L'. split; auto. split; auto. split.
      + intros j Hin. rewrite H2, Nat.eqb_refl; auto.
      + apply get_other. intros r j Hin N. rewrite H2 by auto.
        destruct (Nat.eqb_spec r i); [lia|auto].
    - exists L. auto.
  Qed.

  Lemma initD_ok ini b n R p sym D i :
    goodBlk b n n R p p sym -> readableI ini -> i < n -> n <= length D ->
    getInitialFactorValueD O ini b D i = Ok (initD ini b D i).
  Proof.
    intros G Hm Hi HD. destruct ini as [m|]; cbn [getInitialFactorValueD initD].
    - unfold origRowIndex. rewrite (gb_prow _ _ _ _ _ _ _ G).
      rewrite (isPerm_rd n) by (auto; eapply gb_p1; eauto). cbn [bind].
      apply getMatrixValueAt_ok; auto.
    - apply rd_nth. lia.
  Qed.

  (** ** static assertions *)

  Definition coverSym (ini : init (F:=F)) (n : nat) (R : pattern) (p : perm) : Prop :=
    match ini with
    | None => True
    | Some m => spOf (m_sp m) n n /\
        forall i j, permLow (entries (m_sp m)) n p i j -> R i j
    end.

  Definition coverRect (ini : init (F:=F)) (nr nc : nat) (R : pattern) (prow pcol : perm) : Prop :=
    match ini with
    | None => True
    | Some m => spOf (m_sp m) nr nc /\
        forall i j, permRect (entries (m_sp m)) nr nc prow pcol i j -> R i j
    end.

  Lemma staticAsserts_ok b11 b21 b22 n1 n2 R11 R21 R22 q1 p1 p2 sy1 init21 init22 :
    goodBlk b11 n1 n1 R11 q1 q1 sy1 -> goodBlk b21 n2 n1 R21 p2 p1 false ->
    goodBlk b22 n2 n2 R22 p2 p2 true ->
    (forall i j, R11 i j -> j < i) -> closedPattern R11 -> chord2 R11 R21 R22 ->
    coverRect init21 n2 n1 R21 p2 p1 -> coverSym init22 n2 R22 p2 ->
    factorizeStaticAsserts b11 b21 b22 init21 init22 = Ok tt.
  Proof.
    intros G11 G21 G22 Low11 Cl11 [C21 C22 Low22 Cl22] V21 V22.
    pose proof (goodBlk_gcsr _ _ _ _ _ _ _ G11) as GC11.
    pose proof (goodBlk_gcsr _ _ _ _ _ _ _ G21) as GC21.
    pose proof (goodBlk_gcsr _ _ _ _ _ _ _ G22) as GC22.
    pose proof G11 as [W11 _ r11 c11 I11 _ _ _ _ _].
    pose proof G21 as [W21 _ r21 c21 I21 pr21 pc21 _ P21 Q21].
    pose proof G22 as [W22 _ r22 c22 I22 pr22 pc22 _ P22 Q22].
    unfold factorizeStaticAsserts.
    destruct (isChordalBlocked_ok (csp (b_sp b11)) (csp (b_sp b21)) (csp (b_sp b22)) n1 n2)
      as (b & E & Hb); auto using wf_csr_sp.
    { apply (gcsr_NoDup _ GC11). }
    { apply (gcsr_NoDup _ GC21). }
    { apply (gcsr_NoDup _ GC22). }
    assert (b = true) as ->.
    { apply Hb. split; [|split].
      - intros i j H. apply Low11, I11, H.
      - intros i j H. apply Low22, I22, H.
      - unfold entriesPat. intros i j k Hk Hj Q1 Q2.
        destruct Q1 as [Q1|[(i' & Ei & Q1)|(i' & k' & Ei & Ek & Q1)]];
        destruct Q2 as [Q2|[(j' & Ej & Q2)|(j' & k'' & Ej & Ek' & Q2)]].
        + left. apply I11. apply I11 in Q1, Q2. eapply Cl11; eauto.
        + exfalso. apply (wfc_bounds _ W11) in Q1. fold (c_entries (b_sp b11)) in *. lia.
        + exfalso. apply (wfc_bounds _ W11) in Q1. lia.
        + right; left. exists i'. split; auto. apply I21. apply I21 in Q1. apply I11 in Q2.
          eapply C21; eauto.
        + right; right. exists i', j'. split; auto. split; auto. apply I22.
          apply I21 in Q1, Q2. eapply C22; eauto. lia.
        + exfalso. apply (wfc_bounds _ W21) in Q1. lia.
        + exfalso. apply (wfc_bounds _ W11) in Q2. lia.
        + exfalso. apply (wfc_bounds _ W21) in Q2. lia.
        + right; right. exists i', j'. split; auto. split; auto. apply I22.
          apply I22 in Q1, Q2. assert (k'' = k') by lia. subst k''.
          eapply Cl22; [| |exact Q1|exact Q2]; lia. }
    rewrite E. cbn [bind static_assert].
    assert (S22 : isSparsitySubsetLowerTriangle (init_sp init22 b22) (csp (b_sp b22))
                    (b_prow b22) = Ok true).
    { rewrite pr22.
      assert (Hs : wf_sp (init_sp init22 b22) /\ nrows (init_sp init22 b22) = n2 /\
        ncols (init_sp init22 b22) = n2 /\ forall i j,
          permLow (entries (init_sp init22 b22)) n2 p2 i j -> R22 i j).
      { destruct init22 as [m|]; cbn [init_sp].
        - destruct V22 as [V V']. split; [eapply spOf_wf; eauto|]. destruct V. auto.
        - split; [intros i j []|]. cbn. split; auto. split; auto. intros i j (_ & _ & []). }
      destruct Hs as (H1 & H2 & H3 & H4).
      destruct (isSparsitySubsetLowerTriangle_ok (init_sp init22 b22) (csp (b_sp b22)) p2)
        as (b & E' & Hb'); auto using wf_csr_sp; try lia.
      { unfold c_rows in *. lia. }
      { unfold c_cols in *. lia. }
      { rewrite H2. auto. }
      rewrite E'. f_equal. apply Hb'. intros i j Hji Hi Hin. apply I22. apply H4.
      unfold permLow. rewrite H2 in Hi. auto. }
    rewrite S22. cbn [bind static_assert].
    assert (S21 : isSparsitySubset (init_sp init21 b21) (csp (b_sp b21))
                    (Some (b_prow b21)) (Some (b_pcol b21)) = Ok true).
    { rewrite pr21, pc21.
      assert (Hs : wf_sp (init_sp init21 b21) /\ nrows (init_sp init21 b21) = n2 /\
        ncols (init_sp init21 b21) = n1 /\ forall i j,
          permRect (entries (init_sp init21 b21)) n2 n1 p2 p1 i j -> R21 i j).
      { destruct init21 as [m|]; cbn [init_sp].
        - destruct V21 as [V V']. split; [eapply spOf_wf; eauto|]. destruct V. auto.
        - split; [intros i j []|]. cbn. split; auto. split; auto. intros i j (_ & _ & []). }
      destruct Hs as (H1 & H2 & H3 & H4).
      destruct (isSparsitySubset_perm_ok (init_sp init21 b21) (csp (b_sp b21)) (Some p2) (Some p1))
        as (b & E' & Hb'); auto using wf_csr_sp; cbn [value_or]; try lia.
      { unfold c_rows in *. lia. }
      { unfold c_cols in *. lia. }
      { rewrite H2. auto. }
      { rewrite H3. auto. }
      rewrite E'. f_equal. apply Hb'. cbn [value_or]. intros i j Hi Hj Hin. apply I21. apply H4.
      unfold permRect. rewrite H2 in Hi. rewrite H3 in Hj. auto. }
    rewrite S21. cbn [bind static_assert]. reflexivity.
  Qed.

  (** ** the 2 block kernel *)

  Record upRow (c11 c21 c22 : csr) (G11 : nat -> nat -> F) (D1 : nat -> F)
      (a21 a22 : nat -> nat -> F) (ad : nat -> F) (reg : F -> nat -> F) (i : nat)
      (s21 s22 : nat -> F) (G21 G22 : nat -> nat -> F) (D2 : nat -> F) : Prop := mkUpRow {
    ur_s21 : forall j, In j (cols c21 i) ->
      s21 j = subf O (a21 i j) (cols c21 i) (nzb c11 j) (fun k => (G11 j k * s21 k)%s);
    ur_21 : forall j, In j (cols c21 i) -> G21 i j = (s21 j / D1 j)%s;
    ur_s22 : forall j, In j (cols c22 i) ->
      s22 j = subf O (subf O (a22 i j) (cols c21 i) (nzb c21 j) (fun k => (G21 j k * s21 k)%s))
                (cols c22 i) (nzb c22 j) (fun k => (G22 j k * s22 k)%s);
    ur_22 : forall j, In j (cols c22 i) -> G22 i j = (s22 j / D2 j)%s;
    ur_D : D2 i = reg (dfold O (dfold O (ad i) (cols c21 i) s21 D1) (cols c22 i) s22 D2) i }.

  Lemma upRow_ext c11 c21 c22 G11 D1 a21 a22 ad reg i s21 s22 G21 G22 D2 G21' G22' D2' :
    (forall r c, In (r, c) (c_entries c22) -> c < r) ->
    (forall r j, r <= i -> G21 r j = G21' r j) ->
    (forall r j, r <= i -> G22 r j = G22' r j) ->
    (forall r, r <= i -> D2 r = D2' r) ->
    upRow c11 c21 c22 G11 D1 a21 a22 ad reg i s21 s22 G21 G22 D2 ->
    upRow c11 c21 c22 G11 D1 a21 a22 ad reg i s21 s22 G21' G22' D2'.
  Proof.
    intros Low E21 E22 E2 [H1 H2 H3 H4 H5].
    assert (Lt : forall j, In j (cols c22 i) -> j < i) by (intros j Hj; apply cols_In in Hj; auto).
    constructor; auto.
    - intros j Hj. rewrite <- E21; auto.
    - intros j Hj. specialize (Lt j Hj). rewrite (H3 j Hj).
      rewrite (subf_ext O (a22 i j) (cols c21 i) _ _ (nzb c21 j) (fun k => (G21' j k * s21 k)%s));
        auto; [|intros k _ _; rewrite E21; auto; lia].
      apply subf_ext; auto. intros k _ _. rewrite E22; auto. lia.
    - intros j Hj. specialize (Lt j Hj). rewrite <- E22, <- E2 by lia. auto.
    - rewrite <- E2 by lia. rewrite H5. f_equal. apply dfold_ext.
      intros k Hk. apply Lt in Hk. rewrite E2; auto. lia.
  Qed.

  Lemma factorizeUpLooking_ok b11 b21 b22 n1 n2 R11 R21 R22 q1 p1 p2 sy1 L11 D11
      init21 init22 reg L21 L22 D22 :
    goodBlk b11 n1 n1 R11 q1 q1 sy1 -> goodBlk b21 n2 n1 R21 p2 p1 false ->
    goodBlk b22 n2 n2 R22 p2 p2 true ->
    (forall i j, R11 i j -> j < i) -> closedPattern R11 -> chord2 R11 R21 R22 ->
    coverRect init21 n2 n1 R21 p2 p1 -> coverSym init22 n2 R22 p2 ->
    readableI init21 -> readableI init22 ->
    length L11 = c_nnz (b_sp b11) -> length D11 = n1 ->
    length L21 = c_nnz (b_sp b21) -> length L22 = c_nnz (b_sp b22) -> length D22 = n2 ->
    exists L21' L22' D22' s21 s22,
      factorizeUpLooking O b11 b21 b22 L11 D11 init21 init22 reg (L21, L22, D22) =
        Ok (L21', L22', D22') /\
      length L21' = c_nnz (b_sp b21) /\ length L22' = c_nnz (b_sp b22) /\ length D22' = n2 /\
      forall i, i < n2 ->
        upRow (b_sp b11) (b_sp b21) (b_sp b22) (get (b_sp b11) L11) (getD O D11)
          (initL init21 b21 L21) (initL init22 b22 L22) (initD init22 b22 D22) reg i
          (s21 i) (s22 i) (get (b_sp b21) L21') (get (b_sp b22) L22') (getD O D22').
  Proof.
    intros G11 G21 G22 Low11 Cl11 CH V21 V22 Rd21 Rd22 N11 ND1 N21 N22 ND2.
    unfold factorizeUpLooking.
    rewrite (staticAsserts_ok b11 b21 b22 n1 n2 R11 R21 R22 q1 p1 p2 sy1); auto.
    cbn [bind]. pose proof CH as [C21 C22 Low22 Cl22].
    pose proof (goodBlk_gcsr _ _ _ _ _ _ _ G11) as GC11.
    pose proof (goodBlk_gcsr _ _ _ _ _ _ _ G21) as GC21.
    pose proof (goodBlk_gcsr _ _ _ _ _ _ _ G22) as GC22.
    pose proof G11 as [W11 _ r11 c11 I11 _ _ _ _ _].
    pose proof G21 as [W21 _ r21 c21 I21 pr21 pc21 _ P21 Q21].
    pose proof G22 as [W22 _ r22 c22 I22 pr22 pc22 _ P22 Q22].
    assert (Low22' : forall r c, In (r, c) (c_entries (b_sp b22)) -> c < r).
    { intros r c H. apply Low22, I22, H. }
    rewrite r22.
    set (f := fun st i => _).
    set (P := fun i (st : list F * list F * list F) => let '(A, B, D) := st in
      length A = c_nnz (b_sp b21) /\ length B = c_nnz (b_sp b22) /\ length D = n2 /\
      (forall r j, i <= r -> get (b_sp b21) A r j = get (b_sp b21) L21 r j) /\
      (forall r j, i <= r -> get (b_sp b22) B r j = get (b_sp b22) L22 r j) /\
      (forall r, i <= r -> getD O D r = getD O D22 r) /\
      exists s21 s22, forall r, r < i ->
        upRow (b_sp b11) (b_sp b21) (b_sp b22) (get (b_sp b11) L11) (getD O D11)
          (initL init21 b21 L21) (initL init22 b22 L22) (initD init22 b22 D22) reg r
          (s21 r) (s22 r) (get (b_sp b21) A) (get (b_sp b22) B) (getD O D)).
    destruct (foldM_seq f P 0 n2 (L21, L22, D22)) as ([[A B] D] & E & HP).
    - unfold P. repeat (split; auto). exists (fun _ _ => o0 O), (fun _ _ => o0 O). intros r Hr; lia.
    - intros i [[A B] D] Hi (NA & NB & ND & UA & UB & UD & s21 & s22 & HR).
      unfold f, factorizeUpLookingImpl.
      rewrite r22, r21, Nat.eqb_refl. cbn [static_assert bind].
      rewrite (initD_ok init22 b22 n2 R22 p2 true) by (auto; lia). cbn [bind].
      destruct (initRow_ok init21 b21 n2 n1 R21 p2 p1 false A i) as (A1 & EA & NA1 & HA1 & OA1);
        auto; try lia; try discriminate.
      rewrite EA. cbn [bind].
      destruct (initRow_ok init22 b22 n2 n2 R22 p2 p2 true B i) as (B1 & EB & NB1 & HB1 & OB1);
        auto; try lia.
      rewrite EB. cbn [bind].
      rewrite !(wf_rd_rb _ W21) by lia. cbn [bind].
      fold (left2step O b11 b21 b22 L11 D11). rewrite (fold_left2 O b11 b21 b22 L11 D11 n2).
      destruct (row_left3 O b11 b11 b21 (noCols n2) b22 L11 D11 L11 i A1 [] B1
         (initD init22 b22 D i)) as (sA & A2 & Z2 & B2 & d2 & E2 & LP); try lia.
      { constructor; auto; try lia.
        - apply emptyCSR_wf.
        - cbn. lia.
        - intros j c H. apply Low11, I11, H.
        - intros j c H1 H2 _. apply I21. apply I21 in H1. apply I11 in H2.
          pose proof (Low11 _ _ H2). eapply C21; eauto.
        - cbn. intros j c _ _ Hj. lia.
        - intros j c Hj H1 H2. apply I22. apply I21 in H1, H2. eapply C22; eauto. }
      { reflexivity. }
      rewrite E2. cbn [bind].
      rewrite !(wf_rd_rb _ W22) by lia. cbn [bind].
      fold (selfstep O b22 D).
      destruct LP as [K1 _ K3 K4 _ K6 _ _ K9 K10 K11].
      destruct (row_self O b22 D i B2 d2) as (sB & B3 & d3 & E3 & [M1 M2 _ M4 M5]); auto; try lia.
      { intros j c Hj H1 H2. apply I22. apply I22 in H1, H2.
        pose proof (Low22 _ _ H2). eapply Cl22; eauto. }
      unfold selfstep in E3. unfold selfstep. rewrite E3. cbn [bind].
      rewrite wr_ok by lia. cbn [bind]. eexists. split; [reflexivity|].
      unfold P. split; [lia|]. split; [lia|]. split; [rewrite upd_length; auto|].
      assert (OA : forall r j, r <> i -> get (b_sp b21) A2 r j = get (b_sp b21) A r j).
      { intros r j N. rewrite K6, OA1; auto. }
      assert (OB : forall r j, r <> i -> get (b_sp b22) B3 r j = get (b_sp b22) B r j).
      { intros r j N. rewrite M4, K10, OB1; auto. }
      assert (OD : forall r, r <> i -> getD O (upd D i (reg d3 i)) r = getD O D r).
      { intros r N. unfold getD. rewrite nth_upd_neq; auto. }
      split; [intros r j Hr; rewrite OA by lia; apply UA; lia|].
      split; [intros r j Hr; rewrite OB by lia; apply UB; lia|].
      split; [intros r Hr; rewrite OD by lia; apply UD; lia|].
      exists (fun r => if r =? i then sA else s21 r), (fun r => if r =? i then sB else s22 r).
      intros r Hr. destruct (Nat.eqb_spec r i) as [->|N].
      2:{ eapply upRow_ext; [exact Low22'| | | |apply HR; lia]; intros; symmetry;
            [apply OA|apply OB|apply OD]; lia. }
      assert (Init21 : forall j, In j (cols (b_sp b21) i) ->
                get (b_sp b21) A1 i j = initL init21 b21 L21 i j).
      { intros j Hj. apply cols_In in Hj. rewrite HA1 by auto. destruct init21; cbn [initL]; auto. }
      assert (Init22 : forall j, In j (cols (b_sp b22) i) ->
                get (b_sp b22) B1 i j = initL init22 b22 L22 i j).
      { intros j Hj. apply cols_In in Hj. rewrite HB1 by auto. destruct init22; cbn [initL]; auto. }
      assert (InitD : initD init22 b22 D i = initD init22 b22 D22 i).
      { destruct init22; cbn; auto. }
      assert (Lt : forall j, In j (cols (b_sp b22) i) -> j < i)
        by (intros j Hj; apply cols_In in Hj; auto).
      assert (S22 : forall j, In j (cols (b_sp b22) i) -> get (b_sp b22) B2 i j =
         subf O (initL init22 b22 L22 i j) (cols (b_sp b21) i) (nzb (b_sp b21) j)
              (fun k => (get (b_sp b21) A2 j k * sA k)%s)).
      { intros j Hj. rewrite <- Init22 by auto. pose proof Hj as Hj'. apply cols_In in Hj'.
        rewrite K9 by auto. apply subf_ext; auto. intros k _ _.
        pose proof (Lt j Hj). rewrite K6 by lia. auto. }
      constructor.
      + intros j Hj. rewrite <- Init21 by auto. apply K4; auto.
      + intros j Hj. apply K4; auto.
      + intros j Hj. rewrite <- S22 by auto. pose proof (Lt j Hj).
        destruct (M2 j Hj) as [M2a _]. rewrite M2a at 1.
        apply subf_ext; auto. intros k _ _. rewrite M4 by lia. auto.
      + intros j Hj. pose proof (Lt j Hj). rewrite OD by lia. apply M2; auto.
      + assert (ED : reg d3 i = reg (dfold O (dfold O (initD init22 b22 D22 i)
            (cols (b_sp b21) i) sA (getD O D11)) (cols (b_sp b22) i) sB (getD O D)) i)
          by (rewrite M5, K11, InitD; auto).
        unfold getD at 1. rewrite nth_upd_eq by lia. rewrite ED at 1. f_equal.
        apply dfold_ext. intros k Hk. apply Lt in Hk. rewrite OD by lia. auto.
    - unfold P in HP. destruct HP as (NA & NB & ND & _ & _ & _ & s21 & s22 & HR).
      exists A, B, D, s21, s22. split; auto.
  Qed.

  (** ** the 3 block kernel *)

  Record partRow (c11 c21 c31 c32 c33 : csr) (G11 : nat -> nat -> F) (D1 : nat -> F)
      (G21 : nat -> nat -> F) (a31 a32 a33 : nat -> nat -> F) (ad : nat -> F) (i : nat)
      (s : nat -> F) (G31 G32 G33 : nat -> nat -> F) (D3 : nat -> F) : Prop := mkPartRow {
    pr_s : forall j, In j (cols c31 i) ->
      s j = subf O (a31 i j) (cols c31 i) (nzb c11 j) (fun k => (G11 j k * s k)%s);
    pr_31 : forall j, In j (cols c31 i) -> G31 i j = (s j / D1 j)%s;
    pr_32 : forall j, In j (cols c32 i) ->
      G32 i j = subf O (a32 i j) (cols c31 i) (nzb c21 j) (fun k => (G21 j k * s k)%s);
    pr_33 : forall j, In j (cols c33 i) ->
      G33 i j = subf O (a33 i j) (cols c31 i) (nzb c31 j) (fun k => (G31 j k * s k)%s);
    pr_D : D3 i = dfold O (ad i) (cols c31 i) s D1 }.

  Lemma partRow_ext c11 c21 c31 c32 c33 G11 D1 G21 a31 a32 a33 ad i s G31 G32 G33 D3
      G31' G32' G33' D3' :
    (forall r c, In (r, c) (c_entries c33) -> c < r) ->
    (forall r j, r <= i -> G31 r j = G31' r j) ->
    (forall r j, r <= i -> G32 r j = G32' r j) ->
    (forall r j, r <= i -> G33 r j = G33' r j) ->
    (forall r, r <= i -> D3 r = D3' r) ->
    partRow c11 c21 c31 c32 c33 G11 D1 G21 a31 a32 a33 ad i s G31 G32 G33 D3 ->
    partRow c11 c21 c31 c32 c33 G11 D1 G21 a31 a32 a33 ad i s G31' G32' G33' D3'.
  Proof.
    intros Low E31 E32 E33 E3 [H1 H2 H3 H4 H5]. constructor; auto.
    - intros j Hj. rewrite <- E31; auto.
    - intros j Hj. rewrite <- E32; auto.
    - intros j Hj. rewrite <- E33, H4 by auto. apply cols_In in Hj. apply Low in Hj.
      apply subf_ext; auto. intros k _ _. rewrite E31; auto. lia.
    - rewrite <- E3; auto.
  Qed.

  Lemma factorizePartial_ok b11 b21 b31 b32 b33 n1 n2 n3 R11 R21 R31 R32 R33
      q1 p2 p1 p3 o1 o2 sy1 L11 D11 L21 init31 init32 init33 L31 L32 L33 D33 :
    goodBlk b11 n1 n1 R11 q1 q1 sy1 -> goodBlk b21 n2 n1 R21 p2 p1 false ->
    goodBlk b31 n3 n1 R31 p3 o1 false -> goodBlk b32 n3 n2 R32 p3 o2 false ->
    goodBlk b33 n3 n3 R33 p3 p3 true ->
    (forall i j, R11 i j -> j < i) -> (forall i j, R33 i j -> j < i) ->
    chord3 R11 R21 R31 R32 R33 ->
    readableI init31 -> readableI init32 -> readableI init33 ->
    length L11 = c_nnz (b_sp b11) -> length D11 = n1 -> length L21 = c_nnz (b_sp b21) ->
    length L31 = c_nnz (b_sp b31) -> length L32 = c_nnz (b_sp b32) ->
    length L33 = c_nnz (b_sp b33) -> length D33 = n3 ->
    exists L31' L32' L33' D33' s,
      factorizePartialUpLooking O b11 b21 b31 b32 b33 L11 D11 L21 init31 init32 init33
        (L31, L32, L33, D33) = Ok (L31', L32', L33', D33') /\
      length L31' = c_nnz (b_sp b31) /\ length L32' = c_nnz (b_sp b32) /\
      length L33' = c_nnz (b_sp b33) /\ length D33' = n3 /\
      forall i, i < n3 ->
        partRow (b_sp b11) (b_sp b21) (b_sp b31) (b_sp b32) (b_sp b33)
          (get (b_sp b11) L11) (getD O D11) (get (b_sp b21) L21)
          (initL init31 b31 L31) (initL init32 b32 L32) (initL init33 b33 L33) (getD O D33) i
          (s i) (get (b_sp b31) L31') (get (b_sp b32) L32') (get (b_sp b33) L33')
          (getD O D33').
  Proof.
    intros G11 G21 G31 G32 G33 Low11 Low33 [C31 C32 C33] Rd31 Rd32 Rd33
      N11 ND1 N21 N31 N32 N33 ND3.
    pose proof (goodBlk_gcsr _ _ _ _ _ _ _ G11) as GC11.
    pose proof (goodBlk_gcsr _ _ _ _ _ _ _ G21) as GC21.
    pose proof (goodBlk_gcsr _ _ _ _ _ _ _ G31) as GC31.
    pose proof (goodBlk_gcsr _ _ _ _ _ _ _ G32) as GC32.
    pose proof (goodBlk_gcsr _ _ _ _ _ _ _ G33) as GC33.
    pose proof G11 as [W11 _ r11 c11 I11 _ _ _ _ _].
    pose proof G21 as [W21 _ r21 c21 I21 _ _ _ _ _].
    pose proof G31 as [W31 _ r31 c31 I31 _ _ _ _ _].
    pose proof G32 as [W32 _ r32 c32 I32 _ _ _ _ _].
    pose proof G33 as [W33 _ r33 c33 I33 _ _ _ _ _].
    assert (Low33' : forall r c, In (r, c) (c_entries (b_sp b33)) -> c < r).
    { intros r c H. apply Low33, I33, H. }
    unfold factorizePartialUpLooking. rewrite r31. set (f := fun st i => _).
    set (P := fun i (st : list F * list F * list F * list F) => let '(A, B, C, D) := st in
      length A = c_nnz (b_sp b31) /\ length B = c_nnz (b_sp b32) /\
      length C = c_nnz (b_sp b33) /\ length D = n3 /\
      (forall r j, i <= r -> get (b_sp b31) A r j = get (b_sp b31) L31 r j) /\
      (forall r j, i <= r -> get (b_sp b32) B r j = get (b_sp b32) L32 r j) /\
      (forall r j, i <= r -> get (b_sp b33) C r j = get (b_sp b33) L33 r j) /\
      (forall r, i <= r -> getD O D r = getD O D33 r) /\
      exists s, forall r, r < i ->
        partRow (b_sp b11) (b_sp b21) (b_sp b31) (b_sp b32) (b_sp b33)
          (get (b_sp b11) L11) (getD O D11) (get (b_sp b21) L21)
          (initL init31 b31 L31) (initL init32 b32 L32) (initL init33 b33 L33) (getD O D33) r
          (s r) (get (b_sp b31) A) (get (b_sp b32) B) (get (b_sp b33) C) (getD O D)).
    destruct (foldM_seq f P 0 n3 (L31, L32, L33, D33)) as ([[[A B] C] D] & E & HP).
    - unfold P. repeat (split; auto). exists (fun _ _ => o0 O). intros r Hr; lia.
    - intros i [[[A B] C] D] Hi (NA & NB & NC & ND & UA & UB & UC & UD & s & HR).
      unfold f, factorizePartialUpLookingImpl.
      destruct (initRow_ok init31 b31 n3 n1 R31 p3 o1 false A i) as (A1 & EA & NA1 & HA1 & OA1);
        auto; try lia; try discriminate.
      rewrite EA. cbn [bind].
      destruct (initRow_ok init32 b32 n3 n2 R32 p3 o2 false B i) as (B1 & EB & NB1 & HB1 & OB1);
        auto; try lia; try discriminate.
      rewrite EB. cbn [bind].
      destruct (initRow_ok init33 b33 n3 n3 R33 p3 p3 true C i) as (C1 & EC & NC1 & HC1 & OC1);
        auto; try lia.
      rewrite EC. cbn [bind].
      rewrite (rd_nth D i (o0 O)) by lia. cbn [bind].
      rewrite !(wf_rd_rb _ W31) by lia. cbn [bind].
      fold (left3step O b11 b21 b31 b32 b33 L11 D11 L21).
      destruct (row_left3 O b11 b21 b31 b32 b33 L11 D11 L21 i A1 B1 C1
         (nth i D (o0 O))) as (sA & A2 & B2 & C2 & d2 & E2 & LP); try lia.
      { constructor; auto; try lia.
        - intros j c H. apply Low11, I11, H.
        - intros j c H1 H2 _. apply I31. apply I31 in H1. apply I11 in H2.
          pose proof (Low11 _ _ H2). eapply C31; eauto.
        - intros j c H1 H2 _. apply I32. apply I31 in H1. apply I21 in H2. eapply C32; eauto.
        - intros j c Hj H1 H2. apply I33. apply I31 in H1, H2. eapply C33; eauto. }
      rewrite E2. cbn [bind]. rewrite wr_ok by lia. cbn [bind].
      eexists. split; [reflexivity|].
      destruct LP as [K1 K2 K3 K4 _ K6 K7 K8 K9 K10 K11].
      unfold P. split; [lia|]. split; [lia|]. split; [lia|]. split; [rewrite upd_length; auto|].
      assert (OA : forall r j, r <> i -> get (b_sp b31) A2 r j = get (b_sp b31) A r j).
      { intros r j N. rewrite K6, OA1; auto. }
      assert (OB : forall r j, r <> i -> get (b_sp b32) B2 r j = get (b_sp b32) B r j).
      { intros r j N. rewrite K8, OB1; auto. }
      assert (OC : forall r j, r <> i -> get (b_sp b33) C2 r j = get (b_sp b33) C r j).
      { intros r j N. rewrite K10, OC1; auto. }
      assert (OD : forall r, r <> i -> getD O (upd D i d2) r = getD O D r).
      { intros r N. unfold getD. rewrite nth_upd_neq; auto. }
      split; [intros r j Hr; rewrite OA by lia; apply UA; lia|].
      split; [intros r j Hr; rewrite OB by lia; apply UB; lia|].
      split; [intros r j Hr; rewrite OC by lia; apply UC; lia|].
      split; [intros r Hr; rewrite OD by lia; apply UD; lia|].
      exists (fun r => if r =? i then sA else s r).
      intros r Hr. destruct (Nat.eqb_spec r i) as [->|N].
      2:{ eapply partRow_ext; [exact Low33'| | | | |apply HR; lia]; intros; symmetry;
            [apply OA|apply OB|apply OC|apply OD]; lia. }
      assert (Init31 : forall j, In j (cols (b_sp b31) i) ->
                get (b_sp b31) A1 i j = initL init31 b31 L31 i j).
      { intros j Hj. apply cols_In in Hj. rewrite HA1 by auto. destruct init31; cbn [initL]; auto. }
      assert (Init32 : forall j, In j (cols (b_sp b32) i) ->
                get (b_sp b32) B1 i j = initL init32 b32 L32 i j).
      { intros j Hj. apply cols_In in Hj. rewrite HB1 by auto. destruct init32; cbn [initL]; auto. }
      assert (Init33 : forall j, In j (cols (b_sp b33) i) ->
                get (b_sp b33) C1 i j = initL init33 b33 L33 i j).
      { intros j Hj. apply cols_In in Hj. rewrite HC1 by auto. destruct init33; cbn [initL]; auto. }
      assert (InitD : nth i D (o0 O) = getD O D33 i) by (apply UD; lia).
      constructor.
      + intros j Hj. rewrite <- Init31 by auto. apply K4; auto.
      + intros j Hj. apply K4; auto.
      + intros j Hj. rewrite <- Init32 by auto. apply K7. apply cols_In; auto.
      + intros j Hj. rewrite <- Init33 by auto. pose proof Hj as Hj'.
        apply cols_In in Hj'. rewrite K9 by auto. apply Low33' in Hj'.
        apply subf_ext; auto. intros k _ _. rewrite K6 by lia. auto.
      + unfold getD at 1. rewrite nth_upd_eq by lia. rewrite K11, InitD. auto.
    - unfold P in HP. destruct HP as (NA & NB & NC & ND & _ & _ & _ & _ & s & HR).
      exists A, B, C, D, s. repeat (split; [assumption|]); assumption.
  Qed.
End Up.
