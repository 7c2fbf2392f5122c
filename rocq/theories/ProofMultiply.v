(** Matrix-vector products. *)
From Coq Require Import List Arith Lia Bool Ring.
From Verif Require Import Base ModelPerm ModelSparsity ModelSymbolic ModelNumeric ModelReg.
From Verif Require Import SpecSymbolic SpecArrow SpecNumeric.
From Verif Require Import ProofBase ProofPerm ProofArrowSym ProofDense ProofExact ProofLdl ProofSingle
  ProofSingleMain.
Import ListNotations.

Section Multiply.
  Context {F : Type} (O : ops F) (FL : fieldLaws O).
  Local Notation "0" := (o0 O) : scalar.
  Local Notation "a + b" := (oadd O a b) : scalar.
  Local Notation "a - b" := (osub O a b) : scalar.
  Local Notation "a * b" := (omul O a b) : scalar.
  Local Notation sum := (sumn O).
  Add Ring Fr6 : (fl_ring FL).

  (** what one entry adds to component [i] *)
  Definition entryPart (kind : multiplyKind) (x : list F) (i : nat) (e : (nat * nat) * F) : F :=
    let '((r, c), v) := e in
    ((if hasNormal kind && (r =? i) then v * vecAt O x c else 0) +
     (if hasTransposed kind && negb (isSymmetric kind && (r =? c)) && (c =? i)
      then v * vecAt O x r else 0))%s.

  Definition rowsOf (kind : multiplyKind) (nr nc : nat) : nat :=
    match kind with Transposed => nc | _ => nr end.
  Definition colsOf (kind : multiplyKind) (nr nc : nat) : nat :=
    match kind with Transposed => nr | _ => nc end.

  Lemma vecAt_upd v k a i : k < length v ->
    vecAt O (upd v k a) i = if k =? i then a else vecAt O v i.
  Proof. intros H. apply nth_upd. auto. Qed.

  Lemma rd_vec v k : k < length v -> rd v k = Ok (vecAt O v k).
  Proof. apply rd_nth. Qed.

  Lemma entryPart_sum kind nr nc es (vals : list F) x i :
    (forall r c, In (r, c) es -> r < nr /\ c < nc) ->
    (kind = Symmetric -> nr = nc) -> i < rowsOf kind nr nc ->
    suml O (combine es vals) (entryPart kind x i) =
    sum (colsOf kind nr nc) (fun j => kindAt O kind es vals i j * vecAt O x j)%s.
  Proof.
    intros HW HQ Hi.
    assert (PT : forall r c v, In ((r, c), v) (combine es vals) ->
      entryPart kind x i ((r, c), v) =
      sum (colsOf kind nr nc) (fun j =>
         match kind with
         | Normal => if (r =? i) && (c =? j) then v else 0
         | Transposed => if (r =? j) && (c =? i) then v else 0
         | Symmetric =>
            if i =? j then (if (r =? i) && (c =? i) then v else 0)
            else (if (r =? i) && (c =? j) then v else 0) +
                 (if (r =? j) && (c =? i) then v else 0)
         end * vecAt O x j)%s).
    { intros r c v H. apply in_combine_l in H. destruct (HW _ _ H) as [Hr Hc].
      unfold entryPart. destruct kind; cbn [hasNormal hasTransposed isSymmetric andb negb colsOf rowsOf] in *.
      - rewrite (sumn_single O FL _ _ c); auto.
        + rewrite Nat.eqb_refl. destruct (r =? i); cbn [andb]; ring.
        + intros k _ N. destruct (Nat.eqb_spec c k); [lia|]. rewrite andb_false_r. ring.
      - rewrite (sumn_single O FL _ _ r); auto.
        + rewrite Nat.eqb_refl. destruct (c =? i); cbn [andb]; ring.
        + intros k _ N. destruct (Nat.eqb_spec r k); [lia|]. cbn [andb]. ring.
      - specialize (HQ eq_refl). subst nc.
        destruct (Nat.eqb_spec r c) as [->|Nrc]; cbn [negb andb].
        + rewrite (sumn_single O FL _ _ c); auto.
          * destruct (Nat.eqb_spec c i) as [->|N].
            -- rewrite Nat.eqb_refl. cbn [andb]. ring.
            -- destruct (Nat.eqb_spec i c); [lia|]. rewrite !Nat.eqb_refl. cbn [andb]. ring.
          * intros k _ N. destruct (Nat.eqb_spec i k) as [<-|].
            -- destruct (Nat.eqb_spec c i); [lia|]. cbn [andb]. ring.
            -- destruct (Nat.eqb_spec c k); [lia|]. rewrite andb_false_r. cbn [andb]. ring.
        + destruct (Nat.eqb_spec r i) as [->|Nri].
          * destruct (Nat.eqb_spec c i) as [->|Nci]; [lia|]. cbn [andb].
            rewrite (sumn_single O FL _ _ c); auto.
            -- destruct (Nat.eqb_spec i c); [lia|]. rewrite Nat.eqb_refl, andb_false_r. ring.
            -- intros k _ N. destruct (Nat.eqb_spec i k) as [<-|].
               ++ ring.
               ++ destruct (Nat.eqb_spec c k); [lia|]. cbn [andb]. ring.
          * destruct (Nat.eqb_spec c i) as [->|Nci]; cbn [andb].
            -- rewrite (sumn_single O FL _ _ r); auto.
               ++ destruct (Nat.eqb_spec i r); [lia|]. rewrite Nat.eqb_refl. cbn [andb]. ring.
               ++ intros k _ N. destruct (Nat.eqb_spec r k); [lia|]. cbn [andb].
                  destruct (i =? k); ring.
            -- rewrite (sumn_0 O FL); [ring|]. intros k _. rewrite andb_false_r.
               destruct (i =? k); ring. }
    rewrite (suml_ext O _ _ (fun e => sum (colsOf kind nr nc) (fun j =>
         match kind with
         | Normal => if (fst (fst e) =? i) && (snd (fst e) =? j) then snd e else 0
         | Transposed => if (fst (fst e) =? j) && (snd (fst e) =? i) then snd e else 0
         | Symmetric =>
            if i =? j then (if (fst (fst e) =? i) && (snd (fst e) =? i) then snd e else 0)
            else (if (fst (fst e) =? i) && (snd (fst e) =? j) then snd e else 0) +
                 (if (fst (fst e) =? j) && (snd (fst e) =? i) then snd e else 0)
         end * vecAt O x j)%s)).
    2:{ intros [[r c] v] H. apply PT. auto. }
    rewrite <- (suml_seq O FL).
    rewrite (suml_ext O (combine es vals) _ (fun e => suml O (seq 0 (colsOf kind nr nc)) (fun j =>
         match kind with
         | Normal => if (fst (fst e) =? i) && (snd (fst e) =? j) then snd e else 0
         | Transposed => if (fst (fst e) =? j) && (snd (fst e) =? i) then snd e else 0
         | Symmetric =>
            if i =? j then (if (fst (fst e) =? i) && (snd (fst e) =? i) then snd e else 0)
            else (if (fst (fst e) =? i) && (snd (fst e) =? j) then snd e else 0) +
                 (if (fst (fst e) =? j) && (snd (fst e) =? i) then snd e else 0)
         end * vecAt O x j)%s)).
    2:{ intros e _. rewrite (suml_seq O FL). auto. }
    rewrite (suml_swap O FL). apply suml_ext. intros j _.
    rewrite (suml_mult_r O FL). f_equal. unfold kindAt, totalAt.
    destruct kind; auto. destruct (i =? j); auto. apply (suml_plus O FL).
  Qed.

  Lemma firstn_S_nth {A} (l : list A) k d : k < length l ->
    firstn (S k) l = firstn k l ++ [nth k l d].
  Proof.
    revert k; induction l as [|a l IH]; intros k H; cbn in H; [lia|].
    destruct k; cbn; auto. f_equal. apply IH. lia.
  Qed.

  Lemma multiply_ok kind m sp vals nr nc x rhs :
    inputOf O m sp vals -> spOf sp nr nc -> (kind = Symmetric -> nr = nc) ->
    length x = colsOf kind nr nc -> length rhs = rowsOf kind nr nc ->
    exists r, multiply O kind m x rhs = Ok r /\ length r = length rhs /\
      forall i, i < length rhs ->
        vecAt O r i = (vecAt O rhs i +
          sum (colsOf kind nr nc) (fun j => kindAt O kind (entries sp) vals i j * vecAt O x j))%s.
  Proof.
    intros HI HS HQ Nx Nr.
    set (l := combine (entries sp) vals).
    assert (Nl : length l = length (entries sp)).
    { unfold l. rewrite combine_length, (io_len _ _ _ _ HI). lia. }
    unfold multiply, nnz. rewrite (io_sp _ _ _ _ HI).
    destruct (foldM_seq (fun (rhs : list F) k =>
             let* e := rd (entries sp) k in
             let (r, c) := (e : nat * nat) in
             let* v := m_val m k in
             let* rhs :=
               if hasNormal kind then
                 let* a := rd rhs r in
                 let* x := rd x c in
                 wr rhs r (a + v * x)%s
               else Ok rhs in
             if isSymmetric kind && (r =? c) then Ok rhs
             else if hasTransposed kind then
               let* a := rd rhs c in
               let* x := rd x r in
               wr rhs c (a + v * x)%s
             else Ok rhs)
      (fun k r => length r = length rhs /\ forall i, i < length rhs ->
         vecAt O r i = (vecAt O rhs i + suml O (firstn k l) (entryPart kind x i))%s)
      0%nat (length (entries sp)) rhs) as (r & E & NR & HR).
    - split; auto. intros i _. cbn. ring.
    - intros k r Hk [NR HR].
      assert (Hkl : k < length (entries sp)) by lia.
      rewrite (rd_nth _ _ (0, 0)%nat) by auto. cbn [bind].
      destruct (nth k (entries sp) (0, 0)%nat) as [ri ci] eqn:En.
      assert (HB : ri < nr /\ ci < nc).
      { apply (sp_wf _ _ _ HS). rewrite <- En. apply nth_In. auto. }
      rewrite (io_val _ _ _ _ HI) by (rewrite (io_len _ _ _ _ HI); auto). cbn [bind].
      set (v := nth k vals (o0 O)).
      assert (EL : nth k l ((0, 0)%nat, o0 O) = ((ri, ci), v)).
      { unfold l. rewrite combine_nth by (rewrite (io_len _ _ _ _ HI); auto).
        rewrite En. auto. }
      assert (ST : forall i, suml O (firstn (1 + k) l) (entryPart kind x i) =
        (suml O (firstn k l) (entryPart kind x i) + entryPart kind x i ((ri, ci), v))%s).
      { intros i. cbn [Nat.add]. rewrite (firstn_S_nth l k ((0, 0)%nat, o0 O)) by lia. rewrite EL.
        rewrite (suml_app O FL). cbn [suml fold_right]. ring. }
      assert (P : exists r', (if hasNormal kind then
                 let* a := rd r ri in
                 let* x := rd x ci in
                 wr r ri (a + v * x)%s
               else Ok r) = Ok r' /\ length r' = length rhs /\
               forall i, i < length rhs -> vecAt O r' i = (vecAt O r i +
                 if hasNormal kind && (ri =? i) then v * vecAt O x ci else 0)%s).
      { destruct (hasNormal kind) eqn:HN; cbn [andb].
        - assert (ri < length rhs /\ ci < length x).
          { rewrite Nr, Nx. destruct kind; cbn [rowsOf colsOf]; auto. discriminate. }
          rewrite rd_vec by lia. cbn [bind]. rewrite rd_vec by lia. cbn [bind].
          rewrite wr_ok by lia. eexists. split; [reflexivity|]. rewrite upd_length. split; auto.
          intros i Hi. rewrite vecAt_upd by lia. destruct (Nat.eqb_spec ri i) as [->|]; auto. ring.
        - exists r. split; auto. split; auto. intros i Hi. ring. }
      destruct P as (r1 & -> & N1 & H1). cbn [bind].
      assert (P : exists r', (if isSymmetric kind && (ri =? ci) then Ok r1
             else if hasTransposed kind then
               let* a := rd r1 ci in
               let* x := rd x ri in
               wr r1 ci (a + v * x)%s
             else Ok r1) = Ok r' /\ length r' = length rhs /\
               forall i, i < length rhs -> vecAt O r' i = (vecAt O r1 i +
                 if hasTransposed kind && negb (isSymmetric kind && (ri =? ci)) && (ci =? i)
                 then v * vecAt O x ri else 0)%s).
      { destruct (isSymmetric kind && (ri =? ci)) eqn:HSy; cbn [negb].
        - exists r1. split; auto. split; auto. intros i Hi. rewrite andb_false_r. cbn [andb]. ring.
        - rewrite andb_true_r. destruct (hasTransposed kind) eqn:HT; cbn [andb].
          + assert (ci < length rhs /\ ri < length x).
            { rewrite Nr, Nx. destruct kind; cbn [rowsOf colsOf]; try discriminate;
                [lia|specialize (HQ eq_refl); lia]. }
            rewrite rd_vec by lia. cbn [bind]. rewrite rd_vec by lia. cbn [bind].
            rewrite wr_ok by lia. eexists. split; [reflexivity|]. rewrite upd_length. split; auto.
            intros i Hi. rewrite vecAt_upd by lia. destruct (Nat.eqb_spec ci i) as [->|]; auto. ring.
          + exists r1. split; auto. split; auto. intros i Hi. ring. }
      destruct P as (r2 & -> & N2 & H2). exists r2. split; auto. split; auto.
      intros i Hi. rewrite H2, H1, HR, ST by auto. unfold entryPart. ring.
    - exists r. split; auto. split; auto. intros i Hi. rewrite HR by auto. f_equal.
      cbn [Nat.add]. rewrite <- Nl, firstn_all. unfold l.
      apply entryPart_sum; auto; [|lia]. intros; apply (sp_wf _ _ _ HS); auto.
  Qed.

  (** without duplicates the first value is the total *)
  Lemma total_first es vals i j : NoDup es -> length vals = length es ->
    totalAt O es vals i j = denseAt O es vals i j.
  Proof.
    intros ND NL. unfold totalAt, denseAt.
    revert vals NL. induction ND as [|[r c] es Ni ND IH]; intros [|v vals] NL; cbn in NL;
      try discriminate; auto.
    cbn [combine suml fold_right firstValue fst snd].
    fold (suml O (combine es vals)
      (fun e => if (fst (fst e) =? i) && (snd (fst e) =? j) then snd e else 0%s)).
    destruct ((r =? i) && (c =? j)) eqn:E.
    - apply andb_true_iff in E. destruct E as [E1 E2]. apply Nat.eqb_eq in E1, E2. subst.
      rewrite (suml_0 O FL); [ring|].
      intros [[r' c'] v'] H. apply in_combine_l in H. cbn [fst snd].
      destruct (Nat.eqb_spec r' i) as [->|]; auto. destruct (Nat.eqb_spec c' j) as [->|]; auto.
      contradiction.
    - rewrite IH by lia. ring.
  Qed.

  Lemma firstValue_out l i j : (forall v, ~ In ((i, j), v) l) -> firstValue O l i j = 0%s.
  Proof.
    induction l as [|[[r c] v] l IH]; intros H; cbn [firstValue]; auto.
    destruct (Nat.eqb_spec r i) as [->|]; cbn [andb]; [destruct (Nat.eqb_spec c j) as [->|]|].
    - exfalso. apply (H v). left. auto.
    - apply IH. intros w Hw. apply (H w). right. auto.
    - apply IH. intros w Hw. apply (H w). right. auto.
  Qed.

  Lemma dense_out es vals i j : ~ In (i, j) es -> denseAt O es vals i j = 0%s.
  Proof.
    intros H. apply firstValue_out. intros v Hv. apply H. eapply in_combine_l. eauto.
  Qed.

  (** a symmetric matrix given by distinct entries of its lower triangle *)
  Lemma kindAt_sym es vals i j : NoDup es -> length vals = length es ->
    (forall r c, In (r, c) es -> c <= r) ->
    kindAt O Symmetric es vals i j = symAt O es vals i j.
  Proof.
    intros ND NL LT. unfold kindAt, symAt. rewrite !total_first by auto.
    destruct (Nat.eqb_spec i j) as [->|N].
    - rewrite Nat.max_id, Nat.min_id. auto.
    - destruct (Nat.lt_ge_cases i j).
      + rewrite Nat.max_r, Nat.min_l by lia.
        rewrite (dense_out es vals i j); [ring|]. intros H'. apply LT in H'. lia.
      + rewrite Nat.max_l, Nat.min_r by lia.
        rewrite (dense_out es vals j i); [ring|]. intros H'. apply LT in H'. lia.
  Qed.

  Lemma kindAt_normal es vals i j : NoDup es -> length vals = length es ->
    kindAt O Normal es vals i j = denseAt O es vals i j.
  Proof. intros. apply total_first; auto. Qed.

  Lemma kindAt_transposed es vals i j : NoDup es -> length vals = length es ->
    kindAt O Transposed es vals i j = denseAt O es vals j i.
  Proof. intros. apply total_first; auto. Qed.

  Lemma vecAt_repeat0 n i : vecAt O (repeat (o0 O) n) i = 0%s.
  Proof.
    unfold vecAt. destruct (Nat.lt_ge_cases i n).
    - apply nth_repeat_lt. auto.
    - apply nth_overflow. rewrite repeat_length. auto.
  Qed.

  (** ** solving without regularization *)

  Lemma plusDiag_0 A E i j : E i = 0%s -> plusDiag O A E i j = A i j.
  Proof. intros H. unfold plusDiag. destruct (i =? j); auto. rewrite H. ring. Qed.

  (** RegularizationNone: E vanishes *)
  Lemma reg_none_E n p D E : validPerm n p ->
    (forall i, i < n -> vecAt O D i = regularizationNone (vecAt O D i - E (nth i p 0%nat))%s i) ->
    forall i, i < n -> E i = 0%s.
  Proof.
    intros HP H i Hi. apply validPerm_isPerm in HP.
    destruct (isPerm_surj n p i HP Hi) as (g & Hg & <-).
    specialize (H g Hg). unfold regularizationNone in H.
    transitivity (vecAt O D g - (vecAt O D g - E (nth g p 0%nat)))%s; [ring|].
    rewrite <- H. ring.
  Qed.

  Lemma single_solve_none mt s n p b m sp vals L0 D0 L D :
    spOf s n n -> validPerm n p -> factorizationBlk s p = Ok b ->
    inputOf O m sp vals -> spOf sp n n -> coveredSym (entries sp) (entries s) n p ->
    length L0 = c_nnz (b_sp b) -> length D0 = n ->
    factorize O mt b (Some m) regularizationNone (L0, D0) = Ok (L, D) ->
    (forall k, k < n -> vecAt O D k <> 0%s) ->
    (forall i j, i < n -> j < n ->
           sum n (fun k => unitAt O (fl_one FL) (c_entries (b_sp b)) L i k * vecAt O D k *
                           unitAt O (fl_one FL) (c_entries (b_sp b)) L j k)%s =
           symAt O (entries sp) vals (nth i p 0%nat) (nth j p 0%nat)) /\
      forall rhs, length rhs = n ->
        exists x, solveInPlace O b (L, D) rhs = Ok x /\ length x = n /\
          (forall i, i < n ->
            sum n (fun j => symAt O (entries sp) vals i j * vecAt O x j)%s = vecAt O rhs i) /\
          (forall x', length x' = n ->
             (forall i, i < n ->
               sum n (fun j => symAt O (entries sp) vals i j * vecAt O x' j)%s =
               vecAt O rhs i) -> x' = x).
  Proof.
    intros HS HP HB HI HSI HC N1 N2 EF HZ.
    destruct (single_solve O FL mt s n p b m sp vals regularizationNone L0 D0 L D)
      as (E & HE & HE2 & HX); auto.
    pose proof (reg_none_E n p D E HP HE) as E0.
    split.
    - intros i j Hi Hj. rewrite HE2 by auto. apply plusDiag_0. apply E0.
      apply isPerm_lt; auto. apply validPerm_isPerm. auto.
    - intros rhs Hr. destruct (HX rhs Hr) as (x & ES & Nx & H1 & H2).
      exists x. split; auto. split; auto. split.
      + intros i Hi. rewrite <- H1 by auto. apply sumn_ext. intros j Hj.
        rewrite plusDiag_0; auto.
      + intros x' Nx' Hx'. apply H2; auto. intros i Hi. rewrite <- Hx' by auto.
        apply sumn_ext. intros j Hj. rewrite plusDiag_0; auto.
  Qed.

  (** C04 *)
  Lemma round_trip mt s n p b m sp vals L0 D0 L D x :
    spOf s n n -> validPerm n p -> factorizationBlk s p = Ok b ->
    inputOf O m sp vals -> spOf sp n n -> coveredSym (entries sp) (entries s) n p ->
    NoDup (entries sp) -> (forall r c, In (r, c) (entries sp) -> c <= r) ->
    length L0 = c_nnz (b_sp b) -> length D0 = n ->
    factorize O mt b (Some m) regularizationNone (L0, D0) = Ok (L, D) ->
    (forall k, k < n -> vecAt O D k <> 0%s) ->
    length x = n ->
    exists rhs, multiply O Symmetric m x (repeat (o0 O) n) = Ok rhs /\
      solveInPlace O b (L, D) rhs = Ok x.
  Proof.
    intros HS HP HB HI HSI HC ND LT N1 N2 EF HZ Nx.
    destruct (multiply_ok Symmetric m sp vals n n x (repeat (o0 O) n))
      as (rhs & EM & NR & HR); auto.
    { cbn. apply repeat_length. }
    rewrite repeat_length in NR, HR. exists rhs. split; auto.
    destruct (single_solve_none mt s n p b m sp vals L0 D0 L D) as (_ & HX); auto.
    destruct (HX rhs NR) as (x' & ES & Nx' & _ & U). rewrite ES. f_equal.
    symmetry. apply U; auto. intros i Hi. rewrite HR by auto. rewrite vecAt_repeat0.
    cbn [colsOf]. transitivity (sum n (fun j =>
      kindAt O Symmetric (entries sp) vals i j * vecAt O x j)%s); [|ring].
    apply sumn_ext. intros j Hj. rewrite kindAt_sym; auto. apply (io_len _ _ _ _ HI).
  Qed.

  (** C05 *)
  Lemma permutation_indep mt mt' s s' n p p' b b' m sp vals L0 D0 L0' D0' L D L' D' rhs :
    spOf s n n -> validPerm n p -> factorizationBlk s p = Ok b ->
    spOf s' n n -> validPerm n p' -> factorizationBlk s' p' = Ok b' ->
    inputOf O m sp vals -> spOf sp n n ->
    coveredSym (entries sp) (entries s) n p -> coveredSym (entries sp) (entries s') n p' ->
    length L0 = c_nnz (b_sp b) -> length D0 = n ->
    length L0' = c_nnz (b_sp b') -> length D0' = n ->
    factorize O mt b (Some m) regularizationNone (L0, D0) = Ok (L, D) ->
    factorize O mt' b' (Some m) regularizationNone (L0', D0') = Ok (L', D') ->
    (forall k, k < n -> vecAt O D k <> 0%s) -> (forall k, k < n -> vecAt O D' k <> 0%s) ->
    length rhs = n ->
    exists x, solveInPlace O b (L, D) rhs = Ok x /\ solveInPlace O b' (L', D') rhs = Ok x.
  Proof.
    intros HS HP HB HS' HP' HB' HI HSI HC HC' N1 N2 N1' N2' EF EF' HZ HZ' NR.
    destruct (single_solve_none mt s n p b m sp vals L0 D0 L D) as (_ & HX); auto.
    destruct (single_solve_none mt' s' n p' b' m sp vals L0' D0' L' D') as (_ & HX'); auto.
    destruct (HX rhs NR) as (x & ES & Nx & H1 & U).
    destruct (HX' rhs NR) as (x' & ES' & Nx' & H1' & U').
    exists x. split; auto. rewrite ES'. f_equal. symmetry. apply U'; auto.
  Qed.
End Multiply.

Lemma coveredSym_incl input declared n p : validPerm n p ->
  (forall r c, In (r, c) input -> c < r -> In (r, c) declared) ->
  coveredSym input declared n p.
Proof.
  intros HP H i j (Hji & Hi & Hin). apply Fill_base; auto. split; auto. split; auto.
  apply H; auto. apply validPerm_isPerm in HP.
  assert (nth i p 0 <> nth j p 0); [|lia].
  intros E. apply isPerm_inj with (n := n) in E; auto; lia.
Qed.
