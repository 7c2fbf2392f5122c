(** Factorization and solution of a single matrix. *)
From Coq Require Import List Arith Lia Bool Permutation Ring.
From Verif Require Import Base ModelPerm ModelSparsity ModelSymbolic ModelNumeric.
From Verif Require Import SpecSymbolic SpecArrow SpecNumeric.
From Verif Require Import ProofBase ProofPerm ProofCsr ProofSparsity ProofFill ProofFill3
  ProofArrowSym ProofDense ProofUpRow ProofUp ProofEntry ProofExact ProofKernel ProofSolve
  ProofLdl.
Import ListNotations.

Definition noPat : pattern := fun _ _ => False.

Lemma emptyDiag_good : goodBlk emptyDiagBlk 0 0 noPat [] [] true.
Proof.
  destruct (emptyCSR_wf 0 0) as [W Hs].
  constructor; auto; try reflexivity; try (apply (isPerm_iota 0)).
Qed.

Lemma emptyLeft_good b n R p :
  goodBlk b n n R p p true -> goodBlk (emptyLeftBlk b) n 0 noPat p [] false.
Proof.
  intros G. unfold emptyLeftBlk. rewrite (gb_rows _ _ _ _ _ _ _ G), (gb_prow _ _ _ _ _ _ _ G).
  destruct (emptyCSR_wf n 0) as [W Hs].
  constructor; auto; try reflexivity.
  - eapply gb_p1; eauto.
  - apply (isPerm_iota 0).
Qed.

Lemma single_hyp b n R p :
  goodBlk b n n R p p true -> (forall i j, R i j -> j < i) -> closedPattern R ->
  kernelHyp emptyDiagBlk (emptyLeftBlk b) b 0 n noPat noPat R [] [] p true.
Proof.
  intros G Low Cl. constructor; auto.
  - apply emptyDiag_good.
  - eapply emptyLeft_good; eauto.
  - intros i j [].
  - intros i j k _ _ [].
  - constructor; auto; intros i j k _ [].
Qed.

Lemma Fill_low Q i j : Fill Q i j -> j < i.
Proof. intros H; destruct H; auto. Qed.

Lemma Fill_closed Q : closedPattern (Fill Q).
Proof. intros i j k H1 H2 H3 H4. eapply Fill_elim; eauto. Qed.

Section Single.
  Context {F : Type} (O : ops F).
  Local Notation get := (getL O).
  Local Notation "0" := (o0 O) : scalar.
  Local Notation "a + b" := (oadd O a b) : scalar.
  Local Notation "a - b" := (osub O a b) : scalar.
  Local Notation "a * b" := (omul O a b) : scalar.
  Local Notation "a / b" := (odiv O a b) : scalar.

  (** ** dense views *)

  Lemma firstValue_find es vals i j :
    length vals = length es ->
    firstValue O (combine es vals) i j =
    match findEntryIndex es (i, j) with Some k => nth k vals (o0 O) | None => o0 O end.
  Proof.
    revert vals. induction es as [|[r c] es IH]; intros [|v vals] H; cbn in H; try lia; auto.
    cbn [combine firstValue findEntryIndex]. unfold entry_eqb. cbn [fst snd].
    destruct ((r =? i) && (c =? j)); auto. rewrite IH by lia.
    destruct (findEntryIndex es (i, j)); auto.
  Qed.

  Lemma getL_dense c L i j :
    length L = c_nnz c -> get c L i j = denseAt O (c_entries c) L i j.
  Proof. intros H. unfold getL, denseAt. rewrite firstValue_find; auto. Qed.

  Lemma matVal_dense m sp vals i j :
    inputOf O m sp vals -> matVal O m (i, j) = denseAt O (entries sp) vals i j.
  Proof.
    intros [H1 H2 H3]. unfold matVal, denseAt. rewrite firstValue_find, H1 by auto.
    destruct (findEntryIndex (entries sp) (i, j)) as [k|] eqn:E; auto.
    apply findEntryIndex_Some in E. destruct E as [E _].
    rewrite H3; auto. rewrite H2. apply nth_error_Some. congruence.
  Qed.

  Lemma inputOf_readable m sp vals : inputOf O m sp vals -> readable m.
  Proof.
    intros [H1 H2 H3] k Hk. rewrite H1 in Hk. unfold nnz in Hk. eexists. apply H3. lia.
  Qed.

  Lemma origP_sym b n R p i j :
    goodBlk b n n R p p true ->
    origP b i j = (Nat.max (nth i p 0) (nth j p 0), Nat.min (nth i p 0) (nth j p 0))%nat.
  Proof.
    intros G. unfold origP. rewrite (gb_sym _ _ _ _ _ _ _ G), (gb_prow _ _ _ _ _ _ _ G). auto.
  Qed.

  (** ** factorization *)

  Lemma factorize_ok mt b n R p m sp vals reg L0 D0 :
    goodBlk b n n R p p true -> (forall i j, R i j -> j < i) -> closedPattern R ->
    inputOf O m sp vals -> spOf sp n n ->
    (forall i j, permLow (entries sp) n p i j -> R i j) ->
    length L0 = c_nnz (b_sp b) -> length D0 = n ->
    exists L D, factorize O mt b (Some m) reg (L0, D0) = Ok (L, D) /\
      length L = c_nnz (b_sp b) /\ length D = n /\
      exists X, kernelRows O mt (b_sp emptyDiagBlk) (b_sp (emptyLeftBlk b)) (b_sp b) n
        (get (b_sp emptyDiagBlk) []) (getD O [])
        (initL O (Some (emptyMatrixInput n 0)) (emptyLeftBlk b) []) (initL O (Some m) b L0)
        (initD O (Some m) b D0) reg
        (get (b_sp (emptyLeftBlk b)) X) (get (b_sp b) L) (getD O D).
  Proof.
    intros G Low Cl HI HS HC HL HD. unfold factorize. cbn [fst snd].
    rewrite (gb_rows _ _ _ _ _ _ _ G).
    destruct (factorize5_ok O mt emptyDiagBlk (emptyLeftBlk b) b 0 n noPat noPat R [] [] p true
       [] [] (Some (emptyMatrixInput n 0)) (Some m) reg [] L0 D0)
      as (X & L & D & E & _ & H2 & H3 & K); auto.
    - apply single_hyp; auto.
    - split.
      + constructor; auto. intros i j [].
      + intros i j (_ & Hj & _). lia.
    - split; auto. rewrite (io_sp _ _ _ _ HI). auto. rewrite (io_sp _ _ _ _ HI). auto.
    - intros k Hk. cbn in Hk. lia.
    - eapply inputOf_readable; eauto.
    - rewrite E. cbn [bind]. exists L, D. split; auto. split; auto. split; auto. exists X. auto.
  Qed.

  (** the result only depends on the values of the lower triangle *)
  Lemma factorize_indep mt b n R p m sp vals m' sp' vals' reg L0 D0 L0' D0' :
    goodBlk b n n R p p true -> (forall i j, R i j -> j < i) -> closedPattern R ->
    inputOf O m sp vals -> spOf sp n n ->
    (forall i j, permLow (entries sp) n p i j -> R i j) ->
    inputOf O m' sp' vals' -> spOf sp' n n ->
    (forall i j, permLow (entries sp') n p i j -> R i j) ->
    (forall i j, j <= i -> i < n ->
       denseAt O (entries sp) vals i j = denseAt O (entries sp') vals' i j) ->
    length L0 = c_nnz (b_sp b) -> length D0 = n ->
    length L0' = c_nnz (b_sp b) -> length D0' = n ->
    factorize O mt b (Some m) reg (L0, D0) = factorize O mt b (Some m') reg (L0', D0').
  Proof.
    intros G Low Cl HI HS HC HI' HS' HC' EV HL HD HL' HD'. unfold factorize. cbn [fst snd].
    rewrite (gb_rows _ _ _ _ _ _ _ G). pose proof (gb_p1 _ _ _ _ _ _ _ G) as P.
    rewrite (factorize5_indep O mt emptyDiagBlk (emptyLeftBlk b) b 0 n noPat noPat R [] [] p true
       [] [] (Some (emptyMatrixInput n 0)) (Some m) (Some (emptyMatrixInput n 0)) (Some m') reg
       [] L0 D0 [] L0' D0'); auto.
    - apply single_hyp; auto.
    - split.
      + constructor; auto. intros i j [].
      + intros i j (_ & Hj & _). lia.
    - split; auto. rewrite (io_sp _ _ _ _ HI). auto. rewrite (io_sp _ _ _ _ HI). auto.
    - split.
      + constructor; auto. intros i j [].
      + intros i j (_ & Hj & _). lia.
    - split; auto. rewrite (io_sp _ _ _ _ HI'). auto. rewrite (io_sp _ _ _ _ HI'). auto.
    - intros k Hk. cbn in Hk. lia.
    - eapply inputOf_readable; eauto.
    - intros k Hk. cbn in Hk. lia.
    - eapply inputOf_readable; eauto.
    - intros i j Hin. cbn [initL]. rewrite !(origP_sym b n R p) by auto.
      rewrite (matVal_dense m sp vals), (matVal_dense m' sp' vals') by auto.
      apply (gb_in _ _ _ _ _ _ _ G) in Hin.
      pose proof (gb_bound _ _ _ _ _ _ _ G _ _ Hin) as [Bi Bj].
      pose proof (isPerm_lt n p i P Bi). pose proof (isPerm_lt n p j P Bj).
      apply EV; lia.
    - intros i Hi. cbn [initD]. rewrite (gb_prow _ _ _ _ _ _ _ G).
      rewrite (matVal_dense m sp vals), (matVal_dense m' sp' vals') by auto.
      pose proof (isPerm_lt n p i P Hi). apply EV; lia.
  Qed.
End Single.

Section SingleExact.
  Context {F : Type} (O : ops F) (FL : fieldLaws O).
  Local Notation get := (getL O).
  Local Notation "0" := (o0 O) : scalar.
  Local Notation "a + b" := (oadd O a b) : scalar.
  Local Notation "a - b" := (osub O a b) : scalar.
  Local Notation "a * b" := (omul O a b) : scalar.
  Local Notation "a / b" := (odiv O a b) : scalar.
  Local Notation sum := (sumn O).
  Add Ring Fr3 : (fl_ring FL).

  Lemma symAt_perm es vals i j : symAt O es vals i j = symAt O es vals j i.
  Proof. unfold symAt. rewrite Nat.max_comm, Nat.min_comm. auto. Qed.

  (** dense equations of one row *)
  Record singleRow (n : nat) (A : nat -> nat -> F) (reg : F -> nat -> F)
      (G : nat -> nat -> F) (D : nat -> F) (i : nat) : Prop := mkSingleRow {
    sr_L : forall j, j < i -> A i j = (sum n (fun k => G i k * D k * G j k) + G i j * D j)%s;
    sr_D : D i = reg (A i i - sum n (fun k => G i k * D k * G i k))%s i }.

  Lemma single_rows mt b n R p m sp vals reg L0 D0 L D X :
    goodBlk b n n R p p true -> (forall i j, R i j -> j < i) -> closedPattern R ->
    inputOf O m sp vals -> spOf sp n n ->
    (forall i j, permLow (entries sp) n p i j -> R i j) ->
    kernelRows O mt (b_sp emptyDiagBlk) (b_sp (emptyLeftBlk b)) (b_sp b) n
        (get (b_sp emptyDiagBlk) []) (getD O [])
        (initL O (Some (emptyMatrixInput n 0)) (emptyLeftBlk b) []) (initL O (Some m) b L0)
        (initD O (Some m) b D0) reg
        (get (b_sp (emptyLeftBlk b)) X) (get (b_sp b) L) (getD O D) ->
    forall i, i < n -> (forall k, k < i -> getD O D k <> 0%s) ->
      singleRow n (fun i j => symAt O (entries sp) vals (nth i p 0%nat) (nth j p 0%nat)) reg
        (get (b_sp b) L) (getD O D) i.
  Proof.
    intros G Low Cl HI HS HC K i Hi HZ.
    pose proof (kernelRows_ldl O FL mt emptyDiagBlk (emptyLeftBlk b) b 0 n noPat noPat R [] [] p
      true [] (getD O []) (Some (emptyMatrixInput n 0)) (Some m) [] L0 (initD O (Some m) b D0)
      reg X L (getD O D) i) as [_ H2 H3]; auto.
    - apply single_hyp; auto.
    - split.
      + constructor; auto. intros a c [].
      + intros a c (_ & Hj & _). lia.
    - split; auto. rewrite (io_sp _ _ _ _ HI). auto. rewrite (io_sp _ _ _ _ HI). auto.
    - intros k Hk. lia.
    - cbn [sumn] in H2, H3. constructor.
      + intros j Hj. unfold symAt. rewrite <- (matVal_dense O m sp vals) by auto.
        specialize (H2 j Hj). cbn [initL] in H2. rewrite (origP_sym b n R p) in H2 by auto.
        rewrite H2. ring.
      + rewrite H3 at 1. f_equal. cbn [initD]. rewrite (gb_prow _ _ _ _ _ _ _ G).
        rewrite (matVal_dense O m sp vals) by auto. unfold symAt.
        rewrite Nat.max_id, Nat.min_id. ring.
  Qed.

  (** from rows to the product of the factors *)
  Lemma rows_product n A reg (G : nat -> nat -> F) D e :
    (forall i j, i <= j -> G i j = 0%s) ->
    (forall i j, A i j = A j i) ->
    (forall i, i < n -> singleRow n A reg G D i) ->
    (forall i, i < n -> e i = (D i - (A i i - sum n (fun k => G i k * D k * G i k)))%s) ->
    let Lh := fun i k => if i =? k then fl_one FL else G i k in
    forall i j, i < n -> j < n ->
      sum n (fun k => Lh i k * D k * Lh j k)%s = plusDiag O A e i j.
  Proof.
    intros GU AS HR He Lh.
    assert (Lo : forall i j, i < n -> j < n -> j < i ->
              sum n (fun k => Lh i k * D k * Lh j k)%s = A i j).
    { intros i j Hi Hj Lt. rewrite (sr_L _ _ _ _ _ _ (HR i Hi) j Lt).
      rewrite <- (sumn_indicator O FL n j (G i j * D j)%s Hj).
      rewrite <- (sumn_plus O FL). apply sumn_ext. intros k Hk. unfold Lh.
      destruct (Nat.eqb_spec k j) as [->|Nj].
      - rewrite Nat.eqb_refl. destruct (Nat.eqb_spec i j); [lia|].
        rewrite (GU j j) by lia. ring.
      - destruct (Nat.eqb_spec j k); [lia|]. destruct (Nat.eqb_spec i k) as [->|].
        + rewrite (GU j k) by lia. ring.
        + ring. }
    intros i j Hi Hj. unfold plusDiag. destruct (Nat.eqb_spec i j) as [->|N].
    - transitivity (sum n (fun k => G j k * D k * G j k) + D j)%s.
      + rewrite <- (sumn_indicator O FL n j (D j) Hj).
        rewrite <- (sumn_plus O FL). apply sumn_ext. intros k Hk. unfold Lh.
        destruct (Nat.eqb_spec k j) as [->|Nj].
        * rewrite Nat.eqb_refl. rewrite (GU j j) by lia. ring.
        * destruct (Nat.eqb_spec j k); [lia|]. ring.
      + rewrite He by auto. ring.
    - destruct (lt_dec j i) as [Lt|Ge]; auto.
      rewrite AS, <- (Lo j i) by lia. apply sumn_ext. intros k Hk. ring.
  Qed.

  (** ** solve *)

  Lemma solve_ok b n R p sy L D rhs :
    goodBlk b n n R p p sy -> (forall i j, R i j -> j < i) ->
    length L = c_nnz (b_sp b) -> length D = n -> length rhs = n ->
    (forall k, k < n -> getD O D k <> 0%s) ->
    exists y z x, solveInPlace O b (L, D) rhs = Ok x /\ length x = n /\
      let Lh := fun i k => if i =? k then fl_one FL else get (b_sp b) L i k in
      (forall i, i < n -> sum n (fun k => Lh i k * y k)%s = vat O p rhs i) /\
      (forall i, i < n -> (z i * getD O D i)%s = y i) /\
      (forall k, k < n -> sum n (fun i => Lh i k * vat O p x i)%s = z k).
  Proof.
    intros G Low HL HD Hr HZ. pose proof G as [W _ r c I _ _ _ P _].
    destruct (fwdSelf_ok O b n R p sy L rhs) as (v1 & E1 & N1 & H1); auto.
    destruct (diagSolve_ok O b n R p sy D v1) as (v2 & E2 & N2 & H2); auto.
    destruct (bwdSelf_ok O b n R p sy L v2) as (v3 & E3 & N3 & H3); auto.
    exists (vat O p v1), (vat O p v2), v3. unfold solveInPlace. cbn [fst snd].
    rewrite E1. cbn [bind]. rewrite E2. cbn [bind]. rewrite E3. split; auto. split; auto.
    cbn zeta.
    assert (GU : forall i j, i <= j -> get (b_sp b) L i j = 0%s).
    { intros i j Hij. apply getL_out. intros H. apply I, Low in H. lia. }
    split; [|split].
    - intros i Hi.
      rewrite (sumn_ext O n _ (fun k => (get (b_sp b) L i k * vat O p v1 k) +
                  (if k =? i then vat O p v1 i else 0))%s).
      + rewrite (sumn_plus O FL), (sumn_indicator O FL) by auto. rewrite (H1 i Hi).
        rewrite (subf_sum O FL _ (cols (b_sp b) i) _ _ n
                   (fun k => (get (b_sp b) L i k * vat O p v1 k)%s)); auto.
        * ring.
        * apply cols_NoDup. eapply goodBlk_gcsr; eauto.
        * intros k Hk. apply cols_In, (wfc_bounds _ W) in Hk. lia.
        * intros k Hk Hn. rewrite getL_out; [ring|]. rewrite <- cols_In. intros Hx. apply Hn; auto.
      + intros k Hk. rewrite Nat.eqb_sym. destruct (Nat.eqb_spec k i) as [->|].
        * rewrite (GU i i) by lia. ring.
        * ring.
    - intros i Hi. rewrite H2 by auto. apply (fl_div FL). auto.
    - intros j Hj.
      rewrite (sumn_ext O n _ (fun i => (get (b_sp b) L i j * vat O p v3 i) +
                  (if i =? j then vat O p v3 j else 0))%s).
      + rewrite (sumn_plus O FL), (sumn_indicator O FL) by auto. rewrite (H3 j Hj).
        rewrite (subf_sum O FL _ (rev (seq 0 n)) _ _ n
                   (fun i => (get (b_sp b) L i j * vat O p v3 i)%s)); auto.
        * ring.
        * apply NoDup_rev, seq_NoDup.
        * intros k Hk. apply in_rev, in_seq in Hk. lia.
        * intros k Hk Hn. rewrite getL_out; [ring|]. intros Hx. apply Hn. split.
          -- apply in_rev. rewrite rev_involutive. apply in_seq. lia.
          -- apply nzb_In. auto.
      + intros k Hk. destruct (Nat.eqb_spec k j) as [->|].
        * rewrite (GU j j) by lia. ring.
        * ring.
  Qed.

  (** ** reordering sums *)

  Lemma suml_perm {A} (l l' : list A) f : Permutation l l' -> suml O l f = suml O l' f.
  Proof.
    induction 1 as [|a l l' _ IH|a c l|l1 l2 l3 _ IH1 _ IH2]; auto.
    - change (f a + suml O l f = f a + suml O l' f)%s. rewrite IH. auto.
    - change (f c + (f a + suml O l f) = f a + (f c + suml O l f))%s. ring.
    - congruence.
  Qed.

  Lemma sumn_perm n p f : isPerm n p -> sum n (fun i => f (nth i p 0%nat)) = sum n f.
  Proof.
    intros P. rewrite <- !(suml_seq O FL).
    rewrite <- (suml_map O (fun i => nth i p 0%nat) (seq 0 n) f).
    apply suml_perm. replace (map (fun i => nth i p 0%nat) (seq 0 n)) with p; auto.
    rewrite <- (isPerm_length n p P) at 1. apply (list_ext _ _ 0%nat).
    - rewrite map_length, seq_length. auto.
    - intros k Hk. symmetry. rewrite (nth_indep _ 0%nat (nth 0 p 0%nat)).
      + rewrite (map_nth (fun i => nth i p 0%nat)), seq_nth; auto.
      + rewrite map_length, seq_length. auto.
  Qed.
End SingleExact.
