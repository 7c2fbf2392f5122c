(** The sparse factorization computes the same values as the dense one. *)
From Coq Require Import Lia List Arith Bool Permutation Sorted.
From Verif Require Import Base ModelPerm ModelSparsity ModelSymbolic ModelNumeric ModelArrow ModelReg.
From Verif Require Import SpecSymbolic SpecArrow SpecNumeric SpecAgree.
From Verif Require Import ProofBase ProofPerm ProofCsr ProofFill ProofDense ProofKernel
  ProofSingle ProofSingleMain ProofArrowSym ProofArrowSub ProofChain ProofChainKernel ProofRoundMain ProofRoundUser
  ProofAgree ProofPropAgree.
Import ListNotations.
Local Open Scope nat_scope.

Section Dense.
  Context {F : Type} (O : ops F).

  Lemma minusAll_subl {I} a (l : list I) t : minusAll O a l t = subl O a l t.
  Proof. reflexivity. Qed.

  (** ** there is exactly one dense factorization *)
  Definition dterm mt dg (L S : nat -> nat -> F) (D : nat -> F) (i j k : nat) : F :=
    termF O (kernForm mt dg) (L i k) (L j k) (S i k) (D k).

  Lemma denseLDL_terms mt reg n A L S D : denseLDL O mt reg n A L S D <->
    (forall i j, j < i -> i < n -> S i j = subl O (A i j) (seq 0 j) (dterm mt false L S D i j)) /\
    (forall i j, j < i -> i < n -> L i j = odiv O (S i j) (D j)) /\
    (forall i, i < n -> D i = reg (subl O (A i i) (seq 0 i) (dterm mt true L S D i i)) i).
  Proof.
    split.
    - intros [H1 H2 H3]. split; [|split]; auto.
      + intros i j Hj Hi. rewrite H1 by auto. destruct mt; reflexivity.
      + intros i Hi. rewrite H3 by auto. destruct mt; reflexivity.
    - intros (H1 & H2 & H3). constructor; auto.
      + intros i j Hj Hi. rewrite H1 by auto. destruct mt; reflexivity.
      + intros i Hi. rewrite H3 by auto. destruct mt; reflexivity.
  Qed.

  Lemma dense_row mt (A L : nat -> nat -> F) (D : nat -> F) i m : m <= i ->
    exists S : nat -> F, forall j, j < m ->
      S j = subl O (A i j) (seq 0 j)
        (fun k => termF O (kernForm mt false) (odiv O (S k) (D k)) (L j k) (S k) (D k)).
  Proof.
    induction m as [|m IH]; intros Hm.
    - exists (fun _ => o0 O). intros; lia.
    - destruct IH as (S & HS); [lia|].
      set (v := subl O (A i m) (seq 0 m)
        (fun k => termF O (kernForm mt false) (odiv O (S k) (D k)) (L m k) (S k) (D k))).
      exists (fun j => if j =? m then v else S j). intros j Hj.
      destruct (Nat.eqb_spec j m) as [->|N].
      + unfold v. apply subl_ext. intros k Hk. apply in_seq in Hk.
        destruct (Nat.eqb_spec k m); [lia|auto].
      + rewrite HS by lia. apply subl_ext. intros k Hk. apply in_seq in Hk.
        destruct (Nat.eqb_spec k m); [lia|auto].
  Qed.

  Lemma dense_exists mt reg n A : exists L S D, denseLDL O mt reg n A L S D.
  Proof.
    induction n as [|n (L & S & D & H)].
    - exists (fun _ _ => o0 O), (fun _ _ => o0 O), (fun _ => o0 O). constructor; intros; lia.
    - destruct (dense_row mt A L D n n (le_n _)) as (SR & HS).
      apply denseLDL_terms in H. destruct H as (H1 & H2 & H3).
      set (L' := fun i j => if i =? n then odiv O (SR j) (D j) else L i j).
      set (S' := fun i j => if i =? n then SR j else S i j).
      set (d := reg (subl O (A n n) (seq 0 n) (dterm mt true L' S' D n n)) n).
      set (D' := fun i => if i =? n then d else D i).
      exists L', S', D'. apply denseLDL_terms.
      assert (OL : forall i j, i < n -> L' i j = L i j).
      { intros i j Hi. unfold L'. destruct (Nat.eqb_spec i n); [lia|auto]. }
      assert (OS : forall i j, i < n -> S' i j = S i j).
      { intros i j Hi. unfold S'. destruct (Nat.eqb_spec i n); [lia|auto]. }
      assert (OD : forall i, i < n -> D' i = D i).
      { intros i Hi. unfold D'. destruct (Nat.eqb_spec i n); [lia|auto]. }
      assert (NL : forall j, L' n j = odiv O (SR j) (D j)) by (intros; unfold L'; rewrite Nat.eqb_refl; auto).
      assert (NS : forall j, S' n j = SR j) by (intros; unfold S'; rewrite Nat.eqb_refl; auto).
      assert (ND : D' n = d) by (unfold D'; rewrite Nat.eqb_refl; auto).
      split; [|split].
      + intros i j Hj Hi. destruct (Nat.eq_dec i n) as [->|N].
        * rewrite NS, HS by auto. apply subl_ext. intros k Hk. apply in_seq in Hk.
          unfold dterm. rewrite NL, OL, NS, OD by lia. auto.
        * rewrite OS, H1 by lia. apply subl_ext. intros k Hk. apply in_seq in Hk.
          unfold dterm. rewrite !OL, OS, OD by lia. auto.
      + intros i j Hj Hi. destruct (Nat.eq_dec i n) as [->|N].
        * rewrite NL, NS, OD by lia. auto.
        * rewrite OL, OS, OD by lia. apply H2; lia.
      + intros i Hi. destruct (Nat.eq_dec i n) as [->|N].
        * rewrite ND. unfold d. f_equal. apply subl_ext. intros k Hk. apply in_seq in Hk.
          unfold dterm. rewrite OD by lia. auto.
        * rewrite OD, H3 by lia. f_equal. apply subl_ext. intros k Hk. apply in_seq in Hk.
          unfold dterm. rewrite !OL, OS, OD by lia. auto.
  Qed.

  Lemma dense_unique mt reg n A L S D L' S' D' :
    denseLDL O mt reg n A L S D -> denseLDL O mt reg n A L' S' D' ->
    (forall i j, j < i -> i < n -> L i j = L' i j) /\ (forall i, i < n -> D i = D' i).
  Proof.
    rewrite !denseLDL_terms. intros (H1 & H2 & H3) (H1' & H2' & H3').
    assert (K : forall N i, i < N -> i < n -> D i = D' i /\ forall j, j < i -> S i j = S' i j /\ L i j = L' i j).
    { induction N as [|N IH]; intros i Li Hi; [lia|].
      assert (KR : forall M j, j < M -> j < i -> S i j = S' i j /\ L i j = L' i j).
      { induction M as [|M IM]; intros j Lj Hj; [lia|].
        assert (E : S i j = S' i j).
        { rewrite H1, H1' by auto. apply subl_ext. intros k Hk. apply in_seq in Hk.
          destruct (IM k ltac:(lia) ltac:(lia)) as [E1 E2]. destruct (IH j ltac:(lia) ltac:(lia)) as [_ E3].
          destruct (E3 k ltac:(lia)) as [_ E4]. destruct (IH k ltac:(lia) ltac:(lia)) as [E5 _].
          unfold dterm. congruence. }
        split; auto. rewrite H2, H2' by auto. destruct (IH j ltac:(lia) ltac:(lia)) as [E5 _]. congruence. }
      split; [|intros j Hj; apply (KR (Datatypes.S j)); auto].
      rewrite H3, H3' by auto. f_equal. apply subl_ext. intros k Hk. apply in_seq in Hk.
      destruct (KR (Datatypes.S k) k ltac:(lia) ltac:(lia)) as [E1 E2].
      destruct (IH k ltac:(lia) ltac:(lia)) as [E5 _]. unfold dterm. congruence. }
    split.
    - intros i j Hj Hi. apply (K (Datatypes.S i)); auto.
    - intros i Hi. apply (K (Datatypes.S i)); auto.
  Qed.

  Definition lowOf (L : nat -> nat -> F) (i j : nat) : F := if j <? i then L i j else o0 O.

  Lemma common_seq g h : h < g -> common Nat.eq_dec (seq 0) g h = seq 0 h.
  Proof.
    intros Hh. unfold common. symmetry.
    rewrite (sorted_sub Nat.eq_dec lt Nat.lt_irrefl Nat.lt_trans (seq 0 h) (seq 0 g)) at 1; auto using seq_sorted.
    intros x Hx. apply in_seq in Hx. apply in_seq. lia.
  Qed.

  Lemma dense_chained mt reg n A L S D : denseLDL O mt reg n A L S D ->
    chainedF O Nat.eq_dec (seq 0 n) (seq 0) (fun dg _ _ => kernForm mt dg) A (lowOf L) S D reg.
  Proof.
    rewrite denseLDL_terms. intros (H1 & H2 & H3).
    assert (LO : forall i j, j < i -> lowOf L i j = L i j).
    { intros i j H. unfold lowOf. destruct (Nat.ltb_spec j i); [auto|lia]. }
    constructor.
    - intros g h Hg Hh. apply in_seq in Hg. apply in_seq in Hh.
      rewrite LO, H2 by lia. split; auto. rewrite common_seq by lia. rewrite H1 by lia.
      apply reduces_subl. intros k Hk. apply in_seq in Hk. unfold isTermF. rewrite !LO by lia. reflexivity.
    - intros g Hg. apply in_seq in Hg. eexists. split; [|apply H3; lia].
      apply reduces_subl. intros k Hk. apply in_seq in Hk. unfold isTermF. rewrite !LO by lia. reflexivity.
  Qed.

  Lemma dense_goodRun A L n :
    goodRun O Nat.eq_dec (seq 0 n) (fun g => seq 0 g) (seq 0) A (lowOf L).
  Proof.
    constructor.
    - intros g Hg. apply (sorted_sub Nat.eq_dec lt); auto using Nat.lt_irrefl, seq_sorted. intros; lia.
    - intros g h Hg Hh N. unfold lowOf. destruct (Nat.ltb_spec h g); auto. destruct N. apply in_seq. lia.
    - intros g h Hg Hh N. contradiction.
    - auto.
  Qed.
End Dense.

Section User.
  Context {F : Type} (O : ops F) (fin : F -> Prop) (same : F -> F -> Prop).
  Context (R : sameRules O fin same).

  (** finite if the sparse factorization is, or if the dense one is *)
  Lemma single_dense s n p b :
    spOf s n n -> validPerm n p -> factorizationBlk s p = Ok b ->
    forall mt reg a vals m L0 D0,
    spOf a n n -> inputOf O m a vals -> coveredSym (entries a) (entries s) n p ->
    regSame fin same reg ->
    length L0 = c_nnz (b_sp b) -> length D0 = n ->
    exists L D, factorize O mt b (Some m) reg (L0, D0) = Ok (L, D) /\
      forall Ld Sd Dd,
      denseLDL O mt reg n (fun i j => symAt O (entries a) vals (nth i p 0) (nth j p 0)) Ld Sd Dd ->
      ((forall i, i < n -> fin (vecAt O D i) /\ ~ same (vecAt O D i) (o0 O)) /\
       (forall i j, j < i -> i < n -> fin (denseAt O (c_entries (b_sp b)) L i j))) \/
      ((forall i, i < n -> fin (Dd i) /\ ~ same (Dd i) (o0 O)) /\
       (forall i j, j < i -> i < n -> fin (Ld i j))) ->
      (forall i, i < n -> same (vecAt O D i) (Dd i)) /\
      (forall i j, j < i -> i < n -> same (denseAt O (c_entries (b_sp b)) L i j) (Ld i j)).
  Proof.
    intros HS HP HB mt reg a vals m L0 D0 HA HI HC RS N1 N2.
    pose proof (blk_good s n p b HS HP HB) as G. pose proof (blk_low s n p) as Low.
    destruct (factorize_ok O mt b n _ p m a vals reg L0 D0 G Low (Fill_closed _) HI HA HC N1 N2)
      as (L & D & EF & NL & ND & _).
    exists L, D. split; auto. intros Ld Sd Dd DD FF.
    destruct (single_chainedF O mt b n _ p m a vals reg L0 D0 L D G Low (Fill_closed _) HI HA HC N1 N2 EF)
      as (S1 & C1).
    pose proof (single_goodRun O b n _ p m a vals L0 D0 L D mt reg G Low (Fill_closed _) HI HA HC N1 N2 EF) as R1.
    pose proof (dense_chained O mt reg n _ Ld Sd Dd DD) as C2.
    pose proof (dense_goodRun O (fun i j => symAt O (entries a) vals (nth i p 0) (nth j p 0)) Ld n) as R2.
    assert (BR : forall g k, In g (seq 0 n) -> In k (seq 0 g) -> In k (seq 0 n) /\ k < g).
    { intros g k Hg Hk. apply in_seq in Hg. apply in_seq in Hk. rewrite in_seq. lia. }
    assert (RG : forall g v, In g (seq 0 n) -> (fin (reg v g) -> fin v) /\
      forall v', same v v' -> fin (reg v g) -> same (reg v g) (reg v' g)) by (intros; apply RS).
    assert (LO : forall i j, j < i -> lowOf O Ld i j = Ld i j).
    { intros i j H. unfold lowOf. destruct (Nat.ltb_spec j i); [auto|lia]. }
    destruct FF as [[FD FL]|[FD FL]].
    - destruct (runs_same O fin same R Nat.eq_dec (seq 0 n) (fun g => seq 0 g) (fun i => i) BR
        _ reg _ _ _ _ _ S1 _ Sd _ _ R1 R2 C1 C2) as [SD SL]; auto.
      + intros g Hg. apply in_seq in Hg. destruct (FD g ltac:(lia)) as [X1 X2]. split; auto. split; auto.
        intros h Hh. rewrite (getL_dense O) by auto.
        apply cols_In, (gb_in _ _ _ _ _ _ _ G), Low in Hh. apply FL; lia.
      + intros g h _ _. left. auto.
      + split; [intros i Hi; apply SD, in_seq; lia|].
        intros i j Hj Hi. rewrite <- (getL_dense O), <- (LO i j) by auto. apply SL; apply in_seq; lia.
    - destruct (runs_same O fin same R Nat.eq_dec (seq 0 n) (fun g => seq 0 g) (fun i => i) BR
        _ reg _ _ _ _ _ Sd _ S1 _ _ R2 R1 C2 C1) as [SD SL]; auto.
      + intros g Hg. apply in_seq in Hg. destruct (FD g ltac:(lia)) as [X1 X2]. split; auto. split; auto.
        intros h Hh. apply in_seq in Hh. rewrite LO by lia. apply FL; lia.
      + intros g h _ _. left. auto.
      + split; [intros i Hi; apply (sm_sym _ _ _ R), SD, in_seq; lia|].
        intros i j Hj Hi. rewrite <- (getL_dense O), <- (LO i j) by auto.
        apply (sm_sym _ _ _ R), SL; apply in_seq; lia.
  Qed.
End User.
