(** Inputs that are not covered by the factor are rejected by a static_assert,
    unless they belong to the outer part. *)
From Coq Require Import List Arith Lia Bool.
From Verif Require Import Base ModelPerm ModelSparsity ModelSymbolic ModelNumeric ModelArrow.
From Verif Require Import SpecSymbolic SpecArrow SpecNumeric SpecArrowNum SpecReject.
From Verif Require Import ProofBase ProofPerm ProofCsr ProofSparsity ProofFill ProofFill3
  ProofArrowSym ProofDense ProofUpRow ProofUp ProofEntry ProofExact ProofKernel ProofSolve
  ProofLdl ProofSingle ProofSingleMain ProofMethods ProofArrowRows ProofArrowUniq
  ProofArrowDense ProofArrowProduct ProofArrowMain.
Import ListNotations.

Section Reject.
  Context {F : Type} (O : ops F).

  Definition sizedI (ini : init (F:=F)) nr nc : Prop :=
    match ini with None => True | Some m => spOf (m_sp m) nr nc end.

  Lemma staticAsserts_cases b11 b21 b22 n1 n2 R11 R21 R22 q1 p1 p2 sy1 init21 init22 :
    kernelHyp b11 b21 b22 n1 n2 R11 R21 R22 q1 p1 p2 sy1 ->
    sizedI init21 n2 n1 -> sizedI init22 n2 n2 ->
    (coverRect init21 n2 n1 R21 p2 p1 /\ coverSym init22 n2 R22 p2) \/
    (factorizeStaticAsserts b11 b21 b22 init21 init22 = Err StaticAssert).
  Proof.
    intros KH Z21 Z22. pose proof KH as [G11 G21 G22 Low Cl CH].
    pose proof (staticAsserts_ok (F:=F) b11 b21 b22 n1 n2 R11 R21 R22 q1 p1 p2 sy1 None None
      G11 G21 G22 Low Cl CH I I) as E0.
    unfold factorizeStaticAsserts in E0 |- *.
    destruct (isChordalBlocked (csp (b_sp b11)) (csp (b_sp b21)) (csp (b_sp b22))) as [ch|e];
      [|discriminate]. cbn [bind] in E0 |- *. destruct ch; [|discriminate]. cbn [static_assert bind].
    clear E0.
    pose proof G21 as [W21 _ r21 c21 I21 pr21 pc21 _ P21 Q21].
    pose proof G22 as [W22 _ r22 c22 I22 pr22 pc22 _ P22 Q22].
    (* block 22 *)
    assert (Hs : wf_sp (init_sp init22 b22) /\ nrows (init_sp init22 b22) = n2 /\
        ncols (init_sp init22 b22) = n2).
    { destruct init22 as [m|]; cbn [init_sp].
      - split; [eapply spOf_wf; eauto|]. destruct Z22. auto.
      - split; [intros i j []|]. cbn. auto. }
    destruct Hs as (H1 & H2 & H3).
    destruct (isSparsitySubsetLowerTriangle_ok (init_sp init22 b22) (csp (b_sp b22)) p2)
      as (b & E' & Hb'); auto using wf_csr_sp; try lia.
    { unfold c_rows in *. lia. } { unfold c_cols in *. lia. } { rewrite H2. auto. }
    rewrite pr22, E'. cbn [bind]. destruct b; [|right; reflexivity]. cbn [static_assert bind].
    assert (V22 : coverSym init22 n2 R22 p2).
    { destruct init22 as [m|]; [|exact I]. cbn [init_sp sizedI] in *. split; auto.
      intros i j (Hji & Hi & Hin). apply I22. apply Hb'; auto. lia. }
    clear E' Hb' H1 H2 H3.
    (* block 21 *)
    assert (Hs : wf_sp (init_sp init21 b21) /\ nrows (init_sp init21 b21) = n2 /\
        ncols (init_sp init21 b21) = n1).
    { destruct init21 as [m|]; cbn [init_sp].
      - split; [eapply spOf_wf; eauto|]. destruct Z21. auto.
      - split; [intros i j []|]. cbn. auto. }
    destruct Hs as (H1 & H2 & H3).
    destruct (isSparsitySubset_perm_ok (init_sp init21 b21) (csp (b_sp b21)) (Some p2) (Some p1))
        as (b & E' & Hb'); auto using wf_csr_sp; cbn [value_or]; try lia.
    { unfold c_rows in *. lia. } { unfold c_cols in *. lia. } { rewrite H2. auto. } { rewrite H3. auto. }
    rewrite pr21, pc21, E'. cbn [bind]. destruct b; [|right; reflexivity]. cbn [static_assert bind].
    left. split; auto. destruct init21 as [m|]; [|exact I]. cbn [init_sp sizedI value_or] in *.
    split; auto. intros i j (Hi & Hj & Hin). apply I21. apply Hb'; auto; lia.
  Qed.

  Lemma factorize5_cases mt b11 b21 b22 n1 n2 R11 R21 R22 q1 p1 p2 sy1 L11 D11
      init21 init22 reg L21 L22 D22 :
    kernelHyp b11 b21 b22 n1 n2 R11 R21 R22 q1 p1 p2 sy1 ->
    sizedI init21 n2 n1 -> sizedI init22 n2 n2 ->
    readableI init21 -> readableI init22 ->
    length L11 = c_nnz (b_sp b11) -> length D11 = n1 ->
    length L21 = c_nnz (b_sp b21) -> length L22 = c_nnz (b_sp b22) -> length D22 = n2 ->
    (coverRect init21 n2 n1 R21 p2 p1 /\ coverSym init22 n2 R22 p2 /\
     exists L21' L22' D22',
      factorize5 O mt b11 b21 b22 L11 D11 init21 init22 reg (L21, L22, D22) =
        Ok (L21', L22', D22') /\
      length L21' = c_nnz (b_sp b21) /\ length L22' = c_nnz (b_sp b22) /\ length D22' = n2) \/
    factorize5 O mt b11 b21 b22 L11 D11 init21 init22 reg (L21, L22, D22) = Err StaticAssert.
  Proof.
    intros KH Z21 Z22 Rd21 Rd22 N11 ND1 N21 N22 ND2.
    destruct (staticAsserts_cases b11 b21 b22 n1 n2 R11 R21 R22 q1 p1 p2 sy1 init21 init22 KH Z21 Z22)
      as [[V21 V22]|E].
    - left. split; auto. split; auto.
      destruct (factorize5_ok O mt b11 b21 b22 n1 n2 R11 R21 R22 q1 p1 p2 sy1 L11 D11
        init21 init22 reg L21 L22 D22) as (A & B & D & E & H1 & H2 & H3 & _); auto.
      exists A, B, D. auto.
    - right. destruct mt; cbn [factorize5].
      + unfold factorizeUpLooking. rewrite E. reflexivity.
      + unfold factorizeEntryWise. rewrite E. reflexivity.
  Qed.

  Lemma foldM_seq_or {S} (f : S -> nat -> res S) (P : nat -> S -> Prop) e a n s :
    P a s ->
    (forall i s, a <= i < a + n -> P i s ->
       (exists s', f s i = Ok s' /\ P (1 + i) s') \/ f s i = Err e) ->
    (exists s', foldM f (seq a n) s = Ok s' /\ P (a + n) s') \/ foldM f (seq a n) s = Err e.
  Proof.
    revert a s. induction n as [|n IH]; intros a s HP Hstep; cbn [seq foldM].
    - left. exists s. rewrite Nat.add_0_r. auto.
    - destruct (Hstep a s) as [(s' & E & H)|E]; auto; try lia; rewrite E; cbn [bind]; auto.
      destruct (IH (1 + a) s' H) as [(s'' & E' & H')|E'].
      + intros i t Hi. apply Hstep. lia.
      + left. exists s''. split; auto. replace (a + Datatypes.S n) with (1 + a + n) by lia. auto.
      + auto.
  Qed.

  Section Arrow.
    Variables (s : arrow_sp) (ds dt dl dO : nat) (k : arrow_blks) (P : arrow_pats).
    Hypothesis AG : arrowGood s ds dt dl dO k P.
    Hypothesis AC : arrowChordal P.
    Local Notation ps := (ss_perm (as_start s)).
    Local Notation pt := (st_perm (as_tri s)).
    Local Notation pl := (sl_perm (as_link s)).
    Local Notation po := (so_perm (as_outer s)).
    Local Notation itd m t := (nth t (a_td m) noMat).
    Local Notation its m t := (nth t (a_ts m) noMat).

    Definition sizedMat (m : mat (F:=F)) nr nc := readable m /\ spOf (m_sp m) nr nc.

    Record sizedInner n (m : arrow_mat (F:=F)) : Prop := mkSizedInner {
      zi_sd : sizedMat (a_sd m) ds ds;
      zi_sn : sizedMat (a_sn m) dt ds;
      zi_ntd : length (a_td m) = n + 1;
      zi_td : forall t, t < n + 1 -> sizedMat (itd m t) dt dt;
      zi_nts : length (a_ts m) = n;
      zi_ts : forall t, t < n -> sizedMat (its m t) dt dt;
      zi_lp : sizedMat (a_lp m) dl dt;
      zi_ld : sizedMat (a_ld m) dl dl }.

    Record coveredInner n (m : arrow_mat (F:=F)) : Prop := mkCoveredInner {
      ci_sd : coverSym (Some (a_sd m)) ds (p_sd P) ps;
      ci_sn : coverRect (Some (a_sn m)) dt ds (p_sn P) pt ps;
      ci_td : forall t, t < n + 1 -> coverSym (Some (itd m t)) dt (p_td P) pt;
      ci_ts : forall t, t < n -> coverRect (Some (its m t)) dt dt (p_ts P) pt pt;
      ci_lp : coverRect (Some (a_lp m)) dl dt (p_lp P) pl pt;
      ci_ld : coverSym (Some (a_ld m)) dl (p_ld P) pl }.

    Lemma factorizeTri_cases mt n m reg d :
      dataOf k n ds dt dl dO d -> sizedInner n m ->
      (coveredInner n m) \/ factorizeTri O mt k m reg d = Err StaticAssert.
    Proof.
      intros DO GI.
      destruct DO as [[Nsd1 Nsd2] Nsn Nso Ntd Htd Nts Hts Nlp [Nld1 Nld2] Nln Nos Hos [Nod1 Nod2]].
      destruct GI as [[Rsd Zsd] [Rsn Zsn] Mtd Itd Mts Its [Rlp Zlp] [Rld Zld]].
      unfold factorizeTri, numRepetitions. rewrite Nts.
      destruct (d_sd d) as [Lsd0 Dsd0] eqn:Esd0. cbn [fst snd] in Nsd1, Nsd2.
      unfold factorize. cbn [fst snd]. rewrite (gb_rows _ _ _ _ _ _ _ (ag_sd _ _ _ _ _ _ _ AG)).
      destruct (factorize5_cases mt emptyDiagBlk (emptyLeftBlk (k_sd k)) (k_sd k) 0 ds noPat noPat
         (p_sd P) [] [] ps true [] [] (Some (emptyMatrixInput ds 0)) (Some (a_sd m)) reg [] Lsd0 Dsd0)
        as [(_ & Vsd & X & L & D & E & _ & NL & ND)|E]; auto.
      { eapply hyp_sd; eauto. }
      { constructor; auto; intros i j []. }
      { intros q Hq. cbn in Hq. lia. }
      2:{ rewrite E. right. reflexivity. }
      rewrite E. cbn [bind fst snd]. clear E.
      rewrite (rd_nth (a_td m) 0 noMat) by lia. cbn [bind].
      rewrite (rd_nth (d_td d) 0 ([], [])) by lia. cbn [bind].
      destruct (Htd 0 ltac:(lia)) as [Nt0 Nt0'].
      destruct (factorize5_cases mt (k_sd k) (k_sn k) (k_td k) ds dt (p_sd P) (p_sn P) (p_td P) ps ps pt
         true L D (Some (a_sn m)) (Some (itd m 0)) reg (d_sn d)
         (fst (nth 0 (d_td d) ([], []))) (snd (nth 0 (d_td d) ([], []))))
        as [(Vsn & Vt0 & sn & L0 & D0 & E & Nsn' & NL2 & ND2)|E]; auto.
      { eapply hyp_start; eauto. } { apply (Itd 0); lia. } { apply (Itd 0); lia. }
      2:{ rewrite E. right. reflexivity. }
      rewrite E. cbn [bind]. clear E. rewrite wr_ok by lia. cbn [bind].
      set (f := fun st i => _).
      destruct (foldM_seq_or f (fun i (st : list (list F * list F) * list (list F)) =>
        length (fst st) = n + 1 /\ length (snd st) = n /\
        (forall t, t < n + 1 -> length (fst (nth t (fst st) ([], []))) = c_nnz (b_sp (k_td k)) /\
                                length (snd (nth t (fst st) ([], []))) = dt) /\
        (forall t, t < n -> length (nth t (snd st) []) = c_nnz (b_sp (k_ts k))) /\
        (forall t, t < i -> coverRect (Some (its m t)) dt dt (p_ts P) pt pt /\
                            coverSym (Some (itd m (t + 1))) dt (p_td P) pt)) StaticAssert
        0 n (upd (d_td d) 0 (L0, D0), d_ts d))
        as [([td ts] & E & M1 & M2 & M3 & M4 & M5)|E].
      - cbn [fst snd]. rewrite upd_length. split; [auto|]. split; [auto|]. split; [|split; [auto|]].
        + intros t Ht. rewrite nth_upd by lia. destruct (0 =? t); auto.
        + intros t Ht; lia.
      - intros i [td ts] Hi (M1 & M2 & M3 & M4 & M5). cbn [fst snd] in M1, M2, M3, M4.
        unfold f. cbn [fst snd].
        rewrite (rd_nth td i ([], [])) by lia. cbn [bind].
        rewrite (rd_nth (a_ts m) i noMat) by lia. cbn [bind].
        rewrite (rd_nth (a_td m) (i + 1) noMat) by lia. cbn [bind].
        rewrite (rd_nth ts i []) by lia. cbn [bind].
        rewrite (rd_nth td (i + 1) ([], [])) by lia. cbn [bind].
        destruct (factorize5_cases mt (k_td k) (k_ts k) (k_td k) dt dt (p_td P) (p_ts P) (p_td P)
           pt pt pt
           true (fst (nth i td ([], []))) (snd (nth i td ([], []))) (Some (its m i))
           (Some (itd m (i + 1))) reg (nth i ts []) (fst (nth (i + 1) td ([], [])))
           (snd (nth (i + 1) td ([], [])))) as [(V1 & V2 & A & B & D' & E & NA & NB & ND')|E]; auto;
          try (apply M3; lia); try (apply M4; lia); try (apply (Its i); lia);
          try (apply (Itd (i + 1)); lia).
        { eapply hyp_tri; eauto. }
        2:{ right. rewrite E. reflexivity. }
        left. rewrite E. cbn [bind]. rewrite wr_ok by lia. cbn [bind]. rewrite wr_ok by lia.
        cbn [bind]. eexists. split; [reflexivity|]. cbn [fst snd]. rewrite !upd_length.
        split; [auto|]. split; [auto|]. split; [|split].
        + intros t Ht. rewrite nth_upd by lia. destruct (i + 1 =? t); auto.
        + intros t Ht. rewrite nth_upd by lia. destruct (i =? t); auto.
        + intros t Ht. destruct (Nat.eq_dec t i) as [->|N]; auto. apply M5. lia.
      - rewrite E. cbn [bind]. cbn [fst snd] in M1, M2, M3, M4, M5.
        rewrite (rd_nth td n ([], [])) by lia. cbn [bind].
        destruct (M3 n ltac:(lia)) as [Nn1 Nn2].
        destruct (factorize5_cases mt (k_td k) (k_lp k) (k_ld k) dt dl (p_td P) (p_lp P) (p_ld P)
           pt pt pl
           true (fst (nth n td ([], []))) (snd (nth n td ([], []))) (Some (a_lp m)) (Some (a_ld m)) reg
           (d_lp d) (fst (d_ld d)) (snd (d_ld d)))
          as [(V1 & V2 & A & B & D' & E' & NA & NB & ND')|E']; auto.
        { eapply hyp_link; eauto. }
        2:{ right. rewrite E'. reflexivity. }
        left. constructor; auto.
        + intros t Ht. destruct t as [|t]; auto.
          replace (S t) with (t + 1) by lia. apply M5. lia.
        + intros t Ht. apply M5. lia.
      - right. rewrite E. reflexivity.
    Qed.

    (** the input with an empty outer part *)
    Definition noOuter n (m : arrow_mat (F:=F)) : arrow_mat :=
      mkAM (a_sd m) (a_sn m) (emptyMatrixInput dO ds) (a_td m) (a_ts m) (a_lp m) (a_ld m)
        (emptyMatrixInput dO dl) (repeat (emptyMatrixInput dO dt) (n + 1)) (emptyMatrixInput dO dO).

    Lemma empty_rect nr nc R p q : goodRect (F:=F) (emptyMatrixInput nr nc) nr nc R p q.
    Proof.
      split; [intros x Hx; cbn in Hx; lia|]. split; [constructor; auto; intros i j []|].
      intros i j (_ & _ & []).
    Qed.
    Lemma empty_sym n R p : goodSym (F:=F) (emptyMatrixInput n n) n R p.
    Proof.
      split; [intros x Hx; cbn in Hx; lia|]. split; [constructor; auto; intros i j []|].
      intros i j (_ & _ & []).
    Qed.

    Lemma covered_factorize mt n m reg d :
      dataOf k n ds dt dl dO d -> sizedInner n m -> coveredInner n m -> readOuter n m ->
      exists d', arrowFactorize O mt k m reg d = Ok d' /\ dataOf k n ds dt dl dO d' /\
        arrowRows O ds dt dl dO k mt m reg n d'.
    Proof.
      intros DO Z V RO.
      assert (GI : goodInput s ds dt dl dO P n (noOuter n m)).
      { destruct Z as [[? ?] [? ?] Z1 Z2 Z3 Z4 [? ?] [? ?]]. destruct V as [V1 V2 V3 V4 V5 V6].
        unfold noOuter. constructor; cbn [a_sd a_sn a_so a_td a_ts a_lp a_ld a_ln a_os a_od];
          rewrite ?repeat_length; auto using empty_rect, empty_sym; try (split; assumption).
        - intros t Ht. split; [apply Z2|apply V3]; auto.
        - intros t Ht. split; [apply Z4|apply V4]; auto.
        - intros t Ht. rewrite nth_repeat' by auto. apply empty_rect. }
      destruct (factorizeTri_ok O s ds dt dl dO k P AG AC mt n (noOuter n m) reg d DO GI)
        as (d1 & E1 & DO1 & TR & _).
      assert (TR' : triRows O ds dt dl k mt m reg n d1) by (destruct TR; constructor; assumption).
      unfold arrowFactorize. change (factorizeTri O mt k m reg d = Ok d1) in E1. rewrite E1.
      cbn [bind]. destruct (factorizeOuter_ok O s ds dt dl dO k P AG AC mt n m reg d1 DO1 RO TR') as (d2 & E2 & D2 & R2). exists d2. auto.
    Qed.
  End Arrow.

  Lemma pair_dec (x y : nat * nat) : {x = y} + {x <> y}.
  Proof. decide equality; apply Nat.eq_dec. Qed.

  Lemma cover_sym_of m n p (R : pattern) es : spOf (m_sp m) n n ->
    (forall i j, In (i, j) es <-> R i j) -> ~ uncoveredSym (F:=F) m n p es ->
    coverSym (Some m) n R p.
  Proof.
    intros Z I N. split; auto. intros i j H. apply I.
    destruct (in_dec pair_dec (i, j) es); auto. destruct N. exists i, j. auto.
  Qed.
  Lemma cover_rect_of m nr nc p q (R : pattern) es : spOf (m_sp m) nr nc ->
    (forall i j, In (i, j) es <-> R i j) -> ~ uncoveredRect (F:=F) m nr nc p q es ->
    coverRect (Some m) nr nc R p q.
  Proof.
    intros Z I N. split; auto. intros i j H. apply I.
    destruct (in_dec pair_dec (i, j) es); auto. destruct N. exists i, j. auto.
  Qed.

  Lemma no_sym m n p (R : pattern) es :
    (forall i j, In (i, j) es <-> R i j) -> coverSym (Some m) n R p ->
    ~ uncoveredSym (F:=F) m n p es.
  Proof. intros I [_ V] (i & j & H & N). apply N, I, V, H. Qed.
  Lemma no_rect m nr nc p q (R : pattern) es :
    (forall i j, In (i, j) es <-> R i j) -> coverRect (Some m) nr nc R p q ->
    ~ uncoveredRect (F:=F) m nr nc p q es.
  Proof. intros I [_ V] (i & j & H & N). apply N, I, V, H. Qed.

  Lemma sized_of m nr nc vals : SpecArrowNum.matOf O m nr nc vals -> sizedMat m nr nc.
  Proof. intros [H1 H2]. split; auto. eapply inputOf_readable; eauto. Qed.

  Lemma coveredInner_of s ds dt dl dO k P n m w :
    arrowGood s ds dt dl dO k P -> inputArrow O n ds dt dl dO m w ->
    ~ uncoveredInner s k n ds dt dl m -> coveredInner s ds dt dl P n m.
  Proof.
    intros [Gsd Gsn Gso Gtd Gts Glp Gld Gln Gos God] [I1 I2 I3 N4 I4 N5 I5 I6 I7 I8 N9 I9 I10] U.
    assert (SI : sizedInner ds dt dl n m).
    { constructor; auto; try (eapply sized_of; eauto; fail); intros t Ht; eapply sized_of; eauto. }
    unfold uncoveredInner in U. destruct SI as [[_ ?] [_ ?] Z1 Z2 Z3 Z4 [_ ?] [_ ?]].
    constructor.
    - eapply cover_sym_of; [assumption|eapply gb_in; eauto|]. tauto.
    - eapply cover_rect_of; [assumption|eapply gb_in; eauto|]. tauto.
    - intros t Ht. eapply cover_sym_of; [apply Z2; auto|eapply gb_in; eauto|].
        intros U'. apply U. right. right. left. exists t. auto.
    - intros t Ht. eapply cover_rect_of; [apply Z4; auto|eapply gb_in; eauto|].
        intros U'. apply U. right. right. right. left. exists t. auto.
    - eapply cover_rect_of; [assumption|eapply gb_in; eauto|]. tauto.
    - eapply cover_sym_of; [assumption|eapply gb_in; eauto|]. tauto.
  Qed.

  Theorem arrow_rejects mt s ds dt dl dO k n m w reg d :
    arrowDims s ds dt dl dO -> arrowBlocks s = Ok k -> inputArrow O n ds dt dl dO m w ->
    dataOf k n ds dt dl dO d ->
    (uncoveredInner s k n ds dt dl m -> arrowFactorize O mt k m reg d = Err StaticAssert) /\
    (~ uncoveredInner s k n ds dt dl m ->
     exists d', arrowFactorize O mt k m reg d = Ok d' /\ dataOf k n ds dt dl dO d').
  Proof.
    intros HD HB IA DO.
    destruct (arrowBlocks_ok s ds dt dl dO HD) as (k' & P & EB & AG & AC & _).
    rewrite HB in EB. injection EB as <-.
    pose proof IA as [I1 I2 I3 N4 I4 N5 I5 I6 I7 I8 N9 I9 I10].
    assert (SI : sizedInner ds dt dl n m).
    { constructor; auto; try (eapply sized_of; eauto; fail); intros t Ht; eapply sized_of; eauto. }
    assert (RO : readOuter n m).
    { constructor; auto; try (eapply sized_of; eauto; fail). intros t Ht. eapply sized_of; eauto. }
    pose proof AG as [Gsd Gsn Gso Gtd Gts Glp Gld Gln Gos God].
    split.
    - intros U. destruct (factorizeTri_cases s ds dt dl dO k P AG AC mt n m reg d DO SI) as [V|E].
      + exfalso. destruct V as [V1 V2 V3 V4 V5 V6].
        destruct U as [U|[U|[(t & Ht & U)|[(t & Ht & U)|[U|U]]]]]; revert U;
          first [eapply no_sym | eapply no_rect]; eauto; eapply gb_in; eauto.
      + unfold arrowFactorize. rewrite E. reflexivity.
    - intros U. destruct (covered_factorize s ds dt dl dO k P AG AC mt n m reg d DO SI)
        as (d' & E & D' & _); auto; [|exists d'; auto].
      eapply coveredInner_of; eauto.
  Qed.

  (** ** only values at stored positions matter *)

  Lemma kernelRows_ext mt c11 c21 c22 n2 G11 D1 a21 a22 ad a21' a22' ad' reg G21 G22 D2 :
    (forall i j, In (i, j) (c_entries c21) -> a21 i j = a21' i j) ->
    (forall i j, In (i, j) (c_entries c22) -> a22 i j = a22' i j) ->
    (forall i, i < n2 -> ad i = ad' i) ->
    kernelRows O mt c11 c21 c22 n2 G11 D1 a21 a22 ad reg G21 G22 D2 ->
    kernelRows O mt c11 c21 c22 n2 G11 D1 a21' a22' ad' reg G21 G22 D2.
  Proof.
    intros E1 E2 E3. destruct mt; cbn [kernelRows].
    - intros (s1 & s2 & H). exists s1, s2. intros i Hi. destruct (H i Hi) as [H1 H2 H3 H4 H5].
      constructor; auto.
      + intros j Hj. rewrite <- E1 by (apply cols_In; auto). auto.
      + intros j Hj. rewrite <- E2 by (apply cols_In; auto). auto.
      + rewrite <- E3; auto.
    - intros H i Hi. destruct (H i Hi) as [H1 H2 H3]. constructor.
      + intros j Hj. rewrite <- E1 by (apply cols_In; auto). auto.
      + intros j Hj. rewrite <- E2 by (apply cols_In; auto). auto.
      + rewrite <- E3; auto.
  Qed.

  (** two inputs give the same initial values *)
  Definition sameL (b : blk) (m m' : mat (F:=F)) : Prop :=
    forall i j, In (i, j) (c_entries (b_sp b)) ->
      initL O (Some m) b [] i j = initL O (Some m') b [] i j.
  Definition sameD (b : blk) n (m m' : mat (F:=F)) : Prop :=
    forall i, i < n -> initD O (Some m) b [] i = initD O (Some m') b [] i.

  Lemma step5_ext mt b11 b21 b22 n2 L11 D11 m1 m2 m1' m2' reg A B D :
    sameL b21 m1 m1' -> sameL b22 m2 m2' -> sameD b22 n2 m2 m2' ->
    step5 O mt b11 b21 b22 n2 L11 D11 (Some m1) (Some m2) reg [] [] [] A B D ->
    step5 O mt b11 b21 b22 n2 L11 D11 (Some m1') (Some m2') reg [] [] [] A B D.
  Proof. intros E1 E2 E3. apply kernelRows_ext; auto. Qed.

  Lemma stepP_ext b11 b21 b31 b32 b33 n3 L11 D11 L21 i31 i32 i33 i31' i32'
      L31 L32 L33 D33 A B C D :
    (forall i j, In (i, j) (c_entries (b_sp b31)) ->
       initL O i31 b31 L31 i j = initL O i31' b31 L31 i j) ->
    (forall i j, In (i, j) (c_entries (b_sp b32)) ->
       initL O i32 b32 L32 i j = initL O i32' b32 L32 i j) ->
    stepP O b11 b21 b31 b32 b33 n3 L11 D11 L21 i31 i32 i33 L31 L32 L33 D33 A B C D ->
    stepP O b11 b21 b31 b32 b33 n3 L11 D11 L21 i31' i32' i33 L31 L32 L33 D33 A B C D.
  Proof.
    intros E1 E2 (s & H). exists s. intros i Hi. destruct (H i Hi) as [H1 H2 H3 H4 H5].
    constructor; auto.
    - intros j Hj. rewrite <- E1 by (apply cols_In; auto). auto.
    - intros j Hj. rewrite <- E2 by (apply cols_In; auto). auto.
  Qed.

  Lemma arrowRows_ext ds dt dl dO k mt n m m' reg d :
    sameL (k_sd k) (a_sd m) (a_sd m') -> sameD (k_sd k) ds (a_sd m) (a_sd m') ->
    sameL (k_sn k) (a_sn m) (a_sn m') -> sameL (k_so k) (a_so m) (a_so m') ->
    (forall t, t < n + 1 -> sameL (k_td k) (nth t (a_td m) noMat) (nth t (a_td m') noMat) /\
                            sameD (k_td k) dt (nth t (a_td m) noMat) (nth t (a_td m') noMat)) ->
    (forall t, t < n -> sameL (k_ts k) (nth t (a_ts m) noMat) (nth t (a_ts m') noMat)) ->
    sameL (k_lp k) (a_lp m) (a_lp m') ->
    sameL (k_ld k) (a_ld m) (a_ld m') -> sameD (k_ld k) dl (a_ld m) (a_ld m') ->
    sameL (k_ln k) (a_ln m) (a_ln m') ->
    (forall t, t < n + 1 -> sameL (k_os k) (nth t (a_os m) noMat) (nth t (a_os m') noMat)) ->
    sameL (k_od k) (a_od m) (a_od m') -> sameD (k_od k) dO (a_od m) (a_od m') ->
    arrowRows O ds dt dl dO k mt m reg n d -> arrowRows O ds dt dl dO k mt m' reg n d.
  Proof.
    intros S1 S1' S2 S3 S4 S5 S6 S7 S7' S8 S9 S10 S10' ([A1 A2 A3 A4] & Z & Y & ln & B).
    destruct B as [B1 B2 B3 B4 B5 B6 B7 B8].
    split.
    - constructor.
      + destruct A1 as (X & A1). exists X. revert A1. apply step5_ext; auto. intros i j H. reflexivity.
      + revert A2. apply step5_ext; auto; apply S4; lia.
      + intros t Ht. generalize (A3 t Ht). apply step5_ext; auto; apply S4; lia.
      + revert A4. apply step5_ext; auto.
    - exists Z, Y, ln. constructor; auto.
      + destruct B4 as [F1 F2 F3 F4]. constructor; auto.
        * intros i j H. rewrite <- S10; auto.
        * intros i H. rewrite <- S10'; auto.
      + revert B5. apply stepP_ext; auto. apply S9. lia.
      + intros t Ht. generalize (B6 t Ht). apply stepP_ext; auto. apply S9. lia.
      + revert B7. apply stepP_ext; auto.
  Qed.

  Ltac inb := first [assumption | split; [lia|assumption] | lia].

  Lemma bnd b nr nc R p q sy i j : goodBlk b nr nc R p q sy -> In (i, j) (c_entries (b_sp b)) ->
    i < nr /\ j < nc.
  Proof. intros G H. apply (gb_bound _ _ _ _ _ _ _ G). apply (gb_in _ _ _ _ _ _ _ G). auto. Qed.

  Theorem arrow_only_stored mt s ds dt dl dO k n m w m' w' reg d d' :
    arrowDims s ds dt dl dO -> arrowBlocks s = Ok k ->
    inputArrow O n ds dt dl dO m w -> inputArrow O n ds dt dl dO m' w' ->
    dataOf k n ds dt dl dO d -> dataOf k n ds dt dl dO d' ->
    ~ uncoveredInner s k n ds dt dl m -> ~ uncoveredInner s k n ds dt dl m' ->
    (forall g h, In g (allIdx n ds dt dl dO) -> In h (allIdx n ds dt dl dO) ->
       g = h \/ storedAt k n g h ->
       matAt O m w (permIdx s g) (permIdx s h) = matAt O m' w' (permIdx s g) (permIdx s h)) ->
    arrowFactorize O mt k m reg d = arrowFactorize O mt k m' reg d'.
  Proof.
    intros HD HB IA IA' DO DO' U U' EV.
    destruct (arrowBlocks_ok s ds dt dl dO HD) as (k' & P & EB & AG & AC & _).
    rewrite HB in EB. injection EB as <-.
    assert (R : forall m w d, inputArrow O n ds dt dl dO m w -> dataOf k n ds dt dl dO d ->
       ~ uncoveredInner s k n ds dt dl m ->
       exists r, arrowFactorize O mt k m reg d = Ok r /\ dataOf k n ds dt dl dO r /\
         arrowRows O ds dt dl dO k mt m reg n r).
    { clear - HD HB AG AC. intros m w d IA DO U.
      pose proof IA as [I1 I2 I3 N4 I4 N5 I5 I6 I7 I8 N9 I9 I10].
      apply (covered_factorize s ds dt dl dO k P AG AC); auto.
      - constructor; auto; try (eapply sized_of; eauto; fail); intros t Ht; eapply sized_of; eauto.
      - eapply coveredInner_of; eauto.
      - constructor; auto; try (eapply sized_of; eauto; fail). intros t Ht. eapply sized_of; eauto. }
    destruct (R m w d IA DO U) as (r & E & D1 & R1).
    destruct (R m' w' d' IA' DO' U') as (r' & E' & D1' & R1').
    rewrite E, E'. f_equal. eapply (arrowRows_unique O s ds dt dl dO k P AG AC mt n m'); eauto.
    pose proof IA as [I1 I2 I3 N4 I4 N5 I5 I6 I7 I8 N9 I9 I10].
    pose proof IA' as [I1' I2' I3' N4' I4' N5' I5' I6' I7' I8' N9' I9' I10'].
    pose proof AG as [Gsd Gsn Gso Gtd Gts Glp Gld Gln Gos God].
    unfold matAt in EV. rewrite N5, N5' in EV.
    revert R1. apply arrowRows_ext.
    - intros i j H. destruct (bnd _ _ _ _ _ _ _ _ _ Gsd H).
      rewrite (symVal O _ _ _ _ _ _ _ _ _ _ _ Gsd I1), (symVal O _ _ _ _ _ _ _ _ _ _ _ Gsd I1').
      apply (EV (GS i) (GS j)); [apply in_allIdx; inb|apply in_allIdx; inb|]. right. exact H.
    - intros i H.
      rewrite (symValD O _ _ _ _ _ _ _ _ _ _ Gsd I1), (symValD O _ _ _ _ _ _ _ _ _ _ Gsd I1').
      apply (EV (GS i) (GS i)); [apply in_allIdx; inb|apply in_allIdx; inb|]. auto.
    - intros i j H. destruct (bnd _ _ _ _ _ _ _ _ _ Gsn H).
      rewrite (rectVal O _ _ _ _ _ _ _ _ _ _ _ _ _ Gsn I2), (rectVal O _ _ _ _ _ _ _ _ _ _ _ _ _ Gsn I2').
      apply (EV (GT 0 i) (GS j)); [apply in_allIdx; inb|apply in_allIdx; inb|]. right. split; auto.
    - intros i j H. destruct (bnd _ _ _ _ _ _ _ _ _ Gso H).
      rewrite (rectVal O _ _ _ _ _ _ _ _ _ _ _ _ _ Gso I3), (rectVal O _ _ _ _ _ _ _ _ _ _ _ _ _ Gso I3').
      apply (EV (GO i) (GS j)); [apply in_allIdx; inb|apply in_allIdx; inb|]. right. exact H.
    - intros t Ht. split.
      + intros i j H. destruct (bnd _ _ _ _ _ _ _ _ _ Gtd H).
        rewrite (symVal O _ _ _ _ _ _ _ _ _ _ _ Gtd (I4 t Ht)), (symVal O _ _ _ _ _ _ _ _ _ _ _ Gtd (I4' t Ht)).
        pose proof (EV (GT t i) (GT t j)) as Q. cbn [permIdx symArrow matFun f_td] in Q.
        rewrite Nat.eqb_refl in Q. apply Q; [apply in_allIdx; inb|apply in_allIdx; inb|]. right. left. auto.
      + intros i H.
        rewrite (symValD O _ _ _ _ _ _ _ _ _ _ Gtd (I4 t Ht)), (symValD O _ _ _ _ _ _ _ _ _ _ Gtd (I4' t Ht)).
        pose proof (EV (GT t i) (GT t i)) as Q. cbn [permIdx symArrow matFun f_td] in Q.
        rewrite Nat.eqb_refl in Q. apply Q; [apply in_allIdx; inb|apply in_allIdx; inb|]. auto.
    - intros t Ht i j H. destruct (bnd _ _ _ _ _ _ _ _ _ Gts H).
      rewrite (rectVal O _ _ _ _ _ _ _ _ _ _ _ _ _ Gts (I5 t Ht)), (rectVal O _ _ _ _ _ _ _ _ _ _ _ _ _ Gts (I5' t Ht)).
      pose proof (EV (GT (t + 1) i) (GT t j)) as Q. cbn [permIdx symArrow matFun f_ts] in Q.
      rewrite Nat.eqb_refl in Q. replace (t + 1 =? t) with false in Q
        by (symmetry; apply Nat.eqb_neq; lia).
      apply Q; [apply in_allIdx; inb|apply in_allIdx; inb|]. right. right. auto.
    - intros i j H. destruct (bnd _ _ _ _ _ _ _ _ _ Glp H).
      rewrite (rectVal O _ _ _ _ _ _ _ _ _ _ _ _ _ Glp I6), (rectVal O _ _ _ _ _ _ _ _ _ _ _ _ _ Glp I6').
      pose proof (EV (GL i) (GT n j)) as Q. cbn [permIdx symArrow matFun f_lp] in Q.
      rewrite Nat.eqb_refl in Q.
      apply Q; [apply in_allIdx; auto|apply in_allIdx; split; auto; lia|]. right. split; auto.
    - intros i j H. destruct (bnd _ _ _ _ _ _ _ _ _ Gld H).
      rewrite (symVal O _ _ _ _ _ _ _ _ _ _ _ Gld I7), (symVal O _ _ _ _ _ _ _ _ _ _ _ Gld I7').
      apply (EV (GL i) (GL j)); [apply in_allIdx; inb|apply in_allIdx; inb|]. right. exact H.
    - intros i H.
      rewrite (symValD O _ _ _ _ _ _ _ _ _ _ Gld I7), (symValD O _ _ _ _ _ _ _ _ _ _ Gld I7').
      apply (EV (GL i) (GL i)); [apply in_allIdx; inb|apply in_allIdx; inb|]. auto.
    - intros i j H. destruct (bnd _ _ _ _ _ _ _ _ _ Gln H).
      rewrite (rectVal O _ _ _ _ _ _ _ _ _ _ _ _ _ Gln I8), (rectVal O _ _ _ _ _ _ _ _ _ _ _ _ _ Gln I8').
      apply (EV (GO i) (GL j)); [apply in_allIdx; inb|apply in_allIdx; inb|]. right. exact H.
    - intros t Ht i j H. destruct (bnd _ _ _ _ _ _ _ _ _ Gos H).
      rewrite (rectVal O _ _ _ _ _ _ _ _ _ _ _ _ _ Gos (I9 t Ht)), (rectVal O _ _ _ _ _ _ _ _ _ _ _ _ _ Gos (I9' t Ht)).
      apply (EV (GO i) (GT t j)); [apply in_allIdx; inb|apply in_allIdx; inb|]. right. exact H.
    - intros i j H. destruct (bnd _ _ _ _ _ _ _ _ _ God H).
      rewrite (symVal O _ _ _ _ _ _ _ _ _ _ _ God I10), (symVal O _ _ _ _ _ _ _ _ _ _ _ God I10').
      apply (EV (GO i) (GO j)); [apply in_allIdx; inb|apply in_allIdx; inb|]. right. exact H.
    - intros i H.
      rewrite (symValD O _ _ _ _ _ _ _ _ _ _ God I10), (symValD O _ _ _ _ _ _ _ _ _ _ God I10').
      apply (EV (GO i) (GO i)); [apply in_allIdx; inb|apply in_allIdx; inb|]. auto.
  Qed.

  (** ** a single matrix *)

  Theorem single_rejects mt s n p b a vals m reg L0 D0 :
    spOf s n n -> validPerm n p -> factorizationBlk s p = Ok b ->
    spOf a n n -> inputOf O m a vals ->
    length L0 = c_nnz (b_sp b) -> length D0 = n ->
    (exists i j, permLow (entries a) n p i j /\ ~ Fill (permLow (entries s) n p) i j) ->
    factorize O mt b (Some m) reg (L0, D0) = Err StaticAssert.
  Proof.
    intros HS HP HB HA HI NL ND (i & j & H & N).
    destruct (block_ok s n p HS HP) as (b' & EB & G). rewrite HB in EB. injection EB as <-.
    unfold factorize. cbn [fst snd]. rewrite (gb_rows _ _ _ _ _ _ _ G).
    destruct (factorize5_cases mt emptyDiagBlk (emptyLeftBlk b) b 0 n noPat noPat
         (Fill (permLow (entries s) n p)) [] [] p true [] [] (Some (emptyMatrixInput n 0)) (Some m) reg
         [] L0 D0) as [(_ & V & _)|E]; auto.
    - apply single_hyp; auto using Fill_closed. intros x y. apply Fill_low.
    - constructor; auto; intros x y [].
    - destruct HI as [E _]. cbn [sizedI]. rewrite E. auto.
    - intros x Hx. cbn in Hx. lia.
    - eapply inputOf_readable; eauto.
    - exfalso. destruct V as [_ V]. destruct HI as [E _]. rewrite E in V. apply N, V, H.
    - rewrite E. reflexivity.
  Qed.
End Reject.
