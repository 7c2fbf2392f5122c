(** Block tridiagonal systems, and a start block that causes superfluous storage. *)
From Coq Require Import List Arith Lia Bool Permutation.
From Verif Require Import Base ModelPerm ModelSparsity ModelSymbolic ModelNumeric ModelArrow ModelReg.
From Verif Require Import SpecSymbolic SpecArrow SpecNumeric SpecArrowNum SpecPivot SpecSign
  SpecDominant SpecTight SpecZero.
From Verif Require Import ProofBase ProofPivot ProofInertia ProofArrowProduct ProofArrowMain ProofRoundTri
  ProofPropArrow ProofPropPivot ProofSign ProofDominant ProofPropDominant ProofTight ProofTightNum ProofZero.
Import ListNotations.
Local Open Scope nat_scope.

Section Tri.
  Context {F : Type} (O : ops F) (FL : fieldLaws O) (OL : ordLaws FL).
  Local Notation "0" := (o0 O) : scalar.
  Local Notation "1" := (fl_one FL) : scalar.
  Local Notation opp := (fl_opp FL).
  Add Ring FrTightTri : (fl_ring FL).

  Theorem tri_needed a b p dt : spOf a dt dt -> spOf b dt dt -> validPerm dt p ->
    exists k k0, tridiagonalBlocks a b p = Ok k /\
      forall n, k0 <= n ->
      exists A B wA wB, inputTri O n dt A B wA wB /\ declaredTri a b n A B /\
        forall mt d0, dataOf k n 0 dt 0 0 d0 ->
        exists d, tridiagonalFactorize O mt k dt A B regularizationNone d0 = Ok d /\
          forall t i u j, storedAt k n (GT t i) (GT u j) -> k0 <= u ->
            factorAt O 0%s k d (GT t i) (GT u j) <> 0%s.
  Proof.
    intros SA SB HP. pose proof (tri_dims a b p dt SA SB HP) as HD.
    destruct (arrow_tight _ _ _ _ HD) as (k & k0 & EK & HT). exists k, k0.
    split; [rewrite (tri_blocks a b p dt); auto|]. intros n Hn.
    set (s := tridiagonalSparsity a b p) in *. set (all := allIdx n 0 dt 0 0).
    set (m0 := fullMat O FL s n 0 dt 0 0). set (w0 := fullVals O FL s n 0 dt 0 0).
    pose proof (full_input O FL s n 0 dt 0 0 HD) as IA0. pose proof (full_declared O FL s n 0 dt 0 0) as DA0.
    fold m0 w0 in IA0. fold m0 in DA0.
    assert (IT : inputTri O n dt (a_td m0) (a_ts m0) (w_td w0) (w_ts w0)) by (constructor; apply IA0).
    assert (DT : declaredTri a b n (a_td m0) (a_ts m0)) by (split; apply DA0).
    exists (a_td m0), (a_ts m0), (w_td w0), (w_ts w0). split; auto. split; auto.
    intros mt d0 DO.
    pose proof (tri_input O n dt _ _ _ _ IT) as IA. pose proof (tri_declared a b p n dt _ _ DT) as DA.
    fold s in DA.
    set (m := tridiagonalInput dt (a_td m0) (a_ts m0) n) in *. set (w := triVals n (w_td w0) (w_ts w0)) in *.
    assert (EM : forall g h, In g all -> In h all -> matAt O m w g h = matAt O m0 w0 g h).
    { intros g h Hg Hh. apply in_tri in Hg, Hh. destruct Hg as (t & i & -> & _), Hh as (u & j & -> & _). reflexivity. }
    assert (DG : forall g, In g all -> matAt O m w g g = rowCount O FL all).
    { intros g Hg. rewrite EM by auto. apply full_diag; auto. }
    assert (OF : forall g h, In g all -> In h all -> g <> h ->
      (matAt O m w g h = opp 1%s \/ matAt O m w g h = 0%s) /\ (declaredAt s n g h -> matAt O m w g h = opp 1%s)).
    { intros g h Hg Hh N. rewrite EM by auto. apply full_off; auto. }
    assert (PDF : posDef OL all (matAt O m w)).
    { apply (dominant_posDef O FL OL gidx_eq_dec); [apply NoDup_allIdx|intros; apply matAt_sym| |].
      - intros g Hg. rewrite DG by auto. apply (pos_sum O FL OL all (fun _ => 1%s)).
        + right. apply (pos_one O FL OL).
        + exists g. split; auto. apply (pos_one O FL OL).
      - apply count_dominant; auto. intros g h Hg Hh N. apply OF; auto. }
    assert (NP : forall g h, In g all -> In h all -> g <> h -> atMost0 OL (matAt O m w g h)).
    { intros g h Hg Hh N. destruct (OF g h Hg Hh N) as [[-> | ->] _]; [right; apply neg_one|left; auto]. }
    assert (NG : forall g h, In g all -> In h all -> declaredAt s n g h -> ol_pos OL (opp (matAt O m w g h))).
    { intros g h Hg Hh H. destruct (OF g h Hg Hh) as [_ E]; [|rewrite E; auto; apply neg_one].
      intros ->. destruct h as [j|u j|j|j]; cbn [declaredAt] in H; lia. }
    destruct (arrow_tight_neg O FL OL mt s 0 dt 0 0 n m w HD IA DA PDF NP NG) as (k' & EK' & H).
    rewrite EK in EK'. injection EK' as <-. destruct (H d0 DO) as (d & EF & HN).
    exists d. unfold tridiagonalFactorize, numRepetitions. rewrite (do_nts _ _ _ _ _ _ _ DO). split; auto.
    intros t i u j HS Hu E. apply HT in HS; auto. specialize (HN _ _ HS). rewrite E in HN.
    apply (ol_0 OL). replace 0%s with (opp 0)%s at 1 by ring. auto.
  Qed.
End Tri.

(** One start variable that is connected with variables 0 and 1 of the first tridiagonal block,
    and three tridiagonal variables of which 0 is connected with 0 and 2 of the next block. *)
Definition wasteA : arrow_sp := mkAS
  (mkSS (mkSp 1 1 [(0, 0)]) (mkSp 3 1 [(0, 0); (1, 0)]) (mkSp 0 1 []) [0])
  (mkST (mkSp 3 3 [(0, 0); (1, 1); (2, 2)]) (mkSp 3 3 [(0, 0); (2, 0)]) [0; 1; 2])
  (mkSL (mkSp 0 3 []) (mkSp 0 0 []) (mkSp 0 0 []) [])
  (mkSO (mkSp 0 3 []) (mkSp 0 0 []) []).

Lemma wasteA_ok : arrowDims wasteA 1 3 0 0.
Proof.
  constructor; try (constructor; try reflexivity; cbn; intros i j H;
    repeat (destruct H as [H|H]; [injection H as <- <-; lia|]); destruct H; fail);
    (split; [reflexivity|]; split; [repeat constructor; cbn; lia|cbn; lia]).
Qed.

(** what is filled in *)
Definition wasteQ (g h : gidx) : bool :=
  match g, h with
  | GT t i, GS j => (t =? 0) && (i <? 2)
  | GT t i, GT u j =>
      if t =? u then
        if t =? 0 then (i =? 1) && (j =? 0) else (i =? 2) && (j =? 0)
      else (t =? u + 1) && ((i =? 0) || (i =? 2)) &&
           (if u =? 0 then j <? 2 else (j =? 0) || (j =? 2))
  | _, _ => false
  end.

Lemma wasteQ_spec g h : wasteQ g h = true <->
  match g, h with
  | GT t i, GS j => t = 0 /\ i < 2
  | GT t i, GT u j =>
      (t = u /\ ((t = 0 /\ i = 1 /\ j = 0) \/ (t <> 0 /\ i = 2 /\ j = 0))) \/
      (t = u + 1 /\ (i = 0 \/ i = 2) /\ ((u = 0 /\ j < 2) \/ (u <> 0 /\ (j = 0 \/ j = 2))))
  | _, _ => False
  end.
Proof.
  destruct g as [i|t i|i|i], h as [j|u j|j|j]; cbn [wasteQ]; try (split; [discriminate|intros []]).
  - rewrite andb_true_iff, Nat.eqb_eq, Nat.ltb_lt. tauto.
  - destruct (Nat.eqb_spec t u) as [->|N].
    + destruct (Nat.eqb_spec u 0); rewrite andb_true_iff, !Nat.eqb_eq; lia.
    + destruct (Nat.eqb_spec u 0); rewrite !andb_true_iff, !orb_true_iff, ?andb_true_iff, ?orb_true_iff, ?Nat.eqb_eq, ?Nat.ltb_lt; lia.
Qed.

Lemma wasteQ_closed n g h k : In g (allIdx n 1 3 0 0) -> In h (allIdx n 1 3 0 0) -> In k (allIdx n 1 3 0 0) ->
  gbefore k h -> gbefore h g -> wasteQ g k = true -> wasteQ h k = true -> wasteQ g h = true.
Proof.
  rewrite !in_allIdx, !wasteQ_spec.
  destruct g as [i|t i|i|i], h as [j|u j|j|j], k as [q|v q|q|q]; cbn [gbefore]; intros; try tauto; lia.
Qed.

Lemma waste_link n g h : In g (allIdx n 1 3 0 0) -> In h (allIdx n 1 3 0 0) -> gbefore h g ->
  linked wasteA n (permIdx wasteA g) (permIdx wasteA h) -> wasteQ g h = true.
Proof.
  rewrite !in_allIdx, !wasteQ_spec. unfold linked.
  destruct g as [i|t i|i|i], h as [j|u j|j|j]; cbn [gbefore permIdx declaredAt wasteA as_start as_tri as_link as_outer
    ss_diag ss_next ss_outer ss_perm st_diag st_subdiag st_perm sl_prev sl_diag sl_next sl_perm
    so_subdiag so_diag so_perm entries]; intros Hg Hh HB HL; try tauto; try lia.
  - assert (Hi : i = 0 \/ i = 1 \/ i = 2) by lia. assert (j = 0) by lia. subst j.
    destruct Hi as [-> |[-> | ->]]; cbn [nth In] in HL;
    destruct HL as [[-> [E|[E|[]]]]|[]]; try discriminate; lia.
  - assert (Hi : i = 0 \/ i = 1 \/ i = 2) by lia. assert (Hj : j = 0 \/ j = 1 \/ j = 2) by lia.
    destruct Hi as [-> |[-> | ->]], Hj as [-> |[-> | ->]]; cbn [nth In] in HL;
    destruct HL as [(_ & [(-> & L & HL)|(-> & HL)])|(_ & [(-> & L & HL)|(-> & HL)])]; try lia;
    repeat (destruct HL as [HL|HL]; [try discriminate HL|]); try destruct HL; lia.
Qed.

Lemma waste_fill n g h : arrowFill wasteA n 1 3 0 0 g h ->
  In g (allIdx n 1 3 0 0) /\ In h (allIdx n 1 3 0 0) /\ wasteQ g h = true.
Proof.
  induction 1 as [g h (Hg & Hh & HL) HB|g h k H1 (Hg & Hk & I1) H2 (Hh & _ & I2) B1 B2].
  - repeat split; auto. apply (waste_link n); auto.
  - repeat split; auto. apply (wasteQ_closed n g h k); auto.
Qed.

(** entries that are not declared are zero *)
Lemma undeclared_zero {F} (O : ops F) (FL : fieldLaws O) s n ds dt dl dO m w g h :
  inputArrow O n ds dt dl dO m w -> declaredArrow s n m ->
  In g (allIdx n ds dt dl dO) -> In h (allIdx n ds dt dl dO) -> g <> h ->
  ~ linked s n g h -> matAt O m w g h = o0 O.
Proof.
  intros IA DA Hg Hh N NL. rewrite in_allIdx in Hg, Hh.
  assert (N1 : ~ declaredAt s n g h) by (intros H; apply NL; left; auto).
  assert (N2 : ~ declaredAt s n h g) by (intros H; apply NL; right; auto). clear NL.
  destruct DA as [D1 D2 D3 D4 D5 D6 D7 D8 D9 D10].
  assert (SO : forall (M : mat (F:=F)) e vals i j, declaredLow M e -> i <> j ->
    ~ (j < i /\ In (i, j) (entries e)) -> ~ (i < j /\ In (j, i) (entries e)) ->
    symAt O (entries (m_sp M)) vals i j = o0 O).
  { intros M e vals i j DL Nij H1 H2. unfold symAt. apply (ProofMultiply.dense_out O). intros Hin.
    assert (Lt : Nat.min i j < Nat.max i j) by lia. specialize (DL _ _ Hin Lt). clear Hin Lt. rename DL into Hin. destruct (le_lt_dec i j) as [L|L].
    - rewrite Nat.max_r, Nat.min_l in Hin by lia. apply H2. split; auto. lia.
    - rewrite Nat.max_l, Nat.min_r in Hin by lia. apply H1. auto. }
  assert (RO : forall (M : mat (F:=F)) e vals i j, declaredAll M e -> ~ In (i, j) (entries e) ->
    denseAt O (entries (m_sp M)) vals i j = o0 O).
  { intros M e vals i j DL H1. apply (ProofMultiply.dense_out O). intros Hin. apply DL in Hin. auto. }
  unfold matAt. rewrite (ia_nts _ _ _ _ _ _ _ _ IA).
  destruct g as [i|t i|i|i], h as [j|u j|j|j]; cbn [symArrow matFun f_sd f_sn f_so f_td f_ts f_lp f_ld f_ln f_os f_od
    declaredAt] in *; auto.
  all: try (eapply SO; eauto; congruence); try (eapply RO; eauto; fail).
  - destruct (Nat.eqb_spec u 0) as [->|]; auto. eapply RO; eauto.
  - destruct (Nat.eqb_spec t 0) as [->|]; auto. eapply RO; eauto.
  - destruct (Nat.eqb_spec t u) as [->|].
    { eapply SO; [apply D4; lia|congruence| |]; intros H.
      - apply N1. split; [lia|]. left. auto.
      - apply N2. split; [lia|]. left. auto. }
    destruct (Nat.eqb_spec t (u + 1)) as [->|].
    { eapply RO; [apply D5; lia|]. intros H. apply N1. split; [lia|]. auto. }
    destruct (Nat.eqb_spec u (t + 1)) as [->|]; auto.
    eapply RO; [apply D5; lia|]. intros H. apply N2. split; [lia|]. auto.
  - destruct (Nat.eqb_spec t n) as [->|]; auto. eapply RO; eauto.
  - eapply RO; [apply D9; lia|]. intros H. apply N2. split; [lia|auto].
  - destruct (Nat.eqb_spec u n) as [->|]; auto. eapply RO; eauto.
  - eapply RO; [apply D9; lia|]. intros H. apply N1. split; [lia|auto].
Qed.

Theorem waste_refuted :
  exists s k, arrowDims s 1 3 0 0 /\ arrowBlocks s = Ok k /\
    forall n t, 1 <= t -> t <= n ->
      storedAt k n (GT t 2) (GT t 1) /\
      ~ arrowFill s n 1 3 0 0 (GT t 2) (GT t 1) /\
      forall F (O : ops F), fieldLaws O ->
      forall mt m w reg d0 d,
      inputArrow O n 1 3 0 0 m w -> declaredArrow s n m -> dataOf k n 1 3 0 0 d0 ->
      arrowFactorize O mt k m reg d0 = Ok d ->
      (forall g, In g (allIdx n 1 3 0 0) -> pivotAt O d g <> o0 O) ->
      factorAt O (o0 O) k d (GT t 2) (GT t 1) = o0 O.
Proof.
  exists wasteA. destruct (arrowBlocks wasteA) as [k|] eqn:EK; [|vm_compute in EK; discriminate].
  exists k. split; [exact wasteA_ok|]. split; auto.
  assert (ST : In (2, 1) (c_entries (b_sp (k_td k)))).
  { vm_compute in EK. injection EK as <-. cbn. auto. }
  intros n t H1 H2.
  assert (QF : wasteQ (GT t 2) (GT t 1) = false).
  { destruct (wasteQ (GT t 2) (GT t 1)) eqn:E; auto. apply wasteQ_spec in E. lia. }
  split; [|split].
  - cbn [storedAt]. split; [lia|]. left. auto.
  - intros H. apply waste_fill in H. destruct H as (_ & _ & H). congruence.
  - intros F O FL mt m w reg d0 d IA DA DO EF HP.
    apply (arrow_zeros O _ _ (field_zeros O FL) wasteA 1 3 0 0 k n wasteA_ok EK mt m w reg d0 d IA DA DO EF)
      with (Q := wasteQ); auto.
    + apply wasteQ_closed.
    + intros g h Hg Hh HB Hq. pose proof (permIdx_in wasteA n 1 3 0 0 wasteA_ok) as PIn.
      apply (undeclared_zero O FL wasteA n 1 3 0 0); auto.
      * intros E. apply (permIdx_inj wasteA n 1 3 0 0 wasteA_ok) in E; auto. subst. exact (gbefore_irr _ HB).
      * intros HL. apply (waste_link n) in HL; auto. congruence.
    + apply in_allIdx. lia.
    + apply in_allIdx. lia.
    + congruence.
Qed.
