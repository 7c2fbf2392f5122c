(** The factorizations without regularization: when the pivots are nonzero. *)
From Coq Require Import List Arith Lia Bool Ring Permutation.
From Verif Require Import Base ModelPerm ModelSparsity ModelSymbolic ModelNumeric ModelArrow ModelReg.
From Verif Require Import SpecSymbolic SpecArrow SpecNumeric SpecArrowNum SpecPivot.
From Verif Require Import ProofBase ProofPerm ProofCsr ProofFill ProofDense ProofExact ProofLdl ProofUp ProofEntry
  ProofKernel ProofSingle ProofSingleMain ProofMethods ProofArrowSym ProofArrowRows ProofArrowUniq
  ProofMultiply ProofArrowDense ProofArrowProduct ProofArrowMain ProofPropSingle ProofPropArrow ProofPivot.
Import ListNotations.

(** ** replacing the regularization by one that gives the same pivots *)
Section Replace.
  Context {F : Type} (O : ops F).

  Lemma kernelRows_reg mt c11 c21 c22 n2 G11 D1 a21 a22 ad (reg reg' : F -> nat -> F) G21 G22 D2 :
    (forall i t, i < n2 -> D2 i = reg t i -> D2 i = reg' t i) ->
    kernelRows O mt c11 c21 c22 n2 G11 D1 a21 a22 ad reg G21 G22 D2 ->
    kernelRows O mt c11 c21 c22 n2 G11 D1 a21 a22 ad reg' G21 G22 D2.
  Proof.
    intros H. destruct mt; cbn [kernelRows].
    - intros (s1 & s2 & K). exists s1, s2. intros i Hi. destruct (K i Hi) as [K1 K2 K3 K4 K5].
      constructor; auto.
    - intros K i Hi. destruct (K i Hi) as [K1 K2 K3]. constructor; auto.
  Qed.

  Lemma single_reg mt s n p b m a vals (reg reg' : F -> nat -> F) L0 D0 L D :
    spOf s n n -> validPerm n p -> factorizationBlk s p = Ok b ->
    spOf a n n -> inputOf O m a vals -> coveredSym (entries a) (entries s) n p ->
    length L0 = c_nnz (b_sp b) -> length D0 = n ->
    factorize O mt b (Some m) reg (L0, D0) = Ok (L, D) ->
    (forall i t, i < n -> vecAt O D i = reg t i -> vecAt O D i = reg' t i) ->
    factorize O mt b (Some m) reg' (L0, D0) = Ok (L, D).
  Proof.
    intros HS HP HB HA HI HC N1 N2 EF HR.
    destruct (block_ok s n p HS HP) as (b' & EB & G). rewrite HB in EB. injection EB as <-.
    assert (Low : forall i j, Fill (permLow (entries s) n p) i j -> j < i)
      by (intros; eapply Fill_low; eauto).
    destruct (factorize_ok O mt b n (Fill (permLow (entries s) n p)) p m a vals reg L0 D0)
      as (L1 & D1 & E & NL & ND & X & K); auto using Fill_closed.
    rewrite EF in E. injection E as <- <-.
    destruct (factorize_ok O mt b n (Fill (permLow (entries s) n p)) p m a vals reg' L0 D0)
      as (L1 & D1 & E & NL' & ND' & X' & K'); auto using Fill_closed.
    rewrite E. apply (kernelRows_reg mt _ _ _ n _ _ _ _ _ reg reg') in K; auto.
    pose proof (kernelRows_unique O mt (b_sp emptyDiagBlk) (b_sp (emptyLeftBlk b)) (b_sp b) n
      _ _ _ _ _ _ _ _ _ _ _ _ _ _ _
      (fun i j (H : In (i, j) (c_entries (b_sp emptyDiagBlk))) => False_ind (j < i) H)
      (fun i j H => Low i j (proj1 (gb_in _ _ _ _ _ _ _ G i j) H))
      (fun i j _ => eq_refl) (fun i j _ => eq_refl) (fun i _ => eq_refl) K' K) as U.
    f_equal. f_equal.
    - apply (getL_ext O (b_sp b)); auto; [eapply goodBlk_gcsr; eauto|]. intros i j H.
      apply U; [|apply cols_In; auto].
      apply (wfc_bounds _ (gb_wf _ _ _ _ _ _ _ G)) in H.
      rewrite (gb_rows _ _ _ _ _ _ _ G) in H. lia.
    - apply (list_ext _ _ (o0 O)); [lia|]. intros k Hk. apply (U k). lia.
  Qed.

  Lemma arrowRows_reg mt ds dt dl dO k n m (reg reg' : F -> nat -> F) d :
    (forall g t, In g (allIdx n ds dt dl dO) ->
       pivotAt O d g = reg t (localIdx g) -> pivotAt O d g = reg' t (localIdx g)) ->
    arrowRows O ds dt dl dO k mt m reg n d -> arrowRows O ds dt dl dO k mt m reg' n d.
  Proof.
    intros H ([A1 A2 A3 A4] & Z & Y & ln & [B1 B2 B3 B4 B5 B6 B7 B8]).
    assert (HT : forall t, t < n + 1 -> forall i u, i < dt ->
      getD O (snd (nth t (d_td d) ([], []))) i = reg u i ->
      getD O (snd (nth t (d_td d) ([], []))) i = reg' u i).
    { intros t Ht i u Hi. apply (H (GT t i)), in_allIdx; auto. }
    split.
    - constructor.
      + destruct A1 as (X & A1). exists X. eapply kernelRows_reg; [|exact A1].
        intros i u Hi. apply (H (GS i)), in_allIdx; auto.
      + eapply kernelRows_reg; [|exact A2]. apply (HT 0). lia.
      + intros t Ht. eapply kernelRows_reg; [|exact (A3 t Ht)]. apply (HT (t + 1)). lia.
      + eapply kernelRows_reg; [|exact A4]. intros i u Hi. apply (H (GL i)), in_allIdx; auto.
    - exists Z, Y, ln. constructor; auto. eapply kernelRows_reg; [|exact B8].
      intros i u Hi. apply (H (GO i)), in_allIdx; auto.
  Qed.

  Lemma arrow_reg mt s ds dt dl dO k n m w (reg reg' : F -> nat -> F) d0 d :
    arrowDims s ds dt dl dO -> arrowBlocks s = Ok k ->
    inputArrow O n ds dt dl dO m w -> declaredArrow s n m ->
    dataOf k n ds dt dl dO d0 ->
    arrowFactorize O mt k m reg d0 = Ok d ->
    (forall g t, In g (allIdx n ds dt dl dO) ->
       pivotAt O d g = reg t (localIdx g) -> pivotAt O d g = reg' t (localIdx g)) ->
    arrowFactorize O mt k m reg' d0 = Ok d.
  Proof.
    intros HD Ek IA DA DO EF HR.
    destruct (arrowBlocks_ok s ds dt dl dO HD) as (k' & P & Ek' & AG & AC & AV).
    rewrite Ek in Ek'. injection Ek' as <-.
    pose proof (goodInput_of O s ds dt dl dO P n m w HD AV IA DA) as GI.
    destruct (arrowFactorize_ok O s ds dt dl dO k P AG AC mt n m reg d0 DO GI) as (r & E1 & D1 & R1).
    destruct (arrowFactorize_ok O s ds dt dl dO k P AG AC mt n m reg' d0 DO GI) as (r' & E2 & D2 & R2).
    rewrite EF in E1. injection E1 as <-. rewrite E2. f_equal.
    eapply arrowRows_unique; eauto. apply (arrowRows_reg mt ds dt dl dO k n m reg); auto.
  Qed.
End Replace.

Section Pivots.
  Context {F : Type} (O : ops F) (FL : fieldLaws O) (IL : infLaws F).
  Local Notation "0" := (o0 O) : scalar.
  Local Notation "a + b" := (oadd O a b) : scalar.
  Local Notation "a - b" := (osub O a b) : scalar.
  Local Notation "a * b" := (omul O a b) : scalar.
  Local Notation sum := (sumn O).
  Add Ring FrPM : (fl_ring FL).

  (** replace zero pivots by c *)
  Definition regC (c t : F) (i : nat) : F := if il_dec IL t 0%s then c else t.

  Lemma regC_nonzero c t i : c <> 0%s -> regC c t i <> 0%s.
  Proof. intros H. unfold regC. destruct (il_dec IL t 0%s); auto. Qed.

  Lemma regC_id c t i : t <> 0%s -> regC c t i = t.
  Proof. intros H. unfold regC. destruct (il_dec IL t 0%s); congruence. Qed.

  (** ** a single matrix *)
  Section Single.
    Context (s : sparsity) (n : nat) (p : perm) (b : blk) (m : mat (F:=F)) (a : sparsity) (vals : list F).
    Context (HS : spOf s n n) (HP : validPerm n p) (HB : factorizationBlk s p = Ok b)
      (HA : spOf a n n) (HI : inputOf O m a vals) (HC : coveredSym (entries a) (entries s) n p).
    Let Ap i j := symAt O (entries a) vals (nth i p 0%nat) (nth j p 0%nat).
    Let chiS := chi O FL (seq 0 n) (fun i => i) Nat.eq_dec Ap.

    Lemma unitAt_one L i : unitAt O (fl_one FL) (c_entries (b_sp b)) L i i = fl_one FL.
    Proof. unfold unitAt. rewrite Nat.eqb_refl. auto. Qed.

    Lemma unitAt_low L i k : length L = c_nnz (b_sp b) -> k <> i -> ~ k < i ->
      unitAt O (fl_one FL) (c_entries (b_sp b)) L i k = 0%s.
    Proof.
      intros NL N Lt. destruct (block_ok s n p HS HP) as (b' & EB & G).
      rewrite HB in EB. injection EB as <-.
      unfold unitAt. destruct (Nat.eqb_spec i k); [congruence|].
      rewrite <- getL_dense by auto. apply getL_out. intros H.
      apply (gb_in _ _ _ _ _ _ _ G) in H. apply Fill_low in H. lia.
    Qed.

    Lemma single_run mt c L0 D0 : c <> 0%s ->
      (forall i t, i < n -> chiS i t -> t <> 0%s) ->
      length L0 = c_nnz (b_sp b) -> length D0 = n ->
      exists L D, factorize O mt b (Some m) (regC c) (L0, D0) = Ok (L, D) /\
        length L = c_nnz (b_sp b) /\ length D = n /\
        forall i, i < n -> vecAt O D i <> 0%s /\ chiS i (vecAt O D i).
    Proof.
      intros Hc Hchi N1 N2.
      destruct (single_product O FL mt s n p b m a vals (regC c) L0 D0 HS HP HB HI HA HC N1 N2)
        as (L & D & EF & NL & ND & H).
      exists L, D. split; auto. split; auto. split; auto.
      assert (RW : forall i, i < n -> exists t, vecAt O D i = regC c t i).
      { (* every pivot is a result of the regularization *)
        destruct (block_ok s n p HS HP) as (b' & EB & G). rewrite HB in EB. injection EB as <-.
        assert (Low : forall i j, Fill (permLow (entries s) n p) i j -> j < i)
          by (intros; eapply Fill_low; eauto).
        destruct (factorize_ok O mt b n (Fill (permLow (entries s) n p)) p m a vals (regC c) L0 D0)
          as (L1 & D1 & E & _ & _ & X & K); auto using Fill_closed.
        rewrite EF in E. injection E as <- <-.
        intros i Hi. destruct mt; cbn [kernelRows] in K.
        - destruct K as (s1 & s2 & K). eexists. exact (ur_D _ _ _ _ _ _ _ _ _ _ _ _ _ _ _ _ (K i Hi)).
        - eexists. exact (er_D _ _ _ _ _ _ _ _ _ _ _ _ _ _ (K i Hi)). }
      assert (HZ : forall i, i < n -> vecAt O D i <> 0%s).
      { intros i Hi. destruct (RW i Hi) as (t & ->). apply regC_nonzero; auto. }
      destruct (H HZ) as (E & HE & HX).
      intros i Hi. split; auto.
      refine (proj2 (ldl_unperturbed O FL (seq 0 n) (fun i => i) Nat.eq_dec (seq_NoDup n 0)
        (fun g h _ _ E => E) (unitAt O (fl_one FL) (c_entries (b_sp b)) L)
        (fun g _ => unitAt_one L g) (fun g k _ _ N Lt => unitAt_low L g k NL N Lt)
        Ap (vecAt O D) (fun i => E (nth i p 0%nat)) (fun t => regC c t 0%nat) _ _ _ _ i _)).
      - intros h k Hh Hk. apply in_seq in Hh, Hk. rewrite (suml_seq O FL). rewrite HX by lia.
        rewrite (plusDiag_perm O n) by (try lia; apply validPerm_isPerm; auto).
        unfold plusDiag, Ap. destruct (Nat.eqb_spec h k) as [->|N].
        + destruct (Nat.eq_dec k k); congruence.
        + destruct (Nat.eq_dec h k); congruence.
      - intros h Hh. apply in_seq in Hh. apply (HE h). lia.
      - intros t Ht. apply regC_id; auto.
      - intros g t Hg. apply in_seq in Hg. apply Hchi. lia.
      - apply in_seq. lia.
    Qed.

    Lemma Ap_sym i j : Ap i j = Ap j i.
    Proof. apply symAt_perm. Qed.

    Lemma single_pivots mt L0 D0 :
      (forall i t, i < n -> chiS i t -> t <> 0%s) ->
      length L0 = c_nnz (b_sp b) -> length D0 = n ->
      exists L D, factorize O mt b (Some m) regularizationNone (L0, D0) = Ok (L, D) /\
        length L = c_nnz (b_sp b) /\ length D = n /\
        forall i, i < n -> vecAt O D i <> 0%s /\ chiS i (vecAt O D i).
    Proof.
      intros Hchi N1 N2.
      destruct (single_run mt (fl_one FL) L0 D0 (fl_10 FL) Hchi N1 N2) as (L1 & D1 & _ & _ & _ & H1).
      destruct (il_new IL (0%s :: map (vecAt O D1) (seq 0 n))) as (c & Hc).
      assert (c <> 0%s) by (intros ->; apply Hc; left; auto).
      destruct (single_run mt c L0 D0) as (L & D & EF & NL & ND & H2); auto.
      exists L, D. split; [|auto].
      apply (single_reg O mt s n p b m a vals (regC c)); auto. intros i t Hi E.
      unfold regularizationNone. unfold regC in E. destruct (il_dec IL t 0%s); auto.
      exfalso. apply Hc. right. apply in_map_iff. exists i. split; [|apply in_seq; lia].
      rewrite <- E. apply (chi_unique O FL (seq 0 n) (fun i => i) Nat.eq_dec (seq_NoDup n 0) Ap i);
        try apply (H1 i Hi); try apply (H2 i Hi); [apply in_seq; lia|]. intros. apply Ap_sym.
    Qed.

    (** all what follows from nonzero pivots *)
    Definition singleWorks mt (good : nat -> F -> Prop) : Prop :=
      forall L0 D0, length L0 = c_nnz (b_sp b) -> length D0 = n ->
      exists L D, factorize O mt b (Some m) regularizationNone (L0, D0) = Ok (L, D) /\
        (forall i, i < n -> good i (vecAt O D i)) /\
        (forall i j, i < n -> j < n ->
           ldltAt O (fl_one FL) n (c_entries (b_sp b)) L D i j =
           symAt O (entries a) vals (nth i p 0%nat) (nth j p 0%nat)) /\
        forall rhs, length rhs = n ->
        exists x, solveInPlace O b (L, D) rhs = Ok x /\ length x = n /\
          (forall i, i < n -> matVec O n (symAt O (entries a) vals) x i = vecAt O rhs i) /\
          (forall x', length x' = n ->
             (forall i, i < n -> matVec O n (symAt O (entries a) vals) x' i = vecAt O rhs i) ->
             x' = x).

    Lemma single_good mt (good : nat -> F -> Prop) :
      (forall i t, i < n -> chiS i t -> t <> 0%s /\ good i t) -> singleWorks mt good.
    Proof.
      intros Hchi L0 D0 N1 N2.
      destruct (single_pivots mt L0 D0) as (L & D & EF & NL & ND & H); auto.
      { intros i t Hi Ht. apply (Hchi i t Hi Ht). }
      assert (HZ : forall i, i < n -> vecAt O D i <> 0%s) by (intros; apply H; auto).
      exists L, D. split; auto. split.
      { intros i Hi. apply Hchi; auto. apply H; auto. }
      split.
      { exact (proj1 (single_solve_none O FL mt s n p b m a vals L0 D0 L D HS HP HB HI HA HC N1 N2 EF HZ)). }
      intros rhs Hr.
      exact (solves_none O FL mt s n p a vals m b L0 D0 L D rhs HS HP HB HA HI HC N1 N2 EF HZ Hr).
    Qed.

    Lemma single_iff mt L0 D0 : length L0 = c_nnz (b_sp b) -> length D0 = n ->
      (exists L D, factorize O mt b (Some m) regularizationNone (L0, D0) = Ok (L, D) /\
         forall i, i < n -> vecAt O D i <> 0%s) <->
      (forall i, i < n -> regularUpTo O (seq 0 n) (fun j => i < j) Ap).
    Proof.
      intros N1 N2. split.
      - intros (L & D & EF & HZ) i Hi.
        destruct (single_product O FL mt s n p b m a vals regularizationNone L0 D0 HS HP HB HI HA HC N1 N2)
          as (L' & D' & EF' & NL & _). rewrite EF in EF'. injection EF' as <- <-.
        pose proof (proj1 (single_solve_none O FL mt s n p b m a vals L0 D0 L D HS HP HB HI HA HC N1 N2 EF HZ)) as HL.
        apply (ldl_regular O FL (seq 0 n) (fun i => i) (seq_NoDup n 0) (fun g h _ _ E => E)
          (unitAt O (fl_one FL) (c_entries (b_sp b)) L)
          (fun g _ => unitAt_one L g) (fun g k _ _ N Lt => unitAt_low L g k NL N Lt) Ap (vecAt O D) i n).
        + apply in_seq. lia.
        + intros h Hh. apply in_seq in Hh. lia.
        + intros h k Hh Hk. apply in_seq in Hh, Hk. rewrite (suml_seq O FL). apply HL; lia.
        + intros h Hh. apply in_seq in Hh. apply HZ. lia.
      - intros HR. destruct (single_pivots mt L0 D0) as (L & D & EF & _ & _ & H); auto.
        + intros i t Hi. apply (regular_chi O FL (seq 0 n) (fun i => i) Nat.eq_dec); auto.
          apply in_seq. lia.
        + exists L, D. split; auto. intros i Hi. apply H; auto.
    Qed.
  End Single.

  (** ** the arrowhead linked matrix *)
  Section Arrow.
    Context (s : arrow_sp) (ds dt dl dO : nat) (k : arrow_blks) (n : nat)
      (m : arrow_mat (F:=F)) (w : arrow_vals F).
    Context (HD : arrowDims s ds dt dl dO) (Ek : arrowBlocks s = Ok k)
      (IA : inputArrow O n ds dt dl dO m w) (DA : declaredArrow s n m).
    Let all := allIdx n ds dt dl dO.
    Let Ap g h := matAt O m w (permIdx s g) (permIdx s h).
    Let rk := rank n ds dt dl.
    Let chiA := chi O FL all rk gidx_eq_dec Ap.

    Lemma rk_inj g h : In g all -> In h all -> rk g = rk h -> g = h.
    Proof. exact (rank_inj n ds dt dl dO g h). Qed.

    Lemma arrow_pivot_reg mt reg d0 d : dataOf k n ds dt dl dO d0 ->
      arrowFactorize O mt k m reg d0 = Ok d ->
      forall g, In g all -> exists t, pivotAt O d g = reg t (localIdx g).
    Proof.
      intros DO EF.
      destruct (arrowBlocks_ok s ds dt dl dO HD) as (k' & P & Ek' & AG & AC & AV).
      rewrite Ek in Ek'. injection Ek' as <-.
      pose proof (goodInput_of O s ds dt dl dO P n m w HD AV IA DA) as GI.
      destruct (arrowFactorize_ok O s ds dt dl dO k P AG AC mt n m reg d0 DO GI) as (r & E1 & D1 & R1).
      rewrite EF in E1. injection E1 as <-.
      assert (KD : forall c11 c21 c22 n2 G11 D1 a21 a22 ad G21 G22 D2 i,
        kernelRows O mt c11 c21 c22 n2 G11 D1 a21 a22 ad reg G21 G22 D2 -> i < n2 ->
        exists t, D2 i = reg t i).
      { intros until i. intros K Hi. destruct mt; cbn [kernelRows] in K.
        - destruct K as (s1 & s2 & K). eexists. exact (ur_D _ _ _ _ _ _ _ _ _ _ _ _ _ _ _ _ (K i Hi)).
        - eexists. exact (er_D _ _ _ _ _ _ _ _ _ _ _ _ _ _ (K i Hi)). }
      destruct R1 as ([A1 A2 A3 A4] & Z & Y & ln & [B1 B2 B3 B4 B5 B6 B7 B8]).
      intros g Hg. apply in_allIdx in Hg. destruct g as [i|t i|i|i]; cbn [pivotAt localIdx].
      - destruct A1 as (X & A1). exact (KD _ _ _ _ _ _ _ _ _ _ _ _ _ A1 Hg).
      - destruct Hg as [Ht Hi]. destruct t as [|t].
        + exact (KD _ _ _ _ _ _ _ _ _ _ _ _ _ A2 Hi).
        + replace (S t) with (t + 1) by lia.
          exact (KD _ _ _ _ _ _ _ _ _ _ _ _ _ (A3 t ltac:(lia)) Hi).
      - exact (KD _ _ _ _ _ _ _ _ _ _ _ _ _ A4 Hg).
      - exact (KD _ _ _ _ _ _ _ _ _ _ _ _ _ B8 Hg).
    Qed.

    Lemma factor_low d : dataOf k n ds dt dl dO d ->
      (forall g, In g all -> factorAt O (fl_one FL) k d g g = fl_one FL) /\
      (forall g h, In g all -> In h all -> h <> g -> ~ rk h < rk g ->
         factorAt O (fl_one FL) k d g h = 0%s).
    Proof.
      intros DO. destruct (arrowBlocks_ok s ds dt dl dO HD) as (k' & P & Ek' & AG & AC & AV).
      rewrite Ek in Ek'. injection Ek' as <-. split.
      - intros g Hg. rewrite (factorAt_low O FL ds dt dl dO k n) by auto.
        apply (Lh_one O FL n ds dt dl dO); auto.
      - intros g h Hg Hh N Hr. rewrite (factorAt_low O FL ds dt dl dO k n) by auto.
        apply (Lh_low O FL n ds dt dl dO); auto. eapply strictFun_low; eauto.
    Qed.

    Lemma arrow_run mt c d0 : c <> 0%s ->
      (forall g t, In g all -> chiA g t -> t <> 0%s) ->
      dataOf k n ds dt dl dO d0 ->
      exists d, arrowFactorize O mt k m (regC c) d0 = Ok d /\ dataOf k n ds dt dl dO d /\
        forall g, In g all -> pivotAt O d g <> 0%s /\ chiA g (pivotAt O d g).
    Proof.
      intros Hc Hchi DO.
      destruct (arrow_reproduces O FL mt s ds dt dl dO n m w (regC c) HD IA DA) as (k' & Ek' & _ & H).
      rewrite Ek in Ek'. injection Ek' as <-. destruct (H d0 DO) as (d & EF & DO' & _ & _ & HX).
      exists d. split; auto. split; auto.
      assert (HZ : forall g, In g all -> pivotAt O d g <> 0%s).
      { intros g Hg. destruct (arrow_pivot_reg mt (regC c) d0 d DO EF g Hg) as (t & ->).
        apply regC_nonzero; auto. }
      destruct (HX HZ) as (E & HE & HL). destruct (factor_low d DO') as [F1 F0].
      intros g Hg. split; auto.
      refine (proj2 (ldl_unperturbed O FL all rk gidx_eq_dec (NoDup_allIdx n ds dt dl dO) rk_inj
        (factorAt O (fl_one FL) k d) F1 F0
        Ap (pivotAt O d) (fun g => E (permIdx s g)) (fun t => regC c t 0%nat) _ _ _ _ g Hg)).
      - intros h r Hh Hr. unfold gldltAt in HL. rewrite HL by auto. unfold plusDiagG, Ap.
        destruct (gidx_eq_dec h r) as [->|N].
        + destruct (gidx_eq_dec (permIdx s r) (permIdx s r)); congruence.
        + destruct (gidx_eq_dec (permIdx s h) (permIdx s r)) as [E'|]; auto.
          apply (permIdx_inj s n ds dt dl dO HD) in E'; auto. congruence.
      - intros h Hh. apply (HE h Hh).
      - intros t Ht. apply regC_id; auto.
      - intros h t Hh. apply Hchi; auto.
    Qed.

    Lemma Apg_sym g h : Ap g h = Ap h g.
    Proof.
      unfold Ap, matAt. apply symArrow_sym. constructor; intros; apply symAt_perm.
    Qed.

    Lemma arrow_pivots mt d0 :
      (forall g t, In g all -> chiA g t -> t <> 0%s) ->
      dataOf k n ds dt dl dO d0 ->
      exists d, arrowFactorize O mt k m regularizationNone d0 = Ok d /\ dataOf k n ds dt dl dO d /\
        forall g, In g all -> pivotAt O d g <> 0%s /\ chiA g (pivotAt O d g).
    Proof.
      intros Hchi DO.
      destruct (arrow_run mt (fl_one FL) d0 (fl_10 FL) Hchi DO) as (d1 & _ & _ & H1).
      destruct (il_new IL (0%s :: map (pivotAt O d1) all)) as (c & Hc).
      assert (c <> 0%s) by (intros ->; apply Hc; left; auto).
      destruct (arrow_run mt c d0) as (d & EF & DO' & H2); auto.
      exists d. split; [|auto].
      apply (arrow_reg O mt s ds dt dl dO k n m w (regC c)); auto. intros g t Hg E.
      unfold regularizationNone. unfold regC in E. destruct (il_dec IL t 0%s); auto.
      exfalso. apply Hc. right. apply in_map_iff. exists g. split; auto.
      rewrite <- E. apply (chi_unique O FL all rk gidx_eq_dec (NoDup_allIdx n ds dt dl dO) Ap g);
        try apply (H1 g Hg); try apply (H2 g Hg); auto. intros. apply Apg_sym.
    Qed.

    Definition arrowWorks mt (good : gidx -> F -> Prop) : Prop :=
      forall d0, dataOf k n ds dt dl dO d0 ->
      exists d, arrowFactorize O mt k m regularizationNone d0 = Ok d /\ dataOf k n ds dt dl dO d /\
        (forall g, In g all -> good g (pivotAt O d g)) /\
        (forall g h, In g all -> In h all ->
           gldltAt O all (factorAt O (fl_one FL) k d) (pivotAt O d) g h =
           matAt O m w (permIdx s g) (permIdx s h)) /\
        forall rhs, vecOf n ds dt dl dO rhs ->
        exists x, arrowSolveInPlace O k d rhs = Ok x /\ vecOf n ds dt dl dO x /\
          (forall g, In g all -> gmatVec O all (matAt O m w) (gvecAt O x) g = gvecAt O rhs g) /\
          (forall x', vecOf n ds dt dl dO x' ->
             (forall g, In g all -> gmatVec O all (matAt O m w) (gvecAt O x') g = gvecAt O rhs g) ->
             x' = x).

    Lemma arrow_ldl mt d0 d : dataOf k n ds dt dl dO d0 ->
      arrowFactorize O mt k m regularizationNone d0 = Ok d ->
      (forall g, In g all -> pivotAt O d g <> 0%s) ->
      dataOf k n ds dt dl dO d /\
      forall g h, In g all -> In h all ->
        gldltAt O all (factorAt O (fl_one FL) k d) (pivotAt O d) g h =
        matAt O m w (permIdx s g) (permIdx s h).
    Proof.
      intros DO EF HZ.
      destruct (arrow_reproduces O FL mt s ds dt dl dO n m w regularizationNone HD IA DA) as (k' & Ek' & _ & H).
      rewrite Ek in Ek'. injection Ek' as <-. destruct (H d0 DO) as (d' & EF' & DO' & _ & _ & HX).
      rewrite EF in EF'. injection EF' as <-. split; auto. destruct (HX HZ) as (E & HE & HL).
      pose proof (arrow_none_E O FL s n ds dt dl dO (pivotAt O d) E HD HE) as E0.
      intros g h Hg Hh. unfold all. rewrite HL by auto. apply (plusDiagG_0 O FL). apply E0.
      apply permIdx_in; auto.
    Qed.

    Lemma arrow_good mt (good : gidx -> F -> Prop) :
      (forall g t, In g all -> chiA g t -> t <> 0%s /\ good g t) -> arrowWorks mt good.
    Proof.
      intros Hchi d0 DO. destruct (arrow_pivots mt d0) as (d & EF & DO' & H); auto.
      { intros g t Hg Ht. apply (Hchi g t Hg Ht). }
      assert (HZ : forall g, In g all -> pivotAt O d g <> 0%s) by (intros; apply H; auto).
      exists d. split; auto. split; auto. split.
      { intros g Hg. apply Hchi; auto. apply H; auto. }
      split; [apply (arrow_ldl mt d0 d DO EF HZ)|].
      intros rhs HV.
      exact (arrow_solves_none O FL mt s ds dt dl dO k n m w d0 d rhs HD Ek IA DA DO EF HZ HV).
    Qed.

    Lemma gbefore_rank g h : In g all -> In h all -> gbefore g h <-> rk g < rk h.
    Proof.
      unfold all, rk. rewrite !in_allIdx.
      destruct g as [i|t i|i|i], h as [j|u j|j|j]; cbn [gbefore rank]; intros Hg Hh;
        split; intros E; try exact I; try contradiction; try nia.
    Qed.

    Lemma regular_ext (P Q : gidx -> Prop) A : (forall h, In h all -> P h <-> Q h) ->
      regularUpTo O all P A -> regularUpTo O all Q A.
    Proof.
      intros E R x X1 X2. apply R.
      - intros h Hh Hp. apply X1; auto. apply E; auto.
      - intros h Hh Hp. apply X2; auto. rewrite <- E by auto. auto.
    Qed.

    Lemma arrow_iff mt d0 : dataOf k n ds dt dl dO d0 ->
      (exists d, arrowFactorize O mt k m regularizationNone d0 = Ok d /\
         forall g, In g all -> pivotAt O d g <> 0%s) <->
      (forall g, In g all -> regularUpTo O all (gbefore g) Ap).
    Proof.
      intros DO. split.
      - intros (d & EF & HZ) g Hg.
        destruct (arrow_ldl mt d0 d DO EF HZ) as [DO' HL]. destruct (factor_low d DO') as [F1 F0].
        apply (regular_ext (fun h => rk g < rk h)).
        { intros h Hh. symmetry. apply gbefore_rank; auto. }
        apply (ldl_regular O FL all rk (NoDup_allIdx n ds dt dl dO) rk_inj
          (factorAt O (fl_one FL) k d) F1 F0 Ap (pivotAt O d) g (ds + (n + 1) * dt + dl + dO)); auto.
        intros h Hh. apply rank_le; auto.
      - intros HR. destruct (arrow_pivots mt d0) as (d & EF & _ & H); auto.
        + intros g t Hg. apply (regular_chi O FL all rk gidx_eq_dec); auto.
          apply (regular_ext (gbefore g)); auto. intros h Hh. apply gbefore_rank; auto.
        + exists d. split; auto. intros g Hg. apply H; auto.
    Qed.
  End Arrow.
End Pivots.
