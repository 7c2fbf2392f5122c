(** An arrowhead system has the same factor and solutions as the assembled matrix. *)
From Coq Require Import Lia List Arith Bool Permutation Sorted.
From Verif Require Import Base ModelPerm ModelSparsity ModelSymbolic ModelNumeric ModelArrow ModelReg.
From Verif Require Import SpecSymbolic SpecArrow SpecNumeric SpecArrowNum SpecPivot SpecAgree SpecFlat.
From Verif Require Import ProofBase ProofPerm ProofCsr ProofFill ProofDense ProofExact ProofLdl ProofKernel ProofSolve
  ProofSingle ProofSingleMain ProofArrowSym ProofArrowRows ProofArrowDense ProofArrowProduct ProofArrowSolve ProofArrowMain
  ProofArrowSub ProofChain ProofChainKernel ProofChainArrow ProofRoundMain ProofRoundUser ProofRoundTri
  ProofPropSymbolic ProofPropArrow ProofPropPivot ProofSign ProofPropSign ProofAgree ProofPropAgree ProofAgreeArrow.
Import ListNotations.
Local Open Scope nat_scope.

(** ** numbers of the rows *)
Section Numbers.
  Variables (n ds dt dl dO : nat).
  Local Notation all := (allIdx n ds dt dl dO).
  Local Notation N := (flatDim n ds dt dl dO).
  Local Notation rk := (rank n ds dt dl).

  Lemma flatPos_rank g : flatPos n ds dt dl g = rk g.
  Proof. reflexivity. Qed.

  Lemma map_shift a m : map (fun i => a + i) (seq 0 m) = seq a m.
  Proof.
    revert a. induction m as [|m IH]; intros a; cbn [seq map]; [auto|]. rewrite Nat.add_0_r. f_equal.
    rewrite <- (IH (S a)), <- seq_shift, map_map. apply map_ext. intros; lia.
  Qed.

  Lemma tri_ranks m : map rk (flat_map (fun t => map (GT t) (seq 0 dt)) (seq 0 m)) = seq ds (m * dt).
  Proof.
    induction m as [|m IH]; [reflexivity|].
    rewrite seq_S, flat_map_app, map_app, IH. cbn [flat_map]. rewrite app_nil_r, map_map. cbn [rank].
    rewrite (map_shift (ds + (0 + m) * dt) dt). cbn [Nat.add].
    rewrite <- seq_app. f_equal. lia.
  Qed.

  Lemma all_ranks : map rk all = seq 0 N.
  Proof.
    unfold allIdx. rewrite <- flat_map_concat_map, !map_app, tri_ranks, !map_map. cbn [rank].
    rewrite map_id, (map_shift (ds + (n + 1) * dt)), (map_shift (ds + (n + 1) * dt + dl)).
    unfold flatDim. rewrite !seq_app, <- !app_assoc. reflexivity.
  Qed.

  Lemma all_length : length all = N.
  Proof. rewrite <- (map_length rk), all_ranks. apply seq_length. Qed.

  Definition unrank (i : nat) : gidx := nth i all (GS 0).
  Lemma rank_unrank i : i < N -> rk (unrank i) = i.
  Proof.
    intros H. unfold unrank. rewrite <- (map_nth rk).
    rewrite (nth_indep _ _ 0) by (rewrite map_length, all_length; auto).
    rewrite all_ranks, seq_nth by auto. auto.
  Qed.
  Lemma unrank_in i : i < N -> In (unrank i) all.
  Proof. intros H. apply nth_In. rewrite all_length. auto. Qed.
  Lemma rank_lt g : In g all -> rk g < N.
  Proof. intros H. apply (in_map rk) in H. rewrite all_ranks, in_seq in H. lia. Qed.
  Lemma unrank_rank g : In g all -> unrank (rk g) = g.
  Proof.
    intros H. pose proof (rank_lt g H) as L. apply (rank_inj n ds dt dl dO); auto using unrank_in.
    apply rank_unrank; auto.
  Qed.

  Lemma flatPerm_nth s i : i < N -> nth i (flatPerm s n ds dt dl dO) 0 = rk (permIdx s (unrank i)).
  Proof.
    intros H. unfold flatPerm. rewrite (nth_indep _ 0 ((fun g => flatPos n ds dt dl (permIdx s g)) (GS 0)))
      by (rewrite map_length, all_length; auto).
    apply (map_nth (fun g => flatPos n ds dt dl (permIdx s g))).
  Qed.

  Lemma flatPerm_valid s : arrowDims s ds dt dl dO -> validPerm N (flatPerm s n ds dt dl dO).
  Proof.
    intros HD. pose proof (permIdx_Permutation s n ds dt dl dO HD) as PP.
    assert (P2 : Permutation (flatPerm s n ds dt dl dO) (seq 0 N)).
    { unfold flatPerm. rewrite <- all_ranks. rewrite <- map_map with (f := permIdx s) (g := fun g => rk g).
      apply Permutation_map. exact PP. }
    split; [|split].
    - rewrite (Permutation_length P2), seq_length. auto.
    - eapply Permutation_NoDup; [apply Permutation_sym; exact P2|apply seq_NoDup].
    - intros x Hx. apply (Permutation_in _ P2), in_seq in Hx. lia.
  Qed.

  Lemma flatVec_length {F} (x : arrow_vec (F:=F)) : vecOf n ds dt dl dO x -> length (flatVec x) = N.
  Proof.
    intros [Ns Nt Ht Nl No]. unfold flatVec. rewrite !app_length, Ns, Nl, No.
    assert (E : length (concat (v_tri x)) = (n + 1) * dt).
    { assert (G : forall l : list (list F), (forall t, t < length l -> length (nth t l []) = dt) -> length (concat l) = length l * dt).
      { induction l as [|a l IH]; intros H; [reflexivity|]. cbn [concat length]. rewrite app_length, IH.
        - specialize (H 0 ltac:(cbn [length]; lia)). cbn [nth] in H. lia.
        - intros t Ht'. apply (H (S t)). cbn [length]. lia. }
      rewrite G, Nt; auto. intros t H. apply Ht. lia. }
    rewrite E. unfold flatDim. lia.
  Qed.

  Lemma concat_nth {F} (o : F) m (l : list (list F)) t i : (forall u, u < length l -> length (nth u l []) = m) ->
    t < length l -> i < m -> nth (t * m + i) (concat l) o = nth i (nth t l []) o.
  Proof.
    revert t. induction l as [|a l IH]; intros t H Ht Hi; [cbn [length] in Ht; lia|].
    pose proof (H 0 ltac:(cbn [length]; lia)) as H0. cbn [nth] in H0. cbn [concat].
    destruct t as [|t]; cbn [nth].
    - rewrite app_nth1 by lia. auto.
    - rewrite app_nth2 by lia. rewrite <- IH; [f_equal; lia| |cbn [length] in Ht; lia|auto].
      intros u Hu. apply (H (S u)). cbn [length]. lia.
  Qed.

  Lemma flatVec_at {F} (O : ops F) x g : vecOf n ds dt dl dO x -> In g all -> vecAt O (flatVec x) (rk g) = gvecAt O x g.
  Proof.
    intros V Hg. pose proof (flatVec_length x V) as LN. destruct V as [Ns Nt Ht Nl No]. apply in_allIdx in Hg.
    unfold vecAt, flatVec in *. rewrite !app_length in LN. unfold flatDim in LN.
    destruct g as [i|t i|i|i]; cbn [rank gvecAt]; unfold vecAt.
    - rewrite app_nth1 by lia. auto.
    - rewrite app_nth2 by lia. rewrite app_nth1 by nia.
      replace (ds + t * dt + i - length (v_start x)) with (t * dt + i) by lia.
      apply concat_nth; try lia. intros u Hu. apply Ht. lia.
    - rewrite app_nth2 by lia. rewrite app_nth2 by lia. rewrite app_nth1 by lia. f_equal. lia.
    - rewrite app_nth2 by lia. rewrite app_nth2 by lia. rewrite app_nth2 by lia. f_equal. lia.
  Qed.
End Numbers.

(** ** the flat run with the indices of the blocks *)
Section Transport.
  Context {F : Type} (O : ops F).
  Variables (n ds dt dl dO : nat).
  Local Notation all := (allIdx n ds dt dl dO).
  Local Notation N := (flatDim n ds dt dl dO).
  Local Notation rk := (rank n ds dt dl).
  Local Notation u := (unrank n ds dt dl dO).
  Variables (row : nat -> list nat) (A L S : nat -> nat -> F) (D : nat -> F).
  Hypothesis RL : forall i j, In j (row i) -> j < i.

  Definition rowJ (g : gidx) : list gidx := map u (row (rk g)).

  Lemma mapu_in l x : (forall j, In j l -> j < N) -> In x (map u l) <-> In x all /\ In (rk x) l.
  Proof.
    intros H. rewrite in_map_iff. split.
    - intros (j & <- & Hj). pose proof (H j Hj). rewrite rank_unrank by auto. auto using unrank_in.
    - intros [Hx Hr]. exists (rk x). split; auto. apply unrank_rank; auto.
  Qed.

  Lemma row_N i j : i < N -> In j (row i) -> j < N.
  Proof. intros Hi H. apply RL in H. lia. Qed.

  Lemma rowJ_in g x : In g all -> In x (rowJ g) <-> In x all /\ In (rk x) (row (rk g)).
  Proof. intros Hg. apply mapu_in. intros j. apply row_N. apply rank_lt with (dO := dO); auto. Qed.

  Lemma memu l x : (forall j, In j l -> j < N) -> x < N -> memI gidx_eq_dec (u x) (map u l) = memI Nat.eq_dec x l.
  Proof.
    intros H Hx. apply eq_true_iff_eq. rewrite !memI_In, mapu_in by auto. rewrite rank_unrank by auto.
    split; [tauto|]. split; auto. apply unrank_in; auto.
  Qed.

  Lemma common_u g h : In g all -> In h all ->
    common gidx_eq_dec rowJ g h = map u (common Nat.eq_dec row (rk g) (rk h)).
  Proof.
    intros Hg Hh. unfold common, rowJ. rewrite filter_map'. f_equal. apply filter_ext_in.
    intros x Hx. apply memu.
    - intros j. apply row_N. apply rank_lt with (dO := dO); auto.
    - eapply row_N; [|exact Hx]. apply rank_lt with (dO := dO); auto.
  Qed.

  Local Notation onJ f := (fun g h : gidx => f (rk g) (rk h)).
  Lemma chainedF_J fm0 reg reg' fm : chainedF O Nat.eq_dec (seq 0 N) row (fun dg _ _ => fm0 dg) A L S D reg ->
    (forall v g, In g all -> reg' v g = reg v (rk g)) ->
    (forall dg g k, In g all -> fm dg g k = fm0 dg) ->
    chainedF O gidx_eq_dec all rowJ fm (onJ A) (onJ L) (onJ S) (fun g => D (rk g)) reg'.
  Proof.
    intros [H1 H2] HR HF.
    assert (RD : forall dg g h l a r, In g all -> (forall k, In k l -> k < N) ->
      reduces O (isTermF O (fun dg _ _ => fm0 dg) dg L S D (rk g) (rk h)) a l r ->
      reduces O (isTermF O fm dg (onJ L) (onJ S) (fun g => D (rk g)) g h) a (map u l) r).
    { intros dg g h l a r Hg Hl Rd. apply reduces_map. eapply reduces_impl; [|exact Rd].
      intros k x Hk Hx. cbn beta. unfold isTermF in *. rewrite rank_unrank by auto. rewrite HF by auto. auto. }
    constructor.
    - intros g h Hg Hh. apply rowJ_in in Hh; auto. destruct Hh as [Hh Hr].
      destruct (H1 (rk g) (rk h)) as [Rd E]; auto.
      { apply in_seq. pose proof (rank_lt n ds dt dl dO g Hg). lia. }
      split; auto. rewrite common_u by auto. apply RD; auto.
      intros k Hk. apply common_In in Hk. eapply row_N; [|apply Hk]. apply rank_lt with (dO := dO); auto.
    - intros g Hg. destruct (H2 (rk g)) as (s & Rd & E).
      { apply in_seq. pose proof (rank_lt n ds dt dl dO g Hg). lia. }
      exists s. split; [|rewrite HR; auto]. apply RD; auto.
      intros k. apply row_N. apply rank_lt with (dO := dO); auto.
  Qed.

  Lemma mapu_sorted l : (forall j, In j l -> j < N) -> StronglySorted lt l -> StronglySorted (rlt ds dt dl n) (map u l).
  Proof.
    intros H Hs. apply (map_sorted lt); auto. intros a b Ha Hb Hab. unfold rlt. rewrite !rank_unrank by auto. auto.
  Qed.

  Lemma goodRun_J : (forall i, StronglySorted lt (row i)) ->
    goodRun O Nat.eq_dec (seq 0 N) (fun g => seq 0 g) row A L ->
    goodRun O gidx_eq_dec all (bigL ds dt dl dO n) rowJ (onJ A) (onJ L).
  Proof.
    clear S D.
    intros RS [G1 G2 G3 G4].
    assert (IS : forall g, In g all -> In (rk g) (seq 0 N)).
    { intros g Hg. apply in_seq. pose proof (rank_lt n ds dt dl dO g Hg). lia. }
    constructor.
    - intros g Hg. apply (sorted_sub gidx_eq_dec (rlt ds dt dl n)).
      + unfold rlt. intros; lia.
      + unfold rlt. intros; lia.
      + apply mapu_sorted; auto. intros j. apply row_N. apply rank_lt with (dO := dO); auto.
      + apply filter_StronglySorted, all_sorted.
      + intros x Hx. apply rowJ_in in Hx; auto. destruct Hx as [Hx Hr]. apply RL in Hr. apply filter_In.
        rewrite Nat.ltb_lt. auto.
    - intros g h Hg Hh Nn. apply G2; auto. intros H. apply Nn, rowJ_in; auto.
    - intros g h Hg Hh Nn. apply bigL_rank in Hh; auto. destruct Hh as [Hh Lt]. apply G3; auto.
      + apply in_seq. lia.
      + intros H. apply Nn, rowJ_in; auto.
    - intros g h x Hg Hh H1 H2. apply bigL_rank in Hh; auto. destruct Hh as [Hh Lt].
      apply rowJ_in in H1, H2; auto. apply rowJ_in; auto. split; auto.
      apply (G4 (rk g) (rk h) (rk x)); auto; [apply in_seq; lia|tauto|tauto].
  Qed.

  (** *** solves *)
  Variable col : nat -> list nat.
  Hypothesis CG : colsGood (seq 0 N) row col.
  Definition colJ (g : gidx) : list gidx := map u (col (rk g)).

  Lemma isIn g : In g all -> In (rk g) (seq 0 N).
  Proof. intros Hg. apply in_seq. pose proof (rank_lt n ds dt dl dO g Hg). lia. Qed.
  Lemma col_N g j : In g all -> In j (col (rk g)) -> j < N.
  Proof. intros Hg H. apply (cg_in _ _ _ CG) in H; [|apply isIn; auto]. destruct H as [H _]. apply in_seq in H. lia. Qed.

  Lemma colsGood_J : colsGood all rowJ colJ.
  Proof.
    clear A L S D.
    constructor.
    - intros g Hg.
      assert (G : forall l, (forall j, In j l -> j < N) -> NoDup l -> NoDup (map u l)).
      { induction l as [|a l IH]; intros H1 H2; [constructor|]. inversion H2; subst. cbn [map]. constructor.
        - intros H. apply mapu_in in H; [|intros; apply H1; right; auto].
          rewrite rank_unrank in H by (apply H1; left; auto). tauto.
        - apply IH; auto. intros; apply H1; right; auto. }
      apply G; [intros j; apply col_N; auto|]. apply (cg_nodup _ _ _ CG), isIn. auto.
    - intros g x Hg. unfold colJ. rewrite mapu_in by (intros j; apply col_N; auto).
      rewrite (cg_in _ _ _ CG) by (apply isIn; auto). split.
      + intros (Hx & _ & Hr). split; auto. apply rowJ_in; auto.
      + intros (Hx & Hr). apply rowJ_in in Hr; auto. split; auto. split; [apply isIn; auto|tauto].
  Qed.

  Lemma col_sub_J : (forall i, StronglySorted gt (col i)) -> forall g, In g all ->
    colJ g = filter (fun x => memI gidx_eq_dec x (colJ g)) (bigC ds dt dl dO n g).
  Proof.
    clear A L S D.
    intros CS g Hg. apply (sorted_sub gidx_eq_dec (fun a b => rlt ds dt dl n b a)).
    - unfold rlt. intros; lia.
    - unfold rlt. intros; lia.
    - apply (map_sorted gt); auto. intros a b Ha Hb Hab. unfold rlt.
      rewrite !rank_unrank by (eapply col_N; eauto). auto.
    - apply filter_StronglySorted, (rev_sorted (rlt ds dt dl n)), all_sorted.
    - intros x Hx. apply (cg_in _ _ _ colsGood_J) in Hx; auto. destruct Hx as [Hx Hr].
      apply rowJ_in in Hr; auto. destruct Hr as [_ Hr]. apply RL in Hr. apply filter_In.
      rewrite Nat.ltb_lt, <- in_rev. auto.
  Qed.

  Lemma subl_map {I J} (f : J -> I) a l t : subl O a (map f l) t = subl O a l (fun x => t (f x)).
  Proof. revert a. induction l as [|x l IH]; intros a; [reflexivity|]. cbn [map]. apply IH. Qed.

  Lemma forwardEq_J b y : forwardEq O (seq 0 N) row L b y ->
    forwardEq O all rowJ (onJ L) (fun g => b (rk g)) (fun g => y (rk g)).
  Proof.
    intros H g Hg. rewrite (H (rk g)) by (apply isIn; auto). unfold rowJ. rewrite subl_map. apply subl_ext.
    intros k Hk. rewrite rank_unrank; auto. eapply row_N; [|exact Hk]. apply rank_lt with (dO := dO); auto.
  Qed.
  Lemma diagonalEq_J y z : diagonalEq O (seq 0 N) D y z ->
    diagonalEq O all (fun g => D (rk g)) (fun g => y (rk g)) (fun g => z (rk g)).
  Proof. intros H g Hg. apply H. apply isIn; auto. Qed.
  Lemma backwardEq_J z x : backwardEq O (seq 0 N) L col z x ->
    backwardEq O all (onJ L) colJ (fun g => z (rk g)) (fun g => x (rk g)).
  Proof.
    intros H g Hg. rewrite (H (rk g)) by (apply isIn; auto). unfold colJ. rewrite subl_map. apply subl_ext.
    intros k Hk. rewrite rank_unrank; auto. eapply col_N; eauto.
  Qed.
End Transport.
