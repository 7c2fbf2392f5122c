(** Rounding errors of matrix-vector products. *)
From Coq Require Import Reals Lra Lia List Arith Bool.
From Verif Require Import Base ModelPerm ModelSparsity ModelSymbolic ModelNumeric ModelArrow ModelReg ModelMixed.
From Verif Require Import SpecSymbolic SpecArrow SpecNumeric SpecArrowNum SpecReg SpecRound SpecMixed SpecProduct.
From Verif Require Import ProofBase ProofPerm ProofCsr ProofFill ProofDense ProofExact ProofLdl ProofKernel ProofSolve
  ProofSingle ProofSingleMain ProofMultiply ProofArrowSym ProofArrowRows ProofArrowUniq ProofArrowDense ProofArrowProduct ProofArrowSolve ProofArrowMain
  ProofArrowMultiply ProofPropSingle ProofPropArrow ProofArrowSub ProofRound ProofMixed ProofMultiplyRel.
Import ListNotations.
Local Open Scope R_scope.
Local Notation rsum := (suml Or).

Lemma bound_step u eta c s e y p y' :
  0 <= u -> 0 <= eta -> Rabs e <= s -> Rabs (y - e) <= productBound u eta c s ->
  forall q, near u eta p q -> near u eta (y + q) y' ->
  Rabs (y' - (e + p)) <= productBound u eta (S c) (s + Rabs p).
Proof.
  intros Hu Ht He Hy q (d1 & e1 & Hd1 & He1 & ->) (d2 & e2 & Hd2 & He2 & ->).
  unfold productBound in *. replace (S c + 1)%nat with (S (c + 1)) by lia.
  rewrite S_INR. cbn [pow].
  set (g := (1 + u) ^ (c + 1)) in *.
  assert (Hg : 1 + u <= g).
  { unfold g. replace (c + 1)%nat with (S c) by lia. cbn [pow].
    assert (1 <= (1 + u) ^ c) by (apply pow_R1_Rle; lra). nra. }
  replace ((y + (p * (1 + d1) + e1)) * (1 + d2) + e2 - (e + p)) with
    ((y - e) * (1 + d2) + e * d2 + p * (d1 + d2 + d1 * d2) + (e1 * (1 + d2) + e2)) by ring.
  assert (A1 : Rabs (1 + d2) <= 1 + u).
  { eapply Rle_trans; [apply Rabs_triang|]. rewrite Rabs_R1. lra. }
  assert (A2 : Rabs ((y - e) * (1 + d2)) <= ((g - 1) * s + 2 * INR c * eta * g) * (1 + u)).
  { rewrite Rabs_mult. apply Rmult_le_compat; auto; apply Rabs_pos. }
  assert (A3 : Rabs (e * d2) <= s * u).
  { rewrite Rabs_mult. apply Rmult_le_compat; auto; apply Rabs_pos. }
  assert (A4 : Rabs (d1 + d2 + d1 * d2) <= u + u + u * u).
  { eapply Rle_trans; [apply Rabs_triang|]. apply Rplus_le_compat.
    - eapply Rle_trans; [apply Rabs_triang|]. lra.
    - rewrite Rabs_mult. apply Rmult_le_compat; auto; apply Rabs_pos. }
  assert (A5 : Rabs (p * (d1 + d2 + d1 * d2)) <= Rabs p * (u + u + u * u)).
  { rewrite Rabs_mult. apply Rmult_le_compat_l; auto. apply Rabs_pos. }
  assert (A6 : Rabs (e1 * (1 + d2) + e2) <= eta * (1 + u) + eta).
  { eapply Rle_trans; [apply Rabs_triang|]. apply Rplus_le_compat; auto.
    rewrite Rabs_mult. apply Rmult_le_compat; auto; apply Rabs_pos. }
  set (N := INR c) in *. assert (HN : 0 <= N) by apply pos_INR.
  pose proof (Rabs_pos p) as Hp.
  eapply Rle_trans; [apply Rabs_triang|]. eapply Rle_trans.
  { apply Rplus_le_compat; [|exact A6]. eapply Rle_trans; [apply Rabs_triang|].
    apply Rplus_le_compat; [|exact A5]. eapply Rle_trans; [apply Rabs_triang|].
    apply Rplus_le_compat; [exact A2|exact A3]. }
  assert (B1 : Rabs p * (u + u + u * u) <= Rabs p * ((1 + u) * g - 1)).
  { apply Rmult_le_compat_l; auto. nra. }
  assert (B2 : eta * (1 + u) + eta <= eta * (2 * ((1 + u) * g))).
  { apply Rle_trans with (eta * (2 + u)); [lra|]. apply Rmult_le_compat_l; auto. nra. }
  nra.
Qed.

Lemma Forall2_map {A B C} (R : B -> C -> Prop) (f : A -> B) (g : A -> C) l :
  (forall a, R (f a) (g a)) -> Forall2 R (map f l) (map g l).
Proof. intros H. induction l; cbn; auto. Qed.
Lemma Forall2_map1 {A C} (R : A -> C -> Prop) (g : A -> C) l :
  (forall a, R a (g a)) -> Forall2 R l (map g l).
Proof. intros H. induction l; cbn; auto. Qed.
Lemma Forall2_nth {A B} (R : A -> B -> Prop) l l' d d' i :
  Forall2 R l l' -> (i < length l)%nat -> R (nth i l d) (nth i l' d').
Proof.
  intros H. revert i. induction H as [|a b l l' H H' IH]; intros [|i] Hi; cbn in *; try lia; auto.
  apply IH. lia.
Qed.

Section Cast.
  Context {F G : Type} (O : ops F) (P : ops G) (c : F -> G).
  Lemma cast_input m a vals : inputOf O m a vals -> inputOf P (castMat c m) a (map c vals).
  Proof.
    intros [I1 I2 I3]. constructor; auto; rewrite map_length; auto.
    intros k Hk. cbn [castMat m_val]. rewrite I3 by auto. cbn [bind]. f_equal.
    rewrite (nth_indep _ (o0 P) (c (o0 O))) by (rewrite map_length; auto). symmetry. apply map_nth.
  Qed.
  Lemma cast_of m nr nc vals : matOf O m nr nc vals -> matOf P (castMat c m) nr nc (map c vals).
  Proof. intros [H1 H2]. split; auto. apply cast_input. auto. Qed.
  Lemma cast_arrow n ds dt dl dO m w : inputArrow O n ds dt dl dO m w ->
    inputArrow P n ds dt dl dO (castArrowMat c m) (castVals c w).
  Proof.
    intros I. destruct I. constructor; cbn [castArrowMat castVals a_sd a_sn a_so a_td a_ts
      a_lp a_ld a_ln a_os a_od w_sd w_sn w_so w_td w_ts w_lp w_ld w_ln w_os w_od]; try rewrite map_length; auto using cast_of;
      intros; rewrite castMat_nth, map_nth'; auto using cast_of.
  Qed.
  Definition castVec (v : arrow_vec (F:=F)) : arrow_vec (F:=G) :=
    mkAV (map c (v_start v)) (map (map c) (v_tri v)) (map c (v_link v)) (map c (v_outer v)).
  Lemma cast_vec n ds dt dl dO v : vecOf n ds dt dl dO v -> vecOf n ds dt dl dO (castVec v).
  Proof.
    intros []. constructor; cbn [castVec v_start v_tri v_link v_outer]; rewrite ?map_length; auto.
    intros t Ht. rewrite map_nth', map_length. auto.
  Qed.
  Lemma cast_vecAt v i : (i < length v)%nat -> vecAt P (map c v) i = c (vecAt O v i).
  Proof.
    intros Hi. unfold vecAt. rewrite (nth_indep _ (o0 P) (c (o0 O))) by (rewrite map_length; auto). apply map_nth.
  Qed.
  Lemma cast_gvecAt n ds dt dl dO v g : vecOf n ds dt dl dO v -> In g (allIdx n ds dt dl dO) ->
    gvecAt P (castVec v) g = c (gvecAt O v g).
  Proof.
    intros []. rewrite in_allIdx. destruct g; intros H; cbn [gvecAt castVec v_start v_tri v_link v_outer];
      rewrite ?map_nth'; apply cast_vecAt; try lia. rewrite vo_tri; lia.
  Qed.
End Cast.

(** counting the products *)
Lemma rsum_filter {A} (l : list A) (p : A -> bool) :
  rsum l (fun a => if p a then 1 else 0) = INR (length (filter p l)).
Proof.
  induction l as [|a l IH]; [reflexivity|]. rewrite rsum_cons, IH. cbn [filter].
  destruct (p a); cbn [length]; rewrite ?S_INR; lra.
Qed.

Lemma rsum_combine {A B} (l : list A) (l' : list B) f : length l = length l' ->
  rsum (combine l l') (fun e => f (fst e)) = rsum l f.
Proof.
  revert l'. induction l as [|a l IH]; intros [|b l'] H; cbn in H; try lia; [reflexivity|].
  cbn [combine]. rewrite !rsum_cons, IH by lia. reflexivity.
Qed.

Lemma count_kind {F} kind nr nc es (vals : list F) i :
  length vals = length es -> (forall r c, In (r, c) es -> (r < nr)%nat /\ (c < nc)%nat) ->
  (kind = Symmetric -> nr = nc) -> (i < ProofMultiply.rowsOf kind nr nc)%nat ->
  sumn Or (ProofMultiply.colsOf kind nr nc) (fun j => kindAt Or kind es (map (fun _ => 1) vals) i j) =
  INR (mulCount kind es i).
Proof.
  intros NV W Q Hi.
  pose proof (entryPart_sum Or FLr kind nr nc es (map (fun _ => 1) vals) (repeat 1 (ProofMultiply.colsOf kind nr nc)) i W Q Hi) as E.
  transitivity (sumn Or (ProofMultiply.colsOf kind nr nc) (fun j => omul Or (kindAt Or kind es (map (fun _ => 1) vals) i j)
     (vecAt Or (repeat 1 (ProofMultiply.colsOf kind nr nc)) j))).
  { apply sumn_ext. intros j Hj. unfold vecAt. rewrite nth_repeat' by auto. cbn. lra. }
  rewrite <- E. clear E.
  assert (V : forall j, (j < ProofMultiply.colsOf kind nr nc)%nat -> vecAt Or (repeat 1 (ProofMultiply.colsOf kind nr nc)) j = 1).
  { intros j Hj. unfold vecAt. apply nth_repeat'. auto. }
  set (x := repeat 1 (ProofMultiply.colsOf kind nr nc)) in *.
  assert (L1 : forall e, In e (combine es (map (fun _ => 1) vals)) -> snd e = 1).
  { intros [e v] He. apply in_combine_r in He. apply in_map_iff in He. destruct He as (? & <- & _). auto. }
  set (pN := fun e : nat * nat => hasNormal kind && (fst e =? i)).
  set (pT := fun e : nat * nat => hasTransposed kind && negb (isSymmetric kind && (fst e =? snd e)) && (snd e =? i)).
  rewrite (rsum_ext _ _ (fun e => (if pN (fst e) then 1 else 0) + (if pT (fst e) then 1 else 0))).
  2:{ intros [[r c] v] He. pose proof (L1 _ He) as Ev. cbn [snd] in Ev. subst v.
      apply in_combine_l in He. destruct (W _ _ He) as [Hr Hc]. unfold entryPart, pN, pT. cbn [fst snd].
      change (oadd Or) with Rplus. change (omul Or) with Rmult. change (o0 Or) with 0. f_equal.
      - destruct (hasNormal kind) eqn:HN; cbn [andb]; auto. destruct (r =? i); auto.
        rewrite V; [lra|]. destruct kind; cbn in *; try discriminate; auto.
      - destruct (hasTransposed kind) eqn:HN; cbn [andb]; auto.
        destruct (negb _ && _) eqn:E; auto. rewrite V; [lra|].
        destruct kind; cbn in *; try discriminate; auto. rewrite <- Q; auto. }
  rewrite rsum_plus.
  rewrite (rsum_combine es (map (fun _ => 1) vals) (fun e => if pN e then 1 else 0)) by (rewrite map_length; auto).
  rewrite (rsum_combine es (map (fun _ => 1) vals) (fun e => if pT e then 1 else 0)) by (rewrite map_length; auto).
  rewrite !rsum_filter, <- plus_INR. f_equal. unfold mulCount, pN, pT.
  destruct kind; cbn [hasNormal hasTransposed isSymmetric andb negb].
  - assert (Z : forall l : list (nat * nat), filter (fun _ => false) l = []) by (intros l; induction l; auto).
    rewrite Z. cbn. lia.
  - assert (Z : forall l : list (nat * nat), filter (fun _ => false) l = []) by (intros l; induction l; auto).
    rewrite Z. cbn. lia.
  - f_equal. f_equal. apply filter_ext. intros [r c]. cbn [fst snd].
    destruct (Nat.eqb_spec r c), (Nat.eqb_spec c i), (Nat.eqb_spec r i); cbn; auto; lia.
Qed.

(** a sum with three terms *)
Lemma sumn_three t f N : (forall v, v <> t -> (v + 1)%nat <> t -> v <> (t + 1)%nat -> f v = 0) ->
  sumn Or N f = (if (0 <? t) && (t - 1 <? N) then f (t - 1)%nat else 0) + (if t <? N then f t else 0) +
    (if t + 1 <? N then f (t + 1)%nat else 0).
Proof.
  intros H. induction N as [|N IH].
  - cbn [sumn]. destruct (Nat.ltb_spec (t - 1) 0), (Nat.ltb_spec t 0), (Nat.ltb_spec (t + 1) 0); try lia.
    rewrite andb_false_r. cbn. lra.
  - cbn [sumn]. rewrite IH. change (oadd Or) with Rplus. clear IH.
    destruct (Nat.ltb_spec 0 t), (Nat.ltb_spec (t - 1) N), (Nat.ltb_spec (t - 1) (S N)), (Nat.ltb_spec t N),
      (Nat.ltb_spec t (S N)), (Nat.ltb_spec (t + 1) N), (Nat.ltb_spec (t + 1) (S N)); cbn [andb]; try lia;
      try (assert (EN : N = t) by lia; subst); try (assert (EN : N = (t + 1)%nat) by lia; subst);
      try (assert (EN : N = (t - 1)%nat) by lia; rewrite EN in *); rewrite ?(H N) by lia; try lra; try lia.
Qed.

Section Counts.
  Context {F : Type}.
  Local Notation ones := (map (fun _ : F => 1)).

  Lemma count_block (O : ops F) kind (m : mat (F:=F)) nr nc vals i :
    matOf O m nr nc vals -> (kind = Symmetric -> nr = nc) -> (i < ProofMultiply.rowsOf kind nr nc)%nat ->
    sumn Or (ProofMultiply.colsOf kind nr nc) (fun j => kindAt Or kind (entries (m_sp m)) (ones vals) i j * 1) =
    INR (mulCount kind (entries (m_sp m)) i).
  Proof.
    intros [HS HI] Q Hi. rewrite <- (count_kind kind nr nc (entries (m_sp m)) vals i); auto.
    - apply sumn_ext. intros j Hj. lra.
    - apply (io_len _ _ _ _ HI).
    - intros r c H. apply (sp_wf _ _ _ HS). auto.
  Qed.

  Definition ztri (n dt : nat) (A B : list (mat (F:=F))) (wA wB : list (list F)) (t i : nat) : R :=
    sumn Or (n + 1) (fun v => sumn Or dt (fun j =>
      triAt Or (fun t => kindAt Or Symmetric (entries (m_sp (nth t A noMat))) (ones (nth t wA [])))
        (fun t => totalAt Or (entries (m_sp (nth t B noMat))) (ones (nth t wB []))) t i v j * 1)).

  Lemma count_tri (O : ops F) n dt A B wA wB t i : inputTri O n dt A B wA wB -> (t < n + 1)%nat -> (i < dt)%nat ->
    ztri n dt A B wA wB t i = INR (mulCountT A B t i).
  Proof.
    intros [NA HA NB HB] Ht Hi. unfold ztri. rewrite (sumn_three t).
    2:{ intros v N1 N2 N3. apply (sumn_0 Or FLr). intros j _. unfold triAt.
        destruct (Nat.eqb_spec t v); [lia|]. destruct (Nat.eqb_spec t (v + 1)); [lia|].
        destruct (Nat.eqb_spec v (t + 1)); [lia|]. cbn. lra. }
    unfold mulCountT. rewrite NB, !plus_INR. f_equal; [f_equal|].
    - destruct (Nat.ltb_spec 0 t) as [Hz|Hz]; cbn [andb].
      + destruct (Nat.ltb_spec (t - 1) (n + 1)); [|lia]. destruct (Nat.eqb_spec t 0); [lia|].
        rewrite <- (count_block O Normal (nth (t - 1) B noMat) dt dt (nth (t - 1) wB []) i); auto; try discriminate.
        * cbn [ProofMultiply.colsOf]. apply sumn_ext. intros j Hj. unfold triAt, kindAt.
          destruct (Nat.eqb_spec t (t - 1)); [lia|]. destruct (Nat.eqb_spec t (t - 1 + 1)); [|lia]. auto.
        * apply HB. lia.
      + destruct (Nat.eqb_spec t 0); [|lia]. reflexivity.
    - destruct (Nat.ltb_spec t (n + 1)); [|lia].
      rewrite <- (count_block O Symmetric (nth t A noMat) dt dt (nth t wA []) i); auto.
      cbn [ProofMultiply.colsOf]. apply sumn_ext. intros j Hj. unfold triAt. rewrite Nat.eqb_refl. auto.
    - destruct (Nat.ltb_spec (t + 1) (n + 1)) as [Hz|Hz].
      + destruct (Nat.eqb_spec t n); [lia|].
        rewrite <- (count_block O Transposed (nth t B noMat) dt dt (nth t wB []) i); auto; try discriminate.
        * cbn [ProofMultiply.colsOf]. apply sumn_ext. intros j Hj. unfold triAt, kindAt.
          destruct (Nat.eqb_spec t (t + 1)); [lia|]. destruct (Nat.eqb_spec t (t + 1 + 1)); [lia|].
          rewrite Nat.eqb_refl. auto.
        * apply HB. lia.
      + destruct (Nat.eqb_spec t n); [|lia]. reflexivity.
  Qed.

  Lemma rsum_map {A B} (h : A -> B) l f : rsum (map h l) f = rsum l (fun a => f (h a)).
  Proof. induction l as [|a l IH]; [reflexivity|]. cbn [map]. rewrite !rsum_cons, IH. auto. Qed.
  Lemma INR_list_sum (l : list nat) : INR (list_sum l) = rsum l INR.
  Proof. induction l as [|a l IH]; [reflexivity|]. cbn [list_sum fold_right]. rewrite plus_INR, rsum_cons, <- IH. auto. Qed.

  Lemma count_arrow (O : ops F) n ds dt dl dO m w g : inputArrow O n ds dt dl dO m w -> In g (allIdx n ds dt dl dO) ->
    gmatVec Or (allIdx n ds dt dl dO) (productAt Or (castArrowMat (fun _ => 1) m) (castVals (fun _ => 1) w)) (fun _ => 1) g =
    INR (mulCountG m g).
  Proof.
    intros IA Hg. pose proof Hg as Hg'. rewrite in_allIdx in Hg'. unfold gmatVec, productAt.
    cbn [castArrowMat a_ts]. rewrite map_length.
    destruct IA as [Isd Isn Iso Mtd Itd Mts Its Ilp Ild Iln Mos Ios Iod].
    rewrite Mts, (suml_allIdx Or FLr). change (oadd Or) with Rplus. change (omul Or) with Rmult.
    set (M := multFun Or _ _).
    assert (Z : forall k, sumn Or k (fun _ => o0 Or * 1) = 0).
    { intros k. apply (sumn_0 Or FLr). intros; cbn; lra. }
    destruct g as [i|t i|i|i]; cbn [symArrow mulCountG]; rewrite ?plus_INR.
    - rewrite <- (count_block O Symmetric (a_sd m) ds ds (w_sd w) i) by auto.
      rewrite <- (count_block O Transposed (a_sn m) dt ds (w_sn w) i) by (auto; discriminate).
      rewrite <- (count_block O Transposed (a_so m) dO ds (w_so w) i) by (auto; discriminate).
      rewrite (sumn_single Or FLr (n + 1) _ 0%nat).
      + cbn [Nat.eqb]. rewrite Z. cbn [ProofMultiply.colsOf M multFun f_sd f_sn f_so]. unfold kindAt. cbn. lra.
      + lia.
      + intros v Hv N. destruct v; [lia|]. cbn [Nat.eqb]. apply Z.
    - destruct Hg' as [Ht Hi]. rewrite <- (count_tri O n dt (a_td m) (a_ts m) (w_td w) (w_ts w) t i) by (auto; constructor; auto).
      rewrite <- (count_block O Transposed (nth t (a_os m) noMat) dO dt (nth t (w_os w) []) i) by (auto; discriminate).
      rewrite Mts.
      assert (Z1 : sumn Or ds (fun j => (if t =? 0 then f_sn M i j else o0 Or) * 1) =
        INR (if t =? 0 then mulCount Normal (entries (m_sp (a_sn m))) i else 0)).
      { destruct (t =? 0); [|apply Z].
        rewrite <- (count_block O Normal (a_sn m) dt ds (w_sn w) i) by (auto; discriminate). reflexivity. }
      assert (Z2 : sumn Or dl (fun j => (if t =? n then f_lp M j i else o0 Or) * 1) =
        INR (if t =? n then mulCount Transposed (entries (m_sp (a_lp m))) i else 0)).
      { destruct (t =? n); [|apply Z].
        rewrite <- (count_block O Transposed (a_lp m) dl dt (w_lp w) i) by (auto; discriminate). reflexivity. }
      rewrite Z1, Z2.
      assert (Z3 : sumn Or (n + 1) (fun v => sumn Or dt (fun j => symArrow Or n M (GT t i) (GT v j) * 1)) =
        ztri n dt (a_td m) (a_ts m) (w_td w) (w_ts w) t i).
      { unfold ztri. apply sumn_ext. intros v Hv. apply sumn_ext. intros j Hj. cbn [symArrow].
        unfold triAt, M. cbn [multFun f_td f_ts castArrowMat castVals a_td a_ts w_td w_ts].
        rewrite !castMat_nth, !map_nth'. reflexivity. }
      cbn [symArrow] in Z3. rewrite Z3.
      assert (Z4 : sumn Or dO (fun j => f_os M t j i * 1) =
        sumn Or (ProofMultiply.colsOf Transposed dO dt) (fun j =>
          kindAt Or Transposed (entries (m_sp (nth t (a_os m) noMat))) (ones (nth t (w_os w) [])) i j * 1)).
      { apply sumn_ext. intros j _. unfold M. cbn [multFun f_os castArrowMat castVals a_os w_os].
        rewrite castMat_nth, map_nth'. reflexivity. }
      rewrite Z4. lra.
    - rewrite <- (count_block O Normal (a_lp m) dl dt (w_lp w) i) by (auto; discriminate).
      rewrite <- (count_block O Symmetric (a_ld m) dl dl (w_ld w) i) by auto.
      rewrite <- (count_block O Transposed (a_ln m) dO dl (w_ln w) i) by (auto; discriminate).
      rewrite (sumn_single Or FLr (n + 1) _ n).
      + rewrite Nat.eqb_refl, Z. cbn [ProofMultiply.colsOf M multFun f_lp f_ld f_ln]. unfold kindAt. cbn. lra.
      + lia.
      + intros v Hv N. destruct (Nat.eqb_spec v n); [lia|]. apply Z.
    - rewrite <- (count_block O Normal (a_so m) dO ds (w_so w) i) by (auto; discriminate).
      rewrite <- (count_block O Normal (a_ln m) dO dl (w_ln w) i) by (auto; discriminate).
      rewrite <- (count_block O Symmetric (a_od m) dO dO (w_od w) i) by auto.
      rewrite Mts, INR_list_sum.
      assert (Z1 : sumn Or (n + 1) (fun v => sumn Or dt (fun j => f_os M v i j * 1)) =
        rsum (map (fun t => mulCount Normal (entries (m_sp (nth t (a_os m) noMat))) i) (seq 0 (n + 1))) INR).
      { rewrite <- (suml_seq Or FLr). rewrite rsum_map.
        apply (rsum_ext (seq 0 (n + 1)) _ (fun t => INR (mulCount Normal (entries (m_sp (nth t (a_os m) noMat))) i))).
        intros v Hv. apply in_seq in Hv.
        rewrite <- (count_block O Normal (nth v (a_os m) noMat) dO dt (nth v (w_os w) []) i); auto; try discriminate.
        2:{ apply Ios. lia. }
        apply sumn_ext. intros j _. unfold M. cbn [multFun f_os castArrowMat castVals a_os w_os].
        rewrite castMat_nth, map_nth'. reflexivity. }
      rewrite Z1. cbn [ProofMultiply.colsOf M multFun f_so f_ln f_od]. unfold kindAt. cbn [castArrowMat castVals a_so a_ln a_od w_so w_ln w_od castMat m_sp]. lra.
  Qed.
End Counts.

Section Error.
  Context {F : Type} (O : ops F) (fin : F -> Prop) (val : F -> R) (u eta : R).
  Context (RO : rounding O fin val u eta).

  (** exact value, absolute values and number of products, computed alongside *)
  Definition T : Type := R * R * R.
  Definition liftT (f : R -> R -> R) (a b : T) : T :=
    let '(a1, a2, a3) := a in let '(b1, b2, b3) := b in (f a1 b1, f a2 b2, f a3 b3).
  Definition OT : ops T := mkOps T (0, 0, 0) (liftT Rplus) (liftT Rminus) (liftT Rmult) (liftT Rdiv).
  Definition tv (v : F) : T := (val v, Rabs (val v), 1).
  Definition ty (v : F) : T := (val v, Rabs (val v), 0).
  Definition RVX (v : F) (t : T) : Prop := t = tv v.
  Definition RY (y : F) (t : T) : Prop :=
    let '(e, s, c) := t in exists k, c = INR k /\ Rabs e <= s /\
      (fin y -> Rabs (val y - e) <= productBound u eta k s).

  Lemma RY_step a a' v v' x x' : RY a a' -> RVX v v' -> RVX x x' ->
    RY (oadd O a (omul O v x)) (oadd OT a' (omul OT v' x')).
  Proof.
    destruct a' as [[e s] c]. intros (k & -> & He & Ha) -> ->. cbn.
    exists (S k). rewrite S_INR. split; [lra|]. split.
    { eapply Rle_trans; [apply Rabs_triang|]. rewrite Rabs_mult. lra. }
    intros Hf. apply (rd_add _ _ _ _ _ RO) in Hf. destruct Hf as (Hf1 & Hf2 & N).
    apply (rd_mul _ _ _ _ _ RO) in Hf2. destruct Hf2 as (_ & _ & N').
    rewrite <- Rabs_mult. destruct (rd_u _ _ _ _ _ RO). pose proof (rd_eta _ _ _ _ _ RO).
    eapply bound_step; eauto.
  Qed.
  Lemma RY_start b : RY b (ty b).
  Proof.
    exists 0%nat. cbn [INR]. split; auto. split; [lra|]. intros _. unfold productBound. cbn [Nat.add pow INR].
    replace (val b - val b) with 0 by lra. rewrite Rabs_R0. pose proof (Rabs_pos (val b)).
    destruct (rd_u _ _ _ _ _ RO). pose proof (rd_eta _ _ _ _ _ RO). nra.
  Qed.
  Lemma castT_rel m : matRel RVX m (castMat tv m).
  Proof.
    split; auto. intros k _. cbn [castMat m_val]. destruct (m_val m k); cbn [bind resRel]; auto. reflexivity.
  Qed.

  (** components *)
  Definition isE (t : T) (r : R) : Prop := fst (fst t) = r.
  Definition isS (t : T) (r : R) : Prop := snd (fst t) = r.
  Definition isC (t : T) (r : R) : Prop := snd t = r.
  Lemma isE_step a a' v v' x x' : isE a a' -> isE v v' -> isE x x' ->
    isE (oadd OT a (omul OT v x)) (oadd Or a' (omul Or v' x')).
  Proof. destruct a as [[? ?] ?], v as [[? ?] ?], x as [[? ?] ?]. cbn. unfold isE. cbn. congruence. Qed.
  Lemma isS_step a a' v v' x x' : isS a a' -> isS v v' -> isS x x' ->
    isS (oadd OT a (omul OT v x)) (oadd Or a' (omul Or v' x')).
  Proof. destruct a as [[? ?] ?], v as [[? ?] ?], x as [[? ?] ?]. cbn. unfold isS. cbn. congruence. Qed.
  Lemma isC_step a a' v v' x x' : isC a a' -> isC v v' -> isC x x' ->
    isC (oadd OT a (omul OT v x)) (oadd Or a' (omul Or v' x')).
  Proof. destruct a as [[? ?] ?], v as [[? ?] ?], x as [[? ?] ?]. cbn. unfold isC. cbn. congruence. Qed.
  Lemma cast_rel (R : T -> R -> Prop) f m : (forall v, R (tv v) (f v)) -> matRel R (castMat tv m) (castMat f m).
  Proof.
    intros H. split; auto. intros k _. cbn [castMat m_val]. destruct (m_val m k); cbn [bind resRel]; auto.
  Qed.

  Local Notation av := (fun v => Rabs (val v)).
  Local Notation one := (fun _ : F => 1).
  Local Notation zero := (fun _ : F => 0).

  (** the three exact products bound the error of the rounded one *)
  Lemma close y t e s c k : RY y t -> isE t e -> isS t s -> isC t c -> c = INR k ->
    fin y -> Rabs (val y - e) <= productBound u eta k s.
  Proof.
    destruct t as [[e' s'] c']. unfold isE, isS, isC. cbn [fst snd]. intros (k' & E & _ & H) <- <- <- E' Hf.
    rewrite E in E'. apply INR_eq in E'. subst. auto.
  Qed.

  Lemma multiply_round kind m sp vals nr nc x rhs :
    inputOf O m sp vals -> spOf sp nr nc -> (kind = Symmetric -> nr = nc) ->
    length x = ProofMultiply.colsOf kind nr nc -> length rhs = ProofMultiply.rowsOf kind nr nc ->
    exists r, multiply O kind m x rhs = Ok r /\ length r = length rhs /\
      forall i, (i < length rhs)%nat -> fin (vecAt O r i) ->
      Rabs (val (vecAt O r i) - (val (vecAt O rhs i) + 
         sumn Or (ProofMultiply.colsOf kind nr nc) (fun j => kindAt Or kind (entries sp) (map val vals) i j * val (vecAt O x j)))) <=
      productBound u eta (mulCount kind (entries sp) i) (Rabs (val (vecAt O rhs i)) + 
         sumn Or (ProofMultiply.colsOf kind nr nc) (fun j => kindAt Or kind (entries sp) (map av vals) i j * Rabs (val (vecAt O x j)))).
  Proof.
    intros HI HS HQ Nx Nr.
    destruct (multiply_ok Or FLr kind (castMat val m) sp (map val vals) nr nc (map val x) (map val rhs))
      as (re & Ee & Ne & He); auto using (cast_input O Or); try (rewrite map_length; auto).
    destruct (multiply_ok Or FLr kind (castMat av m) sp (map av vals) nr nc (map av x) (map av rhs))
      as (rs & Es & Ns & Hs); auto using (cast_input O Or); try (rewrite map_length; auto).
    destruct (multiply_ok Or FLr kind (castMat one m) sp (map one vals) nr nc (map one x) (map zero rhs))
      as (rc & Ec & Nc & Hc); auto using (cast_input O Or); try (rewrite map_length; auto).
    pose proof (multiply_rel OT Or isE isE isE isE_step kind (castMat tv m) (castMat val m) (map tv x) (map val x)
      (map ty rhs) (map val rhs)) as R1.
    pose proof (multiply_rel OT Or isS isS isS isS_step kind (castMat tv m) (castMat av m) (map tv x) (map av x)
      (map ty rhs) (map av rhs)) as R2.
    pose proof (multiply_rel OT Or isC isC isC isC_step kind (castMat tv m) (castMat one m) (map tv x) (map one x)
      (map ty rhs) (map zero rhs)) as R3.
    pose proof (multiply_rel O OT RVX RVX RY RY_step kind m (castMat tv m) x (map tv x)
      rhs (map ty rhs)) as R4.
    specialize (R1 ltac:(apply cast_rel; reflexivity) ltac:(apply Forall2_map; reflexivity) ltac:(apply Forall2_map; reflexivity)).
    specialize (R2 ltac:(apply cast_rel; reflexivity) ltac:(apply Forall2_map; reflexivity) ltac:(apply Forall2_map; reflexivity)).
    specialize (R3 ltac:(apply cast_rel; reflexivity) ltac:(apply Forall2_map; reflexivity) ltac:(apply Forall2_map; reflexivity)).
    specialize (R4 (castT_rel m) ltac:(apply Forall2_map1; reflexivity) ltac:(apply Forall2_map1; apply RY_start)).
    rewrite Ee in R1. rewrite Es in R2. rewrite Ec in R3.
    destruct (multiply OT _ _ _ _) as [rt|] eqn:Et; cbn [resRel] in *; [|contradiction].
    destruct (multiply O _ _ _ _) as [r|] eqn:Er; cbn [resRel] in R4; [|contradiction].
    rewrite map_length in *.
    pose proof (Forall2_length _ _ _ R1) as L1. pose proof (Forall2_length _ _ _ R4) as L4.
    exists r. split; auto. split; [congruence|]. intros i Hi Hf.
    apply (close (vecAt O r i) (nth i rt (0, 0, 0)) _ _ (nth i rc 0)); auto.
    - apply (Forall2_nth RY); auto. lia.
    - transitivity (nth i re 0); [apply (Forall2_nth isE); auto; lia|].
      change (nth i re 0) with (vecAt Or re i). rewrite He by auto. rewrite (cast_vecAt O Or) by auto.
      cbn. f_equal. apply sumn_ext. intros j Hj. rewrite (cast_vecAt O Or) by lia. reflexivity.
    - transitivity (nth i rs 0); [apply (Forall2_nth isS); auto; lia|].
      change (nth i rs 0) with (vecAt Or rs i). rewrite Hs by auto. rewrite (cast_vecAt O Or) by auto.
      cbn. f_equal. apply sumn_ext. intros j Hj. rewrite (cast_vecAt O Or) by lia. reflexivity.
    - apply (Forall2_nth isC); auto. lia.
    - change (nth i rc 0) with (vecAt Or rc i). rewrite Hc by auto. rewrite (cast_vecAt O Or) by auto.
      rewrite <- (count_kind kind nr nc (entries sp) vals i); auto.
      + cbn. rewrite Rplus_0_l. apply sumn_ext. intros j Hj. rewrite (cast_vecAt O Or) by lia. cbn. lra.
      + apply (io_len _ _ _ _ HI).
      + intros r' c' H. apply (sp_wf _ _ _ HS). auto.
      + lia.
  Qed.

  Lemma Forall2_mats {A B} (R : A -> B -> Prop) (f : F -> A) (g : F -> B) l :
    (forall v, R (f v) (g v)) -> Forall2 (matRel R) (map (castMat f) l) (map (castMat g) l).
  Proof.
    intros H. induction l as [|m l IH]; cbn [map]; constructor; auto. split; auto.
    intros k _. cbn [castMat m_val]. destruct (m_val m k); cbn [bind resRel]; auto.
  Qed.
  Lemma Forall2_matsT l : Forall2 (matRel RVX) l (map (castMat tv) l).
  Proof. induction l as [|m l IH]; cbn [map]; constructor; auto. apply castT_rel. Qed.
  Lemma Forall2_vecs {A B} (R : A -> B -> Prop) (f : F -> A) (g : F -> B) l :
    (forall v, R (f v) (g v)) -> Forall2 (Forall2 R) (map (map f) l) (map (map g) l).
  Proof. intros H. apply Forall2_map. intros a. apply Forall2_map. auto. Qed.
  Lemma Forall2_vecs1 {B} (R : F -> B -> Prop) (g : F -> B) l :
    (forall v, R v (g v)) -> Forall2 (Forall2 R) l (map (map g) l).
  Proof. intros H. apply Forall2_map1. intros a. apply Forall2_map1. auto. Qed.
  Lemma Forall2_nth2 {A B} (R : A -> B -> Prop) l l' d d' t i :
    Forall2 (Forall2 R) l l' -> (t < length l)%nat -> (i < length (nth t l []))%nat ->
    R (nth i (nth t l []) d) (nth i (nth t l' []) d').
  Proof. intros H Ht Hi. apply Forall2_nth; auto. apply (Forall2_nth (Forall2 R)); auto. Qed.

  Local Notation triExact := (triExact O).
  Local Notation arrowExact := (arrowExact O).

  Lemma tri_round n dt A B wA wB x rhs :
    inputTri O n dt A B wA wB -> blocksOf n dt x -> blocksOf n dt rhs ->
    exists r, multiplyRepeatingBlockTridiagonal O A B x rhs = Ok r /\ blocksOf n dt r /\
      forall t i, (t < n + 1)%nat -> (i < dt)%nat -> fin (vecAt O (nth t r []) i) ->
      Rabs (val (vecAt O (nth t r []) i) -
            (val (vecAt O (nth t rhs []) i) + triExact val n dt A B wA wB x t i)) <=
      productBound u eta (mulCountT A B t i)
        (Rabs (val (vecAt O (nth t rhs []) i)) + triExact av n dt A B wA wB x t i).
  Proof.
    intros HI [Nx Nx'] [Nr Nr']. pose proof HI as [NA HA NB HB].
    assert (G : forall f z, exists r, multiplyRepeatingBlockTridiagonal Or (map (castMat f) A) (map (castMat f) B)
        (map (map f) x) (map (map z) rhs) = Ok r /\ length r = (n + 1)%nat /\
        (forall t, (t < n + 1)%nat -> length (nth t r []) = dt) /\
        forall t i, (t < n + 1)%nat -> (i < dt)%nat ->
          vecAt Or (nth t r []) i = z (vecAt O (nth t rhs []) i) + triExact f n dt A B wA wB x t i).
    { intros f z.
      destruct (tri_multiply_ok Or FLr n dt (map (castMat f) A) (map (castMat f) B) (map (map f) wA) (map (map f) wB)
        (map (map f) x) (map (map z) rhs)) as (r & E & N & N' & H); rewrite ?map_length; auto;
        try (intros; rewrite ?castMat_nth, ?map_nth', ?map_length; auto using (cast_of O Or)).
      exists r. split; auto. split; auto. split; auto. intros t i Ht Hi. rewrite H by auto.
      rewrite map_nth', (cast_vecAt O Or) by (rewrite Nr'; auto). cbn [oadd Or]. f_equal.
      apply sumn_ext. intros v Hv. apply sumn_ext. intros j Hj. rewrite map_nth', (cast_vecAt O Or) by (rewrite Nx'; auto).
      reflexivity. }
    destruct (G val val) as (re & Ee & Ne & Ne' & He).
    destruct (G av av) as (rs & Es & Ns & Ns' & Hs).
    destruct (G one zero) as (rc & Ec & Nc & Nc' & Hc). clear G.
    pose proof (tri_multiply_rel OT Or isE isE isE isE_step (map (castMat tv) A) (map (castMat val) A)
      (map (castMat tv) B) (map (castMat val) B) (map (map tv) x) (map (map val) x)
      (map (map ty) rhs) (map (map val) rhs)) as R1.
    pose proof (tri_multiply_rel OT Or isS isS isS isS_step (map (castMat tv) A) (map (castMat av) A)
      (map (castMat tv) B) (map (castMat av) B) (map (map tv) x) (map (map av) x)
      (map (map ty) rhs) (map (map av) rhs)) as R2.
    pose proof (tri_multiply_rel OT Or isC isC isC isC_step (map (castMat tv) A) (map (castMat one) A)
      (map (castMat tv) B) (map (castMat one) B) (map (map tv) x) (map (map one) x)
      (map (map ty) rhs) (map (map zero) rhs)) as R3.
    pose proof (tri_multiply_rel O OT RVX RVX RY RY_step A (map (castMat tv) A) B (map (castMat tv) B)
      x (map (map tv) x) rhs (map (map ty) rhs)) as R4.
    specialize (R1 ltac:(apply Forall2_mats; reflexivity) ltac:(apply Forall2_mats; reflexivity)
      ltac:(apply Forall2_vecs; reflexivity) ltac:(apply Forall2_vecs; reflexivity)).
    specialize (R2 ltac:(apply Forall2_mats; reflexivity) ltac:(apply Forall2_mats; reflexivity)
      ltac:(apply Forall2_vecs; reflexivity) ltac:(apply Forall2_vecs; reflexivity)).
    specialize (R3 ltac:(apply Forall2_mats; reflexivity) ltac:(apply Forall2_mats; reflexivity)
      ltac:(apply Forall2_vecs; reflexivity) ltac:(apply Forall2_vecs; reflexivity)).
    specialize (R4 (Forall2_matsT _) (Forall2_matsT _)
      ltac:(apply Forall2_vecs1; reflexivity) ltac:(apply Forall2_vecs1; apply RY_start)).
    rewrite Ee in R1. rewrite Es in R2. rewrite Ec in R3.
    destruct (multiplyRepeatingBlockTridiagonal OT _ _ _ _) as [rt|] eqn:Et; cbn [resRel] in *; [|contradiction].
    destruct (multiplyRepeatingBlockTridiagonal O _ _ _ _) as [r|] eqn:Er; cbn [resRel] in R4; [|contradiction].
    pose proof (Forall2_length _ _ _ R1) as L1. pose proof (Forall2_length _ _ _ R4) as L4.
    assert (LT : forall t, (t < n + 1)%nat -> length (nth t rt []) = dt).
    { intros t Ht. rewrite (Forall2_length _ _ _ (Forall2_nth (Forall2 isE) _ _ [] [] t R1 ltac:(lia))). auto. }
    assert (LR : forall t, (t < n + 1)%nat -> length (nth t r []) = dt).
    { intros t Ht. rewrite (Forall2_length _ _ _ (Forall2_nth (Forall2 RY) _ _ [] [] t R4 ltac:(lia))). auto. }
    exists r. split; auto. split; [split; auto; lia|]. intros t i Ht Hi Hf.
    apply (close (vecAt O (nth t r []) i) (nth i (nth t rt []) (0, 0, 0)) _ _ (nth i (nth t rc []) 0)); auto.
    - apply (Forall2_nth2 RY); auto; try lia. rewrite LR; auto.
    - rewrite <- He by auto. apply (Forall2_nth2 isE); auto; try lia. rewrite LT; auto.
    - rewrite <- Hs by auto. apply (Forall2_nth2 isS); auto; try lia. rewrite LT; auto.
    - apply (Forall2_nth2 isC); auto; try lia. rewrite LT; auto.
    - change (nth i (nth t rc []) 0) with (vecAt Or (nth t rc []) i). rewrite Hc by auto.
      rewrite <- (count_tri O n dt A B wA wB t i) by auto. rewrite Rplus_0_l. unfold triExact, ztri.
      apply sumn_ext. intros v Hv. apply sumn_ext. intros j Hj. unfold triProductAt, triAt.
      rewrite !castMat_nth, !map_nth'. reflexivity.
  Qed.

  Lemma arrowT_rel m : arrowRel RVX m (castArrowMat tv m).
  Proof.
    constructor; cbn [castArrowMat a_sd a_sn a_so a_td a_ts a_lp a_ld a_ln a_os a_od];
      try apply castT_rel; apply Forall2_matsT.
  Qed.
  Lemma arrow_cast_rel (R : T -> R -> Prop) f m : (forall v, R (tv v) (f v)) ->
    arrowRel R (castArrowMat tv m) (castArrowMat f m).
  Proof.
    intros H. constructor; cbn [castArrowMat a_sd a_sn a_so a_td a_ts a_lp a_ld a_ln a_os a_od];
      try (apply cast_rel; auto); apply Forall2_mats; auto.
  Qed.
  Lemma vec_cast_rel {A B} (R : A -> B -> Prop) (f : F -> A) (g : F -> B) v :
    (forall a, R (f a) (g a)) -> vecRel R (castVec f v) (castVec g v).
  Proof.
    intros H. unfold vecRel, castVec. cbn [v_start v_tri v_link v_outer].
    split; [|split; [apply Forall2_vecs; auto|split]]; apply Forall2_map; auto.
  Qed.
  Lemma vec_cast_rel1 {B} (R : F -> B -> Prop) (g : F -> B) v :
    (forall a, R a (g a)) -> vecRel R v (castVec g v).
  Proof.
    intros H. unfold vecRel, castVec. cbn [v_start v_tri v_link v_outer].
    split; [|split; [apply Forall2_vecs1; auto|split]]; apply Forall2_map1; auto.
  Qed.
  Lemma vecRel_of {A B} (R : A -> B -> Prop) n ds dt dl dO v v' : vecRel R v v' ->
    vecOf n ds dt dl dO v' -> vecOf n ds dt dl dO v.
  Proof.
    intros (H1 & H2 & H3 & H4) [].
    pose proof (Forall2_length _ _ _ H1). pose proof (Forall2_length _ _ _ H2).
    pose proof (Forall2_length _ _ _ H3). pose proof (Forall2_length _ _ _ H4).
    constructor; try congruence. intros t Ht.
    rewrite (Forall2_length _ _ _ (Forall2_nth (Forall2 R) _ _ [] [] t H2 ltac:(lia))). auto.
  Qed.
  Lemma vecRel_at {A B} (OA : ops A) (OB : ops B) (R : A -> B -> Prop) n ds dt dl dO v v' g :
    vecRel R v v' -> vecOf n ds dt dl dO v -> In g (allIdx n ds dt dl dO) -> R (gvecAt OA v g) (gvecAt OB v' g).
  Proof.
    intros (H1 & H2 & H3 & H4) [] Hg. rewrite in_allIdx in Hg. destruct g; cbn [gvecAt];
      try (apply (Forall2_nth R); auto; lia). apply (Forall2_nth2 R); auto; try lia. rewrite vo_tri; lia.
  Qed.

  Lemma arrow_round n ds dt dl dO m w x rhs :
    inputArrow O n ds dt dl dO m w -> vecOf n ds dt dl dO x -> vecOf n ds dt dl dO rhs ->
    let all := allIdx n ds dt dl dO in
    exists r, arrowMultiply O m x rhs = Ok r /\ vecOf n ds dt dl dO r /\
      forall g, In g all -> fin (gvecAt O r g) ->
      Rabs (val (gvecAt O r g) - (val (gvecAt O rhs g) + arrowExact val all m w x g)) <=
      productBound u eta (mulCountG m g) (Rabs (val (gvecAt O rhs g)) + arrowExact av all m w x g).
  Proof.
    intros HI Vx Vr all.
    assert (G : forall f z, exists r, arrowMultiply Or (castArrowMat f m) (castVec f x) (castVec z rhs) = Ok r /\
        vecOf n ds dt dl dO r /\
        forall g, In g all -> gvecAt Or r g = z (gvecAt O rhs g) + arrowExact f all m w x g).
    { intros f z.
      destruct (arrow_multiply_ok Or FLr n ds dt dl dO (castArrowMat f m) (castVals f w) (castVec f x) (castVec z rhs))
        as (r & E & N & H); auto using (cast_arrow O Or), @cast_vec.
      exists r. split; auto. split; auto. intros g Hg. rewrite H by auto.
      rewrite (cast_gvecAt O Or z n ds dt dl dO) by auto. cbn [oadd Or]. f_equal. unfold arrowExact, gmatVec.
      apply rsum_ext. intros h Hh. rewrite (cast_gvecAt O Or f n ds dt dl dO) by auto. reflexivity. }
    destruct (G val val) as (re & Ee & Ne & He).
    destruct (G av av) as (rs & Es & Ns & Hs).
    destruct (G one zero) as (rc & Ec & Nc & Hc). clear G.
    pose proof (arrow_multiply_rel OT Or isE isE isE isE_step (castArrowMat tv m) (castArrowMat val m)
      (castVec tv x) (castVec val x) (castVec ty rhs) (castVec val rhs)
      ltac:(apply arrow_cast_rel; reflexivity) ltac:(apply vec_cast_rel; reflexivity)
      ltac:(apply vec_cast_rel; reflexivity)) as R1.
    pose proof (arrow_multiply_rel OT Or isS isS isS isS_step (castArrowMat tv m) (castArrowMat av m)
      (castVec tv x) (castVec av x) (castVec ty rhs) (castVec av rhs)
      ltac:(apply arrow_cast_rel; reflexivity) ltac:(apply vec_cast_rel; reflexivity)
      ltac:(apply vec_cast_rel; reflexivity)) as R2.
    pose proof (arrow_multiply_rel OT Or isC isC isC isC_step (castArrowMat tv m) (castArrowMat one m)
      (castVec tv x) (castVec one x) (castVec ty rhs) (castVec zero rhs)
      ltac:(apply arrow_cast_rel; reflexivity) ltac:(apply vec_cast_rel; reflexivity)
      ltac:(apply vec_cast_rel; reflexivity)) as R3.
    pose proof (arrow_multiply_rel O OT RVX RVX RY RY_step m (castArrowMat tv m)
      x (castVec tv x) rhs (castVec ty rhs) (arrowT_rel m) ltac:(apply vec_cast_rel1; reflexivity)
      ltac:(apply vec_cast_rel1; apply RY_start)) as R4.
    rewrite Ee in R1. rewrite Es in R2. rewrite Ec in R3.
    destruct (arrowMultiply OT _ _ _) as [rt|] eqn:Et; cbn [resRel] in *; [|contradiction].
    destruct (arrowMultiply O _ _ _) as [r|] eqn:Er; cbn [resRel] in R4; [|contradiction].
    pose proof (vecRel_of _ _ _ _ _ _ _ _ R1 Ne) as VT. pose proof (vecRel_of _ _ _ _ _ _ _ _ R4 VT) as VR.
    exists r. split; auto. split; auto. intros g Hg Hf.
    apply (close (gvecAt O r g) (gvecAt OT rt g) _ _ (gvecAt Or rc g)); auto.
    - apply (vecRel_at O OT RY n ds dt dl dO); auto.
    - rewrite <- He by auto. apply (vecRel_at OT Or isE n ds dt dl dO); auto.
    - rewrite <- Hs by auto. apply (vecRel_at OT Or isS n ds dt dl dO); auto.
    - apply (vecRel_at OT Or isC n ds dt dl dO); auto.
    - rewrite Hc by auto. rewrite <- (count_arrow O n ds dt dl dO m w g) by auto. rewrite Rplus_0_l. reflexivity.
  Qed.
End Error.
