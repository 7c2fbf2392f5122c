(** Exact arithmetic: the block equations of the arrowhead factor as equations of
    dense blocks. *)
From Coq Require Import List Arith Lia Bool Ring.
From Verif Require Import Base ModelPerm ModelSparsity ModelSymbolic ModelNumeric ModelArrow.
From Verif Require Import SpecSymbolic SpecArrow SpecNumeric SpecArrowNum.
From Verif Require Import ProofBase ProofPerm ProofCsr ProofSparsity ProofFill ProofFill3
  ProofArrowSym ProofDense ProofUpRow ProofUp ProofEntry ProofExact ProofKernel ProofSolve
  ProofLdl ProofSingle ProofMethods ProofArrowRows ProofArrowUniq.
Import ListNotations.

Section Dense.
  Context {F : Type} (O : ops F) (FL : fieldLaws O).
  Local Notation get := (getL O).
  Local Notation "0" := (o0 O) : scalar.
  Local Notation "a + b" := (oadd O a b) : scalar.
  Local Notation "a - b" := (osub O a b) : scalar.
  Local Notation "a * b" := (omul O a b) : scalar.
  Local Notation "a / b" := (odiv O a b) : scalar.
  Local Notation sum := (sumn O).
  Add Ring FrA : (fl_ring FL).

  (** sum over a column block of a product of rows *)
  Definition pr (n : nat) (D : nat -> F) (f g : nat -> F) : F :=
    sum n (fun k => f k * D k * g k)%s.

  Record arrowDense (ds dt dl dO n : nat) (A G : arrow_fun F) (D : gidx -> F)
      (reg : F -> nat -> F) : Prop := mkArrowDense {
    ed_sd : forall i, i < ds ->
      singleRow O ds (f_sd A) reg (f_sd G) (fun i => D (GS i)) i;
    ed_t0 : forall i, i < dt ->
      ldlRow O ds dt (f_sd G) (fun i => D (GS i)) (f_sn A) (f_td A 0) (fun i => f_td A 0%nat i i) reg
        (f_sn G) (f_td G 0) (fun i => D (GT 0 i)) i;
    ed_ts : forall t i, t < n -> i < dt ->
      ldlRow O dt dt (f_td G t) (fun i => D (GT t i)) (f_ts A t) (f_td A (t + 1))
        (fun i => f_td A (t + 1)%nat i i) reg (f_ts G t) (f_td G (t + 1)) (fun i => D (GT (t + 1) i)) i;
    ed_ld : forall i, i < dl ->
      ldlRow O dt dl (f_td G n) (fun i => D (GT n i)) (f_lp A) (f_ld A) (fun i => f_ld A i i) reg
        (f_lp G) (f_ld G) (fun i => D (GL i)) i;
    ed_so : forall i j, i < dO -> j < ds ->
      f_so A i j = (pr ds (fun k => D (GS k)) (f_so G i) (f_sd G j) + f_so G i j * D (GS j))%s;
    ed_os0 : forall i j, i < dO -> j < dt ->
      f_os A 0 i j = (pr ds (fun k => D (GS k)) (f_so G i) (f_sn G j) +
        pr dt (fun k => D (GT 0 k)) (f_os G 0 i) (f_td G 0 j) + f_os G 0 i j * D (GT 0 j))%s;
    ed_os : forall t i j, t < n -> i < dO -> j < dt ->
      f_os A (t + 1) i j = (pr dt (fun k => D (GT t k)) (f_os G t i) (f_ts G t j) +
        pr dt (fun k => D (GT (t + 1) k)) (f_os G (t + 1) i) (f_td G (t + 1) j) +
        f_os G (t + 1)%nat i j * D (GT (t + 1) j))%s;
    ed_ln : forall i j, i < dO -> j < dl ->
      f_ln A i j = (pr dt (fun k => D (GT n k)) (f_os G n i) (f_lp G j) +
        pr dl (fun k => D (GL k)) (f_ln G i) (f_ld G j) + f_ln G i j * D (GL j))%s;
    ed_od : forall i j, i < dO -> j < i ->
      f_od A i j = (pr ds (fun k => D (GS k)) (f_so G i) (f_so G j) +
        sum (n + 1) (fun t => pr dt (fun k => D (GT t k)) (f_os G t i) (f_os G t j)) +
        pr dl (fun k => D (GL k)) (f_ln G i) (f_ln G j) +
        pr dO (fun k => D (GO k)) (f_od G i) (f_od G j) + f_od G i j * D (GO j))%s;
    ed_odD : forall i, i < dO ->
      D (GO i) = reg (f_od A i i - (pr ds (fun k => D (GS k)) (f_so G i) (f_so G i) +
        sum (n + 1) (fun t => pr dt (fun k => D (GT t k)) (f_os G t i) (f_os G t i)) +
        pr dl (fun k => D (GL k)) (f_ln G i) (f_ln G i) +
        pr dO (fun k => D (GO k)) (f_od G i) (f_od G i)))%s i }.

  Lemma ldlRow_ext n1 n2 G11 D1 a21 a22 ad a21' a22' ad' reg G21 G22 D2 i :
    (forall j, j < n1 -> a21 i j = a21' i j) -> (forall j, j < i -> a22 i j = a22' i j) ->
    ad i = ad' i ->
    ldlRow O n1 n2 G11 D1 a21 a22 ad reg G21 G22 D2 i ->
    ldlRow O n1 n2 G11 D1 a21' a22' ad' reg G21 G22 D2 i.
  Proof.
    intros E1 E2 E3 [H1 H2 H3]. constructor.
    - intros j Hj. rewrite <- E1 by auto. auto.
    - intros j Hj. rewrite <- E2 by auto. auto.
    - rewrite <- E3. auto.
  Qed.

  Lemma stepP_dense b11 b21 b31 b32 b33 n1 n2 n3 R11 R21 R31 R32 R33 q1 p2 p1 p3 o1 o2 sy1
      L11 D11 L21 i31 i32 L31 L32 L33 D33 A B C D :
    partHyp b11 b21 b31 b32 b33 n1 n2 n3 R11 R21 R31 R32 R33 q1 p2 p1 p3 o1 o2 sy1 ->
    coverRect i31 n3 n1 R31 p3 o1 -> coverRect i32 n3 n2 R32 p3 o2 ->
    (forall k, k < n1 -> getD O D11 k <> 0%s) ->
    stepP O b11 b21 b31 b32 b33 n3 L11 D11 L21 i31 i32 None L31 L32 L33 D33 A B C D ->
    forall i, i < n3 ->
    partDense O n1 n2 (get (b_sp b11) L11) (getD O D11) (get (b_sp b21) L21)
      (initL O i31 b31 L31) (initL O i32 b32 L32) (get (b_sp b33) L33) (getD O D33)
      (get (b_sp b31) A) (get (b_sp b32) B) (get (b_sp b33) C) (getD O D) i.
  Proof.
    intros [G11 G21 G31 G32 G33 Low Low3 CH] V31 V32 Z1 (sc & K) i Hi.
    eapply (partRow_dense O FL (b_sp b11) (b_sp b21) (b_sp b31) (b_sp b32) (b_sp b33) n1 n2 n3
      R11 R21 R31 R32 R33) with (s := sc i); auto;
      try (eapply goodBlk_gcsr; eauto; fail); try (eapply gb_cols; eauto; fail);
      try (eapply gb_in; eauto; fail); try (intros; apply getL_out; auto; fail).
    - intros r j Hr Hj Hn. eapply initL_rect_out; eauto.
    - intros r j Hr Hj Hn. eapply initL_rect_out; eauto.
  Qed.

  Section Blocks.
  Variables (s : arrow_sp) (ds dt dl dO : nat) (k : arrow_blks) (P : arrow_pats).
  Hypothesis AG : arrowGood s ds dt dl dO k P.
  Hypothesis AC : arrowChordal P.
  Local Notation ps := (ss_perm (as_start s)).
  Local Notation pt := (st_perm (as_tri s)).
  Local Notation pl := (sl_perm (as_link s)).
  Local Notation po := (so_perm (as_outer s)).

  Definition strictFun (d : arrow_data (F:=F)) : arrow_fun F := mkAF F
    (get (b_sp (k_sd k)) (fst (d_sd d)))
    (get (b_sp (k_sn k)) (d_sn d))
    (get (b_sp (k_so k)) (d_so d))
    (fun t => get (b_sp (k_td k)) (fst (nth t (d_td d) ([], []))))
    (fun t => get (b_sp (k_ts k)) (nth t (d_ts d) []))
    (get (b_sp (k_lp k)) (d_lp d))
    (get (b_sp (k_ld k)) (fst (d_ld d)))
    (get (b_sp (k_ln k)) (d_ln d))
    (fun t => get (b_sp (k_os k)) (nth t (d_os d) []))
    (get (b_sp (k_od k)) (fst (d_od d))).

  (** the permuted input *)
  Definition permFun (A : arrow_fun F) : arrow_fun F := mkAF F
    (fun i j => f_sd A (nth i ps 0%nat) (nth j ps 0%nat))
    (fun i j => f_sn A (nth i pt 0%nat) (nth j ps 0%nat))
    (fun i j => f_so A (nth i po 0%nat) (nth j ps 0%nat))
    (fun t i j => f_td A t (nth i pt 0%nat) (nth j pt 0%nat))
    (fun t i j => f_ts A t (nth i pt 0%nat) (nth j pt 0%nat))
    (fun i j => f_lp A (nth i pl 0%nat) (nth j pt 0%nat))
    (fun i j => f_ld A (nth i pl 0%nat) (nth j pl 0%nat))
    (fun i j => f_ln A (nth i po 0%nat) (nth j pl 0%nat))
    (fun t i j => f_os A t (nth i po 0%nat) (nth j pt 0%nat))
    (fun i j => f_od A (nth i po 0%nat) (nth j po 0%nat)).

  Lemma symVal m nr nc vals b n R p L i j :
    goodBlk b n n R p p true -> matOf O m nr nc vals ->
    initL O (Some m) b L i j = symAt O (entries (m_sp m)) vals (nth i p 0%nat) (nth j p 0%nat).
  Proof.
    intros G [_ HI]. cbn [initL]. rewrite (origP_sym b n R p) by auto.
    rewrite (matVal_dense O m (m_sp m) vals) by auto. reflexivity.
  Qed.

  Lemma symValD m nr nc vals b n R p D i :
    goodBlk b n n R p p true -> matOf O m nr nc vals ->
    initD O (Some m) b D i = symAt O (entries (m_sp m)) vals (nth i p 0%nat) (nth i p 0%nat).
  Proof.
    intros G [_ HI]. cbn [initD]. rewrite (gb_prow _ _ _ _ _ _ _ G).
    rewrite (matVal_dense O m (m_sp m) vals) by auto. unfold symAt.
    rewrite Nat.max_id, Nat.min_id. reflexivity.
  Qed.

  Lemma rectVal m nr' nc' vals b nr nc R p q L i j :
    goodBlk b nr nc R p q false -> matOf O m nr' nc' vals ->
    initL O (Some m) b L i j = denseAt O (entries (m_sp m)) vals (nth i p 0%nat) (nth j q 0%nat).
  Proof.
    intros G [_ HI]. cbn [initL]. unfold origP.
    rewrite (gb_sym _ _ _ _ _ _ _ G), (gb_prow _ _ _ _ _ _ _ G), (gb_pcol _ _ _ _ _ _ _ G).
    apply matVal_dense; auto.
  Qed.

  Lemma arrow_dense mt n m w reg d :
    dataOf k n ds dt dl dO d -> goodInput s ds dt dl dO P n m -> inputArrow O n ds dt dl dO m w ->
    arrowRows O ds dt dl dO k mt m reg n d ->
    (forall i, i < ds -> pivotAt O d (GS i) <> 0%s) ->
    (forall t i, t < n + 1 -> i < dt -> pivotAt O d (GT t i) <> 0%s) ->
    (forall i, i < dl -> pivotAt O d (GL i) <> 0%s) ->
    (forall i, i < dO -> pivotAt O d (GO i) <> 0%s) ->
    arrowDense ds dt dl dO n (permFun (matFun O m w)) (strictFun d) (pivotAt O d) reg.
  Proof.
    intros DO GI IA ([A1 A2 A3 A4] & Z & Y & ln & [B1 B2 B3 B4 B5 B6 B7 B8]) ZS ZT ZL ZO.
    destruct DO as [[Nsd1 Nsd2] Nsn Nso Ntd Htd Nts Hts Nlp [Nld1 Nld2] Nln Nos Hos [Nod1 Nod2]].
    destruct GI as [Isd Isn Iso Mtd Itd Mts Its Ilp Ild Iln Mos Ios Iod].
    destruct IA as [Jsd Jsn Jso _ Jtd _ Jts Jlp Jld Jln _ Jos Jod].
    pose proof AG as [Gsd Gsn Gso Gtd Gts Glp Gld Gln Gos God].
    assert (ZT' : forall t, t < n + 1 -> forall i, i < dt -> getD O (snd (nth t (d_td d) ([], []))) i <> 0%s)
      by (intros t Ht i Hi; apply (ZT t i Ht Hi)).
    (* partial steps *)
    pose proof (stepP_dense _ _ _ _ _ _ _ _ _ _ _ _ _ _ _ _ _ _ _ _ _ _ _ _ _ _ _ _ _ _ _ _ _
      (hyp_ostart s ds dt dl dO k P AG AC) (proj2 Iso) (proj2 (Ios 0%nat ltac:(lia))) ZS B5) as DS.
    pose proof (fun t (Ht : t < n) => stepP_dense _ _ _ _ _ _ _ _ _ _ _ _ _ _ _ _ _ _ _ _ _ _ _ None _ _ _ _ _ _ _ _ _
       (hyp_otri s ds dt dl dO k P AG AC) I (proj2 (Ios (t + 1)%nat ltac:(lia)))
       (ZT' t ltac:(lia)) (B6 t Ht)) as DT.
    pose proof (stepP_dense _ _ _ _ _ _ _ _ _ _ _ _ _ _ _ _ _ _ _ _ _ _ _ None _ _ _ _ _ _ _ _ _
       (hyp_olink s ds dt dl dO k P AG AC) I (proj2 Iln) (ZT' n ltac:(lia)) B7) as DL.
    (* final step *)
    assert (DF : forall i, i < dO ->
       ldlRow O dl dO (f_ld (strictFun d)) (getD O (snd (d_ld d))) (get (b_sp (k_ln k)) ln)
         (get (b_sp (k_od k)) (fst (Z (n + 2)%nat))) (getD O (snd (Z (n + 2)%nat))) reg
         (f_ln (strictFun d)) (f_od (strictFun d)) (getD O (snd (d_od d))) i).
    { intros i Hi. eapply (kernelRows_ldl O FL mt (k_ld k) (k_ln k) (k_od k) dl dO) with
        (init21 := None) (init22 := None); try exact I.
      - exact (hyp_outer s ds dt dl dO k P AG AC).
      - auto.
      - exact ZL.
      - intros q Hq. apply (ZO q). lia.
      - exact B8. }
    (* the block in the outer column before division *)
    assert (YT : forall t, t < n + 1 -> forall i j, i < dO -> j < dt ->
      getL O (b_sp (k_os k)) (Y t) i j =
      (pr dt (fun q => pivotAt O d (GT t q)) (f_os (strictFun d) t i) (f_td (strictFun d) t j) +
       f_os (strictFun d) t i j * pivotAt O d (GT t j))%s).
    { intros t Ht i j Hi Hj. destruct (Nat.eq_dec t n) as [->|N].
      - exact (pd_31 _ _ _ _ _ _ _ _ _ _ _ _ _ _ _ (DL i Hi) j Hj).
      - exact (pd_31 _ _ _ _ _ _ _ _ _ _ _ _ _ _ _ (DT t ltac:(lia) i Hi) j Hj). }
    (* the diagonal block of the outer column *)
    assert (ZC : forall t, t < n + 1 -> forall i, i < dO ->
       (forall j, j < i -> get (b_sp (k_od k)) (fst (Z 1%nat)) i j =
          (sum t (fun u => pr dt (fun q => pivotAt O d (GT u q)) (f_os (strictFun d) u i)
                         (f_os (strictFun d) u j)) + get (b_sp (k_od k)) (fst (Z (t + 1)%nat)) i j)%s) /\
       getD O (snd (Z 1%nat)) i =
          (sum t (fun u => pr dt (fun q => pivotAt O d (GT u q)) (f_os (strictFun d) u i)
                         (f_os (strictFun d) u i)) + getD O (snd (Z (t + 1)%nat)) i)%s).
    { induction t as [|t IH]; intros Ht i Hi.
      - cbn [sumn Nat.add]. split; intros; ring.
      - destruct (IH ltac:(lia) i Hi) as [IH1 IH2]. pose proof (DT t ltac:(lia) i Hi) as DD.
        replace (S t + 1)%nat with (t + 2)%nat by lia. cbn [sumn]. split.
        + intros j Hj. rewrite IH1 by auto.
          rewrite (pd_33 _ _ _ _ _ _ _ _ _ _ _ _ _ _ _ DD j Hj). unfold pr. cbn [strictFun f_os pivotAt].
          change (vecAt O (snd (nth t (d_td d) ([], [])))) with (getD O (snd (nth t (d_td d) ([], [])))).
          ring.
        + rewrite IH2. rewrite (pd_D _ _ _ _ _ _ _ _ _ _ _ _ _ _ _ DD). unfold pr.
          cbn [strictFun f_os pivotAt].
          change (vecAt O (snd (nth t (d_td d) ([], [])))) with (getD O (snd (nth t (d_td d) ([], [])))).
          ring. }
    assert (OD : forall i, i < dO ->
       (forall j, j < i -> f_od (permFun (matFun O m w)) i j =
         (pr ds (fun q => pivotAt O d (GS q)) (f_so (strictFun d) i) (f_so (strictFun d) j) +
          sum (n + 1) (fun u => pr dt (fun q => pivotAt O d (GT u q)) (f_os (strictFun d) u i)
                         (f_os (strictFun d) u j)) + get (b_sp (k_od k)) (fst (Z (n + 2)%nat)) i j)%s) /\
       f_od (permFun (matFun O m w)) i i =
         (pr ds (fun q => pivotAt O d (GS q)) (f_so (strictFun d) i) (f_so (strictFun d) i) +
          sum (n + 1) (fun u => pr dt (fun q => pivotAt O d (GT u q)) (f_os (strictFun d) u i)
                         (f_os (strictFun d) u i)) + getD O (snd (Z (n + 2)%nat)) i)%s).
    { intros i Hi. destruct (ZC n ltac:(lia) i Hi) as [Z1 Z2].
      pose proof (DS i Hi) as DSi. pose proof (DL i Hi) as DLi.
      assert (Z0 : forall j, j < i -> get (b_sp (k_od k)) (fst (Z 0%nat)) i j =
                 f_od (permFun (matFun O m w)) i j).
      { intros j Hj. destruct (In_dec_e (i, j) (c_entries (b_sp (k_od k)))) as [Hin|Hn].
        - rewrite (fi_L _ _ _ _ _ B4) by auto. eapply symVal; eauto.
        - rewrite getL_out by auto. symmetry. cbn [permFun matFun f_od].
          rewrite <- (symVal (a_od m) dO dO (w_od w) (k_od k) dO (p_od P) po [] i j) by auto.
          eapply initL_sym_out; eauto. apply Iod. }
      assert (Z0D : getD O (snd (Z 0%nat)) i = f_od (permFun (matFun O m w)) i i).
      { rewrite (fi_D _ _ _ _ _ B4) by auto. eapply symValD; eauto. }
      rewrite Nat.add_1_r. cbn [sumn]. split.
      - intros j Hj. rewrite <- Z0 by auto.
        rewrite (pd_33 _ _ _ _ _ _ _ _ _ _ _ _ _ _ _ DSi j Hj). rewrite Z1 by auto.
        rewrite (pd_33 _ _ _ _ _ _ _ _ _ _ _ _ _ _ _ DLi j Hj). unfold pr.
        cbn [strictFun f_os f_so pivotAt].
        change (vecAt O (snd (nth n (d_td d) ([], [])))) with (getD O (snd (nth n (d_td d) ([], [])))).
        change (vecAt O (snd (d_sd d))) with (getD O (snd (d_sd d))). ring.
      - rewrite <- Z0D.
        rewrite (pd_D _ _ _ _ _ _ _ _ _ _ _ _ _ _ _ DSi). rewrite Z2 by auto.
        rewrite (pd_D _ _ _ _ _ _ _ _ _ _ _ _ _ _ _ DLi). unfold pr.
        cbn [strictFun f_os f_so pivotAt].
        change (vecAt O (snd (nth n (d_td d) ([], [])))) with (getD O (snd (nth n (d_td d) ([], [])))).
        change (vecAt O (snd (d_sd d))) with (getD O (snd (d_sd d))). ring. }
    constructor.
    - intros i Hi. destruct A1 as (X & A1). unfold step5 in A1.
      pose proof (kernelRows_ldl O FL mt emptyDiagBlk (emptyLeftBlk (k_sd k)) (k_sd k) 0 ds noPat noPat
        (p_sd P) [] [] ps true [] (getD O []) (Some (emptyMatrixInput ds 0)) (Some (a_sd m)) [] []
        (initD O (Some (a_sd m)) (k_sd k) []) reg X (fst (d_sd d)) (getD O (snd (d_sd d))) i) as [_ H2 H3]; auto.
      + eapply hyp_sd; eauto.
      + split; [constructor; auto; intros a c []|]. intros a c (_ & Hj & _). lia.
      + apply Isd.
      + intros q Hq. lia.
      + intros q Hq. apply ZS. lia.
      + cbn [sumn] in H2, H3. constructor.
        * intros j Hj. specialize (H2 j Hj).
          rewrite (symVal (a_sd m) ds ds (w_sd w) (k_sd k) ds (p_sd P) ps) in H2 by auto.
          cbn [permFun matFun f_sd strictFun]. rewrite H2. 
          change (fun i => pivotAt O d (GS i)) with (getD O (snd (d_sd d))).
          change (pivotAt O d (GS j)) with (getD O (snd (d_sd d)) j).
          change (sum ds (fun q => (get (b_sp (k_sd k)) (fst (d_sd d)) i q * getD O (snd (d_sd d)) q *
             get (b_sp (k_sd k)) (fst (d_sd d)) j q)%s)) with
             (sum ds (fun q => (get (b_sp (k_sd k)) (fst (d_sd d)) i q * pivotAt O d (GS q) *
             get (b_sp (k_sd k)) (fst (d_sd d)) j q)%s)). ring.
        * rewrite (symValD (a_sd m) ds ds (w_sd w) (k_sd k) ds (p_sd P) ps) in H3 by auto.
          cbn [permFun matFun f_sd strictFun]. change (pivotAt O d (GS i)) with (getD O (snd (d_sd d)) i).
          rewrite H3 at 1. f_equal.
          change (sum ds (fun q => (get (b_sp (k_sd k)) (fst (d_sd d)) i q * getD O (snd (d_sd d)) q *
             get (b_sp (k_sd k)) (fst (d_sd d)) i q)%s)) with
             (sum ds (fun q => (get (b_sp (k_sd k)) (fst (d_sd d)) i q * pivotAt O d (GS q) *
             get (b_sp (k_sd k)) (fst (d_sd d)) i q)%s)). ring.
    - intros i Hi. eapply ldlRow_ext; [| | |eapply (kernelRows_ldl O FL mt (k_sd k) (k_sn k) (k_td k) ds dt);
        [exact (hyp_start s ds dt dl dO k P AG AC)|apply Isn|apply (Itd 0%nat); lia|exact Hi|exact ZS| |exact A2]].
      + intros j Hj. eapply rectVal; eauto.
      + intros j Hj. eapply symVal; eauto. apply Jtd. lia.
      + eapply symValD; eauto. apply Jtd. lia.
      + intros q Hq. apply (ZT' 0%nat); lia.
    - intros t i Ht Hi. eapply ldlRow_ext; [| | |eapply (kernelRows_ldl O FL mt (k_td k) (k_ts k) (k_td k) dt dt);
        [exact (hyp_tri s ds dt dl dO k P AG AC)|apply (Its t); lia|apply (Itd (t + 1)%nat); lia
        |exact Hi|exact (ZT' t ltac:(lia))| |exact (A3 t Ht)]].
      + intros j Hj. eapply rectVal; eauto.
      + intros j Hj. eapply symVal; eauto. apply Jtd. lia.
      + eapply symValD; eauto. apply Jtd. lia.
      + intros q Hq. apply (ZT' (t + 1)%nat); lia.
    - intros i Hi. eapply ldlRow_ext; [| | |eapply (kernelRows_ldl O FL mt (k_td k) (k_lp k) (k_ld k) dt dl);
        [exact (hyp_link s ds dt dl dO k P AG AC)|apply Ilp|apply Ild|exact Hi|exact (ZT' n ltac:(lia))
        | |exact A4]].
      + intros j Hj. eapply rectVal; eauto.
      + intros j Hj. eapply symVal; eauto.
      + eapply symValD; eauto.
      + intros q Hq. apply (ZL q). lia.
    - intros i j Hi Hj. pose proof (pd_31 _ _ _ _ _ _ _ _ _ _ _ _ _ _ _ (DS i Hi) j Hj) as H.
      rewrite (rectVal (a_so m) dO ds (w_so w) (k_so k) dO ds (p_so P) po ps) in H by auto. exact H.
    - intros i j Hi Hj. pose proof (pd_32 _ _ _ _ _ _ _ _ _ _ _ _ _ _ _ (DS i Hi) j Hj) as H.
      rewrite (rectVal _ dO dt (nth 0 (w_os w) []) (k_os k) dO dt (p_os P) po pt) in H
        by (auto; apply Jos; lia).
      rewrite (YT 0%nat) in H by (auto; lia).
      cbn [permFun matFun f_os]. rewrite H. unfold pr.
      cbn [strictFun f_os f_so f_sn pivotAt].
      change (vecAt O (snd (d_sd d))) with (getD O (snd (d_sd d))). ring.
    - intros t i j Ht Hi Hj. pose proof (pd_32 _ _ _ _ _ _ _ _ _ _ _ _ _ _ _ (DT t Ht i Hi) j Hj) as H.
      rewrite (rectVal _ dO dt (nth (t + 1) (w_os w) []) (k_os k) dO dt (p_os P) po pt) in H
        by (auto; apply Jos; lia).
      rewrite (YT (t + 1)%nat) in H by (auto; lia).
      cbn [permFun matFun f_os]. rewrite H. unfold pr.
      cbn [strictFun f_os f_ts pivotAt].
      change (vecAt O (snd (nth t (d_td d) ([], [])))) with (getD O (snd (nth t (d_td d) ([], [])))). ring.
    - intros i j Hi Hj. pose proof (pd_32 _ _ _ _ _ _ _ _ _ _ _ _ _ _ _ (DL i Hi) j Hj) as H.
      rewrite (rectVal (a_ln m) dO dl (w_ln w) (k_ln k) dO dl (p_ln P) po pl) in H by auto.
      rewrite (lr_21 _ _ _ _ _ _ _ _ _ _ _ _ _ (DF i Hi) j Hj) in H.
      cbn [permFun matFun f_ln]. rewrite H. unfold pr.
      cbn [strictFun f_os f_ln f_lp f_ld pivotAt].
      change (vecAt O (snd (nth n (d_td d) ([], [])))) with (getD O (snd (nth n (d_td d) ([], [])))).
      change (vecAt O (snd (d_ld d))) with (getD O (snd (d_ld d))). ring.
    - intros i j Hi Hj. rewrite (proj1 (OD i Hi) j Hj).
      rewrite (lr_22 _ _ _ _ _ _ _ _ _ _ _ _ _ (DF i Hi) j Hj). unfold pr.
      cbn [strictFun f_ln f_od pivotAt].
      change (vecAt O (snd (d_od d))) with (getD O (snd (d_od d))).
      change (vecAt O (snd (d_ld d))) with (getD O (snd (d_ld d))). ring.
    - intros i Hi. cbn [pivotAt]. change (vecAt O (snd (d_od d)) i) with (getD O (snd (d_od d)) i).
      rewrite (lr_D _ _ _ _ _ _ _ _ _ _ _ _ _ (DF i Hi)) at 1. f_equal.
      rewrite (proj2 (OD i Hi)). unfold pr. cbn [strictFun f_ln f_od pivotAt].
      change (vecAt O (snd (d_od d))) with (getD O (snd (d_od d))).
      change (vecAt O (snd (d_ld d))) with (getD O (snd (d_ld d))). ring.
  Qed.
  End Blocks.
End Dense.
