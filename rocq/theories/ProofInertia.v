(** Sylvester's law of inertia for LDL^T decompositions. *)
From Coq Require Import List Arith Lia Bool Ring Permutation.
From Verif Require Import ModelNumeric SpecNumeric SpecPivot SpecInertia ProofExact ProofLdl ProofSingle ProofPivot.
Import ListNotations.

Section Inertia.
  Context {F : Type} (O : ops F) (FL : fieldLaws O) (OL : ordLaws FL).
  Local Notation "0" := (o0 O) : scalar.
  Local Notation "a + b" := (oadd O a b) : scalar.
  Local Notation "a - b" := (osub O a b) : scalar.
  Local Notation "a * b" := (omul O a b) : scalar.
  Local Notation "a / b" := (odiv O a b) : scalar.
  Local Notation one := (fl_one FL).
  Local Notation opp := (fl_opp FL).
  Local Notation pos := (ol_pos OL).
  Add Ring FrIn : (fl_ring FL).

  Lemma isPos_iff a : isPos OL a = true <-> pos a.
  Proof.
    unfold isPos. destruct (ol_dec OL a) as [[H|H]|H]; split; auto; try discriminate; intros P; exfalso.
    - subst. apply (ol_0 OL); auto.
    - apply (pos_opp O FL OL a); auto.
  Qed.
  Lemma isNeg_iff a : isNeg OL a = true <-> pos (opp a).
  Proof.
    unfold isNeg. destruct (ol_dec OL a) as [[H|H]|H]; split; auto; try discriminate; intros P; exfalso.
    - apply (pos_opp O FL OL a); auto.
    - subst. apply (ol_0 OL). replace 0%s with (opp 0%s) by ring. auto.
  Qed.

  (** fewer homogeneous equations than unknowns have a solution other than zero *)
  Lemma homogeneous {X Y : Type} (eqd : forall a b : Y, {a = b} + {a <> b}) (E : list X) :
    forall (U : list Y) (f : X -> Y -> F), NoDup U -> length E < length U ->
    exists c : Y -> F, (exists y, In y U /\ c y <> 0%s) /\
      forall e, In e E -> suml O U (fun y => f e y * c y)%s = 0%s.
  Proof.
    induction E as [|e E IH]; intros U f ND HL.
    - destruct U as [|y U]; [cbn in HL; lia|]. exists (fun _ => one). split; [|intros ? []].
      exists y. split; [left; auto|]. apply (pos_nonzero O FL OL), (pos_one O FL OL).
    - destruct (Exists_dec (fun y => f e y <> 0%s) U) as [EX|NE].
      { intros y. destruct (ord_dec O FL OL (f e y) 0%s); [right|left]; auto. }
      + apply Exists_exists in EX. destruct EX as (y0 & Hy0 & Ny0).
        apply in_split in Hy0. destruct Hy0 as (U1 & U2 & ->).
        assert (PU : Permutation (U1 ++ y0 :: U2) (y0 :: U1 ++ U2)) by (symmetry; apply Permutation_middle).
        pose proof (Permutation_NoDup PU ND) as ND'. inversion ND' as [|? ? NI ND2]. subst.
        rewrite app_length in HL. cbn [length] in HL.
        destruct (IH (U1 ++ U2) (fun x y => (f x y - f x y0 * (f e y / f e y0))%s) ND2)
          as (c & (y1 & Hy1 & Ny1) & HC).
        { rewrite app_length. lia. }
        set (s0 := suml O (U1 ++ U2) (fun y => f e y / f e y0 * c y)%s).
        exists (fun y => if eqd y y0 then (0 - s0)%s else c y).
        split.
        { exists y1. destruct (eqd y1 y0) as [->|]; [contradiction|]. split; auto.
          rewrite in_app_iff in Hy1. rewrite in_app_iff. cbn [In]. tauto. }
        assert (K : forall x, suml O (U1 ++ y0 :: U2) (fun y => (f x y * (if eqd y y0 then 0 - s0 else c y))%s) =
          (suml O (U1 ++ U2) (fun y => (f x y - f x y0 * (f e y / f e y0)) * c y)%s)).
        { intros x. rewrite (suml_perm O FL _ _ _ PU). cbn [suml].
          change (suml O (y0 :: U1 ++ U2) ?h) with (h y0 + suml O (U1 ++ U2) h)%s. cbv beta.
          destruct (eqd y0 y0); [|congruence].
          rewrite (suml_ext O (U1 ++ U2) (fun y => (f x y * (if eqd y y0 then 0 - s0 else c y))%s) (fun y => (f x y * c y)%s)).
          2:{ intros y Hy. destruct (eqd y y0) as [->|]; [contradiction|]. auto. }
          rewrite (suml_ext O (U1 ++ U2) (fun y => ((f x y - f x y0 * (f e y / f e y0)) * c y)%s)
            (fun y => (f x y * c y + (0 - f x y0) * (f e y / f e y0 * c y))%s)) by (intros; ring).
          rewrite (suml_plus O FL), (suml_mult_l O FL). fold s0. ring. }
        intros x [<-|Hx]; rewrite K; [|apply HC; auto].
        apply (suml_0 O FL). intros y _.
        replace (f e y0 * (f e y / f e y0))%s with (f e y / f e y0 * f e y0)%s by ring.
        rewrite (fl_div FL) by auto. ring.
      + destruct (IH U f ND) as (c & HC1 & HC2); [cbn in HL; lia|].
        exists c. split; auto. intros x [<-|Hx]; auto.
        apply (suml_0 O FL). intros y Hy. destruct (ord_dec O FL OL (f e y) 0%s) as [->|N]; [ring|].
        exfalso. apply NE, Exists_exists. eauto.
  Qed.

  Lemma pos_sum {A} (l : list A) f :
    (forall k, In k l -> f k = 0%s \/ pos (f k)) ->
    (suml O l f = 0%s \/ pos (suml O l f)) /\ ((exists k, In k l /\ pos (f k)) -> pos (suml O l f)).
  Proof.
    induction l as [|k l IH]; intros Hl.
    - split; [left; reflexivity|]. intros (k & [] & _).
    - destruct IH as [I1 I2]; [intros; apply Hl; right; auto|].
      change (suml O (k :: l) f) with (f k + suml O l f)%s.
      destruct (Hl k (or_introl eq_refl)) as [E|P].
      + rewrite E. replace (0 + suml O l f)%s with (suml O l f) by ring. split; auto.
        intros (r & [->|Hr] & Pr); [|apply I2; eauto]. rewrite E in Pr. destruct (ol_0 OL Pr).
      + assert (pos (f k + suml O l f)%s); auto.
        destruct I1 as [-> |P2]; [|apply ol_add; auto].
        replace (f k + 0)%s with (f k) by ring. auto.
  Qed.

  Lemma nonpos_sum {A} (l : list A) f :
    pos (suml O l f) -> (forall k, In k l -> f k = 0%s \/ pos (opp (f k))) -> False.
  Proof.
    intros P H. destruct (pos_sum l (fun k => opp (f k))) as [[Z|Q] _].
    - intros k Hk. destruct (H k Hk) as [-> |]; auto. left. ring.
    - assert (E : suml O l (fun k => opp (f k)) = opp (suml O l f)).
      { rewrite (suml_ext O l _ (fun k => (0 - (f k))%s)) by (intros; ring).
        rewrite (suml_minus O FL), (suml_0 O FL) by auto. ring. }
      rewrite E in Z. apply (ol_0 OL). rewrite <- Z at 1.
      replace (suml O l f) with (opp 0%s) in P; [|rewrite <- Z; ring].
      exfalso. apply (ol_0 OL). replace 0%s with (opp 0%s) by ring. auto.
    - assert (E : suml O l (fun k => opp (f k)) = opp (suml O l f)).
      { rewrite (suml_ext O l _ (fun k => (0 - (f k))%s)) by (intros; ring).
        rewrite (suml_minus O FL), (suml_0 O FL) by auto. ring. }
      rewrite E in Q. exact (pos_opp O FL OL _ P Q).
  Qed.

  Context {I : Type} (all : list I) (rank : I -> nat) (eqd : forall a b : I, {a = b} + {a <> b}).
  Context (ND : NoDup all)
    (Inj : forall g h, In g all -> In h all -> rank g = rank h -> g = h).
  Local Notation sum := (suml O all).

  Definition signed (positive : bool) (a : F) : F := if positive then a else opp a.
  Lemma hasSign_signed p a : hasSign OL p a <-> pos (signed p a).
  Proof. destruct p; cbn; tauto. Qed.
  Lemma signed_sum {A} p (l : list A) f : signed p (suml O l f) = suml O l (fun k => signed p (f k)).
  Proof.
    destruct p; cbn [signed]; auto. induction l as [|k l IH].
    - change (opp 0 = 0)%s. ring.
    - change (opp (f k + suml O l f) = opp (f k) + suml O l (fun k => opp (f k)))%s. rewrite <- IH. ring.
  Qed.
  Lemma signed_mul p a b : signed p (a * b)%s = (signed p a * b)%s.
  Proof. destruct p; cbn [signed]; auto. ring. Qed.
  Lemma count_signed p a : (if p : bool then isPos OL a else isNeg OL a) = true <-> pos (signed p a).
  Proof. destruct p; cbn [signed]; [apply isPos_iff|apply isNeg_iff]. Qed.
  Lemma signed_cases p a : pos (signed p a) \/ a = 0%s \/ pos (opp (signed p a)).
  Proof.
    destruct (ol_dec OL a) as [[H|H]|H]; auto; destruct p; cbn [signed]; auto.
    right. right. replace (opp (opp a)) with a by ring. auto.
  Qed.

  Lemma quad_ldl (Lh A : I -> I -> F) (D : I -> F) x :
    (forall g h, In g all -> In h all -> sum (fun k => Lh g k * D k * Lh h k)%s = A g h) ->
    let u := fun k => sum (fun h => Lh h k * x h)%s in
    quadForm O all A x = sum (fun k => D k * (u k * u k))%s.
  Proof.
    intros HA u. rewrite (quad_form O FL).
    rewrite (suml_ext O all _ (fun r => sum (fun k => (x r * Lh r k) * (D k * u k)))%s).
    - rewrite (suml_swap O FL). apply suml_ext. intros k Hk. rewrite (suml_mult_r O FL).
      unfold u at 2. rewrite (suml_ext O all (fun h => (Lh h k * x h)%s) (fun h => (x h * Lh h k)%s))
        by (intros; ring). ring.
    - intros r Hr.
      rewrite (suml_ext O all (fun h => (A r h * x h)%s)
        (fun h => sum (fun k => (Lh r k * D k) * (Lh h k * x h)))%s).
      + rewrite (suml_swap O FL), <- (suml_mult_l O FL). apply suml_ext. intros k Hk.
        rewrite (suml_mult_l O FL). unfold u. ring.
      + intros h Hh. rewrite <- HA, <- (suml_mult_r O FL) by auto. apply suml_ext. intros; ring.
  Qed.

  Lemma finite_choice {A} (d : A) k (P : nat -> A -> Prop) :
    (forall j, j < k -> exists a, P j a) -> exists v, forall j, j < k -> P j (v j).
  Proof.
    induction k as [|k IH]; intros H.
    - exists (fun _ => d). intros; lia.
    - destruct IH as (v & Hv); [auto|]. destruct (H k) as (a & Ha); [lia|].
      exists (fun j => if j =? k then a else v j). intros j Hj.
      destruct (Nat.eqb_spec j k) as [->|]; auto. apply Hv. lia.
  Qed.

  Lemma ldl_inertia (Lh A : I -> I -> F) (D : I -> F) :
    (forall g, In g all -> Lh g g = one) ->
    (forall g k, In g all -> In k all -> k <> g -> ~ rank k < rank g -> Lh g k = 0%s) ->
    (forall g h, In g all -> In h all -> sum (fun k => Lh g k * D k * Lh h k)%s = A g h) ->
    forall p k, definiteOn OL all p A k <-> k <= countSign OL all p D.
  Proof.
    intros L1 L0 HA p k. set (G := filter (fun g => if p then isPos OL (D g) else isNeg OL (D g)) all).
    change (countSign OL all p D) with (length G).
    assert (HG : forall g, In g G <-> In g all /\ pos (signed p (D g))).
    { intros g. unfold G. rewrite filter_In, count_signed. tauto. }
    assert (HU : forall v c h, sum (fun r => Lh r h * combination k v c r (O:=O))%s =
      sumn O k (fun j => sum (fun r => Lh r h * v j r) * c j)%s).
    { intros v c h. unfold combination. rewrite <- (suml_seq O FL).
      rewrite (suml_ext O all _ (fun r => suml O (seq 0 k) (fun j => Lh r h * v j r * c j)%s)).
      - rewrite (suml_swap O FL). apply suml_ext. intros j _. apply (suml_mult_r O FL).
      - intros r _. rewrite <- (suml_seq O FL), <- (suml_mult_l O FL). apply suml_ext. intros; ring. }
    split.
    - intros (v & Hv). destruct (le_lt_dec k (length G)) as [|Lt]; auto. exfalso.
      destruct (homogeneous Nat.eq_dec G (seq 0 k) (fun g j => sum (fun r => Lh r g * v j r)%s))
        as (c & (j & Hj & Nj) & HC).
      { apply seq_NoDup. } { rewrite seq_length. auto. }
      apply in_seq in Hj. specialize (Hv c). rewrite hasSign_signed in Hv.
      rewrite (quad_ldl Lh A D _ HA), signed_sum in Hv.
      refine (nonpos_sum _ _ (Hv _) _).
      + exists j. split; auto; lia.
      + intros h Hh. rewrite signed_mul, HU.
        destruct (in_dec eqd h G) as [IG|NG].
        * left. rewrite <- (suml_seq O FL), HC by auto. ring.
        * set (y := sumn O k _). rewrite HG in NG.
          destruct (signed_cases p (D h)) as [Q|[Q|Q]]; [tauto| |].
          -- left. rewrite Q. destruct p; cbn [signed]; ring.
          -- destruct (ord_dec O FL OL y 0%s) as [->|Ny]; [left; ring|right].
             replace (opp (signed p (D h) * (y * y)))%s with (opp (signed p (D h)) * (y * y))%s by ring.
             apply ol_mul; auto. apply (pos_square O FL OL); auto.
    - intros Hk.
      destruct (finite_choice (fun _ : I => 0%s) k (fun j x => exists g, nth_error G j = Some g /\
        forall h, In h all -> sum (fun r => Lh r h * x r)%s = unitVec O FL eqd g h)) as (v & Hv).
      { intros j Hj. destruct (nth_error G j) as [g|] eqn:E.
        - assert (Hg : In g all) by (apply HG; eapply nth_error_In; eauto).
          destruct (back_subst O FL all rank eqd ND Inj Lh L1 L0 g Hg) as (x & _ & _ & X).
          exists x, g. auto.
        - apply nth_error_None in E. lia. }
      assert (NG : NoDup G) by (apply NoDup_filter; auto).
      exists v. intros c (j & Hj & Nj). rewrite hasSign_signed, (quad_ldl Lh A D _ HA), signed_sum.
      assert (Y1 : forall i g, i < k -> nth_error G i = Some g ->
        sum (fun r => Lh r g * combination k v c r (O:=O))%s = c i).
      { intros i g Hi E. rewrite HU, (sumn_single O FL k _ i); auto.
        - destruct (Hv i Hi) as (g' & E' & X). rewrite E in E'. injection E' as <-.
          rewrite X by (apply HG; eapply nth_error_In; eauto). unfold unitVec.
          destruct (eqd g g); [ring|congruence].
        - intros i' Hi' Ni. destruct (Hv i' Hi') as (g' & E' & X).
          rewrite X by (apply HG; eapply nth_error_In; eauto). unfold unitVec.
          destruct (eqd g g') as [->|]; [|ring]. exfalso. apply Ni.
          apply (proj1 (NoDup_nth_error G) NG); [apply nth_error_Some|]; congruence. }
      assert (Y0 : forall h, In h all -> (forall i, i < k -> nth_error G i <> Some h) ->
        sum (fun r => Lh r h * combination k v c r (O:=O))%s = 0%s).
      { intros h Hh N. rewrite HU. apply (sumn_0 O FL). intros i Hi.
        destruct (Hv i Hi) as (g' & E' & X). rewrite X by auto. unfold unitVec.
        destruct (eqd h g') as [->|]; [|ring]. exfalso. exact (N i Hi E'). }
      apply pos_sum.
      + intros h Hh. rewrite signed_mul. set (y := sum _).
        destruct (ord_dec O FL OL y 0%s) as [->|Ny]; [left; ring|right].
        apply ol_mul; [|apply (pos_square O FL OL); auto].
        apply HG. destruct (in_dec eqd h G) as [|NI]; auto. exfalso. apply Ny. apply Y0; auto.
        intros i Hi E. apply NI. eapply nth_error_In; eauto.
      + destruct (nth_error G j) as [g|] eqn:E; [|apply nth_error_None in E; lia].
        assert (Ig : In g G) by (eapply nth_error_In; eauto). apply HG in Ig.
        exists g. split; [apply Ig|]. rewrite signed_mul, (Y1 j) by auto.
        apply ol_mul; [apply Ig|apply (pos_square O FL OL); auto].
  Qed.

  (** the order of rows and columns does not matter *)
  Lemma definiteOn_perm (f q : I -> I) A p k : Permutation (map f all) all ->
    (forall g, In g all -> q (f g) = g) ->
    definiteOn OL all p (fun g h => A (f g) (f h)) k <-> definiteOn OL all p A k.
  Proof.
    intros PF Q. split; intros (v & Hv).
    - exists (fun j g => v j (q g)). intros c Hc. specialize (Hv c Hc).
      rewrite (quad_perm O FL all f q PF Q) in Hv. exact Hv.
    - exists (fun j g => v j (f g)). intros c Hc. specialize (Hv c Hc).
      rewrite (quad_perm O FL all f q PF Q). unfold quadForm, combination in *.
      erewrite suml_ext; [exact Hv|]. intros g Hg. apply suml_ext. intros h Hh.
      apply (Permutation_in _ (Permutation_sym PF)), in_map_iff in Hg, Hh.
      destruct Hg as (g' & <- & Hg'), Hh as (h' & <- & Hh'). rewrite !Q by auto. auto.
  Qed.

  Lemma definiteOn_ext A A' p k : (forall g h, In g all -> In h all -> A g h = A' g h) ->
    definiteOn OL all p A k -> definiteOn OL all p A' k.
  Proof.
    intros E (v & Hv). exists v. intros c Hc. rewrite <- (quad_ext O all A A') by auto. auto.
  Qed.
End Inertia.
