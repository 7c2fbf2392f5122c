(** When an LDL^T decomposition without regularization has nonzero pivots, over
    an arbitrary finite index set with an elimination order. *)
From Coq Require Import List Arith Lia Bool Ring Permutation.
From Verif Require Import ModelNumeric SpecNumeric SpecPivot ProofExact ProofLdl ProofSingle.
Import ListNotations.

Section Pivot.
  Context {F : Type} (O : ops F) (FL : fieldLaws O).
  Local Notation "0" := (o0 O) : scalar.
  Local Notation "a + b" := (oadd O a b) : scalar.
  Local Notation "a - b" := (osub O a b) : scalar.
  Local Notation "a * b" := (omul O a b) : scalar.
  Local Notation "a / b" := (odiv O a b) : scalar.
  Local Notation one := (fl_one FL).
  Add Ring FrPiv : (fl_ring FL).

  Context {I : Type} (all : list I) (rank : I -> nat) (eqd : forall a b : I, {a = b} + {a <> b}).
  Context (ND : NoDup all)
    (Inj : forall g h, In g all -> In h all -> rank g = rank h -> g = h).
  Local Notation sum := (suml O all).

  Definition unitVec (g h : I) : F := if eqd h g then one else 0%s.

  (** the pivot of row g is determined by the rows up to g of the matrix *)
  Definition chi (A : I -> I -> F) (g : I) (t : F) : Prop :=
    exists x : I -> F, x g = one /\
      (forall h, In h all -> rank g < rank h -> x h = 0%s) /\
      (forall h, In h all -> rank h <= rank g ->
         sum (fun k => A h k * x k)%s = if eqd h g then t else 0%s).

  Lemma chi_ext A A' g t : (forall h k, In h all -> In k all -> A h k = A' h k) ->
    chi A g t -> chi A' g t.
  Proof.
    intros E (x & H1 & H2 & H3). exists x. split; auto. split; auto. intros h Hh Hr.
    rewrite <- H3 by auto. apply suml_ext. intros k Hk. rewrite E; auto.
  Qed.

  (** sums against something that vanishes after g *)
  Lemma chi_form (A : I -> I -> F) g t (x y : I -> F) : In g all ->
    (forall h, In h all -> rank g < rank h -> y h = 0%s) ->
    (forall h, In h all -> rank h <= rank g ->
       sum (fun k => A h k * x k)%s = if eqd h g then t else 0%s) ->
    sum (fun h => y h * sum (fun k => A h k * x k))%s = (y g * t)%s.
  Proof.
    intros Hg Hy Hx. rewrite (suml_single O FL all _ g); auto.
    - rewrite Hx by auto. destruct (eqd g g); congruence.
    - intros h Hh N. destruct (le_lt_dec (rank h) (rank g)) as [Le|Lt].
      + rewrite Hx by auto. destruct (eqd h g); [congruence|]. ring.
      + rewrite Hy by auto. ring.
  Qed.

  Lemma chi_unique A g t t' : In g all ->
    (forall h k, In h all -> In k all -> A h k = A k h) ->
    chi A g t -> chi A g t' -> t = t'.
  Proof.
    intros Hg Sym (x & X1 & X2 & X3) (y & Y1 & Y2 & Y3).
    pose proof (chi_form A g t x y Hg Y2 X3) as H.
    pose proof (chi_form A g t' y x Hg X2 Y3) as H'.
    rewrite X1 in H'. rewrite Y1 in H.
    transitivity (one * t)%s; [ring|]. transitivity (one * t')%s; [|ring].
    rewrite <- H, <- H'.
    rewrite (suml_ext O all (fun h => (y h * sum (fun k => A h k * x k))%s)
      (fun h => sum (fun k => y h * A h k * x k)%s)).
    2:{ intros h _. rewrite <- (suml_mult_l O FL). apply suml_ext. intros k _. ring. }
    rewrite (suml_swap O FL). apply suml_ext. intros k Hk.
    rewrite <- (suml_mult_l O FL). apply suml_ext. intros h Hh. rewrite Sym by auto. ring.
  Qed.

  (** a unit lower triangular matrix *)
  Section Lower.
    Context (Lh : I -> I -> F).
    Context (L1 : forall g, In g all -> Lh g g = one)
      (L0 : forall g k, In g all -> In k all -> k <> g -> ~ rank k < rank g -> Lh g k = 0%s).

    (** column g of the inverse of its transpose *)
    Lemma back_subst g : In g all ->
      exists x : I -> F, x g = one /\
        (forall h, In h all -> rank g < rank h -> x h = 0%s) /\
        (forall h, In h all -> sum (fun k => Lh k h * x k)%s = unitVec g h).
    Proof.
      intros Hg.
      assert (K : forall r, r <= rank g -> exists x : I -> F,
        x g = one /\
        (forall h, In h all -> rank g < rank h \/ rank h < rank g - r -> x h = 0%s) /\
        (forall h, In h all -> rank g - r <= rank h -> sum (fun k => Lh k h * x k)%s = unitVec g h)).
      { induction r as [|r IH]; intros Hr.
        - exists (unitVec g). unfold unitVec. destruct (eqd g g) as [_|]; [|congruence].
          split; auto. split.
          + intros h Hh Hc. destruct (eqd h g) as [->|]; auto. lia.
          + intros h Hh Hle. rewrite (suml_single O FL all _ g); auto.
            * destruct (eqd g g) as [_|]; [|congruence]. destruct (eqd h g) as [->|N].
              -- rewrite L1 by auto. ring.
              -- rewrite L0; [ring|auto..|]. lia.
            * intros k Hk N. destruct (eqd k g); [congruence|]. ring.
        - destruct IH as (x & X1 & X2 & X3); [lia|].
          set (r0 := rank g - S r).
          exists (fun h => if rank h =? r0 then (0 - sum (fun k => Lh k h * x k))%s else x h).
          split; [|split].
          + destruct (Nat.eqb_spec (rank g) r0); [lia|]. auto.
          + intros h Hh Hc. destruct (Nat.eqb_spec (rank h) r0); [lia|]. apply X2; auto. lia.
          + intros h Hh Hle. destruct (Nat.eq_dec (rank h) r0) as [E|N].
            * unfold unitVec. destruct (eqd h g) as [->|Nh]; [lia|].
              rewrite (suml_ext O all _
                (fun k => (Lh k h * x k + (if eqd k h then 0 - sum (fun k => Lh k h * x k) else 0))%s)).
              2:{ intros k Hk. destruct (Nat.eqb_spec (rank k) r0) as [Ek|Nk].
                  - assert (k = h) by (apply Inj; auto; lia). subst k.
                    destruct (eqd h h); [|congruence]. rewrite L1 by auto.
                    rewrite (X2 h) by (auto; lia). ring.
                  - destruct (eqd k h) as [->|]; [lia|]. ring. }
              rewrite (suml_plus O FL), (suml_single O FL all (fun k => if eqd k h then _ else _) h);
                auto.
              -- destruct (eqd h h); [|congruence]. ring.
              -- intros k Hk Nk. destruct (eqd k h); congruence.
            * rewrite <- X3 by (auto; lia). apply suml_ext. intros k Hk.
              destruct (Nat.eqb_spec (rank k) r0) as [Ek|Nk]; auto.
              rewrite L0; [ring|auto..|lia]. intros ->. lia. }
      destruct (K (rank g)) as (x & X1 & X2 & X3); auto. exists x. split; auto. split; auto.
      intros h Hh. apply X3; auto. lia.
    Qed.

    (** the pivot minus its change is the pivot of the matrix without the changes *)
    Lemma ldl_chi A (D E : I -> F) g : In g all ->
      (forall h k, In h all -> In k all ->
         sum (fun q => Lh h q * D q * Lh k q)%s = if eqd h k then (A h k + E h)%s else A h k) ->
      (forall h, In h all -> rank h < rank g -> E h = 0%s) ->
      chi A g (D g - E g)%s.
    Proof.
      intros Hg HA HE. destruct (back_subst g Hg) as (x & X1 & X2 & X3).
      exists x. split; auto. split; auto. intros h Hh Hr.
      assert (S1 : sum (fun k => (if eqd h k then A h k + E h else A h k) * x k)%s =
                   (Lh h g * D g)%s).
      { rewrite (suml_ext O all _ (fun k => sum (fun q => (Lh h q * D q) * (Lh k q * x k)))%s).
        2:{ intros k Hk. rewrite <- HA, <- (suml_mult_r O FL) by auto. apply suml_ext.
            intros q _. ring. }
        rewrite (suml_swap O FL), (suml_single O FL all _ g); auto.
        - rewrite (suml_mult_l O FL), X3 by auto. unfold unitVec.
          destruct (eqd g g); [|congruence]. ring.
        - intros q Hq N. rewrite (suml_mult_l O FL), X3 by auto. unfold unitVec.
          destruct (eqd q g); [congruence|]. ring. }
      assert (S2 : sum (fun k => (if eqd h k then A h k + E h else A h k) * x k)%s =
                   (sum (fun k => A h k * x k) + E h * x h)%s).
      { rewrite (suml_ext O all _ (fun k => (A h k * x k + (if eqd h k then E h * x k else 0))%s)).
        2:{ intros k _. destruct (eqd h k) as [->|]; ring. }
        rewrite (suml_plus O FL), (suml_single O FL all (fun k => if eqd h k then _ else _) h); auto.
        - destruct (eqd h h); [|congruence]. ring.
        - intros k _ N. destruct (eqd h k); congruence. }
      rewrite S1 in S2.
      transitivity (Lh h g * D g - E h * x h)%s; [rewrite S2; ring|].
      destruct (eqd h g) as [->|N].
      - rewrite L1, X1 by auto. ring.
      - assert (rank h < rank g).
        { destruct (Nat.eq_dec (rank h) (rank g)) as [Er|]; [|lia]. apply Inj in Er; auto. congruence. }
        rewrite HE, L0 by (auto; lia). ring.
    Qed.

    Lemma ldl_unperturbed A (D E : I -> F) (reg : F -> F) :
      (forall h k, In h all -> In k all ->
         sum (fun q => Lh h q * D q * Lh k q)%s = if eqd h k then (A h k + E h)%s else A h k) ->
      (forall h, In h all -> D h = reg (D h - E h)%s) ->
      (forall t, t <> 0%s -> reg t = t) ->
      (forall g t, In g all -> chi A g t -> t <> 0%s) ->
      forall g, In g all -> E g = 0%s /\ chi A g (D g).
    Proof.
      intros HA HD Hreg Hchi.
      assert (K : forall r g, rank g = r -> In g all -> E g = 0%s).
      { induction r as [r IH] using lt_wf_ind. intros g Er Hg.
        assert (C : chi A g (D g - E g)%s).
        { apply ldl_chi; auto. intros h Hh Hr. apply (IH (rank h)); auto. lia. }
        pose proof (Hchi _ _ Hg C) as Nz. pose proof (HD g Hg) as Eq. rewrite Hreg in Eq by auto.
        transitivity (D g - (D g - E g))%s; [ring|]. rewrite <- Eq. ring. }
      intros g Hg. split; [eapply K; eauto|].
      assert (C : chi A g (D g - E g)%s) by (apply ldl_chi; auto; intros; eapply K; eauto).
      rewrite (K (rank g) g) in C by auto.
      replace (D g) with (D g - 0)%s by ring. exact C.
    Qed.

    (** with nonzero pivots all leading blocks are regular *)
    Lemma ldl_regular A (D : I -> F) g M : In g all ->
      (forall h, In h all -> rank h <= M) ->
      (forall h k, In h all -> In k all -> sum (fun q => Lh h q * D q * Lh k q)%s = A h k) ->
      (forall h, In h all -> D h <> 0%s) ->
      regularUpTo O all (fun h => rank g < rank h) A.
    Proof.
      intros Hg HM HA HD x X1 X2 h Hh.
      destruct (le_lt_dec (rank h) (rank g)) as [Le|Lt]; auto.
      set (lead := filter (fun q => rank q <=? rank g) all).
      assert (InL : forall q, In q lead <-> In q all /\ rank q <= rank g).
      { intros q. unfold lead. rewrite filter_In, Nat.leb_le. tauto. }
      assert (SL : forall f, (forall q, In q all -> rank g < rank q -> f q = 0%s) ->
                     sum f = suml O lead f).
      { intros f. unfold lead, suml. clear -FL. induction all as [|a l IH]; cbn [fold_right filter]; auto.
        intros Hf. destruct (Nat.leb_spec (rank a) (rank g)) as [Le|Lt]; cbn [fold_right].
        - rewrite IH; auto. intros q Hq. apply Hf. right; auto.
        - rewrite Hf, IH by (try (left; reflexivity); auto; intros q Hq; apply Hf; right; auto). ring. }
      apply (ldl_inj O FL lead Lh A D x rank M); auto.
      - apply NoDup_filter, ND.
      - intros q Hq. apply HM, InL, Hq.
      - intros p q Hp Hq. apply Inj; apply InL; auto.
      - intros q Hq. apply L1, InL, Hq.
      - intros p q Hp Hq. apply L0; apply InL; auto.
      - intros q Hq. apply HD, InL, Hq.
      - intros p q Hp Hq. apply InL in Hp, Hq. rewrite <- HA by tauto. apply SL.
        intros r Hr Hlt. rewrite (L0 p r) by (try tauto; try lia; intros ->; lia). ring.
      - intros p Hp. apply InL in Hp. rewrite <- SL.
        + apply X2; try tauto. lia.
        + intros q Hq Hlt. rewrite X1 by auto. ring.
      - apply InL. auto.
    Qed.
  End Lower.

  (** regular leading blocks: the pivots are not zero *)
  Lemma regular_chi A g t : In g all -> regularUpTo O all (fun h => rank g < rank h) A ->
    chi A g t -> t <> 0%s.
  Proof.
    intros Hg R (x & X1 & X2 & X3) ->. apply (fl_10 FL). rewrite <- X1. apply R; auto.
    intros h Hh Hr. rewrite X3 by (auto; lia). destruct (eqd h g); auto.
  Qed.
End Pivot.

(** ordered fields *)
Section Ordered.
  Context {F : Type} (O : ops F) (FL : fieldLaws O) (OL : ordLaws FL).
  Local Notation "0" := (o0 O) : scalar.
  Local Notation "a + b" := (oadd O a b) : scalar.
  Local Notation "a - b" := (osub O a b) : scalar.
  Local Notation "a * b" := (omul O a b) : scalar.
  Local Notation one := (fl_one FL).
  Local Notation opp := (fl_opp FL).
  Local Notation pos := (ol_pos OL).
  Add Ring FrOrd : (fl_ring FL).

  Lemma pos_nonzero a : pos a -> a <> 0%s.
  Proof. intros H ->. exact (ol_0 OL H). Qed.

  Lemma pos_square a : a <> 0%s -> pos (a * a)%s.
  Proof.
    intros H. destruct (ol_dec OL a) as [[P|E]|P]; [apply ol_mul; auto|congruence|].
    replace (a * a)%s with (opp a * opp a)%s by ring. apply ol_mul; auto.
  Qed.

  Lemma pos_one : pos one.
  Proof. replace one with (one * one)%s by ring. apply pos_square, (fl_10 FL). Qed.

  Lemma pos_opp a : pos a -> ~ pos (opp a).
  Proof.
    intros H H'. apply (ol_0 OL). replace 0%s with (a + opp a)%s by ring. apply ol_add; auto.
  Qed.

  Lemma ord_dec (a b : F) : {a = b} + {a <> b}.
  Proof.
    destruct (ol_dec OL (a - b)%s) as [[P|E]|P].
    - right. intros ->. apply (ol_0 OL). replace 0%s with (b - b)%s by ring. auto.
    - left. transitivity (a - b + b)%s; [ring|]. rewrite E. ring.
    - right. intros ->. apply (ol_0 OL). replace 0%s with (opp (b - b))%s by ring. auto.
  Defined.

  (** 1 + the sum of the squares of a list, greater than each of its elements *)
  Lemma ord_new (l : list F) : exists c, ~ In c l.
  Proof.
    assert (K : exists c, pos c /\ forall a, In a l -> pos (c - a)%s).
    { induction l as [|a l (c & Pc & Hc)].
      - exists one. split; [apply pos_one|]. intros a [].
      - exists (c + (one + a * a))%s.
        assert (S : pos (one + a * a)%s).
        { destruct (ord_dec a 0%s) as [->|N].
          - replace (one + 0 * 0)%s with one by ring. apply pos_one.
          - apply ol_add; [apply pos_one|apply pos_square; auto]. }
        split; [apply ol_add; auto|]. intros b [->|Hb].
        + destruct (ol_dec OL b) as [[P|E]|P].
          * destruct (ord_dec (one - b)%s 0%s) as [E|N].
            -- replace b with one.
               { replace (c + (one + one * one) - one)%s with (c + one)%s by ring.
                 apply ol_add; auto. apply pos_one. }
               transitivity (one - b + b)%s; [ring|rewrite E; ring].
            -- replace (c + (one + b * b) - b)%s with (c + b + ((one - b) * (one - b)))%s by ring.
               apply ol_add; [apply ol_add; auto|]. apply pos_square; auto.
          * subst b. replace (c + (one + 0 * 0) - 0)%s with (c + one)%s by ring.
            apply ol_add; auto. apply pos_one.
          * replace (c + (one + b * b) - b)%s with (c + (one + b * b) + opp b)%s by ring.
            apply ol_add; auto. apply ol_add; auto.
        + replace (c + (one + a * a) - b)%s with (c - b + (one + a * a))%s by ring.
          apply ol_add; auto. }
    destruct K as (c & _ & H). exists c. intros Hin. apply H in Hin.
    apply (ol_0 OL). replace 0%s with (c - c)%s by ring. auto.
  Qed.

  Definition ord_inf : infLaws F := mkInfLaws F ord_dec ord_new.

  Context {I : Type} (all : list I) (rank : I -> nat) (eqd : forall a b : I, {a = b} + {a <> b}).
  Context (ND : NoDup all).
  Local Notation sum := (suml O all).

  Lemma quad_form A x : quadForm O all A x = sum (fun g => x g * sum (fun h => A g h * x h))%s.
  Proof.
    apply suml_ext. intros g _. rewrite <- (suml_mult_l O FL). apply suml_ext. intros h _. ring.
  Qed.

  Lemma quad_ext A A' x : (forall g h, In g all -> In h all -> A g h = A' g h) ->
    quadForm O all A x = quadForm O all A' x.
  Proof.
    intros E. apply suml_ext. intros g Hg. apply suml_ext. intros h Hh. rewrite E; auto.
  Qed.

  Lemma posDef_chi A g t : In g all -> posDef OL all A ->
    chi O FL all rank eqd A g t -> pos t.
  Proof.
    intros Hg HA (x & X1 & X2 & X3).
    replace t with (quadForm O all A x).
    - apply HA. exists g. split; auto. rewrite X1. apply (fl_10 FL).
    - rewrite quad_form, (chi_form O FL all rank eqd ND A g t x x); auto. rewrite X1. ring.
  Qed.

  Lemma quasiDef_chi (P : I -> bool) A g t : In g all ->
    (forall h k, In h all -> In k all -> A h k = A k h) -> quasiDef OL all P A ->
    chi O FL all rank eqd A g t -> hasSign OL (P g) t.
  Proof.
    intros Hg Sym HA (x & X1 & X2 & X3).
    set (xp := fun h => if P h then x h else 0%s). set (xm := fun h => if P h then 0%s else x h).
    set (B := fun u v : I -> F => sum (fun h => u h * sum (fun k => A h k * v k))%s).
    assert (BP : forall u v w, B u (fun h => v h + w h)%s = (B u v + B u w)%s).
    { intros u v w. unfold B. rewrite <- (suml_plus O FL). apply suml_ext. intros h _.
      rewrite (suml_ext O all _ (fun k => A h k * v k + A h k * w k)%s) by (intros; ring).
      rewrite (suml_plus O FL). ring. }
    assert (BS : forall u v, B u v = B v u).
    { intros u v. unfold B.
      rewrite (suml_ext O all _ (fun h => sum (fun k => u h * A h k * v k))%s)
        by (intros h _; rewrite <- (suml_mult_l O FL); apply suml_ext; intros; ring).
      rewrite (suml_swap O FL). apply suml_ext. intros k Hk. rewrite <- (suml_mult_l O FL).
      apply suml_ext. intros h Hh. rewrite Sym by auto. ring. }
    assert (BX : forall u, (forall h, In h all -> rank g < rank h -> u h = 0%s) ->
       B u x = (u g * t)%s).
    { intros u Hu. exact (chi_form O FL all rank eqd ND A g t x u Hg Hu X3). }
    assert (Ex : forall u, B u x = (B u xp + B u xm)%s).
    { intros u. rewrite <- BP. unfold B. apply suml_ext. intros h _. f_equal. apply suml_ext.
      intros k _. unfold xp, xm. destruct (P k); ring. }
    assert (Ep : B xp x = (xp g * t)%s).
    { apply BX. intros h Hh Hr. unfold xp. destruct (P h); auto. }
    assert (Em : B xm x = (xm g * t)%s).
    { apply BX. intros h Hh Hr. unfold xm. destruct (P h); auto. }
    rewrite Ex in Ep, Em. rewrite (BS xm xp) in Em.
    assert (NP : nonzeroVec O all xp -> pos (B xp xp)).
    { intros H. unfold B. rewrite <- quad_form. apply (HA xp H).
      intros h _ Hh. unfold xp. rewrite Hh. auto. }
    assert (NM : nonzeroVec O all xm -> pos (opp (B xm xm))).
    { intros H. unfold B. rewrite <- quad_form. apply (HA xm H).
      intros h _ Hh. unfold xm. rewrite Hh. auto. }
    assert (Z : forall u, nonzeroVec O all u \/ B u u = 0%s).
    { intros u. destruct (Exists_dec (fun h => u h <> 0%s) all) as [Ex'|Nx].
      - intros h. destruct (ord_dec (u h) 0%s); [right|left]; auto.
      - left. apply Exists_exists in Ex'. exact Ex'.
      - right. apply (suml_0 O FL). intros h Hh.
        destruct (ord_dec (u h) 0%s) as [->|N]; [ring|].
        exfalso. apply Nx, Exists_exists. eauto. }
    unfold hasSign. unfold xp at 4 in Ep. unfold xm at 4 in Em.
    assert (Hx : (B xp xp - B xm xm)%s =
                 ((if P g then x g else 0) * t - (if P g then 0 else x g) * t)%s).
    { rewrite <- Ep, <- Em. ring. }
    destruct (P g) eqn:Pg; rewrite X1 in Hx.
    - replace t with (B xp xp + opp (B xm xm))%s
        by (transitivity (B xp xp - B xm xm)%s; [ring|]; rewrite Hx; ring).
      assert (pos (B xp xp)).
      { apply NP. exists g. split; auto. unfold xp. rewrite Pg, X1. apply (fl_10 FL). }
      destruct (Z xm) as [H'| ->]; [apply ol_add; auto|].
      replace (B xp xp + opp 0)%s with (B xp xp) by ring. auto.
    - replace (opp t) with (opp (B xm xm) + B xp xp)%s
        by (transitivity (B xp xp - B xm xm)%s; [ring|]; rewrite Hx; ring).
      assert (pos (opp (B xm xm))).
      { apply NM. exists g. split; auto. unfold xm. rewrite Pg, X1. apply (fl_10 FL). }
      destruct (Z xp) as [H'| ->]; [apply ol_add; auto|].
      replace (opp (B xm xm) + 0)%s with (opp (B xm xm)) by ring. auto.
  Qed.

  Lemma hasSign_nonzero P a : hasSign OL P a -> a <> 0%s.
  Proof.
    destruct P; cbn [hasSign]; intros H; [apply pos_nonzero; auto|].
    intros ->. apply (ol_0 OL). replace 0%s with (opp 0%s) by ring. auto.
  Qed.

  (** positive pivots: a positive definite matrix *)
  Lemma ldl_posDef (Lh A : I -> I -> F) (D : I -> F) M :
    (forall g, In g all -> rank g <= M) ->
    (forall g h, In g all -> In h all -> rank g = rank h -> g = h) ->
    (forall g, In g all -> Lh g g = one) ->
    (forall g k, In g all -> In k all -> k <> g -> ~ rank k < rank g -> Lh g k = 0%s) ->
    (forall g h, In g all -> In h all -> sum (fun k => Lh g k * D k * Lh h k)%s = A g h) ->
    (forall g, In g all -> pos (D g)) ->
    posDef OL all A.
  Proof.
    intros HM Inj L1 L0 HA HD x (g & Hg & Nz).
    set (u := fun k => sum (fun h => Lh h k * x h)%s).
    assert (Q : quadForm O all A x = sum (fun k => D k * (u k * u k))%s).
    { rewrite quad_form.
      rewrite (suml_ext O all _ (fun r => sum (fun k => (x r * Lh r k) * (D k * u k)))%s).
      - rewrite (suml_swap O FL). apply suml_ext. intros k Hk. rewrite (suml_mult_r O FL).
        unfold u at 2. rewrite (suml_ext O all (fun h => (Lh h k * x h)%s) (fun h => (x h * Lh h k)%s))
          by (intros; ring). ring.
      - intros r Hr.
        rewrite (suml_ext O all (fun h => (A r h * x h)%s)
          (fun h => sum (fun k => (Lh r k * D k) * (Lh h k * x h)))%s).
        + rewrite (suml_swap O FL), <- (suml_mult_l O FL). apply suml_ext. intros k Hk.
          rewrite (suml_mult_l O FL). unfold u. ring.
        + intros h Hh. rewrite <- HA, <- (suml_mult_r O FL) by auto. apply suml_ext. intros; ring. }
    assert (EX : exists k, In k all /\ u k <> 0%s).
    { destruct (Exists_dec (fun k => u k <> 0%s) all) as [E|N].
      - intros k. destruct (ord_dec (u k) 0%s); [right|left]; auto.
      - apply Exists_exists in E. exact E.
      - exfalso. apply Nz.
        apply (triangular_inj O FL all (fun k g => Lh g k) x (fun g => M - rank g)); auto.
        + intros r k Hr Hk Nk Hlt. apply L0; auto. pose proof (HM r Hr). pose proof (HM k Hk). lia.
        + intros k Hk. destruct (ord_dec (u k) 0%s) as [E|Ne]; auto.
          exfalso. apply N, Exists_exists. eauto. }
    rewrite Q. revert EX HD. clear -OL. intros EX HD.
    assert (K : forall l, (forall k, In k l -> pos (D k)) ->
      (suml O l (fun k => D k * (u k * u k))%s = 0%s \/ pos (suml O l (fun k => D k * (u k * u k))%s)) /\
      ((exists k, In k l /\ u k <> 0%s) -> pos (suml O l (fun k => D k * (u k * u k))%s))).
    { induction l as [|k l IH]; intros Hl.
      - split; [left; reflexivity|]. intros (k & [] & _).
      - destruct IH as [I1 I2]; [intros; apply Hl; right; auto|].
        change (suml O (k :: l) (fun k => D k * (u k * u k))%s)
          with (D k * (u k * u k) + suml O l (fun k => D k * (u k * u k)))%s.
        destruct (ord_dec (u k) 0%s) as [E|N].
        + replace (D k * (u k * u k))%s with 0%s by (rewrite E; ring).
          set (S := suml O l (fun k => D k * (u k * u k))%s) in *.
          replace (0 + S)%s with S by ring. split; auto. intros (r & [->|Hr] & Nr); [congruence|].
          apply I2. eauto.
        + assert (Pk : pos (D k * (u k * u k))%s).
          { apply ol_mul; [apply Hl; left; auto|apply pos_square; auto]. }
          assert (pos (D k * (u k * u k) + suml O l (fun k => D k * (u k * u k)))%s); auto.
          destruct I1 as [-> |P]; [|apply ol_add; auto].
          replace (D k * (u k * u k) + 0)%s with (D k * (u k * u k))%s by ring. auto. }
    apply K; auto.
  Qed.

  (** reordering rows and columns *)
  Section Reorder.
    Context (f q : I -> I) (PF : Permutation (map f all) all)
      (Q : forall g, In g all -> q (f g) = g).

    Lemma f_in g : In g all -> In (f g) all.
    Proof. intros H. apply (Permutation_in _ PF), in_map, H. Qed.

    Lemma quad_perm A x :
      quadForm O all (fun g h => A (f g) (f h)) x = quadForm O all A (fun g => x (q g)).
    Proof.
      unfold quadForm. symmetry.
      rewrite <- (suml_perm O FL _ _ _ PF), (suml_map O). apply suml_ext. intros r Hr.
      rewrite <- (suml_perm O FL _ _ _ PF), (suml_map O). apply suml_ext. intros c Hc.
      rewrite !Q by auto. auto.
    Qed.

    Lemma nonzero_perm x : nonzeroVec O all x -> nonzeroVec O all (fun g => x (q g)).
    Proof.
      intros (g & Hg & N). exists (f g). rewrite Q by auto. split; auto. apply f_in; auto.
    Qed.

    Lemma zero_perm (R : I -> Prop) x : (forall g, In g all -> R (f g) -> x g = 0%s) ->
      forall g, In g all -> R g -> x (q g) = 0%s.
    Proof.
      intros H g Hg HR. apply (Permutation_in _ (Permutation_sym PF)), in_map_iff in Hg.
      destruct Hg as (h & <- & Hh). rewrite Q by auto. auto.
    Qed.

    Lemma posDef_unperm A : posDef OL all (fun g h => A (f g) (f h)) -> posDef OL all A.
    Proof.
      intros H x (g & Hg & Nz).
      replace (quadForm O all A x) with (quadForm O all (fun g h => A (f g) (f h)) (fun h => x (f h))).
      - apply H. apply (Permutation_in _ (Permutation_sym PF)), in_map_iff in Hg.
        destruct Hg as (h & <- & Hh). exists h. auto.
      - rewrite quad_perm. unfold quadForm. apply suml_ext. intros r Hr. apply suml_ext. intros c Hc.
        apply (Permutation_in _ (Permutation_sym PF)), in_map_iff in Hr, Hc.
        destruct Hr as (r' & <- & Hr'), Hc as (c' & <- & Hc'). rewrite !Q by auto. auto.
    Qed.

    Lemma posDef_perm A : posDef OL all A -> posDef OL all (fun g h => A (f g) (f h)).
    Proof. intros H x Hx. rewrite quad_perm. apply H, nonzero_perm, Hx. Qed.

    Lemma quasiDef_perm P A : quasiDef OL all P A ->
      quasiDef OL all (fun g => P (f g)) (fun g h => A (f g) (f h)).
    Proof.
      intros H x Hx. rewrite quad_perm. destruct (H _ (nonzero_perm x Hx)) as [H1 H2].
      split; intros HZ.
      - apply H1. exact (zero_perm (fun g => P g = false) x HZ).
      - apply H2. exact (zero_perm (fun g => P g = true) x HZ).
    Qed.
  End Reorder.
End Ordered.
