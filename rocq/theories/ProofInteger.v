(** Products of integers are exact as long as they are not too large. *)
From Coq Require Import ZArith Reals Lra Lia List Arith Bool.
From Flocq Require Import Core BinarySingleNaN.
From Verif Require Import Base ModelPerm ModelSparsity ModelSymbolic ModelNumeric ModelArrow ModelReg ModelMixed ModelIeee.
From Verif Require Import SpecSymbolic SpecArrow SpecNumeric SpecArrowNum SpecReg SpecRound SpecMixed SpecProduct.
From Verif Require Import ProofBase ProofIeee ProofAgreeIeee ProofDense ProofExact ProofLdl ProofMultiply ProofArrowMultiply ProofArrowProduct
  ProofRound ProofMixed ProofMultiplyRel ProofProduct.
Import ListNotations.
Local Open Scope R_scope.
Local Notation rsum := (suml Or).

Section Ieee.
  Variables (prec emax : Z).
  Context (Hp : Prec_gt_0 prec) (Hm : Prec_lt_emax prec emax).
  Local Notation O := (ieeeOps prec emax Hp Hm).
  Local Notation fin := (ieeeFinite prec emax).
  Local Notation val := (ieeeVal prec emax).
  Local Notation rnd := (round radix2 (SpecFloat.fexp prec emax) (round_mode mode_NE)).

  Lemma int_format z : Rabs (IZR z) <= bpow radix2 prec -> generic_format radix2 (SpecFloat.fexp prec emax) (IZR z).
  Proof.
    intros H. unfold Prec_gt_0, Prec_lt_emax in *.
    change (SpecFloat.fexp prec emax) with (FLT_exp (3 - emax - prec) prec).
    destruct (Rle_lt_or_eq_dec _ _ H) as [L|E].
    - apply generic_format_FLT. exists (Float radix2 z 0); cbn [Fnum Fexp].
      + unfold F2R. cbn. lra.
      + apply lt_IZR. rewrite abs_IZR, IZR_Zpower; auto. lia.
      + lia.
    - assert (G : generic_format radix2 (FLT_exp (3 - emax - prec) prec) (bpow radix2 prec)).
      { apply generic_format_bpow. unfold FLT_exp. lia. }
      unfold Rabs in E. destruct (Rcase_abs (IZR z)).
      + replace (IZR z) with (- bpow radix2 prec) by lra. apply generic_format_opp. auto.
      + rewrite E. auto.
  Qed.

  Lemma int_rnd z : Rabs (IZR z) <= bpow radix2 prec ->
    rnd (IZR z) = IZR z /\ Rabs (rnd (IZR z)) < bpow radix2 emax.
  Proof.
    intros H. rewrite round_generic; [|apply valid_rnd_round_mode|apply int_format; auto]. split; auto.
    eapply Rle_lt_trans; [exact H|]. apply bpow_lt. exact Hm.
  Qed.

  Lemma ieee_int : intExact O fin val (bpow radix2 prec).
  Proof.
    constructor; intros a b z Fa Fb E H; destruct (int_rnd z H) as [E1 E2].
    - change (oadd O a b) with (Bplus mode_NE a b).
      pose proof (Bplus_correct prec emax Hp Hm mode_NE a b Fa Fb) as C. unfold ieeeVal in *. rewrite E in C.
      rewrite Rlt_bool_true in C by auto. unfold ieeeFinite. rewrite E1 in C. intuition.
    - rewrite <- E in E1, E2. destruct (mul_make prec emax Hp Hm a b Fa Fb E2) as [G1 G2].
      split; auto. rewrite G2, E1. auto.
  Qed.
End Ieee.

Section Integer.
  Context {F : Type} (O : ops F) (fin : F -> Prop) (val : F -> R) (B : R).
  Context (IE : intExact O fin val B).
  Local Notation av := (fun v => Rabs (val v)).
  Local Notation int := (isInt fin val).
  Local Notation tv := (tv val).

  Definition RVi (v : F) (t : T) : Prop := t = tv v /\ int v.
  Definition RYi (y : F) (t : T) : Prop :=
    let '(e, s, c) := t in Rabs e <= s /\ (s <= B -> fin y /\ val y = e /\ exists z, e = IZR z).

  Lemma RYi_step a a' v v' x x' : RYi a a' -> RVi v v' -> RVi x x' ->
    RYi (oadd O a (omul O v x)) (oadd OT a' (omul OT v' x')).
  Proof.
    destruct a' as [[e s] c]. intros (He & Ha) (-> & Fv & zv & Ev) (-> & Fx & zx & Ex). cbn.
    rewrite <- Rabs_mult. split.
    { eapply Rle_trans; [apply Rabs_triang|]. lra. }
    intros HB. pose proof (Rabs_pos (val v * val x)) as P1. pose proof (Rabs_pos e) as P2.
    destruct (Ha ltac:(lra)) as (Fa & Ea & z & Ez).
    assert (Em : val v * val x = IZR (zv * zx)) by (rewrite mult_IZR; congruence).
    destruct (ie_mul _ _ _ _ IE v x (zv * zx)%Z Fv Fx Em) as [Fm Vm].
    { rewrite <- Em. lra. }
    assert (Es : val a + val (omul O v x) = IZR (z + zv * zx)) by (rewrite plus_IZR; congruence).
    destruct (ie_add _ _ _ _ IE a (omul O v x) (z + zv * zx)%Z Fa Fm Es) as [Fs Vs].
    { rewrite <- Es, Vm, <- Em, Ea. eapply Rle_trans; [apply Rabs_triang|]. lra. }
    split; auto. split.
    - rewrite Vs, <- Es, Vm, <- Em, Ea. auto.
    - exists (z + zv * zx)%Z. rewrite <- Es, Vm, <- Em, Ea. auto.
  Qed.
  Lemma RYi_start b : int b -> RYi b (ty val b).
  Proof. intros (Fb & z & E). cbn. split; [lra|]. eauto. Qed.

  Lemma Forall2_in {A C} (R : A -> C -> Prop) (g : A -> C) l :
    (forall a, In a l -> R a (g a)) -> Forall2 R l (map g l).
  Proof. intros H. induction l; cbn; constructor; auto; [apply H|apply IHl; intros; apply H]; cbn; auto. Qed.
  Lemma int_mat m a vals : inputOf O m a vals -> (forall v, In v vals -> int v) -> matRel RVi m (castMat tv m).
  Proof.
    intros [I1 I2 I3] H. split; auto. cbn [castMat m_sp m_val]. rewrite I1. intros k Hk.
    rewrite I3 by lia. cbn [bind resRel]. split; auto. apply H. apply nth_In. lia.
  Qed.

  Lemma close_int y t e s : RYi y t -> isE t e -> isS t s -> s <= B -> fin y /\ val y = e.
  Proof.
    destruct t as [[e' s'] c']. unfold isE, isS. cbn [fst snd]. intros (_ & H) <- <- L. apply H in L. tauto.
  Qed.

  Lemma multiply_int kind m sp vals nr nc x rhs :
    inputOf O m sp vals -> spOf sp nr nc -> (kind = Symmetric -> nr = nc) ->
    length x = ProofMultiply.colsOf kind nr nc -> length rhs = ProofMultiply.rowsOf kind nr nc ->
    (forall v, In v vals -> int v) -> (forall v, In v x -> int v) -> (forall v, In v rhs -> int v) ->
    exists r, multiply O kind m x rhs = Ok r /\ length r = length rhs /\
      forall i, (i < length rhs)%nat ->
      Rabs (val (vecAt O rhs i)) + sumn Or (ProofMultiply.colsOf kind nr nc) (fun j =>
         kindAt Or kind (entries sp) (map av vals) i j * Rabs (val (vecAt O x j))) <= B ->
      fin (vecAt O r i) /\
      val (vecAt O r i) = val (vecAt O rhs i) + sumn Or (ProofMultiply.colsOf kind nr nc) (fun j =>
         kindAt Or kind (entries sp) (map val vals) i j * val (vecAt O x j)).
  Proof.
    intros HI HS HQ Nx Nr IV IX IR.
    destruct (multiply_ok Or FLr kind (castMat val m) sp (map val vals) nr nc (map val x) (map val rhs))
      as (re & Ee & Ne & He); auto using (cast_input O Or); try (rewrite map_length; auto).
    destruct (multiply_ok Or FLr kind (castMat av m) sp (map av vals) nr nc (map av x) (map av rhs))
      as (rs & Es & Ns & Hs); auto using (cast_input O Or); try (rewrite map_length; auto).
    pose proof (multiply_rel OT Or isE isE isE isE_step kind (castMat tv m) (castMat val m) (map tv x) (map val x)
      (map (ty val) rhs) (map val rhs)) as R1.
    pose proof (multiply_rel OT Or isS isS isS isS_step kind (castMat tv m) (castMat av m) (map tv x) (map av x)
      (map (ty val) rhs) (map av rhs)) as R2.
    pose proof (multiply_rel O OT RVi RVi RYi RYi_step kind m (castMat tv m) x (map tv x)
      rhs (map (ty val) rhs) (int_mat m sp vals HI IV)) as R4.
    specialize (R1 ltac:(apply cast_rel; reflexivity) ltac:(apply Forall2_map; reflexivity) ltac:(apply Forall2_map; reflexivity)).
    specialize (R2 ltac:(apply cast_rel; reflexivity) ltac:(apply Forall2_map; reflexivity) ltac:(apply Forall2_map; reflexivity)).
    specialize (R4 ltac:(apply Forall2_in; intros; split; auto) ltac:(apply Forall2_in; intros; apply RYi_start; auto)).
    rewrite Ee in R1. rewrite Es in R2.
    destruct (multiply OT _ _ _ _) as [rt|] eqn:Et; cbn [resRel] in *; [|contradiction].
    destruct (multiply O _ _ _ _) as [r|] eqn:Er; cbn [resRel] in R4; [|contradiction].
    rewrite map_length in *.
    pose proof (Forall2_length _ _ _ R1) as L1. pose proof (Forall2_length _ _ _ R4) as L4.
    exists r. split; auto. split; [congruence|]. intros i Hi HB.
    eapply (close_int (vecAt O r i) (nth i rt (0, 0, 0))); [| | |exact HB].
    - apply (Forall2_nth RYi); auto. lia.
    - transitivity (nth i re 0); [apply (Forall2_nth isE); auto; lia|].
      change (nth i re 0) with (vecAt Or re i). rewrite He by auto. rewrite (cast_vecAt O Or) by auto.
      cbn. f_equal. apply sumn_ext. intros j Hj. rewrite (cast_vecAt O Or) by lia. reflexivity.
    - transitivity (nth i rs 0); [apply (Forall2_nth isS); auto; lia|].
      change (nth i rs 0) with (vecAt Or rs i). rewrite Hs by auto. rewrite (cast_vecAt O Or) by auto.
      cbn. f_equal. apply sumn_ext. intros j Hj. rewrite (cast_vecAt O Or) by lia. reflexivity.
  Qed.

  Lemma Forall2_mats_in {A} (R : mat (F:=F) -> A -> Prop) g l :
    (forall t, (t < length l)%nat -> R (nth t l noMat) (g (nth t l noMat))) -> Forall2 R l (map g l).
  Proof.
    intros H. apply Forall2_in. intros m Hm. destruct (In_nth _ _ noMat Hm) as (t & Ht & <-). auto.
  Qed.
  Lemma vec_in n ds dt dl dO (P : F -> Prop) (x : arrow_vec (F:=F)) : vecOf n ds dt dl dO x ->
    (forall g, In g (allIdx n ds dt dl dO) -> P (gvecAt O x g)) ->
    (forall v, In v (v_start x) -> P v) /\ (forall b v, In b (v_tri x) -> In v b -> P v) /\
    (forall v, In v (v_link x) -> P v) /\ (forall v, In v (v_outer x) -> P v).
  Proof.
    intros [] H. split; [|split; [|split]].
    - intros v Hv. destruct (In_nth _ _ (o0 O) Hv) as (i & Hi & <-). apply (H (GS i)). apply in_allIdx. lia.
    - intros b v Hb Hv. destruct (In_nth _ _ [] Hb) as (t & Ht & <-). destruct (In_nth _ _ (o0 O) Hv) as (i & Hi & <-).
      apply (H (GT t i)). apply in_allIdx. rewrite vo_tri in Hi by lia. lia.
    - intros v Hv. destruct (In_nth _ _ (o0 O) Hv) as (i & Hi & <-). apply (H (GL i)). apply in_allIdx. lia.
    - intros v Hv. destruct (In_nth _ _ (o0 O) Hv) as (i & Hi & <-). apply (H (GO i)). apply in_allIdx. lia.
  Qed.

  Lemma arrow_int n ds dt dl dO m w x rhs :
    inputArrow O n ds dt dl dO m w -> vecOf n ds dt dl dO x -> vecOf n ds dt dl dO rhs ->
    intVals int n w ->
    let all := allIdx n ds dt dl dO in
    (forall g, In g all -> int (gvecAt O x g)) -> (forall g, In g all -> int (gvecAt O rhs g)) ->
    exists r, arrowMultiply O m x rhs = Ok r /\ vecOf n ds dt dl dO r /\
      forall g, In g all ->
      Rabs (val (gvecAt O rhs g)) + arrowExact O av all m w x g <= B ->
      fin (gvecAt O r g) /\ val (gvecAt O r g) = val (gvecAt O rhs g) + arrowExact O val all m w x g.
  Proof.
    intros HI Vx Vr IV all IX IR.
    assert (G : forall f, exists r, arrowMultiply Or (castArrowMat f m) (castVec f x) (castVec f rhs) = Ok r /\
        vecOf n ds dt dl dO r /\
        forall g, In g all -> gvecAt Or r g = f (gvecAt O rhs g) + arrowExact O f all m w x g).
    { intros f.
      destruct (arrow_multiply_ok Or FLr n ds dt dl dO (castArrowMat f m) (castVals f w) (castVec f x) (castVec f rhs))
        as (r & E & N & H); auto using (cast_arrow O Or), @cast_vec.
      exists r. split; auto. split; auto. intros g Hg. rewrite H by auto.
      rewrite (cast_gvecAt O Or f n ds dt dl dO) by auto. cbn [oadd Or]. f_equal. unfold arrowExact, gmatVec.
      apply rsum_ext. intros h Hh. rewrite (cast_gvecAt O Or f n ds dt dl dO) by auto. reflexivity. }
    destruct (G val) as (re & Ee & Ne & He).
    destruct (G av) as (rs & Es & Ns & Hs). clear G.
    pose proof (arrow_multiply_rel OT Or isE isE isE isE_step (castArrowMat tv m) (castArrowMat val m)
      (castVec tv x) (castVec val x) (castVec (ty val) rhs) (castVec val rhs)
      ltac:(apply arrow_cast_rel; reflexivity) ltac:(apply vec_cast_rel; reflexivity)
      ltac:(apply vec_cast_rel; reflexivity)) as R1.
    pose proof (arrow_multiply_rel OT Or isS isS isS isS_step (castArrowMat tv m) (castArrowMat av m)
      (castVec tv x) (castVec av x) (castVec (ty val) rhs) (castVec av rhs)
      ltac:(apply arrow_cast_rel; reflexivity) ltac:(apply vec_cast_rel; reflexivity)
      ltac:(apply vec_cast_rel; reflexivity)) as R2.
    assert (M : arrowRel RVi m (castArrowMat tv m)).
    { destruct HI as [Isd Isn Iso Mtd Itd Mts Its Ilp Ild Iln Mos Ios Iod]. destruct IV as [V1 V2 V3 V4 V5 V6 V7 V8 V9 V10].
      constructor; cbn [castArrowMat a_sd a_sn a_so a_td a_ts a_lp a_ld a_ln a_os a_od];
        try (eapply int_mat; [match goal with H : matOf O ?b _ _ _ |- inputOf O ?b _ _ => exact (proj2 H) end|auto]);
        apply Forall2_mats_in; intros t Ht.
      - eapply int_mat; [apply (proj2 (Itd t ltac:(lia)))|]. intros v Hv. apply (V4 t v); auto. lia.
      - eapply int_mat; [apply (proj2 (Its t ltac:(lia)))|]. intros v Hv. apply (V5 t v); auto. lia.
      - eapply int_mat; [apply (proj2 (Ios t ltac:(lia)))|]. intros v Hv. apply (V9 t v); auto. lia. }
    assert (VXi : vecRel RVi x (castVec tv x)).
    { destruct (vec_in n ds dt dl dO int x Vx IX) as (H1 & H2 & H3 & H4).
      unfold vecRel, castVec. cbn [v_start v_tri v_link v_outer].
      split; [|split; [|split]]; try (apply Forall2_in; intros; split; auto; fail).
      apply Forall2_in. intros b Hb. apply Forall2_in. intros v Hv. split; eauto. }
    assert (VRi : vecRel RYi rhs (castVec (ty val) rhs)).
    { destruct (vec_in n ds dt dl dO int rhs Vr IR) as (H1 & H2 & H3 & H4).
      unfold vecRel, castVec. cbn [v_start v_tri v_link v_outer].
      split; [|split; [|split]]; try (apply Forall2_in; intros; apply RYi_start; auto; fail).
      apply Forall2_in. intros b Hb. apply Forall2_in. intros v Hv. apply RYi_start. eauto. }
    pose proof (arrow_multiply_rel O OT RVi RVi RYi RYi_step m (castArrowMat tv m)
      x (castVec tv x) rhs (castVec (ty val) rhs) M VXi VRi) as R4.
    rewrite Ee in R1. rewrite Es in R2.
    destruct (arrowMultiply OT _ _ _) as [rt|] eqn:Et; cbn [resRel] in *; [|contradiction].
    destruct (arrowMultiply O _ _ _) as [r|] eqn:Er; cbn [resRel] in R4; [|contradiction].
    pose proof (vecRel_of _ _ _ _ _ _ _ _ R1 Ne) as VT. pose proof (vecRel_of _ _ _ _ _ _ _ _ R4 VT) as VR.
    exists r. split; auto. split; auto. intros g Hg HB.
    eapply (close_int (gvecAt O r g) (gvecAt OT rt g)); [| | |exact HB].
    - apply (vecRel_at O OT RYi n ds dt dl dO); auto.
    - rewrite <- He by auto. apply (vecRel_at OT Or isE n ds dt dl dO); auto.
    - rewrite <- Hs by auto. apply (vecRel_at OT Or isS n ds dt dl dO); auto.
  Qed.

  Lemma tri_int n dt A C wA wC x rhs :
    inputTri O n dt A C wA wC -> blocksOf n dt x -> blocksOf n dt rhs ->
    (forall t v, (t < n + 1)%nat -> In v (nth t wA []) -> int v) ->
    (forall t v, (t < n)%nat -> In v (nth t wC []) -> int v) ->
    (forall t i, (t < n + 1)%nat -> (i < dt)%nat -> int (vecAt O (nth t x []) i)) ->
    (forall t i, (t < n + 1)%nat -> (i < dt)%nat -> int (vecAt O (nth t rhs []) i)) ->
    exists r, multiplyRepeatingBlockTridiagonal O A C x rhs = Ok r /\ blocksOf n dt r /\
      forall t i, (t < n + 1)%nat -> (i < dt)%nat ->
      Rabs (val (vecAt O (nth t rhs []) i)) + triExact O av n dt A C wA wC x t i <= B ->
      fin (vecAt O (nth t r []) i) /\
      val (vecAt O (nth t r []) i) = val (vecAt O (nth t rhs []) i) + triExact O val n dt A C wA wC x t i.
  Proof.
    intros HI [Nx Nx'] [Nr Nr'] VA VC IX IR. pose proof HI as [NA HA NB HB].
    assert (G : forall f, exists r, multiplyRepeatingBlockTridiagonal Or (map (castMat f) A) (map (castMat f) C)
        (map (map f) x) (map (map f) rhs) = Ok r /\ length r = (n + 1)%nat /\
        (forall t, (t < n + 1)%nat -> length (nth t r []) = dt) /\
        forall t i, (t < n + 1)%nat -> (i < dt)%nat ->
          vecAt Or (nth t r []) i = f (vecAt O (nth t rhs []) i) + triExact O f n dt A C wA wC x t i).
    { intros f.
      destruct (tri_multiply_ok Or FLr n dt (map (castMat f) A) (map (castMat f) C) (map (map f) wA) (map (map f) wC)
        (map (map f) x) (map (map f) rhs)) as (r & E & N & N' & H); rewrite ?map_length; auto;
        try (intros; rewrite ?castMat_nth, ?map_nth', ?map_length; auto using (cast_of O Or)).
      exists r. split; auto. split; auto. split; auto. intros t i Ht Hi. rewrite H by auto.
      rewrite map_nth', (cast_vecAt O Or) by (rewrite Nr'; auto). cbn [oadd Or]. f_equal.
      apply sumn_ext. intros v Hv. apply sumn_ext. intros j Hj. rewrite map_nth', (cast_vecAt O Or) by (rewrite Nx'; auto).
      reflexivity. }
    destruct (G val) as (re & Ee & Ne & Ne' & He).
    destruct (G av) as (rs & Es & Ns & Ns' & Hs). clear G.
    pose proof (tri_multiply_rel OT Or isE isE isE isE_step (map (castMat tv) A) (map (castMat val) A)
      (map (castMat tv) C) (map (castMat val) C) (map (map tv) x) (map (map val) x)
      (map (map (ty val)) rhs) (map (map val) rhs)) as R1.
    pose proof (tri_multiply_rel OT Or isS isS isS isS_step (map (castMat tv) A) (map (castMat av) A)
      (map (castMat tv) C) (map (castMat av) C) (map (map tv) x) (map (map av) x)
      (map (map (ty val)) rhs) (map (map av) rhs)) as R2.
    specialize (R1 ltac:(apply Forall2_mats; reflexivity) ltac:(apply Forall2_mats; reflexivity)
      ltac:(apply Forall2_vecs; reflexivity) ltac:(apply Forall2_vecs; reflexivity)).
    specialize (R2 ltac:(apply Forall2_mats; reflexivity) ltac:(apply Forall2_mats; reflexivity)
      ltac:(apply Forall2_vecs; reflexivity) ltac:(apply Forall2_vecs; reflexivity)).
    assert (in2 : forall (P : F -> Prop) (l : list (list F)), length l = (n + 1)%nat ->
      (forall t, (t < n + 1)%nat -> length (nth t l []) = dt) ->
      (forall t i, (t < n + 1)%nat -> (i < dt)%nat -> P (vecAt O (nth t l []) i)) ->
      forall b v, In b l -> In v b -> P v).
    { intros P l N N' H b v Hb Hv. destruct (In_nth _ _ [] Hb) as (t & Ht & <-).
      destruct (In_nth _ _ (o0 O) Hv) as (i & Hi & <-). apply H; [lia|]. rewrite N' in Hi by lia. auto. }
    pose proof (tri_multiply_rel O OT RVi RVi RYi RYi_step A (map (castMat tv) A) C (map (castMat tv) C)
      x (map (map tv) x) rhs (map (map (ty val)) rhs)) as R4.
    specialize (R4 ltac:(apply Forall2_mats_in; intros t Ht;
        eapply int_mat; [apply (proj2 (HA t ltac:(lia)))|intros v; apply VA; lia])
      ltac:(apply Forall2_mats_in; intros t Ht;
        eapply int_mat; [apply (proj2 (HB t ltac:(lia)))|intros v; apply VC; lia])
      ltac:(apply Forall2_in; intros b Hb; apply Forall2_in; intros v Hv; split; [reflexivity|];
        apply (in2 int x Nx Nx' IX b v Hb Hv))
      ltac:(apply Forall2_in; intros b Hb; apply Forall2_in; intros v Hv; apply RYi_start;
        apply (in2 int rhs Nr Nr' IR b v Hb Hv))).
    rewrite Ee in R1. rewrite Es in R2.
    destruct (multiplyRepeatingBlockTridiagonal OT _ _ _ _) as [rt|] eqn:Et; cbn [resRel] in *; [|contradiction].
    destruct (multiplyRepeatingBlockTridiagonal O _ _ _ _) as [r|] eqn:Er; cbn [resRel] in R4; [|contradiction].
    pose proof (Forall2_length _ _ _ R1) as L1. pose proof (Forall2_length _ _ _ R4) as L4.
    assert (LT : forall t, (t < n + 1)%nat -> length (nth t rt []) = dt).
    { intros t Ht. rewrite (Forall2_length _ _ _ (Forall2_nth (Forall2 isE) _ _ [] [] t R1 ltac:(lia))). auto. }
    assert (LR : forall t, (t < n + 1)%nat -> length (nth t r []) = dt).
    { intros t Ht. rewrite (Forall2_length _ _ _ (Forall2_nth (Forall2 RYi) _ _ [] [] t R4 ltac:(lia))). auto. }
    exists r. split; auto. split; [split; auto; lia|]. intros t i Ht Hi HBB.
    eapply (close_int (vecAt O (nth t r []) i) (nth i (nth t rt []) (0, 0, 0))); [| | |exact HBB].
    - apply (Forall2_nth2 RYi); auto; try lia. rewrite LR; auto.
    - rewrite <- He by auto. apply (Forall2_nth2 isE); auto; try lia. rewrite LT; auto.
    - rewrite <- Hs by auto. apply (Forall2_nth2 isS); auto; try lia. rewrite LT; auto.
  Qed.
End Integer.
