(** Products with simple matrices; multiply, factorize and solve in rounded arithmetic. *)
From Coq Require Import Reals Lra Lia List Arith Bool.
From Verif Require Import Base ModelPerm ModelSparsity ModelSymbolic ModelNumeric ModelArrow ModelReg ModelMixed.
From Verif Require Import SpecSymbolic SpecArrow SpecNumeric SpecArrowNum SpecReg SpecRound SpecMixed SpecProduct.
From Verif Require Import ProofBase ProofPerm ProofCsr ProofFill ProofDense ProofExact ProofLdl ProofKernel ProofSolve
  ProofSingle ProofSingleMain ProofMultiply ProofArrowSym ProofArrowRows ProofArrowUniq ProofArrowDense ProofArrowProduct ProofArrowSolve ProofArrowMain
  ProofArrowMultiply ProofPropSingle ProofPropArrow ProofArrowSub ProofRound ProofRoundMain ProofRoundUser ProofRoundTri ProofMixed ProofMultiplyRel ProofProduct.
Import ListNotations.
Local Open Scope R_scope.
Local Notation rsum := (suml Or).

Section Simple.
  Context {F : Type} (O : ops F) (fin : F -> Prop) (val : F -> R) (u eta : R).
  Context (RO : rounding O fin val u eta).
  Local Notation av := (fun v => Rabs (val v)).

  Lemma val0 : val (o0 O) = o0 Or.
  Proof. exact (rd_0 _ _ _ _ _ RO). Qed.
  Lemma av0 : av (o0 O) = o0 Or.
  Proof. cbn beta. rewrite (rd_0 _ _ _ _ _ RO). apply Rabs_R0. Qed.

  Lemma kind_simple (f : F -> R) es vals i j : f (o0 O) = o0 Or -> length vals = length es ->
    NoDup es -> (forall r c, In (r, c) es -> (c <= r)%nat) ->
    kindAt Or Symmetric es (map f vals) i j = f (symAt O es vals i j).
  Proof.
    intros f0 N ND LT. rewrite <- (symAt_map O Or f f0). apply (kindAt_sym Or FLr); auto. rewrite map_length. auto.
  Qed.

  Lemma symmetric_round m a vals n x rhs :
    spOf a n n -> inputOf O m a vals -> length x = n -> length rhs = n ->
    NoDup (entries a) -> (forall r c, In (r, c) (entries a) -> (c <= r)%nat) ->
    exists r, multiply O Symmetric m x rhs = Ok r /\ length r = n /\
      forall i, (i < n)%nat -> fin (vecAt O r i) ->
      let A := fun j => val (symAt O (entries a) vals i j) in
      Rabs (val (vecAt O r i) - (val (vecAt O rhs i) + rsum (seq 0 n) (fun j => A j * val (vecAt O x j)))) <=
      productBound u eta (mulCount Symmetric (entries a) i)
        (Rabs (val (vecAt O rhs i)) + rsum (seq 0 n) (fun j => Rabs (A j * val (vecAt O x j)))).
  Proof.
    intros HS HI Nx Nr ND LT.
    destruct (multiply_round O fin val u eta RO Symmetric m a vals n n x rhs HI HS) as (r & E & N & H); auto.
    exists r. split; auto. split; [congruence|]. intros i Hi Hf A. rewrite Nr in H. specialize (H i Hi Hf).
    cbn [ProofMultiply.colsOf] in H. pose proof (io_len _ _ _ _ HI) as NV.
    rewrite !(suml_seq Or FLr).
    rewrite (sumn_ext Or n (fun j => Rabs (A j * val (vecAt O x j)))
      (fun j => kindAt Or Symmetric (entries a) (map av vals) i j * Rabs (val (vecAt O x j)))).
    2:{ intros j _. rewrite (kind_simple av), Rabs_mult; auto. exact av0. }
    rewrite (sumn_ext Or n (fun j => A j * val (vecAt O x j))
      (fun j => kindAt Or Symmetric (entries a) (map val vals) i j * val (vecAt O x j))).
    2:{ intros j _. rewrite (kind_simple val); auto. exact val0. }
    exact H.
  Qed.

  Lemma cast_simple (f : F -> R) n m : simpleArrow n m -> simpleArrow n (castArrowMat f m).
  Proof.
    intros [S1 S2 S3 S4 S5 S6 S7 S8 S9 S10]. constructor; cbn [castArrowMat a_sd a_sn a_so a_td a_ts a_lp a_ld a_ln a_os a_od]; auto;
      intros t Ht; rewrite castMat_nth; [exact (S4 t Ht)|exact (S5 t Ht)|exact (S9 t Ht)].
  Qed.

  Lemma arrow_symmetric_round n ds dt dl dO m w x rhs :
    inputArrow O n ds dt dl dO m w -> simpleArrow n m ->
    vecOf n ds dt dl dO x -> vecOf n ds dt dl dO rhs ->
    let all := allIdx n ds dt dl dO in
    exists r, arrowMultiply O m x rhs = Ok r /\ vecOf n ds dt dl dO r /\
      forall g, In g all -> fin (gvecAt O r g) ->
      let A := fun h => val (matAt O m w g h) in
      Rabs (val (gvecAt O r g) - (val (gvecAt O rhs g) + rsum all (fun h => A h * val (gvecAt O x h)))) <=
      productBound u eta (mulCountG m g)
        (Rabs (val (gvecAt O rhs g)) + rsum all (fun h => Rabs (A h * val (gvecAt O x h)))).
  Proof.
    intros HI HS Vx Vr all.
    destruct (arrow_round O fin val u eta RO n ds dt dl dO m w x rhs HI Vx Vr) as (r & E & V & H).
    exists r. split; auto. split; auto. intros g Hg Hf A. specialize (H g Hg Hf).
    assert (M : forall (f : F -> R) h, f (o0 O) = o0 Or -> In h all ->
      productAt Or (castArrowMat f m) (castVals f w) g h = f (matAt O m w g h)).
    { intros f h f0 Hh. rewrite <- (matAt_map O Or f f0).
      apply (product_is_matrix Or FLr n ds dt dl dO); auto; [apply (cast_arrow O Or); auto|apply cast_simple; auto]. }
    unfold arrowExact, gmatVec in H. fold all in H. cbn [omul Or] in H.
    rewrite (rsum_ext all (fun h => Rabs (A h * val (gvecAt O x h)))
      (fun h => productAt Or (castArrowMat av m) (castVals av w) g h * Rabs (val (gvecAt O x h)))).
    2:{ intros h Hh. rewrite (M av), Rabs_mult; auto. exact av0. }
    rewrite (rsum_ext all (fun h => A h * val (gvecAt O x h))
      (fun h => productAt Or (castArrowMat val m) (castVals val w) g h * val (gvecAt O x h))).
    2:{ intros h Hh. rewrite (M val); auto. exact val0. }
    exact H.
  Qed.

  Lemma tri_symmetric_round n dt A B wA wB x rhs :
    inputTri O n dt A B wA wB -> (forall t, (t < n + 1)%nat -> simpleSym (nth t A noMat)) ->
    (forall t, (t < n)%nat -> simpleRect (nth t B noMat)) -> blocksOf n dt x -> blocksOf n dt rhs ->
    exists r, multiplyRepeatingBlockTridiagonal O A B x rhs = Ok r /\ blocksOf n dt r /\
      forall t i, (t < n + 1)%nat -> (i < dt)%nat -> fin (vecAt O (nth t r []) i) ->
      let M := fun t' j => val (triMatAt O A B wA wB t i t' j) in
      let X := fun t' j => val (vecAt O (nth t' x []) j) in
      Rabs (val (vecAt O (nth t r []) i) - (val (vecAt O (nth t rhs []) i) +
         sumn Or (n + 1) (fun t' => sumn Or dt (fun j => M t' j * X t' j)))) <=
      productBound u eta (mulCountT A B t i) (Rabs (val (vecAt O (nth t rhs []) i)) +
         sumn Or (n + 1) (fun t' => sumn Or dt (fun j => Rabs (M t' j * X t' j)))).
  Proof.
    intros HI SA SB Vx Vr.
    destruct (tri_round O fin val u eta RO n dt A B wA wB x rhs HI Vx Vr) as (r & E & V & H).
    exists r. split; auto. split; auto. intros t i Ht Hi Hf M X. specialize (H t i Ht Hi Hf).
    destruct HI as [NA HA NB HB].
    assert (Q : forall (f : F -> R) v j, f (o0 O) = o0 Or -> (v < n + 1)%nat ->
      triProductAt Or (map (castMat f) A) (map (castMat f) B) (map (map f) wA) (map (map f) wB) t i v j =
      f (triMatAt O A B wA wB t i v j)).
    { intros f v j f0 Hv. rewrite <- (triMatAt_map O Or f f0). unfold triProductAt, triMatAt, triAt.
      assert (KS : forall t, (t < n + 1)%nat -> forall i j,
        kindAt Or Symmetric (entries (m_sp (nth t (map (castMat f) A) noMat))) (nth t (map (map f) wA) []) i j =
        symAt Or (entries (m_sp (nth t (map (castMat f) A) noMat))) (nth t (map (map f) wA) []) i j).
      { intros s Hs i' j'. rewrite castMat_nth, map_nth'. cbn [castMat m_sp].
        destruct (SA s Hs) as [ND LT]. apply (kindAt_sym Or FLr); auto. rewrite map_length.
        apply (io_len _ _ _ _ (proj2 (HA s Hs))). }
      assert (KR : forall t, (t < n)%nat -> forall i j,
        totalAt Or (entries (m_sp (nth t (map (castMat f) B) noMat))) (nth t (map (map f) wB) []) i j =
        denseAt Or (entries (m_sp (nth t (map (castMat f) B) noMat))) (nth t (map (map f) wB) []) i j).
      { intros s Hs i' j'. rewrite castMat_nth, map_nth'. cbn [castMat m_sp].
        apply (total_first Or FLr); [apply SB; auto|]. rewrite map_length.
        apply (io_len _ _ _ _ (proj2 (HB s Hs))). }
      destruct (Nat.eqb_spec t v); [apply KS; lia|].
      destruct (Nat.eqb_spec t (v + 1)); [apply KR; lia|].
      destruct (Nat.eqb_spec v (t + 1)); [apply KR; lia|]. auto. }
    unfold triExact in H.
    rewrite (sumn_ext Or (n + 1) (fun t' => sumn Or dt (fun j => Rabs (M t' j * X t' j)))
      (fun t' => sumn Or dt (fun j =>
         triProductAt Or (map (castMat av) A) (map (castMat av) B) (map (map av) wA) (map (map av) wB) t i t' j *
         Rabs (val (vecAt O (nth t' x []) j))))).
    2:{ intros v Hv. apply sumn_ext. intros j _. rewrite (Q av), Rabs_mult; auto. exact av0. }
    rewrite (sumn_ext Or (n + 1) (fun t' => sumn Or dt (fun j => M t' j * X t' j))
      (fun t' => sumn Or dt (fun j =>
         triProductAt Or (map (castMat val) A) (map (castMat val) B) (map (map val) wA) (map (map val) wB) t i t' j *
         val (vecAt O (nth t' x []) j)))).
    2:{ intros v Hv. apply sumn_ext. intros j _. rewrite (Q val); auto. exact val0. }
    exact H.
  Qed.

  (** ** multiply, factorize and solve *)

  Lemma rsum_minus {I} (l : list I) f g : rsum l f - rsum l g = rsum l (fun k => f k - g k).
  Proof. induction l as [|a l IH]; [cbn; lra|]. rewrite !rsum_cons, <- IH. lra. Qed.

  Lemma trip (b sx sy B C : R) : Rabs (b - sy) <= B -> Rabs (b - (0 + sx)) <= C -> Rabs (sy - sx) <= B + C.
  Proof.
    intros H1 H2. replace (sy - sx) with (- (b - sy) + (b - (0 + sx))) by lra.
    eapply Rle_trans; [apply Rabs_triang|]. rewrite Rabs_Ropp. lra.
  Qed.

  Lemma vec_zero n i : (i < n)%nat -> vecAt O (repeat (o0 O) n) i = o0 O.
  Proof. intros H. unfold vecAt. apply nth_repeat'. auto. Qed.

  Lemma single_trip s n p b : spOf s n n -> validPerm n p -> factorizationBlk s p = Ok b ->
    forall mt a vals m L0 D0 L D x cc,
    spOf a n n -> inputOf O m a vals -> coveredSym (entries a) (entries s) n p ->
    NoDup (entries a) -> (forall r c, In (r, c) (entries a) -> (c <= r)%nat) ->
    length L0 = c_nnz (b_sp b) -> length D0 = n -> length x = n ->
    factorize O mt b (Some m) regularizationNone (L0, D0) = Ok (L, D) ->
    (forall v, In v D -> fin v) ->
    let es := c_entries (b_sp b) in
    (forall j, (j < n)%nat -> (colCount es j <= cc)%nat) ->
    exists rhs y, multiply O Symmetric m x (repeat (o0 O) n) = Ok rhs /\
      solveInPlace O b (L, D) rhs = Ok y /\ length y = n /\
      ((forall v, In v y -> fin v) -> (forall v, In v rhs -> fin v) -> forall i, (i < n)%nat ->
       let U := unitL O val es L in
       let V := fun k => val (vecAt O D k) in
       let yp := fun j => val (vecAt O y (nth j p 0%nat)) in
       let A := fun c => val (symAt O (entries a) vals (nth i p 0%nat) c) in
       Rabs (rsum (seq 0 n) (fun c => A c * (val (vecAt O y c) - val (vecAt O x c)))) <=
       solveBound (seq 0 n) U V u eta (rowCount es i) cc yp i +
       rsum (seq 0 n) (fun j => factorBound (seq 0 n) U V u eta (rowCount es i) i j * Rabs (yp j)) +
       productBound u eta (mulCount Symmetric (entries a) (nth i p 0%nat))
         (rsum (seq 0 n) (fun c => Rabs (A c * val (vecAt O x c))))).
  Proof.
    intros HS HP HB mt a vals m L0 D0 L D x cc HA HI HC ND LT NL ND0 Nx HF HD es HCC.
    destruct (symmetric_round m a vals n x (repeat (o0 O) n)) as (rhs & E1 & N1 & H1); auto using repeat_length.
    destruct (single_total_none O fin val u eta RO s n p b HS HP HB mt a vals m L0 D0 L D rhs cc) as (y & E2 & N2 & H2); auto.
    exists rhs, y. split; auto. split; auto. split; auto. intros Hy Hr i Hi U V yp A.
    specialize (H2 Hy i Hi). cbv zeta in H2.
    assert (Hpi : (nth i p 0 < n)%nat).
    { destruct HP as (Np & _ & Hb). apply Hb. apply nth_In. lia. }
    specialize (H1 _ Hpi). cbv zeta in H1. specialize (H1 ltac:(apply Hr; apply nth_In; lia)).
    rewrite vec_zero, (rd_0 _ _ _ _ _ RO), Rabs_R0, (Rplus_0_l (rsum _ (fun j => Rabs _))) in H1 by auto.
    pose proof (trip _ _ _ _ _ H2 H1) as Hfin. rewrite rsum_minus in Hfin.
    rewrite (rsum_ext _ (fun c => A c * (val (vecAt O y c) - val (vecAt O x c)))
      (fun c => A c * val (vecAt O y c) - A c * val (vecAt O x c))) by (intros; lra).
    exact Hfin.
  Qed.

  Lemma arrow_trip s ds dt dl dO k n : arrowDims s ds dt dl dO -> arrowBlocks s = Ok k ->
    forall mt m w d0 d x cc,
    inputArrow O n ds dt dl dO m w -> declaredArrow s n m -> simpleArrow n m -> dataOf k n ds dt dl dO d0 ->
    arrowFactorize O mt k m regularizationNone d0 = Ok d ->
    let all := allIdx n ds dt dl dO in
    (forall g, In g all -> fin (pivotAt O d g)) ->
    vecOf n ds dt dl dO x ->
    (forall g, In g all -> (colCountG k n g <= cc)%nat) ->
    exists rhs y, arrowMultiply O m x (zeroVec O n ds dt dl dO) = Ok rhs /\
      arrowSolveInPlace O k d rhs = Ok y /\ vecOf n ds dt dl dO y /\
      ((forall g, In g all -> fin (gvecAt O y g)) -> (forall g, In g all -> fin (gvecAt O rhs g)) ->
       forall g, In g all ->
       let U := unitG O val k d in
       let V := fun g => val (pivotAt O d g) in
       let yp := fun h => val (gvecAt O y (permIdx s h)) in
       let A := fun c => val (matAt O m w (permIdx s g) c) in
       Rabs (rsum all (fun c => A c * (val (gvecAt O y c) - val (gvecAt O x c)))) <=
       solveBound all U V u eta (rowCountG k n g) cc yp g +
       rsum all (fun h => factorBound all U V u eta (rowCountG k n g) g h * Rabs (yp h)) +
       productBound u eta (mulCountG m (permIdx s g)) (rsum all (fun c => Rabs (A c * val (gvecAt O x c))))).
  Proof.
    intros HD HK mt m w d0 d x cc HI HDe HSi Hd HF all HV Vx HCC.
    destruct (arrow_symmetric_round n ds dt dl dO m w x (zeroVec O n ds dt dl dO)) as (rhs & E1 & N1 & H1);
      auto using (zeroVec_of O).
    destruct (arrow_total_none O fin val u eta RO s ds dt dl dO k n HD HK mt m w d0 d rhs cc) as (y & E2 & N2 & H2); auto.
    exists rhs, y. split; auto. split; auto. split; auto. intros Hy Hr g Hg U V yp A.
    specialize (H2 Hy g Hg). cbv zeta in H2.
    assert (Hpg : In (permIdx s g) all) by (apply (permIdx_in s n ds dt dl dO); auto).
    specialize (H1 _ Hpg). cbv zeta in H1. specialize (H1 (Hr _ Hpg)).
    assert (Z : val (gvecAt O (zeroVec O n ds dt dl dO) (permIdx s g)) = 0).
    { rewrite <- (rd_0 _ _ _ _ _ RO). f_equal. pose proof Hpg as Q. unfold all in Q. rewrite in_allIdx in Q.
      destruct (permIdx s g); cbn [gvecAt zeroVec v_start v_tri v_link v_outer];
        rewrite ?nth_repeat' by tauto; apply vec_zero; tauto. }
    rewrite Z, Rabs_R0, (Rplus_0_l (rsum _ (fun j => Rabs _))) in H1.
    pose proof (trip _ _ _ _ _ H2 H1) as Hfin. rewrite rsum_minus in Hfin.
    rewrite (rsum_ext _ (fun c => A c * (val (gvecAt O y c) - val (gvecAt O x c)))
      (fun c => A c * val (gvecAt O y c) - A c * val (gvecAt O x c))) by (intros; lra).
    exact Hfin.
  Qed.

  Lemma sumn_minus n f g : sumn Or n f - sumn Or n g = sumn Or n (fun k => f k - g k).
  Proof. induction n as [|n IH]; cbn [sumn]; cbn; [lra|]. rewrite <- IH. lra. Qed.

  Lemma tri_trip a b p dt n k : spOf a dt dt -> spOf b dt dt -> validPerm dt p ->
    tridiagonalBlocks a b p = Ok k ->
    forall mt A B wA wB d0 d x cc,
    inputTri O n dt A B wA wB -> declaredTri a b n A B ->
    (forall t, (t < n + 1)%nat -> simpleSym (nth t A noMat)) ->
    (forall t, (t < n)%nat -> simpleRect (nth t B noMat)) ->
    dataOf k n 0 dt 0 0 d0 ->
    tridiagonalFactorize O mt k dt A B regularizationNone d0 = Ok d ->
    let all := allIdx n 0 dt 0 0 in
    (forall g, In g all -> fin (pivotAt O d g)) ->
    blocksOf n dt x ->
    (forall g, In g all -> (colCountG k n g <= cc)%nat) ->
    exists rhs y, multiplyRepeatingBlockTridiagonal O A B x (repeat (repeat (o0 O) dt) (n + 1)) = Ok rhs /\
      tridiagonalSolveInPlace O k d rhs = Ok y /\ blocksOf n dt y /\
      ((forall t i, (t < n + 1)%nat -> (i < dt)%nat -> fin (vecAt O (nth t y []) i)) ->
       (forall t i, (t < n + 1)%nat -> (i < dt)%nat -> fin (vecAt O (nth t rhs []) i)) ->
       forall t i, (t < n + 1)%nat -> (i < dt)%nat ->
       let U := unitG O val k d in
       let V := fun g => val (pivotAt O d g) in
       let yp := fun h => val (gvecAt O (mkAV [] y [] []) (permIdx (tridiagonalSparsity a b p) h)) in
       let M := fun t' j => val (triMatAt O A B wA wB t (nth i p 0%nat) t' j) in
       Rabs (sumn Or (n + 1) (fun t' => sumn Or dt (fun j =>
         M t' j * (val (vecAt O (nth t' y []) j) - val (vecAt O (nth t' x []) j))))) <=
       solveBound all U V u eta (rowCountG k n (GT t i)) cc yp (GT t i) +
       rsum all (fun h => factorBound all U V u eta (rowCountG k n (GT t i)) (GT t i) h * Rabs (yp h)) +
       productBound u eta (mulCountT A B t (nth i p 0%nat))
         (sumn Or (n + 1) (fun t' => sumn Or dt (fun j => Rabs (M t' j * val (vecAt O (nth t' x []) j)))))).
  Proof.
    intros Ha Hb HP HK mt A B wA wB d0 d x cc HI HDe SA SB Hd HF all HV Vx HCC.
    assert (VZ : blocksOf n dt (repeat (repeat (o0 O) dt) (n + 1))).
    { split; [apply repeat_length|]. intros t Ht. rewrite nth_repeat' by auto. apply repeat_length. }
    destruct (tri_symmetric_round n dt A B wA wB x (repeat (repeat (o0 O) dt) (n + 1)) HI SA SB Vx VZ) as (rhs & E1 & N1 & H1).
    destruct (tri_total_none O fin val u eta RO a b p dt n k Ha Hb HP HK mt A B wA wB d0 d rhs cc) as (y & E2 & N2 & H2); auto.
    exists rhs, y. split; auto. split; auto. split; auto. intros Hy Hr t i Ht Hi U V yp M.
    specialize (H2 Hy t i Ht Hi). cbv zeta in H2.
    assert (Hpi : (nth i p 0 < dt)%nat).
    { destruct HP as (Np & _ & Hb'). apply Hb'. apply nth_In. lia. }
    specialize (H1 t _ Ht Hpi). cbv zeta in H1. specialize (H1 (Hr _ _ Ht Hpi)).
    rewrite nth_repeat', vec_zero, (rd_0 _ _ _ _ _ RO), Rabs_R0 in H1 by auto.
    rewrite (Rplus_0_l (sumn Or (n + 1) (fun t' => sumn Or dt (fun j => Rabs _)))) in H1.
    pose proof (trip _ _ _ _ _ H2 H1) as Hfin. rewrite sumn_minus in Hfin.
    rewrite (sumn_ext Or (n + 1) (fun t' => sumn Or dt (fun j =>
         M t' j * (val (vecAt O (nth t' y []) j) - val (vecAt O (nth t' x []) j))))
      (fun t' => sumn Or dt (fun j => M t' j * val (vecAt O (nth t' y []) j)) -
                 sumn Or dt (fun j => M t' j * val (vecAt O (nth t' x []) j)))).
    2:{ intros v Hv. rewrite sumn_minus. apply sumn_ext. intros j Hj. lra. }
    exact Hfin.
  Qed.
End Simple.
