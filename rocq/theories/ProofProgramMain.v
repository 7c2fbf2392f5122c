(** The example program in double precision prints the solution. *)
From Coq Require Import List Arith Bool NArith ZArith Reals Lra Lia String Ascii.
From Flocq Require Import Core.Core BinarySingleNaN.
From Verif Require Import Base ModelPerm ModelSparsity ModelSymbolic ModelNumeric ModelArrow ModelReg ModelMtx
  ModelIeee ModelText ModelProgram.
From Verif Require Import SpecSymbolic SpecArrow SpecNumeric SpecArrowNum SpecReg SpecRound SpecFlat SpecDomFloat
  SpecMtx SpecText SpecProgram.
From Verif Require Import ProofReg ProofRegReal ProofPropText ProofPropDomFloat ProofArrowUniq ProofArrowMain ProofMtxSolve ProofProgram ProofProgramRun.
Import ListNotations.
Local Open Scope R_scope.

Local Notation fin := (ieeeFinite 53 1024).
Local Notation val := (ieeeVal 53 1024).

(** a bound in terms of the computed solution as one in terms of the exact solution *)
Lemma bound_swap {I : Type} (all : list I) (x xs : I -> R) (c b X : R) :
  0 <= c <= / 2 -> 0 <= b ->
  (forall Y, (forall g, In g all -> Rabs (x g) <= Y) -> forall g, In g all -> Rabs (x g - xs g) <= c * Y + b) ->
  (forall g, In g all -> Rabs (xs g) <= X) ->
  forall g, In g all -> Rabs (x g - xs g) <= 2 * c * X + 2 * b.
Proof.
  intros Hc Hb H HX g Hg.
  assert (M : exists e, (forall g, In g all -> Rabs (x g - xs g) <= e) /\
                        (e = 0 \/ exists g0, In g0 all /\ e = Rabs (x g0 - xs g0))).
  { clear. induction all as [|a l (e & He & Hm)]; [exists 0; split; [intros g []|auto]|].
    destruct (Rle_dec e (Rabs (x a - xs a))) as [L|L].
    - exists (Rabs (x a - xs a)). split; [|right; exists a; split; [left|]; auto].
      intros g [<-|Hg]; [lra|]. specialize (He g Hg). lra.
    - exists e. split; [intros g [<-|Hg]; [lra|auto]|].
      destruct Hm as [->|(g0 & H1 & H2)]; auto. right. exists g0. split; [right|]; auto. }
  destruct M as (e & He & Hm).
  assert (X0 : 0 <= X) by (eapply Rle_trans; [apply Rabs_pos|apply (HX g Hg)]).
  assert (E : e <= c * (X + e) + b).
  { destruct Hm as [->|(g0 & H1 & ->)]; [|apply H; auto].
    - rewrite Rplus_0_r. assert (0 <= c * X) by (apply Rmult_le_pos; lra). lra.
    - intros h Hh. specialize (He h Hh). specialize (HX h Hh).
      replace (x h) with (xs h + (x h - xs h)) by ring. eapply Rle_trans; [apply Rabs_triang|]. lra. }
  specialize (He g Hg).
  assert (e0 : 0 <= e) by (eapply Rle_trans; [apply Rabs_pos|exact He]).
  assert (c * e <= / 2 * e) by (apply Rmult_le_compat_r; lra).
  rewrite Rmult_plus_distr_l in E. lra.
Qed.

Lemma dominated_ext {I : Type} eqd (all : list I) (A B : I -> I -> R) th :
  (forall g h, In g all -> In h all -> A g h = B g h) -> dominatedBy eqd all A th -> dominatedBy eqd all B th.
Proof.
  intros H D g Hg. rewrite <- (H g g Hg Hg). eapply Rle_trans; [|apply D; auto]. apply Req_le.
  apply suml_In_ext. intros h Hh. rewrite H by auto. reflexivity.
Qed.
Lemma only_ext {I : Type} (all : list I) (A B : I -> I -> R) (a b : I -> R) xs :
  (forall g h, In g all -> In h all -> A g h = B g h) -> (forall g, In g all -> a g = b g) ->
  onlySolution all A a xs -> onlySolution all B b xs.
Proof.
  intros H Hb [H1 H2]. split.
  - intros g Hg. rewrite <- Hb, <- (H1 g Hg) by auto. apply suml_In_ext. intros h Hh. rewrite H by auto. reflexivity.
  - intros ys Hy. apply H2. intros g Hg. rewrite Hb, <- (Hy g Hg) by auto. apply suml_In_ext.
    intros h Hh. rewrite H by auto. reflexivity.
Qed.

(** the regularization leaves large pivots alone *)
Lemma small_off pow p i :
  let tol := pow (dbl 1 (-52)) (dbl 5 (-3)) in
  fin tol -> val tol <= bpow radix2 (-32) -> fin p -> bpow radix2 (-32) <= Rabs (val p) ->
  regularizationSmallPositiveConstant (doubleFns pow) p i = p.
Proof.
  intros tol FT VT FP VP. unfold regularizationSmallPositiveConstant.
  change (fn_pow (doubleFns pow) (fn_epsilon (doubleFns pow)) (fn_0625 (doubleFns pow))) with tol.
  change (fn_ltb (doubleFns pow)) with (Bltb (prec := 53) (emax := 1024)).
  change (fn_abs (doubleFns pow)) with (Babs (prec := 53) (emax := 1024)).
  rewrite Bltb_correct; [|rewrite is_finite_Babs; exact FP|exact FT].
  rewrite B2R_Babs, Rlt_bool_false; auto. unfold ieeeVal in VT, VP. lra.
Qed.

Lemma one_val : fin (dbl 1 0) /\ val (dbl 1 0) = 1.
Proof. split; [reflexivity|]. vm_compute. lra. Qed.

Theorem program_double pow s n ds dt dl dO text es :
  arrowDims s ds dt dl dO -> (0 < dt)%nat -> (Z.of_nat (flatDim n ds dt dl dO) <= 2 ^ 20)%Z ->
  mtxText text (totalRows n ds dt dl dO) (totalRows n ds dt dl dO) es ->
  Forall (declaredEntry s n ds dt dl dO) (withValues decimalToDouble es) ->
  Forall (fun e => ~ misreadEntry n ds dt dl dO e) (withValues decimalToDouble es) ->
  let all := allIdx n ds dt dl dO in
  let A := fun g h => fileAt Od (withValues decimalToDouble es) (posOf n ds dt dl g) (posOf n ds dt dl h) in
  let M := fun g h => val (A g h) in
  (forall g h, In g all -> In h all -> fin (A g h)) ->
  dominatedBy gidx_eq_dec all M (/ 2) ->
  (forall g, In g all -> bpow radix2 (-28) <= Rabs (M g g) <= bpow radix2 400) ->
  let tol := pow (dbl 1 (-52)) (dbl 5 (-3)) in
  fin tol -> val tol <= bpow radix2 (-32) ->
  exists num xs, onlySolution all M (fun _ => 1) xs /\
    (forall X, (forall g, In g all -> Rabs (xs g) <= X) ->
     forall g, In g all -> exists neg q, fixedText (num g) neg q /\
       Rabs (IZR (signed neg (Z.of_N q)) / 1000000 - xs g) <=
       / 2000000 + INR (flatDim n ds dt dl dO) * bpow radix2 (-43) * X + bpow radix2 (-649)) /\
    forall files path prog args, files path = Some text ->
      (args = [] \/ exists arg c, args = [arg] /\ countText arg c /\ c <> 0%N) ->
      exampleDouble pow s files (prog :: path :: args) = Exits 0 (unlines (reportLines n ds dt dl dO num)).
Proof.
  intros AD P HN T D Mi all A M FA DOM RNG tol FT VT.
  destruct (program_runs Od (dbl 1 0) decimalToDouble printfF
              (regularizationSmallPositiveConstant (doubleFns pow)) s n ds dt dl dO text es AD P T D Mi)
    as (m & k & d0 & d & rhs & x & ER & Ek & _ & D0 & EF & VR & ON & ES & VX & RUN).
  destruct (text_stores Od decimalToDouble s n ds dt dl dO text es AD P T D Mi) as (m' & ER' & IA & DA & V).
  rewrite ER in ER'. injection ER' as <-.
  assert (V' : forall g h, In g all -> In h all -> matAt Od (ma_mat m) (mtxVals m) g h = A g h) by exact V.
  destruct (arrow_dom_double UpLooking s ds dt dl dO k n (ma_mat m) (mtxVals m) HN AD Ek IA DA) with (d0 := d0)
    as (d' & EF' & _ & GP & SOL); auto.
  { intros g h Hg Hh. rewrite V' by auto. auto. }
  { apply (dominated_ext gidx_eq_dec all M); auto. intros g h Hg Hh. rewrite V' by auto. reflexivity. }
  { intros g Hg. rewrite V' by auto. destruct (RNG g Hg) as [R1 R2]. split; auto.
    eapply Rle_trans; [|exact R1]. apply bpow_le. lia. }
  assert (d' = d).
  { enough (Ok d' = Ok d) by congruence. rewrite <- EF. symmetry.
    apply (arrow_inactive Od UpLooking s ds dt dl dO k n (ma_mat m) (mtxVals m)); auto.
    intros g Hg. destruct (GP g Hg) as (F1 & [F2 _] & _). apply small_off; auto.
    pose proof (permIdx_in s n ds dt dl dO AD g Hg) as Hp. rewrite V' in F2 by auto.
    destruct (RNG _ Hp) as [R1 _]. eapply Rle_trans; [|exact F2].
    fold (M (permIdx s g) (permIdx s g)).
    assert (bpow radix2 (-28) = 16 * bpow radix2 (-32)) by (change 16 with (bpow radix2 4); rewrite <- bpow_plus; reflexivity).
    pose proof (bpow_gt_0 radix2 (-32)). lra. }
  subst d'. destruct (SOL rhs VR) as (x' & ES' & _ & FX & xs & OS & EB).
  { intros g Hg. rewrite ON by auto. destruct one_val as [O1 O2]. split; auto. rewrite O2, Rabs_R1.
    change 1 with (bpow radix2 0). apply bpow_le. lia. }
  rewrite ES in ES'. injection ES' as <-.
  exists (fun g => printfF (gvecAt Od x g)), xs. split; [|split].
  - apply (only_ext all _ _ _ _ xs) with (3 := OS).
    + intros g h Hg Hh. rewrite V' by auto. reflexivity.
    + intros g Hg. rewrite ON by auto. apply one_val.
  - intros X HX g Hg. destruct (printf_ok _ (FX g Hg)) as (neg & q & TX & Q). exists neg, q. split; auto.
    assert (B : Rabs (val (gvecAt Od x g) - xs g) <= 2 * (INR (flatDim n ds dt dl dO) * bpow radix2 (-44)) * X + 2 * bpow radix2 (-650)).
    { apply (bound_swap all (fun g => val (gvecAt Od x g)) xs); auto.
      - split; [apply Rmult_le_pos; [apply pos_INR|apply bpow_ge_0]|].
        apply Rle_trans with (bpow radix2 20 * bpow radix2 (-44)).
        + apply Rmult_le_compat_r; [apply bpow_ge_0|]. rewrite INR_IZR_INZ.
          change (bpow radix2 20) with (IZR (2 ^ 20)). apply IZR_le. exact HN.
        + rewrite <- bpow_plus. change (/ 2) with (bpow radix2 (-1)). apply bpow_le. lia.
      - apply bpow_ge_0. }
    rewrite Q. pose proof (Znearest_half (fun x => negb (Z.even x)) (B2R (gvecAt Od x g) * 1000000)) as HH.
    rewrite Rabs_minus_sym in HH. set (z := IZR (ZnearestE (B2R (gvecAt Od x g) * 1000000))) in *.
    replace (z / 1000000 - xs g) with ((z - B2R (gvecAt Od x g) * 1000000) / 1000000 + (val (gvecAt Od x g) - xs g))
      by (unfold ieeeVal; field).
    eapply Rle_trans; [apply Rabs_triang|].
    assert (E1 : bpow radix2 (-43) = 2 * bpow radix2 (-44)) by (change 2 with (bpow radix2 1); rewrite <- bpow_plus; reflexivity).
    assert (E2 : bpow radix2 (-649) = 2 * bpow radix2 (-650)) by (change 2 with (bpow radix2 1); rewrite <- bpow_plus; reflexivity).
    assert (B1 : Rabs ((z - B2R (gvecAt Od x g) * 1000000) / 1000000) <= / 2000000).
    { unfold Rdiv. rewrite Rabs_mult, (Rabs_pos_eq (/ 1000000)) by lra. lra. }
    rewrite E1, E2. lra.
  - intros files path prog args Hf HA. destruct (RUN files path prog Hf) as [R1 R2].
    destruct HA as [->|(arg & c & -> & HC & NZ)]; [exact R1|].
    unfold exampleDouble. rewrite (R2 arg c HC). destruct (N.eqb_spec c 0); [contradiction|]. reflexivity.
Qed.
