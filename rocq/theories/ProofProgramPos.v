(** The example program in double precision prints the solution of positive definite systems. *)
From Coq Require Import List Arith Bool NArith ZArith Reals Lra Lia String Ascii.
From Flocq Require Import Core.Core BinarySingleNaN.
From Verif Require Import Base ModelPerm ModelSparsity ModelSymbolic ModelNumeric ModelArrow ModelReg ModelMtx
  ModelIeee ModelText ModelProgram.
From Verif Require Import SpecSymbolic SpecArrow SpecNumeric SpecArrowNum SpecReg SpecRound SpecFlat SpecDomFloat SpecPosFloat
  SpecMtx SpecText SpecProgram.
From Verif Require Import ProofReg ProofRegReal ProofRound ProofPropText ProofArrowUniq ProofArrowMain ProofMtxSolve
  ProofPosMain ProofPosUser ProofPropPosFloat ProofProgram ProofProgramRun ProofProgramMain.
Import ListNotations.
Local Open Scope R_scope.

Local Notation fin := (ieeeFinite 53 1024).
Local Notation val := (ieeeVal 53 1024).
Local Notation rsum := (suml Or).

(** ** the size of vectors *)
Lemma diagNorm_ext {I} (all : list I) (M N : I -> I -> R) v w :
  (forall g, In g all -> M g g = N g g) -> (forall g, In g all -> v g = w g) -> diagNorm all M v = diagNorm all N w.
Proof. intros HM HV. unfold diagNorm. f_equal. apply rsum_ext. intros g Hg. rewrite HM, HV; auto. Qed.

Lemma diagNorm_triangle {I} (all : list I) (M : I -> I -> R) v w :
  (forall g, In g all -> 0 <= M g g) ->
  diagNorm all M v <= diagNorm all M w + diagNorm all M (fun g => v g - w g).
Proof.
  intros P. unfold diagNorm.
  set (f := fun g => sqrt (M g g) * w g). set (e := fun g => sqrt (M g g) * (v g - w g)).
  assert (Q : forall g, In g all -> sqrt (M g g) * sqrt (M g g) = M g g) by (intros g Hg; apply sqrt_sqrt; auto).
  rewrite (rsum_ext all (fun j => M j j * (w j * w j)) (fun j => f j * f j))
    by (intros g Hg; unfold f; rewrite <- (Q g Hg) at 1; ring).
  rewrite (rsum_ext all (fun j => M j j * ((v j - w j) * (v j - w j))) (fun j => e j * e j))
    by (intros g Hg; unfold e; rewrite <- (Q g Hg) at 1; ring).
  rewrite (rsum_ext all (fun j => M j j * (v j * v j)) (fun j => (f j * f j + e j * e j) + 2 * (f j * e j)))
    by (intros g Hg; unfold e, f; rewrite <- (Q g Hg) at 1; ring).
  rewrite !rsum_plus, rsum_scal.
  pose proof (cauchy all f e) as C.
  assert (F0 : 0 <= rsum all (fun j => f j * f j)) by (apply rsum_pos; intros; apply Rle_0_sqr).
  assert (E0 : 0 <= rsum all (fun j => e j * e j)) by (apply rsum_pos; intros; apply Rle_0_sqr).
  set (a := rsum all (fun j => f j * f j)) in *. set (b := rsum all (fun j => e j * e j)) in *.
  pose proof (sqrt_pos a). pose proof (sqrt_pos b).
  pose proof (sqrt_sqrt a F0) as SA. pose proof (sqrt_sqrt b E0) as SB.
  rewrite <- (sqrt_square (sqrt a + sqrt b)) by lra. apply sqrt_le_1_alt.
  replace ((sqrt a + sqrt b) * (sqrt a + sqrt b)) with (sqrt a * sqrt a + sqrt b * sqrt b + 2 * (sqrt a * sqrt b)) by ring.
  rewrite SA, SB. lra.
Qed.

Lemma diagNorm_entry {I} (all : list I) (M : I -> I -> R) v g :
  (forall g, In g all -> 0 <= M g g) -> In g all -> sqrt (M g g) * Rabs (v g) <= diagNorm all M v.
Proof.
  intros P Hg. unfold diagNorm. rewrite <- sqrt_Rsqr_abs, <- sqrt_mult; [|auto|apply Rle_0_sqr].
  apply sqrt_le_1_alt. unfold Rsqr.
  assert (S : forall l, (forall h, In h l -> 0 <= M h h) -> In g l -> M g g * (v g * v g) <= rsum l (fun j => M j j * (v j * v j))).
  { clear. induction l as [|a l IH]; [intros _ []|]. intros P [->|H]; rewrite rsum_cons.
    - assert (0 <= rsum l (fun j => M j j * (v j * v j))); [|lra].
      apply rsum_pos. intros k Hk. apply Rmult_le_pos; [apply P; right; auto|apply Rle_0_sqr].
    - assert (0 <= M a a * (v a * v a)) by (apply Rmult_le_pos; [apply P; left; auto|apply Rle_0_sqr]).
      assert (M g g * (v g * v g) <= rsum l (fun j => M j j * (v j * v j))) by (apply IH; auto; intros; apply P; right; auto).
      lra. }
  apply S; auto.
Qed.

(** a bound in terms of the computed solution as one in terms of the exact solution *)
Lemma norm_swap e X Y c b lam : 0 < lam -> 0 <= c -> 2 * c <= lam -> 0 <= e -> 0 <= X -> 0 <= b ->
  Y <= X + e -> e <= (c * Y + b) / lam -> e <= (2 * c * X + 2 * b) / lam.
Proof.
  intros L C0 C E X0 B0 HY H. apply Rmult_le_reg_r with lam; auto. unfold Rdiv. rewrite Rmult_assoc, Rinv_l, Rmult_1_r by lra.
  apply (Rmult_le_compat_r lam) in H; [|lra]. unfold Rdiv in H. rewrite Rmult_assoc, Rinv_l, Rmult_1_r in H by lra.
  assert (c * Y <= c * (X + e)) by (apply Rmult_le_compat_l; auto).
  assert (2 * c * e <= lam * e) by (apply Rmult_le_compat_r; auto). lra.
Qed.

Theorem program_double_pos pow s n ds dt dl dO text es k lam r :
  arrowDims s ds dt dl dO -> (0 < dt)%nat -> (Z.of_nat (flatDim n ds dt dl dO) <= 2 ^ 20)%Z ->
  mtxText text (totalRows n ds dt dl dO) (totalRows n ds dt dl dO) es ->
  Forall (declaredEntry s n ds dt dl dO) (withValues decimalToDouble es) ->
  Forall (fun e => ~ misreadEntry n ds dt dl dO e) (withValues decimalToDouble es) ->
  let all := allIdx n ds dt dl dO in
  let A := fun g h => fileAt Od (withValues decimalToDouble es) (posOf n ds dt dl g) (posOf n ds dt dl h) in
  let M := fun g h => val (A g h) in
  (forall g h, In g all -> In h all -> fin (A g h)) ->
  (INR r + 1) * (INR r + 1) * bpow radix2 (-47) <= lam <= 1 ->
  positiveBy all M lam ->
  (forall g, In g all -> bpow radix2 (-30) <= lam * M g g /\ M g g <= bpow radix2 200) ->
  arrowBlocks s = Ok k ->
  (forall g, In g all -> (rowCountG k n g <= r)%nat /\ (colCountG k n g <= r)%nat) ->
  let tol := pow (dbl 1 (-52)) (dbl 5 (-3)) in
  fin tol -> val tol <= bpow radix2 (-32) ->
  exists num xs, onlySolution all M (fun _ => 1) xs /\
    (forall g, In g all -> exists neg q, fixedText (num g) neg q /\
       Rabs (IZR (signed neg (Z.of_N q)) / 1000000 - xs g) <=
       / 2000000 + ((INR r + 1) * (INR r + 1) * bpow radix2 (-47) * diagNorm all M xs + bpow radix2 (-699)) /
                   (lam * sqrt (M g g))) /\
    forall files path prog args, files path = Some text ->
      (args = [] \/ exists arg c, args = [arg] /\ countText arg c /\ c <> 0%N) ->
      exampleDouble pow s files (prog :: path :: args) = Exits 0 (unlines (reportLines n ds dt dl dO num)).
Proof.
  intros AD P HN T D Mi all A M FA HL PD RNG Hk CN tol FT VT.
  destruct (program_runs Od (dbl 1 0) decimalToDouble printfF
              (regularizationSmallPositiveConstant (doubleFns pow)) s n ds dt dl dO text es AD P T D Mi)
    as (m & k' & d0 & d & rhs & x & ER & Ek & _ & D0 & EF & VR & ON & ES & VX & RUN).
  rewrite Hk in Ek. injection Ek as <-.
  destruct (text_stores Od decimalToDouble s n ds dt dl dO text es AD P T D Mi) as (m' & ER' & IA & DA & V).
  rewrite ER in ER'. injection ER' as <-.
  assert (V' : forall g h, In g all -> In h all -> matAt Od (ma_mat m) (mtxVals m) g h = A g h) by exact V.
  assert (R47 : 0 < bpow radix2 (-47)) by apply bpow_gt_0.
  pose proof (pos_INR r) as R0.
  assert (L0 : 0 < lam).
  { eapply Rlt_le_trans; [|apply HL]. apply Rmult_lt_0_compat; auto. apply Rmult_lt_0_compat; lra. }
  assert (MP : forall g, In g all -> bpow radix2 (-30) <= M g g).
  { intros g Hg. destruct (RNG g Hg) as [R1 _]. pose proof (bpow_gt_0 radix2 (-30)).
    assert (0 < M g g) by (apply Rmult_lt_reg_l with lam; lra).
    assert (lam * M g g <= 1 * M g g) by (apply Rmult_le_compat_r; lra). lra. }
  assert (M0 : forall g, In g all -> 0 < M g g).
  { intros g Hg. eapply Rlt_le_trans; [apply (bpow_gt_0 radix2 (-30))|apply MP; auto]. }
  assert (M0' : forall g, In g all -> 0 <= M g g) by (intros; apply Rlt_le; auto).
  destruct (arrow_pos_double UpLooking s ds dt dl dO k n (ma_mat m) (mtxVals m) lam r HN HL AD Hk IA DA) with (d0 := d0)
    as (d' & EF' & _ & GP & SOL); auto.
  { intros g h Hg Hh. rewrite V' by auto. auto. }
  { apply (positiveBy_ext all M); auto. intros g h Hg Hh. rewrite V' by auto. reflexivity. }
  { intros g Hg. rewrite V' by auto. split; [|apply RNG; auto].
    eapply Rle_trans; [|apply MP; auto]. apply bpow_le. lia. }
  assert (d' = d).
  { enough (Ok d' = Ok d) by congruence. rewrite <- EF. symmetry.
    apply (arrow_inactive Od UpLooking s ds dt dl dO k n (ma_mat m) (mtxVals m)); auto.
    intros g Hg. destruct (GP g Hg) as (F1 & [F2 _] & F3). apply small_off; auto.
    rewrite Rabs_pos_eq by lra.
    pose proof (permIdx_in s n ds dt dl dO AD g Hg) as Hp. rewrite V' in F2 by auto.
    destruct (RNG _ Hp) as [R1 _]. eapply Rle_trans; [|exact F2].
    fold (M (permIdx s g) (permIdx s g)).
    assert (bpow radix2 (-30) = 4 * bpow radix2 (-32)) by (change 4 with (bpow radix2 2); rewrite <- bpow_plus; reflexivity).
    lra. }
  subst d'. destruct (SOL rhs VR) as (x' & ES' & _ & FX & xs & OS & EB).
  { intros g Hg. rewrite ON by auto. destruct one_val as [O1 O2]. split; auto. rewrite O2, Rabs_R1.
    change 1 with (bpow radix2 0). apply bpow_le. lia. }
  rewrite ES in ES'. injection ES' as <-.
  exists (fun g => printfF (gvecAt Od x g)), xs. split; [|split].
  - apply (only_ext all _ _ _ _ xs) with (3 := OS).
    + intros g h Hg Hh. rewrite V' by auto. reflexivity.
    + intros g Hg. rewrite ON by auto. apply one_val.
  - intros g Hg. destruct (printf_ok _ (FX g Hg)) as (neg & q & TX & Q). exists neg, q. split; auto.
    pose (X := fun g => val (gvecAt Od x g)).
    pose (MM := fun g h => val (matAt Od (ma_mat m) (mtxVals m) g h)).
    assert (EM : forall h, In h all -> MM h h = M h h) by (intros h Hh; unfold MM; rewrite V'; auto).
    change (diagNorm all MM (fun g => X g - xs g) <=
            ((INR r + 1) * (INR r + 1) * bpow radix2 (-48) * diagNorm all MM X + bpow radix2 (-700)) / lam) in EB.
    rewrite (diagNorm_ext all MM M _ (fun g => X g - xs g)) in EB by auto.
    rewrite (diagNorm_ext all MM M _ X) in EB by auto.
    assert (E47 : bpow radix2 (-47) = 2 * bpow radix2 (-48)) by (change 2 with (bpow radix2 1); rewrite <- bpow_plus; reflexivity).
    assert (E699 : bpow radix2 (-699) = 2 * bpow radix2 (-700)) by (change 2 with (bpow radix2 1); rewrite <- bpow_plus; reflexivity).
    assert (B : diagNorm all M (fun g => X g - xs g) <=
                ((INR r + 1) * (INR r + 1) * bpow radix2 (-47) * diagNorm all M xs + bpow radix2 (-699)) / lam).
    { rewrite E47 in HL |- *. rewrite E699.
      replace ((INR r + 1) * (INR r + 1) * (2 * bpow radix2 (-48))) with (2 * ((INR r + 1) * (INR r + 1) * bpow radix2 (-48))) in * by ring.
      apply (norm_swap _ _ (diagNorm all M X)); auto; try apply sqrt_pos; try apply bpow_ge_0; try apply HL.
      - repeat apply Rmult_le_pos; try apply bpow_ge_0; lra.
      - apply diagNorm_triangle; auto. }
    assert (B2 : Rabs (X g - xs g) <= ((INR r + 1) * (INR r + 1) * bpow radix2 (-47) * diagNorm all M xs + bpow radix2 (-699)) / (lam * sqrt (M g g))).
    { pose proof (sqrt_lt_R0 _ (M0 g Hg)) as S0. apply Rmult_le_reg_l with (sqrt (M g g)); auto.
      eapply Rle_trans; [apply (diagNorm_entry all M (fun g => X g - xs g)); auto|].
      eapply Rle_trans; [exact B|]. right. field. split; lra. }
    rewrite Q. pose proof (Znearest_half (fun x => negb (Z.even x)) (B2R (gvecAt Od x g) * 1000000)) as HH.
    rewrite Rabs_minus_sym in HH. set (z := IZR (ZnearestE (B2R (gvecAt Od x g) * 1000000))) in *.
    replace (z / 1000000 - xs g) with ((z - B2R (gvecAt Od x g) * 1000000) / 1000000 + (X g - xs g))
      by (unfold X, ieeeVal; field).
    eapply Rle_trans; [apply Rabs_triang|].
    assert (B1 : Rabs ((z - B2R (gvecAt Od x g) * 1000000) / 1000000) <= / 2000000).
    { unfold Rdiv. rewrite Rabs_mult, (Rabs_pos_eq (/ 1000000)) by lra. lra. }
    lra.
  - intros files path prog args Hf HA. destruct (RUN files path prog Hf) as [R1 R2].
    destruct HA as [->|(arg & c & -> & HC & NZ)]; [exact R1|].
    unfold exampleDouble. rewrite (R2 arg c HC). destruct (N.eqb_spec c 0); [contradiction|]. reflexivity.
Qed.
