(** Property C74 for positive definite matrices. *)
From Coq Require Import List Arith Bool NArith ZArith Reals Lra Lia String Ascii Decimal.
From Flocq Require Import Core.Core BinarySingleNaN.
From Verif Require Import Base ModelPerm ModelSparsity ModelSymbolic ModelNumeric ModelArrow ModelReg ModelMtx
  ModelIeee ModelText ModelProgram.
From Verif Require Import SpecSymbolic SpecArrow SpecNumeric SpecArrowNum SpecReg SpecRound SpecFlat SpecDomFloat SpecPosFloat
  SpecMtx SpecText SpecProgram.
From Verif Require Import ExampleData ExampleArrow ExamplePivot ExampleIeee.
From Verif Require Import ProofRound ProofArrowProduct ProofText ProofProgram ProofProgramRun ProofProgramPos.
From Verif Require Import PropMtx PropText PropDomFloat PropPosFloat PropProgram.
Import ListNotations.
Local Open Scope R_scope.
Local Notation fin := (ieeeFinite 53 1024).
Local Notation val := (ieeeVal 53 1024).

(** ** C74 *)

(** In double precision, for a positive definite matrix: the printed numbers are close to
    the exact solution. The number r bounds how many entries the factor has in a row or a
    column. The regularization stays away from the pivots because they are large enough. *)
Theorem C74_prints_the_positive_solution :
  forall pow s n ds dt dl dO text es k lam r,
  arrowDims s ds dt dl dO -> (0 < dt)%nat -> (Z.of_nat (flatDim n ds dt dl dO) <= 2 ^ 20)%Z ->
  mtxText text (totalRows n ds dt dl dO) (totalRows n ds dt dl dO) es ->
  Forall (declaredEntry s n ds dt dl dO) (withValues decimalToDouble es) ->
  Forall (fun e => ~ misreadEntry n ds dt dl dO e) (withValues decimalToDouble es) ->
  let all := allIdx n ds dt dl dO in
  let A := fun g h => fileAt Od (withValues decimalToDouble es) (posOf n ds dt dl g) (posOf n ds dt dl h) in
  let M := fun g h => val (A g h) in
  (forall g h, In g all -> In h all -> fin (A g h)) ->
  (INR r + 1) * (INR r + 1) * bpow radix2 (-47) <= lam <= 1 ->
  positiveBy all M lam ->
  (forall g, In g all -> bpow radix2 (-30) <= lam * M g g /\ M g g <= bpow radix2 200) ->
  arrowBlocks s = Ok k ->
  (forall g, In g all -> (rowCountG k n g <= r)%nat /\ (colCountG k n g <= r)%nat) ->
  let tol := pow (dbl 1 (-52)) (dbl 5 (-3)) in
  fin tol -> val tol <= bpow radix2 (-32) ->
  exists num xs, onlySolution all M (fun _ => 1) xs /\
    (forall g, In g all -> exists neg q, fixedText (num g) neg q /\
       Rabs (IZR (signed neg (Z.of_N q)) / 1000000 - xs g) <=
       / 2000000 + ((INR r + 1) * (INR r + 1) * bpow radix2 (-47) * diagNorm all M xs + bpow radix2 (-699)) /
                   (lam * sqrt (M g g))) /\
    forall files path prog args, files path = Some text ->
      (args = [] \/ exists arg c, args = [arg] /\ countText arg c /\ c <> 0%N) ->
      exampleDouble pow s files (prog :: path :: args) = Exits 0 (unlines (reportLines n ds dt dl dO num)).
Proof. exact @program_double_pos. Qed.
Print Assumptions C74_prints_the_positive_solution.

(** ** examples *)

(** 4 on the diagonal, 3 in the last row and 18 as its last entry: positive definite, but no
    row is dominated by half of its diagonal *)
Definition exPosFile : list (nat * nat * decimal) :=
  map (fun e => let '(r, c, v) := e in (r, c, (false, v, 0%Z)))
    [((0, 0)%nat, 4%N); ((4, 0)%nat, 3%N); ((1, 1)%nat, 4%N); ((4, 1)%nat, 3%N); ((2, 2)%nat, 4%N); ((4, 2)%nat, 3%N);
     ((3, 3)%nat, 4%N); ((4, 3)%nat, 3%N); ((4, 4)%nat, 18%N)].
Definition exPosFileT (g h : gidx) : Z :=
  match g, h with
  | GO _, GO _ => 18
  | GO _, _ | _, GO _ => 3
  | _, _ => if gidx_eq_dec g h then 4 else 0
  end.
Lemma exPosFile_positive : positiveBy (allIdx 1 1 1 1 1) (fun g h => IZR (exPosFileT g h)) (/ 4).
Proof.
  intros z. set (l := allIdx 1 1 1 1 1). vm_compute in l. subst l.
  unfold exPosFileT. cbn [suml fold_right]. change (oadd Or) with Rplus. change (o0 Or) with 0.
  repeat match goal with |- context [gidx_eq_dec ?a ?b] =>
    let e := eval vm_compute in (if gidx_eq_dec a b then true else false) in
    match e with
    | true => destruct (gidx_eq_dec a b) as [_|X]; [|contradiction X; reflexivity]
    | false => destruct (gidx_eq_dec a b) as [X|_]; [discriminate X|]
    end end.
  generalize (z (GS 0)) (z (GT 0 0)) (z (GT 1 0)) (z (GL 0)) (z (GO 0)). intros a b c d e.
  pose proof (Rle_0_sqr (a + e)). pose proof (Rle_0_sqr (b + e)). pose proof (Rle_0_sqr (c + e)).
  pose proof (Rle_0_sqr (d + e)). pose proof (Rle_0_sqr e). unfold Rsqr in *. lra.
Qed.

Example C74_positive_example :
  let text := writeMtx 5 5 exPosFile in
  let es := withValues decimalToDouble exPosFile in
  let all := allIdx 1 1 1 1 1 in
  let A := fun g h => fileAt Od es (posOf 1 1 1 1 g) (posOf 1 1 1 1 h) in
  arrowDims exQA 1 1 1 1 /\ (0 < 1)%nat /\ (Z.of_nat (flatDim 1 1 1 1 1) <= 2 ^ 20)%Z /\
  mtxText text (totalRows 1 1 1 1 1) (totalRows 1 1 1 1 1) exPosFile /\
  Forall (declaredEntry exQA 1 1 1 1 1) es /\ Forall (fun e => ~ misreadEntry 1 1 1 1 1 e) es /\
  (forall g h, In g all -> In h all -> fin (A g h)) /\
  (INR 4 + 1) * (INR 4 + 1) * bpow radix2 (-47) <= / 4 <= 1 /\
  positiveBy all (fun g h => val (A g h)) (/ 4) /\
  ~ dominatedBy gidx_eq_dec all (fun g h => val (A g h)) (/ 2) /\
  (forall g, In g all -> bpow radix2 (-30) <= / 4 * val (A g g) /\ val (A g g) <= bpow radix2 200) /\
  arrowBlocks exQA = Ok exQK /\
  (forall g, In g all -> (rowCountG exQK 1 g <= 4)%nat /\ (colCountG exQK 1 g <= 4)%nat) /\
  (let tol := exPow (dbl 1 (-52)) (dbl 5 (-3)) in fin tol /\ val tol <= bpow radix2 (-32)) /\
  exampleDouble exPow exQA (exFiles text) ["a.out"; "dom.mtx"]%string =
    Exits 0 (unlines ["------ start ------"; "0.416667"; "----- tridiag -----"; "0.416667"; "0.416667";
                      "------ link -------"; "0.416667"; "------ outer ------"; "-0.222222"]%string).
Proof.
  cbv zeta.
  assert (C : zMatrix (allIdx 1 1 1 1 1)
    (fun g h => fileAt Od (withValues decimalToDouble exPosFile) (posOf 1 1 1 1 g) (posOf 1 1 1 1 h)) exPosFileT = true)
    by (vm_compute; reflexivity).
  apply zMatrix_ok in C. destruct C as (C1 & C2).
  split; [exact exQA_dims|]. split; [lia|]. split; [vm_compute; discriminate|].
  split.
  { apply C60_written_files; try reflexivity. intros r c d H. cbn in H.
    repeat (destruct H as [H|H]; [injection H as <- <- _; cbn; lia|]). contradiction. }
  split.
  { entry_in ([(GS 0, GS 0); (GO 0, GS 0); (GT 0 0, GT 0 0); (GO 0, GT 0 0);
      (GT 1 0, GT 1 0); (GO 0, GT 1 0); (GL 0, GL 0); (GO 0, GL 0); (GO 0, GO 0)]). }
  split.
  { unfold exPosFile, withValues. cbn [map]. repeat (apply Forall_cons; [|]); [..|apply Forall_nil];
      intros (g & h & Hg & Hh & E & M); cbn [fst] in E; injection E as E1 E2;
      apply in_allIdx in Hg; apply in_allIdx in Hh;
      destruct g as [i|t i|i|i], h as [j|u j|j|j]; cbn [misread posOf] in *; lia. }
  split; [intros g h Hg Hh; apply (C1 g h Hg Hh)|].
  split.
  { split; [|lra]. replace (INR 4) with 4 by (cbn; lra). apply Rle_trans with (25 * bpow radix2 (-8)); [|cbn; lra].
    replace ((4 + 1) * (4 + 1)) with 25 by ring. apply Rmult_le_compat_l; [lra|]. apply bpow_le. lia. }
  split.
  { intros z. eapply Rle_trans; [|eapply Rle_trans; [apply (exPosFile_positive z)|]]; right.
    - f_equal. apply rsum_ext. intros j Hj. rewrite (proj2 (C1 j j Hj Hj)). reflexivity.
    - apply rsum_ext. intros j Hj. apply rsum_ext. intros k Hk. rewrite (proj2 (C1 j k Hj Hk)). reflexivity. }
  split.
  { intros DOM. assert (H0 : In (GS 0) (allIdx 1 1 1 1 1)) by (vm_compute; auto).
    specialize (DOM (GS 0) H0).
    rewrite (rsum_ext (allIdx 1 1 1 1 1) _ (fun h => if gidx_eq_dec (GS 0) h then 0 else Rabs (IZR (exPosFileT (GS 0) h)))) in DOM
      by (intros h Hh; destruct (gidx_eq_dec (GS 0) h); [|rewrite (proj2 (C1 (GS 0) h H0 Hh))]; reflexivity).
    rewrite (proj2 (C1 (GS 0) (GS 0) H0 H0)) in DOM.
    assert (L : allIdx 1 1 1 1 1 = [GS 0; GT 0 0; GT 1 0; GL 0; GO 0]) by (vm_compute; reflexivity).
    rewrite L in DOM. unfold exPosFileT in DOM. cbn [suml fold_right] in DOM.
    change (oadd Or) with Rplus in DOM. change (o0 Or) with 0 in DOM.
    repeat match type of DOM with context [gidx_eq_dec ?a ?b] =>
      let e := eval vm_compute in (if gidx_eq_dec a b then true else false) in
      match e with
      | true => destruct (gidx_eq_dec a b) as [_|X]; [|contradiction X; reflexivity]
      | false => destruct (gidx_eq_dec a b) as [X|_]; [discriminate X|]
      end end.
    rewrite !Rabs_pos_eq in DOM by lra. lra. }
  split.
  { intros g Hg. split; [|apply C2; auto]. rewrite (proj2 (C1 g g Hg Hg)).
    apply Rle_trans with 1; [change 1 with (bpow radix2 0); apply bpow_le; lia|].
    assert (4 <= exPosFileT g g)%Z.
    { destruct g; cbn [exPosFileT]; try (destruct (gidx_eq_dec _ _) as [_|X]; [|contradiction X; reflexivity]); lia. }
    apply IZR_le in H. lra. }
  split; [exact exQK_ok|].
  split; [apply countCheck_ok; vm_compute; reflexivity|].
  split.
  { split; [reflexivity|]. vm_compute. lra. }
  vm_compute. reflexivity.
Qed.
