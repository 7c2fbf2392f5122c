(** What the example programs with fixed matrices print. *)
From Coq Require Import List Arith Bool NArith ZArith QArith Qabs Qcanon Lia String.
From Flocq Require Import Core.Core BinarySingleNaN.
From Verif Require Import Base ModelPerm ModelSparsity ModelSymbolic ModelNumeric ModelArrow ModelReg ModelMtx
  ModelIeee ModelText ModelProgram ModelExamples.
From Verif Require Import SpecSymbolic SpecArrow SpecNumeric SpecArrowNum SpecMtx SpecText SpecProgram SpecExamples ExampleData ExampleArrow.
From Verif Require Import ProofExact ProofLdl ProofMixed ProofSmall PropSingle ProofPropSingle ProofRoundMain ProofProgramRun ProofExamples.
Import ListNotations.
Local Open Scope nat_scope.

(** ** computed solutions *)

Definition triResult {F} (O : ops F) reg a b p n A B rhs : list F :=
  match (let* k := tridiagonalBlocks a b p in
         let* d := arrowCtor O k n in
         let* d := tridiagonalFactorize O UpLooking k (nrows a) A B reg d in
         tridiagonalSolveInPlace O k d rhs) with
  | Ok x => List.concat x
  | Err _ => []
  end.

Lemma tri_result {F} (O : ops F) print reg a b p dt n wA wB rhs nF nS :
  spOf_check a dt dt = true -> spOf_check b dt dt = true -> (List.length p =? dt) && nodupb p && forallb (fun x => x <? dt) p = true ->
  List.length wA = n + 1 -> List.length wB = n ->
  (forall w, In w wA -> List.length w = List.length (entries a)) ->
  (forall w, In w wB -> List.length w = List.length (entries b)) ->
  List.length rhs = n + 1 -> (forall v, In v rhs -> List.length v = dt) ->
  nF <> 0%N -> nS <> 0%N ->
  runTridiagonal O print reg a b p n (map (fixedMat a) wA) (map (fixedMat b) wB) rhs nF nS =
  Ok (unlines (map print (triResult O reg a b p n (map (fixedMat a) wA) (map (fixedMat b) wB) rhs))).
Proof.
  intros SA SB HP LA LB HA HB LR HR NF NS.
  apply spOf_check_ok in SA. apply spOf_check_ok in SB. 
  assert (VP : validPerm dt p) by (apply validPerm_check; auto).
  destruct (fixed_tri O a b dt n wA wB SA SB LA LB HA HB) as [IT DT].
  destruct (tri_program O print reg a b p dt n _ _ wA wB rhs nF nS SA SB VP IT DT) as (k & d0 & d & x & E1 & E2 & E3 & E4 & _ & ->); auto.
  - split; auto. intros t Ht. apply HR, nth_In. lia.
  - do 3 f_equal. unfold triResult. rewrite E1. cbn [bind]. rewrite E2. cbn [bind].
    assert (EN : nrows a = dt) by apply SA. rewrite EN, E3. cbn [bind]. rewrite E4. reflexivity.
Qed.

(** ** checks *)

Definition closeb (tol : Q) (x : ieee 53 1024) (v : Qc) : bool :=
  is_finite x &&
  Qle_bool (Qabs (inject_Z (SpecText.signed (fst (printed x)) (Z.of_N (snd (printed x)))) - 1000000 * this v)) tol.
Lemma closeb_ok tol x v : closeb tol x v = true -> printsClose (printfF x) v tol.
Proof.
  unfold closeb. rewrite andb_true_iff. intros [H1 H2].
  exists (fst (printed x)), (snd (printed x)). split; [apply printed_text; auto|]. apply Qle_bool_iff. auto.
Qed.

Definition eqQ (a b : Qc) : bool := Qc_eq_bool a b.
Lemma eqQ_ok a b : eqQ a b = true -> a = b.
Proof. apply Qc_eq_bool_correct. Qed.

(** ** example_tridiagonal *)

Definition triWA := repeat tridiagonalValuesA 20.
Definition triWB := repeat tridiagonalValuesB 19.
Definition triM (r c : nat * nat) : Qc :=
  doubleQ (triMatAt Od (repeat (fixedMat tridiagonalA tridiagonalValuesA) 20)
    (repeat (fixedMat tridiagonalB tridiagonalValuesB) 19) triWA triWB (fst r) (snd r) (fst c) (snd c)).
(** the number of a row, from 1 *)
Definition triPos (r : nat * nat) : Z := Z.of_nat (3 * fst r + snd r + 1).
Definition triExact (r : nat * nat) : Qc := Q2Qc (triPos r * (61 - triPos r) # 2).
Definition triRows : list (nat * nat) := list_prod (seq 0 20) (seq 0 3).
Definition pair_dec : forall a b : nat * nat, {a = b} + {a <> b}.
Proof. decide equality; apply Nat.eq_dec. Defined.

(** second differences *)
Definition secDiff (a b : nat) : Qc :=
  if a =? b then Q2Qc 2 else if (a + 1 =? b) || (b + 1 =? a) then Q2Qc (-1) else 0%Qc.
Lemma sum_zero l (f : nat -> Qc) : (forall a, In a l -> f a = 0%Qc) -> suml Oq l f = 0%Qc.
Proof.
  induction l as [|a l IH]; intros H; [reflexivity|]. rewrite sumQ_cons, IH, H; [ring|left; auto|].
  intros b Hb. apply H. right. auto.
Qed.
Lemma secDiff_sum n h (w : nat -> Qc) : 1 <= h <= n -> w 0 = 0%Qc -> w (n + 1) = 0%Qc ->
  suml Oq (seq 1 n) (fun a => w a * secDiff a h)%Qc = (Q2Qc 2 * w h - w (h - 1)%nat - w (h + 1)%nat)%Qc.
Proof.
  intros Hh W0 WN.
  assert (E : suml Oq (seq 0 (n + 2)) (fun a => w a * secDiff a h)%Qc = suml Oq (seq 1 n) (fun a => w a * secDiff a h)%Qc).
  { replace (n + 2) with (1 + (n + 1)) by lia. rewrite seq_app. cbn [seq Nat.add app]. rewrite sumQ_cons, W0.
    rewrite seq_app. rewrite (suml_app Oq FLq). cbn [seq]. rewrite sumQ_cons, sumQ_nil.
    replace (1 + n) with (n + 1) by lia. rewrite WN. change (oadd Oq) with Qcplus. ring. }
  rewrite <- E. replace (n + 2) with ((h - 1) + (3 + (n - h))) by lia.
  rewrite seq_app, (suml_app Oq FLq), seq_app, (suml_app Oq FLq). cbn [seq Nat.add]. rewrite !sumQ_cons, sumQ_nil.
  rewrite (sum_zero (seq 0 (h - 1))), (sum_zero (seq (h - 1 + 3) (n - h))).
  - replace (S (h - 1)) with h by lia. replace (S h) with (h + 1) by lia.
    unfold secDiff. rewrite Nat.eqb_refl.
    replace (h - 1 =? h) with false by (symmetry; apply Nat.eqb_neq; lia).
    replace (h - 1 + 1 =? h) with true by (symmetry; apply Nat.eqb_eq; lia).
    replace (h + 1 =? h) with false by (symmetry; apply Nat.eqb_neq; lia).
    replace (h + 1 + 1 =? h) with false by (symmetry; apply Nat.eqb_neq; lia).
    rewrite Nat.eqb_refl. cbn [orb]. change (oadd Oq) with Qcplus.
    replace (Q2Qc (-1)) with (- (1))%Qc by (apply Qc_is_canon; reflexivity). ring.
  - intros a Ha. apply in_seq in Ha. unfold secDiff.
    replace (a =? h) with false by (symmetry; apply Nat.eqb_neq; lia).
    replace (a + 1 =? h) with false by (symmetry; apply Nat.eqb_neq; lia).
    replace (h + 1 =? a) with false by (symmetry; apply Nat.eqb_neq; lia). cbn [orb]. ring.
  - intros a Ha. apply in_seq in Ha. unfold secDiff.
    replace (a =? h) with false by (symmetry; apply Nat.eqb_neq; lia).
    replace (a + 1 =? h) with false by (symmetry; apply Nat.eqb_neq; lia).
    replace (h + 1 =? a) with false by (symmetry; apply Nat.eqb_neq; lia). cbn [orb]. ring.
Qed.

Definition triNo (r : nat * nat) : nat := 3 * fst r + snd r + 1.
Lemma tri_matrix r c : In r triRows -> In c triRows -> triM r c = secDiff (triNo r) (triNo c).
Proof.
  intros Hr Hc.
  assert (C : forallb (fun r => forallb (fun c => eqQ (triM r c) (secDiff (triNo r) (triNo c))) triRows) triRows = true)
    by (vm_compute; reflexivity).
  rewrite forallb_forall in C. specialize (C r Hr). rewrite forallb_forall in C. apply eqQ_ok. exact (C c Hc).
Qed.
Lemma tri_numbers : map triNo triRows = seq 1 60.
Proof. reflexivity. Qed.
Lemma tri_sum (w : nat -> Qc) h : In h triRows -> w 0 = 0%Qc -> w 61 = 0%Qc ->
  suml Oq triRows (fun k => w (triNo k) * triM k h)%Qc =
  (Q2Qc 2 * w (triNo h) - w (triNo h - 1)%nat - w (triNo h + 1)%nat)%Qc.
Proof.
  intros Hh W0 W1. transitivity (suml Oq (map triNo triRows) (fun a => w a * secDiff a (triNo h))%Qc).
  - rewrite (suml_map Oq). apply sumQ_ext. intros k Hk. rewrite tri_matrix; auto.
  - rewrite tri_numbers. apply (secDiff_sum 60); auto.
    pose proof (in_map triNo _ _ Hh) as H. rewrite tri_numbers in H. apply in_seq in H. lia.
Qed.
Lemma secDiff_sym a b : secDiff a b = secDiff b a.
Proof. unfold secDiff. rewrite (Nat.eqb_sym b a). destruct (a =? b); auto. rewrite orb_comm. reflexivity. Qed.

(** 61 times the inverse *)
Definition triWeight (g a : nat) : Qc := Q2Qc (inject_Z (Z.of_nat (Nat.min g a) * (61 - Z.of_nat (Nat.max g a)))).
Definition triSol (a : nat) : Qc := Q2Qc (Z.of_nat a * (61 - Z.of_nat a) # 2).

Lemma tri_only : onlySolutionQ triRows triM (fun _ => 1%Qc) triExact.
Proof.
  apply (inverse_only triRows pair_dec triM (fun g k => triWeight (triNo g) (triNo k)) (Q2Qc 61)).
  - unfold triRows. assert (N : forall l m : list nat, NoDup l -> NoDup m -> NoDup (list_prod l m)).
    { clear. induction l as [|a l IH]; intros m Hl Hm; [constructor|]. inversion_clear Hl as [|? ? NI ND]. cbn [list_prod].
      assert (N2 : NoDup (list_prod l m)) by auto. revert N2. assert (N1 : forall y, In y (map (pair a) m) -> ~ In y (list_prod l m)).
      { intros y Hy H. apply in_map_iff in Hy. destruct Hy as (z & <- & _). apply in_prod_iff in H. tauto. }
      revert N1. generalize (list_prod l m) as r. clear - Hm. induction Hm as [|z m NZ Hm IH]; intros r N1 N2; cbn; auto.
      constructor; [|apply IH; auto; intros y Hy; apply N1; right; auto].
      rewrite in_app_iff. intros [H|H]; [|apply (N1 (a, z)); [left|]; auto].
      apply in_map_iff in H. destruct H as (w & E & H). congruence. }
    apply N; apply seq_NoDup.
  - discriminate.
  - intros g h Hg Hh. 
    assert (NG : 1 <= triNo g <= 60).
    { pose proof (in_map triNo _ _ Hg) as H. rewrite tri_numbers in H. apply in_seq in H. lia. }
    rewrite (tri_sum (triWeight (triNo g))); auto.
    + assert (C : forallb (fun g => forallb (fun h => eqQ (Q2Qc 2 * triWeight (triNo g) (triNo h) -
        triWeight (triNo g) (triNo h - 1)%nat - triWeight (triNo g) (triNo h + 1)%nat)%Qc
        (if pair_dec g h then Q2Qc 61 else 0%Qc)) triRows) triRows = true) by (vm_compute; reflexivity).
      rewrite forallb_forall in C. specialize (C g Hg). rewrite forallb_forall in C. apply eqQ_ok. exact (C h Hh).
    + unfold triWeight. rewrite Nat.min_0_r. reflexivity.
    + unfold triWeight. replace (Nat.max (triNo g) 61) with 61 by lia. rewrite Z.mul_0_r. reflexivity.
  - intros g Hg. transitivity (suml Oq triRows (fun k => triSol (triNo k) * triM k g)%Qc).
    + apply sumQ_ext. intros k Hk. rewrite !tri_matrix by auto. rewrite secDiff_sym, Qcmult_comm. reflexivity.
    + rewrite (tri_sum triSol) by (auto; apply eqQ_ok; reflexivity).
      assert (C : forallb (fun h => eqQ (Q2Qc 2 * triSol (triNo h) - triSol (triNo h - 1)%nat - triSol (triNo h + 1)%nat)%Qc
        1%Qc) triRows = true) by (vm_compute; reflexivity).
      rewrite forallb_forall in C. apply eqQ_ok. exact (C g Hg).
Qed.

Definition triX : list (ieee 53 1024) :=
  triResult Od regularizationNone tridiagonalA tridiagonalB (iota_perm 3) 19
    (map (fixedMat tridiagonalA) triWA) (map (fixedMat tridiagonalB) triWB) (repeat (repeat (dbl 1 0) 3) 20).
Lemma tri_close : forallb (fun r => closeb 0 (nth (3 * fst r + snd r) triX (dbl 0 0)) (triExact r)) triRows = true.
Proof. vm_compute. reflexivity. Qed.

Ltac lengths := intros ? H; apply repeat_spec in H; subst; reflexivity.

Lemma tri_prints : exists lines, exampleTridiagonalMain = Ok (unlines lines) /\ List.length lines = 60 /\
  forall r, In r triRows -> printsClose (nth (3 * fst r + snd r) lines ""%string) (triExact r) 0.
Proof.
  exists (map printfF triX). split; [|split].
  - unfold exampleTridiagonalMain, exampleTridiagonal.
    change (repeat (fixedMat tridiagonalA tridiagonalValuesA) 20) with (map (fixedMat tridiagonalA) triWA).
    change (repeat (fixedMat tridiagonalB tridiagonalValuesB) 19) with (map (fixedMat tridiagonalB) triWB).
    apply (tri_result Od printfF regularizationNone tridiagonalA tridiagonalB (iota_perm 3) 3 19 triWA triWB);
      try reflexivity; try lengths; discriminate.
  - rewrite map_length. vm_compute. reflexivity.
  - intros r Hr. pose proof tri_close as C. rewrite forallb_forall in C. specialize (C r Hr).
    apply closeb_ok in C. rewrite (nth_indep _ _ (printfF (dbl 0 0))); [rewrite map_nth; exact C|].
    rewrite map_length. change (List.length triX) with (List.length triX). 
    replace (List.length triX) with 60 by (vm_compute; reflexivity).
    unfold triRows in Hr. destruct r as [t i]. apply in_prod_iff in Hr. rewrite !in_seq in Hr. cbn [fst snd]. lia.
Qed.

(** ** example_lfat5 *)

Definition singleResult {F} (O : ops F) reg s p values rhs : list F :=
  match (let* b := factorizationBlk s p in
         let* LD := factorize O UpLooking b (Some (fixedMat s values)) reg
                      (repeat (o0 O) (c_nnz (b_sp b)), repeat (o0 O) (nrows s)) in
         solveInPlace O b LD rhs) with
  | Ok x => x
  | Err _ => []
  end.

Lemma single_result {F} (O : ops F) print reg s p n values rhs b L0 D0 :
  spOf s n n -> validPerm n p -> List.length values = List.length (entries s) -> List.length rhs = n ->
  factorizationBlk s p = Ok b -> List.length L0 = c_nnz (b_sp b) -> List.length D0 = n ->
  exists L D x, factorize O UpLooking b (Some (fixedMat s values)) reg (L0, D0) = Ok (L, D) /\
    solveInPlace O b (L, D) rhs = Ok x /\ List.length x = n /\ x = singleResult O reg s p values rhs /\
    runSingle O print reg s p values rhs (L0, D0) = Ok (unlines (map print x)).
Proof.
  intros SP VP LV LR EB N1 N2.
  destruct (fixed_input O s n n values SP LV) as [_ IO].
  assert (CV : coveredSym (entries s) (entries s) n p) by (apply declared_is_covered; auto).
  destruct (reuse O UpLooking s n p s values (fixedMat s values) reg b L0 D0 (repeat (o0 O) (c_nnz (b_sp b))) (repeat (o0 O) n))
    as (L & D & NL & ND & E1 & E2); rewrite ?repeat_length; auto.
  destruct (single_any O s n p SP VP) as (b' & EB' & _ & HS). rewrite EB in EB'. injection EB' as <-.
  destruct (HS L D rhs NL ND LR) as (x & ES & LX). exists L, D, x. split; auto. split; auto. split; auto. split.
  - unfold singleResult. rewrite EB. cbn [bind]. assert (EN : nrows s = n) by apply SP. rewrite EN, E2. cbn [bind].
    rewrite ES. reflexivity.
  - unfold runSingle. rewrite EB. cbn [bind]. rewrite E1. cbn [bind]. rewrite ES. cbn [bind].
    rewrite printLines_unlines. reflexivity.
Qed.

Definition lfat5M (i j : nat) : Qc := doubleQ (symAt Od (entries lfat5Sparsity) lfat5Values i j).

Lemma lfat5_sp : spOf lfat5Sparsity 14 14.
Proof. apply spOf_check_ok. reflexivity. Qed.
Lemma lfat5_perm : validPerm 14 lfat5Perm.
Proof. apply validPerm_check. reflexivity. Qed.

Definition lfat5X : list (ieee 53 1024) :=
  singleResult Od regularizationNone lfat5Sparsity lfat5Perm lfat5Values (repeat (dbl 1 0) 14).

Lemma lfat5_checks :
  match factorizationBlk lfat5Sparsity lfat5Perm with
  | Ok b =>
      match factorize Oq UpLooking b (Some (fixedMat lfat5Sparsity (map doubleQ lfat5Values))) regularizationNone
              (repeat 0%Qc (c_nnz (b_sp b)), repeat 0%Qc 14) with
      | Ok (L, D) =>
          forallb (fun k => negb (eqQ (vecAt Oq D k) 0%Qc)) (seq 0 14) &&
          match solveInPlace Oq b (L, D) (repeat 1%Qc 14) with
          | Ok E => let X := lfat5X in
              forallb (fun i => closeb (1 # 2) (nth i X (dbl 0 0)) (nth i E 0%Qc)) (seq 0 14)
          | Err _ => false
          end
      | Err _ => false
      end
  | Err _ => false
  end = true.
Proof. vm_compute. reflexivity. Qed.

Lemma lfat5_exact : exists E : list Qc,
  onlySolutionQ (seq 0 14) lfat5M (fun _ => 1%Qc) (fun i => nth i E 0%Qc) /\
  forall i, i < 14 -> closeb (1 # 2) (nth i lfat5X (dbl 0 0)) (nth i E 0%Qc) = true.
Proof.
  pose proof lfat5_checks as C. destruct (factorizationBlk lfat5Sparsity lfat5Perm) as [b|] eqn:EB; [|discriminate C].
  destruct (factorize _ _ _ _ _ _) as [[L D]|] eqn:EF in C; [|discriminate C].
  apply andb_true_iff in C. destruct C as [C1 C2]. rewrite forallb_forall in C1.
  destruct (fixed_input Oq lfat5Sparsity 14 14 (map doubleQ lfat5Values) lfat5_sp (map_length _ _)) as [_ IO].
  destruct (solves_none Oq FLq UpLooking lfat5Sparsity 14 lfat5Perm lfat5Sparsity _ _ b _ _ L D (repeat 1%Qc 14)
    lfat5_sp lfat5_perm EB lfat5_sp IO (declared_is_covered _ _ _ _ lfat5_perm (fun r c H _ => H)) (repeat_length _ _) (repeat_length _ _) EF) as (x & E1 & LX & HX & UX).
  - intros k Hk E. specialize (C1 k). rewrite in_seq in C1. assert (T : negb (eqQ (vecAt Oq D k) 0%Qc) = true) by (apply C1; lia).
    rewrite E in T. discriminate T.
  - apply repeat_length.
  - rewrite E1 in C2. cbv zeta in C2. rewrite forallb_forall in C2. exists x. split.
    + assert (MV : forall y i, matVec Oq 14 (symAt Oq (entries lfat5Sparsity) (map doubleQ lfat5Values)) y i =
        suml Oq (seq 0 14) (fun j => lfat5M i j * vecAt Oq y j)%Qc).
      { intros y i. unfold matVec. rewrite <- (suml_seq Oq FLq). apply sumQ_ext. intros j _.
        rewrite (symAt_map Od Oq doubleQ eq_refl). reflexivity. }
      assert (R1 : forall i, i < 14 -> vecAt Oq (repeat 1%Qc 14) i = 1%Qc).
      { intros i Hi. unfold vecAt. rewrite (nth_indep _ _ 1%Qc) by (rewrite repeat_length; auto). apply nth_repeat. }
      split.
      * intros g Hg. apply in_seq in Hg. specialize (HX g). rewrite MV, R1 in HX by lia. apply HX. lia.
      * intros ys Hy g Hg. apply in_seq in Hg.
        assert (VY : forall j, j < 14 -> vecAt Oq (map ys (seq 0 14)) j = ys j).
        { intros j Hj. unfold vecAt. rewrite (nth_indep _ _ (ys 0)) by (rewrite map_length, seq_length; auto).
          rewrite map_nth, seq_nth; auto. }
        assert (E : map ys (seq 0 14) = x).
        { apply UX; [rewrite map_length, seq_length; auto|]. intros i Hi. rewrite MV, R1 by auto.
          rewrite <- (Hy i) by (apply in_seq; lia). apply sumQ_ext. intros j Hj. apply in_seq in Hj. rewrite VY by lia. reflexivity. }
        rewrite <- E. rewrite <- (VY g) by lia. reflexivity.
    + intros i Hi. apply C2. apply in_seq. lia.
Qed.

Lemma lfat5_prints b L0 D0 : factorizationBlk lfat5Sparsity lfat5Perm = Ok b ->
  List.length L0 = c_nnz (b_sp b) -> List.length D0 = 14 ->
  exists lines, exampleLfat5Main (L0, D0) = Ok (unlines lines) /\ List.length lines = 14 /\
    exists xs, onlySolutionQ (seq 0 14) lfat5M (fun _ => 1%Qc) xs /\
      forall i, i < 14 -> printsClose (nth i lines ""%string) (xs i) (1 # 2).
Proof.
  intros EB N1 N2.
  destruct (single_result Od printfF regularizationNone lfat5Sparsity lfat5Perm 14 lfat5Values (repeat (dbl 1 0) 14) b L0 D0
    lfat5_sp lfat5_perm eq_refl (repeat_length _ _) EB N1 N2) as (L & D & x & _ & _ & LX & EX & ER).
  exists (map printfF x). split; [exact ER|]. split; [rewrite map_length; auto|].
  destruct lfat5_exact as (E & HE & C). exists (fun i => nth i E 0%Qc). split; [exact HE|]. intros i Hi.
  rewrite (nth_indep _ _ (printfF (dbl 0 0))) by (rewrite map_length, LX; auto). rewrite map_nth. apply closeb_ok.
  replace x with lfat5X by (symmetry; exact EX). apply C. auto.
Qed.

(** ** example_nos4 *)

Definition number (l : string) : Prop := exists neg q, fixedText l neg q.
Lemma numbers xs : forallb (@is_finite 53 1024) xs = true -> Forall number (map printfF xs).
Proof.
  rewrite forallb_forall. intros H. apply Forall_forall. intros l Hl. apply in_map_iff in Hl.
  destruct Hl as (x & <- & Hx). eexists. eexists. apply printed_text. auto.
Qed.

Definition nos4WA := repeat nos4ValuesA 9 ++ [nos4ValuesLast].
Definition nos4WB := repeat nos4ValuesB 9.
Definition nos4X : list (ieee 53 1024) :=
  triResult Od regularizationNone nos4A nos4B [7; 8; 0; 4; 3; 2; 6; 5; 9; 1] 9
    (map (fixedMat nos4A) nos4WA) (map (fixedMat nos4B) nos4WB) (repeat (repeat (dbl 1 0) 10) 10).
Lemma nos4_finite : (let X := nos4X in (List.length X =? 100) && forallb is_finite X) = true.
Proof. vm_compute. reflexivity. Qed.
Lemma nos4_prints : exists lines, exampleNos4Main = Ok (unlines lines) /\ List.length lines = 100 /\
  Forall number lines.
Proof.
  pose proof nos4_finite as C. cbv zeta in C. apply andb_true_iff in C. destruct C as [C1 C2]. apply Nat.eqb_eq in C1.
  exists (map printfF nos4X). split; [|split; [rewrite map_length; auto|apply numbers; auto]].
  unfold exampleNos4Main, exampleNos4.
  change (repeat (fixedMat nos4A nos4ValuesA) 9 ++ [fixedMat nos4A nos4ValuesLast]) with (map (fixedMat nos4A) nos4WA).
  change (repeat (fixedMat nos4B nos4ValuesB) 9) with (map (fixedMat nos4B) nos4WB).
  apply (tri_result Od printfF regularizationNone nos4A nos4B [7; 8; 0; 4; 3; 2; 6; 5; 9; 1] 10 9 nos4WA nos4WB).
  1-5: reflexivity.
  - intros w H. unfold nos4WA in H. apply in_app_or in H. destruct H as [H|[<-|[]]]; [|reflexivity].
    apply repeat_spec in H. subst w. reflexivity.
  - lengths.
  - reflexivity.
  - lengths.
  - discriminate.
  - discriminate.
Qed.

(** ** example_nos2 *)

Lemma nos2_prints n nF nS : nF <> 0%N -> nS <> 0%N ->
  exists xs, exampleNos2 n nF nS = Ok (unlines (map printfF xs)) /\ List.length xs = 3 * (n + 1) /\
    exampleNos2 n 1 1 = exampleNos2 n nF nS.
Proof.
  intros NF NS.
  assert (SA : spOf nos2A 3 3) by (apply spOf_check_ok; reflexivity).
  assert (SB : spOf nos2B 3 3) by (apply spOf_check_ok; reflexivity).
  assert (VP : validPerm 3 [0; 1; 2]) by (apply validPerm_check; reflexivity).
  destruct (fixed_tri Od nos2A nos2B 3 n (repeat nos2ValuesA (n + 1)) (repeat nos2ValuesB n) SA SB
    (repeat_length _ _) (repeat_length _ _)) as [IT DT]; [lengths|lengths|].
  assert (BR : blocksOf n 3 (repeat (repeat (dbl 1 0) 3) (n + 1))).
  { split; [apply repeat_length|]. intros t Ht. 
    assert (H : In (nth t (repeat (repeat (dbl 1 0) 3) (n + 1)) []) (repeat (repeat (dbl 1 0) 3) (n + 1)))
      by (apply nth_In; rewrite repeat_length; lia). apply repeat_spec in H. rewrite H. reflexivity. }
  assert (ME : forall (s : sparsity) (w : list (ieee 53 1024)) m, map (fixedMat s) (repeat w m) = repeat (fixedMat s w) m).
  { intros s w m. induction m; cbn [repeat map]; congruence. }
  rewrite !ME in IT, DT.
  assert (N1 : 1%N <> 0%N) by discriminate.
  destruct (tri_program Od printfF regularizationNone nos2A nos2B [0; 1; 2] 3 n _ _ _ _ _ nF nS SA SB VP IT DT BR NF NS)
    as (k & d0 & d & x & E1 & E2 & E3 & E4 & [L1 L2] & ER).
  destruct (tri_program Od printfF regularizationNone nos2A nos2B [0; 1; 2] 3 n _ _ _ _ _ 1%N 1%N SA SB VP IT DT BR N1 N1)
    as (k' & d0' & d' & x' & E1' & E2' & E3' & E4' & _ & ER').
  exists (List.concat x). unfold exampleNos2. split; [exact ER|]. split.
  - rewrite (ProofSmall.concat_length 3) by (apply Forall_forall; intros v H; destruct (In_nth _ _ [] H) as (t & Ht & <-); apply L2; lia). lia.
  - rewrite ER, ER'. do 3 f_equal.
    assert (k = k') by congruence. subst k'. assert (d0 = d0') by congruence. subst d0'.
    assert (d = d') by congruence. subst d'. congruence.
Qed.
