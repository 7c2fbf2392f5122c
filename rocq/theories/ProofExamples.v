(** The shipped structures and the example programs with fixed matrices. *)
From Coq Require Import Reals Qreals Lra List Arith Bool NArith ZArith QArith Qabs Qcanon Lia String.
From Flocq Require Import Core.Core BinarySingleNaN.
From Verif Require Import Base ModelPerm ModelSparsity ModelSymbolic ModelNumeric ModelArrow ModelReg ModelMtx
  ModelIeee ModelText ModelProgram ModelExamples.
From Verif Require Import SpecSymbolic SpecArrow SpecNumeric SpecArrowNum SpecMtx SpecText SpecProgram SpecExamples ExampleData ExampleArrow.
From Verif Require Import ProofArrowProduct ProofPropArrow ProofRoundMain ProofRoundTri ProofPropSingle ProofMtxRead ProofPropText
  ProofProgram ProofProgramRun.
Import ListNotations.
Local Open Scope nat_scope.

(** ** structures *)

Lemma map_inj {A B} (f : A -> B) l x y : NoDup (map f l) -> In x l -> In y l -> f x = f y -> x = y.
Proof.
  induction l as [|a l IH]; cbn; [tauto|]. intros N Hx Hy E. inversion_clear N as [|? ? NI ND].
  destruct Hx as [->|Hx], Hy as [->|Hy]; auto.
  - contradiction NI. rewrite E. apply in_map. auto.
  - contradiction NI. rewrite <- E. apply in_map. auto.
Qed.

(** declared entries are read as they should be if there are at most as many outer rows as
    rows in the repeated block *)
Lemma declared_read {F} s n ds dt dl dO (e : nat * nat * F) : dO <= dt ->
  declaredEntry s n ds dt dl dO e -> ~ misreadEntry n ds dt dl dO e.
Proof.
  intros L (g & h & Hg & Hh & E & D) (g' & h' & Hg' & Hh' & E' & M).
  assert (N : NoDup (map (posOf n ds dt dl) (allIdx n ds dt dl dO))) by (rewrite map_pos_seq; apply seq_NoDup).
  rewrite E in E'. injection E' as E1 E2.
  apply (map_inj _ _ g g' N Hg Hg') in E1. apply (map_inj _ _ h h' N Hh Hh') in E2. subst g' h'.
  apply in_allIdx in Hg. destruct g as [i|t i|i|i], h as [j|u j|j|j]; cbn [declaredAt misread] in *; try contradiction; lia.
Qed.

(** the sizes of the blocks *)
Definition sizesOf (s : arrow_sp) : nat * nat * nat * nat :=
  (nrows (ss_diag (as_start s)), nrows (st_diag (as_tri s)), nrows (sl_diag (as_link s)), nrows (so_diag (as_outer s))).

Lemma shipped_dims name s : In (name, s) shippedStructures ->
  let '(ds, dt, dl, dO) := sizesOf s in arrowDims s ds dt dl dO /\ 0 < dt /\ dO <= dt.
Proof.
  intros H. cbn in H.
  repeat (destruct H as [H|H]; [injection H as _ <-; cbn [sizesOf]; (split; [arrow_dims|cbn; lia])|]). contradiction.
Qed.

(** ** repeating a factorization or a solve changes nothing *)

Lemma timesM_const {A} (f : A -> res A) a num : (forall b, f b = Ok a) -> num <> 0 -> forall b, timesM num f b = Ok a.
Proof.
  intros H N. destruct num as [|num]; [congruence|]. intros b. cbn [timesM]. rewrite H. cbn [bind].
  clear N b. assert (G : timesM num f a = Ok a).
  { induction num as [|num IH]; cbn [timesM]; auto. rewrite H. cbn [bind]. auto. }
  exact G.
Qed.

Section Tri.
  Context {F : Type} (O : ops F) (print : F -> string) (reg : F -> nat -> F).

  Lemma tri_reusable a b p dt k n mt A B wA wB d d' :
    spOf a dt dt -> spOf b dt dt -> validPerm dt p -> tridiagonalBlocks a b p = Ok k ->
    inputTri O n dt A B wA wB -> declaredTri a b n A B ->
    dataOf k n 0 dt 0 0 d -> dataOf k n 0 dt 0 0 d' ->
    tridiagonalFactorize O mt k dt A B reg d = tridiagonalFactorize O mt k dt A B reg d'.
  Proof.
    intros SA SB HP HK IT DT D1 D2. unfold tridiagonalFactorize, numRepetitions.
    rewrite (do_nts _ _ _ _ _ _ _ D1), (do_nts _ _ _ _ _ _ _ D2).
    rewrite (tri_blocks a b p dt) in HK by auto.
    exact (arrow_reusable O (tridiagonalSparsity a b p) 0 dt 0 0 k n mt reg _ _ d d'
             (tri_dims a b p dt SA SB HP) HK (tri_input O n dt A B wA wB IT) (tri_declared a b p n dt A B DT) D1 D2).
  Qed.

  Lemma timesM_factorize a b p dt k n A B wA wB d0 d num :
    spOf a dt dt -> spOf b dt dt -> validPerm dt p -> tridiagonalBlocks a b p = Ok k ->
    inputTri O n dt A B wA wB -> declaredTri a b n A B ->
    dataOf k n 0 dt 0 0 d0 -> dataOf k n 0 dt 0 0 d ->
    tridiagonalFactorize O UpLooking k dt A B reg d0 = Ok d ->
    timesM (S num) (tridiagonalFactorize O UpLooking k dt A B reg) d0 = Ok d.
  Proof.
    intros SA SB HP HK IT DT D0 D1 E. cbn [timesM]. rewrite E. cbn [bind].
    induction num as [|num IH]; cbn [timesM]; auto.
    rewrite (tri_reusable a b p dt k n UpLooking A B wA wB d d0 SA SB HP HK IT DT D1 D0), E. cbn [bind]. exact IH.
  Qed.

  Lemma parts_lines x : fold_right (fun part out => (printLines print part ++ out)%string) EmptyString x =
    unlines (map print (List.concat x)).
  Proof.
    induction x as [|p x IH]; cbn [fold_right List.concat]; auto.
    rewrite map_app, unlines_app, IH, printLines_unlines. reflexivity.
  Qed.

  Theorem tri_program a b p dt n A B wA wB rhs nF nS :
    spOf a dt dt -> spOf b dt dt -> validPerm dt p ->
    inputTri O n dt A B wA wB -> declaredTri a b n A B -> blocksOf n dt rhs ->
    nF <> 0%N -> nS <> 0%N ->
    exists k d0 d x, tridiagonalBlocks a b p = Ok k /\ arrowCtor O k n = Ok d0 /\
      tridiagonalFactorize O UpLooking k dt A B reg d0 = Ok d /\
      tridiagonalSolveInPlace O k d rhs = Ok x /\ blocksOf n dt x /\
      runTridiagonal O print reg a b p n A B rhs nF nS = Ok (unlines (map print (List.concat x))).
  Proof.
    intros SA SB HP IT DT HR NF NS.
    destruct (tri_any O a b p dt SA SB HP) as (k & EK & HC & HF & HS).
    destruct (HC n) as (d0 & EC & D0). destruct (HF UpLooking n A B wA wB reg d0 IT DT D0) as (d & EF & D1).
    destruct (HS n d rhs D1 HR) as (x & ES & VX).
    exists k, d0, d, x. do 5 (split; [auto|]).
    unfold runTridiagonal. rewrite EK. cbn [bind]. rewrite EC. cbn [bind].
    assert (EN : nrows a = dt) by apply SA. rewrite EN.
    destruct (N.to_nat nF) as [|num] eqn:E1; [lia|].
    rewrite (timesM_factorize a b p dt k n A B wA wB d0 d num SA SB HP EK IT DT D0 D1 EF). cbn [bind].
    rewrite (timesM_const _ x) by (auto; lia). cbn [bind]. rewrite parts_lines. reflexivity.
  Qed.

  Corollary tri_times a b p dt n A B wA wB rhs nF nS :
    spOf a dt dt -> spOf b dt dt -> validPerm dt p ->
    inputTri O n dt A B wA wB -> declaredTri a b n A B -> blocksOf n dt rhs ->
    nF <> 0%N -> nS <> 0%N ->
    runTridiagonal O print reg a b p n A B rhs nF nS = runTridiagonal O print reg a b p n A B rhs 1 1.
  Proof.
    intros SA SB HP IT DT HR NF NS.
    destruct (tri_program a b p dt n A B wA wB rhs nF nS) as (k & d0 & d & x & H1 & H2 & H3 & H4 & _ & ->); auto.
    destruct (tri_program a b p dt n A B wA wB rhs 1 1) as (k' & d0' & d' & x' & H1' & H2' & H3' & H4' & _ & ->); auto; try lia.
    congruence.
  Qed.
End Tri.

(** ** inputs *)

Section Inputs.
  Context {F : Type} (O : ops F).
  Lemma fixed_input s nr nc values : spOf s nr nc -> List.length values = List.length (entries s) ->
    SpecArrowNum.matOf O (fixedMat s values) nr nc values.
  Proof.
    intros H L. split; [exact H|]. constructor; auto.
    intros k Hk. cbn [m_val fixedMat]. unfold rd. rewrite (nth_error_nth' _ (o0 O)); auto.
  Qed.
  Lemma nth_same {A} (f : nat -> A) n i d : i < n -> nth i (map f (seq 0 n)) d = f i.
  Proof.
    intros H. rewrite (nth_indep _ d (f 0)) by (rewrite map_length, seq_length; auto).
    rewrite (map_nth f), seq_nth; auto.
  Qed.

  (** blocks of one sparsity *)
  Lemma fixed_tri a b dt n (wA wB : list (list F)) :
    spOf a dt dt -> spOf b dt dt -> List.length wA = n + 1 -> List.length wB = n ->
    (forall w, In w wA -> List.length w = List.length (entries a)) ->
    (forall w, In w wB -> List.length w = List.length (entries b)) ->
    inputTri O n dt (map (fixedMat a) wA) (map (fixedMat b) wB) wA wB /\
    declaredTri a b n (map (fixedMat a) wA) (map (fixedMat b) wB).
  Proof.
    intros SA SB LA LB HA HB.
    assert (NA : forall t, t < n + 1 -> nth t (map (fixedMat a) wA) noMat = fixedMat a (nth t wA [])).
    { intros t Ht. rewrite (nth_indep _ _ (fixedMat a [])) by (rewrite map_length; lia). apply map_nth. }
    assert (NB : forall t, t < n -> nth t (map (fixedMat b) wB) noMat = fixedMat b (nth t wB [])).
    { intros t Ht. rewrite (nth_indep _ _ (fixedMat b [])) by (rewrite map_length; lia). apply map_nth. }
    split.
    - constructor; rewrite ?map_length; auto; intros t Ht.
      + rewrite NA by auto. apply fixed_input; auto. apply HA. apply nth_In. lia.
      + rewrite NB by auto. apply fixed_input; auto. apply HB. apply nth_In. lia.
    - split; intros t Ht; [rewrite NA by auto|rewrite NB by auto]; intros r c; cbn [m_sp fixedMat]; auto.
  Qed.
End Inputs.

(** ** exact solutions *)

Lemma doubleQ_val x : is_finite x = true -> Q2R (this (doubleQ x)) = B2R x.
Proof.
  destruct x as [s| | |s m e He]; try discriminate; intros _; cbn [doubleQ B2R].
  - cbn. unfold Q2R. cbn. lra.
  - assert (Z : (if s then Zneg m else Zpos m) = cond_Zopp s (Zpos m)) by (destruct s; reflexivity).
    rewrite Z. set (z := cond_Zopp s (Zpos m)). unfold F2R. cbn [Fnum Fexp].
    destruct (Z.leb_spec 0 e) as [H|H]; cbn [this Q2Qc].
    + rewrite (Qeq_eqR _ _ (Qred_correct _)). unfold Q2R. cbn [Qnum Qden inject_Z].
      rewrite mult_IZR. rewrite <- (IZR_Zpower radix2) by auto. change (radix_val radix2) with 2%Z. lra.
    + rewrite (Qeq_eqR _ _ (Qred_correct _)). unfold Q2R. cbn [Qnum Qden].
      assert (0 < 2 ^ (- e))%Z by (apply Z.pow_pos_nonneg; lia).
      rewrite Z2Pos.id by auto. rewrite <- (Z.opp_involutive e) at 2. rewrite bpow_opp.
      rewrite <- (IZR_Zpower radix2 (- e)) by lia. reflexivity.
Qed.

Lemma sumQ_cons {I} a (l : list I) f : suml Oq (a :: l) f = (f a + suml Oq l f)%Qc.
Proof. reflexivity. Qed.
Lemma sumQ_nil {I} f : suml Oq (@nil I) f = 0%Qc.
Proof. reflexivity. Qed.

Section Only.
  Context {I : Type} (all : list I).
  Local Open Scope Qc_scope.
  Local Notation S := (suml Oq all).
  Lemma sumQ_ext f g : (forall h, In h all -> f h = g h) -> S f = S g.
  Proof.
    induction all as [|a l IH]; intros H; rewrite ?sumQ_cons, ?sumQ_nil; auto. rewrite H by (left; auto). f_equal. apply IH.
    intros h Hh. apply H. right. auto.
  Qed.
  Lemma sumQ_scal c (f : I -> Qc) : c * S f = S (fun h => c * f h).
  Proof. clear. induction all as [|a l IH]; rewrite ?sumQ_cons, ?sumQ_nil; [ring|]. rewrite <- IH. ring. Qed.
  Lemma sumQ_plus f g : S (fun h => f h + g h) = S f + S g.
  Proof. clear. induction all as [|a l IH]; rewrite ?sumQ_cons, ?sumQ_nil; [ring|]. rewrite IH. ring. Qed.
  Lemma sumQ_zero : S (fun _ => 0) = 0.
  Proof. clear. induction all as [|a l IH]; rewrite ?sumQ_cons, ?sumQ_nil; [reflexivity|]. rewrite IH. ring. Qed.
  Lemma sumQ_swap {J} (l : list J) (f : J -> I -> Qc) :
    suml Oq l (fun j => S (f j)) = S (fun h => suml Oq l (fun j => f j h)).
  Proof.
    induction l as [|a l IH]; [symmetry; apply sumQ_zero|].
    rewrite sumQ_cons, IH. symmetry. apply sumQ_plus.
  Qed.

  (** a left inverse W, up to a factor, makes solutions unique *)
  Lemma inverse_only (eqd : forall a b : I, {a = b} + {a <> b}) (M W : I -> I -> Qc) c b xs :
    NoDup all -> c <> 0 ->
    (forall g h, In g all -> In h all -> S (fun k => W g k * M k h) = if eqd g h then c else 0) ->
    solvesQ all M b xs -> onlySolutionQ all M b xs.
  Proof.
    intros ND NC HW HS. split; auto.
    assert (K : forall ys, solvesQ all M b ys -> forall g, In g all -> c * ys g = S (fun k => W g k * b k)).
    { intros ys Hy g Hg.
      transitivity (S (fun h => (if eqd g h then c else 0) * ys h)).
      { clear - Hg ND. induction all as [|a l IH]; [contradiction|]. rewrite sumQ_cons.
        inversion_clear ND as [|? ? NI ND']. destruct Hg as [->|Hg].
        - destruct (eqd g g); [|congruence].
          replace (suml Oq l (fun h => (if eqd g h then c else 0) * ys h)) with 0; [ring|].
          clear - NI. induction l as [|a l IH]; auto. rewrite sumQ_cons. destruct (eqd g a) as [->|]; [contradiction NI; left; auto|].
          rewrite <- IH; [ring|]. intros H. apply NI. right. auto.
        - destruct (eqd g a) as [->|]; [contradiction|]. rewrite <- IH by auto. ring. }
      transitivity (S (fun h => S (fun k => W g k * M k h) * ys h)).
      { apply sumQ_ext. intros h Hh. rewrite HW by auto. reflexivity. }
      transitivity (S (fun h => S (fun k => W g k * (M k h * ys h)))).
      { apply sumQ_ext. intros h Hh. rewrite Qcmult_comm, sumQ_scal. apply sumQ_ext. intros k _. ring. }
      rewrite sumQ_swap. apply sumQ_ext. intros k Hk. rewrite <- sumQ_scal. f_equal. apply Hy. auto. }
    intros ys Hy g Hg.
    assert (E : c * ys g = c * xs g) by (rewrite !K; auto).
    rewrite <- (Qcmult_1_l (ys g)), <- (Qcmult_1_l (xs g)), <- (Qcmult_inv_l c NC), <- !Qcmult_assoc, E. reflexivity.
  Qed.
End Only.

(** ** printed numbers *)

(** sign and millionths of the printed number *)
Definition printed (x : ieee 53 1024) : bool * N :=
  match x with
  | B754_finite s m e _ => (s, millionths m e)
  | B754_zero s => (s, 0%N)
  | _ => (false, 0%N)
  end.
Lemma printed_text x : is_finite x = true -> fixedText (printfF x) (fst (printed x)) (snd (printed x)).
Proof.
  destruct x as [s| | |s m e He]; try discriminate; intros _; cbn [printed fst snd].
  - unfold printfF. pose proof (fixed_print s 0) as H. destruct s; exact H.
  - unfold printfF. apply fixed_print.
Qed.

(** ** the programs with the shipped structures *)

Theorem shipped_run name s : In (name, s) shippedStructures ->
  exists ds dt dl dO, arrowDims s ds dt dl dO /\ 0 < dt /\
  forall (F : Type) (O : ops F) (one : F) (conv : decimal -> F) (print : F -> string) (reg : F -> nat -> F)
    n text es,
  mtxText text (totalRows n ds dt dl dO) (totalRows n ds dt dl dO) es ->
  Forall (declaredEntry s n ds dt dl dO) (withValues conv es) ->
  exists m k d0 d rhs x,
    mtxFileRead O scanHeader (scanEntry conv) s (getlines text) = Ok m /\
    inputArrow O n ds dt dl dO (ma_mat m) (mtxVals m) /\
    (forall g h, In g (allIdx n ds dt dl dO) -> In h (allIdx n ds dt dl dO) ->
       matAt O (ma_mat m) (mtxVals m) g h =
       fileAt O (withValues conv es) (posOf n ds dt dl g) (posOf n ds dt dl h)) /\
    arrowBlocks s = Ok k /\ arrowCtor O k n = Ok d0 /\
    arrowFactorize O UpLooking k (ma_mat m) reg d0 = Ok d /\
    (forall g, In g (allIdx n ds dt dl dO) -> gvecAt O rhs g = one) /\
    arrowSolveInPlace O k d rhs = Ok x /\
    forall files path prog args, files path = Some text ->
      (args = [] \/ exists arg c, args = [arg] /\ countText arg c /\ c <> 0%N) ->
      exampleMain O one conv print reg s files (prog :: path :: args) =
      Exits 0 (unlines (reportLines n ds dt dl dO (fun g => print (gvecAt O x g)))).
Proof.
  intros H. pose proof (shipped_dims name s H) as D. destruct (sizesOf s) as [[[ds dt] dl] dO].
  destruct D as (AD & P & L). exists ds, dt, dl, dO. split; auto. split; auto.
  intros F O one conv print reg n text es T DE.
  assert (MI : Forall (fun e => ~ misreadEntry n ds dt dl dO e) (withValues conv es)).
  { eapply Forall_impl; [|exact DE]. intros e. apply declared_read. auto. }
  destruct (program_runs O one conv print reg s n ds dt dl dO text es AD P T DE MI)
    as (m & k & d0 & d & rhs & x & ER & Ek & EC & D0 & EF & VR & ON & ES & VX & RUN).
  destruct (text_stores O conv s n ds dt dl dO text es AD P T DE MI) as (m' & ER' & IA & DA & V).
  rewrite ER in ER'. injection ER' as <-.
  exists m, k, d0, d, rhs, x. do 8 (split; [assumption|]).
  intros files path prog args Hf HA. destruct (RUN files path prog Hf) as [R1 R2].
  destruct HA as [->|(arg & c & -> & HC & NZ)]; [exact R1|].
  rewrite (R2 arg c HC). destruct (N.eqb_spec c 0); [contradiction|]. reflexivity.
Qed.
