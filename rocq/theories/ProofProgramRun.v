(** What the example program prints, for any arithmetic. *)
From Coq Require Import List Arith Bool NArith ZArith Lia String Ascii Decimal.
From Verif Require Import Base ModelPerm ModelSparsity ModelSymbolic ModelNumeric ModelArrow ModelReg ModelMtx
  ModelIeee ModelText ModelProgram.
From Verif Require Import SpecSymbolic SpecArrow SpecNumeric SpecArrowNum SpecMtx SpecText SpecProgram.
From Verif Require Import ProofArrowSym ProofPropArrow ProofRoundMain ProofText ProofPropText.
Import ListNotations.
Local Open Scope string_scope.

Lemma unlines_app a b : unlines (a ++ b)%list = unlines a ++ unlines b.
Proof. induction a; cbn [unlines List.app]; auto. rewrite IHa, app_assoc_s. reflexivity. Qed.

Lemma stops_iff rest : match rest with String c _ => ~ (exists d, digits d = String c "") | EmptyString => True end <-> stops rest.
Proof.
  destruct rest as [|c rest]; cbn; [tauto|]. split.
  - intros R. destruct (digit c) eqn:D; auto. exfalso. apply R.
    unfold digit in D. destruct (_ && _)%N eqn:E; [|discriminate].
    apply andb_true_iff in E. destruct E as [E1 E2]. apply N.leb_le in E1, E2.
    rewrite <- (ascii_N_embedding c). set (k := N_of_ascii c) in *. clearbody k.
    assert (K : In k [48;49;50;51;52;53;54;55;56;57]%N) by (cbn; lia).
    cbn in K. repeat destruct K as [<-|K]; try contradiction;
      [exists (D0 Nil)|exists (D1 Nil)|exists (D2 Nil)|exists (D3 Nil)|exists (D4 Nil)|exists (D5 Nil)|
       exists (D6 Nil)|exists (D7 Nil)|exists (D8 Nil)|exists (D9 Nil)]; reflexivity.
  - intros D (d & E). assert (U : d <> Nil) by (intros ->; discriminate E).
    destruct (digits_first d "" U) as (c' & l & v & E2 & D2). rewrite app_nil_s, E in E2. injection E2 as <- _. congruence.
Qed.

Lemma stoull_number l neg num : numberText l neg num ->
  stoull l = if (2 ^ 64 <=? num)%N then None else Some (if neg then (2 ^ 64 - num) mod 2 ^ 64 else num)%N.
Proof.
  intros (w & sg & u & rest & -> & W & G & U & V & R). unfold stoull. rewrite skip_white by auto.
  apply stops_iff in R.
  destruct (scan_sign sg neg (digits u ++ rest) G (digits_noSign _ _ U)) as [-> ->].
  rewrite scan_digits by auto. rewrite N.mul_0_l, N.add_0_l. apply digits_nil in U.
  destruct (0 + nb_digits u)%nat eqn:E; [lia|]. rewrite V. reflexivity.
Qed.
Lemma stoull_count l num : countText l num -> stoull l = Some num.
Proof.
  intros [H B]. rewrite (stoull_number l false num H). destruct (N.leb_spec (2 ^ 64) num); [lia|]. reflexivity.
Qed.

(** only numbers are accepted *)
Lemma split_white l : exists w, l = w ++ skipSpaces l /\ allChars white w.
Proof.
  induction l as [|c l (w & E & W)]; [exists ""; split; cbn; auto|]. cbn [skipSpaces].
  destruct (isSpace c) eqn:S; [|exists ""; split; cbn; auto].
  exists (String c w). cbn [append allChars]. split; [congruence|]. split; auto. unfold isSpace in S.
  assert (K : In (nat_of_ascii c) [9; 10; 11; 12; 13; 32]%nat).
  { apply orb_true_iff in S. rewrite andb_true_iff, Nat.eqb_eq, !Nat.leb_le in S. cbn. lia. }
  rewrite <- (ascii_nat_embedding c). set (k := nat_of_ascii c) in *. clearbody k. unfold white. cbn in K.
  repeat destruct K as [<-|K]; try contradiction; cbn; tauto.
Qed.
Lemma split_sign l neg l' : scanSign l = (neg, l') -> exists sg, l = sg ++ l' /\ signText sg neg.
Proof.
  unfold scanSign. destruct l as [|c l].
  - intros E. injection E as <- <-. exists "". cbn. auto.
  - destruct (Ascii.eqb_spec c "-") as [->|_]; [|destruct (Ascii.eqb_spec c "+") as [->|_]]; intros E; injection E as <- <-.
    + exists "-". cbn. auto.
    + exists "+". cbn. auto.
    + exists "". cbn. auto.
Qed.
Lemma split_digits l : exists u rest, l = digits u ++ rest /\ stops rest.
Proof.
  induction l as [|c l (u & rest & E & H)]; [exists Nil, ""; cbn; auto|].
  destruct (digit c) eqn:D; [|exists Nil, (String c l); cbn; auto].
  unfold digit in D. destruct (_ && _)%N eqn:EK; [|discriminate].
  apply andb_true_iff in EK. destruct EK as [E1 E2]. apply N.leb_le in E1, E2.
  rewrite <- (ascii_N_embedding c). clear D. set (k := N_of_ascii c) in *. clearbody k.
  assert (K : In k [48;49;50;51;52;53;54;55;56;57]%N) by (cbn; lia).
  cbn in K. repeat destruct K as [<-|K]; try contradiction;
    [exists (D0 u)|exists (D1 u)|exists (D2 u)|exists (D3 u)|exists (D4 u)|exists (D5 u)|
     exists (D6 u)|exists (D7 u)|exists (D8 u)|exists (D9 u)]; exists rest; split; auto; rewrite E; reflexivity.
Qed.
Lemma stoull_only l : (forall neg num, numberText l neg num -> (2 ^ 64 <= num)%N) -> stoull l = None.
Proof.
  intros H. destruct (split_white l) as (w & E & W). destruct (scanSign (skipSpaces l)) as [neg l'] eqn:ES.
  destruct (split_sign _ _ _ ES) as (sg & E2 & G). destruct (split_digits l') as (u & rest & E3 & S).
  destruct (uint_eq_dec u Nil) as [->|U].
  - unfold stoull. rewrite ES, E3, scan_digits by auto. reflexivity.
  - assert (NT : numberText l neg (N.of_uint u)).
    { exists w, sg, u, rest. rewrite <- E3, <- E2. split; auto. split; auto. split; auto. split; auto. split; auto. apply stops_iff. auto. }
    rewrite (stoull_number _ _ _ NT). pose proof (H _ _ NT). destruct (N.leb_spec (2 ^ 64) (N.of_uint u)); [auto|lia].
Qed.

Section Run.
  Context {F : Type} (O : ops F) (one : F) (conv : decimal -> F) (print : F -> string) (reg : F -> nat -> F).

  Lemma printLines_unlines l : printLines print l = unlines (map print l).
  Proof. induction l as [|a l IH]; cbn; auto. rewrite <- IH. reflexivity. Qed.
  Lemma vec_list (l : list F) n : List.length l = n -> map (vecAt O l) (seq 0 n) = l.
  Proof.
    intros <-. apply (nth_ext _ _ (o0 O) (o0 O)).
    - rewrite map_length, seq_length. auto.
    - rewrite map_length, seq_length. intros i Hi. rewrite (nth_indep _ (o0 O) (vecAt O l 0))
        by (rewrite map_length, seq_length; auto).
      rewrite (map_nth (vecAt O l)), seq_nth by auto. reflexivity.
  Qed.

  Lemma section_lines title (C : nat -> gidx) x l n : List.length l = n ->
    (forall i, gvecAt O x (C i) = vecAt O l i) ->
    unlines (section title (map C (seq 0 n)) (fun g => print (gvecAt O x g))) =
    if (0 <? n)%nat then title ++ endline ++ printLines print l else "".
  Proof.
    intros L H. unfold section. destruct n as [|n]; [reflexivity|].
    destruct (map C (seq 0 (S n))) as [|v vs] eqn:E; [discriminate|]. rewrite <- E. cbn [unlines Nat.ltb Nat.leb].
    rewrite printLines_unlines. rewrite <- (vec_list l (S n) L) at 1. rewrite !map_map.
    rewrite (map_ext (fun i => print (gvecAt O x (C i))) (fun i => print (vecAt O l i))); [reflexivity|].
    intros i. rewrite H. reflexivity.
  Qed.

  Lemma tri_lines x n dt : List.length (v_tri x) = (n + 1)%nat ->
    (forall t, (t < n + 1)%nat -> List.length (nth t (v_tri x) []) = dt) ->
    unlines (map (fun g => print (gvecAt O x g)) (List.concat (map (fun t => map (GT t) (seq 0 dt)) (seq 0 (n + 1))))) =
    fold_right (fun part out => printLines print part ++ out) "" (v_tri x).
  Proof.
    intros L H. rewrite concat_map, map_map.
    assert (E : map (fun t => map (fun g => print (gvecAt O x g)) (map (GT t) (seq 0 dt))) (seq 0 (n + 1)) =
                map (map print) (v_tri x)).
    { apply (nth_ext _ _ [] []); [rewrite !map_length, seq_length; auto|].
      rewrite map_length, seq_length. intros t Ht.
      rewrite (nth_indep _ [] ((fun t => map (fun g => print (gvecAt O x g)) (map (GT t) (seq 0 dt))) 0%nat))
        by (rewrite map_length, seq_length; auto).
      rewrite (map_nth (fun t => map (fun g => print (gvecAt O x g)) (map (GT t) (seq 0 dt)))), seq_nth by auto.
      change (@nil string) with (map print (@nil F)) at 1. rewrite map_nth. cbn [Nat.add].
      transitivity (map print (map (vecAt O (nth t (v_tri x) [])) (seq 0 dt))); [rewrite !map_map; reflexivity|].
      rewrite (vec_list _ dt (H t Ht)). reflexivity. }
    rewrite E. clear. induction (v_tri x) as [|p l IH]; cbn [map List.concat fold_right]; auto.
    rewrite unlines_app, IH, printLines_unlines. reflexivity.
  Qed.

  Lemma report n ds dt dl dO x : vecOf n ds dt dl dO x ->
    printSolution print ds dl dO x = unlines (reportLines n ds dt dl dO (fun g => print (gvecAt O x g))).
  Proof.
    intros [V1 V2 V3 V4 V5]. unfold reportLines. rewrite unlines_app.
    rewrite (section_lines _ GS x (v_start x)) by auto. rewrite unlines_app.
    cbn [unlines]. rewrite (tri_lines x n dt) by auto. rewrite unlines_app.
    rewrite (section_lines _ GL x (v_link x)) by auto. rewrite (section_lines _ GO x (v_outer x)) by auto.
    unfold printSolution. reflexivity.
  Qed.

  Lemma iterations_ok s ds dt dl dO k n m w d0 rhs d x num x0 :
    arrowDims s ds dt dl dO -> arrowBlocks s = Ok k ->
    inputArrow O n ds dt dl dO m w -> declaredArrow s n m -> dataOf k n ds dt dl dO d0 ->
    arrowFactorize O UpLooking k m reg d0 = Ok d -> dataOf k n ds dt dl dO d ->
    arrowSolveInPlace O k d rhs = Ok x ->
    iterations O reg k m rhs (S num) (d0, x0) = Ok (d, x).
  Proof.
    intros HD Ek IA DA D0 EF D1 ES. revert d0 x0 D0 EF.
    induction num as [|num IH]; intros d0 x0 D0 EF.
    - cbn [iterations fst]. rewrite EF. cbn [bind]. rewrite ES. reflexivity.
    - change (iterations O reg k m rhs (S (S num)) (d0, x0)) with
        (let* d := arrowFactorize O UpLooking k m reg d0 in
         let* x := arrowSolveInPlace O k d rhs in iterations O reg k m rhs (S num) (d, x)).
      rewrite EF. cbn [bind]. rewrite ES. cbn [bind]. apply IH; auto.
      rewrite <- EF. exact (arrow_reusable O s ds dt dl dO k n UpLooking reg m w d d0 HD Ek IA DA D1 D0).
  Qed.

  Lemma ones_vec n ds dt dl dO : vecOf n ds dt dl dO (onesRhs one n ds dt dl dO) /\
    forall g, In g (allIdx n ds dt dl dO) -> gvecAt O (onesRhs one n ds dt dl dO) g = one.
  Proof.
    unfold onesRhs, arrayOfOnes. split.
    - constructor; cbn; rewrite ?repeat_length; auto. intros t Ht.
      rewrite (nth_indep _ [] (repeat one dt)) by (rewrite repeat_length; auto).
      rewrite nth_repeat, repeat_length. auto.
    - assert (R : forall i n, (i < n)%nat -> vecAt O (repeat one n) i = one).
      { intros i k Hi. unfold vecAt. rewrite (nth_indep _ (o0 O) one) by (rewrite repeat_length; auto). apply nth_repeat. }
      intros g Hg. unfold allIdx in Hg. repeat rewrite in_app_iff in Hg. destruct Hg as [Hg|[Hg|[Hg|Hg]]].
      + apply in_map_iff in Hg. destruct Hg as (i & <- & Hi). apply in_seq in Hi. cbn. apply R. lia.
      + apply in_concat in Hg. destruct Hg as (l & Hl & Hg). apply in_map_iff in Hl. destruct Hl as (t & <- & Ht).
        apply in_map_iff in Hg. destruct Hg as (i & <- & Hi). apply in_seq in Hi, Ht. cbn.
        rewrite (nth_indep _ [] (repeat one dt)) by (rewrite repeat_length; lia). rewrite nth_repeat. apply R. lia.
      + apply in_map_iff in Hg. destruct Hg as (i & <- & Hi). apply in_seq in Hi. cbn. apply R. lia.
      + apply in_map_iff in Hg. destruct Hg as (i & <- & Hi). apply in_seq in Hi. cbn. apply R. lia.
  Qed.

  Lemma report_ext n ds dt dl dO p q : (forall g, In g (allIdx n ds dt dl dO) -> p g = q g) ->
    reportLines n ds dt dl dO p = reportLines n ds dt dl dO q.
  Proof.
    intros H. unfold reportLines.
    assert (S : forall title vars, (forall g, In g vars -> In g (allIdx n ds dt dl dO)) ->
                section title vars p = section title vars q).
    { intros title vars Hv. unfold section. destruct vars as [|v vars]; auto. f_equal. apply map_ext_in. auto. }
    rewrite !S. f_equal. f_equal. f_equal. apply map_ext_in.
    all: intros g Hg; try apply H; unfold allIdx; rewrite !in_app_iff; auto.
  Qed.

  Theorem program_runs s n ds dt dl dO text es :
    arrowDims s ds dt dl dO -> (0 < dt)%nat ->
    mtxText text (totalRows n ds dt dl dO) (totalRows n ds dt dl dO) es ->
    Forall (declaredEntry s n ds dt dl dO) (withValues conv es) ->
    Forall (fun e => ~ misreadEntry n ds dt dl dO e) (withValues conv es) ->
    exists m k d0 d rhs x,
      mtxFileRead O scanHeader (scanEntry conv) s (getlines text) = Ok m /\
      arrowBlocks s = Ok k /\ arrowCtor O k n = Ok d0 /\ dataOf k n ds dt dl dO d0 /\
      arrowFactorize O UpLooking k (ma_mat m) reg d0 = Ok d /\
      vecOf n ds dt dl dO rhs /\ (forall g, In g (allIdx n ds dt dl dO) -> gvecAt O rhs g = one) /\
      arrowSolveInPlace O k d rhs = Ok x /\ vecOf n ds dt dl dO x /\
      forall files path prog, files path = Some text ->
        let solution := Exits 0 (unlines (reportLines n ds dt dl dO (fun g => print (gvecAt O x g)))) in
        let ones := Exits 0 (unlines (reportLines n ds dt dl dO (fun _ => print one))) in
        exampleMain O one conv print reg s files [prog; path] = solution /\
        forall arg num, countText arg num ->
          exampleMain O one conv print reg s files [prog; path; arg] = if (num =? 0)%N then ones else solution.
  Proof.
    intros AD P T D M.
    destruct (text_stores O conv s n ds dt dl dO text es AD P T D M) as (m & ER & IA & DA & _).
    destruct (arrow_any O s ds dt dl dO AD) as (k & Ek & C & FA & SO).
    destruct (C n) as (d0 & Ec & D0). destruct (FA UpLooking n (ma_mat m) (mtxVals m) reg d0 IA DA D0) as (d & EF & D1).
    destruct (ones_vec n ds dt dl dO) as [VR ON].
    destruct (SO n d _ D1 VR) as (x & ES & VX).
    exists m, k, d0, d, (onesRhs one n ds dt dl dO), x.
    split; auto. split; auto. split; auto. split; auto. split; auto. split; auto. split; auto. split; auto. split; auto.
    intros files path prog Hf. cbv zeta.
    destruct (arrowDims_ok s ds dt dl dO AD) as (E1 & E2 & E3 & E4).
    assert (R : forall num, runExample O one conv print reg s num text =
      Ok (unlines (reportLines n ds dt dl dO (fun g => print (if (num =? 0)%N then one else gvecAt O x g))))).
    { intros num. unfold runExample. rewrite ER. cbn [bind]. rewrite Ek. cbn [bind].
      rewrite (ia_nts _ _ _ _ _ _ _ _ IA), Ec. cbn [bind]. rewrite E1, E2, E3, E4. cbn [bind].
      destruct (N.eqb_spec num 0) as [->|Hn].
      - cbn [N.to_nat iterations bind snd]. rewrite (report n ds dt dl dO) by auto. f_equal. f_equal.
        apply report_ext. intros g Hg. rewrite ON; auto.
      - destruct (N.to_nat num) as [|c] eqn:EN; [lia|].
        rewrite (iterations_ok s ds dt dl dO k n (ma_mat m) (mtxVals m) d0 _ d x c) by auto.
        cbn [bind snd]. rewrite (report n ds dt dl dO) by auto. reflexivity. }
    split.
    - unfold exampleMain. rewrite Hf, R. reflexivity.
    - intros arg num HA. unfold exampleMain. rewrite (stoull_count arg num HA), Hf, R.
      destruct (num =? 0)%N; reflexivity.
  Qed.

  (** the other ways to end *)
  Theorem program_usage s files argv : (List.length argv < 2 \/ 3 < List.length argv)%nat ->
    exampleMain O one conv print reg s files argv =
    Exits 1 (unlines ["Usage: example_* FILEPATH_MTX [NUM_ITERATIONS]"; ""]).
  Proof.
    intros H. destruct argv as [|a [|b [|c [|d argv]]]]; cbn in H; try lia; reflexivity.
  Qed.
  Theorem program_rejects s files path prog args : (List.length args <= 1)%nat -> (forall arg, In arg args -> exists num, countText arg num) ->
    mtxFileRead O scanHeader (scanEntry conv) s (getlines (match files path with Some text => text | None => "" end)) = Err MtxError ->
    exampleMain O one conv print reg s files (prog :: path :: args) = Fails MtxError.
  Proof.
    intros L H E.
    assert (R : forall num, runExample O one conv print reg s num (match files path with Some text => text | None => "" end) = Err MtxError)
      by (intros num; unfold runExample; rewrite E; reflexivity).
    destruct args as [|arg [|b args]]; cbn in L; try lia; unfold exampleMain.
    - rewrite R. reflexivity.
    - destruct (H arg (or_introl eq_refl)) as (num & HA). rewrite (stoull_count arg num HA), R. reflexivity.
  Qed.
  Theorem program_bad_count s files path prog arg : (forall neg num, numberText arg neg num -> (2 ^ 64 <= num)%N) ->
    exampleMain O one conv print reg s files [prog; path; arg] = StoullThrows.
  Proof. intros H. unfold exampleMain. rewrite (stoull_only arg H). reflexivity. Qed.
  Theorem program_negative_count s files path prog arg arg' num : numberText arg true num -> (0 < num < 2 ^ 64)%N ->
    countText arg' (2 ^ 64 - num) ->
    exampleMain O one conv print reg s files [prog; path; arg] = exampleMain O one conv print reg s files [prog; path; arg'].
  Proof.
    intros H B H'. unfold exampleMain. rewrite (stoull_number _ _ _ H), (stoull_count _ _ H').
    destruct (N.leb_spec (2 ^ 64) num); [lia|]. rewrite N.mod_small by lia. reflexivity.
  Qed.
End Run.
