(** Reading the text of matrix market files. *)
From Coq Require Import List Arith Bool NArith ZArith Reals Lra Lia String Ascii Decimal DecimalString DecimalN.
From Flocq Require Import Core.Core BinarySingleNaN.
From Verif Require Import Base ModelPerm ModelSparsity ModelSymbolic ModelNumeric ModelArrow ModelReg ModelMtx ModelIeee ModelText.
From Verif Require Import SpecSymbolic SpecArrow SpecNumeric SpecArrowNum SpecMtx SpecText.
From Verif Require Import SpecReg SpecRound ProofMtx ProofMtxRead ProofMtxSolve ProofPropArrow ProofText ProofRound ProofRoundUser ProofArrowMain.
Import ListNotations.
Local Open Scope string_scope.

Lemma header_no_comment l nr nc nnz : headerText l nr nc nnz -> ~ commentLine l.
Proof.
  intros (s1 & s2 & s3 & (w1 & w2 & w3 & rest & -> & W1 & _) & (u1 & -> & U1 & _) & _) (r & H).
  destruct w1 as [|c w1]; cbn [append] in H.
  - destruct (digits_first u1 (w2 ++ s2 ++ w3 ++ s3 ++ rest) U1) as (c & l & d & E & D).
    rewrite E in H. injection H as -> _. discriminate.
  - injection H as -> _. destruct W1 as [W _]. apply white_space in W. destruct W as [W _]. discriminate.
Qed.

Lemma text_file {F} (conv : decimal -> F) text nr nc es : mtxText text nr nc es ->
  fileIs scanHeader (scanEntry conv) (getlines text) nr nc (withValues conv es).
Proof.
  intros (cs & h & rest & T & C & H & E). exists cs, h, rest. split; [apply lines_text; auto|]. split; [exact C|].
  split; [eapply header_no_comment; eauto|]. split.
  - unfold withValues. rewrite map_length. apply scan_header. auto.
  - clear T H. induction E as [|l [[r c] d] ls es [H1 [H2 H3]] E IH]; constructor; auto.
    cbn [fst snd] in *. split; auto. apply scan_entry. auto.
Qed.

Lemma text_foreach {F S} (conv : decimal -> F) text nr nc es (func : S -> mtx_entry (F:=F) -> res S) s :
  mtxText text nr nc es ->
  mtxForeachEntry scanHeader (scanEntry conv) (getlines text) func s = foldM func (withValues conv es) s.
Proof. intros H. eapply foreach_ok. apply text_file. eauto. Qed.

(** ** written files *)

Lemma to_uint_nil n : N.to_uint n <> Nil.
Proof.
  intros H. pose proof (DecimalN.Unsigned.of_to n) as E. rewrite H in E. cbn in E. subst n. discriminate.
Qed.
Lemma write_size n : (N.of_nat n < 2 ^ 64)%N -> sizeText (writeSize n) n.
Proof.
  intros H. exists (N.to_uint (N.of_nat n)). rewrite DecimalN.Unsigned.of_to.
  repeat split; auto. apply to_uint_nil.
Qed.
Lemma write_decimal d : decimalText (writeDecimal d) d.
Proof.
  destruct d as [[neg m] e].
  exists (if neg then "-" else ""), (N.to_uint m), "", Nil,
    ("e" ++ (if (e <? 0)%Z then "-" else "") ++ digits (N.to_uint (Z.to_N (Z.abs e)))), e.
  split; [unfold writeDecimal; destruct neg; reflexivity|].
  split; [destruct neg; cbn; auto|]. split; [left; auto|]. split; [left; apply to_uint_nil|]. split; [right|].
  - exists "e"%char, (if (e <? 0)%Z then "-" else ""), (e <? 0)%Z, (N.to_uint (Z.to_N (Z.abs e))).
    split; [reflexivity|]. split; [auto|]. split; [destruct (e <? 0)%Z; cbn; auto|]. split; [apply to_uint_nil|].
    rewrite DecimalN.Unsigned.of_to, Z2N.id by apply Z.abs_nonneg. unfold signed.
    destruct (Z.ltb_spec e 0); lia.
  - rewrite DecimalN.Unsigned.of_to. cbn [nb_digits]. rewrite N.pow_0_r. cbn. split; lia.
Qed.

Lemma line_of s1 s2 s3 : lineOf (s1 ++ " " ++ s2 ++ " " ++ s3) s1 s2 s3.
Proof.
  exists "", " ", " ", "". rewrite app_nil_s. split; [reflexivity|].
  repeat split; cbn; auto 10; discriminate.
Qed.
Lemma no_newline_app a b : noNewline a -> noNewline b -> noNewline (a ++ b).
Proof. unfold noNewline. induction a as [|c a IH]; cbn; auto. intros [H1 H2]. auto. Qed.
Lemma no_newline_digits u : noNewline (digits u).
Proof. unfold noNewline, digits. induction u; cbn; auto; split; auto; discriminate. Qed.
Lemma no_newline_entry e : noNewline (writeEntry e).
Proof.
  destruct e as [[r c] [[neg m] x]]. unfold writeEntry, writeDecimal, writeSize.
  repeat (apply no_newline_app || apply no_newline_digits); try (cbn; repeat split; discriminate).
  - destruct neg; cbn; repeat split; discriminate.
  - destruct (x <? 0)%Z; cbn; repeat split; discriminate.
Qed.

Lemma written_text nr nc es :
  (N.of_nat nr < 2 ^ 64)%N -> (N.of_nat nc < 2 ^ 64)%N -> (N.of_nat (List.length es) < 2 ^ 64)%N ->
  (forall r c d, In (r, c, d) es -> (r < nr)%nat /\ (c < nc)%nat) ->
  mtxText (writeMtx nr nc es) nr nc es.
Proof.
  intros B1 B2 B3 H.
  exists ["%%MatrixMarket matrix coordinate real symmetric"],
    (writeSize nr ++ " " ++ writeSize nc ++ " " ++ writeSize (List.length es)), (map writeEntry es).
  split; [split|split; [|split]].
  - cbn [app]. constructor; [cbn; repeat split; discriminate|]. constructor.
    + unfold writeSize. repeat (apply no_newline_app || apply no_newline_digits); cbn; repeat split; discriminate.
    + apply Forall_map. apply Forall_forall. intros e _. apply no_newline_entry.
  - left. reflexivity.
  - constructor; [eexists; reflexivity|constructor].
  - do 3 eexists. split; [apply line_of|]. auto using write_size.
  - induction es as [|[[r c] d] es IH]; cbn [map]; constructor.
    + destruct (H r c d) as [H1 H2]; [left; auto|]. cbn [fst snd]. split; auto.
      unfold writeEntry. do 3 eexists. split; [apply line_of|].
      split; [apply write_size; lia|]. split; [apply write_size; lia|apply write_decimal].
    + apply IH; [cbn [List.length] in B3; lia|]. intros r' c' d' H'. apply (H r' c' d'). right. auto.
Qed.

(** ** lines that are no entries *)

Definition rejected {F} (conv : decimal -> F) (nr : nat) (l : string) : Prop :=
  forall r c v, scanEntry conv l = Some ((r + 1)%nat, c, v) -> (nr <= r)%nat.

Lemma size_blank w : allChars white w -> scanSize w = None.
Proof.
  intros H. unfold scanSize. rewrite <- (app_nil_s w), skip_white by auto. reflexivity.
Qed.
Lemma decimal_blank w : allChars white w -> scanDecimal w = None.
Proof.
  intros H. unfold scanDecimal. rewrite <- (app_nil_s w), skip_white by auto. reflexivity.
Qed.

Lemma ends_size w u rest : allChars white w -> u <> Nil -> ends rest ->
  scanSize (w ++ digits u ++ rest) =
  Some (if (2 ^ 64 <=? N.of_uint u)%N then (2 ^ 64 - 1)%N else N.of_uint u, rest).
Proof.
  intros W U S. unfold scanSize. rewrite skip_white by auto.
  destruct (skip_digits u rest U) as [-> ->]. rewrite scan_digits by (apply ends_stops; auto).
  rewrite N.mul_0_l, N.add_0_l. apply digits_nil in U.
  destruct (0 + nb_digits u)%nat eqn:E; [lia|]. auto.
Qed.

Lemma bad_rejected {F} (conv : decimal -> F) nr l : (N.of_nat nr < 2 ^ 64 - 1)%N -> badLine nr l -> rejected conv nr l.
Proof.
  intros BN [H|[(l' & ->)|[(w & u & rest & -> & W & U & E & B)|[(w & u & rest & -> & W & U & E & B)|
    (w1 & u1 & w2 & u2 & w3 & -> & W1 & W2 & W3 & U1 & B1 & B2 & N2)]]]] r c v H'; unfold scanEntry in H'.
  - rewrite size_blank in H' by auto. discriminate.
  - discriminate.
  - unfold scanSize at 1 in H'. rewrite skip_white in H' by auto.
    change (skipSpaces ("-" ++ digits u ++ rest)) with ("-" ++ digits u ++ rest) in H'.
    change (scanSign ("-" ++ digits u ++ rest)) with (true, digits u ++ rest) in H'. cbv iota beta in H'.
    rewrite scan_digits in H' by (apply ends_stops; auto). apply digits_nil in U.
    destruct (0 + nb_digits u)%nat eqn:K; [lia|]. rewrite N.mul_0_l, N.add_0_l in H'.
    destruct (N.leb_spec (2 ^ 64) (N.of_uint u)); [lia|].
    destruct (scanSize rest) as [[b l2]|]; [|discriminate]. destruct (scanDecimal l2) as [[d l3]|]; [|discriminate].
    assert (H1 : N.to_nat ((2 ^ 64 - N.of_uint u) mod 2 ^ 64) = (r + 1)%nat) by congruence. clear H'.
    destruct (N.eq_dec (N.of_uint u) 0) as [Z|Z].
    + rewrite Z, N.sub_0_r, N.mod_same in H1 by discriminate. cbn in H1. lia.
    + rewrite N.mod_small in H1 by lia. lia.
  - rewrite ends_size in H' by auto.
    destruct (scanSize rest) as [[b l2]|]; [|discriminate]. destruct (scanDecimal l2) as [[d l3]|]; [|discriminate].
    destruct (N.leb_spec (2 ^ 64) (N.of_uint u)).
    + assert (H1 : N.to_nat (2 ^ 64 - 1) = (r + 1)%nat) by congruence. lia.
    + assert (H1 : N.to_nat (N.of_uint u) = (r + 1)%nat) by congruence. lia.
  - assert (U2 : u2 = Nil \/ u2 <> Nil) by (destruct u2; auto; right; discriminate).
    destruct U2 as [-> |U2].
    + cbn [digits NilEmpty.string_of_uint append] in H'.
      assert (W : allChars white (w2 ++ w3)).
      { clear - W2 W3. induction w2; cbn in *; intuition. }
      rewrite scan_size in H' by (auto; apply ends_stops; destruct (w2 ++ w3); cbn in *; tauto).
      change (digits Nil ++ w3) with w3 in H'. rewrite size_blank in H' by auto. discriminate.
    + rewrite scan_size in H' by (auto; apply stops_white; auto).
      rewrite scan_size in H' by (auto; apply ends_stops; destruct w3; cbn in *; tauto).
      rewrite decimal_blank in H' by auto. discriminate.
Qed.

Lemma text_bad {F S} (conv : decimal -> F) text cs h rest nr nc nnz (func : S -> mtx_entry (F:=F) -> res S) s :
  textOf text (cs ++ h :: rest) -> Forall (fun l => exists l', l = String "%" l') cs -> headerText h nr nc nnz ->
  (N.of_nat nr < 2 ^ 64 - 1)%N ->
  (forall s e, exists s', func s e = Ok s') ->
  (Exists (badLine nr) rest \/ List.length rest <> nnz) ->
  mtxForeachEntry scanHeader (scanEntry conv) (getlines text) func s = Err MtxError.
Proof.
  intros T C H BN Hf B. rewrite (lines_text _ _ T). apply foreach_error; auto.
  intros nr' nc' es HF. destruct (header_ok _ _ _ _ _ _ HF) as (rest' & E & E').
  unfold mtxReadHeader in E. rewrite skip_comments_at in E; auto; [|eapply header_no_comment; eauto].
  rewrite (scan_header h nr nc nnz) in E by auto. cbn [scanned bind] in E. injection E as <- <- E3 <-.
  destruct B as [B|B].
  - clear - B E' BN. induction E' as [|l [[r c] v] ls es H E IH]; [inversion B|].
    inversion B as [? ? B1|? ? B1]; subst; auto.
    destruct H as (H1 & H2 & H3). apply (bad_rejected conv nr l BN B1) in H1. lia.
  - apply B. rewrite E3. clear - E'. induction E'; cbn; auto.
Qed.

(** ** doubles *)

(** ** reading, factorizing and solving *)

Lemma text_stores {F} (O : ops F) (conv : decimal -> F) s n ds dt dl dO text es :
  arrowDims s ds dt dl dO -> (0 < dt)%nat ->
  mtxText text (totalRows n ds dt dl dO) (totalRows n ds dt dl dO) es ->
  Forall (declaredEntry s n ds dt dl dO) (withValues conv es) ->
  Forall (fun e => ~ misreadEntry n ds dt dl dO e) (withValues conv es) ->
  exists m, mtxFileRead O scanHeader (scanEntry conv) s (getlines text) = Ok m /\
    inputArrow O n ds dt dl dO (ma_mat m) (mtxVals m) /\ declaredArrow s n (ma_mat m) /\
    forall g h, In g (allIdx n ds dt dl dO) -> In h (allIdx n ds dt dl dO) ->
      matAt O (ma_mat m) (mtxVals m) g h =
      fileAt O (withValues conv es) (posOf n ds dt dl g) (posOf n ds dt dl h).
Proof.
  intros AD P T D M. apply (read_file O s n ds dt dl dO AD P scanHeader (scanEntry conv)); auto.
  apply text_file. auto.
Qed.

Lemma text_solves {F} (O : ops F) (FL : fieldLaws O) (conv : decimal -> F) mt s ds dt dl dO k n text es d0 m d rhs :
  arrowDims s ds dt dl dO -> (0 < dt)%nat -> arrowBlocks s = Ok k ->
  mtxText text (totalRows n ds dt dl dO) (totalRows n ds dt dl dO) es ->
  Forall (declaredEntry s n ds dt dl dO) (withValues conv es) ->
  Forall (fun e => ~ misreadEntry n ds dt dl dO e) (withValues conv es) ->
  mtxFileRead O scanHeader (scanEntry conv) s (getlines text) = Ok m ->
  dataOf k n ds dt dl dO d0 ->
  arrowFactorize O mt k (ma_mat m) regularizationNone d0 = Ok d ->
  (forall g, In g (allIdx n ds dt dl dO) -> pivotAt O d g <> o0 O) ->
  vecOf n ds dt dl dO rhs ->
  exists x, arrowSolveInPlace O k d rhs = Ok x /\ vecOf n ds dt dl dO x /\
    (forall g, In g (allIdx n ds dt dl dO) ->
       suml O (allIdx n ds dt dl dO) (fun h =>
         omul O (fileAt O (withValues conv es) (posOf n ds dt dl g) (posOf n ds dt dl h)) (gvecAt O x h)) =
       gvecAt O rhs g).
Proof.
  intros AD P EK T D M ER D0 EF NZ HV.
  apply (solve_file O FL mt s ds dt dl dO k n scanHeader (scanEntry conv) (getlines text) (withValues conv es) d0 m d rhs); auto.
  apply text_file. auto.
Qed.

Lemma text_residual {F} (O : ops F) fin val u eta (RO : rounding O fin val u eta) (conv : decimal -> F)
    mt s ds dt dl dO k n text es d0 m d rhs cc :
  arrowDims s ds dt dl dO -> (0 < dt)%nat -> arrowBlocks s = Ok k ->
  mtxText text (totalRows n ds dt dl dO) (totalRows n ds dt dl dO) es ->
  Forall (declaredEntry s n ds dt dl dO) (withValues conv es) ->
  Forall (fun e => ~ misreadEntry n ds dt dl dO e) (withValues conv es) ->
  mtxFileRead O scanHeader (scanEntry conv) s (getlines text) = Ok m ->
  dataOf k n ds dt dl dO d0 ->
  arrowFactorize O mt k (ma_mat m) regularizationNone d0 = Ok d ->
  let all := allIdx n ds dt dl dO in
  (forall g, In g all -> fin (pivotAt O d g)) ->
  vecOf n ds dt dl dO rhs ->
  (forall g, In g all -> (colCountG k n g <= cc)%nat) ->
  exists x, arrowSolveInPlace O k d rhs = Ok x /\ vecOf n ds dt dl dO x /\
    ((forall g, In g all -> fin (gvecAt O x g)) -> forall g, In g all ->
     let U := unitG O val k d in
     let V := fun g => val (pivotAt O d g) in
     let xp := fun h => val (gvecAt O x (permIdx s h)) in
     let A := fun c => val (fileAt O (withValues conv es) (posOf n ds dt dl (permIdx s g)) (posOf n ds dt dl c)) in
     (Rabs (val (gvecAt O rhs (permIdx s g)) - suml Or all (fun c => A c * val (gvecAt O x c))) <=
      solveBound all U V u eta (rowCountG k n g) cc xp g +
      suml Or all (fun h => factorBound all U V u eta (rowCountG k n g) g h * Rabs (xp h)))%R).
Proof.
  intros AD P EK T D M ER D0 EF all NZ HV CC.
  destruct (text_stores O conv s n ds dt dl dO text es AD P T D M) as (m' & E & IA & DA & V).
  rewrite ER in E. injection E as <-.
  destruct (arrow_total_none O fin val u eta RO s ds dt dl dO k n AD EK mt (ma_mat m) (mtxVals m) d0 d rhs cc
              IA DA D0 EF NZ HV CC) as (x & EX & VX & HX).
  exists x. split; auto. split; auto. intros FX g Hg. cbv zeta. specialize (HX FX g Hg). cbv zeta in HX.
  eapply Rle_trans; [|exact HX]. apply Req_le. do 2 f_equal. apply suml_In_ext. intros h Hh.
  rewrite V; auto. apply (permIdx_in s n ds dt dl dO); auto.
Qed.

Section Double.
  Local Existing Instance prec64.
  Local Existing Instance emax64.
  Local Notation rnd := (round radix2 (SpecFloat.fexp 53 1024) ZnearestE).

  Lemma decimal_double d :
    let x := decimalValue d in
    if Rlt_bool (Rabs (rnd x)) (bpow radix2 1024)
    then is_finite (decimalToDouble d) = true /\ B2R (decimalToDouble d) = rnd x
    else is_finite (decimalToDouble d) = false /\ is_nan (decimalToDouble d) = false.
  Proof.
    destruct d as [[neg m] e]. cbv zeta. unfold decimalToDouble, decimalValue.
    destruct m as [|m].
    { replace ((if neg then - IZR (Z.of_N 0) else IZR (Z.of_N 0)) * powerRZ 10 e)%R with 0%R by (destruct neg; cbn; lra).
      rewrite round_0, Rabs_R0 by auto with typeclass_instances.
      rewrite Rlt_bool_true by apply bpow_gt_0. cbn. auto. }
    change (Z.of_N (Npos m)) with (Zpos m).
    destruct (Z.leb_spec 0 e) as [P|P].
    - set (z := (if neg then - (Zpos m * 10 ^ e) else Zpos m * 10 ^ e)%Z).
      assert (E : ((if neg then - IZR (Zpos m) else IZR (Zpos m)) * powerRZ 10 e)%R = F2R (Float radix2 z 0)).
      { unfold F2R. cbn [Fnum Fexp bpow]. rewrite Rmult_1_r. subst z.
        assert (T : powerRZ 10 e = IZR (10 ^ e)).
        { rewrite <- (Z2Nat.id e P). rewrite <- pow_powerRZ, pow_IZR. reflexivity. }
        rewrite T. destruct neg; [rewrite opp_IZR|]; rewrite mult_IZR; ring. }
      rewrite E. pose proof (binary_normalize_correct 53 1024 prec64 emax64 mode_NE z 0 neg) as C. cbv zeta in C.
      change (round_mode mode_NE) with ZnearestE in C.
      destruct (Rlt_bool _ _); [tauto|].
      destruct (binary_normalize 53 1024 prec64 emax64 mode_NE z 0 neg); try discriminate. auto.
    - assert (E : ((if neg then - IZR (Zpos m) else IZR (Zpos m)) * powerRZ 10 e)%R =
        (F2R (Float radix2 (SpecFloat.cond_Zopp neg (Zpos m)) 0) /
         F2R (Float radix2 (SpecFloat.cond_Zopp false (Zpos (Z.to_pos (10 ^ - e)))) 0))%R).
      { unfold F2R. cbn [Fnum Fexp bpow SpecFloat.cond_Zopp]. rewrite !Rmult_1_r.
        rewrite Z2Pos.id by (apply Z.pow_pos_nonneg; lia).
        assert (T : powerRZ 10 e = (/ IZR (10 ^ - e))%R).
        { replace e with (- (- e))%Z at 1 by lia. rewrite powerRZ_neg'. f_equal.
          rewrite <- (Z2Nat.id (- e)) by lia. rewrite <- pow_powerRZ, pow_IZR. reflexivity. }
        rewrite T. unfold Rdiv. f_equal. destruct neg; cbn; auto. }
      rewrite E.
      pose proof (Bdiv_correct_aux 53 1024 prec64 emax64 mode_NE neg m 0 false (Z.to_pos (10 ^ - e)) 0) as C.
      cbv zeta in C. change (round_mode mode_NE) with ZnearestE in C.
      match goal with |- context [SF2B _ ?p] => generalize p end. intros V.
      destruct C as [_ C]. destruct (Rlt_bool _ _).
      + destruct C as (C1 & C2 & _). rewrite is_finite_SF2B, B2R_SF2B. auto.
      + rewrite is_finite_SF2B, is_nan_SF2B. cbv zeta in C. rewrite C.
        split; destruct (xorb neg false); reflexivity.
  Qed.
End Double.
