(** What printf prints. *)
From Coq Require Import List Arith Bool NArith ZArith Reals Lra Lia String Ascii Decimal DecimalString DecimalN DecimalFacts.
From Flocq Require Import Core.Core BinarySingleNaN.
From Verif Require Import Base ModelIeee ModelText SpecText ProofText ModelProgram SpecArrowNum SpecProgram.
Import ListNotations.
Local Open Scope string_scope.

Lemma to_uint_norm n : unorm (N.to_uint n) = N.to_uint n.
Proof. rewrite <- Unsigned.to_of. rewrite Unsigned.of_to. reflexivity. Qed.
Lemma unorm_not_nil u : unorm u <> Nil.
Proof. unfold unorm. destruct (nzhead u); discriminate. Qed.
Lemma printDigits_digits n : printDigits n = digits (N.to_uint n).
Proof.
  unfold printDigits, digits, NilZero.string_of_uint.
  pose proof (unorm_not_nil (N.to_uint n)) as H. rewrite to_uint_norm in H.
  destruct (N.to_uint n); congruence.
Qed.

Lemma of_uint_bound u : (N.of_uint u < 10 ^ N.of_nat (nb_digits u))%N.
Proof.
  induction u; cbn [nb_digits]; try rewrite Nat2N.inj_succ, N.pow_succ_r'; [cbn; lia|..];
    match goal with |- context [N.of_uint (?d ?u)] =>
      lazymatch d with
      | D0 => change (N.of_uint (d u)) with (N.of_uint u)
      | _ => let e := eval cbn in (N.of_uint (d u)) in change (N.of_uint (d u)) with e; rewrite (of_uint_acc u)
      end
    end; lia.
Qed.

Lemma sixDigits_ok q : (q < 10 ^ 6)%N ->
  exists uf, sixDigits q = digits uf /\ nb_digits uf = 6%nat /\ N.of_uint uf = q.
Proof.
  intros H. unfold sixDigits. rewrite printDigits_digits.
  pose proof (Unsigned.of_to (10 ^ 6 + q)) as V. pose proof (to_uint_norm (10 ^ 6 + q)) as U.
  set (u := N.to_uint (10 ^ 6 + q)) in *. clearbody u.
  assert (K : forall d u', (1 <= d < 10)%N -> N.of_uint u = (d * 10 ^ N.of_nat (nb_digits u') + N.of_uint u')%N ->
    d = 1%N /\ nb_digits u' = 6%nat /\ N.of_uint u' = q).
  { intros d u' Hd E. rewrite V in E. pose proof (of_uint_bound u') as B.
    assert (K6 : nb_digits u' = 6%nat).
    { destruct (lt_eq_lt_dec (nb_digits u') 6) as [[L|L]|L]; auto; exfalso.
      - assert (10 ^ N.of_nat (nb_digits u') <= 10 ^ 5)%N by (apply N.pow_le_mono_r; lia).
        change (10 ^ 5)%N with 100000%N in *. change (10 ^ 6)%N with 1000000%N in *. nia.
      - assert (10 ^ 7 <= 10 ^ N.of_nat (nb_digits u'))%N by (apply N.pow_le_mono_r; lia).
        change (10 ^ 7)%N with 10000000%N in *. change (10 ^ 6)%N with 1000000%N in *. nia. }
    rewrite K6 in *. change (10 ^ N.of_nat 6)%N with 1000000%N in *. change (10 ^ 6)%N with 1000000%N in *. nia. }
  change (10 ^ 6)%N with 1000000%N in *.
  destruct u as [|u|u|u|u|u|u|u|u|u|u]; [exfalso; change (0 = 1000000 + q)%N in V; lia|..].
  { exfalso. unfold unorm in U. destruct (nzhead (D0 u)) eqn:Z; try discriminate.
    - injection U as U. subst u. change (0 = 1000000 + q)%N in V. lia.
    - exact (nzhead_nonzero _ _ Z). }
  all: match goal with |- context [digits (?d ?u)] =>
         let e := eval cbn in (N.of_uint (d u)) in
         match e with Npos (Pos.of_uint_acc _ ?p) =>
           destruct (K (Npos p) u ltac:(lia) ltac:(change (N.of_uint (d u)) with e; apply of_uint_acc)) as (K1 & K2 & K3)
         end
       end; try discriminate K1.
  exists u. split; [reflexivity|]. auto.
Qed.

Lemma fixed_print neg q : fixedText (printSign neg ++ printDigits (q / 10 ^ 6) ++ "." ++ sixDigits (q mod 10 ^ 6)) neg q.
Proof.
  destruct (sixDigits_ok (q mod 10 ^ 6)) as (uf & E & N6 & V); [apply N.mod_lt; discriminate|].
  exists (N.to_uint (q / 10 ^ 6)), uf. rewrite E, printDigits_digits. split; [destruct neg; reflexivity|].
  split; [apply to_uint_norm|]. split; auto. rewrite Unsigned.of_to, V.
  pose proof (N.div_mod q (10 ^ 6) ltac:(discriminate)). lia.
Qed.

Lemma quotient_near num den : (0 < den)%Z ->
  roundedQuotient num den = ZnearestE (IZR num / IZR den).
Proof.
  intros P. assert (PR : (0 < IZR den)%R) by (apply IZR_lt; auto).
  unfold roundedQuotient, Znearest. rewrite Zfloor_div by lia.
  assert (E : (IZR num / IZR den - IZR (num / den) = IZR (num mod den) / IZR den)%R).
  { rewrite (Z.div_mod num den) at 1 by lia. rewrite plus_IZR, mult_IZR. field. lra. }
  rewrite E. set (q := (num / den)%Z). set (r := (num mod den)%Z) in *.
  assert (C : (r <> 0)%Z -> Zceil (IZR num / IZR den) = (q + 1)%Z).
  { intros Hr. rewrite Zceil_floor_neq; rewrite Zfloor_div by lia; [reflexivity|].
    intros X. fold q in X. apply Hr. apply eq_IZR.
    assert (IZR r / IZR den = 0)%R by (rewrite <- E; fold q; lra).
    apply Rmult_eq_reg_r with (/ IZR den)%R; [unfold Rdiv in H; lra|]. apply Rinv_neq_0_compat. lra. }
  assert (HH : forall a b, (0 < b)%R -> (a / b - / 2 = (2 * a - b) / (2 * b))%R) by (intros; field; lra).
  destruct (Z.compare_spec (2 * r) den) as [L|L|L].
  - rewrite Rcompare_Eq. 2:{ apply Rminus_diag_uniq. rewrite HH by auto. rewrite <- L, mult_IZR. unfold Rdiv. ring. }
    destruct (Z.even q); cbn [negb]; auto. rewrite C; auto. lia.
  - rewrite Rcompare_Lt; auto. apply Rminus_lt. rewrite HH by auto.
    apply IZR_lt in L. rewrite mult_IZR in L. unfold Rdiv. rewrite <- Ropp_0.
    replace ((2 * IZR r - IZR den) * / (2 * IZR den))%R with (- ((IZR den - 2 * IZR r) * / (2 * IZR den)))%R by ring.
    apply Ropp_lt_contravar. apply Rmult_lt_0_compat; [lra|]. apply Rinv_0_lt_compat. lra.
  - rewrite Rcompare_Gt; [rewrite C; auto; lia|]. apply Rminus_gt. rewrite HH by auto.
    apply IZR_lt in L. rewrite mult_IZR in L. unfold Rdiv. apply Rlt_gt.
    apply Rmult_lt_0_compat; [lra|]. apply Rinv_0_lt_compat. lra.
Qed.

Lemma nearE_opp x : ZnearestE (- x) = (- ZnearestE x)%Z.
Proof.
  rewrite Znearest_opp. f_equal. unfold Znearest. destruct (Rcompare _ _); auto.
  replace (negb (negb (Z.even (- (Zfloor x + 1))))) with (negb (Z.even (Zfloor x))); auto.
  rewrite Z.even_opp, Z.even_add. cbn. destruct (Z.even _); reflexivity.
Qed.

Lemma quotient_nonneg num den : (0 <= num)%Z -> (0 < den)%Z -> (0 <= roundedQuotient num den)%Z.
Proof.
  intros H P. pose proof (Z.div_pos num den H P). unfold roundedQuotient.
  destruct (_ ?= _)%Z; [destruct (Z.even _)|..]; lia.
Qed.

Lemma millionths_near m e :
  Z.of_N (millionths m e) = ZnearestE (F2R (Float radix2 (Zpos m) e) * 1000000).
Proof.
  unfold millionths, F2R. cbn [Fnum Fexp]. destruct (Z.leb_spec 0 e) as [H|H].
  - rewrite Z2N.id by (pose proof (Z.pow_nonneg 2 e ltac:(lia)); lia).
    rewrite <- (IZR_Zpower radix2) by auto. change (radix_val radix2) with 2%Z. rewrite <- !mult_IZR.
    symmetry. apply Znearest_imp. rewrite <- minus_IZR.
    change (10 ^ 6)%Z with 1000000%Z. rewrite Z.sub_diag. rewrite Rabs_R0. lra.
  - assert (0 < 2 ^ (- e))%Z by (apply Z.pow_pos_nonneg; lia).
    rewrite Z2N.id by (apply quotient_nonneg; lia). rewrite quotient_near by auto. f_equal.
    rewrite <- (Z.opp_involutive e) at 2. rewrite bpow_opp.
    rewrite <- (IZR_Zpower radix2 (- e)) by lia. change (radix_val radix2) with 2%Z.
    rewrite mult_IZR. change (10 ^ 6)%Z with 1000000%Z. unfold Rdiv. ring.
Qed.

Lemma printf_ok x : is_finite x = true -> printsNumber (printfF x) (B2R x).
Proof.
  destruct x as [neg| | |neg m e He]; try discriminate; intros _; unfold printfF.
  - exists neg, 0%N. split.
    + exists (D0 Nil), (D0 (D0 (D0 (D0 (D0 (D0 Nil)))))). split; [destruct neg; reflexivity|]. auto.
    + cbn [B2R]. rewrite Rmult_0_l. rewrite (Znearest_imp _ 0 0); [destruct neg; reflexivity|].
      rewrite Rminus_0_r, Rabs_R0. lra.
  - exists neg, (millionths m e). split; [apply fixed_print|]. cbn [B2R].
    rewrite millionths_near. destruct neg; cbn [signed cond_Zopp]; auto.
    rewrite <- nearE_opp. f_equal. unfold F2R. cbn [Fnum Fexp]. rewrite opp_IZR. ring.
Qed.

(** ** a printed number is a decimal number, and close *)
Lemma fixed_decimal l neg q : fixedText l neg q -> decimalText l (neg, q, (-6)%Z).
Proof.
  intros (ui & uf & -> & U & N6 & V).
  exists (if neg then "-" else ""), ui, ("." ++ digits uf), uf, "", 0%Z. rewrite app_nil_s.
  split; [reflexivity|]. split; [destruct neg; cbn; auto|]. split; [auto|].
  split; [left; intros ->; rewrite <- U in *; cbn in U; discriminate|]. split; [auto|]. rewrite N6. auto.
Qed.

Lemma printed_close l x : printsNumber l x ->
  exists d, decimalText l d /\ (Rabs (decimalValue d - x) <= / 2000000)%R.
Proof.
  intros (neg & q & T & V). exists (neg, q, (-6)%Z). split; [apply fixed_decimal; auto|].
  assert (E : decimalValue (neg, q, (-6)%Z) = (IZR (signed neg (Z.of_N q)) * / 1000000)%R).
  { unfold decimalValue. f_equal.
    - destruct neg; cbn [signed]; auto. rewrite opp_IZR. auto.
    - change (powerRZ 10 (-6)) with (/ (10 ^ Pos.to_nat 6))%R. change (Pos.to_nat 6) with 6%nat. f_equal. ring. }
  rewrite E, V. pose proof (Znearest_half (fun x => negb (Z.even x)) (x * 1000000)) as H.
  rewrite Rabs_minus_sym in H.
  replace (IZR (ZnearestE (x * 1000000)) * / 1000000 - x)%R
    with ((IZR (ZnearestE (x * 1000000)) - x * 1000000) * / 1000000)%R by field.
  rewrite Rabs_mult, (Rabs_pos_eq (/ 1000000)) by lra. lra.
Qed.
