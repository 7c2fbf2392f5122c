(** The scanners read what the specification of the text says. *)
From Coq Require Import List Arith Bool NArith ZArith Reals Lra Lia String Ascii Decimal DecimalString DecimalN.
From Flocq Require Import Core.Core BinarySingleNaN.
From Verif Require Import Base ModelIeee ModelText SpecText.
Import ListNotations.
Local Open Scope string_scope.

Lemma app_assoc_s a b c : (a ++ b) ++ c = a ++ b ++ c.
Proof. induction a; cbn; congruence. Qed.
Lemma app_nil_s a : a ++ "" = a.
Proof. induction a; cbn; congruence. Qed.

(** ** digits *)

Definition stops (l : string) : Prop :=
  match l with String c _ => digit c = None | EmptyString => True end.

Lemma of_uint_acc u : forall p, Npos (Pos.of_uint_acc u p) = (Npos p * 10 ^ N.of_nat (nb_digits u) + N.of_uint u)%N.
Proof.
  induction u; intros p; cbn [Pos.of_uint_acc nb_digits]; try rewrite Nat2N.inj_succ, N.pow_succ_r';
    [rewrite N.mul_1_r; cbn; lia|..]; rewrite IHu;
    match goal with |- context [N.of_uint (?d ?u)] =>
      lazymatch d with
      | D0 => change (N.of_uint (d u)) with (N.of_uint u)
      | _ => let e := eval cbn in (N.of_uint (d u)) in change (N.of_uint (d u)) with e; rewrite (IHu _)
      end
    end; lia.
Qed.

Lemma scan_digits u : forall acc count rest, stops rest ->
  scanDigits acc count (digits u ++ rest) =
  ((acc * 10 ^ N.of_nat (nb_digits u) + N.of_uint u)%N, (count + nb_digits u)%nat, rest).
Proof.
  assert (S : forall acc count c d l, digit c = Some d ->
    scanDigits acc count (String c l) = scanDigits (10 * acc + d) (count + 1) l) by (intros; cbn; rewrite H; auto).
  unfold digits. induction u; intros acc count rest H; cbn [NilEmpty.string_of_uint append nb_digits].
  { rewrite Nat.add_0_r, N.pow_0_r, N.mul_1_r, N.add_0_r.
    destruct rest; cbn [scanDigits]; auto. cbn [stops] in H. rewrite H. auto. }
  all: match goal with |- scanDigits _ _ (String ?c _) = _ =>
         let d := eval vm_compute in (digit c) in
         match d with Some ?n => rewrite (S _ _ c n _ eq_refl) end
       end; rewrite IHu by auto; f_equal; f_equal; [|lia].
  all: rewrite Nat2N.inj_succ, N.pow_succ_r';
    match goal with |- context [N.of_uint (?d ?u)] =>
      lazymatch d with
      | D0 => change (N.of_uint (d u)) with (N.of_uint u)
      | _ => let e := eval cbn in (N.of_uint (d u)) in change (N.of_uint (d u)) with e; rewrite (of_uint_acc u)
      end
    end; lia.
Qed.

Lemma digits_nil u : u <> Nil -> (0 < nb_digits u)%nat.
Proof. destruct u; cbn; try lia. congruence. Qed.

(** the first character of digits is a digit *)
Lemma digits_first u rest : u <> Nil -> exists c l d, digits u ++ rest = String c l /\ digit c = Some d.
Proof. destruct u; try congruence; intros _; cbn; do 3 eexists; split; reflexivity. Qed.

Lemma white_space c : white c -> isSpace c = true /\ digit c = None /\
  c <> "e"%char /\ c <> "E"%char /\ c <> "."%char.
Proof. unfold white. cbn. intros H. repeat destruct H as [<-|H]; try contradiction; repeat split; discriminate. Qed.
Lemma skip_white w rest : allChars white w -> skipSpaces (w ++ rest) = skipSpaces rest.
Proof.
  induction w as [|c w IH]; cbn; auto. intros [H1 H2]. apply white_space in H1. destruct H1 as [-> _]. auto.
Qed.
Lemma digit_no_space c d : digit c = Some d ->
  isSpace c = false /\ c <> "-"%char /\ c <> "+"%char.
Proof.
  unfold digit, isSpace. intros H. destruct (_ && _)%N eqn:E; [|discriminate].
  apply andb_true_iff in E. destruct E as [E1 E2]. apply N.leb_le in E1, E2.
  assert (K : nat_of_ascii c = N.to_nat (N_of_ascii c)) by reflexivity. split.
  - rewrite K. repeat (apply orb_false_iff; split).
    + apply Nat.eqb_neq. lia.
    + apply andb_false_iff. right. apply Nat.leb_gt. lia.
  - split; intros ->; cbn in E1; lia.
Qed.
Lemma skip_digits u rest : u <> Nil -> skipSpaces (digits u ++ rest) = digits u ++ rest /\
  scanSign (digits u ++ rest) = (false, digits u ++ rest).
Proof.
  intros H. destruct (digits_first u rest H) as (c & l & d & -> & D).
  apply digit_no_space in D. destruct D as (D1 & D2 & D3). cbn. rewrite D1.
  destruct (Ascii.eqb_spec c "-"); [contradiction|]. destruct (Ascii.eqb_spec c "+"); [contradiction|]. auto.
Qed.

Lemma scan_size w u rest : allChars white w -> u <> Nil -> (N.of_uint u < 2 ^ 64)%N -> stops rest ->
  scanSize (w ++ digits u ++ rest) = Some (N.of_uint u, rest).
Proof.
  intros W U B S. unfold scanSize. rewrite skip_white by auto.
  destruct (skip_digits u rest U) as [-> ->]. rewrite scan_digits by auto.
  rewrite N.mul_0_l, N.add_0_l. apply digits_nil in U.
  destruct (0 + nb_digits u)%nat eqn:E; [lia|].
  destruct (N.leb_spec (2 ^ 64) (N.of_uint u)); [lia|]. auto.
Qed.

Lemma stops_white w rest : w <> "" -> allChars white w -> stops (w ++ rest).
Proof. destruct w; [congruence|]. cbn. intros _ [H _]. apply white_space in H. tauto. Qed.

(** ** decimal numbers *)

Definition ends (l : string) : Prop :=
  match l with String c _ => white c | EmptyString => True end.
Lemma ends_stops l : ends l -> stops l.
Proof. destruct l; cbn; auto. intros H. apply white_space in H. tauto. Qed.

Definition noSign (l : string) : Prop :=
  match l with String c _ => isSpace c = false /\ c <> "-"%char /\ c <> "+"%char | EmptyString => True end.
Lemma scan_sign sg neg l : signText sg neg -> noSign l ->
  skipSpaces (sg ++ l) = sg ++ l /\ scanSign (sg ++ l) = (neg, l).
Proof.
  intros H N. destruct neg; cbn [signText] in H; [subst; auto|]. destruct H as [-> | ->]; [|auto]. cbn [append].
  destruct l as [|c l]; auto. cbn [noSign] in N. destruct N as (N1 & N2 & N3). cbn. rewrite N1.
  destruct (Ascii.eqb_spec c "-"); [contradiction|]. destruct (Ascii.eqb_spec c "+"); [contradiction|]. auto.
Qed.
Lemma digits_noSign u l : u <> Nil -> noSign (digits u ++ l).
Proof.
  intros H. destruct (digits_first u l H) as (c & l' & d & -> & D). exact (digit_no_space c d D).
Qed.

Lemma scan_exponent ex x rest :
  ((ex = "" /\ x = 0%Z) \/
   exists c sx negx ux, ex = String c (sx ++ digits ux) /\ (c = "e" \/ c = "E")%char /\
     signText sx negx /\ ux <> Nil /\ x = signed negx (Z.of_N (N.of_uint ux))) ->
  ends rest -> scanExponent (ex ++ rest) = Some (x, rest).
Proof.
  intros [[-> ->]|(c & sx & negx & ux & -> & C & S & U & ->)] E; cbn [append].
  - destruct rest as [|c rest]; auto. cbn. cbn [ends] in E. apply white_space in E.
    destruct E as (_ & _ & E1 & E2 & _).
    destruct (Ascii.eqb_spec c "e"); [contradiction|]. destruct (Ascii.eqb_spec c "E"); [contradiction|]. auto.
  - unfold scanExponent. replace (_ || _)%bool with true by (destruct C as [-> | ->]; reflexivity).
    rewrite app_assoc_s. destruct (scan_sign sx negx (digits ux ++ rest) S (digits_noSign _ _ U)) as [_ ->].
    rewrite scan_digits by (apply ends_stops; auto). rewrite N.mul_0_l, N.add_0_l. apply digits_nil in U.
    destruct (0 + nb_digits ux)%nat eqn:E'; [lia|]. destruct negx; auto.
Qed.

Lemma scan_decimal w s d rest : allChars white w -> decimalText s d -> ends rest ->
  scanDecimal (w ++ s ++ rest) = Some (d, rest).
Proof.
  intros W D E. destruct d as [[neg m] e].
  destruct D as (sg & ui & frac & uf & ex & x & -> & S & FR & U & EX & Hm & He).
  unfold scanDecimal. rewrite skip_white by auto. rewrite !app_assoc_s.
  assert (N : noSign (digits ui ++ frac ++ ex ++ rest)).
  { destruct ui; try (apply digits_noSign; congruence). destruct U as [U|U]; [congruence|].
    destruct FR as [[_ ->]| ->]; [congruence|]. cbn. repeat split; discriminate. }
  destruct (scan_sign sg neg _ S N) as [-> ->]. clear N.
  assert (ST : stops (ex ++ rest)).
  { destruct EX as [[-> _]|(c & sx & negx & ux & -> & C & _)]; [apply ends_stops; auto|].
    cbn. destruct C as [-> | ->]; reflexivity. }
  assert (SF : stops (frac ++ ex ++ rest)).
  { destruct FR as [[-> _]| ->]; [auto|reflexivity]. }
  rewrite scan_digits by auto. rewrite N.mul_0_l, N.add_0_l.
  destruct FR as [[-> ->]| ->]; cbn [append].
  - assert (G : match ex ++ rest with
      | String c l' => if Ascii.eqb c "." then
          let '(m0, frac, l') := scanDigits (N.of_uint ui) 0 l' in (m0, (0 + nb_digits ui + frac)%nat, frac, l')
          else (N.of_uint ui, (0 + nb_digits ui)%nat, 0%nat, ex ++ rest)
      | EmptyString => (N.of_uint ui, (0 + nb_digits ui)%nat, 0%nat, ex ++ rest) end =
      (N.of_uint ui, (0 + nb_digits ui)%nat, 0%nat, ex ++ rest)).
    { destruct (ex ++ rest) as [|c l] eqn:L; auto.
      destruct (Ascii.eqb_spec c "."); auto. exfalso. subst c.
      destruct EX as [[-> _]|(c & sx & negx & ux & -> & C & _)].
      - cbn in L. subst rest. cbn in E. apply white_space in E. intuition.
      - cbn in L. injection L as L _. subst c. destruct C; discriminate. }
    rewrite G. clear G. destruct U as [U|U]; [|congruence]. apply digits_nil in U.
    destruct (0 + nb_digits ui)%nat eqn:K; [lia|]. rewrite (scan_exponent ex x rest) by auto.
    f_equal. f_equal. cbn [nb_digits] in Hm, He. rewrite N.pow_0_r, N.mul_1_r in Hm. cbn in Hm.
    rewrite N.add_0_r in Hm. subst m e. auto.
  - change (String "." (digits uf) ++ ex ++ rest) with (String "." (digits uf ++ ex ++ rest)).
    cbv beta iota. change (Ascii.eqb "." ".") with true. cbv iota.
    rewrite scan_digits by auto.
    assert (0 < 0 + nb_digits ui + (0 + nb_digits uf))%nat.
    { destruct U as [U|U]; apply digits_nil in U; lia. }
    destruct (0 + nb_digits ui + (0 + nb_digits uf))%nat eqn:K; [lia|].
    rewrite (scan_exponent ex x rest) by auto. subst m e. auto.
Qed.

(** ** lines *)

Lemma scan_header l nr nc nnz : headerText l nr nc nnz -> scanHeader l = Some (nr, nc, nnz).
Proof.
  intros (s1 & s2 & s3 & (w1 & w2 & w3 & rest & -> & W1 & W2 & W3 & N2 & N3 & E) &
    (u1 & -> & U1 & V1 & B1) & (u2 & -> & U2 & V2 & B2) & (u3 & -> & U3 & V3 & B3)).
  unfold scanHeader. rewrite scan_size by (auto using stops_white).
  rewrite scan_size by (auto using stops_white).
  rewrite scan_size by (auto; apply ends_stops; auto).
  rewrite V1, V2, V3, !Nat2N.id. auto.
Qed.

Lemma scan_entry {F} (conv : decimal -> F) l r c d : entryText l (r, c, d) ->
  scanEntry conv l = Some ((r + 1)%nat, (c + 1)%nat, conv d).
Proof.
  intros (s1 & s2 & s3 & (w1 & w2 & w3 & rest & -> & W1 & W2 & W3 & N2 & N3 & E) &
    (u1 & -> & U1 & V1 & B1) & (u2 & -> & U2 & V2 & B2) & D).
  unfold scanEntry. rewrite scan_size by (auto using stops_white).
  rewrite scan_size by (auto using stops_white).
  rewrite (scan_decimal w3 s3 d rest) by auto.
  rewrite V1, V2, !Nat2N.id. auto.
Qed.

Lemma lines_line l : forall acc rest, noNewline l ->
  lines_from acc (l ++ String newline rest) = (acc ++ l) :: lines_from "" rest.
Proof.
  induction l as [|c l IH]; intros acc rest H; cbn [append lines_from].
  - rewrite app_nil_s. auto.
  - destruct H as [H1 H2]. destruct (Ascii.eqb_spec c "010"); [contradiction|].
    rewrite IH by auto. f_equal. rewrite app_assoc_s. auto.
Qed.
Lemma lines_last l : forall acc, noNewline l ->
  lines_from acc l = match acc ++ l with "" => [] | s => [s] end.
Proof.
  induction l as [|c l IH]; intros acc H; cbn [lines_from].
  - rewrite app_nil_s. destruct acc; auto.
  - destruct H as [H1 H2]. destruct (Ascii.eqb_spec c "010"); [contradiction|].
    rewrite IH by auto. rewrite app_assoc_s. auto.
Qed.
Lemma lines_more ls : forall text, Forall noNewline ls ->
  getlines (unlines ls ++ text) = (ls ++ getlines text)%list.
Proof.
  unfold getlines. induction ls as [|l ls IH]; intros text H; cbn [unlines append app]; auto.
  inversion_clear H. rewrite app_assoc_s. cbn [append]. rewrite lines_line by auto. cbn [append]. rewrite IH by auto. reflexivity.
Qed.
Lemma lines_text text ls : textOf text ls -> getlines text = ls.
Proof.
  intros (H & [-> |(ls' & l & -> & N & ->)]).
  - rewrite <- (app_nil_s (unlines ls)), lines_more by auto. cbn. apply app_nil_r.
  - apply Forall_app in H. destruct H as [H1 H2]. inversion_clear H2.
    rewrite lines_more by auto. f_equal. unfold getlines. rewrite lines_last by auto. cbn.
    destruct l; [congruence|auto].
Qed.
