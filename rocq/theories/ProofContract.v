(** Messages of violated conditions, texts of permutations. *)
From Coq Require Import List Arith Bool NArith String Ascii Lia.
From Coq Require DecimalString DecimalN.
From Verif Require Import ModelContract SpecContract.
Import ListNotations.
Local Open Scope string_scope.

Lemma app_inj_head a s t : a ++ s = a ++ t -> s = t.
Proof. induction a; cbn; auto. intros H. injection H as H. auto. Qed.
Lemma app_assoc_s a b c : (a ++ b) ++ c = a ++ (b ++ c).
Proof. induction a; cbn; congruence. Qed.
Lemma app_empty_s a : a ++ "" = a.
Proof. induction a; cbn; congruence. Qed.

(** the text before the first c *)
Lemma split_first c a b s t : avoids c a -> avoids c b -> a ++ String c s = b ++ String c t -> a = b /\ s = t.
Proof.
  revert b. induction a as [|x a IH]; intros [|y b] A B E; cbn in *.
  - injection E as E. auto.
  - injection E as E1 E2. destruct B as [B _]. congruence.
  - injection E as E1 E2. destruct A as [A _]. congruence.
  - injection E as E1 E2. destruct A as [_ A], B as [_ B]. destruct (IH b A B E2) as [-> ->]. subst. auto.
Qed.

Definition isDigit (c : ascii) : Prop := In c ["0"; "1"; "2"; "3"; "4"; "5"; "6"; "7"; "8"; "9"]%char.
Fixpoint digits (s : string) : Prop :=
  match s with
  | EmptyString => True
  | String x s' => isDigit x /\ digits s'
  end.
Lemma digits_uint d : digits (DecimalString.NilEmpty.string_of_uint d).
Proof. induction d; cbn; unfold isDigit; cbn; tauto. Qed.
Lemma digits_show n : digits (showN n).
Proof.
  unfold showN, DecimalString.NilZero.string_of_uint.
  destruct (N.to_uint n) as [|d|d|d|d|d|d|d|d|d|d] eqn:E; try apply digits_uint.
  cbn. unfold isDigit. cbn. tauto.
Qed.
Lemma digits_avoid c s : ~ isDigit c -> digits s -> avoids c s.
Proof. intros N. induction s; cbn; auto. intros [H1 H2]. split; auto. intros ->. auto. Qed.
Lemma show_nonempty n : showN n <> "".
Proof.
  unfold showN, DecimalString.NilZero.string_of_uint. destruct (N.to_uint n); discriminate.
Qed.
Lemma show_inj n m : showN n = showN m -> n = m.
Proof.
  unfold showN. intros H. apply DecimalN.Unsigned.to_uint_inj.
  assert (NN : forall k, N.to_uint k <> Decimal.Nil).
  { intros k E. pose proof (f_equal N.of_uint E) as E'. rewrite DecimalN.Unsigned.of_to in E'. cbn in E'. subst k.
    discriminate E. }
  assert (E : Some (N.to_uint n) = Some (N.to_uint m)).
  { rewrite <- !DecimalString.NilZero.usu by auto. f_equal. exact H. }
  congruence.
Qed.

Lemma not_digit_space : ~ isDigit " "%char.
Proof. unfold isDigit. cbn. intros H. repeat (destruct H as [H|H]; [discriminate|]). auto. Qed.
Lemma not_digit_close : ~ isDigit "]"%char.
Proof. unfold isDigit. cbn. intros H. repeat (destruct H as [H|H]; [discriminate|]). auto. Qed.

(** the message tells the kind and the place *)
Lemma message_inj k1 k2 l1 l2 :
  avoids " "%char k1 -> avoids " "%char k2 -> avoids ":"%char (loc_file l1) -> avoids ":"%char (loc_file l2) ->
  violation k1 l1 = violation k2 l2 -> k1 = k2 /\ l1 = l2.
Proof.
  intros K1 K2 F1 F2 E. unfold violation in E.
  assert (E' : "Contract " ++ k1 ++ " violation at " ++ loc_file l1 ++ ":" ++ showN (loc_line l1) ++
              " in function " ++ loc_function l1 = "Contract " ++ k2 ++ " violation at " ++ loc_file l2 ++ ":" ++ showN (loc_line l2) ++
              " in function " ++ loc_function l2) by congruence.
  clear E. apply app_inj_head in E'.
  change (" violation at " ++ loc_file l1 ++ ":" ++ showN (loc_line l1) ++ " in function " ++ loc_function l1)
    with (String " " ("violation at " ++ loc_file l1 ++ ":" ++ showN (loc_line l1) ++ " in function " ++ loc_function l1)) in E'.
  change (" violation at " ++ loc_file l2 ++ ":" ++ showN (loc_line l2) ++ " in function " ++ loc_function l2)
    with (String " " ("violation at " ++ loc_file l2 ++ ":" ++ showN (loc_line l2) ++ " in function " ++ loc_function l2)) in E'.
  apply split_first in E'; auto. destruct E' as [-> E']. split; auto.
  apply app_inj_head in E'. apply (split_first ":") in E'; auto. destruct E' as [EF E'].
  change (" in function " ++ loc_function l1) with (String " " ("in function " ++ loc_function l1)) in E'.
  change (" in function " ++ loc_function l2) with (String " " ("in function " ++ loc_function l2)) in E'.
  apply (split_first " ") in E'; try (apply digits_avoid; [exact not_digit_space|apply digits_show]).
  destruct E' as [EL E']. apply show_inj in EL. apply app_inj_head in E'.
  destruct l1, l2. cbn in *. subst. auto.
Qed.

Definition texts (l : list N) : string := fold_right (fun p s => " " ++ showN p ++ s) "" l.
Lemma fold_texts l s : fold_left (fun s p => s ++ " " ++ showN p) l s = s ++ texts l.
Proof.
  revert s. induction l; intros s; cbn [fold_left]; [symmetry; apply app_empty_s|].
  rewrite IHl, app_assoc_s. reflexivity.
Qed.

(** a digit string is determined by what follows, if that starts with no digit *)
Lemma digits_split a b s t : digits a -> digits b ->
  (forall c r, s = String c r -> ~ isDigit c) -> (forall c r, t = String c r -> ~ isDigit c) ->
  a ++ s = b ++ t -> a = b /\ s = t.
Proof.
  revert b. induction a as [|x a IH]; intros [|y b] A B NS NT E; cbn in *; auto.
  - exfalso. destruct B as [B _]. apply (NS y _ E B).
  - exfalso. destruct A as [A _]. apply (NT x (a ++ s)); auto.
  - injection E as E1 E2. destruct A as [_ A], B as [_ B]. destruct (IH b A B NS NT E2) as [-> ->]. subst. auto.
Qed.
Lemma texts_head l c r : texts l ++ "]" = String c r -> ~ isDigit c.
Proof.
  destruct l; cbn; intros H; injection H as <- _; [apply not_digit_close|apply not_digit_space].
Qed.
Lemma texts_inj l m : texts l ++ "]" = texts m ++ "]" -> l = m.
Proof.
  revert m. induction l as [|x l IH]; intros [|y m] H; auto; try discriminate H.
  cbn [texts fold_right] in H. fold (texts l) in H. fold (texts m) in H.
  rewrite !app_assoc_s in H. apply app_inj_head in H.
  apply digits_split in H; try apply digits_show; try apply texts_head.
  destruct H as [H1 H2]. apply show_inj in H1. apply IH in H2. congruence.
Qed.
Lemma testInfo_inj l m : toTestInfo l = toTestInfo m -> l = m.
Proof.
  destruct l as [|x l], m as [|y m]; auto; unfold toTestInfo; rewrite ?fold_texts; intros H.
  - exfalso. cbn [append] in H. injection H as H.
    destruct (showN y) as [|c s] eqn:E; [apply (show_nonempty y E)|]. cbn in H. injection H as H _. subst c.
    pose proof (digits_show y) as D. rewrite E in D. cbn in D. apply not_digit_close. apply D.
  - exfalso. cbn [append] in H. injection H as H.
    destruct (showN x) as [|c s] eqn:E; [apply (show_nonempty x E)|]. cbn in H. injection H as H _. subst c.
    pose proof (digits_show x) as D. rewrite E in D. cbn in D. apply not_digit_close. apply D.
  - cbn [append] in H. injection H as H. 
    apply digits_split in H; try apply digits_show; try apply texts_head.
    destruct H as [H1 H2]. apply show_inj in H1. apply texts_inj in H2. congruence.
Qed.

Definition kindName (k : kind) : string :=
  match k with KPre => "precondition" | KPost => "postcondition" | KAssert => "assertion" end.
Lemma check_false u k site l : check u k site false (Some l) = violation (kindName k) l.
Proof. destruct k; reflexivity. Qed.
Lemma check_message u1 u2 k1 k2 s1 s2 l1 l2 :
  avoids ":"%char (loc_file l1) -> avoids ":"%char (loc_file l2) ->
  check u1 k1 s1 false (Some l1) = check u2 k2 s2 false (Some l2) -> k1 = k2 /\ l1 = l2.
Proof.
  intros A1 A2 H. rewrite !check_false in H. apply message_inj in H; auto.
  - destruct H as [H ->]. split; auto. destruct k1, k2; auto; discriminate H.
  - destruct k1; cbn; repeat split; discriminate.
  - destruct k2; cbn; repeat split; discriminate.
Qed.
Lemma check_throws u k site given : exists what, check u k site false given = LogicError what.
Proof. destruct k; eexists; reflexivity. Qed.
Lemma check_site u k s1 s2 : check u k s1 false None = check u k s2 false None.
Proof. destruct k; reflexivity. Qed.
