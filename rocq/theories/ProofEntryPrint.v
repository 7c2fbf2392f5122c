(** A printed entry can be read. *)
From Coq Require Import String Ascii Arith List Lia Decimal DecimalFacts DecimalString DecimalNat.
From Verif Require Import Base ModelSparsity ModelEntryPrint SpecEntryPrint.
Local Open Scope nat_scope.

Definition noDigit (s : string) : Prop :=
  match s with EmptyString => True | String c _ => digitValue c = None end.

Lemma readDigits_uint u : forall acc rest, noDigit rest ->
  readDigits acc (NilEmpty.string_of_uint u ++ rest) = (Nat.of_uint_acc u acc, rest).
Proof.
  induction u as [|u IH|u IH|u IH|u IH|u IH|u IH|u IH|u IH|u IH|u IH]; intros acc rest H.
  1: { cbn. destruct rest as [|c s]; cbn in *; [auto|]. rewrite H. auto. }
  all: cbn [NilEmpty.string_of_uint append readDigits Nat.of_uint_acc]; rewrite Nat.tail_mul_spec.
  all: match goal with |- context[digitValue ?c] => let v := eval vm_compute in (digitValue c) in change (digitValue c) with v end.
  all: cbv iota; rewrite IH by auto; f_equal; f_equal; lia.
Qed.

Lemma to_uint_norm n : unorm (Nat.to_uint n) = Nat.to_uint n.
Proof. rewrite <- Unsigned.to_of, Unsigned.of_to. reflexivity. Qed.

Lemma readSize_print n rest : noDigit rest -> readSize (printSize n ++ rest) = Some (n, rest).
Proof.
  intros H. unfold printSize. rewrite <- (Unsigned.of_to n) at 2. pose proof (to_uint_norm n) as N.
  set (u := Nat.to_uint n) in *. clearbody u.
  unfold Nat.of_uint. destruct u as [|u|u|u|u|u|u|u|u|u|u].
  - discriminate N.
  - assert (u = Nil) as ->.
    { unfold unorm in N. destruct (nzhead (D0 u)) eqn:E; try discriminate N.
      - injection N as <-. reflexivity.
      - exfalso. eapply nzhead_nonzero. exact E. }
    cbn. destruct rest as [|c s]; cbn in *; [auto|]. rewrite H. auto.
  - cbn [NilZero.string_of_uint NilEmpty.string_of_uint append readSize].
    change (digitValue "1") with (Some 1). cbv iota. rewrite readDigits_uint by auto. reflexivity.
  - cbn [NilZero.string_of_uint NilEmpty.string_of_uint append readSize].
    change (digitValue "2") with (Some 2). cbv iota. rewrite readDigits_uint by auto. reflexivity.
  - cbn [NilZero.string_of_uint NilEmpty.string_of_uint append readSize].
    change (digitValue "3") with (Some 3). cbv iota. rewrite readDigits_uint by auto. reflexivity.
  - cbn [NilZero.string_of_uint NilEmpty.string_of_uint append readSize].
    change (digitValue "4") with (Some 4). cbv iota. rewrite readDigits_uint by auto. reflexivity.
  - cbn [NilZero.string_of_uint NilEmpty.string_of_uint append readSize].
    change (digitValue "5") with (Some 5). cbv iota. rewrite readDigits_uint by auto. reflexivity.
  - cbn [NilZero.string_of_uint NilEmpty.string_of_uint append readSize].
    change (digitValue "6") with (Some 6). cbv iota. rewrite readDigits_uint by auto. reflexivity.
  - cbn [NilZero.string_of_uint NilEmpty.string_of_uint append readSize].
    change (digitValue "7") with (Some 7). cbv iota. rewrite readDigits_uint by auto. reflexivity.
  - cbn [NilZero.string_of_uint NilEmpty.string_of_uint append readSize].
    change (digitValue "8") with (Some 8). cbv iota. rewrite readDigits_uint by auto. reflexivity.
  - cbn [NilZero.string_of_uint NilEmpty.string_of_uint append readSize].
    change (digitValue "9") with (Some 9). cbv iota. rewrite readDigits_uint by auto. reflexivity.
Qed.

Lemma append_assoc' (a b c : string) : ((a ++ b) ++ c = a ++ (b ++ c))%string.
Proof. induction a as [|x a IH]; [reflexivity|]. cbn [append]. rewrite IH. reflexivity. Qed.

Lemma skip_append p s : skip p (p ++ s) = Some s.
Proof. induction p as [|a p IH]; [reflexivity|]. cbn [append skip]. rewrite Ascii.eqb_refl. exact IH. Qed.

Lemma entry_read e rest : readEntry (printEntry e ++ rest) = Some (e, rest).
Proof.
  destruct e as [r c]. unfold readEntry, printEntry. cbn [fst snd].
  rewrite !append_assoc', skip_append, readSize_print by reflexivity.
  rewrite skip_append, readSize_print by reflexivity. rewrite skip_append. reflexivity.
Qed.

Lemma entries_read sep l rest :
  readEntries sep (List.length l) (fold_right (fun e s => printEntry e ++ sep ++ s)%string rest l) = Some (l, rest).
Proof.
  induction l as [|e l IH]; [reflexivity|].
  cbn [fold_right List.length readEntries]. rewrite entry_read, skip_append, IH. reflexivity.
Qed.

Lemma entry_print_inj e1 e2 r1 r2 : (printEntry e1 ++ r1 = printEntry e2 ++ r2)%string -> e1 = e2 /\ r1 = r2.
Proof.
  intros H. pose proof (entry_read e1 r1) as X. rewrite H, entry_read in X. injection X as -> ->. auto.
Qed.
