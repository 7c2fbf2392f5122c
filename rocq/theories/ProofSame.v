(** The product and the factorization mean the same matrix exactly for inputs
    without duplicates and without entries above the diagonal. *)
From Coq Require Import List Arith Lia Bool Ring.
From Verif Require Import Base ModelPerm ModelSparsity ModelSymbolic ModelNumeric.
From Verif Require Import SpecSymbolic SpecArrow SpecNumeric.
From Verif Require Import ProofBase ProofDense ProofExact ProofMultiply ProofPropSingle.
Import ListNotations.

Section Same.
  Context {F : Type} (O : ops F) (FL : fieldLaws O).
  Add Ring FrSame : (fl_ring FL).
  Local Notation one := (fl_one FL).

  (** the value one at place number k, zero elsewhere *)
  Fixpoint unitVals (len k : nat) : list F :=
    match len with
    | 0 => []
    | S len' => match k with
                | 0 => one :: repeat (o0 O) len'
                | S k' => o0 O :: unitVals len' k'
                end
    end.

  Lemma unitVals_length len k : length (unitVals len k) = len.
  Proof. revert k. induction len; intros [|k]; cbn; auto. rewrite repeat_length. auto. Qed.

  Lemma total_zero es len i j : totalAt O es (repeat (o0 O) len) i j = o0 O.
  Proof.
    unfold totalAt. revert len. induction es as [|e es IH]; intros [|len]; cbn; auto.
    fold (suml O (combine es (repeat (o0 O) len))
      (fun e => if (fst (fst e) =? i) && (snd (fst e) =? j) then snd e else o0 O)).
    rewrite IH. destruct (_ && _); ring.
  Qed.

  Lemma total_unit es k i j :
    nth_error es k = Some (i, j) -> totalAt O es (unitVals (length es) k) i j = one.
  Proof.
    unfold totalAt. revert k. induction es as [|e es IH]; intros [|k] H; try discriminate;
      cbn [length unitVals combine suml fold_right fst snd].
    - cbn in H. injection H as ->. cbn [fst snd]. rewrite !Nat.eqb_refl. cbn [andb].
      fold (suml O (combine es (repeat (o0 O) (length es)))
        (fun e => if (fst (fst e) =? i) && (snd (fst e) =? j) then snd e else o0 O)).
      pose proof (total_zero es (length es) i j) as E. unfold totalAt in E. rewrite E. ring.
    - fold (suml O (combine es (unitVals (length es) k))
        (fun e => if (fst (fst e) =? i) && (snd (fst e) =? j) then snd e else o0 O)).
      rewrite (IH k H). destruct (_ && _); ring.
  Qed.

  (** other positions are zero *)
  Lemma total_unit_other es k i j r c :
    nth_error es k = Some (r, c) -> (r, c) <> (i, j) ->
    totalAt O es (unitVals (length es) k) i j = o0 O.
  Proof.
    unfold totalAt. revert k. induction es as [|e es IH]; intros [|k] H N; try discriminate;
      cbn [length unitVals combine suml fold_right fst snd].
    - cbn in H. injection H as ->. cbn [fst snd].
      fold (suml O (combine es (repeat (o0 O) (length es)))
        (fun e => if (fst (fst e) =? i) && (snd (fst e) =? j) then snd e else o0 O)).
      pose proof (total_zero es (length es) i j) as E. unfold totalAt in E. rewrite E.
      destruct (Nat.eqb_spec r i) as [->|]; destruct (Nat.eqb_spec c j) as [->|]; cbn [andb];
        try ring. destruct N. auto.
    - fold (suml O (combine es (unitVals (length es) k))
        (fun e => if (fst (fst e) =? i) && (snd (fst e) =? j) then snd e else o0 O)).
      rewrite (IH k H N). destruct (_ && _); ring.
  Qed.

  Lemma dense_zero es len i j : denseAt O es (repeat (o0 O) len) i j = o0 O.
  Proof.
    unfold denseAt. revert len. induction es as [|[r c] es IH]; intros [|len];
      cbn [repeat combine firstValue]; auto. destruct (_ && _); auto.
  Qed.

  (** the first value does not see a later entry at the same position *)
  Lemma dense_unit_later es k k' i j :
    k' < k -> nth_error es k' = Some (i, j) ->
    denseAt O es (unitVals (length es) k) i j = o0 O.
  Proof.
    unfold denseAt. revert k k'. induction es as [|[r c] es IH]; intros k k' Hk H;
      [destruct k'; discriminate|].
    destruct k as [|k]; [lia|]. cbn [length unitVals combine firstValue].
    destruct k' as [|k']; cbn [nth_error] in H.
    - injection H as -> ->. rewrite !Nat.eqb_refl. reflexivity.
    - destruct (_ && _); auto. apply (IH k k'); auto. lia.
  Qed.

  Lemma dense_unit_other es k r c i j :
    nth_error es k = Some (r, c) -> (r, c) <> (i, j) ->
    denseAt O es (unitVals (length es) k) i j = o0 O.
  Proof.
    unfold denseAt. revert k. induction es as [|[r' c'] es IH]; intros [|k] H N; try discriminate;
      cbn [length unitVals combine firstValue nth_error] in *.
    - injection H as -> ->.
      destruct (Nat.eqb_spec r i) as [->|]; destruct (Nat.eqb_spec c j) as [->|]; cbn [andb];
        try apply dense_zero. destruct N. auto.
    - destruct (_ && _); auto.
  Qed.

  Definition upperAt (es : list (nat * nat)) := exists r c, In (r, c) es /\ r < c.

  Theorem same_exactly_clean a n :
    spOf a n n -> ~ (NoDup (entries a) /\ forall r c, In (r, c) (entries a) -> c <= r) ->
    exists vals, length vals = length (entries a) /\
      exists i j, i < n /\ j < n /\
        kindAt O Symmetric (entries a) vals i j <> symAt O (entries a) vals i j.
  Proof.
    intros [_ _ B] N. set (es := entries a) in *.
    assert (D : forall x y : nat * nat, {x = y} + {x <> y}) by (decide equality; apply Nat.eq_dec).
    assert (HL : (exists r c, In (r, c) es /\ r < c) \/ (forall r c, In (r, c) es -> c <= r)).
    { clear. induction es as [|[r c] es IH]; [right; intros ? ? []|].
      destruct IH as [(r' & c' & H & L)|IH]; [left; exists r', c'; split; auto; right; auto|].
      destruct (Nat.lt_ge_cases r c); [left; exists r, c; split; auto; left; auto|].
      right. intros r' c' [E|H']; [injection E as <- <-; auto|auto]. }
    destruct HL as [(r & c & H & L)|LT].
    - (* an entry above the diagonal *)
      destruct (B r c H) as [Hr Hc].
      destruct (In_nth_error es (r, c) H) as [k Hk].
      exists (unitVals (length es) k). split; [apply unitVals_length|].
      exists c, r. split; auto. split; auto. unfold kindAt, symAt.
      rewrite Nat.max_l, Nat.min_r by lia.
      replace (c =? r) with false by (symmetry; apply Nat.eqb_neq; lia).
      rewrite (total_unit es k r c Hk).
      rewrite (total_unit_other es k c r r c Hk) by (intros E; injection E; lia).
      rewrite (dense_unit_other es k r c c r Hk) by (intros E; injection E; lia).
      intros E. apply (fl_10 FL). rewrite <- E. ring.
    - (* a duplicate *)
      assert (DU : exists k k' r c, k' < k /\ nth_error es k' = Some (r, c) /\
                     nth_error es k = Some (r, c)).
      { destruct (ListDec.NoDup_dec D es) as [ND|ND]; [destruct N; auto|].
        clear - ND D. induction es as [|e es IH]; [destruct ND; constructor|].
        destruct (in_dec D e es) as [Hin|Hn].
        - destruct (In_nth_error es e Hin) as [k Hk]. destruct e as [r c].
          exists (S k), 0, r, c. split; [lia|]. auto.
        - destruct IH as (k & k' & r & c & H1 & H2 & H3); [intros H; apply ND; constructor; auto|].
          exists (S k), (S k'), r, c. split; [lia|]. auto. }
      destruct DU as (k & k' & r & c & Hlt & H' & H).
      pose proof (nth_error_In _ _ H) as Hin. destruct (B r c Hin) as [Hr Hc]. pose proof (LT r c Hin).
      exists (unitVals (length es) k). split; [apply unitVals_length|].
      exists r, c. split; auto. split; auto. unfold symAt.
      rewrite Nat.max_l, Nat.min_r by lia. rewrite (dense_unit_later es k k' r c) by auto.
      unfold kindAt. destruct (Nat.eqb_spec r c) as [<-|NE].
      + rewrite (total_unit es k r r H). apply (fl_10 FL).
      + rewrite (total_unit es k r c H).
        rewrite (total_unit_other es k c r r c H) by (intros E; injection E; lia).
        intros E. apply (fl_10 FL). rewrite <- E. ring.
  Qed.

  Theorem clean_product m a vals n x rhs :
    spOf a n n -> inputOf O m a vals -> length x = n -> length rhs = n ->
    NoDup (entries a) -> (forall r c, In (r, c) (entries a) -> c <= r) ->
    exists r, multiply O Symmetric m x rhs = Ok r /\ length r = n /\
      forall i, i < n ->
        vecAt O r i = oadd O (vecAt O rhs i) (matVec O n (symAt O (entries a) vals) x i).
  Proof.
    intros HS HI NX NR ND LT.
    destruct (multiply_symmetric O FL m a vals n x rhs HS HI NX NR) as (r & E & N & H).
    exists r. split; auto. split; auto. intros i Hi. rewrite H by auto. f_equal.
    apply sumn_ext. intros j Hj. f_equal.
    rewrite <- (kindAt_sym O FL (entries a) vals i j); auto. apply (io_len _ _ _ _ HI).
  Qed.
End Same.
