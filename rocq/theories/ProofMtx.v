(** The matrix market reader. *)
From Coq Require Import String Ascii List Arith Lia Bool Permutation.
From Verif Require Import Base ModelPerm ModelSparsity ModelSymbolic ModelNumeric ModelArrow ModelMtx.
From Verif Require Import SpecSymbolic SpecArrow SpecNumeric SpecArrowNum SpecMtx.
From Verif Require Import ProofBase ProofPerm ProofCsr ProofSparsity ProofArrowSym ProofArrowProduct
  ProofPropSymbolic.
Import ListNotations.
Local Open Scope nat_scope.
Local Open Scope list_scope.

Lemma is_comment_spec l : is_comment l = true <-> commentLine l.
Proof.
  unfold commentLine. destruct l as [|c r]; cbn [is_comment].
  - split; [discriminate|intros (r & H); discriminate].
  - split.
    + intros H. apply Ascii.eqb_eq in H. subst. eauto.
    + intros (r' & H). injection H as -> ->. apply Ascii.eqb_refl.
Qed.

Lemma skip_comments_spec lines :
  (exists cs h rest, lines = cs ++ h :: rest /\ Forall commentLine cs /\ ~ commentLine h /\
     skip_comments lines = (h, rest)) \/
  (Forall commentLine lines /\ skip_comments lines = (EmptyString, [])).
Proof.
  induction lines as [|l lines IH]; cbn [skip_comments]; [right; auto|].
  destruct (is_comment l) eqn:E.
  - apply is_comment_spec in E. destruct IH as [(cs & h & rest & -> & H1 & H2 & H3)|[H1 H2]].
    + left. exists (l :: cs), h, rest. auto.
    + right. auto.
  - left. exists [], l, lines. split; auto. split; auto. split; auto.
    rewrite <- is_comment_spec. congruence.
Qed.

Lemma skip_comments_at cs h rest : Forall commentLine cs -> ~ commentLine h ->
  skip_comments (cs ++ h :: rest) = (h, rest).
Proof.
  intros H N. induction H as [|l cs Hl H IH]; cbn [app skip_comments].
  - destruct (is_comment h) eqn:E; auto. apply is_comment_spec in E. tauto.
  - apply is_comment_spec in Hl. rewrite Hl. auto.
Qed.

Section Read.
  Context {F : Type} (O : ops F).
  Variable scan_header : string -> option (nat * nat * nat).
  Variable scan_entry : string -> option (nat * nat * F).
  Local Notation fileIs := (fileIs scan_header scan_entry).
  Local Notation entryOf nr nc := (fun l e => let '(r, c, v) := e in
                 scan_entry l = Some (r + 1, c + 1, v) /\ r < nr /\ c < nc).

  Section Loop.
    Context {S : Type} (func : S -> mtx_entry (F:=F) -> res S) (nr nc : nat).
    Definition lineStep (st : S * nat) (line : string) : res (S * nat) :=
      let* rcv := scanned (scan_entry line) in
      let '(r, c, v) := rcv in
      let* _ := mtxCheck (0 <? r) in
      let* _ := mtxCheck (0 <? c) in
      let* _ := mtxCheck (r <=? nr) in
      let* _ := mtxCheck (c <=? nc) in
      let* r := subw r 1 in
      let* c := subw c 1 in
      let* s := func (fst st) (r, c, v) in
      Ok (s, snd st + 1).

    Lemma lineStep_ok st line e :
      entryOf nr nc line e ->
      lineStep st line = (let* s := func (fst st) e in Ok (s, snd st + 1)).
    Proof.
      destruct e as [[r c] v]. intros (E & Hr & Hc). unfold lineStep. rewrite E.
      cbn [scanned bind].
      replace (0 <? r + 1) with true by (symmetry; apply Nat.ltb_lt; lia).
      replace (0 <? c + 1) with true by (symmetry; apply Nat.ltb_lt; lia).
      replace (r + 1 <=? nr) with true by (symmetry; apply Nat.leb_le; lia).
      replace (c + 1 <=? nc) with true by (symmetry; apply Nat.leb_le; lia).
      cbn [mtxCheck bind]. unfold subw.
      replace (1 <=? r + 1) with true by (symmetry; apply Nat.leb_le; lia).
      replace (1 <=? c + 1) with true by (symmetry; apply Nat.leb_le; lia).
      cbn [bind]. rewrite !Nat.add_sub. reflexivity.
    Qed.

    Lemma lineStep_cases st line :
      (exists e, entryOf nr nc line e) \/ lineStep st line = Err MtxError.
    Proof.
      unfold lineStep. destruct (scan_entry line) as [[[r c] v]|] eqn:E; cbn [scanned bind]; auto.
      destruct (Nat.ltb_spec 0 r); cbn [mtxCheck bind]; auto.
      destruct (Nat.ltb_spec 0 c); cbn [mtxCheck bind]; auto.
      destruct (Nat.leb_spec r nr); cbn [mtxCheck bind]; auto.
      destruct (Nat.leb_spec c nc); cbn [mtxCheck bind]; auto.
      left. exists (r - 1, c - 1, v). split; [|lia].
      rewrite !Nat.sub_add by lia. auto.
    Qed.

    Lemma loop_ok rest es : Forall2 (entryOf nr nc) rest es -> forall s k,
      foldM lineStep rest (s, k) = (let* s' := foldM func es s in Ok (s', k + length es)).
    Proof.
      induction 1 as [|l e rest es He H IH]; intros s k; cbn [foldM bind length].
      - rewrite Nat.add_0_r. reflexivity.
      - rewrite (lineStep_ok (s, k) l e He). cbn [fst snd].
        destruct (func s e) as [s'|]; cbn [bind]; auto. rewrite IH.
        replace (k + 1 + length es) with (k + Datatypes.S (length es)) by lia. reflexivity.
    Qed.

    (** either the lines are entries, or the loop fails: with the exception, or
        with the failure of the callback for an entry before that *)
    Lemma loop_cases rest : forall s k,
      (exists es, Forall2 (entryOf nr nc) rest es) \/
      (foldM lineStep rest (s, k) = Err MtxError) \/
      (exists s' e' err, func s' e' = Err err /\ foldM lineStep rest (s, k) = Err err).
    Proof.
      induction rest as [|l rest IH]; intros s k; [left; exists []; constructor|].
      cbn [foldM].
      destruct (lineStep_cases (s, k) l) as [(e & He)|E]; [|right; left; rewrite E; reflexivity].
      rewrite (lineStep_ok (s, k) l e He). cbn [fst snd].
      destruct (func s e) as [s'|err] eqn:E; cbn [bind].
      - destruct (IH s' (k + 1)) as [(es & Hes)|[H|H]]; auto.
        left. exists (e :: es). constructor; auto.
      - right. right. exists s, e, err. auto.
    Qed.
  End Loop.

  Lemma foreach_unfold {S} lines (func : S -> mtx_entry (F:=F) -> res S) s :
    mtxForeachEntry scan_header scan_entry lines func s =
    let* hr := mtxReadHeader scan_header lines in
    let '(nr, nc, n, rest) := hr in
    let* st := foldM (lineStep func nr nc) rest (s, 0) in
    let* _ := mtxCheck (snd st =? n) in
    Ok (fst st).
  Proof. reflexivity. Qed.

  Lemma header_ok lines nr nc es : fileIs lines nr nc es ->
    exists rest, mtxReadHeader scan_header lines = Ok (nr, nc, length es, rest) /\
      Forall2 (entryOf nr nc) rest es.
  Proof.
    intros (cs & h & rest & -> & H1 & H2 & H3 & H4). exists rest. split; auto.
    unfold mtxReadHeader. rewrite skip_comments_at by auto. rewrite H3. reflexivity.
  Qed.

  (** the callback is called for each of the entries, in order *)
  Lemma foreach_ok {S} lines nr nc es (func : S -> mtx_entry (F:=F) -> res S) s :
    fileIs lines nr nc es ->
    mtxForeachEntry scan_header scan_entry lines func s = foldM func es s.
  Proof.
    intros H. destruct (header_ok lines nr nc es H) as (rest & E & HF).
    rewrite foreach_unfold, E. cbn [bind]. rewrite (loop_ok func nr nc rest es HF).
    destruct (foldM func es s) as [s'|]; cbn [bind fst snd]; auto.
    rewrite Nat.eqb_refl. reflexivity.
  Qed.

  (** otherwise the exception, unless the callback fails before *)
  Lemma foreach_cases {S} lines (func : S -> mtx_entry (F:=F) -> res S) s :
    scan_header EmptyString = None ->
    (exists nr nc es, fileIs lines nr nc es) \/
    mtxForeachEntry scan_header scan_entry lines func s = Err MtxError \/
    (exists s' e' err, func s' e' = Err err /\
       mtxForeachEntry scan_header scan_entry lines func s = Err err).
  Proof.
    intros HE. rewrite foreach_unfold. unfold mtxReadHeader.
    destruct (skip_comments_spec lines) as [(cs & h & rest & -> & H1 & H2 & ->)|[_ ->]].
    2:{ right. left. rewrite HE. reflexivity. }
    destruct (scan_header h) as [[[nr nc] k]|] eqn:Eh; cbn [scanned bind]; auto.
    destruct (loop_cases func nr nc rest s 0) as [(es & Hes)|[E|(s' & e' & err & E1 & E2)]].
    - destruct (Nat.eq_dec (length es) k) as [<-|N].
      + left. exists nr, nc, es, cs, h, rest. auto.
      + rewrite (loop_ok func nr nc rest es Hes).
        destruct (foldM func es s) as [s'|err] eqn:Ef; cbn [bind fst snd].
        * right. left. destruct (Nat.eqb_spec (0 + length es) k); [lia|]. reflexivity.
        * right. right.
          assert (HX : forall l a, foldM func l a = Err err -> exists s' e', func s' e' = Err err).
          { clear. induction l as [|x l IH]; intros a H; [discriminate|]. cbn [foldM] in H.
            destruct (func a x) as [b|] eqn:E; cbn [bind] in H; eauto.
            injection H as ->. eauto. }
          destruct (HX es s Ef) as (s1 & e1 & H). exists s1, e1, err. auto.
    - rewrite E. auto.
    - rewrite E2. right. right. exists s', e', err. auto.
  Qed.

  Theorem foreach_iff {S} lines (func : S -> mtx_entry (F:=F) -> res S) s s' :
    scan_header EmptyString = None ->
    (mtxForeachEntry scan_header scan_entry lines func s = Ok s' <->
     exists nr nc es, fileIs lines nr nc es /\ foldM func es s = Ok s').
  Proof.
    intros HE. split.
    - intros H. destruct (foreach_cases lines func s HE) as
        [(nr & nc & es & HF)|[E|(s1 & e1 & err & _ & E)]]; try congruence.
      exists nr, nc, es. split; auto. rewrite <- H. symmetry. eapply foreach_ok; eauto.
    - intros (nr & nc & es & HF & H). rewrite <- H. eapply foreach_ok; eauto.
  Qed.

  Theorem foreach_error {S} lines (func : S -> mtx_entry (F:=F) -> res S) s :
    scan_header EmptyString = None ->
    (forall s e, exists s', func s e = Ok s') ->
    (forall nr nc es, ~ fileIs lines nr nc es) ->
    mtxForeachEntry scan_header scan_entry lines func s = Err MtxError.
  Proof.
    intros HE Hf HN. destruct (foreach_cases lines func s HE) as
        [(nr & nc & es & HF)|[E|(s1 & e1 & err & E1 & E)]]; auto.
    - destruct (HN _ _ _ HF).
    - destruct (Hf s1 e1) as (s2 & E2). congruence.
  Qed.
End Read.
