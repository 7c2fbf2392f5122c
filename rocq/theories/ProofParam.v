(** The operations of the library preserve relations between number types. *)
From Coq Require Import List Arith Bool Lia.
From Verif Require Import Base ModelPerm ModelSparsity ModelSymbolic ModelNumeric ModelArrow SpecParam.
From Verif Require Import ProofCsr.
Import ListNotations.

(** ** results and arrays *)
Lemma bind_r {A B A' B'} (R : A -> A' -> Prop) (S : B -> B' -> Prop) m m' f f' :
  resRel R m m' -> (forall a a', R a a' -> resRel S (f a) (f' a')) -> resRel S (bind m f) (bind m' f').
Proof. destruct m, m'; cbn; intros H K; try tauto; auto. Qed.
Lemma bind_same {A B B'} (S : B -> B' -> Prop) (m : res A) f f' :
  (forall a, resRel S (f a) (f' a)) -> resRel S (bind m f) (bind m f').
Proof. destruct m; cbn; auto. Qed.
Lemma foldM_r {S S' X} (R : S -> S' -> Prop) f f' (l : list X) s s' :
  R s s' -> (forall s s' x, R s s' -> resRel R (f s x) (f' s' x)) -> resRel R (foldM f l s) (foldM f' l s').
Proof.
  intros H K. revert s s' H. induction l as [|x l IH]; intros s s' H; cbn [foldM]; [exact H|].
  apply (bind_r R); auto.
Qed.
Lemma foldM_in {S S' X} (R : S -> S' -> Prop) f f' (l : list X) s s' :
  R s s' -> (forall s s' x, In x l -> R s s' -> resRel R (f s x) (f' s' x)) -> resRel R (foldM f l s) (foldM f' l s').
Proof.
  revert s s'. induction l as [|x l IH]; intros s s' H K; cbn [foldM]; [exact H|].
  apply (bind_r R); [apply K; [left; auto|auto]|]. intros a a' Ha. apply IH; auto. intros t t' y Hy. apply K. right. auto.
Qed.
Lemma list_rd {A B} (R : A -> B -> Prop) l l' i : listRel R l l' -> resRel R (rd l i) (rd l' i).
Proof.
  intros H. unfold rd. revert i. induction H; intros [|i]; cbn; auto.
Qed.
Lemma list_upd {A B} (R : A -> B -> Prop) l l' i a a' : listRel R l l' -> R a a' -> listRel R (upd l i a) (upd l' i a').
Proof.
  intros H Ha. revert i. induction H; intros [|i]; cbn; constructor; auto. apply IHForall2.
Qed.
Lemma list_len {A B} (R : A -> B -> Prop) l l' : listRel R l l' -> length l = length l'.
Proof. intros H. induction H; cbn; auto. Qed.
Lemma list_wr {A B} (R : A -> B -> Prop) l l' i a a' :
  listRel R l l' -> R a a' -> resRel (listRel R) (wr l i a) (wr l' i a').
Proof.
  intros H Ha. unfold wr. rewrite (list_len R l l' H). destruct (i <? length l'); [|reflexivity].
  apply list_upd; auto.
Qed.
Lemma list_repeat {A B} (R : A -> B -> Prop) a a' n : R a a' -> listRel R (repeat a n) (repeat a' n).
Proof. intros H. induction n; cbn; constructor; auto. Qed.
Lemma list_nil {A B} (R : A -> B -> Prop) : listRel R [] [].
Proof. constructor. Qed.
Lemma pair_r {A B C D} (R : A -> B -> Prop) (S : C -> D -> Prop) a b c d :
  R a b -> S c d -> pairRel R S (a, c) (b, d).
Proof. split; auto. Qed.
Lemma fst_r {A B C D} (R : A -> B -> Prop) (S : C -> D -> Prop) x y : pairRel R S x y -> R (fst x) (fst y).
Proof. intros H. apply H. Qed.
Lemma snd_r {A B C D} (R : A -> B -> Prop) (S : C -> D -> Prop) x y : pairRel R S x y -> S (snd x) (snd y).
Proof. intros H. apply H. Qed.
Lemma Ok_r {A B} (R : A -> B -> Prop) a b : R a b -> resRel R (Ok a) (Ok b).
Proof. auto. Qed.

Section Param.
  Context {F G : Type} (OF : ops F) (OG : ops G) (R : F -> G -> Prop).
  Context (OR : opsRel OF OG R).
  Local Notation L := (listRel R).
  Local Notation LD := (pairRel (listRel R) (listRel R)).
  Local Notation L3 := (pairRel (pairRel (listRel R) (listRel R)) (listRel R)).
  Local Notation L4 := (pairRel (pairRel (pairRel (listRel R) (listRel R)) (listRel R)) (listRel R)).

  (** initial values *)
  Definition initRel (i : init (F:=F)) (i' : init (F:=G)) : Prop :=
    match i, i' with
    | Some m, Some m' => matRel R m m'
    | None, None => True
    | _, _ => False
    end.
  Definition optRel (o : option (list F)) (o' : option (list G)) : Prop :=
    match o, o' with
    | Some l, Some l' => L l l'
    | None, None => True
    | _, _ => False
    end.

  Lemma some_init m m' : matRel R m m' -> initRel (Some m) (Some m').
  Proof. auto. Qed.
  Lemma none_init : initRel None None.
  Proof. exact I. Qed.
  Lemma some_opt l l' : L l l' -> optRel (Some l) (Some l').
  Proof. auto. Qed.
  Lemma none_opt : optRel None None.
  Proof. exact I. Qed.
  Lemma value_or_r o o' l l' : optRel o o' -> L l l' -> L (value_or o l) (value_or o' l').
  Proof. destruct o, o'; cbn; auto; tauto. Qed.
  Lemma empty_r nr nc : matRel R (emptyMatrixInput nr nc) (emptyMatrixInput nr nc).
  Proof. split; [reflexivity|]. intros k _. reflexivity. Qed.

  Ltac rel := first
    [ eassumption
    | apply (or_0 _ _ _ OR)
    | apply (or_add _ _ _ OR); rel
    | apply (or_sub _ _ _ OR); rel
    | apply (or_mul _ _ _ OR); rel
    | apply (or_div _ _ _ OR); rel
    | apply pair_r; rel
    | eapply fst_r; eassumption
    | eapply snd_r; eassumption
    | apply some_init; rel
    | apply none_init
    | apply some_opt; rel
    | apply none_opt
    | apply value_or_r; rel
    | apply empty_r
    | match goal with HG : regRel R _ _ |- _ => apply HG; rel end
    | apply list_nil ].
  Create HintDb par.
  Ltac split_pairs := repeat match goal with
    | H : pairRel _ _ ?p ?q |- _ => is_var p; is_var q; destruct p, q; destruct H; cbn [fst snd] in *
    | H : pairRel _ _ (_, _) (_, _) |- _ => destruct H; cbn [fst snd] in *
    end.
  Ltac step := first
    [ progress split_pairs
    | rel
    | solve [eauto with par]
    | apply bind_same; intros ?
    | eapply bind_r; [|intros ? ? ?]
    | eapply list_rd; rel
    | eapply list_wr; rel
    | eapply foldM_r; [rel|intros ? ? ? ?]
    | eapply Ok_r; rel
    | match goal with |- resRel _ (match ?e with _ => _ end) _ => is_var e; destruct e end ].

  Lemma getMatrixValueAt_r m m' e : matRel R m m' -> resRel R (getMatrixValueAt OF m e) (getMatrixValueAt OG m' e).
  Proof.
    intros [E V]. unfold getMatrixValueAt. rewrite <- E.
    destruct (findEntryIndex _ _) as [k|] eqn:K; [|apply (or_0 _ _ _ OR)].
    apply V. unfold nnz. apply findEntryIndex_Some in K. apply nth_error_Some. destruct K as [K _]. congruence.
  Qed.
  Hint Resolve getMatrixValueAt_r : par.

  Lemma getInitialFactorValueL_r i i' b l l' k : initRel i i' -> L l l' ->
    resRel R (getInitialFactorValueL OF i b l k) (getInitialFactorValueL OG i' b l' k).
  Proof.
    intros HI HL. unfold getInitialFactorValueL. destruct i, i'; cbn in HI; try tauto; repeat step.
  Qed.
  Lemma getInitialFactorValueD_r i i' b l l' k : initRel i i' -> L l l' ->
    resRel R (getInitialFactorValueD OF i b l k) (getInitialFactorValueD OG i' b l' k).
  Proof.
    intros HI HL. unfold getInitialFactorValueD. destruct i, i'; cbn in HI; try tauto; repeat step.
  Qed.
  Lemma fillRow_r m m' b l l' i : matRel R m m' -> L l l' ->
    resRel L (fillRowWithOriginalMatrixValues OF m b l i) (fillRowWithOriginalMatrixValues OG m' b l' i).
  Proof. intros HM HL. unfold fillRowWithOriginalMatrixValues. repeat step. Qed.
  Lemma fillDiag_r m m' b l l' i : matRel R m m' -> L l l' ->
    resRel L (fillDiagonalWithOriginalMatrixValue OF m b l i) (fillDiagonalWithOriginalMatrixValue OG m' b l' i).
  Proof. intros HM HL. unfold fillDiagonalWithOriginalMatrixValue. repeat step. Qed.
  Hint Resolve getInitialFactorValueL_r getInitialFactorValueD_r fillRow_r fillDiag_r : par.

  Lemma fillAll_r m m' b x x' : matRel R m m' -> LD x x' ->
    resRel LD (fillWithOriginalMatrixValuesIncludingDiagonal OF m b x) (fillWithOriginalMatrixValuesIncludingDiagonal OG m' b x').
  Proof. intros HM HL. unfold fillWithOriginalMatrixValuesIncludingDiagonal. repeat step. Qed.
  Lemma initRow_r i i' b l l' k : initRel i i' -> L l l' ->
    resRel L (initializeFactorRow OF i b l k) (initializeFactorRow OG i' b l' k).
  Proof.
    intros HI HL. unfold initializeFactorRow. destruct i, i'; cbn in HI; try tauto; repeat step.
  Qed.
  Lemma influenced_r s s' x x' lst l l' : optRel s s' -> R x x' -> L l l' ->
    resRel L (applyInfluenced OF s x lst l) (applyInfluenced OG s' x' lst l').
  Proof.
    intros HS HX HL. unfold applyInfluenced. destruct s, s'; cbn in HS; try tauto; repeat step.
  Qed.
  Hint Resolve fillAll_r initRow_r influenced_r : par.
  Lemma innerSelf_r b d d' k l l' : L d d' -> L l l' ->
    resRel (pairRel L R) (factorizeUpLookingInnerSelf OF b d k l) (factorizeUpLookingInnerSelf OG b d' k l').
  Proof.
    intros HD HL. unfold factorizeUpLookingInnerSelf. repeat step. 
  Qed.
  Hint Resolve innerSelf_r none_init none_opt some_init some_opt empty_r list_nil pair_r : par.
  Lemma innerLeft2_r b11 b21 b22 l1 l1' d1 d1' k x x' : L l1 l1' -> L d1 d1' -> LD x x' ->
    resRel (pairRel LD R) (factorizeUpLookingInnerLeft2 OF b11 b21 b22 l1 d1 k x)
      (factorizeUpLookingInnerLeft2 OG b11 b21 b22 l1' d1' k x').
  Proof. intros H1 H2 HX. unfold factorizeUpLookingInnerLeft2. repeat step. Qed.
  Lemma innerLeft3_r b11 b21 b31 b32 b33 l1 l1' d1 d1' l2 l2' k x x' : L l1 l1' -> L d1 d1' -> L l2 l2' -> L3 x x' ->
    resRel (pairRel L3 R) (factorizeUpLookingInnerLeft3 OF b11 b21 b31 b32 b33 l1 d1 l2 k x)
      (factorizeUpLookingInnerLeft3 OG b11 b21 b31 b32 b33 l1' d1' l2' k x').
  Proof. intros H1 H2 H3 HX. unfold factorizeUpLookingInnerLeft3. repeat step. Qed.
  Hint Resolve innerLeft2_r innerLeft3_r : par.
  Lemma upImpl_r b11 b21 b22 l1 l1' d1 d1' i1 i1' i2 i2' g g' k x x' :
    L l1 l1' -> L d1 d1' -> initRel i1 i1' -> initRel i2 i2' -> regRel R g g' -> L3 x x' ->
    resRel L3 (factorizeUpLookingImpl OF b11 b21 b22 l1 d1 i1 i2 g k x)
      (factorizeUpLookingImpl OG b11 b21 b22 l1' d1' i1' i2' g' k x').
  Proof.
    intros H1 H2 HI1 HI2 HG HX. unfold factorizeUpLookingImpl. repeat step.
  Qed.
  Lemma asserts_same b11 b21 b22 i1 i1' i2 i2' : initRel i1 i1' -> initRel i2 i2' ->
    factorizeStaticAsserts b11 b21 b22 i1 i2 = factorizeStaticAsserts b11 b21 b22 i1' i2'.
  Proof.
    intros H1 H2. unfold factorizeStaticAsserts.
    assert (E : forall i i' b, initRel i i' -> init_sp i b = init_sp i' b).
    { intros i i' b H. destruct i, i'; cbn in H |- *; try tauto. apply H. }
    rewrite (E i1 i1'), (E i2 i2') by auto. reflexivity.
  Qed.
  Hint Resolve upImpl_r : par.
  Lemma up_r b11 b21 b22 l1 l1' d1 d1' i1 i1' i2 i2' g g' x x' :
    L l1 l1' -> L d1 d1' -> initRel i1 i1' -> initRel i2 i2' -> regRel R g g' -> L3 x x' ->
    resRel L3 (factorizeUpLooking OF b11 b21 b22 l1 d1 i1 i2 g x)
      (factorizeUpLooking OG b11 b21 b22 l1' d1' i1' i2' g' x').
  Proof.
    intros H1 H2 HI1 HI2 HG HX. unfold factorizeUpLooking. rewrite (asserts_same b11 b21 b22 i1 i1' i2 i2') by auto.
    apply bind_same. intros _. apply foldM_r; auto. intros. apply upImpl_r; auto.
  Qed.
  Lemma partialImpl_r b11 b21 b31 b32 b33 l1 l1' d1 d1' l2 l2' i1 i1' i2 i2' i3 i3' k x x' :
    L l1 l1' -> L d1 d1' -> L l2 l2' -> initRel i1 i1' -> initRel i2 i2' -> initRel i3 i3' -> L4 x x' ->
    resRel L4 (factorizePartialUpLookingImpl OF b11 b21 b31 b32 b33 l1 d1 l2 i1 i2 i3 k x)
      (factorizePartialUpLookingImpl OG b11 b21 b31 b32 b33 l1' d1' l2' i1' i2' i3' k x').
  Proof. intros H1 H2 H3 HI1 HI2 HI3 HX. unfold factorizePartialUpLookingImpl. repeat step. Qed.
  Lemma partial_r b11 b21 b31 b32 b33 l1 l1' d1 d1' l2 l2' i1 i1' i2 i2' i3 i3' x x' :
    L l1 l1' -> L d1 d1' -> L l2 l2' -> initRel i1 i1' -> initRel i2 i2' -> initRel i3 i3' -> L4 x x' ->
    resRel L4 (factorizePartialUpLooking OF b11 b21 b31 b32 b33 l1 d1 l2 i1 i2 i3 x)
      (factorizePartialUpLooking OG b11 b21 b31 b32 b33 l1' d1' l2' i1' i2' i3' x').
  Proof.
    intros H1 H2 H3 HI1 HI2 HI3 HX. unfold factorizePartialUpLooking.
    apply foldM_r; auto. intros. apply partialImpl_r; auto.
  Qed.

  (** entry-wise *)
  Lemma entrySub_r b11 b21 l1 l1' d1 d1' i i' k l l' : L l1 l1' -> L d1 d1' -> initRel i i' -> L l l' ->
    resRel L (factorEntryWiseSubdiagonalImplRow OF b11 b21 l1 d1 i k l)
      (factorEntryWiseSubdiagonalImplRow OG b11 b21 l1' d1' i' k l').
  Proof.
    intros H1 H2 HI HL. unfold factorEntryWiseSubdiagonalImplRow. repeat step.
  Qed.
  Lemma entrySubAll_r b11 b21 l1 l1' d1 d1' i i' l l' : L l1 l1' -> L d1 d1' -> initRel i i' -> L l l' ->
    resRel L (factorizeEntryWiseSubdiagonal OF b11 b21 l1 d1 i l)
      (factorizeEntryWiseSubdiagonal OG b11 b21 l1' d1' i' l').
  Proof.
    intros H1 H2 HI HL. unfold factorizeEntryWiseSubdiagonal. repeat (apply foldM_r; auto; intros). apply entrySub_r; auto.
  Qed.
  Lemma rowDiag_r b l l' d d' i x x' : L l l' -> L d d' -> R x x' ->
    resRel R (applyContributionsRowDiagonal OF b l d i x) (applyContributionsRowDiagonal OG b l' d' i x').
  Proof. intros H1 H2 HX. unfold applyContributionsRowDiagonal. repeat step. Qed.
  Lemma contributions_r l l' d d' cs x x' : L l l' -> L d d' -> R x x' ->
    resRel R (applyContributions OF l d cs x) (applyContributions OG l' d' cs x').
  Proof.
    intros H1 H2 HX. unfold applyContributions. apply foldM_r; auto. intros s s' [[? ?] ?] HS. repeat step.
  Qed.
  Hint Resolve entrySubAll_r rowDiag_r contributions_r : par.
  Lemma entryRow_r b21 b22 d1 d1' l1 l1' i i' d2 d2' k l l' : L d1 d1' -> L l1 l1' -> initRel i i' -> L d2 d2' -> L l l' ->
    resRel (pairRel L R) (factorizeEntryWiseImplRow OF b21 b22 d1 l1 i d2 k l)
      (factorizeEntryWiseImplRow OG b21 b22 d1' l1' i' d2' k l').
  Proof. intros H1 H2 HI H3 HL. unfold factorizeEntryWiseImplRow. repeat step. Qed.
  Hint Resolve entryRow_r : par.
  Lemma entryDiag_r b21 b22 d1 d1' l1 l1' i i' g g' x x' : L d1 d1' -> L l1 l1' -> initRel i i' -> regRel R g g' -> LD x x' ->
    resRel LD (factorizeEntryWiseDiag OF b21 b22 d1 l1 i g x) (factorizeEntryWiseDiag OG b21 b22 d1' l1' i' g' x').
  Proof.
    intros H1 H2 HI HG HX. unfold factorizeEntryWiseDiag. repeat step.
  Qed.
  Hint Resolve entryDiag_r : par.
  Lemma entry_r b11 b21 b22 l1 l1' d1 d1' i1 i1' i2 i2' g g' x x' :
    L l1 l1' -> L d1 d1' -> initRel i1 i1' -> initRel i2 i2' -> regRel R g g' -> L3 x x' ->
    resRel L3 (factorizeEntryWise OF b11 b21 b22 l1 d1 i1 i2 g x)
      (factorizeEntryWise OG b11 b21 b22 l1' d1' i1' i2' g' x').
  Proof.
    intros H1 H2 HI1 HI2 HG HX. unfold factorizeEntryWise. split_pairs.
    rewrite (asserts_same b11 b21 b22 i1 i1' i2 i2') by auto. repeat step.
  Qed.
  Lemma factorize5_r mt b11 b21 b22 l1 l1' d1 d1' i1 i1' i2 i2' g g' x x' :
    L l1 l1' -> L d1 d1' -> initRel i1 i1' -> initRel i2 i2' -> regRel R g g' -> L3 x x' ->
    resRel L3 (factorize5 OF mt b11 b21 b22 l1 d1 i1 i2 g x)
      (factorize5 OG mt b11 b21 b22 l1' d1' i1' i2' g' x').
  Proof. intros. destruct mt; [apply up_r|apply entry_r]; auto. Qed.
  Hint Resolve partial_r factorize5_r : par.

  (** ** single matrix *)
  Lemma factorize_r mt b i i' g g' x x' : initRel i i' -> regRel R g g' -> LD x x' ->
    resRel LD (factorize OF mt b i g x) (factorize OG mt b i' g' x').
  Proof.
    intros HI HG HX. unfold factorize. split_pairs. cbn [fst snd].
    eapply bind_r; [apply factorize5_r; eauto with par; apply empty_r|]. intros ? ? ?. repeat step.
  Qed.
  Lemma fwdRow_r b l l' i s s' x x' : L l l' -> L s s' -> R x x' ->
    resRel R (solveForwardSubstitutionRow OF b l i s x) (solveForwardSubstitutionRow OG b l' i s' x').
  Proof. intros. unfold solveForwardSubstitutionRow. repeat step. Qed.
  Lemma bwdRow_r b l l' i s s' x x' : L l l' -> R s s' -> L x x' ->
    resRel L (solveBackwardSubstitutionRow OF b l i s x) (solveBackwardSubstitutionRow OG b l' i s' x').
  Proof. intros. unfold solveBackwardSubstitutionRow. repeat step. Qed.
  Hint Resolve factorize_r fwdRow_r bwdRow_r value_or_r : par.
  Lemma fwd_r b l l' s s' x x' : L l l' -> optRel s s' -> L x x' ->
    resRel L (solveForwardSubstitution OF b l s x) (solveForwardSubstitution OG b l' s' x').
  Proof. intros. unfold solveForwardSubstitution. repeat step. Qed.
  Lemma fwdLeft_r b l l' b2 l2 l2' s s' x x' : L l l' -> L l2 l2' -> L s s' -> L x x' ->
    resRel L (solveForwardSubstitutionLeft OF b l b2 l2 s x) (solveForwardSubstitutionLeft OG b l' b2 l2' s' x').
  Proof. intros. unfold solveForwardSubstitutionLeft. repeat step. Qed.
  Lemma bwd_r b l l' s s' x x' : L l l' -> optRel s s' -> L x x' ->
    resRel L (solveBackwardSubstitution OF b l s x) (solveBackwardSubstitution OG b l' s' x').
  Proof.
    intros. unfold solveBackwardSubstitution. apply foldM_r; auto. intros. apply bind_same. intros.
    eapply bind_r; [eapply list_rd; apply value_or_r; eauto|]. intros. apply bwdRow_r; auto.
  Qed.
  Lemma diag_r b l l' x x' : L l l' -> L x x' -> resRel L (diagonalSolve OF b l x) (diagonalSolve OG b l' x').
  Proof. intros. unfold diagonalSolve. repeat step. Qed.
  Hint Resolve fwd_r fwdLeft_r bwd_r diag_r : par.
  Lemma solve_r b d d' x x' : LD d d' -> L x x' -> resRel L (solveInPlace OF b d x) (solveInPlace OG b d' x').
  Proof. intros. unfold solveInPlace. split_pairs. repeat step. Qed.
  Lemma multiply_r kd m m' s s' x x' : matRel R m m' -> L s s' -> L x x' ->
    resRel L (multiply OF kd m s x) (multiply OG kd m' s' x').
  Proof.
    intros [E V] HS HX. unfold multiply. rewrite <- E. apply foldM_in; auto. intros t t' k Hk HT.
    apply in_seq in Hk. apply bind_same. intros [r c]. eapply bind_r; [apply V; lia|]. intros.
    eapply (bind_r L); [destruct (hasNormal kd); repeat step|]. intros.
    destruct (_ && _); [repeat step|]. destruct (hasTransposed kd); repeat step.
  Qed.
  Hint Resolve solve_r multiply_r : par.

  (** ** arrowhead *)
  Local Notation LL := (listRel (listRel R)).
  Local Notation LLD := (listRel (pairRel (listRel R) (listRel R))).

  Lemma reps_r d d' : arrowDataRel R d d' -> numRepetitions d = numRepetitions d'.
  Proof. intros H. unfold numRepetitions. eapply list_len. apply H. Qed.
  Lemma invariant_r d d' : arrowDataRel R d d' ->
    checkNumRepetitionsClassInvariant d = checkNumRepetitionsClassInvariant d'.
  Proof.
    intros H. unfold checkNumRepetitionsClassInvariant. rewrite (reps_r d d' H).
    rewrite (list_len _ _ _ (dr_td _ _ _ H)), (list_len _ _ _ (dr_ts _ _ _ H)), (list_len _ _ _ (dr_os _ _ _ H)). reflexivity.
  Qed.
  Lemma zeroL_r b : L (zeroL OF b) (zeroL OG b).
  Proof. apply list_repeat. apply (or_0 _ _ _ OR). Qed.
  Lemma zeroLD_r b : LD (zeroLD OF b) (zeroLD OG b).
  Proof. apply pair_r; [apply zeroL_r|]. apply list_repeat. apply (or_0 _ _ _ OR). Qed.
  Lemma arrowCtor_r k n : resRel (arrowDataRel R) (arrowCtor OF k n) (arrowCtor OG k n).
  Proof.
    unfold arrowCtor.
    match goal with |- resRel _ (bind (_ ?d) _) (bind (_ ?d') _) => assert (H : arrowDataRel R d d') end.
    { constructor; cbn; auto using zeroL_r, zeroLD_r, list_repeat. }
    rewrite (invariant_r _ _ H). apply bind_same. intros _. exact H.
  Qed.

  Ltac open_records := repeat match goal with
    | H : arrowMatRel R ?m ?m' |- _ => is_var m; is_var m'; destruct m, m'; destruct H
    | H : arrowDataRel R ?m ?m' |- _ => is_var m; is_var m'; destruct m, m'; destruct H
    | H : arrowVecRel R ?m ?m' |- _ => is_var m; is_var m'; destruct m, m'; destruct H
    end; cbn [a_sd a_sn a_so a_td a_ts a_lp a_ld a_ln a_os a_od d_sd d_sn d_so d_td d_ts d_lp d_ld d_ln d_os d_od
      v_start v_tri v_link v_outer] in *.

  Lemma factorizeTri_r mt k m m' g g' d d' : arrowMatRel R m m' -> regRel R g g' -> arrowDataRel R d d' ->
    resRel (arrowDataRel R) (factorizeTri OF mt k m g d) (factorizeTri OG mt k m' g' d').
  Proof.
    intros HM HG HD. unfold factorizeTri. rewrite (reps_r d d' HD). generalize (numRepetitions d'). intros n.
    open_records. repeat step. apply Ok_r. constructor; cbn; rel.
  Qed.
  Lemma factorizeOuter_r mt k m m' g g' d d' : arrowMatRel R m m' -> regRel R g g' -> arrowDataRel R d d' ->
    resRel (arrowDataRel R) (factorizeOuter OF mt k m g d) (factorizeOuter OG mt k m' g' d').
  Proof.
    intros HM HG HD. unfold factorizeOuter. rewrite (reps_r d d' HD). generalize (numRepetitions d'). intros n.
    open_records. repeat step. apply Ok_r. constructor; cbn; rel.
  Qed.
  Lemma arrowFactorize_r mt k m m' g g' d d' : arrowMatRel R m m' -> regRel R g g' -> arrowDataRel R d d' ->
    resRel (arrowDataRel R) (arrowFactorize OF mt k m g d) (arrowFactorize OG mt k m' g' d').
  Proof.
    intros HM HG HD. unfold arrowFactorize. eapply bind_r; [apply factorizeTri_r; eauto|].
    intros. apply factorizeOuter_r; auto.
  Qed.
  Lemma arrowForward_r k d d' x x' : arrowDataRel R d d' -> arrowVecRel R x x' ->
    resRel (arrowVecRel R) (arrowForward OF k d x) (arrowForward OG k d' x').
  Proof.
    intros HD HX. unfold arrowForward. rewrite (invariant_r d d' HD), (reps_r d d' HD). generalize (numRepetitions d').
    intros n. apply bind_same. intros _.
    open_records. repeat step. apply Ok_r. constructor; cbn; rel.
  Qed.
  Lemma arrowDiagonal_r k d d' x x' : arrowDataRel R d d' -> arrowVecRel R x x' ->
    resRel (arrowVecRel R) (arrowDiagonal OF k d x) (arrowDiagonal OG k d' x').
  Proof.
    intros HD HX. unfold arrowDiagonal. rewrite (invariant_r d d' HD), (reps_r d d' HD). generalize (numRepetitions d').
    intros n. apply bind_same. intros _.
    open_records. repeat step. apply Ok_r. constructor; cbn; rel.
  Qed.
  Lemma arrowBackward_r k d d' x x' : arrowDataRel R d d' -> arrowVecRel R x x' ->
    resRel (arrowVecRel R) (arrowBackward OF k d x) (arrowBackward OG k d' x').
  Proof.
    intros HD HX. unfold arrowBackward. rewrite (invariant_r d d' HD), (reps_r d d' HD). generalize (numRepetitions d').
    intros n. apply bind_same. intros _.
    open_records. repeat step. apply Ok_r. constructor; cbn; rel.
  Qed.
  Lemma arrowSolve_r k d d' x x' : arrowDataRel R d d' -> arrowVecRel R x x' ->
    resRel (arrowVecRel R) (arrowSolveInPlace OF k d x) (arrowSolveInPlace OG k d' x').
  Proof.
    intros HD HX. unfold arrowSolveInPlace. eapply bind_r; [apply arrowForward_r; eauto|]. intros.
    eapply bind_r; [apply arrowDiagonal_r; eauto|]. intros. apply arrowBackward_r; auto.
  Qed.
  Lemma triMultiply_r A A' B B' x x' y y' : listRel (matRel R) A A' -> listRel (matRel R) B B' -> LL x x' -> LL y y' ->
    resRel LL (multiplyRepeatingBlockTridiagonal OF A B x y) (multiplyRepeatingBlockTridiagonal OG A' B' x' y').
  Proof.
    intros HA HB HX HY. unfold multiplyRepeatingBlockTridiagonal.
    rewrite (list_len _ _ _ HA), (list_len _ _ _ HB), (list_len _ _ _ HX), (list_len _ _ _ HY).
    repeat step.
  Qed.
  Hint Resolve triMultiply_r : par.
  Lemma arrowMultiply_r m m' x x' y y' : arrowMatRel R m m' -> arrowVecRel R x x' -> arrowVecRel R y y' ->
    resRel (arrowVecRel R) (arrowMultiply OF m x y) (arrowMultiply OG m' x' y').
  Proof.
    intros HM HX HY. unfold arrowMultiply. rewrite (list_len _ _ _ (mr_ts _ _ _ HM)). generalize (length (a_ts m')). intros n.
    open_records. repeat step. apply Ok_r. constructor; cbn; rel.
  Qed.

  (** ** block tridiagonal *)
  Lemma triInput_r dim A A' B B' n : listRel (matRel R) A A' -> listRel (matRel R) B B' ->
    arrowMatRel R (tridiagonalInput dim A B n) (tridiagonalInput dim A' B' n).
  Proof.
    intros HA HB. constructor; cbn [tridiagonalInput a_sd a_sn a_so a_td a_ts a_lp a_ld a_ln a_os a_od];
      auto using empty_r. apply list_repeat. apply empty_r.
  Qed.
  Lemma triFactorize_r mt k dim A A' B B' g g' d d' : listRel (matRel R) A A' -> listRel (matRel R) B B' -> regRel R g g' ->
    arrowDataRel R d d' ->
    resRel (arrowDataRel R) (tridiagonalFactorize OF mt k dim A B g d) (tridiagonalFactorize OG mt k dim A' B' g' d').
  Proof.
    intros HA HB HG HD. unfold tridiagonalFactorize. rewrite (reps_r d d' HD). apply arrowFactorize_r; auto.
    apply triInput_r; auto.
  Qed.
  Lemma triSolve_r k d d' x x' : arrowDataRel R d d' -> LL x x' ->
    resRel LL (tridiagonalSolveInPlace OF k d x) (tridiagonalSolveInPlace OG k d' x').
  Proof.
    intros HD HX. unfold tridiagonalSolveInPlace. eapply bind_r; [apply arrowSolve_r; [eauto|]|].
    - constructor; cbn; auto using list_nil.
    - intros v v' HV. apply HV.
  Qed.
End Param.
