(** The signs of the pivots give the inertia. *)
From Coq Require Import List Arith Lia Bool Permutation.
From Verif Require Import Base ModelPerm ModelSparsity ModelSymbolic ModelNumeric ModelArrow ModelReg.
From Verif Require Import SpecSymbolic SpecArrow SpecNumeric SpecArrowNum SpecPivot SpecInertia.
From Verif Require Import ProofBase ProofPerm ProofExact ProofLdl ProofSingle ProofSingleMain ProofArrowSym ProofArrowProduct ProofArrowMain.
From Verif Require Import ProofPropSingle ProofPropArrow ProofPivot ProofPivotMain ProofPropPivot ProofInertia.
Import ListNotations.

Section Inertia.
  Context {F : Type} (O : ops F) (FL : fieldLaws O) (OL : ordLaws FL).

  Lemma single_inertia mt s n p a vals m b L0 D0 L D :
    spOf s n n -> validPerm n p -> factorizationBlk s p = Ok b ->
    spOf a n n -> inputOf O m a vals -> coveredSym (entries a) (entries s) n p ->
    length L0 = c_nnz (b_sp b) -> length D0 = n ->
    factorize O mt b (Some m) regularizationNone (L0, D0) = Ok (L, D) ->
    (forall i, i < n -> vecAt O D i <> o0 O) ->
    forall positive k,
    definiteOn OL (seq 0 n) positive (symAt O (entries a) vals) k <->
    k <= countSign OL (seq 0 n) positive (vecAt O D).
  Proof.
    intros HS HP HB HA HI HC N1 N2 EF HZ positive k.
    destruct (factorization_identity_none O FL mt s n p a vals m HS HP HA HI HC) as (b' & EB & H).
    rewrite HB in EB. injection EB as <-. destruct (H L0 D0 N1 N2) as (L' & D' & EF' & NL & _ & HL).
    rewrite EF in EF'. injection EF' as <- <-. specialize (HL HZ).
    pose proof (validPerm_isPerm n p HP) as P. destruct (invert_ok n p P) as (q & _ & _ & Hq & _).
    rewrite <- (definiteOn_perm O FL OL (seq 0 n) (fun i => nth i p 0) (fun i => nth i q 0)).
    - apply (ldl_inertia O FL OL (seq 0 n) (fun i => i) Nat.eq_dec (seq_NoDup n 0) (fun _ _ _ _ e => e)
        (unitAt O (fl_one FL) (c_entries (b_sp b)) L)).
      + intros g Hg. unfold unitAt. rewrite Nat.eqb_refl. auto.
      + intros g h _ _ N Lt. exact (unitAt_low O FL s n p b HS HP HB L g h NL N Lt).
      + intros g h Hg Hh. apply in_seq in Hg, Hh. rewrite (suml_seq O FL). apply HL; lia.
    - apply seq_perm; auto.
    - intros g Hg. apply in_seq in Hg. apply Hq. lia.
  Qed.

  Lemma arrow_inertia mt s ds dt dl dO k n m w d0 d :
    arrowDims s ds dt dl dO -> arrowBlocks s = Ok k ->
    inputArrow O n ds dt dl dO m w -> declaredArrow s n m ->
    dataOf k n ds dt dl dO d0 ->
    arrowFactorize O mt k m regularizationNone d0 = Ok d ->
    let all := allIdx n ds dt dl dO in
    (forall g, In g all -> pivotAt O d g <> o0 O) ->
    forall positive c,
    definiteOn OL all positive (matAt O m w) c <-> c <= countSign OL all positive (pivotAt O d).
  Proof.
    intros HD Ek IA DA DO EF all HZ positive c.
    destruct (arrow_ldl O FL s ds dt dl dO k n m w HD Ek IA DA mt d0 d DO EF HZ) as [DO' HL].
    destruct (factor_low O FL s ds dt dl dO k n HD Ek d DO') as [F1 F0].
    destruct (permIdx_inv s n ds dt dl dO HD) as (q & Q).
    rewrite <- (definiteOn_perm O FL OL all (permIdx s) q).
    - apply (ldl_inertia O FL OL all (rank n ds dt dl) gidx_eq_dec (NoDup_allIdx n ds dt dl dO)
        (rank_inj n ds dt dl dO) (factorAt O (fl_one FL) k d)); auto.
    - apply permIdx_Permutation; auto.
    - intros h Hh. apply Q; auto.
  Qed.

  Lemma definiteOn_map {I J : Type} (f : J -> I) (q : I -> J) (l : list J) A p k :
    (forall j, In j l -> q (f j) = j) ->
    definiteOn OL (map f l) p A k <-> definiteOn OL l p (fun i j => A (f i) (f j)) k.
  Proof.
    intros Q. split; intros (v & Hv).
    - exists (fun c j => v c (f j)). intros c Hc. specialize (Hv c Hc). unfold quadForm in *.
      rewrite (suml_map O) in Hv. erewrite suml_ext; [exact Hv|]. intros g Hg.
      cbv beta. rewrite (suml_map O). reflexivity.
    - exists (fun c i => v c (q i)). intros c Hc. specialize (Hv c Hc). unfold quadForm in *.
      rewrite (suml_map O). erewrite suml_ext; [exact Hv|]. intros g Hg.
      cbv beta. rewrite (suml_map O). apply suml_ext. intros h Hh. unfold combination. rewrite !Q by auto. auto.
  Qed.

  Lemma tri_inertia mt a b p dt n k A B wA wB d0 d :
    spOf a dt dt -> spOf b dt dt -> validPerm dt p -> tridiagonalBlocks a b p = Ok k ->
    inputTri O n dt A B wA wB -> declaredTri a b n A B -> dataOf k n 0 dt 0 0 d0 ->
    tridiagonalFactorize O mt k dt A B regularizationNone d0 = Ok d ->
    let rows := list_prod (seq 0 (n + 1)) (seq 0 dt) in
    (forall t i, t < n + 1 -> i < dt -> pivotAt O d (GT t i) <> o0 O) ->
    forall positive c,
    definiteOn OL rows positive (fun r q => triMatAt O A B wA wB (fst r) (snd r) (fst q) (snd q)) c <->
    c <= countSign OL rows positive (fun r => pivotAt O d (GT (fst r) (snd r))).
  Proof.
    intros SA SB HP HK IT DT DO EF rows HZ positive c.
    unfold tridiagonalFactorize, numRepetitions in EF. rewrite (do_nts _ _ _ _ _ _ _ DO) in EF.
    assert (Ek : arrowBlocks (tridiagonalSparsity a b p) = Ok k) by (rewrite <- (tri_blocks a b p dt); auto).
    assert (HZ' : forall g, In g (allIdx n 0 dt 0 0) -> pivotAt O d g <> o0 O).
    { intros g Hg. apply in_tri in Hg. destruct Hg as (t & i & -> & Ht & Hi). auto. }
    pose proof (arrow_inertia mt _ _ _ _ _ k n _ _ d0 d (tri_dims a b p dt SA SB HP) Ek
      (tri_input O n dt A B wA wB IT) (tri_declared a b p n dt A B DT) DO EF HZ' positive c) as H.
    cbv zeta in H. rewrite allIdx_tri in H. fold rows in H.
    rewrite (definiteOn_map triRow triPair rows) in H by (intros [t i] _; reflexivity).
    unfold countSign in *.
    assert (E : forall l : list (nat * nat),
      length (filter (fun g => if positive then isPos OL (pivotAt O d g) else isNeg OL (pivotAt O d g)) (map triRow l)) =
      length (filter (fun r => if positive then isPos OL (pivotAt O d (GT (fst r) (snd r)))
                               else isNeg OL (pivotAt O d (GT (fst r) (snd r)))) l)).
    { induction l as [|[t i] l IH]; cbn [map filter]; auto. cbn [triRow fst snd] in *.
      destruct (if positive then _ else _); cbn [length]; rewrite IH; auto. }
    rewrite E in H. exact H.
  Qed.
End Inertia.

Lemma same_count (P : nat -> Prop) c c' :
  (forall k, P k <-> k <= c) -> (forall k, P k <-> k <= c') -> c = c'.
Proof.
  intros H H'. apply Nat.le_antisymm.
  - apply H', H. auto.
  - apply H, H'. auto.
Qed.

Section Same.
  Context {F : Type} (O : ops F) (FL : fieldLaws O) (OL : ordLaws FL).

  Lemma single_same_inertia n a vals m :
    spOf a n n -> inputOf O m a vals ->
    forall mt mt' s s' p p' b b' L0 D0 L0' D0' L D L' D',
    spOf s n n -> validPerm n p -> factorizationBlk s p = Ok b ->
    spOf s' n n -> validPerm n p' -> factorizationBlk s' p' = Ok b' ->
    coveredSym (entries a) (entries s) n p -> coveredSym (entries a) (entries s') n p' ->
    length L0 = c_nnz (b_sp b) -> length D0 = n ->
    length L0' = c_nnz (b_sp b') -> length D0' = n ->
    factorize O mt b (Some m) regularizationNone (L0, D0) = Ok (L, D) ->
    factorize O mt' b' (Some m) regularizationNone (L0', D0') = Ok (L', D') ->
    (forall i, i < n -> vecAt O D i <> o0 O) -> (forall i, i < n -> vecAt O D' i <> o0 O) ->
    forall positive,
    countSign OL (seq 0 n) positive (vecAt O D) = countSign OL (seq 0 n) positive (vecAt O D').
  Proof.
    intros. apply (same_count (definiteOn OL (seq 0 n) positive (symAt O (entries a) vals))); intros k.
    - apply (single_inertia O FL OL mt s n p a vals m b L0 D0 L D); auto.
    - apply (single_inertia O FL OL mt' s' n p' a vals m b' L0' D0' L' D'); auto.
  Qed.

  Lemma arrow_same_inertia ds dt dl dO n m w :
    inputArrow O n ds dt dl dO m w ->
    forall mt mt' s s' k k' d0 d0' d d',
    arrowDims s ds dt dl dO -> arrowBlocks s = Ok k -> declaredArrow s n m ->
    arrowDims s' ds dt dl dO -> arrowBlocks s' = Ok k' -> declaredArrow s' n m ->
    dataOf k n ds dt dl dO d0 -> dataOf k' n ds dt dl dO d0' ->
    arrowFactorize O mt k m regularizationNone d0 = Ok d ->
    arrowFactorize O mt' k' m regularizationNone d0' = Ok d' ->
    let all := allIdx n ds dt dl dO in
    (forall g, In g all -> pivotAt O d g <> o0 O) -> (forall g, In g all -> pivotAt O d' g <> o0 O) ->
    forall positive,
    countSign OL all positive (pivotAt O d) = countSign OL all positive (pivotAt O d').
  Proof.
    intros. apply (same_count (definiteOn OL all positive (matAt O m w))); intros c.
    - apply (arrow_inertia O FL OL mt s ds dt dl dO k n m w d0 d); auto.
    - apply (arrow_inertia O FL OL mt' s' ds dt dl dO k' n m w d0' d'); auto.
  Qed.

  Lemma tri_same_inertia dt n A B wA wB :
    inputTri O n dt A B wA wB ->
    forall mt mt' a a' b b' p p' k k' d0 d0' d d',
    spOf a dt dt -> spOf b dt dt -> validPerm dt p -> tridiagonalBlocks a b p = Ok k -> declaredTri a b n A B ->
    spOf a' dt dt -> spOf b' dt dt -> validPerm dt p' -> tridiagonalBlocks a' b' p' = Ok k' ->
    declaredTri a' b' n A B ->
    dataOf k n 0 dt 0 0 d0 -> dataOf k' n 0 dt 0 0 d0' ->
    tridiagonalFactorize O mt k dt A B regularizationNone d0 = Ok d ->
    tridiagonalFactorize O mt' k' dt A B regularizationNone d0' = Ok d' ->
    (forall t i, t < n + 1 -> i < dt -> pivotAt O d (GT t i) <> o0 O) ->
    (forall t i, t < n + 1 -> i < dt -> pivotAt O d' (GT t i) <> o0 O) ->
    let rows := list_prod (seq 0 (n + 1)) (seq 0 dt) in
    forall positive,
    countSign OL rows positive (fun r => pivotAt O d (GT (fst r) (snd r))) =
    countSign OL rows positive (fun r => pivotAt O d' (GT (fst r) (snd r))).
  Proof.
    intros. apply (same_count (definiteOn OL rows positive
      (fun r q => triMatAt O A B wA wB (fst r) (snd r) (fst q) (snd q)))); intros c.
    - apply (tri_inertia O FL OL mt a b p dt n k A B wA wB d0 d); auto.
    - apply (tri_inertia O FL OL mt' a' b' p' dt n k' A B wA wB d0' d'); auto.
  Qed.
End Same.
