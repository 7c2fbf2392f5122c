(** The statements of PropDominant in the form used there. *)
From Coq Require Import List Arith Lia Bool Ring.
From Verif Require Import Base ModelPerm ModelSparsity ModelSymbolic ModelNumeric ModelArrow ModelReg.
From Verif Require Import SpecSymbolic SpecArrow SpecNumeric SpecArrowNum SpecPivot SpecInertia SpecDominant.
From Verif Require Import ProofBase ProofExact ProofLdl ProofSingle ProofArrowSym
  ProofArrowProduct ProofArrowMain ProofPropSingle ProofPropArrow ProofPivot ProofPivotMain ProofPropPivot ProofDominant.
Import ListNotations.

Section Dominant.
  Context {F : Type} (O : ops F) (FL : fieldLaws O) (OL : ordLaws FL).

  Lemma single_dominant mt s n p a vals m :
    spOf s n n -> validPerm n p ->
    spOf a n n -> inputOf O m a vals -> coveredSym (entries a) (entries s) n p ->
    dominant OL Nat.eq_dec (seq 0 n) (symAt O (entries a) vals) ->
    exists b, factorizationBlk s p = Ok b /\
      singleWorks O FL n p b m a vals mt
        (fun i t => hasSign OL (isPos OL (symAt O (entries a) vals (nth i p 0) (nth i p 0))) t).
  Proof.
    intros HS HP HA HI HC HD.
    apply (single_quasidef O FL OL mt s n p a vals m (fun i => isPos OL (symAt O (entries a) vals i i))); auto.
    apply (dominant_quasiDef O FL OL Nat.eq_dec); auto; [apply seq_NoDup|].
    intros. apply symAt_perm.
  Qed.

  Lemma matAt_sym m w g h : matAt O m w g h = matAt O m w h g.
  Proof. apply symArrow_sym. constructor; intros; apply symAt_perm. Qed.

  Lemma arrow_dominant mt s ds dt dl dO n m w :
    arrowDims s ds dt dl dO -> inputArrow O n ds dt dl dO m w -> declaredArrow s n m ->
    dominant OL gidx_eq_dec (allIdx n ds dt dl dO) (matAt O m w) ->
    exists k, arrowBlocks s = Ok k /\
      arrowWorks O FL s ds dt dl dO k n m w mt
        (fun g t => hasSign OL (isPos OL (matAt O m w (permIdx s g) (permIdx s g))) t).
  Proof.
    intros HS HI HC HD.
    apply (arrow_quasidef O FL OL mt s ds dt dl dO n m w (fun g => isPos OL (matAt O m w g g))); auto.
    apply (dominant_quasiDef O FL OL gidx_eq_dec); auto; [apply NoDup_allIdx|].
    intros. apply matAt_sym.
  Qed.

  Lemma tri_dominant mt a b p dt n A B wA wB :
    spOf a dt dt -> spOf b dt dt -> validPerm dt p ->
    inputTri O n dt A B wA wB -> declaredTri a b n A B ->
    dominant OL pair_eq_dec (list_prod (seq 0 (n + 1)) (seq 0 dt))
      (fun r c => triMatAt O A B wA wB (fst r) (snd r) (fst c) (snd c)) ->
    exists k, tridiagonalBlocks a b p = Ok k /\
      triWorks O FL dt n p k A B wA wB mt
        (fun t i v => hasSign OL (isPos OL (triMatAt O A B wA wB t (nth i p 0) t (nth i p 0))) v).
  Proof.
    intros SA SB HP IT DT HD.
    apply (tri_quasidef O FL OL mt a b p dt n A B wA wB (fun t i => isPos OL (triMatAt O A B wA wB t i t i))); auto.
    apply (dominant_quasiDef O FL OL pair_eq_dec _ ) with (A := fun r c => triMatAt O A B wA wB (fst r) (snd r) (fst c) (snd c)); auto.
    - apply (NoDup_map_inv triRow). rewrite <- allIdx_tri. apply NoDup_allIdx.
    - intros g h _ _. rewrite <- !(tri_matAt O n dt) by auto. apply matAt_sym.
  Qed.
End Dominant.
