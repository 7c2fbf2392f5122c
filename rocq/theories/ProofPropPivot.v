(** The statements of PropPivot in the form used there. *)
From Coq Require Import List Arith Lia Bool Ring Permutation.
From Verif Require Import Base ModelPerm ModelSparsity ModelSymbolic ModelNumeric ModelArrow ModelReg.
From Verif Require Import SpecSymbolic SpecArrow SpecNumeric SpecArrowNum SpecPivot.
From Verif Require Import ProofBase ProofPerm ProofExact ProofLdl ProofSingle ProofSingleMain ProofArrowSym
  ProofArrowProduct ProofArrowMain ProofPropSingle ProofPropArrow ProofPivot ProofPivotMain.
Import ListNotations.

Lemma seq_perm n p : isPerm n p -> Permutation (map (fun i => nth i p 0) (seq 0 n)) (seq 0 n).
Proof.
  intros P. replace (map (fun i => nth i p 0) (seq 0 n)) with p; auto.
  rewrite <- (isPerm_length n p P) at 1. apply (list_ext _ _ 0).
  - rewrite map_length, seq_length. auto.
  - intros k Hk. symmetry. rewrite (nth_indep _ 0 (nth 0 p 0)).
    + rewrite (map_nth (fun i => nth i p 0)), seq_nth; auto.
    + rewrite map_length, seq_length. auto.
Qed.

Section Definite.
  Context {F : Type} (O : ops F) (FL : fieldLaws O) (OL : ordLaws FL).
  Local Notation "0" := (o0 O) : scalar.
  Local Notation "a + b" := (oadd O a b) : scalar.
  Local Notation "a - b" := (osub O a b) : scalar.
  Local Notation "a * b" := (omul O a b) : scalar.
  Local Notation sum := (sumn O).
  Add Ring FrPP : (fl_ring FL).
  Local Notation IL := (ord_inf O FL OL).

  (** ** single matrix *)
  Lemma single_posdef mt s n p a vals m :
    spOf s n n -> validPerm n p ->
    spOf a n n -> inputOf O m a vals -> coveredSym (entries a) (entries s) n p ->
    posDef OL (seq 0 n) (symAt O (entries a) vals) ->
    exists b, factorizationBlk s p = Ok b /\
      singleWorks O FL n p b m a vals mt (fun _ t => ol_pos OL t).
  Proof.
    intros HS HP HA HI HC PD. destruct (block_ok s n p HS HP) as (b & EB & G). exists b. split; auto.
    pose proof (validPerm_isPerm n p HP) as P. destruct (invert_ok n p P) as (q & _ & _ & Hq & _).
    apply (single_good O FL IL s n p b m a vals HS HP EB HA HI HC). intros i t Hi Hc.
    assert (T : ol_pos OL t); [|split; auto; apply (pos_nonzero O FL OL); auto].
    refine (posDef_chi O FL OL (seq 0 n) (fun i => i) Nat.eq_dec (seq_NoDup n 0) _ i t _ _ Hc).
    - apply in_seq. lia.
    - apply (posDef_perm O FL OL (seq 0 n) (fun i => nth i p 0%nat) (fun i => nth i q 0%nat)); auto.
      + apply seq_perm; auto.
      + intros g Hg. apply in_seq in Hg. apply Hq. lia.
  Qed.

  Lemma single_quasidef mt s n p a vals m R :
    spOf s n n -> validPerm n p ->
    spOf a n n -> inputOf O m a vals -> coveredSym (entries a) (entries s) n p ->
    quasiDef OL (seq 0 n) R (symAt O (entries a) vals) ->
    exists b, factorizationBlk s p = Ok b /\
      singleWorks O FL n p b m a vals mt (fun i t => hasSign OL (R (nth i p 0%nat)) t).
  Proof.
    intros HS HP HA HI HC PD. destruct (block_ok s n p HS HP) as (b & EB & G). exists b. split; auto.
    pose proof (validPerm_isPerm n p HP) as P. destruct (invert_ok n p P) as (q & _ & _ & Hq & _).
    apply (single_good O FL IL s n p b m a vals HS HP EB HA HI HC). intros i t Hi Hc.
    assert (T : hasSign OL (R (nth i p 0%nat)) t);
      [|split; auto; apply (hasSign_nonzero O FL OL _ _ T); auto].
    refine (quasiDef_chi O FL OL (seq 0 n) (fun i => i) Nat.eq_dec (seq_NoDup n 0)
      (fun i => R (nth i p 0%nat)) _ i t _ _ _ Hc).
    - apply in_seq. lia.
    - intros h k _ _. apply symAt_perm.
    - apply (quasiDef_perm O FL OL (seq 0 n) (fun i => nth i p 0%nat) (fun i => nth i q 0%nat)); auto.
      + apply seq_perm; auto.
      + intros g Hg. apply in_seq in Hg. apply Hq. lia.
  Qed.

  Lemma single_posdef_conv mt s n p a vals m b L0 D0 L D :
    spOf s n n -> validPerm n p -> factorizationBlk s p = Ok b ->
    spOf a n n -> inputOf O m a vals -> coveredSym (entries a) (entries s) n p ->
    length L0 = c_nnz (b_sp b) -> length D0 = n ->
    factorize O mt b (Some m) regularizationNone (L0, D0) = Ok (L, D) ->
    (forall i, i < n -> ol_pos OL (vecAt O D i)) ->
    posDef OL (seq 0 n) (symAt O (entries a) vals).
  Proof.
    intros HS HP HB HA HI HC N1 N2 EF HD.
    assert (HZ : forall i, i < n -> vecAt O D i <> 0%s).
    { intros i Hi. apply (pos_nonzero O FL OL); auto. }
    destruct (factorization_identity_none O FL mt s n p a vals m HS HP HA HI HC) as (b' & EB & H).
    rewrite HB in EB. injection EB as <-. destruct (H L0 D0 N1 N2) as (L' & D' & EF' & NL & _ & HL).
    rewrite EF in EF'. injection EF' as <- <-. specialize (HL HZ).
    pose proof (validPerm_isPerm n p HP) as P. destruct (invert_ok n p P) as (q & _ & _ & Hq & _).
    apply (posDef_unperm O FL OL (seq 0 n) (fun i => nth i p 0%nat) (fun i => nth i q 0%nat)).
    - apply seq_perm; auto.
    - intros g Hg. apply in_seq in Hg. apply Hq. lia.
    - apply (ldl_posDef O FL OL (seq 0 n) (fun i => i) (seq_NoDup n 0)
        (unitAt O (fl_one FL) (c_entries (b_sp b)) L) _ (vecAt O D) n); auto.
      + intros g Hg. apply in_seq in Hg. lia.
      + intros g Hg. unfold unitAt. rewrite Nat.eqb_refl. auto.
      + intros g k _ _ N Lt. exact (unitAt_low O FL s n p b HS HP HB L g k NL N Lt).
      + intros g h Hg Hh. apply in_seq in Hg, Hh. rewrite (suml_seq O FL). apply HL; lia.
      + intros g Hg. apply in_seq in Hg. apply HD. lia.
  Qed.

  Lemma single_posdef_iff mt s n p a vals m :
    spOf s n n -> validPerm n p ->
    spOf a n n -> inputOf O m a vals -> coveredSym (entries a) (entries s) n p ->
    exists b, factorizationBlk s p = Ok b /\
      forall L0 D0, length L0 = c_nnz (b_sp b) -> length D0 = n ->
      (exists L D, factorize O mt b (Some m) regularizationNone (L0, D0) = Ok (L, D) /\
         forall i, i < n -> ol_pos OL (vecAt O D i)) <->
      posDef OL (seq 0 n) (symAt O (entries a) vals).
  Proof.
    intros HS HP HA HI HC. destruct (block_ok s n p HS HP) as (b & EB & G). exists b. split; auto.
    intros L0 D0 N1 N2. split.
    - intros (L & D & EF & HD). exact (single_posdef_conv mt s n p a vals m b L0 D0 L D HS HP EB HA HI HC N1 N2 EF HD).
    - intros PD. destruct (single_posdef mt s n p a vals m HS HP HA HI HC PD) as (b' & EB' & W).
      rewrite EB in EB'. injection EB' as <-. destruct (W L0 D0 N1 N2) as (L & D & EF & HD & _).
      eauto.
  Qed.

  (** ** arrowhead linked matrix *)
  Lemma arrow_posdef mt s ds dt dl dO n m w :
    arrowDims s ds dt dl dO -> inputArrow O n ds dt dl dO m w -> declaredArrow s n m ->
    posDef OL (allIdx n ds dt dl dO) (matAt O m w) ->
    exists k, arrowBlocks s = Ok k /\
      arrowWorks O FL s ds dt dl dO k n m w mt (fun _ t => ol_pos OL t).
  Proof.
    intros HD IA DA PD.
    destruct (arrowBlocks_ok s ds dt dl dO HD) as (k & P & Ek & _). exists k. split; auto.
    destruct (permIdx_inv s n ds dt dl dO HD) as (q & Q).
    apply (arrow_good O FL IL s ds dt dl dO k n m w HD Ek IA DA). intros g t Hg Hc.
    assert (T : ol_pos OL t); [|split; auto; apply (pos_nonzero O FL OL); auto].
    refine (posDef_chi O FL OL (allIdx n ds dt dl dO) (rank n ds dt dl) gidx_eq_dec
      (NoDup_allIdx n ds dt dl dO) _ g t Hg _ Hc).
    apply (posDef_perm O FL OL (allIdx n ds dt dl dO) (permIdx s) q); auto.
    - apply permIdx_Permutation; auto.
    - intros h Hh. apply Q; auto.
  Qed.

  Lemma arrow_posdef_conv mt s ds dt dl dO k n m w d0 d :
    arrowDims s ds dt dl dO -> arrowBlocks s = Ok k ->
    inputArrow O n ds dt dl dO m w -> declaredArrow s n m ->
    dataOf k n ds dt dl dO d0 ->
    arrowFactorize O mt k m regularizationNone d0 = Ok d ->
    (forall g, In g (allIdx n ds dt dl dO) -> ol_pos OL (pivotAt O d g)) ->
    posDef OL (allIdx n ds dt dl dO) (matAt O m w).
  Proof.
    intros HD Ek IA DA DO EF HP.
    assert (HZ : forall g, In g (allIdx n ds dt dl dO) -> pivotAt O d g <> 0%s).
    { intros g Hg. apply (pos_nonzero O FL OL); auto. }
    destruct (arrow_ldl O FL s ds dt dl dO k n m w HD Ek IA DA mt d0 d DO EF HZ) as [DO' HL].
    destruct (factor_low O FL s ds dt dl dO k n HD Ek d DO') as [F1 F0].
    destruct (permIdx_inv s n ds dt dl dO HD) as (q & Q).
    apply (posDef_unperm O FL OL (allIdx n ds dt dl dO) (permIdx s) q).
    - apply permIdx_Permutation; auto.
    - intros h Hh. apply Q; auto.
    - apply (ldl_posDef O FL OL (allIdx n ds dt dl dO) (rank n ds dt dl) (NoDup_allIdx n ds dt dl dO)
        (factorAt O (fl_one FL) k d) _ (pivotAt O d) (ds + (n + 1) * dt + dl + dO)); auto.
      + intros g Hg. apply rank_le; auto.
      + exact (rank_inj n ds dt dl dO).
  Qed.

  Lemma arrow_posdef_iff mt s ds dt dl dO n m w :
    arrowDims s ds dt dl dO -> inputArrow O n ds dt dl dO m w -> declaredArrow s n m ->
    exists k, arrowBlocks s = Ok k /\
      forall d0, dataOf k n ds dt dl dO d0 ->
      (exists d, arrowFactorize O mt k m regularizationNone d0 = Ok d /\
         forall g, In g (allIdx n ds dt dl dO) -> ol_pos OL (pivotAt O d g)) <->
      posDef OL (allIdx n ds dt dl dO) (matAt O m w).
  Proof.
    intros HD IA DA. destruct (arrowBlocks_ok s ds dt dl dO HD) as (k & P & Ek & _).
    exists k. split; auto. intros d0 DO. split.
    - intros (d & EF & HP). exact (arrow_posdef_conv mt s ds dt dl dO k n m w d0 d HD Ek IA DA DO EF HP).
    - intros PD. destruct (arrow_posdef mt s ds dt dl dO n m w HD IA DA PD) as (k' & Ek' & W).
      rewrite Ek in Ek'. injection Ek' as <-. destruct (W d0 DO) as (d & EF & _ & HP & _). eauto.
  Qed.

  Lemma arrow_quasidef mt s ds dt dl dO n m w R :
    arrowDims s ds dt dl dO -> inputArrow O n ds dt dl dO m w -> declaredArrow s n m ->
    quasiDef OL (allIdx n ds dt dl dO) R (matAt O m w) ->
    exists k, arrowBlocks s = Ok k /\
      arrowWorks O FL s ds dt dl dO k n m w mt (fun g t => hasSign OL (R (permIdx s g)) t).
  Proof.
    intros HD IA DA PD.
    destruct (arrowBlocks_ok s ds dt dl dO HD) as (k & P & Ek & _). exists k. split; auto.
    destruct (permIdx_inv s n ds dt dl dO HD) as (q & Q).
    apply (arrow_good O FL IL s ds dt dl dO k n m w HD Ek IA DA). intros g t Hg Hc.
    assert (T : hasSign OL (R (permIdx s g)) t);
      [|split; auto; apply (hasSign_nonzero O FL OL _ _ T); auto].
    refine (quasiDef_chi O FL OL (allIdx n ds dt dl dO) (rank n ds dt dl) gidx_eq_dec
      (NoDup_allIdx n ds dt dl dO) (fun g => R (permIdx s g)) _ g t Hg _ _ Hc).
    - intros h r _ _. apply Apg_sym.
    - apply (quasiDef_perm O FL OL (allIdx n ds dt dl dO) (permIdx s) q); auto.
      + apply permIdx_Permutation; auto.
      + intros h Hh. apply Q; auto.
  Qed.
End Definite.

(** ** block tridiagonal matrix *)

(** rows of a block tridiagonal matrix *)
Definition triPair (g : gidx) : nat * nat :=
  match g with GT t i => (t, i) | _ => (0, 0) end.
Definition triRow (r : nat * nat) : gidx := GT (fst r) (snd r).

Lemma allIdx_tri n dt :
  allIdx n 0 dt 0 0 = map triRow (list_prod (seq 0 (n + 1)) (seq 0 dt)).
Proof.
  unfold allIdx. cbn [seq map app]. rewrite app_nil_r.
  generalize (seq 0 (n + 1)). intros l. induction l as [|t l IH]; auto.
  cbn [map concat list_prod]. rewrite map_app, <- IH. f_equal.
  rewrite map_map. reflexivity.
Qed.

Section Tri.
  Context {F : Type} (O : ops F) (FL : fieldLaws O).
  Local Notation "0" := (o0 O) : scalar.
  Local Notation "a + b" := (oadd O a b) : scalar.
  Local Notation "a - b" := (osub O a b) : scalar.
  Local Notation "a * b" := (omul O a b) : scalar.
  Local Notation sum := (sumn O).
  Local Notation vat := (vecAt O).
  Add Ring FrPT : (fl_ring FL).

  Definition triWorks dt n p k (A B : list (mat (F:=F))) wA wB mt (good : nat -> nat -> F -> Prop) : Prop :=
    forall d0, dataOf k n 0 dt 0 0 d0 ->
    exists d, tridiagonalFactorize O mt k dt A B regularizationNone d0 = Ok d /\
      dataOf k n 0 dt 0 0 d /\
      (forall t i, t < n + 1 -> i < dt -> good t i (pivotAt O d (GT t i))) /\
      (forall t i u j, t < n + 1 -> i < dt -> u < n + 1 -> j < dt ->
         gldltAt O (allIdx n 0 dt 0 0) (factorAt O (fl_one FL) k d) (pivotAt O d) (GT t i) (GT u j) =
         triMatAt O A B wA wB t (nth i p 0%nat) u (nth j p 0%nat)) /\
      forall rhs, blocksOf n dt rhs ->
      exists x, tridiagonalSolveInPlace O k d rhs = Ok x /\ blocksOf n dt x /\
        (forall t i, t < n + 1 -> i < dt ->
           triMatVec O n dt (triMatAt O A B wA wB) x t i = vat (nth t rhs []) i) /\
        (forall x', blocksOf n dt x' ->
           (forall t i, t < n + 1 -> i < dt ->
              triMatVec O n dt (triMatAt O A B wA wB) x' t i = vat (nth t rhs []) i) -> x' = x).

  Lemma tri_works mt a b p dt n A B wA wB k (good : nat -> nat -> F -> Prop) :
    spOf a dt dt -> spOf b dt dt -> validPerm dt p ->
    inputTri O n dt A B wA wB -> declaredTri a b n A B ->
    tridiagonalBlocks a b p = Ok k ->
    (forall t i v, good t i v -> v <> 0%s) ->
    arrowWorks O FL (tridiagonalSparsity a b p) 0 dt 0 0 k n (tridiagonalInput dt A B n)
      (triVals n wA wB) mt (fun g t => good (fst (triPair g)) (snd (triPair g)) t) ->
    triWorks dt n p k A B wA wB mt good.
  Proof.
    intros SA SB HP IT DT Ek Hg W d0 DO.
    destruct (W d0 DO) as (d & EF & DO' & H1 & _).
    destruct (tri_factorizes O FL mt a b p dt n A B wA wB regularizationNone SA SB HP IT DT)
      as (k' & Ek' & _ & HF). rewrite Ek in Ek'. injection Ek' as <-.
    destruct (HF d0 DO) as (d' & EF' & _ & HX).
    assert (d' = d).
    { unfold tridiagonalFactorize, numRepetitions in EF'.
      rewrite (do_nts _ _ _ _ _ _ _ DO) in EF'. rewrite EF in EF'. congruence. }
    subst d'. exists d. split; auto. split; auto.
    assert (G : forall t i, t < n + 1 -> i < dt -> good t i (pivotAt O d (GT t i))).
    { intros t i Ht Hi. apply (H1 (GT t i)). apply in_tri. eauto. }
    split; auto. destruct HX as (E & HE & HL & HS).
    { intros t i Ht Hi. eapply Hg. apply G; auto. }
    assert (E0 : forall t i, t < n + 1 -> i < dt -> E t i = 0%s).
    { intros t i Ht Hi. pose proof HP as HP'. apply validPerm_isPerm in HP'.
      destruct (isPerm_surj dt p i HP' Hi) as (g & Hg' & <-). specialize (HE t g Ht Hg').
      unfold regularizationNone in HE.
      transitivity (pivotAt O d (GT t g) - (pivotAt O d (GT t g) - E t (nth g p 0%nat)))%s; [ring|].
      rewrite <- HE. ring. }
    assert (P0 : forall t i u j, t < n + 1 -> i < dt ->
      plusDiagT O (triMatAt O A B wA wB) E t i u j = triMatAt O A B wA wB t i u j).
    { intros t i u j Ht Hi. unfold plusDiagT. destruct ((t =? u) && (i =? j)); auto.
      rewrite E0 by auto. ring. }
    assert (M0 : forall x t i, t < n + 1 -> i < dt ->
      triMatVec O n dt (plusDiagT O (triMatAt O A B wA wB) E) x t i =
      triMatVec O n dt (triMatAt O A B wA wB) x t i).
    { intros x t i Ht Hi. unfold triMatVec. apply sumn_ext. intros u Hu. apply sumn_ext.
      intros j Hj. rewrite P0; auto. }
    split.
    { intros t i u j Ht Hi Hu Hj. rewrite HL by auto. apply P0; auto.
      pose proof HP as HP'. apply validPerm_isPerm in HP'. apply isPerm_lt; auto. }
    intros rhs HV. destruct (HS rhs HV) as (x & ES & VX & X1 & X2). exists x. split; auto.
    split; auto. split.
    - intros t i Ht Hi. rewrite <- M0 by auto. auto.
    - intros x' VX' H'. apply X2; auto. intros t i Ht Hi. rewrite M0; auto.
  Qed.

  Lemma tri_matAt n dt A B wA wB r c : inputTri O n dt A B wA wB ->
    matAt O (tridiagonalInput dt A B n) (triVals n wA wB) (triRow r) (triRow c) =
    triMatAt O A B wA wB (fst r) (snd r) (fst c) (snd c).
  Proof. intros _. destruct r, c. reflexivity. Qed.

  Section Ordered.
    Context (OL : ordLaws FL).

    Lemma tri_quad n dt A B wA wB x : inputTri O n dt A B wA wB ->
      quadForm O (allIdx n 0 dt 0 0) (matAt O (tridiagonalInput dt A B n) (triVals n wA wB)) x =
      quadForm O (list_prod (seq 0 (n + 1)) (seq 0 dt))
        (fun r c => triMatAt O A B wA wB (fst r) (snd r) (fst c) (snd c)) (fun r => x (triRow r)).
    Proof.
      intros IT. unfold quadForm. rewrite allIdx_tri, (suml_map O). apply suml_ext. intros r _.
      rewrite (suml_map O). apply suml_ext. intros c _. rewrite (tri_matAt n dt) by auto. auto.
    Qed.

    Lemma tri_nonzero n dt (x : gidx -> F) : nonzeroVec O (allIdx n 0 dt 0 0) x ->
      nonzeroVec O (list_prod (seq 0 (n + 1)) (seq 0 dt)) (fun r => x (triRow r)).
    Proof.
      intros (g & Hg & N). rewrite allIdx_tri in Hg. apply in_map_iff in Hg.
      destruct Hg as (r & <- & Hr). exists r. auto.
    Qed.

    Lemma tri_posdef mt a b p dt n A B wA wB :
      spOf a dt dt -> spOf b dt dt -> validPerm dt p ->
      inputTri O n dt A B wA wB -> declaredTri a b n A B ->
      posDef OL (list_prod (seq 0 (n + 1)) (seq 0 dt))
        (fun r c => triMatAt O A B wA wB (fst r) (snd r) (fst c) (snd c)) ->
      exists k, tridiagonalBlocks a b p = Ok k /\
        triWorks dt n p k A B wA wB mt (fun _ _ v => ol_pos OL v).
    Proof.
      intros SA SB HP IT DT PD.
      destruct (arrow_posdef O FL OL mt _ _ _ _ _ n _ _ (tri_dims a b p dt SA SB HP)
        (tri_input O n dt A B wA wB IT) (tri_declared a b p n dt A B DT)) as (k & Ek & W).
      - intros x Hx. rewrite tri_quad by auto. apply PD, tri_nonzero, Hx.
      - exists k. rewrite (tri_blocks a b p dt) by auto. split; auto.
        apply (tri_works mt a b p); auto.
        + rewrite (tri_blocks a b p dt) by auto. auto.
        + intros t i v. apply (pos_nonzero O FL OL).
    Qed.

    Lemma tri_quasidef mt a b p dt n A B wA wB R :
      spOf a dt dt -> spOf b dt dt -> validPerm dt p ->
      inputTri O n dt A B wA wB -> declaredTri a b n A B ->
      quasiDef OL (list_prod (seq 0 (n + 1)) (seq 0 dt)) (fun r => R (fst r) (snd r))
        (fun r c => triMatAt O A B wA wB (fst r) (snd r) (fst c) (snd c)) ->
      exists k, tridiagonalBlocks a b p = Ok k /\
        triWorks dt n p k A B wA wB mt (fun t i v => hasSign OL (R t (nth i p 0%nat)) v).
    Proof.
      intros SA SB HP IT DT PD.
      destruct (arrow_quasidef O FL OL mt _ _ _ _ _ n _ _ (fun g => R (fst (triPair g)) (snd (triPair g)))
        (tri_dims a b p dt SA SB HP)
        (tri_input O n dt A B wA wB IT) (tri_declared a b p n dt A B DT)) as (k & Ek & W).
      - intros x Hx. rewrite tri_quad by auto. destruct (PD _ (tri_nonzero _ _ x Hx)) as [P1 P2].
        split; intros Hz.
        + apply P1. intros r Hr HR. apply Hz; auto. rewrite allIdx_tri. apply in_map; auto.
        + apply P2. intros r Hr HR. apply Hz; auto. rewrite allIdx_tri. apply in_map; auto.
      - exists k. rewrite (tri_blocks a b p dt) by auto. split; auto.
        apply (tri_works mt a b p); auto.
        + rewrite (tri_blocks a b p dt) by auto. auto.
        + intros t i v. apply (hasSign_nonzero O FL OL).
        + intros d0 DO. destruct (W d0 DO) as (d & EF & DO' & H1 & H2 & H3). exists d.
          split; auto. split; auto. split; auto.
          intros g Hg. specialize (H1 g Hg). apply in_tri in Hg. destruct Hg as (t & i & -> & _ & _).
          exact H1.
    Qed.
  End Ordered.

  (** ** exactly the matrices with regular leading blocks *)
  Section Regular.
    Context (IL : infLaws F).

    Lemma single_breakdown mt s n p a vals m :
      spOf s n n -> validPerm n p ->
      spOf a n n -> inputOf O m a vals -> coveredSym (entries a) (entries s) n p ->
      exists b, factorizationBlk s p = Ok b /\
        forall L0 D0, length L0 = c_nnz (b_sp b) -> length D0 = n ->
        (exists L D, factorize O mt b (Some m) regularizationNone (L0, D0) = Ok (L, D) /\
           forall i, i < n -> vecAt O D i <> 0%s) <->
        (forall i, i < n -> regularUpTo O (seq 0 n) (fun j => i < j)
           (fun i j => symAt O (entries a) vals (nth i p 0%nat) (nth j p 0%nat))).
    Proof.
      intros HS HP HA HI HC. destruct (block_ok s n p HS HP) as (b & EB & G). exists b. split; auto.
      intros L0 D0 N1 N2. exact (single_iff O FL IL s n p b m a vals HS HP EB HA HI HC mt L0 D0 N1 N2).
    Qed.

    Lemma arrow_breakdown mt s ds dt dl dO n m w :
      arrowDims s ds dt dl dO -> inputArrow O n ds dt dl dO m w -> declaredArrow s n m ->
      exists k, arrowBlocks s = Ok k /\
        forall d0, dataOf k n ds dt dl dO d0 ->
        (exists d, arrowFactorize O mt k m regularizationNone d0 = Ok d /\
           forall g, In g (allIdx n ds dt dl dO) -> pivotAt O d g <> 0%s) <->
        (forall g, In g (allIdx n ds dt dl dO) ->
           regularUpTo O (allIdx n ds dt dl dO) (gbefore g)
             (fun g h => matAt O m w (permIdx s g) (permIdx s h))).
    Proof.
      intros HD IA DA. destruct (arrowBlocks_ok s ds dt dl dO HD) as (k & P & Ek & _).
      exists k. split; auto. intros d0 DO.
      exact (arrow_iff O FL IL s ds dt dl dO k n m w HD Ek IA DA mt d0 DO).
    Qed.
  End Regular.
End Tri.
