(** The kernels as sequences of subtractions, and the single block factorization as
    an instance. No algebraic laws. *)
From Coq Require Import List Arith Lia Bool.
From Verif Require Import Base ModelPerm ModelSparsity ModelSymbolic ModelNumeric ModelArrow.
From Verif Require Import SpecSymbolic SpecArrow SpecNumeric SpecArrowNum.
From Verif Require Import ProofBase ProofPerm ProofCsr ProofSparsity ProofFill ProofFill3
  ProofArrowSym ProofDense ProofUpRow ProofUp ProofEntry ProofKernel ProofSolve
  ProofSingle ProofArrowSub ProofChain.
Import ListNotations.

Section Kernel.
  Context {F : Type} (O : ops F).
  Local Notation "a * b" := (omul O a b) : scalar.
  Local Notation "a / b" := (odiv O a b) : scalar.

  (** a term made of the row values f, g, the values s of the first row before the
      division and the pivots D *)
  Definition term (fo : tform) (f g s D : nat -> F) (k : nat) (x : F) : Prop :=
    x = termF O fo (f k) (g k) (s k) (D k).

  (** the terms of a method: those of the pivots if dg is true *)
  Definition kernForm (mt : method) (dg : bool) : tform :=
    match mt with
    | UpLooking => if dg then TRight else TLeft
    | EntryWise => TProd
    end.

  Lemma dfold_subl d l s D : dfold O d l s D = subl O d l (fun k => (s k * (s k / D k))%s).
  Proof. reflexivity. Qed.

  Lemma reduces_subf (T : nat -> F -> Prop) a l nz f :
    (forall k, In k l -> nz k = true -> T k (f k)) ->
    reduces O T a (filter nz l) (subf O a l nz f).
  Proof.
    intros H. rewrite subf_filter. apply reduces_subl. intros k Hk. apply filter_In in Hk.
    apply H; apply Hk.
  Qed.

  Record kernelReds (mt : method) (c11 c21 c22 : csr) (i : nat)
      (G11 : nat -> nat -> F) (D1 : nat -> F) (a21 a22 : nat -> nat -> F) (ad : nat -> F)
      (reg : F -> nat -> F) (G21 G22 : nat -> nat -> F) (D2 : nat -> F) (s21 s22 : nat -> F)
      : Prop := mkKernelReds {
    kr_21 : forall j, In j (cols c21 i) ->
      reduces O (term (kernForm mt false) (G21 i) (G11 j) s21 D1) (a21 i j) (filter (nzb c11 j) (cols c21 i)) (s21 j) /\
        G21 i j = (s21 j / D1 j)%s;
    kr_22 : forall j, In j (cols c22 i) ->
      exists m, reduces O (term (kernForm mt false) (G21 i) (G21 j) s21 D1) (a22 i j) (filter (nzb c21 j) (cols c21 i)) m /\
        reduces O (term (kernForm mt false) (G22 i) (G22 j) s22 D2) m (filter (nzb c22 j) (cols c22 i)) (s22 j) /\
        G22 i j = (s22 j / D2 j)%s;
    kr_D : exists m s, reduces O (term (kernForm mt true) (G21 i) (G21 i) s21 D1) (ad i) (cols c21 i) m /\
        reduces O (term (kernForm mt true) (G22 i) (G22 i) s22 D2) m (cols c22 i) s /\ D2 i = reg s i }.

  Lemma kernel_reds mt c11 c21 c22 n2 G11 D1 a21 a22 ad reg G21 G22 D2 :
    kernelRows O mt c11 c21 c22 n2 G11 D1 a21 a22 ad reg G21 G22 D2 ->
    forall i, i < n2 -> exists s21 s22,
      kernelReds mt c11 c21 c22 i G11 D1 a21 a22 ad reg G21 G22 D2 s21 s22.
  Proof.
    destruct mt; cbn [kernelRows].
    - intros (s21 & s22 & K) i Hi. destruct (K i Hi) as [H1 H2 H3 H4 H5].
      exists (s21 i), (s22 i). constructor.
      + intros j Hj. split; [|auto]. rewrite H1 by auto.
        apply reduces_subf. intros k Hk _. reflexivity.
      + intros j Hj.
        exists (subf O (a22 i j) (cols c21 i) (nzb c21 j) (fun k => (G21 j k * s21 i k)%s)).
        split; [|split; [rewrite H3 by auto|auto]].
        * apply reduces_subf. intros k Hk _. reflexivity.
        * apply reduces_subf. intros k Hk _. reflexivity.
      + exists (dfold O (ad i) (cols c21 i) (s21 i) D1). eexists. split; [|split; [|exact H5]].
        * rewrite dfold_subl. apply reduces_subl. intros k Hk. red; cbn [termF kernForm]; rewrite H2; auto.
        * rewrite dfold_subl. apply reduces_subl. intros k Hk. red; cbn [termF kernForm]; rewrite H4; auto.
    - intros K i Hi. destruct (K i Hi) as [H1 H2 H3].
      exists (fun j => subf O (a21 i j) (cols c21 i) (nzb c11 j) (fun k => (G21 i k * G11 j k * D1 k)%s)),
        (fun j => subf O (subf O (a22 i j) (cols c21 i) (nzb c21 j) (fun k => (G21 i k * G21 j k * D1 k)%s))
           (cols c22 i) (nzb c22 j) (fun k => (G22 i k * G22 j k * D2 k)%s)).
      constructor.
      + intros j Hj. split; [|apply H1; auto].
        apply reduces_subf. intros k Hk _. reflexivity.
      + intros j Hj.
        exists (subf O (a22 i j) (cols c21 i) (nzb c21 j) (fun k => (G21 i k * G21 j k * D1 k)%s)).
        split; [|split; [|apply H2; auto]].
        * apply reduces_subf. intros k Hk _. reflexivity.
        * apply reduces_subf. intros k Hk _. reflexivity.
      + exists (subl O (ad i) (cols c21 i) (fun k => (G21 i k * G21 i k * D1 k)%s)). eexists.
        split; [|split; [|exact H3]]; [|rewrite !subf_true]; apply reduces_subl;
          intros k Hk; reflexivity.
  Qed.

  Record partReds (c11 c21 c31 c32 c33 : csr) (G11 : nat -> nat -> F) (D1 : nat -> F)
      (G21 : nat -> nat -> F) (a31 a32 a33 : nat -> nat -> F) (ad : nat -> F) (i : nat)
      (G31 G32 G33 : nat -> nat -> F) (D3 : nat -> F) (s : nat -> F) : Prop := mkPartReds {
    px_31 : forall j, In j (cols c31 i) ->
      reduces O (term TLeft (G31 i) (G11 j) s D1) (a31 i j) (filter (nzb c11 j) (cols c31 i)) (s j) /\
        G31 i j = (s j / D1 j)%s;
    px_32 : forall j, In j (cols c32 i) ->
      reduces O (term TLeft (G31 i) (G21 j) s D1) (a32 i j) (filter (nzb c21 j) (cols c31 i)) (G32 i j);
    px_33 : forall j, In j (cols c33 i) ->
      reduces O (term TLeft (G31 i) (G31 j) s D1) (a33 i j) (filter (nzb c31 j) (cols c31 i)) (G33 i j);
    px_D : reduces O (term TRight (G31 i) (G31 i) s D1) (ad i) (cols c31 i) (D3 i) }.

  Lemma part_reds c11 c21 c31 c32 c33 G11 D1 G21 a31 a32 a33 ad i s G31 G32 G33 D3 :
    partRow O c11 c21 c31 c32 c33 G11 D1 G21 a31 a32 a33 ad i s G31 G32 G33 D3 ->
    partReds c11 c21 c31 c32 c33 G11 D1 G21 a31 a32 a33 ad i G31 G32 G33 D3 s.
  Proof.
    intros [H1 H2 H3 H4 H5].
    assert (T : forall g k, In k (cols c31 i) -> term TLeft (G31 i) g s D1 k (g k * s k)%s).
    { intros g k Hk. reflexivity. }
    constructor.
    - intros j Hj. split; [|auto]. rewrite H1 by auto. apply reduces_subf. auto.
    - intros j Hj. rewrite H3 by auto. apply reduces_subf. auto.
    - intros j Hj. rewrite H4 by auto. apply reduces_subf. auto.
    - rewrite H5, dfold_subl. apply reduces_subl. intros k Hk. red; cbn [termF]; rewrite H2; auto.
  Qed.

  Lemma filter_nzb_cols c i : filter (nzb c i) (cols c i) = cols c i.
  Proof.
    assert (H : forall l, (forall k, In k l -> nzb c i k = true) -> filter (nzb c i) l = l).
    { induction l as [|k l IH]; intros H; [reflexivity|]. cbn [filter].
      rewrite (H k) by (left; auto). f_equal. apply IH. intros; apply H; right; auto. }
    apply H. intros k Hk. apply nzb_In, cols_In. auto.
  Qed.
End Kernel.

Lemma choice_below {X} (x0 : X) n (P : nat -> X -> Prop) :
  (forall i, i < n -> exists x, P i x) -> exists f, forall i, i < n -> P i (f i).
Proof.
  induction n as [|n IH]; intros H.
  - exists (fun _ => x0). intros; lia.
  - destruct IH as (f & Hf); [intros; apply H; lia|]. destruct (H n) as (x & Hx); [lia|].
    exists (fun i => if i =? n then x else f i). intros i Hi.
    destruct (Nat.eqb_spec i n) as [->|]; auto. apply Hf. lia.
Qed.

Lemma choice_list {X Y} (dec : forall x y : X, {x = y} + {x <> y}) (y0 : Y) (l : list X) (P : X -> Y -> Prop) :
  (forall x, In x l -> exists y, P x y) -> exists f, forall x, In x l -> P x (f x).
Proof.
  induction l as [|a l IH]; intros H.
  - exists (fun _ => y0). intros x [].
  - destruct IH as (f & Hf); [intros; apply H; right; auto|]. destruct (H a) as (y & Hy); [left; auto|].
    exists (fun x => if dec x a then y else f x). intros x Hx.
    destruct (dec x a) as [->|N]; auto. apply Hf. destruct Hx; [congruence|auto].
Qed.

Lemma filter_ext_in' {A} (f g : A -> bool) l :
  (forall a, In a l -> f a = g a) -> filter f l = filter g l.
Proof.
  induction l as [|x l IH]; intros H; [reflexivity|]. cbn [filter].
  rewrite (H x) by (left; auto). rewrite IH; auto. intros; apply H; right; auto.
Qed.

Section Single.
  Context {F : Type} (O : ops F).
  Local Notation get := (getL O).

  Variables (mt : method) (b : blk) (n : nat) (R : pattern) (p : perm) (m : mat (F:=F))
    (sp : sparsity) (vals : list F) (reg : F -> nat -> F) (L0 D0 L D : list F).
  Hypothesis G : goodBlk b n n R p p true.
  Hypothesis Low : forall i j, R i j -> j < i.
  Hypothesis Cl : closedPattern R.
  Hypothesis HI : inputOf O m sp vals.
  Hypothesis HS : spOf sp n n.
  Hypothesis HC : forall i j, permLow (entries sp) n p i j -> R i j.
  Hypothesis NL : length L0 = c_nnz (b_sp b).
  Hypothesis ND : length D0 = n.
  Hypothesis EF : factorize O mt b (Some m) reg (L0, D0) = Ok (L, D).

  Local Notation row := (cols (b_sp b)).
  Local Notation A := (fun i j => symAt O (entries sp) vals (nth i p 0) (nth j p 0)).

  Lemma single_common i j :
    common Nat.eq_dec row i j = filter (nzb (b_sp b) j) (row i).
  Proof.
    apply filter_ext_in'. intros k Hk.
    destruct (nzb (b_sp b) j k) eqn:E.
    - apply memI_In, cols_In, nzb_In. auto.
    - unfold memI. destruct (in_dec Nat.eq_dec k (row j)) as [H|H]; auto.
      apply cols_In, nzb_In in H. congruence.
  Qed.

  Lemma IL0 i j : initL O (Some m) b L0 i j = A i j.
  Proof.
    cbn [initL]. rewrite (origP_sym b n R p) by auto.
    rewrite (matVal_dense O m sp vals) by auto. reflexivity.
  Qed.

  Lemma ID0 i : initD O (Some m) b D0 i = A i i.
  Proof.
    cbn [initD]. rewrite (gb_prow _ _ _ _ _ _ _ G), (matVal_dense O m sp vals) by auto.
    unfold symAt. rewrite Nat.max_id, Nat.min_id. reflexivity.
  Qed.

  Lemma single_chainedF :
    exists S, chainedF O Nat.eq_dec (seq 0 n) row (fun dg _ _ => kernForm mt dg) A (get (b_sp b) L) S (getD O D) reg.
  Proof.
    destruct (factorize_ok O mt b n R p m sp vals reg L0 D0 G Low Cl HI HS HC NL ND)
      as (L1 & D1 & E & N1 & N2 & X & K).
    rewrite EF in E. injection E as <- <-.
    pose proof (io_sp _ _ _ _ HI) as Esp.
    assert (IL : forall i j, initL O (Some m) b L0 i j = A i j).
    { intros. apply IL0. }
    assert (ID : forall i, initD O (Some m) b D0 i = A i i).
    { intros. apply ID0. }
    assert (EC : forall i, cols (b_sp (emptyLeftBlk b)) i = []).
    { intros i. unfold emptyLeftBlk. reflexivity. }
    pose proof (kernel_reds O mt _ _ _ _ _ _ _ _ _ _ _ _ _ K) as KR.
    destruct (choice_below (fun _ => o0 O) n _ (fun i Hi => KR i Hi))
      as (s21 & KR1).
    destruct (choice_below (fun _ => o0 O) n _ KR1) as (s22 & KR2).
    exists s22. constructor.
    - intros i j Hi Hj. apply in_seq in Hi.
      destruct (kr_22 _ _ _ _ _ _ _ _ _ _ _ _ _ _ _ _ _ (KR2 i ltac:(lia)) j Hj) as (s0 & R1 & R2 & E).
      rewrite EC in R1. inversion R1; subst s0. rewrite IL in R2.
      split; [|exact E]. rewrite single_common.
      eapply reduces_impl; [|exact R2]. intros k x _ Hx. exact Hx.
    - intros i Hi. apply in_seq in Hi.
      destruct (kr_D _ _ _ _ _ _ _ _ _ _ _ _ _ _ _ _ _ (KR2 i ltac:(lia))) as (s0 & s & R1 & R2 & E).
      rewrite EC in R1. inversion R1; subst s0. rewrite ID in R2.
      exists s. split; [|exact E].
      eapply reduces_impl; [|exact R2]. intros k x _ Hx. exact Hx.
  Qed.

  Lemma single_chainedS :
    exists S, chainedS O Nat.eq_dec (seq 0 n) row A (get (b_sp b) L) S (getD O D) reg.
  Proof. destruct single_chainedF as (S & C). exists S. eapply chainedF_S; eauto. Qed.

  Lemma single_chained :
    chained O Nat.eq_dec (seq 0 n) row A (get (b_sp b) L) (getD O D) reg.
  Proof. destruct single_chainedS as (S & C). eapply chainedS_chained; eauto. Qed.

  Lemma single_rows : rowsGood O (seq 0 n) row A (get (b_sp b) L).
  Proof.
    pose proof G as [W _ r c I _ _ _ P _].
    pose proof (goodBlk_gcsr _ _ _ _ _ _ _ G) as GC.
    assert (LT : forall i j, In j (row i) -> j < i).
    { intros i j H. apply cols_In, I, Low in H. auto. }
    assert (BD : forall i j, In j (row i) -> j < n).
    { intros i j H. apply cols_In, (wfc_bounds _ W) in H. lia. }
    assert (SY : forall i j, A i j = A j i) by (intros; apply symAt_perm).
    constructor.
    - apply seq_NoDup.
    - intros g _. apply cols_NoDup; auto.
    - intros g k _ H. apply in_seq. apply BD in H. lia.
    - intros g _ H. apply LT in H. lia.
    - intros g h _ H1 H2. apply LT in H1. apply LT in H2. lia.
    - intros g h _ _ H. apply getL_out. rewrite <- cols_In. auto.
    - intros g h _ _. apply SY.
    - assert (Z : forall i j, i < n -> j < i -> ~ In j (row i) -> A i j = o0 O).
      { intros i j Hi Hj Hn.
        rewrite <- IL0.
        apply (initL_sym_out O (Some m) b n R p L0 i j G); auto.
        - split; [rewrite (io_sp _ _ _ _ HI); auto|]. rewrite (io_sp _ _ _ _ HI). auto.
        - rewrite <- cols_In. auto. }
      intros g h Hg Hh N H1 H2. apply in_seq in Hg. apply in_seq in Hh.
      destruct (Nat.lt_total g h) as [Hl|[->|Hl]]; [|congruence|].
      + rewrite SY. apply Z; auto. lia.
      + apply Z; auto. lia.
    - intros g h k Hg Hh N H1 H2. rewrite !cols_In, !I in *.
      destruct (Nat.lt_total g h) as [Hl|[->|Hl]]; [|congruence|].
      + right. eapply Cl; eauto.
      + left. eapply Cl; eauto.
  Qed.

  (** without an input matrix *)
  Lemma single_rows0 (L1 : list F) : rowsGood O (seq 0 n) row (fun _ _ => o0 O) (get (b_sp b) L1).
  Proof.
    clear ND NL EF.
    pose proof G as [W _ r c I _ _ _ P _].
    pose proof (goodBlk_gcsr _ _ _ _ _ _ _ G) as GC.
    assert (LT : forall i j, In j (row i) -> j < i).
    { intros i j H. apply cols_In, I, Low in H. auto. }
    assert (BD : forall i j, In j (row i) -> j < n).
    { intros i j H. apply cols_In, (wfc_bounds _ W) in H. lia. }
    constructor; auto.
    - apply seq_NoDup.
    - intros g _. apply cols_NoDup; auto.
    - intros g k _ H. apply in_seq. apply BD in H. lia.
    - intros g _ H. apply LT in H. lia.
    - intros g h _ H1 H2. apply LT in H1. apply LT in H2. lia.
    - intros g h _ _ H. apply getL_out. rewrite <- cols_In. auto.
    - intros g h k Hg Hh N H1 H2. rewrite !cols_In, !I in *.
      destruct (Nat.lt_total g h) as [Hl|[->|Hl]]; [|congruence|].
      + right. eapply Cl; eauto.
      + left. eapply Cl; eauto.
  Qed.

  Lemma single_cols : colsGood (seq 0 n) row (rowsOf (b_sp b) n).
  Proof.
    clear ND NL EF.
    constructor.
    - intros; apply rowsOf_NoDup.
    - intros g k _. rewrite rowsOf_In, cols_In, in_seq. intuition lia.
  Qed.
End Single.
