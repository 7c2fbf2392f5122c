(** Rounding errors of the block tridiagonal factorization, from the arrowhead system
    without start, link and outer blocks. *)
From Coq Require Import Reals Lra Lia List Arith Bool.
From Verif Require Import Base ModelPerm ModelSparsity ModelSymbolic ModelNumeric ModelArrow ModelReg.
From Verif Require Import SpecSymbolic SpecArrow SpecNumeric SpecArrowNum SpecReg SpecRound.
From Verif Require Import ProofLdl ProofArrowProduct ProofPropArrow ProofRoundMain ProofRoundUser.
Import ListNotations.
Local Open Scope nat_scope.

Section Any.
  Context {F : Type} (O : ops F).

  Lemma tri_any a b p dt : spOf a dt dt -> spOf b dt dt -> validPerm dt p ->
    exists k, tridiagonalBlocks a b p = Ok k /\
      (forall n, exists d, arrowCtor O k n = Ok d /\ dataOf k n 0 dt 0 0 d) /\
      (forall mt n A B wA wB reg d0, inputTri O n dt A B wA wB -> declaredTri a b n A B ->
         dataOf k n 0 dt 0 0 d0 ->
         exists d, tridiagonalFactorize O mt k dt A B reg d0 = Ok d /\ dataOf k n 0 dt 0 0 d) /\
      (forall n d rhs, dataOf k n 0 dt 0 0 d -> blocksOf n dt rhs ->
         exists x, tridiagonalSolveInPlace O k d rhs = Ok x /\ blocksOf n dt x).
  Proof.
    intros SA SB HP.
    destruct (arrow_any O _ _ _ _ _ (tri_dims a b p dt SA SB HP)) as (k & Ek & HC & HF & HS).
    exists k. split; [rewrite (tri_blocks a b p dt); auto|]. split; auto. split.
    - intros mt n A B wA wB reg d0 IT DT DO.
      unfold tridiagonalFactorize, numRepetitions. rewrite (do_nts _ _ _ _ _ _ _ DO).
      eapply HF; eauto using tri_input, tri_declared.
    - intros n d rhs DO HV. destruct (HS n d _ DO (tri_vec n dt rhs HV)) as (y & ES & VY).
      exists (v_tri y). unfold tridiagonalSolveInPlace. rewrite ES. split; auto. split; apply VY.
  Qed.
End Any.

Local Open Scope R_scope.
Section Tri.
  Context {F : Type} (O : ops F) (fin : F -> Prop) (val : F -> R) (u eta : R).
  Context (RO : rounding O fin val u eta).
  Variables (a b : sparsity) (p : perm) (dt n : nat) (k : arrow_blks).
  Hypotheses (SA : spOf a dt dt) (SB : spOf b dt dt) (HP : validPerm dt p).
  Hypothesis HK : tridiagonalBlocks a b p = Ok k.
  Local Notation all := (allIdx n 0 dt 0 0).
  Local Notation U d := (unitG O val k d).
  Local Notation V d := (fun g => val (pivotAt O d g)).

  Lemma tri_k : arrowBlocks (tridiagonalSparsity a b p) = Ok k.
  Proof. rewrite <- (tri_blocks a b p dt); auto. Qed.

  Lemma tri_sum (f : gidx -> R) :
    suml Or all f = sumn Or (n + 1) (fun t => sumn Or dt (fun j => f (GT t j))).
  Proof. rewrite (suml_allIdx Or FLr). cbn [sumn]. cbn [oadd o0 Or]. lra. Qed.

  Lemma tri_factor_none mt A B wA wB d0 d :
    inputTri O n dt A B wA wB -> declaredTri a b n A B -> dataOf k n 0 dt 0 0 d0 ->
    tridiagonalFactorize O mt k dt A B regularizationNone d0 = Ok d ->
    (forall g h, In g all -> In h all -> fin (factorAt O (o0 O) k d g h)) ->
    (forall g, In g all -> fin (pivotAt O d g)) ->
    forall t i t' j, (t < n + 1)%nat -> (i < dt)%nat -> (t' < n + 1)%nat -> (j < dt)%nat ->
      Rabs (val (triMatAt O A B wA wB t (nth i p 0%nat) t' (nth j p 0%nat)) -
            prodAt all (U d) (V d) (GT t i) (GT t' j)) <=
      factorBound all (U d) (V d) u eta (rowCountG k n (GT t i)) (GT t i) (GT t' j).
  Proof.
    intros IT DT DO EF H1 H2 t i t' j Ht Hi Ht' Hj.
    unfold tridiagonalFactorize, numRepetitions in EF. rewrite (do_nts _ _ _ _ _ _ _ DO) in EF.
    apply (arrow_factor_none O fin val u eta RO _ 0 dt 0 0 k n (tri_dims a b p dt SA SB HP) tri_k
      mt _ _ d0 d (tri_input O n dt A B wA wB IT) (tri_declared a b p n dt A B DT) DO EF H1 H2
      (GT t i) (GT t' j)); apply in_tri; eauto.
  Qed.

  Lemma tri_total_none mt A B wA wB d0 d rhs cc :
    inputTri O n dt A B wA wB -> declaredTri a b n A B -> dataOf k n 0 dt 0 0 d0 ->
    tridiagonalFactorize O mt k dt A B regularizationNone d0 = Ok d ->
    (forall g, In g all -> fin (pivotAt O d g)) ->
    blocksOf n dt rhs ->
    (forall g, In g all -> (colCountG k n g <= cc)%nat) ->
    exists x, tridiagonalSolveInPlace O k d rhs = Ok x /\ blocksOf n dt x /\
      ((forall t i, (t < n + 1)%nat -> (i < dt)%nat -> fin (vecAt O (nth t x []) i)) ->
       forall t i, (t < n + 1)%nat -> (i < dt)%nat ->
       let xp := fun h => val (gvecAt O (mkAV [] x [] []) (permIdx (tridiagonalSparsity a b p) h)) in
       Rabs (val (vecAt O (nth t rhs []) (nth i p 0%nat)) -
             sumn Or (n + 1) (fun t' => sumn Or dt (fun j =>
               val (triMatAt O A B wA wB t (nth i p 0%nat) t' j) * val (vecAt O (nth t' x []) j)))) <=
       solveBound all (U d) (V d) u eta (rowCountG k n (GT t i)) cc xp (GT t i) +
       suml Or all (fun h => factorBound all (U d) (V d) u eta (rowCountG k n (GT t i)) (GT t i) h *
                             Rabs (xp h))).
  Proof.
    intros IT DT DO EF HF HV HC.
    unfold tridiagonalFactorize, numRepetitions in EF. rewrite (do_nts _ _ _ _ _ _ _ DO) in EF.
    destruct (arrow_total_none O fin val u eta RO _ 0 dt 0 0 k n (tri_dims a b p dt SA SB HP) tri_k
      mt _ _ d0 d (mkAV [] rhs [] []) cc (tri_input O n dt A B wA wB IT) (tri_declared a b p n dt A B DT) DO EF HF
      (tri_vec n dt rhs HV) HC) as (y & ES & VY & HY).
    exists (v_tri y). unfold tridiagonalSolveInPlace. rewrite ES. split; auto.
    assert (Ey : y = mkAV [] (v_tri y) [] []).
    { destruct y as [y1 y2 y3 y4], VY as [V1 V2 V3 V4 V5]. cbn [v_start v_tri v_link v_outer] in *.
      destruct y1, y3, y4; cbn in V1, V4, V5; try lia. auto. }
    split; [split; apply VY|].
    intros HX t i Ht Hi.
    rewrite <- Ey.
    assert (HX' : forall g, In g all -> fin (gvecAt O y g)).
    { intros g Hg. apply in_tri in Hg. destruct Hg as (t' & j & -> & Ht' & Hj). rewrite Ey. apply HX; auto. }
    assert (Hg : In (GT t i) all) by (apply in_tri; eauto).
    specialize (HY HX' (GT t i) Hg). rewrite (tri_sum (fun c => _ * _)) in HY. exact HY.
  Qed.
End Tri.
