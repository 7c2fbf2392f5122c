(** Elimination tree and filled-in pattern of repeating block tridiagonal
    arrowhead matrices. *)
From Coq Require Import List Arith Lia Bool Permutation.
From Verif Require Import Base ModelPerm ModelSparsity ModelSymbolic SpecSymbolic.
From Verif Require Import ProofBase ProofPerm ProofCsr ProofSparsity ProofEtree ProofFill.
From Verif Require Import ProofFill3 ProofRep.
Import ListNotations.

Lemma bind_ext {X Y} (m : res X) (f g : X -> res Y) :
  (forall x, f x = g x) -> bind m f = bind m g.
Proof. intros H. destruct m; cbn [bind]; auto. Qed.

Lemma nth_skipn' {X} n (l : list X) i a : nth i (skipn n l) a = nth (n + i) l a.
Proof.
  revert l; induction n as [|n IH]; intros l; cbn [skipn Nat.add]; auto.
  destruct l; cbn [nth]; auto. destruct i; auto.
Qed.

Lemma foldM_ext_inv {St X} (I : St -> Prop) (f g : St -> X -> res St) l s :
  I s -> (forall s x, I s -> f s x = g s x) ->
  (forall s x s', I s -> g s x = Ok s' -> I s') ->
  foldM f l s = foldM g l s.
Proof.
  intros H0 H1 H2. revert s H0. induction l as [|x l IH]; intros s H0; cbn [foldM]; auto.
  rewrite H1 by auto. destruct (g s x) as [s'|e] eqn:E; cbn [bind]; auto.
  apply IH. eapply H2; eauto.
Qed.

Lemma walk_length fuel gp i : forall j st st',
  walk fuel gp i j st = Ok st' -> length (fst st') = length (fst st).
Proof.
  induction fuel as [|f IH]; cbn [walk]; intros j [v c] st' H; [discriminate|].
  apply bind_inv in H. destruct H as (x & _ & H). destruct (x =? i).
  - injection H as <-. auto.
  - apply bind_inv in H. destruct H as (v' & Ev & H).
    apply bind_inv in H. destruct H as (j' & _ & H). apply IH in H. cbn [fst] in *.
    apply wr_inv in Ev. destruct Ev as [Hj ->]. rewrite upd_length in H. auto.
Qed.

Lemma foldM_pres {St X} (I : St -> Prop) (f : St -> X -> res St) l s s' :
  I s -> (forall s x s', I s -> f s x = Ok s' -> I s') ->
  foldM f l s = Ok s' -> I s'.
Proof.
  intros H0 H. revert s H0. induction l as [|x l IH]; intros s H0; cbn [foldM].
  - intros E. injection E as <-. auto.
  - intros E. apply bind_inv in E. destruct E as (s1 & E1 & E2). eauto.
Qed.

Lemma foreachAncestorImpl_length sp gp r ro co st st' :
  foreachAncestorInSubtreeImpl sp gp r ro co st = Ok st' ->
  length (fst st') = length (fst st).
Proof.
  unfold foreachAncestorInSubtreeImpl. intros H. apply bind_inv in H.
  destruct H as (row & _ & H).
  refine (foldM_pres (fun s => length (fst s) = length (fst st)) _ _ st st' eq_refl _ H).
  intros s x s' Hs E. cbn in E. apply walk_length in E. lia.
Qed.

Lemma nth_map_lt {X Y} (f : X -> Y) l i a b :
  i < length l -> nth i (map f l) b = f (nth i l a).
Proof.
  intros H. rewrite (nth_indep (map f l) b (f a)) by (rewrite map_length; auto).
  apply map_nth.
Qed.

Lemma outerParent_ok d t x : length t = 2 * d -> x < d ->
  outerParent t d x = Ok (opar d (par t) x).
Proof.
  intros Hl Hx. unfold outerParent, opar, par. rewrite (rd_nth _ _ None) by lia.
  cbn [bind]. destruct (nth x t None); auto.
  destruct (Nat.eqb_spec d 0); [lia|reflexivity].
Qed.

Section Repeating.
  Context (cA cB : csr) (d : nat) (WA : wf_csr cA) (WB : wf_csr cB).
  Context (DA : c_rows cA = d /\ c_cols cA = d) (DB : c_rows cB = d /\ c_cols cB = d).
  Context (Hlow : forall i j, In (i, j) (c_entries cA) -> j < i).

  Let A := entriesPat (c_entries cA).
  Let B := entriesPat (c_entries cB).

  Lemma A_bound i j : A i j -> j < i /\ i < d.
  Proof. intros H. pose proof (wfc_bounds _ WA _ _ H). apply Hlow in H. lia. Qed.

  Lemma B_bound i j : B i j -> i < d /\ j < d.
  Proof. intros H. pose proof (wfc_bounds _ WB _ _ H). lia. Qed.

  Definition rowsRep (i : nat) : list piece := [(cB, i - d, d, 0); (cA, i - d, d, d)].

  Lemma rowsRep_good i p : d <= i < d + d -> In p (rowsRep i) -> goodPiece (2 * d) i p.
  Proof.
    intros Hi. unfold rowsRep. cbn [In]. intros H'; repeat (destruct H' as [<-|H']);
      try contradiction; unfold goodPiece; (split; [assumption|]); lia.
  Qed.

  Lemma rowsRep_cols i x : d <= i < d + d -> rowCols (rowsRep i) x <-> rowsBA d A B i x.
  Proof.
    intros Hi. unfold rowCols, rowsRep, rowsBA, A, B, entriesPat. cbn [In]. split.
    - intros (p & [<-|[<-|[]]] & c & Hc & ->).
      + left. exists (i - d). rewrite Nat.add_0_r. split; [lia|auto].
      + right. exists (i - d), c. split; [lia|]. split; [lia|auto].
    - intros [(i' & -> & H)|(i' & j' & -> & -> & H)].
      + exists (cB, d + i' - d, d, 0). split; auto. exists x.
        replace (d + i' - d) with i' by lia. split; [auto|lia].
      + exists (cA, d + i' - d, d, d). split; auto. exists j'.
        replace (d + i' - d) with i' by lia. split; [auto|lia].
  Qed.

  Lemma pass_ok T st :
    etInv (2 * d) d (edges T) st ->
    exists st', repeatingPass cA cB d st = Ok st' /\
      etInv (2 * d) (2 * d) (repQ d A B T) st'.
  Proof.
    intros HI. destruct (addRows_ok (2 * d) rowsRep (edges T) st d d HI)
      as (st' & E & HI'); [lia|apply rowsRep_good|].
    exists st'. split.
    - unfold repeatingPass. rewrite <- E, (foldM_shift _ d d).
      apply foldM_ext. intros s i Hi. unfold rowsRep.
      replace (i + d - d) with i by lia. cbn [foldM addPiece].
      apply bind_ext. intros s'. apply eq_sym, bind_ret.
    - replace (d + d) with (2 * d) in HI' by lia. eapply etInv_ext; [|exact HI'].
      intros a b Hab. unfold repQ. split.
      + intros [H|[Ha H]]; auto. right. apply rowsRep_cols; auto. lia.
      + intros [H|H]; auto. right.
        pose proof (rowsBA_bound d A B A_bound B_bound _ _ H) as Hb.
        split; [lia|]. apply rowsRep_cols; auto. lia.
  Qed.

  (** what the loop knows before an iteration *)
  Record repState (t : tree) (tree_init : tree) (anc : list nat) : Prop := mkRepState {
    rs_len : length tree_init = d;
    rs_t : t = tree_init ++ repeat None d;
    rs_anc_len : length anc = 2 * d;
    rs_below : below d (par tree_init);
    rs_anc : ancOk (par tree_init) anc }.

  Lemma par_app_None l n x : par (l ++ repeat None n) x = par l x.
  Proof.
    unfold par. destruct (Nat.lt_ge_cases x (length l)) as [L|L].
    - apply app_nth1; auto.
    - rewrite app_nth2 by auto. rewrite (nth_overflow l) by auto.
      destruct (Nat.lt_ge_cases (x - length l) n).
      + apply nth_repeat_lt; auto.
      + apply nth_overflow. rewrite repeat_length. auto.
  Qed.

  Lemma repState_etInv t ti anc :
    repState t ti anc -> etInv (2 * d) d (edges (par ti)) (t, anc).
  Proof.
    intros [H1 H2 H3 H4 H5]. constructor; cbn [fst snd]; auto.
    - subst t. rewrite app_length, repeat_length. lia.
    - intros a b H _. apply H4 in H. lia.
    - intros j. subst t. rewrite par_app_None. apply edges_etree.
      apply below_asc with (d := d); auto.
    - intros x Hx. unfold shortcut. subst t.
      specialize (H5 x Hx). unfold shortcut in H5. rewrite par_app_None.
      destruct (par ti x); auto. destruct H5 as [H6 H7]. split; auto.
      eapply Anc_mono; [|exact H7]. intros y p. rewrite par_app_None. auto.
  Qed.

  Lemma subtreeBack_ok T t anc :
    below d T -> etInv (2 * d) (2 * d) (repQ d A B T) (t, anc) ->
    exists ti, subtreeBack t d = Ok ti /\ length ti = d /\ backOf d (par t) (par ti).
  Proof.
    intros HT [H1 H2 H3 H4 H5]. cbn [fst snd] in *. unfold subtreeBack.
    rewrite pre_ok by (apply Nat.leb_le; lia). cbn [bind].
    rewrite H1. replace (2 * d - d) with d by lia.
    rewrite (mapM_ok _ (option_map (fun p => p - d))).
    - eexists. split; [reflexivity|].
      assert (Hl : length (skipn d t) = d) by (rewrite skipn_length; lia).
      split; [rewrite map_length; auto|]. split.
      + intros x Hx. unfold par.
        rewrite (nth_map_lt _ _ _ None) by lia. f_equal.
        rewrite nth_skipn'. f_equal.
      + intros x Hx. unfold par. apply nth_overflow. rewrite map_length. lia.
    - intros o Hin. destruct o as [q|]; auto.
      apply In_nth with (d := None) in Hin. destruct Hin as (x & Hx & E).
      rewrite skipn_length, H1 in Hx.
      rewrite nth_skipn' in E.
      pose proof (t_bound d A B A_bound B_bound T (par t) HT H4 (d + x) q) as Hq.
      unfold par in Hq. specialize (Hq E).
      rewrite subw_ok by lia. cbn [bind]. replace (2 * d - d) with d by lia.
      rewrite subw_ok by lia. reflexivity.
  Qed.

  Lemma repState_next T t anc ti :
    below d T -> etInv (2 * d) (2 * d) (repQ d A B T) (t, anc) ->
    length ti = d -> backOf d (par t) (par ti) ->
    exists t' anc',
      (let* t' := setSubtreeFront t ti in clearSubtreeBack t' d) = Ok t' /\
      mapM (fun a => subw a d) (skipn d anc) = Ok anc' /\
      repState t' ti (anc' ++ seq d d).
  Proof.
    intros HT HI Hl HB. pose proof HI as [H1 H2 H3 H4 H5]. cbn [fst snd] in *.
    assert (HS : forall x, x < d -> shortcut (par t) (d + x) (nth (d + x) anc 0)).
    { intros x Hx. apply H5. lia. }
    exists (ti ++ repeat None d), (map (fun a => a - d) (skipn d anc)).
    split; [|split].
    - unfold setSubtreeFront. rewrite pre_ok by (apply Nat.leb_le; lia). cbn [bind].
      unfold clearSubtreeBack. rewrite app_length, skipn_length, Hl, H1.
      replace (d + (2 * d - d) - d) with d by lia.
      replace (d <=? d + (2 * d - d)) with true by (symmetry; apply Nat.leb_le; lia).
      rewrite firstn_app, Hl, Nat.sub_diag, firstn_O, app_nil_r.
      rewrite firstn_all2 by lia. reflexivity.
    - apply mapM_ok. intros a Hin. apply subw_ok.
      apply In_nth with (d := 0) in Hin. destruct Hin as (x & Hx & E).
      rewrite skipn_length, H2 in Hx. rewrite nth_skipn' in E.
      specialize (HS x ltac:(lia)). rewrite E in HS. unfold shortcut in HS.
      destruct (par t (d + x)); lia.
    - constructor; auto.
      + rewrite app_length, map_length, skipn_length, seq_length. lia.
      + apply (back_below d A B A_bound B_bound T (par t)); auto.
      + intros x Hx. rewrite app_length, map_length, skipn_length, seq_length in Hx.
        destruct (Nat.lt_ge_cases x d) as [L|L].
        * rewrite app_nth1 by (rewrite map_length, skipn_length; lia).
          rewrite (nth_map_lt _ _ _ 0) by (rewrite skipn_length; lia).
          rewrite nth_skipn'.
          specialize (HS x L). unfold shortcut in *.
          rewrite (proj1 HB x L).
          destruct (par t (d + x)) as [q|] eqn:Eq; cbn [option_map]; [|lia].
          destruct HS as [HS1 HS2]. split; [lia|].
          apply (back_Anc d A B A_bound B_bound T (par t)); auto.
          replace (d + (nth (d + x) anc 0 - d)) with (nth (d + x) anc 0) by lia. auto.
        * rewrite app_nth2 by (rewrite map_length, skipn_length; lia).
          rewrite map_length, skipn_length, H2.
          rewrite seq_nth by lia. unfold shortcut. rewrite (proj2 HB) by auto. lia.
  Qed.

  Lemma tree_eqb_spec t1 t2 : tree_eqb t1 t2 = true <-> t1 = t2.
  Proof.
    unfold tree_eqb. apply list_eqb_spec. intros [x|] [y|]; cbn; try (split; congruence).
    rewrite Nat.eqb_eq. split; congruence.
  Qed.

  Lemma par_inj (l l' : tree) :
    length l = length l' -> (forall x, par l x = par l' x) -> l = l'.
  Proof. intros Hl H. apply (nth_ext _ _ None None); auto. intros; apply H. Qed.

  (** result of the iteration *)
  Definition fixedTree (C : pattern) (t : tree) (T : ptree) : Prop :=
    length t = 2 * d /\ below d T /\ isEtree (repQ d A B T) (par t) /\
    backOf d (par t) T /\ exists k, reached d A B C k T.

  Lemma loop_ok (C : pattern) (HC : forall i j, C i j -> j < d) fuel :
    forall t ti anc k,
    repState t ti anc -> increasing d A B (par ti) -> reached d A B C k (par ti) ->
    d * d - ancPairs (par ti) d < fuel ->
    exists t', repeatingLoop fuel cA cB d t ti anc = Ok t' /\
      exists T, fixedTree C t' T.
  Proof.
    induction fuel as [|f IH]; intros t ti anc k HS HI HR Hf; [lia|].
    cbn [repeatingLoop].
    pose proof (repState_etInv _ _ _ HS) as HE. pose proof HS as [R1 R2 R3 R4 R5].
    destruct (pass_ok (par ti) (t, anc) HE) as ([t1 anc1] & E1 & HE1).
    rewrite E1. cbn [bind].
    destruct (subtreeBack_ok (par ti) t1 anc1 R4 HE1) as (ti1 & E2 & Hl1 & HB1).
    rewrite E2. cbn [bind].
    pose proof HE1 as [G1 G2 G3 G4 G5]. cbn [fst snd] in *.
    destruct (tree_eqb ti1 ti) eqn:Eq.
    - exists t1. split; auto. exists (par ti). apply tree_eqb_spec in Eq. subst ti1.
      unfold fixedTree. eauto 10.
    - destruct (repState_next (par ti) t1 anc1 ti1 R4 HE1 Hl1 HB1)
        as (t2 & anc2 & E3 & E4 & HS2).
      apply bind_inv in E3. destruct E3 as (t3 & E3 & E3').
      rewrite E3. cbn [bind]. rewrite E3'. cbn [bind]. rewrite E4. cbn [bind].
      destruct (increasing_pairs d A B A_bound B_bound (par ti) (par t1) (par ti1))
        as [P1 P2]; auto.
      pose proof (ancPairs_le (par ti1) d) as P3.
      apply (IH t2 ti1 (anc2 ++ seq d d) (S k)); auto.
      + apply (increasing_step d A B A_bound B_bound (par ti) (par t1)); auto.
      + apply (reached_step d A B C A_bound B_bound k (par ti) (par t1)); auto.
      + enough (ancPairs (par ti) d <> ancPairs (par ti1) d) by lia.
        intros Ep. specialize (P2 Ep).
        assert (ti1 = ti) by (apply par_inj; [lia|intros; rewrite P2; auto]).
        subst ti1. rewrite (proj2 (tree_eqb_spec ti ti) eq_refl) in Eq. discriminate.
  Qed.

  Lemma repeatingTree_ok (C : pattern) (HC : forall i j, C i j -> j < d) :
    exists t, computeEliminationTreeRepeating cA cB = Ok t /\
      exists T, fixedTree C t T.
  Proof.
    unfold computeEliminationTreeRepeating, isSquare.
    fold (c_rows cA) (c_cols cA) (c_rows cB) (c_cols cB).
    repeat (rewrite pre_ok by (apply Nat.eqb_eq; lia); cbn [bind]).
    rewrite (proj1 DA).
    apply (loop_ok C HC _ _ _ _ 0).
    - constructor.
      + unfold emptyTree. apply repeat_length.
      + unfold emptyTree. rewrite <- repeat_app. f_equal. lia.
      + apply seq_length.
      + intros x p E. rewrite par_empty in E. discriminate.
      + intros x Hx. rewrite seq_length in Hx. rewrite seq_nth by auto.
        unfold shortcut. rewrite par_empty. auto.
    - apply increasing_empty. intros; apply par_empty.
    - apply reached_empty. intros; apply par_empty.
    - lia.
  Qed.

  (** ** the walks *)
  Context (cC : csr) (dO : nat) (WC : wf_csr cC)
          (DC : c_rows cC = dO /\ c_cols cC = d).
  Let C := entriesPat (c_entries cC).

  Lemma C_bound i j : C i j -> i < dO /\ j < d.
  Proof. intros H. pose proof (wfc_bounds _ WC _ _ H). lia. Qed.

  Definition rowsOut (i : nat) : list piece := [(cC, i - 2 * d, 2 * d, 0)].

  Lemma rowsOut_good i p : 2 * d <= i < 2 * d + dO -> In p (rowsOut i) ->
    goodPiece (d + dO) i p.
  Proof.
    intros Hi. unfold rowsOut. cbn [In]. intros [<-|[]].
    unfold goodPiece; (split; [assumption|]); lia.
  Qed.

  Lemma rowsOut_cols i x : 2 * d <= i < 2 * d + dO ->
    rowCols (rowsOut i) x <-> C (i - 2 * d) x.
  Proof.
    intros Hi. unfold rowCols, rowsOut, C, entriesPat. cbn [In]. split.
    - intros (p & [<-|[]] & c & Hc & ->). rewrite Nat.add_0_r. auto.
    - intros H. eexists. split; [left; reflexivity|]. exists x. split; [auto|lia].
  Qed.

  (** walking of the outer rows *)
  Lemma outerWalk_ok t calls0 : length t = 2 * d ->
    exists v' calls,
      foldM (fun st i =>
               foreachAncestorInSubtreeRepeatingOuter cC t i (2 * d) 0 st)
            (seq 0 dO) (seq 0 d, calls0) = Ok (v', calls0 ++ calls) /\
      NoDup calls /\
      (forall i x, In (i, x) calls <->
         2 * d <= i < 2 * d + dO /\ Opat d C (par t) (i - 2 * d) x).
  Proof.
    intros Hl.
    destruct (walkRows_ok (outerParent t d) (fun _ x => x < d)
                (fun i x => Opat d C (par t) (i - 2 * d) x) d (d + dO) rowsOut
                calls0 (seq 0 d) (2 * d) dO)
      as (v' & calls & E & _ & ND & Hc).
    - apply visOk_init.
    - auto.
    - intros i x Hi Hx _. split; [lia|]. exists (opar d (par t) x).
      split; [apply outerParent_ok; auto|apply opar_bound; auto].
    - intros i p Hi. apply rowsOut_good; auto.
    - intros i x Hi Hx. apply rowsOut_cols in Hx; auto. apply C_bound in Hx. lia.
    - intros i st N c0 Hi [H1 H2 H3 H4 H5 H6 H7 H8 H9] x. split.
      + intros Hx. destruct (H8 x Hx) as (s & Hs & HR).
        exists s. pose proof Hs as Hs'. apply rowsOut_cols in Hs; auto. split; auto.
        apply C_bound in Hs. destruct Hs as [_ Hs].
        clear - HR Hs Hl. induction HR as [x|x y p HR IH E]; [constructor|].
        specialize (IH Hs). pose proof (OReach_bound d (par t) _ _ IH Hs) as Hy.
        rewrite outerParent_ok in E by auto. injection E as <-.
        apply OReach_step; auto.
      + intros (c & Hc & HR).
        assert (HcN : In c N).
        { destruct (H6 c) as [E|E]; auto; [apply rowsOut_cols; auto|].
          unfold stopAt in E. apply C_bound in Hc. lia. }
        clear - HR HcN H5 H7 Hl Hi. induction HR as [c|c y HR IH]; auto.
        specialize (IH HcN). destruct (H7 y IH) as (p & Ep & Hp).
        pose proof (proj1 (H5 y IH)) as Hy.
        rewrite outerParent_ok in Ep by auto. injection Ep as <-.
        destruct Hp as [Hp|Hp]; auto. unfold stopAt in Hp.
        pose proof (opar_bound d (par t) y Hy). lia.
    - exists v', calls. split; [|split; auto].
      rewrite <- E, (foldM_shift _ (2 * d) dO).
      apply (foldM_ext_inv (fun st => length (fst st) = d)).
      + cbn [fst]. apply seq_length.
      + intros s i Hs. unfold foreachAncestorInSubtreeRepeatingOuter, rowsOut.
        cbn [foldM walkPiece].
        replace (i + 2 * d - 2 * d) with i by lia. rewrite Hs, bind_ret. auto.
      + intros s i s' Hs H. unfold rowsOut in H. cbn [foldM walkPiece] in H.
        rewrite bind_ret in H. apply foreachAncestorImpl_length in H. lia.
  Qed.

  Lemma foreachRep_ok :
    exists calls t T, foreachNonZeroWithFillRepeatingArrowhead cA cB cC = Ok calls /\
      fixedTree C t T /\ NoDup calls /\
      (forall i x, In (i, x) calls <->
         (d <= i < 2 * d /\ Fill (repQ d A B T) i x) \/
         (2 * d <= i < 2 * d + dO /\ Opat d C (par t) (i - 2 * d) x)).
  Proof.
    unfold foreachNonZeroWithFillRepeatingArrowhead, isSquare.
    fold (c_rows cA) (c_cols cA) (c_rows cB) (c_cols cB) (c_cols cC).
    repeat (rewrite pre_ok by (apply Nat.eqb_eq; lia); cbn [bind]).
    rewrite (proj1 DA), (proj1 DC).
    destruct (repeatingTree_ok C) as (t & Et & T & HF).
    { intros i j H. apply C_bound in H. lia. }
    rewrite Et. cbn [bind]. pose proof HF as (Hl & HT & HE & HB & HK).
    destruct (walkEtree_ok (repQ d A B T) t (2 * d) rowsRep [] (seq 0 (2 * d)) d d HE)
      as (v1 & calls1 & E1 & _ & ND1 & Hc1).
    - apply visOk_init.
    - lia.
    - apply rowsRep_good.
    - intros i x Hi. rewrite rowsRep_cols by auto. unfold repQ. split.
      + intros H. split; auto. apply (rowsBA_bound d A B A_bound B_bound) in H. lia.
      + intros [[H|H] _]; auto. apply HT in H. lia.
    - destruct (outerWalk_ok t calls1 Hl) as (v2 & calls2 & E2 & ND2 & Hc2).
      assert (E1' : foldM (fun st i =>
          let* st := foreachAncestorInSubtree cB t i d 0 st in
          foreachAncestorInSubtree cA t i d d st) (seq 0 d) (seq 0 (2 * d), [])
          = Ok (v1, calls1)).
      { cbn [app] in E1. rewrite <- E1, (foldM_shift _ d d). apply foldM_ext.
        intros s i Hi. unfold rowsRep. replace (i + d - d) with i by lia.
        cbn [foldM walkPiece]. unfold foreachAncestorInSubtree.
        apply bind_ext. intros s'. apply eq_sym, bind_ret. }
      rewrite E1'. cbn [bind snd]. rewrite E2. cbn [bind snd].
      exists (calls1 ++ calls2), t, T. split; auto. split; auto. split.
      + apply NoDup_app_intro; auto. intros [i x] H1 H2.
        apply Hc1 in H1. apply Hc2 in H2. lia.
      + intros i x. rewrite in_app_iff, Hc1, Hc2.
        replace (d + d) with (2 * d) by lia. tauto.
  Qed.
End Repeating.

(** ** splitting into blocks *)

Lemma shiftE_pair a b i j : shiftE a b (i, j) = (i - a, j - b).
Proof. reflexivity. Qed.

Section SplitRep.
  Context (d : nat).

  Definition selD (e : entry) := (d <=? snd e) && (fst e <? 2 * d).
  Definition selS (e : entry) := (snd e <? d) && (fst e <? 2 * d).
  Definition selO (e : entry) := 2 * d <=? fst e.

  Definition splitRep (p : list entry) : rep_arrow (list entry) :=
    mkRA (map (shiftE d d) (filter selD p))
         (map (shiftE d 0) (filter selS p))
         (map (shiftE (2 * d) 0) (filter selO p)).

  Definition goodCall (e : entry) : Prop :=
    (d <= fst e < 2 * d) \/ (2 * d <= fst e /\ snd e < d).

  Lemma splitRep_snoc p e : goodCall e ->
    addNonzeroRepeating d (splitRep p) e = Ok (splitRep (p ++ [e])).
  Proof.
    destruct e as [i j]. unfold goodCall. cbn [fst snd]. intros H.
    unfold splitRep. rewrite !filter_app, !map_app. cbn [filter].
    unfold selD, selS, selO. cbn [fst snd]. unfold addNonzeroRepeating.
    destruct (Nat.leb_spec (2 * d) i) as [L1|L1].
    - rewrite subw_ok by lia. cbn [bind].
      destruct (Nat.eqb_spec d 0) as [E|E]; [lia|]. cbn [bind].
      rewrite (Nat.mod_small j) by lia.
      replace (i <? 2 * d) with false by (symmetry; apply Nat.ltb_ge; auto).
      rewrite !andb_false_r. cbn [map app]. rewrite ?shiftE_pair.
      rewrite ?app_nil_r, Nat.sub_0_r. auto.
    - replace (i <? 2 * d) with true by (symmetry; apply Nat.ltb_lt; auto).
      rewrite !andb_true_r.
      destruct (Nat.leb_spec d j) as [L2|L2].
      + rewrite !subw_ok by lia. cbn [bind]. 
        replace (j <? d) with false by (symmetry; apply Nat.ltb_ge; auto).
        cbn [map app]. rewrite !app_nil_r. auto.
      + rewrite !subw_ok by lia. cbn [bind].
        replace (j <? d) with true by (symmetry; apply Nat.ltb_lt; auto).
        cbn [map app]. rewrite !app_nil_r. rewrite ?shiftE_pair.
        rewrite Nat.sub_0_r. auto.
  Qed.

  Lemma foldM_splitRep calls :
    (forall e, In e calls -> goodCall e) ->
    foldM (addNonzeroRepeating d) calls (mkRA [] [] []) = Ok (splitRep calls).
  Proof.
    intros H.
    destruct (foldM_split (addNonzeroRepeating d) (fun p b => b = splitRep p)
                calls (mkRA [] [] [])) as (b & E & ->); auto.
    intros p e q b Eq ->. rewrite splitRep_snoc; eauto.
    apply H. rewrite Eq. apply in_or_app. right; left; auto.
  Qed.

  Ltac sel := repeat match goal with
    | H : andb _ _ = true |- _ => apply andb_true_iff in H; destruct H
    | H : (_ <? _) = true |- _ => apply Nat.ltb_lt in H
    | H : (_ <=? _) = true |- _ => apply Nat.leb_le in H
    | |- andb _ _ = true => apply andb_true_iff; split
    | |- (_ <? _) = true => apply Nat.ltb_lt
    | |- (_ <=? _) = true => apply Nat.leb_le
    end; cbn [fst snd] in *; try lia.

  Lemma splitRep_D calls i j : (forall e, In e calls -> goodCall e) ->
    In (i, j) (ra_diag (splitRep calls)) <-> i < d /\ In (d + i, d + j) calls.
  Proof.
    intros HG. cbn [splitRep ra_diag].
    assert (Hs : forall e, In e calls -> selD e = true -> d <= fst e /\ d <= snd e).
    { intros [a b] Hin Hsel. apply HG in Hin. unfold goodCall, selD in *. sel. }
    rewrite in_map_iff. split.
    - intros ([r c] & E & Hin). apply filter_In in Hin. destruct Hin as [Hin Hsel].
      pose proof (Hs _ Hin Hsel) as Hb. unfold shiftE in E. cbn [fst snd] in *.
      injection E as <- <-. unfold selD in Hsel. sel. split; [lia|].
      replace (d + (r - d)) with r by lia. replace (d + (c - d)) with c by lia. auto.
    - intros [Hi H]. exists (d + i, d + j). split.
      + unfold shiftE. cbn [fst snd]. f_equal; lia.
      + apply filter_In. split; auto. unfold selD. sel.
  Qed.

  Lemma splitRep_S calls i j : (forall e, In e calls -> goodCall e) ->
    In (i, j) (ra_subdiag (splitRep calls)) <-> i < d /\ j < d /\ In (d + i, j) calls.
  Proof.
    intros HG. cbn [splitRep ra_subdiag]. rewrite in_map_iff. split.
    - intros ([r c] & E & Hin). apply filter_In in Hin. destruct Hin as [Hin Hsel].
      pose proof (HG _ Hin) as Hb. unfold goodCall, shiftE, selS in *. sel.
      injection E as <- <-. rewrite Nat.sub_0_r.
      replace (d + (r - d)) with r by lia. split; [lia|]. split; auto.
    - intros (Hi & Hj & H). exists (d + i, j). split.
      + unfold shiftE. cbn [fst snd]. f_equal; lia.
      + apply filter_In. split; auto. unfold selS. sel.
  Qed.

  Lemma splitRep_O calls i j :
    In (i, j) (ra_outer (splitRep calls)) <-> In (2 * d + i, j) calls.
  Proof.
    cbn [splitRep ra_outer]. rewrite in_map_iff. split.
    - intros ([r c] & E & Hin). apply filter_In in Hin. destruct Hin as [Hin Hsel].
      unfold shiftE, selO in *. sel. injection E as <- <-. rewrite Nat.sub_0_r.
      replace (2 * d + (r - _)) with r by lia. auto.
    - intros H. exists (2 * d + i, j). split.
      + unfold shiftE. cbn [fst snd]. f_equal; lia.
      + apply filter_In. split; auto. unfold selO. sel.
  Qed.

  Lemma splitRep_NoDup calls : (forall e, In e calls -> goodCall e) -> NoDup calls ->
    NoDup (ra_diag (splitRep calls)) /\ NoDup (ra_subdiag (splitRep calls)) /\
    NoDup (ra_outer (splitRep calls)).
  Proof.
    intros HG ND. cbn [splitRep ra_diag ra_subdiag ra_outer].
    split; [|split]; (apply NoDup_map_in; [|apply NoDup_filter; auto]);
      intros [r c] [r' c'] H1 H2 E; apply filter_In in H1, H2;
      destruct H1 as [H1 H1'], H2 as [H2 H2']; apply HG in H1, H2;
      unfold goodCall, shiftE, selD, selS, selO in *; sel; injection E as E1 E2;
      f_equal; lia.
  Qed.
End SplitRep.

(** ** the filled-in repeating arrowhead *)

Theorem getFilledRep_ok sA sB sC p pC d dO :
  nrows sA = d /\ ncols sA = d -> nrows sB = d /\ ncols sB = d ->
  nrows sC = dO /\ ncols sC = d -> wf_sp sA -> wf_sp sB -> wf_sp sC ->
  isPerm d p -> isPerm dO pC ->
  let A := permLow (entries sA) d p in
  let B := permRect (entries sB) d d p p in
  let C := permRect (entries sC) dO d pC p in
  exists r D S' O, getFilledInSparsityRepeatingArrowhead sA sB sC p pC = Ok r /\
    isBlk (ra_diag r) d d D /\ isBlk (ra_subdiag r) d d S' /\ isBlk (ra_outer r) dO d O /\
    (forall i j, D i j -> j < i) /\
    (forall i j, A i j -> D i j) /\ (forall i j, B i j -> S' i j) /\
    (forall i j, C i j -> O i j) /\
    closedRepeated D S' O /\
    (* from some block on, every entry occurs in the factor *)
    exists k, forall N t, k <= t -> S t < N ->
      (forall i j, D i j -> Fill (repeated N d A B C) (S t * d + i) (S t * d + j)) /\
      (forall i j, S' i j -> Fill (repeated N d A B C) (S t * d + i) (t * d + j)) /\
      (forall i j, O i j -> Fill (repeated N d A B C) (N * d + i) (t * d + j)).
Proof.
  intros DA DB DC WA WB WC Hp HpC A B C.
  unfold getFilledInSparsityRepeatingArrowhead, isSquare.
  repeat (rewrite pre_ok by (apply Nat.eqb_eq; lia); cbn [bind]).
  destruct (lowcsr sA d p DA WA Hp) as (lA & cA & E1 & E1' & CA & RA & KA & IA).
  rewrite E1. cbn [bind]. rewrite E1'. cbn [bind].
  destruct (rectcsr sB d d p p DB WB Hp Hp) as (lB & cB & E2 & E2' & CB & RB & KB & IB).
  rewrite E2. cbn [bind]. rewrite E2'. cbn [bind].
  destruct (rectcsr sC dO d pC p DC WC HpC Hp) as (lC & cC & E3 & E3' & CC & RC & KC & IC).
  rewrite E3. cbn [bind]. rewrite E3'. cbn [bind].
  assert (Hlow : forall i j, In (i, j) (c_entries cA) -> j < i).
  { intros i j H. apply IA in H. unfold permLow in H. lia. }
  set (A' := entriesPat (c_entries cA)). set (B' := entriesPat (c_entries cB)).
  set (C' := entriesPat (c_entries cC)).
  destruct (foreachRep_ok cA cB d CA CB (conj RA KA) (conj RB KB) Hlow cC dO CC (conj RC KC))
    as (calls & t & T & E4 & HF & ND & Hc).
  fold A' B' C' in HF, Hc. rewrite E4. cbn [bind].
  assert (BA : forall i j, A' i j -> j < i /\ i < d).
  { intros i j H. pose proof (wfc_bounds _ CA _ _ H). apply Hlow in H. lia. }
  assert (BB : forall i j, B' i j -> i < d /\ j < d).
  { intros i j H. pose proof (wfc_bounds _ CB _ _ H). lia. }
  assert (BC : forall i j, C' i j -> i < dO /\ j < d).
  { intros i j H. pose proof (wfc_bounds _ CC _ _ H). lia. }
  assert (HG : forall e, In e calls -> goodCall d e).
  { intros [i x] H. apply Hc in H. unfold goodCall. cbn [fst snd].
    destruct H as [[H _]|[H HO]]; auto. right. split; [lia|].
    eapply Opat_bound; [|exact HO]. intros a b Hab. apply BC in Hab. lia. }
  rewrite (proj1 DA), (proj1 DC).
  rewrite foldM_splitRep by auto. cbn [bind].
  destruct (splitRep_NoDup d calls HG ND) as (N1 & N2 & N3).
  pose proof HF as (Hl & HT & HE & HBk & k & HK).
  set (D := Dpat d A' B' T). set (S' := Spat d A' B' T). set (O := Opat d C' (par t)).
  assert (HFlt : forall i j, Fill (repQ d A' B' T) i j -> j < i) by apply Fill_lt.
  destruct (mkSorted_ok d d (ra_diag (splitRep d calls)) D N1) as (b1 & F1 & B1).
  { intros i j. rewrite splitRep_D by auto. rewrite Hc. unfold D, Dpat. split.
    - intros [Hi [[_ H]|[H _]]]; [|lia]. apply HFlt in H as H'. repeat split; auto; lia.
    - intros (Hi & Hj & H). split; auto. left. split; auto. lia. }
  { unfold D, Dpat. intros; tauto. }
  rewrite F1. cbn [bind].
  destruct (mkSorted_ok d d (ra_subdiag (splitRep d calls)) S' N2) as (b2 & F2 & B2).
  { intros i j. rewrite splitRep_S by auto. rewrite Hc. unfold S', Spat. split.
    - intros (Hi & Hj & [[_ H]|[H _]]); [|lia]. auto.
    - intros (Hi & Hj & H). split; auto. split; auto. left. split; auto. lia. }
  { unfold S', Spat. intros; tauto. }
  rewrite F2. cbn [bind].
  assert (OB : forall i j, O i j -> i < dO /\ j < d).
  { intros i j H. split.
    - destruct H as (c & H & _). apply BC in H. lia.
    - eapply Opat_bound; [|exact H]. intros a b Hab. apply BC in Hab. lia. }
  destruct (mkSorted_ok dO d (ra_outer (splitRep d calls)) O N3) as (b3 & F3 & B3).
  { intros i j. rewrite splitRep_O. rewrite Hc.
    replace (2 * d + i - 2 * d) with i by lia. fold O. split.
    - intros [[H _]|[_ H]]; [lia|auto].
    - intros H. right. split; auto. apply OB in H. lia. }
  { auto. }
  rewrite F3. cbn [bind].
  exists (mkRA b1 b2 b3), D, S', O. split; auto.
  cbn [ra_diag ra_subdiag ra_outer]. split; auto. split; auto. split; auto.
  assert (EA : forall i j, A i j <-> A' i j) by (intros; symmetry; apply IA).
  assert (EB : forall i j, B i j <-> B' i j) by (intros; symmetry; apply IB).
  assert (EC : forall i j, C i j <-> C' i j) by (intros; symmetry; apply IC).
  split.
  { intros i j (_ & _ & H). apply HFlt in H. lia. }
  split.
  { intros i j H. apply EA in H. apply (rep_A d A' B'); auto. }
  split.
  { intros i j H. apply EB in H. apply (rep_B d A' B'); auto. }
  split.
  { intros i j H. apply EC in H. apply rep_C; auto. }
  split.
  { apply (rep_closed d A' B' C'); auto. }
  (* tight *)
  assert (BC' : forall i j, C' i j -> j < d) by (intros i j H; apply BC in H; lia).
  assert (HQ : forall N a b, b < a -> repeated N d A' B' C' a b <-> repeated N d A B C a b).
  { intros N a b _. unfold repeated.
    split; (intros [(x & i & j & Ht & Ea & Eb & H)|[(x & i & j & Ht & Ea & Eb & H)|
            (x & i & j & Ht & Ea & Eb & H)]];
      [left|right; left|right; right]; exists x, i, j;
      (split; [exact Ht|]; split; [exact Ea|]; split; [exact Eb|]);
      first [apply EA; exact H|apply EB; exact H|apply EC; exact H]). }
  assert (HX : forall N, exists tb, isEtree (repeated N d A' B' C') tb).
  { intros N. apply (etree_exists _ (N * d + dO)
                     (repeatedList N d (c_entries cA) (c_entries cB) (c_entries cC))).
    - intros a b. apply repeatedList_In.
    - intros a b [(x & i & j & Ht & -> & -> & H)|[(x & i & j & Ht & -> & -> & H)|
            (x & i & j & Ht & -> & -> & H)]].
      + apply BA in H. assert (x * d + d <= N * d) by nia. lia.
      + apply BB in H. assert (S x * d + d <= N * d) by nia. lia.
      + apply BC in H. assert (x * d + d <= N * d) by nia. lia. }
  assert (HFQ : forall N a b, Fill (repeated N d A' B' C') a b -> Fill (repeated N d A B C) a b).
  { intros N a b. apply Fill_ext. intros; symmetry; apply HQ; auto. }
  destruct (eventually_all (fun e m => forall N, S m < N ->
      Fill (repeated N d A' B' C') (N * d + fst e) (m * d + snd e)) (entries b3))
    as (m & Hm).
  { intros [i j] Hin. apply (ib_in _ _ _ _ B3) in Hin.
    destruct (tight_O d A' B' C' BA BB BC' k T (par t) HT HE HBk HK i j Hin) as (m & Hm).
    exists m. intros r Hr N HN. cbn [fst snd]. apply Hm; auto. }
  exists (k + m). intros N r Hr HN. split; [|split].
  - intros i j H. apply HFQ. apply (tight_D' d A' B' C' BA BB k T (par t)); auto. lia.
  - intros i j H. apply HFQ. apply (tight_S' d A' B' C' BA BB k T (par t)); auto. lia.
  - intros i j H. apply HFQ. apply (Hm r (i, j)); auto; [lia|].
    apply (ib_in _ _ _ _ B3). auto.
Qed.
