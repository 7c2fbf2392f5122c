(** Fill-in of a single matrix and of a 3x3 block matrix. *)
From Coq Require Import List Arith Lia Bool Permutation.
From Verif Require Import Base ModelPerm ModelSparsity ModelSymbolic SpecSymbolic.
From Verif Require Import ProofBase ProofPerm ProofCsr ProofSparsity ProofEtree.
Import ListNotations.

(** ** rows given by pieces *)

(** one row of one block placed at a row and a column offset *)
Definition piece := (csr * nat * nat * nat)%type.

Definition addPiece (st : tree * list nat) (p : piece) : res (tree * list nat) :=
  let '(sp, row, ro, co) := p in addRowEliminationTree sp row ro co st.

Definition walkPiece (gp : nat -> res nat) (st : list nat * list entry) (p : piece)
    : res (list nat * list entry) :=
  let '(sp, row, ro, co) := p in foreachAncestorInSubtreeImpl sp gp row ro co st.

Definition pieceCols (p : piece) (x : nat) : Prop :=
  let '(sp, row, ro, co) := p in exists c, In (row, c) (c_entries sp) /\ x = c + co.

Definition rowCols (ps : list piece) (x : nat) : Prop :=
  exists p, In p ps /\ pieceCols p x.

Definition goodPiece (n i : nat) (p : piece) : Prop :=
  let '(sp, row, ro, co) := p in
  wf_csr sp /\ row + ro = i /\ row < c_rows sp /\ c_rows sp <= n /\
  c_cols sp + co <= n.

Lemma foldM_ext {S X} (f g : S -> X -> res S) l s :
  (forall s x, In x l -> f s x = g s x) -> foldM f l s = foldM g l s.
Proof.
  revert s; induction l as [|x l IH]; cbn [foldM]; intros s H; auto.
  rewrite (H s x) by (left; auto). destruct (g s x); cbn [bind]; auto.
  apply IH. intros; apply H; right; auto.
Qed.

Lemma foldM_shift {St} (f : St -> nat -> res St) a n s :
  foldM f (seq a n) s = foldM (fun s i => f s (i + a)) (seq 0 n) s.
Proof.
  replace (seq a n) with (map (fun i => i + a) (seq 0 n)).
  - generalize (seq 0 n). intros l. revert s. induction l as [|x l IH]; intros s; auto.
    cbn [map foldM]. destruct (f s (x + a)); cbn [bind]; auto.
  - revert a; induction n as [|n IH]; intros a; cbn [seq map]; auto.
    f_equal. rewrite <- seq_shift, map_map.
    rewrite <- (IH (S a)). apply map_ext. intros; lia.
Qed.

Lemma bind_ret {A} (m : res A) : bind m Ok = m.
Proof. destruct m; auto. Qed.

Lemma addPieces_ok n i Q st ps :
  etInv n i Q st -> i < n -> (forall p, In p ps -> goodPiece n i p) ->
  exists st', foldM addPiece ps st = Ok st' /\
    etInv n i (fun a b => Q a b \/ (a = i /\ rowCols ps b)) st'.
Proof.
  intros HI Hi Hg.
  destruct (foldM_split addPiece (fun q st =>
      etInv n i (fun a b => Q a b \/ (a = i /\ rowCols q b)) st) ps st)
    as (st' & E & HI').
  - eapply etInv_ext; [|exact HI]. intros a b _. split; auto.
    intros [H|(_ & p & [] & _)]; auto.
  - intros q p q' st1 Eq HI1.
    assert (Hin : In p ps) by (rewrite Eq; apply in_or_app; right; left; auto).
    apply Hg in Hin. destruct p as [[[sp row] ro] co].
    destruct Hin as (W & Hr & Hrow & Hn & Hc). subst i.
    destruct (addRow_ok n _ st1 sp row ro co HI1) as (st2 & E2 & HI2); auto.
    exists st2. split; auto. eapply etInv_ext; [|exact HI2].
    intros a b _. unfold addRow. split.
    + intros [[H|(Ha & p & Hp & Hb)]|(Ha & c & Hc' & Hb)]; auto; right; split; auto.
      * exists p. split; auto. apply in_or_app; auto.
      * exists (sp, row, ro, co). split; [apply in_or_app; right; left; auto|].
        exists c. auto.
    + intros [H|(Ha & p & Hp & Hb)]; auto.
      apply in_app_or in Hp. destruct Hp as [Hp|[<-|[]]].
      * left. right. split; auto. exists p. auto.
      * right. split; auto.
  - exists st'. auto.
Qed.

Lemma addRows_ok n (rows : nat -> list piece) Q st a k :
  etInv n a Q st -> a + k <= n ->
  (forall i p, a <= i < a + k -> In p (rows i) -> goodPiece n i p) ->
  exists st', foldM (fun st i => foldM addPiece (rows i) st) (seq a k) st = Ok st' /\
    etInv n (a + k) (fun i b => Q i b \/ (a <= i < a + k /\ rowCols (rows i) b)) st'.
Proof.
  intros HI Hk Hg.
  apply (foldM_seq _ (fun i st => etInv n i
     (fun r b => Q r b \/ (a <= r < i /\ rowCols (rows r) b)) st)).
  - eapply etInv_ext; [|exact HI]. intros r b _. split; auto.
    intros [H|[H _]]; auto. lia.
  - intros i st1 Hi HI1.
    destruct (addPieces_ok n i _ st1 (rows i) HI1) as (st2 & E2 & HI2); auto; [lia|].
    exists st2. split; auto. apply (etInv_row n i); [lia|].
    eapply etInv_ext; [|exact HI2].
    intros r b _. split.
    + intros [[H|[H1 H2]]|[-> H2]]; auto; right; split; auto; lia.
    + intros [H|[H1 H2]]; auto. destruct (Nat.eq_dec r i) as [->|N]; auto.
      left. right. split; auto. lia.
Qed.

(** ** walks of rows given by pieces *)

Definition visOk (m i : nat) (v : list nat) : Prop :=
  length v = m /\
  forall x a, nth_error v x = Some a -> a = x \/ (x < a /\ a < i).

Lemma visOk_init m i : visOk m i (seq 0 m).
Proof.
  split; [apply seq_length|]. intros x a E. left.
  assert (Hx : x < m).
  { rewrite <- (seq_length m 0). apply nth_error_Some. congruence. }
  rewrite nth_error_seq in E by auto. cbn in E. congruence.
Qed.

Definition stopAt (i x : nat) : Prop := x = i.

Lemma walkPieces_ok gp (G : nat -> Prop) i m calls0 v ps n :
  visOk m i v ->
  (forall x, G x -> x < m) ->
  (forall x, G x -> ~ stopAt i x -> x < i /\ exists p, gp x = Ok p /\ G p) ->
  (forall p, In p ps -> goodPiece n i p) ->
  (forall x, rowCols ps x -> G x) ->
  exists st' N, foldM (walkPiece gp) ps (v, calls0) = Ok st' /\
    rowInv gp G (stopAt i) (rowCols ps) i m calls0 st' N.
Proof.
  intros [Hl Hv] HG1 HG2 Hg HG3.
  destruct (foldM_split (walkPiece gp) (fun q st => exists N,
      rowInv gp G (stopAt i) (rowCols q) i m calls0 st N) ps (v, calls0))
    as (st' & E & N & HI').
  - exists []. constructor; cbn [fst snd]; auto.
    + rewrite app_nil_r; auto.
    + constructor.
    + intros x. unfold marked, stopAt. split.
      * intros Ex. left. split.
        -- destruct (Hv x i Ex); [auto|lia].
        -- rewrite <- Hl. apply nth_error_Some. congruence.
      * intros [[-> Hx]|[]]. destruct (nth_error v i) as [a|] eqn:Ea.
        -- destruct (Hv i a Ea); [congruence|lia].
        -- apply nth_error_None in Ea. lia.
    + intros x [].
    + intros x (p & [] & _).
    + intros x [].
    + intros x [].
    + intros x a Ex. destruct (Hv x a Ex); auto. right. lia.
  - intros q p q' st1 Eq (N1 & HI1).
    assert (Hin : In p ps) by (rewrite Eq; apply in_or_app; right; left; auto).
    pose proof (Hg p Hin) as Hp. destruct p as [[[sp row] ro] co].
    destruct Hp as (W & Hr & Hrow & Hn & Hc). subst i.
    destruct (foreachAncestor_ok gp G (stopAt (row + ro)) _ sp row ro co m calls0 st1 N1 HI1)
      as (st2 & N2 & E2 & HI2); auto.
    { intros c Hc'. apply HG3. exists (sp, row, ro, co). split; auto.
      exists c. auto. }
    exists st2. split; auto. exists N2. eapply rowInv_ext; [|exact HI2].
    intros x. split.
    + intros [(p & Hp & Hx)|(c & Hc' & Hx)].
      * exists p. split; auto. apply in_or_app; auto.
      * exists (sp, row, ro, co). split; [apply in_or_app; right; left; auto|].
        exists c. auto.
    + intros (p & Hp & Hx). apply in_app_or in Hp. destruct Hp as [Hp|[<-|[]]].
      * left. exists p. auto.
      * right. exact Hx.
  - eauto.
Qed.

Lemma map_pair_In {A B} (a : A) (l : list B) x y :
  In (x, y) (map (pair a) l) <-> x = a /\ In y l.
Proof.
  rewrite in_map_iff. split.
  - intros (z & E & Hz). injection E as <- <-. auto.
  - intros [-> Hy]. exists y. auto.
Qed.

Lemma walkRows_ok gp (G : nat -> nat -> Prop) (R : pattern) m n
    (rows : nat -> list piece) calls0 v a k :
  visOk m a v ->
  (forall i x, a <= i < a + k -> G i x -> x < m) ->
  (forall i x, a <= i < a + k -> G i x -> ~ stopAt i x ->
     x < i /\ exists p, gp x = Ok p /\ G i p) ->
  (forall i p, a <= i < a + k -> In p (rows i) -> goodPiece n i p) ->
  (forall i x, a <= i < a + k -> rowCols (rows i) x -> G i x) ->
  (forall i st N c0, a <= i < a + k ->
     rowInv gp (G i) (stopAt i) (rowCols (rows i)) i m c0 st N ->
     forall x, In x N <-> R i x) ->
  exists v' calls,
    foldM (fun st i => foldM (walkPiece gp) (rows i) st) (seq a k) (v, calls0)
      = Ok (v', calls0 ++ calls) /\
    visOk m (a + k) v' /\ NoDup calls /\
    (forall i x, In (i, x) calls <-> a <= i < a + k /\ R i x).
Proof.
  intros Hv HG1 HG2 Hg HG3 HR.
  destruct (foldM_seq (fun st i => foldM (walkPiece gp) (rows i) st)
    (fun i st => visOk m i (fst st) /\ exists calls, snd st = calls0 ++ calls /\
       NoDup calls /\ forall r x, In (r, x) calls <-> a <= r < i /\ R r x)
    a k (v, calls0)) as ([v' cs] & E & Hv' & calls & Ec & ND & Hc).
  - split; auto. exists []. rewrite app_nil_r. split; auto. split; [constructor|].
    intros r x. split; [intros []|lia].
  - intros i [v1 cs1] Hi (Hv1 & calls1 & Ec1 & ND1 & Hc1). cbn [fst snd] in *.
    destruct (walkPieces_ok gp (G i) i m cs1 v1 (rows i) n)
      as ([v2 cs2] & N & E2 & HI); eauto.
    exists (v2, cs2). split; auto. cbn [fst snd].
    pose proof (HR i _ N _ Hi HI) as HN.
    destruct HI as [H1 H2 H3 H4 H5 H6 H7 H8 H9]. cbn [fst snd] in *.
    split.
    { split; auto. intros x b Ex. destruct (H9 x b Ex); auto. right. lia. }
    exists (calls1 ++ map (pair i) N).
    split; [rewrite H2, Ec1, app_assoc; auto|].
    split.
    + apply NoDup_app_intro; auto.
      * apply (NoDup_map_inv snd). rewrite map_map. cbn. rewrite map_id. auto.
      * intros [r x] Hin Hin2. apply map_pair_In in Hin2. apply Hc1 in Hin. lia.
    + intros r x. rewrite in_app_iff, map_pair_In, Hc1, HN.
      split.
      * intros [[H10 H11]|[-> H11]]; split; auto; lia.
      * intros [H10 H11]. destruct (Nat.eq_dec r i) as [->|N']; auto.
        left. split; auto. lia.
  - cbn [fst snd] in *. exists v', calls. rewrite E, Ec. auto.
Qed.

(** walks along an elimination tree *)
Lemma walkEtree_ok Q t n (rows : nat -> list piece) calls0 v a k :
  isEtree Q (par t) ->
  visOk n a v -> a + k <= n ->
  (forall i p, a <= i < a + k -> In p (rows i) -> goodPiece n i p) ->
  (forall i x, a <= i < a + k -> rowCols (rows i) x <-> Q i x /\ x < i) ->
  exists v' calls,
    foldM (fun st i => foldM (walkPiece (getParent t)) (rows i) st) (seq a k) (v, calls0)
      = Ok (v', calls0 ++ calls) /\
    visOk n (a + k) v' /\ NoDup calls /\
    (forall i x, In (i, x) calls <-> a <= i < a + k /\ Fill Q i x).
Proof.
  intros HE Hv Hak Hg HQ.
  pose proof (etree_asc Q _ HE) as HA.
  apply (walkRows_ok (getParent t) (fun i x => Anc (par t) x i) (Fill Q) n n); auto.
  - intros i x Hi HAn. apply (Anc_le _ _ _ HA) in HAn. lia.
  - intros i x Hi HAn Hs. unfold stopAt in Hs.
    split; [apply (Anc_le _ _ _ HA) in HAn; lia|].
    destruct (Anc_parent _ _ _ HAn Hs) as (p & Ep & Hp). exists p. split; auto.
    unfold getParent. assert (Hx : x < length t).
    { destruct (Nat.lt_ge_cases x (length t)); auto. unfold par in Ep.
      rewrite nth_overflow in Ep; [discriminate|auto]. }
    rewrite (rd_nth _ _ None) by auto. cbn [bind].
    unfold par in Ep. rewrite Ep. auto.
  - intros i x Hi Hx. apply HQ in Hx; auto. destruct Hx as [Hq Hlt].
    eapply Fill_Anc; eauto. apply Fill_base; auto.
  - intros i st N c0 Hi HI x. eapply row_is_Fill; eauto.
Qed.

(** ** single matrix *)

Definition singleRows (sp : csr) : nat -> list piece := fun i => [(sp, i, 0, 0)].

Lemma singleRows_good sp i p :
  wf_csr sp -> c_rows sp = c_cols sp -> i < c_rows sp ->
  In p (singleRows sp i) -> goodPiece (c_rows sp) i p.
Proof. intros W Hsq Hi [<-|[]]. split; [exact W|]. lia. Qed.

Lemma singleRows_cols sp i x :
  rowCols (singleRows sp i) x <-> In (i, x) (c_entries sp).
Proof.
  unfold rowCols, singleRows. split.
  - intros (p & [<-|[]] & c & Hc & ->). rewrite Nat.add_0_r. auto.
  - intros H. exists (sp, i, 0, 0). split; [left; auto|]. exists x. split; auto.
Qed.

Lemma computeEliminationTree_ok sp :
  wf_csr sp -> c_rows sp = c_cols sp ->
  exists t, computeEliminationTree sp = Ok t /\ length t = c_rows sp /\
    isEtree (entriesPat (c_entries sp)) (par t).
Proof.
  intros W Hsq. unfold computeEliminationTree.
  rewrite pre_ok by (apply Nat.eqb_eq; auto). cbn [bind].
  set (n := c_rows sp) in *.
  destruct (addRows_ok n (singleRows sp) (fun _ _ => False)
              (emptyTree n, seq 0 n) 0 n) as (st & E & HI).
  - apply etInv_empty; auto.
  - lia.
  - intros i p Hi. apply singleRows_good; auto. unfold n in Hi. lia.
  - rewrite (foldM_ext _ (fun st i => foldM addPiece (singleRows sp i) st)).
    2:{ intros s i _. unfold singleRows. cbn [foldM addPiece]. rewrite bind_ret. auto. }
    rewrite E. cbn [bind]. exists (fst st). split; auto.
    split; [apply HI|].
    eapply isEtree_ext; [|apply HI]. intros i j L. cbn beta.
    rewrite singleRows_cols. unfold entriesPat. split.
    + intros [[]|[_ H]]; auto.
    + intros H. right. split; auto. apply (wfc_bounds sp W) in H. unfold n. lia.
Qed.

Lemma foreachNonZeroWithFill_ok sp :
  wf_csr sp -> c_rows sp = c_cols sp ->
  (forall i j, In (i, j) (c_entries sp) -> j < i) ->
  exists calls, foreachNonZeroWithFill sp = Ok calls /\ NoDup calls /\
    (forall i j, In (i, j) calls <-> Fill (entriesPat (c_entries sp)) i j).
Proof.
  intros W Hsq Hlow. unfold foreachNonZeroWithFill.
  rewrite pre_ok by (apply Nat.eqb_eq; auto). cbn [bind].
  destruct (computeEliminationTree_ok sp W Hsq) as (t & Et & Hl & HE).
  rewrite Et. cbn [bind]. set (n := c_rows sp) in *.
  destruct (walkEtree_ok _ t n (singleRows sp) [] (seq 0 n) 0 n HE)
    as (v & calls & E & _ & ND & Hc).
  - apply visOk_init.
  - lia.
  - intros i p Hi. apply singleRows_good; auto. unfold n in Hi. lia.
  - intros i x Hi. rewrite singleRows_cols. unfold entriesPat. split.
    + intros H. split; auto.
    + tauto.
  - rewrite (foldM_ext _ (fun st i => foldM (walkPiece (getParent t)) (singleRows sp i) st)).
    2:{ intros s i _. unfold singleRows, foreachAncestorInSubtree.
        cbn [foldM walkPiece]. rewrite bind_ret. auto. }
    rewrite E. cbn [bind snd app]. exists calls. split; auto. split; auto.
    intros i j. rewrite Hc. split; [tauto|]. intros HF. split; auto.
    split; [lia|].
    assert (i <= n - 1); [|apply Fill_lt in HF; lia].
    eapply Fill_rows; [|exact HF]. intros a b Hq _.
    apply (wfc_bounds sp W) in Hq. unfold n. lia.
Qed.

Lemma getFilledInSparsity_ok s p :
  wf_sp s -> nrows s = ncols s -> isPerm (nrows s) p ->
  exists s', getFilledInSparsity s p = Ok s' /\
    nrows s' = nrows s /\ ncols s' = nrows s /\ wf_sp s' /\
    (exists es, NoDup es /\ entries s' = sortEntriesRowMajorSorted es) /\
    (forall i j, In (i, j) (entries s') <-> Fill (permLow (entries s) (nrows s) p) i j).
Proof.
  intros Hw Hsq Hp. unfold getFilledInSparsity.
  rewrite pre_ok by (apply Nat.eqb_eq; auto). cbn [bind].
  rewrite pre_ok by (apply Nat.eqb_eq; apply isPerm_length; auto). cbn [bind].
  destruct (lowerTriangle_ok s p Hw Hsq Hp) as (low & El & Hl1 & Hl2 & Hl3 & Hl4 & _).
  rewrite El. cbn [bind].
  destruct (toCSR_ok low Hl3) as (c & Ec & Wc & Hr & Hc & HP & _).
  rewrite Ec. cbn [bind]. unfold getEntriesWithFill.
  assert (Hin : forall i j, In (i, j) (c_entries c) <-> permLow (entries s) (nrows s) p i j).
  { intros i j. unfold permLow. rewrite <- Hl4. split; apply Permutation_in; auto.
    apply Permutation_sym; auto. }
  destruct (foreachNonZeroWithFill_ok c Wc) as (calls & E & ND & Hcalls); [lia| |].
  { intros i j H. apply Hin in H. apply H. }
  rewrite E. cbn [bind].
  assert (HF : forall i j, In (i, j) calls <-> Fill (permLow (entries s) (nrows s) p) i j).
  { intros i j. rewrite Hcalls. apply Fill_ext. intros a b _. apply Hin. }
  assert (HS : forall i j, In (i, j) (sortEntriesRowMajorSorted calls) <->
                Fill (permLow (entries s) (nrows s) p) i j).
  { intros i j. rewrite <- HF.
    split; apply Permutation_in; [|apply Permutation_sym]; apply sort_perm. }
  assert (HB : inBoundsP (nrows s) (nrows s) (sortEntriesRowMajorSorted calls)).
  { intros i j H. apply HS in H. pose proof (Fill_lt _ _ _ H).
    assert (i <= nrows s - 1); [|lia].
    eapply Fill_rows; [|exact H]. intros a b Hq _. unfold permLow in Hq. lia. }
  rewrite mkSparsity_ok by auto. eexists. split; [reflexivity|]. cbn.
  split; auto. split; auto. split; [exact HB|]. split; auto.
  exists calls. auto.
Qed.

(** ** 3x3 blocks *)

Section Blocked3.
  Context (c11 c21 c22 c31 c32 c33 : csr).
  Context (W11 : wf_csr c11) (W21 : wf_csr c21) (W22 : wf_csr c22)
          (W31 : wf_csr c31) (W32 : wf_csr c32) (W33 : wf_csr c33).
  Context (n1 n2 n3 : nat).
  Context (D11 : c_rows c11 = n1 /\ c_cols c11 = n1)
          (D21 : c_rows c21 = n2 /\ c_cols c21 = n1)
          (D22 : c_rows c22 = n2 /\ c_cols c22 = n2)
          (D31 : c_rows c31 = n3 /\ c_cols c31 = n1)
          (D32 : c_rows c32 = n3 /\ c_cols c32 = n2)
          (D33 : c_rows c33 = n3 /\ c_cols c33 = n3).
  Let n := n1 + n2 + n3.

  Let Q := asm3 n1 n2
    (entriesPat (c_entries c11)) (entriesPat (c_entries c21)) (entriesPat (c_entries c22))
    (entriesPat (c_entries c31)) (entriesPat (c_entries c32)) (entriesPat (c_entries c33)).

  Definition rows3 (i : nat) : list piece :=
    if i <? n1 then [(c11, i, 0, 0)]
    else if i <? n1 + n2 then [(c21, i - n1, n1, 0); (c22, i - n1, n1, n1)]
    else [(c31, i - (n1 + n2), n1 + n2, 0); (c32, i - (n1 + n2), n1 + n2, n1);
          (c33, i - (n1 + n2), n1 + n2, n1 + n2)].

  Lemma rows3_good i p : i < n -> In p (rows3 i) -> goodPiece n i p.
  Proof.
    intros Hi. unfold rows3, n in *.
    destruct (Nat.ltb_spec i n1); [|destruct (Nat.ltb_spec i (n1 + n2))];
      cbn [In]; intros H'; repeat (destruct H' as [<-|H']); try contradiction;
      unfold goodPiece; (split; [assumption|]); lia.
  Qed.

  Lemma rows3_cols i x : i < n -> rowCols (rows3 i) x <-> Q i x.
  Proof.
    intros Hi. unfold rowCols, rows3, Q, asm3, entriesPat, n in *.
    pose proof (wfc_bounds _ W11) as B11. pose proof (wfc_bounds _ W21) as B21.
    pose proof (wfc_bounds _ W22) as B22. pose proof (wfc_bounds _ W31) as B31.
    pose proof (wfc_bounds _ W32) as B32. pose proof (wfc_bounds _ W33) as B33.
    destruct (Nat.ltb_spec i n1) as [L|L];
      [|destruct (Nat.ltb_spec i (n1 + n2)) as [L'|L']].
    - split.
      + intros (p & [<-|[]] & c & Hc & ->). rewrite Nat.add_0_r. auto.
      + intros [H|[(i' & -> & H)|[(i' & j' & -> & -> & H)|[(i' & -> & H)|
          [(i' & j' & -> & -> & H)|(i' & j' & -> & -> & H)]]]]]; try lia.
        eexists. split; [left; auto|]. exists x. split; auto.
    - split.
      + intros (p & [<-|[<-|[]]] & c & Hc & ->).
        * right; left. exists (i - n1). rewrite Nat.add_0_r. split; auto. lia.
        * right; right; left. exists (i - n1), c. repeat split; auto; lia.
      + intros [H|[(i' & -> & H)|[(i' & j' & -> & -> & H)|[(i' & -> & H)|
          [(i' & j' & -> & -> & H)|(i' & j' & -> & -> & H)]]]]]; try lia.
        * apply B11 in H. lia.
        * eexists. split; [left; auto|]. exists x.
          replace (n1 + i' - n1) with i' by lia. split; auto.
        * eexists. split; [right; left; auto|]. exists j'.
          replace (n1 + i' - n1) with i' by lia. split; auto. lia.
    - split.
      + intros (p & [<-|[<-|[<-|[]]]] & c & Hc & ->).
        * do 3 right; left. exists (i - (n1 + n2)). rewrite Nat.add_0_r. split; auto. lia.
        * do 4 right; left. exists (i - (n1 + n2)), c. repeat split; auto; lia.
        * do 5 right. exists (i - (n1 + n2)), c. repeat split; auto; lia.
      + intros [H|[(i' & -> & H)|[(i' & j' & -> & -> & H)|[(i' & -> & H)|
          [(i' & j' & -> & -> & H)|(i' & j' & -> & -> & H)]]]]].
        * apply B11 in H. lia.
        * apply B21 in H. lia.
        * apply B22 in H. lia.
        * eexists. split; [left; auto|]. exists x.
          replace (n1 + n2 + i' - (n1 + n2)) with i' by lia. split; auto.
        * eexists. split; [right; left; auto|]. exists j'.
          replace (n1 + n2 + i' - (n1 + n2)) with i' by lia. split; auto. lia.
        * eexists. split; [right; right; left; auto|]. exists j'.
          replace (n1 + n2 + i' - (n1 + n2)) with i' by lia. split; auto. lia.
  Qed.

  Lemma Q_rows i j : Q i j -> i < n.
  Proof.
    pose proof (wfc_bounds _ W11) as B11. pose proof (wfc_bounds _ W21) as B21.
    pose proof (wfc_bounds _ W22) as B22. pose proof (wfc_bounds _ W31) as B31.
    pose proof (wfc_bounds _ W32) as B32. pose proof (wfc_bounds _ W33) as B33.
    unfold Q, asm3, entriesPat, n.
    intros [H|[(i' & -> & H)|[(i' & j' & -> & -> & H)|[(i' & -> & H)|
          [(i' & j' & -> & -> & H)|(i' & j' & -> & -> & H)]]]]];
      [apply B11 in H|apply B21 in H|apply B22 in H|apply B31 in H|
       apply B32 in H|apply B33 in H]; lia.
  Qed.

  (** the three loops of the code are one loop over the assembled rows *)
  Lemma loops3 {St} (f : St -> piece -> res St) st :
    bind (foldM (fun st i => f st (c11, i, 0, 0)) (seq 0 n1) st) (fun st =>
    bind (foldM (fun st i =>
            bind (f st (c21, i, n1, 0)) (fun st => f st (c22, i, n1, n1)))
            (seq 0 n2) st) (fun st =>
    foldM (fun st i =>
            bind (f st (c31, i, n1 + n2, 0)) (fun st =>
            bind (f st (c32, i, n1 + n2, n1)) (fun st =>
            f st (c33, i, n1 + n2, n1 + n2)))) (seq 0 n3) st)) =
    foldM (fun st i => foldM f (rows3 i) st) (seq 0 n) st.
  Proof.
    unfold n. rewrite !seq_app, !foldM_app. cbn [Nat.add].
    assert (E1 : foldM (fun st i => foldM f (rows3 i) st) (seq 0 n1) st =
                 foldM (fun st i => f st (c11, i, 0, 0)) (seq 0 n1) st).
    { apply foldM_ext. intros s x Hx. apply in_seq in Hx. unfold rows3.
      destruct (Nat.ltb_spec x n1); [|lia]. cbn [foldM]. apply bind_ret. }
    rewrite E1.
    destruct (foldM (fun st i => f st (c11, i, 0, 0)) (seq 0 n1) st) as [st1|e];
      cbn [bind]; auto.
    assert (E2 : foldM (fun st i => foldM f (rows3 i) st) (seq n1 n2) st1 =
                 foldM (fun st i =>
            bind (f st (c21, i, n1, 0)) (fun st => f st (c22, i, n1, n1)))
            (seq 0 n2) st1).
    { rewrite foldM_shift. apply foldM_ext. intros s x Hx. apply in_seq in Hx.
      unfold rows3. destruct (Nat.ltb_spec (x + n1) n1); [lia|].
      destruct (Nat.ltb_spec (x + n1) (n1 + n2)); [|lia].
      replace (x + n1 - n1) with x by lia. cbn [foldM].
      destruct (f s (c21, x, n1, 0)); cbn [bind]; auto. apply bind_ret. }
    rewrite E2.
    match goal with |- bind ?m _ = bind ?m _ => destruct m as [st2|e] end;
      cbn [bind]; auto.
    rewrite (foldM_shift _ (n1 + n2)). apply foldM_ext. intros s x Hx. apply in_seq in Hx.
    unfold rows3. destruct (Nat.ltb_spec (x + (n1 + n2)) n1); [lia|].
    destruct (Nat.ltb_spec (x + (n1 + n2)) (n1 + n2)); [lia|].
    replace (x + (n1 + n2) - (n1 + n2)) with x by lia. cbn [foldM].
    destruct (f s (c31, x, n1 + n2, 0)) as [s1|]; cbn [bind]; auto.
    destruct (f s1 (c32, x, n1 + n2, n1)) as [s2|]; cbn [bind]; auto.
    rewrite bind_ret. auto.
  Qed.

  Lemma computeEtree3_ok :
    exists t, computeEliminationTreeBlocked3x3 c11 c21 c22 c31 c32 c33 = Ok t /\
      length t = n /\ isEtree Q (par t).
  Proof.
    unfold computeEliminationTreeBlocked3x3, isSquare.
    fold (c_rows c11) (c_cols c11) (c_rows c22) (c_cols c22) (c_rows c33) (c_cols c33).
    repeat (rewrite pre_ok by (apply Nat.eqb_eq; lia); cbn [bind]).
    rewrite ?(proj1 D11), ?(proj2 D11), ?(proj1 D21), ?(proj2 D21),
      ?(proj1 D22), ?(proj2 D22), ?(proj1 D31), ?(proj2 D31), ?(proj1 D33). fold n.
    destruct (addRows_ok n rows3 (fun _ _ => False)
                (emptyTree n, seq 0 n) 0 n) as (st & E & HI).
    - apply etInv_empty; auto.
    - lia.
    - intros i p Hi. apply rows3_good. lia.
    - rewrite <- (loops3 addPiece) in E. unfold addPiece in E.
      match type of E with bind ?m _ = _ => destruct m as [st1|e] eqn:E1 end;
        [|discriminate E].
      cbn [bind] in E |- *.
      match type of E with bind ?m _ = _ => destruct m as [st2|e] eqn:E2 end;
        [|discriminate E].
      cbn [bind] in E |- *. rewrite E. cbn [bind].
      exists (fst st). split; auto. split; [apply HI|].
      eapply isEtree_ext; [|apply HI]. intros i j L. cbn beta. split.
      + intros [[]|[Hi H]]. apply rows3_cols in H; auto. lia.
      + intros H. pose proof (Q_rows _ _ H). right. split; [lia|].
        apply rows3_cols; auto.
  Qed.

  Lemma foreachNonZero3_ok :
    (forall i j, Q i j -> j < i) ->
    exists calls, foreachNonZeroWithFillBlocked3x3 c11 c21 c22 c31 c32 c33 = Ok calls /\
      NoDup calls /\ (forall i j, In (i, j) calls <-> Fill Q i j).
  Proof.
    intros Hlow. unfold foreachNonZeroWithFillBlocked3x3, isSquare.
    fold (c_rows c11) (c_cols c11) (c_rows c22) (c_cols c22).
    repeat (rewrite pre_ok by (apply Nat.eqb_eq; lia); cbn [bind]).
    destruct computeEtree3_ok as (t & Et & Hl & HE).
    rewrite Et. cbn [bind].
    rewrite ?(proj1 D11), ?(proj2 D11), ?(proj1 D21), ?(proj2 D21),
      ?(proj1 D22), ?(proj2 D22), ?(proj1 D31), ?(proj2 D31), ?(proj1 D33). fold n.
    destruct (walkEtree_ok Q t n rows3 [] (seq 0 n) 0 n HE)
      as (v & calls & E & _ & ND & Hc).
    - apply visOk_init.
    - lia.
    - intros i p Hi. apply rows3_good. lia.
    - intros i x Hi. rewrite rows3_cols by lia. split; [|tauto]. intros H; split; auto.
    - rewrite <- (loops3 (walkPiece (getParent t))) in E. unfold walkPiece in E.
      unfold foreachAncestorInSubtree.
      match type of E with bind ?m _ = _ => destruct m as [st1|e] eqn:E1 end;
        [|discriminate E].
      cbn [bind] in E |- *.
      match type of E with bind ?m _ = _ => destruct m as [st2|e] eqn:E2 end;
        [|discriminate E].
      cbn [bind] in E |- *. rewrite E. cbn [bind snd app].
      exists calls. split; auto. split; auto.
      intros i j. rewrite Hc. split; [tauto|]. intros HF. split; auto.
      split; [lia|]. cbn [Nat.add].
      assert (i <= n - 1); [|apply Fill_lt in HF; lia].
      eapply Fill_rows; [|exact HF]. intros a b Hq _. apply Q_rows in Hq. lia.
  Qed.
End Blocked3.

(** ** distributing the nonzeros to the blocks *)

Section Split3.
  Context (n1 n2 : nat).

  Definition sel11 (e : entry) := (snd e <? n1) && (fst e <? n1).
  Definition sel21 (e : entry) :=
    (snd e <? n1) && (n1 <=? fst e) && (fst e <? n1 + n2).
  Definition sel31 (e : entry) := (snd e <? n1) && (n1 + n2 <=? fst e).
  Definition sel22 (e : entry) :=
    (n1 <=? snd e) && (snd e <? n1 + n2) && (fst e <? n1 + n2).
  Definition sel32 (e : entry) :=
    (n1 <=? snd e) && (snd e <? n1 + n2) && (n1 + n2 <=? fst e).
  Definition sel33 (e : entry) := n1 + n2 <=? snd e.

  Definition shiftE (a b : nat) (e : entry) : entry := (fst e - a, snd e - b).

  Definition split3 (p : list entry) : blocked3x3 (list entry) :=
    mkB3 (filter sel11 p)
         (map (shiftE n1 0) (filter sel21 p))
         (map (shiftE n1 n1) (filter sel22 p))
         (map (shiftE (n1 + n2) 0) (filter sel31 p))
         (map (shiftE (n1 + n2) n1) (filter sel32 p))
         (map (shiftE (n1 + n2) (n1 + n2)) (filter sel33 p)).

  Lemma split3_snoc p i j : j < i ->
    addNonzero3x3 n1 n2 n1 n2 (split3 p) (i, j) = Ok (split3 (p ++ [(i, j)])).
  Proof.
    intros Hji. unfold split3. rewrite !filter_app, !map_app. cbn [filter].
    unfold sel11, sel21, sel22, sel31, sel32, sel33. cbn [fst snd].
    unfold addNonzero3x3.
    destruct (Nat.ltb_spec j n1) as [L1|L1];
      destruct (Nat.ltb_spec i n1) as [L2|L2];
      destruct (Nat.ltb_spec i (n1 + n2)) as [L3|L3];
      destruct (Nat.ltb_spec j (n1 + n2)) as [L4|L4];
      destruct (Nat.leb_spec n1 i) as [L5|L5];
      destruct (Nat.leb_spec (n1 + n2) i) as [L6|L6];
      destruct (Nat.leb_spec n1 j) as [L7|L7];
      destruct (Nat.leb_spec (n1 + n2) j) as [L8|L8]; try lia;
      cbn [andb map app]; rewrite ?app_nil_r; unfold subw, shiftE;
      cbn [fst snd block11 block21 block22 block31 block32 block33];
      repeat match goal with
      | |- context [?a <=? ?b] =>
          replace (a <=? b) with true by (symmetry; apply Nat.leb_le; lia); cbn [bind]
      end; rewrite ?Nat.sub_0_r, ?Nat.sub_add_distr; reflexivity.
  Qed.

  Lemma foldM_split3 calls :
    (forall i j, In (i, j) calls -> j < i) ->
    foldM (addNonzero3x3 n1 n2 n1 n2) calls (mkB3 [] [] [] [] [] []) =
    Ok (split3 calls).
  Proof.
    intros H.
    destruct (foldM_split (addNonzero3x3 n1 n2 n1 n2) (fun p b => b = split3 p)
                calls (mkB3 [] [] [] [] [] [])) as (b & E & ->); auto.
    intros p [i j] q b Eq ->. rewrite split3_snoc; eauto.
    apply H. rewrite Eq. apply in_or_app. right; left; auto.
  Qed.

  Lemma shift_In a b sel p i j :
    (forall e, sel e = true -> a <= fst e /\ b <= snd e) ->
    In (i, j) (map (shiftE a b) (filter sel p)) <->
    In (a + i, b + j) p /\ sel (a + i, b + j) = true.
  Proof.
    intros Hs. rewrite in_map_iff. split.
    - intros ([r c] & E & Hin). apply filter_In in Hin. destruct Hin as [Hin Hsel].
      pose proof (Hs _ Hsel) as Hb. unfold shiftE in E. cbn [fst snd] in *.
      injection E as <- <-.
      replace (a + (r - a)) with r by lia. replace (b + (c - b)) with c by lia. auto.
    - intros [Hin Hsel]. exists (a + i, b + j). split; [|apply filter_In; auto].
      unfold shiftE. cbn [fst snd]. f_equal; lia.
  Qed.

  Lemma shift_NoDup a b sel p :
    (forall e, sel e = true -> a <= fst e /\ b <= snd e) ->
    NoDup p -> NoDup (map (shiftE a b) (filter sel p)).
  Proof.
    intros Hs ND. apply NoDup_map_in; [|apply NoDup_filter; auto].
    intros [r c] [r' c'] H1 H2 E. apply filter_In in H1, H2.
    destruct H1 as [_ H1], H2 as [_ H2]. apply Hs in H1, H2.
    unfold shiftE in E. cbn [fst snd] in *. injection E as E1 E2. f_equal; lia.
  Qed.

  Context (R : pattern) (calls : list entry) (n3 : nat).
  Context (HR : forall i j, In (i, j) calls <-> R i j).
  Context (Hlt : forall i j, R i j -> j < i) (Hn : forall i j, R i j -> i < n1 + n2 + n3).

  Ltac sel := repeat match goal with
    | H : andb _ _ = true |- _ => apply andb_true_iff in H; destruct H
    | H : (_ <? _) = true |- _ => apply Nat.ltb_lt in H
    | H : (_ <=? _) = true |- _ => apply Nat.leb_le in H
    | |- andb _ _ = true => apply andb_true_iff; split
    | |- (_ <? _) = true => apply Nat.ltb_lt
    | |- (_ <=? _) = true => apply Nat.leb_le
    end; cbn [fst snd] in *; try lia.

  Lemma split3_11 i j : In (i, j) (block11 (split3 calls)) <-> i < n1 /\ j < n1 /\ R i j.
  Proof.
    cbn [block11 split3]. rewrite filter_In, HR. unfold sel11. split.
    - intros [H1 H2]. cbn [fst snd] in *. sel. auto.
    - intros (H1 & H2 & H3). split; auto. sel.
  Qed.

  Lemma split3_21 i j : In (i, j) (block21 (split3 calls)) <->
    i < n2 /\ j < n1 /\ R (n1 + i) j.
  Proof.
    cbn [block21 split3]. rewrite shift_In.
    2:{ intros [r c] H. unfold sel21 in H. sel. }
    rewrite HR. unfold sel21. cbn [fst snd Nat.add]. split.
    - intros [H1 H2]. sel. repeat split; auto; lia.
    - intros (H1 & H2 & H3). split; auto. sel.
  Qed.

  Lemma split3_22 i j : In (i, j) (block22 (split3 calls)) <->
    i < n2 /\ j < n2 /\ R (n1 + i) (n1 + j).
  Proof.
    cbn [block22 split3].
    rewrite in_map_iff. split.
    - intros ([r c] & E & Hin). apply filter_In in Hin. destruct Hin as [Hin Hsel].
      apply HR in Hin. pose proof (Hlt _ _ Hin). unfold sel22 in Hsel. sel.
      unfold shiftE in E. cbn [fst snd] in E. injection E as <- <-.
      replace (n1 + (r - n1)) with r by lia. replace (n1 + (c - n1)) with c by lia.
      repeat split; auto; lia.
    - intros (H1 & H2 & H3). exists (n1 + i, n1 + j). split.
      + unfold shiftE. cbn [fst snd]. f_equal; lia.
      + apply filter_In. rewrite HR. split; auto. unfold sel22. sel.
  Qed.

  Lemma split3_31 i j : In (i, j) (block31 (split3 calls)) <->
    i < n3 /\ j < n1 /\ R (n1 + n2 + i) j.
  Proof.
    cbn [block31 split3]. rewrite shift_In.
    2:{ intros [r c] H. unfold sel31 in H. sel. }
    rewrite HR. unfold sel31. cbn [fst snd Nat.add]. split.
    - intros [H1 H2]. pose proof (Hn _ _ H1). sel. repeat split; auto; lia.
    - intros (H1 & H2 & H3). split; auto. sel.
  Qed.

  Lemma split3_32 i j : In (i, j) (block32 (split3 calls)) <->
    i < n3 /\ j < n2 /\ R (n1 + n2 + i) (n1 + j).
  Proof.
    cbn [block32 split3]. rewrite shift_In.
    2:{ intros [r c] H. unfold sel32 in H. sel. }
    rewrite HR. unfold sel32. cbn [fst snd Nat.add]. split.
    - intros [H1 H2]. pose proof (Hn _ _ H1). sel. repeat split; auto; lia.
    - intros (H1 & H2 & H3). split; auto. sel.
  Qed.

  Lemma split3_33 i j : In (i, j) (block33 (split3 calls)) <->
    i < n3 /\ j < n3 /\ R (n1 + n2 + i) (n1 + n2 + j).
  Proof.
    cbn [block33 split3].
    rewrite in_map_iff. split.
    - intros ([r c] & E & Hin). apply filter_In in Hin. destruct Hin as [Hin Hsel].
      apply HR in Hin. pose proof (Hlt _ _ Hin). pose proof (Hn _ _ Hin).
      unfold sel33 in Hsel. sel.
      unfold shiftE in E. cbn [fst snd] in E. injection E as <- <-.
      replace (n1 + n2 + (r - (n1 + n2))) with r by lia.
      replace (n1 + n2 + (c - (n1 + n2))) with c by lia.
      repeat split; auto; lia.
    - intros (H1 & H2 & H3). exists (n1 + n2 + i, n1 + n2 + j). split.
      + unfold shiftE. cbn [fst snd]. f_equal; lia.
      + apply filter_In. rewrite HR. split; auto. unfold sel33. sel.
  Qed.

  Lemma split3_NoDup : NoDup calls ->
    let b := split3 calls in
    NoDup (block11 b) /\ NoDup (block21 b) /\ NoDup (block22 b) /\
    NoDup (block31 b) /\ NoDup (block32 b) /\ NoDup (block33 b).
  Proof.
    intros ND. cbn [split3 block11 block21 block22 block31 block32 block33].
    split; [apply NoDup_filter; auto|].
    assert (Hl : forall sel, NoDup (filter sel calls)) by (intros; apply NoDup_filter; auto).
    assert (Hin : forall r c, In (r, c) calls -> c < r).
    { intros r c H. apply Hlt, HR; auto. }
    repeat split; apply NoDup_map_in; auto;
      intros [r c] [r' c'] H1 H2 E; apply filter_In in H1, H2;
      destruct H1 as [H3 H1], H2 as [H4 H2]; apply Hin in H3, H4;
      unfold sel21, sel22, sel31, sel32, sel33 in H1, H2; sel;
      unfold shiftE in E; cbn [fst snd] in E; injection E as E1 E2; f_equal; lia.
  Qed.
End Split3.
