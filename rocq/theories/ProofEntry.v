(** Contribution lists and the entry-wise kernel. No algebraic laws are used. *)
From Coq Require Import List Arith Lia Bool Sorted.
From Verif Require Import Base ModelPerm ModelSparsity ModelSymbolic ModelNumeric.
From Verif Require Import SpecSymbolic SpecArrow.
From Verif Require Import ProofBase ProofPerm ProofCsr ProofSparsity ProofFill ProofFill3
  ProofArrowSym ProofDense ProofUpRow ProofUp.
Import ListNotations.

(** ** contribution lists *)

Definition memb (k : nat) (l : list nat) : bool := existsb (Nat.eqb k) l.

Lemma memb_In k l : memb k l = true <-> In k l.
Proof.
  unfold memb. rewrite existsb_exists. split.
  - intros (x & H & E). apply Nat.eqb_eq in E. subst. auto.
  - intros H. exists k. split; auto. apply Nat.eqb_refl.
Qed.

Lemma memb_false k l : memb k l = false <-> ~ In k l.
Proof. rewrite <- memb_In. destruct (memb k l); split; congruence. Qed.

Lemma filter_none {A} (f : A -> bool) l : (forall x, In x l -> f x = false) -> filter f l = [].
Proof.
  induction l as [|a l IH]; cbn; intros H; auto. rewrite (H a) by auto.
  apply IH. intros; apply H; auto.
Qed.

Definition shows (sp below : csr) (i j : nat) (ks : list nat) (cs : list contribution) : Prop :=
  map (fun c : contribution => nth_error (c_entries below) (fst (fst c))) cs =
    map (fun k => Some (i, k)) ks /\
  map (fun c : contribution => nth_error (c_entries sp) (snd (fst c))) cs =
    map (fun k => Some (j, k)) ks /\
  map snd cs = ks.

Lemma contrib_loop_ok sp below limit i j : forall fuel li lj ik jk,
  length li + length lj < fuel ->
  (forall t k, nth_error li t = Some k -> nth_error (c_entries below) (ik + t) = Some (i, k)) ->
  (forall t k, nth_error lj t = Some k -> nth_error (c_entries sp) (jk + t) = Some (j, k)) ->
  StronglySorted lt li -> StronglySorted lt lj ->
  exists cs,
    contrib_loop fuel sp below limit ik (ik + length li) jk (jk + length lj) = Ok cs /\
    shows sp below i j (filter (fun k => memb k lj && (k <? limit)) li) cs.
Proof.
  induction fuel as [|fuel IH]; intros li lj ik jk Hf Hi Hj Si Sj; [lia|].
  cbn [contrib_loop].
  assert (Nil : forall ks, ks = [] -> shows sp below i j ks []).
  { intros ks ->. repeat split. }
  destruct li as [|a li].
  { exists []. cbn [length]. rewrite Nat.add_0_r, Nat.eqb_refl. cbn [negb andb]. auto. }
  destruct lj as [|b lj].
  { exists []. cbn [length]. rewrite Nat.add_0_r, Nat.eqb_refl. rewrite andb_false_r.
    split; auto. apply Nil. apply filter_none. auto. }
  cbn [length].
  destruct (Nat.eqb_spec ik (ik + S (length li))); [lia|].
  destruct (Nat.eqb_spec jk (jk + S (length lj))); [lia|]. cbn [negb andb].
  pose proof (Hi 0 a eq_refl) as Ea. pose proof (Hj 0 b eq_refl) as Eb.
  rewrite Nat.add_0_r in Ea, Eb.
  rewrite (proj2 (rd_ok _ _ _) Ea). cbn [bind].
  rewrite (proj2 (rd_ok _ _ _) Eb). cbn [bind snd].
  inversion Si as [|? ? Si' Fi]. inversion Sj as [|? ? Sj' Fj]. subst.
  rewrite Forall_forall in Fi, Fj.
  assert (Hi' : forall t k, nth_error li t = Some k ->
            nth_error (c_entries below) (ik + 1 + t) = Some (i, k)).
  { intros t k H. rewrite <- (Hi (S t) k H). f_equal. lia. }
  assert (Hj' : forall t k, nth_error lj t = Some k ->
            nth_error (c_entries sp) (jk + 1 + t) = Some (j, k)).
  { intros t k H. rewrite <- (Hj (S t) k H). f_equal. lia. }
  destruct (Nat.leb_spec limit a) as [La|La]; cbn [orb].
  { exists []. split; auto. apply Nil. apply filter_none. intros x Hx.
    replace (x <? limit) with false; [apply andb_false_r|].
    symmetry. apply Nat.ltb_ge. destruct Hx as [<-|Hx]; auto. apply Fi in Hx. lia. }
  destruct (Nat.leb_spec limit b) as [Lb|Lb]; cbn [orb].
  { exists []. split; auto. apply Nil. apply filter_none. intros x Hx.
    destruct (Nat.ltb_spec x limit) as [Lx|Lx]; [|apply andb_false_r].
    rewrite andb_true_r. apply memb_false. intros [<-|H]; [lia|]. apply Fj in H. lia. }
  destruct (Nat.lt_trichotomy a b) as [Hab|[->|Hab]].
  - replace (a <=? b) with true by (symmetry; apply Nat.leb_le; lia).
    replace (b <=? a) with false by (symmetry; apply Nat.leb_gt; lia).
    replace (a =? b) with false by (symmetry; apply Nat.eqb_neq; lia).
    destruct (IH li (b :: lj) (ik + 1) jk) as (cs & E & Hcs); auto.
    { cbn [length] in *. lia. }
    cbn [length] in E. replace (ik + 1 + length li) with (ik + S (length li)) in E by lia.
    replace (jk + 0) with jk by lia.
    rewrite E. cbn [bind]. exists cs. split; auto.
    cbn [filter]. replace (memb a (b :: lj)) with false; auto.
    symmetry. apply memb_false. intros [<-|H]; [lia|]. apply Fj in H. lia.
  - rewrite Nat.leb_refl, Nat.eqb_refl.
    destruct (IH li lj (ik + 1) (jk + 1)) as (cs & E & Hcs); auto.
    { cbn [length] in *. lia. }
    replace (ik + 1 + length li) with (ik + S (length li)) in E by lia.
    replace (jk + 1 + length lj) with (jk + S (length lj)) in E by lia.
    rewrite E. cbn [bind]. eexists. split; [reflexivity|].
    cbn [filter]. replace (memb b (b :: lj)) with true
      by (symmetry; apply memb_In; left; auto).
    replace (b <? limit) with true by (symmetry; apply Nat.ltb_lt; auto). cbn [andb].
    assert (Ef : filter (fun k => memb k (b :: lj) && (k <? limit)) li =
                 filter (fun k => memb k lj && (k <? limit)) li).
    { apply filter_ext_in. intros x Hx. f_equal. unfold memb. cbn [existsb].
      replace (x =? b) with false; auto. symmetry. apply Nat.eqb_neq. apply Fi in Hx. lia. }
    rewrite Ef. destruct Hcs as (H1 & H2 & H3). unfold shows. cbn [map fst snd].
    rewrite Ea, Eb, H1, H2, H3. auto.
  - replace (a <=? b) with false by (symmetry; apply Nat.leb_gt; lia).
    replace (b <=? a) with true by (symmetry; apply Nat.leb_le; lia).
    replace (a =? b) with false by (symmetry; apply Nat.eqb_neq; lia).
    destruct (IH (a :: li) lj ik (jk + 1)) as (cs & E & Hcs); auto.
    { cbn [length] in *. lia. }
    cbn [length] in E. replace (jk + 1 + length lj) with (jk + S (length lj)) in E by lia.
    replace (ik + 0) with ik by lia.
    rewrite E. cbn [bind]. exists cs. split; auto.
    assert (Ef : filter (fun k => memb k (b :: lj) && (k <? limit)) (a :: li) =
                 filter (fun k => memb k lj && (k <? limit)) (a :: li)).
    { apply filter_ext_in. intros x Hx. f_equal. unfold memb. cbn [existsb].
      replace (x =? b) with false; auto. symmetry. apply Nat.eqb_neq.
      destruct Hx as [<-|Hx]; [lia|]. apply Fi in Hx. lia. }
    rewrite Ef. auto.
Qed.

Lemma row_nth c i t k : gcsr c -> i < c_rows c -> nth_error (cols c i) t = Some k ->
  nth_error (c_entries c) (offs (c_entries c) i + t) = Some (i, k).
Proof.
  intros [W _] Hi H. unfold cols in H.
  assert (Ht : t < length (rowf (c_entries c) i)).
  { rewrite <- (map_length snd). apply nth_error_Some. congruence. }
  rewrite (wf_nth_error c W) by auto.
  destruct (nth_error (rowf (c_entries c) i) t) as [[r q]|] eqn:E.
  - erewrite map_nth_error in H by eauto. cbn in H. injection H as ->.
    apply nth_error_In, rowf_In in E. cbn in E. destruct E as [_ ->]. auto.
  - apply nth_error_None in E. lia.
Qed.

Lemma contributions_ok sp below i j limit :
  gcsr sp -> gcsr below -> i < c_rows below -> j < c_rows sp ->
  exists cs, getContributionsMixedLimit sp below i j limit = Ok cs /\
    shows sp below i j (filter (fun k => nzb sp j k && (k <? limit)) (cols below i)) cs.
Proof.
  intros Gs Gb Hi Hj. unfold getContributionsMixedLimit.
  pose proof (proj1 Gs) as Ws. pose proof (proj1 Gb) as Wb.
  rewrite !(wf_rd_rb below Wb) by lia. cbn [bind].
  rewrite !(wf_rd_rb sp Ws) by lia. cbn [bind].
  replace (i + 1) with (S i) by lia. replace (j + 1) with (S j) by lia.
  rewrite !offs_S, <- !cols_length.
  destruct (contrib_loop_ok sp below limit i j
     (S ((offs (c_entries below) i + length (cols below i) - offs (c_entries below) i) +
         (offs (c_entries sp) j + length (cols sp j) - offs (c_entries sp) j)))
     (cols below i) (cols sp j) (offs (c_entries below) i) (offs (c_entries sp) j))
    as (cs & E & H).
  - lia.
  - intros t k Ht. apply row_nth; auto.
  - intros t k Ht. apply row_nth; auto.
  - apply cols_sorted; auto.
  - apply cols_sorted; auto.
  - exists cs. split; auto.
    rewrite (filter_ext_in (fun k => nzb sp j k && (k <? limit))
              (fun k => memb k (cols sp j) && (k <? limit))); auto.
    intros k _. f_equal. destruct (memb k (cols sp j)) eqn:Em.
    + apply nzb_In. apply cols_In. apply memb_In. auto.
    + apply nzb_false. intros Hin. apply memb_false in Em. apply Em, cols_In; auto.
Qed.

(** ** kernels *)

Section Entry.
  Context {F : Type} (O : ops F).
  Local Notation get := (getL O).
  Local Notation "a - b" := (osub O a b) : scalar.
  Local Notation "a * b" := (omul O a b) : scalar.
  Local Notation "a / b" := (odiv O a b) : scalar.

  Lemma fold_filter acc l (nz : nat -> bool) t :
    fold_left (fun a k => (a - t k)%s) (filter nz l) acc = subf O acc l nz t.
  Proof.
    unfold subf. revert acc. induction l as [|k l IH]; intros acc; cbn [filter fold_left]; auto.
    destruct (nz k); cbn [fold_left]; auto.
  Qed.

  Definition contribStep (A B D : list F) (v : F) (c : contribution) : res F :=
    let '(ik, jk, kk) := c in
    let* a := rd A ik in
    let* b := rd B jk in
    let* d := rd D kk in
    Ok (v - a * b * d)%s.

  Lemma contribFold sp below i j A B D : forall ks cs v,
    gcsr sp -> gcsr below -> length A = c_nnz below -> length B = c_nnz sp ->
    (forall k, In k ks -> k < length D) ->
    shows sp below i j ks cs ->
    foldM (contribStep A B D) cs v =
    Ok (fold_left (fun a k => (a - get below A i k * get sp B j k * getD O D k)%s) ks v).
  Proof.
    intros ks cs v Gs Gb HA HB. revert ks v.
    induction cs as [|[[ik jk] kk] cs IH]; intros [|k ks] v HD (H1 & H2 & H3);
      cbn [map fst snd] in *; try discriminate; auto.
    injection H1 as H1 H1'. injection H2 as H2 H2'. injection H3 as -> H3'.
    cbn [foldM fold_left contribStep].
    rewrite (rd_at O below A i k ik) by auto. cbn [bind].
    rewrite (rd_at O sp B j k jk) by auto. cbn [bind].
    rewrite (rd_nth D k (o0 O)) by (apply HD; left; auto). cbn [bind].
    apply IH; [intros; apply HD; right; auto|]. split; auto.
  Qed.

  (** ** subdiagonal block *)

  Record ewRow (c11 c21 c22 : csr) (G11 : nat -> nat -> F) (D1 : nat -> F)
      (a21 a22 : nat -> nat -> F) (ad : nat -> F) (reg : F -> nat -> F) (i : nat)
      (G21 G22 : nat -> nat -> F) (D2 : nat -> F) : Prop := mkEwRow {
    er_21 : forall j, In j (cols c21 i) ->
      G21 i j = (subf O (a21 i j) (cols c21 i) (nzb c11 j)
                   (fun k => (G21 i k * G11 j k * D1 k)%s) / D1 j)%s;
    er_22 : forall j, In j (cols c22 i) ->
      G22 i j = (subf O (subf O (a22 i j) (cols c21 i) (nzb c21 j)
                           (fun k => (G21 i k * G21 j k * D1 k)%s))
                   (cols c22 i) (nzb c22 j) (fun k => (G22 i k * G22 j k * D2 k)%s) / D2 j)%s;
    er_D : D2 i = reg (subf O (subf O (ad i) (cols c21 i) (fun _ => true)
                                 (fun k => (G21 i k * G21 i k * D1 k)%s))
                         (cols c22 i) (fun _ => true)
                         (fun k => (G22 i k * G22 i k * D2 k)%s)) i }.

  Lemma initL_ok ini b nr nc R prow pcol sym L i j k :
    goodBlk b nr nc R prow pcol sym -> (sym = true -> nr = nc /\ prow = pcol) ->
    readableI ini -> length L = c_nnz (b_sp b) ->
    nth_error (c_entries (b_sp b)) k = Some (i, j) ->
    getInitialFactorValueL O ini b L k = Ok (initL O ini b L i j).
  Proof.
    intros G Hs Hm HL Ek. pose proof (goodBlk_gcsr _ _ _ _ _ _ _ G) as GC.
    destruct ini as [m|]; cbn [getInitialFactorValueL initL].
    - rewrite (proj2 (rd_ok _ _ _) Ek). cbn [bind].
      pose proof (wfc_bounds _ (proj1 GC) _ _ (nth_error_In _ _ Ek)) as Hb.
      rewrite (gb_rows _ _ _ _ _ _ _ G), (gb_cols _ _ _ _ _ _ _ G) in Hb.
      rewrite (origEntry_ok _ _ _ _ _ _ _ _ _ G Hs) by lia. cbn [bind].
      apply getMatrixValueAt_ok; auto.
    - apply rd_at; auto.
  Qed.

  Lemma pairwise_offs (g : nat -> nat) a n :
    pairwise (map g (seq a (n + 1))) = map (fun i => (g i, g (i + 1))) (seq a n).
  Proof.
    revert a. induction n as [|n IH]; intros a; [reflexivity|].
    specialize (IH (S a)). replace (S n + 1) with (S (S n)) by lia.
    replace (n + 1) with (S n) in IH by lia. cbn [seq map] in *.
    replace (a + 1) with (S a) by lia.
    cbn [pairwise]. f_equal. exact IH.
  Qed.

  Lemma foldM_map {St X Y} (f : St -> Y -> res St) (g : X -> Y) l s :
    foldM f (map g l) s = foldM (fun s x => f s (g x)) l s.
  Proof.
    revert s. induction l as [|x l IH]; intros s; cbn [map foldM]; auto.
    destruct (f s (g x)); cbn [bind]; auto.
  Qed.

  Lemma row_sub b11 b21 n1 n2 R11 R21 q1 p1 p2 sy1 L11 D11 init21 i L :
    goodBlk b11 n1 n1 R11 q1 q1 sy1 -> goodBlk b21 n2 n1 R21 p2 p1 false ->
    (forall i j, R11 i j -> j < i) -> readableI init21 ->
    length L11 = c_nnz (b_sp b11) -> length D11 = n1 -> length L = c_nnz (b_sp b21) ->
    i < n2 ->
    exists L', foldM (fun L k => factorEntryWiseSubdiagonalImplRow O b11 b21 L11 D11 init21 k L)
        (irange (offs (c_entries (b_sp b21)) i) (offs (c_entries (b_sp b21)) (i + 1))) L = Ok L' /\
      length L' = c_nnz (b_sp b21) /\
      (forall j, In j (cols (b_sp b21) i) ->
        get (b_sp b21) L' i j =
        (subf O (initL O init21 b21 L i j) (cols (b_sp b21) i) (nzb (b_sp b11) j)
          (fun k => (get (b_sp b21) L' i k * get (b_sp b11) L11 j k * getD O D11 k)%s)
         / getD O D11 j)%s) /\
      (forall r j, r <> i -> get (b_sp b21) L' r j = get (b_sp b21) L r j).
  Proof.
    intros G11 G21 Low11 Rd N11 ND1 NL Hi.
    pose proof (goodBlk_gcsr _ _ _ _ _ _ _ G11) as GC11.
    pose proof (goodBlk_gcsr _ _ _ _ _ _ _ G21) as GC21.
    pose proof G11 as [W11 _ r11 c11 I11 _ _ _ _ _].
    pose proof G21 as [W21 _ r21 c21 I21 _ _ _ _ _].
    set (f := fun L k => _).
    destruct (row_fold (b_sp b21) f (fun pre A => length A = c_nnz (b_sp b21) /\
       (forall j, In j pre -> get (b_sp b21) A i j =
         (subf O (initL O init21 b21 L i j) pre (nzb (b_sp b11) j)
           (fun k => (get (b_sp b21) A i k * get (b_sp b11) L11 j k * getD O D11 k)%s)
          / getD O D11 j)%s) /\
       (forall j, ~ In j pre -> get (b_sp b21) A i j = get (b_sp b21) L i j) /\
       (forall r j, r <> i -> get (b_sp b21) A r j = get (b_sp b21) L r j)) i L GC21)
      as (L' & E & H1 & H2 & H3 & H4).
    - lia.
    - split; auto. split; [intros j []|]. auto.
    - intros pre c post k A Ec Ek Hc Hpre Hpost (H1 & H2 & H3 & H4).
      unfold f, factorEntryWiseSubdiagonalImplRow.
      rewrite (proj2 (rd_ok _ _ _) Ek). cbn [bind].
      rewrite (initL_ok init21 b21 n2 n1 R21 p2 p1 false A i c k) by (auto; discriminate).
      cbn [bind].
      assert (Hcn : ~ In c pre) by (intros Hx; apply Hpre in Hx; lia).
      assert (EI : initL O init21 b21 A i c = initL O init21 b21 L i c).
      { destruct init21; cbn [initL]; auto. }
      unfold getContributionsMixed.
      destruct (contributions_ok (b_sp b11) (b_sp b21) i c
                  (Nat.min (c_cols (b_sp b11)) (c_cols (b_sp b21)))) as (cs & Ecs & Hcs);
        auto; try lia.
      rewrite Ecs. cbn [bind].
      fold (contribStep A L11 D11).
      rewrite (contribFold (b_sp b11) (b_sp b21) i c A L11 D11 _ _ _ GC11 GC21 H1 N11) with (2 := Hcs).
      2:{ intros q Hq. apply filter_In in Hq. destruct Hq as [_ Hq].
          apply andb_true_iff in Hq. destruct Hq as [_ Hq]. apply Nat.ltb_lt in Hq. lia. }
      cbn [bind]. rewrite (rd_nth D11 c (o0 O)) by lia. cbn [bind].
      rewrite fold_filter.
      assert (Hk : k < length A).
      { rewrite H1. eapply nth_error_nnz; eauto. }
      rewrite wr_ok by auto. eexists. split; [reflexivity|].
      set (v := (_ / _)%s).
      assert (GU : forall r j, get (b_sp b21) (upd A k v) r j =
         if (r =? i) && (j =? c) then v else get (b_sp b21) A r j).
      { intros r j. apply getL_upd; auto. }
      assert (GUo : forall j, j <> c -> get (b_sp b21) (upd A k v) i j = get (b_sp b21) A i j).
      { intros j N. rewrite GU, Nat.eqb_refl. destruct (Nat.eqb_spec j c); [lia|auto]. }
      rewrite upd_length. split; auto. split; [|split].
      + intros j Hj. rewrite subf_snoc.
        assert (Nj : nzb (b_sp b11) j c = false).
        { apply nzb_false. intros Hx. apply I11, Low11 in Hx. apply in_app_or in Hj.
          destruct Hj as [Hj|[<-|[]]]; [apply Hpre in Hj; lia|lia]. }
        rewrite Nj.
        assert (ES : forall t, subf O t pre (nzb (b_sp b11) j)
            (fun k0 => (get (b_sp b21) (upd A k v) i k0 * get (b_sp b11) L11 j k0 * getD O D11 k0)%s) =
            subf O t pre (nzb (b_sp b11) j)
            (fun k0 => (get (b_sp b21) A i k0 * get (b_sp b11) L11 j k0 * getD O D11 k0)%s)).
        { intros t. apply subf_ext; auto. intros q Hq _. rewrite GUo; auto.
          apply Hpre in Hq. lia. }
        rewrite ES. apply in_app_or in Hj. destruct Hj as [Hj|[<-|[]]].
        * rewrite GUo by (apply Hpre in Hj; lia). apply H2; auto.
        * rewrite GU, !Nat.eqb_refl. cbn [andb]. unfold v. fold (getD O D11 c). f_equal.
          rewrite EI. rewrite Ec. unfold subf. rewrite fold_left_app.
          set (a0 := fold_left _ pre _).
          assert (Z : forall l x, (forall q, In q l -> c <= q) ->
            fold_left (fun a k0 => if nzb (b_sp b11) c k0 &&
              (k0 <? Nat.min (c_cols (b_sp b11)) (c_cols (b_sp b21))) then
              (a - get (b_sp b21) A i k0 * get (b_sp b11) L11 c k0 * getD O D11 k0)%s else a) l x = x).
          { clear -Low11 I11. induction l as [|q l IH]; intros x Hl; cbn [fold_left]; auto.
            replace (nzb (b_sp b11) c q) with false.
            - cbn [andb]. apply IH. intros; apply Hl; right; auto.
            - symmetry. apply nzb_false. intros Hx. apply I11, Low11 in Hx.
              specialize (Hl q (or_introl eq_refl)). lia. }
          rewrite Z.
          2:{ intros q [<-|Hq]; auto. apply Hpost in Hq. lia. }
          unfold a0. apply (subf_ext O). 2:auto.
          intros q Hq. replace (q <? _) with true; [apply andb_true_r|].
          symmetry. apply Nat.ltb_lt. apply Hpre in Hq. lia.
      + intros j Hj. rewrite GUo.
        * apply H3. intros Hx. apply Hj, in_or_app. auto.
        * intros ->. apply Hj, in_or_app. right; left; auto.
      + intros r j N. rewrite GU. destruct (Nat.eqb_spec r i); [lia|]. cbn [andb]. auto.
    - exists L'. auto.
  Qed.

  Lemma sub_ok b11 b21 n1 n2 R11 R21 q1 p1 p2 sy1 L11 D11 init21 L :
    goodBlk b11 n1 n1 R11 q1 q1 sy1 -> goodBlk b21 n2 n1 R21 p2 p1 false ->
    (forall i j, R11 i j -> j < i) -> readableI init21 ->
    length L11 = c_nnz (b_sp b11) -> length D11 = n1 -> length L = c_nnz (b_sp b21) ->
    exists L', factorizeEntryWiseSubdiagonal O b11 b21 L11 D11 init21 L = Ok L' /\
      length L' = c_nnz (b_sp b21) /\
      (forall i j, i < n2 -> In j (cols (b_sp b21) i) ->
        get (b_sp b21) L' i j =
        (subf O (initL O init21 b21 L i j) (cols (b_sp b21) i) (nzb (b_sp b11) j)
          (fun k => (get (b_sp b21) L' i k * get (b_sp b11) L11 j k * getD O D11 k)%s)
         / getD O D11 j)%s).
  Proof.
    intros G11 G21 Low11 Rd N11 ND1 NL.
    pose proof G21 as [W21 _ r21 c21 I21 _ _ _ _ _].
    unfold factorizeEntryWiseSubdiagonal.
    rewrite (wfc_rb _ W21), pairwise_offs, foldM_map, r21. cbn [fst snd].
    set (f := fun L i => _).
    destruct (foldM_seq f (fun i A => length A = c_nnz (b_sp b21) /\
      (forall r j, i <= r -> get (b_sp b21) A r j = get (b_sp b21) L r j) /\
      (forall r j, r < i -> In j (cols (b_sp b21) r) -> get (b_sp b21) A r j =
        (subf O (initL O init21 b21 L r j) (cols (b_sp b21) r) (nzb (b_sp b11) j)
          (fun k => (get (b_sp b21) A r k * get (b_sp b11) L11 j k * getD O D11 k)%s)
         / getD O D11 j)%s)) 0 n2 L) as (L' & E & H1 & H2 & H3).
    - split; auto. split; auto. intros r j Hr; lia.
    - intros i A Hi (H1 & H2 & H3). unfold f.
      destruct (row_sub b11 b21 n1 n2 R11 R21 q1 p1 p2 sy1 L11 D11 init21 i A)
        as (A' & E & K1 & K2 & K3); auto; try lia.
      exists A'. split; auto. split; auto. split.
      + intros r j Hr. rewrite K3, H2; auto; lia.
      + intros r j Hr Hj. destruct (Nat.eq_dec r i) as [->|N].
        * rewrite K2 by auto. f_equal. f_equal. destruct init21; cbn [initL]; auto.
        * rewrite K3 by auto. rewrite H3 by (auto; lia). f_equal. apply subf_ext; auto.
          intros k _ _. rewrite K3 by auto. auto.
    - exists L'. auto.
  Qed.

  (** ** diagonal block *)

  Lemma rowDiagonal_ok b nr nc R prow pcol sym L D i v :
    goodBlk b nr nc R prow pcol sym -> length L = c_nnz (b_sp b) -> length D = nc -> i < nr ->
    applyContributionsRowDiagonal O b L D i v =
    Ok (subf O v (cols (b_sp b) i) (fun _ => true)
          (fun k => (get (b_sp b) L i k * get (b_sp b) L i k * getD O D k)%s)).
  Proof.
    intros G HL HD Hi. pose proof (goodBlk_gcsr _ _ _ _ _ _ _ G) as GC.
    pose proof G as [W _ r c I _ _ _ _ _].
    unfold applyContributionsRowDiagonal. rewrite !(wf_rd_rb _ W) by lia. cbn [bind].
    set (f := fun v k => _).
    destruct (row_fold (b_sp b) f (fun pre x => x = subf O v pre (fun _ => true)
          (fun k => (get (b_sp b) L i k * get (b_sp b) L i k * getD O D k)%s)) i v GC)
      as (x & E & Hx); try lia; auto.
    - intros pre q post k x Ec Ek Hq Hpre Hpost ->. unfold f.
      rewrite (proj2 (rd_ok _ _ _) Ek). cbn [bind snd].
      rewrite (rd_at O (b_sp b) L i q k) by auto. cbn [bind].
      rewrite (rd_nth D q (o0 O)) by lia. cbn [bind].
      eexists. split; [reflexivity|]. rewrite subf_snoc. auto.
    - subst x. auto.
  Qed.

  Definition ewStep (b21 b22 : blk) (D11 L21 : list F) (init22 : init) (D22 : list F)
      (st : list F * F) (k : nat) : res (list F * F) :=
    let (L22, Di) := st in
    let* r := factorizeEntryWiseImplRow O b21 b22 D11 L21 init22 D22 k L22 in
    let (L22, c) := (r : list F * F) in
    Ok (L22, (Di - c)%s).

  Lemma row_ew b21 b22 n1 n2 R21 R22 p1 p2 D11 L21 init22 D22 i L Di :
    goodBlk b21 n2 n1 R21 p2 p1 false -> goodBlk b22 n2 n2 R22 p2 p2 true ->
    (forall i j, R22 i j -> j < i) -> readableI init22 ->
    length L21 = c_nnz (b_sp b21) -> length D11 = n1 -> length L = c_nnz (b_sp b22) ->
    length D22 = n2 -> i < n2 ->
    exists L', foldM (ewStep b21 b22 D11 L21 init22 D22)
        (irange (offs (c_entries (b_sp b22)) i) (offs (c_entries (b_sp b22)) (i + 1))) (L, Di) =
        Ok (L', subf O Di (cols (b_sp b22) i) (fun _ => true)
                  (fun k => (get (b_sp b22) L' i k * get (b_sp b22) L' i k * getD O D22 k)%s)) /\
      length L' = c_nnz (b_sp b22) /\
      (forall j, In j (cols (b_sp b22) i) ->
        get (b_sp b22) L' i j =
        (subf O (subf O (initL O init22 b22 L i j) (cols (b_sp b21) i) (nzb (b_sp b21) j)
             (fun k => (get (b_sp b21) L21 i k * get (b_sp b21) L21 j k * getD O D11 k)%s))
          (cols (b_sp b22) i) (nzb (b_sp b22) j)
          (fun k => (get (b_sp b22) L' i k * get (b_sp b22) L' j k * getD O D22 k)%s)
         / getD O D22 j)%s) /\
      (forall r j, r <> i -> get (b_sp b22) L' r j = get (b_sp b22) L r j).
  Proof.
    intros G21 G22 Low22 Rd N21 ND1 NL ND2 Hi.
    pose proof (goodBlk_gcsr _ _ _ _ _ _ _ G21) as GC21.
    pose proof (goodBlk_gcsr _ _ _ _ _ _ _ G22) as GC22.
    pose proof G21 as [W21 _ r21 c21 I21 _ _ _ _ _].
    pose proof G22 as [W22 _ r22 c22 I22 _ _ _ _ _].
    set (f := ewStep b21 b22 D11 L21 init22 D22).
    set (base := fun j => subf O (initL O init22 b22 L i j) (cols (b_sp b21) i) (nzb (b_sp b21) j)
             (fun k => (get (b_sp b21) L21 i k * get (b_sp b21) L21 j k * getD O D11 k)%s)).
    destruct (row_fold (b_sp b22) f (fun pre (st : list F * F) =>
       let (A, d) := st in length A = c_nnz (b_sp b22) /\
       (forall j, In j pre -> get (b_sp b22) A i j =
         (subf O (base j) pre (nzb (b_sp b22) j)
           (fun k => (get (b_sp b22) A i k * get (b_sp b22) A j k * getD O D22 k)%s)
          / getD O D22 j)%s) /\
       (forall j, ~ In j pre -> get (b_sp b22) A i j = get (b_sp b22) L i j) /\
       (forall r j, r <> i -> get (b_sp b22) A r j = get (b_sp b22) L r j) /\
       d = subf O Di pre (fun _ => true)
             (fun k => (get (b_sp b22) A i k * get (b_sp b22) A i k * getD O D22 k)%s))
       i (L, Di) GC22) as ([L' d] & E & H1 & H2 & H3 & H4 & H5).
    - lia.
    - split; auto. split; [intros j []|]. auto.
    - intros pre c post k [A d] Ec Ek Hc Hpre Hpost (H1 & H2 & H3 & H4 & H5).
      assert (Hci : c < i).
      { apply Low22, I22. eapply nth_error_In; eauto. }
      unfold f, ewStep, factorizeEntryWiseImplRow.
      rewrite (proj2 (rd_ok _ _ _) Ek). cbn [bind].
      rewrite (initL_ok init22 b22 n2 n2 R22 p2 p2 true A i c k) by auto.
      cbn [bind].
      assert (Hcn : ~ In c pre) by (intros Hx; apply Hpre in Hx; lia).
      assert (EI : initL O init22 b22 A i c = initL O init22 b22 L i c).
      { destruct init22; cbn [initL]; auto. }
      unfold getContributionsRectangular, getContributionsMixed, getContributionsLowerTriangle.
      destruct (contributions_ok (b_sp b21) (b_sp b21) i c
                  (Nat.min (c_cols (b_sp b21)) (c_cols (b_sp b21)))) as (cs1 & Ecs1 & Hcs1);
        auto; try lia.
      rewrite Ecs1. cbn [bind].
      destruct (contributions_ok (b_sp b22) (b_sp b22) i c c) as (cs2 & Ecs2 & Hcs2);
        auto; try lia.
      rewrite Ecs2. cbn [bind]. unfold applyContributions.
      fold (contribStep L21 L21 D11).
      rewrite (contribFold (b_sp b21) (b_sp b21) i c L21 L21 D11 _ _ _ GC21 GC21 N21 N21)
        with (2 := Hcs1).
      2:{ intros q Hq. apply filter_In in Hq. destruct Hq as [_ Hq].
          apply andb_true_iff in Hq. destruct Hq as [_ Hq]. apply Nat.ltb_lt in Hq. lia. }
      cbn [bind]. fold (contribStep A A D22).
      rewrite (contribFold (b_sp b22) (b_sp b22) i c A A D22 _ _ _ GC22 GC22 H1 H1)
        with (2 := Hcs2).
      2:{ intros q Hq. apply filter_In in Hq. destruct Hq as [_ Hq].
          apply andb_true_iff in Hq. destruct Hq as [_ Hq]. apply Nat.ltb_lt in Hq. lia. }
      cbn [bind]. rewrite (rd_nth D22 c (o0 O)) by lia. cbn [bind].
      rewrite !fold_filter.
      rewrite (subf_ext O (initL O init22 b22 A i c) (cols (b_sp b21) i) _ _ (nzb (b_sp b21) c)
         (fun k => (get (b_sp b21) L21 i k * get (b_sp b21) L21 c k * getD O D11 k)%s)); auto.
      2:{ intros q Hq. replace (q <? _) with true; [apply andb_true_r|].
          symmetry. apply Nat.ltb_lt. apply cols_In in Hq. apply (wfc_bounds _ W21) in Hq. lia. }
      rewrite EI. fold (base c).
      assert (Hk : k < length A).
      { rewrite H1. eapply nth_error_nnz; eauto. }
      rewrite wr_ok by auto. cbn [bind]. eexists. split; [reflexivity|].
      set (v := (subf O (base c) _ _ _ / _)%s).
      assert (GU : forall r j, get (b_sp b22) (upd A k v) r j =
         if (r =? i) && (j =? c) then v else get (b_sp b22) A r j).
      { intros r j. apply getL_upd; auto. }
      assert (GUo : forall j, j <> c -> get (b_sp b22) (upd A k v) i j = get (b_sp b22) A i j).
      { intros j N. rewrite GU, Nat.eqb_refl. destruct (Nat.eqb_spec j c); [lia|auto]. }
      assert (GUr : forall r j, r <> i -> get (b_sp b22) (upd A k v) r j = get (b_sp b22) A r j).
      { intros r j N. rewrite GU. destruct (Nat.eqb_spec r i); [lia|auto]. }
      assert (GUc : get (b_sp b22) (upd A k v) i c = v).
      { rewrite GU, !Nat.eqb_refl. auto. }
      assert (Hpi : forall j, In j pre -> j < i) by (intros j Hj; apply Hpre in Hj; lia).
      cbn beta iota. rewrite upd_length. split; auto. split; [|split; [|split]].
      + intros j Hj. rewrite subf_snoc.
        assert (Nj : nzb (b_sp b22) j c = false).
        { apply nzb_false. intros Hx. apply I22, Low22 in Hx. apply in_app_or in Hj.
          destruct Hj as [Hj|[<-|[]]]; [apply Hpre in Hj; lia|lia]. }
        rewrite Nj.
        assert (Hji : j < i).
        { apply in_app_or in Hj. destruct Hj as [Hj|[<-|[]]]; auto. }
        assert (ES : forall t, subf O t pre (nzb (b_sp b22) j)
            (fun k0 => (get (b_sp b22) (upd A k v) i k0 * get (b_sp b22) (upd A k v) j k0 * getD O D22 k0)%s) =
            subf O t pre (nzb (b_sp b22) j)
            (fun k0 => (get (b_sp b22) A i k0 * get (b_sp b22) A j k0 * getD O D22 k0)%s)).
        { intros t. apply subf_ext; auto. intros q Hq _. rewrite GUo, GUr by (apply Hpre in Hq; lia).
          auto. }
        rewrite ES. apply in_app_or in Hj. destruct Hj as [Hj|[<-|[]]].
        * rewrite GUo by (apply Hpre in Hj; lia). apply H2; auto.
        * rewrite GUc. unfold v. fold (getD O D22 c). f_equal.
          rewrite Ec. unfold subf. rewrite fold_left_app.
          set (a0 := fold_left _ pre _).
          assert (Z : forall l x, (forall q, In q l -> c <= q) ->
            fold_left (fun a k0 => if nzb (b_sp b22) c k0 && (k0 <? c) then
              (a - get (b_sp b22) A i k0 * get (b_sp b22) A c k0 * getD O D22 k0)%s else a) l x = x).
          { clear. induction l as [|q l IH]; intros x Hl; cbn [fold_left]; auto.
            replace (q <? c) with false.
            - rewrite andb_false_r. apply IH. intros; apply Hl; right; auto.
            - symmetry. apply Nat.ltb_ge. apply Hl. left; auto. }
          rewrite Z.
          2:{ intros q [<-|Hq]; auto. apply Hpost in Hq. lia. }
          unfold a0. apply (subf_ext O). 2:auto.
          intros q Hq. replace (q <? c) with true; [apply andb_true_r|].
          symmetry. apply Nat.ltb_lt. apply Hpre in Hq. lia.
      + intros j Hj. rewrite GUo.
        * apply H3. intros Hx. apply Hj, in_or_app. auto.
        * intros ->. apply Hj, in_or_app. right; left; auto.
      + intros r j N. rewrite GUr; auto.
      + rewrite subf_snoc. rewrite GUc, H5. f_equal.
        apply subf_ext; auto. intros q Hq _. rewrite GUo by (apply Hpre in Hq; lia). auto.
    - exists L'. rewrite E, H5. auto.
  Qed.

  Lemma ewRow_ext c11 c21 c22 G11 D1 a21 a22 ad reg i G21 G22 D2 G22' D2' :
    (forall r c, In (r, c) (c_entries c22) -> c < r) ->
    (forall r j, r <= i -> G22 r j = G22' r j) ->
    (forall r, r <= i -> D2 r = D2' r) ->
    ewRow c11 c21 c22 G11 D1 a21 a22 ad reg i G21 G22 D2 ->
    ewRow c11 c21 c22 G11 D1 a21 a22 ad reg i G21 G22' D2'.
  Proof.
    intros Low E22 E2 [H1 H2 H3].
    assert (Lt : forall j, In j (cols c22 i) -> j < i) by (intros j Hj; apply cols_In in Hj; auto).
    constructor; auto.
    - intros j Hj. specialize (Lt j Hj) as Hji. rewrite <- E22, <- E2 by lia. rewrite H2 by auto.
      f_equal. apply subf_ext; auto. intros k Hk _. specialize (Lt k Hk).
      rewrite !E22, E2 by lia. auto.
    - rewrite <- E2 by lia. rewrite H3. f_equal. apply subf_ext; auto.
      intros k Hk _. specialize (Lt k Hk). rewrite E22, E2 by lia. auto.
  Qed.

  Lemma factorizeEntryWise_ok b11 b21 b22 n1 n2 R11 R21 R22 q1 p1 p2 sy1 L11 D11
      init21 init22 reg L21 L22 D22 :
    goodBlk b11 n1 n1 R11 q1 q1 sy1 -> goodBlk b21 n2 n1 R21 p2 p1 false ->
    goodBlk b22 n2 n2 R22 p2 p2 true ->
    (forall i j, R11 i j -> j < i) -> closedPattern R11 -> chord2 R11 R21 R22 ->
    coverRect init21 n2 n1 R21 p2 p1 -> coverSym init22 n2 R22 p2 ->
    readableI init21 -> readableI init22 ->
    length L11 = c_nnz (b_sp b11) -> length D11 = n1 ->
    length L21 = c_nnz (b_sp b21) -> length L22 = c_nnz (b_sp b22) -> length D22 = n2 ->
    exists L21' L22' D22',
      factorizeEntryWise O b11 b21 b22 L11 D11 init21 init22 reg (L21, L22, D22) =
        Ok (L21', L22', D22') /\
      length L21' = c_nnz (b_sp b21) /\ length L22' = c_nnz (b_sp b22) /\ length D22' = n2 /\
      forall i, i < n2 ->
        ewRow (b_sp b11) (b_sp b21) (b_sp b22) (get (b_sp b11) L11) (getD O D11)
          (initL O init21 b21 L21) (initL O init22 b22 L22) (initD O init22 b22 D22) reg i
          (get (b_sp b21) L21') (get (b_sp b22) L22') (getD O D22').
  Proof.
    intros G11 G21 G22 Low11 Cl11 CH V21 V22 Rd21 Rd22 N11 ND1 N21 N22 ND2.
    unfold factorizeEntryWise.
    rewrite (staticAsserts_ok b11 b21 b22 n1 n2 R11 R21 R22 q1 p1 p2 sy1); auto.
    cbn [bind]. pose proof CH as [C21 C22 Low22 Cl22].
    pose proof G21 as [W21 _ r21 c21 I21 pr21 pc21 _ P21 Q21].
    pose proof G22 as [W22 _ r22 c22 I22 pr22 pc22 _ P22 Q22].
    assert (Low22' : forall r c, In (r, c) (c_entries (b_sp b22)) -> c < r).
    { intros r c H. apply Low22, I22, H. }
    destruct (sub_ok b11 b21 n1 n2 R11 R21 q1 p1 p2 sy1 L11 D11 init21 L21)
      as (A & EA & NA & HA); auto.
    rewrite EA. cbn [bind]. unfold factorizeEntryWiseDiag.
    rewrite r22, r21, Nat.eqb_refl. cbn [static_assert bind].
    set (f := fun (st : list F * list F) i => _).
    set (P := fun i (st : list F * list F) => let '(B, D) := st in
      length B = c_nnz (b_sp b22) /\ length D = n2 /\
      (forall r j, i <= r -> get (b_sp b22) B r j = get (b_sp b22) L22 r j) /\
      (forall r, i <= r -> getD O D r = getD O D22 r) /\
      forall r, r < i ->
        ewRow (b_sp b11) (b_sp b21) (b_sp b22) (get (b_sp b11) L11) (getD O D11)
          (initL O init21 b21 L21) (initL O init22 b22 L22) (initD O init22 b22 D22) reg r
          (get (b_sp b21) A) (get (b_sp b22) B) (getD O D)).
    destruct (foldM_seq f P 0 n2 (L22, D22)) as ([B D] & E & HP).
    - unfold P. split; [auto|]. split; [auto|]. split; [auto|]. split; [auto|]. intros r Hr; lia.
    - intros i [B D] Hi (NB & ND & UB & UD & HR). unfold f.
      rewrite !(wf_rd_rb _ W22) by lia. cbn [bind].
      rewrite (initD_ok O init22 b22 n2 R22 p2 true) by (auto; lia). cbn [bind].
      rewrite (rowDiagonal_ok b21 n2 n1 R21 p2 p1 false) by (auto; lia). cbn [bind].
      fold (ewStep b21 b22 D11 A init22 D).
      set (d0 := subf _ _ _ _ _).
      destruct (row_ew b21 b22 n1 n2 R21 R22 p1 p2 D11 A init22 D i B d0)
        as (B' & EB & K1 & K2 & K3); auto; try lia.
      rewrite EB. cbn [bind]. set (di := reg _ i).
      rewrite wr_ok by lia. cbn [bind]. eexists. split; [reflexivity|].
      unfold P. split; [auto|]. split; [rewrite upd_length; auto|].
      assert (OD : forall r, r <> i -> getD O (upd D i di) r = getD O D r).
      { intros r N. unfold getD. rewrite nth_upd_neq; auto. }
      split; [intros r j Hr; rewrite K3 by lia; apply UB; lia|].
      split; [intros r Hr; rewrite OD by lia; apply UD; lia|].
      intros r Hr. destruct (Nat.eq_dec r i) as [->|N].
      2:{ eapply ewRow_ext; [exact Low22'| | |apply HR; lia]; intros; symmetry;
            [apply K3|apply OD]; lia. }
      assert (Lt : forall j, In j (cols (b_sp b22) i) -> j < i)
        by (intros j Hj; apply cols_In in Hj; auto).
      constructor.
      + intros j Hj. apply HA; auto. lia.
      + intros j Hj. pose proof (Lt j Hj) as Hji. rewrite OD by lia. rewrite K2 at 1 by auto.
        f_equal.
        assert (EI : initL O init22 b22 B i j = initL O init22 b22 L22 i j).
        { destruct init22; cbn [initL]; auto. }
        rewrite EI. apply subf_ext; auto. intros k Hk _. apply Lt in Hk. rewrite OD by lia. auto.
      + unfold getD at 1. rewrite nth_upd_eq by lia. unfold di at 1, d0. f_equal.
        assert (EI : initD O init22 b22 D i = initD O init22 b22 D22 i).
        { destruct init22; cbn [initD]; auto. }
        rewrite EI. apply subf_ext; auto. intros k Hk _. apply Lt in Hk. rewrite OD by lia. auto.
    - rewrite E. cbn [bind]. unfold P in HP. destruct HP as (NB & ND & _ & _ & HR).
      exists A, B, D. auto.
  Qed.
End Entry.
