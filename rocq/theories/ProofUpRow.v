(** One row of the up-looking factorization. No algebraic laws are used. *)
From Coq Require Import List Arith Lia Bool.
From Verif Require Import Base ModelPerm ModelSparsity ModelSymbolic ModelNumeric.
From Verif Require Import ProofBase ProofPerm ProofCsr ProofDense.
Import ListNotations.

Section UpRow.
  Context {F : Type} (O : ops F).
  Local Notation get := (getL O).
  Local Notation "a - b" := (osub O a b) : scalar.
  Local Notation "a * b" := (omul O a b) : scalar.
  Local Notation "a / b" := (odiv O a b) : scalar.

  (** contribution of one row to its diagonal value *)
  Definition dfold (d : F) (l : list nat) (s : nat -> F) (D : nat -> F) : F :=
    fold_left (fun d k => (d - s k * (s k / D k))%s) l d.

  Lemma dfold_snoc d l s D c :
    dfold d (l ++ [c]) s D = (dfold d l s D - s c * (s c / D c))%s.
  Proof. unfold dfold. rewrite fold_left_app. reflexivity. Qed.

  Lemma dfold_ext d l s s' D D' :
    (forall k, In k l -> s k = s' k /\ D k = D' k) ->
    dfold d l s D = dfold d l s' D'.
  Proof.
    unfold dfold. revert d. induction l as [|k l IH]; intros d H; [reflexivity|].
    cbn [fold_left]. destruct (H k) as [-> ->]; [left; auto|].
    apply IH. intros; apply H; right; auto.
  Qed.

  Definition left3step (b11 b21 b31 b32 b33 : blk) (L11 D11 L21 : list F)
      (st : list F * list F * list F * F) (k : nat) : res (list F * list F * list F * F) :=
    let '(L31, L32, L33, Di) := st in
    let* r := factorizeUpLookingInnerLeft3 O b11 b21 b31 b32 b33
                L11 D11 L21 k (L31, L32, L33) in
    let '(L31, L32, L33, c) := r in
    Ok (L31, L32, L33, (Di - c)%s).

  Record rowL3 (b11 b21 b31 b32 b33 : blk) (L11 D11 L21 : list F) (i : nat) : Prop := mkRowL3 {
    r_g11 : gcsr (b_sp b11); r_g21 : gcsr (b_sp b21); r_g31 : gcsr (b_sp b31);
    r_g32 : gcsr (b_sp b32); r_g33 : gcsr (b_sp b33);
    r_lim1 : c_cols (b_sp b31) <= c_rows (b_sp b11);
    r_lim2 : c_cols (b_sp b32) <= c_rows (b_sp b21);
    r_i : i < c_rows (b_sp b31);
    r_L11 : length L11 = c_nnz (b_sp b11);
    r_L21 : length L21 = c_nnz (b_sp b21);
    r_D11 : c_cols (b_sp b31) <= length D11;
    r_low11 : forall j c, In (j, c) (c_entries (b_sp b11)) -> c < j;
    r_low33 : forall j c, In (j, c) (c_entries (b_sp b33)) -> c < j;
    r_31 : forall j c, In (i, c) (c_entries (b_sp b31)) -> In (j, c) (c_entries (b_sp b11)) ->
             j < c_cols (b_sp b31) -> In (i, j) (c_entries (b_sp b31));
    r_32 : forall j c, In (i, c) (c_entries (b_sp b31)) -> In (j, c) (c_entries (b_sp b21)) ->
             j < c_cols (b_sp b32) -> In (i, j) (c_entries (b_sp b32));
    r_33 : forall j c, j < i -> In (i, c) (c_entries (b_sp b31)) ->
             In (j, c) (c_entries (b_sp b31)) -> In (i, j) (c_entries (b_sp b33)) }.

  (** what the loop over the left block of row i does *)
  Record left3post (b11 b21 b31 b32 b33 : blk) (L11 D11 L21 : list F) (i : nat)
      (L31 L32 L33 : list F) (Di : F) (l : list nat) (s : nat -> F)
      (L31' L32' L33' : list F) (Di' : F) : Prop := mkLeft3post {
    lp_n31 : length L31' = length L31;
    lp_n32 : length L32' = length L32;
    lp_n33 : length L33' = length L33;
    lp_s : forall j, In j l ->
      s j = subf O (get (b_sp b31) L31 i j) l (nzb (b_sp b11) j)
              (fun k => (get (b_sp b11) L11 j k * s k)%s) /\
      get (b_sp b31) L31' i j = (s j / getD O D11 j)%s;
    lp_rest : forall j, In (i, j) (c_entries (b_sp b31)) -> ~ In j l ->
      get (b_sp b31) L31' i j =
      subf O (get (b_sp b31) L31 i j) l (nzb (b_sp b11) j)
              (fun k => (get (b_sp b11) L11 j k * s k)%s);
    lp_o31 : forall r j, r <> i -> get (b_sp b31) L31' r j = get (b_sp b31) L31 r j;
    lp_32 : forall j, In (i, j) (c_entries (b_sp b32)) ->
      get (b_sp b32) L32' i j =
      subf O (get (b_sp b32) L32 i j) l (nzb (b_sp b21) j)
              (fun k => (get (b_sp b21) L21 j k * s k)%s);
    lp_o32 : forall r j, r <> i -> get (b_sp b32) L32' r j = get (b_sp b32) L32 r j;
    lp_33 : forall j, In (i, j) (c_entries (b_sp b33)) ->
      get (b_sp b33) L33' i j =
      subf O (get (b_sp b33) L33 i j) l (nzb (b_sp b31) j)
              (fun k => (get (b_sp b31) L31 j k * s k)%s);
    lp_o33 : forall r j, r <> i -> get (b_sp b33) L33' r j = get (b_sp b33) L33 r j;
    lp_D : Di' = dfold Di l s (getD O D11) }.

  Lemma get_other c L L' (i : nat) :
    (forall r j, In (r, j) (c_entries c) -> r <> i -> get c L' r j = get c L r j) ->
    forall r j, r <> i -> get c L' r j = get c L r j.
  Proof.
    intros H r j N. destruct (nzb c r j) eqn:E.
    - apply nzb_In in E. auto.
    - apply nzb_false in E. rewrite !getL_out; auto.
  Qed.

  Lemma row_left3 b11 b21 b31 b32 b33 L11 D11 L21 i L31 L32 L33 Di :
    rowL3 b11 b21 b31 b32 b33 L11 D11 L21 i ->
    length L31 = c_nnz (b_sp b31) -> length L32 = c_nnz (b_sp b32) ->
    length L33 = c_nnz (b_sp b33) ->
    exists s L31' L32' L33' Di',
      foldM (left3step b11 b21 b31 b32 b33 L11 D11 L21)
        (irange (offs (c_entries (b_sp b31)) i) (offs (c_entries (b_sp b31)) (i + 1)))
        (L31, L32, L33, Di) = Ok (L31', L32', L33', Di') /\
      left3post b11 b21 b31 b32 b33 L11 D11 L21 i L31 L32 L33 Di
        (cols (b_sp b31) i) s L31' L32' L33' Di'.
  Proof.
    intros R N31 N32 N33. pose proof R as
      [G11 G21 G31 G32 G33 Hl1 Hl2 Hi HL11 HL21 HD Low11 Low33 C31 C32 C33].
    destruct (row_fold (b_sp b31) (left3step b11 b21 b31 b32 b33 L11 D11 L21)
      (fun pre (st : list F * list F * list F * F) => exists s,
         let '(A, B, C, d) := st in
         left3post b11 b21 b31 b32 b33 L11 D11 L21 i L31 L32 L33 Di pre s A B C d)
      i (L31, L32, L33, Di) G31 Hi) as ([[[A B] C] d] & E & s & H).
    - exists (fun _ => o0 O). constructor; auto; try (intros j []).
    - intros pre c post k [[[A B] C] d] Ec Ek Hc Hpre Hpost (s & H).
      destruct H as [P1 P2 P3 P4 P5 P6 P7 P8 P9 P10 P11].
      assert (Hcin : In (i, c) (c_entries (b_sp b31))) by (eapply nth_error_In; eauto).
      assert (Hcn : ~ In c pre) by (intros Hx; apply Hpre in Hx; lia).
      unfold left3step, factorizeUpLookingInnerLeft3.
      rewrite (proj2 (rd_ok _ _ _) Ek). cbn [bind].
      rewrite (rd_at O (b_sp b31) A i c k) by (auto; lia). cbn [bind].
      set (sc := get (b_sp b31) A i c).
      assert (Esc : sc = subf O (get (b_sp b31) L31 i c) pre (nzb (b_sp b11) c)
                (fun k => (get (b_sp b11) L11 c k * s k)%s)) by (apply P5; auto).
      set (s' := fun j => if j =? c then sc else s j).
      assert (Es'c : s' c = sc) by (unfold s'; rewrite Nat.eqb_refl; auto).
      assert (Es'p : forall j, In j pre -> s' j = s j).
      { intros j Hj. unfold s'. destruct (Nat.eqb_spec j c); auto. subst. contradiction. }
      assert (Sub : forall a nz G, subf O a (pre ++ [c]) nz (fun k => (G k * s' k)%s) =
        if nz c then (subf O a pre nz (fun k => (G k * s k)%s) - G c * sc)%s
        else subf O a pre nz (fun k => (G k * s k)%s)).
      { intros a nz G. rewrite subf_snoc, Es'c.
        rewrite (subf_ext O a pre nz (fun k => (G k * s' k)%s) nz (fun k => (G k * s k)%s));
          auto. intros q Hq _. rewrite Es'p; auto. }
      (* block 31 *)
      destruct (influence_ok O (b_sp b11) (b_sp b31) i c (c_cols (b_sp b31)) (Some L11) sc L11 A)
        as (lst1 & A' & E1 & E1' & NA & GA); auto; try lia.
      { intros j Hj Hin. eapply C31; eauto. }
      unfold getInfluencedList, getInfluencedListLowerTriangle.
      rewrite E1. cbn [bind]. rewrite E1'. cbn [bind].
      (* block 32 *)
      destruct (influence_ok O (b_sp b21) (b_sp b32) i c (c_cols (b_sp b32)) (Some L21) sc L21 B)
        as (lst2 & B' & E2 & E2' & NB & GB); auto; try lia.
      { intros j Hj Hin. eapply C32; eauto. }
      rewrite E2. cbn [bind]. rewrite E2'. cbn [bind].
      (* block 33 *)
      destruct (influence_ok O (b_sp b31) (b_sp b33) i c i (Some A') sc A' C)
        as (lst3 & C' & E3 & E3' & NC & GC); auto; try lia.
      { intros j Hj Hin. eapply C33; eauto. }
      rewrite E3. cbn [bind]. rewrite E3'. cbn [bind].
      assert (Hk : k < length A').
      { rewrite NA, P1, N31. eapply nth_error_nnz; eauto. }
      rewrite (rd_nth D11 c (o0 O)) by lia. cbn [bind].
      rewrite wr_ok by auto. cbn [bind].
      eexists. split; [reflexivity|]. exists s'.
      assert (OA : forall r j, r <> i -> get (b_sp b31) A' r j = get (b_sp b31) A r j).
      { apply get_other. intros r j Hin N. rewrite GA by auto.
        destruct (Nat.eqb_spec r i); [lia|]. reflexivity. }
      assert (HA : forall j, In (i, j) (c_entries (b_sp b31)) ->
         get (b_sp b31) A' i j = if nzb (b_sp b11) j c
           then (get (b_sp b31) A i j - get (b_sp b11) L11 j c * sc)%s
           else get (b_sp b31) A i j).
      { intros j Hin. rewrite GA by auto. rewrite Nat.eqb_refl.
        apply (wfc_bounds _ (proj1 G31)) in Hin.
        assert (Hlt : (j <? c_cols (b_sp b31)) = true) by (apply Nat.ltb_lt; lia).
        rewrite Hlt. reflexivity. }
      assert (GU : forall r j, get (b_sp b31) (upd A' k (sc / nth c D11 (o0 O))%s) r j =
         if (r =? i) && (j =? c) then (sc / nth c D11 (o0 O))%s else get (b_sp b31) A' r j).
      { intros r j. apply getL_upd; auto. lia. }
      constructor.
      + rewrite upd_length. lia.
      + lia.
      + lia.
      + intros j Hj. rewrite GU, Nat.eqb_refl. cbn [andb]. rewrite Sub.
        apply in_app_or in Hj. destruct Hj as [Hj|[<-|[]]].
        * assert (Nj : nzb (b_sp b11) j c = false).
          { apply nzb_false. intros Hx. apply Low11 in Hx. apply Hpre in Hj. lia. }
          rewrite Nj, Es'p by auto. destruct (P4 j Hj) as [P4a P4b]. split; auto.
          destruct (Nat.eqb_spec j c); [subst; contradiction|].
          assert (Hij : In (i, j) (c_entries (b_sp b31))).
          { apply cols_In. rewrite Ec. apply in_or_app. auto. }
          rewrite HA, Nj; auto.
        * assert (Nj : nzb (b_sp b11) c c = false).
          { apply nzb_false. intros Hx. apply Low11 in Hx. lia. }
          rewrite Nj, Nat.eqb_refl, Es'c. split; auto.
      + intros j Hij Hj. rewrite GU, Nat.eqb_refl, Sub. cbn [andb].
        destruct (Nat.eqb_spec j c) as [->|Nc].
        { exfalso. apply Hj, in_or_app. right; left; auto. }
        rewrite HA by auto.
        rewrite P5 by (auto; intros Hx; apply Hj, in_or_app; auto). auto.
      + intros r j N. rewrite GU. destruct (Nat.eqb_spec r i); [lia|]. cbn [andb].
        rewrite OA, P6; auto.
      + intros j Hij. rewrite Sub, GB by auto. rewrite Nat.eqb_refl.
        pose proof (wfc_bounds _ (proj1 G32) _ _ Hij) as Hb.
        assert (Hlt : (j <? c_cols (b_sp b32)) = true) by (apply Nat.ltb_lt; lia).
        rewrite Hlt. cbn [andb]. rewrite P7 by auto. auto.
      + intros r j N. rewrite <- P8 by auto. revert r j N. apply get_other.
        intros r j Hin N. rewrite GB by auto. destruct (Nat.eqb_spec r i); [lia|]. reflexivity.
      + intros j Hij. rewrite Sub, GC by auto. rewrite Nat.eqb_refl.
        pose proof (Low33 _ _ Hij) as Hji.
        assert (Hlt : (j <? i) = true) by (apply Nat.ltb_lt; lia).
        rewrite Hlt. cbn [andb]. rewrite P9 by auto.
        rewrite OA, P6 by lia. auto.
      + intros r j N. rewrite <- P10 by auto. revert r j N. apply get_other.
        intros r j Hin N. rewrite GC by auto. destruct (Nat.eqb_spec r i); [lia|]. reflexivity.
      + rewrite dfold_snoc, Es'c.
        rewrite (dfold_ext Di pre s' s _ (getD O D11)) by (intros; rewrite Es'p; auto).
        rewrite P11. reflexivity.
    - exists s, A, B, C, d. auto.
  Qed.

  (** The 2 block variant is the 3 block variant with an empty middle block. *)
  Definition noCols (n : nat) : blk := mkBlk (emptyCSR n 0) [] [] false.

  Lemma emptyCSR_wf nr nc : gcsr (emptyCSR nr nc).
  Proof.
    assert (E : forall i, rowf (c_entries (emptyCSR nr nc)) i = []) by reflexivity.
    split.
    - constructor; cbn.
      + intros r c [].
      + induction (seq 0 nr); auto.
      + assert (Z : forall a, offs [] a = 0).
        { intros a. induction a as [|a IH]; [reflexivity|]. rewrite offs_S, IH. reflexivity. }
        generalize (nr + 1). intros m. generalize 0 at 2. revert m.
        induction m as [|m IH]; intros a; cbn [repeat seq map]; auto.
        rewrite Z. f_equal. apply IH.
    - intros i. rewrite E. constructor.
  Qed.

  Lemma left2_left3 b11 b21 b22 L11 D11 k L21 L22 n :
    factorizeUpLookingInnerLeft2 O b11 b21 b22 L11 D11 k (L21, L22) =
    let* r := factorizeUpLookingInnerLeft3 O b11 b11 b21 (noCols n) b22 L11 D11 L11 k
                (L21, [], L22) in
    let '(L21, _, L22, c) := r in Ok (L21, L22, c).
  Proof.
    unfold factorizeUpLookingInnerLeft2, factorizeUpLookingInnerLeft3.
    destruct (rd (c_entries (b_sp b21)) k) as [[i j]|e]; cbn [bind]; auto.
    destruct (rd L21 k) as [sc|e]; cbn [bind]; auto.
    destruct (getInfluencedList i j (b_sp b11) (b_sp b21)) as [l|e]; cbn [bind]; auto.
    destruct (applyInfluenced O (Some L11) sc l L21) as [A|e]; cbn [bind]; auto.
    change (getInfluencedList i j (b_sp b11) (b_sp (noCols n))) with (Ok (@nil influenced)).
    cbn [bind]. change (applyInfluenced O (Some L11) sc [] []) with (Ok (@nil F)).
    cbn [bind].
    destruct (getInfluencedListLowerTriangle i j (b_sp b21) (b_sp b22)) as [l'|e]; cbn [bind]; auto.
    destruct (applyInfluenced O (Some A) sc l' L22) as [C|e]; cbn [bind]; auto.
    destruct (rd D11 j) as [dj|e]; cbn [bind]; auto.
    destruct (wr A k (sc / dj)%s) as [A'|e]; cbn [bind]; auto.
  Qed.

  Definition left2step (b11 b21 b22 : blk) (L11 D11 : list F)
      (st : list F * list F * F) (k : nat) : res (list F * list F * F) :=
    let '(L21, L22, Di) := st in
    let* r := factorizeUpLookingInnerLeft2 O b11 b21 b22 L11 D11 k (L21, L22) in
    let '(L21, L22, c) := r in
    Ok (L21, L22, (Di - c)%s).

  Lemma left3_noCols b11 b21 b22 L11 D11 n k L21 L22 A B C d :
    factorizeUpLookingInnerLeft3 O b11 b11 b21 (noCols n) b22 L11 D11 L11 k (L21, [], L22)
      = Ok (A, B, C, d) -> B = [].
  Proof.
    unfold factorizeUpLookingInnerLeft3. intros E.
    apply bind_inv in E. destruct E as ([i j] & _ & E).
    apply bind_inv in E. destruct E as (sc & _ & E).
    apply bind_inv in E. destruct E as (l1 & _ & E).
    apply bind_inv in E. destruct E as (A1 & _ & E).
    apply bind_inv in E. destruct E as (l2 & E2 & E).
    change (Ok (@nil influenced) = Ok l2) in E2.
    injection E2 as <-.
    apply bind_inv in E. destruct E as (B1 & E3 & E).
    unfold applyInfluenced in E3. cbn [foldM] in E3. injection E3 as <-.
    apply bind_inv in E. destruct E as (l3 & _ & E).
    apply bind_inv in E. destruct E as (C1 & _ & E).
    apply bind_inv in E. destruct E as (dj & _ & E).
    apply bind_inv in E. destruct E as (A2 & _ & E). congruence.
  Qed.

  Lemma fold_left2 b11 b21 b22 L11 D11 n l L21 L22 Di :
    foldM (left2step b11 b21 b22 L11 D11) l (L21, L22, Di) =
    let* r := foldM (left3step b11 b11 b21 (noCols n) b22 L11 D11 L11) l (L21, [], L22, Di) in
    let '(L21, _, L22, d) := r in Ok (L21, L22, d).
  Proof.
    revert L21 L22 Di. induction l as [|k l IH]; intros L21 L22 Di; [reflexivity|].
    cbn [foldM]. cbn [left2step left3step]. rewrite (left2_left3 _ _ _ _ _ _ _ _ n).
    destruct (factorizeUpLookingInnerLeft3 O b11 b11 b21 (noCols n) b22 L11 D11 L11 k (L21, [], L22))
      as [[[[A B] C] d]|e] eqn:E; cbn [bind]; auto.
    apply left3_noCols in E. subst B. apply IH.
  Qed.

  (** ** the block itself *)

  Definition selfstep (b : blk) (D : list F) (st : list F * F) (k : nat) : res (list F * F) :=
    let (L22, Di) := st in
    let* r := factorizeUpLookingInnerSelf O b D k L22 in
    let (L22, c) := (r : list F * F) in
    Ok (L22, (Di - c)%s).

  Record selfpost (b : blk) (D : list F) (i : nat) (L : list F) (Di : F) (l : list nat)
      (s : nat -> F) (L' : list F) (Di' : F) : Prop := mkSelfpost {
    sp_n : length L' = length L;
    sp_s : forall j, In j l ->
      s j = subf O (get (b_sp b) L i j) l (nzb (b_sp b) j)
              (fun k => (get (b_sp b) L j k * s k)%s) /\
      get (b_sp b) L' i j = (s j / getD O D j)%s;
    sp_rest : forall j, In (i, j) (c_entries (b_sp b)) -> ~ In j l ->
      get (b_sp b) L' i j =
      subf O (get (b_sp b) L i j) l (nzb (b_sp b) j)
              (fun k => (get (b_sp b) L j k * s k)%s);
    sp_o : forall r j, r <> i -> get (b_sp b) L' r j = get (b_sp b) L r j;
    sp_D : Di' = dfold Di l s (getD O D) }.

  Lemma row_self b D i L Di :
    gcsr (b_sp b) -> i < c_rows (b_sp b) -> i <= length D ->
    length L = c_nnz (b_sp b) ->
    (forall j c, In (j, c) (c_entries (b_sp b)) -> c < j) ->
    (forall j c, j < i -> In (i, c) (c_entries (b_sp b)) -> In (j, c) (c_entries (b_sp b)) ->
       In (i, j) (c_entries (b_sp b))) ->
    exists s L' Di',
      foldM (selfstep b D)
        (irange (offs (c_entries (b_sp b)) i) (offs (c_entries (b_sp b)) (i + 1)))
        (L, Di) = Ok (L', Di') /\
      selfpost b D i L Di (cols (b_sp b) i) s L' Di'.
  Proof.
    intros G Hi HD NL Low Cl.
    destruct (row_fold (b_sp b) (selfstep b D)
      (fun pre (st : list F * F) => exists s, selfpost b D i L Di pre s (fst st) (snd st))
      i (L, Di) G Hi) as ([A d] & E & s & H).
    - exists (fun _ => o0 O). constructor; auto; try (intros j []).
    - intros pre c post k [A d] Ec Ek Hc Hpre Hpost (s & H). cbn [fst snd] in H.
      destruct H as [P1 P4 P5 P6 P11].
      assert (Hcin : In (i, c) (c_entries (b_sp b))) by (eapply nth_error_In; eauto).
      pose proof (Low _ _ Hcin) as Hci.
      assert (Hcn : ~ In c pre) by (intros Hx; apply Hpre in Hx; lia).
      unfold selfstep, factorizeUpLookingInnerSelf.
      rewrite (proj2 (rd_ok _ _ _) Ek). cbn [bind].
      rewrite (rd_at O (b_sp b) A i c k) by (auto; lia). cbn [bind].
      set (sc := get (b_sp b) A i c).
      assert (Esc : sc = subf O (get (b_sp b) L i c) pre (nzb (b_sp b) c)
                (fun k => (get (b_sp b) L c k * s k)%s)) by (apply P5; auto).
      set (s' := fun j => if j =? c then sc else s j).
      assert (Es'c : s' c = sc) by (unfold s'; rewrite Nat.eqb_refl; auto).
      assert (Es'p : forall j, In j pre -> s' j = s j).
      { intros j Hj. unfold s'. destruct (Nat.eqb_spec j c); auto. subst. contradiction. }
      assert (Sub : forall a nz G, subf O a (pre ++ [c]) nz (fun k => (G k * s' k)%s) =
        if nz c then (subf O a pre nz (fun k => (G k * s k)%s) - G c * sc)%s
        else subf O a pre nz (fun k => (G k * s k)%s)).
      { intros a nz G'. rewrite subf_snoc, Es'c.
        rewrite (subf_ext O a pre nz (fun k => (G' k * s' k)%s) nz (fun k => (G' k * s k)%s));
          auto. intros q Hq _. rewrite Es'p; auto. }
      destruct (influence_ok O (b_sp b) (b_sp b) i c i None sc A A)
        as (lst1 & A' & E1 & E1' & NA & GA); auto; try lia.
      { intros j Hj Hin. eapply Cl; eauto. }
      unfold getInfluencedListLowerTriangle.
      rewrite E1. cbn [bind]. rewrite E1'. cbn [bind].
      assert (Hk : k < length A').
      { rewrite NA, P1, NL. eapply nth_error_nnz; eauto. }
      rewrite (rd_nth D c (o0 O)) by lia. cbn [bind].
      rewrite wr_ok by auto. cbn [bind].
      eexists. split; [reflexivity|]. exists s'. cbn [fst snd].
      assert (OA : forall r j, r <> i -> get (b_sp b) A' r j = get (b_sp b) A r j).
      { apply get_other. intros r j Hin N. rewrite GA by auto.
        destruct (Nat.eqb_spec r i); [lia|]. reflexivity. }
      assert (HA : forall j, In (i, j) (c_entries (b_sp b)) ->
         get (b_sp b) A' i j = if nzb (b_sp b) j c
           then (get (b_sp b) A i j - get (b_sp b) L j c * sc)%s
           else get (b_sp b) A i j).
      { intros j Hin. rewrite GA by auto. rewrite Nat.eqb_refl.
        apply Low in Hin.
        assert (Hlt : (j <? i) = true) by (apply Nat.ltb_lt; lia).
        rewrite Hlt. cbn [andb]. rewrite (P6 j c) by lia. reflexivity. }
      assert (GU : forall r j, get (b_sp b) (upd A' k (sc / nth c D (o0 O))%s) r j =
         if (r =? i) && (j =? c) then (sc / nth c D (o0 O))%s else get (b_sp b) A' r j).
      { intros r j. apply getL_upd; auto. lia. }
      constructor.
      + rewrite upd_length. lia.
      + intros j Hj. rewrite GU, Nat.eqb_refl. cbn [andb]. rewrite Sub.
        apply in_app_or in Hj. destruct Hj as [Hj|[<-|[]]].
        * assert (Nj : nzb (b_sp b) j c = false).
          { apply nzb_false. intros Hx. apply Low in Hx. apply Hpre in Hj. lia. }
          rewrite Nj, Es'p by auto. destruct (P4 j Hj) as [P4a P4b]. split; auto.
          destruct (Nat.eqb_spec j c); [subst; contradiction|].
          assert (Hij : In (i, j) (c_entries (b_sp b))).
          { apply cols_In. rewrite Ec. apply in_or_app. auto. }
          rewrite HA, Nj; auto.
        * assert (Nj : nzb (b_sp b) c c = false).
          { apply nzb_false. intros Hx. apply Low in Hx. lia. }
          rewrite Nj, Nat.eqb_refl, Es'c. split; auto.
      + intros j Hij Hj. rewrite GU, Nat.eqb_refl, Sub. cbn [andb].
        destruct (Nat.eqb_spec j c) as [->|Nc].
        { exfalso. apply Hj, in_or_app. right; left; auto. }
        rewrite HA by auto.
        rewrite P5 by (auto; intros Hx; apply Hj, in_or_app; auto). auto.
      + intros r j N. rewrite GU. destruct (Nat.eqb_spec r i); [lia|]. cbn [andb].
        rewrite OA, P6; auto.
      + rewrite dfold_snoc, Es'c.
        rewrite (dfold_ext Di pre s' s _ (getD O D)) by (intros; rewrite Es'p; auto).
        rewrite P11. reflexivity.
    - exists s, A, d. auto.
  Qed.
End UpRow.
