(** Where the matrix market reader stores entries. *)
From Coq Require Import String Ascii List Arith Lia Bool Permutation.
From Verif Require Import Base ModelPerm ModelSparsity ModelSymbolic ModelNumeric ModelArrow ModelMtx.
From Verif Require Import SpecSymbolic SpecArrow SpecNumeric SpecArrowNum SpecMtx.
From Verif Require Import ProofBase ProofPerm ProofCsr ProofSparsity ProofArrowSym ProofArrowProduct
  ProofPropSymbolic ProofSingle ProofMtx.
Import ListNotations.
Local Open Scope nat_scope.
Local Open Scope list_scope.

(** ** row numbers *)

Section Pos.
  Context (n ds dt dl dO : nat).
  Local Notation pos := (posOf n ds dt dl).
  Local Notation all := (allIdx n ds dt dl dO).
  Definition total : nat := ds + (n + 1) * dt + dl + dO.

  Lemma blk_lt t i : t < n + 1 -> i < dt -> t * dt + i < (n + 1) * dt.
  Proof.
    intros H1 H2. assert (H : S t * dt <= (n + 1) * dt) by (apply Nat.mul_le_mono_r; lia).
    cbn [Nat.mul] in H. lia.
  Qed.

  Lemma pos_lt g : In g all -> pos g < total.
  Proof.
    intros H. apply in_allIdx in H. unfold total. destruct g as [i|t i|i|i]; cbn [posOf]; try lia.
    pose proof (blk_lt t i (proj1 H) (proj2 H)). lia.
  Qed.

  Lemma div_blk t i : i < dt -> (t * dt + i) / dt = t.
  Proof.
    intros H. rewrite (Nat.add_comm (t * dt) i), Nat.div_add by lia. rewrite Nat.div_small by lia. lia.
  Qed.
  Lemma mod_blk t i : i < dt -> (t * dt + i) mod dt = i.
  Proof.
    intros H. rewrite (Nat.add_comm (t * dt) i), Nat.mod_add by lia. apply Nat.mod_small; lia.
  Qed.

  Lemma pos_inj g h : In g all -> In h all -> pos g = pos h -> g = h.
  Proof.
    intros Hg Hh. apply in_allIdx in Hg. apply in_allIdx in Hh.
    destruct g as [i|t i|i|i], h as [j|u j|j|j]; cbn [posOf]; intros E;
      try (pose proof (blk_lt t i (proj1 Hg) (proj2 Hg)));
      try (pose proof (blk_lt u j (proj1 Hh) (proj2 Hh)));
      try (f_equal; lia); try lia.
    assert (E' : t * dt + i = u * dt + j) by lia.
    pose proof (div_blk t i (proj2 Hg)) as A. pose proof (div_blk u j (proj2 Hh)) as B.
    pose proof (mod_blk t i (proj2 Hg)) as C. pose proof (mod_blk u j (proj2 Hh)) as D.
    rewrite E' in A, C. f_equal; lia.
  Qed.

  Lemma pos_surj r : 0 < dt -> r < total -> exists g, In g all /\ pos g = r.
  Proof.
    unfold total. intros Hd H.
    destruct (le_lt_dec ds r) as [H1|H1].
    2:{ exists (GS r). split; [apply in_allIdx; auto|auto]. }
    destruct (le_lt_dec (ds + (n + 1) * dt) r) as [H2|H2].
    2:{ exists (GT ((r - ds) / dt) ((r - ds) mod dt)). split.
        - apply in_allIdx. split; [|apply Nat.mod_upper_bound; lia].
          apply Nat.div_lt_upper_bound; lia.
        - cbn [posOf]. pose proof (Nat.div_mod (r - ds) dt ltac:(lia)). lia. }
    destruct (le_lt_dec (ds + (n + 1) * dt + dl) r) as [H3|H3].
    - exists (GO (r - (ds + (n + 1) * dt + dl))). split; [apply in_allIdx; lia|cbn [posOf]; lia].
    - exists (GL (r - (ds + (n + 1) * dt))). split; [apply in_allIdx; lia|cbn [posOf]; lia].
  Qed.
End Pos.

(** ** the blocks *)

Inductive blk := Bsd | Bsn | Bso | Btd (t : nat) | Bts (t : nat) | Blp | Bld | Bln
| Bos (t : nat) | Bod.

Definition blk_eq_dec (a b : blk) : {a = b} + {a <> b}.
Proof. decide equality; apply Nat.eq_dec. Defined.

Definition okB (n : nat) (k : blk) : Prop :=
  match k with Btd t | Bos t => t < n + 1 | Bts t => t < n | _ => True end.

Definition spB (s : arrow_sp) (k : blk) : sparsity :=
  match k with
  | Bsd => ss_diag (as_start s) | Bsn => ss_next (as_start s) | Bso => ss_outer (as_start s)
  | Btd _ => st_diag (as_tri s) | Bts _ => st_subdiag (as_tri s)
  | Blp => sl_prev (as_link s) | Bld => sl_diag (as_link s) | Bln => sl_next (as_link s)
  | Bos _ => so_subdiag (as_outer s) | Bod => so_diag (as_outer s)
  end.

Definition dimB (ds dt dl dO : nat) (k : blk) : nat * nat :=
  match k with
  | Bsd => (ds, ds) | Bsn => (dt, ds) | Bso => (dO, ds)
  | Btd _ => (dt, dt) | Bts _ => (dt, dt)
  | Blp => (dl, dt) | Bld => (dl, dl) | Bln => (dO, dl)
  | Bos _ => (dO, dt) | Bod => (dO, dO)
  end.

Lemma spB_dims s ds dt dl dO k : arrowDims s ds dt dl dO ->
  spOf (spB s k) (fst (dimB ds dt dl dO k)) (snd (dimB ds dt dl dO k)).
Proof. intros []. destruct k; cbn [spB dimB fst snd]; assumption. Qed.

(** the block of a position of the lower triangle *)
Definition blkOf (n : nat) (g h : gidx) : option blk :=
  match g, h with
  | GS _, GS _ => Some Bsd
  | GT t _, GS _ => if t =? 0 then Some Bsn else None
  | GO _, GS _ => Some Bso
  | GT t _, GT u _ => if t =? u then Some (Btd t) else if t =? u + 1 then Some (Bts u) else None
  | GL _, GT t _ => if t =? n then Some Blp else None
  | GO _, GT t _ => Some (Bos t)
  | GL _, GL _ => Some Bld
  | GO _, GL _ => Some Bln
  | GO _, GO _ => Some Bod
  | _, _ => None
  end.

(** where the reader stores an entry of the lower triangle *)
Definition placeOf (n dt : nat) (g h : gidx) : option (blk * nat * nat) :=
  match g, h with
  | GS i, GS j => Some (Bsd, i, j)
  | GT t i, GS j => Some (Bsn, t * dt + i, j)
  | GL i, GS j => Some (Bsn, (n + 1) * dt + i, j)
  | GO i, GS j => Some (Bso, i, j)
  | GT t i, GT u j => Some (if t =? u then Btd u else Bts u, i, j)
  | GL i, GT t j => if t =? n then Some (Blp, i, j) else None
  | GO i, GT t j => Some (Bos t, i mod dt, j)
  | GL i, GL j => Some (Bld, i, j)
  | GO i, GL j => Some (Bln, i, j)
  | GO i, GO j => Some (Bod, i, j)
  | _, _ => None
  end.

Lemma blkOf_ok n ds dt dl dO g h k : In g (allIdx n ds dt dl dO) -> In h (allIdx n ds dt dl dO) ->
  blkOf n g h = Some k ->
  okB n k /\ localIdx g < fst (dimB ds dt dl dO k) /\ localIdx h < snd (dimB ds dt dl dO k).
Proof.
  intros Hg Hh. apply in_allIdx in Hg. apply in_allIdx in Hh.
  destruct g as [i|t i|i|i], h as [j|u j|j|j]; cbn [blkOf localIdx]; intros E; try discriminate;
    repeat match type of E with context [?a =? ?b] => destruct (Nat.eqb_spec a b); try discriminate end;
    injection E as <-; cbn [okB dimB fst snd]; lia.
Qed.

(** positions in lower triangles *)
Lemma order_of n ds dt dl dO g h : In g (allIdx n ds dt dl dO) -> In h (allIdx n ds dt dl dO) ->
  posOf n ds dt dl h <= posOf n ds dt dl g <-> g = h \/ gbefore h g.
Proof.
  intros Hg Hh. split.
  - intros H. destruct (Nat.eq_dec (posOf n ds dt dl g) (posOf n ds dt dl h)) as [E|N].
    { left. eapply pos_inj; eauto. }
    right. apply in_allIdx in Hg. apply in_allIdx in Hh.
    destruct g as [i|t i|i|i], h as [j|u j|j|j]; cbn [gbefore posOf] in *; auto; try lia;
      try (pose proof (blk_lt n dt t i (proj1 Hg) (proj2 Hg)));
      try (pose proof (blk_lt n dt u j (proj1 Hh) (proj2 Hh))); try lia.
    destruct (lt_eq_lt_dec t u) as [[L|E]|G]; [|subst; lia|lia].
    exfalso. assert (S t * dt <= u * dt) by (apply Nat.mul_le_mono_r; lia). cbn [Nat.mul] in *. lia.
  - intros [->|H]; [lia|]. apply in_allIdx in Hg. apply in_allIdx in Hh.
    destruct g as [i|t i|i|i], h as [j|u j|j|j]; cbn [gbefore posOf] in *; try tauto; try lia;
      try (pose proof (blk_lt n dt t i (proj1 Hg) (proj2 Hg)));
      try (pose proof (blk_lt n dt u j (proj1 Hh) (proj2 Hh))); try lia.
    destruct H as [H|[-> H]]; [|lia].
    assert (S u * dt <= t * dt) by (apply Nat.mul_le_mono_r; lia). cbn [Nat.mul] in *. lia.
Qed.

Lemma declaredAt_iff s n ds dt dl dO g h :
  In g (allIdx n ds dt dl dO) -> In h (allIdx n ds dt dl dO) ->
  (declaredAt s n g h <->
   posOf n ds dt dl h <= posOf n ds dt dl g /\
   exists k, blkOf n g h = Some k /\ In (localIdx g, localIdx h) (entries (spB s k))).
Proof.
  intros Hg Hh. rewrite (order_of n ds dt dl dO) by auto.
  apply in_allIdx in Hg. apply in_allIdx in Hh.
  destruct g as [i|t i|i|i], h as [j|u j|j|j]; cbn [declaredAt gbefore blkOf localIdx];
    try (split; [tauto|intros [[?|?] (k & E & ?)]; discriminate || tauto]; fail).
  - split.
    + intros [H1 H2]. split; [|exists Bsd; auto].
      destruct (Nat.eq_dec i j) as [->|N]; auto. right. lia.
    + intros [H (k & E & H2)]. injection E as <-. split; auto.
      destruct H as [H|H]; [injection H as ->|]; lia.
  - split.
    + intros [-> H]. split; auto. exists Bsn. auto.
    + intros [H (k & E & H2)]. destruct (Nat.eqb_spec t 0); [|discriminate]. injection E as <-. auto.
  - split.
    + intros [(-> & H1 & H2)|[-> H2]].
      * split; [|exists (Btd u); rewrite Nat.eqb_refl; auto].
        destruct (Nat.eq_dec i j) as [->|N]; auto. right. right. lia.
      * split; [right; lia|]. exists (Bts u).
        destruct (Nat.eqb_spec (u + 1) u); [lia|]. rewrite Nat.eqb_refl. auto.
    + intros [H (k & E & H2)]. destruct (Nat.eqb_spec t u) as [->|N].
      * injection E as <-. left. split; auto. split; auto.
        destruct H as [H|H]; [injection H as ->|]; lia.
      * destruct (Nat.eqb_spec t (u + 1)) as [->|]; [|discriminate]. injection E as <-. auto.
  - split.
    + intros [-> H]. split; auto. exists Blp. rewrite Nat.eqb_refl. auto.
    + intros [H (k & E & H2)]. destruct (Nat.eqb_spec u n); [|discriminate]. injection E as <-. auto.
  - split.
    + intros [H1 H2]. split; [|exists Bld; auto].
      destruct (Nat.eq_dec i j) as [->|N]; auto. right. lia.
    + intros [H (k & E & H2)]. injection E as <-. split; auto.
      destruct H as [H|H]; [injection H as ->|]; lia.
  - split.
    + intros H. split; auto. exists Bso. auto.
    + intros [H (k & E & H2)]. injection E as <-. auto.
  - split.
    + intros H. split; auto. exists (Bos u). auto.
    + intros [H (k & E & H2)]. injection E as <-. auto.
  - split.
    + intros H. split; auto. exists Bln. auto.
    + intros [H (k & E & H2)]. injection E as <-. auto.
  - split.
    + intros [H1 H2]. split; [|exists Bod; auto].
      destruct (Nat.eq_dec i j) as [->|N]; auto. right. lia.
    + intros [H (k & E & H2)]. injection E as <-. split; auto.
      destruct H as [H|H]; [injection H as ->|]; lia.
Qed.

(** away from the misread positions, entries are stored where they belong *)
Lemma placeOf_good n ds dt dl dO g h :
  In g (allIdx n ds dt dl dO) -> In h (allIdx n ds dt dl dO) ->
  posOf n ds dt dl h <= posOf n ds dt dl g -> ~ misread dt g h ->
  placeOf n dt g h =
    match blkOf n g h with Some k => Some (k, localIdx g, localIdx h) | None => None end.
Proof.
  intros Hg Hh Ho HM. apply (order_of n ds dt dl dO) in Ho; auto.
  apply in_allIdx in Hg. apply in_allIdx in Hh.
  destruct g as [i|t i|i|i], h as [j|u j|j|j]; cbn [placeOf blkOf localIdx misread gbefore] in *; auto;
    try tauto.
  - destruct (Nat.eqb_spec t 0) as [->|]; [reflexivity|lia].
  - destruct (Nat.eqb_spec t u) as [->|N]; auto.
    destruct (Nat.eqb_spec t (u + 1)) as [->|N']; auto.
    destruct Ho as [E|Ho]; [injection E as -> ->; tauto|lia].
  - destruct (u =? n); auto.
  - rewrite Nat.mod_small by lia. reflexivity.
Qed.

Section Place.
  Context {F : Type} (O : ops F).
  Local Notation mtx_arrow := (mtx_arrow (F:=F)).

  Definition noMM : mtx_matrix (F:=F) := mkMM (mkCsr (emptySparsity 0 0) []) [].

  Definition getB (m : mtx_arrow) (k : blk) : mtx_matrix (F:=F) :=
    match k with
    | Bsd => ma_sd m | Bsn => ma_sn m | Bso => ma_so m
    | Btd t => nth t (ma_td m) noMM | Bts t => nth t (ma_ts m) noMM
    | Blp => ma_lp m | Bld => ma_ld m | Bln => ma_ln m
    | Bos t => nth t (ma_os m) noMM | Bod => ma_od m
    end.

  Definition setB (m : mtx_arrow) (k : blk) (b : mtx_matrix (F:=F)) : mtx_arrow :=
    let '(mkMA sd sn so td ts lp ld ln os od) := m in
    match k with
    | Bsd => mkMA b sn so td ts lp ld ln os od
    | Bsn => mkMA sd b so td ts lp ld ln os od
    | Bso => mkMA sd sn b td ts lp ld ln os od
    | Btd t => mkMA sd sn so (upd td t b) ts lp ld ln os od
    | Bts t => mkMA sd sn so td (upd ts t b) lp ld ln os od
    | Blp => mkMA sd sn so td ts b ld ln os od
    | Bld => mkMA sd sn so td ts lp b ln os od
    | Bln => mkMA sd sn so td ts lp ld b os od
    | Bos t => mkMA sd sn so td ts lp ld ln (upd os t b) od
    | Bod => mkMA sd sn so td ts lp ld ln os b
    end.

  Definition lens (n : nat) (m : mtx_arrow) : Prop :=
    length (ma_td m) = n + 1 /\ length (ma_ts m) = n /\ length (ma_os m) = n + 1.

  Lemma lens_setB n m k b : lens n m -> lens n (setB m k b).
  Proof. unfold lens. destruct m, k; cbn; rewrite ?upd_length; auto. Qed.

  Lemma getB_setB n m k b k' : lens n m -> okB n k ->
    getB (setB m k b) k' = if blk_eq_dec k k' then b else getB m k'.
  Proof.
    intros (L1 & L2 & L3) Hk.
    destruct (blk_eq_dec k k') as [<-|N].
    - destruct m, k; cbn in *; auto; apply nth_upd_eq; lia.
    - destruct m, k, k'; cbn; try congruence; auto; apply nth_upd_neq; congruence.
  Qed.

  (** ** one entry *)

  Definition goodMM (s : sparsity) (b : mtx_matrix (F:=F)) : Prop :=
    toCSR s = Ok (mm_sp b) /\ length (mm_values b) = c_nnz (mm_sp b).

  Definition mmAt (b : mtx_matrix (F:=F)) : nat -> nat -> F :=
    denseAt O (c_entries (mm_sp b)) (mm_values b).

  Lemma addEntry_ok s nr nc b r c v : spOf s nr nc -> goodMM s b -> In (r, c) (entries s) ->
    exists b', mtxAddEntry (r, c, v) b = Ok b' /\ goodMM s b' /\
      forall i j, mmAt b' i j = if (r =? i) && (c =? j) then v else mmAt b i j.
  Proof.
    intros HS [E L] Hin.
    destruct (toCSR_inv s _ (spOf_wf _ _ _ HS) E) as (W & R & C & P & _).
    assert (Hin' : In (r, c) (c_entries (mm_sp b))).
    { eapply Permutation_in; [apply Permutation_sym; exact P|auto]. }
    destruct (findEntryIndex_In _ _ Hin') as (k & Ek).
    destruct (findEntryIndex_Some _ _ _ Ek) as [Hk Hf].
    assert (Hkl : k < length (mm_values b)).
    { rewrite L. apply nth_error_Some. unfold c_entries in Hk. congruence. }
    pose proof (wfc_bounds _ W _ _ Hin') as [Hr Hc].
    unfold mtxAddEntry. rewrite (wf_isNonZero _ W) by auto.
    rewrite (proj2 (inb_In _ _) Hin'). cbn [bind mtxCheck].
    rewrite (wf_entryIndex _ W r c k Ek). cbn [bind]. rewrite wr_ok by auto. cbn [bind].
    eexists. split; [reflexivity|]. split.
    { split; cbn [mm_sp mm_values]; auto. rewrite upd_length. auto. }
    intros i j. unfold mmAt, denseAt. cbn [mm_sp mm_values].
    rewrite !firstValue_find by (rewrite ?upd_length; exact L).
    destruct (Nat.eqb_spec r i) as [->|Ni]; [destruct (Nat.eqb_spec c j) as [->|Nj]|]; cbn [andb].
    - rewrite Ek. apply nth_upd_eq. auto.
    - destruct (findEntryIndex (c_entries (mm_sp b)) (i, j)) as [k'|] eqn:E'; auto.
      apply nth_upd_neq. intros <-. apply findEntryIndex_Some in E'. destruct E' as [E' _]. congruence.
    - destruct (findEntryIndex (c_entries (mm_sp b)) (i, j)) as [k'|] eqn:E'; auto.
      apply nth_upd_neq. intros <-. apply findEntryIndex_Some in E'. destruct E' as [E' _]. congruence.
  Qed.

  Lemma addEntry_no s nr nc b r c v : spOf s nr nc -> goodMM s b -> r < nr ->
    ~ In (r, c) (entries s) -> mtxAddEntry (r, c, v) b = Err MtxError.
  Proof.
    intros HS [E L] Hr Hin.
    destruct (toCSR_inv s _ (spOf_wf _ _ _ HS) E) as (W & R & C & P & _).
    unfold mtxAddEntry. rewrite (wf_isNonZero _ W) by (rewrite R, (sp_rows _ _ _ HS); auto).
    replace (inb (c_entries (mm_sp b)) (r, c)) with false; [reflexivity|].
    symmetry. apply inb_false. intros H. apply Hin. eapply Permutation_in; eauto.
  Qed.

  Lemma addEntry_oob s nr nc b r c v : spOf s nr nc -> goodMM s b -> nr <= r ->
    mtxAddEntry (r, c, v) b = Err UB.
  Proof.
    intros HS [E L] Hr.
    destruct (toCSR_inv s _ (spOf_wf _ _ _ HS) E) as (W & R & C & P & _).
    unfold mtxAddEntry, isNonZero. rewrite rowView_out; auto. rewrite R, (sp_rows _ _ _ HS). auto.
  Qed.

  (** ** dispatch *)

  Context (n ds dt dl dO : nat) (Hdt : 0 < dt).
  Local Notation pos := (posOf n ds dt dl).
  Local Notation all := (allIdx n ds dt dl dO).
  Definition dispatch := mtxDispatch (F:=F) ds dt dl dt (ds + (n + 1) * dt) (ds + (n + 1) * dt + dl).

  Definition store (m : mtx_arrow) (k : blk) (r c : nat) (v : F) : res mtx_arrow :=
    let* b := mtxAddEntry (r, c, v) (getB m k) in Ok (setB m k b).

  Lemma dispatch_upper m g h v : pos g < pos h -> dispatch m (pos g, pos h, v) = Err MtxError.
  Proof.
    intros H. unfold dispatch, mtxDispatch.
    replace (pos h <=? pos g) with false by (symmetry; apply Nat.leb_gt; lia). reflexivity.
  Qed.

  Ltac lt_true a b := replace (a <? b) with true by (symmetry; apply Nat.ltb_lt; lia).
  Ltac lt_false a b := replace (a <? b) with false by (symmetry; apply Nat.ltb_ge; lia).
  Ltac le_true a b := replace (a <=? b) with true by (symmetry; apply Nat.leb_le; lia).
  Ltac le_false a b := replace (a <=? b) with false by (symmetry; apply Nat.leb_gt; lia).

  Lemma dispatch_place m g h v : lens n m -> In g all -> In h all -> pos h <= pos g ->
    dispatch m (pos g, pos h, v) =
    match placeOf n dt g h with Some (k, r, c) => store m k r c v | None => Err MtxError end.
  Proof.
    intros (L1 & L2 & L3) Hg Hh Ho. pose proof Ho as Ho'.
    apply (order_of n ds dt dl dO) in Ho'; auto.
    apply in_allIdx in Hg. apply in_allIdx in Hh.
    unfold dispatch, mtxDispatch. le_true (pos h) (pos g). cbn [mtxCheck bind].
    destruct g as [i|t i|i|i], h as [j|u j|j|j]; cbn [gbefore] in Ho'; try (destruct Ho' as [Ho'|Ho']; [discriminate|tauto]);
      cbn [posOf placeOf] in *;
      try (pose proof (blk_lt n dt t i (proj1 Hg) (proj2 Hg)));
      try (pose proof (blk_lt n dt u j (proj1 Hh) (proj2 Hh))).
    - (* GS, GS *) lt_true j ds. lt_true i (ds + (n + 1) * dt + dl).
      unfold mtxAddEntryStart. lt_true i ds. unfold store. destruct m; reflexivity.
    - (* GT, GS *) lt_true j ds. lt_true (ds + t * dt + i) (ds + (n + 1) * dt + dl).
      unfold mtxAddEntryStart. lt_false (ds + t * dt + i) ds. rewrite subw_ok by lia. cbn [bind].
      replace (ds + t * dt + i - ds) with (t * dt + i) by lia. destruct m; reflexivity.
    - (* GT, GT *) lt_false (ds + u * dt + j) ds. lt_true (ds + t * dt + i) (ds + (n + 1) * dt).
      rewrite !subw_ok by lia. cbn [bind]. unfold mtxAddEntryTridiag, divw, modw.
      destruct (Nat.eqb_spec dt 0); [lia|]. cbn [bind].
      replace (ds + t * dt + i - ds) with (t * dt + i) by lia.
      replace (ds + u * dt + j - ds) with (u * dt + j) by lia.
      rewrite !div_blk, !mod_blk by lia.
      destruct (Nat.eqb_spec t u) as [->|N].
      + rewrite (rd_nth _ u noMM) by lia. cbn [bind]. unfold store. destruct m as [sd sn so td ts lp ld ln os od]; cbn [getB setB ma_td ma_ts ma_os] in *.
        destruct (mtxAddEntry _ _); cbn [bind]; auto. rewrite wr_ok by lia. reflexivity.
      + assert (u < t).
        { destruct Ho' as [Ho'|Ho']; [congruence|lia]. }
        rewrite (rd_nth _ u noMM) by lia. cbn [bind]. unfold store. destruct m as [sd sn so td ts lp ld ln os od]; cbn [getB setB ma_td ma_ts ma_os] in *.
        destruct (mtxAddEntry _ _); cbn [bind]; auto. rewrite wr_ok by lia. reflexivity.
    - (* GL, GS *) lt_true j ds. lt_true (ds + (n + 1) * dt + i) (ds + (n + 1) * dt + dl).
      unfold mtxAddEntryStart. lt_false (ds + (n + 1) * dt + i) ds. rewrite subw_ok by lia. cbn [bind].
      replace (ds + (n + 1) * dt + i - ds) with ((n + 1) * dt + i) by lia. destruct m; reflexivity.
    - (* GL, GT *) lt_false (ds + u * dt + j) ds.
      lt_false (ds + (n + 1) * dt + i) (ds + (n + 1) * dt).
      le_false (ds + (n + 1) * dt + dl) (ds + (n + 1) * dt + i). cbn [andb].
      assert (EN : (n + 1) * dt = n * dt + dt) by lia.
      rewrite subw_ok by lia. cbn [bind].
      destruct (Nat.eqb_spec u n) as [->|N].
      + le_true (ds + (n + 1) * dt - dt) (ds + n * dt + j). cbn [mtxCheck bind].
        rewrite !subw_ok by lia. cbn [bind]. unfold mtxAddEntryLink.
        lt_true (ds + n * dt + j - (ds + (n + 1) * dt - dt)) dt.
        replace (ds + (n + 1) * dt + i - (ds + (n + 1) * dt)) with i by lia.
        replace (ds + n * dt + j - (ds + (n + 1) * dt - dt)) with j by lia.
        destruct m; reflexivity.
      + assert (S u * dt <= n * dt) by (apply Nat.mul_le_mono_r; lia). cbn [Nat.mul] in *.
        le_false (ds + (n + 1) * dt - dt) (ds + u * dt + j). reflexivity.
    - (* GL, GL *) lt_false (ds + (n + 1) * dt + j) ds.
      lt_false (ds + (n + 1) * dt + i) (ds + (n + 1) * dt).
      le_false (ds + (n + 1) * dt + dl) (ds + (n + 1) * dt + i). cbn [andb].
      assert (EN : (n + 1) * dt = n * dt + dt) by lia.
      rewrite subw_ok by lia. cbn [bind].
      le_true (ds + (n + 1) * dt - dt) (ds + (n + 1) * dt + j). cbn [mtxCheck bind].
      rewrite !subw_ok by lia. cbn [bind]. unfold mtxAddEntryLink.
      lt_false (ds + (n + 1) * dt + j - (ds + (n + 1) * dt - dt)) dt.
      replace (ds + (n + 1) * dt + i - (ds + (n + 1) * dt)) with i by lia.
      le_false dl i. rewrite subw_ok by lia. cbn [bind].
      replace (ds + (n + 1) * dt + j - (ds + (n + 1) * dt - dt) - dt) with j by lia.
      destruct m; reflexivity.
    - (* GO, GS *) lt_true j ds. lt_false (ds + (n + 1) * dt + dl + i) (ds + (n + 1) * dt + dl).
      rewrite subw_ok by lia. cbn [bind].
      replace (ds + (n + 1) * dt + dl + i - (ds + (n + 1) * dt + dl)) with i by lia.
      destruct m; reflexivity.
    - (* GO, GT *) lt_false (ds + u * dt + j) ds.
      lt_false (ds + (n + 1) * dt + dl + i) (ds + (n + 1) * dt).
      le_true (ds + (n + 1) * dt + dl) (ds + (n + 1) * dt + dl + i).
      le_false (ds + (n + 1) * dt + dl) (ds + u * dt + j). cbn [andb].
      lt_true (ds + u * dt + j) (ds + (n + 1) * dt).
      rewrite !subw_ok by lia. cbn [bind]. unfold mtxAddEntryOuterSubdiag, divw, modw.
      destruct (Nat.eqb_spec dt 0); [lia|]. cbn [bind].
      replace (ds + (n + 1) * dt + dl + i - (ds + (n + 1) * dt + dl)) with i by lia.
      replace (ds + u * dt + j - ds) with (u * dt + j) by lia.
      rewrite div_blk, mod_blk by lia.
      rewrite (rd_nth _ u noMM) by lia. cbn [bind]. unfold store. destruct m as [sd sn so td ts lp ld ln os od]; cbn [getB setB ma_td ma_ts ma_os] in *.
      destruct (mtxAddEntry _ _); cbn [bind]; auto. rewrite wr_ok by lia. reflexivity.
    - (* GO, GL *) lt_false (ds + (n + 1) * dt + j) ds.
      lt_false (ds + (n + 1) * dt + dl + i) (ds + (n + 1) * dt).
      le_true (ds + (n + 1) * dt + dl) (ds + (n + 1) * dt + dl + i).
      le_false (ds + (n + 1) * dt + dl) (ds + (n + 1) * dt + j).
      lt_false (ds + (n + 1) * dt + j) (ds + (n + 1) * dt). cbn [andb].
      assert (EN : (n + 1) * dt = n * dt + dt) by lia.
      rewrite subw_ok by lia. cbn [bind].
      le_true (ds + (n + 1) * dt - dt) (ds + (n + 1) * dt + j). cbn [mtxCheck bind].
      rewrite !subw_ok by lia. cbn [bind]. unfold mtxAddEntryLink.
      lt_false (ds + (n + 1) * dt + j - (ds + (n + 1) * dt - dt)) dt.
      le_true dl (ds + (n + 1) * dt + dl + i - (ds + (n + 1) * dt)).
      rewrite !subw_ok by lia. cbn [bind].
      replace (ds + (n + 1) * dt + dl + i - (ds + (n + 1) * dt) - dl) with i by lia.
      replace (ds + (n + 1) * dt + j - (ds + (n + 1) * dt - dt) - dt) with j by lia.
      destruct m; reflexivity.
    - (* GO, GO *) lt_false (ds + (n + 1) * dt + dl + j) ds.
      lt_false (ds + (n + 1) * dt + dl + i) (ds + (n + 1) * dt).
      le_true (ds + (n + 1) * dt + dl) (ds + (n + 1) * dt + dl + i).
      le_true (ds + (n + 1) * dt + dl) (ds + (n + 1) * dt + dl + j). cbn [andb].
      rewrite !subw_ok by lia. cbn [bind].
      replace (ds + (n + 1) * dt + dl + i - (ds + (n + 1) * dt + dl)) with i by lia.
      replace (ds + (n + 1) * dt + dl + j - (ds + (n + 1) * dt + dl)) with j by lia.
      destruct m; reflexivity.
  Qed.
End Place.
