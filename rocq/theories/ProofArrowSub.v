(** Forward, diagonal and backward substitution with an arrowhead factor: which
    subtractions are carried out and in which order. No algebraic laws are used, so
    the equations also hold for rounded arithmetic. *)
From Coq Require Import List Arith Lia Bool.
From Verif Require Import Base ModelPerm ModelSparsity ModelSymbolic ModelNumeric ModelArrow.
From Verif Require Import SpecSymbolic SpecArrow SpecNumeric SpecArrowNum.
From Verif Require Import ProofBase ProofPerm ProofCsr ProofSparsity ProofFill ProofFill3
  ProofArrowSym ProofDense ProofUpRow ProofUp ProofEntry ProofKernel ProofSolve
  ProofArrowRows ProofArrowDense ProofArrowProduct ProofArrowSolve.
Import ListNotations.

Section Subl.
  Context {F : Type} (O : ops F).

  (** subtract f k from acc for each k in l, one after the other *)
  Definition subl {I : Type} (acc : F) (l : list I) (f : I -> F) : F :=
    fold_left (fun a k => osub O a (f k)) l acc.

  Lemma subl_app {I} acc (l1 l2 : list I) f : subl acc (l1 ++ l2) f = subl (subl acc l1 f) l2 f.
  Proof. apply fold_left_app. Qed.

  Lemma subl_snoc {I} acc (l : list I) k f : subl acc (l ++ [k]) f = osub O (subl acc l f) (f k).
  Proof. rewrite subl_app. reflexivity. Qed.

  Lemma subl_map {I J} acc (g : J -> I) l f : subl acc (map g l) f = subl acc l (fun k => f (g k)).
  Proof.
    revert acc. induction l as [|x l IH]; intros acc; [reflexivity|].
    cbn [map]. unfold subl in *. cbn [fold_left]. apply IH.
  Qed.

  Lemma subl_ext {I} acc (l : list I) f f' :
    (forall k, In k l -> f k = f' k) -> subl acc l f = subl acc l f'.
  Proof.
    revert acc. induction l as [|x l IH]; intros acc H; [reflexivity|].
    unfold subl in *. cbn [fold_left]. rewrite (H x) by (left; auto). apply IH.
    intros k Hk. apply H. right. auto.
  Qed.

  Lemma subl_flat {I} acc (g : nat -> list I) l f :
    subl acc (flat_map g l) f = fold_left (fun a t => subl a (g t) f) l acc.
  Proof.
    revert acc. induction l as [|x l IH]; intros acc; [reflexivity|].
    cbn [flat_map fold_left]. rewrite subl_app. apply IH.
  Qed.

  Lemma subf_filter acc l nz t : subf O acc l nz t = subl acc (filter nz l) t.
  Proof.
    unfold subf, subl. revert acc. induction l as [|x l IH]; intros acc; [reflexivity|].
    cbn [fold_left filter]. destruct (nz x); cbn [fold_left]; apply IH.
  Qed.

  Lemma subf_true acc l t : subf O acc l (fun _ => true) t = subl acc l t.
  Proof. reflexivity. Qed.
End Subl.

Lemma fold_left_ext_in {A B} (f g : A -> B -> A) l a :
  (forall a b, In b l -> f a b = g a b) -> fold_left f l a = fold_left g l a.
Proof.
  revert a. induction l as [|x l IH]; intros a H; [reflexivity|].
  cbn [fold_left]. rewrite (H a x) by (left; auto). apply IH. intros; apply H; right; auto.
Qed.

(** the rows with an entry in column j, last one first *)
Definition rowsOf (c : csr) (nr j : nat) : list nat := filter (fun i => nzb c i j) (rev (seq 0 nr)).

Lemma rowsOf_In c nr i j : In i (rowsOf c nr j) <-> i < nr /\ In (i, j) (c_entries c).
Proof.
  unfold rowsOf. rewrite filter_In, <- in_rev, in_seq, nzb_In. intuition lia.
Qed.

Lemma rowsOf_NoDup c nr j : NoDup (rowsOf c nr j).
Proof. apply NoDup_filter, NoDup_rev, seq_NoDup. Qed.

Section Solve.
  Context {F : Type} (O : ops F).
  Local Notation get := (getL O).
  Local Notation "a - b" := (osub O a b) : scalar.
  Local Notation "a * b" := (omul O a b) : scalar.
  Local Notation "a / b" := (odiv O a b) : scalar.
  Local Notation vat := (vat O).
  Local Notation subl := (subl O).
  Variables (s : arrow_sp) (ds dt dl dO : nat) (k : arrow_blks) (P : arrow_pats).
  Hypothesis AG : arrowGood s ds dt dl dO k P.
  Hypothesis AC : arrowChordal P.
  Local Notation ps := (ss_perm (as_start s)).
  Local Notation pt := (st_perm (as_tri s)).
  Local Notation pl := (sl_perm (as_link s)).
  Local Notation po := (so_perm (as_outer s)).
  Local Notation SF := (strictFun O k).
  Local Notation pvec := (pvec O s).

  (** the columns subtracted from entry g by the forward substitution, in order *)
  Definition fwdL (n : nat) (g : gidx) : list gidx :=
    match g with
    | GS i => map GS (cols (b_sp (k_sd k)) i)
    | GT t i =>
        match t with
        | 0 => map GS (cols (b_sp (k_sn k)) i)
        | S u => map (GT u) (cols (b_sp (k_ts k)) i)
        end ++ map (GT t) (cols (b_sp (k_td k)) i)
    | GL i => map (GT n) (cols (b_sp (k_lp k)) i) ++ map GL (cols (b_sp (k_ld k)) i)
    | GO i => map GS (cols (b_sp (k_so k)) i) ++
        flat_map (fun t => map (GT t) (cols (b_sp (k_os k)) i)) (seq 0 (n + 1)) ++
        map GL (cols (b_sp (k_ln k)) i) ++ map GO (cols (b_sp (k_od k)) i)
    end.

  (** the rows subtracted from entry g by the backward substitution, in order *)
  Definition bwdL (n : nat) (g : gidx) : list gidx :=
    match g with
    | GO j => map GO (rowsOf (b_sp (k_od k)) dO j)
    | GL j => map GO (rowsOf (b_sp (k_ln k)) dO j) ++ map GL (rowsOf (b_sp (k_ld k)) dl j)
    | GT t j => map GO (rowsOf (b_sp (k_os k)) dO j) ++
        (if t =? n then map GL (rowsOf (b_sp (k_lp k)) dl j)
         else map (GT (t + 1)) (rowsOf (b_sp (k_ts k)) dt j)) ++
        map (GT t) (rowsOf (b_sp (k_td k)) dt j)
    | GS j => map GO (rowsOf (b_sp (k_so k)) dO j) ++ map (GT 0) (rowsOf (b_sp (k_sn k)) dt j) ++
        map GS (rowsOf (b_sp (k_sd k)) ds j)
    end.

  Definition fwdSub (n : nat) (d : arrow_data (F:=F)) (b y : gidx -> F) : Prop :=
    forall g, In g (allIdx n ds dt dl dO) ->
      y g = subl (b g) (fwdL n g) (fun h => (lowArrow O n (SF d) g h * y h)%s).
  Definition bwdSub (n : nat) (d : arrow_data (F:=F)) (z x : gidx -> F) : Prop :=
    forall g, In g (allIdx n ds dt dl dO) ->
      x g = subl (z g) (bwdL n g) (fun h => (lowArrow O n (SF d) h g * x h)%s).

  Lemma arrowForward_sub n d rhs :
    dataOf k n ds dt dl dO d -> vecOf n ds dt dl dO rhs ->
    exists v, arrowForward O k d rhs = Ok v /\ vecOf n ds dt dl dO v /\
      fwdSub n d (pvec rhs) (pvec v).
  Proof.
    intros DO [Ns Nt Ht Nl No]. unfold arrowForward. rewrite (check_ok ds dt dl dO k n d DO). cbn [bind].
    destruct DO as [[Nsd1 Nsd2] Nsn Nso Ntd Htd Nts Hts Nlp [Nld1 Nld2] Nln Nos Hos [Nod1 Nod2]].
    pose proof AG as [Gsd Gsn Gso Gtd Gts Glp Gld Gln Gos God].
    unfold numRepetitions. rewrite Nts.
    destruct (fwdSelf_ok O (k_sd k) ds (p_sd P) ps true (fst (d_sd d)) (v_start rhs))
      as (vs & E1 & N1 & H1); auto. { eapply sd_low; eauto. }
    rewrite E1. cbn [bind].
    rewrite (rd_nth (d_td d) 0 ([], [])) by lia. cbn [bind].
    rewrite (rd_nth (v_tri rhs) 0 []) by lia. cbn [bind].
    destruct (fwdLeft_ok O (k_td k) (k_sn k) dt ds (p_td P) (p_sn P) pt ps true false
       (fst (nth 0 (d_td d) ([], []))) (d_sn d) vs (nth 0 (v_tri rhs) []))
      as (t0 & E2 & N2 & H2); auto; try apply Htd; try apply Ht; try lia. { eapply td_low; eauto. }
    rewrite E2. cbn [bind]. rewrite wr_ok by lia. cbn [bind].
    set (f := fun vt i => _).
    destruct (foldM_seq f (fun i vt => length vt = (n + 1)%nat /\
       (forall t, t < n + 1 -> length (nth t vt []) = dt) /\
       nth 0 vt [] = t0 /\
       (forall t, i <= t -> t < n + 1 -> nth t vt [] = nth t (v_tri rhs) []) /\
       (forall t, t + 1 < i -> forall q, q < dt ->
          vat pt (nth (t + 1) vt []) q =
          subl (subl (vat pt (nth (t + 1) (v_tri rhs) []) q) (cols (b_sp (k_ts k)) q)
             (fun r => f_ts (SF d) t q r * vat pt (nth t vt []) r)%s)
            (cols (b_sp (k_td k)) q)
             (fun r => f_td (SF d) (t + 1)%nat q r * vat pt (nth (t + 1) vt []) r)%s))
      1 n (upd (v_tri rhs) 0 t0)) as (vt & E3 & M1 & M2 & M3 & M4 & M5).
    { rewrite upd_length. split; [auto|]. split; [|split; [|split]].
      - intros t Ht'. rewrite nth_upd by lia. destruct (0 =? t); auto.
      - apply nth_upd_eq. lia.
      - intros t H1' H2'. apply nth_upd_neq. lia.
      - intros t Ht'. lia. }
    { intros i vt Hi (M1 & M2 & M3 & M4 & M5). unfold f.
      rewrite (rd_nth (d_td d) i ([], [])) by lia. cbn [bind].
      rewrite (rd_nth vt i []) by lia. cbn [bind].
      rewrite subw_ok by lia. cbn [bind].
      rewrite (rd_nth (d_ts d) (i - 1) []) by lia. cbn [bind].
      rewrite (rd_nth vt (i - 1) []) by lia. cbn [bind].
      destruct (fwdLeft_ok O (k_td k) (k_ts k) dt dt (p_td P) (p_ts P) pt pt true false
         (fst (nth i (d_td d) ([], []))) (nth (i - 1) (d_ts d) []) (nth (i - 1) vt []) (nth i vt []))
        as (ti & E & N & H); auto; try (apply Htd; lia); try (apply Hts; lia); try (apply M2; lia).
      { eapply td_low; eauto. }
      rewrite E. cbn [bind]. rewrite wr_ok by lia. eexists. split; [reflexivity|].
      rewrite upd_length. split; [auto|]. split; [|split; [|split]].
      - intros t Ht'. rewrite nth_upd by lia. destruct (i =? t); auto.
      - rewrite nth_upd_neq by lia. auto.
      - intros t Ht1 Ht2. rewrite nth_upd_neq by lia. apply M4; lia.
      - intros t Ht' q Hq. destruct (Nat.eq_dec (t + 1) i) as [Ei|Ne].
        + rewrite (nth_upd_neq vt i t) by lia. rewrite Ei. rewrite nth_upd_eq by lia.
          rewrite <- (M4 i) by lia. replace t with (i - 1)%nat by lia. apply H; auto.
        + rewrite !nth_upd_neq by lia. apply M5; auto. lia. }
    rewrite E3. cbn [bind]. clear f E3.
    rewrite (rd_nth vt n []) by lia. cbn [bind].
    destruct (fwdLeft_ok O (k_ld k) (k_lp k) dl dt (p_ld P) (p_lp P) pl pt true false
       (fst (d_ld d)) (d_lp d) (nth n vt []) (v_link rhs))
      as (vl & E4 & N4 & H4); auto; try (apply M2; lia). { eapply ld_low; eauto. }
    rewrite E4. cbn [bind].
    destruct (fwdRect_ok O (k_so k) dO ds (p_so P) po ps false (d_so d) vs (v_outer rhs))
      as (o1 & E5 & N5 & H5); auto.
    rewrite E5. cbn [bind].
    set (f := fun vo i => _).
    destruct (foldM_seq f (fun i vo => length vo = dO /\ forall q, q < dO ->
       vat po vo q = fold_left (fun a t => subl a (cols (b_sp (k_os k)) q) (fun r =>
         f_os (SF d) t q r * vat pt (nth t vt []) r)%s) (seq 0 i) (vat po o1 q)) 0 (n + 1) o1) as (o2 & E6 & N6 & H6).
    { split; auto. }
    { intros i vo Hi (Nv & Hv). unfold f.
      rewrite (rd_nth (d_os d) i []) by lia. cbn [bind].
      rewrite (rd_nth vt i []) by lia. cbn [bind].
      destruct (fwdRect_ok O (k_os k) dO dt (p_os P) po pt false (nth i (d_os d) []) (nth i vt []) vo)
        as (o & E & N & H); auto; try (apply Hos; lia); try (apply M2; lia).
      exists o. split; auto. split; auto. intros q Hq.
      rewrite H by auto. rewrite Hv by auto. cbn [Nat.add]. rewrite seq_S, fold_left_app. reflexivity. }
    rewrite E6. cbn [bind]. clear f E6.
    destruct (fwdRect_ok O (k_ln k) dO dl (p_ln P) po pl false (d_ln d) vl o2)
      as (o3 & E7 & N7 & H7); auto.
    rewrite E7. cbn [bind].
    destruct (fwdSelf_ok O (k_od k) dO (p_od P) po true (fst (d_od d)) o3)
      as (o4 & E8 & N8 & H8); auto. { eapply od_low; eauto. }
    rewrite E8. cbn [bind]. eexists. split; [reflexivity|]. split.
    - constructor; auto.
    - intros g Hg. apply in_allIdx in Hg. destruct g as [i|t i|i|i]; cbn [fwdL].
      + rewrite subl_map. exact (H1 i Hg).
      + destruct Hg as [Ht' Hi]. rewrite subl_app, !subl_map.
        destruct t as [|u].
        * rewrite subl_map. change (vat pt (nth 0 vt []) i =
            subl (subl (vat pt (nth 0 (v_tri rhs) []) i) (cols (b_sp (k_sn k)) i)
              (fun q => (f_sn (SF d) i q * vat ps vs q)%s)) (cols (b_sp (k_td k)) i)
              (fun q => (f_td (SF d) 0%nat i q * vat pt (nth 0 vt []) q)%s)).
          rewrite M3. apply H2; auto.
        * rewrite subl_map. assert (Hu : u < n) by lia. specialize (M5 u ltac:(lia) i Hi).
          rewrite Nat.add_1_r in M5.
          replace (fun k0 => (lowArrow O n (SF d) (GT (S u) i) (GT u k0) * _)%s)
            with (fun r => (f_ts (SF d) u i r * vat pt (nth u vt []) r)%s).
          2:{ cbn [lowArrow]. rewrite (proj2 (Nat.eqb_neq (S u) u)) by lia.
              rewrite Nat.add_1_r, Nat.eqb_refl. reflexivity. }
          replace (fun k0 => (lowArrow O n (SF d) (GT (S u) i) (GT (S u) k0) * _)%s)
            with (fun r => (f_td (SF d) (S u) i r * vat pt (nth (S u) vt []) r)%s).
          2:{ cbn [lowArrow]. rewrite Nat.eqb_refl. reflexivity. }
          exact M5.
      + rewrite subl_app, !subl_map.
        replace (fun k0 => (lowArrow O n (SF d) (GL i) (GT n k0) * _)%s)
          with (fun r => (f_lp (SF d) i r * vat pt (nth n vt []) r)%s).
        2:{ cbn [lowArrow]. rewrite Nat.eqb_refl. reflexivity. }
        exact (H4 i Hg).
      + rewrite !subl_app, !subl_map, subl_flat.
        change (vat po o4 i = subl (subl (fold_left (fun a t =>
             subl a (map (GT t) (cols (b_sp (k_os k)) i))
               (fun h => (lowArrow O n (SF d) (GO i) h * pvec (mkAV vs vt vl o4) h)%s)) (seq 0 (n + 1))
            (subl (vat po (v_outer rhs) i) (cols (b_sp (k_so k)) i)
              (fun q => (f_so (SF d) i q * vat ps vs q)%s)))
            (cols (b_sp (k_ln k)) i) (fun q => (f_ln (SF d) i q * vat pl vl q)%s))
            (cols (b_sp (k_od k)) i) (fun q => (f_od (SF d) i q * vat po o4 q)%s)).
        rewrite (H8 i Hg) at 1. rewrite (H7 i Hg), (H6 i Hg), (H5 i Hg).
        rewrite !subf_true. f_equal. f_equal. cbn [strictFun f_so].
        apply fold_left_ext_in. intros a t _. rewrite subl_map. reflexivity.
  Qed.

  Lemma arrowDiagonal_sub n d rhs :
    dataOf k n ds dt dl dO d -> vecOf n ds dt dl dO rhs ->
    exists v, arrowDiagonal O k d rhs = Ok v /\ vecOf n ds dt dl dO v /\
      forall g, In g (allIdx n ds dt dl dO) -> pvec v g = (pvec rhs g / pivotAt O d g)%s.
  Proof.
    intros DO [Ns Nt Ht Nl No]. unfold arrowDiagonal. rewrite (check_ok ds dt dl dO k n d DO). cbn [bind].
    destruct DO as [[Nsd1 Nsd2] Nsn Nso Ntd Htd Nts Hts Nlp [Nld1 Nld2] Nln Nos Hos [Nod1 Nod2]].
    pose proof AG as [Gsd Gsn Gso Gtd Gts Glp Gld Gln Gos God].
    unfold numRepetitions. rewrite Nts.
    destruct (diagSolve_ok O (k_sd k) ds (p_sd P) ps true (snd (d_sd d)) (v_start rhs))
      as (vs & E1 & N1 & H1); auto. rewrite E1. cbn [bind].
    set (f := fun vt i => _).
    destruct (foldM_seq f (fun i vt => length vt = (n + 1)%nat /\
       (forall t, t < n + 1 -> length (nth t vt []) = dt) /\
       (forall t, i <= t -> t < n + 1 -> nth t vt [] = nth t (v_tri rhs) []) /\
       (forall t, t < i -> forall q, q < dt -> vat pt (nth t vt []) q =
          (vat pt (nth t (v_tri rhs) []) q / getD O (snd (nth t (d_td d) ([], []))) q)%s))
      0 (n + 1) (v_tri rhs)) as (vt & E2 & M1 & M2 & M3 & M4).
    { split; [auto|]. split; [auto|]. split; [auto|]. intros t Ht'. lia. }
    { intros i vt Hi (M1 & M2 & M3 & M4). unfold f.
      rewrite (rd_nth (d_td d) i ([], [])) by lia. cbn [bind].
      rewrite (rd_nth vt i []) by lia. cbn [bind].
      destruct (diagSolve_ok O (k_td k) dt (p_td P) pt true (snd (nth i (d_td d) ([], []))) (nth i vt []))
        as (ti & E & N & H); auto; try (apply Htd; lia); try (apply M2; lia).
      rewrite E. cbn [bind]. rewrite wr_ok by lia. eexists. split; [reflexivity|].
      rewrite upd_length. split; [auto|]. split; [|split].
      - intros t Ht'. rewrite nth_upd by lia. destruct (i =? t); auto.
      - intros t Ht1 Ht2. rewrite nth_upd_neq by lia. apply M3; lia.
      - intros t Ht' q Hq. destruct (Nat.eq_dec t i) as [->|Ne].
        + rewrite nth_upd_eq by lia. rewrite <- (M3 i) by lia. auto.
        + rewrite !nth_upd_neq by lia. apply M4; auto. lia. }
    rewrite E2. cbn [bind]. clear f E2.
    destruct (diagSolve_ok O (k_ld k) dl (p_ld P) pl true (snd (d_ld d)) (v_link rhs))
      as (vl & E3 & N3 & H3); auto. rewrite E3. cbn [bind].
    destruct (diagSolve_ok O (k_od k) dO (p_od P) po true (snd (d_od d)) (v_outer rhs))
      as (vo & E4 & N4 & H4); auto. rewrite E4. cbn [bind].
    eexists. split; [reflexivity|]. split; [constructor; auto|].
    intros g Hg. apply in_allIdx in Hg. destruct g as [i|t i|i|i].
    - exact (H1 i Hg).
    - apply M4; tauto.
    - exact (H3 i Hg).
    - exact (H4 i Hg).
  Qed.

  Lemma arrowBackward_sub n d rhs :
    dataOf k n ds dt dl dO d -> vecOf n ds dt dl dO rhs ->
    exists v, arrowBackward O k d rhs = Ok v /\ vecOf n ds dt dl dO v /\
      bwdSub n d (pvec rhs) (pvec v).
  Proof.
    intros DO [Ns Nt Ht Nl No]. unfold arrowBackward. rewrite (check_ok ds dt dl dO k n d DO). cbn [bind].
    destruct DO as [[Nsd1 Nsd2] Nsn Nso Ntd Htd Nts Hts Nlp [Nld1 Nld2] Nln Nos Hos [Nod1 Nod2]].
    pose proof AG as [Gsd Gsn Gso Gtd Gts Glp Gld Gln Gos God].
    unfold numRepetitions. rewrite Nts.
    destruct (bwdSelf_ok O (k_od k) dO (p_od P) po true (fst (d_od d)) (v_outer rhs))
      as (vo & E1 & N1 & H1); auto. { eapply od_low; eauto. }
    rewrite E1. cbn [bind].
    destruct (bwdRect_ok O (k_ln k) dO dl (p_ln P) po pl false (d_ln d) vo (v_link rhs))
      as (l1 & E2 & N2 & H2); auto. rewrite E2. cbn [bind].
    destruct (bwdSelf_ok O (k_ld k) dl (p_ld P) pl true (fst (d_ld d)) l1)
      as (vl & E3 & N3 & H3); auto. { eapply ld_low; eauto. }
    rewrite E3. cbn [bind].
    rewrite (rd_nth (d_os d) n []) by lia. cbn [bind].
    rewrite (rd_nth (v_tri rhs) n []) by lia. cbn [bind].
    destruct (bwdRect_ok O (k_os k) dO dt (p_os P) po pt false (nth n (d_os d) []) vo (nth n (v_tri rhs) []))
      as (t1 & E4 & N4 & H4); auto; try (apply Hos; lia); try (apply Ht; lia). rewrite E4. cbn [bind].
    destruct (bwdRect_ok O (k_lp k) dl dt (p_lp P) pl pt false (d_lp d) vl t1)
      as (t2 & E5 & N5 & H5); auto. rewrite E5. cbn [bind].
    rewrite (rd_nth (d_td d) n ([], [])) by lia. cbn [bind].
    destruct (bwdSelf_ok O (k_td k) dt (p_td P) pt true (fst (nth n (d_td d) ([], []))) t2)
      as (t3 & E6 & N6 & H6); auto; try (apply Htd; lia). { eapply td_low; eauto. }
    rewrite E6. cbn [bind]. rewrite wr_ok by lia. cbn [bind].
    set (f := fun vt i => _).
    destruct (foldM_rev_seq f (fun i vt => length vt = (n + 1)%nat /\
       (forall t, t < n + 1 -> length (nth t vt []) = dt) /\
       nth n vt [] = t3 /\
       (forall t, t + 1 < i -> nth t vt [] = nth t (v_tri rhs) []) /\
       (forall t, i <= t + 1 -> t < n -> forall j, j < dt ->
          vat pt (nth t vt []) j =
          subl (subl (subl (vat pt (nth t (v_tri rhs) []) j) (rowsOf (b_sp (k_os k)) dO j)
            (fun i => f_os (SF d) t i j * vat po vo i)%s) (rowsOf (b_sp (k_ts k)) dt j)
            (fun i => f_ts (SF d) t i j * vat pt (nth (t + 1) vt []) i)%s)
            (rowsOf (b_sp (k_td k)) dt j)
            (fun i => f_td (SF d) t i j * vat pt (nth t vt []) i)%s))
      1 n (upd (v_tri rhs) n t3)) as (vt & E7 & M1 & M2 & M3 & M4 & M5).
    { rewrite upd_length. split; [auto|]. split; [|split; [|split]].
      - intros t Ht'. rewrite nth_upd by lia. destruct (n =? t); auto.
      - apply nth_upd_eq. lia.
      - intros t H1'. apply nth_upd_neq. lia.
      - intros t Ht'. lia. }
    { intros i vt Hi (M1 & M2 & M3 & M4 & M5). unfold f.
      rewrite subw_ok by lia. cbn [bind].
      rewrite (rd_nth (d_os d) (i - 1) []) by lia. cbn [bind].
      rewrite (rd_nth vt (i - 1) []) by lia. cbn [bind].
      destruct (bwdRect_ok O (k_os k) dO dt (p_os P) po pt false (nth (i - 1) (d_os d) []) vo (nth (i - 1) vt []))
        as (u1 & F1 & Q1 & K1); auto; try (apply Hos; lia); try (apply M2; lia). rewrite F1. cbn [bind].
      rewrite (rd_nth (d_ts d) (i - 1) []) by lia. cbn [bind].
      rewrite (rd_nth vt i []) by lia. cbn [bind].
      destruct (bwdRect_ok O (k_ts k) dt dt (p_ts P) pt pt false (nth (i - 1) (d_ts d) []) (nth i vt []) u1)
        as (u2 & F2 & Q2 & K2); auto; try (apply Hts; lia); try (apply M2; lia). rewrite F2. cbn [bind].
      rewrite (rd_nth (d_td d) (i - 1) ([], [])) by lia. cbn [bind].
      destruct (bwdSelf_ok O (k_td k) dt (p_td P) pt true (fst (nth (i - 1) (d_td d) ([], []))) u2)
        as (u3 & F3 & Q3 & K3); auto; try (apply Htd; lia). { eapply td_low; eauto. }
      rewrite F3. cbn [bind]. rewrite wr_ok by lia. eexists. split; [reflexivity|].
      rewrite upd_length. split; [auto|]. split; [|split; [|split]].
      - intros t Ht'. rewrite nth_upd by lia. destruct (i - 1 =? t); auto.
      - rewrite nth_upd_neq by lia. auto.
      - intros t Ht1. rewrite nth_upd_neq by lia. apply M4; lia.
      - intros t Ht1 Ht2 j Hj. destruct (Nat.eq_dec t (i - 1)) as [->|Ne].
        + rewrite nth_upd_eq by lia. rewrite nth_upd_neq by lia. rewrite <- M4 by lia.
          replace (i - 1 + 1)%nat with i by lia.
          rewrite (K3 j Hj) at 1. rewrite (K2 j Hj), (K1 j Hj). rewrite !subf_filter. reflexivity.
        + rewrite !nth_upd_neq by lia. apply M5; auto. lia. }
    rewrite E7. cbn [bind]. clear f E7.
    destruct (bwdRect_ok O (k_so k) dO ds (p_so P) po ps false (d_so d) vo (v_start rhs))
      as (s1 & E8 & N8 & H8); auto. rewrite E8. cbn [bind].
    rewrite (rd_nth vt 0 []) by lia. cbn [bind].
    destruct (bwdRect_ok O (k_sn k) dt ds (p_sn P) pt ps false (d_sn d) (nth 0 vt []) s1)
      as (s2 & E9 & N9 & H9); auto; try (apply M2; lia). rewrite E9. cbn [bind].
    destruct (bwdSelf_ok O (k_sd k) ds (p_sd P) ps true (fst (d_sd d)) s2)
      as (s3 & E10 & N10 & H10); auto. { eapply sd_low; eauto. }
    rewrite E10. cbn [bind]. eexists. split; [reflexivity|]. split; [constructor; auto|].
    intros g Hg. apply in_allIdx in Hg. destruct g as [j|t j|j|j]; cbn [bwdL].
    - rewrite !subl_app, !subl_map.
      change (vat ps s3 j = subl (subl (subl (vat ps (v_start rhs) j) (rowsOf (b_sp (k_so k)) dO j)
         (fun i => (f_so (SF d) i j * vat po vo i)%s)) (rowsOf (b_sp (k_sn k)) dt j)
         (fun i => (f_sn (SF d) i j * vat pt (nth 0 vt []) i)%s)) (rowsOf (b_sp (k_sd k)) ds j)
         (fun i => (f_sd (SF d) i j * vat ps s3 i)%s)).
      rewrite (H10 j Hg) at 1. rewrite (H9 j Hg), (H8 j Hg). rewrite !subf_filter. reflexivity.
    - destruct Hg as [Ht' Hj]. rewrite !subl_app, !subl_map.
      assert (ETD : forall x, subl x (rowsOf (b_sp (k_td k)) dt j)
          (fun i => (lowArrow O n (SF d) (GT t i) (GT t j) * pvec (mkAV s3 vt vl vo) (GT t i))%s) =
          subl x (rowsOf (b_sp (k_td k)) dt j)
          (fun i => (f_td (SF d) t i j * vat pt (nth t vt []) i)%s)).
      { intros x. cbn [lowArrow]. rewrite Nat.eqb_refl. reflexivity. }
      rewrite ETD. clear ETD.
      destruct (Nat.eqb_spec t n) as [->|N].
      + rewrite subl_map. cbn [lowArrow]. rewrite Nat.eqb_refl.
        change (vat pt (nth n vt []) j =
          subl (subl (subl (vat pt (nth n (v_tri rhs) []) j) (rowsOf (b_sp (k_os k)) dO j)
         (fun i => (f_os (SF d) n i j * vat po vo i)%s)) (rowsOf (b_sp (k_lp k)) dl j)
         (fun i => (f_lp (SF d) i j * vat pl vl i)%s)) (rowsOf (b_sp (k_td k)) dt j)
         (fun i => (f_td (SF d) n i j * vat pt (nth n vt []) i)%s)).
        rewrite M3. rewrite (H6 j Hj) at 1. rewrite (H5 j Hj), (H4 j Hj).
        rewrite !subf_filter. reflexivity.
      + rewrite subl_map. cbn [lowArrow].
        rewrite (proj2 (Nat.eqb_neq (t + 1) t)) by lia. rewrite Nat.eqb_refl.
        apply M5; auto; lia.
    - rewrite !subl_app, !subl_map. change (vat pl vl j =
        subl (subl (vat pl (v_link rhs) j) (rowsOf (b_sp (k_ln k)) dO j)
         (fun i => (f_ln (SF d) i j * vat po vo i)%s)) (rowsOf (b_sp (k_ld k)) dl j)
         (fun i => (f_ld (SF d) i j * vat pl vl i)%s)).
      rewrite (H3 j Hg) at 1. rewrite (H2 j Hg). rewrite !subf_filter. reflexivity.
    - rewrite subl_map. specialize (H1 j Hg). rewrite subf_filter in H1. exact H1.
  Qed.
End Solve.
