(** Forward, diagonal and backward substitution with an arrowhead factor. *)
From Coq Require Import List Arith Lia Bool Ring.
From Verif Require Import Base ModelPerm ModelSparsity ModelSymbolic ModelNumeric ModelArrow.
From Verif Require Import SpecSymbolic SpecArrow SpecNumeric SpecArrowNum.
From Verif Require Import ProofBase ProofPerm ProofCsr ProofSparsity ProofFill ProofFill3
  ProofArrowSym ProofDense ProofUpRow ProofUp ProofEntry ProofExact ProofKernel ProofSolve
  ProofLdl ProofSingle ProofArrowRows ProofArrowDense ProofArrowProduct.
Import ListNotations.

Section Solve.
  Context {F : Type} (O : ops F) (FL : fieldLaws O).
  Local Notation get := (getL O).
  Local Notation "0" := (o0 O) : scalar.
  Local Notation "a + b" := (oadd O a b) : scalar.
  Local Notation "a - b" := (osub O a b) : scalar.
  Local Notation "a * b" := (omul O a b) : scalar.
  Local Notation "a / b" := (odiv O a b) : scalar.
  Local Notation sum := (sumn O).
  Local Notation vat := (vat O).
  Add Ring FrS : (fl_ring FL).

  (** ** one block *)

  Lemma cols_sum b nr nc R p q sy L acc i f :
    goodBlk b nr nc R p q sy ->
    subf O acc (cols (b_sp b) i) (fun _ => true) (fun k => (get (b_sp b) L i k * f k)%s) =
    (acc - sum nc (fun k => get (b_sp b) L i k * f k))%s.
  Proof.
    intros G. pose proof G as [W _ r c I _ _ _ _ _]. apply (subf_sum O FL); auto.
    - apply cols_NoDup. eapply goodBlk_gcsr; eauto.
    - intros k Hk. apply cols_In, (wfc_bounds _ W) in Hk. lia.
    - intros k Hk Hn. rewrite getL_out; [ring|]. rewrite <- cols_In. intros Hx. apply Hn; auto.
  Qed.

  Lemma rows_sum b nr nc R p q sy L acc j f :
    goodBlk b nr nc R p q sy ->
    subf O acc (rev (seq 0 nr)) (fun i => nzb (b_sp b) i j) (fun i => (get (b_sp b) L i j * f i)%s) =
    (acc - sum nr (fun i => get (b_sp b) L i j * f i))%s.
  Proof.
    intros G. apply (subf_sum O FL); auto.
    - apply NoDup_rev, seq_NoDup.
    - intros k Hk. apply in_rev, in_seq in Hk. lia.
    - intros k Hk Hn. rewrite getL_out; [ring|]. intros Hx. apply Hn. split.
      + apply in_rev. rewrite rev_involutive. apply in_seq. lia.
      + apply nzb_In. auto.
  Qed.

  Lemma sub_move (a b c : F) : a = (b - c)%s -> b = (a + c)%s.
  Proof. intros ->. ring. Qed.

  Lemma fwdLeft_sum bd bl n m R Rl p pl sy syl Ld Ll sol rhs :
    goodBlk bd n n R p p sy -> goodBlk bl n m Rl p pl syl ->
    (forall i j, R i j -> j < i) ->
    length Ld = c_nnz (b_sp bd) -> length Ll = c_nnz (b_sp bl) ->
    length sol = m -> length rhs = n ->
    exists v, solveForwardSubstitutionLeft O bd Ld bl Ll sol rhs = Ok v /\ length v = n /\
      forall i, i < n -> vat p rhs i =
        (vat p v i + sum m (fun k => get (b_sp bl) Ll i k * vat pl sol k) +
         sum n (fun k => get (b_sp bd) Ld i k * vat p v k))%s.
  Proof.
    intros G Gl Low HL HLl Hs Hr.
    destruct (fwdLeft_ok O bd bl n m R Rl p pl sy syl Ld Ll sol rhs) as (v & E & N & H); auto.
    exists v. split; auto. split; auto. intros i Hi. specialize (H i Hi).
    rewrite (cols_sum bl n m Rl p pl syl) in H by auto.
    rewrite (cols_sum bd n n R p p sy) in H by auto.
    apply sub_move in H. rewrite (sub_move _ _ _ (eq_sym H)). ring.
  Qed.

  Lemma fwdSelf_sum bd n R p sy Ld rhs :
    goodBlk bd n n R p p sy -> (forall i j, R i j -> j < i) ->
    length Ld = c_nnz (b_sp bd) -> length rhs = n ->
    exists v, solveForwardSubstitution O bd Ld None rhs = Ok v /\ length v = n /\
      forall i, i < n -> vat p rhs i =
        (vat p v i + sum n (fun k => get (b_sp bd) Ld i k * vat p v k))%s.
  Proof.
    intros G Low HL Hr.
    destruct (fwdSelf_ok O bd n R p sy Ld rhs) as (v & E & N & H); auto.
    exists v. split; auto. split; auto. intros i Hi. specialize (H i Hi).
    rewrite (cols_sum bd n n R p p sy) in H by auto. apply sub_move. auto.
  Qed.

  Lemma fwdRect_sum b nr nc R prow pcol sy L sol rhs :
    goodBlk b nr nc R prow pcol sy ->
    length L = c_nnz (b_sp b) -> length sol = nc -> length rhs = nr ->
    exists v, solveForwardSubstitution O b L (Some sol) rhs = Ok v /\ length v = nr /\
      forall i, i < nr -> vat prow rhs i =
        (vat prow v i + sum nc (fun k => get (b_sp b) L i k * vat pcol sol k))%s.
  Proof.
    intros G HL Hs Hr.
    destruct (fwdRect_ok O b nr nc R prow pcol sy L sol rhs) as (v & E & N & H); auto.
    exists v. split; auto. split; auto. intros i Hi. specialize (H i Hi).
    rewrite (cols_sum b nr nc R prow pcol sy) in H by auto. apply sub_move. auto.
  Qed.

  Lemma bwdRect_sum b nr nc R prow pcol sy L sol v :
    goodBlk b nr nc R prow pcol sy ->
    length L = c_nnz (b_sp b) -> length sol = nr -> length v = nc ->
    exists v', solveBackwardSubstitution O b L (Some sol) v = Ok v' /\ length v' = nc /\
      forall j, j < nc -> vat pcol v j =
        (vat pcol v' j + sum nr (fun i => get (b_sp b) L i j * vat prow sol i))%s.
  Proof.
    intros G HL Hs Hr.
    destruct (bwdRect_ok O b nr nc R prow pcol sy L sol v) as (v' & E & N & H); auto.
    exists v'. split; auto. split; auto. intros i Hi. specialize (H i Hi).
    rewrite (rows_sum b nr nc R prow pcol sy) in H by auto. apply sub_move. auto.
  Qed.

  Lemma bwdSelf_sum b n R p sy L v :
    goodBlk b n n R p p sy -> (forall i j, R i j -> j < i) ->
    length L = c_nnz (b_sp b) -> length v = n ->
    exists v', solveBackwardSubstitution O b L None v = Ok v' /\ length v' = n /\
      forall j, j < n -> vat p v j =
        (vat p v' j + sum n (fun i => get (b_sp b) L i j * vat p v' i))%s.
  Proof.
    intros G Low HL Hr.
    destruct (bwdSelf_ok O b n R p sy L v) as (v' & E & N & H); auto.
    exists v'. split; auto. split; auto. intros i Hi. specialize (H i Hi).
    rewrite (rows_sum b n n R p p sy) in H by auto. apply sub_move. auto.
  Qed.

  (** ** the whole factor *)

  Section Arrow.
  Variables (s : arrow_sp) (ds dt dl dO : nat) (k : arrow_blks) (P : arrow_pats).
  Hypothesis AG : arrowGood s ds dt dl dO k P.
  Hypothesis AC : arrowChordal P.
  Local Notation ps := (ss_perm (as_start s)).
  Local Notation pt := (st_perm (as_tri s)).
  Local Notation pl := (sl_perm (as_link s)).
  Local Notation po := (so_perm (as_outer s)).
  Local Notation SF := (strictFun O k).

  (** the permuted blocked vector *)
  Definition pvec (v : arrow_vec (F:=F)) (g : gidx) : F := gvecAt O v (permIdx s g).

  Lemma check_ok n d : dataOf k n ds dt dl dO d -> checkNumRepetitionsClassInvariant (F:=F) d = Ok tt.
  Proof.
    intros DO. destruct DO as [_ _ _ Ntd _ Nts _ _ _ _ Nos _ _].
    unfold checkNumRepetitionsClassInvariant, numRepetitions.
    rewrite Nts, Ntd, Nos, !Nat.eqb_refl. reflexivity.
  Qed.

  Record fwdEqs (n : nat) (d : arrow_data (F:=F)) (b y : gidx -> F) : Prop := mkFwdEqs {
    fe_S : forall i, i < ds ->
      b (GS i) = (y (GS i) + sum ds (fun q => f_sd (SF d) i q * y (GS q)))%s;
    fe_T0 : forall i, i < dt ->
      b (GT 0 i) = (y (GT 0 i) + sum ds (fun q => f_sn (SF d) i q * y (GS q)) +
                    sum dt (fun q => f_td (SF d) 0%nat i q * y (GT 0 q)))%s;
    fe_T : forall t i, t < n -> i < dt ->
      b (GT (t + 1) i) = (y (GT (t + 1) i) + sum dt (fun q => f_ts (SF d) t i q * y (GT t q)) +
                    sum dt (fun q => f_td (SF d) (t + 1)%nat i q * y (GT (t + 1) q)))%s;
    fe_L : forall i, i < dl ->
      b (GL i) = (y (GL i) + sum dt (fun q => f_lp (SF d) i q * y (GT n q)) +
                    sum dl (fun q => f_ld (SF d) i q * y (GL q)))%s;
    fe_O : forall i, i < dO ->
      b (GO i) = (y (GO i) + sum ds (fun q => f_so (SF d) i q * y (GS q)) +
                    sum (n + 1) (fun t => sum dt (fun q => f_os (SF d) t i q * y (GT t q))) +
                    sum dl (fun q => f_ln (SF d) i q * y (GL q)) +
                    sum dO (fun q => f_od (SF d) i q * y (GO q)))%s }.

  Lemma arrowForward_ok n d rhs :
    dataOf k n ds dt dl dO d -> vecOf n ds dt dl dO rhs ->
    exists v, arrowForward O k d rhs = Ok v /\ vecOf n ds dt dl dO v /\
      fwdEqs n d (pvec rhs) (pvec v).
  Proof.
    intros DO [Ns Nt Ht Nl No]. unfold arrowForward. rewrite (check_ok n d DO). cbn [bind].
    destruct DO as [[Nsd1 Nsd2] Nsn Nso Ntd Htd Nts Hts Nlp [Nld1 Nld2] Nln Nos Hos [Nod1 Nod2]].
    pose proof AG as [Gsd Gsn Gso Gtd Gts Glp Gld Gln Gos God].
    unfold numRepetitions. rewrite Nts.
    destruct (fwdSelf_sum (k_sd k) ds (p_sd P) ps true (fst (d_sd d)) (v_start rhs))
      as (vs & E1 & N1 & H1); auto. { eapply sd_low; eauto. }
    rewrite E1. cbn [bind].
    rewrite (rd_nth (d_td d) 0 ([], [])) by lia. cbn [bind].
    rewrite (rd_nth (v_tri rhs) 0 []) by lia. cbn [bind].
    destruct (fwdLeft_sum (k_td k) (k_sn k) dt ds (p_td P) (p_sn P) pt ps true false
       (fst (nth 0 (d_td d) ([], []))) (d_sn d) vs (nth 0 (v_tri rhs) []))
      as (t0 & E2 & N2 & H2); auto; try apply Htd; try apply Ht; try lia. { eapply td_low; eauto. }
    rewrite E2. cbn [bind]. rewrite wr_ok by lia. cbn [bind].
    set (f := fun vt i => _).
    destruct (foldM_seq f (fun i vt => length vt = (n + 1)%nat /\
       (forall t, t < n + 1 -> length (nth t vt []) = dt) /\
       nth 0 vt [] = t0 /\
       (forall t, i <= t -> t < n + 1 -> nth t vt [] = nth t (v_tri rhs) []) /\
       (forall t, t + 1 < i -> forall q, q < dt ->
          vat pt (nth (t + 1) (v_tri rhs) []) q =
          (vat pt (nth (t + 1) vt []) q +
           sum dt (fun r => f_ts (SF d) t q r * vat pt (nth t vt []) r) +
           sum dt (fun r => f_td (SF d) (t + 1)%nat q r * vat pt (nth (t + 1) vt []) r))%s))
      1 n (upd (v_tri rhs) 0 t0)) as (vt & E3 & M1 & M2 & M3 & M4 & M5).
    { rewrite upd_length. split; [auto|]. split; [|split; [|split]].
      - intros t Ht'. rewrite nth_upd by lia. destruct (0 =? t); auto.
      - apply nth_upd_eq. lia.
      - intros t H1' H2'. apply nth_upd_neq. lia.
      - intros t Ht'. lia. }
    { intros i vt Hi (M1 & M2 & M3 & M4 & M5). unfold f.
      rewrite (rd_nth (d_td d) i ([], [])) by lia. cbn [bind].
      rewrite (rd_nth vt i []) by lia. cbn [bind].
      rewrite subw_ok by lia. cbn [bind].
      rewrite (rd_nth (d_ts d) (i - 1) []) by lia. cbn [bind].
      rewrite (rd_nth vt (i - 1) []) by lia. cbn [bind].
      destruct (fwdLeft_sum (k_td k) (k_ts k) dt dt (p_td P) (p_ts P) pt pt true false
         (fst (nth i (d_td d) ([], []))) (nth (i - 1) (d_ts d) []) (nth (i - 1) vt []) (nth i vt []))
        as (ti & E & N & H); auto; try (apply Htd; lia); try (apply Hts; lia); try (apply M2; lia).
      { eapply td_low; eauto. }
      rewrite E. cbn [bind]. rewrite wr_ok by lia. eexists. split; [reflexivity|].
      rewrite upd_length. split; [auto|]. split; [|split; [|split]].
      - intros t Ht'. rewrite nth_upd by lia. destruct (i =? t); auto.
      - rewrite nth_upd_neq by lia. auto.
      - intros t Ht1 Ht2. rewrite nth_upd_neq by lia. apply M4; lia.
      - intros t Ht' q Hq. destruct (Nat.eq_dec (t + 1) i) as [Ei|Ne].
        + rewrite (nth_upd_neq vt i t) by lia. rewrite Ei. rewrite nth_upd_eq by lia.
          rewrite <- (M4 i) by lia. replace t with (i - 1)%nat by lia. apply H; auto.
        + rewrite !nth_upd_neq by lia. apply M5; auto. lia. }
    rewrite E3. cbn [bind]. clear f E3.
    rewrite (rd_nth vt n []) by lia. cbn [bind].
    destruct (fwdLeft_sum (k_ld k) (k_lp k) dl dt (p_ld P) (p_lp P) pl pt true false
       (fst (d_ld d)) (d_lp d) (nth n vt []) (v_link rhs))
      as (vl & E4 & N4 & H4); auto; try (apply M2; lia). { eapply ld_low; eauto. }
    rewrite E4. cbn [bind].
    destruct (fwdRect_sum (k_so k) dO ds (p_so P) po ps false (d_so d) vs (v_outer rhs))
      as (o1 & E5 & N5 & H5); auto.
    rewrite E5. cbn [bind].
    set (f := fun vo i => _).
    destruct (foldM_seq f (fun i vo => length vo = dO /\ forall q, q < dO ->
       vat po o1 q = (vat po vo q + sum i (fun t => sum dt (fun r =>
         f_os (SF d) t q r * vat pt (nth t vt []) r)))%s) 0 (n + 1) o1) as (o2 & E6 & N6 & H6).
    { split; auto. intros q Hq. cbn [sumn]. ring. }
    { intros i vo Hi (Nv & Hv). unfold f.
      rewrite (rd_nth (d_os d) i []) by lia. cbn [bind].
      rewrite (rd_nth vt i []) by lia. cbn [bind].
      destruct (fwdRect_sum (k_os k) dO dt (p_os P) po pt false (nth i (d_os d) []) (nth i vt []) vo)
        as (o & E & N & H); auto; try (apply Hos; lia); try (apply M2; lia).
      exists o. split; auto. split; auto. intros q Hq. rewrite Hv by auto. cbn [sumn Nat.add].
      rewrite H by auto. cbn [strictFun f_os]. ring. }
    rewrite E6. cbn [bind]. clear f E6.
    destruct (fwdRect_sum (k_ln k) dO dl (p_ln P) po pl false (d_ln d) vl o2)
      as (o3 & E7 & N7 & H7); auto.
    rewrite E7. cbn [bind].
    destruct (fwdSelf_sum (k_od k) dO (p_od P) po true (fst (d_od d)) o3)
      as (o4 & E8 & N8 & H8); auto. { eapply od_low; eauto. }
    rewrite E8. cbn [bind]. eexists. split; [reflexivity|]. split.
    - constructor; auto.
    - constructor.
      + exact H1.
      + intros i Hi. change (vat pt (nth 0 (v_tri rhs) []) i =
          (vat pt (nth 0 vt []) i + sum ds (fun q => f_sn (SF d) i q * vat ps vs q) +
           sum dt (fun q => f_td (SF d) 0%nat i q * vat pt (nth 0 vt []) q))%s).
        rewrite M3. apply H2; auto.
      + intros t i Hi. apply M5. lia.
      + exact H4.
      + intros i Hi. change (vat po (v_outer rhs) i =
          (vat po o4 i + sum ds (fun q => f_so (SF d) i q * vat ps vs q) +
            sum (n + 1) (fun t => sum dt (fun q => f_os (SF d) t i q * vat pt (nth t vt []) q)) +
            sum dl (fun q => f_ln (SF d) i q * vat pl vl q) +
            sum dO (fun q => f_od (SF d) i q * vat po o4 q))%s).
        rewrite (H5 i Hi), (H6 i Hi), (H7 i Hi), (H8 i Hi). cbn [strictFun f_so f_ln f_od Nat.add]. ring.
  Qed.

  Lemma arrowDiagonal_ok n d rhs :
    dataOf k n ds dt dl dO d -> vecOf n ds dt dl dO rhs ->
    (forall g, In g (allIdx n ds dt dl dO) -> pivotAt O d g <> 0%s) ->
    exists v, arrowDiagonal O k d rhs = Ok v /\ vecOf n ds dt dl dO v /\
      forall g, In g (allIdx n ds dt dl dO) -> (pvec v g * pivotAt O d g)%s = pvec rhs g.
  Proof.
    intros DO [Ns Nt Ht Nl No] HZ. unfold arrowDiagonal. rewrite (check_ok n d DO). cbn [bind].
    destruct DO as [[Nsd1 Nsd2] Nsn Nso Ntd Htd Nts Hts Nlp [Nld1 Nld2] Nln Nos Hos [Nod1 Nod2]].
    pose proof AG as [Gsd Gsn Gso Gtd Gts Glp Gld Gln Gos God].
    unfold numRepetitions. rewrite Nts.
    destruct (diagSolve_ok O (k_sd k) ds (p_sd P) ps true (snd (d_sd d)) (v_start rhs))
      as (vs & E1 & N1 & H1); auto. rewrite E1. cbn [bind].
    set (f := fun vt i => _).
    destruct (foldM_seq f (fun i vt => length vt = (n + 1)%nat /\
       (forall t, t < n + 1 -> length (nth t vt []) = dt) /\
       (forall t, i <= t -> t < n + 1 -> nth t vt [] = nth t (v_tri rhs) []) /\
       (forall t, t < i -> forall q, q < dt -> vat pt (nth t vt []) q =
          (vat pt (nth t (v_tri rhs) []) q / getD O (snd (nth t (d_td d) ([], []))) q)%s))
      0 (n + 1) (v_tri rhs)) as (vt & E2 & M1 & M2 & M3 & M4).
    { split; [auto|]. split; [auto|]. split; [auto|]. intros t Ht'. lia. }
    { intros i vt Hi (M1 & M2 & M3 & M4). unfold f.
      rewrite (rd_nth (d_td d) i ([], [])) by lia. cbn [bind].
      rewrite (rd_nth vt i []) by lia. cbn [bind].
      destruct (diagSolve_ok O (k_td k) dt (p_td P) pt true (snd (nth i (d_td d) ([], []))) (nth i vt []))
        as (ti & E & N & H); auto; try (apply Htd; lia); try (apply M2; lia).
      rewrite E. cbn [bind]. rewrite wr_ok by lia. eexists. split; [reflexivity|].
      rewrite upd_length. split; [auto|]. split; [|split].
      - intros t Ht'. rewrite nth_upd by lia. destruct (i =? t); auto.
      - intros t Ht1 Ht2. rewrite nth_upd_neq by lia. apply M3; lia.
      - intros t Ht' q Hq. destruct (Nat.eq_dec t i) as [->|Ne].
        + rewrite nth_upd_eq by lia. rewrite <- (M3 i) by lia. auto.
        + rewrite !nth_upd_neq by lia. apply M4; auto. lia. }
    rewrite E2. cbn [bind]. clear f E2.
    destruct (diagSolve_ok O (k_ld k) dl (p_ld P) pl true (snd (d_ld d)) (v_link rhs))
      as (vl & E3 & N3 & H3); auto. rewrite E3. cbn [bind].
    destruct (diagSolve_ok O (k_od k) dO (p_od P) po true (snd (d_od d)) (v_outer rhs))
      as (vo & E4 & N4 & H4); auto. rewrite E4. cbn [bind].
    eexists. split; [reflexivity|]. split; [constructor; auto|].
    intros g Hg. specialize (HZ g Hg). apply in_allIdx in Hg. destruct g as [i|t i|i|i].
    - change ((vat ps vs i * getD O (snd (d_sd d)) i)%s = vat ps (v_start rhs) i).
      rewrite H1 by auto. apply (fl_div FL). auto.
    - change ((vat pt (nth t vt []) i * getD O (snd (nth t (d_td d) ([], []))) i)%s =
              vat pt (nth t (v_tri rhs) []) i).
      rewrite M4 by tauto. apply (fl_div FL). auto.
    - change ((vat pl vl i * getD O (snd (d_ld d)) i)%s = vat pl (v_link rhs) i).
      rewrite H3 by auto. apply (fl_div FL). auto.
    - change ((vat po vo i * getD O (snd (d_od d)) i)%s = vat po (v_outer rhs) i).
      rewrite H4 by auto. apply (fl_div FL). auto.
  Qed.

  Record bwdEqs (n : nat) (d : arrow_data (F:=F)) (z x : gidx -> F) : Prop := mkBwdEqs {
    be_O : forall j, j < dO ->
      z (GO j) = (x (GO j) + sum dO (fun i => f_od (SF d) i j * x (GO i)))%s;
    be_L : forall j, j < dl ->
      z (GL j) = (x (GL j) + sum dO (fun i => f_ln (SF d) i j * x (GO i)) +
                  sum dl (fun i => f_ld (SF d) i j * x (GL i)))%s;
    be_Tn : forall j, j < dt ->
      z (GT n j) = (x (GT n j) + sum dO (fun i => f_os (SF d) n i j * x (GO i)) +
                  sum dl (fun i => f_lp (SF d) i j * x (GL i)) +
                  sum dt (fun i => f_td (SF d) n i j * x (GT n i)))%s;
    be_T : forall t j, t < n -> j < dt ->
      z (GT t j) = (x (GT t j) + sum dO (fun i => f_os (SF d) t i j * x (GO i)) +
                  sum dt (fun i => f_ts (SF d) t i j * x (GT (t + 1) i)) +
                  sum dt (fun i => f_td (SF d) t i j * x (GT t i)))%s;
    be_S : forall j, j < ds ->
      z (GS j) = (x (GS j) + sum dO (fun i => f_so (SF d) i j * x (GO i)) +
                  sum dt (fun i => f_sn (SF d) i j * x (GT 0 i)) +
                  sum ds (fun i => f_sd (SF d) i j * x (GS i)))%s }.

  Lemma arrowBackward_ok n d rhs :
    dataOf k n ds dt dl dO d -> vecOf n ds dt dl dO rhs ->
    exists v, arrowBackward O k d rhs = Ok v /\ vecOf n ds dt dl dO v /\
      bwdEqs n d (pvec rhs) (pvec v).
  Proof.
    intros DO [Ns Nt Ht Nl No]. unfold arrowBackward. rewrite (check_ok n d DO). cbn [bind].
    destruct DO as [[Nsd1 Nsd2] Nsn Nso Ntd Htd Nts Hts Nlp [Nld1 Nld2] Nln Nos Hos [Nod1 Nod2]].
    pose proof AG as [Gsd Gsn Gso Gtd Gts Glp Gld Gln Gos God].
    unfold numRepetitions. rewrite Nts.
    destruct (bwdSelf_sum (k_od k) dO (p_od P) po true (fst (d_od d)) (v_outer rhs))
      as (vo & E1 & N1 & H1); auto. { eapply od_low; eauto. }
    rewrite E1. cbn [bind].
    destruct (bwdRect_sum (k_ln k) dO dl (p_ln P) po pl false (d_ln d) vo (v_link rhs))
      as (l1 & E2 & N2 & H2); auto. rewrite E2. cbn [bind].
    destruct (bwdSelf_sum (k_ld k) dl (p_ld P) pl true (fst (d_ld d)) l1)
      as (vl & E3 & N3 & H3); auto. { eapply ld_low; eauto. }
    rewrite E3. cbn [bind].
    rewrite (rd_nth (d_os d) n []) by lia. cbn [bind].
    rewrite (rd_nth (v_tri rhs) n []) by lia. cbn [bind].
    destruct (bwdRect_sum (k_os k) dO dt (p_os P) po pt false (nth n (d_os d) []) vo (nth n (v_tri rhs) []))
      as (t1 & E4 & N4 & H4); auto; try (apply Hos; lia); try (apply Ht; lia). rewrite E4. cbn [bind].
    destruct (bwdRect_sum (k_lp k) dl dt (p_lp P) pl pt false (d_lp d) vl t1)
      as (t2 & E5 & N5 & H5); auto. rewrite E5. cbn [bind].
    rewrite (rd_nth (d_td d) n ([], [])) by lia. cbn [bind].
    destruct (bwdSelf_sum (k_td k) dt (p_td P) pt true (fst (nth n (d_td d) ([], []))) t2)
      as (t3 & E6 & N6 & H6); auto; try (apply Htd; lia). { eapply td_low; eauto. }
    rewrite E6. cbn [bind]. rewrite wr_ok by lia. cbn [bind].
    set (f := fun vt i => _).
    destruct (foldM_rev_seq f (fun i vt => length vt = (n + 1)%nat /\
       (forall t, t < n + 1 -> length (nth t vt []) = dt) /\
       nth n vt [] = t3 /\
       (forall t, t + 1 < i -> nth t vt [] = nth t (v_tri rhs) []) /\
       (forall t, i <= t + 1 -> t < n -> forall j, j < dt ->
          vat pt (nth t (v_tri rhs) []) j =
          (vat pt (nth t vt []) j + sum dO (fun i => f_os (SF d) t i j * vat po vo i) +
           sum dt (fun i => f_ts (SF d) t i j * vat pt (nth (t + 1) vt []) i) +
           sum dt (fun i => f_td (SF d) t i j * vat pt (nth t vt []) i))%s))
      1 n (upd (v_tri rhs) n t3)) as (vt & E7 & M1 & M2 & M3 & M4 & M5).
    { rewrite upd_length. split; [auto|]. split; [|split; [|split]].
      - intros t Ht'. rewrite nth_upd by lia. destruct (n =? t); auto.
      - apply nth_upd_eq. lia.
      - intros t H1'. apply nth_upd_neq. lia.
      - intros t Ht'. lia. }
    { intros i vt Hi (M1 & M2 & M3 & M4 & M5). unfold f.
      rewrite subw_ok by lia. cbn [bind].
      rewrite (rd_nth (d_os d) (i - 1) []) by lia. cbn [bind].
      rewrite (rd_nth vt (i - 1) []) by lia. cbn [bind].
      destruct (bwdRect_sum (k_os k) dO dt (p_os P) po pt false (nth (i - 1) (d_os d) []) vo (nth (i - 1) vt []))
        as (u1 & F1 & Q1 & K1); auto; try (apply Hos; lia); try (apply M2; lia). rewrite F1. cbn [bind].
      rewrite (rd_nth (d_ts d) (i - 1) []) by lia. cbn [bind].
      rewrite (rd_nth vt i []) by lia. cbn [bind].
      destruct (bwdRect_sum (k_ts k) dt dt (p_ts P) pt pt false (nth (i - 1) (d_ts d) []) (nth i vt []) u1)
        as (u2 & F2 & Q2 & K2); auto; try (apply Hts; lia); try (apply M2; lia). rewrite F2. cbn [bind].
      rewrite (rd_nth (d_td d) (i - 1) ([], [])) by lia. cbn [bind].
      destruct (bwdSelf_sum (k_td k) dt (p_td P) pt true (fst (nth (i - 1) (d_td d) ([], []))) u2)
        as (u3 & F3 & Q3 & K3); auto; try (apply Htd; lia). { eapply td_low; eauto. }
      rewrite F3. cbn [bind]. rewrite wr_ok by lia. eexists. split; [reflexivity|].
      rewrite upd_length. split; [auto|]. split; [|split; [|split]].
      - intros t Ht'. rewrite nth_upd by lia. destruct (i - 1 =? t); auto.
      - rewrite nth_upd_neq by lia. auto.
      - intros t Ht1. rewrite nth_upd_neq by lia. apply M4; lia.
      - intros t Ht1 Ht2 j Hj. destruct (Nat.eq_dec t (i - 1)) as [->|Ne].
        + rewrite nth_upd_eq by lia. rewrite nth_upd_neq by lia. rewrite <- M4 by lia.
          replace (i - 1 + 1)%nat with i by lia.
          rewrite (K1 j Hj), (K2 j Hj), (K3 j Hj). cbn [strictFun f_os f_ts f_td]. ring.
        + rewrite !nth_upd_neq by lia. apply M5; auto. lia. }
    rewrite E7. cbn [bind]. clear f E7.
    destruct (bwdRect_sum (k_so k) dO ds (p_so P) po ps false (d_so d) vo (v_start rhs))
      as (s1 & E8 & N8 & H8); auto. rewrite E8. cbn [bind].
    rewrite (rd_nth vt 0 []) by lia. cbn [bind].
    destruct (bwdRect_sum (k_sn k) dt ds (p_sn P) pt ps false (d_sn d) (nth 0 vt []) s1)
      as (s2 & E9 & N9 & H9); auto; try (apply M2; lia). rewrite E9. cbn [bind].
    destruct (bwdSelf_sum (k_sd k) ds (p_sd P) ps true (fst (d_sd d)) s2)
      as (s3 & E10 & N10 & H10); auto. { eapply sd_low; eauto. }
    rewrite E10. cbn [bind]. eexists. split; [reflexivity|]. split; [constructor; auto|].
    constructor.
    - exact H1.
    - intros j Hj. change (vat pl (v_link rhs) j =
        (vat pl vl j + sum dO (fun i => f_ln (SF d) i j * vat po vo i) +
         sum dl (fun i => f_ld (SF d) i j * vat pl vl i))%s).
      rewrite (H2 j Hj), (H3 j Hj). cbn [strictFun f_ln f_ld]. ring.
    - intros j Hj. change (vat pt (nth n (v_tri rhs) []) j =
        (vat pt (nth n vt []) j + sum dO (fun i => f_os (SF d) n i j * vat po vo i) +
         sum dl (fun i => f_lp (SF d) i j * vat pl vl i) +
         sum dt (fun i => f_td (SF d) n i j * vat pt (nth n vt []) i))%s).
      rewrite (H4 j Hj), (H5 j Hj), (H6 j Hj), M3. cbn [strictFun f_os f_lp f_td]. ring.
    - intros t j Ht' Hj. apply M5; auto. lia.
    - intros j Hj. change (vat ps (v_start rhs) j =
        (vat ps s3 j + sum dO (fun i => f_so (SF d) i j * vat po vo i) +
         sum dt (fun i => f_sn (SF d) i j * vat pt (nth 0 vt []) i) +
         sum ds (fun i => f_sd (SF d) i j * vat ps s3 i))%s).
      rewrite (H8 j Hj), (H9 j Hj), (H10 j Hj). cbn [strictFun f_so f_sn f_sd]. ring.
  Qed.
  End Arrow.
End Solve.
