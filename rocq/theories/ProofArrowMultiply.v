(** The block products add the product with the assembled matrix. *)
From Coq Require Import List Arith Lia Bool Ring.
From Verif Require Import Base ModelPerm ModelSparsity ModelSymbolic ModelNumeric ModelArrow.
From Verif Require Import SpecSymbolic SpecArrow SpecNumeric SpecArrowNum.
From Verif Require Import ProofBase ProofExact ProofLdl ProofMultiply ProofArrowProduct.
Import ListNotations.

Section Multiply.
  Context {F : Type} (O : ops F) (FL : fieldLaws O).
  Local Notation "0" := (o0 O) : scalar.
  Local Notation "a + b" := (oadd O a b) : scalar.
  Local Notation "a - b" := (osub O a b) : scalar.
  Local Notation "a * b" := (omul O a b) : scalar.
  Local Notation sum := (sumn O).
  Local Notation vat := (vecAt O).
  Add Ring FrMul : (fl_ring FL).

  Lemma mul_sym m n vals x rhs : matOf O m n n vals -> length x = n -> length rhs = n ->
    exists r, multiply O Symmetric m x rhs = Ok r /\ length r = n /\
      forall i, i < n -> vat r i = (vat rhs i +
        sum n (fun j => kindAt O Symmetric (entries (m_sp m)) vals i j * vat x j))%s.
  Proof.
    intros [S I] Nx Nr. destruct (multiply_ok O FL Symmetric m (m_sp m) vals n n x rhs)
      as (r & E & N & H); auto. rewrite Nr in *. exists r. auto.
  Qed.

  Lemma mul_norm m nr nc vals x rhs : matOf O m nr nc vals -> length x = nc -> length rhs = nr ->
    exists r, multiply O Normal m x rhs = Ok r /\ length r = nr /\
      forall i, i < nr -> vat r i = (vat rhs i +
        sum nc (fun j => totalAt O (entries (m_sp m)) vals i j * vat x j))%s.
  Proof.
    intros [S I] Nx Nr. destruct (multiply_ok O FL Normal m (m_sp m) vals nr nc x rhs)
      as (r & E & N & H); auto; try discriminate. rewrite Nr in *. exists r. auto.
  Qed.

  Lemma mul_trans m nr nc vals x rhs : matOf O m nr nc vals -> length x = nr -> length rhs = nc ->
    exists r, multiply O Transposed m x rhs = Ok r /\ length r = nc /\
      forall i, i < nc -> vat r i = (vat rhs i +
        sum nr (fun j => totalAt O (entries (m_sp m)) vals j i * vat x j))%s.
  Proof.
    intros [S I] Nx Nr. destruct (multiply_ok O FL Transposed m (m_sp m) vals nr nc x rhs)
      as (r & E & N & H); auto; try discriminate. rewrite Nr in *. exists r. auto.
  Qed.

  Lemma tri_multiply_ok n dt A B wA wB x rhs :
    length A = (n + 1)%nat -> length B = n -> length x = (n + 1)%nat -> length rhs = (n + 1)%nat ->
    (forall t, t < n + 1 -> matOf O (nth t A noMat) dt dt (nth t wA [])) ->
    (forall t, t < n -> matOf O (nth t B noMat) dt dt (nth t wB [])) ->
    (forall t, t < n + 1 -> length (nth t x []) = dt) ->
    (forall t, t < n + 1 -> length (nth t rhs []) = dt) ->
    exists r, multiplyRepeatingBlockTridiagonal O A B x rhs = Ok r /\
      length r = (n + 1)%nat /\ (forall t, t < n + 1 -> length (nth t r []) = dt) /\
      forall t i, t < n + 1 -> i < dt ->
        vat (nth t r []) i = (vat (nth t rhs []) i +
          sum (n + 1) (fun u => sum dt (fun j =>
            triAt O (fun t => kindAt O Symmetric (entries (m_sp (nth t A noMat))) (nth t wA []))
                    (fun t => totalAt O (entries (m_sp (nth t B noMat))) (nth t wB []))
                    t i u j * vat (nth u x []) j)))%s.
  Proof.
    intros NA NB Nx Nr HA HB Hx Hr. unfold multiplyRepeatingBlockTridiagonal.
    rewrite NB, NA, Nx, Nr, !Nat.eqb_refl. cbn [pre bind].
    rewrite (rd_nth A 0 noMat) by lia. cbn [bind].
    rewrite (rd_nth x 0 []) by lia. cbn [bind].
    rewrite (rd_nth rhs 0 []) by lia. cbn [bind].
    destruct (mul_sym (nth 0 A noMat) dt (nth 0 wA []) (nth 0 x []) (nth 0 rhs []))
      as (r0 & E0 & N0 & H0); auto; try (apply HA; lia); try (apply Hx; lia); try (apply Hr; lia).
    rewrite E0. cbn [bind]. rewrite wr_ok by lia. cbn [bind].
    set (T := triAt O _ _). set (f := fun rhs i => _).
    destruct (foldM_seq f (fun i r => length r = (n + 1)%nat /\
       (forall t, t < n + 1 -> length (nth t r []) = dt) /\
       (forall t, i < t -> t < n + 1 -> nth t r [] = nth t rhs []) /\
       (forall t q, t <= i -> q < dt -> vat (nth t r []) q = (vat (nth t rhs []) q +
          sum (i + 1) (fun u => sum dt (fun j => T t q u j * vat (nth u x []) j)))%s))
      0 n (upd rhs 0 r0)) as (r & E & M1 & M2 & M3 & M4).
    - rewrite upd_length. split; [auto|]. split; [|split].
      + intros t Ht. rewrite nth_upd by lia. destruct (0 =? t); auto.
      + intros t Ht1 Ht2. apply nth_upd_neq. lia.
      + intros t q Ht Hq. assert (t = 0%nat) by lia. subst. rewrite nth_upd_eq by lia.
        cbn [sumn Nat.add]. rewrite H0 by auto. unfold T, triAt. cbn [Nat.eqb]. ring.
    - intros i r Hi (M1 & M2 & M3 & M4). unfold f.
      rewrite (rd_nth B i noMat) by lia. cbn [bind].
      rewrite (rd_nth x (i + 1) []) by lia. cbn [bind].
      rewrite (rd_nth r i []) by lia. cbn [bind].
      destruct (mul_trans (nth i B noMat) dt dt (nth i wB []) (nth (i + 1) x []) (nth i r []))
        as (a & Ea & Na & Ha); try (apply HB; lia); try (apply Hx; lia); try (apply M2; lia).
      rewrite Ea. cbn [bind]. rewrite wr_ok by lia. cbn [bind].
      rewrite (rd_nth x i []) by lia. cbn [bind].
      rewrite (rd_nth (upd r i a) (i + 1) []) by (rewrite upd_length; lia). cbn [bind].
      rewrite nth_upd_neq by lia.
      destruct (mul_norm (nth i B noMat) dt dt (nth i wB []) (nth i x []) (nth (i + 1) r []))
        as (b & Eb & Nb & Hb); try (apply HB; lia); try (apply Hx; lia); try (apply M2; lia).
      rewrite Eb. cbn [bind]. rewrite (rd_nth A (i + 1) noMat) by lia. cbn [bind].
      destruct (mul_sym (nth (i + 1) A noMat) dt (nth (i + 1) wA []) (nth (i + 1) x []) b)
        as (c & Ec & Nc & Hc); auto; try (apply HA; lia); try (apply Hx; lia).
      rewrite Ec. cbn [bind]. rewrite wr_ok by (rewrite upd_length; lia).
      eexists. split; [reflexivity|]. rewrite !upd_length. split; [auto|]. split; [|split].
      + intros t Ht. rewrite nth_upd by (rewrite upd_length; lia). destruct (i + 1 =? t); auto.
        rewrite nth_upd by lia. destruct (i =? t); auto.
      + intros t Ht1 Ht2. rewrite !nth_upd_neq by lia. apply M3; lia.
      + intros t q Ht Hq. replace (1 + i + 1)%nat with (S (i + 1)) by lia. cbn [sumn].
        destruct (Nat.eq_dec t (i + 1)) as [->|N1].
        * rewrite nth_upd_eq by (rewrite upd_length; lia). rewrite Hc, Hb by auto.
          rewrite (M3 (i + 1)%nat) by lia.
          rewrite (sumn_single O FL (i + 1) _ i).
          -- unfold T, triAt. rewrite !Nat.eqb_refl. destruct (Nat.eqb_spec (i + 1) i); [lia|]. ring.
          -- lia.
          -- intros u Hu Nu. apply (sumn_0 O FL). intros j Hj. unfold T, triAt.
             destruct (Nat.eqb_spec (i + 1) u); [lia|].
             destruct (Nat.eqb_spec (i + 1) (u + 1)); [lia|].
             destruct (Nat.eqb_spec u (i + 1 + 1)); [lia|]. ring.
        * rewrite nth_upd_neq by lia. destruct (Nat.eq_dec t i) as [->|N2].
          -- rewrite nth_upd_eq by lia. rewrite Ha, M4 by (auto; lia).
             assert (EE : sum dt (fun j => totalAt O (entries (m_sp (nth i B noMat))) (nth i wB []) j q *
                        vat (nth (i + 1) x []) j)%s =
                     sum dt (fun j => T i q (i + 1)%nat j * vat (nth (i + 1) x []) j)%s).
             { apply sumn_ext. intros j Hj. unfold T, triAt.
               destruct (Nat.eqb_spec i (i + 1)); [lia|].
               destruct (Nat.eqb_spec i (i + 1 + 1)); [lia|]. rewrite Nat.eqb_refl. auto. }
             rewrite EE. ring.
          -- rewrite nth_upd_neq by lia. rewrite M4 by (auto; lia).
             rewrite (sumn_0 O FL dt); [ring|]. intros j Hj. unfold T, triAt.
             destruct (Nat.eqb_spec t (i + 1)); [lia|].
             destruct (Nat.eqb_spec t (i + 1 + 1)); [lia|].
             destruct (Nat.eqb_spec (i + 1) (t + 1)); [lia|]. ring.
    - rewrite E. exists r. split; auto. split; auto. split; auto.
      intros t i Ht Hi. rewrite M4 by lia. reflexivity.
  Qed.

  (** wrong numbers of blocks *)
  Lemma tri_multiply_counts (A B : list (mat (F:=F))) x rhs :
    ~ (length A = (length B + 1)%nat /\ length x = (length B + 1)%nat /\
       length rhs = (length B + 1)%nat) ->
    multiplyRepeatingBlockTridiagonal O A B x rhs = Err PreViolation.
  Proof.
    intros H. unfold multiplyRepeatingBlockTridiagonal.
    destruct (Nat.eqb_spec (length A) (length B + 1)); cbn [pre bind]; auto.
    destruct (Nat.eqb_spec (length x) (length B + 1)); cbn [pre bind]; auto.
    destruct (Nat.eqb_spec (length rhs) (length B + 1)); cbn [pre bind]; auto.
    exfalso. apply H. auto.
  Qed.

  Lemma arrow_multiply_counts ds dt dO m w x rhs :
    matOf O (a_sd m) ds ds (w_sd w) -> matOf O (a_sn m) dt ds (w_sn w) ->
    matOf O (a_so m) dO ds (w_so w) ->
    length (v_start x) = ds -> length (v_outer x) = dO -> length (v_start rhs) = ds ->
    v_tri x <> [] -> length (nth 0 (v_tri x) []) = dt ->
    v_tri rhs <> [] -> length (nth 0 (v_tri rhs) []) = dt ->
    ~ (length (a_td m) = (length (a_ts m) + 1)%nat /\
       length (v_tri x) = (length (a_ts m) + 1)%nat /\
       length (v_tri rhs) = (length (a_ts m) + 1)%nat) ->
    arrowMultiply O m x rhs = Err PreViolation.
  Proof.
    intros Isd Isn Iso X1 X2 R1 X3 X4 R3 R4 H.
    assert (LX : 0 < length (v_tri x)) by (destruct (v_tri x); [congruence|cbn; lia]).
    assert (LR : 0 < length (v_tri rhs)) by (destruct (v_tri rhs); [congruence|cbn; lia]).
    unfold arrowMultiply.
    destruct (mul_sym (a_sd m) ds (w_sd w) (v_start x) (v_start rhs)) as (s1 & E1 & N1 & H1); auto.
    rewrite E1. cbn [bind]. rewrite (rd_nth (v_tri x) 0 []) by lia. cbn [bind].
    destruct (mul_trans (a_sn m) dt ds (w_sn w) (nth 0 (v_tri x) []) s1) as (s2 & E2 & N2 & H2); auto.
    rewrite E2. cbn [bind].
    destruct (mul_trans (a_so m) dO ds (w_so w) (v_outer x) s2) as (s3 & E3 & N3 & H3); auto.
    rewrite E3. cbn [bind]. rewrite (rd_nth (v_tri rhs) 0 []) by lia. cbn [bind].
    destruct (mul_norm (a_sn m) dt ds (w_sn w) (v_start x) (nth 0 (v_tri rhs) [])) as (t0 & E4 & N4 & H4);
      auto.
    rewrite E4. cbn [bind]. rewrite wr_ok by lia. cbn [bind].
    rewrite tri_multiply_counts; [reflexivity|]. rewrite upd_length. auto.
  Qed.

  Lemma arrow_multiply_ok n ds dt dl dO m w x rhs :
    inputArrow O n ds dt dl dO m w -> vecOf n ds dt dl dO x -> vecOf n ds dt dl dO rhs ->
    exists r, arrowMultiply O m x rhs = Ok r /\ vecOf n ds dt dl dO r /\
      forall g, In g (allIdx n ds dt dl dO) ->
        gvecAt O r g =
        (gvecAt O rhs g + gmatVec O (allIdx n ds dt dl dO) (productAt O m w) (gvecAt O x) g)%s.
  Proof.
    intros [Isd Isn Iso Mtd Itd Mts Its Ilp Ild Iln Mos Ios Iod] [X1 X2 X3 X4 X5] [R1 R2 R3 R4 R5].
    unfold arrowMultiply.
    destruct (mul_sym (a_sd m) ds (w_sd w) (v_start x) (v_start rhs)) as (s1 & E1 & N1 & H1); auto.
    rewrite E1. cbn [bind]. rewrite (rd_nth (v_tri x) 0 []) by lia. cbn [bind].
    destruct (mul_trans (a_sn m) dt ds (w_sn w) (nth 0 (v_tri x) []) s1) as (s2 & E2 & N2 & H2); auto.
    { apply X3. lia. }
    rewrite E2. cbn [bind].
    destruct (mul_trans (a_so m) dO ds (w_so w) (v_outer x) s2) as (s3 & E3 & N3 & H3); auto.
    rewrite E3. cbn [bind]. rewrite (rd_nth (v_tri rhs) 0 []) by lia. cbn [bind].
    destruct (mul_norm (a_sn m) dt ds (w_sn w) (v_start x) (nth 0 (v_tri rhs) [])) as (t0 & E4 & N4 & H4);
      auto. { apply R3. lia. }
    rewrite E4. cbn [bind]. rewrite wr_ok by lia. cbn [bind].
    destruct (tri_multiply_ok n dt (a_td m) (a_ts m) (w_td w) (w_ts w) (v_tri x) (upd (v_tri rhs) 0 t0))
      as (rt & E5 & N5 & N5' & H5); auto; try (rewrite upd_length; auto).
    { intros t Ht. rewrite nth_upd by lia. destruct (0 =? t); auto. }
    rewrite E5. cbn [bind]. rewrite Mts.
    set (f := fun st i => _).
    destruct (foldM_seq f (fun i (st : list (list F) * list F) =>
       length (fst st) = (n + 1)%nat /\ (forall t, t < n + 1 -> length (nth t (fst st) []) = dt) /\
       length (snd st) = dO /\
       (forall t, i <= t -> t < n + 1 -> nth t (fst st) [] = nth t rt []) /\
       (forall t q, t < i -> q < dt -> vat (nth t (fst st) []) q = (vat (nth t rt []) q +
          sum dO (fun j => f_os (multFun O m w) t j q * vat (v_outer x) j))%s) /\
       (forall q, q < dO -> vat (snd st) q = (vat (v_outer rhs) q +
          sum i (fun u => sum dt (fun j => f_os (multFun O m w) u q j * vat (nth u (v_tri x) []) j)))%s))
      0 (n + 1) (rt, v_outer rhs)) as ([rt' ro] & E6 & M1 & M2 & M3 & M4 & M5 & M6).
    { cbn [fst snd]. split; [auto|]. split; [auto|]. split; [auto|]. split; [auto|]. split.
      - intros t q Ht. lia.
      - intros q Hq. cbn [sumn]. ring. }
    { intros i [r o] Hi (M1 & M2 & M3 & M4 & M5 & M6). cbn [fst snd] in *. unfold f.
      rewrite (rd_nth (a_os m) i noMat) by lia. cbn [bind].
      rewrite (rd_nth r i []) by lia. cbn [bind].
      destruct (mul_trans (nth i (a_os m) noMat) dO dt (nth i (w_os w) []) (v_outer x) (nth i r []))
        as (a & Ea & Na & Ha); auto; try (apply Ios; lia); try (apply M2; lia).
      rewrite Ea. cbn [bind]. rewrite wr_ok by lia. cbn [bind].
      rewrite (rd_nth (v_tri x) i []) by lia. cbn [bind].
      destruct (mul_norm (nth i (a_os m) noMat) dO dt (nth i (w_os w) []) (nth i (v_tri x) []) o)
        as (b & Eb & Nb & Hb); auto; try (apply Ios; lia); try (apply X3; lia).
      rewrite Eb. cbn [bind]. eexists. split; [reflexivity|]. cbn [fst snd]. rewrite upd_length.
      split; [auto|]. split; [|split; [auto|split; [|split]]].
      - intros t Ht. rewrite nth_upd by lia. destruct (i =? t); auto.
      - intros t Ht1 Ht2. rewrite nth_upd_neq by lia. apply M4; lia.
      - intros t q Ht Hq. destruct (Nat.eq_dec t i) as [->|N].
        + rewrite nth_upd_eq by lia. rewrite Ha by auto. rewrite (M4 i) by lia. reflexivity.
        + rewrite nth_upd_neq by lia. apply M5; auto. lia.
      - intros q Hq. rewrite Hb, M6 by auto. cbn [sumn Nat.add]. cbn [multFun f_os]. ring. }
    rewrite E6. cbn [bind]. cbn [fst snd] in *. clear f E6.
    rewrite (rd_nth rt' n []) by lia. cbn [bind].
    destruct (mul_trans (a_lp m) dl dt (w_lp w) (v_link x) (nth n rt' [])) as (tn & E7 & N7 & H7); auto.
    { apply M2. lia. }
    rewrite E7. cbn [bind]. rewrite wr_ok by lia. cbn [bind].
    rewrite (rd_nth (v_tri x) n []) by lia. cbn [bind].
    destruct (mul_norm (a_lp m) dl dt (w_lp w) (nth n (v_tri x) []) (v_link rhs)) as (l1 & E8 & N8 & H8);
      auto. { apply X3. lia. }
    rewrite E8. cbn [bind].
    destruct (mul_trans (a_ln m) dO dl (w_ln w) (v_outer x) l1) as (l2 & E9 & N9 & H9); auto.
    rewrite E9. cbn [bind].
    destruct (mul_sym (a_ld m) dl (w_ld w) (v_link x) l2) as (l3 & E10 & N10 & H10); auto.
    rewrite E10. cbn [bind].
    destruct (mul_norm (a_so m) dO ds (w_so w) (v_start x) ro) as (o1 & E11 & N11 & H11); auto.
    rewrite E11. cbn [bind].
    destruct (mul_norm (a_ln m) dO dl (w_ln w) (v_link x) o1) as (o2 & E12 & N12 & H12); auto.
    rewrite E12. cbn [bind].
    destruct (mul_sym (a_od m) dO (w_od w) (v_outer x) o2) as (o3 & E13 & N13 & H13); auto.
    rewrite E13. cbn [bind]. eexists. split; [reflexivity|]. split.
    { constructor; cbn [v_start v_tri v_link v_outer]; auto.
      - rewrite upd_length. auto.
      - intros t Ht. rewrite nth_upd by lia. destruct (n =? t); auto. }
    intros g. rewrite in_allIdx. unfold gmatVec, productAt. rewrite Mts, (suml_allIdx O FL).
    destruct g as [i|t i|i|i]; intros Hg; cbn [gvecAt v_start v_tri v_link v_outer symArrow].
    - rewrite H3, H2, H1 by auto.
      rewrite (sumn_single O FL (n + 1) _ 0%nat).
      + cbn [Nat.eqb]. rewrite (sumn_0 O FL dl) by (intros; ring). cbn [multFun f_sd f_sn f_so]. ring.
      + lia.
      + intros v Hv N. destruct v; [lia|]. cbn [Nat.eqb]. apply (sumn_0 O FL). intros; ring.
    - destruct Hg as [Ht Hi].
      change (fun t => sum dt (fun j => _)) with 
        (fun u => sum dt (fun j => triAt O (f_td (multFun O m w)) (f_ts (multFun O m w)) t i u j *
                                   vat (nth u (v_tri x) []) j))%s.
      set (TT := sum (n + 1) _).
      assert (HT : vat (nth t (upd rt' n tn) []) i =
        (vat (nth t rt' []) i + (if t =? n then
           sum dl (fun j => f_lp (multFun O m w) j i * vat (v_link x) j) else 0))%s).
      { destruct (Nat.eqb_spec t n) as [->|N].
        - rewrite nth_upd_eq by lia. rewrite H7 by auto. reflexivity.
        - rewrite nth_upd_neq by lia. ring. }
      rewrite HT, M5, H5 by (auto; lia). clear HT.
      assert (H0 : vat (nth t (upd (v_tri rhs) 0 t0) []) i = (vat (nth t (v_tri rhs) []) i +
         (if t =? 0 then sum ds (fun j => f_sn (multFun O m w) i j * vat (v_start x) j) else 0))%s).
      { destruct (Nat.eqb_spec t 0) as [->|N].
        - rewrite nth_upd_eq by lia. rewrite H4 by auto. reflexivity.
        - rewrite nth_upd_neq by lia. ring. }
      rewrite H0. clear H0.
      assert (Z1 : sum ds (fun j => (if t =? 0 then f_sn (multFun O m w) i j else 0) * vat (v_start x) j)%s =
         if t =? 0 then sum ds (fun j => f_sn (multFun O m w) i j * vat (v_start x) j)%s else 0%s).
      { destruct (t =? 0); auto. apply (sumn_0 O FL). intros; ring. }
      assert (Z2 : sum dl (fun j => (if t =? n then f_lp (multFun O m w) j i else 0) * vat (v_link x) j)%s =
         if t =? n then sum dl (fun j => f_lp (multFun O m w) j i * vat (v_link x) j)%s else 0%s).
      { destruct (t =? n); auto. apply (sumn_0 O FL). intros; ring. }
      rewrite Z1, Z2. unfold TT. cbn [multFun f_td f_ts]. ring.
    - rewrite H10, H9, H8 by auto.
      rewrite (sumn_single O FL (n + 1) _ n).
      + rewrite Nat.eqb_refl. rewrite (sumn_0 O FL ds) by (intros; ring).
        cbn [multFun f_lp f_ln f_ld]. ring.
      + lia.
      + intros v Hv N. destruct (Nat.eqb_spec v n); [lia|]. apply (sumn_0 O FL). intros; ring.
    - rewrite H13, H12, H11, M6 by auto. cbn [multFun f_so f_os f_ln f_od Nat.add]. ring.
  Qed.
End Multiply.
