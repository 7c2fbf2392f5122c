(** Rounded solves with the factorization of a positive definite matrix neither overflow
    nor divide by zero, over any finite index set. *)
From Coq Require Import Reals Lra Lia List Arith Bool Psatz.
From Verif Require Import ModelNumeric SpecNumeric SpecReg SpecRound SpecDomFloat SpecPosFloat.
From Verif Require Import ProofExact ProofArrowSub ProofChain ProofRound ProofDomReal ProofDomFloat ProofDomSolve
  ProofPosReal ProofPosFloat.
Import ListNotations.
Local Open Scope R_scope.
Local Notation rsum := (suml Or).

Section Solve.
  Context {F : Type} (O : ops F) (fin : F -> Prop) (val : F -> R) (u eta Om : R).
  Context (RO : rounding O fin val u eta) (NO : noOverflow O fin val Om).
  Context {I : Type} (dec : forall a b : I, {a = b} + {a <> b}).
  Variables (all : list I) (row col : I -> list I) (rk : I -> nat).
  Variables (A' L' : I -> I -> F) (D' : I -> F) (b y z x : I -> F).
  Hypothesis RG : rowsGood O all row A' L'.
  Hypothesis CG : colsGood all row col.
  Hypothesis RI : forall g h, In g all -> In h all -> rk g = rk h -> g = h.
  Hypothesis RL : forall g h, In g all -> In h (row g) -> (rk h < rk g)%nat.
  Hypothesis FE : forwardEq O all row L' b y.
  Hypothesis DE : diagonalEq O all D' y z.
  Hypothesis BE : backwardEq O all L' col z x.
  Variables (lam amin amax B : R) (m : nat).
  Local Notation q := (/ (1 - u)).
  Local Notation A g h := (val (A' g h)).
  Local Notation L g h := (val (L' g h)).
  Local Notation D g := (val (D' g)).
  Local Notation aL g h := (Rabs (val (L' g h))).
  Local Notation n := (INR (length all)).
  Local Notation ga := (q ^ S m - 1).
  Local Notation et := (eta * (INR (length all) * (4 + 12 * amax))).
  Local Notation dmin := (lam / 4 * amin).
  Local Notation U := (unitOf dec (fun g k => L g k)).
  Hypothesis MR : forall g, In g all -> (length (row g) <= m)%nat.
  Hypothesis MC : forall g, In g all -> (length (col g) <= m)%nat.
  Hypothesis L0 : 0 < lam.
  Hypothesis L1 : lam <= 1.
  Hypothesis PD : positiveBy all (fun g h => A g h) lam.
  Hypothesis RNG : forall g, In g all -> amin <= A g g <= amax.
  Hypothesis AMIN : 0 < amin.
  Hypothesis GA : 16 * ((INR m + 1) * ga) <= lam.
  Hypothesis ET : 16 * (n * et) <= lam * amin.
  Hypothesis FL : forall g h, In g all -> In h (row g) -> fin (L' g h).
  Hypothesis FD : forall g, In g all -> fin (D' g).
  Hypothesis DR : forall g, In g all -> dmin <= D g <= 2 * amax.
  Hypothesis ER : forall j k, In j all -> In k all ->
    Rabs (A j k - rsum all (fun i => U j i * D i * U k i)) <= ga * rsum all (fun i => Rabs (U j i * D i * U k i)) + et.
  Hypothesis PJ : forall j, In j all -> rsum all (fun i => U j i * U j i * Rabs (D i)) <= 2 * A j j.
  Hypothesis FB : forall g, In g all -> fin (b g).
  Hypothesis BB : forall g, In g all -> Rabs (val (b g)) <= B.
  Hypothesis BM : amin <= B.
  Hypothesis OB : 64 * (n * (B * amax)) <= lam * amin * Om.
  Hypothesis OX : 64 * (n * B) <= lam * lam * amin * Om.

  Lemma v_supp i : In i all -> supp all (fun j => U j i) (S m).
  Proof. apply (p_supp O fin val u eta RO dec all row col rk A' L' RG CG RI m MC). Qed.
  Lemma v_Ulow j i : In j all -> In i all -> (rk j < rk i)%nat -> U j i = 0.
  Proof. apply (p_Ulow O fin val u eta RO dec all row rk A' L' RG RL). Qed.
  Lemma v_U1 i : U i i = 1.
  Proof. unfold unitOf. destruct (dec i i); congruence. Qed.
  Lemma v_Une j i : j <> i -> U j i = L j i.
  Proof. intros N. unfold unitOf. destruct (dec j i); congruence. Qed.
  Lemma v_out g h : In g all -> In h all -> ~ In h (row g) -> L g h = 0.
  Proof. intros. rewrite (rg_L _ _ _ _ _ RG) by auto. apply RO. Qed.
  Lemma v_rowin g k : In g all -> In k (row g) -> In k all.
  Proof. apply (rg_in _ _ _ _ _ RG). Qed.

  Lemma v_ga0 : 0 <= ga.
  Proof. exact (p_ga0 O fin val u eta RO m). Qed.
  Lemma v_gal : 16 * ga <= lam.
  Proof. exact (p_gal O fin val u eta RO lam m GA). Qed.
  Lemma v_e0 : 0 <= eta. Proof. exact (eta_pos O fin val u eta RO). Qed.
  Lemma v_qm j : (j <= S m)%nat -> 1 <= q ^ j <= 17 / 16.
  Proof.
    intros H. pose proof (qpow_le O fin val u eta RO j (S m) H) as X. pose proof (qpow_ge1 O fin val u eta RO j) as Y.
    cbv zeta in *. pose proof v_gal. lra.
  Qed.

  Section Some.
  Variable g0 : I.
  Hypothesis Hg0 : In g0 all.
  Lemma v_n1 : 1 <= n.
  Proof. destruct all; [destruct Hg0|]. cbn [length]. rewrite S_INR. pose proof (pos_INR (length l)). lra. Qed.
  Lemma v_amax : amin <= amax. Proof. pose proof (RNG g0 Hg0). lra. Qed.
  Lemma v_et0 : 0 <= et.
  Proof. pose proof v_e0. pose proof v_n1. pose proof v_amax. apply Rmult_le_pos; nra. Qed.
  Lemma v_ets : 16 * et <= lam * amin.
  Proof. pose proof v_n1. pose proof v_et0. set (e := et) in *. assert (e <= n * e) by nra. lra. Qed.
  Lemma v_ne : 4 * (n * eta) <= et.
  Proof.
    pose proof v_e0. pose proof v_n1. pose proof v_amax.
    replace (4 * (n * eta)) with (eta * (n * 4)) by ring. apply Rmult_le_compat_l; auto.
    apply Rmult_le_compat_l; lra.
  Qed.
  Lemma v_small : 64 * (n * eta) <= amin.
  Proof. pose proof v_ne. pose proof v_ets. assert (lam * amin <= 1 * amin) by (apply Rmult_le_compat_r; lra). lra. Qed.
  End Some.

  (** one component *)
  Lemma v_sub (a : F) (cs : list I) (l v : I -> F) (V : R) : fin a -> NoDup cs ->
    (length cs <= m)%nat -> (forall k, In k cs -> In k all) ->
    (forall k, In k cs -> fin (l k) /\ fin (v k)) ->
    rsum cs (fun k => Rabs (val (l k) * val (v k))) <= V -> 
    17 / 16 * (Rabs (val a) + V + 2 * (n * eta)) <= Om ->
    let r := subl O a cs (fun k => omul O (l k) (v k)) in
    fin r /\ Rabs (val a - (val r + rsum cs (fun k => val (l k) * val (v k)))) <=
      ga * (Rabs (val r) + rsum cs (fun k => Rabs (val (l k) * val (v k)))) + 4 * (n * eta).
  Proof.
    intros Fa ND Lc Hc Hk HV HO r. set (S := rsum cs (fun k => Rabs (val (l k) * val (v k)))) in *.
    assert (S0 : 0 <= S) by (apply rsum_pos; intros; apply Rabs_pos).
    pose proof v_e0 as E0. pose proof (pos_INR (length all)) as N0. assert (NE : 0 <= n * eta) by (apply Rmult_le_pos; auto).
    pose proof v_ga0 as G0. pose proof v_gal as GL. pose proof (Rabs_pos (val a)) as PA.
    destruct (sub_make O fin val u eta Om RO NO all m a cs l v (Rabs (val a) + S + 2 * (n * eta))) as [Fr Br]; auto.
    - intros k Hin. destruct (Hk k Hin) as [K1 K2]. split; auto. split; auto.
      apply Rle_trans with S; [|lra].
      clear -Hin. unfold S. induction cs as [|c cs IH]; [destruct Hin|]. rewrite rsum_cons.
      assert (0 <= rsum cs (fun k => Rabs (val (l k) * val (v k)))) by (apply rsum_pos; intros; apply Rabs_pos).
      destruct Hin as [<-|Hin]; [lra|]. specialize (IH Hin). pose proof (Rabs_pos (val (l c) * val (v c))). lra.
    - apply Rle_trans with (17 / 16 * (Rabs (val a) + V + 2 * (n * eta))); [|exact HO].
      apply Rmult_le_compat; lra.
    - split; auto. fold r in Fr.
      pose proof (appr_subl O fin val u eta RO 0 cs (fun _ => 1) (fun k => val (l k) * val (v k))
        (fun k => omul O (l k) (v k)) a) as H.
      specialize (H ltac:(intros k _; apply (term_mul O fin val u eta RO))). fold r in H. specialize (H Fr).
      cbv beta in H. rewrite (rsum_const cs) in H. fold S in H.
      apply (appr_mono O fin val u eta RO 0 _ (Datatypes.S m) _ (2 * n)) in H; [|lia|].
      + destruct H as (_ & _ & H). rewrite Nat.add_0_r in H.
        replace (val a - (val r + rsum cs (fun k => val (l k) * val (v k))))
          with (val a - val r - rsum cs (fun k => val (l k) * val (v k))) by ring.
        eapply Rle_trans; [exact H|]. pose proof (v_qm (Datatypes.S m) (Nat.le_refl _)) as Q.
        assert (eta * (2 * n) * q ^ Datatypes.S m <= eta * (2 * n) * 2) by (apply Rmult_le_compat_l; lra).
        lra.
      + assert (INR (length cs) <= n) by (apply le_INR, NoDup_incl_length; auto). lra.
  Qed.

  (** ** forward *)
  Local Notation ly i := (val (y i) / D i).
  Local Notation Tb t := (rsum all (fun i => if (rk i <? t)%nat then val (y i) * val (y i) / D i else 0)).
  Definition fwdOk (k : I) : Prop :=
    fin (y k) /\ Rabs (val (b k) - rsum all (fun i => val (y i) * U k i)) <=
      ga * rsum all (fun i => Rabs (val (y i) * U k i)) + et.

  Lemma D0 i : In i all -> 0 < D i.
  Proof. intros Hi. pose proof (DR i Hi). assert (0 < dmin) by nra. lra. Qed.

  Lemma v_prefix g t : In g all -> (forall k, In k all -> (rk k < t)%nat -> fwdOk k) ->
    lam * amin * Tb t <= 5 * n * (B * B).
  Proof.
    intros Hg HE.
    set (P := fun i => (rk i <? t)%nat). set (l := fun i => if P i then ly i else 0).
    assert (PT : forall i, P i = true -> (rk i < t)%nat) by (intros i H; apply Nat.ltb_lt; auto).
    assert (PF : forall i, P i = false -> (t <= rk i)%nat) by (intros i H; apply Nat.ltb_ge; auto).
    destruct (tri_solve dec all rk U P l (rg_all _ _ _ _ _ RG) RI (fun i _ => v_U1 i) v_Ulow) as (w & W1 & W2).
    assert (LE : forall k, P k = true -> In k all -> forall i, In i all -> l i * D i * U k i = val (y i) * U k i).
    { intros k Pk Hk i Hi. unfold l. destruct (P i) eqn:Pi.
      - field. pose proof (D0 i Hi). lra.
      - rewrite (v_Ulow k i); [ring|auto|auto|]. specialize (PT k Pk). specialize (PF i Pi). lia. }
    assert (TE : T all (fun i => D i) l = Tb t).
    { apply rsum_ext. intros i Hi. unfold l, P. pose proof (D0 i Hi). destruct (rk i <? t)%nat; [field; lra|ring]. }
    rewrite <- TE.
    apply (rhs_bound dec all U (fun g h => A g h) (fun i => D i) l (fun k => val (b k)) w P ga et (et / amin) amin (S m)); auto.
    - apply RG.
    - intros j i Hj Hi Pj Pi. apply v_Ulow; auto. specialize (PT j Pj). specialize (PF i Pi). lia.
    - intros i Hi _. left. apply D0; auto.
    - intros i Hi Pi. unfold l. rewrite Pi. auto.
    - apply v_ga0.
    - apply Rmult_le_pos; [apply (v_et0 g Hg)|left; apply Rinv_0_lt_compat; auto].
    - right. field. lra.
    - intros j Hj. apply RNG; auto.
    - intros k Hk Pk.
      rewrite (rsum_ext all (fun i => l i * D i * U k i) (fun i => val (y i) * U k i)) by (apply LE; auto).
      rewrite (rsum_ext all (fun i => Rabs (l i * D i * U k i)) (fun i => Rabs (val (y i) * U k i)))
        by (intros; f_equal; apply LE; auto).
      apply HE; auto.
    - apply v_supp.
    - exact (p_SM O fin val u eta RO all lam amin amax m AMIN GA ET g Hg).
    - apply (v_n1 g Hg).
    - lia.
  Qed.

  (** the sums of a row *)
  Lemma v_rowsum g t : In g all -> (rk g <= t)%nat -> lam * amin * Tb t <= 5 * n * (B * B) ->
    lam * amin * rsum (row g) (fun k => Rabs (L g k * val (y k))) <= 13 / 4 * (n * (B * amax)).
  Proof.
    intros Hg Hl HT. pose proof (v_n1 g Hg) as N1. pose proof (v_amax g Hg) as AX.
    set (s := 2 * n * B / (lam * amin)).
    assert (LA : 0 < lam * amin) by (apply Rmult_lt_0_compat; auto).
    assert (s0 : 0 < s).
    { apply Rdiv_lt_0_compat; auto. nra. }
    assert (S1 : 2 * rsum (row g) (fun k => Rabs (L g k * val (y k))) <= s * (2 * amax) + / s * Tb t).
    { apply Rle_trans with (rsum (row g) (fun k => s * (L g k * L g k * D k) + / s * (val (y k) * val (y k) / D k))).
      - rewrite <- rsum_scal. apply rsum_le. intros k Hk. assert (Ha := v_rowin g k Hg Hk). pose proof (D0 k Ha) as DK.
        pose proof (Rle_0_sqr (s * D k * aL g k - Rabs (val (y k)))) as Q. unfold Rsqr in Q. rewrite Rabs_mult.
        apply Rmult_le_reg_l with (s * D k); [apply Rmult_lt_0_compat; auto|].
        replace (s * D k * (s * (L g k * L g k * D k) + / s * (val (y k) * val (y k) / D k)))
          with (s * D k * (s * D k) * (L g k * L g k) + val (y k) * val (y k)) by (field; lra).
        rewrite <- (sqr_abs (L g k)), <- (sqr_abs (val (y k))). lra.
      - rewrite rsum_plus, !rsum_scal. apply Rplus_le_compat.
        + apply Rmult_le_compat_l; [lra|]. eapply Rle_trans; [|apply Rle_trans with (2 * A g g); [exact (PJ g Hg)|pose proof (RNG g Hg); lra]].
          apply Rle_trans with (rsum (row g) (fun i => U g i * U g i * Rabs (D i))).
          * apply rsum_le. intros k Hk. rewrite v_Une by (intros ->; eapply (rg_irr _ _ _ _ _ RG k); eauto).
            apply Rmult_le_compat_l; [apply Rle_0_sqr|apply Rle_abs].
          * apply (rsum_sub_le dec); [eapply rg_nodup; eauto|apply RG|intros k Hk; eapply v_rowin; eauto|].
            intros i _. apply Rmult_le_pos; [apply Rle_0_sqr|apply Rabs_pos].
        + apply Rmult_le_compat_l; [left; apply Rinv_0_lt_compat; auto|].
          rewrite (rsum_ext (row g) _ (fun i => if (rk i <? t)%nat then val (y i) * val (y i) / D i else 0)).
          * apply (rsum_sub_le dec); [eapply rg_nodup; eauto|apply RG|intros k Hk; eapply v_rowin; eauto|].
            intros i Hi. destruct (rk i <? t)%nat; [|lra]. apply Rmult_le_pos; [apply Rle_0_sqr|].
            left. apply Rinv_0_lt_compat, D0; auto.
          * intros k Hk. assert (rk k < t)%nat by (pose proof (RL g k Hg Hk); lia). rewrite (proj2 (Nat.ltb_lt _ _) H). auto. }
    assert (S2 : lam * amin * (s * (2 * amax)) = 4 * (n * (B * amax))) by (unfold s; field; lra).
    assert (S3 : lam * amin * (/ s * Tb t) <= 5 / 2 * (B * (lam * amin))).
    { replace (lam * amin * (/ s * Tb t)) with (/ s * (lam * amin * Tb t)) by ring.
      apply Rle_trans with (/ s * (5 * n * (B * B))).
      - apply Rmult_le_compat_l; auto. left. apply Rinv_0_lt_compat; auto.
      - right. unfold s. field. lra. }
    assert (S4 : B * (lam * amin) <= n * (B * amax)).
    { replace (n * (B * amax)) with (B * (n * amax)) by ring. apply Rmult_le_compat_l; [lra|].
      assert (lam * amin <= 1 * amin) by (apply Rmult_le_compat_r; lra).
      assert (1 * amax <= n * amax) by (apply Rmult_le_compat_r; lra). lra. }
    apply Rmult_le_compat_l with (r := lam * amin) in S1; [|lra].
    lra.
  Qed.

  Lemma v_forward N : forall g, In g all -> (rk g < N)%nat -> fwdOk g.
  Proof.
    induction N as [|N IH]; intros g Hg Lg; [lia|].
    assert (IH' : forall k, In k all -> (rk k < rk g)%nat -> fwdOk k) by (intros; apply IH; auto; lia). clear IH.
    pose proof (v_prefix g (rk g) Hg IH') as HT.
    pose proof (v_rowsum g (rk g) Hg (Nat.le_refl _) HT) as HS.
    pose proof (v_n1 g Hg) as N1. pose proof (v_amax g Hg) as AX. pose proof (v_small g Hg) as SM.
    assert (LA : 0 < lam * amin) by (apply Rmult_lt_0_compat; auto).
    assert (LA1 : lam * amin <= 1 * amin) by (apply Rmult_le_compat_r; lra).
    assert (S4 : B * (lam * amin) <= n * (B * amax)).
    { replace (n * (B * amax)) with (B * (n * amax)) by ring. apply Rmult_le_compat_l; [lra|].
      assert (1 * amax <= n * amax) by (apply Rmult_le_compat_r; lra). lra. }
    set (S := rsum (row g) (fun k => Rabs (L g k * val (y k)))) in *.
    destruct (v_sub (b g) (row g) (L' g) y S) as [Fy Ey].
    - auto.
    - eapply rg_nodup; eauto.
    - auto.
    - intros k Hk. eapply v_rowin; eauto.
    - intros k Hk. split; [auto|]. apply IH'; [eapply v_rowin; eauto|apply RL; auto].
    - apply Rle_refl.
    - pose proof (BB g Hg). apply Rmult_le_reg_l with (lam * amin); auto.
      assert (lam * amin * Rabs (val (b g)) <= lam * amin * B) by (apply Rmult_le_compat_l; lra).
      assert (lam * amin * (2 * (n * eta)) <= lam * amin * B) by (apply Rmult_le_compat_l; lra).
      assert (0 <= B * (lam * amin)) by (apply Rmult_le_pos; lra).
      lra.
    - rewrite <- (FE g Hg) in Fy, Ey. split; auto.
      assert (X : forall f, f 0 = 0 -> rsum all (fun i => f (val (y i) * U g i)) =
        f (val (y g)) + rsum (row g) (fun k => f (L g k * val (y k)))).
      { intros f f0. rewrite (rsum_remove dec all g) by (auto; apply RG). rewrite v_U1, Rmult_1_r. f_equal.
        rewrite (rsum_ext (remove dec g all) _ (fun k => f (L g k * val (y k)))).
        2:{ intros i Hi. apply in_remove in Hi. rewrite v_Une by (intros E; apply Hi; auto). f_equal. ring. }
        apply (rsum_sub dec).
        - eapply rg_nodup; eauto.
        - apply remove_NoDup; apply RG.
        - intros k Hk. apply in_in_remove; [intros ->; eapply (rg_irr _ _ _ _ _ RG g); eauto|eapply v_rowin; eauto].
        - intros k Hk Hn. apply in_remove in Hk. rewrite (v_out g k) by tauto. rewrite Rmult_0_l. auto. }
      rewrite (X (fun v => v) eq_refl), (X Rabs Rabs_R0).
      eapply Rle_trans; [exact Ey|]. pose proof (v_ne g Hg). fold S. lra.
  Qed.

  Lemma v_y g : In g all -> fwdOk g.
  Proof. intros Hg. apply (v_forward (S (rk g))); auto. Qed.

  (** ** diagonal *)
  Local Notation Ty := (rsum all (fun i => val (y i) * val (y i) / D i)).
  Lemma v_T g : In g all -> lam * amin * Ty <= 5 * n * (B * B).
  Proof.
    intros Hg. pose proof (v_prefix g (S (list_max (map rk all))) Hg (fun k Hk _ => v_y k Hk)) as H.
    eapply Rle_trans; [|exact H]. right. f_equal. apply rsum_ext. intros i Hi.
    replace (rk i <? S (list_max (map rk all)))%nat with true; auto. symmetry. apply Nat.ltb_lt.
    pose proof (proj1 (list_max_le (map rk all) _) (Nat.le_refl _)) as X. rewrite Forall_forall in X.
    specialize (X (rk i) (in_map _ _ _ Hi)). lia.
  Qed.

  Lemma Ty_pos i : In i all -> 0 <= val (y i) * val (y i) / D i.
  Proof. intros Hi. apply Rmult_le_pos; [apply Rle_0_sqr|]. left. apply Rinv_0_lt_compat, D0; auto. Qed.

  Lemma v_quot g : In g all -> lam * amin * Rabs (ly g) <= 5 * (n * B).
  Proof.
    intros Hg. pose proof (v_T g Hg) as HT. pose proof (D0 g Hg) as DG. pose proof (DR g Hg) as DB.
    pose proof (v_n1 g Hg) as N1. assert (LA : 0 < lam * amin) by (apply Rmult_lt_0_compat; auto).
    assert (H1 : val (y g) * val (y g) / D g <= Ty).
    { rewrite (rsum_remove dec all g) by (auto; apply RG).
      assert (0 <= rsum (remove dec g all) (fun i => val (y i) * val (y i) / D i)).
      { apply rsum_pos. intros i Hi. apply in_remove in Hi. apply Ty_pos; tauto. } lra. }
    apply sqr_le; [nra|].
    replace (lam * amin * Rabs (ly g) * (lam * amin * Rabs (ly g)))
      with (lam * amin * (lam * amin) * (Rabs (ly g) * Rabs (ly g))) by ring.
    rewrite sqr_abs.
    assert (H2 : ly g * ly g * D g <= Ty) by (eapply Rle_trans; [|exact H1]; right; field; lra).
    assert (H3 : ly g * ly g * dmin <= ly g * ly g * D g) by (apply Rmult_le_compat_l; [apply Rle_0_sqr|lra]).
    assert (H4 : lam * amin * (ly g * ly g * dmin) <= 5 * n * (B * B)).
    { eapply Rle_trans; [|exact HT]. apply Rmult_le_compat_l; lra. }
    assert (BP : 0 <= B * B) by apply Rle_0_sqr.
    assert (H5 : n * 1 * (B * B) <= n * n * (B * B)) by (apply Rmult_le_compat_r; auto; apply Rmult_le_compat_l; lra).
    assert (0 <= n * n * (B * B)) by (apply Rmult_le_pos; auto; nra). lra.
  Qed.

  Lemma v_z g : In g all -> fin (z g) /\ Rabs (val (z g)) <= 17 / 16 * Rabs (ly g) + eta.
  Proof.
    intros Hg. destruct (v_y g Hg) as [Fy _]. pose proof (v_quot g Hg) as QB. pose proof (D0 g Hg) as DG.
    pose proof (v_n1 g Hg) as N1. assert (LA : 0 < lam * amin) by (apply Rmult_lt_0_compat; auto).
    assert (LA1 : lam * amin * lam <= lam * amin * 1) by (apply Rmult_le_compat_l; lra).
    assert (NB : 0 <= n * B) by nra.
    assert (OmP : 0 <= Om).
    { destruct (Rle_or_lt 0 Om); auto. exfalso. assert (lam * lam * amin * Om < 0) by (assert (0 < lam * lam * amin) by nra; nra). lra. }
    rewrite (DE g Hg). assert (Fz : fin (odiv O (y g) (D' g))).
    { apply (no_div _ _ _ _ NO); auto; [lra|]. apply Rmult_le_reg_l with (lam * amin); auto.
      assert (lam * amin * lam * Om <= lam * amin * 1 * Om) by (apply Rmult_le_compat_r; auto). lra. }
    split; auto. destruct (rd_div _ _ _ _ _ RO _ _ (FD g Hg) Fz) as (_ & _ & N).
    pose proof (near_abs O fin val u eta RO _ _ N) as BN.
    pose proof (v_qm 1 ltac:(lia)) as Q. cbn [pow] in Q. rewrite Rmult_1_r in Q.
    assert (q * Rabs (ly g) <= 17 / 16 * Rabs (ly g)) by (apply Rmult_le_compat_r; [apply Rabs_pos|lra]).
    lra.
  Qed.

  (** ** backward *)
  Local Notation ax j := (val (x j)).
  Definition bwdOk (k : I) : Prop :=
    fin (x k) /\ Rabs (val (z k) - rsum all (fun j => U j k * ax j)) <=
      ga * rsum all (fun j => Rabs (U j k * ax j)) + 4 * (n * eta).

  Lemma v_sq g : In g all ->
    lam * amin * rsum all (fun i => D i * ((Rabs (val (z i)) + 4 * (n * eta)) * (Rabs (val (z i)) + 4 * (n * eta)))) <= 13 * (n * (B * B)).
  Proof.
    intros Hg. pose proof (v_T g Hg) as HT. pose proof (v_n1 g Hg) as N1. pose proof v_e0 as E0. pose proof (v_amax g Hg) as AX.
    assert (LA : 0 < lam * amin) by (apply Rmult_lt_0_compat; auto).
    set (e := 5 * (n * eta)).
    assert (e0 : 0 <= e) by (unfold e; apply Rmult_le_pos; [lra|apply Rmult_le_pos; lra]).
    assert (NE : eta <= n * eta) by nra.
    assert (S1 : rsum all (fun i => D i * ((Rabs (val (z i)) + 4 * (n * eta)) * (Rabs (val (z i)) + 4 * (n * eta)))) <=
      289 / 128 * Ty + 2 * (n * (2 * amax * (e * e)))).
    { apply Rle_trans with (rsum all (fun i => 289 / 128 * (val (y i) * val (y i) / D i) + 2 * (2 * amax * (e * e)))).
      - apply rsum_le. intros i Hi. destruct (v_z i Hi) as [_ Bz]. pose proof (D0 i Hi) as DI. pose proof (DR i Hi) as DRi.
        pose proof (Rabs_pos (val (z i))) as PZ. pose proof (Rabs_pos (ly i)) as PL.
        assert (NE0 : 0 <= n * eta) by lra.
        assert (M : (Rabs (val (z i)) + 4 * (n * eta)) * (Rabs (val (z i)) + 4 * (n * eta)) <=
          (17 / 16 * Rabs (ly i) + e) * (17 / 16 * Rabs (ly i) + e)) by (apply Rmult_le_compat; unfold e; lra).
        pose proof (Rle_0_sqr (17 / 16 * Rabs (ly i) - e)) as Q. unfold Rsqr in Q.
        assert (SA : Rabs (ly i) * Rabs (ly i) = ly i * ly i) by apply sqr_abs.
        assert (M2 : (Rabs (val (z i)) + 4 * (n * eta)) * (Rabs (val (z i)) + 4 * (n * eta)) <= 289 / 128 * (ly i * ly i) + 2 * (e * e)) by lra.
        apply Rmult_le_compat_l with (r := D i) in M2; [|lra].
        assert (EE : D i * (289 / 128 * (ly i * ly i) + 2 * (e * e)) = 289 / 128 * (val (y i) * val (y i) / D i) + 2 * (D i * (e * e))) by (field; lra).
        rewrite EE in M2. assert (D i * (e * e) <= 2 * amax * (e * e)) by (apply Rmult_le_compat_r; [apply Rle_0_sqr|lra]). lra.
      - rewrite rsum_plus, rsum_scal, rsum_const. lra. }
    (* the underflows are small *)
    assert (S2 : 2 * (n * (2 * amax * (e * e))) <= lam * amin).
    { assert (K : n * e * amax * 38 <= lam * amin).
      { unfold e. assert (0 <= n * (n * eta)) by (apply Rmult_le_pos; [lra|apply Rmult_le_pos; lra]). lra. }
      assert (e <= 1).
      { assert (1 * e * amax <= n * e * amax) by (apply Rmult_le_compat_r; [lra|]; apply Rmult_le_compat_r; auto).
        assert (lam * amin <= 1 * amin) by (apply Rmult_le_compat_r; lra).
        destruct (Rle_or_lt e 1); auto. exfalso. assert (1 * amax < e * amax) by (apply Rmult_lt_compat_r; lra). lra. }
      assert (P : 0 <= n * e * amax) by (repeat apply Rmult_le_pos; lra).
      assert (n * e * amax * e <= n * e * amax * 1) by (apply Rmult_le_compat_l; auto). lra. }
    assert (S3 : lam * amin * (lam * amin) <= n * (B * B)).
    { assert (LB : lam * amin <= B) by (assert (lam * amin <= 1 * amin) by (apply Rmult_le_compat_r; lra); lra).
      apply Rle_trans with (B * B); [apply Rmult_le_compat; lra|].
      assert (1 * (B * B) <= n * (B * B)) by (apply Rmult_le_compat_r; [apply Rle_0_sqr|auto]). lra. }
    assert (S4 : lam * amin * (2 * (n * (2 * amax * (e * e)))) <= lam * amin * (lam * amin)) by (apply Rmult_le_compat_l; lra).
    apply Rmult_le_compat_l with (r := lam * amin) in S1; [|lra].
    assert (0 <= n * (B * B)) by (apply Rmult_le_pos; [lra|apply Rle_0_sqr]). lra.
  Qed.

  (** the solution so far *)
  Lemma v_suffix g t : In g all -> (forall k, In k all -> (t <= rk k)%nat -> bwdOk k) ->
    lam * lam * amin * rsum all (fun j => A j j * (if (rk j <? t)%nat then 0 else ax j * ax j)) <= 65 * (n * (B * B)).
  Proof.
    intros Hg HX.
    set (P := fun i => (rk i <? t)%nat).
    assert (PT : forall i, P i = true -> (rk i < t)%nat) by (intros i H; apply Nat.ltb_lt; auto).
    assert (PF : forall i, P i = false -> (t <= rk i)%nat) by (intros i H; apply Nat.ltb_ge; auto).
    set (xm := fun j => if P j then 0 else ax j).
    destruct (tri_solve dec all rk U P (fun i => - rsum all (fun j => U j i * xm j)) (rg_all _ _ _ _ _ RG) RI
      (fun i _ => v_U1 i) v_Ulow) as (w0 & HW1 & HW2).
    set (w := fun j => w0 j + xm j).
    assert (WP : forall i, In i all -> P i = true -> rsum all (fun j => U j i * w j) = 0).
    { intros i Hi Pi. unfold w. rewrite (rsum_ext all _ (fun j => U j i * w0 j + U j i * xm j)) by (intros; ring).
      rewrite rsum_plus, HW2 by auto. ring. }
    assert (WQ : forall i f, In i all -> P i = false -> (f 0 = 0 :> R) ->
      rsum all (fun j => f (U j i * w j)) = rsum all (fun j => f (U j i * ax j))).
    { intros i f Hi Pi f0. apply rsum_ext. intros j Hj. destruct (P j) eqn:Pj.
      - rewrite (v_Ulow j i), !Rmult_0_l; auto. specialize (PT j Pj). specialize (PF i Pi). lia.
      - unfold w, xm. rewrite Pj, HW1, Rplus_0_l; auto. }
    assert (BND : lam * W2 all (fun g h => A g h) w <= 5 * rsum all (fun i => D i * ((Rabs (val (z i)) + 4 * (n * eta)) * (Rabs (val (z i)) + 4 * (n * eta))))).
    { pose proof (v_n1 g Hg) as N1. pose proof v_e0 as E0.
      apply (back_bound dec all U (fun g h => A g h) (fun i => D i) (fun i => rsum all (fun j => U j i * w j)) w (fun _ => true)
        ga et (et / amin) amin (S m)); auto; try discriminate.
      - apply RG.
      - apply v_ga0.
      - apply Rmult_le_pos; [apply (v_et0 g Hg)|left; apply Rinv_0_lt_compat; auto].
      - right. field. lra.
      - intros j Hj. apply RNG; auto.
      - apply v_supp.
      - exact (p_SM O fin val u eta RO all lam amin amax m AMIN GA ET g Hg).
      - lia.
      - apply Rmult_le_pos; [lra|]. apply Rmult_le_pos; lra.
      - intros i Hi. split; [left; apply D0; auto|apply Rabs_pos].
      - intros i Hi. destruct (P i) eqn:Pi.
        + rewrite WP, Rabs_R0 by auto.
          assert (0 <= Zi all U w i) by (apply rsum_pos; intros; apply Rabs_pos).
          pose proof v_ga0. pose proof (Rabs_pos (val (z i))).
          assert (0 <= ga * Zi all U w i) by (apply Rmult_le_pos; auto).
          assert (0 <= n * eta) by (apply Rmult_le_pos; lra). lra.
        + destruct (HX i Hi (PF i Pi)) as [_ HE]. unfold Zi.
          rewrite (WQ i (fun v => v) Hi Pi eq_refl), (WQ i Rabs Hi Pi Rabs_R0).
          set (s := rsum all (fun j => U j i * ax j)) in *.
          replace s with (val (z i) - (val (z i) - s)) by ring.
          unfold Rminus at 1. eapply Rle_trans; [apply Rabs_triang|]. rewrite Rabs_Ropp. lra. }
    pose proof (v_sq g Hg) as SQ.
    assert (LA : 0 < lam * amin) by (apply Rmult_lt_0_compat; auto).
    assert (WW : rsum all (fun j => A j j * (if (rk j <? t)%nat then 0 else ax j * ax j)) <= ProofPosReal.W2 all (fun g h => A g h) w).
    { apply rsum_le. intros j Hj. pose proof (RNG j Hj). apply Rmult_le_compat_l; [lra|].
      fold (P j). destruct (P j) eqn:Pj; [apply Rle_0_sqr|]. unfold w, xm. rewrite Pj, HW1, Rplus_0_l by auto. lra. }
    apply Rmult_le_compat_l with (r := lam * lam * amin) in WW; [|repeat apply Rmult_le_pos; lra].
    apply Rmult_le_compat_l with (r := lam * amin) in BND; [|lra].
    lra.
  Qed.

  Lemma v_xsmall g j t : In g all -> In j all -> (t <= rk j)%nat ->
    lam * lam * amin * rsum all (fun j => A j j * (if (rk j <? t)%nat then 0 else ax j * ax j)) <= 65 * (n * (B * B)) ->
    lam * amin * Rabs (ax j) <= 9 * (n * B).
  Proof.
    intros Hg Hj Hl H. pose proof (v_n1 g Hg) as N1. assert (LA : 0 < lam * amin) by (apply Rmult_lt_0_compat; auto).
    pose proof (RNG j Hj) as RN.
    assert (H1 : amin * (ax j * ax j) <= rsum all (fun j => A j j * (if (rk j <? t)%nat then 0 else ax j * ax j))).
    { rewrite (rsum_remove dec all j) by (auto; apply RG). rewrite (proj2 (Nat.ltb_ge _ _) Hl).
      assert (amin * (ax j * ax j) <= A j j * (ax j * ax j)) by (apply Rmult_le_compat_r; [apply Rle_0_sqr|lra]).
      assert (0 <= rsum (remove dec j all) (fun j => A j j * (if (rk j <? t)%nat then 0 else ax j * ax j))).
      { apply rsum_pos. intros i Hi. apply in_remove in Hi. pose proof (RNG i (proj1 Hi)).
        apply Rmult_le_pos; [lra|]. destruct (rk i <? t)%nat; [lra|apply Rle_0_sqr]. } lra. }
    apply sqr_le; [nra|].
    replace (lam * amin * Rabs (ax j) * (lam * amin * Rabs (ax j)))
      with (lam * lam * amin * (amin * (Rabs (ax j) * Rabs (ax j)))) by ring. rewrite sqr_abs.
    apply Rmult_le_compat_l with (r := lam * lam * amin) in H1; [|repeat apply Rmult_le_pos; lra].
    assert (BP : 0 <= B * B) by apply Rle_0_sqr.
    assert (H5 : n * 1 * (B * B) <= n * n * (B * B)) by (apply Rmult_le_compat_r; auto; apply Rmult_le_compat_l; lra).
    assert (0 <= n * n * (B * B)) by (apply Rmult_le_pos; auto; nra). lra.
  Qed.

  Lemma v_colsum g t : In g all -> (t <= S (rk g))%nat ->
    lam * lam * amin * rsum all (fun j => A j j * (if (rk j <? t)%nat then 0 else ax j * ax j)) <= 65 * (n * (B * B)) ->
    lam * lam * amin * rsum (col g) (fun k => Rabs (L k g * ax k)) <= 25 * (n * B).
  Proof.
    intros Hg Hl H. pose proof (v_n1 g Hg) as N1. assert (LA : 0 < lam * amin) by (apply Rmult_lt_0_compat; auto).
    set (W := rsum all (fun j => A j j * (if (rk j <? t)%nat then 0 else ax j * ax j))) in *.
    set (S := rsum (col g) (fun k => Rabs (L k g * ax k))). pose proof (DR g Hg) as DG.
    assert (CK : forall k, In k (col g) -> In k all /\ In g (row k)) by (intros k Hk; apply (cg_in _ _ _ CG) in Hk; auto).
    assert (LN : INR (length (col g)) <= n).
    { apply le_INR, NoDup_incl_length; [apply (cg_nodup _ _ _ CG); auto|]. intros k Hk. apply CK; auto. }
    assert (S0 : 0 <= S) by (apply rsum_pos; intros; apply Rabs_pos).
    assert (S1 : dmin * (S * S) <= n * (2 * W)).
    { pose proof (sum_sqr (col g) (fun k => Rabs (L k g * ax k))) as Q. fold S in Q.
      assert (Q2 : dmin * rsum (col g) (fun k => Rabs (L k g * ax k) * Rabs (L k g * ax k)) <= 2 * W).
      { rewrite <- rsum_scal. unfold W. rewrite <- rsum_scal.
        apply Rle_trans with (rsum (col g) (fun j => 2 * (A j j * (if (rk j <? t)%nat then 0 else ax j * ax j)))).
        - apply rsum_le. intros k Hk. destruct (CK k Hk) as [Ha Hr]. pose proof (RL k g Ha Hr) as Lt.
          rewrite (proj2 (Nat.ltb_ge (rk k) t)) by lia. rewrite sqr_abs.
          assert (E1 : L k g * L k g * dmin <= 2 * A k k).
          { eapply Rle_trans; [|exact (PJ k Ha)]. rewrite (rsum_remove dec all g) by (auto; apply RG).
            rewrite v_Une by (intros ->; lia).
            assert (0 <= rsum (remove dec g all) (fun i => U k i * U k i * Rabs (D i))).
            { apply rsum_pos. intros i _. apply Rmult_le_pos; [apply Rle_0_sqr|apply Rabs_pos]. }
            assert (L k g * L k g * dmin <= L k g * L k g * Rabs (D g)).
            { apply Rmult_le_compat_l; [apply Rle_0_sqr|]. eapply Rle_trans; [|apply Rle_abs]. lra. }
            lra. }
          apply Rle_trans with (L k g * L k g * dmin * (ax k * ax k)); [right; ring|].
          apply Rle_trans with (2 * A k k * (ax k * ax k)); [|right; ring].
          apply Rmult_le_compat_r; [apply Rle_0_sqr|auto].
        - apply (rsum_sub_le dec); [apply (cg_nodup _ _ _ CG); auto|apply RG|intros k Hk; apply CK; auto|].
          intros i Hi. pose proof (RNG i Hi). apply Rmult_le_pos; [lra|]. apply Rmult_le_pos; [lra|].
          destruct (rk i <? t)%nat; [lra|apply Rle_0_sqr]. }
      set (V := rsum (col g) (fun k => Rabs (L k g * ax k) * Rabs (L k g * ax k))) in *.
      assert (V0 : 0 <= V) by (apply rsum_pos; intros; apply Rle_0_sqr).
      assert (DM : 0 < dmin) by nra.
      apply Rle_trans with (dmin * (INR (length (col g)) * V)); [apply Rmult_le_compat_l; lra|].
      replace (dmin * (INR (length (col g)) * V)) with (INR (length (col g)) * (dmin * V)) by ring.
      apply Rmult_le_compat; auto; [apply pos_INR|apply Rmult_le_pos; lra]. }
    apply sqr_le; [nra|].
    assert (BP : 0 <= B * B) by apply Rle_0_sqr.
    (* (lam^2 amin)^2 S^2 <= lam (lam^2 amin) 4 dmin S^2 <= 8 lam n (lam^2 amin W) *)
    assert (H1 : lam * lam * amin * S * (lam * lam * amin * S) = lam * (4 * (lam * lam * amin * (dmin * (S * S))))) by (field).
    rewrite H1.
    assert (H2 : lam * lam * amin * (dmin * (S * S)) <= lam * lam * amin * (n * (2 * W))) by (apply Rmult_le_compat_l; auto; repeat apply Rmult_le_pos; lra).
    assert (H3 : 2 * n * (lam * lam * amin * W) <= 2 * n * (65 * (n * (B * B)))) by (apply Rmult_le_compat_l; lra).
    assert (H4 : 4 * (lam * lam * amin * (dmin * (S * S))) <= 520 * (n * n * (B * B))) by lra.
    assert (0 <= n * n * (B * B)) by (apply Rmult_le_pos; auto; nra).
    assert (H6 : lam * (4 * (lam * lam * amin * (dmin * (S * S)))) <= lam * (520 * (n * n * (B * B)))) by (apply Rmult_le_compat_l; lra).
    assert (H7 : lam * (520 * (n * n * (B * B))) <= 1 * (520 * (n * n * (B * B)))) by (apply Rmult_le_compat_r; lra).
    lra.
  Qed.

  Lemma v_backward M : (forall k, In k all -> (rk k < M)%nat) -> forall N g, In g all -> (M <= N + rk g)%nat -> bwdOk g.
  Proof.
    intros HM. induction N as [|N IH]; intros g Hg Lg; [specialize (HM g Hg); lia|].
    assert (IH' : forall k, In k all -> (S (rk g) <= rk k)%nat -> bwdOk k) by (intros; apply IH; auto; lia). clear IH.
    pose proof (v_suffix g (S (rk g)) Hg IH') as HS.
    pose proof (v_colsum g (S (rk g)) Hg (Nat.le_refl _) HS) as CB.
    pose proof (v_quot g Hg) as QB. destruct (v_z g Hg) as [Fz Bz].
    pose proof (v_n1 g Hg) as N1. pose proof (v_small g Hg) as SM. pose proof v_e0 as E0.
    assert (NE : eta <= n * eta) by nra.
    assert (LA : 0 < lam * amin) by (apply Rmult_lt_0_compat; auto).
    assert (LL : 0 < lam * lam * amin) by (repeat apply Rmult_lt_0_compat; auto).
    assert (LL1 : lam * lam * amin <= 1 * 1 * amin) by (apply Rmult_le_compat_r; [lra|]; apply Rmult_le_compat; lra).
    assert (NB : B <= n * B) by nra.
    assert (CK : forall k, In k (col g) -> In k all /\ In g (row k)) by (intros k Hk; apply (cg_in _ _ _ CG) in Hk; auto).
    set (S := rsum (col g) (fun k => Rabs (L k g * ax k))) in *.
    destruct (v_sub (z g) (col g) (fun k => L' k g) x S) as [Fx Ex].
    - auto.
    - apply (cg_nodup _ _ _ CG); auto.
    - auto.
    - intros k Hk. apply CK; auto.
    - intros k Hk. destruct (CK k Hk) as [K1 K2]. split; [auto|]. apply IH'; auto. apply RL; auto.
    - apply Rle_refl.
    - apply Rmult_le_reg_l with (lam * lam * amin); auto.
      assert (T1 : lam * lam * amin * Rabs (val (z g)) <= lam * lam * amin * (17 / 16 * Rabs (ly g) + eta)) by (apply Rmult_le_compat_l; lra).
      assert (T2 : lam * (lam * amin * Rabs (ly g)) <= 1 * (5 * (n * B))).
      { apply Rmult_le_compat; try lra. apply Rmult_le_pos; [lra|apply Rabs_pos]. }
      assert (T3 : lam * lam * amin * (3 * (n * eta)) <= lam * lam * amin * 1).
      { apply Rmult_le_compat_l; [lra|].
        assert (X : 16 * et <= lam * amin) by (apply (v_ets g Hg)).
        assert (AX := v_amax g Hg).
        assert (Y : n * eta * amax * 192 <= amax).
        { assert (0 <= n * eta) by lra. assert (lam * amin <= 1 * amin) by (apply Rmult_le_compat_r; lra). lra. }
        apply Rmult_le_reg_r with amax; lra. }
      assert (T5 : lam * lam * amin * eta <= lam * lam * amin * (n * eta)) by (apply Rmult_le_compat_l; lra).
      lra.
    - rewrite <- (BE g Hg) in Fx, Ex. split; auto.
      assert (X : forall f, f 0 = 0 -> rsum all (fun i => f (U i g * ax i)) =
        f (ax g) + rsum (col g) (fun k => f (L k g * ax k))).
      { intros f f0. rewrite (rsum_remove dec all g) by (auto; apply RG). rewrite v_U1, Rmult_1_l. f_equal.
        rewrite (rsum_ext (remove dec g all) _ (fun k => f (L k g * ax k))).
        2:{ intros i Hi. apply in_remove in Hi. rewrite v_Une by apply Hi. auto. }
        apply (rsum_sub dec).
        - apply (cg_nodup _ _ _ CG); auto.
        - apply remove_NoDup; apply RG.
        - intros k Hk. destruct (CK k Hk) as [K1 K2]. apply in_in_remove; auto.
          intros ->. eapply (rg_irr _ _ _ _ _ RG g); eauto.
        - intros k Hk Hn. apply in_remove in Hk. rewrite (v_out k g), Rmult_0_l; auto; [tauto|].
          intros Hr. apply Hn. apply (cg_in _ _ _ CG); tauto. }
      rewrite (X (fun v => v) eq_refl), (X Rabs Rabs_R0). exact Ex.
  Qed.

  Theorem v_x g : In g all -> fin (x g) /\ lam * amin * Rabs (ax g) <= 9 * (n * B).
  Proof.
    assert (HM : forall k, In k all -> (rk k < S (list_max (map rk all)))%nat).
    { intros k Hk. pose proof (proj1 (list_max_le (map rk all) _) (Nat.le_refl _)) as H. rewrite Forall_forall in H.
      specialize (H (rk k) (in_map _ _ _ Hk)). lia. }
    intros Hg. assert (AL : forall k, In k all -> bwdOk k).
    { intros k Hk. apply (v_backward _ HM (S (list_max (map rk all)))); auto. lia. }
    split; [apply AL; auto|]. apply (v_xsmall g g 0 Hg Hg (Nat.le_0_l _)). apply (v_suffix g); auto.
  Qed.
End Solve.
