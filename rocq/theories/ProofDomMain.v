(** Factorization and solution of diagonally dominant systems in rounded arithmetic, over
    any finite index set. *)
From Coq Require Import Reals Lra Lia List Arith Bool Psatz.
From Verif Require Import ModelNumeric SpecNumeric SpecReg SpecRound SpecDomFloat.
From Verif Require Import ProofExact ProofArrowSub ProofChain ProofRound ProofRoundLdl ProofRoundMain
  ProofDomReal ProofDomFloat ProofDomSolve.
Import ListNotations.
Local Open Scope R_scope.
Local Notation rsum := (suml Or).

(** ** the error of an approximate solution *)
Section Error.
  Context {I : Type} (dec : forall a b : I, {a = b} + {a <> b}) (all : list I).
  Variables (M : I -> I -> R) (b x xs : I -> R) (th ep : R).
  Hypothesis ND : NoDup all.
  Hypothesis T0 : 0 <= th < 1.
  Hypothesis DOM : dominatedBy dec all M th.
  Hypothesis NZ : forall g, In g all -> M g g <> 0.
  Hypothesis SOL : forall g, In g all -> rsum all (fun h => M g h * xs h) = b g.
  Hypothesis RES : forall g, In g all -> Rabs (b g - rsum all (fun h => M g h * x h)) <= ep * Rabs (M g g).

  Lemma max_err : forall l, (forall j, In j l -> In j all) -> l <> [] ->
    exists g, In g l /\ forall j, In j l -> Rabs (x j - xs j) <= Rabs (x g - xs g).
  Proof.
    induction l as [|a l IH]; intros Hl Ne; [congruence|]. destruct l as [|c l].
    - exists a. split; [left; auto|]. intros j [<-|[]]. lra.
    - destruct IH as (g & G1 & G2); [intros; apply Hl; right; auto|discriminate|].
      destruct (Rle_or_lt (Rabs (x a - xs a)) (Rabs (x g - xs g))) as [C|C].
      + exists g. split; [right; auto|]. intros j [<-|Hj]; auto.
      + exists a. split; [left; auto|]. intros j [<-|Hj]; [lra|]. specialize (G2 j Hj). lra.
  Qed.

  Lemma dominated_error g : In g all -> (1 - th) * Rabs (x g - xs g) <= ep.
  Proof.
    intros Hg. destruct (max_err all (fun j H => H)) as (m & Hm & MX); [intros E; rewrite E in Hg; destruct Hg|].
    apply Rle_trans with ((1 - th) * Rabs (x m - xs m)); [apply Rmult_le_compat_l; [lra|auto]|].
    pose proof (RES m Hm) as R. pose proof (DOM m Hm) as D. rewrite <- (SOL m Hm) in R.
    rewrite <- rsum_minus in R.
    set (E := Rabs (x m - xs m)) in *. assert (E0 : 0 <= E) by apply Rabs_pos.
    rewrite (rsum_ext all _ (fun h => - (M m h * (x h - xs h)))) in R by (intros; ring).
    rewrite (rsum_remove dec all m) in R by auto. rewrite (rsum_remove dec all m) in D by auto.
    destruct (dec m m); [|congruence].
    rewrite (rsum_ext (remove dec m all) _ (fun h => Rabs (M m h))) in D.
    2:{ intros k Hk. apply in_remove in Hk. destruct (dec m k) as [->|]; [tauto|auto]. }
    set (r := rsum (remove dec m all) (fun h => - (M m h * (x h - xs h)))) in *.
    assert (RB : Rabs r <= th * Rabs (M m m) * E).
    { eapply Rle_trans; [apply rsum_abs|].
      apply Rle_trans with (rsum (remove dec m all) (fun h => E * Rabs (M m h))).
      - apply rsum_le. intros k Hk. apply in_remove in Hk. rewrite Rabs_Ropp, Rabs_mult, Rmult_comm.
        apply Rmult_le_compat_r; [apply Rabs_pos|]. apply MX. tauto.
      - rewrite rsum_scal, Rmult_comm. apply Rmult_le_compat_r; lra. }
    assert (MP : 0 < Rabs (M m m)) by (apply Rabs_pos_lt; auto).
    assert (ME : Rabs (M m m) * E <= ep * Rabs (M m m) + th * Rabs (M m m) * E).
    { unfold E at 1. rewrite <- Rabs_mult.
      replace (M m m * (x m - xs m)) with (- (- (M m m * (x m - xs m)) + r) + r) by ring.
      eapply Rle_trans; [apply Rabs_triang|]. rewrite Rabs_Ropp. lra. }
    apply Rmult_le_reg_r with (Rabs (M m m)); auto. lra.
  Qed.
End Error.

Section Main.
  Context {F : Type} (O : ops F) (fin : F -> Prop) (val : F -> R) (u eta Om : R).
  Context (RO : rounding O fin val u eta) (NO : noOverflow O fin val Om).
  Context {I : Type} (dec : forall a b : I, {a = b} + {a <> b}).
  Variables (all : list I) (row : I -> list I) (rk : I -> nat).
  Variables (A' L' : I -> I -> F) (D' : I -> F).
  Hypothesis RG : rowsGood O all row A' L'.
  Hypothesis CH : chained O dec all row A' L' D' (fun s _ => s).
  Hypothesis RI : forall g h, In g all -> In h all -> rk g = rk h -> g = h.
  Hypothesis RL : forall g h, In g all -> In h (row g) -> (rk h < rk g)%nat.
  Variables (th amin amax : R) (r : nat).
  Local Notation A g h := (val (A' g h)).
  Local Notation aL g h := (Rabs (val (L' g h))).
  Local Notation aD g := (Rabs (val (D' g))).
  Local Notation n := (INR (length all)).
  Hypothesis FA : forall g h, In g all -> In h all -> fin (A' g h).
  Hypothesis MR : forall g, In g all -> (length (row g) <= r)%nat.
  Hypothesis DOM : dominatedBy dec all (fun g h => A g h) th.
  Hypothesis RNG : forall g, In g all -> amin <= Rabs (A g g) <= amax.
  Hypothesis FIT : domFits u eta Om th amin amax (length all) r.

  Lemma gam_S : gam u (r + 1) = (/ (1 - u)) ^ S r - 1.
  Proof. rewrite gam_q, Nat.add_1_r. auto. Qed.

  Lemma main_row g : In g all ->
    goodRow fin val u eta all row rk A' L' D' th amax r g.
  Proof.
    intros Hg. destruct FIT as [F1 F2 F3 F4 F5 F6 F7]. rewrite gam_S in F3.
    exact (goodRow_of O fin val u eta Om RO NO dec all row rk A' L' D' RG CH RI RL th amin amax r
      FA MR F1 DOM RNG F2 F3 F4 F5 F6 F7 g Hg).
  Qed.

  Lemma main_col h : In h all -> rsum all (fun j => aL j h) <= (1 + th) / 2.
  Proof.
    intros Hh. destruct FIT as [F1 F2 F3 F4 F5 F6 F7]. rewrite gam_S in F3.
    exact (col_all O fin val u eta Om RO NO dec all row rk A' L' D' RG CH RI RL th amin amax r
      FA MR F1 DOM RNG F2 F3 F4 F5 F6 F7 h Hh).
  Qed.

  (** the factorization *)
  Theorem dom_factor g : In g all ->
    (forall k, In k (row g) -> fin (L' g k)) /\ fin (D' g) /\
    (1 - th) / 2 * Rabs (A g g) <= aD g <= 2 * Rabs (A g g) /\
    0 < A g g * val (D' g) /\
    rsum all (fun j => aL j g) <= (1 + th) / 2.
  Proof.
    intros Hg. destruct (main_row g Hg) as [gL gD gb gW gerr gsign _ _].
    pose proof (main_col g Hg) as C. pose proof (RNG g Hg) as RN. destruct FIT as [F1 F2 _ _ _ _ _].
    split; auto. split; auto. split; auto. split; auto.
    assert (P : Rabs (A g g - val (D' g)) < Rabs (A g g)) by nra.
    revert P. unfold Rabs. destruct (Rcase_abs (A g g - val (D' g))), (Rcase_abs (A g g)); nra.
  Qed.

  Section Solve.
  Variables (col : I -> list I) (b y z x : I -> F).
  Hypothesis CG : colsGood all row col.
  Hypothesis FE : forwardEq O all row L' b y.
  Hypothesis DE : diagonalEq O all D' y z.
  Hypothesis BE : backwardEq O all L' col z x.
  Hypothesis MC : forall g, In g all -> (length (col g) <= r)%nat.
  Hypothesis FB : forall g, In g all -> fin (b g).
  Hypothesis RF : rhsFits eta Om th amin (length all) (rsum all (fun g => Rabs (val (b g)))).

  Theorem dom_solve g : In g all -> fin (x g).
  Proof.
    intros Hg. pose proof FIT as [F1 F2 F3 F4 F5 F6 F7]. rewrite gam_S in F3.
    destruct RF as [R1 R2]. pose proof (RNG g Hg) as RN.
    set (B := rsum all (fun g => Rabs (val (b g))) + 2 * (n * n * eta)) in *.
    assert (DMp : 0 < (1 - th) / 2 * amin) by nra.
    assert (B0 : 0 <= B).
    { apply (s_B0 O fin val u eta RO all b). }
    assert (N1 : 1 <= n).
    { revert Hg. destruct all as [|h l]; intros []; cbn [length]; rewrite S_INR; pose proof (pos_INR (length l)); lra. }
    pose proof (eta_pos O fin val u eta RO) as E0.
    assert (N9 : 3 * (2 * (n * eta) + eta) <= amax / 2).
    { assert (P1 : 0 <= n * eta) by (apply Rmult_le_pos; lra).
      assert (P2 : n * eta * 1 <= n * eta * n) by (apply Rmult_le_compat_l; lra).
      assert (P3 : n * eta * n * (4 + 12 * 0) <= n * eta * n * (4 + 12 * amax)) by (apply Rmult_le_compat_l; lra).
      assert (P4 : n * eta * n * (4 + 12 * amax) = n * (eta * (n * (4 + 12 * amax)))) by ring.
      assert (P5 : 1 * eta <= n * eta) by (apply Rmult_le_compat_r; lra).
      assert ((1 - th) * amin <= amin) by nra. lra. }
    apply (x_make O fin val u eta Om RO NO dec all row col rk A' L' D' b y z x RG CG RI RL FE DE BE
      th ((1 - th) / 2 * amin) r MR MC F1 F3); auto; fold B.
    - intros g' h Hg' Hh. apply (main_row g' Hg'). auto.
    - intros g' Hg'. apply (main_row g' Hg').
    - intros g' Hg'. destruct (dom_factor g' Hg') as (_ & _ & (Lo & _) & _). pose proof (RNG g' Hg').
      eapply Rle_trans; [|exact Lo]. apply Rmult_le_compat_l; lra.
    - apply main_col.
    - assert ((1 - th) * ((1 - th) * (1 - th) * amin * Om) <= 1 * ((1 - th) * (1 - th) * amin * Om)).
      { apply Rmult_le_compat_r; [|lra]. repeat apply Rmult_le_pos; lra. }
      lra.
    - set (S1 := 4 * B / ((1 - th) * ((1 - th) / 2 * amin))).
      assert (ES : (1 - th) * (1 - th) * amin * S1 = 8 * B) by (unfold S1; field; lra).
      assert (HS : 25 * (3 * S1) <= 24 * ((1 - th) * Om)).
      { apply Rmult_le_reg_l with ((1 - th) * (1 - th) * amin); [repeat apply Rmult_lt_0_compat; lra|].
        replace ((1 - th) * (1 - th) * amin * (25 * (3 * S1))) with (75 * ((1 - th) * (1 - th) * amin * S1)) by ring.
        rewrite ES. lra. }
      lra.
  Qed.

  (** the distance to the exact solution *)
  Theorem dom_error (X : R) (xs : I -> R) :
    gam u (2 * r + 1) <= 1 ->
    (forall g, In g all -> Rabs (val (x g)) <= X) ->
    (forall g, In g all -> rsum all (fun h => A g h * xs h) = val (b g)) ->
    forall g, In g all -> Rabs (val (x g) - xs g) <= domError u eta th amin amax (length all) r X.
  Proof.
    intros G1 HX SOL g0 Hg0. pose proof FIT as [F1 F2 F3 F4 F5 F6 F7].
    assert (FD : forall g, In g all -> fin (D' g)) by (intros g Hg; apply (main_row g Hg)).
    pose proof (eta_pos O fin val u eta RO) as E0.
    pose proof (pos_INR (length all)) as N0. pose proof (pos_INR r) as R0.
    assert (AX : 0 < amax) by (pose proof (RNG g0 Hg0); lra).
    assert (X0 : 0 <= X) by (eapply Rle_trans; [apply Rabs_pos|apply (HX g0 Hg0)]).
    set (gm := gam u (2 * r + 1)) in *.
    assert (GE : forall c, (c <= 2 * r + 1)%nat -> 0 <= gam u c <= gm).
    { intros c Hc. unfold gm. rewrite !gam_q.
      pose proof (qpow_ge1 O fin val u eta RO c). pose proof (qpow_le O fin val u eta RO c _ Hc). cbv zeta in *. lra. }
    assert (G0 : 0 <= gm) by (destruct (GE 0%nat ltac:(lia)); lra).
    set (U := unitOf dec (fun g k => val (L' g k))). set (V := fun k => val (D' k)).
    assert (L1 : forall g h, In g all -> In h all -> aL g h <= 1).
    { apply (s_L1 O val dec all row A' L' RG th F1 main_col). }
    assert (U1 : forall g h, In g all -> In h all -> Rabs (U g h) <= 1).
    { intros g h Hg Hh. unfold U, unitOf. destruct (dec g h); [rewrite Rabs_R1; lra|auto]. }
    assert (D1 : forall g, In g all -> Rabs (V g) <= 2 * amax).
    { intros g Hg. destruct (dom_factor g Hg) as (_ & _ & (_ & Hi) & _). pose proof (RNG g Hg). unfold V. lra. }
    (* row sums *)
    assert (UD : forall g, In g all -> (1 - th) * rsum all (fun k => Rabs (U g k * V k)) <= 4 * Rabs (A g g)).
    { intros g Hg. destruct (main_row g Hg) as [_ _ gb gW _ _ _ _].
      assert (E : rsum all (fun k => Rabs (U g k * V k)) <= aD g + rsum all (fun k => aL g k * aD k)).
      { rewrite (rsum_remove dec all g) by (auto; apply RG).
        rewrite (rsum_remove dec all g (fun k => aL g k * aD k)) by (auto; apply RG).
        assert (EU : U g g = 1) by (unfold U, unitOf; destruct (dec g g); congruence).
        rewrite EU, Rmult_1_l.
        rewrite (rsum_ext (remove dec g all) (fun k => Rabs (U g k * V k)) (fun k => aL g k * aD k)).
        - pose proof (Rabs_pos (val (L' g g))). pose proof (Rabs_pos (val (D' g))). unfold V. nra.
        - intros k Hk. apply in_remove in Hk. rewrite Rabs_mult. unfold U, unitOf.
          destruct (dec g k) as [->|]; [tauto|]. auto. }
      apply Rle_trans with ((1 - th) * (aD g + rsum all (fun k => aL g k * aD k))); [apply Rmult_le_compat_l; lra|].
      assert ((1 - th) * aD g <= 1 * (2 * Rabs (A g g))) by (apply Rmult_le_compat; try lra; apply Rabs_pos).
      lra. }
    assert (UC : forall k, In k all -> rsum all (fun h => Rabs (U h k)) <= 2).
    { intros k Hk. pose proof (main_col k Hk) as C. rewrite (rsum_remove dec all k) in C by (auto; apply RG).
      rewrite (rsum_remove dec all k) by (auto; apply RG).
      assert (EU : U k k = 1) by (unfold U, unitOf; destruct (dec k k); congruence).
      rewrite EU, Rabs_R1. pose proof (Rabs_pos (val (L' k k))).
      rewrite (rsum_ext (remove dec k all) (fun h => Rabs (U h k)) (fun h => aL h k)); [lra|].
      intros h Hh. apply in_remove in Hh. unfold U, unitOf. destruct (dec h k) as [->|]; [tauto|auto]. }
    assert (RS : forall g, In g all -> (1 - th) * rsum all (fun h => absProdAt all U V g h) <= 8 * Rabs (A g g)).
    { intros g Hg. apply Rle_trans with ((1 - th) * (2 * rsum all (fun k => Rabs (U g k * V k)))).
      - apply Rmult_le_compat_l; [lra|]. unfold absProdAt. rewrite rsum_swap, <- rsum_scal.
        apply rsum_le. intros k Hk.
        rewrite (rsum_ext all _ (fun h => Rabs (U g k * V k) * Rabs (U h k))) by (intros; apply Rabs_mult).
        rewrite rsum_scal, Rmult_comm. apply Rmult_le_compat_r; [apply Rabs_pos|auto].
      - pose proof (UD g Hg). lra. }
    assert (UN : forall g h, In g all -> In h all -> underAt all U V g h <= n * (2 + 6 * amax)).
    { intros g h Hg Hh. unfold underAt. rewrite <- rsum_const. apply rsum_le. intros k Hk.
      pose proof (U1 g k Hg Hk). pose proof (U1 h k Hh Hk). pose proof (D1 k Hk).
      pose proof (Rabs_pos (U g k)). pose proof (Rabs_pos (U h k)). pose proof (Rabs_pos (V k)).
      assert (Rabs (V k) * (1 + Rabs (U g k) + Rabs (U h k)) <= 2 * amax * 3) by (apply Rmult_le_compat; lra). lra. }
    destruct (total_bound O fin val u eta RO dec all row A' L' D' (fun s _ => s) FD col b y z x r RG CG FE DE BE MC
      (fun g Hg => dom_solve g Hg) CH) as (P & HP & TB).
    set (ep := ((16 * gm / (1 - th) + n * (eta * (n * (4 + 12 * amax))) / amin) * X +
        eta * (4 * INR r / amin + (16 * INR r + 8) / (1 - th)))).
    assert (RES : forall g, In g all -> Rabs (val (b g) - rsum all (fun h => A g h * val (x h))) <= ep * Rabs (A g g)).
    { intros g Hg. specialize (HP g Hg). specialize (TB g Hg). cbv beta in HP. rewrite <- HP in TB.
      specialize (TB (FD g Hg)).
      replace (val (D' g) - val (D' g)) with 0 in TB by ring.
      rewrite Rabs_R0, Rmult_0_r, !Rmult_0_l, Rminus_0_r, Rplus_0_r in TB.
      fold U in TB. fold V in TB. eapply Rle_trans; [exact TB|]. clear TB.
      pose proof (RNG g Hg) as RN. set (Ag := Rabs (A g g)) in *.
      set (cr := length (row g)). assert (Hcr : (cr <= r)%nat) by (apply MR; auto).
      assert (HcrR : INR cr <= INR r) by (apply le_INR; auto).
      set (SX := rsum all (fun h => absProdAt all U V g h)) in *.
      assert (SX0 : 0 <= SX).
      { apply rsum_pos. intros h _. unfold absProdAt. apply rsum_pos. intros; apply Rabs_pos. }
      assert (SXb : SX <= 8 * Ag / (1 - th)).
      { apply Rmult_le_reg_l with (1 - th); [lra|]. replace ((1 - th) * (8 * Ag / (1 - th))) with (8 * Ag) by (field; lra).
        apply RS; auto. }
      assert (UDb : rsum all (fun k => Rabs (U g k * V k)) <= 4 * Ag / (1 - th)).
      { apply Rmult_le_reg_l with (1 - th); [lra|]. replace ((1 - th) * (4 * Ag / (1 - th))) with (4 * Ag) by (field; lra).
        apply UD; auto. }
      assert (UD0 : 0 <= rsum all (fun k => Rabs (U g k * V k))) by (apply rsum_pos; intros; apply Rabs_pos).
      assert (AX1 : rsum all (fun h => absProdAt all U V g h * Rabs (val (x h))) <= SX * X).
      { rewrite Rmult_comm. unfold SX. rewrite <- rsum_scal. apply rsum_le. intros h Hh. rewrite Rmult_comm.
        apply Rmult_le_compat_r; auto. unfold absProdAt. apply rsum_pos. intros; apply Rabs_pos. }
      assert (AX0 : 0 <= rsum all (fun h => absProdAt all U V g h * Rabs (val (x h)))).
      { apply rsum_pos. intros h _. apply Rmult_le_pos; [|apply Rabs_pos]. unfold absProdAt. apply rsum_pos. intros; apply Rabs_pos. }
      destruct (GE (cr + r + 1)%nat ltac:(lia)) as [Ga1 Ga2]. destruct (GE (cr + 1)%nat ltac:(lia)) as [Gb1 Gb2].
      (* solve *)
      assert (SBd : solveBound all U V u eta cr r (fun h => val (x h)) g <=
        gm * (8 * Ag / (1 - th) * X) + eta * (2 * INR r + (2 * INR r + 1) * (4 * Ag / (1 - th))) * 2).
      { unfold solveBound. apply Rplus_le_compat.
        - apply Rmult_le_compat; auto. eapply Rle_trans; [exact AX1|]. apply Rmult_le_compat_r; auto.
        - pose proof (pos_INR cr).
          apply Rmult_le_compat; try lra.
          + apply Rmult_le_pos; auto. assert (0 <= (2 * INR r + 1) * rsum all (fun k => Rabs (U g k * V k))) by (apply Rmult_le_pos; lra). lra.
          + apply Rmult_le_compat_l; auto. apply Rplus_le_compat; [lra|]. apply Rmult_le_compat_l; lra. }
      (* factor *)
      assert (FBd : rsum all (fun h => factorBound all U V u eta cr g h * Rabs (val (x h))) <=
        gm * (8 * Ag / (1 - th) * X) + n * (eta * (n * (2 + 6 * amax)) * 2) * X).
      { apply Rle_trans with (rsum all (fun h => gm * (absProdAt all U V g h * X) + eta * (n * (2 + 6 * amax)) * 2 * X)).
        - apply rsum_le. intros h Hh. unfold factorBound.
          assert (P0 : 0 <= absProdAt all U V g h) by (unfold absProdAt; apply rsum_pos; intros; apply Rabs_pos).
          assert (Q0 : 0 <= underAt all U V g h).
          { unfold underAt. apply rsum_pos. intros k _. pose proof (Rabs_pos (V k)). pose proof (Rabs_pos (U g k)). pose proof (Rabs_pos (U h k)). nra. }
          pose proof (UN g h Hg Hh) as Q1. pose proof (Rabs_pos (val (x h))) as PX. pose proof (HX h Hh) as HXh.
          assert (T1 : gam u (cr + 1) * absProdAt all U V g h <= gm * absProdAt all U V g h) by (apply Rmult_le_compat_r; auto).
          assert (T2 : eta * underAt all U V g h * (1 + gam u (cr + 1)) <= eta * (n * (2 + 6 * amax)) * 2).
          { apply Rmult_le_compat; try lra; [apply Rmult_le_pos; auto|]. apply Rmult_le_compat_l; auto. }
          replace (gm * (absProdAt all U V g h * X) + eta * (n * (2 + 6 * amax)) * 2 * X)
            with ((gm * absProdAt all U V g h + eta * (n * (2 + 6 * amax)) * 2) * X) by ring.
          apply Rmult_le_compat; auto; [|lra].
          apply Rplus_le_le_0_compat; [apply Rmult_le_pos; auto|].
          apply Rmult_le_pos; [apply Rmult_le_pos; auto|lra].
        - rewrite rsum_plus, rsum_scal, rsum_const.
          rewrite (rsum_ext all (fun h => absProdAt all U V g h * X) (fun h => X * absProdAt all U V g h)) by (intros; ring).
          rewrite rsum_scal. fold SX.
          apply Rplus_le_compat; [|right; ring]. apply Rmult_le_compat_l; auto. rewrite Rmult_comm. apply Rmult_le_compat_r; auto. }
      eapply Rle_trans; [apply Rplus_le_compat; [exact SBd|exact FBd]|].
      (* compare with ep * |A g g| *)
      assert (IA : 1 <= Ag / amin).
      { apply Rmult_le_reg_r with amin; auto. unfold Rdiv. rewrite Rmult_assoc, Rinv_l by lra. lra. }
      set (K := n * (eta * (n * (4 + 12 * amax)))).
      assert (K0 : 0 <= K) by (unfold K; repeat apply Rmult_le_pos; lra).
      assert (EE : ep * Ag = gm * (8 * Ag / (1 - th) * X) + gm * (8 * Ag / (1 - th) * X) +
        K * X * (Ag / amin) + eta * (4 * INR r) * (Ag / amin) + eta * ((16 * INR r + 8) * Ag / (1 - th))).
      { unfold ep, K. field. lra. }
      rewrite EE.
      assert (T1 : K * X * 1 <= K * X * (Ag / amin)) by (apply Rmult_le_compat_l; auto; apply Rmult_le_pos; auto).
      assert (T2 : eta * (4 * INR r) * 1 <= eta * (4 * INR r) * (Ag / amin)).
      { apply Rmult_le_compat_l; auto. apply Rmult_le_pos; lra. }
      assert (T3 : n * (eta * (n * (2 + 6 * amax)) * 2) * X = K * X) by (unfold K; ring).
      assert (T4 : eta * (2 * INR r + (2 * INR r + 1) * (4 * Ag / (1 - th))) * 2 =
        eta * (4 * INR r) + eta * ((16 * INR r + 8) * Ag / (1 - th))) by (field; lra).
      lra. }
    assert (NZ : forall g, In g all -> A g g <> 0).
    { intros g Hg E. pose proof (RNG g Hg) as RN. rewrite E, Rabs_R0 in RN. lra. }
    pose proof (dominated_error dec all (fun g h => A g h) (fun g => val (b g)) (fun g => val (x g)) xs th ep
      (rg_all _ _ _ _ _ RG) F1 DOM NZ SOL RES g0 Hg0) as DEr.
    apply Rmult_le_reg_l with (1 - th); [lra|]. eapply Rle_trans; [exact DEr|].
    right. unfold ep, domError. fold gm. field. lra.
  Qed.
  End Solve.
End Main.
