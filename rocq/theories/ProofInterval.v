(** The operations of intervals enclose those of the numbers, dual numbers compute derivatives. *)
From Coq Require Import List Arith Lia QArith Qcanon Reals Lra Psatz Field.
From Verif Require Import Base ModelSparsity ModelNumeric ModelArrow SpecNumeric SpecReg SpecParam ExampleData.
Local Open Scope Qc_scope.

Lemma qc_mul_le_r a b y : a <= b -> 0 <= y -> a * y <= b * y.
Proof. apply Qcmult_le_compat_r. Qed.
Lemma qc_opp_le a b : a <= b -> - b <= - a.
Proof. apply Qcopp_le_compat. Qed.
Lemma qc_mul_ge_r a b y : a <= b -> y <= 0 -> b * y <= a * y.
Proof.
  intros H Y. assert (N : 0 <= - y) by (apply qc_opp_le in Y; exact Y).
  pose proof (qc_mul_le_r a b (- y) H N) as P. apply qc_opp_le in P.
  replace (- (a * - y)) with (a * y) in P by ring. replace (- (b * - y)) with (b * y) in P by ring. exact P.
Qed.
Lemma qc_lin a b x y : a <= x -> x <= b ->
  (a * y <= x * y /\ x * y <= b * y) \/ (b * y <= x * y /\ x * y <= a * y).
Proof.
  intros HA HB. destruct (Qclt_le_dec 0 y) as [Y|Y].
  - left. apply Qclt_le_weak in Y. split; apply qc_mul_le_r; auto.
  - right. split; apply qc_mul_ge_r; auto.
Qed.
Lemma qmin_l a b : qmin a b <= a.
Proof. unfold qmin. destruct (Qclt_le_dec a b); [apply Qcle_refl|auto]. Qed.
Lemma qmin_r a b : qmin a b <= b.
Proof. unfold qmin. destruct (Qclt_le_dec a b); [apply Qclt_le_weak; auto|apply Qcle_refl]. Qed.
Lemma qmax_l a b : a <= qmax a b.
Proof. unfold qmax. destruct (Qclt_le_dec a b); [apply Qclt_le_weak; auto|apply Qcle_refl]. Qed.
Lemma qmax_r a b : b <= qmax a b.
Proof. unfold qmax. destruct (Qclt_le_dec a b); [apply Qcle_refl|auto]. Qed.
Lemma hull_in u v w z x l r : (l = u \/ l = v \/ l = w \/ l = z) -> (r = u \/ r = v \/ r = w \/ r = z) ->
  l <= x -> x <= r -> inInterval x (hull u v w z).
Proof.
  intros HL HR A B. unfold inInterval, hull. split.
  - apply Qcle_trans with l; auto. destruct HL as [->|[->|[->| ->]]].
    + apply Qcle_trans with (qmin u v); apply qmin_l.
    + apply Qcle_trans with (qmin u v); [apply qmin_l|apply qmin_r].
    + apply Qcle_trans with (qmin w z); [apply qmin_r|apply qmin_l].
    + apply Qcle_trans with (qmin w z); apply qmin_r.
  - apply Qcle_trans with r; auto. destruct HR as [->|[->|[->| ->]]].
    + apply Qcle_trans with (qmax u v); apply qmax_l.
    + apply Qcle_trans with (qmax u v); [apply qmax_r|apply qmax_l].
    + apply Qcle_trans with (qmax w z); [apply qmax_l|apply qmax_r].
    + apply Qcle_trans with (qmax w z); apply qmax_r.
Qed.
Lemma hull_mul a b c d x y : a <= x -> x <= b -> c <= y -> y <= d ->
  inInterval (x * y) (hull (a * c) (a * d) (b * c) (b * d)).
Proof.
  intros A B C D.
  pose proof (qc_lin c d y a C D) as Ha. pose proof (qc_lin c d y b C D) as Hb.
  rewrite !(Qcmult_comm _ a) in Ha. rewrite !(Qcmult_comm _ b) in Hb.
  destruct (qc_lin a b x y A B) as [[P Q]|[P Q]]; destruct Ha as [[Ha1 Ha2]|[Ha1 Ha2]]; destruct Hb as [[Hb1 Hb2]|[Hb1 Hb2]];
    first [ apply (hull_in _ _ _ _ _ (a * c) (b * d)); [tauto|tauto| |]; eapply Qcle_trans; eassumption
          | apply (hull_in _ _ _ _ _ (a * c) (b * c)); [tauto|tauto| |]; eapply Qcle_trans; eassumption
          | apply (hull_in _ _ _ _ _ (a * d) (b * c)); [tauto|tauto| |]; eapply Qcle_trans; eassumption
          | apply (hull_in _ _ _ _ _ (a * d) (b * d)); [tauto|tauto| |]; eapply Qcle_trans; eassumption
          | apply (hull_in _ _ _ _ _ (b * c) (a * c)); [tauto|tauto| |]; eapply Qcle_trans; eassumption
          | apply (hull_in _ _ _ _ _ (b * c) (a * d)); [tauto|tauto| |]; eapply Qcle_trans; eassumption
          | apply (hull_in _ _ _ _ _ (b * d) (a * c)); [tauto|tauto| |]; eapply Qcle_trans; eassumption
          | apply (hull_in _ _ _ _ _ (b * d) (a * d)); [tauto|tauto| |]; eapply Qcle_trans; eassumption ].
Qed.
Lemma qc_neq c : c < 0 \/ 0 < c -> c <> 0.
Proof. intros [H|H] E; subst; exact (Qclt_not_eq _ _ H eq_refl). Qed.
Lemma qc_inv_pos y : 0 < y -> 0 <= / y.
Proof.
  intros Y. destruct (Qclt_le_dec (/ y) 0) as [N|N]; auto. exfalso.
  assert (E : / y * y <= 0 * y).
  { apply qc_mul_le_r; apply Qclt_le_weak; auto. }
  replace (/ y * y) with 1 in E by (field; apply qc_neq; auto). replace (0 * y) with 0 in E by ring.
  apply (Qcle_not_lt _ _ E). reflexivity.
Qed.
Lemma qc_inv_le c y : 0 < c -> c <= y -> / y <= / c.
Proof.
  intros C H. assert (Y : 0 < y) by (eapply Qclt_le_trans; eauto).
  pose proof (qc_mul_le_r c y (/ c * / y) H) as P.
  replace (c * (/ c * / y)) with (/ y) in P by (field; split; apply qc_neq; auto).
  replace (y * (/ c * / y)) with (/ c) in P by (field; split; apply qc_neq; auto).
  apply P. replace 0 with (0 * / y) by ring. apply qc_mul_le_r; apply qc_inv_pos; auto.
Qed.
Lemma qc_inv_opp y : y <> 0 -> / - y = - / y.
Proof. intros H. field. split; auto. intros E. apply H. replace y with (- - y) by ring. rewrite E. reflexivity. Qed.
Lemma qc_opp_lt a : a < 0 -> 0 < - a.
Proof.
  intros H. destruct (Qclt_le_dec 0 (- a)) as [P|P]; auto. exfalso. apply qc_opp_le in P.
  replace (- - a) with a in P by ring. apply (Qcle_not_lt _ _ P). exact H.
Qed.
Lemma qc_inv_le_neg d y : d < 0 -> y <= d -> / d <= / y.
Proof.
  intros D H. assert (Y : y < 0) by (eapply Qcle_lt_trans; eauto).
  pose proof (qc_inv_le (- d) (- y) (qc_opp_lt d D) (qc_opp_le _ _ H)) as P.
  rewrite !qc_inv_opp in P by (apply qc_neq; auto). apply qc_opp_le in P.
  replace (- - / d) with (/ d) in P by ring. replace (- - / y) with (/ y) in P by ring. exact P.
Qed.
Lemma hull_swap u v w z x : inInterval x (hull u v w z) -> inInterval x (hull v u z w).
Proof.
  unfold inInterval, hull. intros [A B]. split; (eapply Qcle_trans; [|try eassumption]); try eassumption.
  - clear. unfold qmin. repeat (destruct (Qclt_le_dec _ _)); try apply Qcle_refl; auto using Qclt_le_weak;
      eauto using Qcle_trans, Qclt_le_weak.
  - clear. unfold qmax. repeat (destruct (Qclt_le_dec _ _)); try apply Qcle_refl; auto using Qclt_le_weak;
      eauto using Qcle_trans, Qclt_le_weak.
Qed.

Lemma intervals_enclose : opsRel Oq intervalOps inInterval.
Proof.
  constructor; cbn [Oq intervalOps o0 oadd osub omul odiv].
  - split; apply Qcle_refl.
  - intros x [[a b]|] y [[c d]|]; cbn; auto. intros [A B] [C D]. split; apply Qcplus_le_compat; auto.
  - intros x [[a b]|] y [[c d]|]; cbn; auto. intros [A B] [C D].
    split; unfold Qcminus; apply Qcplus_le_compat; auto using qc_opp_le.
  - intros x [[a b]|] y [[c d]|]; cbn [interval2]; try (intros; exact I). intros [A B] [C D]. cbn [fst snd].
    apply hull_mul; auto.
  - intros x [[a b]|] y [[c d]|]; cbn [interval2]; try (intros; exact I). intros [A B] [C D]. cbn [fst snd].
    destruct (Qclt_le_dec 0 c) as [P|P].
    + apply hull_swap. unfold Qcdiv. apply hull_mul; auto.
      * apply qc_inv_le; auto. eapply Qclt_le_trans; eauto.
      * apply qc_inv_le; auto.
    + destruct (Qclt_le_dec d 0) as [N|N]; [|exact I].
      apply hull_swap. unfold Qcdiv. apply hull_mul; auto.
      * apply qc_inv_le_neg; auto.
      * apply qc_inv_le_neg; auto. eapply Qcle_lt_trans; eauto.
Qed.

Local Open Scope R_scope.
Lemma curves_tangent t : opsRel curveOps dualOps (tangent t).
Proof.
  constructor; cbn [curveOps lanesOps Or dualOps o0 oadd osub omul odiv].
  - split; auto. apply derivable_pt_lim_const.
  - intros f [[u d]|] g [[v e]|]; cbn; auto. intros [<- A] [<- B]. split; auto.
    apply (derivable_pt_lim_plus f g t d e A B).
  - intros f [[u d]|] g [[v e]|]; cbn; auto. intros [<- A] [<- B]. split; auto.
    apply (derivable_pt_lim_minus f g t d e A B).
  - intros f [[u d]|] g [[v e]|]; cbn; auto. intros [<- A] [<- B]. split; auto.
    apply (derivable_pt_lim_mult f g t d e A B).
  - intros f [[u d]|] g [[v e]|]; cbn [dual2]; try (intros; exact I). intros [<- A] [<- B]. cbn [fst snd].
    destruct (Req_EM_T (g t) 0) as [Z|Z]; [exact I|]. split; auto.
    apply (derivable_pt_lim_div f g t d e A B Z).
Qed.
Lemma lanes_lane {I F : Type} (O : ops F) (i : I) : opsRel (lanesOps O) O (laneOf i).
Proof.
  constructor; cbn [lanesOps o0 oadd osub omul odiv]; unfold laneOf; auto; intros f u g v <- <-; reflexivity.
Qed.
Lemma curves_value (t : R) : opsRel curveOps Or (laneOf t).
Proof. apply lanes_lane. Qed.
Lemma everything_related {F G : Type} (OF : ops F) (OG : ops G) : opsRel OF OG (fun _ _ => True).
Proof. constructor; auto. Qed.
