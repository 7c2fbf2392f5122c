(** In exact arithmetic the row equations of the kernels are dense matrix equations. *)
From Coq Require Import List Arith Lia Bool Ring.
From Verif Require Import Base ModelPerm ModelSparsity ModelSymbolic ModelNumeric.
From Verif Require Import SpecSymbolic SpecArrow SpecNumeric.
From Verif Require Import ProofBase ProofPerm ProofCsr ProofSparsity ProofFill ProofFill3
  ProofArrowSym ProofDense ProofUpRow ProofUp ProofEntry.
Import ListNotations.

Section Exact.
  Context {F : Type} (O : ops F) (FL : fieldLaws O).
  Local Notation "0" := (o0 O) : scalar.
  Local Notation "a + b" := (oadd O a b) : scalar.
  Local Notation "a - b" := (osub O a b) : scalar.
  Local Notation "a * b" := (omul O a b) : scalar.
  Local Notation "a / b" := (odiv O a b) : scalar.
  Local Notation sum := (sumn O).
  Add Ring Fr : (fl_ring FL).

  (** ** sums *)

  Lemma sumn_ext n f g : (forall k, k < n -> f k = g k) -> sum n f = sum n g.
  Proof.
    induction n as [|n IH]; cbn [sumn]; intros H; auto. rewrite IH, H; auto.
  Qed.

  Lemma sumn_0 n f : (forall k, k < n -> f k = 0%s) -> sum n f = 0%s.
  Proof.
    induction n as [|n IH]; cbn [sumn]; intros H; auto. rewrite IH, H; auto. ring.
  Qed.

  Lemma sumn_plus n f g : sum n (fun k => (f k + g k)%s) = (sum n f + sum n g)%s.
  Proof. induction n as [|n IH]; cbn [sumn]; [ring|]. rewrite IH. ring. Qed.

  Lemma sumn_minus n f g : sum n (fun k => (f k - g k)%s) = (sum n f - sum n g)%s.
  Proof. induction n as [|n IH]; cbn [sumn]; [ring|]. rewrite IH. ring. Qed.

  Lemma sumn_mult_l n f c : sum n (fun k => (c * f k)%s) = (c * sum n f)%s.
  Proof. induction n as [|n IH]; cbn [sumn]; [ring|]. rewrite IH. ring. Qed.

  Lemma sumn_mult_r n f c : sum n (fun k => (f k * c)%s) = (sum n f * c)%s.
  Proof. induction n as [|n IH]; cbn [sumn]; [ring|]. rewrite IH. ring. Qed.

  Lemma sumn_swap n m f :
    sum n (fun i => sum m (fun j => f i j)) = sum m (fun j => sum n (fun i => f i j)).
  Proof.
    induction n as [|n IH]; cbn [sumn].
    - symmetry. apply sumn_0. auto.
    - rewrite IH, <- sumn_plus. auto.
  Qed.

  Lemma sumn_single n f j :
    j < n -> (forall k, k < n -> k <> j -> f k = 0%s) -> sum n f = f j.
  Proof.
    induction n as [|n IH]; intros Hj H; [lia|]. cbn [sumn].
    destruct (Nat.eq_dec j n) as [->|N].
    - rewrite sumn_0; [ring|]. intros k Hk. apply H; lia.
    - rewrite IH, (H n); try lia; [ring|]. intros k Hk N'. apply H; lia.
  Qed.

  (** drop trailing zeros *)
  Lemma sumn_le n m f :
    n <= m -> (forall k, n <= k -> k < m -> f k = 0%s) -> sum m f = sum n f.
  Proof.
    induction m as [|m IH]; intros Hn H.
    - assert (n = 0%nat) as -> by lia. auto.
    - destruct (Nat.eq_dec n (S m)) as [->|N]; auto. cbn [sumn].
      rewrite IH, (H m); try lia; [ring|]. intros; apply H; lia.
  Qed.

  Lemma sumn_split n m f :
    sum (n + m) f = (sum n f + sum m (fun k => f (n + k)%nat))%s.
  Proof.
    induction m as [|m IH].
    - rewrite Nat.add_0_r. cbn [sumn]. ring.
    - rewrite Nat.add_succ_r. cbn [sumn]. rewrite IH. ring.
  Qed.

  Lemma suml_ext {A} (l : list A) f g : (forall a, In a l -> f a = g a) -> suml O l f = suml O l g.
  Proof.
    unfold suml. induction l as [|a l IH]; cbn [fold_right]; intros H; auto.
    rewrite H by (left; auto). f_equal. apply IH. intros; apply H; right; auto.
  Qed.

  Lemma suml_app {A} (l1 l2 : list A) f :
    suml O (l1 ++ l2) f = (suml O l1 f + suml O l2 f)%s.
  Proof.
    unfold suml. induction l1 as [|a l IH]; cbn [app fold_right]; [ring|]. rewrite IH. ring.
  Qed.

  (** ** from pattern loops to dense sums *)

  Lemma subf_list acc l nz t :
    subf O acc l nz t = (acc - suml O l (fun k => if nz k then t k else 0))%s.
  Proof.
    unfold subf, suml. revert acc.
    induction l as [|k l IH]; intros acc; cbn [fold_left fold_right]; [ring|].
    rewrite IH. destruct (nz k); ring.
  Qed.

  Lemma sumn_indicator n k v :
    k < n -> sum n (fun q => if q =? k then v else 0%s) = v.
  Proof.
    intros H. rewrite (sumn_single n _ k); auto.
    - rewrite Nat.eqb_refl. auto.
    - intros q _ N. destruct (Nat.eqb_spec q k); [lia|auto].
  Qed.

  Lemma suml_dense l n (f : nat -> F) :
    NoDup l -> (forall k, In k l -> k < n) ->
    suml O l f = sum n (fun k => if memb k l then f k else 0%s).
  Proof.
    induction l as [|a l IH]; intros ND Hl; cbn [suml fold_right].
    - symmetry. apply sumn_0. auto.
    - inversion ND as [|? ? Na ND']. subst. fold (suml O l f). rewrite IH; auto.
      2:{ intros; apply Hl; right; auto. }
      rewrite <- (sumn_indicator n a (f a)) at 1 by (apply Hl; left; auto).
      rewrite <- sumn_plus. apply sumn_ext. intros k Hk. cbn [memb existsb].
      destruct (Nat.eqb_spec k a) as [->|N]; cbn [orb].
      + apply memb_false in Na. fold (memb a l). rewrite Na. ring.
      + fold (memb k l). ring.
  Qed.

  Lemma subf_sum acc l nz t n (f : nat -> F) :
    NoDup l -> (forall k, In k l -> k < n) ->
    (forall k, k < n -> In k l -> nz k = true -> t k = f k) ->
    (forall k, k < n -> ~ (In k l /\ nz k = true) -> f k = 0%s) ->
    subf O acc l nz t = (acc - sum n f)%s.
  Proof.
    intros ND Hl H1 H2. rewrite subf_list, (suml_dense l n) by auto. f_equal.
    apply sumn_ext. intros k Hk. destruct (memb k l) eqn:Em.
    - apply memb_In in Em. destruct (nz k) eqn:Ez; auto.
      symmetry. apply H2; auto. intros [_ H]. congruence.
    - symmetry. apply H2; auto. intros [H _]. apply memb_false in Em. auto.
  Qed.

  Lemma dfold_list d l s D :
    dfold O d l s D = (d - suml O l (fun k => s k * (s k / D k)))%s.
  Proof.
    unfold dfold, suml. revert d.
    induction l as [|k l IH]; intros d; cbn [fold_left fold_right]; [ring|].
    rewrite IH. ring.
  Qed.

  Lemma dfold_sum d l s D n (f : nat -> F) :
    NoDup l -> (forall k, In k l -> k < n) ->
    (forall k, k < n -> In k l -> (s k * (s k / D k))%s = f k) ->
    (forall k, k < n -> ~ In k l -> f k = 0%s) ->
    dfold O d l s D = (d - sum n f)%s.
  Proof.
    intros ND Hl H1 H2. rewrite dfold_list, (suml_dense l n) by auto. f_equal.
    apply sumn_ext. intros k Hk. destruct (memb k l) eqn:Em.
    - apply memb_In in Em. auto.
    - symmetry. apply H2; auto. apply memb_false in Em. auto.
  Qed.

  Lemma minus_eq a b c : a = (b - c)%s -> b = (c + a)%s.
  Proof. intros ->. ring. Qed.

  Lemma mul0l a b : a = 0%s -> (a * b)%s = 0%s.
  Proof. intros ->. ring. Qed.

  Lemma mul0r a b : b = 0%s -> (a * b)%s = 0%s.
  Proof. intros ->. ring. Qed.

  (** ** dense equations of one row of the 2 block kernel *)

  Record ldlRow (n1 n2 : nat) (G11 : nat -> nat -> F) (D1 : nat -> F)
      (a21 a22 : nat -> nat -> F) (ad : nat -> F) (reg : F -> nat -> F)
      (G21 G22 : nat -> nat -> F) (D2 : nat -> F) (i : nat) : Prop := mkLdlRow {
    lr_21 : forall j, j < n1 ->
      a21 i j = (sum n1 (fun k => G21 i k * D1 k * G11 j k) + G21 i j * D1 j)%s;
    lr_22 : forall j, j < i ->
      a22 i j = (sum n1 (fun k => G21 i k * D1 k * G21 j k) +
                 sum n2 (fun k => G22 i k * D2 k * G22 j k) + G22 i j * D2 j)%s;
    lr_D : D2 i = reg (ad i - sum n1 (fun k => G21 i k * D1 k * G21 i k) -
                       sum n2 (fun k => G22 i k * D2 k * G22 i k))%s i }.

  Definition supp (G : nat -> nat -> F) (R : pattern) : Prop :=
    forall i j, ~ R i j -> G i j = 0%s.

  (** everything both methods know about the blocks *)
  Record denseHyp (c11 c21 c22 : csr) (n1 n2 : nat) (R11 R21 R22 : pattern)
      (G11 G21 G22 a21 a22 : nat -> nat -> F) : Prop := mkDenseHyp {
    dh_g11 : gcsr c11; dh_g21 : gcsr c21; dh_g22 : gcsr c22;
    dh_r11 : c_rows c11 = n1; dh_c11 : c_cols c11 = n1;
    dh_r21 : c_rows c21 = n2; dh_c21 : c_cols c21 = n1;
    dh_r22 : c_rows c22 = n2; dh_c22 : c_cols c22 = n2;
    dh_i11 : forall i j, In (i, j) (c_entries c11) <-> R11 i j;
    dh_i21 : forall i j, In (i, j) (c_entries c21) <-> R21 i j;
    dh_i22 : forall i j, In (i, j) (c_entries c22) <-> R22 i j;
    dh_low : forall i j, R11 i j -> j < i;
    dh_ch : chord2 R11 R21 R22;
    dh_s11 : forall i j, ~ In (i, j) (c_entries c11) -> G11 i j = 0%s;
    dh_s21 : forall i j, ~ In (i, j) (c_entries c21) -> G21 i j = 0%s;
    dh_s22 : forall i j, ~ In (i, j) (c_entries c22) -> G22 i j = 0%s;
    dh_a21 : forall i j, i < n2 -> j < n1 -> ~ In (i, j) (c_entries c21) -> a21 i j = 0%s;
    dh_a22 : forall i j, i < n2 -> j < i -> ~ In (i, j) (c_entries c22) -> a22 i j = 0%s }.

  Lemma In_dec_e (e : nat * nat) l : {In e l} + {~ In e l}.
  Proof. apply in_dec. intros [a b] [c d]. destruct (Nat.eq_dec a c), (Nat.eq_dec b d); subst;
    [left; auto|right; congruence..]. Qed.

  Section Row.
    Variables (c11 c21 c22 : csr) (n1 n2 : nat) (R11 R21 R22 : pattern)
      (G11 G21 G22 a21 a22 : nat -> nat -> F) (D1 D2 ad : nat -> F) (reg : F -> nat -> F)
      (i : nat).
    Hypothesis DH : denseHyp c11 c21 c22 n1 n2 R11 R21 R22 G11 G21 G22 a21 a22.
    Hypothesis Hi : i < n2.
    Hypothesis Z1 : forall k, k < n1 -> D1 k <> 0%s.
    Hypothesis Z2 : forall k, k < i -> D2 k <> 0%s.

    Let bd21 : forall r k, In k (cols c21 r) -> k < n1.
    Proof.
      intros r k H. apply cols_In in H. apply (wfc_bounds _ (proj1 (dh_g21 _ _ _ _ _ _ _ _ _ _ _ _ _ DH))) in H.
      rewrite (dh_c21 _ _ _ _ _ _ _ _ _ _ _ _ _ DH) in H. lia.
    Qed.
    Let bd22 : forall r k, In k (cols c22 r) -> k < r.
    Proof.
      intros r k H. apply cols_In in H. apply (dh_i22 _ _ _ _ _ _ _ _ _ _ _ _ _ DH) in H.
      destruct (dh_ch _ _ _ _ _ _ _ _ _ _ _ _ _ DH) as [_ _ Low _]. auto.
    Qed.
    Let nd21 : forall r, NoDup (cols c21 r).
    Proof. intros r. apply cols_NoDup. eapply dh_g21; eauto. Qed.
    Let nd22 : forall r, NoDup (cols c22 r).
    Proof. intros r. apply cols_NoDup. eapply dh_g22; eauto. Qed.

    (** sums over the pattern *)
    Let sum21 : forall acc j t G, (forall k, ~ In (j, k) (c_entries c11) -> G k = 0%s) ->
      (forall k, In k (cols c21 i) -> nzb c11 j k = true -> t k = (G21 i k * D1 k * G k)%s) ->
      subf O acc (cols c21 i) (nzb c11 j) t = (acc - sum n1 (fun k => G21 i k * D1 k * G k))%s.
    Proof.
      intros acc j t G HG Ht. apply subf_sum; auto.
      - intros k Hk. eapply bd21; eauto.
      - intros k Hk Hn. destruct (In_dec_e (i, k) (c_entries c21)) as [H1|H1].
        + apply mul0r. apply HG. intros H2. apply Hn. rewrite cols_In, nzb_In. auto.
        + apply mul0l, mul0l. eapply dh_s21; eauto.
    Qed.
    Let sum21' : forall acc j t,
      (forall k, In k (cols c21 i) -> nzb c21 j k = true -> t k = (G21 i k * D1 k * G21 j k)%s) ->
      subf O acc (cols c21 i) (nzb c21 j) t = (acc - sum n1 (fun k => G21 i k * D1 k * G21 j k))%s.
    Proof.
      intros acc j t Ht. apply subf_sum; auto.
      - intros k Hk. eapply bd21; eauto.
      - intros k Hk Hn. destruct (In_dec_e (i, k) (c_entries c21)) as [H1|H1].
        + apply mul0r. eapply dh_s21; eauto. intros H2. apply Hn. rewrite cols_In, nzb_In. auto.
        + apply mul0l, mul0l. eapply dh_s21; eauto.
    Qed.
    Let sum22 : forall acc j t,
      (forall k, In k (cols c22 i) -> nzb c22 j k = true -> t k = (G22 i k * D2 k * G22 j k)%s) ->
      subf O acc (cols c22 i) (nzb c22 j) t = (acc - sum n2 (fun k => G22 i k * D2 k * G22 j k))%s.
    Proof.
      intros acc j t Ht. apply subf_sum; auto.
      - intros k Hk. apply bd22 in Hk. lia.
      - intros k Hk Hn. destruct (In_dec_e (i, k) (c_entries c22)) as [H1|H1].
        + apply mul0r. eapply dh_s22; eauto. intros H2. apply Hn. rewrite cols_In, nzb_In. auto.
        + apply mul0l, mul0l. eapply dh_s22; eauto.
    Qed.

    (** outside the pattern both sides vanish *)
    Let out21 : forall j, j < n1 -> ~ In (i, j) (c_entries c21) ->
      a21 i j = (sum n1 (fun k => G21 i k * D1 k * G11 j k) + G21 i j * D1 j)%s.
    Proof.
      intros j Hj Hn. rewrite (dh_a21 _ _ _ _ _ _ _ _ _ _ _ _ _ DH) by auto.
      rewrite (dh_s21 _ _ _ _ _ _ _ _ _ _ _ _ _ DH i j) by auto.
      rewrite sumn_0; [ring|]. intros k Hk.
      destruct (In_dec_e (i, k) (c_entries c21)) as [H1|H1].
      - apply mul0r. apply (dh_s11 _ _ _ _ _ _ _ _ _ _ _ _ _ DH). intros H2. apply Hn.
        apply (dh_i21 _ _ _ _ _ _ _ _ _ _ _ _ _ DH).
        apply (dh_i21 _ _ _ _ _ _ _ _ _ _ _ _ _ DH) in H1.
        apply (dh_i11 _ _ _ _ _ _ _ _ _ _ _ _ _ DH) in H2.
        destruct (dh_ch _ _ _ _ _ _ _ _ _ _ _ _ _ DH) as [C21 _ _ _].
        pose proof (dh_low _ _ _ _ _ _ _ _ _ _ _ _ _ DH _ _ H2). eapply C21; eauto.
      - apply mul0l, mul0l. eapply dh_s21; eauto.
    Qed.
    Let out22 : forall j, j < i -> ~ In (i, j) (c_entries c22) ->
      a22 i j = (sum n1 (fun k => G21 i k * D1 k * G21 j k) +
                 sum n2 (fun k => G22 i k * D2 k * G22 j k) + G22 i j * D2 j)%s.
    Proof.
      intros j Hj Hn. rewrite (dh_a22 _ _ _ _ _ _ _ _ _ _ _ _ _ DH) by auto.
      rewrite (dh_s22 _ _ _ _ _ _ _ _ _ _ _ _ _ DH i j) by auto.
      destruct (dh_ch _ _ _ _ _ _ _ _ _ _ _ _ _ DH) as [_ C22 Low Cl].
      pose proof (dh_i21 _ _ _ _ _ _ _ _ _ _ _ _ _ DH) as I21.
      pose proof (dh_i22 _ _ _ _ _ _ _ _ _ _ _ _ _ DH) as I22.
      rewrite !sumn_0; [ring| |].
      - intros k Hk. destruct (In_dec_e (i, k) (c_entries c22)) as [H1|H1].
        + apply mul0r. apply (dh_s22 _ _ _ _ _ _ _ _ _ _ _ _ _ DH). intros H2. apply Hn.
          apply I22. apply I22 in H1, H2. pose proof (Low _ _ H2). eapply Cl; eauto.
        + apply mul0l, mul0l. eapply dh_s22; eauto.
      - intros k Hk. destruct (In_dec_e (i, k) (c_entries c21)) as [H1|H1].
        + apply mul0r. apply (dh_s21 _ _ _ _ _ _ _ _ _ _ _ _ _ DH). intros H2. apply Hn.
          apply I22. apply I21 in H1, H2. eapply C22; eauto.
        + apply mul0l, mul0l. eapply dh_s21; eauto.
    Qed.

    Lemma upRow_ldl s21 s22 :
      upRow O c11 c21 c22 G11 D1 a21 a22 ad reg i s21 s22 G21 G22 D2 ->
      ldlRow n1 n2 G11 D1 a21 a22 ad reg G21 G22 D2 i.
    Proof.
      intros [U1 U2 U3 U4 U5].
      assert (S21 : forall k, In k (cols c21 i) -> s21 k = (G21 i k * D1 k)%s).
      { intros k Hk. rewrite U2 by auto. symmetry. apply (fl_div FL). apply Z1. eapply bd21; eauto. }
      assert (S22 : forall k, In k (cols c22 i) -> s22 k = (G22 i k * D2 k)%s).
      { intros k Hk. rewrite U4 by auto. symmetry. apply (fl_div FL). apply Z2. apply bd22; auto. }
      constructor.
      - intros j Hj. destruct (In_dec_e (i, j) (c_entries c21)) as [H|H]; auto.
        apply cols_In in H. rewrite <- S21 by auto. apply minus_eq. rewrite U1 by auto.
        apply sum21; [intros; eapply dh_s11; eauto|].
        intros k Hk _. rewrite S21 by auto. ring.
      - intros j Hj. destruct (In_dec_e (i, j) (c_entries c22)) as [H|H]; auto.
        apply cols_In in H. rewrite <- S22 by auto. pose proof (U3 j H) as E.
        rewrite sum22, sum21' in E.
        + rewrite E. ring.
        + intros k Hk _. rewrite S21 by auto. ring.
        + intros k Hk _. rewrite S22 by auto. ring.
      - rewrite U5. f_equal.
        rewrite (dfold_sum _ (cols c22 i) s22 D2 n2 (fun k => (G22 i k * D2 k * G22 i k)%s)).
        rewrite (dfold_sum _ (cols c21 i) s21 D1 n1 (fun k => (G21 i k * D1 k * G21 i k)%s)).
        + reflexivity.
        + auto.
        + intros k Hk. eapply bd21; eauto.
        + intros k Hk Hin. rewrite <- U2 by auto. rewrite S21 by auto. ring.
        + intros k Hk Hn. apply mul0r. eapply dh_s21; eauto. rewrite <- cols_In. auto.
        + auto.
        + intros k Hk. apply bd22 in Hk. lia.
        + intros k Hk Hin. rewrite <- U4 by auto. rewrite S22 by auto. ring.
        + intros k Hk Hn. apply mul0r. eapply dh_s22; eauto. rewrite <- cols_In. auto.
    Qed.

    Lemma div_mul a b c : b <> 0%s -> c = (a / b)%s -> (c * b)%s = a.
    Proof. intros Hb ->. apply (fl_div FL); auto. Qed.

    Lemma ewRow_ldl :
      ewRow O c11 c21 c22 G11 D1 a21 a22 ad reg i G21 G22 D2 ->
      ldlRow n1 n2 G11 D1 a21 a22 ad reg G21 G22 D2 i.
    Proof.
      intros [U1 U2 U3]. constructor.
      - intros j Hj. destruct (In_dec_e (i, j) (c_entries c21)) as [H|H]; auto.
        apply cols_In in H. apply minus_eq.
        rewrite (div_mul _ _ _ (Z1 j Hj) (U1 j H)).
        apply sum21; [intros; eapply dh_s11; eauto|]. intros; ring.
      - intros j Hj. destruct (In_dec_e (i, j) (c_entries c22)) as [H|H]; auto.
        apply cols_In in H.
        rewrite (div_mul _ _ _ (Z2 j Hj) (U2 j H)).
        rewrite sum22, sum21'; [ring|intros; ring|intros; ring].
      - rewrite U3. f_equal.
        rewrite (subf_sum _ (cols c22 i) _ _ n2 (fun k => (G22 i k * D2 k * G22 i k)%s)).
        rewrite (subf_sum _ (cols c21 i) _ _ n1 (fun k => (G21 i k * D1 k * G21 i k)%s)).
        + reflexivity.
        + auto.
        + intros k Hk. eapply bd21; eauto.
        + intros; ring.
        + intros k Hk Hn. apply mul0r. eapply dh_s21; eauto. rewrite <- cols_In. intros H; apply Hn; auto.
        + auto.
        + intros k Hk. apply bd22 in Hk. lia.
        + intros; ring.
        + intros k Hk Hn. apply mul0r. eapply dh_s22; eauto. rewrite <- cols_In. intros H; apply Hn; auto.
    Qed.
  End Row.

  (** ** dense equations of one row of the 3 block kernel *)

  Record partDense (n1 n2 : nat) (G11 : nat -> nat -> F) (D1 : nat -> F) (G21 : nat -> nat -> F)
      (a31 a32 a33 : nat -> nat -> F) (ad : nat -> F)
      (G31 G32 G33 : nat -> nat -> F) (D3 : nat -> F) (i : nat) : Prop := mkPartDense {
    pd_31 : forall j, j < n1 ->
      a31 i j = (sum n1 (fun k => G31 i k * D1 k * G11 j k) + G31 i j * D1 j)%s;
    pd_32 : forall j, j < n2 ->
      a32 i j = (sum n1 (fun k => G31 i k * D1 k * G21 j k) + G32 i j)%s;
    pd_33 : forall j, j < i ->
      a33 i j = (sum n1 (fun k => G31 i k * D1 k * G31 j k) + G33 i j)%s;
    pd_D : ad i = (sum n1 (fun k => G31 i k * D1 k * G31 i k) + D3 i)%s }.

  Lemma partRow_dense c11 c21 c31 c32 c33 n1 n2 n3 R11 R21 R31 R32 R33
      G11 D1 G21 a31 a32 a33 ad i s G31 G32 G33 D3 :
    gcsr c31 -> c_cols c31 = n1 ->
    (forall i j, In (i, j) (c_entries c11) <-> R11 i j) ->
    (forall i j, In (i, j) (c_entries c21) <-> R21 i j) ->
    (forall i j, In (i, j) (c_entries c31) <-> R31 i j) ->
    (forall i j, In (i, j) (c_entries c32) <-> R32 i j) ->
    (forall i j, In (i, j) (c_entries c33) <-> R33 i j) ->
    (forall i j, R11 i j -> j < i) -> chord3 R11 R21 R31 R32 R33 ->
    (forall i j, ~ In (i, j) (c_entries c11) -> G11 i j = 0%s) ->
    (forall i j, ~ In (i, j) (c_entries c21) -> G21 i j = 0%s) ->
    (forall i j, ~ In (i, j) (c_entries c31) -> G31 i j = 0%s) ->
    (forall i j, ~ In (i, j) (c_entries c32) -> G32 i j = 0%s) ->
    (forall i j, ~ In (i, j) (c_entries c33) -> G33 i j = 0%s) ->
    (forall i j, i < n3 -> j < n1 -> ~ In (i, j) (c_entries c31) -> a31 i j = 0%s) ->
    (forall i j, i < n3 -> j < n2 -> ~ In (i, j) (c_entries c32) -> a32 i j = 0%s) ->
    (forall i j, i < n3 -> j < i -> ~ In (i, j) (c_entries c33) -> a33 i j = 0%s) ->
    i < n3 -> (forall k, k < n1 -> D1 k <> 0%s) ->
    partRow O c11 c21 c31 c32 c33 G11 D1 G21 a31 a32 a33 ad i s G31 G32 G33 D3 ->
    partDense n1 n2 G11 D1 G21 a31 a32 a33 ad G31 G32 G33 D3 i.
  Proof.
    intros GC31 HC31 I11 I21 I31 I32 I33 Low11 [C31 C32 C33] Z11 Z21 Z31 Z32 Z33
      Za31 Za32 Za33 Hi Z1 [U1 U2 U3 U4 U5].
    assert (bd31 : forall r k, In k (cols c31 r) -> k < n1).
    { intros r k H. apply cols_In in H. apply (wfc_bounds _ (proj1 GC31)) in H. lia. }
    assert (ND : forall r, NoDup (cols c31 r)) by (intros r; apply cols_NoDup; auto).
    assert (S31 : forall k, In k (cols c31 i) -> s k = (G31 i k * D1 k)%s).
    { intros k Hk. rewrite U2 by auto. symmetry. apply (fl_div FL). apply Z1. eapply bd31; eauto. }
    assert (SUM : forall acc j c G, (forall k, ~ In (j, k) (c_entries c) -> G k = 0%s) ->
      subf O acc (cols c31 i) (nzb c j) (fun k => (G k * s k)%s) =
      (acc - sum n1 (fun k => G31 i k * D1 k * G k))%s).
    { intros acc j c G HG. apply subf_sum; auto.
      - intros k Hk. eapply bd31; eauto.
      - intros k Hk Hin _. rewrite S31 by auto. ring.
      - intros k Hk Hn. destruct (In_dec_e (i, k) (c_entries c31)) as [H1|H1].
        + apply mul0r. apply HG. intros H2. apply Hn. rewrite cols_In, nzb_In. auto.
        + apply mul0l, mul0l. auto. }
    constructor.
    - intros j Hj. destruct (In_dec_e (i, j) (c_entries c31)) as [H|H].
      + apply cols_In in H. rewrite <- S31 by auto. apply minus_eq. rewrite U1 by auto.
        apply SUM. auto.
      + rewrite Za31, (Z31 i j) by auto. rewrite sumn_0; [ring|]. intros k Hk.
        destruct (In_dec_e (i, k) (c_entries c31)) as [H1|H1].
        * apply mul0r, Z11. intros H2. apply H. apply I31. apply I31 in H1. apply I11 in H2.
          pose proof (Low11 _ _ H2). eapply C31; eauto.
        * apply mul0l, mul0l. auto.
    - intros j Hj. destruct (In_dec_e (i, j) (c_entries c32)) as [H|H].
      + apply cols_In in H. apply minus_eq. rewrite U3 by auto. apply SUM. auto.
      + rewrite Za32, (Z32 i j) by auto. rewrite sumn_0; [ring|]. intros k Hk.
        destruct (In_dec_e (i, k) (c_entries c31)) as [H1|H1].
        * apply mul0r, Z21. intros H2. apply H. apply I32. apply I31 in H1. apply I21 in H2.
          eapply C32; eauto.
        * apply mul0l, mul0l. auto.
    - intros j Hj. destruct (In_dec_e (i, j) (c_entries c33)) as [H|H].
      + apply cols_In in H. apply minus_eq. rewrite U4 by auto. apply SUM. auto.
      + rewrite Za33, (Z33 i j) by auto. rewrite sumn_0; [ring|]. intros k Hk.
        destruct (In_dec_e (i, k) (c_entries c31)) as [H1|H1].
        * apply mul0r, Z31. intros H2. apply H. apply I33. apply I31 in H1, H2.
          eapply C33; eauto.
        * apply mul0l, mul0l. auto.
    - apply minus_eq. rewrite U5. apply dfold_sum; auto.
      + intros k Hk. eapply bd31; eauto.
      + intros k Hk Hin. rewrite <- U2 by auto. rewrite S31 by auto. ring.
      + intros k Hk Hn. apply mul0r, Z31. rewrite <- cols_In. auto.
  Qed.
End Exact.
