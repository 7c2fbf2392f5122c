(** Strictly diagonally dominant matrices are quasi-definite. *)
From Coq Require Import List Arith Lia Bool Ring.
From Verif Require Import ModelNumeric SpecNumeric SpecPivot SpecInertia SpecDominant.
From Verif Require Import ProofExact ProofLdl ProofPivot ProofInertia.
Import ListNotations.

Section Dominant.
  Context {F : Type} (O : ops F) (FL : fieldLaws O) (OL : ordLaws FL).
  Local Notation "0" := (o0 O) : scalar.
  Local Notation "a + b" := (oadd O a b) : scalar.
  Local Notation "a - b" := (osub O a b) : scalar.
  Local Notation "a * b" := (omul O a b) : scalar.
  Local Notation one := (fl_one FL).
  Local Notation opp := (fl_opp FL).
  Local Notation pos := (ol_pos OL).
  Local Notation abs := (absOf OL).
  Add Ring FrDom : (fl_ring FL).

  Lemma abs_cases a : (abs a = a /\ (a = 0%s \/ pos a)) \/ (abs a = opp a /\ pos (opp a)).
  Proof. unfold absOf. destruct (ol_dec OL a) as [[P|E]|P]; auto. Qed.
  Lemma abs_nonneg a : abs a = 0%s \/ pos (abs a).
  Proof. destruct (abs_cases a) as [[-> H]|[-> H]]; auto. Qed.
  Lemma abs_opp a : abs (opp a) = abs a.
  Proof.
    destruct (abs_cases a) as [[-> H]|[-> H]], (abs_cases (opp a)) as [[-> H']|[-> H']]; auto; try ring.
    - destruct H' as [Z|P].
      + transitivity (opp (opp a)); [|ring]. rewrite Z. ring.
      + destruct H as [->|H]; [ring|]. destruct (pos_opp O FL OL a H P).
    - replace (opp (opp a)) with a in H' by ring. destruct (pos_opp O FL OL a H' H).
  Qed.
  Lemma square_nonneg a : (a * a)%s = 0%s \/ pos (a * a)%s.
  Proof.
    destruct (ord_dec O FL OL a 0%s) as [->|N]; [left; ring|]. right. apply (pos_square O FL OL); auto.
  Qed.
  Lemma nonneg_mul a b : a = 0%s \/ pos a -> b = 0%s \/ pos b -> (a * b)%s = 0%s \/ pos (a * b)%s.
  Proof. intros [->|P] [->|Q]; [left; ring..|]. right. apply ol_mul; auto. Qed.
  Lemma pos_half a : pos (a + a)%s -> pos a.
  Proof.
    intros H. destruct (ol_dec OL a) as [[P|E]|P]; auto.
    - exfalso. apply (ol_0 OL). rewrite E in H. replace 0%s with (0 + 0)%s at 1 by ring. auto.
    - exfalso. apply (pos_opp O FL OL _ H). replace (opp (a + a))%s with (opp a + opp a)%s by ring.
      apply ol_add; auto.
  Qed.

  Context {I : Type} (eqd : forall a b : I, {a = b} + {a <> b}) (all : list I).
  Context (ND : NoDup all).
  Local Notation sum := (suml O all).
  Local Notation "'off' A g" := (sum (fun h => if eqd g h then 0%s else abs (A g h))) (at level 10, A at level 9, g at level 9).

  Lemma dominant_form (A : I -> I -> F) x :
    (forall g h, In g all -> In h all -> A g h = A h g) ->
    nonzeroVec O all x ->
    (forall g, In g all -> x g <> 0%s -> pos (A g g - off A g)%s) ->
    pos (quadForm O all A x).
  Proof.
    intros Sym (g0 & Hg0 & N0) HD. apply pos_half.
    set (w g h := if eqd g h then 0%s else abs (A g h)).
    (* the square that belongs to a pair of rows *)
    set (q g h := if eqd g h then 0%s
                  else ((x g + x g) * A g h * x h + abs (A g h) * (x g * x g + x h * x h))%s).
    assert (Hq : forall g h, q g h = 0%s \/ pos (q g h)).
    { intros g h. unfold q. destruct (eqd g h); auto.
      destruct (abs_cases (A g h)) as [[E H]|[E H]]; rewrite E.
      - replace ((x g + x g) * A g h * x h + A g h * (x g * x g + x h * x h))%s
          with (A g h * ((x g + x h) * (x g + x h)))%s by ring.
        apply nonneg_mul; auto. apply square_nonneg.
      - replace ((x g + x g) * A g h * x h + opp (A g h) * (x g * x g + x h * x h))%s
          with (opp (A g h) * ((x g - x h) * (x g - x h)))%s by ring.
        apply nonneg_mul; auto. apply square_nonneg. }
    assert (E : (quadForm O all A x + quadForm O all A x)%s =
      (sum (fun g => (A g g - off A g) * (x g * x g) + (A g g - off A g) * (x g * x g)) +
       sum (fun g => sum (fun h => q g h)))%s).
    { assert (E1 : (quadForm O all A x + quadForm O all A x)%s =
        (sum (fun g => sum (fun h => q g h)) +
         sum (fun g => A g g * (x g * x g) + A g g * (x g * x g)) -
         (sum (fun g => off A g * (x g * x g)) + sum (fun g => off A g * (x g * x g))))%s).
      { assert (E2 : sum (fun g => off A g * (x g * x g))%s = sum (fun g => sum (fun h => w g h * (x h * x h)))%s).
        { rewrite (suml_swap O FL). apply suml_ext. intros g Hg. rewrite <- (suml_mult_r O FL).
          apply suml_ext. intros h Hh. unfold w. destruct (eqd g h), (eqd h g); try congruence.
          rewrite (Sym h g) by auto. auto. }
        rewrite E2 at 2. rewrite <- !(suml_plus O FL), <- (suml_minus O FL). unfold quadForm.
        rewrite <- (suml_plus O FL). apply suml_ext. intros g Hg.
        replace (A g g * (x g * x g) + A g g * (x g * x g))%s
          with (sum (fun h => if eqd g h then A g g * (x g * x g) + A g g * (x g * x g) else 0)%s).
        2:{ rewrite (suml_single O FL all _ g); auto.
            - destruct (eqd g g); congruence.
            - intros h _ N. destruct (eqd g h); congruence. }
        rewrite <- (suml_mult_r O FL), <- !(suml_plus O FL), <- (suml_minus O FL).
        apply suml_ext. intros h Hh. unfold w, q. destruct (eqd g h) as [<-|N]; ring. }
      rewrite E1.
      rewrite (suml_ext O all (fun g => (A g g - off A g) * (x g * x g) + (A g g - off A g) * (x g * x g))%s
        (fun g => (A g g * (x g * x g) + A g g * (x g * x g)) -
                  (off A g * (x g * x g) + off A g * (x g * x g)))%s) by (intros; ring).
      rewrite (suml_minus O FL), (suml_plus O FL all (fun g => off A g * (x g * x g))%s). ring. }
    rewrite E.
    assert (P1 : pos (sum (fun g => (A g g - off A g) * (x g * x g) + (A g g - off A g) * (x g * x g))%s)).
    { assert (K : forall g, In g all -> x g <> 0%s ->
        pos ((A g g - off A g) * (x g * x g) + (A g g - off A g) * (x g * x g))%s).
      { intros g Hg N. apply ol_add; apply ol_mul; auto; apply (pos_square O FL OL); auto. }
      apply (pos_sum O FL OL all); eauto.
      intros g Hg. destruct (ord_dec O FL OL (x g) 0%s) as [Z|N]; auto. left. rewrite Z. ring. }
    destruct (pos_sum O FL OL all (fun g => sum (fun h => q g h))) as [[Z|P2] _].
    - intros g _. apply (pos_sum O FL OL all). auto.
    - rewrite Z. match goal with |- pos (?a + _)%s => replace (a + 0)%s with a by ring end. auto.
    - apply ol_add; auto.
  Qed.

  Lemma quad_opp (A : I -> I -> F) x : quadForm O all (fun g h => opp (A g h)) x = opp (quadForm O all A x).
  Proof.
    unfold quadForm. transitivity (0 - sum (fun g => sum (fun h => x g * A g h * x h)))%s; [|ring].
    rewrite <- (suml_0 O FL all (fun _ => 0%s)) at 1 by auto. rewrite <- (suml_minus O FL). apply suml_ext. intros g _.
    rewrite <- (suml_0 O FL all (fun _ => 0%s)) at 1 by auto. rewrite <- (suml_minus O FL). apply suml_ext. intros h _. ring.
  Qed.

  Lemma dominant_quasiDef (A : I -> I -> F) :
    (forall g h, In g all -> In h all -> A g h = A h g) ->
    dominant OL eqd all A -> quasiDef OL all (fun g => isPos OL (A g g)) A.
  Proof.
    intros Sym HD x Hx. split; intros Hz.
    - apply dominant_form; auto. intros g Hg N.
      destruct (isPos OL (A g g)) eqn:Ep; [|destruct N; auto].
      apply (isPos_iff O FL OL) in Ep. specialize (HD g Hg).
      destruct (abs_cases (A g g)) as [[E _]|[_ E]]; [rewrite E in HD; auto|].
      destruct (pos_opp O FL OL _ Ep E).
    - rewrite <- quad_opp. apply dominant_form; auto.
      + intros g h Hg Hh. rewrite Sym; auto.
      + intros g Hg N. destruct (isPos OL (A g g)) eqn:Ep; [destruct N; auto|].
        specialize (HD g Hg).
        rewrite (suml_ext O all _ (fun h => if eqd g h then 0%s else abs (A g h))).
        2:{ intros h _. destruct (eqd g h); auto. apply abs_opp. }
        destruct (abs_cases (A g g)) as [[E [Z|P]]|[E _]].
        * rewrite E, Z in HD. rewrite Z. replace (opp 0)%s with 0%s by ring. auto.
        * apply (isPos_iff O FL OL) in P. congruence.
        * rewrite E in HD. auto.
  Qed.
End Dominant.
