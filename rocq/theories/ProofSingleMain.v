(** Main theorems about the factorization of a single matrix. *)
From Coq Require Import List Arith Lia Bool Ring.
From Verif Require Import Base ModelPerm ModelSparsity ModelSymbolic ModelNumeric ModelReg.
From Verif Require Import SpecSymbolic SpecArrow SpecNumeric.
From Verif Require Import ProofBase ProofPerm ProofCsr ProofSparsity ProofFill ProofFill3
  ProofArrowSym ProofDense ProofUpRow ProofUp ProofEntry ProofExact ProofKernel ProofSolve
  ProofLdl ProofSingle.
Import ListNotations.

Section Main.
  Context {F : Type} (O : ops F).
  Local Notation "0" := (o0 O) : scalar.
  Local Notation "a + b" := (oadd O a b) : scalar.
  Local Notation "a - b" := (osub O a b) : scalar.
  Local Notation "a * b" := (omul O a b) : scalar.
  Local Notation sum := (sumn O).

  (** ** reuse and lower triangle (law-free) *)

  Lemma block_ok s n p :
    spOf s n n -> validPerm n p ->
    exists b, factorizationBlk s p = Ok b /\
      goodBlk b n n (Fill (permLow (entries s) n p)) p p true.
  Proof. intros HS HP. apply factorizationBlk_ok; auto. apply validPerm_isPerm; auto. Qed.

  Lemma single_indep mt s n p b m sp vals m' sp' vals' reg L0 D0 L0' D0' :
    spOf s n n -> validPerm n p -> factorizationBlk s p = Ok b ->
    inputOf O m sp vals -> spOf sp n n -> coveredSym (entries sp) (entries s) n p ->
    inputOf O m' sp' vals' -> spOf sp' n n -> coveredSym (entries sp') (entries s) n p ->
    (forall i j, j <= i -> i < n ->
       denseAt O (entries sp) vals i j = denseAt O (entries sp') vals' i j) ->
    length L0 = c_nnz (b_sp b) -> length D0 = n ->
    length L0' = c_nnz (b_sp b) -> length D0' = n ->
    factorize O mt b (Some m) reg (L0, D0) = factorize O mt b (Some m') reg (L0', D0') /\
    exists L D, factorize O mt b (Some m) reg (L0, D0) = Ok (L, D).
  Proof.
    intros HS HP HB HI HSI HC HI' HSI' HC' EV N1 N2 N3 N4.
    destruct (block_ok s n p HS HP) as (b' & EB & G). rewrite HB in EB. injection EB as <-.
    split.
    - eapply (factorize_indep O mt b n (Fill (permLow (entries s) n p)) p m sp vals m' sp' vals');
        eauto using Fill_low, Fill_closed.
    - destruct (factorize_ok O mt b n (Fill (permLow (entries s) n p)) p m sp vals reg L0 D0)
        as (L & D & E & _); eauto using Fill_low, Fill_closed.
  Qed.
End Main.

Section MainExact.
  Context {F : Type} (O : ops F) (FL : fieldLaws O).
  Local Notation "0" := (o0 O) : scalar.
  Local Notation "a + b" := (oadd O a b) : scalar.
  Local Notation "a - b" := (osub O a b) : scalar.
  Local Notation "a * b" := (omul O a b) : scalar.
  Local Notation sum := (sumn O).
  Add Ring Fr4 : (fl_ring FL).

  (** the diagonal perturbation in original order *)
  Lemma unperm_fun n p (e : nat -> F) : isPerm n p ->
    exists E, forall i, i < n -> E (nth i p 0%nat) = e i.
  Proof.
    intros P. destruct (invert_ok n p P) as (q & _ & _ & H & _).
    exists (fun x => e (nth x q 0%nat)). intros i Hi. rewrite H; auto.
  Qed.

  Lemma plusDiag_perm n p A E i j : isPerm n p -> i < n -> j < n ->
    plusDiag O A E (nth i p 0%nat) (nth j p 0%nat) =
    plusDiag O (fun i j => A (nth i p 0%nat) (nth j p 0%nat)) (fun i => E (nth i p 0%nat)) i j.
  Proof.
    intros P Hi Hj. unfold plusDiag.
    destruct (Nat.eqb_spec i j) as [->|N].
    - rewrite Nat.eqb_refl. auto.
    - destruct (Nat.eqb_spec (nth i p 0%nat) (nth j p 0%nat)) as [E'|]; auto.
      apply isPerm_inj with (n := n) in E'; auto. lia.
  Qed.

  (** the product of the factors *)
  Lemma single_product mt s n p b m sp vals reg L0 D0 :
    spOf s n n -> validPerm n p -> factorizationBlk s p = Ok b ->
    inputOf O m sp vals -> spOf sp n n -> coveredSym (entries sp) (entries s) n p ->
    length L0 = c_nnz (b_sp b) -> length D0 = n ->
    exists L D, factorize O mt b (Some m) reg (L0, D0) = Ok (L, D) /\
      length L = c_nnz (b_sp b) /\ length D = n /\
      ((forall k, k < n -> vecAt O D k <> 0%s) ->
       exists E,
         (forall i, i < n -> vecAt O D i = reg (vecAt O D i - E (nth i p 0%nat))%s i) /\
         (forall i j, i < n -> j < n ->
           sum n (fun k => unitAt O (fl_one FL) (c_entries (b_sp b)) L i k * vecAt O D k *
                           unitAt O (fl_one FL) (c_entries (b_sp b)) L j k)%s =
           plusDiag O (symAt O (entries sp) vals) E (nth i p 0%nat) (nth j p 0%nat))).
  Proof.
    intros HS HP HB HI HSI HC N1 N2.
    destruct (block_ok s n p HS HP) as (b' & EB & G). rewrite HB in EB. injection EB as <-.
    pose proof (gb_p1 _ _ _ _ _ _ _ G) as P.
    destruct (factorize_ok O mt b n (Fill (permLow (entries s) n p)) p m sp vals reg L0 D0)
      as (L & D & E & NL & ND & X & K); eauto using Fill_low, Fill_closed.
    exists L, D. split; auto. split; auto. split; auto. intros HZ.
    set (A := fun i j => symAt O (entries sp) vals (nth i p 0%nat) (nth j p 0%nat)).
    set (Gd := getL O (b_sp b) L).
    assert (RW : forall i, i < n -> singleRow O n A reg Gd (getD O D) i).
    { intros i Hi. eapply (single_rows O FL mt b n (Fill (permLow (entries s) n p)) p m sp vals);
        eauto using Fill_low, Fill_closed. intros k Hk. apply HZ. lia. }
    set (e := fun i => (getD O D i - (A i i - sum n (fun k => Gd i k * getD O D k * Gd i k)))%s).
    destruct (unperm_fun n p e P) as (E' & HE'). exists E'. split.
    - intros i Hi. rewrite HE' by auto. unfold e. change (vecAt O D i) with (getD O D i).
      rewrite (sr_D _ _ _ _ _ _ _ (RW i Hi)) at 1. f_equal. ring.
    - intros i j Hi Hj. rewrite (plusDiag_perm n) by auto.
      rewrite <- (rows_product O FL n A reg Gd (getD O D) (fun i => E' (nth i p 0%nat))); auto.
      + apply sumn_ext. intros k Hk. unfold unitAt. unfold Gd. rewrite !getL_dense by auto. auto.
      + intros q r Hqr. apply getL_out. intros H. apply (gb_in _ _ _ _ _ _ _ G) in H.
        apply Fill_low in H. lia.
      + intros q r. apply symAt_perm.
  Qed.

  (** the solution of the system *)
  Lemma single_solve mt s n p b m sp vals reg L0 D0 L D :
    spOf s n n -> validPerm n p -> factorizationBlk s p = Ok b ->
    inputOf O m sp vals -> spOf sp n n -> coveredSym (entries sp) (entries s) n p ->
    length L0 = c_nnz (b_sp b) -> length D0 = n ->
    factorize O mt b (Some m) reg (L0, D0) = Ok (L, D) ->
    (forall k, k < n -> vecAt O D k <> 0%s) ->
    exists E,
      (forall i, i < n -> vecAt O D i = reg (vecAt O D i - E (nth i p 0%nat))%s i) /\
      (forall i j, i < n -> j < n ->
           sum n (fun k => unitAt O (fl_one FL) (c_entries (b_sp b)) L i k * vecAt O D k *
                           unitAt O (fl_one FL) (c_entries (b_sp b)) L j k)%s =
           plusDiag O (symAt O (entries sp) vals) E (nth i p 0%nat) (nth j p 0%nat)) /\
      forall rhs, length rhs = n ->
        exists x, solveInPlace O b (L, D) rhs = Ok x /\ length x = n /\
          (forall i, i < n ->
            sum n (fun j => plusDiag O (symAt O (entries sp) vals) E i j * vecAt O x j)%s =
            vecAt O rhs i) /\
          (forall x', length x' = n ->
             (forall i, i < n ->
               sum n (fun j => plusDiag O (symAt O (entries sp) vals) E i j * vecAt O x' j)%s =
               vecAt O rhs i) -> x' = x).
  Proof.
    intros HS HP HB HI HSI HC N1 N2 EF HZ.
    destruct (single_product mt s n p b m sp vals reg L0 D0) as (L' & D' & EF' & NL & ND & HE); auto.
    rewrite EF in EF'. injection EF' as <- <-.
    destruct (HE HZ) as (E & HE1 & HE2). exists E. split; auto. split; auto.
    intros rhs Hr.
    destruct (block_ok s n p HS HP) as (b' & EB & G). rewrite HB in EB. injection EB as <-.
    pose proof (gb_p1 _ _ _ _ _ _ _ G) as P.
    destruct (solve_ok O FL b n (Fill (permLow (entries s) n p)) p true L D rhs)
      as (y & z & x & ES & Nx & H1 & H2 & H3); eauto using Fill_low.
    exists x. split; auto. split; auto.
    set (A := plusDiag O (symAt O (entries sp) vals) E) in *.
    set (Ap := fun i j => A (nth i p 0%nat) (nth j p 0%nat)).
    set (Lh := unitAt O (fl_one FL) (c_entries (b_sp b)) L) in *.
    assert (Gd : forall i k, (if i =? k then fl_one FL else getL O (b_sp b) L i k) = Lh i k).
    { intros i k. unfold Lh, unitAt. rewrite getL_dense; auto. }
    assert (Prod : forall g h, In g (seq 0 n) -> In h (seq 0 n) ->
              Ap g h = suml O (seq 0 n) (fun k => Lh g k * getD O D k * Lh h k)%s).
    { intros g h Hg Hh. apply in_seq in Hg, Hh. rewrite (suml_seq O FL). unfold Ap.
      rewrite <- HE2 by lia. auto. }
    assert (U0 : forall g k, k <> g -> ~ k < g -> Lh g k = 0%s).
    { intros g k Nk Lk. rewrite <- Gd. destruct (Nat.eqb_spec g k); [lia|].
      apply getL_out. intros H. apply (gb_in _ _ _ _ _ _ _ G) in H. apply Fill_low in H. lia. }
    assert (U1 : forall g, Lh g g = fl_one FL).
    { intros g. unfold Lh, unitAt. rewrite Nat.eqb_refl. auto. }
    assert (PS : forall w i, i < n ->
       suml O (seq 0 n) (fun j => Ap i j * vat O p w j)%s =
       sum n (fun j => A (nth i p 0%nat) j * vecAt O w j)%s).
    { intros w i Hi. rewrite (suml_seq O FL).
      rewrite <- (sumn_perm O FL n p (fun j => (A (nth i p 0%nat) j * vecAt O w j)%s)) by auto.
      reflexivity. }
    assert (SV : forall g, In g (seq 0 n) ->
       suml O (seq 0 n) (fun h => Ap g h * vat O p x h)%s = vat O p rhs g).
    { apply (ldl_solve O FL (seq 0 n) Lh Ap (getD O D) y z (vat O p x) (vat O p rhs)); auto.
      - intros g Hg. apply in_seq in Hg. rewrite (suml_seq O FL). rewrite <- H1 by lia.
        apply sumn_ext. intros k Hk. rewrite Gd. auto.
      - intros k Hk. apply in_seq in Hk. apply H2. lia.
      - intros k Hk. apply in_seq in Hk. rewrite (suml_seq O FL). rewrite <- H3 by lia.
        apply sumn_ext. intros i Hi. rewrite Gd. auto. }
    assert (SV' : forall i, i < n -> sum n (fun j => A i j * vecAt O x j)%s = vecAt O rhs i).
    { intros i Hi. destruct (isPerm_surj n p i P Hi) as (g & Hg & <-).
      rewrite <- PS by auto. rewrite SV by (apply in_seq; lia). reflexivity. }
    split; auto.
    intros x' Nx' Hx'. apply (vat_ext O n p); auto. intros i Hi.
    apply (ldl_unique O FL (seq 0 n) Lh Ap (getD O D) (vat O p x') (vat O p x) (fun g => g) n);
      auto; try (apply in_seq; lia).
    - apply seq_NoDup.
    - intros g Hg. apply in_seq in Hg. lia.
    - intros k Hk. apply in_seq in Hk. apply HZ. lia.
    - intros g Hg. apply in_seq in Hg. rewrite !PS by lia. rewrite Hx', SV'; auto;
        apply isPerm_lt; auto; lia.
  Qed.
End MainExact.
