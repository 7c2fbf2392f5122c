(** The statements of PropSingle in the form used there. *)
From Coq Require Import List Arith Lia Bool.
From Verif Require Import Base ModelPerm ModelSparsity ModelSymbolic ModelNumeric ModelReg.
From Verif Require Import SpecSymbolic SpecArrow SpecNumeric.
From Verif Require Import ProofBase ProofPerm ProofCsr ProofFill ProofArrowSym ProofDense ProofExact
  ProofSingle ProofSingleMain ProofMethods ProofMultiply.
Import ListNotations.

Section S.
  Context {F : Type} (O : ops F) (FL : fieldLaws O).

  Lemma factorization_identity mt s n p a vals m reg :
    spOf s n n -> validPerm n p ->
    spOf a n n -> inputOf O m a vals -> coveredSym (entries a) (entries s) n p ->
    exists b, factorizationBlk s p = Ok b /\
      NoDup (c_entries (b_sp b)) /\
      (forall i j, In (i, j) (c_entries (b_sp b)) -> j < i /\ i < n) /\
      forall L0 D0, length L0 = c_nnz (b_sp b) -> length D0 = n ->
      exists L D, factorize O mt b (Some m) reg (L0, D0) = Ok (L, D) /\
        length L = c_nnz (b_sp b) /\ length D = n /\
        ((forall k, k < n -> vecAt O D k <> o0 O) ->
         exists E,
           (forall i, i < n ->
              vecAt O D i = reg (osub O (vecAt O D i) (E (nth i p 0))) i) /\
           (forall i j, i < n -> j < n ->
              ldltAt O (fl_one FL) n (c_entries (b_sp b)) L D i j =
              plusDiag O (symAt O (entries a) vals) E (nth i p 0) (nth j p 0))).
  Proof.
    intros HS HP HA HI HC. destruct (block_ok s n p HS HP) as (b & EB & G).
    exists b. split; auto. split.
    { apply csr_sorted_NoDup. apply (gb_wf _ _ _ _ _ _ _ G). apply (gb_sorted _ _ _ _ _ _ _ G). }
    split.
    { intros i j H. apply (gb_in _ _ _ _ _ _ _ G) in H. pose proof (gb_bound _ _ _ _ _ _ _ G i j H).
      apply Fill_low in H. lia. }
    intros L0 D0 N1 N2.
    exact (single_product O FL mt s n p b m a vals reg L0 D0 HS HP EB HI HA HC N1 N2).
  Qed.

  Lemma factorization_identity_none mt s n p a vals m :
    spOf s n n -> validPerm n p ->
    spOf a n n -> inputOf O m a vals -> coveredSym (entries a) (entries s) n p ->
    exists b, factorizationBlk s p = Ok b /\
      forall L0 D0, length L0 = c_nnz (b_sp b) -> length D0 = n ->
      exists L D, factorize O mt b (Some m) regularizationNone (L0, D0) = Ok (L, D) /\
        length L = c_nnz (b_sp b) /\ length D = n /\
        ((forall k, k < n -> vecAt O D k <> o0 O) ->
         forall i j, i < n -> j < n ->
           ldltAt O (fl_one FL) n (c_entries (b_sp b)) L D i j =
           symAt O (entries a) vals (nth i p 0) (nth j p 0)).
  Proof.
    intros HS HP HA HI HC.
    destruct (factorization_identity mt s n p a vals m regularizationNone HS HP HA HI HC)
      as (b & EB & _ & _ & HF).
    exists b. split; auto. intros L0 D0 N1 N2.
    destruct (HF L0 D0 N1 N2) as (L & D & EF & NL & ND & _).
    exists L, D. split; auto. split; auto. split; auto. intros HZ.
    exact (proj1 (single_solve_none O FL mt s n p b m a vals L0 D0 L D HS HP EB HI HA HC N1 N2 EF HZ)).
  Qed.

  Lemma methods_agree s n p a vals m reg b L0 D0 L0' D0' Lu Du Le De :
    spOf s n n -> validPerm n p -> factorizationBlk s p = Ok b ->
    spOf a n n -> inputOf O m a vals -> coveredSym (entries a) (entries s) n p ->
    length L0 = c_nnz (b_sp b) -> length D0 = n ->
    length L0' = c_nnz (b_sp b) -> length D0' = n ->
    factorize O UpLooking b (Some m) reg (L0, D0) = Ok (Lu, Du) ->
    factorize O EntryWise b (Some m) reg (L0', D0') = Ok (Le, De) ->
    (forall k, k < n -> vecAt O Du k <> o0 O) \/ (forall k, k < n -> vecAt O De k <> o0 O) ->
    Lu = Le /\ Du = De.
  Proof.
    intros HS HP HB HA HI HC N1 N2 N3 N4 EU EE [HZ|HZ].
    - rewrite (single_methods O FL UpLooking EntryWise s n p b m a vals reg L0 D0 Lu Du L0' D0'
        HS HP HB HI HA HC N1 N2 N3 N4 EU HZ) in EE. injection EE as -> ->. auto.
    - rewrite (single_methods O FL EntryWise UpLooking s n p b m a vals reg L0' D0' Le De L0 D0
        HS HP HB HI HA HC N3 N4 N1 N2 EE HZ) in EU. injection EU as -> ->. auto.
  Qed.

  Lemma solves mt s n p a vals m reg b L0 D0 L D :
    spOf s n n -> validPerm n p -> factorizationBlk s p = Ok b ->
    spOf a n n -> inputOf O m a vals -> coveredSym (entries a) (entries s) n p ->
    length L0 = c_nnz (b_sp b) -> length D0 = n ->
    factorize O mt b (Some m) reg (L0, D0) = Ok (L, D) ->
    (forall k, k < n -> vecAt O D k <> o0 O) ->
    exists E,
      (forall i, i < n -> vecAt O D i = reg (osub O (vecAt O D i) (E (nth i p 0))) i) /\
      (forall i j, i < n -> j < n ->
         ldltAt O (fl_one FL) n (c_entries (b_sp b)) L D i j =
         plusDiag O (symAt O (entries a) vals) E (nth i p 0) (nth j p 0)) /\
      forall rhs, length rhs = n ->
      exists x, solveInPlace O b (L, D) rhs = Ok x /\ length x = n /\
        (forall i, i < n ->
           matVec O n (plusDiag O (symAt O (entries a) vals) E) x i = vecAt O rhs i) /\
        (forall x', length x' = n ->
           (forall i, i < n ->
              matVec O n (plusDiag O (symAt O (entries a) vals) E) x' i = vecAt O rhs i) ->
           x' = x).
  Proof.
    intros HS HP HB HA HI HC N1 N2 EF HZ.
    exact (single_solve O FL mt s n p b m a vals reg L0 D0 L D HS HP HB HI HA HC N1 N2 EF HZ).
  Qed.

  Lemma solves_none mt s n p a vals m b L0 D0 L D rhs :
    spOf s n n -> validPerm n p -> factorizationBlk s p = Ok b ->
    spOf a n n -> inputOf O m a vals -> coveredSym (entries a) (entries s) n p ->
    length L0 = c_nnz (b_sp b) -> length D0 = n ->
    factorize O mt b (Some m) regularizationNone (L0, D0) = Ok (L, D) ->
    (forall k, k < n -> vecAt O D k <> o0 O) ->
    length rhs = n ->
    exists x, solveInPlace O b (L, D) rhs = Ok x /\ length x = n /\
      (forall i, i < n -> matVec O n (symAt O (entries a) vals) x i = vecAt O rhs i) /\
      (forall x', length x' = n ->
         (forall i, i < n -> matVec O n (symAt O (entries a) vals) x' i = vecAt O rhs i) ->
         x' = x).
  Proof.
    intros HS HP HB HA HI HC N1 N2 EF HZ NR.
    exact (proj2 (single_solve_none O FL mt s n p b m a vals L0 D0 L D HS HP HB HI HA HC N1 N2 EF HZ)
      rhs NR).
  Qed.

  Lemma round_trip_prop mt s n p a vals m b L0 D0 L D x :
    spOf s n n -> validPerm n p -> factorizationBlk s p = Ok b ->
    spOf a n n -> inputOf O m a vals -> coveredSym (entries a) (entries s) n p ->
    NoDup (entries a) -> (forall r c, In (r, c) (entries a) -> c <= r) ->
    length L0 = c_nnz (b_sp b) -> length D0 = n ->
    factorize O mt b (Some m) regularizationNone (L0, D0) = Ok (L, D) ->
    (forall k, k < n -> vecAt O D k <> o0 O) ->
    length x = n ->
    exists rhs, multiply O Symmetric m x (repeat (o0 O) n) = Ok rhs /\
      solveInPlace O b (L, D) rhs = Ok x.
  Proof.
    intros HS HP HB HA HI HC ND LT N1 N2 EF HZ Nx.
    exact (round_trip O FL mt s n p b m a vals L0 D0 L D x HS HP HB HI HA HC ND LT N1 N2 EF HZ Nx).
  Qed.

  Lemma permutation_irrelevant mt mt' s s' n p p' a vals m b b' L0 D0 L0' D0' L D L' D' rhs :
    spOf s n n -> validPerm n p -> factorizationBlk s p = Ok b ->
    spOf s' n n -> validPerm n p' -> factorizationBlk s' p' = Ok b' ->
    spOf a n n -> inputOf O m a vals ->
    coveredSym (entries a) (entries s) n p -> coveredSym (entries a) (entries s') n p' ->
    length L0 = c_nnz (b_sp b) -> length D0 = n ->
    length L0' = c_nnz (b_sp b') -> length D0' = n ->
    factorize O mt b (Some m) regularizationNone (L0, D0) = Ok (L, D) ->
    factorize O mt' b' (Some m) regularizationNone (L0', D0') = Ok (L', D') ->
    (forall k, k < n -> vecAt O D k <> o0 O) ->
    (forall k, k < n -> vecAt O D' k <> o0 O) ->
    length rhs = n ->
    exists x, solveInPlace O b (L, D) rhs = Ok x /\ solveInPlace O b' (L', D') rhs = Ok x.
  Proof.
    intros HS HP HB HS' HP' HB' HA HI HC HC' N1 N2 N1' N2' EF EF' HZ HZ' NR.
    exact (permutation_indep O FL mt mt' s s' n p p' b b' m a vals L0 D0 L0' D0' L D L' D' rhs
      HS HP HB HS' HP' HB' HI HA HC HC' N1 N2 N1' N2' EF EF' HZ HZ' NR).
  Qed.

  Lemma multiply_normal m a vals nr nc x rhs :
    spOf a nr nc -> inputOf O m a vals -> length x = nc -> length rhs = nr ->
    exists r, multiply O Normal m x rhs = Ok r /\ length r = nr /\
      forall i, i < nr ->
        vecAt O r i = oadd O (vecAt O rhs i) (matVec O nc (totalAt O (entries a) vals) x i).
  Proof.
    intros HS HI Nx Nr.
    destruct (multiply_ok O FL Normal m a vals nr nc x rhs) as (r & E & N & H); auto.
    { discriminate. }
    rewrite Nr in *. exists r. auto.
  Qed.

  Lemma multiply_transposed m a vals nr nc x rhs :
    spOf a nr nc -> inputOf O m a vals -> length x = nr -> length rhs = nc ->
    exists r, multiply O Transposed m x rhs = Ok r /\ length r = nc /\
      forall i, i < nc ->
        vecAt O r i =
        oadd O (vecAt O rhs i) (matVec O nr (fun i j => totalAt O (entries a) vals j i) x i).
  Proof.
    intros HS HI Nx Nr.
    destruct (multiply_ok O FL Transposed m a vals nr nc x rhs) as (r & E & N & H); auto.
    { discriminate. }
    rewrite Nr in *. exists r. auto.
  Qed.

  Lemma multiply_symmetric m a vals n x rhs :
    spOf a n n -> inputOf O m a vals -> length x = n -> length rhs = n ->
    exists r, multiply O Symmetric m x rhs = Ok r /\ length r = n /\
      forall i, i < n ->
        vecAt O r i =
        oadd O (vecAt O rhs i)
          (matVec O n
             (fun i j =>
                if i =? j then totalAt O (entries a) vals i i
                else oadd O (totalAt O (entries a) vals i j) (totalAt O (entries a) vals j i))
             x i).
  Proof.
    intros HS HI Nx Nr.
    destruct (multiply_ok O FL Symmetric m a vals n n x rhs) as (r & E & N & H); auto.
    rewrite Nr in *. exists r. auto.
  Qed.
End S.

Section Lawfree.
  Context {F : Type} (O : ops F).

  Lemma only_lower mt s n p a vals m a' vals' m' reg b L0 D0 :
    spOf s n n -> validPerm n p -> factorizationBlk s p = Ok b ->
    spOf a n n -> inputOf O m a vals -> coveredSym (entries a) (entries s) n p ->
    spOf a' n n -> inputOf O m' a' vals' -> coveredSym (entries a') (entries s) n p ->
    (forall i j, j <= i -> i < n ->
       denseAt O (entries a) vals i j = denseAt O (entries a') vals' i j) ->
    length L0 = c_nnz (b_sp b) -> length D0 = n ->
    exists L D, length L = c_nnz (b_sp b) /\ length D = n /\
      factorize O mt b (Some m) reg (L0, D0) = Ok (L, D) /\
      factorize O mt b (Some m') reg (L0, D0) = Ok (L, D).
  Proof.
    intros HS HP HB HA HI HC HA' HI' HC' EV N1 N2.
    destruct (single_indep O mt s n p b m a vals m' a' vals' reg L0 D0 L0 D0
      HS HP HB HI HA HC HI' HA' HC' EV N1 N2 N1 N2) as (E & _).
    destruct (block_ok s n p HS HP) as (b' & EB & G). rewrite HB in EB. injection EB as <-.
    destruct (factorize_ok O mt b n (Fill (permLow (entries s) n p)) p m a vals reg L0 D0)
      as (L & D & EF & NL & ND & _); eauto using Fill_low, Fill_closed.
    exists L, D. split; auto. split; auto. split; auto. congruence.
  Qed.

  Lemma reuse mt s n p a vals m reg b L0 D0 L0' D0' :
    spOf s n n -> validPerm n p -> factorizationBlk s p = Ok b ->
    spOf a n n -> inputOf O m a vals -> coveredSym (entries a) (entries s) n p ->
    length L0 = c_nnz (b_sp b) -> length D0 = n ->
    length L0' = c_nnz (b_sp b) -> length D0' = n ->
    exists L D, length L = c_nnz (b_sp b) /\ length D = n /\
      factorize O mt b (Some m) reg (L0, D0) = Ok (L, D) /\
      factorize O mt b (Some m) reg (L0', D0') = Ok (L, D).
  Proof.
    intros HS HP HB HA HI HC N1 N2 N3 N4.
    destruct (only_lower mt s n p a vals m a vals m reg b L0 D0) as (L & D & NL & ND & EF & _); auto.
    destruct (single_indep O mt s n p b m a vals m a vals reg L0 D0 L0' D0'
      HS HP HB HI HA HC HI HA HC (fun _ _ _ _ => eq_refl) N1 N2 N3 N4) as (E & _).
    exists L, D. split; auto. split; auto. split; auto. congruence.
  Qed.
End Lawfree.
