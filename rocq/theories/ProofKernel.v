(** Both factorization methods: result, uniqueness (without algebraic laws) and
    dense equations (in exact arithmetic). *)
From Coq Require Import List Arith Lia Bool.
From Verif Require Import Base ModelPerm ModelSparsity ModelSymbolic ModelNumeric.
From Verif Require Import SpecSymbolic SpecArrow SpecNumeric.
From Verif Require Import ProofBase ProofPerm ProofCsr ProofSparsity ProofFill ProofFill3
  ProofArrowSym ProofDense ProofUpRow ProofUp ProofEntry ProofExact.
Import ListNotations.

Section Kernel.
  Context {F : Type} (O : ops F).
  Local Notation get := (getL O).

  Definition kernelRows (mt : method) (c11 c21 c22 : csr) (n2 : nat)
      (G11 : nat -> nat -> F) (D1 : nat -> F) (a21 a22 : nat -> nat -> F) (ad : nat -> F)
      (reg : F -> nat -> F) (G21 G22 : nat -> nat -> F) (D2 : nat -> F) : Prop :=
    match mt with
    | UpLooking => exists s21 s22, forall i, i < n2 ->
        upRow O c11 c21 c22 G11 D1 a21 a22 ad reg i (s21 i) (s22 i) G21 G22 D2
    | EntryWise => forall i, i < n2 ->
        ewRow O c11 c21 c22 G11 D1 a21 a22 ad reg i G21 G22 D2
    end.

  (** what the kernels need to know about the blocks *)
  Record kernelHyp (b11 b21 b22 : blk) (n1 n2 : nat) (R11 R21 R22 : pattern)
      (q1 p1 p2 : perm) (sy1 : bool) : Prop := mkKernelHyp {
    kh_11 : goodBlk b11 n1 n1 R11 q1 q1 sy1;
    kh_21 : goodBlk b21 n2 n1 R21 p2 p1 false;
    kh_22 : goodBlk b22 n2 n2 R22 p2 p2 true;
    kh_low : forall i j, R11 i j -> j < i;
    kh_cl : closedPattern R11;
    kh_ch : chord2 R11 R21 R22 }.

  Lemma factorize5_ok mt b11 b21 b22 n1 n2 R11 R21 R22 q1 p1 p2 sy1 L11 D11
      init21 init22 reg L21 L22 D22 :
    kernelHyp b11 b21 b22 n1 n2 R11 R21 R22 q1 p1 p2 sy1 ->
    coverRect init21 n2 n1 R21 p2 p1 -> coverSym init22 n2 R22 p2 ->
    readableI init21 -> readableI init22 ->
    length L11 = c_nnz (b_sp b11) -> length D11 = n1 ->
    length L21 = c_nnz (b_sp b21) -> length L22 = c_nnz (b_sp b22) -> length D22 = n2 ->
    exists L21' L22' D22',
      factorize5 O mt b11 b21 b22 L11 D11 init21 init22 reg (L21, L22, D22) =
        Ok (L21', L22', D22') /\
      length L21' = c_nnz (b_sp b21) /\ length L22' = c_nnz (b_sp b22) /\ length D22' = n2 /\
      kernelRows mt (b_sp b11) (b_sp b21) (b_sp b22) n2 (get (b_sp b11) L11) (getD O D11)
          (initL O init21 b21 L21) (initL O init22 b22 L22) (initD O init22 b22 D22) reg
          (get (b_sp b21) L21') (get (b_sp b22) L22') (getD O D22').
  Proof.
    intros [G11 G21 G22 Low Cl CH] V21 V22 Rd21 Rd22 N11 ND1 N21 N22 ND2.
    destruct mt; cbn [factorize5 kernelRows].
    - destruct (factorizeUpLooking_ok O b11 b21 b22 n1 n2 R11 R21 R22 q1 p1 p2 sy1 L11 D11
        init21 init22 reg L21 L22 D22) as (A & B & D & s1 & s2 & E & H1 & H2 & H3 & H4); auto.
      exists A, B, D. split; auto. split; auto. split; auto. split; auto. exists s1, s2. auto.
    - destruct (factorizeEntryWise_ok O b11 b21 b22 n1 n2 R11 R21 R22 q1 p1 p2 sy1 L11 D11
        init21 init22 reg L21 L22 D22) as (A & B & D & E & H1 & H2 & H3 & H4); auto.
      exists A, B, D. auto.
  Qed.

  (** ** uniqueness *)

  Lemma upRow_unique c11 c21 c22 n2 G11 D1 a21 a22 ad reg s21 s22 G21 G22 D2
      a21' a22' ad' s21' s22' G21' G22' D2' :
    (forall i j, In (i, j) (c_entries c11) -> j < i) ->
    (forall i j, In (i, j) (c_entries c22) -> j < i) ->
    (forall i j, In (i, j) (c_entries c21) -> a21 i j = a21' i j) ->
    (forall i j, In (i, j) (c_entries c22) -> a22 i j = a22' i j) ->
    (forall i, i < n2 -> ad i = ad' i) ->
    (forall i, i < n2 ->
        upRow O c11 c21 c22 G11 D1 a21 a22 ad reg i (s21 i) (s22 i) G21 G22 D2) ->
    (forall i, i < n2 ->
        upRow O c11 c21 c22 G11 D1 a21' a22' ad' reg i (s21' i) (s22' i) G21' G22' D2') ->
    forall i, i < n2 ->
      (forall j, In j (cols c21 i) -> G21 i j = G21' i j) /\
      (forall j, In j (cols c22 i) -> G22 i j = G22' i j) /\ D2 i = D2' i.
  Proof.
    intros Low11 Low22 E21 E22 Ed U U'. induction i as [i IH] using lt_wf_ind. intros Hi.
    destruct (U i Hi) as [A1 A2 A3 A4 A5]. destruct (U' i Hi) as [B1 B2 B3 B4 B5].
    assert (Lt : forall j, In j (cols c22 i) -> j < i) by (intros j Hj; apply cols_In in Hj; auto).
    assert (S1 : forall j, In j (cols c21 i) -> s21 i j = s21' i j).
    { induction j as [j IHj] using lt_wf_ind. intros Hj. rewrite A1, B1 by auto.
      rewrite E21 by (apply cols_In; auto). apply subf_ext; auto. intros k Hk Hz.
      apply nzb_In in Hz. apply Low11 in Hz. rewrite IHj by auto. auto. }
    assert (S2 : forall j, In j (cols c22 i) -> s22 i j = s22' i j).
    { induction j as [j IHj] using lt_wf_ind. intros Hj. rewrite A3, B3 by auto.
      pose proof (Lt j Hj) as Hji.
      rewrite E22 by (apply cols_In; auto).
      rewrite (subf_ext O (a22' i j) (cols c21 i) (nzb c21 j) (fun k => omul O (G21 j k) (s21 i k))
                 (nzb c21 j) (fun k => omul O (G21' j k) (s21' i k))).
      - apply subf_ext; auto. intros k Hk Hz.
        apply nzb_In in Hz. pose proof (Low22 _ _ Hz). rewrite IHj by auto. f_equal.
        apply (IH j); try lia. apply cols_In. auto.
      - auto.
      - intros k Hk Hz. rewrite S1 by auto. f_equal. apply (IH j); try lia.
        apply cols_In, nzb_In. auto. }
    split; [|split].
    - intros j Hj. rewrite A2, B2, S1; auto.
    - intros j Hj. rewrite A4, B4, S2 by auto. f_equal. pose proof (Lt j Hj). apply IH; lia.
    - rewrite A5, B5. f_equal. rewrite Ed by auto.
      assert (DE : forall d l s s' D D', (forall k, In k l -> s k = s' k) ->
                (forall k, In k l -> D k = D' k) -> dfold O d l s D = dfold O d l s' D').
      { clear. intros d l. revert d. unfold dfold.
        induction l as [|k l IHl]; intros d s s' D D' H1 H2; cbn [fold_left]; auto.
        rewrite (H1 k), (H2 k) by (left; auto). apply IHl; intros; [apply H1|apply H2]; right; auto. }
      rewrite (DE (ad' i) (cols c21 i) (s21 i) (s21' i) D1 D1) by auto.
      apply DE; auto. intros k Hk. pose proof (Lt k Hk). apply IH; lia.
  Qed.

  Lemma ewRow_unique c11 c21 c22 n2 G11 D1 a21 a22 ad reg G21 G22 D2
      a21' a22' ad' G21' G22' D2' :
    (forall i j, In (i, j) (c_entries c11) -> j < i) ->
    (forall i j, In (i, j) (c_entries c22) -> j < i) ->
    (forall i j, In (i, j) (c_entries c21) -> a21 i j = a21' i j) ->
    (forall i j, In (i, j) (c_entries c22) -> a22 i j = a22' i j) ->
    (forall i, i < n2 -> ad i = ad' i) ->
    (forall i, i < n2 -> ewRow O c11 c21 c22 G11 D1 a21 a22 ad reg i G21 G22 D2) ->
    (forall i, i < n2 -> ewRow O c11 c21 c22 G11 D1 a21' a22' ad' reg i G21' G22' D2') ->
    forall i, i < n2 ->
      (forall j, In j (cols c21 i) -> G21 i j = G21' i j) /\
      (forall j, In j (cols c22 i) -> G22 i j = G22' i j) /\ D2 i = D2' i.
  Proof.
    intros Low11 Low22 E21 E22 Ed U U'. induction i as [i IH] using lt_wf_ind. intros Hi.
    destruct (U i Hi) as [A1 A2 A3]. destruct (U' i Hi) as [B1 B2 B3].
    assert (Lt : forall j, In j (cols c22 i) -> j < i) by (intros j Hj; apply cols_In in Hj; auto).
    assert (S1 : forall j, In j (cols c21 i) -> G21 i j = G21' i j).
    { induction j as [j IHj] using lt_wf_ind. intros Hj. rewrite A1, B1 by auto.
      rewrite E21 by (apply cols_In; auto). f_equal. apply subf_ext; auto. intros k Hk Hz.
      apply nzb_In in Hz. apply Low11 in Hz. rewrite IHj by auto. auto. }
    assert (S2 : forall j, In j (cols c22 i) -> G22 i j = G22' i j).
    { induction j as [j IHj] using lt_wf_ind. intros Hj. rewrite A2, B2 by auto.
      pose proof (Lt j Hj) as Hji.
      rewrite E22 by (apply cols_In; auto).
      rewrite (proj2 (proj2 (IH j Hji ltac:(lia)))). f_equal.
      rewrite (subf_ext O (a22' i j) (cols c21 i) (nzb c21 j) 
                 (fun k => omul O (omul O (G21 i k) (G21 j k)) (D1 k))
                 (nzb c21 j) (fun k => omul O (omul O (G21' i k) (G21' j k)) (D1 k))).
      - apply subf_ext; auto. intros k Hk Hz.
        apply nzb_In in Hz. pose proof (Low22 _ _ Hz). rewrite IHj by auto. f_equal; [f_equal|].
        + apply (IH j); try lia. apply cols_In. auto.
        + apply (IH k); lia.
      - auto.
      - intros k Hk Hz. rewrite S1 by auto. f_equal. f_equal. apply (IH j); try lia.
        apply cols_In, nzb_In. auto. }
    split; [|split]; auto.
    rewrite A3, B3. f_equal. rewrite Ed by auto.
    rewrite (subf_ext O (ad' i) (cols c21 i) (fun _ => true)
                 (fun k => omul O (omul O (G21 i k) (G21 i k)) (D1 k))
                 (fun _ => true) (fun k => omul O (omul O (G21' i k) (G21' i k)) (D1 k))); auto.
    - apply subf_ext; auto. intros k Hk _. rewrite S2 by auto. f_equal.
      pose proof (Lt k Hk). apply IH; lia.
    - intros k Hk _. rewrite S1 by auto. auto.
  Qed.

  Lemma kernelRows_unique mt c11 c21 c22 n2 G11 D1 a21 a22 ad reg G21 G22 D2
      a21' a22' ad' G21' G22' D2' :
    (forall i j, In (i, j) (c_entries c11) -> j < i) ->
    (forall i j, In (i, j) (c_entries c22) -> j < i) ->
    (forall i j, In (i, j) (c_entries c21) -> a21 i j = a21' i j) ->
    (forall i j, In (i, j) (c_entries c22) -> a22 i j = a22' i j) ->
    (forall i, i < n2 -> ad i = ad' i) ->
    kernelRows mt c11 c21 c22 n2 G11 D1 a21 a22 ad reg G21 G22 D2 ->
    kernelRows mt c11 c21 c22 n2 G11 D1 a21' a22' ad' reg G21' G22' D2' ->
    forall i, i < n2 ->
      (forall j, In j (cols c21 i) -> G21 i j = G21' i j) /\
      (forall j, In j (cols c22 i) -> G22 i j = G22' i j) /\ D2 i = D2' i.
  Proof.
    intros H1 H2 H3 H4 H5 K K'. destruct mt; cbn [kernelRows] in *.
    - destruct K as (s1 & s2 & K), K' as (s1' & s2' & K').
      exact (upRow_unique _ _ _ _ _ _ _ _ _ _ _ _ _ _ _ _ _ _ _ _ _ _ _ H1 H2 H3 H4 H5 K K').
    - exact (ewRow_unique _ _ _ _ _ _ _ _ _ _ _ _ _ _ _ _ _ _ _ H1 H2 H3 H4 H5 K K').
  Qed.

  (** the previous contents of the factor do not matter beyond the initial values *)
  Lemma factorize5_indep mt b11 b21 b22 n1 n2 R11 R21 R22 q1 p1 p2 sy1 L11 D11
      init21 init22 init21' init22' reg L21 L22 D22 M21 M22 E22 :
    kernelHyp b11 b21 b22 n1 n2 R11 R21 R22 q1 p1 p2 sy1 ->
    coverRect init21 n2 n1 R21 p2 p1 -> coverSym init22 n2 R22 p2 ->
    coverRect init21' n2 n1 R21 p2 p1 -> coverSym init22' n2 R22 p2 ->
    readableI init21 -> readableI init22 -> readableI init21' -> readableI init22' ->
    length L11 = c_nnz (b_sp b11) -> length D11 = n1 ->
    length L21 = c_nnz (b_sp b21) -> length L22 = c_nnz (b_sp b22) -> length D22 = n2 ->
    length M21 = c_nnz (b_sp b21) -> length M22 = c_nnz (b_sp b22) -> length E22 = n2 ->
    (forall i j, In (i, j) (c_entries (b_sp b21)) ->
       initL O init21 b21 L21 i j = initL O init21' b21 M21 i j) ->
    (forall i j, In (i, j) (c_entries (b_sp b22)) ->
       initL O init22 b22 L22 i j = initL O init22' b22 M22 i j) ->
    (forall i, i < n2 -> initD O init22 b22 D22 i = initD O init22' b22 E22 i) ->
    factorize5 O mt b11 b21 b22 L11 D11 init21 init22 reg (L21, L22, D22) =
    factorize5 O mt b11 b21 b22 L11 D11 init21' init22' reg (M21, M22, E22).
  Proof.
    intros KH V21 V22 V21' V22' R1 R2 R1' R2' N11 ND1 N21 N22 ND2 M1 M2 M3 E1 E2 E3.
    destruct (factorize5_ok mt b11 b21 b22 n1 n2 R11 R21 R22 q1 p1 p2 sy1 L11 D11
       init21 init22 reg L21 L22 D22) as (A & B & D & E & NA & NB & ND & K); auto.
    destruct (factorize5_ok mt b11 b21 b22 n1 n2 R11 R21 R22 q1 p1 p2 sy1 L11 D11
       init21' init22' reg M21 M22 E22) as (A' & B' & D' & E' & NA' & NB' & ND' & K'); auto.
    rewrite E, E'. destruct KH as [G11 G21 G22 Low Cl [C1 C2 C3 C4]].
    pose proof (kernelRows_unique mt (b_sp b11) (b_sp b21) (b_sp b22) n2 _ _ _ _ _ _ _ _ _ _ _ _ _ _ _
      (fun i j H => Low i j (proj1 (gb_in _ _ _ _ _ _ _ G11 i j) H))
      (fun i j H => C3 i j (proj1 (gb_in _ _ _ _ _ _ _ G22 i j) H)) E1 E2 E3 K K') as U.
    assert (EqA : A = A').
    { apply (getL_ext O (b_sp b21)); auto; [eapply goodBlk_gcsr; eauto|]. intros i j H.
      apply U; [|apply cols_In; auto].
      apply (wfc_bounds _ (gb_wf _ _ _ _ _ _ _ G21)) in H.
      rewrite (gb_rows _ _ _ _ _ _ _ G21) in H. lia. }
    assert (EqB : B = B').
    { apply (getL_ext O (b_sp b22)); auto; [eapply goodBlk_gcsr; eauto|]. intros i j H.
      apply U; [|apply cols_In; auto].
      apply (wfc_bounds _ (gb_wf _ _ _ _ _ _ _ G22)) in H.
      rewrite (gb_rows _ _ _ _ _ _ _ G22) in H. lia. }
    assert (EqD : D = D').
    { apply (list_ext _ _ (o0 O)); [lia|]. intros k Hk. apply (U k). lia. }
    congruence.
  Qed.

  Lemma partRow_unique c11 c21 c31 c32 c33 n3 G11 D1 G21 a31 a32 a33 ad s G31 G32 G33 D3
      a31' a32' a33' ad' s' G31' G32' G33' D3' :
    (forall i j, In (i, j) (c_entries c11) -> j < i) ->
    (forall i j, In (i, j) (c_entries c33) -> j < i) ->
    (forall i j, In (i, j) (c_entries c31) -> a31 i j = a31' i j) ->
    (forall i j, In (i, j) (c_entries c32) -> a32 i j = a32' i j) ->
    (forall i j, In (i, j) (c_entries c33) -> a33 i j = a33' i j) ->
    (forall i, i < n3 -> ad i = ad' i) ->
    (forall i, i < n3 ->
       partRow O c11 c21 c31 c32 c33 G11 D1 G21 a31 a32 a33 ad i (s i) G31 G32 G33 D3) ->
    (forall i, i < n3 ->
       partRow O c11 c21 c31 c32 c33 G11 D1 G21 a31' a32' a33' ad' i (s' i) G31' G32' G33' D3') ->
    forall i, i < n3 ->
      (forall j, In j (cols c31 i) -> G31 i j = G31' i j) /\
      (forall j, In j (cols c32 i) -> G32 i j = G32' i j) /\
      (forall j, In j (cols c33 i) -> G33 i j = G33' i j) /\ D3 i = D3' i.
  Proof.
    intros Low11 Low33 E31 E32 E33 Ed U U'.
    assert (S1 : forall i, i < n3 -> forall j, In j (cols c31 i) -> s i j = s' i j).
    { intros i Hi. destruct (U i Hi) as [A1 _ _ _ _]. destruct (U' i Hi) as [B1 _ _ _ _].
      induction j as [j IHj] using lt_wf_ind. intros Hj. rewrite A1, B1 by auto.
      rewrite E31 by (apply cols_In; auto). apply subf_ext; auto. intros k Hk Hz.
      apply nzb_In in Hz. apply Low11 in Hz. rewrite IHj by auto. auto. }
    assert (S2 : forall i, i < n3 -> forall j, In j (cols c31 i) -> G31 i j = G31' i j).
    { intros i Hi j Hj. destruct (U i Hi) as [_ A2 _ _ _]. destruct (U' i Hi) as [_ B2 _ _ _].
      rewrite A2, B2, S1; auto. }
    intros i Hi. destruct (U i Hi) as [A1 A2 A3 A4 A5]. destruct (U' i Hi) as [B1 B2 B3 B4 B5].
    split; [auto|]. split; [|split].
    - intros j Hj. rewrite A3, B3 by auto. rewrite E32 by (apply cols_In; auto).
      apply subf_ext; auto. intros k Hk _. rewrite S1; auto.
    - intros j Hj. rewrite A4, B4 by auto. rewrite E33 by (apply cols_In; auto).
      apply subf_ext; auto. intros k Hk Hz. rewrite S1 by auto. f_equal.
      apply cols_In, Low33 in Hj. apply S2; [lia|]. apply cols_In, nzb_In; auto.
    - rewrite A5, B5, Ed by auto. unfold dfold.
      assert (DE : forall l d, (forall k, In k l -> s i k = s' i k) ->
        fold_left (fun d k => osub O d (omul O (s i k) (odiv O (s i k) (D1 k)))) l d =
        fold_left (fun d k => osub O d (omul O (s' i k) (odiv O (s' i k) (D1 k)))) l d).
      { clear. induction l as [|k l IH]; intros d H; cbn [fold_left]; auto.
        rewrite (H k) by (left; auto). apply IH. intros; apply H; right; auto. }
      apply DE. auto.
  Qed.

  Record partHyp (b11 b21 b31 b32 b33 : blk) (n1 n2 n3 : nat) (R11 R21 R31 R32 R33 : pattern)
      (q1 p2 p1 p3 o1 o2 : perm) (sy1 : bool) : Prop := mkPartHyp {
    ph_11 : goodBlk b11 n1 n1 R11 q1 q1 sy1;
    ph_21 : goodBlk b21 n2 n1 R21 p2 p1 false;
    ph_31 : goodBlk b31 n3 n1 R31 p3 o1 false;
    ph_32 : goodBlk b32 n3 n2 R32 p3 o2 false;
    ph_33 : goodBlk b33 n3 n3 R33 p3 p3 true;
    ph_low : forall i j, R11 i j -> j < i;
    ph_low3 : forall i j, R33 i j -> j < i;
    ph_ch : chord3 R11 R21 R31 R32 R33 }.

  Lemma partial_indep b11 b21 b31 b32 b33 n1 n2 n3 R11 R21 R31 R32 R33
      q1 p2 p1 p3 o1 o2 sy1 L11 D11 L21 init31 init32 init33 init31' init32' init33'
      L31 L32 L33 D33 M31 M32 M33 E33 :
    partHyp b11 b21 b31 b32 b33 n1 n2 n3 R11 R21 R31 R32 R33 q1 p2 p1 p3 o1 o2 sy1 ->
    readableI init31 -> readableI init32 -> readableI init33 ->
    readableI init31' -> readableI init32' -> readableI init33' ->
    length L11 = c_nnz (b_sp b11) -> length D11 = n1 -> length L21 = c_nnz (b_sp b21) ->
    length L31 = c_nnz (b_sp b31) -> length L32 = c_nnz (b_sp b32) ->
    length L33 = c_nnz (b_sp b33) -> length D33 = n3 ->
    length M31 = c_nnz (b_sp b31) -> length M32 = c_nnz (b_sp b32) ->
    length M33 = c_nnz (b_sp b33) -> length E33 = n3 ->
    (forall i j, In (i, j) (c_entries (b_sp b31)) ->
       initL O init31 b31 L31 i j = initL O init31' b31 M31 i j) ->
    (forall i j, In (i, j) (c_entries (b_sp b32)) ->
       initL O init32 b32 L32 i j = initL O init32' b32 M32 i j) ->
    (forall i j, In (i, j) (c_entries (b_sp b33)) ->
       initL O init33 b33 L33 i j = initL O init33' b33 M33 i j) ->
    (forall i, i < n3 -> getD O D33 i = getD O E33 i) ->
    factorizePartialUpLooking O b11 b21 b31 b32 b33 L11 D11 L21 init31 init32 init33
        (L31, L32, L33, D33) =
    factorizePartialUpLooking O b11 b21 b31 b32 b33 L11 D11 L21 init31' init32' init33'
        (M31, M32, M33, E33).
  Proof.
    intros [G11 G21 G31 G32 G33 Low Low3 CH] R1 R2 R3 R1' R2' R3' N11 ND1 N21 N1 N2 N3 N4
      M1 M2 M3 M4 E1 E2 E3 E4.
    destruct (factorizePartial_ok O b11 b21 b31 b32 b33 n1 n2 n3 R11 R21 R31 R32 R33
       q1 p2 p1 p3 o1 o2 sy1 L11 D11 L21 init31 init32 init33 L31 L32 L33 D33)
      as (A & B & C & D & s & E & NA & NB & NC & ND & K); auto.
    destruct (factorizePartial_ok O b11 b21 b31 b32 b33 n1 n2 n3 R11 R21 R31 R32 R33
       q1 p2 p1 p3 o1 o2 sy1 L11 D11 L21 init31' init32' init33' M31 M32 M33 E33)
      as (A' & B' & C' & D' & s' & E' & NA' & NB' & NC' & ND' & K'); auto.
    rewrite E, E'.
    pose proof (partRow_unique (b_sp b11) (b_sp b21) (b_sp b31) (b_sp b32) (b_sp b33) n3
      _ _ _ _ _ _ _ _ _ _ _ _ _ _ _ _ _ _ _ _ _
      (fun i j H => Low i j (proj1 (gb_in _ _ _ _ _ _ _ G11 i j) H))
      (fun i j H => Low3 i j (proj1 (gb_in _ _ _ _ _ _ _ G33 i j) H)) E1 E2 E3 E4 K K') as U.
    assert (BD : forall b nc R p q sy i j, goodBlk b n3 nc R p q sy ->
              In (i, j) (c_entries (b_sp b)) -> i < n3).
    { intros b nc R p q sy i j G H. apply (wfc_bounds _ (gb_wf _ _ _ _ _ _ _ G)) in H.
      rewrite (gb_rows _ _ _ _ _ _ _ G) in H. lia. }
    assert (EqA : A = A').
    { apply (getL_ext O (b_sp b31)); auto; [eapply goodBlk_gcsr; eauto|]. intros i j H.
      apply U; [eapply BD; [exact G31|eauto]|apply cols_In; auto]. }
    assert (EqB : B = B').
    { apply (getL_ext O (b_sp b32)); auto; [eapply goodBlk_gcsr; eauto|]. intros i j H.
      apply U; [eapply BD; [exact G32|eauto]|apply cols_In; auto]. }
    assert (EqC : C = C').
    { apply (getL_ext O (b_sp b33)); auto; [eapply goodBlk_gcsr; eauto|]. intros i j H.
      apply U; [eapply BD; [exact G33|eauto]|apply cols_In; auto]. }
    assert (EqD : D = D').
    { apply (list_ext _ _ (o0 O)); [lia|]. intros k Hk. apply (U k). lia. }
    congruence.
  Qed.
End Kernel.

Section KernelExact.
  Context {F : Type} (O : ops F) (FL : fieldLaws O).
  Local Notation get := (getL O).
  Local Notation "0" := (o0 O) : scalar.

  Lemma origP_pos b nr nc R prow pcol sym i j :
    goodBlk b nr nc R prow pcol sym -> (sym = true -> nr = nc /\ prow = pcol) ->
    i < nr -> j < nc -> (sym = true -> j < i) -> ~ In (i, j) (c_entries (b_sp b)) ->
    forall m, (if sym then coverSym (Some m) nr R prow else coverRect (F:=F) (Some m) nr nc R prow pcol) ->
    matVal O m (origP b i j) = 0%s.
  Proof.
    intros G Hs Hi Hj Hlt Hn m V. apply matVal_out. intros Hin. apply Hn.
    apply (gb_in _ _ _ _ _ _ _ G). unfold origP in Hin.
    rewrite (gb_sym _ _ _ _ _ _ _ G), (gb_prow _ _ _ _ _ _ _ G), (gb_pcol _ _ _ _ _ _ _ G) in Hin.
    destruct sym; destruct V as [_ V]; apply V.
    - unfold permLow. repeat (split; [auto|]). auto.
    - unfold permRect. repeat (split; [auto|]). auto.
  Qed.

  Lemma initL_sym_out ini b n R p L i j :
    goodBlk b n n R p p true -> i < n -> j < i -> coverSym ini n R p ->
    ~ In (i, j) (c_entries (b_sp b)) -> initL O ini b L i j = 0%s.
  Proof.
    intros G Hi Hj V Hn. destruct ini as [m|]; cbn [initL].
    - eapply (origP_pos b n n R p p true); eauto. lia.
    - apply getL_out; auto.
  Qed.

  Lemma initL_rect_out ini b nr nc R p q L i j :
    goodBlk b nr nc R p q false -> i < nr -> j < nc -> coverRect ini nr nc R p q ->
    ~ In (i, j) (c_entries (b_sp b)) -> initL O ini b L i j = 0%s.
  Proof.
    intros G Hi Hj V Hn. destruct ini as [m|]; cbn [initL].
    - eapply (origP_pos b nr nc R p q false); eauto; discriminate.
    - apply getL_out; auto.
  Qed.

  Lemma kernelRows_ldl mt b11 b21 b22 n1 n2 R11 R21 R22 q1 p1 p2 sy1 L11 D1
      init21 init22 L21 L22 ad reg L21' L22' D2 i :
    kernelHyp b11 b21 b22 n1 n2 R11 R21 R22 q1 p1 p2 sy1 ->
    coverRect init21 n2 n1 R21 p2 p1 -> coverSym init22 n2 R22 p2 ->
    i < n2 -> (forall k, k < n1 -> D1 k <> 0%s) -> (forall k, k < i -> D2 k <> 0%s) ->
    kernelRows O mt (b_sp b11) (b_sp b21) (b_sp b22) n2 (get (b_sp b11) L11) D1
          (initL O init21 b21 L21) (initL O init22 b22 L22) ad reg
          (get (b_sp b21) L21') (get (b_sp b22) L22') D2 ->
    ldlRow O n1 n2 (get (b_sp b11) L11) D1 (initL O init21 b21 L21) (initL O init22 b22 L22)
      ad reg (get (b_sp b21) L21') (get (b_sp b22) L22') D2 i.
  Proof.
    intros [G11 G21 G22 Low Cl CH] V21 V22 Hi Z1 Z2 K.
    assert (DH : denseHyp O (b_sp b11) (b_sp b21) (b_sp b22) n1 n2 R11 R21 R22
      (get (b_sp b11) L11) (get (b_sp b21) L21') (get (b_sp b22) L22')
      (initL O init21 b21 L21) (initL O init22 b22 L22)).
    { constructor; auto; try (eapply goodBlk_gcsr; eauto; fail);
        try (eapply gb_rows; eauto; fail); try (eapply gb_cols; eauto; fail);
        try (eapply gb_in; eauto; fail); try (intros; apply getL_out; auto; fail).
      - intros r j Hr Hj Hn. eapply initL_rect_out; eauto.
      - intros r j Hr Hj Hn. eapply initL_sym_out; eauto. }
    destruct mt; cbn [kernelRows] in K.
    - destruct K as (s1 & s2 & K). eapply upRow_ldl; eauto.
    - eapply ewRow_ldl; eauto.
  Qed.
End KernelExact.
