(** The block equations determine the arrowhead factor. *)
From Coq Require Import List Arith Lia Bool.
From Verif Require Import Base ModelPerm ModelSparsity ModelSymbolic ModelNumeric ModelArrow.
From Verif Require Import SpecSymbolic SpecArrow SpecNumeric SpecArrowNum.
From Verif Require Import ProofBase ProofPerm ProofCsr ProofSparsity ProofFill ProofFill3
  ProofArrowSym ProofDense ProofUpRow ProofUp ProofEntry ProofExact ProofKernel ProofSolve
  ProofLdl ProofSingle ProofMethods ProofArrowRows.
Import ListNotations.

Section Arrow.
  Context {F : Type} (O : ops F).
  Variables (s : arrow_sp) (ds dt dl dO : nat) (k : arrow_blks) (P : arrow_pats).
  Hypothesis AG : arrowGood s ds dt dl dO k P.
  Hypothesis AC : arrowChordal P.

  Lemma step1_unique mt b n R p i reg L D L' D' :
    kernelHyp emptyDiagBlk (emptyLeftBlk b) b 0 n noPat noPat R [] [] p true ->
    length L = c_nnz (b_sp b) -> length D = n -> length L' = c_nnz (b_sp b) -> length D' = n ->
    step1 O mt b n i reg L D -> step1 O mt b n i reg L' D' -> L = L' /\ D = D'.
  Proof.
    intros KH NL ND NL' ND' (X & S) (X' & S').
    assert (EX : forall X, getL O (b_sp (emptyLeftBlk b)) X = getL O (b_sp (emptyLeftBlk b)) []).
    { intros X0. reflexivity. }
    unfold step5 in S, S'. rewrite (EX X) in S. rewrite (EX X') in S'.
    destruct (step5_unique O mt emptyDiagBlk (emptyLeftBlk b) b 0 n noPat noPat R [] [] p true
      [] [] (Some (emptyMatrixInput n 0)) i reg [] [] [] [] L D [] L' D') as (_ & H1 & H2); auto.
  Qed.

  Lemma arrowRows_unique mt n m reg d d' :
    dataOf k n ds dt dl dO d -> dataOf k n ds dt dl dO d' ->
    arrowRows O ds dt dl dO k mt m reg n d -> arrowRows O ds dt dl dO k mt m reg n d' -> d = d'.
  Proof.
    intros [[Nsd1 Nsd2] Nsn Nso Ntd Htd Nts Hts Nlp [Nld1 Nld2] Nln Nos Hos [Nod1 Nod2]]
      [[Nsd1' Nsd2'] Nsn' Nso' Ntd' Htd' Nts' Hts' Nlp' [Nld1' Nld2'] Nln' Nos' Hos' [Nod1' Nod2']]
      ([A1 A2 A3 A4] & Z & Y & ln & [B1 B2 B3 B4 B5 B6 B7 B8])
      ([A1' A2' A3' A4'] & Z' & Y' & ln' & [B1' B2' B3' B4' B5' B6' B7' B8']).
    destruct d as [sd sn so td ts lp ld lnn os od], d' as [sd' sn' so' td' ts' lp' ld' lnn' os' od'].
    cbn [d_sd d_sn d_so d_td d_ts d_lp d_ld d_ln d_os d_od] in *.
    (* start *)
    destruct (step1_unique mt (k_sd k) ds (p_sd P) (ss_perm (as_start s)) (Some (a_sd m)) reg
       (fst sd) (snd sd) (fst sd') (snd sd')) as [Q1 Q2]; auto.
    { eapply hyp_sd; eauto. }
    rewrite <- Q1, <- Q2 in A2'. 
    destruct (Htd 0 ltac:(lia)) as [T1 T2]. destruct (Htd' 0 ltac:(lia)) as [T1' T2'].
    destruct (step5_unique O mt (k_sd k) (k_sn k) (k_td k) ds dt (p_sd P) (p_sn P) (p_td P)
       (ss_perm (as_start s)) (ss_perm (as_start s)) (st_perm (as_tri s)) true
       _ _ _ _ _ _ _ _ _ _ _ _ _ _ (hyp_start s ds dt dl dO k P AG AC)
       Nsn T1 T2 Nsn' T1' T2' A2 A2') as (Q3 & Q4 & Q5).
    assert (PE : forall p q : list F * list F, fst p = fst q -> snd p = snd q -> p = q).
    { intros [? ?] [? ?]; cbn; intros; subst; auto. }
    (* tridiagonal *)
    assert (TS : forall t, t < n -> nth t td ([], []) = nth t td' ([], []) ->
              nth t ts [] = nth t ts' [] /\ nth (t + 1) td ([], []) = nth (t + 1) td' ([], [])).
    { intros t Ht E. pose proof (A3' t Ht) as S'. rewrite <- E in S'.
      destruct (Htd (t + 1) ltac:(lia)) as [U1 U2]. destruct (Htd' (t + 1) ltac:(lia)) as [U1' U2'].
      destruct (step5_unique O mt (k_td k) (k_ts k) (k_td k) dt dt (p_td P) (p_ts P) (p_td P)
        (st_perm (as_tri s)) (st_perm (as_tri s)) (st_perm (as_tri s)) true
        _ _ _ _ _ _ _ _ _ _ _ _ _ _ (hyp_tri s ds dt dl dO k P AG AC)
        (Hts t Ht) U1 U2 (Hts' t Ht) U1' U2' (A3 t Ht) S') as (V1 & V2 & V3). auto. }
    assert (TD : forall t, t < n + 1 -> nth t td ([], []) = nth t td' ([], [])).
    { induction t as [|t IH]; intros Ht; [apply PE; auto|].
      replace (S t) with (t + 1) by lia. apply TS; [lia|]. apply IH. lia. }
    assert (Etd : td = td') by (apply (list_ext _ _ ([], [])); [lia|intros; apply TD; lia]).
    assert (Ets : ts = ts').
    { apply (list_ext _ _ []); [lia|]. intros t Ht. apply TS; [lia|]. apply TD. lia. }
    rewrite <- Etd in A4'.
    destruct (step5_unique O mt (k_td k) (k_lp k) (k_ld k) dt dl (p_td P) (p_lp P) (p_ld P)
        (st_perm (as_tri s)) (st_perm (as_tri s)) (sl_perm (as_link s)) true
        _ _ _ _ _ _ _ _ _ _ _ _ _ _ (hyp_link s ds dt dl dO k P AG AC)
        Nlp Nld1 Nld2 Nlp' Nld1' Nld2' A4 A4') as (V1 & V2 & V3).
    (* outer *)
    pose proof (PE _ _ Q1 Q2) as Esd. pose proof (PE _ _ V2 V3) as Eld.
    rewrite <- Etd, <- Ets in B6'. rewrite <- Etd, <- V1 in B7'. rewrite <- Eld in B8'.
    rewrite <- Esd, <- Q3 in B5'.
    assert (Z0 : Z 0 = Z' 0).
    { eapply (filled_unique O (a_od m) (k_od k) dO (p_od P)); eauto. eapply ag_od; eauto. }
    rewrite <- Z0 in B5'.
    destruct (stepP_unique O (k_sd k) (k_sn k) (k_so k) (k_os k) (k_od k) ds dt dO
      (p_sd P) (p_sn P) (p_so P) (p_os P) (p_od P) _ _ _ _ _ _ true
      _ _ _ _ _ _ _ _ _ _ _ _ _ _ _ _ _ _ (hyp_ostart s ds dt dl dO k P AG AC)
      Nso (B2 0) (proj1 (B1 1)) (proj2 (B1 1)) Nso' (B2' 0) (proj1 (B1' 1)) (proj2 (B1' 1)) B5 B5')
      as (W1 & W2 & W3 & W4).
    assert (OS : forall t, t < n -> Z (t + 1) = Z' (t + 1) -> Y t = Y' t ->
       nth t os [] = nth t os' [] /\ Y (t + 1) = Y' (t + 1) /\ Z (t + 2) = Z' (t + 2)).
    { intros t Ht E1 E2. pose proof (B6' t Ht) as S'. rewrite <- E1, <- E2 in S'.
      destruct (stepP_unique O (k_td k) (k_ts k) (k_os k) (k_os k) (k_od k) dt dt dO
        (p_td P) (p_ts P) (p_os P) (p_os P) (p_od P) _ _ _ _ _ _ true
        _ _ _ _ _ _ _ _ _ _ _ _ _ _ _ _ _ _ (hyp_otri s ds dt dl dO k P AG AC)
        (Hos t ltac:(lia)) (B2 (t + 1)) (proj1 (B1 (t + 2))) (proj2 (B1 (t + 2)))
        (Hos' t ltac:(lia)) (B2' (t + 1)) (proj1 (B1' (t + 2))) (proj2 (B1' (t + 2))) (B6 t Ht) S')
        as (X1 & X2 & X3 & X4). auto. }
    assert (OD : forall t, t < n + 1 -> Z (t + 1) = Z' (t + 1) /\ Y t = Y' t).
    { induction t as [|t IH]; intros Ht; [auto|].
      destruct (IH ltac:(lia)) as [I1 I2]. destruct (OS t ltac:(lia) I1 I2) as (_ & J1 & J2).
      replace (S t + 1) with (t + 2) by lia. replace (S t) with (t + 1) by lia. auto. }
    destruct (OD n ltac:(lia)) as [I1 I2]. rewrite <- I1, <- I2 in B7'.
    destruct (stepP_unique O (k_td k) (k_lp k) (k_os k) (k_ln k) (k_od k) dt dl dO
        (p_td P) (p_lp P) (p_os P) (p_ln P) (p_od P) _ _ _ _ _ _ true
        _ _ _ _ _ _ _ _ _ _ _ _ _ _ _ _ _ _ (hyp_olink s ds dt dl dO k P AG AC)
        (Hos n ltac:(lia)) B3 (proj1 (B1 (n + 2))) (proj2 (B1 (n + 2)))
        (Hos' n ltac:(lia)) B3' (proj1 (B1' (n + 2))) (proj2 (B1' (n + 2))) B7 B7')
        as (X1 & X2 & X3 & X4).
    rewrite <- X2, <- X3, <- X4 in B8'.
    destruct (step5_unique O mt (k_ld k) (k_ln k) (k_od k) dl dO (p_ld P) (p_ln P) (p_od P)
        _ _ _ true _ _ _ _ _ _ _ _ _ _ _ _ _ _ (hyp_outer s ds dt dl dO k P AG AC)
        Nln Nod1 Nod2 Nln' Nod1' Nod2' B8 B8') as (Y1 & Y2 & Y3).
    assert (Eos : os = os').
    { apply (list_ext _ _ []); [lia|]. intros t Ht. destruct (Nat.eq_dec t n) as [->|N]; auto.
      destruct (OD t ltac:(lia)) as [J1 J2]. apply OS; auto. lia. }
    pose proof (PE _ _ Y2 Y3) as Eod. congruence.
  Qed.

  (** the result does not depend on the previous contents *)
  Lemma arrow_reuse mt n m reg d d' :
    dataOf k n ds dt dl dO d -> dataOf k n ds dt dl dO d' -> goodInput s ds dt dl dO P n m ->
    arrowFactorize O mt k m reg d = arrowFactorize O mt k m reg d'.
  Proof.
    intros D1 D2 GI.
    destruct (arrowFactorize_ok O s ds dt dl dO k P AG AC mt n m reg d D1 GI) as (r & E & H1 & H2).
    destruct (arrowFactorize_ok O s ds dt dl dO k P AG AC mt n m reg d' D2 GI) as (r' & E' & H1' & H2').
    rewrite E, E'. f_equal. eapply arrowRows_unique; eauto.
  Qed.
End Arrow.
