(** Proofs about the benchmark program. *)
From Coq Require Import List Arith Lia String.
From Verif Require Import Base ModelPerm ModelSparsity ModelSymbolic ModelNumeric ModelArrow ModelMtx ModelText
  ModelProgram ModelBenchmark.
From Verif Require Import SpecSymbolic SpecArrow SpecNumeric SpecArrowNum SpecMtx SpecText SpecProgram.
From Verif Require Import ProofArrowSym ProofArrowMain ProofPropArrow ProofRoundMain ProofText ProofPropText ProofProgramRun.
Import ListNotations.
Local Open Scope string_scope.

Section Bench.
  Context {F : Type} (O : ops F) (one : F) (conv : decimal -> F) (print : F -> string) (reg : F -> nat -> F).

  Lemma loop_same {S : Type} (P : S -> Prop) (body : S -> res S) r :
    (forall v, P v -> body v = Ok r) -> P r -> forall num v, P v -> stateLoop body num v = Ok (repeat r num).
  Proof.
    intros H Hr num. induction num as [|num IH]; intros v Hv; cbn [stateLoop repeat]; auto.
    rewrite (H v Hv). cbn [bind]. rewrite (IH r Hr). reflexivity.
  Qed.

  Lemma copy_rhs n ds dt dl dO (rhs x : arrow_vec (F:=F)) : vecOf n ds dt dl dO rhs -> vecOf n ds dt dl dO x ->
    copyRightHandSide rhs x = Ok rhs.
  Proof.
    intros [R1 R2 R3 R4 R5] [X1 X2 X3 X4 X5]. unfold copyRightHandSide, copyRange. rewrite R2, X2, Nat.leb_refl.
    cbn [bind]. rewrite skipn_all2 by lia. rewrite app_nil_r. destruct rhs. reflexivity.
  Qed.

  Theorem benchmark_runs s n ds dt dl dO text es :
    arrowDims s ds dt dl dO -> (0 < dt)%nat ->
    mtxText text (totalRows n ds dt dl dO) (totalRows n ds dt dl dO) es ->
    Forall (declaredEntry s n ds dt dl dO) (withValues conv es) ->
    Forall (fun e => ~ misreadEntry n ds dt dl dO e) (withValues conv es) ->
    exists m k d0 d rhs x,
      mtxFileRead O scanHeader (scanEntry conv) s (getlines text) = Ok m /\
      arrowBlocks s = Ok k /\ arrowCtor O k n = Ok d0 /\
      arrowFactorize O UpLooking k (ma_mat m) reg d0 = Ok d /\
      vecOf n ds dt dl dO rhs /\ (forall g, In g (allIdx n ds dt dl dO) -> gvecAt O rhs g = one) /\
      arrowSolveInPlace O k d rhs = Ok x /\ vecOf n ds dt dl dO x /\
      forall files path prog, files path = Some text ->
        (forall args nf ns nc, benchmarkMain O one conv reg s files nf ns nc (prog :: path :: args) =
           BenchRuns (repeat d nf) (repeat x ns) (repeat (d, x) nc)) /\
        exampleMain O one conv print reg s files [prog; path] =
          Exits 0 (unlines (reportLines n ds dt dl dO (fun g => print (gvecAt O x g)))).
  Proof.
    intros AD P T D M.
    destruct (text_stores O conv s n ds dt dl dO text es AD P T D M) as (m & ER & IA & DA & _).
    destruct (program_runs O one conv print reg s n ds dt dl dO text es AD P T D M)
      as (m' & k & d0 & d & rhs & x & ER' & Ek & Ec & D0 & EF & VR & ON & ES & VX & RUN).
    rewrite ER in ER'. injection ER' as <-.
    assert (ER2 : rhs = onesRhs one n ds dt dl dO).
    { destruct (ones_vec O one n ds dt dl dO) as [VR' ON'].
      apply (gvec_ext O ds dt dl dO n); auto. intros g Hg. rewrite ON, ON'; auto. }
    subst rhs.
    destruct (arrow_any O s ds dt dl dO AD) as (k' & Ek' & C & FA & SO). rewrite Ek in Ek'. injection Ek' as <-.
    destruct (FA UpLooking n (ma_mat m) (mtxVals m) reg d0 IA DA D0) as (d' & EF' & D1).
    rewrite EF in EF'. injection EF' as <-.
    exists m, k, d0, d, (onesRhs one n ds dt dl dO), x.
    split; auto. split; auto. split; auto. split; auto. split; auto. split; auto. split; auto. split; auto.
    intros files path prog Hf. split; [|apply (RUN files path prog Hf)].
    intros args nf ns nc.
    destruct (arrowDims_ok s ds dt dl dO AD) as (E1 & E2 & E3 & E4).
    unfold benchmarkMain. rewrite Hf. unfold runBenchmarks. rewrite ER. cbn [bind]. rewrite Ek. cbn [bind].
    rewrite E1, E2, E3, E4. cbn [bind].
    assert (FD : forall e, dataOf k n ds dt dl dO e -> arrowFactorize O UpLooking k (ma_mat m) reg e = Ok d).
    { intros e De. rewrite <- EF. exact (arrow_reusable O s ds dt dl dO k n UpLooking reg (ma_mat m) (mtxVals m) e d0 AD Ek IA DA De D0). }
    unfold benchmarkFactorize, benchmarkSolve, benchmarkCombined. rewrite (ia_nts _ _ _ _ _ _ _ _ IA), Ec. cbn [bind].
    rewrite (loop_same (dataOf k n ds dt dl dO) (fun d => arrowFactorize O UpLooking k (ma_mat m) reg d) d FD D1 nf d0 D0). cbn [bind].
    rewrite EF. cbn [bind].
    rewrite (loop_same (vecOf n ds dt dl dO) _ x) by (auto; intros v Hv; rewrite (copy_rhs n ds dt dl dO) by auto; exact ES).
    cbn [bind].
    rewrite (loop_same (fun dx => dataOf k n ds dt dl dO (fst dx) /\ vecOf n ds dt dl dO (snd dx)) _ (d, x)); auto.
    intros [e v] [De Dv]. cbn [fst snd] in *. rewrite (copy_rhs n ds dt dl dO) by auto. cbn [bind].
    rewrite (FD e De). cbn [bind]. rewrite ES. reflexivity.
  Qed.

  Theorem benchmark_usage s files nf ns nc argv : (List.length argv < 2)%nat ->
    benchmarkMain O one conv reg s files nf ns nc argv = BenchExits 1 (unlines ["Usage: benchmark_* FILEPATH_MTX"; ""]).
  Proof. intros H. destruct argv as [|a [|b argv]]; cbn in H; try lia; reflexivity. Qed.

  Theorem benchmark_rejects s files nf ns nc prog path args :
    mtxFileRead O scanHeader (scanEntry conv) s (getlines (match files path with Some text => text | None => "" end)) = Err MtxError ->
    benchmarkMain O one conv reg s files nf ns nc (prog :: path :: args) = BenchFails MtxError.
  Proof. intros E. unfold benchmarkMain, runBenchmarks. rewrite E. reflexivity. Qed.
End Bench.
