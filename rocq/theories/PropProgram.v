(** Property C74: the program examples/repeating/example_mtx.cpp, from its arguments and the
    text of the file to the text that it prints. *)
From Coq Require Import List Arith Bool NArith ZArith Reals Lra Lia String Ascii Decimal.
From Flocq Require Import Core.Core BinarySingleNaN.
From Verif Require Import Base ModelPerm ModelSparsity ModelSymbolic ModelNumeric ModelArrow ModelReg ModelMtx
  ModelIeee ModelText ModelProgram.
From Verif Require Import SpecSymbolic SpecArrow SpecNumeric SpecArrowNum SpecReg SpecRound SpecFlat SpecDomFloat
  SpecMtx SpecText SpecProgram.
From Verif Require Import ExampleData ExampleArrow ExamplePivot ExampleIeee.
From Verif Require Import ProofArrowProduct ProofText ProofProgram ProofProgramRun ProofProgramMain.
From Verif Require Import PropMtx PropText PropDomFloat.
Import ListNotations.
Local Open Scope R_scope.
Local Notation fin := (ieeeFinite 53 1024).
Local Notation val := (ieeeVal 53 1024).

(** ** C74 *)

(** %f prints the closest number with six digits behind the point *)
Theorem C74_printed_number : forall x, fin x -> printsNumber (printfF x) (val x).
Proof. exact printf_ok. Qed.
Print Assumptions C74_printed_number.

(** which is read again as a number that differs by at most half a millionth *)
Theorem C74_read_back : forall x rest, fin x ->
  match rest with String c _ => white c | EmptyString => True end ->
  exists d, scanDecimal (printfF x ++ rest) = Some (d, rest) /\ Rabs (decimalValue d - val x) <= / 2000000.
Proof.
  intros x rest F W. destruct (printed_close _ _ (printf_ok x F)) as (d & T & B).
  exists d. split; auto. exact (ProofText.scan_decimal EmptyString (printfF x) d rest I T W).
Qed.
Print Assumptions C74_read_back.

(** Whatever the arithmetic and the regularization: if the file describes a matrix of the
    compiled structure then the program prints the solution for the right-hand side of ones,
    variable by variable, and the number of iterations does not matter. If it is zero then
    the program prints ones. *)
Theorem C74_runs :
  forall {F : Type} (O : ops F) (one : F) (conv : decimal -> F) (print : F -> string) (reg : F -> nat -> F)
    s n ds dt dl dO text es,
  arrowDims s ds dt dl dO -> (0 < dt)%nat ->
  mtxText text (totalRows n ds dt dl dO) (totalRows n ds dt dl dO) es ->
  Forall (declaredEntry s n ds dt dl dO) (withValues conv es) ->
  Forall (fun e => ~ misreadEntry n ds dt dl dO e) (withValues conv es) ->
  exists m k d0 d rhs x,
    mtxFileRead O scanHeader (scanEntry conv) s (getlines text) = Ok m /\
    arrowBlocks s = Ok k /\ arrowCtor O k n = Ok d0 /\ dataOf k n ds dt dl dO d0 /\
    arrowFactorize O UpLooking k (ma_mat m) reg d0 = Ok d /\
    vecOf n ds dt dl dO rhs /\ (forall g, In g (allIdx n ds dt dl dO) -> gvecAt O rhs g = one) /\
    arrowSolveInPlace O k d rhs = Ok x /\ vecOf n ds dt dl dO x /\
    forall files path prog, files path = Some text ->
      let solution := Exits 0 (unlines (reportLines n ds dt dl dO (fun g => print (gvecAt O x g)))) in
      let ones := Exits 0 (unlines (reportLines n ds dt dl dO (fun _ => print one))) in
      exampleMain O one conv print reg s files [prog; path] = solution /\
      forall arg num, countText arg num ->
        exampleMain O one conv print reg s files [prog; path; arg] = if (num =? 0)%N then ones else solution.
Proof. exact @program_runs. Qed.
Print Assumptions C74_runs.

(** In double precision, for a matrix that is dominated by its diagonal: the printed numbers
    are close to the exact solution. The tolerance of the regularization is what std::pow
    returns, of which only a bound is used. *)
Theorem C74_prints_the_solution :
  forall pow s n ds dt dl dO text es,
  arrowDims s ds dt dl dO -> (0 < dt)%nat -> (Z.of_nat (flatDim n ds dt dl dO) <= 2 ^ 20)%Z ->
  mtxText text (totalRows n ds dt dl dO) (totalRows n ds dt dl dO) es ->
  Forall (declaredEntry s n ds dt dl dO) (withValues decimalToDouble es) ->
  Forall (fun e => ~ misreadEntry n ds dt dl dO e) (withValues decimalToDouble es) ->
  let all := allIdx n ds dt dl dO in
  let A := fun g h => fileAt Od (withValues decimalToDouble es) (posOf n ds dt dl g) (posOf n ds dt dl h) in
  let M := fun g h => val (A g h) in
  (forall g h, In g all -> In h all -> fin (A g h)) ->
  dominatedBy gidx_eq_dec all M (/ 2) ->
  (forall g, In g all -> bpow radix2 (-28) <= Rabs (M g g) <= bpow radix2 400) ->
  let tol := pow (dbl 1 (-52)) (dbl 5 (-3)) in
  fin tol -> val tol <= bpow radix2 (-32) ->
  exists num xs, onlySolution all M (fun _ => 1) xs /\
    (forall X, (forall g, In g all -> Rabs (xs g) <= X) ->
     forall g, In g all -> exists neg q, fixedText (num g) neg q /\
       Rabs (IZR (signed neg (Z.of_N q)) / 1000000 - xs g) <=
       / 2000000 + INR (flatDim n ds dt dl dO) * bpow radix2 (-43) * X + bpow radix2 (-649)) /\
    forall files path prog args, files path = Some text ->
      (args = [] \/ exists arg c, args = [arg] /\ countText arg c /\ c <> 0%N) ->
      exampleDouble pow s files (prog :: path :: args) = Exits 0 (unlines (reportLines n ds dt dl dO num)).
Proof. exact @program_double. Qed.
Print Assumptions C74_prints_the_solution.

Theorem C74_usage :
  forall {F : Type} (O : ops F) (one : F) (conv : decimal -> F) (print : F -> string) (reg : F -> nat -> F) s files argv,
  (List.length argv < 2 \/ 3 < List.length argv)%nat ->
  exampleMain O one conv print reg s files argv =
  Exits 1 (unlines ["Usage: example_* FILEPATH_MTX [NUM_ITERATIONS]"; ""]%string).
Proof. exact @program_usage. Qed.
Print Assumptions C74_usage.

(** when the reader throws, nothing is printed *)
Theorem C74_rejects :
  forall {F : Type} (O : ops F) (one : F) (conv : decimal -> F) (print : F -> string) (reg : F -> nat -> F)
    s files path prog args,
  (List.length args <= 1)%nat -> (forall arg, In arg args -> exists num, countText arg num) ->
  mtxFileRead O scanHeader (scanEntry conv) s
    (getlines (match files path with Some text => text | None => ""%string end)) = Err MtxError ->
  exampleMain O one conv print reg s files (prog :: path :: args) = Fails MtxError.
Proof. exact @program_rejects. Qed.
Print Assumptions C74_rejects.

(** an argument that is not a number or is out of range ends the program; a negative number
    means 2^64 minus that many iterations *)
Theorem C74_bad_count :
  forall {F : Type} (O : ops F) (one : F) (conv : decimal -> F) (print : F -> string) (reg : F -> nat -> F)
    s files path prog arg,
  (forall neg num, numberText arg neg num -> (2 ^ 64 <= num)%N) ->
  exampleMain O one conv print reg s files [prog; path; arg] = StoullThrows.
Proof. exact @program_bad_count. Qed.
Print Assumptions C74_bad_count.
Theorem C74_negative_count :
  forall {F : Type} (O : ops F) (one : F) (conv : decimal -> F) (print : F -> string) (reg : F -> nat -> F)
    s files path prog arg arg' num,
  numberText arg true num -> (0 < num < 2 ^ 64)%N -> countText arg' (2 ^ 64 - num) ->
  exampleMain O one conv print reg s files [prog; path; arg] =
  exampleMain O one conv print reg s files [prog; path; arg'].
Proof. exact @program_negative_count. Qed.
Print Assumptions C74_negative_count.

(** ** examples *)

(** correctly rounded to double: 2^-26 and 2^-32.5 *)
Definition exPow (a b : ieee 53 1024) : ieee 53 1024 :=
  if Beqb b (dbl 1 (-1)) then dbl 1 (-26) else dbl 6369051672525773 (-85).

Example C74_printed_example :
  map printfF [dbl 1 (-1); dbl (-3) (-9); dbl 1 (-20); dbl (-1) (-30); dbl 1 70; dbl 3 (-7); dbl 1 (-7); dbl (-5) 0] =
  ["0.500000"; "-0.005859"; "0.000001"; "-0.000000"; "1180591620717411303424.000000"; "0.023438"; "0.007812";
   "-5.000000"]%string /\
  fin (dbl (-3) (-9)).
Proof. split; vm_compute; reflexivity. Qed.

(** the file of the matrix with the diagonal 6, -9, -8, 9, -10 *)
Definition exDomFile : list (nat * nat * decimal) :=
  map (fun e => let '(r, c, v) := e in (r, c, ((v <? 0)%Z, Z.to_N (Z.abs v), 0%Z)))
    [((0, 0)%nat, 6%Z); ((1, 0)%nat, 1%Z); ((4, 0)%nat, 1%Z);
     ((1, 1)%nat, (-9)%Z); ((2, 1)%nat, 1%Z); ((4, 1)%nat, 1%Z);
     ((2, 2)%nat, (-8)%Z); ((3, 2)%nat, 1%Z); ((4, 2)%nat, 1%Z);
     ((3, 3)%nat, 9%Z); ((4, 3)%nat, 1%Z); ((4, 4)%nat, (-10)%Z)].
Definition exFiles (text : string) (path : string) : option string :=
  if (path =? "dom.mtx")%string then Some text else None.

Example C74_example :
  let text := writeMtx 5 5 exDomFile in
  let es := withValues decimalToDouble exDomFile in
  let all := allIdx 1 1 1 1 1 in
  let A := fun g h => fileAt Od es (posOf 1 1 1 1 g) (posOf 1 1 1 1 h) in
  arrowDims exQA 1 1 1 1 /\ (0 < 1)%nat /\ (Z.of_nat (flatDim 1 1 1 1 1) <= 2 ^ 20)%Z /\
  mtxText text (totalRows 1 1 1 1 1) (totalRows 1 1 1 1 1) exDomFile /\
  Forall (declaredEntry exQA 1 1 1 1 1) es /\ Forall (fun e => ~ misreadEntry 1 1 1 1 1 e) es /\
  (forall g h, In g all -> In h all -> fin (A g h)) /\
  dominatedBy gidx_eq_dec all (fun g h => val (A g h)) (/ 2) /\
  (forall g, In g all -> bpow radix2 (-28) <= Rabs (val (A g g)) <= bpow radix2 400) /\
  (let tol := exPow (dbl 1 (-52)) (dbl 5 (-3)) in fin tol /\ val tol <= bpow radix2 (-32)) /\
  countText " +25 times" 25 /\ countText "0" 0 /\
  (let out := Exits 0 (unlines ["------ start ------"; "0.200801"; "----- tridiag -----"; "-0.113760"; "-0.133592";
                       "------ link -------"; "0.136071"; "------ outer ------"; "-0.091048"]%string) in
   exampleDouble exPow exQA (exFiles text) ["a.out"; "dom.mtx"]%string = out /\
   exampleDouble exPow exQA (exFiles text) ["a.out"; "dom.mtx"; "3"]%string = out) /\
  exampleDouble exPow exQA (exFiles text) ["a.out"; "dom.mtx"; "0"]%string =
    Exits 0 (unlines ["------ start ------"; "1.000000"; "----- tridiag -----"; "1.000000"; "1.000000";
                       "------ link -------"; "1.000000"; "------ outer ------"; "1.000000"]%string) /\
  exampleDouble exPow exQA (exFiles text) ["a.out"; "other.mtx"]%string = Fails MtxError /\
  exampleDouble exPow exQA (exFiles text) ["a.out"; "dom.mtx"; "many"]%string = StoullThrows.
Proof.
  cbv zeta.
  assert (C : domCheck gidx_eq_dec (allIdx 1 1 1 1 1)
    (fun g h => fileAt Od (withValues decimalToDouble exDomFile) (posOf 1 1 1 1 g) (posOf 1 1 1 1 h)) = true)
    by (vm_compute; reflexivity).
  pose proof C as C'. apply domCheck_ok in C. destruct C as (C1 & C2 & C3).
  split; [exact exQA_dims|]. split; [lia|]. split; [vm_compute; discriminate|].
  split.
  { apply C60_written_files; try reflexivity. intros r c d H. cbn in H.
    repeat (destruct H as [H|H]; [injection H as <- <- _; cbn; lia|]). contradiction. }
  split.
  { entry_in ([(GS 0, GS 0); (GT 0 0, GS 0); (GO 0, GS 0); (GT 0 0, GT 0 0); (GT 1 0, GT 0 0); (GO 0, GT 0 0);
      (GT 1 0, GT 1 0); (GL 0, GT 1 0); (GO 0, GT 1 0); (GL 0, GL 0); (GO 0, GL 0); (GO 0, GO 0)]). }
  split.
  { unfold exDomFile, withValues. cbn [map]. repeat (apply Forall_cons; [|]); [..|apply Forall_nil];
      intros (g & h & Hg & Hh & E & M); cbn [fst] in E; injection E as E1 E2;
      apply in_allIdx in Hg; apply in_allIdx in Hh;
      destruct g as [i|t i|i|i], h as [j|u j|j|j]; cbn [misread posOf] in *; lia. }
  split; [exact C1|]. split; [exact C2|].
  split.
  { intros g Hg. split; [|apply C3; auto].
    unfold domCheck in C'. rewrite forallb_forall in C'. specialize (C' g Hg). rewrite !andb_true_iff in C'.
    destruct C' as (((K1 & _) & K2) & _). rewrite forallb_forall in K1. specialize (K1 g Hg).
    apply Z.leb_le in K2. destruct (isZ_ok _ K1) as [_ ->]. rewrite <- abs_IZR.
    apply Rle_trans with 1; [change 1 with (bpow radix2 0); apply bpow_le; lia|apply IZR_le; auto]. }
  split.
  { split; [reflexivity|]. vm_compute. lra. }
  split.
  { split; [|reflexivity]. exists " "%string, "+"%string, (D2 (D5 Nil)), " times"%string. split; [reflexivity|].
    split; [cbn; auto 10|]. split; [cbn; auto|]. split; [discriminate|]. split; [reflexivity|].
    intros ([|d|d|d|d|d|d|d|d|d|d] & E); discriminate. }
  split.
  { split; [|reflexivity]. exists ""%string, ""%string, (D0 Nil), ""%string. split; [reflexivity|]. split; [exact I|].
    split; [cbn; auto|]. split; [discriminate|]. split; [reflexivity|]. exact I. }
  repeat split; vm_compute; reflexivity.
Qed.

(** std::stoull reads a prefix of the argument and accepts negative numbers: 1e3 is one
    iteration, and -1 is as many as there can be *)
Example C74_counts :
  stoull "1e3" = Some 1%N /\ stoull "-1" = Some (2 ^ 64 - 1)%N /\ stoull "18446744073709551616" = None /\
  stoull "" = None.
Proof. repeat split; reflexivity. Qed.
Example C74_bad_count_example :
  (forall neg num, numberText "18446744073709551616" neg num -> (2 ^ 64 <= num)%N) /\
  (forall neg num, ~ numberText "many" neg num) /\
  numberText "-1" true 1 /\ countText "18446744073709551615" (2 ^ 64 - 1).
Proof.
  split; [|split; [|split]].
  - intros neg num H. apply stoull_number in H.
    assert (E : stoull "18446744073709551616" = None) by (vm_compute; reflexivity). rewrite E in H.
    destruct (N.leb_spec (2 ^ 64) num); [auto|]. discriminate H.
  - intros neg num (w & sg & u & rest & E & W & G & U & _). destruct w as [|c w].
    + destruct (digits_first u rest U) as (c & l & d & E2 & D). rewrite E2 in E.
      destruct neg; [|destruct G as [G|G]]; [rewrite G in E; discriminate E| |rewrite G in E; discriminate E].
      rewrite G in E. injection E as <- _. discriminate D.
    + injection E as <- _. cbn in W. destruct W as [W _]. repeat (destruct W as [W|W]; [discriminate W|]). contradiction.
  - exists ""%string, "-"%string, (D1 Nil), ""%string. cbn. repeat split; auto. discriminate.
  - split; [|reflexivity].
    exists ""%string, ""%string, (D1 (D8 (D4 (D4 (D6 (D7 (D4 (D4 (D0 (D7 (D3 (D7 (D0 (D9 (D5 (D5 (D1 (D6 (D1 (D5 Nil)))))))))))))))))))), ""%string.
    split; [reflexivity|]. split; [exact I|]. split; [cbn; auto|]. split; [discriminate|]. split; [reflexivity|]. exact I.
Qed.
