(** Property C60: the text of matrix market files.

    [conv] is the conversion of decimal numbers to the number type; for double it is
    correctly rounded (C60_double). *)
From Coq Require Import List Arith Bool NArith ZArith Reals Lia String Ascii Decimal DecimalString QArith Qcanon.
From Flocq Require Import Core.Core BinarySingleNaN.
From Verif Require Import Base ModelPerm ModelSparsity ModelSymbolic ModelNumeric ModelArrow ModelReg ModelMtx ModelIeee ModelText.
From Verif Require Import SpecSymbolic SpecArrow SpecNumeric SpecArrowNum SpecReg SpecRound SpecMtx SpecText.
From Verif Require Import ExampleData ExampleArrow ExampleIeee ExampleMtx.
From Verif Require Import ProofText ProofPropText.
Import ListNotations.
Local Open Scope string_scope.
Local Open Scope nat_scope.

(** the callback gets the entries of the text in order; leading, separating and trailing
    white space, signs, carriage returns, a missing last line end and anything behind the
    third number do not matter *)
Theorem C60_reads_the_text :
  forall {F S : Type} (conv : decimal -> F) text nr nc es (func : S -> mtx_entry (F:=F) -> res S) s,
  mtxText text nr nc es ->
  mtxForeachEntry scanHeader (scanEntry conv) (getlines text) func s = foldM func (withValues conv es) s.
Proof. exact @text_foreach. Qed.
Print Assumptions C60_reads_the_text.

(** every list of entries can be written *)
Theorem C60_written_files :
  forall nr nc es,
  (N.of_nat nr < 2 ^ 64)%N -> (N.of_nat nc < 2 ^ 64)%N -> (N.of_nat (List.length es) < 2 ^ 64)%N ->
  (forall r c d, In (r, c, d) es -> (r < nr)%nat /\ (c < nc)%nat) ->
  mtxText (writeMtx nr nc es) nr nc es.
Proof. exact @written_text. Qed.
Print Assumptions C60_written_files.

(** empty lines, comments below the header, lines with fewer than three numbers, and
    row numbers that are negative, zero or too large are rejected, also a wrong number of entries *)
Theorem C60_rejects_other_lines :
  forall {F S : Type} (conv : decimal -> F) text cs h rest nr nc nnz (func : S -> mtx_entry (F:=F) -> res S) s,
  textOf text (cs ++ h :: rest) -> Forall (fun l => exists l', l = String "%" l') cs -> headerText h nr nc nnz ->
  (N.of_nat nr < 2 ^ 64 - 1)%N ->
  (forall s e, exists s', func s e = Ok s') ->
  (Exists (badLine nr) rest \/ List.length rest <> nnz) ->
  mtxForeachEntry scanHeader (scanEntry conv) (getlines text) func s = Err MtxError.
Proof. exact @text_bad. Qed.
Print Assumptions C60_rejects_other_lines.

Theorem C60_stores_the_text :
  forall {F : Type} (O : ops F) (conv : decimal -> F) s n ds dt dl dO text es,
  arrowDims s ds dt dl dO -> (0 < dt)%nat ->
  mtxText text (totalRows n ds dt dl dO) (totalRows n ds dt dl dO) es ->
  Forall (declaredEntry s n ds dt dl dO) (withValues conv es) ->
  Forall (fun e => ~ misreadEntry n ds dt dl dO e) (withValues conv es) ->
  exists m, mtxFileRead O scanHeader (scanEntry conv) s (getlines text) = Ok m /\
    inputArrow O n ds dt dl dO (ma_mat m) (mtxVals m) /\ declaredArrow s n (ma_mat m) /\
    forall g h, In g (allIdx n ds dt dl dO) -> In h (allIdx n ds dt dl dO) ->
      matAt O (ma_mat m) (mtxVals m) g h =
      fileAt O (withValues conv es) (posOf n ds dt dl g) (posOf n ds dt dl h).
Proof. exact @text_stores. Qed.
Print Assumptions C60_stores_the_text.

(** from the text to the solution of the system *)
Theorem C60_solves_the_text :
  forall {F : Type} (O : ops F) (FL : fieldLaws O) (conv : decimal -> F) mt s ds dt dl dO k n text es d0 m d rhs,
  arrowDims s ds dt dl dO -> (0 < dt)%nat -> arrowBlocks s = Ok k ->
  mtxText text (totalRows n ds dt dl dO) (totalRows n ds dt dl dO) es ->
  Forall (declaredEntry s n ds dt dl dO) (withValues conv es) ->
  Forall (fun e => ~ misreadEntry n ds dt dl dO e) (withValues conv es) ->
  mtxFileRead O scanHeader (scanEntry conv) s (getlines text) = Ok m ->
  dataOf k n ds dt dl dO d0 ->
  arrowFactorize O mt k (ma_mat m) regularizationNone d0 = Ok d ->
  (forall g, In g (allIdx n ds dt dl dO) -> pivotAt O d g <> o0 O) ->
  vecOf n ds dt dl dO rhs ->
  exists x, arrowSolveInPlace O k d rhs = Ok x /\ vecOf n ds dt dl dO x /\
    (forall g, In g (allIdx n ds dt dl dO) ->
       suml O (allIdx n ds dt dl dO) (fun h =>
         omul O (fileAt O (withValues conv es) (posOf n ds dt dl g) (posOf n ds dt dl h)) (gvecAt O x h)) =
       gvecAt O rhs g).
Proof. exact @text_solves. Qed.
Print Assumptions C60_solves_the_text.

(** the same with rounding errors *)
Theorem C60_residual :
  forall {F : Type} (O : ops F) fin val u eta (RO : rounding O fin val u eta) (conv : decimal -> F) mt s ds dt dl dO k n text es d0 m d rhs cc,
  arrowDims s ds dt dl dO -> (0 < dt)%nat -> arrowBlocks s = Ok k ->
  mtxText text (totalRows n ds dt dl dO) (totalRows n ds dt dl dO) es ->
  Forall (declaredEntry s n ds dt dl dO) (withValues conv es) ->
  Forall (fun e => ~ misreadEntry n ds dt dl dO e) (withValues conv es) ->
  mtxFileRead O scanHeader (scanEntry conv) s (getlines text) = Ok m ->
  dataOf k n ds dt dl dO d0 ->
  arrowFactorize O mt k (ma_mat m) regularizationNone d0 = Ok d ->
  let all := allIdx n ds dt dl dO in
  (forall g, In g all -> fin (pivotAt O d g)) ->
  vecOf n ds dt dl dO rhs ->
  (forall g, In g all -> (colCountG k n g <= cc)%nat) ->
  exists x, arrowSolveInPlace O k d rhs = Ok x /\ vecOf n ds dt dl dO x /\
    ((forall g, In g all -> fin (gvecAt O x g)) -> forall g, In g all ->
     let U := unitG O val k d in
     let V := fun g => val (pivotAt O d g) in
     let xp := fun h => val (gvecAt O x (permIdx s h)) in
     let A := fun c => val (fileAt O (withValues conv es) (posOf n ds dt dl (permIdx s g)) (posOf n ds dt dl c)) in
     (Rabs (val (gvecAt O rhs (permIdx s g)) - suml Or all (fun c => A c * val (gvecAt O x c))) <=
      solveBound all U V u eta (rowCountG k n g) cc xp g +
      suml Or all (fun h => factorBound all U V u eta (rowCountG k n g) g h * Rabs (xp h)))%R).
Proof. exact @text_residual. Qed.
Print Assumptions C60_residual.

(** decimal numbers are rounded to the nearest double *)
Theorem C60_double :
  forall d,
    let x := decimalValue d in
    let rnd := round radix2 (SpecFloat.fexp 53 1024) ZnearestE in
    if Rlt_bool (Rabs (rnd x)) (bpow radix2 1024)
    then is_finite (decimalToDouble d) = true /\ B2R (decimalToDouble d) = rnd x
    else is_finite (decimalToDouble d) = false /\ is_nan (decimalToDouble d) = false.
Proof. exact decimal_double. Qed.
Print Assumptions C60_double.

(** ** examples *)

Definition crlf : string := String "013" (String "010" "").
Definition lf : string := String "010" "".
Definition exText : string :=
  "%%MatrixMarket matrix coordinate real symmetric" ++ crlf ++ "% a comment" ++ crlf ++
  " 3 3  5 " ++ crlf ++ "1 1 +2.50e+1" ++ crlf ++ "02 1 -.125" ++ crlf ++
  String "009" "2 2 31. remark" ++ lf ++ "3 2 1E-3" ++ lf ++ "3 3 1e300".
Definition exTextEntries : list (nat * nat * decimal) :=
  [(0, 0, (false, 250%N, (-1)%Z)); (1, 0, (true, 125%N, (-3)%Z)); (1, 1, (false, 31%N, 0%Z));
   (2, 1, (false, 1%N, (-3)%Z)); (2, 2, (false, 1%N, 300%Z))].

Definition textLines : list string :=
  ["%%MatrixMarket matrix coordinate real symmetric" ++ String "013" "";
   "% a comment" ++ String "013" ""; " 3 3  5 " ++ String "013" ""; "1 1 +2.50e+1" ++ String "013" "";
   "02 1 -.125" ++ String "013" ""; String "009" "2 2 31. remark"; "3 2 1E-3"; "3 3 1e300"].

Ltac size_text u := exists u; split; [reflexivity|]; split; [discriminate|]; split; reflexivity.
Ltac line_text w1 w2 w3 rest := exists w1, w2, w3, rest;
  split; [reflexivity|]; cbn; repeat split; auto 10; discriminate.

Example C60_example :
  mtxText exText 3 3 exTextEntries /\
  mtxForeachEntry scanHeader (scanEntry decimalToDouble) (getlines exText)
    (fun l e => Ok (l ++ [(fst e, show (snd e))])%list) [] =
  Ok [(0, 0, show (dz 25)); (1, 0, show (dbl (-1) (-3))); (1, 1, show (dz 31));
      (2, 1, SpecFloat.S754_finite false 4611686018427388 (-62));
      (2, 2, SpecFloat.S754_finite false 6724873095247260 944)].
Proof.
  split; [|vm_compute; reflexivity].
  exists (firstn 2 textLines), (nth 2 textLines ""), (skipn 3 textLines).
  split; [split|split; [|split]].
  - cbn. repeat constructor; discriminate.
  - right. exists (firstn 7 textLines), (nth 7 textLines ""). split; [reflexivity|]. split; [discriminate|]. reflexivity.
  - repeat constructor; eexists; reflexivity.
  - exists "3", "3", "5". split; [line_text " " " " "  " (" " ++ String "013" "")|].
    split; [size_text (D3 Nil)|]. split; [size_text (D3 Nil)|size_text (D5 Nil)].
  - repeat apply Forall2_cons; [..|constructor]; (split; [|cbn; lia]).
    + exists "1", "1", "+2.50e+1". split; [line_text "" " " " " (String "013" "")|].
      split; [size_text (D1 Nil)|]. split; [size_text (D1 Nil)|].
      exists "+", (D2 Nil), ".50", (D5 (D0 Nil)), "e+1", 1%Z. split; [reflexivity|]. split; [right; reflexivity|].
      split; [right; reflexivity|]. split; [left; discriminate|]. split; [right|split; reflexivity].
      exists "e"%char, "+", false, (D1 Nil). repeat split; cbn; auto; discriminate.
    + exists "02", "1", "-.125". split; [line_text "" " " " " (String "013" "")|].
      split; [size_text (D0 (D2 Nil))|]. split; [size_text (D1 Nil)|].
      exists "-", Nil, ".125", (D1 (D2 (D5 Nil))), "", 0%Z. split; [reflexivity|]. split; [reflexivity|].
      split; [right; reflexivity|]. split; [right; discriminate|]. split; [left; auto|split; reflexivity].
    + exists "2", "2", "31.". split; [line_text (String "009" "") " " " " " remark"|].
      split; [size_text (D2 Nil)|]. split; [size_text (D2 Nil)|].
      exists "", (D3 (D1 Nil)), ".", Nil, "", 0%Z. split; [reflexivity|]. split; [left; reflexivity|].
      split; [right; reflexivity|]. split; [left; discriminate|]. split; [left; auto|split; reflexivity].
    + exists "3", "2", "1E-3". split; [line_text "" " " " " ""|].
      split; [size_text (D3 Nil)|]. split; [size_text (D2 Nil)|].
      exists "", (D1 Nil), "", Nil, "E-3", (-3)%Z. split; [reflexivity|]. split; [left; reflexivity|].
      split; [left; auto|]. split; [left; discriminate|]. split; [right|split; reflexivity].
      exists "E"%char, "-", true, (D3 Nil). repeat split; cbn; auto; discriminate.
    + exists "3", "3", "1e300". split; [line_text "" " " " " ""|].
      split; [size_text (D3 Nil)|]. split; [size_text (D3 Nil)|].
      exists "", (D1 Nil), "", Nil, "e300", 300%Z. split; [reflexivity|]. split; [left; reflexivity|].
      split; [left; auto|]. split; [left; discriminate|]. split; [right|split; reflexivity].
      exists "e"%char, "", false, (D3 (D0 (D0 Nil))). repeat split; cbn; auto; discriminate.
Qed.

(** a matrix of the pattern [exA] with one repetition is written, read and solved *)
Definition exDecimals : list (nat * nat * decimal) :=
  map (fun e => let '(r, c, v) := e in (r, c, (false, N.of_nat v, 0%Z))) exFileEntries.
Definition decimalToQ (d : decimal) : Qc :=
  let '(neg, m, e) := d in
  Q2Qc (inject_Z (if neg then - Z.of_N m else Z.of_N m)%Z * Qpower 10 e).
Example C60_written_example :
  mtxText (writeMtx 12 12 exDecimals) 12 12 exDecimals /\
  withValues decimalToQ exDecimals = exEs /\
  match mtxFileRead Oq scanHeader (scanEntry decimalToQ) exA (getlines (writeMtx 12 12 exDecimals)) with
  | Ok m => map (map this) (map mm_values (ma_td m)) = [[7; 9; 5; 1]; [17; 9; 8; 1]]%Q
  | Err _ => False
  end.
Proof.
  split; [|split; vm_compute; reflexivity].
  apply C60_written_files; try reflexivity. intros r c d H. cbn in H.
  repeat (destruct H as [H|H]; [injection H as <- <- _; lia|]). contradiction.
Qed.

Definition count (n : nat) (e : nat * nat * ieee 53 1024) : res nat := Ok (n + 1).
Example C60_rejects_example :
  let read := fun lines => mtxForeachEntry scanHeader (scanEntry decimalToDouble) (getlines (unlines lines)) count 0 in
  read ["2 2 1"; "1 1 5"] = Ok 1 /\
  read ["2 2 1"; "1 1 5"; ""] = Err MtxError /\
  read ["2 2 1"; "% comment"; "1 1 5"] = Err MtxError /\
  read ["2 2 1"; "1 1"] = Err MtxError /\
  read ["2 2 1"; "0 1 5"] = Err MtxError /\
  read ["2 2 2"; "1 1 5"] = Err MtxError /\
  read [""; "2 2 1"; "1 1 5"] = Err MtxError /\
  badLine 2 "" /\ badLine 2 "% comment" /\ badLine 2 "1 1" /\ badLine 2 "-1 1 5" /\ badLine 2 "0 1 5".
Proof.
  cbv zeta. do 7 (split; [vm_compute; reflexivity|]).
  split; [left; exact I|]. split; [right; left; eexists; reflexivity|].
  split; [do 4 right; exists "", (D1 Nil), " ", (D1 Nil), ""; split; [reflexivity|];
          cbn; repeat split; auto 10; discriminate|].
  split; [do 2 right; left; exists "", (D1 Nil), " 1 5"; split; [reflexivity|];
          cbn; repeat split; auto 10; discriminate|].
  do 3 right. left. exists "", (D0 Nil), " 1 5". split; [reflexivity|]. cbn. repeat split; auto 10. discriminate.
Qed.

(** -1 is read as 2^64 - 1 *)
Example C60_negative_example :
  scanSize "-1 1 5" = Some (2 ^ 64 - 1, " 1 5")%N /\
  mtxForeachEntry scanHeader (scanEntry decimalToDouble) (getlines (unlines ["2 2 1"; "-1 1 5"])) count 0 = Err MtxError.
Proof.
  split; [reflexivity|].
  apply (C60_rejects_other_lines decimalToDouble _ [] "2 2 1" ["-1 1 5"] 2 2 1).
  - split; [repeat constructor; discriminate|left; reflexivity].
  - constructor.
  - exists "2", "2", "1". split; [line_text "" " " " " ""|].
    split; [size_text (D2 Nil)|]. split; [size_text (D2 Nil)|size_text (D1 Nil)].
  - reflexivity.
  - intros s e. eexists. reflexivity.
  - left. constructor. do 2 right. left. exists "", (D1 Nil), " 1 5". split; [reflexivity|].
    cbn. repeat split; auto 10; discriminate.
Qed.

(** The line with the kind of the matrix is a comment for the reader. A complex hermitian
    matrix is read without an error as a real symmetric one: the imaginary parts are
    dropped. *)
Theorem C60_kind_refuted :
  exists text es, getlines text =
    ["%%MatrixMarket matrix coordinate complex hermitian"; "2 2 3"; "1 1 2 0"; "2 1 1 5"; "2 2 3 0"] /\
  mtxForeachEntry scanHeader (scanEntry decimalToQ) (getlines text) (fun l e => Ok (l ++ [e])%list) [] = Ok es /\
  map (fun e => (fst e, this (snd e))) es = [((0, 0), 2%Q); ((1, 0), 1%Q); ((1, 1), 3%Q)].
Proof.
  exists (unlines ["%%MatrixMarket matrix coordinate complex hermitian"; "2 2 3"; "1 1 2 0"; "2 1 1 5"; "2 2 3 0"]).
  eexists. split; [reflexivity|]. split; [reflexivity|]. vm_compute. reflexivity.
Qed.
Print Assumptions C60_kind_refuted.
