(** Properties C31 - C33: matrix market files. *)
From Coq Require Import String Ascii List Arith Lia Bool QArith Qcanon.
From Verif Require Import Base ModelPerm ModelSparsity ModelSymbolic ModelNumeric ModelArrow ModelReg ModelMtx.
From Verif Require Import SpecSymbolic SpecArrow SpecNumeric SpecArrowNum SpecMtx
  ExampleData ExampleArrow ExampleMtx.
From Verif Require Import ProofArrowProduct ProofMtx ProofMtxPlace ProofMtxRead ProofMtxSolve.
Import ListNotations.
Local Open Scope nat_scope.
Local Open Scope list_scope.

(** ** C31: header and entries *)

Theorem C31_reads_the_entries :
  forall {F : Type} scan_header scan_entry {S : Type} lines
    (func : S -> mtx_entry (F:=F) -> res S) s s',
  scan_header EmptyString = None ->
  (mtxForeachEntry scan_header scan_entry lines func s = Ok s' <->
   exists nr nc es, fileIs scan_header scan_entry lines nr nc es /\ foldM func es s = Ok s').
Proof. exact @foreach_iff. Qed.
Print Assumptions C31_reads_the_entries.

(** anything else is an exception *)
Theorem C31_rejects_malformed_files :
  forall {F : Type} scan_header scan_entry {S : Type} lines
    (func : S -> mtx_entry (F:=F) -> res S) s,
  scan_header EmptyString = None ->
  (forall s e, exists s', func s e = Ok s') ->
  (forall nr nc es, ~ fileIs scan_header scan_entry lines nr nc es) ->
  mtxForeachEntry scan_header scan_entry lines func s = Err MtxError.
Proof. exact @foreach_error. Qed.
Print Assumptions C31_rejects_malformed_files.

Lemma exFile_is : fileIs scan3 scanQ exFile 12 12 exEs.
Proof.
  exists (firstn 2 exFile), "12 12 26"%string, (skipn 3 exFile).
  split; [reflexivity|]. split; [|split; [|split]].
  - repeat constructor; eexists; reflexivity.
  - intros (r & H). discriminate.
  - reflexivity.
  - repeat (apply Forall2_cons; [split; [vm_compute; reflexivity|lia]|]). apply Forall2_nil.
Qed.

Definition collect (l : list (nat * nat * Qc)) (e : nat * nat * Qc) : res (list (nat * nat * Qc)) :=
  Ok (l ++ [e]).

Example C31_example :
  scan3 EmptyString = None /\ fileIs scan3 scanQ exFile 12 12 exEs /\
  mtxForeachEntry scan3 scanQ exFile collect [] = Ok exEs /\
  (* too few entries, index 0, index too large, no number, only comments *)
  mtxForeachEntry scan3 scanQ ["2 2 2"; "1 1 1"]%string collect [] = Err MtxError /\
  mtxForeachEntry scan3 scanQ ["2 2 1"; "1 0 1"]%string collect [] = Err MtxError /\
  mtxForeachEntry scan3 scanQ ["2 2 1"; "3 1 1"]%string collect [] = Err MtxError /\
  mtxForeachEntry scan3 scanQ ["2 2 1"; "2 x 1"]%string collect [] = Err MtxError /\
  mtxForeachEntry scan3 scanQ ["%"; "%"]%string collect [] = Err MtxError.
Proof. split; [reflexivity|]. split; [exact exFile_is|]. vm_compute. auto 10. Qed.

(** ** C32: every entry is stored at its place *)

(** the rows of the assembled matrix are numbered consecutively *)
Theorem C32_row_numbers : forall n ds dt dl dO,
  map (posOf n ds dt dl) (allIdx n ds dt dl dO) = seq 0 (totalRows n ds dt dl dO).
Proof. exact map_pos_seq. Qed.
Print Assumptions C32_row_numbers.

Theorem C32_stores_the_file :
  forall {F : Type} (O : ops F) s n ds dt dl dO,
  arrowDims s ds dt dl dO -> 0 < dt -> forall scan_header scan_entry lines es,
  fileIs scan_header scan_entry lines (totalRows n ds dt dl dO) (totalRows n ds dt dl dO) es ->
  Forall (declaredEntry s n ds dt dl dO) es ->
  Forall (fun e => ~ misreadEntry n ds dt dl dO e) es ->
  exists m, mtxFileRead O scan_header scan_entry s lines = Ok m /\
    inputArrow O n ds dt dl dO (ma_mat m) (mtxVals m) /\ declaredArrow s n (ma_mat m) /\
    forall g h, In g (allIdx n ds dt dl dO) -> In h (allIdx n ds dt dl dO) ->
      matAt O (ma_mat m) (mtxVals m) g h = fileAt O es (posOf n ds dt dl g) (posOf n ds dt dl h).
Proof. exact @read_file. Qed.
Print Assumptions C32_stores_the_file.

(** factorizing what has been read solves the system in the file *)
Theorem C32_solves_the_file :
  forall {F : Type} (O : ops F) (FL : fieldLaws O) mt s ds dt dl dO k n
    scan_header scan_entry lines es d0 m d rhs,
  arrowDims s ds dt dl dO -> 0 < dt -> arrowBlocks s = Ok k ->
  fileIs scan_header scan_entry lines (totalRows n ds dt dl dO) (totalRows n ds dt dl dO) es ->
  Forall (declaredEntry s n ds dt dl dO) es ->
  Forall (fun e => ~ misreadEntry n ds dt dl dO e) es ->
  mtxFileRead O scan_header scan_entry s lines = Ok m ->
  dataOf k n ds dt dl dO d0 ->
  arrowFactorize O mt k (ma_mat m) regularizationNone d0 = Ok d ->
  (forall g, In g (allIdx n ds dt dl dO) -> pivotAt O d g <> o0 O) ->
  vecOf n ds dt dl dO rhs ->
  exists x, arrowSolveInPlace O k d rhs = Ok x /\ vecOf n ds dt dl dO x /\
    (forall g, In g (allIdx n ds dt dl dO) ->
       suml O (allIdx n ds dt dl dO) (fun h =>
         omul O (fileAt O es (posOf n ds dt dl g) (posOf n ds dt dl h)) (gvecAt O x h)) =
       gvecAt O rhs g).
Proof. exact @solve_file. Qed.
Print Assumptions C32_solves_the_file.

Ltac entry_at g h :=
  exists g, h; split; [apply in_allIdx; lia|]; split; [apply in_allIdx; lia|];
  split; [reflexivity|cbn; auto 20 with arith].
Ltac entry_in all :=
  lazymatch all with
  | (?g, ?h) :: ?rest => apply Forall_cons; [entry_at g h|entry_in rest]
  | [] => apply Forall_nil
  end.

Lemma exEs_declared : Forall (declaredEntry exA 1 2 3 2 2) exEs.
Proof.
  entry_in ([(GS 0, GS 0); (GS 1, GS 0); (GS 1, GS 1); (GT 0 0, GS 1); (GT 0 2, GS 0); (GO 1, GS 0);
    (GT 0 0, GT 0 0); (GT 0 1, GT 0 1); (GT 0 2, GT 0 2); (GT 0 2, GT 0 0);
    (GT 1 0, GT 1 0); (GT 1 1, GT 1 1); (GT 1 2, GT 1 2); (GT 1 0, GT 0 2); (GT 1 2, GT 1 0);
    (GT 1 0, GT 0 2); (GT 1 1, GT 0 0); (GL 0, GT 1 1); (GL 0, GL 0); (GL 1, GL 1); (GL 1, GL 0);
    (GO 0, GL 1); (GO 1, GT 0 2); (GO 1, GT 1 2); (GO 0, GO 0); (GO 1, GO 1)]).
Qed.

Lemma exNoMisread r c v : (2 <= c \/ r < 5 \/ 10 <= r) ->
  ~ misreadEntry (F:=Qc) 1 2 3 2 2 (r, c, v).
Proof.
  intros H (g & h & Hg & Hh & E & M). cbn [fst] in E. injection E as -> ->.
  apply in_allIdx in Hg. apply in_allIdx in Hh.
  destruct g as [i|t i|i|i], h as [j|u j|j|j]; cbn [misread posOf] in *; lia.
Qed.

Lemma exEs_plain : Forall (fun e => ~ misreadEntry 1 2 3 2 2 e) exEs.
Proof. repeat (apply Forall_cons; [apply exNoMisread; lia|]). apply Forall_nil. Qed.

Example C32_example :
  arrowDims exA 2 3 2 2 /\ fileIs scan3 scanQ exFile (totalRows 1 2 3 2 2) (totalRows 1 2 3 2 2) exEs /\
  Forall (declaredEntry exA 1 2 3 2 2) exEs /\
  Forall (fun e => ~ misreadEntry 1 2 3 2 2 e) exEs /\
  match mtxFileRead Oq scan3 scanQ exA exFile with
  | Ok m =>
      (* rows 4, 5 and 11 of the matrix *)
      map (fun h => this (matAt Oq (ma_mat m) (mtxVals m) (GT 0 2) h)) (allIdx 1 2 3 2 2) =
        [3; 0; 1; 0; 5; 1; 0; 0; 0; 0; 0; 3]%Q /\
      map (fun h => this (matAt Oq (ma_mat m) (mtxVals m) (GT 1 0) h)) (allIdx 1 2 3 2 2) =
        [0; 0; 0; 0; 1; 17; 0; 1; 0; 0; 0; 0]%Q /\
      map (fun h => this (matAt Oq (ma_mat m) (mtxVals m) (GO 1) h)) (allIdx 1 2 3 2 2) =
        [4; 0; 0; 0; 3; 0; 0; 4; 0; 0; 0; 19]%Q
  | Err _ => False
  end.
Proof.
  split; [exact exA_dims|]. split; [exact exFile_is|]. split; [exact exEs_declared|].
  split; [exact exEs_plain|]. vm_compute. auto.
Qed.

(** with more outer rows than rows of the tridiagonal blocks, declared entries
    are stored at another place *)
Theorem C32_outer_refuted :
  exists s n ds dt dl dO lines es m,
  arrowDims s ds dt dl dO /\ 0 < dt /\
  fileIs scan3 scanQ lines (totalRows n ds dt dl dO) (totalRows n ds dt dl dO) es /\
  Forall (declaredEntry s n ds dt dl dO) es /\
  mtxFileRead Oq scan3 scanQ s lines = Ok m /\
  exists g h, In g (allIdx n ds dt dl dO) /\ In h (allIdx n ds dt dl dO) /\
    matAt Oq (ma_mat m) (mtxVals m) g h <> fileAt Oq es (posOf n ds dt dl g) (posOf n ds dt dl h).
Proof.
  exists exWide, 0, 0, 1, 0, 2, exWideFile, exWideEs.
  destruct (mtxFileRead Oq scan3 scanQ exWide exWideFile) as [m|] eqn:E; [|vm_compute in E; discriminate].
  exists m. split; [arrow_dims|]. split; [lia|]. split; [|split; [|split; [reflexivity|]]].
  - exists [], "3 3 1"%string, ["3 1 5"%string]. split; [reflexivity|]. split; [constructor|].
    split; [intros (r & H); discriminate|]. split; [reflexivity|].
    apply Forall2_cons; [split; [vm_compute; reflexivity|cbn; lia]|apply Forall2_nil].
  - entry_in ([(GO 1, GT 0 0)]).
  - exists (GO 0), (GT 0 0). split; [apply in_allIdx; lia|]. split; [apply in_allIdx; lia|].
    vm_compute in E. injection E as <-. vm_compute. discriminate.
Qed.
Print Assumptions C32_outer_refuted.

(** ** C33: entries outside of the structure *)

Theorem C33_rejects_undeclared_entries :
  forall {F : Type} (O : ops F) s n ds dt dl dO,
  arrowDims s ds dt dl dO -> 0 < dt -> forall scan_header scan_entry lines es,
  fileIs scan_header scan_entry lines (totalRows n ds dt dl dO) (totalRows n ds dt dl dO) es ->
  Forall (fun e => ~ misreadEntry n ds dt dl dO e) es ->
  Exists (fun e => ~ declaredEntry s n ds dt dl dO e) es ->
  mtxFileRead O scan_header scan_entry s lines = Err MtxError.
Proof. exact @reject_file. Qed.
Print Assumptions C33_rejects_undeclared_entries.

(** the size must fit *)
Theorem C33_rejects_dimensions :
  forall {F : Type} (O : ops F) s ds dt dl dO,
  arrowDims s ds dt dl dO -> forall scan_header scan_entry lines nr nc es,
  0 < dt -> fileIs scan_header scan_entry lines nr nc es ->
  (nr <> nc \/ forall n, nr <> totalRows n ds dt dl dO) ->
  mtxFileRead O scan_header scan_entry s lines = Err MtxError.
Proof. exact @reject_dims. Qed.
Print Assumptions C33_rejects_dimensions.

(** In the columns of the start block, an entry below the first tridiagonal block
    and above the outer rows is no exception: the reader accesses row offsets
    outside of the block. *)
Theorem C33_start_columns_undefined :
  forall {F : Type} (O : ops F) s n ds dt dl dO,
  arrowDims s ds dt dl dO -> 0 < dt -> forall scan_header scan_entry lines es1 t i j v es2,
  fileIs scan_header scan_entry lines (totalRows n ds dt dl dO) (totalRows n ds dt dl dO)
    (es1 ++ (ds + t * dt + i, j, v) :: es2) ->
  Forall (declaredEntry s n ds dt dl dO) es1 ->
  Forall (fun e => ~ misreadEntry n ds dt dl dO e) es1 ->
  0 < t -> t * dt + i < (n + 1) * dt + dl -> j < ds ->
  mtxFileRead O scan_header scan_entry s lines = Err UB.
Proof. exact @undefined_file. Qed.
Print Assumptions C33_start_columns_undefined.

(** tridiagonal blocks without rows: division by zero *)
Theorem C33_empty_blocks_undefined :
  forall {F : Type} (O : ops F) s ds dt dl dO,
  arrowDims s ds dt dl dO -> forall scan_header scan_entry lines nr es,
  dt = 0 -> fileIs scan_header scan_entry lines nr nr es -> ds + dl + dO < nr ->
  mtxFileRead O scan_header scan_entry s lines = Err UB.
Proof. exact @empty_blocks. Qed.
Print Assumptions C33_empty_blocks_undefined.

Example C33_example :
  fileIs scan3 scanQ exBadFile (totalRows 1 2 3 2 2) (totalRows 1 2 3 2 2) exBadEs /\
  Forall (fun e => ~ misreadEntry 1 2 3 2 2 e) exBadEs /\
  Exists (fun e => ~ declaredEntry exA 1 2 3 2 2 e) exBadEs /\
  mtxFileRead Oq scan3 scanQ exA exBadFile = Err MtxError /\
  mtxFileRead Oq scan3 scanQ exA ["11 11 0"]%string = Err MtxError.
Proof.
  split; [|split; [|split; [|split; vm_compute; reflexivity]]].
  - exists [], "12 12 2"%string, ["1 1 7"; "9 5 3"]%string. split; [reflexivity|]. split; [constructor|].
    split; [intros (r & H); discriminate|]. split; [reflexivity|].
    repeat (apply Forall2_cons; [split; [vm_compute; reflexivity|cbn; lia]|]). apply Forall2_nil.
  - repeat (apply Forall_cons; [apply exNoMisread; lia|]). apply Forall_nil.
  - right. left. intros (g & h & Hg & Hh & E & D). cbn [fst] in E.
    apply in_allIdx in Hg. apply in_allIdx in Hh. injection E as E1 E2.
    destruct g as [i|t i|i|i], h as [j|u j|j|j]; cbn [posOf declaredAt] in *; try lia.
Qed.

(** an entry two blocks below the diagonal is stored one block below *)
Theorem C33_far_entry_refuted :
  exists s n ds dt dl dO lines es m,
  arrowDims s ds dt dl dO /\ 0 < dt /\
  fileIs scan3 scanQ lines (totalRows n ds dt dl dO) (totalRows n ds dt dl dO) es /\
  Exists (fun e => ~ declaredEntry s n ds dt dl dO e) es /\
  mtxFileRead Oq scan3 scanQ s lines = Ok m /\
  exists g h, In g (allIdx n ds dt dl dO) /\ In h (allIdx n ds dt dl dO) /\
    matAt Oq (ma_mat m) (mtxVals m) g h <> fileAt Oq es (posOf n ds dt dl g) (posOf n ds dt dl h).
Proof.
  exists exFar, 2, 0, 1, 0, 0, exFarFile, exFarEs.
  destruct (mtxFileRead Oq scan3 scanQ exFar exFarFile) as [m|] eqn:E; [|vm_compute in E; discriminate].
  exists m. split; [arrow_dims|]. split; [lia|]. split; [|split; [|split; [reflexivity|]]].
  - exists [], "3 3 2"%string, ["1 1 2"; "3 1 5"]%string. split; [reflexivity|]. split; [constructor|].
    split; [intros (r & H); discriminate|]. split; [reflexivity|].
    repeat (apply Forall2_cons; [split; [vm_compute; reflexivity|cbn; lia]|]). apply Forall2_nil.
  - right. left. intros (g & h & Hg & Hh & E0 & D). cbn [fst] in E0.
    apply in_allIdx in Hg. apply in_allIdx in Hh. injection E0 as E1 E2.
    destruct g as [i|t i|i|i], h as [j|u j|j|j]; cbn [posOf declaredAt] in *; try lia.
  - exists (GT 1 0), (GT 0 0). split; [apply in_allIdx; lia|]. split; [apply in_allIdx; lia|].
    vm_compute in E. injection E as <-. vm_compute. discriminate.
Qed.
Print Assumptions C33_far_entry_refuted.

(** the hypotheses of [C33_start_columns_undefined] *)
Example C33_start_columns_example :
  fileIs scan3 scanQ exBelowFile (totalRows 1 2 3 2 2) (totalRows 1 2 3 2 2)
    ([(0, 0, exQ 7)] ++ (2 + 1 * 3 + 0, 0, exQ 3) :: []) /\
  Forall (declaredEntry exA 1 2 3 2 2) [(0, 0, exQ 7)] /\
  mtxFileRead Oq scan3 scanQ exA exBelowFile = Err UB.
Proof.
  split; [|split; [|vm_compute; reflexivity]].
  - exists [], "12 12 2"%string, ["1 1 7"; "6 1 3"]%string. split; [reflexivity|]. split; [constructor|].
    split; [intros (r & H); discriminate|]. split; [reflexivity|].
    repeat (apply Forall2_cons; [split; [vm_compute; reflexivity|cbn; lia]|]). apply Forall2_nil.
  - entry_in ([(GS 0, GS 0)]).
Qed.
