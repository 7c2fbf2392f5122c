(** Property C51: no storage is reserved for entries of the factor that are always zero,
    apart from the first tridiagonal blocks and from fill caused by a start block. *)
From Coq Require Import List Arith Lia Bool QArith Qcanon.
From Verif Require Import Base ModelPerm ModelSparsity ModelSymbolic ModelNumeric ModelArrow ModelReg.
From Verif Require Import SpecSymbolic SpecArrow SpecNumeric SpecArrowNum SpecPivot SpecInertia SpecSign SpecTight.
From Verif Require Import ExampleData ExampleArrow ExamplePivot.
From Verif Require Import ProofTight ProofTightNum ProofTightMore PropSingle PropPivot PropSign.
Import ListNotations.
Local Open Scope nat_scope.

Theorem C51_stored_nonzero :
  forall {F : Type} (O : ops F) (FL : fieldLaws O) (OL : ordLaws FL) mt s n p a vals m,
  spOf s n n -> validPerm n p ->
  spOf a n n -> inputOf O m a vals -> coveredSym (entries a) (entries s) n p ->
  posDef OL (seq 0 n) (symAt O (entries a) vals) ->
  (forall i j, i < n -> j < n -> i <> j -> atMost0 OL (symAt O (entries a) vals i j)) ->
  (forall i j, j < i -> In (i, j) (entries s) -> ol_pos OL (fl_opp FL (symAt O (entries a) vals i j))) ->
  exists b, factorizationBlk s p = Ok b /\
    forall L0 D0, length L0 = c_nnz (b_sp b) -> length D0 = n ->
    exists L D, factorize O mt b (Some m) regularizationNone (L0, D0) = Ok (L, D) /\
      forall i j, In (i, j) (c_entries (b_sp b)) -> ol_pos OL (fl_opp FL (denseAt O (c_entries (b_sp b)) L i j)).
Proof. exact @single_tight. Qed.
Print Assumptions C51_stored_nonzero.

Theorem C51_no_wasted_storage :
  forall {F : Type} (O : ops F) (FL : fieldLaws O) (OL : ordLaws FL) s n p, spOf s n n -> validPerm n p ->
  exists a vals m, spOf a n n /\ inputOf O m a vals /\
    (forall i j, j < i -> In (i, j) (entries a) -> In (i, j) (entries s)) /\
    exists b, factorizationBlk s p = Ok b /\
      forall mt L0 D0, length L0 = c_nnz (b_sp b) -> length D0 = n ->
      exists L D, factorize O mt b (Some m) regularizationNone (L0, D0) = Ok (L, D) /\
        forall i j, In (i, j) (c_entries (b_sp b)) -> denseAt O (c_entries (b_sp b)) L i j <> o0 O.
Proof. exact @single_needed. Qed.
Print Assumptions C51_no_wasted_storage.

Theorem C51_covers_fill :
  forall s ds dt dl dO, arrowDims s ds dt dl dO ->
  exists k, arrowBlocks s = Ok k /\
    forall n g h, arrowFill s n ds dt dl dO g h -> storedAt k n g h.
Proof. exact @arrow_covers_fill. Qed.
Print Assumptions C51_covers_fill.

Theorem C51_arrowhead_pattern :
  forall s dt dl dO, arrowDims s 0 dt dl dO ->
  exists k k0, arrowBlocks s = Ok k /\
    forall n g h, k0 <= n -> fromBlock k0 h ->
      storedAt k n g h <-> arrowFill s n 0 dt dl dO g h.
Proof. exact @arrow_pattern. Qed.
Print Assumptions C51_arrowhead_pattern.

Theorem C51_arrowhead_stored_nonzero :
  forall {F : Type} (O : ops F) (FL : fieldLaws O) (OL : ordLaws FL) mt s ds dt dl dO n m w,
  arrowDims s ds dt dl dO -> inputArrow O n ds dt dl dO m w -> declaredArrow s n m ->
  let all := allIdx n ds dt dl dO in
  posDef OL all (matAt O m w) ->
  (forall g h, In g all -> In h all -> g <> h -> atMost0 OL (matAt O m w g h)) ->
  (forall g h, In g all -> In h all -> declaredAt s n g h -> ol_pos OL (fl_opp FL (matAt O m w g h))) ->
  exists k, arrowBlocks s = Ok k /\
    forall d0, dataOf k n ds dt dl dO d0 ->
    exists d, arrowFactorize O mt k m regularizationNone d0 = Ok d /\
      forall g h, arrowFill s n ds dt dl dO g h -> ol_pos OL (fl_opp FL (factorAt O (o0 O) k d g h)).
Proof. exact @arrow_tight_neg. Qed.
Print Assumptions C51_arrowhead_stored_nonzero.

Theorem C51_arrowhead_no_wasted_storage :
  forall {F : Type} (O : ops F) (FL : fieldLaws O) (OL : ordLaws FL) s dt dl dO, arrowDims s 0 dt dl dO ->
  exists k k0, arrowBlocks s = Ok k /\
    forall n, k0 <= n ->
    exists m w, inputArrow O n 0 dt dl dO m w /\ declaredArrow s n m /\
      forall mt d0, dataOf k n 0 dt dl dO d0 ->
      exists d, arrowFactorize O mt k m regularizationNone d0 = Ok d /\
        forall g h, storedAt k n g h -> fromBlock k0 h -> factorAt O (o0 O) k d g h <> o0 O.
Proof. exact @arrow_needed. Qed.
Print Assumptions C51_arrowhead_no_wasted_storage.

Theorem C51_tridiagonal_no_wasted_storage :
  forall {F : Type} (O : ops F) (FL : fieldLaws O) (OL : ordLaws FL) a b p dt, spOf a dt dt -> spOf b dt dt -> validPerm dt p ->
  exists k k0, tridiagonalBlocks a b p = Ok k /\
    forall n, k0 <= n ->
    exists A B wA wB, inputTri O n dt A B wA wB /\ declaredTri a b n A B /\
      forall mt d0, dataOf k n 0 dt 0 0 d0 ->
      exists d, tridiagonalFactorize O mt k dt A B regularizationNone d0 = Ok d /\
        forall t i u j, storedAt k n (GT t i) (GT u j) -> k0 <= u ->
          factorAt O (o0 O) k d (GT t i) (GT u j) <> o0 O.
Proof. exact @tri_needed. Qed.
Print Assumptions C51_tridiagonal_no_wasted_storage.

Theorem C51_start_refuted :
  exists s k, arrowDims s 1 3 0 0 /\ arrowBlocks s = Ok k /\
    forall n t, 1 <= t -> t <= n ->
      storedAt k n (GT t 2) (GT t 1) /\
      ~ arrowFill s n 1 3 0 0 (GT t 2) (GT t 1) /\
      forall F (O : ops F), fieldLaws O ->
      forall mt m w reg d0 d,
      inputArrow O n 1 3 0 0 m w -> declaredArrow s n m -> dataOf k n 1 3 0 0 d0 ->
      arrowFactorize O mt k m reg d0 = Ok d ->
      (forall g, In g (allIdx n 1 3 0 0) -> pivotAt O d g <> o0 O) ->
      factorAt O (o0 O) k d (GT t 2) (GT t 1) = o0 O.
Proof. exact @waste_refuted. Qed.
Print Assumptions C51_start_refuted.

(** ** examples *)

(** [exP] fills in everything: the three declared and the three other entries are negative *)
Example C51_example :
  spOf exS 4 4 /\ validPerm 4 exP /\ inputOf Oq exNMq exS (qs exNVals) /\
  coveredSym (entries exS) (entries exS) 4 exP /\
  posDef OLq (seq 0 4) (symAt Oq (entries exS) (qs exNVals)) /\
  (forall i j, i < 4 -> j < 4 -> i <> j -> atMost0 OLq (symAt Oq (entries exS) (qs exNVals) i j)) /\
  (forall i j, j < i -> In (i, j) (entries exS) ->
     ol_pos OLq (fl_opp FLq (symAt Oq (entries exS) (qs exNVals) i j))) /\
  length (filter (fun e => snd e <? fst e) (entries exS)) = 3 /\
  c_nnz (b_sp exB) = 6 /\
  match factorize Oq UpLooking exB (Some exNMq) regularizationNone (exL0, exD0) with
  | Ok (L, D) => forallb (fun x => Qle_bool (this x) 0 && negb (Qeq_bool (this x) 0)) L = true
  | Err _ => False
  end.
Proof.
  split; [exact exS_ok|]. split; [exact exP_ok|]. split; [exact exNMq_ok|].
  split; [apply declared_is_covered; auto using exP_ok; exact exS_ok|].
  destruct C49_example_positive_definite as [H1 H2]. split; [exact H1|]. split; [exact H2|].
  split; [|vm_compute; repeat split; reflexivity].
  intros i j Lt Hin. cbn in Hin.
  repeat (destruct Hin as [E|Hin]; [injection E as <- <-; first [lia|vm_compute; reflexivity]|]). destruct Hin.
Qed.

(** Diagonal blocks are diagonal and each variable of a block is linked to variable 0 of the
    previous block: entry (1, 0) of a diagonal block is filled in from the second block on. *)
Definition exWA : arrow_sp := mkAS
  (mkSS (mkSp 0 0 []) (mkSp 2 0 []) (mkSp 1 0 []) [])
  (mkST (mkSp 2 2 [(0, 0); (1, 1)]) (mkSp 2 2 [(0, 0); (1, 0)]) [0; 1])
  (mkSL (mkSp 0 2 []) (mkSp 0 0 []) (mkSp 1 0 []) [])
  (mkSO (mkSp 1 2 [(0, 1)]) (mkSp 1 1 [(0, 0)]) [0]).
Definition exWK : arrow_blks := match arrowBlocks exWA with Ok k => k | Err _ => noBlks end.
Definition exWIn : arrow_mat (F:=Qc) := mkAM
  (ExampleData.matOf (ss_diag (as_start exWA)) [])
  (ExampleData.matOf (ss_next (as_start exWA)) [])
  (ExampleData.matOf (ss_outer (as_start exWA)) [])
  (repeat (ExampleData.matOf (st_diag (as_tri exWA)) [9; 9]%Z) 3)
  (repeat (ExampleData.matOf (st_subdiag (as_tri exWA)) [-1; -1]%Z) 2)
  (ExampleData.matOf (sl_prev (as_link exWA)) [])
  (ExampleData.matOf (sl_diag (as_link exWA)) [])
  (ExampleData.matOf (sl_next (as_link exWA)) [])
  (repeat (ExampleData.matOf (so_subdiag (as_outer exWA)) [-1]%Z) 3)
  (ExampleData.matOf (so_diag (as_outer exWA)) [9]%Z).
Definition exWD : arrow_data :=
  match arrowCtor Oq exWK 2 with Ok d => d | Err _ => noData end.
Lemma exWA_ok : arrowDims exWA 0 2 0 1.
Proof. arrow_dims. Qed.
Example C51_arrowhead_example :
  arrowDims exWA 0 2 0 1 /\ arrowBlocks exWA = Ok exWK /\
  (forall t, t <= 2 -> storedAt exWK 2 (GT t 1) (GT t 0)) /\
  (forall t, 1 <= t -> t <= 2 -> arrowFill exWA 2 0 2 0 1 (GT t 1) (GT t 0)) /\
  (forall t, t <= 2 -> storedAt exWK 2 (GO 0) (GT t 0)) /\
  match arrowFactorize Oq UpLooking exWK exWIn regularizationNone exWD with
  | Ok d => map (fun t => this (factorAt Oq (o0 Oq) exWK d (GT t 1) (GT t 0))) [0; 1; 2] =
              [0; -1 # 80; -80 # 6319]%Q /\
            forallb (fun t => Qle_bool (this (factorAt Oq (o0 Oq) exWK d (GO 0) (GT t 0))) 0) [0; 1; 2] = true
  | Err _ => False
  end.
Proof.
  split; [exact exWA_ok|]. split; [vm_compute; reflexivity|]. split; [|split; [|split; [|vm_compute; split; reflexivity]]].
  - intros t Ht. cbn [storedAt]. split; [lia|]. left. split; auto. vm_compute. auto.
  - intros t H1 H2. assert (In (GT t 1) (allIdx 2 0 2 0 1) /\ In (GT t 0) (allIdx 2 0 2 0 1) /\
      In (GT (t - 1) 0) (allIdx 2 0 2 0 1)) as (I1 & I2 & I3).
    { destruct t as [|[|[|t]]]; try lia; cbn; auto 12. }
    apply (fo_elim _ _ _ _ (GT (t - 1) 0)); cbn [gbefore]; try lia.
    + apply fo_base; [|cbn [gbefore]; lia]. repeat split; auto. left. cbn.
      split; [lia|]. right. split; [lia|auto].
    + apply fo_base; [|cbn [gbefore]; lia]. repeat split; auto. left. cbn.
      split; [lia|]. right. split; [lia|auto].
  - intros t Ht. cbn [storedAt]. split; [lia|]. vm_compute. auto.
Qed.

Example C51_tridiagonal_example :
  spOf exTA 3 3 /\ spOf exTB 3 3 /\ validPerm 3 [2;0;1] /\ tridiagonalBlocks exTA exTB [2;0;1] = Ok exTK.
Proof.
  split; [exact exT_spA|]. split; [exact exT_spB|]. split; [exact exT_perm|exact exTK_ok].
Qed.
