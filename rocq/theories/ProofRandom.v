(** Proofs about the generators of the test inputs. *)
From Coq Require Import List Arith Bool NArith ZArith Lia Permutation.
From Verif Require Import Base ModelPerm ModelSparsity ModelArrow ModelRandom.
From Verif Require Import SpecSymbolic SpecArrow SpecRandom ProofBase ProofArrowSym ProofPropSparsity ProofRandomPeriod.
Import ListNotations.

(** ** Permutations *)

Lemma uniformInt_range a b g : a <= b ->
  exists v g', uniformInt a b g = Ok (v, g') /\ a <= v /\ (a < b -> v < b) /\ (a = b -> v = a).
Proof.
  intros H. unfold uniformInt. rewrite (proj2 (Nat.leb_le _ _) H). cbn [c_assert bind].
  destruct (Nat.eqb_spec b a) as [E|E].
  - exists a, g. repeat split; auto; lia.
  - eexists _, _. split; [reflexivity|].
    assert (N.of_nat (b - a) <> 0%N) by lia.
    assert (Hm := N.mod_lt (lcgNext g - lcgMin) (N.of_nat (b - a)) H0).
    generalize dependent ((lcgNext g - lcgMin) mod N.of_nat (b - a))%N. intros v Hm.
    repeat split; lia.
Qed.

Lemma NoDup_swap (l : list nat) i j : i < length l -> j < length l ->
  Permutation (upd (upd l i (nth j l 0)) j (nth i l 0)) l.
Proof.
  intros Hi Hj. symmetry. apply (Permutation_nth _ _ 0). split.
  { rewrite !upd_length. auto. }
  exists (fun k => if k =? i then j else if k =? j then i else k). repeat split.
  - intros k Hk. cbn. destruct (Nat.eqb_spec k i); auto. destruct (Nat.eqb_spec k j); auto.
  - intros a b Ha Hb. cbn.
    destruct (Nat.eqb_spec a i), (Nat.eqb_spec b i), (Nat.eqb_spec a j), (Nat.eqb_spec b j); lia.
  - intros k Hk.
    destruct (Nat.eqb_spec k j) as [->|Ej].
    + rewrite nth_upd_eq by (rewrite upd_length; auto).
      destruct (Nat.eqb_spec j i); congruence.
    + rewrite nth_upd_neq by auto. destruct (Nat.eqb_spec k i) as [->|Ei].
      * rewrite nth_upd_eq; auto.
      * rewrite nth_upd_neq; auto.
Qed.

Lemma shuffle_ok l g : exists l' g', shuffle l g = Ok (l', g') /\ Permutation l' l /\
  (forall k, k = length l - 1 -> nth k l' 0 = nth k l 0).
Proof.
  unfold shuffle.
  destruct (foldM_seq
    (fun (st : list nat * N * nat) it =>
             let '(l, g, num_remaining) := st in
             let* num_remaining := subw num_remaining 1 in
             let* r := uniformInt 0 num_remaining g in
             let (i, g) := (r : nat * N) in
             if i =? 0 then Ok (l, g, num_remaining)
             else
               let* x := rd l it in
               let* y := rd l (it + i) in
               let* l := wr l it y in
               let* l := wr l (it + i) x in
               Ok (l, g, num_remaining))
    (fun it st => Permutation (fst (fst st)) l /\ snd st + it = length l /\
       nth (length l - 1) (fst (fst st)) 0 = nth (length l - 1) l 0)
    0 (length l) (l, g, length l)) as (st & E & HP & _ & HL).
  { cbn. repeat split; auto. }
  { intros it [[l1 g1] r] Hit (HP & Hr & HL). cbn [fst snd] in *.
    assert (Hlen := Permutation_length HP).
    unfold subw. rewrite (proj2 (Nat.leb_le 1 r)) by lia. cbn [bind].
    destruct (uniformInt_range 0 (r - 1) g1 ltac:(lia)) as (v & g2 & Ev & _ & Hv & Hv0).
    rewrite Ev. cbn [bind].
    destruct (Nat.eqb_spec v 0) as [->|Ez].
    - exists (l1, g2, r - 1). cbn [fst snd]. repeat split; auto; lia.
    - assert (Hr0 : 0 < r - 1) by (destruct (Nat.eq_dec 0 (r - 1)); [specialize (Hv0 e); lia|lia]).
      specialize (Hv Hr0).
      rewrite (rd_nth l1 it 0) by lia. cbn [bind].
      rewrite (rd_nth l1 (it + v) 0) by lia. cbn [bind].
      rewrite wr_ok by lia. cbn [bind]. rewrite wr_ok by (rewrite upd_length; lia). cbn [bind].
      eexists. split; [reflexivity|]. cbn [fst snd]. split; [|split].
      + rewrite NoDup_swap by lia. auto.
      + lia.
      + rewrite !nth_upd_neq by lia. auto. }
  rewrite E. cbn [bind]. eexists _, _. split; [reflexivity|]. split; [exact HP|].
  intros k ->. exact HL.
Qed.

Theorem permutation_valid seed dim :
  exists p g, proceduralTestPermutation seed dim = Ok (p, g) /\ validPerm dim p.
Proof.
  destruct (shuffle_ok (iota_perm dim) seed) as (p & g & E & HP & _).
  exists p, g. split; [exact E|]. unfold iota_perm in HP. split; [|split].
  - rewrite (Permutation_length HP). apply seq_length.
  - apply (Permutation_NoDup (Permutation_sym HP)). apply seq_NoDup.
  - intros x Hx. apply (Permutation_in _ HP) in Hx. apply in_seq in Hx. lia.
Qed.

Theorem permutation_last seed dim p g :
  0 < dim -> proceduralTestPermutation seed dim = Ok (p, g) -> nth (dim - 1) p 0 = dim - 1.
Proof.
  intros Hd E. destruct (shuffle_ok (iota_perm dim) seed) as (p' & g' & E' & _ & HL).
  unfold proceduralTestPermutation in E. rewrite E' in E. injection E as <- <-.
  rewrite HL by (unfold iota_perm; rewrite seq_length; auto).
  unfold iota_perm. rewrite seq_nth by lia. lia.
Qed.

(** ** The generator *)

Lemma draws_add n m g : draws (n + m) g = draws n (draws m g).
Proof. induction n; cbn [Nat.add draws]; auto. rewrite IHn. auto. Qed.

(** ** Matrices *)

Definition mget (m : bool_matrix) (i j : nat) : bool := nth j (nth i m []) false.
Definition rect (m : bool_matrix) (nr nc : nat) : Prop :=
  length m = nr /\ forall i, i < nr -> length (nth i m []) = nc.

Lemma rect_upd m nr nc i row : rect m nr nc -> length row = nc -> rect (upd m i row) nr nc.
Proof.
  intros [H1 H2] Hr. split; [rewrite upd_length; auto|].
  intros k Hk. destruct (Nat.eq_dec k i) as [->|E].
  - rewrite nth_upd_eq by lia. auto.
  - rewrite nth_upd_neq by auto. auto.
Qed.

(** one assignment m[i][j] = b *)
Lemma mset_ok m nr nc i j b : rect m nr nc -> i < nr -> j < nc ->
  exists m', (let* row := rd m i in let* row := wr row j b in wr m i row) = Ok m' /\ rect m' nr nc /\
    forall i' j', mget m' i' j' = if (i' =? i) && (j' =? j) then b else mget m i' j'.
Proof.
  intros HR Hi Hj. destruct HR as [H1 H2] eqn:E0; clear E0.
  rewrite (rd_nth m i []) by lia. cbn [bind].
  rewrite wr_ok by (rewrite H2; auto). cbn [bind]. rewrite wr_ok by lia.
  eexists. split; [reflexivity|]. split.
  - apply rect_upd; auto. rewrite upd_length. auto.
  - intros i' j'. unfold mget. destruct (Nat.eqb_spec i' i) as [->|Ei]; cbn [andb].
    + rewrite nth_upd_eq by lia. destruct (Nat.eqb_spec j' j) as [->|Ej].
      * rewrite nth_upd_eq; auto. rewrite H2; auto.
      * rewrite nth_upd_neq; auto.
    + rewrite nth_upd_neq by auto. auto.
Qed.

Lemma boolMatrix_ok nr nc g : exists m, boolMatrixDistribution nr nc g = Ok (m, draws (nr * nc) g) /\
  rect m nr nc /\
  forall i j, i < nr -> j < nc -> mget m i j = (draws (i * nc + j + 1) g <? threshold05)%N.
Proof.
  unfold boolMatrixDistribution.
  edestruct (foldM_seq (S := (bool_matrix * N)%type)) with
    (P := fun i (st : bool_matrix * N) => rect (fst st) nr nc /\ snd st = draws (i * nc) g /\
        forall i' j', i' < i -> j' < nc -> mget (fst st) i' j' = (draws (i' * nc + j' + 1) g <? threshold05)%N)
    as (st & E & HR & Hs & Hm);
    [| |rewrite E; exists (fst st); split; [|split]].
  - cbn [fst snd]. split; [split|].
    + apply repeat_length.
    + intros i Hi. rewrite nth_repeat_lt by auto. apply repeat_length.
    + split; auto. intros; lia.
  - intros i [m g1] Hi (HR & Hs & Hm). cbn [fst snd] in *. subst g1.
    edestruct (foldM_seq (S := (bool_matrix * N)%type)) with
      (P := fun j (st : bool_matrix * N) => rect (fst st) nr nc /\ snd st = draws (i * nc + j) g /\
        (forall i' j', i' < i -> j' < nc -> mget (fst st) i' j' = (draws (i' * nc + j' + 1) g <? threshold05)%N) /\
        (forall j', j' < j -> mget (fst st) i j' = (draws (i * nc + j' + 1) g <? threshold05)%N))
      as (st & E & HR' & Hs' & Hm' & Hr'); [| |exists st; split; [exact E|]].
    + cbn [fst snd]. rewrite Nat.add_0_r. repeat split; auto; try apply HR. intros; lia.
    + intros j [m1 g1] Hj (HR1 & Hs1 & Hm1 & Hr1). cbn [fst snd] in *. subst g1.
      unfold bernoulli.
      destruct (mset_ok m1 nr nc i j (lcgNext (draws (i * nc + j) g) - lcgMin <? threshold05)%N HR1)
        as (m2 & E2 & HR2 & G2); [lia|lia|].
      destruct (rd m1 i) as [row|] eqn:E3; [|discriminate E2]. cbn [bind] in *.
      destruct (wr row j _) as [row'|] eqn:E4 in E2; [|discriminate E2].
      cbn [bind] in E2. rewrite E4. cbn [bind]. rewrite E2. cbn [bind].
      eexists. split; [reflexivity|]. cbn [fst snd]. split; [auto|]. split; [|split].
      * replace (i * nc + (1 + j)) with (1 + (i * nc + j)) by lia. reflexivity.
      * intros i' j' Hi' Hj'. rewrite G2. destruct (Nat.eqb_spec i' i); [lia|]. cbn [andb]. auto.
      * intros j' Hj'. rewrite G2, Nat.eqb_refl. cbn [andb].
        destruct (Nat.eqb_spec j' j) as [->|Ej]; [|apply Hr1; lia].
        replace (i * nc + j + 1) with (1 + (i * nc + j)) by lia. cbn [Nat.add draws].
        unfold lcgMin. rewrite N.sub_0_r. reflexivity.
    + split; auto. split.
      * rewrite Hs'. f_equal. lia.
      * intros i' j' Hi' Hj'. destruct (Nat.eq_dec i' i) as [->|Ei]; [apply Hr'; auto|apply Hm'; lia].
  - destruct st as [m g1]. cbn [fst snd] in *. rewrite Hs. reflexivity.
  - exact HR.
  - intros i j Hi Hj. apply Hm; auto.
Qed.

Lemma symmetricKind_ok n m : rect m n n ->
  exists m', applyRandomMatrixSparsityKind SymmetricSparsity n n m = Ok m' /\ rect m' n n /\
    forall i j, i < n -> j < n ->
      mget m' i j = if i =? j then true else if i <? j then false else mget m i j.
Proof.
  intros HR. unfold applyRandomMatrixSparsityKind. rewrite Nat.eqb_refl. cbn [static_assert bind].
  edestruct (foldM_seq (S := bool_matrix)) with
    (P := fun i m1 => rect m1 n n /\ forall i' j', i' < n -> j' < n ->
            mget m1 i' j' = if (i' <? i) && (i' <? j') then false else mget m i' j')
    as (m1 & E1 & HR1 & G1); [| |rewrite E1; cbn [bind]].
  - split; [exact HR|]. intros. cbn. reflexivity.
  - intros i m1 Hi [HR1 G1].
    edestruct (foldM_irange (S := bool_matrix)) with (a := i + 1) (b := n)
      (P := fun j m2 => rect m2 n n /\ forall i' j', i' < n -> j' < n ->
            mget m2 i' j' = if (i' =? i) && (i' <? j') && (j' <? j) then false else mget m1 i' j')
      as (m2 & E2 & HR2 & G2); [| | |exists m2; split; [exact E2|]].
    + lia.
    + split; [exact HR1|]. intros i' j' Hi' Hj'.
      destruct (Nat.eqb_spec i' i), (Nat.ltb_spec i' j'), (Nat.ltb_spec j' (i + 1)); cbn; auto; lia.
    + intros j m2 Hj [HR2 G2].
      destruct (mset_ok m2 n n i j false HR2) as (m3 & E3 & HR3 & G3); [lia|lia|].
      exists m3. split; [exact E3|]. split; auto. intros i' j' Hi' Hj'. rewrite G3, G2; auto.
      destruct (Nat.eqb_spec i' i), (Nat.eqb_spec j' j), (Nat.ltb_spec i' j'), (Nat.ltb_spec j' j),
        (Nat.ltb_spec j' (1 + j)); cbn; auto; lia.
    + split; auto. intros i' j' Hi' Hj'. rewrite G2, G1; auto.
      destruct (Nat.eqb_spec i' i), (Nat.ltb_spec i' i), (Nat.ltb_spec i' (1 + i)), (Nat.ltb_spec i' j'),
        (Nat.ltb_spec j' n); cbn; auto; lia.
  - edestruct (foldM_seq (S := bool_matrix)) with
      (P := fun i m2 => rect m2 n n /\ forall i' j', i' < n -> j' < n ->
            mget m2 i' j' = if (i' =? j') && (i' <? i) then true else mget m1 i' j')
      as (m2 & E2 & HR2 & G2); [| |exists m2; split; [exact E2|split; [exact HR2|]]].
    + split; auto. intros i' j' Hi' Hj'. rewrite andb_false_r. auto.
    + intros i m2 Hi [HR2 G2].
      destruct (mset_ok m2 n n i i true HR2) as (m3 & E3 & HR3 & G3); [lia|lia|].
      exists m3. split; [exact E3|]. split; auto. intros i' j' Hi' Hj'. rewrite G3, G2; auto.
      destruct (Nat.eqb_spec i' i), (Nat.eqb_spec j' i), (Nat.eqb_spec i' j'), (Nat.ltb_spec i' i),
        (Nat.ltb_spec i' (1 + i)); cbn; auto; lia.
    + intros i j Hi Hj. rewrite G2, G1; auto.
      destruct (Nat.eqb_spec i j), (Nat.ltb_spec i n), (Nat.ltb_spec i j), (Nat.ltb_spec i (0 + n));
        cbn; auto; lia.
Qed.

Lemma sparsity_from m nr nc : rect m nr nc ->
  exists s, (let* es := makeSparseEntriesFromBoolMatrix nr nc m in mkSparsity nr nc es) = Ok s /\
    spOf s nr nc /\ rowMajor (entries s) /\
    forall i j, i < nr -> j < nc -> (In (i, j) (entries s) <-> mget m i j = true).
Proof.
  intros [H1 H2].
  destruct (bool_matrix_ok m nr nc H1) as (es & E & Hrm & _ & Hin).
  { apply Forall_forall. intros row Hr. apply (In_nth _ _ []) in Hr. destruct Hr as (i & Hi & <-).
    apply H2. lia. }
  rewrite E. cbn [bind]. unfold mkSparsity.
  assert (Hb : forallb (inBounds nr nc) es = true).
  { apply forallb_forall. intros [i j] Hij. apply Hin in Hij. unfold inBounds. cbn [fst snd].
    apply andb_true_iff. split; apply Nat.ltb_lt; lia. }
  rewrite Hb. cbn. eexists. split; [reflexivity|]. cbn [entries nrows ncols]. split; [|split].
  - constructor; auto. intros i j Hij. apply Hin in Hij. cbn in *. lia.
  - exact Hrm.
  - intros i j Hi Hj. cbn [entries]. rewrite Hin. unfold mget. tauto.
Qed.

Theorem matrix_any seed nr nc :
  exists s, proceduralTestMatrix seed nr nc AnySparsity = Ok (s, draws (nr * nc) seed) /\
    spOf s nr nc /\ rowMajor (entries s) /\
    forall i j, i < nr -> j < nc ->
      (In (i, j) (entries s) <-> (draws (i * nc + j + 1) seed < 2 ^ 63)%N).
Proof.
  unfold proceduralTestMatrix. destruct (boolMatrix_ok nr nc seed) as (m & E & HR & Hm).
  rewrite E. cbn [bind fst snd applyRandomMatrixSparsityKind].
  destruct (sparsity_from m nr nc HR) as (s & Es & Hs & Hrm & Hin).
  destruct (makeSparseEntriesFromBoolMatrix nr nc m) as [es|]; [|discriminate Es]. cbn [bind] in *.
  rewrite Es. cbn [bind]. exists s. split; [reflexivity|]. split; [auto|]. split; auto.
  intros i j Hi Hj. rewrite Hin, Hm by auto. apply N.ltb_lt.
Qed.

Theorem matrix_symmetric seed n :
  exists s, proceduralTestMatrix seed n n SymmetricSparsity = Ok (s, draws (n * n) seed) /\
    spOf s n n /\ rowMajor (entries s) /\
    (forall i, i < n -> In (i, i) (entries s)) /\
    (forall i j, In (i, j) (entries s) -> j <= i) /\
    forall i j, j < i -> i < n ->
      (In (i, j) (entries s) <-> (draws (i * n + j + 1) seed < 2 ^ 63)%N).
Proof.
  unfold proceduralTestMatrix. destruct (boolMatrix_ok n n seed) as (m0 & E & HR0 & Hm0).
  rewrite E. cbn [bind fst snd].
  destruct (symmetricKind_ok n m0 HR0) as (m & Ek & HR & Hm). rewrite Ek. cbn [bind].
  destruct (sparsity_from m n n HR) as (s & Es & Hs & Hrm & Hin).
  destruct (makeSparseEntriesFromBoolMatrix n n m) as [es|]; [|discriminate Es]. cbn [bind] in *.
  rewrite Es. cbn [bind]. exists s. split; [reflexivity|]. split; [auto|]. split; auto.
  split; [|split].
  - intros i Hi. apply Hin; auto. rewrite Hm, Nat.eqb_refl by auto. auto.
  - intros i j Hij. destruct (sp_wf _ _ _ Hs i j Hij) as [Hi Hj]. apply Hin in Hij; auto.
    rewrite Hm in Hij by auto.
    destruct (Nat.eqb_spec i j); [lia|]. destruct (Nat.ltb_spec i j); [discriminate|lia].
  - intros i j Hij Hi. rewrite Hin, Hm by lia.
    destruct (Nat.eqb_spec i j); [lia|]. destruct (Nat.ltb_spec i j); [lia|].
    rewrite Hm0 by lia. apply N.ltb_lt.
Qed.

(** ** Small permutations *)

Lemma mod2_odd v : N.to_nat (v mod N.of_nat 2) = if N.odd v then 1 else 0.
Proof.
  change (N.of_nat 2) with 2%N. rewrite <- N.bit0_mod, N.bit0_odd. destruct (N.odd v); reflexivity.
Qed.
Lemma mod1 v : N.to_nat (v mod N.of_nat 1) = 0.
Proof. change (N.of_nat 1) with 1%N. rewrite N.mod_1_r. reflexivity. Qed.

Theorem permutation_two seed : proceduralTestPermutation seed 2 = Ok ([0; 1], draws 1 seed).
Proof.
  unfold proceduralTestPermutation, shuffle, iota_perm. cbn [length seq foldM].
  unfold uniformInt. cbn [subw Nat.leb Nat.sub Nat.eqb c_assert bind].
  rewrite N.sub_0_r, mod1. cbn [Nat.add Nat.eqb]. reflexivity.
Qed.

Theorem permutation_three seed :
  proceduralTestPermutation seed 3 =
    Ok (if N.odd (draws 1 seed) then [1; 0; 2] else [0; 1; 2], draws 2 seed).
Proof.
  unfold proceduralTestPermutation, shuffle, iota_perm. cbn [length seq foldM].
  unfold uniformInt. cbn [subw Nat.leb Nat.sub Nat.eqb c_assert bind].
  rewrite !N.sub_0_r, mod2_odd. cbn [draws].
  destruct (N.odd (lcgNext seed)); cbn [Nat.add Nat.eqb rd nth_error wr Nat.ltb Nat.leb length upd bind];
    cbn [subw Nat.leb Nat.sub Nat.eqb c_assert bind];
    rewrite ?N.sub_0_r, ?mod1; cbn [Nat.add Nat.eqb bind]; reflexivity.
Qed.

(** ** Random systems *)

Lemma any_ok seed nr nc : exists s g, proceduralTestMatrix seed nr nc AnySparsity = Ok (s, g) /\ spOf s nr nc.
Proof. destruct (matrix_any seed nr nc) as (s & E & H & _). eauto. Qed.
Lemma symm_ok seed n : exists s g, proceduralTestMatrix seed n n SymmetricSparsity = Ok (s, g) /\ spOf s n n.
Proof. destruct (matrix_symmetric seed n) as (s & E & H & _). eauto. Qed.

Ltac next_any :=
  match goal with |- context [proceduralTestMatrix ?g ?r ?c AnySparsity] =>
    let s := fresh "s" in let g' := fresh "g" in let E := fresh "E" in let H := fresh "H" in
    destruct (any_ok g r c) as (s & g' & E & H); rewrite E; cbn [bind fst snd] end.
Ltac next_sym :=
  match goal with |- context [proceduralTestMatrix ?g ?r ?c SymmetricSparsity] =>
    let s := fresh "s" in let g' := fresh "g" in let E := fresh "E" in let H := fresh "H" in
    destruct (symm_ok g r) as (s & g' & E & H); rewrite E; cbn [bind fst snd] end.
Ltac next_perm :=
  match goal with |- context [proceduralTestPermutation ?g ?r] =>
    let s := fresh "p" in let g' := fresh "g" in let E := fresh "E" in let H := fresh "H" in
    destruct (permutation_valid g r) as (s & g' & E & H); rewrite E; cbn [bind fst snd] end.

Theorem random_tridiagonal seed dim :
  exists A B p, randomTridiagonal seed dim = Ok (A, B, p) /\
    spOf A dim dim /\ spOf B dim dim /\ validPerm dim p.
Proof.
  unfold randomTridiagonal. next_sym. next_any. next_perm.
  eexists _, _, _. split; [reflexivity|]. auto.
Qed.

Theorem random_arrow seed ds dt dl dO :
  exists s k, randomArrow seed ds dt dl dO = Ok s /\ arrowDims s ds dt dl dO /\ arrowBlocks s = Ok k.
Proof.
  unfold randomArrow. next_sym. next_any. next_any. next_sym. next_any. next_any. next_sym.
  next_any. next_any. next_sym. next_perm. next_perm. next_perm. next_perm.
  match goal with |- exists s k, Ok ?x = Ok s /\ _ =>
    assert (HD : arrowDims x ds dt dl dO); [|destruct (arrowBlocks_ok x ds dt dl dO HD) as (k & P & Ek & _);
      exists x, k; auto] end.
  constructor; cbn [as_start as_tri as_link as_outer ss_diag ss_next ss_outer ss_perm st_diag st_subdiag
    st_perm sl_prev sl_diag sl_next sl_perm so_subdiag so_diag so_perm]; auto.
Qed.

Lemma upper_bound_never :
  exists a b, a < b /\ forall g v g', uniformInt a b g = Ok (v, g') -> v <> b.
Proof.
  exists 0, 1. split; [lia|]. intros g v g' E.
  destruct (uniformInt_range 0 1 g ltac:(lia)) as (v' & g'' & E' & _ & H & _).
  rewrite E' in E. injection E as <- <-. lia.
Qed.

Lemma all_permutations_never :
  exists dim p, validPerm dim p /\ forall seed g, proceduralTestPermutation seed dim <> Ok (p, g).
Proof.
  exists 2, [1; 0]. split.
  - split; [reflexivity|]. split.
    + repeat constructor; cbn; intuition lia.
    + cbn. intuition lia.
  - intros seed g. rewrite permutation_two. discriminate.
Qed.

Lemma permutation_three_parity seed :
  proceduralTestPermutation seed 3 =
    Ok (if N.odd seed then [0; 1; 2] else [1; 0; 2], draws 2 seed).
Proof.
  rewrite permutation_three. cbn [draws]. rewrite draws_parity. destruct (N.odd seed); reflexivity.
Qed.
