(** Different scalar types for input, factor and vectors. *)
From Coq Require Import Reals Lra Lia List Arith Bool.
From Verif Require Import Base ModelPerm ModelSparsity ModelSymbolic ModelNumeric ModelArrow ModelReg ModelMixed.
From Verif Require Import SpecSymbolic SpecArrow SpecNumeric SpecArrowNum SpecReg SpecRound SpecMixed.
From Verif Require Import ProofBase ProofExact ProofLdl ProofPropArrow ProofRound ProofRoundMain ProofRoundUser ProofRoundTri.
Import ListNotations.
Local Open Scope nat_scope.

Section CastLaws.
  Context {F G : Type} (O : ops F) (P : ops G) (c : F -> G) (C0 : c (o0 O) = o0 P).

  Lemma firstValue_map es vals i j :
    firstValue P (combine es (map c vals)) i j = c (firstValue O (combine es vals) i j).
  Proof.
    revert vals. induction es as [|[r k] es IH]; intros [|v vals]; cbn [combine map firstValue]; auto.
    destruct (_ && _); auto.
  Qed.
  Lemma denseAt_map es vals i j : denseAt P es (map c vals) i j = c (denseAt O es vals i j).
  Proof. apply firstValue_map. Qed.
  Lemma symAt_map es vals i j : symAt P es (map c vals) i j = c (symAt O es vals i j).
  Proof. apply firstValue_map. Qed.
  Lemma vecAt_map v i : vecAt P (map c v) i = c (vecAt O v i).
  Proof. unfold vecAt. rewrite <- C0. apply map_nth. Qed.
  Lemma unitAt_map one one' es vals i j : c one = one' ->
    unitAt P one' es (map c vals) i j = c (unitAt O one es vals i j).
  Proof. intros H. unfold unitAt. destruct (i =? j); auto. apply denseAt_map. Qed.

  Lemma castMat_input m a vals : inputOf O m a vals -> inputOf P (castMat c m) a (map c vals).
  Proof.
    intros [I1 I2 I3]. constructor; auto; rewrite map_length; auto.
    intros k Hk. cbn [castMat m_val]. rewrite I3 by auto. cbn [bind]. rewrite <- C0, map_nth. auto.
  Qed.
  Lemma castMat_of m nr nc vals : matOf O m nr nc vals -> matOf P (castMat c m) nr nc (map c vals).
  Proof. intros [H1 H2]. split; auto. apply castMat_input. auto. Qed.
  Lemma castMat_nth t (l : list (mat (F:=F))) : nth t (map (castMat c) l) noMat = castMat c (nth t l noMat).
  Proof. change (@noMat G) with (castMat c noMat). apply map_nth. Qed.
  Lemma map_nth' t (l : list (list F)) : nth t (map (map c) l) [] = map c (nth t l []).
  Proof. change (@nil G) with (map c []). apply map_nth. Qed.
  Lemma pair_nth t (l : list (list F * list F)) : nth t (map (castFactor c) l) ([], []) = castFactor c (nth t l ([], [])).
  Proof. change (@nil G, @nil G) with (castFactor c ([], [])). apply map_nth. Qed.

  Lemma castArrow_input n ds dt dl dO m w : inputArrow O n ds dt dl dO m w ->
    inputArrow P n ds dt dl dO (castArrowMat c m) (castVals c w).
  Proof.
    intros I. destruct I. constructor; cbn [castArrowMat castVals a_sd a_sn a_so a_td a_ts
      a_lp a_ld a_ln a_os a_od w_sd w_sn w_so w_td w_ts w_lp w_ld w_ln w_os w_od]; try rewrite map_length; auto using castMat_of;
      intros; rewrite castMat_nth, map_nth'; auto using castMat_of.
  Qed.
  Lemma castArrow_declared s n m : declaredArrow s n m -> declaredArrow s n (castArrowMat c m).
  Proof.
    intros D. destruct D. constructor; cbn [castArrowMat a_sd a_sn a_so a_td a_ts
      a_lp a_ld a_ln a_os a_od]; auto; intros t Ht; rewrite castMat_nth; cbn [castMat m_sp].
    - exact (da_td t Ht).
    - exact (da_ts t Ht).
    - exact (da_os t Ht).
  Qed.
  Lemma castTri_input n dt A B wA wB : inputTri O n dt A B wA wB ->
    inputTri P n dt (map (castMat c) A) (map (castMat c) B) (map (map c) wA) (map (map c) wB).
  Proof.
    intros []. constructor; try rewrite map_length; auto;
      intros; rewrite castMat_nth, map_nth'; auto using castMat_of.
  Qed.
  Lemma castTri_declared a b n A B : declaredTri a b n A B ->
    declaredTri a b n (map (castMat c) A) (map (castMat c) B).
  Proof.
    intros [H1 H2]. split; intros t Ht; rewrite castMat_nth; [exact (H1 t Ht)|exact (H2 t Ht)].
  Qed.
  Lemma castData_of k n ds dt dl dO d : dataOf k n ds dt dl dO d -> dataOf k n ds dt dl dO (castData c d).
  Proof.
    intros D. destruct D. constructor; cbn [castData castFactor d_sd d_sn d_so d_td d_ts d_lp d_ld d_ln d_os d_od fst snd];
      rewrite ?map_length; auto; intros t Ht; rewrite ?pair_nth, ?map_nth'; cbn [castFactor fst snd];
      rewrite ?map_length; auto.
  Qed.

  Lemma symArrow_map n f f' g h :
    (forall i j, f_sd f' i j = c (f_sd f i j)) -> (forall i j, f_sn f' i j = c (f_sn f i j)) ->
    (forall i j, f_so f' i j = c (f_so f i j)) -> (forall t i j, f_td f' t i j = c (f_td f t i j)) ->
    (forall t i j, f_ts f' t i j = c (f_ts f t i j)) -> (forall i j, f_lp f' i j = c (f_lp f i j)) ->
    (forall i j, f_ld f' i j = c (f_ld f i j)) -> (forall i j, f_ln f' i j = c (f_ln f i j)) ->
    (forall t i j, f_os f' t i j = c (f_os f t i j)) -> (forall i j, f_od f' i j = c (f_od f i j)) ->
    symArrow P n f' g h = c (symArrow O n f g h) /\ lowArrow P n f' g h = c (lowArrow O n f g h).
  Proof.
    intros. split; destruct g, h; cbn [symArrow lowArrow];
      repeat (match goal with |- context [if ?b then _ else _] => destruct b end); auto.
  Qed.

  Lemma matAt_map m w g h : matAt P (castArrowMat c m) (castVals c w) g h = c (matAt O m w g h).
  Proof.
    unfold matAt. cbn [castArrowMat a_ts]. rewrite map_length. apply symArrow_map; intros;
      cbn [matFun f_sd f_sn f_so f_td f_ts f_lp f_ld f_ln f_os f_od castArrowMat castVals a_sd a_sn a_so a_td a_ts
      a_lp a_ld a_ln a_os a_od w_sd w_sn w_so w_td w_ts w_lp w_ld w_ln w_os w_od];
      rewrite ?castMat_nth, ?map_nth'; cbn [castMat m_sp]; first [apply symAt_map|apply denseAt_map].
  Qed.
  Lemma triMatAt_map A B wA wB t i u j :
    triMatAt P (map (castMat c) A) (map (castMat c) B) (map (map c) wA) (map (map c) wB) t i u j =
    c (triMatAt O A B wA wB t i u j).
  Proof.
    unfold triMatAt, triAt.
    repeat (match goal with |- context [if ?b then _ else _] => destruct b end);
      rewrite ?castMat_nth, ?map_nth'; cbn [castMat m_sp]; first [apply symAt_map|apply denseAt_map|auto].
  Qed.
  Lemma factorAt_map k d g h : factorAt P (o0 P) k (castData c d) g h = c (factorAt O (o0 O) k d g h).
  Proof.
    unfold factorAt. cbn [castData d_ts]. rewrite map_length. apply symArrow_map; intros;
      cbn [factorFun f_sd f_sn f_so f_td f_ts f_lp f_ld f_ln f_os f_od castData
      d_sd d_sn d_so d_td d_ts d_lp d_ld d_ln d_os d_od];
      rewrite ?pair_nth, ?map_nth'; cbn [castFactor fst snd]; first [apply denseAt_map|apply unitAt_map; auto].
  Qed.
  Lemma pivotAt_map d g : pivotAt P (castData c d) g = c (pivotAt O d g).
  Proof.
    destruct g; cbn [pivotAt castData d_sd d_td d_ld d_od]; rewrite ?pair_nth; cbn [castFactor snd]; apply vecAt_map.
  Qed.
End CastLaws.

Local Open Scope R_scope.
Local Notation rsum := (suml Or).

Lemma near_dist u eta x y : near u eta x y -> Rabs (x - y) <= u * Rabs x + eta.
Proof.
  intros (d & e & Hd & He & ->). replace (x - (x * (1 + d) + e)) with (-(d * x) + - e) by ring.
  eapply Rle_trans; [apply Rabs_triang|]. rewrite !Rabs_Ropp, Rabs_mult.
  apply Rplus_le_compat; auto. apply Rmult_le_compat_r; auto. apply Rabs_pos.
Qed.

(** replacing the matrix by a nearby one *)
Lemma residual_change {I} (all : list I) (A A' E x : I -> R) b B :
  (forall h, In h all -> Rabs (A h - A' h) <= E h) ->
  Rabs (b - rsum all (fun h => A' h * x h)) <= B ->
  Rabs (b - rsum all (fun h => A h * x h)) <= B + rsum all (fun h => E h * Rabs (x h)).
Proof.
  intros HE HB.
  replace (b - rsum all (fun h => A h * x h)) with
    ((b - rsum all (fun h => A' h * x h)) + rsum all (fun h => (A' h - A h) * x h)).
  - eapply Rle_trans; [apply Rabs_triang|]. apply Rplus_le_compat; auto.
    eapply Rle_trans; [apply rsum_abs|]. apply rsum_le. intros h Hh. rewrite Rabs_mult.
    apply Rmult_le_compat_r; [apply Rabs_pos|]. rewrite Rabs_minus_sym. auto.
  - rewrite (rsum_ext all (fun h => (A' h - A h) * x h) (fun h => A' h * x h + (-1) * (A h * x h))) by (intros; ring).
    rewrite (rsum_plus all (fun h => A' h * x h) (fun h => (-1) * (A h * x h))), (rsum_scal all (-1) (fun h => A h * x h)).
    ring.
Qed.

Section Main.
  Context {I F G : Type} (OI : ops I) (O : ops F) (P : ops G) (castI : I -> F) (castF : F -> G).
  Context (valI : I -> R) (fin : F -> Prop) (val : F -> R) (fin' : G -> Prop) (val' : G -> R).
  Context (finI : I -> Prop) (u eta u' eta' : R).
  Hypothesis RO : rounding O fin val u eta.
  Hypothesis RP : rounding P fin' val' u' eta'.
  Hypothesis CI0 : castI (o0 OI) = o0 O.
  Hypothesis CF0 : castF (o0 O) = o0 P.
  Hypothesis CI : roundedCast finI valI fin val u eta castI.
  Hypothesis CF : exactCast fin val fin' val' castF.

  Lemma cast_dist v : fin (castI v) -> Rabs (valI v - val (castI v)) <= u * Rabs (valI v) + eta.
  Proof. intros H. apply near_dist. apply CI. auto. Qed.

  Lemma mixed_single s n p b :
    spOf s n n -> validPerm n p -> factorizationBlk s p = Ok b ->
    forall mt a vals m L0 D0 L D rhs cc,
    spOf a n n -> inputOf OI m a vals -> coveredSym (entries a) (entries s) n p ->
    length L0 = c_nnz (b_sp b) -> length D0 = n ->
    factorizeMixed castI O mt b m regularizationNone (L0, D0) = Ok (L, D) ->
    (forall v, In v vals -> fin (castI v)) ->
    (forall v, In v L -> fin v) -> (forall v, In v D -> fin v) -> length rhs = n ->
    let es := c_entries (b_sp b) in
    (forall j, (j < n)%nat -> (colCount es j <= cc)%nat) ->
    exists x, solveInPlaceMixed castF P b (L, D) rhs = Ok x /\ length x = n /\
      ((forall v, In v x -> fin' v) -> forall i, (i < n)%nat ->
       let U := unitL O val es L in
       let V := fun k => val (vecAt O D k) in
       let A := fun c => valI (symAt OI (entries a) vals (nth i p 0%nat) c) in
       let xp := fun j => val' (vecAt P x (nth j p 0%nat)) in
       Rabs (val' (vecAt P rhs (nth i p 0%nat)) -
             rsum (seq 0 n) (fun c => A c * val' (vecAt P x c))) <=
       solveBound (seq 0 n) U V u' eta' (rowCount es i) cc xp i +
       rsum (seq 0 n) (fun j => factorBound (seq 0 n) U V u eta (rowCount es i) i j * Rabs (xp j)) +
       rsum (seq 0 n) (fun c => (u * Rabs (A c) + eta) * Rabs (val' (vecAt P x c)))).
  Proof.
    intros HS HP HB mt a vals m L0 D0 L D rhs cc SA IA CV HL0 HD0 EF FI FL FD HR es HC.
    pose proof (castMat_input OI O castI CI0 m a vals IA) as IA'.
    pose proof (single_factor_none O fin val u eta RO s n p b HS HP HB mt a (map castI vals) (castMat castI m) L0 D0 L D
      SA IA' CV HL0 HD0 EF FL FD) as HF.
    destruct (single_any O s n p HS HP) as (b' & EB & HA & _).
    rewrite HB in EB. injection EB as <-.
    destruct (HA mt a (map castI vals) (castMat castI m) regularizationNone L0 D0 SA IA' CV HL0 HD0) as (L1 & D1 & EF1 & HL & HD).
    unfold factorizeMixed in EF. rewrite EF in EF1. injection EF1 as <- <-.
    assert (FD' : forall v, In v (map castF D) -> fin' v).
    { intros v Hv. apply in_map_iff in Hv. destruct Hv as (w & <- & Hw). apply CF. auto. }
    destruct (single_solve_rounding P fin' val' u' eta' RP s n p b HS HP HB (map castF L) (map castF D) rhs cc)
      as (x & ES & HX & HB'); rewrite ?map_length; auto.
    exists x. split; auto. split; auto. intros FX i Hi U V A xp.
    specialize (HB' FX i Hi).
    assert (HU : forall g h, In g (seq 0 n) -> In h (seq 0 n) -> unitL P val' es (map castF L) g h = U g h).
    { intros g h _ _. unfold U, unitL, unitOf. destruct (Nat.eq_dec g h); auto.
      rewrite (denseAt_map O P castF CF0). apply CF.
      clear - FL RO. unfold denseAt. revert L FL. induction es as [|[r k] es' IH]; intros [|v L] FL; cbn [combine firstValue]; try apply RO.
      destruct (_ && _); [apply FL; left; auto|]. apply IH. intros; apply FL; right; auto. }
    assert (HV : forall g, In g (seq 0 n) -> val' (vecAt P (map castF D) g) = V g).
    { intros g Hg. rewrite (vecAt_map O P castF CF0). apply CF. apply FD. apply in_seq in Hg.
      unfold vecAt. apply nth_In. lia. }
    assert (Ii : In i (seq 0 n)) by (apply in_seq; lia).
    rewrite (solveBound_ext (seq 0 n) _ U _ V HU HV u' eta' (rowCount es i) cc _ xp i Ii) in HB' by auto.
    assert (R1' : Rabs (val' (vecAt P rhs (nth i p 0%nat)) -
      rsum (seq 0 n) (fun j => val (castI (symAt OI (entries a) vals (nth i p 0%nat) (nth j p 0%nat))) * xp j)) <=
      solveBound (seq 0 n) U V u' eta' (rowCount es i) cc xp i +
      rsum (seq 0 n) (fun h => factorBound (seq 0 n) U V u eta (rowCount es i) i h * Rabs (xp h))).
    { apply residual_change with (2 := HB'). intros h Hh.
      fold es. rewrite (prodAt_ext (seq 0 n) _ U _ V HU HV i h Ii Hh).
      apply in_seq in Hh. rewrite <- (symAt_map OI O castI CI0). apply HF; lia. }
    unfold xp at 1 in R1'.
    rewrite (rsum_perm n p (fun c => val (castI (symAt OI (entries a) vals (nth i p 0%nat) c)) * val' (vecAt P x c)))
      in R1' by (apply ProofArrowSym.validPerm_isPerm; auto).
    apply residual_change with (2 := R1').
    intros c Hc. apply cast_dist. unfold symAt, denseAt.
    clear - FI CI0 RO. revert vals FI. generalize (entries a) as l.
    induction l as [|[r k] l IH]; intros [|v vals] FI; cbn [combine firstValue]; try (rewrite CI0; apply RO).
    destruct (_ && _); [apply FI; left; auto|]. apply IH. intros; apply FI; right; auto.
  Qed.

  Lemma mixed_core s ds dt dl dO k n :
    arrowDims s ds dt dl dO -> arrowBlocks s = Ok k ->
    forall (M : gidx -> gidx -> I) d rhs cc,
    dataOf k n ds dt dl dO d ->
    let all := allIdx n ds dt dl dO in
    let U := unitG O val k d in
    let V := fun g => val (pivotAt O d g) in
    (forall g h, In g all -> In h all ->
       Rabs (val (castI (M (permIdx s g) (permIdx s h))) - prodAt all U V g h) <=
       factorBound all U V u eta (rowCountG k n g) g h) ->
    (forall g h, In g all -> In h all -> fin (castI (M g h))) ->
    (forall g h, In g all -> In h all -> fin (factorAt O (o0 O) k d g h)) ->
    (forall g, In g all -> fin (pivotAt O d g)) ->
    vecOf n ds dt dl dO rhs ->
    (forall g, In g all -> (colCountG k n g <= cc)%nat) ->
    exists x, arrowSolveInPlaceMixed castF P k d rhs = Ok x /\ vecOf n ds dt dl dO x /\
      ((forall g, In g all -> fin' (gvecAt P x g)) -> forall g, In g all ->
       let A := fun c => valI (M (permIdx s g) c) in
       let xp := fun h => val' (gvecAt P x (permIdx s h)) in
       Rabs (val' (gvecAt P rhs (permIdx s g)) - rsum all (fun c => A c * val' (gvecAt P x c))) <=
       solveBound all U V u' eta' (rowCountG k n g) cc xp g +
       rsum all (fun h => factorBound all U V u eta (rowCountG k n g) g h * Rabs (xp h)) +
       rsum all (fun c => (u * Rabs (A c) + eta) * Rabs (val' (gvecAt P x c)))).
  Proof.
    intros HD HK M d rhs cc DO' all U V HF FI FL FD HR HC.
    destruct (arrow_solve_rounding P fin' val' u' eta' RP s ds dt dl dO k n HD HK (castData castF d) rhs cc)
      as (x & ES & HX & HB'); auto.
    { apply castData_of. auto. }
    { intros g Hg. rewrite (pivotAt_map O P castF CF0). apply CF. auto. }
    exists x. split; auto. split; auto. intros FX g Hg A xp.
    specialize (HB' FX g Hg).
    assert (HU : forall g h, In g all -> In h all -> unitG P val' k (castData castF d) g h = U g h).
    { intros g1 h1 Hg1 Hh1. unfold U, unitG, unitOf. destruct (gidx_eq_dec g1 h1); auto.
      rewrite (factorAt_map O P castF CF0). apply CF. auto. }
    assert (HV : forall g, In g all -> val' (pivotAt P (castData castF d) g) = V g).
    { intros g1 Hg1. rewrite (pivotAt_map O P castF CF0). apply CF. auto. }
    fold all in HB'.
    rewrite (solveBound_ext all _ U _ V HU HV u' eta' (rowCountG k n g) cc _ xp g Hg) in HB' by auto.
    assert (R1 : Rabs (val' (gvecAt P rhs (permIdx s g)) -
      rsum all (fun h => val (castI (M (permIdx s g) (permIdx s h))) * xp h)) <=
      solveBound all U V u' eta' (rowCountG k n g) cc xp g +
      rsum all (fun h => factorBound all U V u eta (rowCountG k n g) g h * Rabs (xp h))).
    { apply residual_change with (2 := HB'). intros h Hh.
      rewrite (prodAt_ext all _ U _ V HU HV g h Hg Hh). apply HF; auto. }
    unfold xp at 1 in R1.
    unfold all in R1 at 1.
    rewrite (gvec_perm s ds dt dl dO n HD (fun c => val (castI (M (permIdx s g) c)) * val' (gvecAt P x c)))
      in R1.
    apply residual_change with (2 := R1).
    intros c Hc. apply cast_dist. apply FI; auto.
    apply ProofArrowMain.permIdx_in; auto.
  Qed.

  Lemma mixed_arrow s ds dt dl dO k n :
    arrowDims s ds dt dl dO -> arrowBlocks s = Ok k ->
    forall mt m w d0 d rhs cc,
    inputArrow OI n ds dt dl dO m w -> declaredArrow s n m -> dataOf k n ds dt dl dO d0 ->
    arrowFactorizeMixed castI O mt k m regularizationNone d0 = Ok d ->
    let all := allIdx n ds dt dl dO in
    (forall g h, In g all -> In h all -> fin (castI (matAt OI m w g h))) ->
    (forall g h, In g all -> In h all -> fin (factorAt O (o0 O) k d g h)) ->
    (forall g, In g all -> fin (pivotAt O d g)) ->
    vecOf n ds dt dl dO rhs ->
    (forall g, In g all -> (colCountG k n g <= cc)%nat) ->
    exists x, arrowSolveInPlaceMixed castF P k d rhs = Ok x /\ vecOf n ds dt dl dO x /\
      ((forall g, In g all -> fin' (gvecAt P x g)) -> forall g, In g all ->
       let U := unitG O val k d in
       let V := fun g => val (pivotAt O d g) in
       let A := fun c => valI (matAt OI m w (permIdx s g) c) in
       let xp := fun h => val' (gvecAt P x (permIdx s h)) in
       Rabs (val' (gvecAt P rhs (permIdx s g)) - rsum all (fun c => A c * val' (gvecAt P x c))) <=
       solveBound all U V u' eta' (rowCountG k n g) cc xp g +
       rsum all (fun h => factorBound all U V u eta (rowCountG k n g) g h * Rabs (xp h)) +
       rsum all (fun c => (u * Rabs (A c) + eta) * Rabs (val' (gvecAt P x c)))).
  Proof.
    intros HD HK mt m w d0 d rhs cc IA DA DO EF all FI FL FD HR HC.
    pose proof (castArrow_input OI O castI CI0 n ds dt dl dO m w IA) as IA'.
    pose proof (castArrow_declared castI s n m DA) as DA'.
    unfold arrowFactorizeMixed in EF.
    pose proof (arrow_factor_none O fin val u eta RO s ds dt dl dO k n HD HK mt _ _ d0 d IA' DA' DO EF FL FD) as HF.
    destruct (arrow_any O s ds dt dl dO HD) as (k' & EK & _ & HA & _). rewrite HK in EK. injection EK as <-.
    destruct (HA mt n _ _ regularizationNone d0 IA' DA' DO) as (d1 & EF1 & DO').
    rewrite EF in EF1. injection EF1 as <-. clear HA.
    apply (mixed_core s ds dt dl dO k n HD HK (matAt OI m w) d rhs cc DO'); auto.
    intros g h Hg Hh. rewrite <- (matAt_map OI O castI CI0). apply HF; auto.
  Qed.

  Lemma mixed_tri a b p dt n k :
    spOf a dt dt -> spOf b dt dt -> validPerm dt p -> tridiagonalBlocks a b p = Ok k ->
    forall mt A B wA wB d0 d rhs cc,
    inputTri OI n dt A B wA wB -> declaredTri a b n A B -> dataOf k n 0 dt 0 0 d0 ->
    tridiagonalFactorizeMixed castI O mt k dt A B regularizationNone d0 = Ok d ->
    let all := allIdx n 0 dt 0 0 in
    (forall t i t' j, (t < n + 1)%nat -> (i < dt)%nat -> (t' < n + 1)%nat -> (j < dt)%nat ->
       fin (castI (triMatAt OI A B wA wB t i t' j))) ->
    (forall g h, In g all -> In h all -> fin (factorAt O (o0 O) k d g h)) ->
    (forall g, In g all -> fin (pivotAt O d g)) ->
    blocksOf n dt rhs ->
    (forall g, In g all -> (colCountG k n g <= cc)%nat) ->
    exists x, tridiagonalSolveInPlaceMixed castF P k d rhs = Ok x /\ blocksOf n dt x /\
      ((forall t i, (t < n + 1)%nat -> (i < dt)%nat -> fin' (vecAt P (nth t x []) i)) ->
       forall t i, (t < n + 1)%nat -> (i < dt)%nat ->
       let U := unitG O val k d in
       let V := fun g => val (pivotAt O d g) in
       let M := fun t' j => valI (triMatAt OI A B wA wB t (nth i p 0%nat) t' j) in
       let X := fun t' j => val' (vecAt P (nth t' x []) j) in
       let xp := fun h => val' (gvecAt P (mkAV [] x [] []) (permIdx (tridiagonalSparsity a b p) h)) in
       Rabs (val' (vecAt P (nth t rhs []) (nth i p 0%nat)) -
             sumn Or (n + 1) (fun t' => sumn Or dt (fun j => M t' j * X t' j))) <=
       solveBound all U V u' eta' (rowCountG k n (GT t i)) cc xp (GT t i) +
       rsum all (fun h => factorBound all U V u eta (rowCountG k n (GT t i)) (GT t i) h * Rabs (xp h)) +
       sumn Or (n + 1) (fun t' => sumn Or dt (fun j => (u * Rabs (M t' j) + eta) * Rabs (X t' j)))).
  Proof.
    intros SA SB HP HK mt A B wA wB d0 d rhs cc IT DT DO EF all FI FL FD HV HC.
    pose proof (castTri_input OI O castI CI0 n dt A B wA wB IT) as IT'.
    pose proof (castTri_declared castI a b n A B DT) as DT'.
    unfold tridiagonalFactorizeMixed in EF.
    pose proof (tri_factor_none O fin val u eta RO a b p dt n k SA SB HP HK mt _ _ _ _ d0 d IT' DT' DO EF FL FD) as HF.
    destruct (tri_any O a b p dt SA SB HP) as (k' & EK & _ & HA & _). rewrite HK in EK. injection EK as <-.
    destruct (HA mt n _ _ _ _ regularizationNone d0 IT' DT' DO) as (d1 & EF1 & DO').
    rewrite EF in EF1. injection EF1 as <-. clear HA.
    destruct (mixed_core (tridiagonalSparsity a b p) 0 dt 0 0 k n (tri_dims a b p dt SA SB HP)
      (tri_k a b p dt k SA SB HK)
      (fun g h => match g, h with GT t i, GT t' j => triMatAt OI A B wA wB t i t' j | _, _ => o0 OI end)
      d (mkAV [] rhs [] []) cc DO') as (y & ES & VY & HY); auto.
    { intros g h Hg Hh. apply in_tri in Hg, Hh.
      destruct Hg as (t & i & -> & Ht & Hi), Hh as (t' & j & -> & Ht' & Hj). cbn [permIdx].
      rewrite <- (triMatAt_map OI O castI CI0). apply HF; auto. }
    { intros g h Hg Hh. apply in_tri in Hg, Hh.
      destruct Hg as (t & i & -> & Ht & Hi), Hh as (t' & j & -> & Ht' & Hj). auto. }
    { apply tri_vec; auto. }
    exists (v_tri y). unfold tridiagonalSolveInPlaceMixed, tridiagonalSolveInPlace.
    unfold arrowSolveInPlaceMixed in ES. rewrite ES. split; auto.
    assert (Ey : y = mkAV [] (v_tri y) [] []).
    { destruct y as [y1 y2 y3 y4], VY as [V1 V2 V3 V4 V5]. cbn [v_start v_tri v_link v_outer] in *.
      destruct y1, y3, y4; cbn in V1, V4, V5; try lia. auto. }
    split; [split; apply VY|].
    intros HX t i Ht Hi. cbv zeta. rewrite <- Ey.
    assert (HX' : forall g, In g all -> fin' (gvecAt P y g)).
    { intros g Hg. apply in_tri in Hg. destruct Hg as (t' & j & -> & Ht' & Hj). rewrite Ey. apply HX; auto. }
    assert (Hg : In (GT t i) all) by (apply in_tri; eauto).
    specialize (HY HX' (GT t i) Hg). cbv zeta in HY.
    rewrite (tri_sum dt n (fun c => _ * val' (gvecAt P y c))) in HY.
    rewrite (tri_sum dt n (fun c => _ * Rabs (val' (gvecAt P y c)))) in HY. exact HY.
  Qed.

  Lemma via_cast v q e : fin (castI v) -> Rabs (val (castI v) - q) <= e ->
    Rabs (valI v - q) <= e + (u * Rabs (valI v) + eta).
  Proof.
    intros H1 H2. replace (valI v - q) with ((val (castI v) - q) + (valI v - val (castI v))) by ring.
    eapply Rle_trans; [apply Rabs_triang|]. pose proof (cast_dist v H1). lra.
  Qed.

  Lemma mixed_factor_single s n p b :
    spOf s n n -> validPerm n p -> factorizationBlk s p = Ok b ->
    forall mt a vals m L0 D0 L D,
    spOf a n n -> inputOf OI m a vals -> coveredSym (entries a) (entries s) n p ->
    length L0 = c_nnz (b_sp b) -> length D0 = n ->
    factorizeMixed castI O mt b m regularizationNone (L0, D0) = Ok (L, D) ->
    (forall v, In v vals -> fin (castI v)) ->
    (forall v, In v L -> fin v) -> (forall v, In v D -> fin v) ->
    forall i j, (i < n)%nat -> (j < n)%nat ->
    let es := c_entries (b_sp b) in
    let U := unitL O val es L in
    let V := fun k => val (vecAt O D k) in
    let A := valI (symAt OI (entries a) vals (nth i p 0%nat) (nth j p 0%nat)) in
    Rabs (A - prodAt (seq 0 n) U V i j) <=
    factorBound (seq 0 n) U V u eta (rowCount es i) i j + (u * Rabs A + eta).
  Proof.
    intros HS HP HB mt a vals m L0 D0 L D SA IA CV HL0 HD0 EF FI FL FD i j Hi Hj es U V A.
    apply via_cast.
    - clear - FI CI0 RO. unfold symAt, denseAt. revert vals FI. generalize (entries a) as l.
      induction l as [|[r k] l IH]; intros [|v vals] FI; cbn [combine firstValue]; try (rewrite CI0; apply RO).
      destruct (_ && _); [apply FI; left; auto|]. apply IH. intros; apply FI; right; auto.
    - rewrite <- (symAt_map OI O castI CI0).
      apply (single_factor_none O fin val u eta RO s n p b HS HP HB mt a (map castI vals) (castMat castI m) L0 D0 L D
        SA (castMat_input OI O castI CI0 m a vals IA) CV HL0 HD0 EF FL FD); auto.
  Qed.

  Lemma mixed_factor_arrow s ds dt dl dO k n :
    arrowDims s ds dt dl dO -> arrowBlocks s = Ok k ->
    forall mt m w d0 d,
    inputArrow OI n ds dt dl dO m w -> declaredArrow s n m -> dataOf k n ds dt dl dO d0 ->
    arrowFactorizeMixed castI O mt k m regularizationNone d0 = Ok d ->
    let all := allIdx n ds dt dl dO in
    (forall g h, In g all -> In h all -> fin (castI (matAt OI m w g h))) ->
    (forall g h, In g all -> In h all -> fin (factorAt O (o0 O) k d g h)) ->
    (forall g, In g all -> fin (pivotAt O d g)) ->
    forall g h, In g all -> In h all ->
    let U := unitG O val k d in
    let V := fun g => val (pivotAt O d g) in
    let A := valI (matAt OI m w (permIdx s g) (permIdx s h)) in
    Rabs (A - prodAt all U V g h) <=
    factorBound all U V u eta (rowCountG k n g) g h + (u * Rabs A + eta).
  Proof.
    intros HD HK mt m w d0 d IA DA DO EF all FI FL FD g h Hg Hh U V A.
    apply via_cast; [apply FI; apply ProofArrowMain.permIdx_in; auto|].
    rewrite <- (matAt_map OI O castI CI0).
    apply (arrow_factor_none O fin val u eta RO s ds dt dl dO k n HD HK mt _ _ d0 d
      (castArrow_input OI O castI CI0 n ds dt dl dO m w IA) (castArrow_declared castI s n m DA) DO EF FL FD); auto.
  Qed.

  Lemma mixed_factor_tri a b p dt n k :
    spOf a dt dt -> spOf b dt dt -> validPerm dt p -> tridiagonalBlocks a b p = Ok k ->
    forall mt A B wA wB d0 d,
    inputTri OI n dt A B wA wB -> declaredTri a b n A B -> dataOf k n 0 dt 0 0 d0 ->
    tridiagonalFactorizeMixed castI O mt k dt A B regularizationNone d0 = Ok d ->
    let all := allIdx n 0 dt 0 0 in
    (forall t i t' j, (t < n + 1)%nat -> (i < dt)%nat -> (t' < n + 1)%nat -> (j < dt)%nat ->
       fin (castI (triMatAt OI A B wA wB t i t' j))) ->
    (forall g h, In g all -> In h all -> fin (factorAt O (o0 O) k d g h)) ->
    (forall g, In g all -> fin (pivotAt O d g)) ->
    forall t i t' j, (t < n + 1)%nat -> (i < dt)%nat -> (t' < n + 1)%nat -> (j < dt)%nat ->
    let U := unitG O val k d in
    let V := fun g => val (pivotAt O d g) in
    let M := valI (triMatAt OI A B wA wB t (nth i p 0%nat) t' (nth j p 0%nat)) in
    Rabs (M - prodAt all U V (GT t i) (GT t' j)) <=
    factorBound all U V u eta (rowCountG k n (GT t i)) (GT t i) (GT t' j) + (u * Rabs M + eta).
  Proof.
    intros SA SB HP HK mt A B wA wB d0 d IT DT DO EF all FI FL FD t i t' j Ht Hi Ht' Hj U V M.
    assert (HN : forall z, (z < dt)%nat -> (nth z p 0 < dt)%nat).
    { intros z Hz. apply HP. apply nth_In. destruct HP as [-> _]. auto. }
    apply via_cast; [apply FI; auto|].
    rewrite <- (triMatAt_map OI O castI CI0).
    apply (tri_factor_none O fin val u eta RO a b p dt n k SA SB HP HK mt _ _ _ _ d0 d
      (castTri_input OI O castI CI0 n dt A B wA wB IT) (castTri_declared castI a b n A B DT) DO EF FL FD); auto.
  Qed.
End Main.
