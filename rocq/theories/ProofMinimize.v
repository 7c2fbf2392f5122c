(** The solutions as minima and saddle points. *)
From Coq Require Import Reals Lra Lia List Arith Bool.
From Verif Require Import Base ModelPerm ModelSparsity ModelSymbolic ModelNumeric ModelArrow ModelReg.
From Verif Require Import SpecSymbolic SpecArrow SpecNumeric SpecArrowNum SpecReg SpecPivot SpecPivotBound SpecMinimize.
From Verif Require Import ProofBase ProofPerm ProofExact ProofLdl ProofMultiply ProofRound ProofDomReal ProofArrowSym ProofArrowDense
  ProofArrowProduct ProofArrowSolve ProofArrowMain ProofPropDominant ProofSingleMain ProofPropSingle
  ProofPropArrow ProofSingle ProofPivot ProofPivotMain ProofPropPivot ProofRegReal ProofLinear ProofRefine ProofPivotBound.
Import ListNotations.
Local Open Scope R_scope.
Local Notation rsum := (suml Or).

Section Points.
  Context {I : Type} (all : list I) (A : I -> I -> R).
  Hypothesis SY : forall g h, In g all -> In h all -> A g h = A h g.
  Local Notation q := (quadForm Or all A).
  Local Notation ax := (ax all A).
  Local Notation dotp := (dotp all).

  Lemma q_plus x d : q (fun g => x g + d g) = q x + 2 * dotp d (ax x) + q d.
  Proof.
    rewrite !(q_dot all A).
    rewrite (dot_ext all _ (fun g => x g + d g) _ (fun g => ax x g + ax d g)) by (auto; intros; apply ax_plus).
    rewrite dot_plus, (dot_sym all _ (ax x)), (dot_sym all _ (ax d)), !dot_plus.
    rewrite (dot_sym all (ax x) x), (dot_sym all (ax x) d), (dot_sym all (ax d) x), (dot_sym all (ax d) d).
    rewrite (ax_sym all A SY x d). lra.
  Qed.

  Lemma objective_diff b x y : (forall g, In g all -> ax x g = b g) ->
    objective all A b y - objective all A b x = q (fun g => y g - x g) / 2.
  Proof.
    intros H. unfold objective. change (rsum all (fun g => b g * y g)) with (dotp b y).
    change (rsum all (fun g => b g * x g)) with (dotp b x).
    rewrite (q_ext all A y (fun g => x g + (y g - x g))) by (intros; lra).
    rewrite q_plus, (dot_ext all _ (fun g => y g - x g) (ax x) b) by auto.
    assert (E : dotp b y = dotp b x + dotp (fun g => y g - x g) b).
    { rewrite (dot_sym all (fun g => y g - x g)), <- dot_plus. apply dot_ext; auto. intros; lra. }
    rewrite E. lra.
  Qed.

  Lemma q_zero z : (forall g, In g all -> z g = 0) -> q z = 0.
  Proof.
    intros H. rewrite (q_dot all A), (dot_ext all _ (fun _ => 0) _ (ax z)) by auto.
    unfold ProofRefine.dotp. apply rsum_0. intros; ring.
  Qed.

  Lemma zero_or (z : I -> R) : forall l : list I, (forall g, In g l -> z g = 0) \/ (exists g, In g l /\ z g <> 0).
  Proof.
    induction l as [|a l IH]; [left; intros g []|].
    destruct (Req_dec (z a) 0) as [E|N]; [|right; exists a; split; [left|]; auto].
    destruct IH as [H|(g & Hg & N)]; [left|right; exists g; split; [right|]; auto].
    intros g [<-|Hg]; auto.
  Qed.

  Lemma only_saddle P b x : splitDef all P A -> (forall g, In g all -> ax x g = b g) ->
    onlyPoint all (isSaddle all P (objective all A b)) x.
  Proof.
    intros SD H. pose proof (fun y => objective_diff b x y H) as D. split.
    - intros y. specialize (D y). split; intros E.
      + destruct (zero_or (fun g => y g - x g) all) as [Z|N].
        * rewrite (q_zero _ Z) in D. lra.
        * destruct (SD _ N) as [K _]. assert (0 < q (fun g => y g - x g)).
          { apply K. intros g Hg HP. rewrite (E g); auto. lra. }
          lra.
      + destruct (zero_or (fun g => y g - x g) all) as [Z|N].
        * rewrite (q_zero _ Z) in D. lra.
        * destruct (SD _ N) as [_ K]. assert (q (fun g => y g - x g) < 0).
          { apply K. intros g Hg HP. rewrite (E g); auto. lra. }
          lra.
    - intros y Sy. set (u := fun g => if P g then y g else x g). set (v := fun g => if P g then x g else y g).
      assert (U : objective all A b u <= objective all A b y).
      { apply (Sy u). intros g _ HP. unfold u. rewrite HP. reflexivity. }
      assert (V : objective all A b y <= objective all A b v).
      { apply (Sy v). intros g _ HP. unfold v. rewrite HP. reflexivity. }
      pose proof (D u) as Du. pose proof (D v) as Dv.
      assert (QU : (forall g, In g all -> u g - x g = 0) \/ 0 < q (fun g => u g - x g)).
      { destruct (zero_or (fun g => u g - x g) all) as [Z|N]; auto. right. destruct (SD _ N) as [K _]. apply K.
        intros g _ HP. unfold u. rewrite HP. lra. }
      assert (QV : (forall g, In g all -> v g - x g = 0) \/ q (fun g => v g - x g) < 0).
      { destruct (zero_or (fun g => v g - x g) all) as [Z|N]; auto. right. destruct (SD _ N) as [_ K]. apply K.
        intros g _ HP. unfold v. rewrite HP. lra. }
      assert (QU' : 0 <= q (fun g => u g - x g)) by (destruct QU as [Z|?]; [rewrite q_zero; auto|]; lra).
      assert (QV' : q (fun g => v g - x g) <= 0) by (destruct QV as [Z|?]; [rewrite q_zero; auto|]; lra).
      destruct QU as [ZU|?]; [|lra]. destruct QV as [ZV|?]; [|lra].
      intros g Hg. specialize (ZU g Hg). specialize (ZV g Hg). unfold u, v in *. destruct (P g); lra.
  Qed.

  Lemma only_minimum b x : positiveDef all A -> (forall g, In g all -> ax x g = b g) ->
    onlyPoint all (isMinimum (objective all A b)) x.
  Proof.
    intros SD H. pose proof (fun y => objective_diff b x y H) as D.
    assert (Q : forall y, (forall g, In g all -> y g - x g = 0) \/ 0 < q (fun g => y g - x g)).
    { intros y. destruct (zero_or (fun g => y g - x g) all) as [Z|N]; auto. }
    split.
    - intros y. specialize (D y). destruct (Q y) as [Z|?]; [rewrite (q_zero _ Z) in D|]; lra.
    - intros y My g Hg. specialize (D y). specialize (My x). destruct (Q y) as [Z|?]; [specialize (Z g Hg)|]; lra.
  Qed.

  Lemma split_quasi P : splitDef all P A -> quasiDef OLr all P A.
  Proof.
    intros SD z NZ. destruct (SD z NZ) as [H1 H2]. split; [exact H1|].
    intros E. specialize (H2 E). cbn. lra.
  Qed.
  Lemma pos_split : positiveDef all A -> splitDef all (fun _ => true) A.
  Proof.
    intros SD z NZ. split; intros E; [apply SD; auto|]. destruct NZ as (g & Hg & N). destruct N. apply E; auto.
  Qed.

  (** margins *)
  Lemma squares_nonzero z : (exists g, In g all /\ z g <> 0) -> 0 < squares all z.
  Proof.
    intros (g & Hg & N). unfold squares.
    assert (z g * z g <= rsum all (fun h => z h * z h)).
    { apply (rsum_term all (fun h => z h * z h) g); auto. intros h _. pose proof (Rle_0_sqr (z h)). unfold Rsqr in *. lra. }
    pose proof (Rsqr_pos_lt (z g) N). unfold Rsqr in *. lra.
  Qed.
  Lemma margin_split P lam : 0 < lam -> quasiDefBy all P A lam -> splitDef all P A.
  Proof.
    intros L0 QD z NZ. pose proof (Rmult_lt_0_compat _ _ L0 (squares_nonzero z NZ)). destruct (QD z) as [H1 H2].
    split; intros E; [specialize (H1 E)|specialize (H2 E)]; lra.
  Qed.
  Lemma margin_positive lam : 0 < lam -> posDefBy all A lam -> positiveDef all A.
  Proof.
    intros L0 QD z NZ. pose proof (Rmult_lt_0_compat _ _ L0 (squares_nonzero z NZ)). specialize (QD z). lra.
  Qed.
End Points.

(** ** a single matrix *)
Theorem single_saddle mt s n p a vals m P :
  spOf s n n -> validPerm n p ->
  spOf a n n -> inputOf Or m a vals -> coveredSym (entries a) (entries s) n p ->
  let all := seq 0 n in let A := symAt Or (entries a) vals in
  splitDef all P A ->
  exists b, factorizationBlk s p = Ok b /\
    forall L0 D0, length L0 = c_nnz (b_sp b) -> length D0 = n ->
    exists L D, factorize Or mt b (Some m) regularizationNone (L0, D0) = Ok (L, D) /\
      forall rhs, length rhs = n ->
      exists x, solveInPlace Or b (L, D) rhs = Ok x /\ length x = n /\
        onlyPoint all (isSaddle all P (objective all A (vecAt Or rhs))) (vecAt Or x).
Proof.
  intros HS HP HA HI HC all A SD.
  destruct (single_quasidef Or FLr OLr mt s n p a vals m P HS HP HA HI HC (split_quasi all A P SD)) as (b & EB & W).
  exists b. split; auto. intros L1 D1 N1 N2. destruct (W L1 D1 N1 N2) as (L & D & EF & _ & _ & SO).
  exists L, D. split; auto. intros rhs NR. destruct (SO rhs NR) as (x & ES & NX & HX & _). exists x. split; auto. split; auto.
  apply (only_saddle all A (symAt_swap n a vals)); auto.
  intros i Hi. apply in_seq in Hi. rewrite <- HX by lia. unfold ax. unfold all. rewrite (suml_seq Or FLr). reflexivity.
Qed.

Theorem single_minimum mt s n p a vals m :
  spOf s n n -> validPerm n p ->
  spOf a n n -> inputOf Or m a vals -> coveredSym (entries a) (entries s) n p ->
  let all := seq 0 n in let A := symAt Or (entries a) vals in
  positiveDef all A ->
  exists b, factorizationBlk s p = Ok b /\
    forall L0 D0, length L0 = c_nnz (b_sp b) -> length D0 = n ->
    exists L D, factorize Or mt b (Some m) regularizationNone (L0, D0) = Ok (L, D) /\
      forall rhs, length rhs = n ->
      exists x, solveInPlace Or b (L, D) rhs = Ok x /\ length x = n /\
        onlyPoint all (isMinimum (objective all A (vecAt Or rhs))) (vecAt Or x).
Proof.
  intros HS HP HA HI HC all A SD.
  destruct (single_quasidef Or FLr OLr mt s n p a vals m (fun _ => true) HS HP HA HI HC
    (split_quasi all A _ (pos_split all A SD))) as (b & EB & W).
  exists b. split; auto. intros L1 D1 N1 N2. destruct (W L1 D1 N1 N2) as (L & D & EF & _ & _ & SO).
  exists L, D. split; auto. intros rhs NR. destruct (SO rhs NR) as (x & ES & NX & HX & _). exists x. split; auto. split; auto.
  apply (only_minimum all A (symAt_swap n a vals)); auto.
  intros i Hi. apply in_seq in Hi. rewrite <- HX by lia. unfold ax. unfold all. rewrite (suml_seq Or FLr). reflexivity.
Qed.

(** ** arrowhead *)
Theorem arrow_saddle mt s ds dt dl dO n m w P :
  arrowDims s ds dt dl dO -> inputArrow Or n ds dt dl dO m w -> declaredArrow s n m ->
  let all := allIdx n ds dt dl dO in let A := matAt Or m w in
  splitDef all P A ->
  exists k, arrowBlocks s = Ok k /\
    forall d0, dataOf k n ds dt dl dO d0 ->
    exists d, arrowFactorize Or mt k m regularizationNone d0 = Ok d /\
      forall rhs, vecOf n ds dt dl dO rhs ->
      exists x, arrowSolveInPlace Or k d rhs = Ok x /\ vecOf n ds dt dl dO x /\
        onlyPoint all (isSaddle all P (objective all A (gvecAt Or rhs))) (gvecAt Or x).
Proof.
  intros HD IA DA all A SD.
  destruct (arrow_quasidef Or FLr OLr mt s ds dt dl dO n m w P HD IA DA (split_quasi all A P SD)) as (k & Ek & W).
  exists k. split; auto. intros d0 D0. destruct (W d0 D0) as (d & EF & _ & _ & _ & SO).
  exists d. split; auto. intros rhs VR. destruct (SO rhs VR) as (x & ES & VX & HX & _). exists x. split; auto. split; auto.
  apply (only_saddle all A (fun g h _ _ => matAt_sym Or m w g h)); auto.
Qed.

Theorem arrow_minimum mt s ds dt dl dO n m w :
  arrowDims s ds dt dl dO -> inputArrow Or n ds dt dl dO m w -> declaredArrow s n m ->
  let all := allIdx n ds dt dl dO in let A := matAt Or m w in
  positiveDef all A ->
  exists k, arrowBlocks s = Ok k /\
    forall d0, dataOf k n ds dt dl dO d0 ->
    exists d, arrowFactorize Or mt k m regularizationNone d0 = Ok d /\
      forall rhs, vecOf n ds dt dl dO rhs ->
      exists x, arrowSolveInPlace Or k d rhs = Ok x /\ vecOf n ds dt dl dO x /\
        onlyPoint all (isMinimum (objective all A (gvecAt Or rhs))) (gvecAt Or x).
Proof.
  intros HD IA DA all A SD.
  destruct (arrow_quasidef Or FLr OLr mt s ds dt dl dO n m w (fun _ => true) HD IA DA
    (split_quasi all A _ (pos_split all A SD))) as (k & Ek & W).
  exists k. split; auto. intros d0 D0. destruct (W d0 D0) as (d & EF & _ & _ & _ & SO).
  exists d. split; auto. intros rhs VR. destruct (SO rhs VR) as (x & ES & VX & HX & _). exists x. split; auto. split; auto.
  apply (only_minimum all A (fun g h _ _ => matAt_sym Or m w g h)); auto.
Qed.

(** ** block tridiagonal *)
Theorem tri_saddle mt a b p dt n A B wA wB P :
  spOf a dt dt -> spOf b dt dt -> validPerm dt p ->
  inputTri Or n dt A B wA wB -> declaredTri a b n A B ->
  let rows := list_prod (seq 0 (n + 1)) (seq 0 dt) in
  let M := fun r c => triMatAt Or A B wA wB (fst r) (snd r) (fst c) (snd c) in
  splitDef rows P M ->
  exists k, tridiagonalBlocks a b p = Ok k /\
    forall d0, dataOf k n 0 dt 0 0 d0 ->
    exists d, tridiagonalFactorize Or mt k dt A B regularizationNone d0 = Ok d /\
      forall rhs, blocksOf n dt rhs ->
      exists x, tridiagonalSolveInPlace Or k d rhs = Ok x /\ blocksOf n dt x /\
        onlyPoint rows (isSaddle rows P (objective rows M (fun r => vecAt Or (nth (fst r) rhs []) (snd r))))
          (fun r => vecAt Or (nth (fst r) x []) (snd r)).
Proof.
  intros SA SB HP IT DT rows M SD.
  assert (SD' : splitDef rows (fun r => P (fst r, snd r)) M).
  { intros z NZ. destruct (SD z NZ) as [H1 H2]. split; intros E; [apply H1|apply H2]; intros [t i] Hg HPg; apply (E (t, i)); auto. }
  destruct (tri_quasidef Or FLr OLr mt a b p dt n A B wA wB (fun t i => P (t, i)) SA SB HP IT DT
    (split_quasi rows M _ SD')) as (k & Ek & W).
  exists k. split; auto. intros d0 D0. destruct (W d0 D0) as (d & EF & _ & _ & _ & SO).
  exists d. split; auto. intros rhs VR. destruct (SO rhs VR) as (x & ES & VX & HX & _). exists x. split; auto. split; auto.
  apply (only_saddle rows M); auto.
  - intros g h _ _. pose proof (tri_matAt Or n dt A B wA wB g h IT) as T1.
    pose proof (tri_matAt Or n dt A B wA wB h g IT) as T2. unfold M. rewrite <- T1, <- T2. apply matAt_sym.
  - intros [t i] Hg. apply in_prod_iff in Hg. rewrite !in_seq in Hg. cbn [fst snd]. rewrite <- HX by lia.
    unfold ax, rows. rewrite (sum_prod Or FLr). reflexivity.
Qed.

Theorem tri_minimum mt a b p dt n A B wA wB :
  spOf a dt dt -> spOf b dt dt -> validPerm dt p ->
  inputTri Or n dt A B wA wB -> declaredTri a b n A B ->
  let rows := list_prod (seq 0 (n + 1)) (seq 0 dt) in
  let M := fun r c => triMatAt Or A B wA wB (fst r) (snd r) (fst c) (snd c) in
  positiveDef rows M ->
  exists k, tridiagonalBlocks a b p = Ok k /\
    forall d0, dataOf k n 0 dt 0 0 d0 ->
    exists d, tridiagonalFactorize Or mt k dt A B regularizationNone d0 = Ok d /\
      forall rhs, blocksOf n dt rhs ->
      exists x, tridiagonalSolveInPlace Or k d rhs = Ok x /\ blocksOf n dt x /\
        onlyPoint rows (isMinimum (objective rows M (fun r => vecAt Or (nth (fst r) rhs []) (snd r))))
          (fun r => vecAt Or (nth (fst r) x []) (snd r)).
Proof.
  intros SA SB HP IT DT rows M SD.
  destruct (tri_quasidef Or FLr OLr mt a b p dt n A B wA wB (fun _ _ => true) SA SB HP IT DT
    (split_quasi rows M _ (pos_split rows M SD))) as (k & Ek & W).
  exists k. split; auto. intros d0 D0. destruct (W d0 D0) as (d & EF & _ & _ & _ & SO).
  exists d. split; auto. intros rhs VR. destruct (SO rhs VR) as (x & ES & VX & HX & _). exists x. split; auto. split; auto.
  apply (only_minimum rows M); auto.
  - intros g h _ _. pose proof (tri_matAt Or n dt A B wA wB g h IT) as T1.
    pose proof (tri_matAt Or n dt A B wA wB h g IT) as T2. unfold M. rewrite <- T1, <- T2. apply matAt_sym.
  - intros [t i] Hg. apply in_prod_iff in Hg. rewrite !in_seq in Hg. cbn [fst snd]. rewrite <- HX by lia.
    unfold ax, rows. rewrite (sum_prod Or FLr). reflexivity.
Qed.
