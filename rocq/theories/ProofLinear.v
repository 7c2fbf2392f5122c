(** Solving with a factorization is linear and symmetric. *)
From Coq Require Import List Arith Lia Bool Ring.
From Verif Require Import Base ModelPerm ModelSparsity ModelSymbolic ModelNumeric ModelArrow ModelReg.
From Verif Require Import SpecSymbolic SpecArrow SpecNumeric SpecArrowNum.
From Verif Require Import ProofExact ProofLdl ProofArrowProduct ProofPropSingle ProofPropArrow ProofPropPivot ProofPropDominant.
Import ListNotations.
Local Open Scope nat_scope.

Section Linear.
  Context {F : Type} (O : ops F) (FL : fieldLaws O).
  Local Notation "a + b" := (oadd O a b) : scalar.
  Local Notation "a * b" := (omul O a b) : scalar.
  Add Ring FrLin : (fl_ring FL).
  Local Notation vat := (vecAt O).

  (** ** any index set *)
  Section Any.
    Context {I : Type} (all : list I) (M : I -> I -> F).
    Definition sys (x b : I -> F) : Prop := forall g, In g all -> suml O all (fun h => (M g h * x h)%s) = b g.
    Lemma sys_lin c x x' b b' : sys x b -> sys x' b' -> sys (fun g => (x g + c * x' g)%s) (fun g => (b g + c * b' g)%s).
    Proof.
      intros H H' g Hg. rewrite <- (H g Hg), <- (H' g Hg), <- (suml_mult_l O FL), <- (suml_plus O FL).
      apply suml_ext. intros; ring.
    Qed.
    Lemma sys_sym x x' b b' : (forall g h, In g all -> In h all -> M g h = M h g) -> sys x b -> sys x' b' ->
      suml O all (fun g => (b' g * x g)%s) = suml O all (fun g => (b g * x' g)%s).
    Proof.
      intros S H H'.
      transitivity (suml O all (fun g => suml O all (fun h => (M g h * x' h * x g)%s))).
      - apply suml_ext. intros g Hg. rewrite <- (H' g Hg), <- (suml_mult_r O FL). reflexivity.
      - rewrite (suml_swap O FL). apply suml_ext. intros h Hh. rewrite <- (H h Hh), <- (suml_mult_r O FL).
        apply suml_ext. intros g Hg. rewrite (S g h) by auto. ring.
    Qed.
  End Any.

  (** ** single matrix *)
  Definition vmap (n : nat) (f : nat -> F) : list F := map f (seq 0 n).
  Lemma vmap_len n f : length (vmap n f) = n.
  Proof. unfold vmap. rewrite map_length, seq_length. auto. Qed.
  Lemma vmap_at n f i : i < n -> vat (vmap n f) i = f i.
  Proof.
    intros H. unfold vecAt, vmap. rewrite (nth_indep _ _ (f 0)) by (rewrite map_length, seq_length; auto).
    rewrite map_nth, seq_nth; auto.
  Qed.
  Lemma matVec_sys n A x b : (forall i, i < n -> matVec O n A x i = b i) <-> sys (seq 0 n) A (vat x) b.
  Proof.
    unfold sys, matVec. split; intros H.
    - intros i Hi. apply in_seq in Hi. rewrite (suml_seq O FL). apply H. lia.
    - intros i Hi. rewrite <- (suml_seq O FL). apply H. apply in_seq. lia.
  Qed.

  Theorem single_linear mt s n p a vals m reg b L0 D0 L D rhs rhs' rhs2 c x x' :
    spOf s n n -> validPerm n p -> factorizationBlk s p = Ok b ->
    spOf a n n -> inputOf O m a vals -> coveredSym (entries a) (entries s) n p ->
    length L0 = c_nnz (b_sp b) -> length D0 = n ->
    factorize O mt b (Some m) reg (L0, D0) = Ok (L, D) ->
    (forall k, k < n -> vat D k <> o0 O) ->
    length rhs = n -> length rhs' = n -> length rhs2 = n ->
    (forall i, i < n -> vat rhs2 i = (vat rhs i + c * vat rhs' i)%s) ->
    solveInPlace O b (L, D) rhs = Ok x -> solveInPlace O b (L, D) rhs' = Ok x' ->
    (exists x2, solveInPlace O b (L, D) rhs2 = Ok x2 /\ length x2 = n /\
      forall i, i < n -> vat x2 i = (vat x i + c * vat x' i)%s) /\
    sumn O n (fun i => (vat rhs' i * vat x i)%s) = sumn O n (fun i => (vat rhs i * vat x' i)%s).
  Proof.
    intros SP VP EB SA IO CV N1 N2 EF HZ LR LR' LR2 HR EX EX'.
    destruct (solves O FL mt s n p a vals m reg b L0 D0 L D SP VP EB SA IO CV N1 N2 EF HZ) as (E & _ & _ & HS).
    destruct (HS rhs LR) as (y & Ey & Ly & Sy & _). rewrite EX in Ey. injection Ey as <-.
    destruct (HS rhs' LR') as (y & Ey & Ly' & Sy' & _). rewrite EX' in Ey. injection Ey as <-.
    destruct (HS rhs2 LR2) as (x2 & E2 & L2 & S2 & U2).
    apply matVec_sys in Sy. apply matVec_sys in Sy'. split.
    - exists x2. split; auto. split; auto. intros i Hi.
      assert (EQ : vmap n (fun i => (vat x i + c * vat x' i)%s) = x2).
      { apply U2; [apply vmap_len|]. apply matVec_sys. intros g Hg. pose proof Hg as Hg'. apply in_seq in Hg'.
        rewrite HR by lia. rewrite <- (sys_lin _ _ c _ _ _ _ Sy Sy' g Hg). apply suml_ext. intros h Hh.
        apply in_seq in Hh. rewrite vmap_at by lia. reflexivity. }
      rewrite <- EQ. apply vmap_at. auto.
    - rewrite <- !(suml_seq O FL). apply (sys_sym _ (plusDiag O (symAt O (entries a) vals) E)); auto.
      intros i j _ _. unfold plusDiag, symAt. rewrite Nat.max_comm, Nat.min_comm.
      destruct (Nat.eqb_spec i j) as [->|N]; [rewrite Nat.eqb_refl; auto|].
      destruct (Nat.eqb_spec j i); [congruence|]. auto.
  Qed.

  (** ** arrowhead *)
  Definition gmap (n ds dt dl dO : nat) (f : gidx -> F) : arrow_vec (F:=F) :=
    mkAV (vmap ds (fun i => f (GS i))) (map (fun t => vmap dt (fun i => f (GT t i))) (seq 0 (n + 1)))
      (vmap dl (fun i => f (GL i))) (vmap dO (fun i => f (GO i))).
  Lemma tmap_at n dt (f : nat -> nat -> F) t : t < n -> nth t (map (fun t => vmap dt (f t)) (seq 0 n)) [] = vmap dt (f t).
  Proof.
    intros H. rewrite (nth_indep _ _ (vmap dt (f 0))) by (rewrite map_length, seq_length; auto).
    rewrite (map_nth (fun t => vmap dt (f t))), seq_nth; auto.
  Qed.
  Lemma gmap_vec n ds dt dl dO f : vecOf n ds dt dl dO (gmap n ds dt dl dO f).
  Proof.
    constructor; cbn [gmap v_start v_tri v_link v_outer]; try apply vmap_len.
    - rewrite map_length, seq_length. auto.
    - intros t Ht. rewrite (tmap_at (n + 1) dt (fun t i => f (GT t i))) by auto. apply vmap_len.
  Qed.
  Lemma gmap_at n ds dt dl dO f g : In g (allIdx n ds dt dl dO) -> gvecAt O (gmap n ds dt dl dO f) g = f g.
  Proof.
    intros H. apply in_allIdx in H. destruct g as [i|t i|i|i]; cbn [gmap gvecAt v_start v_tri v_link v_outer].
    - rewrite vmap_at; auto.
    - rewrite (tmap_at (n + 1) dt (fun t i => f (GT t i))) by lia. rewrite vmap_at; auto. lia.
    - rewrite vmap_at; auto.
    - rewrite vmap_at; auto.
  Qed.

  Theorem arrow_linear mt s ds dt dl dO k n m w reg d0 d rhs rhs' rhs2 c x x' :
    arrowDims s ds dt dl dO -> arrowBlocks s = Ok k ->
    inputArrow O n ds dt dl dO m w -> declaredArrow s n m -> dataOf k n ds dt dl dO d0 ->
    arrowFactorize O mt k m reg d0 = Ok d ->
    (forall g, In g (allIdx n ds dt dl dO) -> pivotAt O d g <> o0 O) ->
    vecOf n ds dt dl dO rhs -> vecOf n ds dt dl dO rhs' -> vecOf n ds dt dl dO rhs2 ->
    (forall g, In g (allIdx n ds dt dl dO) -> gvecAt O rhs2 g = (gvecAt O rhs g + c * gvecAt O rhs' g)%s) ->
    arrowSolveInPlace O k d rhs = Ok x -> arrowSolveInPlace O k d rhs' = Ok x' ->
    (exists x2, arrowSolveInPlace O k d rhs2 = Ok x2 /\ vecOf n ds dt dl dO x2 /\
      forall g, In g (allIdx n ds dt dl dO) -> gvecAt O x2 g = (gvecAt O x g + c * gvecAt O x' g)%s) /\
    suml O (allIdx n ds dt dl dO) (fun g => (gvecAt O rhs' g * gvecAt O x g)%s) =
    suml O (allIdx n ds dt dl dO) (fun g => (gvecAt O rhs g * gvecAt O x' g)%s).
  Proof.
    intros HD EK IA DA DO EF HZ LR LR' LR2 HR EX EX'.
    destruct (arrow_solves O FL mt s ds dt dl dO k n m w reg d0 d HD EK IA DA DO EF HZ) as (E & _ & HS).
    destruct (HS rhs LR) as (y & Ey & Ly & Sy & _). rewrite EX in Ey. injection Ey as <-.
    destruct (HS rhs' LR') as (y & Ey & Ly' & Sy' & _). rewrite EX' in Ey. injection Ey as <-.
    destruct (HS rhs2 LR2) as (x2 & E2 & L2 & S2 & U2). split.
    - exists x2. split; auto. split; auto. intros g Hg.
      assert (EQ : gmap n ds dt dl dO (fun g => (gvecAt O x g + c * gvecAt O x' g)%s) = x2).
      { apply U2; [apply gmap_vec|]. intros h Hh. rewrite HR by auto.
        rewrite <- (sys_lin _ _ c _ _ _ _ Sy Sy' h Hh). apply suml_ext. intros j Hj.
        rewrite gmap_at by auto. reflexivity. }
      rewrite <- EQ. apply gmap_at. auto.
    - apply (sys_sym _ (plusDiagG O (SpecArrowNum.matAt O m w) E)); auto.
      intros g h _ _. unfold plusDiagG. rewrite (matAt_sym O m w g h).
      destruct (gidx_eq_dec g h) as [->|N]; destruct (gidx_eq_dec _ _); congruence.
  Qed.

  (** ** block tridiagonal *)
  Lemma sum_prod n m f : suml O (list_prod (seq 0 n) (seq 0 m)) f = sumn O n (fun t => sumn O m (fun i => f (t, i))).
  Proof.
    rewrite <- (suml_seq O FL). generalize (seq 0 n) as l. induction l as [|t l IH]; [reflexivity|].
    cbn [list_prod]. rewrite (suml_app O FL), IH, (suml_map O), (suml_seq O FL). reflexivity.
  Qed.
  Lemma triMatVec_sys n dt A x b : (forall t i, t < n + 1 -> i < dt -> triMatVec O n dt A x t i = b t i) <->
    sys (list_prod (seq 0 (n + 1)) (seq 0 dt)) (fun g h => A (fst g) (snd g) (fst h) (snd h))
      (fun g => vat (nth (fst g) x []) (snd g)) (fun g => b (fst g) (snd g)).
  Proof.
    unfold sys, triMatVec. split; intros H.
    - intros [t i] Hi. apply in_prod_iff in Hi. rewrite !in_seq in Hi. rewrite sum_prod. cbn [fst snd]. apply H; lia.
    - intros t i Ht Hi. specialize (H (t, i)). rewrite sum_prod in H. cbn [fst snd] in H. apply H.
      apply in_prod_iff. rewrite !in_seq. lia.
  Qed.

  Theorem tri_linear mt a b p dt n k A B wA wB reg d0 d rhs rhs' rhs2 c x x' :
    spOf a dt dt -> spOf b dt dt -> validPerm dt p -> tridiagonalBlocks a b p = Ok k ->
    inputTri O n dt A B wA wB -> declaredTri a b n A B -> dataOf k n 0 dt 0 0 d0 ->
    tridiagonalFactorize O mt k dt A B reg d0 = Ok d ->
    (forall t i, t < n + 1 -> i < dt -> pivotAt O d (GT t i) <> o0 O) ->
    blocksOf n dt rhs -> blocksOf n dt rhs' -> blocksOf n dt rhs2 ->
    (forall t i, t < n + 1 -> i < dt -> vat (nth t rhs2 []) i = (vat (nth t rhs []) i + c * vat (nth t rhs' []) i)%s) ->
    tridiagonalSolveInPlace O k d rhs = Ok x -> tridiagonalSolveInPlace O k d rhs' = Ok x' ->
    (exists x2, tridiagonalSolveInPlace O k d rhs2 = Ok x2 /\ blocksOf n dt x2 /\
      forall t i, t < n + 1 -> i < dt -> vat (nth t x2 []) i = (vat (nth t x []) i + c * vat (nth t x' []) i)%s) /\
    sumn O (n + 1) (fun t => sumn O dt (fun i => (vat (nth t rhs' []) i * vat (nth t x []) i)%s)) =
    sumn O (n + 1) (fun t => sumn O dt (fun i => (vat (nth t rhs []) i * vat (nth t x' []) i)%s)).
  Proof.
    intros SA SB HP EK IT DT DO EF HZ LR LR' LR2 HR EX EX'.
    destruct (tri_factorizes O FL mt a b p dt n A B wA wB reg SA SB HP IT DT) as (k' & EK' & _ & HF).
    rewrite EK in EK'. injection EK' as <-. destruct (HF d0 DO) as (d' & EF' & _ & HX).
    rewrite EF in EF'. injection EF' as <-. destruct (HX HZ) as (E & _ & _ & HS).
    destruct (HS rhs LR) as (y & Ey & Ly & Sy & _). rewrite EX in Ey. injection Ey as <-.
    destruct (HS rhs' LR') as (y & Ey & Ly' & Sy' & _). rewrite EX' in Ey. injection Ey as <-.
    destruct (HS rhs2 LR2) as (x2 & E2 & L2 & S2 & U2).
    apply triMatVec_sys in Sy. apply triMatVec_sys in Sy'. split.
    - exists x2. split; auto. split; auto. intros t i Ht Hi.
      set (f := fun t i => (vat (nth t x []) i + c * vat (nth t x' []) i)%s).
      assert (EQ : map (fun t => vmap dt (f t)) (seq 0 (n + 1)) = x2).
      { apply U2.
        - split; [rewrite map_length, seq_length; auto|]. intros u Hu. rewrite tmap_at by auto. apply vmap_len.
        - apply triMatVec_sys. intros [u j] Hg. pose proof Hg as Hg'. apply in_prod_iff in Hg'. rewrite !in_seq in Hg'.
          cbn [fst snd]. rewrite HR by lia. pose proof (sys_lin _ _ c _ _ _ _ Sy Sy' (u, j) Hg) as K. cbn [fst snd] in K.
          rewrite <- K. apply suml_ext. intros [v l] Hv. apply in_prod_iff in Hv. rewrite !in_seq in Hv. cbn [fst snd].
          rewrite tmap_at by lia. rewrite vmap_at by lia. reflexivity. }
      rewrite <- EQ, tmap_at by auto. apply vmap_at. auto.
    - assert (SS : forall y b0 : list (list F), sumn O (n + 1) (fun t => sumn O dt (fun i => (vat (nth t b0 []) i * vat (nth t y []) i)%s)) =
        suml O (list_prod (seq 0 (n + 1)) (seq 0 dt)) (fun g => (vat (nth (fst g) b0 []) (snd g) * vat (nth (fst g) y []) (snd g))%s))
        by (intros y b0; rewrite sum_prod; reflexivity).
      rewrite !SS. refine (sys_sym _ _ _ _ _ _ _ Sy Sy').
      intros [t i] [u j] Hg Hh. apply in_prod_iff in Hg, Hh. rewrite !in_seq in Hg, Hh. cbn [fst snd]. unfold plusDiagT.
      rewrite (Nat.eqb_sym u t), (Nat.eqb_sym j i).
      pose proof (tri_matAt O n dt A B wA wB (t, i) (u, j) IT) as T1. pose proof (tri_matAt O n dt A B wA wB (u, j) (t, i) IT) as T2.
      cbn [fst snd] in T1, T2. rewrite <- T1, <- T2, (matAt_sym O).
      destruct (Nat.eqb_spec t u) as [->|], (Nat.eqb_spec i j) as [->|]; reflexivity.
  Qed.
End Linear.
