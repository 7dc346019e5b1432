(** The branch-and-bound loop runs forever if the rule branches on columns whose bounds are never
    passed to the LP. *)
From Coq Require Import List ZArith Bool Lia Permutation.
From Verif Require Import Outcome OutcomeFacts Num Double DoubleFacts Rounding SparseVector Problem MipData ProblemSpec
  MipTree TreeSpec TreeFacts TreeProofs Branching Solver SolverSpec SolverProofs.
Import ListNotations.
Open Scope Z_scope.

Section Endless.
Context {W : Type} (E : env W) (p : problem) (OK : env_ok E p) (P : W -> Prop).
Let lb := MipData.lower_bounds (data E).
Let ub := MipData.upper_bounds (data E).
Let nc := num_vars p.
Hypothesis STEP : forall w lo up, P w ->
  (forall i, In i (order E) -> at_ lo i = at_ lb i /\ at_ up i = at_ ub i) ->
  exists w', (do w1 <- set_node_bounds E w lo up ; do w2 <- check_ok (solve_dual E w1) ;
     if is_optimal E w2 then check_ok (separate E w2) else Ok w2) = Ok w' /\ P w' /\ is_optimal E w' = true /\
  exists x j uf v, primal_values E w' = Ok x /\ SolutionIsIntegral (order E) x (tolerance E) = Ok false /\
    branch E w' = Ok (j, uf) /\ at_ x j = Ok v /\ finite_double v /\ 0 <= j < nc /\ ~ In j (order E).

Definition elsewhere (t : tree) : Prop := forall n d, node t n = Ok d -> ~ In (branch_variable d) (order E).
Definition going (s : solver_state W) : Prop :=
  tree_ok nc (mip_tree s) /\ NoDup (queue s) /\ (forall n, In n (queue s) -> leaf (mip_tree s) n) /\
  queue s <> [] /\ elsewhere (mip_tree s) /\ P (world s).

Lemma elsewhere_box t n : tree_ok nc t -> active t n -> elsewhere t -> exists lo up, boxed t lb ub n lo up /\
  forall i, In i (order E) -> at_ lo i = at_ lb i /\ at_ up i = at_ ub i.
Proof.
  intros T A EL. destruct (path_of_active t n (proj1 T) A) as [l PL].
  destruct (path_data nc t n l T PL) as [D _]. destruct (env_lengths E p OK) as [L1 L2].
  destruct (env_nans E p OK) as (N1 & N2 & _).
  assert (B : Forall (fun d => implied_lower d = [] /\ implied_upper d = [] /\ ~ In (branch_variable d) (order E)) l).
  { clear D A. induction PL as [n d X1 X2|n d l X1 X2 PL IH]; destruct (proj2 T _ _ X1) as (_ & _ & I1 & I2 & _);
      constructor; auto; split; auto; split; auto; exact (EL n d X1). }
  rewrite Forall_forall in B.
  destruct (TreeProofs.lower_bounds t n l lb (proj1 T) PL) as (lo & E1 & _ & E2); [fold lb in L1; rewrite L1; exact D|exact N1|].
  destruct (TreeProofs.upper_bounds t n l ub (proj1 T) PL) as (up & F1 & _ & F2); [fold ub in L2; rewrite L2; exact D|exact N2|].
  exists lo, up. split; [split; assumption|]. intros i I. pose proof (env_range E p OK i I) as R.
  destruct (at_range lb i) as [r Hr]; [fold lb in L1; lia|]. destruct (at_range ub i) as [r' Hr']; [fold ub in L2; lia|].
  destruct (E2 i r Hr) as (a & A1 & A2 & _). destruct (F2 i r' Hr') as (b & B1 & B2 & _).
  rewrite A1, B1, Hr, Hr'. split; f_equal.
  - destruct A2 as [->|(d & Id & [X|(_ & X & _)])]; auto; destruct (B d Id) as (P1 & _ & P3).
    + rewrite P1 in X. destruct X.
    + subst i. contradiction.
  - destruct B2 as [->|(d & Id & [X|(_ & X & _)])]; auto; destruct (B d Id) as (_ & P2 & P3).
    + rewrite P2 in X. destruct X.
    + subst i. contradiction.
Qed.

Lemma round_goes s : going s -> exists s', solver_round E s = Ok (Continue s') /\ going s'.
Proof.
  intros (T & ND & LF & Q & EL & PW). unfold solver_round.
  destruct (take_defined (backjump s) (queue s) Q) as (n & q & TK). rewrite TK. cbn [bind].
  apply take_perm in TK. assert (N2 : NoDup (n :: q)) by (eapply Permutation_NoDup; eauto).
  apply NoDup_cons_iff in N2 as [N2 N3].
  assert (IN : forall m, In m (n :: q) -> leaf (mip_tree s) m).
  { intros m Hm. apply LF. eapply Permutation_in; [apply Permutation_sym; exact TK|exact Hm]. }
  assert (L : leaf (mip_tree s) n) by (apply IN; cbn; auto).
  destruct (elsewhere_box (mip_tree s) n T (proj1 L) EL) as (lo & up & [B1 B2] & B).
  unfold solve_node. fold lb ub. rewrite B1, B2. cbn [bind].
  destruct (STEP (world s) lo up PW B) as (w & SW & PW' & O & x & j & uf & v & PX & IX & BR & V1 & V2 & J & NJ).
  rewrite SW. cbn [bind]. rewrite O. cbn [negb].
  destruct (set_lp_spec (mip_tree s) n (objective_value E w)) with (d := match node (mip_tree s) n with Ok d => d | _ => node_default end)
    as (t & S1 & S2 & S3 & S4 & _).
  { exact (proj1 T). } { destruct L as [[d Hd] _]. rewrite Hd. reflexivity. } { exact (proj2 L). }
  destruct (setlp_step nc _ n (objective_value E w) T L) as (t' & S1' & T' & LF' & AC). rewrite S1 in S1'. injection S1' as <-.
  rewrite S1. cbn [bind]. rewrite PX. cbn [check_ok bind]. rewrite IX. cbn [bind]. rewrite BR. cbn [check_ok bind].
  rewrite V1. cbn [bind].
  assert (EL1 : elsewhere t).
  { intros m d M. destruct (Z.eq_dec m n) as [->|MN].
    - destruct L as [[d0 Hd] _]. rewrite Hd in S3. rewrite S3 in M. injection M as <-. exact (EL n d0 Hd).
    - rewrite (S4 m MN) in M. exact (EL m d M). }
  destruct (add_step nc t n j v T' (LF' n L) J V2) as (t1 & a & t2 & b & A1 & A2 & A3 & A4 & A5 & A6 & A7 & A8 & A9 & A10).
  rewrite A1. cbn [bind]. rewrite A2. cbn [bind].
  destruct (add_spec t n j true v t1 a (proj1 T') A1) as (dp & k & _ & _ & _ & R1 & _ & _ & X1 & _ & X2 & _).
  destruct (add_spec t1 n j false v t2 b R1 A2) as (dp' & k' & _ & _ & _ & _ & _ & _ & Y1 & _ & Y2 & _).
  assert (EL2 : elsewhere t2).
  { intros m d M. destruct (Z.eq_dec m b) as [->|MB]; [rewrite Y1 in M; injection M as <-; exact NJ|].
    rewrite (Y2 m MB) in M. destruct (Z.eq_dec m a) as [->|MA]; [rewrite X1 in M; injection M as <-; exact NJ|].
    rewrite (X2 m MA) in M. exact (EL1 m d M). }
  assert (NQ : forall m, In m q -> m <> a /\ m <> b).
  { intros m Hm. destruct (IN m (or_intror Hm)) as [Am _]. apply AC in Am. split; intros ->; auto. }
  assert (PQ : Permutation (if uf then b :: q ++ [a] else a :: q ++ [b]) (a :: b :: q)).
  { destruct uf.
    - eapply perm_trans; [apply perm_skip, Permutation_sym, Permutation_cons_append|]. apply perm_swap.
    - apply perm_skip, Permutation_sym, Permutation_cons_append. }
  eexists. split; [reflexivity|]. unfold going. cbn [mip_tree queue world].
  split; [exact A3|]. split; [|split; [|split; [destruct uf; discriminate|split; [exact EL2|exact PW']]]].
  - eapply Permutation_NoDup; [apply Permutation_sym; exact PQ|]. constructor; [|constructor; auto].
    + intros [Z|Z]; [congruence|]. apply NQ in Z. tauto.
    + intros Z. apply NQ in Z. tauto.
  - intros m Hm. apply (Permutation_in m PQ) in Hm. destruct Hm as [<-|[<-|Hm]]; auto.
    apply A9; [apply LF', IN; right; exact Hm|]. intros ->; auto.
Qed.

Lemma loop_endless fuel : forall s, going s -> solve_loop E fuel s = Fuel.
Proof.
  induction fuel as [|f IH]; intros s G; cbn [solve_loop]; destruct (queue s) as [|n q] eqn:Q.
  - destruct G as (_ & _ & _ & G & _). congruence.
  - reflexivity.
  - destruct G as (_ & _ & _ & G & _). congruence.
  - destruct (round_goes s G) as (s' & R & G'). rewrite R. cbn [bind]. apply IH. exact G'.
Qed.

Lemma endless w0 : P w0 -> forall fuel, Solve E fuel w0 = Fuel.
Proof.
  intros PW fuel. apply loop_endless. unfold going. cbn [solve_start mip_tree queue world].
  split; [apply tree_new_ok; unfold nc, num_vars; lia|]. split; [repeat constructor; auto|].
  split; [intros n [<-|[]]; split; [eexists|]; reflexivity|]. split; [discriminate|]. split; [|exact PW].
  intros n d H I. apply node_iff in H as [H D]. apply at_two in H as [[-> ->]|[-> ->]]; [|cbn in D; lia].
  pose proof (env_range E p OK _ I) as R. cbn in R. lia.
Qed.
End Endless.
