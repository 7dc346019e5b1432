(** The bounds of the LP during a whole solve. *)
From Coq Require Import String List ZArith Bool Lia Permutation.
From Verif Require Import Outcome OutcomeFacts Num Double DoubleFacts SparseVector VectorSpec Aggregation Problem MipData ProblemSpec
  CutsData Selector Runner CutSpec CutProofs LpParams GlopLp GlopIface GlopSpec SoplexIface SoplexSpec Branching Params
  ReaderSpec MipTree TreeSpec Solver SolverSpec SolverProofs Simulate Whole WholeSpec WholeTables WholeSoplex WholeProofs WholeRun.
Import ListNotations.
Open Scope Z_scope.

Section Box.
Context {W : Type} (E : env W) (p : problem) (OK : env_ok E p) (w0 : W) (bounds : W -> Z -> double * double).
Context (BO : branch_ok E) (LK : lp_keeps_bounds E bounds).

Lemma node_no_wider s n q w : visits E w0 s -> take (backjump s) (queue s) = Ok (n, q) ->
  solve_node E (mip_tree s) n (Solver.world s) = Ok w -> no_wider p (bounds w).
Proof using OK BO LK.
  intros V TK S j var J JI.
  assert (JO : In j (order E)) by (apply (env_lists E p OK); exists var; auto).
  destruct (solve_node_bounds E bounds LK _ _ _ _ S) as (lo & up & BX & BJ). destruct (BJ j JO) as (a & b & A1 & A2 & A3).
  destruct (env_at E p OK j var J) as [R1 R2].
  pose proof (inv_visits E p OK w0 s BO V) as (T & _ & LF & _).
  assert (A : active (mip_tree s) n).
  { apply LF. eapply Permutation_in; [apply Permutation_sym, (take_perm _ _ _ _ TK)|cbn; auto]. }
  destruct (box_root E p OK _ _ _ _ _ _ _ _ _ T A BX R1 R2 A1 A2) as [Q1 Q2].
  destruct (box_valid E p OK _ _ _ _ _ T A BX JO) as (a' & b' & B1 & B2 & B3 & B4).
  rewrite A1 in B1. injection B1 as <-. rewrite A2 in B2. injection B2 as <-. rewrite A3. cbn [fst snd]. auto.
Qed.
Lemma round_no_wider s v : visits E w0 s -> solver_round E s = Ok v -> no_wider p (bounds (Solver.world (state_of v))).
Proof using OK BO LK.
  intros V R. apply round_cases in R. inversion R; subst v; cbn [state_of Solver.world]; eapply node_no_wider; eauto.
Qed.
Lemma visits_no_wider s : no_wider p (bounds w0) -> visits E w0 s -> no_wider p (bounds (Solver.world s)).
Proof using OK BO LK. intros N0 V. destruct V as [|s s' V Q R]; [exact N0|]. exact (round_no_wider s _ V R). Qed.
Lemma loop_no_wider fuel : forall s s', visits E w0 s -> no_wider p (bounds (Solver.world s)) ->
  solve_loop E fuel s = Ok s' -> no_wider p (bounds (Solver.world s')).
Proof using OK BO LK.
  induction fuel as [|f IH]; intros s s' V N H; cbn [solve_loop] in H; destruct (queue s) as [|n q] eqn:Q; try discriminate.
  1,2: injection H as <-; exact N.
  apply bind_ok in H as (v & R & H). pose proof (round_no_wider s v V R) as N1. destruct v as [s1|s1]; cbn [state_of] in N1.
  - apply (IH s1 s'); auto. apply (visits_step E w0 s s1 V); auto. congruence.
  - injection H as <-. exact N1.
Qed.
End Box.

(** Every state of a simulated solve comes from one of the other. *)
Lemma visits_back {W1 W2} (E1 : env W1) (E2 : env W2) f (S : simulates E1 E2 f) w0 s :
  visits E1 (f w0) s -> exists s2, visits E2 w0 s2 /\ s = smap f s2.
Proof.
  induction 1 as [|s s' V (s2 & V2 & ->) Q R]; [exists (solve_start w0); split; [apply visits_start|reflexivity]|].
  rewrite (sim_round _ _ _ S) in R. destruct (solver_round E2 s2) as [v| | | |] eqn:R2; try discriminate R.
  destruct v as [t|t]; try discriminate R. injection R as <-. exists t. split; [|reflexivity].
  apply (visits_step E2 w0 s2 t V2); [exact Q|exact R2].
Qed.

Lemma whole_box E X G p0 mx flag sort draw (make : list rounder * Z -> generator (E := E) (X := X) G) g order p u e w0 s :
  plain_lp E X (wanted_solver u) -> proper_problem p -> calm_request u -> sorts sort -> visits_integers p order ->
  usable_rule p u draw -> no_cuts u \/ (forall a, proper_generator p (make a)) ->
  CreateSolver G p0 mx flag sort draw make g order p u = Ok (e, w0) ->
  visits e w0 s \/ (exists fuel, Solve e fuel w0 = Ok s) ->
  forall j v, nth_var p j = Some v -> exists c, at_ (t_cols (table_of (lp_held (lp_of (Solver.world s))))) j = Ok c /\
    if v_int v then dleb (v_lb v) (t_lb c) = true /\ dleb (t_ub c) (v_ub v) = true else t_lb c = v_lb v /\ t_ub c = v_ub v.
Proof.
  intros LAWS PP PR SO VI RU CU H V.
  set (k := wanted_solver u) in *.
  destruct (solver_made k LAWS G p0 mx flag sort draw make g order p PP u PR eq_refl e w0 H) as (c & d & M & D & EQ & I0 & T).
  assert (C : max_iterations (rc_limits (cf_runner c)) <= 0 \/
    Forall (gives_q k G p False (fitting_cut p)) (map make (rc_generators (cf_runner c)))).
  { rewrite (md_limits _ _ c M). destruct CU as [A|A]; [left; exact A|right]. apply Forall_forall. intros x Hx.
    apply in_map_iff in Hx as (a & <- & _). intros y r l cs y' GD.
    exact (A a y r l cs y' (good_has_columns k p False l GD)). }
  assert (QP : forall c, fitting_cut p c -> fitting_cut p c) by auto.
  assert (QV : False -> forall c, fitting_cut p c -> proper_cut p c /\ valid_cut p c) by intros [].
  pose proof (fitting_keeps p) as QS.
  pose proof (env2_simulates k LAWS G p False (fitting_cut p) QP QV QS sort SO draw make c d order C (proj2 VI)) as SIM.
  pose proof (env2_ok k LAWS G p PP False (fitting_cut p) QP QV QS sort SO draw make c d order C D (proj1 VI) (proj2 VI)) as OK.
  pose proof (end_branch k LAWS G sort SO draw make order p PP u PR VI False (fitting_cut p) QP QV QS c d D C M RU) as BO.
  pose proof (env2_keeps k LAWS G p False (fitting_cut p) QP QV QS sort SO draw make c d order C (proj2 VI)) as LK.
  set (F := E2 k LAWS G p False (fitting_cut p) QP QV QS sort SO draw make c d order C (proj2 VI)) in *.
  set (x0 := exist (inv k G p False (fitting_cut p)) w0 (I0 False (fitting_cut p))) in *.
  assert (N0 : no_wider p (bounds2 k G p False (fitting_cut p) x0)).
  { intros j v J JI. unfold bounds2, bounds_of. cbn [x0 proj1_sig]. rewrite T, at_nameless_col, at_problem_cols, (proj1 (nth_var_at p j v) J).
    cbn [fst snd t_lb t_ub]. pose proof (eo_bounds _ _ OK) as EB. rewrite Forall_forall in EB.
    assert (IV : In v (p_vars p)) by (unfold nth_var in J; destruct (j <? 0); [discriminate J|]; exact (nth_error_In _ _ J)).
    destruct (EB v IV) as (N1 & N2 & V1 & V2). repeat split; auto using dleb_refl. }
  assert (S : exists s2, s = smap (@proj1_sig _ _) s2 /\ no_wider p (bounds2 k G p False (fitting_cut p) (Solver.world s2))).
  { rewrite EQ in V. destruct V as [V|[fuel V]].
    - destruct (visits_back _ _ _ SIM x0 s V) as (s2 & V2 & ->). exists s2. split; [reflexivity|].
      exact (visits_no_wider F p OK x0 _ BO LK s2 N0 V2).
    - pose proof (sim_Solve _ _ _ SIM fuel x0) as SS. cbn [x0 proj1_sig] in SS. rewrite V in SS. symmetry in SS.
      apply omap_ok in SS as (s2 & R & <-). exists s2. split; [reflexivity|].
      exact (loop_no_wider F p OK x0 _ BO LK fuel (solve_start x0) s2 (visits_start F x0) N0 R). }
  destruct S as (s2 & -> & NW). intros j v J. cbn [smap Solver.world].
  pose proof (proj1 (proj2_sig (Solver.world s2))) as GD.
  destruct (good_col k p False _ j v GD J) as [cc Hc]. assert (Hc' := Hc).
  unfold lp_table in Hc. rewrite at_nameless_col in Hc.
  destruct (at_ (t_cols (table_of (lp_held (lp_of (proj1_sig (Solver.world s2)))))) j) as [c0| | | |] eqn:HC; try discriminate Hc.
  injection Hc as Hc. exists c0. split; [reflexivity|]. destruct (v_int v) eqn:IV.
  - destruct (NW j v J IV) as (_ & _ & A & B). unfold bounds2, bounds_of in A, B. rewrite Hc' in A, B. subst cc. auto.
  - destruct (gd_cont k p False _ GD j v cc J IV Hc') as [A B]. subst cc. auto.
Qed.
