(** Property theorems C41 - C47, C91 and C94 (branch and bound).  Model: [Solver]; the assumptions on the LP
    solver, the cuts and the branching rule are in [SolverSpec]; the LP solver of the examples
    is in [SolverCases]. *)
From Coq Require Import String List ZArith Bool QArith Lia Permutation.
From Verif Require Import Outcome Num Double DoubleFacts Rounding Problem MipData ProblemSpec MipTree
  TreeSpec Branching Solver SolverSpec SolverProofs SolverAgain SolverCases SolverFailures.
Import ListNotations.
Open Scope Z_scope.

(** C41. With a sound LP solver and valid cuts, if Solve() returns OK then the best objective
    is at most the cost of every feasible point.  The best objective is +infinity when there
    is no solution, so then there is no feasible point. *)
Theorem C41_optimum : forall W (E : env W) p w0 bounds rows fuel s,
  env_ok E p -> branch_ok E -> (forall w, dvalid (objective_value E w) = true) ->
  lp_sound E p w0 bounds rows ->
  Solve E fuel w0 = Ok s ->
  forall x, feasible p x ->
  q_above (s_obj (best (res s))) (cost p x) /\ best (res s) <> sol_default.
Proof.
  intros W E p w0 bounds rows fuel s OK BO VO LS H x F.
  exact (solve_optimum E p OK w0 bounds rows BO VO LS fuel s H x F).
Qed.
Print Assumptions C41_optimum.

(** C41: an error is the one of an infeasible root LP; then no point is feasible. *)
Theorem C41_error : forall W (E : env W) p w0 bounds rows fuel c,
  env_ok E p -> branch_ok E -> lp_sound E p w0 bounds rows ->
  Solve E fuel w0 = Err c -> forall x, ~ feasible p x.
Proof.
  intros W E p w0 bounds rows fuel c OK BO LS H.
  exact (solve_err_infeasible E p OK w0 bounds rows fuel c BO LS H).
Qed.
Print Assumptions C41_error.

Example C41_case : env_ok env_a p_a /\ branch_ok env_a /\
  (forall w, dvalid (objective_value env_a w) = true) /\
  lp_sound env_a p_a toy_start toy_bounds (toy_rows half dinf) /\
  (exists s, Solve env_a 5 toy_start = Ok s /\ best (res s) = mkSol [d1] d1 /\ explored s = [0; 1; 2]) /\
  feasible p_a (fun _ => inject_Z 2).
Proof.
  split; [exact env_a_ok|]. split; [exact env_a_branch|].
  split; [exact env_a_valid|]. split; [exact env_a_sound|]. split.
  - eexists. split; [vm_compute; reflexivity|]. split; reflexivity.
  - exact two_feasible.
Qed.

(** C42. Every solution reported is the optimal LP point of a node that was explored, with
    the LP's objective value; its integer variables are within the tolerance of an integer
    and inside the bounds of the problem.  [sol_default] is the placeholder that the result
    starts with. *)
Theorem C42_solutions : forall W (E : env W) p w0 bounds fuel s,
  env_ok E p -> branch_ok E -> lp_keeps_bounds E bounds -> lp_inside E p bounds ->
  dvalid (tolerance E) = true -> is_finite (tolerance E) = true ->
  Solve E fuel w0 = Ok s ->
  forall sol, reported (res s) sol ->
  sol = sol_default \/
  exists s1 n q w,
    visits E w0 s1 /\ take (backjump s1) (queue s1) = Ok (n, q) /\
    solve_node E (mip_tree s1) n (world s1) = Ok w /\ is_optimal E w = true /\
    primal_values E w = Ok (s_vals sol) /\ s_obj sol = objective_value E w /\
    forall j var, nth_var p j = Some var -> v_int var = true ->
      exists v, at_ (s_vals sol) j = Ok v /\ near_integer v (tolerance E) /\
        dleb (v_lb var) v = true /\ dleb v (v_ub var) = true.
Proof.
  intros W E p w0 bounds fuel s OK BO LK LI VT FT H.
  exact (solve_sols E p OK w0 bounds BO LK LI VT FT fuel s H).
Qed.
Print Assumptions C42_solutions.

Example C42_case : env_ok env_a p_a /\ branch_ok env_a /\ lp_keeps_bounds env_a toy_bounds /\
  lp_inside env_a p_a toy_bounds /\ dvalid (tolerance env_a) = true /\ is_finite (tolerance env_a) = true /\
  exists s, Solve env_a 5 toy_start = Ok s /\ reported (res s) (mkSol [d1] d1).
Proof.
  split; [exact env_a_ok|]. split; [exact env_a_branch|]. split; [apply toy_keeps|].
  split; [exact env_a_inside|]. split; [reflexivity|]. split; [reflexivity|].
  eexists. split; [vm_compute; reflexivity|]. left. reflexivity.
Qed.

(** C43. If the integer variables have finite bounds and the LP points lie in the boxes, a
    branching rule that returns fractional variables leads to finitely many nodes. *)
Theorem C43_finite : forall W (E : env W) p w0 bounds,
  env_ok E p -> branch_ok E -> branch_fractional E -> lp_keeps_bounds E bounds -> lp_inside E p bounds ->
  bounded_integers p ->
  exists N, forall s, visits E w0 s -> (length (explored s) <= N)%nat.
Proof.
  intros W E p w0 bounds OK BO BF LK LI BI.
  exact (finitely_many E p OK w0 bounds BO LK LI BF BI).
Qed.
Print Assumptions C43_finite.

(** C43: with max-fractional branching and an LP solver and cuts that do not fail, Solve()
    comes to an end, with OK or with the error of an infeasible root. *)
Theorem C43_terminates : forall W (E : env W) p w0 bounds dir,
  env_ok E p -> max_fractional_env E dir -> lp_keeps_bounds E bounds -> lp_inside E p bounds ->
  bounded_integers p -> lp_total E p ->
  exists fuel0, forall fuel, (fuel0 <= fuel)%nat ->
    (exists s, Solve E fuel w0 = Ok s) \/ Solve E fuel w0 = Err Internal.
Proof.
  intros W E p w0 bounds dir OK MF LK LI BI LT.
  destruct (max_fractional_ok E p OK dir bounds MF LI) as (BO & BF & _).
  exact (solve_terminates E p OK w0 bounds BO LK LI BF BI LT).
Qed.
Print Assumptions C43_terminates.

Example C43_case : env_ok env_a p_a /\ max_fractional_env env_a Down /\ lp_keeps_bounds env_a toy_bounds /\
  lp_inside env_a p_a toy_bounds /\ bounded_integers p_a /\ lp_total env_a p_a.
Proof.
  split; [exact env_a_ok|]. split; [apply toy_mf|]. split; [apply toy_keeps|].
  split; [exact env_a_inside|]. split; [exact bounded_a|]. apply toy_total; try reflexivity. exact env_a_ok.
Qed.

(** C44. If the LP, cut and branching calls succeed and the branching rule returns a valid
    column, no CHECK fails and nothing is undefined: Solve() returns OK, or the error of an
    infeasible root, or needs more rounds than it was given. *)
Theorem C44_defined : forall W (E : env W) p w0 fuel,
  env_ok E p -> branch_ok E -> lp_total E p ->
  (exists s', Solve E fuel w0 = Ok s') \/ Solve E fuel w0 = Err Internal \/ Solve E fuel w0 = Fuel.
Proof. intros W E p w0 fuel OK BO LT. exact (solve_total E p OK w0 fuel BO LT). Qed.
Print Assumptions C44_defined.

(** C44: at all times the queue has no node twice, its nodes are active and have no children,
    and every other active node without children was explored and had an integral LP point
    (such nodes stay in the tree). *)
Theorem C44_queue : forall W (E : env W) p w0 s,
  env_ok E p -> branch_ok E -> visits E w0 s ->
  NoDup (queue s) /\
  (forall n, In n (queue s) -> active (mip_tree s) n /\ num_open_children (mip_tree s) n = Ok 0) /\
  (forall m, active (mip_tree s) m -> num_open_children (mip_tree s) m = Ok 0 ->
     In m (queue s) \/
     exists s1 q w x, visits E w0 s1 /\ take (backjump s1) (queue s1) = Ok (m, q) /\
       solve_node E (mip_tree s1) m (world s1) = Ok w /\ is_optimal E w = true /\
       primal_values E w = Ok x /\ SolutionIsIntegral (order E) x (tolerance E) = Ok true).
Proof. intros W E p w0 s OK BO V. exact (queue_ok E p OK w0 s BO V). Qed.
Print Assumptions C44_queue.

Example C44_case : env_ok env_a p_a /\ branch_ok env_a /\ lp_total env_a p_a /\
  exists s, visits env_a toy_start s /\ queue s = [1; 2].
Proof.
  split; [exact env_a_ok|]. split; [exact env_a_branch|]. split; [apply toy_total; try reflexivity; exact env_a_ok|].
  eexists. split; [apply (run_visits env_a toy_start 1 (solve_start toy_start)); [apply visits_start|vm_compute; reflexivity]|].
  reflexivity.
Qed.

(** C45, full statement: kOptimal only if a solution was found, the objective reported is the
    user's, infeasible and unbounded are told apart.  False on all three counts, with a sound
    and exact LP solver. *)
Theorem C45_status_refuted :
  (exists W (E : env W) p w0 bounds rows s fuel,
     env_ok E p /\ branch_ok E /\ lp_sound E p w0 bounds rows /\ lp_exact E p /\
     Solve E fuel w0 = Ok s /\ status s = Some kOptimal /\ best (res s) = sol_default) /\
  (exists W (E : env W) p w0 bounds rows s fuel,
     env_ok E p /\ branch_ok E /\ lp_sound E p w0 bounds rows /\ lp_exact E p /\
     Solve E fuel w0 = Ok s /\ best (res s) <> sol_default /\ p_max p = false /\
     ~ (qval (s_obj (best (res s))) == user_objective p (point_of (s_vals (best (res s)))))%Q) /\
  (exists W (E : env W) p w0 bounds rows s fuel,
     env_ok E p /\ branch_ok E /\ lp_sound E p w0 bounds rows /\ lp_exact E p /\
     Solve E fuel w0 = Ok s /\ best (res s) = mkSol [dint 2] (dint (-2)) /\ p_max p = true) /\
  kInfeasible = kUnbounded.
Proof. exact status_refuted. Qed.
Print Assumptions C45_status_refuted.
(** The other statuses are told apart. *)
Theorem C45_codes_partial :
  NoDup [kProblemInvalid; kNotSolved; kOptimal; kFeasible; kImprecise; kInfeasible; kInfeasibleOrUnbounded].
Proof. exact status_codes. Qed.
Print Assumptions C45_codes_partial.

(** C45, what does hold: an OK result has status kOptimal; if the problem is feasible there is
    a solution; and with an exact LP the user's objective of a reported point is the offset
    plus the reported value, negated for a maximisation problem.
    Missing: exactly what the refutation shows. *)
Theorem C45_status_partial : forall W (E : env W) p w0 bounds rows fuel s,
  env_ok E p -> branch_ok E -> (forall w, dvalid (objective_value E w) = true) ->
  lp_sound E p w0 bounds rows -> lp_exact E p ->
  Solve E fuel w0 = Ok s ->
  status s = Some kOptimal /\
  ((exists x, feasible p x) -> best (res s) <> sol_default) /\
  forall sol, reported (res s) sol -> sol <> sol_default ->
    (user_objective p (point_of (s_vals sol)) ==
     qval (p_offset p) + (if p_max p then -1 else 1) * qval (s_obj sol))%Q.
Proof.
  intros W E p w0 bounds rows fuel s OK BO VO LS LE H.
  exact (status_partial E p OK w0 bounds rows BO VO LS LE fuel s H).
Qed.
Print Assumptions C45_status_partial.

Example C45_case : env_ok env_a p_a /\ branch_ok env_a /\
  (forall w, dvalid (objective_value env_a w) = true) /\
  lp_sound env_a p_a toy_start toy_bounds (toy_rows half dinf) /\ lp_exact env_a p_a /\
  (exists s, Solve env_a 5 toy_start = Ok s /\ reported (res s) (mkSol [d1] d1)) /\ exists x, feasible p_a x.
Proof.
  split; [exact env_a_ok|]. split; [exact env_a_branch|].
  split; [exact env_a_valid|]. split; [exact env_a_sound|].
  split; [apply toy_exact; reflexivity|]. split; [|eexists; exact two_feasible].
  eexists. split; [vm_compute; reflexivity|]. left. reflexivity.
Qed.

(** C46, full statement: the convenience function returns the result whenever solving
    succeeds.  False: creating and solving succeed, and the answer is an internal error;
    no call ever returns a result. *)
Theorem C46_convenience_refuted :
  (exists W (factories : mip_data -> outcome (env W * W)) populate p fuel E w0 s,
     Create factories populate p = Ok (E, w0) /\ Solve E fuel w0 = Ok s /\
     best (res s) <> sol_default /\ SolveProblem factories populate p fuel = Err Internal) /\
  (forall W (factories : mip_data -> outcome (env W * W)) populate p fuel r,
     SolveProblem factories populate p fuel <> Ok r).
Proof.
  split; [|intros W factories populate p fuel r; exact (convenience_never factories populate p fuel r)].
  eexists toy, (fun _ => Ok (env_a, toy_start)), (fun w _ => Ok w), p_a, 5%nat, env_a, toy_start, _.
  split; [reflexivity|]. split; [vm_compute; reflexivity|]. split; [discriminate|vm_compute; reflexivity].
Qed.
Print Assumptions C46_convenience_refuted.

(** C46, what does hold: errors of creation and of solving are passed on.
    Missing: the result. *)
Theorem C46_convenience_partial : forall W (factories : mip_data -> outcome (env W * W)) populate p fuel c,
  (Create factories populate p = Err c -> SolveProblem factories populate p fuel = Err c) /\
  (forall E w0, Create factories populate p = Ok (E, w0) -> Solve E fuel w0 = Err c ->
     SolveProblem factories populate p fuel = Err c) /\
  (FindError p <> None -> SolveProblem factories populate p fuel = Err InvalidArgument).
Proof.
  intros W factories populate p fuel c. unfold SolveProblem. split; [intros ->; reflexivity|].
  split; [intros E w0 -> H; cbn [bind]; rewrite H; reflexivity|].
  intros H. unfold Create. destruct (FindError p); [reflexivity|congruence].
Qed.
Print Assumptions C46_convenience_partial.
(** A missing factory; a variable without a name. *)
Example C46_case :
  let none : mip_data -> outcome (env toy * toy) := fun _ => Err FailedPrecondition in
  let anonymous := mkProblem "P" [mkVar "" d1 d0 d1 true] [] [] false d0 in
  Create none (fun w _ => Ok w) p_a = Err FailedPrecondition /\
  SolveProblem none (fun w _ => Ok w) p_a 5 = Err FailedPrecondition /\
  FindError anonymous <> None /\
  SolveProblem (fun _ => Ok (env_a, toy_start)) (fun w _ => Ok w) anonymous 5 = Err InvalidArgument.
Proof. split; [vm_compute; reflexivity|]. split; [vm_compute; reflexivity|]. split; [discriminate|vm_compute; reflexivity]. Qed.

(** C47, full statement (limit 1 or 2: after an infeasible node its unexplored sibling is
    next; limit 0: back-jump to the top of the tree at once).  False: with limits 1 and 2 the
    next node is one higher up in the tree, with limit 0 it is the sibling. *)
Theorem C47_sibling_refuted :
  (forall limit, limit = 1 \/ limit = 2 ->
   exists W (E : env W) p w0 s s' n m k, env_ok E p /\ branch_ok E /\ backtrack_limit E = limit /\
     visits E w0 s /\ takes_infeasible E s n /\ siblings (mip_tree s) n m /\
     solver_round E s = Ok (Continue s') /\ In m (queue s') /\ takes s' k /\ k <> m /\
     exists dk dm, node (mip_tree s) k = Ok dk /\ node (mip_tree s) m = Ok dm /\ depth dk < depth dm) /\
  (exists W (E : env W) p w0 s s' n m k, env_ok E p /\ branch_ok E /\ backtrack_limit E = 0 /\
     visits E w0 s /\ takes_infeasible E s n /\ siblings (mip_tree s) n m /\
     solver_round E s = Ok (Continue s') /\ takes s' m /\ In k (queue s') /\
     exists dk dm, node (mip_tree s) k = Ok dk /\ node (mip_tree s) m = Ok dm /\ depth dk < depth dm).
Proof.
  split.
  - intros limit H.
    assert (P : plunges limit 2) by (destruct H as [->| ->]; [exact plunge_1|exact plunge_2]).
    destruct P as (s & s' & V & _ & T & S & D & R & Q & N). exists toy, (env_0 limit), p_0, toy_start, s, s', 3, 4, 2.
    split; [apply env_0_ok|]. split; [apply env_0_branch|]. rewrite Q.
    split; [reflexivity|]. do 4 (split; [assumption|]). split; [cbn; auto|]. split; [assumption|]. split; [lia|exact D].
  - destruct plunge_0 as (s & s' & V & _ & T & S & D & R & Q & N). exists toy, (env_0 0), p_0, toy_start, s, s', 3, 4, 2.
    split; [apply env_0_ok|]. split; [apply env_0_branch|]. rewrite Q.
    split; [reflexivity|]. do 5 (split; [assumption|]). split; [cbn; auto|exact D].
Qed.
Print Assumptions C47_sibling_refuted.

(** C47, the part about -1 (and any limit of at most 0): the search never jumps.  The node
    taken is the deepest one waiting; only its own sibling can be as deep.
    Missing: positive limits. *)
Theorem C47_depth_first_partial : forall W (E : env W) p w0 s n q dn m dm,
  env_ok E p -> branch_ok E -> backtrack_limit E <= 0 -> visits E w0 s ->
  take (backjump s) (queue s) = Ok (n, q) -> node (mip_tree s) n = Ok dn ->
  In m q -> node (mip_tree s) m = Ok dm ->
  depth dm < depth dn \/ (depth dm = depth dn /\ parent dm = parent dn).
Proof.
  intros W E p w0 s n q dn m dm OK BO LIM V TK N M H.
  exact (depth_first E p OK w0 s n q dn m dm BO LIM V TK N M H).
Qed.
Print Assumptions C47_depth_first_partial.

(** C47: after an infeasible node the waiting node at the back is taken exactly if the limit
    is at most the number of infeasible nodes counted so far; the count is then reset. *)
Theorem C47_limit_partial : forall W (E : env W) s s' n,
  takes_infeasible E s n -> solver_round E s = Ok (Continue s') ->
  (backjump s' = true <-> backtrack_limit E <= infeasible_run s) /\
  infeasible_run s' = if backjump s' then 0 else infeasible_run s + 1.
Proof. intros W E s s' n. exact (backtrack_rounds E s s' n). Qed.
Print Assumptions C47_limit_partial.

Example C47_case : env_ok (env_0 (-1)) p_0 /\ branch_ok (env_0 (-1)) /\ backtrack_limit (env_0 (-1)) = -1 /\
  exists s s', visits (env_0 (-1)) toy_start s /\ takes_infeasible (env_0 (-1)) s 3 /\
    solver_round (env_0 (-1)) s = Ok (Continue s') /\ queue s' = [2; 4] /\ takes s' 4.
Proof.
  split; [apply env_0_ok|]. split; [apply env_0_branch|]. split; [reflexivity|].
  destruct plunge_m1 as (s & s' & V & _ & T & S & D & R & Q & N). exists s, s'. auto.
Qed.

(** *** C91 *)
(** C91, full statement: after Solve() returned OK it may be called again on the same solver; it
    ends with OK, and the best solution is as good as before.  False: with LP, cut and branching
    calls that never fail, the second call aborts. *)
Theorem C91_again_refuted : exists W (E : env W) p w0 bounds rows s fuel,
  env_ok E p /\ branch_ok E /\ lp_sound E p w0 bounds rows /\ lp_exact E p /\ lp_total E p /\
  Solve E fuel w0 = Ok s /\ best (res s) <> sol_default /\ forall fuel', SolveAgain E (S fuel') s = Abort.
Proof.
  destruct again_trips as (s & S & B & _ & A). exists toy, env_a, p_a, toy_start, toy_bounds, (toy_rows half dinf), s, 5%nat.
  split; [exact env_a_ok|]. split; [exact env_a_branch|]. split; [exact env_a_sound|]. split; [apply toy_exact; reflexivity|].
  split; [apply toy_total; try reflexivity; exact env_a_ok|]. split; [exact S|]. split; [rewrite B; discriminate|exact A].
Qed.
Print Assumptions C91_again_refuted.

(** C91: it fails after every run that explored more than the root: no number of rounds makes the
    second call return OK, and it aborts unless the root LP is now found not to be optimal. *)
Theorem C91_fails_partial : forall W (E : env W) p w0 fuel s,
  env_ok E p -> branch_ok E -> Solve E fuel w0 = Ok s -> explored s <> [0] ->
  (forall fuel' s', SolveAgain E fuel' s <> Ok s') /\
  (lp_total E p -> forall fuel', SolveAgain E (S fuel') s = Abort \/
     (SolveAgain E (S fuel') s = Err Internal /\
      exists w, solve_node E (mip_tree s) 0 (world s) = Ok w /\ is_optimal E w = false)).
Proof.
  intros W E p w0 fuel s OK BO H X. split; [exact (again_refused E p OK w0 fuel s BO H X)|].
  intros LT. exact (again_aborts E p OK w0 fuel s BO LT H X).
Qed.
Print Assumptions C91_fails_partial.

(** C91, what does hold: after a run that explored the root only, the second call ends, its best
    solution is the old one or a better one, and it is still at most the cost of every feasible
    point.  Missing: runs that branched. *)
Theorem C91_again_partial : forall W (E : env W) p w0 bounds dir fuel s,
  env_ok E p -> max_fractional_env E dir -> lp_keeps_bounds E bounds -> lp_inside E p bounds ->
  bounded_integers p -> lp_total E p ->
  Solve E fuel w0 = Ok s -> explored s = [0] ->
  (exists fuel0, forall fuel', (fuel0 <= fuel')%nat ->
     (exists s', SolveAgain E fuel' s = Ok s') \/ SolveAgain E fuel' s = Err Internal) /\
  (forall fuel' s', SolveAgain E fuel' s = Ok s' ->
     best (res s') = best (res s) \/ dltb (s_obj (best (res s'))) (s_obj (best (res s))) = true).
Proof.
  intros W E p w0 bounds dir fuel s OK MF LK LI BI LT H X.
  exact (again_after_root E p w0 bounds dir fuel s OK MF LK LI BI LT H X).
Qed.
Print Assumptions C91_again_partial.

Theorem C91_optimum_partial : forall W (E : env W) p w0 bounds rows fuel s fuel' s',
  env_ok E p -> branch_ok E -> (forall w, dvalid (objective_value E w) = true) ->
  lp_sound E p w0 bounds rows ->
  Solve E fuel w0 = Ok s -> SolveAgain E fuel' s = Ok s' ->
  forall x, feasible p x -> q_above (s_obj (best (res s'))) (cost p x).
Proof. exact @again_bound. Qed.
Print Assumptions C91_optimum_partial.

Example C91_case : env_ok env_d p_d /\ max_fractional_env env_d Down /\ lp_keeps_bounds env_d toy_bounds /\
  lp_inside env_d p_d toy_bounds /\ bounded_integers p_d /\ lp_total env_d p_d /\
  lp_sound env_d p_d toy_start toy_bounds (toy_rows d1 dinf) /\ (forall w, dvalid (objective_value env_d w) = true) /\
  exists s s', Solve env_d 5 toy_start = Ok s /\ explored s = [0] /\ SolveAgain env_d 5 s = Ok s' /\
    best (res s') = mkSol [d1] d1 /\ best (res s) = mkSol [d1] d1.
Proof. split; [exact env_d_ok|exact env_d_case]. Qed.
Example C91_fails_case : env_ok env_a p_a /\ branch_ok env_a /\ lp_total env_a p_a /\
  exists s, Solve env_a 5 toy_start = Ok s /\ explored s <> [0].
Proof.
  split; [exact env_a_ok|]. split; [exact env_a_branch|]. split; [apply toy_total; try reflexivity; exact env_a_ok|].
  destruct again_trips as (s & S & _ & X & _). exists s. split; [exact S|]. rewrite X. discriminate.
Qed.

(** C94, full statement: when a call into the LP solver, the cut runner or the branching rule
    fails, Solve() returns an error.  False: the process is aborted. *)
Theorem C94_failure_refuted : forall c, exists (E : env toy) p w0, env_ok E p /\ branch_ok E /\
  (forall w, solve_dual E w = Err c) /\ forall fuel, Solve E (S fuel) w0 = Abort.
Proof.
  intros c. exists (env_failing c), p_a, toy_start. split; [exact (failing_ok c)|].
  split; [exact (failing_branch c)|]. split; [reflexivity|exact (failing_aborts c)].
Qed.
Print Assumptions C94_failure_refuted.

(** C94: it is aborted whenever, in a state that a run from [w0] reaches, solving the LP of the
    node that is taken, separating, reading the primal values or choosing a variable fails. *)
Theorem C94_failure_aborts : forall W (E : env W) p w0 s n c, env_ok E p -> branch_ok E ->
  visits E w0 s -> takes s n ->
  (exists lo up w1,
     RetrieveLower (mip_tree s) n (lower_bounds (data E)) = Ok lo /\
     RetrieveUpper (mip_tree s) n (upper_bounds (data E)) = Ok up /\
     set_node_bounds E (world s) lo up = Ok w1 /\
     (solve_dual E w1 = Err c \/
      exists w2, solve_dual E w1 = Ok w2 /\ is_optimal E w2 = true /\ separate E w2 = Err c)) \/
  (exists w, solve_node E (mip_tree s) n (world s) = Ok w /\ is_optimal E w = true /\
     (primal_values E w = Err c \/
      exists x, primal_values E w = Ok x /\ SolutionIsIntegral (order E) x (tolerance E) = Ok false /\
        branch E w = Err c)) ->
  exists k, forall fuel, Solve E (k + fuel) w0 = Abort.
Proof. exact (fun W E p w0 s n c OK BO => failure_aborts E p OK w0 BO s n c). Qed.
Print Assumptions C94_failure_aborts.

(** C94, what does hold: the only error that Solve() returns is the internal one for an LP at the
    root that is not solved to optimality. *)
Theorem C94_failure_partial : forall W (E : env W) p w0 fuel c, env_ok E p -> branch_ok E ->
  Solve E fuel w0 = Err c ->
  c = Internal /\ exists w, solve_node E tree_new 0 w0 = Ok w /\ is_optimal E w = false.
Proof. exact (fun W E p w0 fuel c OK => solve_err E p OK w0 fuel c). Qed.
Print Assumptions C94_failure_partial.

Example C94_case : takes (solve_start toy_start) 0 /\ (exists lo up w1,
  RetrieveLower tree_new 0 (lower_bounds (data (env_failing Internal))) = Ok lo /\
  RetrieveUpper tree_new 0 (upper_bounds (data (env_failing Internal))) = Ok up /\
  set_node_bounds (env_failing Internal) toy_start lo up = Ok w1 /\
  solve_dual (env_failing Internal) w1 = Err Internal) /\
  Solve (toy_env false (dint 4) dinf data_a 2) 1 toy_start = Err Internal.
Proof.
  split; [exists []; reflexivity|]. split; [|vm_compute; reflexivity].
  eexists. eexists. eexists. split; [vm_compute; reflexivity|]. split; [vm_compute; reflexivity|].
  split; [vm_compute; reflexivity|reflexivity].
Qed.
