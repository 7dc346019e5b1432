(** The solver as a whole, from Solver::Create to the answer of Solve(), with the Glop or the
    SoPlex interface, the default cut runner, the hybrid selector and max-fractional branching.  The assumptions on
    the LP engines, the cut generators, the problem and the request are in [WholeSpec]; the engines
    of the examples are in [WholeCases]. *)
From Coq Require Import String List ZArith Bool QArith Qabs Lia.
From Verif Require Import Outcome Num Double DoubleFacts Rounding SparseVector VectorSpec Aggregation Problem
  MipData ProblemSpec MipDataProofs CutsData Selector Runner CutSpec CutProofs LpParams GlopLp GlopIface GlopSpec SoplexIface
  Branching Params ReaderSpec Solver SolverSpec SolverCases GlopCases SoplexCases Whole WholeSpec WholeProofs
  WholeRun WholeCases WholeGap WholeUnsettled WholeRandom WholeRounds WholeLp WholeBox.
Import ListNotations.
Open Scope Z_scope.

(** *** C76 *)
(** If the LP solver asked for answers as in exact arithmetic and the cuts are valid (or switched off), then the best
    objective value is at most the cost of every feasible point of the user's problem, a solution
    is there if a feasible point is, and Solve() fails only if there is none. *)
Theorem C76_optimum : forall E X G p0 mx flag sort draw (make : list rounder * Z -> generator (E := E) (X := X) G)
    g order p u e w0,
  plain_lp E X (wanted_solver u) -> exact_lp E X (wanted_solver u) ->
  proper_problem p -> bounded_relaxation p -> plain_request u ->
  sorts sort -> visits_integers p order ->
  no_cuts u \/ (forall a, valid_generator p (make a)) ->
  CreateSolver G p0 mx flag sort draw make g order p u = Ok (e, w0) ->
  (forall fuel s, Solve e fuel w0 = Ok s -> forall x, feasible p x ->
     q_above (s_obj (best (res s))) (cost p x) /\ best (res s) <> sol_default) /\
  (forall fuel r, Solve e fuel w0 = Err r -> forall x, ~ feasible p x).
Proof. exact @whole_optimum. Qed.
Print Assumptions C76_optimum.

Example C76_case : forall k, plain_lp (line false) (xline false) k /\ exact_lp (line false) (xline false) k /\
  proper_problem p_w /\ bounded_relaxation p_w /\ plain_request (asking k params_empty) /\
  plain_request (asking k without_cuts) /\ wanted_solver (asking k params_empty) = k /\
  wanted_solver (asking k without_cuts) = k /\
  sorts (fun l => fold_right insert_cut' [] l) /\ visits_integers p_w [0] /\
  (forall a, valid_generator p_w (make_two (E := line false) (X := xline false) a)) /\ no_cuts (asking k without_cuts) /\
  outcome_of (whole_of false (asking k params_empty)) 5 =
    Ok (mkSol [dint 2] (dint (-2)), [0], [Runner.AddRow (vec [(0, 1)]) dminf (dint 2) "two"; SolveDual]) /\
  outcome_of (whole_of false (asking k without_cuts)) 5 = Ok (mkSol [dint 2] (dint (-2)), [0; 2; 1], []) /\
  feasible p_w (fun _ => inject_Z 1).
Proof.
  intros k. split; [apply lines_plain|]. split; [apply lines_exact|]. split; [exact p_w_proper|].
  split; [exact p_w_bounded|]. split; [exact (asking_plain k params_empty eq_refl defaults_plain)|].
  split; [exact (asking_plain k without_cuts eq_refl without_plain)|].
  split; [exact (asking_wanted k params_empty eq_refl)|]. split; [exact (asking_wanted k without_cuts eq_refl)|].
  split; [exact insertion_sorts|]. split; [exact p_w_visits|]. split; [exact (two_generator _ _)|].
  split; [destruct k; discriminate|]. split; [apply run_with_cut|]. split; [apply run_branching|]. apply p_w_feasible. lia.
Qed.

(** *** C77 *)
(** With bounded integer variables, Glop as an LP solver that never fails and keeps its solutions inside
    the bounds, and generators that never fail (or no cuts), a solver is created and Solve() ends,
    with OK or with the error of an infeasible root: no CHECK fails and nothing is undefined on the
    way. *)
Theorem C77_terminates : forall E X G p0 mx flag sort draw (make : list rounder * Z -> generator (E := E) (X := X) G)
    g order p u,
  engine_laws E -> plain_engine E -> engine_inside E -> engine_runs E ->
  proper_problem p -> bounded_integers p -> plain_request u ->
  wanted_solver u = LP_GLOP -> glop_supports (wanted_lp u) ->
  sorts sort -> visits_integers p order ->
  no_cuts u \/ (forall a, total_generator p (make a)) ->
  exists e w0, CreateSolver G p0 mx flag sort draw make g order p u = Ok (e, w0) /\
  exists fuel0, forall fuel, (fuel0 <= fuel)%nat ->
    (exists s, Solve e fuel w0 = Ok s) \/ Solve e fuel w0 = Err Internal.
Proof. exact @whole_terminates. Qed.
Print Assumptions C77_terminates.

(** A malformed problem is rejected. *)
Theorem C77_rejects : forall E X G p0 mx flag sort draw (make : list rounder * Z -> generator (E := E) (X := X) G) g order p u,
  ~ problem_ok_upto (num_vars p) p ->
  CreateSolver G p0 mx flag sort draw make g order p u = Err InvalidArgument.
Proof. exact @whole_rejects. Qed.
Print Assumptions C77_rejects.

(** A new solver has no cuts, and separation leaves everything as it is if the LP is not solved, is
    infeasible or unbounded, or was stopped by a limit. *)
Theorem C77_guard : forall E X G p0 mx flag sort draw (make : list rounder * Z -> generator (E := E) (X := X) G)
    g order p u e w0,
  CreateSolver G p0 mx flag sort draw make g order p u = Ok (e, w0) ->
  num_cutrounds w0 = 0 /\ reg w0 = reg_new /\ calls w0 = [] /\
  forall w l, l = lp_of w ->
    (exists s, l = GlopLpi s /\
      (IsSolved s = false \/ IsPrimalInfeasible s = true \/ IsPrimalUnbounded s = true \/ IsDualInfeasible s = true \/
       IsDualUnbounded s = true \/ TimeLimitIsExceeded s = true \/ IterationLimitIsExceeded s = true \/
       ObjectiveLimitIsExceeded s = true)) \/
    (exists s, l = SoplexLpi s /\
      (SpxIsSolved s = false \/ SpxIsPrimalInfeasible s = true \/ SpxIsPrimalUnbounded s = true \/
       SpxIsDualInfeasible s = true \/ SpxIsDualUnbounded s = true \/ SpxTimeLimitIsExceeded s = true \/
       SpxIterationLimitIsExceeded s = true \/ SpxObjectiveLimitIsExceeded s = true)) ->
    Solver.separate e w = Ok w.
Proof. exact @whole_guard. Qed.
Print Assumptions C77_guard.

Example C77_case : engine_laws (line true) /\ plain_engine (line true) /\ engine_inside (line true) /\
  engine_runs (line true) /\ proper_problem p_w /\ bounded_integers p_w /\ plain_request params_empty /\
  wanted_solver params_empty = LP_GLOP /\ glop_supports (wanted_lp params_empty) /\ visits_integers p_w [0] /\
  (forall a, total_generator p_w (make_two (E := line true) (X := xline true) a)) /\
  ~ problem_ok_upto 1 (toy_problem true d0 five_halves half).
Proof.
  split; [apply line_laws|]. split; [apply line_plain|]. split; [apply line_inside|]. split; [exact line_runs|].
  split; [exact p_w_proper|]. split; [exact p_w_integers|]. split; [exact defaults_plain|].
  split; [reflexivity|]. split; [exact defaults_supported|]. split; [exact p_w_visits|]. split; [exact (two_total _ _)|].
  intros H. apply (find_error_iff (toy_problem true d0 five_halves half)) in H. discriminate H.
Qed.

(** *** C78 *)
(** Every reported solution has one value per variable, and its integer variables are within the
    requested tolerance of an integer and inside the bounds of the user's problem. *)
Theorem C78_solutions : forall E X G p0 mx flag sort draw (make : list rounder * Z -> generator (E := E) (X := X) G)
    g order p u e w0,
  plain_lp E X (wanted_solver u) -> inside_lp E X (wanted_solver u) ->
  proper_problem p -> plain_request u -> sorts sort -> visits_integers p order ->
  no_cuts u \/ (forall a, proper_generator p (make a)) ->
  CreateSolver G p0 mx flag sort draw make g order p u = Ok (e, w0) ->
  forall fuel s, Solve e fuel w0 = Ok s -> forall sol, reported (res s) sol ->
  sol = sol_default \/
  (Z.of_nat (length (s_vals sol)) = num_vars p /\
   forall j var, nth_var p j = Some var -> v_int var = true ->
   exists v, at_ (s_vals sol) j = Ok v /\ near_integer v (setting (pm_integrality u) d1em6) /\
     dleb (v_lb var) v = true /\ dleb v (v_ub var) = true).
Proof. exact @whole_solutions. Qed.
Print Assumptions C78_solutions.

Example C78_case : forall k, plain_lp (line true) (xline true) k /\ inside_lp (line true) (xline true) k /\
  proper_problem p_w /\ plain_request (asking k without_cuts) /\ wanted_solver (asking k without_cuts) = k /\
  visits_integers p_w [0] /\ no_cuts (asking k without_cuts) /\
  outcome_of (whole_of true (asking k without_cuts)) 5 = Ok (mkSol [dint 2] (dint (-2)), [0; 2; 1], []).
Proof.
  intros k. split; [apply lines_plain|]. split; [apply lines_inside|]. split; [exact p_w_proper|].
  split; [exact (asking_plain k without_cuts eq_refl without_plain)|]. split; [exact (asking_wanted k without_cuts eq_refl)|].
  split; [exact p_w_visits|]. split; [destruct k; discriminate|]. apply run_branching.
Qed.

(** *** C85 *)
(** If the LP solver's values satisfy its rows up to [eps] and its objective value is right up to
    [eps], then every reported solution has a finite value inside the bounds for every variable
    (integer or not), satisfies every constraint of the user's problem up to [eps], and its objective
    value is the cost of these values up to [eps].  The cuts need not be valid. *)
Theorem C85_constraints : forall E X G p0 mx flag sort draw (make : list rounder * Z -> generator (E := E) (X := X) G)
    g order p u e w0 eps,
  plain_lp E X (wanted_solver u) -> inside_lp E X (wanted_solver u) -> accurate_lp eps E X (wanted_solver u) ->
  proper_problem p -> plain_request u -> sorts sort -> visits_integers p order ->
  no_cuts u \/ (forall a, proper_generator p (make a)) ->
  CreateSolver G p0 mx flag sort draw make g order p u = Ok (e, w0) ->
  forall fuel s, Solve e fuel w0 = Ok s -> forall sol, reported (res s) sol ->
  sol = sol_default \/
  ((forall j var, nth_var p j = Some var -> exists v, at_ (s_vals sol) j = Ok v /\ finite_double v /\
      dleb (v_lb var) v = true /\ dleb v (v_ub var) = true) /\
   (forall r k, nth_con p r = Some k ->
      q_above (c_lhs k) (row_activity k (solution_point sol) + eps)%Q /\
      q_below (row_activity k (solution_point sol) - eps)%Q (c_rhs k)) /\
   finite_double (s_obj sol) /\ (Qabs (qval (s_obj sol) - cost p (solution_point sol)) <= eps)%Q).
Proof. exact @whole_values. Qed.
Print Assumptions C85_constraints.

(** With an exact LP solver, valid cuts (or none) and no integrality tolerance, the best solution is
    a feasible point of the user's problem of the least cost, and there is none only if the problem
    has no feasible point. *)
Theorem C85_optimal : forall E X G p0 mx flag sort draw (make : list rounder * Z -> generator (E := E) (X := X) G)
    g order p u e w0,
  plain_lp E X (wanted_solver u) -> exact_lp E X (wanted_solver u) -> inside_lp E X (wanted_solver u) ->
  accurate_lp 0 E X (wanted_solver u) ->
  proper_problem p -> bounded_relaxation p -> plain_request u -> zval (setting (pm_integrality u) d1em6) = 0 ->
  sorts sort -> visits_integers p order ->
  no_cuts u \/ (forall a, valid_generator p (make a)) ->
  CreateSolver G p0 mx flag sort draw make g order p u = Ok (e, w0) ->
  forall fuel s, Solve e fuel w0 = Ok s ->
  (best (res s) = sol_default /\ forall y, ~ feasible p y) \/
  (feasible p (solution_point (best (res s))) /\
   (qval (s_obj (best (res s))) == cost p (solution_point (best (res s))))%Q /\
   forall y, feasible p y -> (cost p (solution_point (best (res s))) <= cost p y)%Q).
Proof. exact @whole_argmin. Qed.
Print Assumptions C85_optimal.

Example C85_case : forall k, plain_lp (line false) (xline false) k /\ exact_lp (line false) (xline false) k /\
  inside_lp (line false) (xline false) k /\ accurate_lp 0 (line false) (xline false) k /\
  proper_problem p_w /\ bounded_relaxation p_w /\
  plain_request (asking k exact_integers) /\ wanted_solver (asking k exact_integers) = k /\
  zval (setting (pm_integrality (asking k exact_integers)) d1em6) = 0 /\ visits_integers p_w [0] /\
  (forall a, valid_generator p_w (make_two (E := line false) (X := xline false) a)) /\
  outcome_of (whole_of false (asking k exact_integers)) 5 =
    Ok (mkSol [dint 2] (dint (-2)), [0], [Runner.AddRow (vec [(0, 1)]) dminf (dint 2) "two"; SolveDual]).
Proof.
  intros k. split; [apply lines_plain|]. split; [apply lines_exact|]. split; [apply lines_inside|].
  split; [apply lines_accurate|]. split; [exact p_w_proper|]. split; [exact p_w_bounded|].
  split; [exact (asking_plain k exact_integers eq_refl exact_plain)|]. split; [exact (asking_wanted k exact_integers eq_refl)|].
  split; [destruct k; reflexivity|]. split; [exact p_w_visits|]. split; [exact (two_generator _ _)|]. apply run_exact.
Qed.

(** *** C87 *)
(** Two exact runs on one problem agree, whatever LP solvers, parameters, cuts, sorting and order of
    the integer variables they use: either both report the same best objective value, or neither
    has a solution. *)
Theorem C87_same_answer : forall
    E X G p0 mx flag sort draw (make : list rounder * Z -> generator (E := E) (X := X) G) g order u e w0
    E' X' G' p0' mx' flag' sort' draw' (make' : list rounder * Z -> generator (E := E') (X := X') G') g' order' u' e' w0' p,
  plain_lp E X (wanted_solver u) -> exact_lp E X (wanted_solver u) -> inside_lp E X (wanted_solver u) ->
  accurate_lp 0 E X (wanted_solver u) -> plain_request u -> zval (setting (pm_integrality u) d1em6) = 0 ->
  sorts sort -> visits_integers p order -> no_cuts u \/ (forall a, valid_generator p (make a)) ->
  CreateSolver G p0 mx flag sort draw make g order p u = Ok (e, w0) ->
  plain_lp E' X' (wanted_solver u') -> exact_lp E' X' (wanted_solver u') -> inside_lp E' X' (wanted_solver u') ->
  accurate_lp 0 E' X' (wanted_solver u') -> plain_request u' -> zval (setting (pm_integrality u') d1em6) = 0 ->
  sorts sort' -> visits_integers p order' -> no_cuts u' \/ (forall a, valid_generator p (make' a)) ->
  CreateSolver G' p0' mx' flag' sort' draw' make' g' order' p u' = Ok (e', w0') ->
  proper_problem p -> bounded_relaxation p ->
  forall fuel fuel' s', Solve e' fuel' w0' = Ok s' ->
  (forall s, Solve e fuel w0 = Ok s ->
     (best (res s) = sol_default /\ best (res s') = sol_default) \/
     (best (res s) <> sol_default /\ best (res s') <> sol_default /\
      (qval (s_obj (best (res s))) == qval (s_obj (best (res s'))))%Q)) /\
  (forall r, Solve e fuel w0 = Err r -> best (res s') = sol_default).
Proof. exact whole_agree. Qed.
Print Assumptions C87_same_answer.
(** [C85_case] has the hypotheses for both LP solvers; here without cuts. *)
Example C87_same_answer_case : forall k, plain_request (asking k exact_without_cuts) /\
  no_cuts (asking k exact_without_cuts) /\
  zval (setting (pm_integrality (asking k exact_without_cuts)) d1em6) = 0 /\
  outcome_of (whole_of false (asking k exact_without_cuts)) 5 = Ok (mkSol [dint 2] (dint (-2)), [0; 2; 1], []).
Proof.
  intros k. split; [exact (asking_plain k exact_without_cuts eq_refl exact_without_plain)|].
  split; [destruct k; discriminate|]. split; [destruct k; reflexivity|]. apply run_exact_branching.
Qed.

(** *** C88 *)
(** With SoPlex the termination of C77 does not hold: Solve() aborts on a feasible problem with
    bounded integer variables, although the LP solver never fails.  Maximise x with x <= 2 and x an
    integer between 0 and 3/2: after branching on x = 3/2 one child has bounds 2 and 3/2, which the
    interface refuses to solve.  With Glop the answer is x = 1. *)
Theorem C88_terminates_refuted : exists E X G p0 mx flag sort draw
    (make : list rounder * Z -> generator (E := E) (X := X) G) g order p u e w0,
  (plain_spx X /\ spx_inside X /\ spx_runs X /\ finite_double (x_eps_zero X) /\ 0 <= zval (x_eps_zero X) /\
   proper_problem p /\ bounded_integers p /\ plain_request u /\ wanted_solver u = LP_SOPLEX /\
   sorts sort /\ visits_integers p order /\ no_cuts u /\
   CreateSolver G p0 mx flag sort draw make g order p u = Ok (e, w0)) /\
  (exists fuel0, forall fuel, (fuel0 <= fuel)%nat -> Solve e fuel w0 = Abort) /\
  (exists u' e' w0' s, wanted_solver u' = LP_GLOP /\
     CreateSolver G p0 mx flag sort draw make g order p u' = Ok (e', w0') /\
     Solve e' 5 w0' = Ok s /\ best (res s) = mkSol [d1] (dint (-1))).
Proof. exact gap_refutes. Qed.
Print Assumptions C88_terminates_refuted.

(** It does if the integer variables have whole bounds. *)
Theorem C88_terminates_partial : forall E X G p0 mx flag sort draw
    (make : list rounder * Z -> generator (E := E) (X := X) G) g order p u e w0,
  plain_spx X -> spx_inside X -> spx_runs X -> finite_double (x_eps_zero X) -> 0 <= zval (x_eps_zero X) ->
  proper_problem p -> bounded_integers p -> whole_bounds p -> plain_request u -> wanted_solver u = LP_SOPLEX ->
  sorts sort -> visits_integers p order ->
  no_cuts u \/ (forall a, total_generator p (make a)) ->
  CreateSolver G p0 mx flag sort draw make g order p u = Ok (e, w0) ->
  exists fuel0, forall fuel, (fuel0 <= fuel)%nat ->
    (exists s, Solve e fuel w0 = Ok s) \/ Solve e fuel w0 = Err Internal.
Proof. exact @whole_terminates_soplex. Qed.
Print Assumptions C88_terminates_partial.

Example C88_case : plain_spx (xline true) /\ spx_inside (xline true) /\ spx_runs (xline true) /\
  (finite_double (x_eps_zero (xline true)) /\ 0 <= zval (x_eps_zero (xline true))) /\
  proper_problem p_w /\ bounded_integers p_w /\ whole_bounds p_w /\ plain_request (asking LP_SOPLEX params_empty) /\
  wanted_solver (asking LP_SOPLEX params_empty) = LP_SOPLEX /\ visits_integers p_w [0] /\
  (forall a, total_generator p_w (make_two (E := line true) (X := xline true) a)) /\
  outcome_of (whole_of true (asking LP_SOPLEX params_empty)) 5 =
    Ok (mkSol [dint 2] (dint (-2)), [0], [Runner.AddRow (vec [(0, 1)]) dminf (dint 2) "two"; SolveDual]).
Proof.
  split; [apply xline_plain|]. split; [apply xline_inside|]. split; [exact xline_runs|]. split; [apply xline_eps|].
  split; [exact p_w_proper|]. split; [exact p_w_integers|]. split; [exact p_w_whole|].
  split; [exact (asking_plain LP_SOPLEX params_empty eq_refl defaults_plain)|].
  split; [exact (asking_wanted LP_SOPLEX params_empty eq_refl)|]. split; [exact p_w_visits|].
  split; [exact (two_total _ _)|]. apply run_with_cut.
Qed.

(** *** C89 *)
(** That an answer is optimal rests on every LP having been settled.  With an LP solver that is right
    whenever it answers but sometimes gives up (numerical trouble, a limit), Solve() reports an
    optimum without a solution although there is a feasible point, whichever LP solver is used. *)
Theorem C89_unsettled_refuted : forall k, exists E X G p0 mx flag sort draw
    (make : list rounder * Z -> generator (E := E) (X := X) G) g order p u e w0 s x,
  (plain_lp E X k /\ honest_lp E X k /\ inside_lp E X k /\ accurate_lp 0 E X k /\ runs_lp E X k /\
   proper_problem p /\ bounded_relaxation p /\ bounded_integers p /\ plain_request u /\ wanted_solver u = k /\
   sorts sort /\ visits_integers p order /\ no_cuts u /\
   CreateSolver G p0 mx flag sort draw make g order p u = Ok (e, w0)) /\
  Solve e 5 w0 = Ok s /\ Solver.status s = Some kOptimal /\ best (res s) = sol_default /\ feasible p x.
Proof. exact unsettled_refutes. Qed.
Print Assumptions C89_unsettled_refuted.

(** If the first LP is given up, Solve() says that the problem is infeasible or unbounded, although
    it has a solution and its relaxation is bounded. *)
Theorem C89_root_refuted : forall k, exists E X G p0 mx flag sort draw
    (make : list rounder * Z -> generator (E := E) (X := X) G) g order p u e w0 x,
  (plain_lp E X k /\ honest_lp E X k /\ inside_lp E X k /\ accurate_lp 0 E X k /\ runs_lp E X k /\
   proper_problem p /\ bounded_relaxation p /\ bounded_integers p /\ plain_request u /\ wanted_solver u = k /\
   sorts sort /\ visits_integers p order /\ no_cuts u /\
   CreateSolver G p0 mx flag sort draw make g order p u = Ok (e, w0)) /\
  Solve e 5 w0 = Err Internal /\ feasible p x.
Proof. exact unsettled_root_refutes. Qed.
Print Assumptions C89_root_refuted.

(** If the LP solver said "infeasible" of each LP on which a node was closed, the answer is right;
    the relaxation need not be bounded, and the LP solver need not always answer. *)
Theorem C89_settled_partial : forall E X G p0 mx flag sort draw
    (make : list rounder * Z -> generator (E := E) (X := X) G) g order p u e w0,
  plain_lp E X (wanted_solver u) -> honest_lp E X (wanted_solver u) ->
  proper_problem p -> plain_request u -> sorts sort -> visits_integers p order ->
  no_cuts u \/ (forall a, valid_generator p (make a)) ->
  CreateSolver G p0 mx flag sort draw make g order p u = Ok (e, w0) ->
  (forall s n w, visits e w0 s -> takes s n -> solve_node e (mip_tree s) n (Solver.world s) = Ok w ->
     is_optimal e w = false -> says_infeasible (lp_of w)) ->
  (forall fuel s, Solve e fuel w0 = Ok s -> forall x, feasible p x ->
     q_above (s_obj (best (res s))) (cost p x) /\ best (res s) <> sol_default) /\
  (forall fuel r, Solve e fuel w0 = Err r -> forall x, ~ feasible p x).
Proof. exact @whole_settled. Qed.
Print Assumptions C89_settled_partial.

(** With the LP solvers that give up on variables bounded by zero, this run closes node 2 (x >= 3) as
    infeasible and finds x = 2 in node 1. *)
Example C89_case : forall k, plain_lp (weary 0) (xweary 0) k /\ honest_lp (weary 0) (xweary 0) k /\
  proper_problem p_w /\ plain_request (asking k without_cuts) /\ wanted_solver (asking k without_cuts) = k /\
  visits_integers p_w [0] /\ no_cuts (asking k without_cuts) /\ feasible p_w (fun _ => inject_Z 1) /\
  exists e w0 s, unsettled_of 0 k = Ok (e, w0) /\ Solve e 5 w0 = Ok s /\
    best (res s) = mkSol [dint 2] (dint (-2)) /\ explored s = [0; 2; 1] /\
    (forall s n w, visits e w0 s -> takes s n -> solve_node e (mip_tree s) n (Solver.world s) = Ok w ->
       is_optimal e w = false -> says_infeasible (lp_of w)).
Proof.
  intros k. split; [apply wearies_plain|]. split; [apply wearies_honest|]. split; [exact p_w_proper|].
  split; [exact (asking_plain k without_cuts eq_refl without_plain)|].
  split; [exact (asking_wanted k without_cuts eq_refl)|]. split; [exact p_w_visits|].
  split; [destruct k; discriminate|]. split; [apply p_w_feasible; lia|].
  exact (audited_run _ _ _ _ _ (settled_best k) (settled_audit k)).
Qed.

(** *** C90 *)
(** With the random branching rule Solve() need not end: with a continuous variable in the first
    column and one integer variable, every draw is the continuous column, whose branching bounds never
    reach the LP, so that both children have the LP of their parent.  All other assumptions of C77
    and C88 hold, there is a feasible point, and the claim is for every sequence of draws. *)
Theorem C90_terminates_refuted : forall k, exists E X G p0 mx flag sort
    (make : list rounder * Z -> generator (E := E) (X := X) G) g order p u x,
  (plain_lp E X k /\ honest_lp E X k /\ inside_lp E X k /\ accurate_lp 0 E X k /\ runs_lp E X k /\
   proper_problem p /\ bounded_integers p /\ whole_bounds p /\ feasible p x /\
   calm_request u /\ wanted_rule u = UseRandom /\ wanted_solver u = k /\
   sorts sort /\ visits_integers p order /\ no_cuts u) /\
  forall draw, (forall w, is_draw (draw w)) ->
  exists e w0, CreateSolver G p0 mx flag sort draw make g order p u = Ok (e, w0) /\
    forall fuel, Solve e fuel w0 = Fuel.
Proof. exact random_refutes. Qed.
Print Assumptions C90_terminates_refuted.

(** If the integer variables are the first columns, an answer with the random rule, whatever the
    draws, is as right as one with the max-fractional rule: what C76, C78 and C85 say of the optimum
    and of the reported solutions holds.  Missing: that there is an answer. *)
Theorem C90_random_partial : forall E X G p0 mx flag sort draw
    (make : list rounder * Z -> generator (E := E) (X := X) G) g order p u e w0 eps,
  plain_lp E X (wanted_solver u) -> proper_problem p -> calm_request u -> wanted_rule u = UseRandom ->
  integers_first p -> (forall w, is_draw (draw w)) -> sorts sort -> visits_integers p order ->
  CreateSolver G p0 mx flag sort draw make g order p u = Ok (e, w0) ->
  (exact_lp E X (wanted_solver u) -> bounded_relaxation p -> no_cuts u \/ (forall a, valid_generator p (make a)) ->
   (forall fuel s, Solve e fuel w0 = Ok s -> forall x, feasible p x ->
      q_above (s_obj (best (res s))) (cost p x) /\ best (res s) <> sol_default) /\
   (forall fuel r, Solve e fuel w0 = Err r -> forall x, ~ feasible p x)) /\
  (inside_lp E X (wanted_solver u) -> accurate_lp eps E X (wanted_solver u) ->
   no_cuts u \/ (forall a, proper_generator p (make a)) ->
   forall fuel s, Solve e fuel w0 = Ok s -> forall sol, reported (res s) sol ->
   sol = sol_default \/
   ((forall j var, nth_var p j = Some var -> exists v, at_ (s_vals sol) j = Ok v /\ finite_double v /\
       dleb (v_lb var) v = true /\ dleb v (v_ub var) = true /\
       (v_int var = true -> near_integer v (setting (pm_integrality u) d1em6))) /\
    (forall r k, nth_con p r = Some k ->
       q_above (c_lhs k) (row_activity k (solution_point sol) + eps)%Q /\
       q_below (row_activity k (solution_point sol) - eps)%Q (c_rhs k)) /\
    finite_double (s_obj sol) /\ (Qabs (qval (s_obj sol) - cost p (solution_point sol)) <= eps)%Q)).
Proof. exact @whole_random. Qed.
Print Assumptions C90_random_partial.

Example C90_case : forall k, plain_lp (line false) (xline false) k /\ exact_lp (line false) (xline false) k /\
  inside_lp (line false) (xline false) k /\ accurate_lp 0 (line false) (xline false) k /\
  proper_problem p_w /\ bounded_relaxation p_w /\ integers_first p_w /\ calm_request (asking k at_random) /\
  wanted_rule (asking k at_random) = UseRandom /\ wanted_solver (asking k at_random) = k /\
  is_draw (fun n => n - 1) /\ visits_integers p_w [0] /\ no_cuts (asking k at_random) /\
  outcome_of (random_line (fun _ n => n - 1) k) 5 = Ok (mkSol [dint 2] (dint (-2)), [0; 1; 2], []).
Proof.
  intros k. split; [apply lines_plain|]. split; [apply lines_exact|]. split; [apply lines_inside|].
  split; [apply lines_accurate|]. split; [exact p_w_proper|]. split; [exact p_w_bounded|]. split; [exact p_w_first|].
  split; [exact (asking_calm k at_random eq_refl random_calm)|]. split; [destruct k; reflexivity|].
  split; [exact (asking_wanted k at_random eq_refl)|]. split; [intros n; lia|]. split; [exact p_w_visits|].
  split; [destruct k; discriminate|]. apply random_line_best.
Qed.

(** *** C91 *)
(** In the whole solver: after every run that explored more than the root, with either LP solver,
    either branching rule (integer columns first for the random one), with and without cuts, a second
    call of Solve() never returns OK.  [C91_again_refuted] and the runs that do not branch are in
    PropsSolver. *)
Theorem C91_whole_partial : forall E X G p0 mx flag sort draw (make : list rounder * Z -> generator (E := E) (X := X) G)
    g order p u e w0,
  plain_lp E X (wanted_solver u) -> proper_problem p -> calm_request u -> usable_rule p u draw ->
  sorts sort -> visits_integers p order ->
  no_cuts u \/ (forall a, proper_generator p (make a)) ->
  CreateSolver G p0 mx flag sort draw make g order p u = Ok (e, w0) ->
  forall fuel s, Solve e fuel w0 = Ok s -> explored s <> [0] ->
  forall fuel' s', SolveAgain e fuel' s <> Ok s'.
Proof. exact @whole_again. Qed.
Print Assumptions C91_whole_partial.

Example C91_whole_case : forall k, plain_lp (line false) (xline false) k /\ proper_problem p_w /\
  calm_request (asking k without_cuts) /\ (forall W (draw : W -> Z -> Z), usable_rule p_w (asking k without_cuts) draw) /\
  wanted_solver (asking k without_cuts) = k /\ visits_integers p_w [0] /\ no_cuts (asking k without_cuts) /\
  outcome_of (whole_of false (asking k without_cuts)) 5 = Ok (mkSol [dint 2] (dint (-2)), [0; 2; 1], []).
Proof.
  intros k. assert (PR := asking_plain k without_cuts eq_refl without_plain).
  split; [apply lines_plain|]. split; [exact p_w_proper|]. split; [exact (plain_calm _ PR)|].
  split; [intros W draw; exact (plain_usable p_w _ draw PR)|]. split; [exact (asking_wanted k without_cuts eq_refl)|].
  split; [exact p_w_visits|]. split; [destruct k; discriminate|]. apply run_branching.
Qed.

(** *** C99 *)
(** In every state of a solve, and at its end, the stored cuts are those of so many rounds of separation, none
    of them empty and no more rounds than max_iterations for all nodes together.  The cut runner's calls on the LP
    are exactly: for each round its cuts as rows, in the order they are stored, and one solve.  The counters it
    compares with its limits are the number of rounds, zero, and no active cut. *)
Theorem C99_rounds : forall E X G p0 mx flag sort draw (make : list rounder * Z -> generator (E := E) (X := X) G)
    g order p u e w0 s,
  CreateSolver G p0 mx flag sort draw make g order p u = Ok (e, w0) ->
  visits e w0 s \/ (exists fuel, Solve e fuel w0 = Ok s) ->
  exists rounds, Forall (fun l => l <> []) rounds /\
    Z.of_nat (List.length rounds) <= Z.max 0 (max_iterations (wanted_limits u)) /\
    cuts (reg (Solver.world s)) = concat rounds /\ in_step (cuts (reg (Solver.world s))) /\
    calls (Solver.world s) = concat (map round_calls rounds) /\
    num_cutrounds (Solver.world s) = Z.of_nat (List.length rounds) /\
    num_of_cuts_added_since_last_run (Solver.world s) = 0 /\ active_cuts (reg (Solver.world s)) = [].
Proof. exact @whole_rounds. Qed.
Print Assumptions C99_rounds.

Example C99_case : forall k, max_iterations (wanted_limits (asking k params_empty)) = 100 /\
  exists e w0 s, whole_of false (asking k params_empty) = Ok (e, w0) /\ Solve e 5 w0 = Ok s /\
  calls (Solver.world s) = [Runner.AddRow (vec [(0, 1)]) dminf (dint 2) "two"; SolveDual].
Proof.
  intros k. split; [destruct k; reflexivity|]. destruct (outcome_of_ok _ _ _ _ _ (run_with_cut false k)) as (e & w & s & A & B & _ & _ & C).
  exists e, w, s. auto.
Qed.

(** The LP then holds the user's problem and, below its rows, one row per stored cut, in the order stored;
    only the bounds of integer columns differ ([boundless order] forgets them, [nameless] the names, which SoPlex does
    not keep). *)
Theorem C99_lp : forall E X G p0 mx flag sort draw (make : list rounder * Z -> generator (E := E) (X := X) G)
    g order p u e w0 s,
  plain_lp E X (wanted_solver u) -> proper_problem p -> calm_request u -> sorts sort -> visits_integers p order ->
  no_cuts u \/ (forall a, proper_generator p (make a)) ->
  CreateSolver G p0 mx flag sort draw make g order p u = Ok (e, w0) ->
  visits e w0 s \/ (exists fuel, Solve e fuel w0 = Ok s) ->
  boundless order (SoplexSpec.nameless (table_of (lp_held (lp_of (Solver.world s))))) =
  boundless order (with_cuts (SoplexSpec.nameless (problem_table p)) (cuts (reg (Solver.world s)))).
Proof. exact @whole_lp. Qed.
Print Assumptions C99_lp.

Definition lp_after {E X} (x : outcome (env (whole (E := E) (X := X) unit) * whole (E := E) (X := X) unit)) (fuel : nat) :=
  do (e, w) <- x ; do s <- Solve e fuel w ;
  Ok (t_rows (table_of (lp_held (lp_of (Solver.world s)))), Z.of_nat (List.length (cuts (reg (Solver.world s))))).
Example C99_lp_case : forall k, plain_lp (line false) (xline false) k /\ proper_problem p_w /\
  calm_request (asking k params_empty) /\ wanted_solver (asking k params_empty) = k /\ visits_integers p_w [0] /\
  (forall a, proper_generator p_w (make_two (E := line false) (X := xline false) a)) /\
  lp_after (whole_of false (asking k params_empty)) 5 =
    Ok ([mkTR half five_halves (match k with LP_GLOP => "r"%string | LP_SOPLEX => ""%string end);
         mkTR dminf (dint 2) (match k with LP_GLOP => "two"%string | LP_SOPLEX => ""%string end)], 1).
Proof.
  intros k. split; [apply lines_plain|]. split; [exact p_w_proper|].
  split; [exact (plain_calm _ (asking_plain k params_empty eq_refl defaults_plain))|].
  split; [exact (asking_wanted k params_empty eq_refl)|]. split; [exact p_w_visits|]. split.
  - intros a y r l cs y' _ H. injection H as <- _. destruct (cuts r); constructor; [exact (proj1 two_proper)|constructor].
  - destruct k; calc.
Qed.

(** At all these moments the LP has a column for every variable: between the problem's bounds if the variable is
    an integer one, with exactly the problem's bounds if not. *)
Theorem C99_box : forall E X G p0 mx flag sort draw (make : list rounder * Z -> generator (E := E) (X := X) G)
    g order p u e w0 s,
  plain_lp E X (wanted_solver u) -> proper_problem p -> calm_request u -> sorts sort -> visits_integers p order ->
  usable_rule p u draw -> no_cuts u \/ (forall a, proper_generator p (make a)) ->
  CreateSolver G p0 mx flag sort draw make g order p u = Ok (e, w0) ->
  visits e w0 s \/ (exists fuel, Solve e fuel w0 = Ok s) ->
  forall j v, nth_var p j = Some v -> exists c, at_ (t_cols (table_of (lp_held (lp_of (Solver.world s))))) j = Ok c /\
    if v_int v then dleb (v_lb v) (t_lb c) = true /\ dleb (t_ub c) (v_ub v) = true else t_lb c = v_lb v /\ t_ub c = v_ub v.
Proof. exact @whole_box. Qed.
Print Assumptions C99_box.

Definition box_after {E X} (x : outcome (env (whole (E := E) (X := X) unit) * whole (E := E) (X := X) unit)) (fuel : nat) :=
  do (e, w) <- x ; do s <- Solve e fuel w ;
  Ok (map (fun c => (t_lb c, t_ub c)) (t_cols (table_of (lp_held (lp_of (Solver.world s))))), explored s).
(** The variable lies in [0, 3]; the run branches and ends in the node below 2. *)
Example C99_box_case : forall k, plain_lp (line true) (xline true) k /\ proper_problem p_w /\
  calm_request (asking k without_cuts) /\ (forall W (draw : W -> Z -> Z), usable_rule p_w (asking k without_cuts) draw) /\
  wanted_solver (asking k without_cuts) = k /\ visits_integers p_w [0] /\ no_cuts (asking k without_cuts) /\
  map (fun v => (v_lb v, v_ub v)) (p_vars p_w) = [(d0, dint 3)] /\
  box_after (whole_of true (asking k without_cuts)) 5 = Ok ([(d0, dint 2)], [0; 2; 1]).
Proof.
  intros k. assert (PR := asking_plain k without_cuts eq_refl without_plain).
  split; [apply lines_plain|]. split; [exact p_w_proper|]. split; [exact (plain_calm _ PR)|].
  split; [intros W draw; exact (plain_usable p_w _ draw PR)|]. split; [exact (asking_wanted k without_cuts eq_refl)|].
  split; [exact p_w_visits|]. split; [destruct k; discriminate|]. split; [reflexivity|]. destruct k; calc.
Qed.
