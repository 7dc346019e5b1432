(** The solver as a whole with the cut generator of the repository (TableauRoundingGenerator) on
    the LP interface the user asks for.  The assumptions on the LP engine, the problem and the request are in
    [WholeSpec], those on the basis inverse in [OwnSpec]; the engine and the problems of the
    examples are in [WholeCases] and [OwnCases]. *)
From Coq Require Import String List ZArith Bool QArith Qabs Lia.
From Verif Require Import Outcome Num Double DoubleFacts Rounding SparseVector VectorSpec Aggregation Problem
  MipData ProblemSpec CutsData Selector Runner CutSpec CutProofs LpParams GlopLp GlopIface GlopSpec SoplexIface SoplexSolution SoplexSpec
  Branching Params ReaderSpec Solver SolverSpec SolverCases GlopCases SoplexCases Whole WholeSpec WholeCases
  GlopSolution TableauSpec Own OwnSpec OwnProofs OwnCases.
Import ListNotations.
Open Scope Z_scope.

(** *** C84 *)
(** Every reported solution has one value per variable, and its integer variables are within the
    requested tolerance of an integer and inside the bounds of the user's problem, whatever the LP
    solver says about its basis. *)
Theorem C84_solutions_partial : forall E X (T : tableau E) G p0 mx flag sort draw g order p u e w0,
  keeps_entries X -> plain_lp E X (wanted_solver u) -> inside_lp E X (wanted_solver u) ->
  proper_problem p -> plain_request u -> sorts sort -> visits_integers p order ->
  CreateOwn (X := X) T G p0 mx flag sort draw g order p u = Ok (e, w0) ->
  forall fuel s, Solve e fuel w0 = Ok s -> forall sol, reported (res s) sol ->
  sol = sol_default \/
  (Z.of_nat (length (s_vals sol)) = num_vars p /\
   forall j var, nth_var p j = Some var -> v_int var = true ->
   exists v, at_ (s_vals sol) j = Ok v /\ near_integer v (setting (pm_integrality u) d1em6) /\
     dleb (v_lb var) v = true /\ dleb v (v_ub var) = true).
Proof. exact @own_solutions. Qed.
Print Assumptions C84_solutions_partial.

(** On an LP with one row per constraint of the problem, which is what the first round of
    separation at the root sees, cut generation ends with a list of cuts or with an error. *)
Theorem C84_first_round_partial : forall E X (T : tableau E) G d tolerance ks limit p y r (s : gstate E),
  stored_lp (lp s) -> problem_ok p -> integer_bounds_ordered p -> MipData p = Ok d ->
  nrows (lp s) = num_cons p -> 0 <= limit ->
  (forall k, 0 <= k < num_cons p -> holds_all (glop_row T s k) (num_cons p) /\
     listed_in_order (glop_row T s k) (num_cons p)) ->
  (exists cs, own_generator (X := X) T G d tolerance (ks, limit) y r (GlopLpi s) = Ok (cs, y)) \/
  (exists c, own_generator (X := X) T G d tolerance (ks, limit) y r (GlopLpi s) = Err c).
Proof. exact @own_defined. Qed.
Print Assumptions C84_first_round_partial.

(** The same with SoPlex, if it returns the entries of a row by ascending index and has an inverse. *)
Theorem C84_first_round_soplex_partial : forall E X (T : tableau E) G d tolerance ks limit p y r (s : sstate X) b,
  keeps_order X -> stored_lp (s_lp s) -> problem_ok p -> integer_bounds_ordered p -> MipData p = Ok d ->
  nrows (s_lp s) = num_cons p -> 0 <= limit -> freed s = true ->
  inverse_of X (s_x s) (length (g_rows (s_lp s))) b ->
  (exists cs, own_generator (X := X) T G d tolerance (ks, limit) y r (SoplexLpi s) = Ok (cs, y)) \/
  (exists c, own_generator (X := X) T G d tolerance (ks, limit) y r (SoplexLpi s) = Err c).
Proof. exact @own_defined_spx. Qed.
Print Assumptions C84_first_round_soplex_partial.

Definition two_constraints : problem :=
  mkProblem "two" [mkVar "x" (dint 2) d0 (dint 4) true; mkVar "y" (dint (-3)) dminf dinf false]
    [mkCon "r0" [1; 0] [dint 5; d1] dminf (dint 9); mkCon "r1" [0] [dint 4] (dint 1) (dint 11)] [] true d0.
Example C84_soplex_case : keeps_order tx1 /\ stored_lp (s_lp (safter (E := tx1) two_rows)) /\
  problem_ok two_constraints /\ integer_bounds_ordered two_constraints /\
  is_ok (MipData two_constraints) = true /\
  nrows (s_lp (safter (E := tx1) two_rows)) = num_cons two_constraints /\
  freed (safter (E := tx1) two_rows) = true /\
  SpxIsOptimal (safter (E := tx1) two_rows) = Ok true /\
  inverse_of tx1 (s_x (safter (E := tx1) two_rows)) (length (g_rows (s_lp (safter (E := tx1) two_rows)))) inverse2.
Proof.
  split; [intros l _; reflexivity|]. split; [exact s_stored_two|].
  split; [split; repeat constructor; cbn; try discriminate; try lia; try (intros [H|H]; lia); try (intros []; lia); auto|].
  split; [repeat constructor; cbn; auto; discriminate|]. split; [calc|]. split; [calc|]. split; [calc|]. split; [calc|].
  assert (L : length (g_rows (s_lp (safter (E := tx1) two_rows))) = 2%nat) by calc.
  rewrite L. apply inverse2_dense. reflexivity.
Qed.

Example C84_case : forall k, keeps_entries (xline true) /\ plain_lp (line true) (xline true) k /\
  inside_lp (line true) (xline true) k /\
  exact_basis (xline true) (line_tableau true) k /\ proper_problem (p_four d0) /\
  plain_request (asking k params_empty) /\ wanted_solver (asking k params_empty) = k /\
  sorts (fun l => fold_right insert_cut' [] l) /\ visits_integers (p_four d0) [0] /\
  outcome_of (own_of true (p_four d0) (asking k params_empty)) 5 =
    Ok (mkSol [d1] dm1, [0], [Runner.AddRow (vec [(0, 1)]) dminf d1 "MIR0"; SolveDual]).
Proof.
  intros k. split; [apply xline_keeps|]. split; [apply lines_plain|]. split; [apply lines_inside|].
  split; [apply line_basis_exact|]. split; [apply four_proper; reflexivity|].
  split; [exact (asking_plain k params_empty eq_refl defaults_plain)|]. split; [exact (asking_wanted k params_empty eq_refl)|].
  split; [exact insertion_sorts|]. split; [apply four_visits|]. apply own_run_zero.
Qed.

(** A malformed problem is rejected. *)
Theorem C84_rejects : forall E X (T : tableau E) G p0 mx flag sort draw g order p u,
  ~ problem_ok_upto (num_vars p) p ->
  CreateOwn (X := X) T G p0 mx flag sort draw g order p u = Err InvalidArgument.
Proof. exact @own_rejects. Qed.
Print Assumptions C84_rejects.

(** C85 with this generator: the reported solutions satisfy the user's constraints and have the
    right objective value, even though the cuts may be wrong and the solutions not optimal. *)
Theorem C85_own : forall E X (T : tableau E) G p0 mx flag sort draw g order p u e w0 eps,
  keeps_entries X -> plain_lp E X (wanted_solver u) -> inside_lp E X (wanted_solver u) ->
  accurate_lp eps E X (wanted_solver u) ->
  proper_problem p -> plain_request u -> sorts sort -> visits_integers p order ->
  CreateOwn (X := X) T G p0 mx flag sort draw g order p u = Ok (e, w0) ->
  forall fuel s, Solve e fuel w0 = Ok s -> forall sol, reported (res s) sol ->
  sol = sol_default \/
  ((forall j var, nth_var p j = Some var -> exists v, at_ (s_vals sol) j = Ok v /\ finite_double v /\
      dleb (v_lb var) v = true /\ dleb v (v_ub var) = true) /\
   (forall r k, nth_con p r = Some k ->
      q_above (c_lhs k) (row_activity k (solution_point sol) + eps)%Q /\
      q_below (row_activity k (solution_point sol) - eps)%Q (c_rhs k)) /\
   finite_double (s_obj sol) /\ (Qabs (qval (s_obj sol) - cost p (solution_point sol)) <= eps)%Q).
Proof. exact @own_values. Qed.
Print Assumptions C85_own.

Example C85_own_case : forall k, inside_lp (line true) (xline true) k /\ accurate_lp 0 (line true) (xline true) k /\
  proper_problem (p_four d0) /\ plain_request (asking k params_empty) /\ wanted_solver (asking k params_empty) = k /\
  visits_integers (p_four d0) [0] /\
  outcome_of (own_of true (p_four d0) (asking k params_empty)) 5 =
    Ok (mkSol [d1] dm1, [0], [Runner.AddRow (vec [(0, 1)]) dminf d1 "MIR0"; SolveDual]).
Proof.
  intros k. split; [apply lines_inside|]. split; [apply lines_accurate|]. split; [apply four_proper; reflexivity|].
  split; [exact (asking_plain k params_empty eq_refl defaults_plain)|]. split; [exact (asking_wanted k params_empty eq_refl)|].
  split; [apply four_visits|]. apply own_run_zero.
Qed.

(** The best objective value is not the optimum in general: for max x with 4 x <= 5, x integer in
    [-1/2, 10], a request for one round of separation, an exact LP solver of either kind and an
    exact basis inverse, the solver reports 0 where x = 1 has the cost -1. *)
Theorem C84_optimum_refuted : forall k, exists E X (T : tableau E) G p0 mx flag sort draw g order p u e w0 fuel s x,
  keeps_entries X /\ plain_lp E X k /\ exact_lp E X k /\ exact_basis X T k /\
  proper_problem p /\ bounded_relaxation p /\ plain_request u /\ wanted_solver u = k /\ sorts sort /\
  visits_integers p order /\
  CreateOwn (X := X) T G p0 mx flag sort draw g order p u = Ok (e, w0) /\
  Solve e fuel w0 = Ok s /\ feasible p x /\ (cost p x == -1)%Q /\ (qval (s_obj (best (res s))) == 0)%Q.
Proof.
  intros k. destruct (outcome_of_ok _ _ _ _ _ (own_run_half false k)) as (e & w & s & C & S & B & _).
  exists (line false), (xline false), (line_tableau false), unit, spx_start, false, false,
    (fun l => fold_right insert_cut' [] l), (fun _ _ => 0), tt, [0], p_half, (asking k one_round), e, w, 5%nat, s,
    (fun _ => inject_Z 1).
  split; [apply xline_keeps|]. split; [apply lines_plain|]. split; [apply lines_exact|]. split; [apply line_basis_exact|].
  split; [exact half_proper|]. split; [apply four_bounded|]. split; [exact (asking_plain k one_round eq_refl round_plain)|].
  split; [exact (asking_wanted k one_round eq_refl)|]. split; [exact insertion_sorts|].
  split; [apply four_visits|]. split; [exact C|]. split; [exact S|]. split; [exact half_feasible|].
  split; [apply four_cost|]. rewrite B. reflexivity.
Qed.
Print Assumptions C84_optimum_refuted.

(** Solve() does not end properly in general, for the default parameters apart from the choice of
    the LP solver, an LP solver that never fails and an exact basis inverse.  For max x with
    4 x <= 5, x integer in [-1/2, 10], the second round of separation reads past the end of the
    constraints' flags, as the LP now has a cut row. *)
Theorem C84_cut_rows_refuted : forall k, exists E X (T : tableau E) G p0 mx flag sort draw g order p e w0,
  keeps_entries X /\ plain_lp E X k /\ inside_lp E X k /\ runs_lp E X k /\ exact_basis X T k /\
  proper_problem p /\ bounded_integers p /\ sorts sort /\ visits_integers p order /\
  wanted_solver (asking k params_empty) = k /\
  CreateOwn (X := X) T G p0 mx flag sort draw g order p (asking k params_empty) = Ok (e, w0) /\
  forall fuel, (1 <= fuel)%nat -> Solve e fuel w0 = UB.
Proof.
  intros k. destruct (own_stops_half true k) as (e & w & C & S).
  exists (line true), (xline true), (line_tableau true), unit, spx_start, false, false,
    (fun l => fold_right insert_cut' [] l), (fun _ _ => 0), tt, [0], p_half, e, w.
  split; [apply xline_keeps|]. split; [apply lines_plain|]. split; [apply lines_inside|]. split; [apply lines_run|].
  split; [apply line_basis_exact|]. split; [exact half_proper|]. split; [exact half_integers|].
  split; [exact insertion_sorts|]. split; [apply four_visits|]. split; [exact (asking_wanted k params_empty eq_refl)|].
  split; [exact C|exact S].
Qed.
Print Assumptions C84_cut_rows_refuted.

(** For max x with 1/2 <= x <= 5/2, x integer in [0, 3], the row counts as integral although its
    sides are not; the first round gives a cut without entries, and the selector divides the
    integer number of its non-zeros by zero. *)
Theorem C84_empty_cut_refuted : forall k, exists E X (T : tableau E) G p0 mx flag sort draw g order p e w0,
  keeps_entries X /\ plain_lp E X k /\ inside_lp E X k /\ runs_lp E X k /\ exact_basis X T k /\
  proper_problem p /\ bounded_integers p /\
  (forall j v, nth_var p j = Some v -> exists a b, v_lb v = dint a /\ v_ub v = dint b) /\
  sorts sort /\ visits_integers p order /\ wanted_solver (asking k params_empty) = k /\
  CreateOwn (X := X) T G p0 mx flag sort draw g order p (asking k params_empty) = Ok (e, w0) /\
  forall fuel, (1 <= fuel)%nat -> Solve e fuel w0 = UB.
Proof.
  intros k. destruct (own_stops_w true k) as (e & w & C & S).
  exists (line true), (xline true), (line_tableau true), unit, spx_start, false, false,
    (fun l => fold_right insert_cut' [] l), (fun _ _ => 0), tt, [0], p_w, e, w.
  split; [apply xline_keeps|]. split; [apply lines_plain|]. split; [apply lines_inside|]. split; [apply lines_run|].
  split; [apply line_basis_exact|]. split; [exact p_w_proper|]. split; [exact p_w_integers|].
  split; [intros j v H; apply p_w_var in H as [_ ->]; exists 0, 3; split; reflexivity|].
  split; [exact insertion_sorts|].
  split; [exact p_w_visits|]. split; [exact (asking_wanted k params_empty eq_refl)|]. split; [exact C|exact S].
Qed.
Print Assumptions C84_empty_cut_refuted.

(** What the generator computes from is what the getters of the LP interface answer (C48, C70, C81,
    C86), index by index, with the flags and the tolerance it was created with. *)
Theorem C84_reads : forall E X (T : tableau E) d tolerance (l : lpi E X) V, own_view T d tolerance l = Ok V ->
  reads T l V /\ ints V = integer_variables d /\ integral_rows V = is_integral_constraint d /\ tol V = tolerance.
Proof. exact @own_reads. Qed.
Print Assumptions C84_reads.

Example C84_reads_case : forall d, exists V,
  own_view (X := tx1) (line_tableau true) d d1em6 (SoplexLpi (safter (E := tx1) two_rows)) = Ok V /\
  basis V = [1; -1] /\ at_ (lp_ub V) 0 = SpxGetUpperBound (s_lp (safter (E := tx1) two_rows)) 0 /\
  is_ok (at_ (lp_rhs V) 1) = true /\ tol V = d1em6.
Proof.
  intros d. assert (B : SpxGetColumnsAndRowsInBasis (safter (E := tx1) two_rows) = Ok [Col 1; Row 0]) by calc.
  cbn [own_view]. unfold spx_view. rewrite B. cbn [bind map col_of]. eexists. split; [reflexivity|].
  cbn [basis lp_ub lp_rhs tol]. split; [reflexivity|]. split; [calc|]. split; [calc|reflexivity].
Qed.
