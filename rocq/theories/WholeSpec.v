(** Specification vocabulary for the solver as a whole: LPs as tables over the rationals, and what
    is assumed of the LP engine and of the cut generators. *)
From Coq Require Import String List ZArith Bool QArith Qabs Permutation.
From Verif Require Import Outcome Num Double DoubleFacts Rounding SparseVector VectorSpec Aggregation
  Problem MipData ProblemSpec CutsData Selector Runner CutSpec LpParams GlopLp GlopIface GlopSpec
  SoplexIface SoplexSpec Branching Params ReaderSpec Solver SolverSpec Whole.
Import ListNotations.
Open Scope Z_scope.

(** *** Points of a table *)
Definition numbered {B} (l : list B) : list (Z * B) := combine (upto (length l)) l.
Definition coef_in (g : tcol) (r : Z) : double :=
  match at_ (t_coefs g) r with Ok x => x | _ => d0 end.
Definition row_sum (t : table) (r : Z) (x : point) : Q :=
  q_sum (map (fun q => qval (coef_in (snd q) r) * x (fst q))%Q (numbered (t_cols t))).
Definition rows_hold (t : table) (x : point) : Prop :=
  forall r g, at_ (t_rows t) r = Ok g ->
  q_above (t_lhs g) (row_sum t r x) /\ q_below (row_sum t r x) (t_rhs g).
(** The same up to [eps]. *)
Definition rows_within (eps : Q) (t : table) (x : point) : Prop :=
  forall r g, at_ (t_rows t) r = Ok g ->
  q_above (t_lhs g) (row_sum t r x + eps)%Q /\ q_below (row_sum t r x - eps)%Q (t_rhs g).
Definition cols_hold (t : table) (x : point) : Prop :=
  forall j g, at_ (t_cols t) j = Ok g -> q_above (t_lb g) (x j) /\ q_below (x j) (t_ub g).
Definition table_cost (t : table) (x : point) : Q :=
  q_sum (map (fun q => qval (t_obj (snd q)) * x (fst q))%Q (numbered (t_cols t))).
(** The objective is bounded from below on the LP. *)
Definition bounded_below (t : table) : Prop :=
  exists m, forall x, rows_hold t x -> cols_hold t x -> (m <= table_cost t x)%Q.
(** Finite coefficients and costs; bounds and sides are numbers or infinite. *)
Definition proper_table (t : table) : Prop :=
  Forall (fun g => finite_double (t_obj g) /\ Forall finite_double (t_coefs g) /\
            is_nan (t_lb g) = false /\ is_nan (t_ub g) = false) (t_cols t) /\
  Forall (fun g => is_nan (t_lhs g) = false /\ is_nan (t_rhs g) = false) (t_rows t).

(** *** The LP engine *)
(** No limit that stops the simplex algorithm early. *)
Definition unlimited (g : glop_params) : Prop :=
  g_objective_lower_limit g = dminf /\ g_objective_upper_limit g = dinf /\
  max_time_in_seconds g = dinf /\ max_deterministic_time g = dinf /\ max_number_of_iterations g = -1.
(** A TimeLimit object made from such parameters and handed from one solve to the next. *)
Inductive unlimited_timer (E : engine) : TL E -> Prop :=
| ut_new g : unlimited g -> unlimited_timer E (tl_new E g)
| ut_next w t q ok t' w' : unlimited_timer E t -> w_solve E w t q = (ok, t', w') -> unlimited_timer E t'.
(** [q] and [sc] are what the interface prepares for the LP [l]: slacks, scaled or not. *)
Definition prepares (E : engine) (l q : glop_lp) (sc : SC E) : Prop :=
  (q, sc) = (lp_slacks E l, sc_new E) \/ (q, sc) = sc_scale E (lp_slacks E l).

(** What Glop's own types ensure, and finite values for an optimal solution.  Setting parameters
    does not touch the last answer. *)
Record plain_engine (E : engine) : Prop := {
  pe_status : forall w g, w_status E (w_set_params E w g) = w_status E w;
  pe_objective : forall w g, w_objective E (w_set_params E w g) = w_objective E w;
  pe_value : forall w g k, w_value E (w_set_params E w g) k = w_value E w k;
  pe_valid : forall w, dvalid (w_objective E w) = true;
  pe_finite : forall l q sc w t t' w', stored_lp l -> prepares E l q sc -> w_solve E w t q = (true, t', w') ->
    w_status E w' = OPTIMAL -> forall k, 0 <= k < ncols l ->
    finite_double (sc_unscale E sc k (w_value E w' k)) }.

(** Glop answers as in exact arithmetic: without limits, if Solve() reports no error for a proper
    LP (to be minimised) that is bounded below and has a point, the status is OPTIMAL and the
    objective value is at most the cost of every point. *)
Definition exact_engine (E : engine) : Prop :=
  forall l q sc w t t' w', stored_lp l -> g_max l = false -> proper_table (table_of l) ->
  prepares E l q sc -> unlimited (w_params E w) -> unlimited_timer E t ->
  w_solve E w t q = (true, t', w') -> bounded_below (table_of l) ->
  forall x, rows_hold (table_of l) x -> cols_hold (table_of l) x ->
  w_status E w' = OPTIMAL /\ q_above (w_objective E w') (table_cost (table_of l) x).

(** The values of an optimal solution respect the bounds. *)
Definition engine_inside (E : engine) : Prop :=
  forall l q sc w t t' w', stored_lp l -> prepares E l q sc -> w_solve E w t q = (true, t', w') ->
  w_status E w' = OPTIMAL -> forall k g, at_ (g_cols l) k = Ok g ->
  dleb (g_lb g) (sc_unscale E sc k (w_value E w' k)) = true /\
  dleb (sc_unscale E sc k (w_value E w' k)) (g_ub g) = true.
(** The values of an optimal solution satisfy the rows up to [eps], and the objective value is
    their cost up to [eps]. *)
Definition engine_accurate (eps : Q) (E : engine) : Prop :=
  forall l q sc w t t' w', stored_lp l -> prepares E l q sc -> w_solve E w t q = (true, t', w') ->
  w_status E w' = OPTIMAL ->
  let x k := qval (sc_unscale E sc k (w_value E w' k)) in
  rows_within eps (table_of l) x /\ finite_double (w_objective E w') /\
  (Qabs (qval (w_objective E w') - table_cost (table_of l) x) <= eps)%Q.
(** Solve() never reports an error. *)
Definition engine_runs (E : engine) : Prop := forall w t q, fst (fst (w_solve E w t q)) = true.

(** *** SoPlex *)
(** No limit that stops the simplex algorithm early. *)
Definition spx_unlimited (X : spx_engine) (g : spx_params) : Prop :=
  OBJLIMIT_LOWER g = dopp (spx_infty (x_rules X)) /\ OBJLIMIT_UPPER g = spx_infty (x_rules X) /\
  TIMER g = TIMER_OFF /\ ITERLIMIT g = -1.
(** The answer [x'] of the dual simplex on the LP [l]. *)
Definition spx_answer (X : spx_engine) (l : glop_lp) (x' : SoplexIface.X X) : Prop :=
  exists x g, spx_unlimited X g /\ x_optimize X x g true l = (false, x').

(** An optimal solution has finite values, which can be read, and after an exception the status is
    one of an error. *)
Record plain_spx (X : spx_engine) : Prop := {
  ps_valid : forall x, dvalid (x_objective X x) = true;
  ps_throw : forall x g l x', x_optimize X x g true l = (true, x') -> ~ spx_success (x_status X x');
  ps_finite : forall l x', stored_lp l -> spx_answer X l x' -> x_status X x' = ST_OPTIMAL ->
    exists f, x_primal X x' = Some f /\ forall k, 0 <= k < ncols l -> finite_double (f k) }.
(** SoPlex answers as in exact arithmetic. *)
Definition exact_spx (X : spx_engine) : Prop :=
  forall l x', stored_lp l -> g_max l = false -> proper_table (table_of l) -> spx_answer X l x' ->
  bounded_below (table_of l) ->
  forall x, rows_hold (table_of l) x -> cols_hold (table_of l) x ->
  x_status X x' = ST_OPTIMAL /\ q_above (x_objective X x') (table_cost (table_of l) x).
(** The values of an optimal solution respect the bounds. *)
Definition spx_inside (X : spx_engine) : Prop :=
  forall l x' f, stored_lp l -> spx_answer X l x' -> x_status X x' = ST_OPTIMAL -> x_primal X x' = Some f ->
  forall k g, at_ (g_cols l) k = Ok g -> dleb (g_lb g) (f k) = true /\ dleb (f k) (g_ub g) = true.
(** They satisfy the rows up to [eps], and the objective value is their cost up to [eps]. *)
Definition spx_accurate (eps : Q) (X : spx_engine) : Prop :=
  forall l x' f, stored_lp l -> spx_answer X l x' -> x_status X x' = ST_OPTIMAL -> x_primal X x' = Some f ->
  let x k := qval (f k) in
  rows_within eps (table_of l) x /\ finite_double (x_objective X x') /\
  (Qabs (qval (x_objective X x') - table_cost (table_of l) x) <= eps)%Q.

(** optimize() never throws, and ends with a status the interface accepts. *)
Definition spx_runs (X : spx_engine) : Prop :=
  forall x g l, fst (x_optimize X x g true l) = false /\ spx_success (x_status X (snd (x_optimize X x g true l))).

(** *** The LP solver the user asks for *)
Definition plain_lp (E : engine) (X : spx_engine) (k : solver_type) : Prop :=
  match k with LP_GLOP => engine_laws E /\ plain_engine E | LP_SOPLEX => plain_spx X end.
Definition exact_lp (E : engine) (X : spx_engine) (k : solver_type) : Prop :=
  match k with LP_GLOP => exact_engine E | LP_SOPLEX => exact_spx X end.
Definition inside_lp (E : engine) (X : spx_engine) (k : solver_type) : Prop :=
  match k with LP_GLOP => engine_inside E | LP_SOPLEX => spx_inside X end.
Definition accurate_lp (eps : Q) (E : engine) (X : spx_engine) (k : solver_type) : Prop :=
  match k with LP_GLOP => engine_accurate eps E | LP_SOPLEX => spx_accurate eps X end.
Definition runs_lp (E : engine) (X : spx_engine) (k : solver_type) : Prop :=
  match k with LP_GLOP => engine_runs E | LP_SOPLEX => spx_runs X end.
(** The LP solver is right whenever it says optimal or infeasible, but it may also end with another
    status. *)
Definition honest_engine (E : engine) : Prop :=
  forall l q sc w t t' w', stored_lp l -> g_max l = false -> proper_table (table_of l) ->
  prepares E l q sc -> w_solve E w t q = (true, t', w') ->
  forall x, rows_hold (table_of l) x -> cols_hold (table_of l) x ->
  (w_status E w' = OPTIMAL -> q_above (w_objective E w') (table_cost (table_of l) x)) /\
  ~ In (w_status E w') [PRIMAL_INFEASIBLE; DUAL_UNBOUNDED; INFEASIBLE_OR_UNBOUNDED].
Definition honest_spx (X : spx_engine) : Prop :=
  forall l x', stored_lp l -> g_max l = false -> proper_table (table_of l) -> spx_answer X l x' ->
  forall x, rows_hold (table_of l) x -> cols_hold (table_of l) x ->
  (x_status X x' = ST_OPTIMAL -> q_above (x_objective X x') (table_cost (table_of l) x)) /\
  ~ In (x_status X x') [ST_INFEASIBLE; ST_INForUNBD].
Definition honest_lp (E : engine) (X : spx_engine) (k : solver_type) : Prop :=
  match k with LP_GLOP => honest_engine E | LP_SOPLEX => honest_spx X end.
(** The LP inside the interface. *)
Definition lp_held {E X} (l : lpi E X) : glop_lp :=
  match l with GlopLpi s => lp s | SoplexLpi s => s_lp s end.
(** The last solve ended with a status that says the LP has no point. *)
Definition says_infeasible {E X} (l : lpi E X) : Prop :=
  match l with
  | GlopLpi s => In (w_status E (solver s)) [PRIMAL_INFEASIBLE; DUAL_UNBOUNDED; INFEASIBLE_OR_UNBOUNDED]
  | SoplexLpi s => In (x_status X (s_x s)) [ST_INFEASIBLE; ST_INForUNBD]
  end.

(** *** The cuts *)
(** A row the LP interface accepts. *)
Definition fitting_cut (p : problem) (c : cut) : Prop := clean_vector (num_vars p) (row c).
(** Its numbers are finite. *)
Definition proper_cut (p : problem) (c : cut) : Prop :=
  fitting_cut p c /\
  Forall (fun e : entry num_double => finite_double (val e)) (ents (row c)) /\
  is_nan (right_hand_side c) = false.
(** Every feasible point satisfies it. *)
Definition valid_cut (p : problem) (c : cut) : Prop :=
  forall x, feasible p x ->
  q_below (q_sum (map (fun e : entry num_double => qval (val e) * x (idx e))%Q (ents (row c))))
    (right_hand_side c).
(** An LP over the variables of the problem; every feasible point satisfies its rows. *)
Definition has_columns {E X} (p : problem) (l : lpi E X) : Prop :=
  stored_lp (lp_held l) /\ ncols (lp_held l) = num_vars p.
Definition relaxes {E X} (p : problem) (l : lpi E X) : Prop :=
  forall x, feasible p x -> rows_hold (table_of (lp_held l)) x.
(** What a generator gives for such LPs. *)
Definition valid_generator {E X G} (p : problem) (g : generator (E := E) (X := X) G) : Prop :=
  forall y r l cs y', has_columns p l -> relaxes p l -> g y r l = Ok (cs, y') ->
  Forall (fun c => proper_cut p c /\ valid_cut p c) cs.
Definition proper_generator {E X G} (p : problem) (g : generator (E := E) (X := X) G) : Prop :=
  forall y r l cs y', has_columns p l -> g y r l = Ok (cs, y') -> Forall (fitting_cut p) cs.
(** It never fails, and gives fitting rows, none empty. *)
Definition total_generator {E X G} (p : problem) (g : generator (E := E) (X := X) G) : Prop :=
  forall y r l, has_columns p l -> exists cs y', g y r l = Ok (cs, y') /\
  Forall (fun c => fitting_cut p c /\ number_of_non_zeros c <> 0) cs.

(** *** The problem *)
(** Finite coefficients and costs; bounds and sides are not NaN. *)
Record proper_problem (p : problem) : Prop := {
  pp_ok : problem_ok p;
  pp_bounds : Forall (fun v => is_nan (v_lb v) = false /\ is_nan (v_ub v) = false /\
                dvalid (v_lb v) = true /\ dvalid (v_ub v) = true) (p_vars p);
  pp_sides : Forall (fun c => is_nan (c_lhs c) = false /\ is_nan (c_rhs c) = false /\
               dvalid (c_lhs c) = true /\ dvalid (c_rhs c) = true) (p_cons p);
  pp_coefs : Forall finite_coefs (p_cons p);
  pp_objective : finite_objective p }.
(** Feasible but for integrality. *)
Definition relaxed (p : problem) (x : point) : Prop :=
  (forall j v, nth_var p j = Some v -> q_above (v_lb v) (x j) /\ q_below (x j) (v_ub v)) /\
  (forall r c, nth_con p r = Some c ->
     q_above (c_lhs c) (row_activity c x) /\ q_below (row_activity c x) (c_rhs c)).
(** The point of a reported solution. *)
Definition solution_point (s : solution) : point :=
  fun j => match at_ (s_vals s) j with Ok v => qval v | _ => 0%Q end.
(** The LP relaxation is not unbounded. *)
Definition bounded_relaxation (p : problem) : Prop :=
  exists m, forall x, relaxed p x -> (m <= cost p x)%Q.

(** *** The request *)
(** An LP solver without limits, and max-fractional branching with a tolerance that is not
    negative. *)
Record plain_request (u : params_msg) : Prop := {
  pr_lower : objective_lower_limit (wanted_lp u) = dminf;
  pr_upper : objective_upper_limit (wanted_lp u) = dinf;
  pr_time : timing_mode (wanted_lp u) = TIMING_OFF;
  pr_iterations : iteration_limit (wanted_lp u) = 0;
  pr_rule : wanted_rule u = UseMaxFractional;
  pr_tol : let t := setting (pm_integrality u) d1em6 in
    dvalid t = true /\ is_finite t = true /\ 0 <= zval t }.

(** The same without the choice of the rule. *)
Record calm_request (u : params_msg) : Prop := {
  cr_lower : objective_lower_limit (wanted_lp u) = dminf;
  cr_upper : objective_upper_limit (wanted_lp u) = dinf;
  cr_time : timing_mode (wanted_lp u) = TIMING_OFF;
  cr_iterations : iteration_limit (wanted_lp u) = 0;
  cr_tol : let t := setting (pm_integrality u) d1em6 in
    dvalid t = true /\ is_finite t = true /\ 0 <= zval t }.
(** The integer variables are the first columns. *)
Definition integers_first (p : problem) : Prop :=
  forall j k, is_integer_var p j -> 0 <= k < j -> is_integer_var p k.
(** A rule that branches on integer variables only; [draw w n] are random numbers. *)
Definition usable_rule {W} (p : problem) (u : params_msg) (draw : W -> Z -> Z) : Prop :=
  wanted_rule u = UseMaxFractional \/
  wanted_rule u = UseRandom /\ integers_first p /\ forall w, is_draw (draw w).

(** The user asks for no cuts: the generator of the default parameters is always there, so this
    means no round of separation. *)
Definition no_cuts (u : params_msg) : Prop := max_iterations (wanted_limits u) <= 0.
(** [order] visits every integer variable once. *)
Definition visits_integers (p : problem) (order : list Z) : Prop :=
  NoDup order /\ forall j, In j order <-> is_integer_var p j.
(** The LP solver the user asks for. *)
Definition wanted_solver (u : params_msg) : solver_type := lp_solver_type (wanted_lp u).
