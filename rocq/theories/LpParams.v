(** Model of LpParameters (parameters.proto:116-207), minimip/lp_interface/lpi.cc and the
    parameter members of lpi_glop.cc and lpi_soplex.cc.

    Proto enums are closed, so each is an inductive type; int32 fields are unbounded integers.
    The DCHECKs of the getters and LOG(DFATAL) of unreachable cases are not modelled. *)
From Coq Require Import List ZArith Bool SpecFloat.
From Verif Require Import Outcome Num Double.
Import ListNotations.
Open Scope Z_scope.

Inductive solver_type := LP_GLOP | LP_SOPLEX.
Inductive scaling := SCALING_OFF | SCALING_DEFAULT | SCALING_EQUILIBRATION
  | SCALING_LEAST_SQUARES | SCALING_LINEAR_PROGRAM.
Inductive pricing := PRICING_DEFAULT | PRICING_STEEPEST_EDGE | PRICING_STEEPEST_EDGE_QUICK_START
  | PRICING_DANTZIG | PRICING_PARTIAL_DANTZIG | PRICING_DEVEX.
Inductive timing := TIMING_OFF | TIMING_WALLCLOCK | TIMING_CPU | TIMING_DETERMINISTIC.

Record lp_params := mkParams {
  lp_solver_type : solver_type;
  solve_from_scratch : bool;
  scaling_strategy : scaling;
  use_presolve : bool;
  pricing_strategy : pricing;
  feasibility_tolerance : double;
  optimality_tolerance : double;
  min_markowitz_threshold : double;
  refactorization_interval : Z;
  objective_lower_limit : double;
  objective_upper_limit : double;
  timing_mode : timing;
  time_limit : double;
  iteration_limit : Z;
  num_threads : Z;
  random_seed : Z;
  enable_internal_solver_output : bool }.

(** The message with every field unset (the proto's defaults) but for the solver type. *)
Definition default_params (t : solver_type) : lp_params :=
  mkParams t false SCALING_DEFAULT true PRICING_DEFAULT dm1 dm1 dm1 0 dminf dinf
    TIMING_OFF dinf 0 0 0 false.

Definition is_off (t : timing) : bool := match t with TIMING_OFF => true | _ => false end.

(** LpParametersAreValid (lpi.cc:5-44); true is OkStatus, false an InvalidArgument error. *)
Definition LpParametersAreValid (p : lp_params) : bool :=
  let bad_tol x := dltb x d0 && negb (deqb x dm1) in
  if bad_tol (feasibility_tolerance p) then false
  else if bad_tol (optimality_tolerance p) then false
  else if bad_tol (min_markowitz_threshold p) then false
  else if refactorization_interval p <? 0 then false
  else if negb (is_off (timing_mode p)) && dleb (time_limit p) d0 then false
  else if iteration_limit p <? 0 then false
  else if num_threads p <? 0 then false
  else if random_seed p <? 0 then false
  else true.

(** *** Glop *)
Inductive glop_scaling := G_DEFAULT | G_EQUILIBRATION | G_LINEAR_PROGRAM.
Inductive glop_rule := G_DANTZIG | G_STEEPEST_EDGE | G_DEVEX.

(** The fields of GlopParameters that the interface reads or writes. *)
Record glop_params := mkGlop {
  use_scaling : bool;
  scaling_method : glop_scaling;
  use_preprocessing : bool;
  feasibility_rule : glop_rule;
  optimization_rule : glop_rule;
  primal_feasibility_tolerance : double;
  dual_feasibility_tolerance : double;
  g_objective_lower_limit : double;
  g_objective_upper_limit : double;
  max_time_in_seconds : double;
  max_deterministic_time : double;
  max_number_of_iterations : Z;
  num_omp_threads : Z;
  g_random_seed : Z;
  log_search_progress : bool;
  use_dual_simplex : bool }.

(** LpParametersAreSupportedByGlop (lpi_glop.cc:1220-1244). *)
Definition LpParametersAreSupportedByGlop (p : lp_params) : bool :=
  if negb (LpParametersAreValid p) then false
  else match lp_solver_type p with
  | LP_SOPLEX => false
  | LP_GLOP =>
    match scaling_strategy p with
    | SCALING_LEAST_SQUARES => false
    | _ =>
      match pricing_strategy p with
      | PRICING_STEEPEST_EDGE_QUICK_START | PRICING_PARTIAL_DANTZIG => false
      | _ => if negb (deqb (min_markowitz_threshold p) dm1) then false
             else if negb (refactorization_interval p =? 0) then false
             else true
      end
    end
  end.

(** 1e-8, the literal of lpi_glop.cc:1306 and 1310. *)
Definition d1em8 : double := S754_finite false 6044629098073146 (-79).
Definition or_default (x d : double) : double := if deqb x dm1 then d else x.

(** The Glop parameters set by SetLpParameters (lpi_glop.cc:1254-1353) for supported
    parameters.  A fresh GlopParameters has scaling_method EQUILIBRATION and
    use_dual_simplex false. *)
Definition to_glop (p : lp_params) : glop_params :=
  mkGlop
    (match scaling_strategy p with SCALING_OFF => false | _ => true end)
    (match scaling_strategy p with SCALING_LINEAR_PROGRAM => G_LINEAR_PROGRAM | _ => G_EQUILIBRATION end)
    (use_presolve p)
    (match pricing_strategy p with PRICING_DANTZIG => G_DANTZIG | PRICING_DEVEX => G_DEVEX | _ => G_STEEPEST_EDGE end)
    (match pricing_strategy p with PRICING_DANTZIG => G_DANTZIG | PRICING_DEVEX => G_DEVEX | _ => G_STEEPEST_EDGE end)
    (or_default (feasibility_tolerance p) d1em8)
    (or_default (optimality_tolerance p) d1em8)
    (objective_lower_limit p)
    (objective_upper_limit p)
    (match timing_mode p with TIMING_WALLCLOCK | TIMING_CPU => time_limit p | _ => dinf end)
    (match timing_mode p with TIMING_DETERMINISTIC => time_limit p | _ => dinf end)
    (if iteration_limit p =? 0 then -1 else iteration_limit p)
    (if num_threads p =? 0 then 1 else num_threads p)
    (random_seed p)
    (enable_internal_solver_output p)
    false.

(** absl::SetFlag(&FLAGS_time_limit_use_usertime, ...) (1332, 1338): a process-wide flag. *)
Definition usertime_flag (p : lp_params) (flag : bool) : bool :=
  match timing_mode p with TIMING_WALLCLOCK => true | TIMING_CPU => false | _ => flag end.

(** GetLpParameters (lpi_glop.cc:1136-1216), from the solver's parameters, the member
    solve_from_scratch_ and the flag. *)
Definition from_glop (g : glop_params) (scratch flag : bool) : lp_params :=
  let det := dltb (max_deterministic_time g) dinf in
  let sec := dltb (max_time_in_seconds g) dinf in
  mkParams LP_GLOP scratch
    (if use_scaling g
     then match scaling_method g with
          | G_DEFAULT => SCALING_DEFAULT
          | G_EQUILIBRATION => SCALING_EQUILIBRATION
          | G_LINEAR_PROGRAM => SCALING_LINEAR_PROGRAM
          end
     else SCALING_OFF)
    (use_preprocessing g)
    (match feasibility_rule g with
     | G_DANTZIG => PRICING_DANTZIG
     | G_STEEPEST_EDGE => PRICING_STEEPEST_EDGE
     | G_DEVEX => PRICING_DEVEX
     end)
    (primal_feasibility_tolerance g)
    (dual_feasibility_tolerance g)
    dm1
    0
    (g_objective_lower_limit g)
    (g_objective_upper_limit g)
    (if sec then (if flag then TIMING_WALLCLOCK else TIMING_CPU)
     else if det then TIMING_DETERMINISTIC else TIMING_OFF)
    (if sec then max_time_in_seconds g else if det then max_deterministic_time g else dinf)
    (if max_number_of_iterations g =? -1 then 0 else max_number_of_iterations g)
    (num_omp_threads g)
    (g_random_seed g)
    (log_search_progress g).

Definition with_dual (g : glop_params) (b : bool) : glop_params :=
  mkGlop (use_scaling g) (scaling_method g) (use_preprocessing g) (feasibility_rule g)
    (optimization_rule g) (primal_feasibility_tolerance g) (dual_feasibility_tolerance g)
    (g_objective_lower_limit g) (g_objective_upper_limit g) (max_time_in_seconds g)
    (max_deterministic_time g) (max_number_of_iterations g) (num_omp_threads g)
    (g_random_seed g) (log_search_progress g) b.
Definition with_scaling (g : glop_params) (b : bool) : glop_params :=
  mkGlop b (scaling_method g) (use_preprocessing g) (feasibility_rule g)
    (optimization_rule g) (primal_feasibility_tolerance g) (dual_feasibility_tolerance g)
    (g_objective_lower_limit g) (g_objective_upper_limit g) (max_time_in_seconds g)
    (max_deterministic_time g) (max_number_of_iterations g) (num_omp_threads g)
    (g_random_seed g) (log_search_progress g) (use_dual_simplex g).

(** *** SoPlex *)
Inductive spx_scaler := SCALER_OFF | SCALER_BIEQUI | SCALER_LEASTSQ.
Inductive spx_pricer := PRICER_AUTO | PRICER_STEEP | PRICER_QUICKSTEEP | PRICER_DANTZIG
  | PRICER_PARMULT | PRICER_DEVEX.
Inductive spx_timer := TIMER_OFF | TIMER_WALLCLOCK | TIMER_CPU.

(** The settings of soplex::SoPlex that the interface reads or writes. *)
Record spx_params := mkSpx {
  SCALER : spx_scaler;
  SIMPLIFIER : bool;            (* true = SIMPLIFIER_AUTO, false = SIMPLIFIER_OFF *)
  PRICER : spx_pricer;
  FEASTOL : double;
  OPTTOL : double;
  MIN_MARKOWITZ : double;
  FACTOR_UPDATE_MAX : Z;
  OBJLIMIT_LOWER : double;
  OBJLIMIT_UPPER : double;
  TIMER : spx_timer;
  TIMELIMIT : double;
  ITERLIMIT : Z;
  seed : Z;
  debug_output : bool }.

(** Which values SoPlex's own setIntParam / setRealParam accept, and its value of INFTY. *)
Record spx_rules := mkRules {
  ok_feastol : double -> bool;
  ok_opttol : double -> bool;
  ok_markowitz : double -> bool;
  ok_factor : Z -> bool;
  ok_objlimit : double -> bool;
  ok_timelimit : double -> bool;
  ok_iterlimit : Z -> bool;
  spx_infty : double }.

(** 1e-6 and 1e-4, the literals of lpi_soplex.cc:1850-1864, and 1.0 - 1e-4. *)
Definition d1em6 : double := S754_finite false 4722366482869645 (-72).
Definition d1em4 : double := S754_finite false 7378697629483821 (-66).
Definition d1m1em4 : double := dsub d1 d1em4.

(** GetLpParameters (lpi_soplex.cc:1664-1751). *)
Definition from_spx (s : spx_params) (scratch : bool) : lp_params :=
  mkParams LP_SOPLEX scratch
    (match SCALER s with
     | SCALER_OFF => SCALING_OFF
     | SCALER_BIEQUI => SCALING_EQUILIBRATION
     | SCALER_LEASTSQ => SCALING_LEAST_SQUARES
     end)
    (SIMPLIFIER s)
    (match PRICER s with
     | PRICER_AUTO => PRICING_DEFAULT
     | PRICER_STEEP => PRICING_STEEPEST_EDGE
     | PRICER_QUICKSTEEP => PRICING_STEEPEST_EDGE_QUICK_START
     | PRICER_DANTZIG => PRICING_DANTZIG
     | PRICER_PARMULT => PRICING_PARTIAL_DANTZIG
     | PRICER_DEVEX => PRICING_DEVEX
     end)
    (FEASTOL s) (OPTTOL s) (MIN_MARKOWITZ s) (FACTOR_UPDATE_MAX s)
    (OBJLIMIT_LOWER s) (OBJLIMIT_UPPER s)
    (match TIMER s with
     | TIMER_OFF => TIMING_OFF
     | TIMER_WALLCLOCK => TIMING_WALLCLOCK
     | TIMER_CPU => TIMING_CPU
     end)
    (match TIMER s with TIMER_OFF => dinf | _ => TIMELIMIT s end)
    (if ITERLIMIT s =? -1 then 0 else ITERLIMIT s)
    0
    (seed s)
    (debug_output s).

(** LpParametersAreSupportedBySoPlex (lpi_soplex.cc:1755-1781). *)
Definition LpParametersAreSupportedBySoPlex (p : lp_params) : bool :=
  if negb (LpParametersAreValid p) then false
  else match lp_solver_type p with
  | LP_GLOP => false
  | LP_SOPLEX =>
    match scaling_strategy p with
    | SCALING_LINEAR_PROGRAM => false
    | _ =>
      if negb (deqb (min_markowitz_threshold p) dm1) &&
         (dltb (min_markowitz_threshold p) d1em4 || dltb d1m1em4 (min_markowitz_threshold p))
      then false
      else match timing_mode p with
      | TIMING_DETERMINISTIC => false
      | _ => if negb (num_threads p =? 0) && negb (num_threads p =? 1) then false else true
      end
    end
  end.

(** setIntParam / setRealParam: the new value if it is accepted, otherwise no change; and
    whether it was accepted. *)
Definition put {B} (ok : B -> bool) (old new : B) : B := if ok new then new else old.

(** 2147483647 = INT_MAX *)
Definition INT_MAX : Z := 2 ^ 31 - 1.

(** The settings requested by SetLpParameters (lpi_soplex.cc:1792-1929).  Infinity() / 2.0 is
    written as a division. *)
Definition to_spx (R : spx_rules) (p : lp_params) : spx_params :=
  mkSpx
    (match scaling_strategy p with
     | SCALING_DEFAULT | SCALING_EQUILIBRATION => SCALER_BIEQUI
     | SCALING_LEAST_SQUARES => SCALER_LEASTSQ
     | _ => SCALER_OFF
     end)
    (use_presolve p)
    (match pricing_strategy p with
     | PRICING_DEFAULT => PRICER_AUTO
     | PRICING_STEEPEST_EDGE => PRICER_STEEP
     | PRICING_STEEPEST_EDGE_QUICK_START => PRICER_QUICKSTEEP
     | PRICING_DANTZIG => PRICER_DANTZIG
     | PRICING_PARTIAL_DANTZIG => PRICER_PARMULT
     | PRICING_DEVEX => PRICER_DEVEX
     end)
    (or_default (feasibility_tolerance p) d1em6)
    (or_default (optimality_tolerance p) d1em6)
    (or_default (min_markowitz_threshold p) d1em4)
    (refactorization_interval p)
    (dmax (dopp (spx_infty R)) (objective_lower_limit p))
    (dmin (spx_infty R) (objective_upper_limit p))
    (match timing_mode p with
     | TIMING_WALLCLOCK => TIMER_WALLCLOCK
     | TIMING_CPU => TIMER_CPU
     | _ => TIMER_OFF
     end)
    (if deqb (time_limit p) d0 || dleb (spx_infty R) (time_limit p)
     then ddiv (spx_infty R) (dint 2) else time_limit p)
    (if (iteration_limit p =? 0) || (INT_MAX <=? iteration_limit p) then -1 else iteration_limit p)
    (random_seed p)
    (enable_internal_solver_output p).

(** All the setters one after the other; each keeps its old value if SoPlex refuses. *)
Definition spx_put (R : spx_rules) (s t : spx_params) : spx_params :=
  mkSpx (SCALER t) (SIMPLIFIER t) (PRICER t)
    (put (ok_feastol R) (FEASTOL s) (FEASTOL t))
    (put (ok_opttol R) (OPTTOL s) (OPTTOL t))
    (put (ok_markowitz R) (MIN_MARKOWITZ s) (MIN_MARKOWITZ t))
    (put (ok_factor R) (FACTOR_UPDATE_MAX s) (FACTOR_UPDATE_MAX t))
    (put (ok_objlimit R) (OBJLIMIT_LOWER s) (OBJLIMIT_LOWER t))
    (put (ok_objlimit R) (OBJLIMIT_UPPER s) (OBJLIMIT_UPPER t))
    (TIMER t)
    (put (ok_timelimit R) (TIMELIMIT s) (TIMELIMIT t))
    (put (ok_iterlimit R) (ITERLIMIT s) (ITERLIMIT t))
    (seed t) (debug_output t).
(** error.empty() *)
Definition spx_accepts (R : spx_rules) (t : spx_params) : bool :=
  ok_feastol R (FEASTOL t) && ok_opttol R (OPTTOL t) && ok_markowitz R (MIN_MARKOWITZ t) &&
  ok_factor R (FACTOR_UPDATE_MAX t) && ok_objlimit R (OBJLIMIT_LOWER t) &&
  ok_objlimit R (OBJLIMIT_UPPER t) && ok_timelimit R (TIMELIMIT t) && ok_iterlimit R (ITERLIMIT t).

(** SetLpParameters (lpi_soplex.cc:1785-1934).  The member solve_from_scratch_ is read (1670)
    but never written.  The error path calls the function again on the old parameters and
    CHECKs that this succeeds; [fuel] bounds that recursion.  The result is the new settings
    and whether the status is OK. *)
Fixpoint SoplexSetLpParameters (fuel : nat) (R : spx_rules) (scratch : bool) (s : spx_params)
  (p : lp_params) : outcome (spx_params * bool) :=
  match fuel with
  | O => Fuel
  | S fuel' =>
      if negb (LpParametersAreSupportedBySoPlex p) then Ok (s, false)
      else
        let old := from_spx s scratch in
        let t := to_spx R p in
        let s' := spx_put R s t in
        if spx_accepts R t then Ok (s', true)
        else do (s'', ok) <- SoplexSetLpParameters fuel' R scratch s' old ;
             do _ <- check ok ;
             Ok (s'', false)
  end.
