{
 "claims": [
  {
   "property": "C01",
   "status": "proved",
   "theorems": [
    "C01_reads_last_write",
    "C01_refines_map",
    "C01_from_entries",
    "C01_from_dense"
   ],
   "note": "Second theorem covers all members, provided no scaling underflows to zero."
  },
  {
   "property": "C02",
   "status": "partial",
   "theorems": [
    "C02_canonical_refuted",
    "C02_canonical_partial",
    "C02_canonical_unique",
    "C02_is_clean",
    "C02_first_last"
   ],
   "note": "False of the code for *= and /=: an underflowing product stays stored. Proved for histories in which no scaling yields zero."
  },
  {
   "property": "C03",
   "status": "proved",
   "theorems": [
    "C03_add_multiple_pointwise",
    "C03_plus_minus",
    "C03_undefined"
   ],
   "note": ""
  },
  {
   "property": "C04",
   "status": "partial",
   "theorems": [
    "C04_self_alias_refuted",
    "C04_self_alias_always_ub"
   ],
   "note": "False of the code: every non-empty self-aliased call touches moved-from storage."
  },
  {
   "property": "C05",
   "status": "proved",
   "theorems": [
    "C05_dot_product"
   ],
   "note": ""
  },
  {
   "property": "C06",
   "status": "proved",
   "theorems": [
    "C06_transform",
    "C06_negate_scale"
   ],
   "note": ""
  },
  {
   "property": "C07",
   "status": "proved",
   "theorems": [
    "C07_views_agree"
   ],
   "note": ""
  },
  {
   "property": "C08",
   "status": "proved",
   "theorems": [
    "C08_reads_pure"
   ],
   "note": ""
  },
  {
   "property": "C09",
   "status": "proved",
   "theorems": [
    "C09_resize"
   ],
   "note": ""
  },
  {
   "property": "C10",
   "status": "proved",
   "theorems": [
    "C10_well_formed"
   ],
   "note": "Invariant over all accepted histories."
  },
  {
   "property": "C11",
   "status": "proved",
   "theorems": [
    "C11_add",
    "C11_add_defined"
   ],
   "note": "New index not active, all other nodes unchanged, storage grows only if nothing is free; never undefined behaviour."
  },
  {
   "property": "C12",
   "status": "proved",
   "theorems": [
    "C12_close_leaf",
    "C12_close_inner",
    "C12_tree_empty"
   ],
   "note": "Chain, counters and emptiness for every reachable tree."
  },
  {
   "property": "C13",
   "status": "partial",
   "theorems": [
    "C13_close_partial",
    "C13_root_always_ub",
    "C13_close_refuted"
   ],
   "note": "False for the root: its parent is -1 and the counter array is read at -1. Proved for all other nodes; the root always gives undefined behaviour."
  },
  {
   "property": "C14",
   "status": "proved",
   "theorems": [
    "C14_lower",
    "C14_upper",
    "C14_path_exists"
   ],
   "note": "Largest/smallest of root bound and all claims on the path (NaN-free)."
  },
  {
   "property": "C15",
   "status": "proved",
   "theorems": [
    "C15_monotone"
   ],
   "note": "Child box inside parent box inside root box."
  },
  {
   "property": "C16",
   "status": "proved",
   "theorems": [
    "C16_branching"
   ],
   "note": "All finite doubles v; exact cover of the integers, disjoint and v excluded if fractional."
  },
  {
   "property": "C17",
   "status": "partial",
   "theorems": [
    "C17_added_refuted",
    "C17_added_reuse_refuted",
    "C17_closed_refuted",
    "C17_counters_partial",
    "C17_added_partial"
   ],
   "note": "Documented meaning is false; exact meaning of both counters proved instead."
  },
  {
   "property": "C18",
   "status": "partial",
   "theorems": [
    "C18_rejects_refuted",
    "C18_rejects_partial"
   ],
   "note": "The full statement is false: an index equal to the number of variables is accepted. The partial theorem gives the exact accepted set."
  },
  {
   "property": "C19",
   "status": "partial",
   "theorems": [
    "C19_loads_refuted",
    "C19_loads_partial"
   ],
   "note": "False in two ways (index past the end; NaN bound on an integer variable). Proved for well-formed problems without NaN integer bounds."
  },
  {
   "property": "C20",
   "status": "proved",
   "theorems": [
    "C20_faithful"
   ],
   "note": "A negative zero coefficient reads as 0.0."
  },
  {
   "property": "C21",
   "status": "proved",
   "theorems": [
    "C21_objective",
    "C21_objective_value"
   ],
   "note": "Exact negation, proved from binary64 multiplication by -1."
  },
  {
   "property": "C22",
   "status": "partial",
   "theorems": [
    "C22_slack_refuted",
    "C22_slack_partial",
    "C22_integral_coefficient"
   ],
   "note": "False: the mark ignores fractional sides. Proved for whole sides."
  },
  {
   "property": "C23",
   "status": "proved",
   "theorems": [
    "C23_best"
   ],
   "note": ""
  },
  {
   "property": "C24",
   "status": "proved",
   "theorems": [
    "C24_integral",
    "C24_order",
    "C24_zero_tolerance"
   ],
   "note": ""
  },
  {
   "property": "C25",
   "status": "proved",
   "theorems": [
    "C25_defined",
    "C25_index",
    "C25_add",
    "C25_remove",
    "C25_unset",
    "C25_create"
   ],
   "note": ""
  },
  {
   "property": "C26",
   "status": "partial",
   "theorems": [
    "C26_active_refuted",
    "C26_active_partial"
   ],
   "note": "False if a cut is activated twice. Proved for histories without repeated activation."
  },
  {
   "property": "C27",
   "status": "proved",
   "theorems": [
    "C27_terminates",
    "C27_subset"
   ],
   "note": "Termination needs every cut to have a non-zero: the score divides by their number."
  },
  {
   "property": "C28",
   "status": "proved",
   "theorems": [
    "C28_orthogonal"
   ],
   "note": ""
  },
  {
   "property": "C29",
   "status": "partial",
   "theorems": [
    "C29_limits_refuted",
    "C29_limits_partial"
   ],
   "note": "False for limit 0 and for forced cuts of low score or past the limit."
  },
  {
   "property": "C30",
   "status": "proved",
   "theorems": [
    "C30_rounds",
    "C30_guard",
    "C30_progress",
    "C30_lp",
    "C30_terminates"
   ],
   "note": ""
  },
  {
   "property": "C31",
   "status": "partial",
   "theorems": [
    "C31_limits_refuted",
    "C31_limits_ignored",
    "C31_limits_partial"
   ],
   "note": "False: positive limits have no effect at all. Proved for limit 0."
  },
  {
   "property": "C61",
   "status": "partial",
   "theorems": [
    "C61_remove_alias_refuted",
    "C61_last_undefined",
    "C61_always_wrong"
   ],
   "note": "False: the index is taken by reference into the list being changed. For the last active cut the call is undefined; for any other it always leaves a cut with a wrong index."
  },
  {
   "property": "C62",
   "status": "proved",
   "theorems": [
    "C62_update_efficacy",
    "C62_efficacy"
   ],
   "note": ""
  },
  {
   "property": "C32",
   "status": "proved",
   "theorems": [
    "C32_max_fractional",
    "C32_fractional_part",
    "C32_exact"
   ],
   "note": "Maximality is of the fractional parts as doubles; exactly for non-negative values, otherwise up to rounding (C32_exact)."
  },
  {
   "property": "C33",
   "status": "partial",
   "theorems": [
    "C33_random_refuted",
    "C33_random_partial",
    "C33_direction"
   ],
   "note": "False: the draw is used as a column number and LP values are ignored. Proved: an integer variable if they come first."
  },
  {
   "property": "C41",
   "status": "proved",
   "theorems": [
    "C41_optimum",
    "C41_error"
   ],
   "note": "Over an arbitrary LP solver, cut runner and branching rule; hypotheses are LP soundness, validity of cuts and a branching rule that returns an integer variable."
  },
  {
   "property": "C42",
   "status": "proved",
   "theorems": [
    "C42_solutions"
   ],
   "note": "The LP is assumed to return points inside the bounds it was given."
  },
  {
   "property": "C43",
   "status": "proved",
   "theorems": [
    "C43_finite",
    "C43_terminates"
   ],
   "note": "Finite bounds on integer variables; max-fractional branching (C43_terminates) or any rule returning fractional variables (C43_finite)."
  },
  {
   "property": "C44",
   "status": "proved",
   "theorems": [
    "C44_defined",
    "C44_queue"
   ],
   "note": "Nodes whose LP point was integral stay in the tree without being queued; the theorem says so."
  },
  {
   "property": "C45",
   "status": "partial",
   "theorems": [
    "C45_status_refuted",
    "C45_status_partial",
    "C45_codes_partial"
   ],
   "note": "Full statement false: kOptimal without a solution, objective without offset and sense, kInfeasible = kUnbounded."
  },
  {
   "property": "C46",
   "status": "partial",
   "theorems": [
    "C46_convenience_refuted",
    "C46_convenience_partial"
   ],
   "note": "Full statement false: the convenience function never returns a result."
  },
  {
   "property": "C47",
   "status": "partial",
   "theorems": [
    "C47_sibling_refuted",
    "C47_depth_first_partial",
    "C47_limit_partial"
   ],
   "note": "The clause about -1 holds; for limits 0, 1 and 2 the documented order is refuted."
  },
  {
   "property": "C34",
   "status": "proved",
   "theorems": [
    "C34_aggregation",
    "C34_substitution",
    "C34_side"
   ],
   "note": ""
  },
  {
   "property": "C35",
   "status": "proved",
   "theorems": [
    "C35_shift",
    "C35_nonnegative",
    "C35_back"
   ],
   "note": ""
  },
  {
   "property": "C36",
   "status": "partial",
   "theorems": [
    "C36_mir_refuted",
    "C36_bound_refuted",
    "C36_tolerance_refuted",
    "C36_mir_partial",
    "C36_C37_snaps"
   ],
   "note": "False for fractional sides of integral rows, fractional bounds of integer variables and positive tolerance. Proved in exact arithmetic for data without these."
  },
  {
   "property": "C37",
   "status": "partial",
   "theorems": [
    "C37_scg_refuted",
    "C37_scg_partial",
    "C37_declines",
    "C36_C37_snaps"
   ],
   "note": "As C36; in addition integer right-hand sides are excluded (division by zero)."
  },
  {
   "property": "C38",
   "status": "partial",
   "theorems": [
    "C38_global_refuted",
    "C38_global_partial"
   ],
   "note": "False where branching changed the bounds of a variable that may be negative. Proved otherwise."
  },
  {
   "property": "C39",
   "status": "partial",
   "theorems": [
    "C39_cut_rows_refuted",
    "C39_cut_rows_partial"
   ],
   "note": "False with cut rows in the LP: the integrality flags are read past their end. Proved when every row has a flag."
  },
  {
   "property": "C40",
   "status": "partial",
   "theorems": [
    "C40_separates",
    "C40_double",
    "C40_limit_refuted",
    "C40_limit_partial",
    "C40_returned",
    "C40_names"
   ],
   "note": "Separation and the fractional basic variable are proved. The limit is refuted; it is exceeded by at most the number of rounders minus one."
  },
  {
   "property": "C48",
   "status": "proved",
   "theorems": [
    "C48_reads",
    "C48_defined"
   ],
   "note": "Glop interface, all histories of legal calls; the LP engine is arbitrary (definedness uses that it keeps its parameters)."
  },
  {
   "property": "C49",
   "status": "proved",
   "theorems": [
    "C49_delete_rows",
    "C49_soplex_delete_rows"
   ],
   "note": "Glop and SoPlex."
  },
  {
   "property": "C50",
   "status": "partial",
   "theorems": [
    "C50_solved_refuted",
    "C50_solved_partial",
    "C50_soplex_file_refuted",
    "C50_soplex_error_refuted",
    "C50_soplex_partial"
   ],
   "note": "False for both interfaces after ReadLpFromFile, and for SoPlex after a solve that returned an error; proved for histories that read no file."
  },
  {
   "property": "C51",
   "status": "partial",
   "theorems": [
    "C51_glop_accepts",
    "C51_glop_timing_lost",
    "C51_glop_timing_refuted",
    "C51_glop_flag_refuted",
    "C51_glop_partial",
    "C51_glop_new",
    "C51_soplex_scratch_refuted",
    "C51_soplex_partial",
    "C51_soplex_stable",
    "C51_soplex_new"
   ],
   "note": "Glop: acceptance and rejection proved; read-back false for infinite time limits and when another interface changes the process-wide flag, proved otherwise. SoPlex: solve_from_scratch is ignored; acceptance, rejection, read-back of the rest and stability proved for every reachable state. What a new interface reads back is proved for both."
  },
  {
   "property": "C52",
   "status": "proved",
   "theorems": [
    "C52_status",
    "C52_reports",
    "C52_limits",
    "C52_stable"
   ],
   "note": "All Glop statuses, and what each predicate reports; the iteration limit after every history; stability."
  },
  {
   "property": "C53",
   "status": "partial",
   "theorems": [
    "C53_uninitialised_always_ub",
    "C53_uninitialised_refuted",
    "C53_unsolved_refuted",
    "C53_flags_refuted",
    "C53_rounding_refuted",
    "C53_branch_partial",
    "C53_empty",
    "C53_iterations",
    "C53_soplex_unstarted",
    "C53_soplex_unstarted_refuted",
    "C53_soplex_restores",
    "C53_soplex_honest",
    "C53_soplex_iterations",
    "C53_failed"
   ],
   "note": "Glop: false in four ways (uninitialised result, no scaled LP before a solve, wrong flag on failure, rounding after scaling). Restoration and honesty of the flags proved whenever the call returns. SoPlex: aborts without StartStrongBranching; restoration and honesty proved whenever the call returns."
  },
  {
   "property": "C54",
   "status": "partial",
   "theorems": [
    "C54_glop_refuted",
    "C54_soplex_empty_refuted",
    "C54_soplex_partial"
   ],
   "note": "Glop: success and failure are exchanged. SoPlex: proved, except that an empty path aborts."
  },
  {
   "property": "C57",
   "status": "partial",
   "theorems": [
    "C57_glop_never_fixed",
    "C57_glop_fixed_refuted",
    "C57_glop_partial",
    "C57_soplex_fixed_refuted",
    "C57_soplex_unsolved",
    "C57_soplex_undefined",
    "C57_soplex_partial"
   ],
   "note": "False for fixed statuses in both interfaces, proved for all others under the law that the engine reports what it was given; the SoPlex getters abort unless the LP is optimal."
  },
  {
   "property": "C63",
   "status": "partial",
   "theorems": [
    "C63_basis_refuted",
    "C63_basis_partial"
   ],
   "note": "False when an outdated basis happens to have the size of the LP; proved when the basis is current."
  },
  {
   "property": "C64",
   "status": "partial",
   "theorems": [
    "C64_params_refuted",
    "C64_params_partial"
   ],
   "note": "False when the unscaled retry fails; proved for successful solves."
  },
  {
   "property": "C66",
   "status": "proved",
   "theorems": [
    "C66_lp_faithful",
    "C66_soplex"
   ],
   "note": "All accepted problems, Glop and SoPlex; exact. SoPlex holds no names."
  },
  {
   "property": "C67",
   "status": "partial",
   "theorems": [
    "C67_clock_swapped",
    "C67_clock_refuted"
   ],
   "note": "False always: the two clocks are exchanged."
  },
  {
   "property": "C68",
   "status": "partial",
   "theorems": [
    "C68_solves_refuted",
    "C68_solves_partial"
   ],
   "note": "False after ReadLpFromFile; proved for histories that read no file."
  },
  {
   "property": "C65",
   "status": "partial",
   "theorems": [
    "C65_empty_always_ub",
    "C65_empty_refuted"
   ],
   "note": "False: a cut without non-zeros makes the selector divide by zero."
  },
  {
   "property": "C69",
   "status": "partial",
   "theorems": [
    "C69_score_refuted",
    "C69_score_partial"
   ],
   "note": "False: the integer fraction is an integer division. Proved: the formula with a fraction of 1 if all non-zeros belong to integer variables and 0 otherwise."
  },
  {
   "property": "C55",
   "status": "partial",
   "theorems": [
    "C55_rejected_refuted",
    "C55_stuck",
    "C55_free_row"
   ],
   "note": "False: any rejected basis on a non-empty LP leaves the saved arrays allocated, so every guarded call aborts from then on."
  },
  {
   "property": "C56",
   "status": "partial",
   "theorems": [
    "C56_column_refuted",
    "C56_row",
    "C56_column_partial"
   ],
   "note": "False for columns in the sparse representation (wrong position is read). Rows proved in both representations, columns for dense rows and for sparse rows whose i-th listed position is i."
  },
  {
   "property": "C70",
   "status": "partial",
   "theorems": [
    "C70_reads",
    "C70_defined",
    "C70_row_refuted"
   ],
   "note": "All getters proved for every legal history, every edit defined; false only in that the sparse row is returned without cleaning."
  },
  {
   "property": "C71",
   "status": "partial",
   "theorems": [
    "C71_presolve_refuted",
    "C71_params_partial"
   ],
   "note": "False for use_presolve, proved for everything else."
  },
  {
   "property": "C72",
   "status": "partial",
   "theorems": [
    "C72_column_aborts",
    "C72_row_aborts",
    "C72_crossing_refuted"
   ],
   "note": "False: solving aborts, for every LP with bounds or sides that cross by more than SoPlex's epsilon."
  },
  {
   "property": "C73",
   "status": "partial",
   "theorems": [
    "C73_session_partial",
    "C73_empty_aborts",
    "C73_empty_refuted",
    "C73_throws",
    "C73_no_basis",
    "C73_guarded",
    "C73_add_row_undefined"
   ],
   "note": "Proved for non-empty LPs and an engine that does not throw; what happens if it throws on the saved basis or has none is proved too. False for the empty LP (EndStrongBranching aborts) and if a row is added meanwhile (undefined behaviour)."
  },
  {
   "property": "C74",
   "status": "partial",
   "theorems": [
    "C74_gap_refuted",
    "C74_split_partial"
   ],
   "note": "False at 3.000001 with the default tolerance 1e-6. Proved for values at least 2^-j away from every integer and tolerances up to 2^-(j+1), for both interfaces (Glop: of the scaled value)."
  },
  {
   "property": "C75",
   "status": "proved",
   "theorems": [
    "C75_optimal",
    "C75_reports"
   ],
   "note": "All SoPlex statuses and basis statuses, and what each predicate reports."
  },
  {
   "property": "C58",
   "status": "partial",
   "theorems": [
    "C58_unsupported",
    "C58_faithful",
    "C58_partial",
    "C58_files",
    "C58_files_only",
    "C58_strings",
    "C58_invalid_refuted"
   ],
   "note": "Rejection and faithful contents proved for all models. False that every invalid problem is refused: a variable index equal to the number of variables is accepted; C58_partial says exactly which models are converted."
  },
  {
   "property": "C59",
   "status": "partial",
   "theorems": [
    "C59_partial",
    "C59_short_refuted"
   ],
   "note": "False for readable names of three characters (the unsigned subtraction wraps to npos); proved exactly for all other names."
  },
  {
   "property": "C60",
   "status": "partial",
   "theorems": [
    "C60_partial",
    "C60_generator_refuted",
    "C60_off_refuted",
    "C60_selector_refuted",
    "C60_selectors_ignored",
    "C60_lists_ignored",
    "C60_factories"
   ],
   "note": "Proved for the LP solver and its parameters, runner limits, branching rule, tolerances and backtrack limit. False for generators (the default one always runs too) and for selectors (the user's is never used)."
  },
  {
   "property": "C76",
   "status": "proved",
   "theorems": [
    "C76_optimum"
   ],
   "note": "All proper problems, plain requests, Glop or SoPlex exact on proper LPs, valid generators or no cuts. The random rule: see C90."
  },
  {
   "property": "C77",
   "status": "proved",
   "theorems": [
    "C77_terminates",
    "C77_rejects",
    "C77_guard"
   ],
   "note": "Creation and termination with Glop; C77_guard for both LP solvers. engine_runs and engine_inside are hypotheses on Glop, total_generator on the cut generators (or no cuts), for LPs over the problem's columns. The generator of the repository does not meet it: C84."
  },
  {
   "property": "C78",
   "status": "proved",
   "theorems": [
    "C78_solutions"
   ],
   "note": "All runs with either LP solver; the LP engine's optimal values are assumed inside the column bounds."
  },
  {
   "property": "C79",
   "status": "partial",
   "theorems": [
    "C79_run",
    "C79_soplex_run",
    "C79_soplex_throw_refuted"
   ],
   "note": "Glop and SoPlex, every state; Glop engines that keep the parameters they are given. A SoPlex run that throws still counts as a success if the status is one of those accepted."
  },
  {
   "property": "C80",
   "status": "proved",
   "theorems": [
    "C80_read",
    "C80_soplex_read",
    "C80_soplex_blocked"
   ],
   "note": "Glop and SoPlex. The parser of the file is not modelled: a file is the LP it holds, or unreadable."
  },
  {
   "property": "C81",
   "status": "partial",
   "theorems": [
    "C81_row_partial",
    "C81_column",
    "C81_row_times",
    "C81_column_times_partial",
    "C81_agree_partial",
    "C81_order_refuted",
    "C81_agree_refuted",
    "C81_boundary_refuted"
   ],
   "note": "Glop. Refuted: positions listed out of order give an unclean vector that reads wrongly; listed rows keep entries below the tolerance that columns drop; entries equal to the tolerance are kept by one product getter and dropped by the other. Proved for positions listed in order or not at all."
  },
  {
   "property": "C82",
   "status": "proved",
   "theorems": [
    "C82_basis"
   ],
   "note": "Glop. The engine's basis is assumed in range and without repetition."
  },
  {
   "property": "C83",
   "status": "proved",
   "theorems": [
    "C83_values",
    "C83_primal_ray",
    "C83_dual_ray",
    "C83_slope"
   ],
   "note": "Glop. That the sign change of the rays is right depends on Glop's convention, which is outside the repository."
  },
  {
   "property": "C84",
   "status": "partial",
   "theorems": [
    "C84_rejects",
    "C84_reads",
    "C84_solutions_partial",
    "C84_first_round_partial",
    "C84_first_round_soplex_partial",
    "C84_optimum_refuted",
    "C84_cut_rows_refuted",
    "C84_empty_cut_refuted"
   ],
   "note": "Refuted end to end with either LP solver: a wrong optimum and two kinds of undefined behaviour with an exact LP solver and basis inverse. Proved: the generator reads what the interface getters answer; integrality and bounds of the solutions with no assumption on the basis inverse; generation is defined while the LP has no cut rows."
  },
  {
   "property": "C85",
   "status": "proved",
   "theorems": [
    "C85_constraints",
    "C85_optimal",
    "C85_own"
   ],
   "note": "Every reported solution against the user's constraints and cost with accurate_lp eps for the LP solver asked for; the best solution is a minimiser for an exact engine, valid cuts and tolerance 0. C85_own: the same constraints hold with the repository's own cut generator."
  },
  {
   "property": "C86",
   "status": "proved",
   "theorems": [
    "C86_solution",
    "C86_basis",
    "C86_row_times",
    "C86_column_times",
    "C86_times_agree",
    "C86_errors"
   ],
   "note": "For every SoPlex engine. The products themselves are SoPlex's."
  },
  {
   "property": "C87",
   "status": "proved",
   "theorems": [
    "C87_same_answer"
   ],
   "note": "Corollary of C85_optimal and C76_optimum for two arbitrary configurations over the same problem, each with Glop or SoPlex, and of their generalisation to both LP interfaces."
  },
  {
   "property": "C88",
   "status": "partial",
   "theorems": [
    "C88_terminates_refuted",
    "C88_terminates_partial"
   ],
   "note": "With a fractional bound of an integer variable a child node can have crossing bounds, on which the interface aborts; proved if the integer variables have whole bounds."
  },
  {
   "property": "C89",
   "status": "partial",
   "theorems": [
    "C89_unsettled_refuted",
    "C89_root_refuted",
    "C89_settled_partial"
   ],
   "note": "A node whose LP was given up is closed as if infeasible; at the root the problem is called infeasible or unbounded. Proved for runs in which every LP that closed a node was said to be infeasible."
  },
  {
   "property": "C90",
   "status": "partial",
   "theorems": [
    "C90_terminates_refuted",
    "C90_random_partial"
   ],
   "note": "The draw is used as a column number; with a continuous variable in the first column and one integer variable Solve() never ends, whatever the draws. With the integer variables first the answer, if there is one, is right."
  },
  {
   "property": "C91",
   "status": "partial",
   "theorems": [
    "C91_again_refuted",
    "C91_fails_partial",
    "C91_again_partial",
    "C91_optimum_partial",
    "C91_whole_partial"
   ],
   "note": "Full statement false: after every run that explored more than the root the second call never returns OK (it aborts, since the tree is not reset). Proved for runs that explored the root only, and that any OK answer is still right."
  },
  {
   "property": "C92",
   "status": "proved",
   "theorems": [
    "C92_lp",
    "C92_implied",
    "C92_refused"
   ],
   "note": ""
  },
  {
   "property": "C93",
   "status": "partial",
   "theorems": [
    "C93_parallelism_refuted",
    "C93_parallelism_partial"
   ],
   "note": "False: rounding can lead above 1 (row 0.3 x, objective 1.7 x), and a zero objective gives NaN. Proved for integer coefficients with a.a c.c at most 2^50."
  },
  {
   "property": "C94",
   "status": "partial",
   "theorems": [
    "C94_failure_refuted",
    "C94_failure_aborts",
    "C94_failure_partial"
   ],
   "note": "False: every such failure aborts the process (CHECK_OK, value()). Proved: that it does, in every state a run reaches, and that the only error returned is that of a root LP that is not optimal."
  },
  {
   "property": "C95",
   "status": "proved",
   "theorems": [
    "C95_glop_defaults",
    "C95_soplex_defaults",
    "C95_markowitz",
    "C95_literals",
    "C95_double_arith"
   ],
   "note": ""
  },
  {
   "property": "C96",
   "status": "partial",
   "theorems": [
    "C96_efficacy_refuted",
    "C96_efficacy_partial",
    "C96_update_partial"
   ],
   "note": "False: rounding can lead to efficacy 0 at a violating point, and an empty row gives NaN. Proved (sign, zero, and distance up to a relative error near 2^-51) for integer coefficients and binary fractions whose products and sums are below 2^53."
  },
  {
   "property": "C97",
   "status": "proved",
   "theorems": [
    "C97_dot",
    "C97_add_multiple",
    "C97_scale",
    "C97_aggregate"
   ],
   "note": "For canonical vectors without pending clean-up."
  },
  {
   "property": "C98",
   "status": "partial",
   "theorems": [
    "C98_duplicates_refuted",
    "C98_cosine",
    "C98_duplicates_partial",
    "C98_orthogonal"
   ],
   "note": "False: for very large coefficients the squared norm overflows and two equal cuts are both selected; an orthogonality below 2^-53 is rounded away. Proved for integer coefficients whose squared norms have a product of at most 2^48 and a required orthogonality of at least 2^-48."
  },
  {
   "property": "C99",
   "status": "proved",
   "theorems": [
    "C99_rounds",
    "C99_lp",
    "C99_box"
   ],
   "note": ""
  }
 ]
}