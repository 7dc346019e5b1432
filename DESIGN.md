# MiniMIP: formal model and proofs in Rocq

The model is in `rocq/theories`. It follows the C++ sources under `/repo/minimip`
function by function; every definition cites the file and lines it models. No code
from the repository was built or run.

## 1. Modelling conventions

**Build mode.** Release build: `DCHECK` is not executed, `CHECK` aborts. What a
`DCHECK` guards is either shown to hold, or appears as an explicit undefined outcome.

**Outcomes** (`Outcome.v`). A call yields `Ok v`, `Err` (an `absl::Status` error),
`Abort` (failed `CHECK`, `LOG(FATAL)`, `.value()` on an error, uncaught exception) or
`UB` (out-of-bounds access, null dereference, uninitialised read, division by zero of
integers). Loops with no structural bound run on fuel and have a separate outcome
`Fuel`, which no theorem accepts as a normal result.

**Doubles** (`Double.v`). `spec_float` of Coq's standard library with precision 53 and
emax 1024, i.e. IEEE binary64 with one NaN, rounding to nearest-even. Comparison,
`+ - * / sqrt`, `floor`, `ceil`, `round` (half away from zero), `fabs`, `std::max`,
`std::min` are modelled. This is computable and needs no axiom. Order facts are proved
by embedding finite doubles in Z (a double is an integer multiple of 2^-1074).

**Generic numbers** (`Num.v`). The sparse vector is a template over `double` only, but
the model takes a record of operations so that the same code is used with doubles
(data-structure theorems) and with exact rationals (cut-validity theorems).

**Integers.** C++ `int`/`size_t`/strong indices are unbounded `Z`/`nat`. Overflow of
32-bit indices or counters is not modelled, except where a property is about
wrap-around (file-extension check).

**Containers.** `std::vector` is `list`; `std::stable_sort` is insertion sort (the
result of a stable sort is unique); `std::sort` is an arbitrary function returning some
sorted permutation; hash sets are duplicate-free lists in arbitrary order; memory
allocation always succeeds; moves are copies.

**External components.** The LP solver engines (Glop, SoPlex), file system, protobuf
parsing and random device are parameters (Section variables), quantified in the
theorems; what is assumed of them is a hypothesis of the theorem that needs it.

## 2. File layout

| files | content |
|---|---|
| `Outcome.v`, `Num.v`, `Double.v` | outcomes, number records, binary64 |
| `SparseVector.v`, `SparseMatrix.v` | data structures |
| `MipTree.v` | search tree |
| `Problem.v`, `MipData.v` | input validation, internal data, result |
| `CutsData.v`, `Selector.v`, `Runner.v` | cut registry, hybrid selector, separation loop |
| `Aggregation.v` | cut generation (exact rationals) |
| `Branching.v`, `Solver.v` | branching rules, branch and bound |
| `GlopLp.v`, `GlopIface.v`, `LpParams.v` | Glop's LP store, Glop interface, parameters of both |
| `SoplexIface.v` | SoPlex interface |
| `Reader.v`, `Params.v` | proto conversion, parameter merging |
| `*Spec.v` | vocabulary of the statements |
| `*Facts.v`, `*Proofs.v` and others | proofs |
| `*Cases.v` | concrete states used in examples |
| `Props*.v` | property theorems only, each closed by `exact`, with `Print Assumptions` and examples |

## 3. Plan per property

C01 vector model over operation histories; specification is a finite map replay (last
write wins); induction over histories, cleaning = stable sort + last-of-run.
C02 invariant "not flagged implies strictly sorted and non-zero" by induction;
canonical form by uniqueness of sorted lists; expected refutation for `operator*=` and
`operator/=` by underflow; partial for all other members.
C03 merge of sorted lists, pointwise specification on lookups.
C04 self-aliasing modelled as the C++ does it (resize first); expected refuted (UB).
C05 two-pointer scan against the specification "fold over common indices".
C06 pointwise lookup lemmas.
C07, C08, C09 refinement of the matrix to an abstract function (col,row) -> value with
dimensions, by induction over histories.
C10-C12 tree invariant (active set, free list, depths, counters) by induction.
C13 refuted for the root (out-of-bounds counter read), proved for all others.
C14, C15 induction along parent paths with the max/min order on doubles.
C16 floor/ceil facts on doubles against integers.
C17 refuted for `num_added_nodes`; what the counters do count is proved.
C18 equivalence with a declarative well-formedness predicate; expected refutation at
index = number of variables; partial with that case excluded.
C19 refuted with the same witness; partial for in-range problems.
C20, C21 lookup specification of the constructed matrix and objective.
C22 refuted for fractional sides; partial for integral sides.
C23 induction over the sequence of solutions.
C24 equivalence with a quantified statement, permutation invariance.
C25 invariant by induction; C26 refuted with double activation, partial without.
C27, C28 induction over the selection loop with an arbitrary sorting function.
C29 refuted (0 = unlimited; forced cuts dropped); -1 proved.
C30 induction on fuel, adversarial oracles; C31 refuted.
C32 fold over an arbitrary order; C33 refuted.
C34, C35 algebra over Q.
C36 MIR inequality over Q; needs integral bounds on integer variables and integral
sides on integral rows; refutations without them. C37 refuted for continuous variables
with negative coefficients; partial otherwise.
C38 refuted (local bounds); partial when all lower bounds are non-negative at the root.
C39 refuted; partial for LPs without cut rows. C40 first part proved, limit refuted.
C41-C44 branch-and-bound loop over an LP oracle, fuel, invariant over queue and tree.
C45, C46, C47 refutations with partial positive statements.
C48-C56 LP interface models: abstract LP store; refutations where the code is wrong.
C57 status conversion tables. C65 and C69 (cut selector: empty cuts, score formula) follow the selector model. C63, C64, C66-C68 further Glop interface properties found while
modelling: invariants over histories of calls with an arbitrary engine. C70-C75 the same for
SoPlex: refinement to a table (C70), invariants over reachable states (C71-C73), exact bounds on
floating-point rounding (C74), case analysis of the statuses (C75). C58, C59, C60 reader and parameters.
C76-C78 put the models together: `Solver::Create` with the Glop interface, the default runner, the
selector and the branching rule gives an environment of the branch-and-bound loop. An invariant of the
LP held by the interface (its table is the problem's plus rows of cuts, column bounds changed for integer
variables only, parameters without limits) is kept by every call; restricted to the states with this
invariant the environment meets the assumptions of the theorems C41-C44, and the restricted run equals
the real one (simulation). The LP engine's correctness and the inside of the cut generators remain
hypotheses. C79 and C80: case analysis of the solve with its retry and of file reading in the Glop
interface.
C81-C83 the getters of the solution, the basis and the basis inverse of the Glop interface: the loops are
folds over an arbitrary engine's vectors; induction over the positions, with refutations for unsorted
positions and at the tolerance. C84 puts the repository's own cut generator into the whole solver: the rows
of its cuts are clean vectors over the LP's columns (induction through aggregation, transformation and
rounding), so C78 holds with no assumption on the basis inverse; optimality and termination are refuted with
an engine and a basis inverse that are exact. C85 extends the invariant of C76-C78: the LP's rows contain the
problem's, so a point satisfying the LP up to eps satisfies the user's constraints up to eps. C86 is C81-C83 for
SoPlex: the same loops over an arbitrary engine's vectors. C87: the whole solver dispatches over the two LP
interfaces; the invariant of C76 is proved for the SoPlex calls too, and two exact runs agree because both
answers are the least cost of a feasible point. C88 repeats C77 for SoPlex, which aborts on crossing bounds: a
concrete problem refutes it, and an invariant "no node's bounds cross" proves it for whole bounds. C89 weakens the
LP solver of C76 to one that may give up: the covering invariant of the search ("every feasible point lies in an
open node or is no better than the incumbent") survives closing a node only if its LP was said to be infeasible.
C90 puts the random rule into the whole solver: if the draws are integer columns the invariant of C76 carries over;
for a continuous first column the invariant "no node has branched on an integer variable, so every LP is the root's"
shows by induction that no number of rounds ends the run.

C91 SolveAgain starts the loop on the tree, result and world of a finished run; the first round on the root shows
that the run left a root that is no leaf unless only the root was explored.
C92 The two setters of the tree, from the invariant of reachable trees, with everything that must not change.
C93 Sums and products of whole numbers below 2^53 are exact; square root and quotient are faithfully rounded; from
Cauchy-Schwarz over the integers follow the range, the two extreme cases and a bound on the relative error.
C94 Each call of the loop that can fail, in every state that a run reaches (induction over the rounds); the only error
that is returned comes from the root.
C95 "Nearest among all doubles" from the spacing of doubles around a literal; the operations on doubles from their exact
values as integers.
C96 As C93, with points and right-hand sides that are binary fractions of a common denominator; quotients of negative
numbers by symmetry of the rounding.
C97 For integers below 2^53 each double operation is exact (as C93); vectors by their values per index (C03);
aggregation by induction over the weights, then the sum over all rows; validity by exchanging the sums.
C98 As C93, with a rounded product of two roots; the relative errors are composed in squared form over the
integers; then C28 (no selected pair is too parallel) and C29 (nothing else is left out).
C99 Invariant of the world over the branch-and-bound loop, for any calls that keep it; the separation step of C30; for the LP, every other call keeps everything but the bounds of integer columns (refinement to the table of rows and columns)
for the default runner inside the whole solver.

Section 5 lists, per property, the theorems actually proved.

## 4. Trusted base

* Coq 8.16.1 kernel and its virtual machine (`vm_compute` is used for some concrete
  witnesses; `coqchk` re-checks them without it).
* `Print Assumptions` is run under every property theorem; the expected answer is
  "Closed under the global context" everywhere.
* The reading of the C++ code: the model is hand-written.
* Not modelled: see section 1 (overflow, allocation failure, moves, logging) and the
  numerical engines inside Glop and SoPlex.

## 5. Theorems per property

Suffixes: `_partial` proves part of the statement, `_refuted` exhibits a witness against the full
statement, `_always_ub`, `_aborts` and similar describe the failing behaviour for all inputs.

* **C01** Sparse vector reads return the last write (proved): `C01_reads_last_write`, `C01_refines_map`, `C01_from_entries`, `C01_from_dense`. Second theorem covers all members, provided no scaling underflows to zero.
* **C02** A sparse vector not flagged for cleaning is canonical (partial): `C02_canonical_refuted`, `C02_canonical_partial`, `C02_canonical_unique`, `C02_is_clean`, `C02_first_last`. False of the code for *= and /=: an underflowing product stays stored. Proved for histories in which no scaling yields zero.
* **C03** Adding a multiple of a vector is pointwise (proved): `C03_add_multiple_pointwise`, `C03_plus_minus`, `C03_undefined`.
* **C04** Updating a vector with itself is safe (partial): `C04_self_alias_refuted`, `C04_self_alias_always_ub`. False of the code: every non-empty self-aliased call touches moved-from storage.
* **C05** Dot product visits exactly the common indices (proved): `C05_dot_product`.
* **C06** Value transformations are pointwise and order preserving (proved): `C06_transform`, `C06_negate_scale`.
* **C07** Row and column views of a matrix agree (proved): `C07_views_agree`.
* **C08** Matrix reads never change the matrix (proved): `C08_reads_pure`.
* **C09** Resizing a matrix keeps the overlapping block and zeroes the rest (proved): `C09_resize`.
* **C10** The search tree stays a well-formed binary tree (proved): `C10_well_formed`. Invariant over all accepted histories.
* **C11** A node index handed out is never that of a live node (proved): `C11_add`, `C11_add_defined`. New index not active, all other nodes unchanged, storage grows only if nothing is free; never undefined behaviour.
* **C12** Closing a node reclaims exactly the finished chain (proved): `C12_close_leaf`, `C12_close_inner`, `C12_tree_empty`. Chain, counters and emptiness for every reachable tree.
* **C13** Every active node may be closed safely (partial): `C13_close_partial`, `C13_root_always_ub`, `C13_close_refuted`. False for the root: its parent is -1 and the counter array is read at -1. Proved for all other nodes; the root always gives undefined behaviour.
* **C14** A node's bounds combine all decisions on its path (proved): `C14_lower`, `C14_upper`, `C14_path_exists`. Largest/smallest of root bound and all claims on the path (NaN-free).
* **C15** Bounds tighten monotonically down the tree (proved): `C15_monotone`. Child box inside parent box inside root box.
* **C16** Branching loses no integer point and cuts off the fractional value (proved): `C16_branching`. All finite doubles v; exact cover of the integers, disjoint and v excluded if fractional.
* **C17** Node counters report what they document (partial): `C17_added_refuted`, `C17_added_reuse_refuted`, `C17_closed_refuted`, `C17_counters_partial`, `C17_added_partial`. Documented meaning is false; exact meaning of both counters proved instead.
* **C18** Malformed problems are rejected (partial): `C18_rejects_refuted`, `C18_rejects_partial`. The full statement is false: an index equal to the number of variables is accepted. The partial theorem gives the exact accepted set.
* **C19** An accepted problem can be loaded (partial): `C19_loads_refuted`, `C19_loads_partial`. False in two ways (index past the end; NaN bound on an integer variable). Proved for well-formed problems without NaN integer bounds.
* **C20** Internal problem data is a faithful copy (proved): `C20_faithful`. A negative zero coefficient reads as 0.0.
* **C21** Maximisation is turned into an equivalent minimisation (proved): `C21_objective`, `C21_objective_value`. Exact negation, proved from binary64 multiplication by -1.
* **C22** A row marked integral has an integral slack (partial): `C22_slack_refuted`, `C22_slack_partial`, `C22_integral_coefficient`. False: the mark ignores fractional sides. Proved for whole sides.
* **C23** The best solution is the minimum of all added, and none is lost (proved): `C23_best`.
* **C24** Integrality check accepts exactly the near-integral points (proved): `C24_integral`, `C24_order`, `C24_zero_tolerance`.
* **C25** Cut positions and stored indices stay in step (proved): `C25_defined`, `C25_index`, `C25_add`, `C25_remove`, `C25_unset`, `C25_create`.
* **C26** The active list follows its cuts (partial): `C26_active_refuted`, `C26_active_partial`. False if a cut is activated twice. Proved for histories without repeated activation.
* **C27** Cut selection returns good, distinct, bounded subsets (proved): `C27_terminates`, `C27_subset`. Termination needs every cut to have a non-zero: the score divides by their number.
* **C28** Selected cuts are pairwise not too parallel (proved): `C28_orthogonal`.
* **C29** Selector limits and forced cuts behave as documented (partial): `C29_limits_refuted`, `C29_limits_partial`. False for limit 0 and for forced cuts of low score or past the limit.
* **C30** Separation always terminates within its round limit (proved): `C30_rounds`, `C30_guard`, `C30_progress`, `C30_lp`, `C30_terminates`.
* **C31** Separation respects the per-node and total cut limits (partial): `C31_limits_refuted`, `C31_limits_ignored`, `C31_limits_partial`. False: positive limits have no effect at all. Proved for limit 0.
* **C32** Max-fractional branching picks a most fractional integer variable (proved): `C32_max_fractional`, `C32_fractional_part`, `C32_exact`. Maximality is of the fractional parts as doubles; exactly for non-negative values, otherwise up to rounding (C32_exact).
* **C33** Random branching picks a branchable variable (partial): `C33_random_refuted`, `C33_random_partial`, `C33_direction`. False: the draw is used as a column number and LP values are ignored. Proved: an integer variable if they come first.
* **C34** Weighted row aggregation is implied by the rows (proved): `C34_aggregation`, `C34_substitution`, `C34_side`.
* **C35** Shifting to non-negative variables is inverted exactly (proved): `C35_shift`, `C35_nonnegative`, `C35_back`.
* **C36** MIR cuts are valid for the node's box (partial): `C36_mir_refuted`, `C36_bound_refuted`, `C36_tolerance_refuted`, `C36_mir_partial`, `C36_C37_snaps`. False for fractional sides of integral rows, fractional bounds of integer variables and positive tolerance. Proved in exact arithmetic for data without these.
* **C37** Strong Chvatal-Gomory cuts are valid for the node's box (partial): `C37_scg_refuted`, `C37_scg_partial`, `C37_declines`, `C36_C37_snaps`. As C36; in addition integer right-hand sides are excluded (division by zero).
* **C38** Cuts generated anywhere in the tree are globally valid (partial): `C38_global_refuted`, `C38_global_partial`. False where branching changed the bounds of a variable that may be negative. Proved otherwise.
* **C39** Cut generation only inspects rows it knows about (partial): `C39_cut_rows_refuted`, `C39_cut_rows_partial`. False with cut rows in the LP: the integrality flags are read past their end. Proved when every row has a flag.
* **C40** Generated cuts separate the LP optimum and respect the generator limit (partial): `C40_separates`, `C40_double`, `C40_limit_refuted`, `C40_limit_partial`, `C40_returned`, `C40_names`. Separation and the fractional basic variable are proved. The limit is refuted; it is exceeded by at most the number of rounders minus one.
* **C41** Branch and bound returns the optimum (proved): `C41_optimum`, `C41_error`. Over an arbitrary LP solver, cut runner and branching rule; hypotheses are LP soundness, validity of cuts and a branching rule that returns an integer variable.
* **C42** Every reported solution is LP-feasible and integral (proved): `C42_solutions`. The LP is assumed to return points inside the bounds it was given.
* **C43** Branch and bound terminates on bounded problems (proved): `C43_finite`, `C43_terminates`. Finite bounds on integer variables; max-fractional branching (C43_terminates) or any rule returning fractional variables (C43_finite).
* **C44** The solver never trips its own internal checks (proved): `C44_defined`, `C44_queue`. Nodes whose LP point was integral stay in the tree without being queued; the theorem says so.
* **C45** Status and objective reported to the user are right (partial): `C45_status_refuted`, `C45_status_partial`, `C45_codes_partial`. Full statement false: kOptimal without a solution, objective without offset and sense, kInfeasible = kUnbounded.
* **C46** The convenience Solve() yields the result (partial): `C46_convenience_refuted`, `C46_convenience_partial`. Full statement false: the convenience function never returns a result.
* **C47** backtrack_limit controls plunging as documented (partial): `C47_sibling_refuted`, `C47_depth_first_partial`, `C47_limit_partial`. The clause about -1 holds; for limits 0, 1 and 2 the documented order is refuted.
* **C48** LP model edits read back (proved): `C48_reads`, `C48_defined`. Glop interface, all histories of legal calls; the LP engine is arbitrary (definedness uses that it keeps its parameters).
* **C49** Row deletion maps old rows to new ones (proved): `C49_delete_rows`, `C49_soplex_delete_rows`. Glop and SoPlex.
* **C50** IsSolved is true exactly if the current LP was solved (partial): `C50_solved_refuted`, `C50_solved_partial`, `C50_soplex_file_refuted`, `C50_soplex_error_refuted`, `C50_soplex_partial`. False for both interfaces after ReadLpFromFile, and for SoPlex after a solve that returned an error; proved for histories that read no file.
* **C51** LP parameters read back what was set, rejected ones change nothing (partial): `C51_glop_accepts`, `C51_glop_timing_lost`, `C51_glop_timing_refuted`, `C51_glop_flag_refuted`, `C51_glop_partial`, `C51_glop_new`, `C51_soplex_scratch_refuted`, `C51_soplex_partial`, `C51_soplex_stable`, `C51_soplex_new`. Glop: acceptance and rejection proved; read-back false for infinite time limits and when another interface changes the process-wide flag, proved otherwise. SoPlex: solve_from_scratch is ignored; acceptance, rejection, read-back of the rest and stability proved for every reachable state. What a new interface reads back is proved for both.
* **C52** LP status predicates are consistent (proved): `C52_status`, `C52_reports`, `C52_limits`, `C52_stable`. All Glop statuses, and what each predicate reports; the iteration limit after every history; stability.
* **C53** Strong branching restores the LP and reports honest validity flags (partial): `C53_uninitialised_always_ub`, `C53_uninitialised_refuted`, `C53_unsolved_refuted`, `C53_flags_refuted`, `C53_rounding_refuted`, `C53_branch_partial`, `C53_empty`, `C53_iterations`, `C53_soplex_unstarted`, `C53_soplex_unstarted_refuted`, `C53_soplex_restores`, `C53_soplex_honest`, `C53_soplex_iterations`, `C53_failed`. Glop: false in four ways (uninitialised result, no scaled LP before a solve, wrong flag on failure, rounding after scaling). Restoration and honesty of the flags proved whenever the call returns. SoPlex: aborts without StartStrongBranching; restoration and honesty proved whenever the call returns.
* **C54** Writing an LP file reports success iff it was written (partial): `C54_glop_refuted`, `C54_soplex_empty_refuted`, `C54_soplex_partial`. Glop: success and failure are exchanged. SoPlex: proved, except that an empty path aborts.
* **C55** A rejected basis leaves the SoPlex interface usable (partial): `C55_rejected_refuted`, `C55_stuck`, `C55_free_row`. False: any rejected basis on a non-empty LP leaves the saved arrays allocated, so every guarded call aborts from then on.
* **C56** Rows and columns of the basis inverse agree (partial): `C56_column_refuted`, `C56_row`, `C56_column_partial`. False for columns in the sparse representation (wrong position is read). Rows proved in both representations, columns for dense rows and for sparse rows whose i-th listed position is i.
* **C57** Basis statuses round-trip through the LP solver (partial): `C57_glop_never_fixed`, `C57_glop_fixed_refuted`, `C57_glop_partial`, `C57_soplex_fixed_refuted`, `C57_soplex_unsolved`, `C57_soplex_undefined`, `C57_soplex_partial`. False for fixed statuses in both interfaces, proved for all others under the law that the engine reports what it was given; the SoPlex getters abort unless the LP is optimal.
* **C58** Model conversion is faithful (partial): `C58_unsupported`, `C58_faithful`, `C58_partial`, `C58_files`, `C58_files_only`, `C58_strings`, `C58_invalid_refuted`. Rejection and faithful contents proved for all models. False that every invalid problem is refused: a variable index equal to the number of variables is accepted; C58_partial says exactly which models are converted.
* **C59** Only .mps files are accepted (partial): `C59_partial`, `C59_short_refuted`. False for readable names of three characters (the unsigned subtraction wraps to npos); proved exactly for all other names.
* **C60** User parameters override the defaults (partial): `C60_partial`, `C60_generator_refuted`, `C60_off_refuted`, `C60_selector_refuted`, `C60_selectors_ignored`, `C60_lists_ignored`, `C60_factories`. Proved for the LP solver and its parameters, runner limits, branching rule, tolerances and backtrack limit. False for generators (the default one always runs too) and for selectors (the user's is never used).
* **C61** Any active index may be passed to RemoveCut (partial): `C61_remove_alias_refuted`, `C61_last_undefined`, `C61_always_wrong`. False: the index is taken by reference into the list being changed. For the last active cut the call is undefined; for any other it always leaves a cut with a wrong index.
* **C62** UpdateCutEfficacy touches efficacies only (proved): `C62_update_efficacy`, `C62_efficacy`.
* **C63** Deleting rows keeps the basis of what remains (partial): `C63_basis_refuted`, `C63_basis_partial`. False when an outdated basis happens to have the size of the LP; proved when the basis is current.
* **C64** Solving leaves the LP parameters alone (partial): `C64_params_refuted`, `C64_params_partial`. False when the unscaled retry fails; proved for successful solves.
* **C65** The cut selector accepts every list of cuts (partial): `C65_empty_always_ub`, `C65_empty_refuted`. False: a cut without non-zeros makes the selector divide by zero.
* **C66** The LP passed to the LP solver is the problem that was given (proved): `C66_lp_faithful`, `C66_soplex`. All accepted problems, Glop and SoPlex; exact. SoPlex holds no names.
* **C67** A time limit is measured by the clock asked for (partial): `C67_clock_swapped`, `C67_clock_refuted`. False always: the two clocks are exchanged.
* **C68** A solve solves the LP currently held (partial): `C68_solves_refuted`, `C68_solves_partial`. False after ReadLpFromFile; proved for histories that read no file.
* **C69** The score of a cut is the documented weighted sum (partial): `C69_score_refuted`, `C69_score_partial`. False: the integer fraction is an integer division. Proved: the formula with a fraction of 1 if all non-zeros belong to integer variables and 0 otherwise.
* **C70** SoPlex LP edits are read back exactly (partial): `C70_reads`, `C70_defined`, `C70_row_refuted`. All getters proved for every legal history, every edit defined; false only in that the sparse row is returned without cleaning.
* **C71** Solving with SoPlex leaves the LP parameters alone (partial): `C71_presolve_refuted`, `C71_params_partial`. False for use_presolve, proved for everything else.
* **C72** An LP with crossing bounds is reported infeasible (partial): `C72_column_aborts`, `C72_row_aborts`, `C72_crossing_refuted`. False: solving aborts, for every LP with bounds or sides that cross by more than SoPlex's epsilon.
* **C73** A strong branching session leaves no trace (partial): `C73_session_partial`, `C73_empty_aborts`, `C73_empty_refuted`, `C73_throws`, `C73_no_basis`, `C73_guarded`, `C73_add_row_undefined`. Proved for non-empty LPs and an engine that does not throw; what happens if it throws on the saved basis or has none is proved too. False for the empty LP (EndStrongBranching aborts) and if a row is added meanwhile (undefined behaviour).
* **C74** The two strong branches cover every integer (partial): `C74_gap_refuted`, `C74_split_partial`. False at 3.000001 with the default tolerance 1e-6. Proved for values at least 2^-j away from every integer and tolerances up to 2^-(j+1), for both interfaces (Glop: of the scaled value).
* **C75** SoPlex status predicates are consistent (proved): `C75_optimal`, `C75_reports`. All SoPlex statuses and basis statuses, and what each predicate reports.
* **C76** The whole solver finds an optimum (proved): `C76_optimum`. All proper problems, plain requests, Glop or SoPlex exact on proper LPs, valid generators or no cuts. The random rule: see C90.
* **C77** The whole solver terminates without failing (proved): `C77_terminates`, `C77_rejects`, `C77_guard`. Creation and termination with Glop; C77_guard for both LP solvers. engine_runs and engine_inside are hypotheses on Glop, total_generator on the cut generators (or no cuts), for LPs over the problem's columns. The generator of the repository does not meet it: C84.
* **C78** Solutions of the whole solver are integral and inside the bounds (proved): `C78_solutions`. All runs with either LP solver; the LP engine's optimal values are assumed inside the column bounds.
* **C79** A solve runs the algorithm asked for and counts only its own iterations (partial): `C79_run`, `C79_soplex_run`, `C79_soplex_throw_refuted`. Glop and SoPlex, every state; Glop engines that keep the parameters they are given. A SoPlex run that throws still counts as a success if the status is one of those accepted.
* **C80** Reading an LP file either replaces the LP or reports an error (proved): `C80_read`, `C80_soplex_read`, `C80_soplex_blocked`. Glop and SoPlex. The parser of the file is not modelled: a file is the LP it holds, or unreadable.
* **C81** Rows and columns of the basis inverse are what the LP solver computed (partial): `C81_row_partial`, `C81_column`, `C81_row_times`, `C81_column_times_partial`, `C81_agree_partial`, `C81_order_refuted`, `C81_agree_refuted`, `C81_boundary_refuted`. Glop. Refuted: positions listed out of order give an unclean vector that reads wrongly; listed rows keep entries below the tolerance that columns drop; entries equal to the tolerance are kept by one product getter and dropped by the other. Proved for positions listed in order or not at all.
* **C82** The basis query lists one column or row per row of the LP (proved): `C82_basis`. Glop. The engine's basis is assumed in range and without repetition.
* **C83** Duals, reduced costs, activities and rays are the solver's, unscaled (proved): `C83_values`, `C83_primal_ray`, `C83_dual_ray`, `C83_slope`. Glop. That the sign change of the rays is right depends on Glop's convention, which is outside the repository.
* **C84** The solver with its own tableau cuts finds the optimum and ends properly (partial): `C84_rejects`, `C84_reads`, `C84_solutions_partial`, `C84_first_round_partial`, `C84_first_round_soplex_partial`, `C84_optimum_refuted`, `C84_cut_rows_refuted`, `C84_empty_cut_refuted`. Refuted end to end with either LP solver: a wrong optimum and two kinds of undefined behaviour with an exact LP solver and basis inverse. Proved: the generator reads what the interface getters answer; integrality and bounds of the solutions with no assumption on the basis inverse; generation is defined while the LP has no cut rows.
* **C85** Reported solutions satisfy the user's constraints and the best one is a minimiser (proved): `C85_constraints`, `C85_optimal`, `C85_own`. Every reported solution against the user's constraints and cost with accurate_lp eps for the LP solver asked for; the best solution is a minimiser for an exact engine, valid cuts and tolerance 0. C85_own: the same constraints hold with the repository's own cut generator.
* **C86** SoPlex's solution, basis and tableau are passed on unchanged (proved): `C86_solution`, `C86_basis`, `C86_row_times`, `C86_column_times`, `C86_times_agree`, `C86_errors`. For every SoPlex engine. The products themselves are SoPlex's.
* **C87** The answer does not depend on the LP solver or the settings (proved): `C87_same_answer`. Corollary of C85_optimal and C76_optimum for two arbitrary configurations over the same problem, each with Glop or SoPlex, and of their generalisation to both LP interfaces.
* **C88** Solve() also ends with SoPlex (partial): `C88_terminates_refuted`, `C88_terminates_partial`. With a fractional bound of an integer variable a child node can have crossing bounds, on which the interface aborts; proved if the integer variables have whole bounds.
* **C89** Optimality is claimed only if every LP was settled (partial): `C89_unsettled_refuted`, `C89_root_refuted`, `C89_settled_partial`. A node whose LP was given up is closed as if infeasible; at the root the problem is called infeasible or unbounded. Proved for runs in which every LP that closed a node was said to be infeasible.
* **C90** The random branching rule ends and answers as well as the other rule (partial): `C90_terminates_refuted`, `C90_random_partial`. The draw is used as a column number; with a continuous variable in the first column and one integer variable Solve() never ends, whatever the draws. With the integer variables first the answer, if there is one, is right.
* **C91** Solve() may be called again (partial): `C91_again_refuted`, `C91_fails_partial`, `C91_again_partial`, `C91_optimum_partial`, `C91_whole_partial`. Full statement false: after every run that explored more than the root the second call never returns OK (it aborts, since the tree is not reset). Proved for runs that explored the root only, and that any OK answer is still right.
* **C92** Recording the LP value or implied bounds of a node changes nothing else (proved): `C92_lp`, `C92_implied`, `C92_refused`.
* **C93** The objective parallelism of a cut is a number from 0 to 1 (partial): `C93_parallelism_refuted`, `C93_parallelism_partial`. False: rounding can lead above 1 (row 0.3 x, objective 1.7 x), and a zero objective gives NaN. Proved for integer coefficients with a.a c.c at most 2^50.
* **C94** A failure during the search is reported as an error (partial): `C94_failure_refuted`, `C94_failure_aborts`, `C94_failure_partial`. False: every such failure aborts the process (CHECK_OK, value()). Proved: that it does, in every state a run reaches, and that the only error returned is that of a root LP that is not optimal.
* **C95** Documented numbers are the doubles nearest to them (proved): `C95_glop_defaults`, `C95_soplex_defaults`, `C95_markowitz`, `C95_literals`, `C95_double_arith`.
* **C96** A cut's efficacy is the signed distance of the LP point from the cut (partial): `C96_efficacy_refuted`, `C96_efficacy_partial`, `C96_update_partial`. False: rounding can lead to efficacy 0 at a violating point, and an empty row gives NaN. Proved (sign, zero, and distance up to a relative error near 2^-51) for integer coefficients and binary fractions whose products and sums are below 2^53.
* **C97** Integer data is aggregated without rounding error (proved): `C97_dot`, `C97_add_multiple`, `C97_scale`, `C97_aggregate`. For canonical vectors without pending clean-up.
* **C98** Proportional cuts are filtered, orthogonal cuts never exclude each other (partial): `C98_duplicates_refuted`, `C98_cosine`, `C98_duplicates_partial`, `C98_orthogonal`. False: for very large coefficients the squared norm overflows and two equal cuts are both selected; an orthogonality below 2^-53 is rounded away. Proved for integer coefficients whose squared norms have a product of at most 2^48 and a required orthogonality of at least 2^-48.
* **C99** A whole solve stays within the limit on separation rounds (proved): `C99_rounds`, `C99_lp`, `C99_box`.

## 6. What is modelled

| source | model | remarks |
|---|---|---|
| `data_structures/strong_sparse_vector.h` | `SparseVector.v` | all members and operators; stream output excepted |
| `data_structures/strong_sparse_matrix.{h,cc}` | `SparseMatrix.v` | all members but `PopulateFromSparseMatrix` (a copy) and the cleanliness tests used only in `DCHECK`s |
| `data_structures/mip_tree.{h,cc}` | `MipTree.v` | all members but the plain accessor `get_next_free_node` |
| `data_structures/problem.{h,cc}` | `Problem.v` | validation, result; not the printing helpers |
| `data_structures/mip_data.{h,cc}` | `MipData.v` | constructor, `SolutionIsIntegral` |
| `data_structures/cuts_data.{h,cc}` | `CutsData.v` | the registry and the fields of a cut; not `PopulateFromCutRegistry` (a copy) |
| `cutting_interface/hybrid_selector.*` | `Selector.v` | all |
| `cutting_interface/default_runner.*` | `Runner.v`, `Params.v` | separation loop; constructor |
| `cutting_interface/aggregating_generator.*` | `Aggregation.v` | all; generic in the number type |
| `branching_interface/*` | `Branching.v`, `Params.v` | both rules, factory |
| `solver.{h,cc}` | `Solver.v`, `Params.v`, `Whole.v` | `Create`, `Solve`, the convenience function; `Whole.v` puts all parts together, with Glop or SoPlex, and `Own.v` adds the cut generator; the tolerance helpers are in `Branching.v` and `Aggregation.v`, `IsEqualToWithinTolerance` is unused |
| `lp_interface/lpi_glop.*` | `GlopLp.v`, `GlopIface.v`, `GlopSolution.v`, `LpParams.v` | all members; OR-Tools' `LinearProgram` as used, its simplex, basis factorisation and scaler oracles |
| `lp_interface/lpi_soplex.*` | `SoplexIface.v`, `SoplexSolution.v`, `LpParams.v` | all members; SoPlex's solver an oracle |
| `lp_interface/lpi_factory.*`, the other factories, `parameters_factory.h`, `parameters.proto` | `Params.v` | all |
| `utils/reader.*` | `Reader.v` | all; MPS parsing an oracle |

Not modelled: logging and printing, `solver_context_interface.h` beyond the calls made through it,
the numerical engines inside Glop and SoPlex, MPS parsing in OR-Tools, allocation failure, and
exceptions from memory allocation.

The files `Rounding.v`, `*Facts.v`, `*Proofs.v`, `*More.v`, `AggValid.v`, `AggDefined.v`, `AggRows.v`,
`SoplexBranch.v`, `BranchCover.v`, `Simulate.v`, `SolverUncrossed.v`, `SolverEndless.v`, `WholeTables.v`, `WholeSoplex.v`, `WholeRun.v` hold proofs; `*Spec.v` hold the vocabulary of the statements;
`*Cases.v`, `WholeGap.v`, `WholeUnsettled.v` and `WholeRandom.v` hold concrete states for the examples; `Props*.v` hold the theorems.

## 7. Further notes on the trusted base

Every property theorem reports "Closed under the global context". `coqchk` lists the axioms of
`Coq.ssr.ssrunder` (`Under_rel.*`), which are part of the standard library's own ssreflect files and
are loaded because `Coq.Setoids.Setoid` requires `Coq.ssr.ssrsetoid`; no theorem depends on them.

An engine (Glop, SoPlex) is a record of functions. `engine_laws` and `sane_rules` are hypotheses of
the theorems that need them, and every such theorem has an example with an engine satisfying them.

Doubles enter specifications as themselves or through `qval`/`zval` (exact value of a finite double).

`seeded/LOG.jsonl` records the wrong programs against which the theorems were tested.

## 8. Findings

Behaviour of the code that contradicts its documentation or an obvious expectation. Those with a
property number are proved; the others are observations made while modelling.

Data structures
* `*=` and `/=` keep entries that underflow to zero (C02); `v += v` style self-aliasing is undefined (C04).
* Closing the root reads the counter array at -1 (C13); both node counters differ from their documentation (C17).
* A variable index equal to the number of variables passes validation (C18, C19, C58); a NaN bound on an
  integer variable passes validation and aborts later (C19). Hints are not validated.
* The integrality mark of slacks ignores fractional sides (C22).

Cuts
* A second call of `Solve()` on the same solver aborts after every run that branched: the local queue starts
  at the root again, but the tree still has the old children (or has been reclaimed) (C91).
* Activating a cut twice leaves a dangling active index (C26). `RemoveCut` breaks on an index taken from
  `active_cuts()`: undefined for the last active cut, a wrong stored index for every other (C61).
* Selector: limit 0 and negative limits mean unlimited, forced cuts can be dropped (C29); the integrality
  support is an integer division (C69); empty cuts divide by zero (C65); a zero objective gives NaN
  parallelism, which disables the threshold, and rounding can lead to a parallelism above 1,
  against the (debug) check of the constructor (C93). The efficacy of a violated cut can be 0 (C96). Two equal cuts with very large coefficients are
  both selected (C98).
* Runner: positive limits have no effect, because cuts are never activated and the counters never updated (C31).
* Generator: cuts are invalid for fractional sides of integral rows, fractional bounds (C36), continuous
  variables (C37), and variables whose bounds branching changed (C38); undefined once the LP has cut rows
  (C39); the limit is overshot (C40), and a negative limit aborts. Rows with negative integer coefficients
  are declined although the comment says continuous.

Branching and solver
* Every failure of the LP solver, the cut runner or the branching rule aborts the process (C94).
* The random rule uses its draw as a column number (C33).
* Solver: objective without offset and sense, `kOptimal` with no solution, `kInfeasible` = `kUnbounded`
  (C45); the convenience function never returns a result (C46); the two ends of the node queue are swapped
  (C47); nodes with integral LP points are never closed (C44).
* An LP that ends without an answer counts as infeasible: the node is closed and the result is still called
  optimal, possibly without a solution; at the root a feasible problem is called infeasible or unbounded (C89).
* With the random rule Solve() never ends on a problem whose first column is continuous and which has one integer
  variable that is fractional in the first LP, since the bounds of a continuous column never reach the LP (C90).
* With its own tableau cuts the solver as a whole reports a wrong optimum for max x, 4 x <= 5, x integer in
  [-1/2, 10] with one round of separation (cut x <= 1/2 from the fractional bound, C36); with the default
  parameters it runs into undefined behaviour in the second round (cut row, C39), and for 1/2 <= x <= 5/2 in
  the first (integral row with a fractional side, empty cut, division by zero, C65) (all C84).

Glop interface
* Rows of the basis inverse are returned uncleaned if the solver lists positions out of order, and rows and
  columns disagree on entries below or equal to the tolerance (C81).
* After `ReadLpFromFile` old answers count as current (C50, C68); `WriteLpToFile` exchanges success and
  failure (C54); the clocks are exchanged and the flag is process-wide (C51, C67).
* Strong branching: uninitialised result, unsolved LP, wrong flag after a failed up branch, rounding after
  scaling (C53).
* An outdated basis of matching size is used (C63); scaling stays off after a failed retry (C64);
  `kFixed` is never read back (C57).

SoPlex interface
* `solve_from_scratch` ignored (C51), `use_presolve` lost by solving (C71), crossing bounds abort (C72), so that Solve()
  aborts on: maximise x, x <= 2, x integer in [0, 3/2], while Glop answers 1 (C88),
  strong branching without `StartStrongBranching` aborts (C53), on an empty LP it aborts at the end, a row
  added meanwhile is undefined behaviour (C73), 3.000001 loses the integer 3 (C74), a rejected basis blocks
  the interface (C55), the column of the basis inverse is wrong in the sparse representation (C56), basis
  getters abort unless optimal (C57), an empty path aborts (C54), file reads and failed solves count as
  solved (C50), the row getter returns uncleaned rows (C70), an exception of the solver is reported as success if
  the status is one of those accepted, such as SINGULAR (C79).

Reader and parameters
* A three-character file name passes the extension test (C59).
* The user's generators are added to the default one and the user's selector is ignored (C60);
  `cut_generators` and `cut_selectors` of the outer message have no effect (C60); a generator message
  without a kind is skipped silently; `minimum_orthogonality_at_root`, `maximum_tree_depth`,
  `max_num_cuts_at_root` and the branching seed are never read.
