{"id": "C01", "title": "Sparse vector reads return the last write", "statement": "After any history of constructing, AddEntry, in-place edits through mutable_entries, Clear and CleanUpIfNeeded on a sparse vector with non-negative indices, value(i) on the cleaned vector is the last value written for index i, and 0.0 if index i was never written (or last written with a zero).", "quantifier": "every history of vector operations of any length, every index, every double including NaN, infinities and signed zeros", "why_tests_cant": "the order in which an index is rewritten, interleaved with cleaning, is unbounded; a test samples a few orders", "anchors": ["minimip/data_structures/strong_sparse_vector.h: AddEntry, value, CleanUpIfNeeded, Clear, mutable_entries"]}
{"id": "C02", "title": "A sparse vector not flagged for cleaning is canonical", "statement": "Whenever a sparse vector does not report MayNeedCleaning, entries() is strictly increasing in index, holds no zero value and no duplicate, and so two such vectors that agree on every read have the same entries in the same order; cleaning is idempotent. The claim is for every mutating member, including scaling by operator*= and operator/=.", "quantifier": "every history of operations, every double", "why_tests_cant": "the claim is an invariant over all histories; a scaling that underflows to zero is only reached by specific magnitudes", "anchors": ["minimip/data_structures/strong_sparse_vector.h: AddEntry, CleanUpIfNeeded, Transform, operator*=, operator/=, AddMultipleOfVector, IsClean, MayNeedCleaning"]}
{"id": "C03", "title": "Adding a multiple of a vector is pointwise", "statement": "For clean vectors, v.AddMultipleOfVector(f, w) (also +=, -=, +, -) makes v[i] equal to the floating-point v[i] + w[i]*f at every index held by both, w[i]*f where only w has an entry, v[i] where only v has an entry, and 0.0 elsewhere; the result is again clean and no other vector changes. Apart from a vector in need of cleaning, the call is undefined only if the lowest index held is -1.", "quantifier": "every pair of clean vectors of any length and every factor", "why_tests_cant": "the in-place merge and the duplicate summation must be right for every overlap pattern of two index sets", "anchors": ["minimip/data_structures/strong_sparse_vector.h: AddMultipleOfVector, operator+=, operator-="]}
{"id": "C04", "title": "Updating a vector with itself is safe", "statement": "v += v, v -= v and v.AddMultipleOfVector(f, v) behave like the same call with a copy of v as the argument.", "quantifier": "every clean vector and every factor", "why_tests_cant": "aliasing changes which memory is read after the internal resize; ordinary tests pass distinct objects and undefined behaviour may look benign", "anchors": ["minimip/data_structures/strong_sparse_vector.h: AddMultipleOfVector"]}
{"id": "C05", "title": "Dot product visits exactly the common indices", "statement": "For clean vectors v and w, v.DotProduct(w) is the left-to-right floating-point sum, in increasing index order starting from 0.0, of v[i]*w[i] over exactly the indices present in both, and DotProduct is symmetric.", "quantifier": "every pair of clean vectors of any length", "why_tests_cant": "the two-pointer scan has to be right for every interleaving of two sorted index lists", "anchors": ["minimip/data_structures/strong_sparse_vector.h: DotProduct"]}
{"id": "C06", "title": "Value transformations are pointwise and order preserving", "statement": "Transform(func), unary minus, operator*= and operator/= change the value read at each stored index i from x to func(i,x), -x, x*s or x/s, leave every other index at 0.0, never change the relative order or the set of candidate indices, and Transform drops precisely the entries that became zero.", "quantifier": "every clean vector, every function, every scalar", "why_tests_cant": "all functions and all doubles are quantified over", "anchors": ["minimip/data_structures/strong_sparse_vector.h: Transform, operator-, operator*=, operator/="]}
{"id": "C07", "title": "Row and column views of a matrix agree", "statement": "After any history of SetCoefficient, PopulateRow, PopulateCol, Resize, Clear, row(), col() and GetCoefficient calls with in-range arguments, GetCoefficient(c,r), row(r)[c] and col(c)[r] all return the same value: the one last written to (c,r), or 0.0 if there is none.", "quantifier": "every history of matrix operations of any length and every dimension", "why_tests_cant": "staleness flags and dirty flags interact across calls; the reachable combinations are unbounded", "anchors": ["minimip/data_structures/strong_sparse_matrix.cc: SetCoefficient, PopulateRow, PopulateCol, GetCoefficient, row, col, RecomputeRowsFromColsIfNeeded", "minimip/data_structures/strong_sparse_matrix.h: PopulateFromTranspose"]}
{"id": "C08", "title": "Matrix reads never change the matrix", "statement": "row(), col() and GetCoefficient may reorganise storage, but every later read returns what it would have returned without them, and dimensions do not change.", "quantifier": "every reachable matrix, every sequence of reads", "why_tests_cant": "the getters are const but mutate caches; observational purity is about all later histories", "anchors": ["minimip/data_structures/strong_sparse_matrix.cc: row, col, GetCoefficient", "minimip/data_structures/strong_sparse_matrix.h: PopulateFromTranspose"]}
{"id": "C09", "title": "Resizing a matrix keeps the overlapping block and zeroes the rest", "statement": "After Resize(nc, nr) the matrix has nc columns and nr rows (both may shrink, grow, or one may drop to zero), every coefficient with c and r below both the old and the new dimensions is unchanged, and every other coefficient reads 0.0, including coefficients re-exposed by growing again after shrinking. In-range histories never access memory out of bounds.", "quantifier": "every reachable matrix and every pair of target dimensions, in any consistency state", "why_tests_cant": "nine branches times three consistency states times dirty flags, over unbounded sizes", "anchors": ["minimip/data_structures/strong_sparse_matrix.cc: Resize"]}
{"id": "C10", "title": "The search tree stays a well-formed binary tree", "statement": "After any history of accepted AddNodeByBranchingFromParent, CloseNodeAndReclaimNodesUpToRootIfPossible, SetLpRelaxationDataInNode and SetImpliedVariableBoundsInNode calls, every active non-root node has an active parent with depth one less, following parents from any active node reaches the root in exactly depth steps, the open-children counter of each active node equals the number of active nodes whose parent it is, and is at most 2.", "quantifier": "every history of tree calls of any length, every shape of tree", "why_tests_cant": "an invariant over unbounded histories with index reuse", "anchors": ["minimip/data_structures/mip_tree.cc: AddNodeByBranchingFromParent, CloseNodeAndReclaimNodesUpToRootIfPossible"]}
{"id": "C11", "title": "A node index handed out is never that of a live node", "statement": "AddNodeByBranchingFromParent returns an index that was not active before the call, and no active node's data other than the new node's changes; free indices are reused without ever losing or duplicating one.", "quantifier": "every reachable tree", "why_tests_cant": "corruption of the internal free list needs particular interleavings of closing and adding", "anchors": ["minimip/data_structures/mip_tree.cc: AddNodeByBranchingFromParent, CloseNodeAndReclaimNodesUpToRootIfPossible"]}
{"id": "C12", "title": "Closing a node reclaims exactly the finished chain", "statement": "Closing a childless active non-root node removes it and then each ancestor left without open children, up to the root, and nothing else: all other active nodes keep their data, and num_closed_nodes() grows by exactly the number removed. Closing a node with two open children changes nothing. The tree reports TreeIsEmpty() exactly when no node is active.", "quantifier": "every reachable tree and every node", "why_tests_cant": "the chain length is unbounded and depends on the whole history", "anchors": ["minimip/data_structures/mip_tree.cc: CloseNodeAndReclaimNodesUpToRootIfPossible", "minimip/data_structures/mip_tree.h: TreeIsEmpty, num_closed_nodes"]}
{"id": "C13", "title": "Every active node may be closed safely", "statement": "CloseNodeAndReclaimNodesUpToRootIfPossible(n) is defined for every active node n with zero or two open children, including the root.", "quantifier": "every reachable tree and every active node", "why_tests_cant": "the root has no parent; an out-of-bounds counter read is undefined behaviour that a test may not observe", "anchors": ["minimip/data_structures/mip_tree.cc: CloseNodeAndReclaimNodesUpToRootIfPossible"]}
{"id": "C14", "title": "A node's bounds combine all decisions on its path", "statement": "RetrieveLowerBounds(n, root) is, per column, the maximum of the root bound, every implied lower bound on the path from n to the root and the ceiling of the branching value of every up-branch on that path; RetrieveUpperBounds is dually the minimum with floors of down-branches. Columns not mentioned on the path are unchanged. (NaN-free inputs.)", "quantifier": "every reachable tree, node and bound vector", "why_tests_cant": "paths are unbounded and share prefixes with reused node slots", "anchors": ["minimip/data_structures/mip_tree.cc: RetrieveLowerBounds, RetrieveUpperBounds"]}
{"id": "C15", "title": "Bounds tighten monotonically down the tree", "statement": "Every child's retrieved box is contained in its parent's retrieved box, and hence in the root box.", "quantifier": "every reachable tree, every active non-root node, every NaN-free root box", "why_tests_cant": "quantifies over all trees and all bound vectors", "anchors": ["minimip/data_structures/mip_tree.cc: RetrieveLowerBounds, RetrieveUpperBounds"]}
{"id": "C16", "title": "Branching loses no integer point and cuts off the fractional value", "statement": "If a node is branched down and up on a column at a finite value v, every integer value in the parent's interval for that column lies in the interval of exactly one child when v is fractional, and no child's interval contains v; when v is integral both children contain v.", "quantifier": "every reachable tree, every double v, every integer", "why_tests_cant": "all doubles, including huge ones where floor(v)=v, are covered", "anchors": ["minimip/data_structures/mip_tree.cc: RetrieveLowerBounds, RetrieveUpperBounds", "minimip/solver.cc: Solve (branching)"]}
{"id": "C17", "title": "Node counters report what they document", "statement": "num_added_nodes() is the number of nodes added excluding the root, and num_closed_nodes() is the number of nodes closed.", "quantifier": "every reachable tree", "why_tests_cant": "a statement about all histories", "anchors": ["minimip/data_structures/mip_tree.h: num_added_nodes, num_closed_nodes"]}
{"id": "C18", "title": "Malformed problems are rejected", "statement": "FindErrorInMiniMipProblem returns an error for every problem with an empty variable or constraint name, a variable with upper bound below lower bound, a constraint with right side below left side, a constraint with a negative, repeated or non-existent variable index, or with unequal numbers of indices and coefficients; and returns no error for every problem without such defects.", "quantifier": "every problem of any size", "why_tests_cant": "all malformed inputs, in any position, with any mixture of defects", "anchors": ["minimip/data_structures/problem.cc: FindErrorInMiniMipProblem", "minimip/solver.h: Solver::Create"]}
{"id": "C19", "title": "An accepted problem can be loaded", "statement": "If FindErrorInMiniMipProblem accepts a problem then constructing MipData from it neither aborts nor touches memory out of range, now or when its matrix is later read by columns.", "quantifier": "every accepted problem", "why_tests_cant": "bad indices surface later, when the transposed view is built; undefined behaviour is not observable by a test", "anchors": ["minimip/data_structures/problem.cc: FindErrorInMiniMipProblem", "minimip/data_structures/mip_data.cc: MipData::MipData", "minimip/data_structures/strong_sparse_matrix.h: PopulateFromTranspose"]}
{"id": "C20", "title": "Internal problem data is a faithful copy", "statement": "For an accepted problem with in-range indices, MipData reports the same names, bounds, sides, integrality set and, for every row and column, the same coefficient as the input (0.0 where absent), whatever order the input lists the indices in.", "quantifier": "every accepted problem", "why_tests_cant": "all sizes, all index orders, all doubles", "anchors": ["minimip/data_structures/mip_data.cc: MipData::MipData"]}
{"id": "C21", "title": "Maximisation is turned into an equivalent minimisation", "statement": "For an accepted problem, the internal objective coefficient of every column is the input one if minimising and its negation if maximising, the offset likewise; so for every point the internal objective is the negated input objective.", "quantifier": "every accepted problem and every column", "why_tests_cant": "all coefficient values, including zeros that are not stored", "anchors": ["minimip/data_structures/mip_data.cc: MipData::MipData"]}
{"id": "C22", "title": "A row marked integral has an integral slack", "statement": "If is_integral_constraint()[r] is true then for every assignment of integers to the integer variables, both slacks of row r (right side minus activity, activity minus left side) that are finite are integers.", "quantifier": "every accepted problem, every row, every integer assignment", "why_tests_cant": "quantifies over all integer points", "anchors": ["minimip/data_structures/mip_data.cc: MipData::MipData (is_integral_constraint_)", "minimip/cutting_interface/aggregating_generator.cc: HasIntegralSlackVariable"]}
{"id": "C23", "title": "The best solution is the minimum of all added, and none is lost", "statement": "After any sequence of AddSolution calls with non-NaN objectives below infinity, best_solution has the smallest objective of all added solutions, the earliest one on ties, and best_solution together with additional_solutions is a permutation of all solutions added.", "quantifier": "every sequence of solutions of any length", "why_tests_cant": "all orders of all lengths", "anchors": ["minimip/data_structures/problem.h: MiniMipResult::AddSolution"]}
{"id": "C24", "title": "Integrality check accepts exactly the near-integral points", "statement": "SolutionIsIntegral(x, tol) is true iff for every integer variable the distance from x to its nearest integer is at most tol, and it does not depend on the iteration order of the integer set; with tol 0 it accepts only integer values.", "quantifier": "every point and tolerance", "why_tests_cant": "all doubles; the underlying set iterates in unspecified order", "anchors": ["minimip/data_structures/mip_data.cc: SolutionIsIntegral"]}
{"id": "C25", "title": "Cut positions and stored indices stay in step", "statement": "After any history of AddCut, ActivateCut, RemoveCut and UpdateCutEfficacy with in-range arguments, GetCut(i).index() == i for every stored cut, AddCut returns the position of the new cut, and RemoveCut removes exactly one cut and keeps the order and contents of the others. Asking a new cut for its index or score before they are set throws; storing it sets only the index. A new cut holds the row, side, name and forced flag it was made of, is inactive, and counts its entries and the integer variables among them.", "quantifier": "every history of registry calls", "why_tests_cant": "renumbering must compose over arbitrary histories", "anchors": ["minimip/data_structures/cuts_data.cc: AddCut, RemoveCut, GetCut, UpdateCutEfficacy"]}
{"id": "C26", "title": "The active list follows its cuts", "statement": "After any history of registry calls, active_cuts() names exactly the cuts that were activated and not removed; in particular a removed cut is never active and no active index is out of range.", "quantifier": "every history of registry calls, including activating a cut more than once", "why_tests_cant": "dangling indices appear only for particular interleavings", "anchors": ["minimip/data_structures/cuts_data.cc: ActivateCut, RemoveCut"]}
{"id": "C27", "title": "Cut selection returns good, distinct, bounded subsets", "statement": "SelectCuttingPlanes returns a sub-collection of its input: every returned cut is an input cut with its score set, none is returned more often than it was given, scores never increase along the result, no score is below the threshold, and with a positive max_num_cuts at most that many are returned. The selection loop terminates.", "quantifier": "every list of cuts, every parameter setting, every tie-breaking of the sort", "why_tests_cant": "the sort is unstable, so all tie-breakings must be covered", "anchors": ["minimip/cutting_interface/hybrid_selector.cc: SelectCuttingPlanes"]}
{"id": "C28", "title": "Selected cuts are pairwise not too parallel", "statement": "Of any two unforced selected cuts the later one has |cos angle| at most 1 - minimum_orthogonality with the earlier one (signed cosine if configured).", "quantifier": "every list of cuts", "why_tests_cant": "the filter is applied once per selected cut over a shrinking, re-sorted list", "anchors": ["minimip/cutting_interface/hybrid_selector.cc: TwoCutsAreOrthogonal, SelectCuttingPlanes"]}
{"id": "C29", "title": "Selector limits and forced cuts behave as documented", "statement": "max_num_cuts = 0 turns the selector off, -1 means no limit, and a forced cut is always selected.", "quantifier": "every list of cuts and parameter setting", "why_tests_cant": "a documented contract over all inputs", "anchors": ["minimip/cutting_interface/hybrid_selector.cc: SelectCuttingPlanes", "minimip/parameters.proto: HybridSelectorParameters.max_num_cuts", "minimip/data_structures/cuts_data.h: is_forced"]}
{"id": "C30", "title": "Separation always terminates within its round limit", "statement": "Whatever the generators, the selector and the LP do, SeparateCurrentLPSolution performs at most max_iterations rounds over the lifetime of the runner, and each completed round adds to the LP exactly the newly registered cuts, in registry order, with no left side and the cut's right side.", "quantifier": "every behaviour of generators, selector and LP solver, any number of calls", "why_tests_cant": "adversarial component behaviour cannot be enumerated", "anchors": ["minimip/cutting_interface/default_runner.cc: SeparateCurrentLPSolution, MayRunOneMoreSeperationRound"]}
{"id": "C31", "title": "Separation respects the per-node and total cut limits", "statement": "The number of cuts added while processing one node never exceeds max_num_cuts_per_node and the number of active cuts in the LP never exceeds max_num_cuts_total.", "quantifier": "every behaviour of generators, selector and LP solver", "why_tests_cant": "limits must hold for all component behaviours", "anchors": ["minimip/cutting_interface/default_runner.cc: MayRunOneMoreSeperationRound"]}
{"id": "C32", "title": "Max-fractional branching picks a most fractional integer variable", "statement": "When some integer variable is not integral within tolerance in the LP solution, MaxFractionalBranching returns such an integer variable, whose fractional part is maximal among all such variables; the preferred direction follows the configured direction, and if unspecified is up exactly when that fractional part is at most 0.5.", "quantifier": "every LP solution, every integer set, every iteration order of that set", "why_tests_cant": "hash-set iteration order is unspecified; all doubles", "anchors": ["minimip/branching_interface/maxfractional_branching.cc: NextBranchingVariable"]}
{"id": "C33", "title": "Random branching picks a branchable variable", "statement": "RandomBranching returns an integer variable whose LP value is fractional.", "quantifier": "every LP solution, integer set and random draw", "why_tests_cant": "the draw is random; a test sees a few draws", "anchors": ["minimip/branching_interface/random_branching.cc: NextBranchingVariable"]}
{"id": "C34", "title": "Weighted row aggregation is implied by the rows", "statement": "For every point x and slacks s defined by the chosen sides, the aggregated row's sum of coefficients times x plus slack coefficients times s equals its right-hand side; substituting the slacks back with their definitions preserves the inequality at every point.", "quantifier": "every LP, weight vector, side choice and point, in exact arithmetic", "why_tests_cant": "an algebraic identity over all LPs and points", "anchors": ["minimip/cutting_interface/aggregating_generator.cc: AggregateByWeight, SubstituteSlackVariables"]}
{"id": "C35", "title": "Shifting to non-negative variables is inverted exactly", "statement": "TransformToNonNegativeVariables fails only if some variable in the row is unbounded on both sides; otherwise the row over the shifted variables (each non-negative inside the bounds) is equivalent to the original row at every point, and TransformBackToOriginalVariables turns any inequality on shifted variables into the equivalent one on the original variables.", "quantifier": "every row, every set of bounds, every point, in exact arithmetic", "why_tests_cant": "an algebraic identity over all bounds and points", "anchors": ["minimip/cutting_interface/aggregating_generator.cc: TransformToNonNegativeVariables, TransformBackToOriginalVariables"]}
{"id": "C36", "title": "MIR cuts are valid for the node's box", "statement": "Every cut obtained by aggregating rows, shifting, MIR rounding, shifting back and substituting slacks is satisfied by every point of the node's LP box that satisfies the rows and is integral on integer variables.", "quantifier": "every LP, weights, sides, bounds and mixed-integer point, in exact arithmetic", "why_tests_cant": "validity quantifies over all feasible points of all instances", "anchors": ["minimip/cutting_interface/aggregating_generator.cc: MIRRounder::RoundAggregatedRow, MIRRoundInteger, MIRRoundContinuous, TableauRoundingGenerator::GenerateCuttingPlanes"]}
{"id": "C37", "title": "Strong Chvatal-Gomory cuts are valid for the node's box", "statement": "Every cut obtained with the strong CG rounder is satisfied by every point of the node's LP box that satisfies the rows and is integral on integer variables.", "quantifier": "every LP, weights, sides, bounds and mixed-integer point, in exact arithmetic", "why_tests_cant": "validity quantifies over all feasible points of all instances", "anchors": ["minimip/cutting_interface/aggregating_generator.cc: StrongCGRounder::RoundAggregatedRow, CGRoundInteger"]}
{"id": "C38", "title": "Cuts generated anywhere in the tree are globally valid", "statement": "A cut generated at a node below the root is satisfied by every integer-feasible point of the original problem, as required by the registry's note that MiniMip uses only globally valid cuts.", "quantifier": "every instance, tree node and integer-feasible point", "why_tests_cant": "quantifies over all nodes and points", "anchors": ["minimip/cutting_interface/aggregating_generator.cc: TransformToNonNegativeVariables", "minimip/data_structures/cuts_data.h: CutRegistry note", "minimip/cutting_interface/default_runner.cc: SeparateCurrentLPSolution"]}
{"id": "C39", "title": "Cut generation only inspects rows it knows about", "statement": "GenerateCuttingPlanes is defined for every LP reachable in a run, including LPs that already contain cut rows.", "quantifier": "every number of separation rounds", "why_tests_cant": "reading a flag vector past its end is undefined behaviour that a test may not observe", "anchors": ["minimip/cutting_interface/aggregating_generator.cc: HasIntegralSlackVariable", "minimip/cutting_interface/default_runner.cc: SeparateCurrentLPSolution"]}
{"id": "C40", "title": "Generated cuts separate the LP optimum and respect the generator limit", "statement": "Every returned cut is violated by the LP optimum it was generated from, comes from a row whose basic variable is an integer variable with a fractional value, and at most max_num_cuts cuts are returned per call.", "quantifier": "every LP state and parameter setting", "why_tests_cant": "quantifies over all tableaus", "anchors": ["minimip/cutting_interface/aggregating_generator.cc: GenerateCuttingPlanes, RemovesLPOptimum", "minimip/parameters.proto: CutGeneratorParameters.max_num_cuts"]}
{"id": "C41", "title": "Branch and bound returns the optimum", "statement": "If the LP solver is sound (its optimum bounds every LP-feasible point of the box and a non-optimal answer means the box is empty) and every cut added is valid, then whenever Solve() returns OK the best solution's objective is at most the objective of every integer-feasible point of the problem, and if there is no incumbent the problem has no integer-feasible point.", "quantifier": "every problem, LP behaviour, cut behaviour, branching choice and search order", "why_tests_cant": "an unbounded tree search with node reuse; optimality quantifies over all feasible points", "anchors": ["minimip/solver.cc: Solver::Solve"]}
{"id": "C42", "title": "Every reported solution is LP-feasible and integral", "statement": "Each solution in the result of Solve() is a point the LP solver returned as optimal for some node's box, is integral within the tolerance on all integer variables and lies in the original variable bounds of the integer variables.", "quantifier": "every run of Solve()", "why_tests_cant": "all runs", "anchors": ["minimip/solver.cc: Solver::Solve"]}
{"id": "C43", "title": "Branch and bound terminates on bounded problems", "statement": "If all integer variables have finite bounds and the LP solver returns points inside the box, Solve() with max-fractional branching explores finitely many nodes.", "quantifier": "every bounded problem and every sound LP behaviour", "why_tests_cant": "non-termination cannot be observed by a finite test", "anchors": ["minimip/solver.cc: Solver::Solve", "minimip/branching_interface/maxfractional_branching.cc"]}
{"id": "C44", "title": "The solver never trips its own internal checks", "statement": "During Solve() every node taken from the queue is active, every tree call satisfies its documented preconditions, each open node is queued exactly once and no child is created under a closed node.", "quantifier": "every run of Solve() with a branching rule returning a valid column", "why_tests_cant": "all runs", "anchors": ["minimip/solver.cc: Solver::Solve", "minimip/data_structures/mip_tree.cc"]}
{"id": "C45", "title": "Status and objective reported to the user are right", "statement": "After an OK Solve(), status kOptimal is reported only if a solution was found, the reported objective is the user's objective (sense and offset included) of the reported point, and an infeasible problem is reported with a status distinct from an unbounded one.", "quantifier": "every problem", "why_tests_cant": "all problems, including those with offsets and maximisation", "anchors": ["minimip/solver.cc: Solver::Solve", "minimip/data_structures/problem.h: MiniMipSolveStatus"]}
{"id": "C46", "title": "The convenience Solve() yields the result", "statement": "minimip::Solve(problem, params) returns the result whenever solving succeeds, and an error status only when creating or solving failed.", "quantifier": "every problem and parameter set", "why_tests_cant": "the wrong conversion only shows on the success path", "anchors": ["minimip/solver.h: Solve"]}
{"id": "C47", "title": "backtrack_limit controls plunging as documented", "statement": "With backtrack_limit -1 the solver never back-jumps; with a positive limit, after an infeasible node it explores that node's unexplored sibling next.", "quantifier": "every run of the search", "why_tests_cant": "the order depends on the whole search history", "anchors": ["minimip/solver.cc: Solver::Solve", "minimip/parameters.proto: backtrack_limit"]}
{"id": "C48", "title": "LP model edits read back", "statement": "For the Glop interface, after any history of AddColumn(s), AddRow(s), DeleteColumns, DeleteRows, DeleteRowSet, SetColumnBounds, SetRowSides, SetObjectiveCoefficient, SetObjectiveSense and Clear with in-range arguments, every getter (sizes, bounds, sides, objective, coefficients, sense) returns what a plain list-of-columns / list-of-rows model holds.", "quantifier": "every history of LP edits", "why_tests_cant": "index shifts after deletions compose over arbitrary histories", "anchors": ["minimip/lp_interface/lpi_glop.cc: AddColumn, AddRow, DeleteColumns, DeleteRows, DeleteRowSet, SetColumnBounds, SetRowSides, getters"]}
{"id": "C49", "title": "Row deletion maps old rows to new ones", "statement": "DeleteRowSet returns, for each old row, kInvalidRow if it was deleted and otherwise its new position; the mapping is strictly increasing on kept rows, onto 0..n-1, and row GetX(mapping[r]) after the call equals GetX(r) before it.", "quantifier": "every LP and every set of rows", "why_tests_cant": "all subsets of all sizes", "anchors": ["minimip/lp_interface/lpi_glop.cc: DeleteRowSet", "minimip/lp_interface/lpi_soplex.cc: DeleteRowSet"]}
{"id": "C50", "title": "IsSolved is true exactly if the current LP was solved", "statement": "IsSolved() is true iff a solve call was made after the last modification of the LP.", "quantifier": "every history of edits, reads from file and solves", "why_tests_cant": "all histories", "anchors": ["minimip/lp_interface/lpi_glop.cc: IsSolved, ReadLpFromFile", "minimip/lp_interface/lpi_soplex.cc: IsSolved, ReadLpFromFile"]}
{"id": "C51", "title": "LP parameters read back what was set, rejected ones change nothing", "statement": "GetLpParameters() after an accepted SetLpParameters(p) returns p with documented defaults resolved, setting the parameters just read back is accepted and changes nothing, and after a rejected SetLpParameters the parameters are what they were. A new interface reads back the documented defaults, resolved.", "quantifier": "every parameter message and every history", "why_tests_cant": "all enum and numeric combinations", "anchors": ["minimip/lp_interface/lpi_glop.cc: SetLpParameters, GetLpParameters", "minimip/lp_interface/lpi.cc: LpParametersAreValid", "minimip/lp_interface/lpi_soplex.cc: SetLpParameters, GetLpParameters"]}
{"id": "C52", "title": "LP status predicates are consistent", "statement": "For the Glop interface, IsOptimal implies primal and dual feasible and excludes infeasible and unbounded; ray existence and infeasibility predicates agree; no status is both primal infeasible and primal feasible; each predicate holds exactly for the Glop statuses it is named after.", "quantifier": "every Glop problem status", "why_tests_cant": "cross-consistency of a dozen predicates over all statuses", "anchors": ["minimip/lp_interface/lpi_glop.cc: IsOptimal, IsPrimalFeasible, IsPrimalInfeasible, IsPrimalUnbounded, ExistsPrimalRay, ExistsDualRay, IsDualInfeasible, IsDualUnbounded"]}
{"id": "C53", "title": "Strong branching restores the LP and reports honest validity flags", "statement": "SolveDownAndUpStrongBranch leaves column bounds, iteration limits and everything else readable about the LP as before, down_valid / up_valid are true only for branches whose bound was proven, and the iteration count is that of the branches solved.", "quantifier": "every LP, column, value and LP solver behaviour", "why_tests_cant": "every combination of branch outcomes", "anchors": ["minimip/lp_interface/lpi_glop.cc: SolveDownAndUpStrongBranch", "minimip/lp_interface/lpi_soplex.cc: SolveDownAndUpStrongBranch"]}
{"id": "C54", "title": "Writing an LP file reports success iff it was written", "statement": "WriteLpToFile returns the path when the file was written and an error when it was not.", "quantifier": "every write outcome", "why_tests_cant": "failure outcomes of the file system are hard to provoke", "anchors": ["minimip/lp_interface/lpi_glop.cc: WriteLpToFile", "minimip/lp_interface/lpi_soplex.cc: WriteLpToFile"]}
{"id": "C55", "title": "A rejected basis leaves the SoPlex interface usable", "statement": "If SetBasisStatusForColumnsAndRows returns an error, all later calls behave as if it had not been made.", "quantifier": "every basis argument and later history", "why_tests_cant": "needs an error in the middle of a history followed by other calls", "anchors": ["minimip/lp_interface/lpi_soplex.cc: SetBasisStatusForColumnsAndRows, PreStrongBranchingBasisFreed"]}
{"id": "C56", "title": "Rows and columns of the basis inverse agree", "statement": "For the SoPlex interface, entry r of GetSparseColumnOfBInverted(c) equals entry c of GetSparseRowOfBInverted(r), whichever representation SoPlex returns.", "quantifier": "every basis inverse and every sparse or dense representation", "why_tests_cant": "depends on a representation choice made inside SoPlex", "anchors": ["minimip/lp_interface/lpi_soplex.cc: GetSparseColumnOfBInverted, GetSparseRowOfBInverted"]}
{"id": "C57", "title": "Basis statuses round-trip through the LP solver", "statement": "The basis statuses read back after setting them are the ones set, for every status that is legal for the column or row.", "quantifier": "every status vector of any length", "why_tests_cant": "fixed and free statuses are rare in tests", "anchors": ["minimip/lp_interface/lpi_glop.cc: ConvertGlopVariableStatus, ConvertMiniMipVariableStatus and constraint counterparts, SetBasisStatusForColumnsAndRows", "minimip/lp_interface/lpi_soplex.cc: GetBasisStatusForRows, SetBasisStatusForColumnsAndRows"]}
{"id": "C58", "title": "Model conversion is faithful", "statement": "MPModelProtoToMiniMipProblem rejects every model with general constraints, a quadratic objective or annotations, and otherwise returns a problem with the same name, sense, offset, variables, constraints and hint in the same order, or an error if that problem is invalid.", "quantifier": "every model proto", "why_tests_cant": "all sizes and contents", "anchors": ["minimip/utils/reader.cc: MPModelProtoToMiniMipProblem"]}
{"id": "C59", "title": "Only .mps files are accepted", "statement": "ReadMipProblemFromMPSFile returns a wrong-format error for every readable path that does not end in .mps and never for one that does.", "quantifier": "every path string", "why_tests_cant": "short paths make the unsigned length subtraction wrap", "anchors": ["minimip/utils/reader.cc: Reader::ReadMipProblemFromMPSFile"]}
{"id": "C60", "title": "User parameters override the defaults", "statement": "Any component the user configures (runner, generators, selector, branching rule, LP solver) is used with the user's settings, and unset fields keep their defaults.", "quantifier": "every user parameter message", "why_tests_cant": "merge semantics differ between scalar, oneof and repeated fields", "anchors": ["minimip/parameters_factory.h: UserCustomizedParameters", "minimip/cutting_interface/default_runner.h: DefaultRunner"]}
{"id": "C61", "title": "Any active index may be passed to RemoveCut", "statement": "RemoveCut(active_cuts()[k]) removes exactly that cut and leaves every remaining cut's index() equal to its position.", "quantifier": "every reachable registry and every k below the number of active cuts", "why_tests_cant": "the argument is a reference into the list being changed; whether that shows depends on the positions and values in it", "anchors": ["minimip/data_structures/cuts_data.cc: CutRegistry::RemoveCut", "minimip/data_structures/cuts_data.h: CutRegistry::active_cuts"]}
{"id": "C62", "title": "UpdateCutEfficacy touches efficacies only", "statement": "UpdateCutEfficacy(x) sets the efficacy of every stored cut, active or not, to (row*x - right side) / ||row|| and leaves positions, indices, the active list and every other field as they were.", "quantifier": "every registry and every point", "why_tests_cant": "a frame condition over all cuts and all fields", "anchors": ["minimip/data_structures/cuts_data.cc: CutRegistry::UpdateCutEfficacy"]}
{"id": "C63", "title": "Deleting rows keeps the basis of what remains", "statement": "For the Glop interface, after a solve and a deletion of rows, the next solve starts from the basis in which every column and every kept row has the status it had; a basis that does not belong to the current LP is not used.", "quantifier": "every LP, every basis and every set of rows", "why_tests_cant": "all subsets, and histories in which sizes coincide by accident", "anchors": ["minimip/lp_interface/lpi_glop.cc: DeleteRowsAndUpdateCurrentBasis"]}
{"id": "C64", "title": "Solving leaves the LP parameters alone", "statement": "For the Glop interface, GetLpParameters() returns the same before and after a solve call, whether the solve succeeds or fails and whether or not it is retried without scaling.", "quantifier": "every LP, parameters and behaviour of the LP solver", "why_tests_cant": "the retry needs a numerically infeasible scaled solution, its failure is rarer still", "anchors": ["minimip/lp_interface/lpi_glop.cc: SolveInternal"]}
{"id": "C66", "title": "The LP passed to the LP solver is the problem that was given", "statement": "For every accepted problem, the LP held by the LP interface (Glop or SoPlex) after loading it has the same variables, bounds, constraints, sides and coefficients in the same order, whatever the interface held before, and minimises the objective, negated if the problem maximises.", "quantifier": "every accepted problem", "why_tests_cant": "all sizes and orders of the coefficients", "anchors": ["minimip/lp_interface/lpi_glop.cc: PopulateFromMipData", "minimip/lp_interface/lpi_soplex.cc: PopulateFromMipData", "minimip/data_structures/mip_data.cc: MipData"]}
{"id": "C67", "title": "A time limit is measured by the clock asked for", "statement": "For the Glop interface, TIMING_WALLCLOCK limits wall clock time and TIMING_CPU limits CPU time.", "quantifier": "every accepted parameter message", "why_tests_cant": "tests would have to measure two clocks that differ", "anchors": ["minimip/lp_interface/lpi_glop.cc: SetLpParameters"]}
{"id": "C68", "title": "A solve solves the LP currently held", "statement": "For the Glop interface, a successful solve call gives the result of the LP as last edited or read from a file.", "quantifier": "every history of edits, file reads and solves", "why_tests_cant": "all histories; the stale LP is only used if nothing was edited between reading and solving", "anchors": ["minimip/lp_interface/lpi_glop.cc: SolveInternal, ReadLpFromFile"]}
{"id": "C65", "title": "The cut selector accepts every list of cuts", "statement": "For every list of cuts produced by the generators, including cuts without non-zero coefficients, selecting cuts is defined and returns a selection.", "quantifier": "every list of cuts, every selector parameter message", "why_tests_cant": "a cut without non-zeros only arises from special LP bases", "anchors": ["minimip/cutting_interface/hybrid_selector.cc: ComputeCutScore", "minimip/data_structures/cuts_data.cc: CreateCut", "minimip/data_structures/cuts_data.h: the checks of objective_parallelism in the constructor"]}
{"id": "C69", "title": "The score of a cut is the documented weighted sum", "statement": "The score the selector gives a cut is the weighted sum of its efficacy, the fraction of its non-zeros that belong to integer variables, and its parallelism to the objective, each term counted only if its weight is positive.", "quantifier": "every cut and every selector parameter message", "why_tests_cant": "all numbers of integer and continuous non-zeros, all weights", "anchors": ["minimip/cutting_interface/hybrid_selector.cc: ComputeCutScore"]}
{"id": "C70", "title": "SoPlex LP edits are read back exactly", "statement": "For the SoPlex interface, after any sequence of edits the getters return the dimensions, bounds, sides, objective, coefficients, sparse columns and rows last written, and edits with legal arguments never abort.", "quantifier": "every history of edits and file reads", "why_tests_cant": "all sequences of column, row and set deletions and insertions; the order in which SoPlex stores entries", "anchors": ["minimip/lp_interface/lpi_soplex.cc: PopulateFromMipData, AddColumn(s), AddRow(s), DeleteColumns, DeleteRows, DeleteRowSet, Clear, SetColumnBounds, SetRowSides, SetObjectiveSense, SetObjectiveCoefficient(s), GetSparseColumnCoefficients, GetSparseRowCoefficients, GetMatrixCoefficient"]}
{"id": "C71", "title": "Solving with SoPlex leaves the LP parameters alone", "statement": "For the SoPlex interface, GetLpParameters() returns the same before and after a solve call.", "quantifier": "every LP, parameters and behaviour of the LP solver", "why_tests_cant": "all parameter messages and all solver outcomes", "anchors": ["minimip/lp_interface/lpi_soplex.cc: SoPlexSolve, LpSolve"]}
{"id": "C72", "title": "An LP with crossing bounds is reported infeasible", "statement": "Solving an LP in which some lower bound exceeds the upper bound, or some left-hand side the right-hand side, returns with the LP reported infeasible.", "quantifier": "every LP with crossing bounds", "why_tests_cant": "the failure depends on the LP held, not on a particular call", "anchors": ["minimip/lp_interface/lpi_soplex.cc: CheckConsistentBounds, CheckConsistentSides, LpSolve"]}
{"id": "C73", "title": "A strong branching session leaves no trace", "statement": "For the SoPlex interface, StartStrongBranching, any number of SolveDownAndUpStrongBranch calls and EndStrongBranching run to their end and leave LP, parameters, solved flag and basis as before; meanwhile edits are rejected or harmless.", "quantifier": "every LP, basis and sequence of branching calls", "why_tests_cant": "arbitrary interleavings and LP sizes including the empty LP", "anchors": ["minimip/lp_interface/lpi_soplex.cc: StartStrongBranching, EndStrongBranching, SavePreStrongbranchingBasis, RestorePreStrongbranchingBasis, AddRow"]}
{"id": "C74", "title": "The two strong branches cover every integer", "statement": "If the value branched on is further than the feasibility tolerance from every integer, then every integer is allowed in exactly one of the two branch LPs and the value in none.", "quantifier": "every finite value and tolerance", "why_tests_cant": "floating-point rounding of the branch bounds over all doubles", "anchors": ["minimip/lp_interface/lpi_soplex.cc: SolveDownAndUpStrongBranch", "minimip/lp_interface/lpi_glop.cc: SolveDownAndUpStrongBranch"]}
{"id": "C75", "title": "SoPlex status predicates are consistent", "statement": "For the SoPlex interface, IsOptimal never aborts, and an optimal LP is neither unbounded nor infeasible, has no rays, exceeded no limit and is stable; each predicate holds exactly for the SoPlex statuses (or basis statuses) it is named after.", "quantifier": "every SoPlex status and basis status", "why_tests_cant": "all combinations of solver and basis status", "anchors": ["minimip/lp_interface/lpi_soplex.cc: IsOptimal and the other status predicates"]}
{"id": "C76", "title": "The whole solver finds an optimum", "statement": "For a solver created by Solver::Create with Glop without limits and max-fractional branching, if the LP engine answers as in exact arithmetic and every generated cut is satisfied by all feasible points (or cuts are switched off), then the best objective value reported by Solve() is at least as good as that of every feasible point of the user's problem, a solution is reported if there is a feasible point, and Solve() returns an error only if there is none.", "quantifier": "every problem with finite coefficients and a bounded relaxation, every such parameter message, LP engine, cut generator, sort and visiting order of the integer variables", "why_tests_cant": "ties the models of parameters, LP interface, cut runner, selector, branching and tree together over all executions", "anchors": ["minimip/solver.h: Solver::Create", "minimip/solver.cc: Solver::Solve", "minimip/lp_interface/lpi_glop.cc", "minimip/cutting_interface/default_runner.cc"]}
{"id": "C77", "title": "The whole solver terminates without failing", "statement": "For a proper problem whose integer variables are bounded and supported parameters, with an LP engine that never reports an error and generators that never fail (or cuts switched off), Solver::Create succeeds and Solve() ends after finitely many nodes, with OK or the error of an infeasible root; no CHECK fails and nothing is undefined.", "quantifier": "every such problem, parameter message, engine, generator, sort and order", "why_tests_cant": "termination and definedness over all executions of the combined program", "anchors": ["minimip/solver.h: Solver::Create", "minimip/solver.cc: Solver::Solve", "minimip/lp_interface/lpi_glop.cc", "minimip/cutting_interface/default_runner.cc"]}
{"id": "C78", "title": "Solutions of the whole solver are integral and inside the bounds", "statement": "Every solution reported by Solve() of a solver created with Glop has one value per variable, and its integer variables are within the requested tolerance of an integer and inside the bounds of the user's problem, whatever cuts were added and whatever the objective.", "quantifier": "every proper problem, parameter message, engine keeping its solutions inside the column bounds, generator giving well-formed rows", "why_tests_cant": "holds along every path of the tree and every sequence of LP edits", "anchors": ["minimip/solver.cc: Solver::Solve", "minimip/lp_interface/lpi_glop.cc: SetColumnBounds, GetPrimalValues"]}
{"id": "C79", "title": "A solve runs the algorithm asked for and counts only its own iterations", "statement": "After SolveLpWithPrimalSimplex or SolveLpWithDualSimplex returns OK, the LP engine was run with that algorithm (once, or with Glop a second time without scaling if the unscaled point of the first run was infeasible) and ended regularly, the answer is that of the last run, and GetNumIterations and TimeLimitIsExceeded report on these runs only, not on earlier solves.", "quantifier": "every state of the interface, every LP engine, both algorithms", "why_tests_cant": "the retry path and the leftovers of earlier solves depend on engine answers a test cannot provoke", "anchors": ["minimip/lp_interface/lpi_glop.cc: SolveInternal, SolveLpWithPrimalSimplex, SolveLpWithDualSimplex, GetNumIterations", "minimip/lp_interface/lpi_soplex.cc: LpSolve, SoPlexSolve, GetNumIterations"]}
{"id": "C80", "title": "Reading an LP file either replaces the LP or reports an error", "statement": "ReadLpFromFile of a file that cannot be read returns an error and leaves the interface as it was; otherwise it returns OK and the getters read the LP of the file, while parameters and counters stay.", "quantifier": "every state, every file", "why_tests_cant": "tests read one well-formed file", "anchors": ["minimip/lp_interface/lpi_glop.cc: ReadLpFromFile", "minimip/lp_interface/lpi_soplex.cc: ReadLpFromFile"]}
{"id": "C81", "title": "Rows and columns of the basis inverse are what the LP solver computed", "statement": "GetSparseRowOfBInverted, GetSparseColumnOfBInverted, GetSparseRowOfBInvertedTimesA and GetSparseColumnOfBInvertedTimesA of the Glop interface return clean sparse vectors of the right length whose entries are the solver's values, entries below the feasibility tolerance dropped; the getters of rows and of columns agree on every entry.", "quantifier": "every LP engine, every state, every row and column, dense or sparse storage of the engine's vectors", "why_tests_cant": "whether the engine lists positions, and in which order, depends on its inner heuristics; tests see tiny bases stored one way", "anchors": ["minimip/lp_interface/lpi_glop.cc: GetSparseRowOfBInverted, GetSparseColumnOfBInverted, GetSparseRowOfBInvertedTimesA, GetSparseColumnOfBInvertedTimesA", "minimip/lp_interface/lpi.h"]}
{"id": "C82", "title": "The basis query lists one column or row per row of the LP", "statement": "GetColumnsAndRowsInBasis of the Glop interface returns one entry per row of the LP, each a column or a row of the LP, none twice, in the order of the rows of the basis inverse.", "quantifier": "every engine with a basis, every state", "why_tests_cant": "all sizes and bases", "anchors": ["minimip/lp_interface/lpi_glop.cc: GetColumnsAndRowsInBasis", "minimip/lp_interface/lpi.h: GetColumnsAndRowsInBasis"]}
{"id": "C83", "title": "Duals, reduced costs, activities and rays are the solver's, unscaled", "statement": "GetDualValues, GetReducedCosts and GetRowActivities of the Glop interface return one value per row or column, the solver's value for that index brought back to the user's scale; GetPrimalRay and GetDualRay do the same with the sign changed, so that the objective rises along the returned primal ray by as much as it falls along the solver's direction.", "quantifier": "every engine, scaler and state", "why_tests_cant": "scaling and index mix-ups show only for particular LPs", "anchors": ["minimip/lp_interface/lpi_glop.cc: GetDualValues, GetReducedCosts, GetRowActivities, GetPrimalRay, GetDualRay"]}
{"id": "C84", "title": "The solver with its own tableau cuts finds the optimum and ends properly", "statement": "With the cut generator of the repository instead of an assumed one: given an exact LP solver and an exact basis inverse, Solve() reports an objective at most that of every feasible point, ends with OK or the error of an infeasible root without undefined behaviour, and its solutions are integral within the tolerance and inside the bounds.", "quantifier": "every proper problem, parameter message, LP engine and basis inverse", "why_tests_cant": "needs all interactions of generated cuts, LP rows and later rounds of separation", "anchors": ["minimip/solver.{h,cc}", "minimip/cutting_interface/aggregating_generator.cc", "minimip/cutting_interface/default_runner.cc", "minimip/cutting_interface/hybrid_selector.cc"]}
{"id": "C85", "title": "Reported solutions satisfy the user's constraints and the best one is a minimiser", "statement": "If the LP solver's values meet the rows of its LP up to eps and its objective value is right up to eps, then every solution reported by Solve() gives each variable a finite value inside its bounds, satisfies every constraint of the user's problem up to eps, and its objective value is the cost of its values up to eps, whatever cuts were added. With an exact LP solver, valid cuts and tolerance 0 the best solution is a feasible point of least cost, and the default solution is reported only if no feasible point exists.", "quantifier": "every proper problem, parameter message, LP engine, cut generator and run", "why_tests_cant": "needs every constraint of every problem over all sequences of bound changes, cuts and LP solves", "anchors": ["minimip/solver.{h,cc}", "minimip/lp_interface/lpi_glop.cc", "minimip/cutting_interface/default_runner.cc", "minimip/data_structures/mip_data.h"]}
{"id": "C86", "title": "SoPlex's solution, basis and tableau are passed on unchanged", "statement": "For the SoPlex interface, GetPrimalValues, GetDualValues, GetRowActivities, GetReducedCosts and the rays return SoPlex's values, one per column or row, or an error if SoPlex gives none; GetColumnsAndRowsInBasis lists one column or row of the LP per row, none twice, in SoPlex's order; the rows and columns of the basis inverse times the matrix are clean sparse vectors of SoPlex's values, values up to the feasibility tolerance dropped, and rows and columns agree wherever SoPlex computes equal values.", "quantifier": "every SoPlex engine and every state of the interface", "why_tests_cant": "index and size mix-ups show only for particular LPs and answers of SoPlex", "anchors": ["minimip/lp_interface/lpi_soplex.cc: GetPrimalValues, GetDualValues, GetRowActivities, GetReducedCosts, GetPrimalRay, GetDualRay, GetColumnsAndRowsInBasis, GetSparseRowOfBInvertedTimesA, GetSparseColumnOfBInvertedTimesA"]}
{"id": "C87", "title": "The answer does not depend on the LP solver or the settings", "statement": "Two runs on the same problem, each with Glop or SoPlex, any parameters without integrality tolerance, any valid cuts or none, any order of the integer variables and any way of breaking ties between cuts, report the same best objective value or both report that there is no solution, provided the LP solvers answer as in exact arithmetic. Both LP interfaces give the guarantees C76, C78, C84 and C85.", "quantifier": "every proper bounded problem and every pair of parameter messages, LP engines, cut generators and runs", "why_tests_cant": "it compares every pair of configurations over all problems; the search trees and cuts differ completely", "anchors": ["minimip/solver.{h,cc}", "minimip/lp_interface/lpi_glop.cc", "minimip/lp_interface/lpi_soplex.cc", "minimip/lp_interface/lpi_factory.{h,cc}"]}
{"id": "C88", "title": "Solve() also ends with SoPlex", "statement": "With SoPlex as the LP solver, Solve() ends with an answer or with the error of an LP that is not optimal in the end, for every problem whose integer variables are bounded, provided SoPlex never fails.", "quantifier": "every proper problem with bounded integer variables, parameter message, SoPlex engine and cut generator that succeeds", "why_tests_cant": "termination over all search trees; an abort inside the LP interface occurs only for particular bounds", "anchors": ["minimip/solver.cc: Solve", "minimip/lp_interface/lpi_soplex.cc: SetColumnBounds, LpSolve, CheckConsistentBounds"]}
{"id": "C89", "title": "Optimality is claimed only if every LP was settled", "statement": "If the LP solver is right whenever it answers but may give up on an LP (numerical trouble, a limit), Solve() still reports an optimal result only if no feasible point is better than the solution it reports, and reports that the problem is infeasible or unbounded only if it has no feasible point or is unbounded.", "quantifier": "every proper problem, parameter message, LP solver that is right when it answers, and valid cut generator", "why_tests_cant": "LPs that a solver gives up on cannot be produced on demand, and what they do to the search depends on where in the tree they occur", "anchors": ["minimip/solver.cc: Solve", "minimip/lp_interface/lpi_glop.cc: IsOptimal", "minimip/lp_interface/lpi_soplex.cc: IsOptimal"]}
{"id": "C90", "title": "The random branching rule ends and answers as well as the other rule", "statement": "With the random branching rule, Solve() ends on every problem with bounded integer variables whose LPs the LP solver can solve, and its answer is as right as with the max-fractional rule: no feasible point is better than the reported solution, and every reported solution satisfies bounds, constraints and integrality up to the tolerances.", "quantifier": "every proper problem, every sequence of random numbers, every parameter message that asks for the random rule, Glop or SoPlex, and every valid cut generator", "why_tests_cant": "the random numbers come from a random device, so no test run can be repeated, and a run that never ends cannot be told from a long one", "anchors": ["minimip/branching_interface/random_branching.cc: NextBranchingVariable", "minimip/solver.cc: Solve"]}
{"id": "C91", "title": "Solve() may be called again", "statement": "After Solve() returned OK it may be called again on the same solver object: the second call ends with OK, and the best solution is the old one or a better one, still at most the cost of every feasible point.", "quantifier": "every problem and every run, however many nodes were explored", "why_tests_cant": "all shapes of the search tree that a run can leave behind", "anchors": ["minimip/solver.cc: Solver::Solve", "minimip/data_structures/mip_tree.cc: SetLpRelaxationDataInNode, RetrieveLowerBounds"]}
{"id": "C92", "title": "Recording the LP value or implied bounds of a node changes nothing else", "statement": "For a node of the tree without open children, recording its LP value or its implied bounds succeeds, replaces exactly that part of what the tree reports about the node, and leaves every other node, all child counts, the emptiness of the tree and both counters as they were. On any other index the call stops with a failed check.", "quantifier": "every reachable tree, every index and every value or list of bounds", "why_tests_cant": "all shapes of trees, including those with reused storage, and all nodes that must not change", "anchors": ["minimip/data_structures/mip_tree.cc: SetLpRelaxationDataInNode, SetImpliedVariableBoundsInNode"]}
{"id": "C93", "title": "The objective parallelism of a cut is a number from 0 to 1", "statement": "A cut with a non-zero row made for a problem with a non-zero objective has an objective parallelism from 0 to 1, namely the absolute cosine of the angle between row and objective: 0 exactly if they are orthogonal and 1 exactly if they are parallel.", "quantifier": "every row, objective and LP point, any number of columns", "why_tests_cant": "rounding of sums, roots and quotients over all pairs of vectors; whether 1 can be exceeded depends on the last bit", "anchors": ["minimip/data_structures/cuts_data.cc: CreateCut", "minimip/data_structures/cuts_data.h: the checks of objective_parallelism in the constructor"]}
{"id": "C94", "title": "A failure during the search is reported as an error", "statement": "If a call that Solve() makes to the LP solver, the cut runner or the branching rule fails, Solve() returns an error status instead of a result, and does not stop the process.", "quantifier": "every problem, every state of the search that a run reaches and every kind of failure", "why_tests_cant": "failures of the LP solver in all states of all runs", "anchors": ["minimip/solver.cc: Solve"]}
{"id": "C95", "title": "Documented numbers are the doubles nearest to them", "statement": "Tolerances that are not set are reported as the doubles nearest to 1e-8 (Glop) and 1e-6 (SoPlex), the Markowitz threshold as the one nearest to 1e-4; SoPlex' supported thresholds lie between 1e-4 and 1 - 1e-4; the defaults 0.1, 0.9, 1e-6, 1e-9 and every comparison or rounding with one half use the nearest doubles; the generator's comparisons, floors, ceilings and roundings of doubles are exact.", "quantifier": "every parameter message and every finite double", "why_tests_cant": "nearest among all doubles; all values near the limits", "anchors": ["minimip/lp_interface/lpi_glop.cc: SetLpParameters, GetLpParameters", "minimip/lp_interface/lpi_soplex.cc: SetLpParameters, LpParametersAreSupportedBySoPlex", "minimip/parameters.proto", "minimip/cutting_interface/aggregating_generator.cc"]}
{"id": "C96", "title": "A cut's efficacy is the signed distance of the LP point from the cut", "statement": "The efficacy stored in a new cut, and in every cut after the efficacies were updated for a new LP point, is the signed Euclidean distance of the point from the hyperplane of the cut: positive exactly if the point violates the cut, zero exactly if it lies on the hyperplane.", "quantifier": "every row with a non-zero coefficient, right-hand side and LP point, any number of columns and cuts", "why_tests_cant": "rounding of sums, roots and quotients over all vectors; the sign near the hyperplane depends on the last bit", "anchors": ["minimip/data_structures/cuts_data.cc: CreateCut, ComputeEfficacy, UpdateCutEfficacy", "minimip/data_structures/cuts_data.h: the comment and check of efficacy_"]}
{"id": "C97", "title": "Integer data is aggregated without rounding error", "statement": "As long as the products and the sums of their absolute values stay below 2^53, the dot product of integer vectors, adding an integer multiple of one to another, scaling by an integer, and aggregating integer rows with integer weights give exactly the integer result, with zero entries removed; every point satisfying the rows' chosen sides therefore satisfies the aggregated row.", "quantifier": "all integer vectors, multipliers, rows, weights and sides within the limit; any number of rows and columns", "why_tests_cant": "exactness over all vectors of all lengths and in any order of summation", "anchors": ["minimip/data_structures/strong_sparse_vector.h: DotProduct, AddMultipleOfVector, operator*=", "minimip/cutting_interface/aggregating_generator.cc: AggregateByWeight"]}
{"id": "C98", "title": "Proportional cuts are filtered, orthogonal cuts never exclude each other", "statement": "Of two cuts with proportional rows that are not forced at most one is selected (with signed orthogonality: if the rows point the same way), and a cut whose row is orthogonal to all other rows is selected whenever its score reaches the threshold and the limit is not reached, whatever orthogonality up to 1 is required. The cosine compared is that of the two rows up to a relative error near 2^-49 and has the sign of their scalar product.", "quantifier": "all lists of cuts, all rows with integer coefficients that are not large, all selector parameters, any order among equal scores", "why_tests_cant": "three roundings and two square roots enter the comparison; holds for all coefficients and any number of cuts and columns", "anchors": ["minimip/cutting_interface/hybrid_selector.cc: TwoCutsAreOrthogonal, SelectCuttingPlanes"]}
{"id": "C99", "title": "A whole solve stays within the limit on separation rounds", "statement": "In every state of Solve() and at its end, the cuts stored are those of at most max_iterations rounds of separation over all nodes together, none of them empty; the cut runner has added each of them to the LP exactly once, as one row in the order stored, and has solved the LP exactly once after each round. At all these moments the LP holds the problem's rows followed by one row per stored cut, in the order stored, with the problem's objective; only the bounds of integer columns may differ from the problem's, and these stay within them.", "quantifier": "every problem, parameter message, LP solver, cut generator and branching rule, every number of explored nodes", "why_tests_cant": "the limit holds over the lifetime of the solver, for any interleaving of separation, branching and bound changes", "anchors": ["minimip/cutting_interface/default_runner.cc: SeparateCurrentLPSolution, MayRunOneMoreSeperationRound", "minimip/solver.cc: Solve", "minimip/solver.h: Create"]}
