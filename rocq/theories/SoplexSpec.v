(** Specification vocabulary for the SoPlex LP interface. *)
From Coq Require Import String List ZArith Bool Permutation.
From Verif Require Import Outcome Num Double SparseVector VectorSpec MipData GlopLp LpParams GlopIface
  GlopSpec SoplexIface ProblemSpec.
Import ListNotations.
Open Scope Z_scope.

(** *** The LP as a table without names *)
Definition nameless (t : table) : table :=
  mkT (map (fun c => mkTC (t_lb c) (t_ub c) (t_obj c) EmptyString (t_coefs c)) (t_cols t))
      (map (fun r => mkTR (t_lhs r) (t_rhs r) EmptyString) (t_rows t)) (t_max t).
(** What each call does: as for Glop, but Clear leaves the objective sense as it is. *)
Definition s_table_step (t : table) (c : call) : table :=
  match c with
  | CClear => mkT [] [] (t_max t)
  | _ => nameless (table_step t c)
  end.
Definition s_table_run (t : table) (l : list call) : table := fold_left s_table_step l t.
(** Legal arguments; the objective of a problem must be clean and in range. *)
Definition s_legal (t : table) (c : call) : Prop :=
  legal t c /\
  match c with
  | CPopulate d => clean_vector (Z.of_nat (length (lower_bounds d))) (objective d)
  | _ => True
  end.
Fixpoint s_legal_run (t : table) (l : list call) : Prop :=
  match l with
  | [] => True
  | c :: r => s_legal t c /\ s_legal_run (s_table_step t c) r
  end.

(** Calls that only edit the LP. *)
Definition edits_lp (c : call) : Prop :=
  match c with
  | CPopulate _ | CAddColumn _ _ _ _ _ | CAddColumns _ _ _ _ _ | CDeleteColumns _ _ | CAddRow _ _ _ _
  | CAddRows _ _ _ _ | CDeleteRows _ _ | CDeleteRowSet _ | CClear | CSetColumnBounds _ _ _
  | CSetRowSides _ _ _ | CSetObjectiveSense _ | CSetObjectiveCoefficient _ _ | CRead _ => True
  | _ => False
  end.

(** SoPlex stores the entries of a vector in some order. *)
Definition keeps_entries (E : spx_engine) : Prop := forall l, Permutation (x_order E l) l.

(** What the getters answer; outside the range nothing is promised. *)
Record s_reads (E : spx_engine) (p : glop_lp) (t : table) : Prop := {
  sr_cols : ncols p = t_nc t;
  sr_rows : nrows p = t_nr t;
  sr_sense : g_max p = t_max t;
  sr_lb : forall c g, at_ (t_cols t) c = Ok g -> SpxGetLowerBound p c = Ok (t_lb g);
  sr_ub : forall c g, at_ (t_cols t) c = Ok g -> SpxGetUpperBound p c = Ok (t_ub g);
  sr_obj : forall c g, at_ (t_cols t) c = Ok g -> SpxGetObjectiveCoefficient p c = Ok (t_obj g);
  sr_lhs : forall r g, at_ (t_rows t) r = Ok g -> SpxGetLeftHandSide p r = Ok (t_lhs g);
  sr_rhs : forall r g, at_ (t_rows t) r = Ok g -> SpxGetRightHandSide p r = Ok (t_rhs g);
  sr_coef : forall c r g x, at_ (t_cols t) c = Ok g -> at_ (t_coefs g) r = Ok x ->
    SpxGetMatrixCoefficient (E := E) p c r = Ok x;
  sr_full : forall c g, at_ (t_cols t) c = Ok g -> length (t_coefs g) = length (t_rows t);
  sr_col : forall c g, at_ (t_cols t) c = Ok g ->
    exists v, SpxGetSparseColumn (E := E) p c = Ok v /\ clean_vector (t_nr t) v /\
    forall r x, at_ (t_coefs g) r = Ok x -> value v r = x;
  (* the row may still need cleaning *)
  sr_row : forall r, 0 <= r < t_nr t ->
    exists v, SpxGetSparseRow (E := E) p r = Ok v /\ clean_vector (t_nc t) (CleanUp v) /\
    forall c g x, at_ (t_cols t) c = Ok g -> at_ (t_coefs g) r = Ok x -> value (CleanUp v) c = x;
  sr_nonzeros : SpxGetNumberOfNonZeros p = Z.of_nat (length (nonzeros (flat_map t_coefs (t_cols t)))) }.

(** *** Solved or not *)
(** The call drops the solution: edits, and changes of the basis. *)
Definition drops_solution (c : call) : bool :=
  match c with
  | CAddColumns _ _ _ _ _ | CAddRows _ _ _ _ | CSetBasis _ _ | CClearState => true
  | c => modifies c
  end.
Definition attempted_since (l : list call) : Prop :=
  exists l1 d l2, l = l1 ++ CSolve d :: l2 /\ Forall (fun c => drops_solution c = false) l2.

(** *** Parameters *)
Definition soplex_supports (p : lp_params) : Prop :=
  lp_solver_type p = LP_SOPLEX /\
  tolerance_ok (feasibility_tolerance p) /\ tolerance_ok (optimality_tolerance p) /\
  (deqb (min_markowitz_threshold p) dm1 = true \/
   dltb (min_markowitz_threshold p) d1em4 = false /\ dltb d1m1em4 (min_markowitz_threshold p) = false /\
   tolerance_ok (min_markowitz_threshold p)) /\
  0 <= refactorization_interval p /\
  (timing_mode p = TIMING_OFF \/ dleb (time_limit p) d0 = false) /\
  timing_mode p <> TIMING_DETERMINISTIC /\
  0 <= iteration_limit p /\ (num_threads p = 0 \/ num_threads p = 1) /\ 0 <= random_seed p /\
  scaling_strategy p <> SCALING_LINEAR_PROGRAM.
(** The parameters with the defaults that stand for something else replaced; [scratch] instead of
    the requested solve_from_scratch, [inf] the value of SoPlex's infinity. *)
Definition spx_resolved (scratch : bool) (inf : double) (p : lp_params) : lp_params :=
  mkParams LP_SOPLEX scratch
    (match scaling_strategy p with SCALING_DEFAULT => SCALING_EQUILIBRATION | m => m end)
    (use_presolve p) (pricing_strategy p)
    (default_tolerance (feasibility_tolerance p) d1em6)
    (default_tolerance (optimality_tolerance p) d1em6)
    (default_tolerance (min_markowitz_threshold p) d1em4)
    (refactorization_interval p)
    (if dltb (dopp inf) (objective_lower_limit p) then objective_lower_limit p else dopp inf)
    (if dltb (objective_upper_limit p) inf then objective_upper_limit p else inf)
    (timing_mode p)
    (match timing_mode p with
     | TIMING_OFF => dinf
     | _ => if dleb inf (time_limit p) then ddiv inf (dint 2) else time_limit p
     end)
    (if INT_MAX <=? iteration_limit p then 0 else iteration_limit p)
    0 (random_seed p) (enable_internal_solver_output p).
(** SoPlex accepts half its infinity as a time limit, which is positive. *)
Definition sane_rules (R : spx_rules) : Prop :=
  ok_timelimit R (ddiv (spx_infty R) (dint 2)) = true /\
  dleb (ddiv (spx_infty R) (dint 2)) d0 = false /\ dleb (spx_infty R) dinf = true.
(** SoPlex takes the settings that [p] asks for. *)
Definition takes (R : spx_rules) (p : lp_params) : Prop := spx_accepts R (to_spx R p) = true.

(** The settings come back from SetLpParameters as they would if made anew: what GetLpParameters
    reports, with use_presolve replaced. *)
Definition with_presolve (b : bool) (p : lp_params) : lp_params :=
  mkParams (lp_solver_type p) (solve_from_scratch p) (scaling_strategy p) b (pricing_strategy p)
    (feasibility_tolerance p) (optimality_tolerance p) (min_markowitz_threshold p) (refactorization_interval p)
    (objective_lower_limit p) (objective_upper_limit p) (timing_mode p) (time_limit p) (iteration_limit p)
    (num_threads p) (random_seed p) (enable_internal_solver_output p).
(** States an interface object can be in. *)
Definition reached {E : spx_engine} (s : sstate E) : Prop :=
  exists p0 mx s0 l xs, spx_new (E := E) p0 mx = Ok s0 /\ srun s0 l = Ok (s, xs).

(** The statuses that the interface passes on as a success of the solve. *)
Definition spx_success (st : spx_status) : Prop :=
  In st [ST_ABORT_TIME; ST_ABORT_ITER; ST_ABORT_VALUE; ST_SINGULAR; ST_REGULAR; ST_UNKNOWN;
         ST_OPTIMAL; ST_OPTIMAL_UNSCALED_VIOLATIONS; ST_UNBOUNDED; ST_INFEASIBLE].

(** *** Strong branching *)
(** The state [x'] is what optimize() with the dual simplex made of the LP [q], with [limit] for
    the iterations if SoPlex takes that value. *)
Definition ran_on (E : spx_engine) (limit : Z) (q : glop_lp) (x' : X E) : Prop :=
  exists x p, x_optimize E x p true q = (false, x') /\
    (ok_iterlimit (x_rules E) limit = true -> ITERLIMIT p = limit).
(** The reply about one branch with the LP [q]: flag and bound.  The flag is set exactly if the
    solver proved the bound: optimal with that value, or the limit [lim] of the objective if it was
    reached or the LP is infeasible. *)
Definition answers (E : spx_engine) (limit : Z) (q : glop_lp) (lim : double) (valid : option bool)
  (b : option double) : Prop :=
  exists x', ran_on E limit q x' /\
    (valid = Some true /\
       (x_status E x' = ST_OPTIMAL /\ b = Some (x_objective E x') \/
        (x_status E x' = ST_INFEASIBLE \/ x_status E x' = ST_ABORT_VALUE) /\ b = Some lim) \/
     valid = Some false /\ b = Some (x_objective E x') /\
       (x_status E x' = ST_ABORT_TIME \/ x_status E x' = ST_ABORT_ITER \/ x_status E x' = ST_ABORT_CYCLING \/
        x_status E x' = ST_OPTIMAL_UNSCALED_VIOLATIONS)).
(** The limit of the objective: lower when maximising, upper when minimising. *)
Definition the_limit {E : spx_engine} (s : sstate E) : double :=
  if g_max (s_lp s) then objective_lower_limit (SpxGetLpParameters s)
  else objective_upper_limit (SpxGetLpParameters s).
(** The engine does not throw. *)
Definition never_throws (E : spx_engine) : Prop :=
  (forall x p d q, fst (x_optimize E x p d q) = false) /\
  (forall x rs cs, fst (x_set_basis E x rs cs) = false).
(** A call of SolveDownAndUpStrongBranch for a column of the LP. *)
Definition branches (n : Z) (c : call) : Prop :=
  match c with CStrongBranch _ j _ _ => 0 <= j < n | _ => False end.

(** *** Basis *)
(** Calls that need the saved basis to be freed. *)
Definition guarded (c : call) : bool :=
  match c with
  | CPopulate _ | CAddColumn _ _ _ _ _ | CAddColumns _ _ _ _ _ | CDeleteColumns _ _
  | CAddRows _ _ _ _ | CDeleteRows _ _ | CDeleteRowSet _ | CClear | CSetColumnBounds _ _ _
  | CSetRowSides _ _ _ | CSetObjectiveSense _ | CSetObjectiveCoefficient _ _ | CRead _
  | CSolve _ | CStartStrongBranching | CSetBasis _ _ => true
  | _ => false
  end.
(** The engine takes a basis, reports the statuses it was given and calls it optimal. *)
Record s_reports_basis (E : spx_engine) : Prop := {
  srb_takes : forall x rs cs, fst (x_set_basis E x rs cs) = false;
  srb_optimal : forall x rs cs, x_status E (snd (x_set_basis E x rs cs)) = ST_OPTIMAL;
  srb_col : forall x rs cs c v, at_ cs c = Ok v -> x_col E (snd (x_set_basis E x rs cs)) c = v;
  srb_row : forall x rs cs r v, at_ rs r = Ok v -> x_row E (snd (x_set_basis E x rs cs)) r = v }.
(** What comes back for a status. *)
Definition fixed_lost (b : bstatus) : bstatus := match b with kFixed => kAtLowerBound | b => b end.

(** *** The inverse of the basis matrix *)
(** [b] has [n] rows of [n] values, and getBasisInverseRowReal answers with its rows, dense or with
    the positions of the non-zero values in front of the index array. *)
Definition inverse_of (E : spx_engine) (x : X E) (n : nat) (b : list (list double)) : Prop :=
  length b = n /\
  forall r row, at_ b r = Ok row -> length row = n /\
    exists inds m, x_binv_row E x r = Some (row, inds, m) /\
      (m = -1 \/
       0 <= m <= Z.of_nat (length inds) /\ NoDup (firstn (Z.to_nat m) inds) /\
       forall i, In i (firstn (Z.to_nat m) inds) <-> exists v, at_ row i = Ok v /\ is0 (v : num_double) = false).
(** The index arrays that the column getter can cope with: none, or one whose i-th listed position
    is i, which means that the values after the listed ones are zeros. *)
Definition listed_in_place (E : spx_engine) (x : X E) (n : nat) : Prop :=
  forall r row inds m, 0 <= r < Z.of_nat n -> x_binv_row E x r = Some (row, inds, m) ->
  m = -1 \/ forall i, 0 <= i < m -> at_ inds i = Ok i.

(** *** The two branches *)
(** Every whole number is on exactly one side, and [v] on neither. *)
Definition splits (v hi lo : double) : Prop :=
  (forall z, dvalid z = true -> is_finite z = true -> is_whole (zval z) ->
     (dleb z hi = true \/ dleb lo z = true) /\ ~ (dleb z hi = true /\ dleb lo z = true)) /\
  dltb hi v = true /\ dltb v lo = true.
(** A finite value at least 2^-j from every whole number, not too large. *)
Definition fractional_by (j : Z) (v : double) : Prop :=
  0 <= j <= 40 /\ dvalid v = true /\ is_finite v = true /\ Z.abs (zval v) < 2 ^ (49 - j) * zone /\
  forall n, zone <= Z.abs (zval v - n * zone) * 2 ^ j.
(** A tolerance of at most 2^-(j+1). *)
Definition tolerance_below (j : Z) (eps : double) : Prop :=
  dvalid eps = true /\ is_finite eps = true /\ 0 <= zval eps /\ zval eps * 2 ^ (j + 1) <= zone.
(** More than [eps] away from every whole number. *)
Definition further_than (eps v : double) : Prop := forall n, zval eps < Z.abs (zval v - n * zone).
