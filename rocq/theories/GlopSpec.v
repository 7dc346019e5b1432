(** Specification vocabulary for the Glop LP interface: an LP as a plain table, one list of
    coefficients per column, and what each call does to that table. *)
From Coq Require Import String List ZArith Bool.
From Verif Require Import Outcome Num Double SparseVector VectorSpec SparseMatrix MatrixSpec Problem
  MipData ProblemSpec GlopLp LpParams GlopIface.
Import ListNotations.
Open Scope Z_scope.

Record tcol := mkTC { t_lb : double; t_ub : double; t_obj : double; t_name : string;
                      t_coefs : list double (* one per row *) }.
Record trow := mkTR { t_lhs : double; t_rhs : double; t_rname : string }.
Record table := mkT { t_cols : list tcol; t_rows : list trow; t_max : bool }.
Definition t_new : table := mkT [] [] false.
Definition t_nc (t : table) : Z := Z.of_nat (length (t_cols t)).
Definition t_nr (t : table) : Z := Z.of_nat (length (t_rows t)).

(** 0, 1, ..., n-1 *)
Definition upto (n : nat) : list Z := map Z.of_nat (seq 0 n).
(** The value a list of entries holds for index [i]. *)
Definition coef (l : list (entry num_double)) (i : Z) : double := read (entries_map l) i.

(** The elements not marked. *)
Definition keep {B} (mask : list bool) (l : list B) : list B :=
  map snd (filter (fun p => negb (fst p)) (combine mask l)).
(** [first..last] removed. *)
Definition without {B} (first last : Z) (l : list B) : list B :=
  firstn (Z.to_nat first) l ++ skipn (Z.to_nat (last + 1)) l.
Definition change_at {B} (l : list B) (i : Z) (f : B -> B) : list B :=
  map (fun p => if fst p =? i then f (snd p) else snd p) (combine (upto (length l)) l).

Definition map_coefs (f : list double -> list double) (c : tcol) : tcol :=
  mkTC (t_lb c) (t_ub c) (t_obj c) (t_name c) (f (t_coefs c)).

Definition add_column (t : table) (v : svec num_double) (lo hi obj : double) (n : string) : table :=
  mkT (t_cols t ++ [mkTC lo hi obj n (map (coef (ents v)) (upto (length (t_rows t))))])
      (t_rows t) (t_max t).
Definition add_row (t : table) (v : svec num_double) (lo hi : double) (n : string) : table :=
  mkT (map (fun p => map_coefs (fun l => l ++ [coef (ents v) (fst p)]) (snd p))
         (combine (upto (length (t_cols t))) (t_cols t)))
      (t_rows t ++ [mkTR lo hi n]) (t_max t).
Definition remove_rows (mask : list bool) (t : table) : table :=
  mkT (map (map_coefs (keep mask)) (t_cols t)) (keep mask (t_rows t)) (t_max t).

(** Zip the argument lists of AddColumns / AddRows. *)
Fixpoint add_columns (t : table) (vs : list (svec num_double)) (los his objs : list double)
  (ns : list string) : table :=
  match vs, los, his, objs, ns with
  | v :: vs, lo :: los, hi :: his, obj :: objs, n :: ns =>
      add_columns (add_column t v lo hi obj n) vs los his objs ns
  | _, _, _, _, _ => t
  end.
Fixpoint add_rows (t : table) (vs : list (svec num_double)) (los his : list double)
  (ns : list string) : table :=
  match vs, los, his, ns with
  | v :: vs, lo :: los, hi :: his, n :: ns => add_rows (add_row t v lo hi n) vs los his ns
  | _, _, _, _ => t
  end.

(** The table of an LP stored by Glop. *)
Definition table_of (p : glop_lp) : table :=
  mkT (map (fun g => mkTC (g_lb g) (g_ub g) (g_obj g) (g_cname g)
                       (map (coef (g_entries g)) (upto (length (g_rows p))))) (g_cols p))
      (map (fun g => mkTR (g_lhs g) (g_rhs g) (g_rname g)) (g_rows p))
      (g_max p).

(** The table of the data of a problem, its coefficients being [x column row]. *)
Definition data_table (d : mip_data) (x : Z -> Z -> double) : table :=
  mkT (map (fun p => match p with (j, (lo, (hi, n))) =>
              mkTC lo hi (value (objective d) j) n
                (map (x j) (upto (length (left_hand_sides d)))) end)
         (combine (upto (length (lower_bounds d)))
            (combine (lower_bounds d) (combine (upper_bounds d) (variable_names d)))))
      (map (fun p => match p with (lo, (hi, n)) => mkTR lo hi n end)
         (combine (left_hand_sides d) (combine (right_hand_sides d) (constraint_names d))))
      false.
(** What GetCoefficient of the matrix answers. *)
Definition matrix_coef (m : smat num_double) (j r : Z) : double :=
  match GetCoefficient m j r with Ok (x, _) => x | _ => d0 end.

(** *** What each call does to the table.  Solving, strong branching, bases, parameters and
    writing do nothing to it. *)
Definition table_step (t : table) (c : call) : table :=
  match c with
  | CPopulate d => data_table d (matrix_coef (matrix d))
  | CAddColumn v lo hi obj n => add_column t v lo hi obj n
  | CAddColumns vs los his objs ns => add_columns t vs los his objs ns
  | CDeleteColumns first last => mkT (without first last (t_cols t)) (t_rows t) (t_max t)
  | CAddRow v lo hi n => add_row t v lo hi n
  | CAddRows vs los his ns => add_rows t vs los his ns
  | CDeleteRows first last =>
      mkT (map (map_coefs (without first last)) (t_cols t)) (without first last (t_rows t)) (t_max t)
  | CDeleteRowSet mask => remove_rows mask t
  | CClear => t_new
  | CSetColumnBounds c lo hi =>
      mkT (change_at (t_cols t) c (fun g => mkTC lo hi (t_obj g) (t_name g) (t_coefs g))) (t_rows t) (t_max t)
  | CSetRowSides r lo hi =>
      mkT (t_cols t) (change_at (t_rows t) r (fun g => mkTR lo hi (t_rname g))) (t_max t)
  | CSetObjectiveSense b => mkT (t_cols t) (t_rows t) b
  | CSetObjectiveCoefficient c x =>
      mkT (change_at (t_cols t) c (fun g => mkTC (t_lb g) (t_ub g) x (t_name g) (t_coefs g))) (t_rows t) (t_max t)
  | CRead (Some p) => table_of p
  | _ => t
  end.
Definition table_run (t : table) (l : list call) : table := fold_left table_step l t.

(** *** Legal arguments (what the interface DCHECKs) *)
Definition clean_vector (n : Z) (v : svec num_double) : Prop :=
  dirty v = false /\ canonical (ents v) /\ Forall (fun e => 0 <= idx e < n) (ents v).
(** An LP as Glop reads it from a file. *)
Definition stored_lp (p : glop_lp) : Prop :=
  Forall (fun g => canonical (g_entries g) /\ Forall (fun e => 0 <= idx e < nrows p) (g_entries g)) (g_cols p).

(** A matrix of that size, built by in-range calls of its members. *)
Definition built_matrix (m : smat num_double) (nc nr : Z) : Prop :=
  exists c r ops, calls_ok (a_new c r) ops /\ mrun (mat_new c r) ops = Ok m /\
    let a := areplay (a_new c r) ops in a_nc a = nc /\ a_nr a = nr.

Definition legal (t : table) (c : call) : Prop :=
  match c with
  | CPopulate d =>
      length (right_hand_sides d) = length (left_hand_sides d) /\
      length (constraint_names d) = length (left_hand_sides d) /\
      length (upper_bounds d) = length (lower_bounds d) /\
      length (variable_names d) = length (lower_bounds d) /\
      built_matrix (matrix d) (Z.of_nat (length (lower_bounds d))) (Z.of_nat (length (left_hand_sides d)))
  | CAddColumn v lo hi obj n => clean_vector (t_nr t) v
  | CAddColumns vs los his objs ns =>
      Forall (clean_vector (t_nr t)) vs /\ length los = length vs /\ length his = length vs /\
      length objs = length vs /\ length ns = length vs
  | CDeleteColumns first last => 0 <= first <= last /\ last < t_nc t
  | CAddRow v lo hi n => clean_vector (t_nc t) v
  | CAddRows vs los his ns =>
      Forall (clean_vector (t_nc t)) vs /\ length los = length vs /\ length his = length vs /\
      length ns = length vs
  | CDeleteRows first last => 0 <= first <= last /\ last < t_nr t
  | CDeleteRowSet mask => length mask = length (t_rows t)
  | CSetColumnBounds c lo hi => 0 <= c < t_nc t
  | CSetRowSides r lo hi => 0 <= r < t_nr t
  | CSetObjectiveCoefficient c x => 0 <= c < t_nc t
  | CRead (Some p) => stored_lp p
  | _ => True
  end.

(** Legal arguments at each call of a history. *)
Fixpoint legal_run (t : table) (l : list call) : Prop :=
  match l with
  | [] => True
  | c :: r => legal t c /\ legal_run (table_step t c) r
  end.

(** Calls that cannot fail by themselves: no strong branching, and bases of the right size. *)
Definition safe (t : table) (c : call) : Prop :=
  match c with
  | CStrongBranch _ _ _ _ => False
  | CSetBasis cs rs => length cs = length (t_cols t) /\ length rs = length (t_rows t)
  | _ => True
  end.
Fixpoint safe_run (t : table) (l : list call) : Prop :=
  match l with
  | [] => True
  | c :: r => safe t c /\ safe_run (table_step t c) r
  end.

(** *** What the getters answer *)
(** In range the value, else the failed CHECK. *)
Definition or_abort {B C} (l : list B) (i : Z) (f : B -> outcome C) : outcome C :=
  match at_ l i with Ok b => f b | _ => Abort end.
Definition nonzeros (l : list double) : list double :=
  filter (fun x : num_double => negb (is0 x)) l.

Record reads_table (p : glop_lp) (t : table) : Prop := {
  rt_cols : ncols p = t_nc t;
  rt_rows : nrows p = t_nr t;
  rt_sense : g_max p = t_max t;
  rt_names : map g_cname (g_cols p) = map t_name (t_cols t) /\
             map g_rname (g_rows p) = map t_rname (t_rows t);
  rt_lb : forall c, GetLowerBound p c = or_abort (t_cols t) c (fun g => Ok (t_lb g));
  rt_ub : forall c, GetUpperBound p c = or_abort (t_cols t) c (fun g => Ok (t_ub g));
  rt_obj : forall c, GetObjectiveCoefficient p c = or_abort (t_cols t) c (fun g => Ok (t_obj g));
  rt_lhs : forall r, GetLeftHandSide p r = or_abort (t_rows t) r (fun g => Ok (t_lhs g));
  rt_rhs : forall r, GetRightHandSide p r = or_abort (t_rows t) r (fun g => Ok (t_rhs g));
  rt_coef : forall c r, GetMatrixCoefficient p c r =
    or_abort (t_cols t) c (fun g => or_abort (t_coefs g) r (fun x => Ok x));
  rt_full : forall c g, at_ (t_cols t) c = Ok g -> length (t_coefs g) = length (t_rows t);
  rt_col : forall c g, at_ (t_cols t) c = Ok g ->
    exists v, GetSparseColumn p c = Ok v /\ clean_vector (t_nr t) v /\
    forall r x, at_ (t_coefs g) r = Ok x -> value v r = x;
  rt_row : forall r, 0 <= r < t_nr t ->
    exists v, GetSparseRow p r = Ok v /\ clean_vector (t_nc t) v /\
    forall c g x, at_ (t_cols t) c = Ok g -> at_ (t_coefs g) r = Ok x -> value v c = x;
  rt_nonzeros : GetNumberOfNonZeros p = Z.of_nat (length (nonzeros (flat_map t_coefs (t_cols t)))) }.

(** What the documentation of RevisedSimplex says about parameters: reading back what was set;
    the other members leave them alone. *)
Record engine_laws (E : engine) : Prop := {
  el_set : forall w g, w_params E (w_set_params E w g) = g;
  el_solve : forall w t p, w_params E (snd (w_solve E w t p)) = w_params E w;
  el_load : forall w l, w_params E (w_load E w l) = w_params E w;
  el_clear : forall w, w_params E (w_clear E w) = w_params E w }.

(** *** Row deletion *)
Definition rows_kept (mask : list bool) : Z := Z.of_nat (length (filter negb mask)).
(** The kept rows before row [r]. *)
Definition kept_before (mask : list bool) (r : Z) : Z := rows_kept (firstn (Z.to_nat r) mask).

(** *** Solved or not *)
(** The call changes the LP held by the interface. *)
Definition modifies (c : call) : bool :=
  match c with
  | CAddColumns [] _ _ _ _ | CAddRows [] _ _ _ => false
  | CPopulate _ | CAddColumn _ _ _ _ _ | CAddColumns _ _ _ _ _ | CDeleteColumns _ _
  | CAddRow _ _ _ _ | CAddRows _ _ _ _ | CDeleteRows _ _ | CDeleteRowSet _ | CClear
  | CSetColumnBounds _ _ _ | CSetRowSides _ _ _ | CSetObjectiveSense _
  | CSetObjectiveCoefficient _ _ => true
  | CRead (Some _) => true
  | _ => false
  end.
Definition reads_file (c : call) : bool := match c with CRead (Some _) => true | _ => false end.
(** In the history [l] with replies [xs], a solve call was answered with OK and no call after it
    modified the LP. *)
Definition solved_since (l : list call) (xs : list reply) : Prop :=
  exists l1 d l2 xs1 xs2, l = l1 ++ CSolve d :: l2 /\ xs = xs1 ++ ROk :: xs2 /\
    length xs1 = length l1 /\ Forall (fun c => modifies c = false) l2.
(** The same, and no later solve failed. *)
Definition solved_cleanly (l : list call) (xs : list reply) : Prop :=
  exists l1 d l2 xs1 xs2, l = l1 ++ CSolve d :: l2 /\ xs = xs1 ++ ROk :: xs2 /\
    length xs1 = length l1 /\ Forall (fun c => modifies c = false) l2 /\
    Forall2 (fun c x => match c with CSolve _ => x = ROk | _ => True end) l2 xs2.

(** *** Parameters *)
Definition tolerance_ok (x : double) : Prop := dltb x d0 = false \/ deqb x dm1 = true.
(** What Glop supports. *)
Definition glop_supports (p : lp_params) : Prop :=
  lp_solver_type p = LP_GLOP /\
  tolerance_ok (feasibility_tolerance p) /\ tolerance_ok (optimality_tolerance p) /\
  deqb (min_markowitz_threshold p) dm1 = true /\ refactorization_interval p = 0 /\
  (timing_mode p = TIMING_OFF \/ dleb (time_limit p) d0 = false) /\
  0 <= iteration_limit p /\ 0 <= num_threads p /\ 0 <= random_seed p /\
  scaling_strategy p <> SCALING_LEAST_SQUARES /\
  pricing_strategy p <> PRICING_STEEPEST_EDGE_QUICK_START /\
  pricing_strategy p <> PRICING_PARTIAL_DANTZIG.

(** The parameters with the defaults that stand for something else replaced. *)
Definition default_tolerance (x d : double) : double := if deqb x dm1 then d else x.
Definition glop_resolved (p : lp_params) : lp_params :=
  mkParams LP_GLOP (solve_from_scratch p)
    (match scaling_strategy p with SCALING_DEFAULT => SCALING_EQUILIBRATION | m => m end)
    (use_presolve p)
    (match pricing_strategy p with PRICING_DEFAULT => PRICING_STEEPEST_EDGE | m => m end)
    (default_tolerance (feasibility_tolerance p) d1em8)
    (default_tolerance (optimality_tolerance p) d1em8)
    dm1 0 (objective_lower_limit p) (objective_upper_limit p) (timing_mode p)
    (match timing_mode p with TIMING_OFF => dinf | _ => time_limit p end)
    (iteration_limit p) (if num_threads p =? 0 then 1 else num_threads p)
    (random_seed p) (enable_internal_solver_output p).
(** A time limit is given as a number of seconds if timing is on. *)
Definition has_time_limit (p : lp_params) : Prop :=
  timing_mode p = TIMING_OFF \/ dltb (time_limit p) dinf = true.

(** The clock of operations_research::TimeLimit (time_limit.h): the flag
    time_limit_use_usertime selects the user time of the process. *)
Inductive clock := WallClock | UserTime.
Definition clock_used (flag : bool) : clock := if flag then UserTime else WallClock.

(** *** Basis *)
(** The engine reports the statuses it was given; Glop's slack variables carry the negated
    status of their row. *)
Definition negated (v : vstatus) : vstatus :=
  match v with
  | V_AT_LOWER_BOUND => V_AT_UPPER_BOUND | V_AT_UPPER_BOUND => V_AT_LOWER_BOUND | v => v
  end.
Record reports_basis (E : engine) (cols : Z) : Prop := {
  rb_col : forall w l c x, 0 <= c < cols -> at_ l c = Ok x -> w_vstatus E (w_load E w l) c = x;
  rb_row : forall w l r x, 0 <= r -> at_ l (cols + r) = Ok x ->
    w_cstatus E (w_load E w l) r = negated x }.

(** *** The LP of a problem *)
Definition problem_table (p : problem) : table :=
  mkT (map (fun q => let '(j, v) := (q : Z * variable) in
              mkTC (v_lb v) (v_ub v)
                (if deqb (v_obj v) d0 then d0 else if p_max p then dopp (v_obj v) else v_obj v)
                (v_name v)
                (map (fun r => no_neg0 (input_coef p j r)) (upto (length (p_cons p)))))
         (combine (upto (length (p_vars p))) (p_vars p)))
      (map (fun c => mkTR (c_lhs c) (c_rhs c) (c_name c)) (p_cons p))
      false.

(** *** Strong branching *)
Definition proven (v : pstatus) : Prop := v = OPTIMAL \/ v = DUAL_FEASIBLE \/ v = DUAL_UNBOUNDED.
(** [q] is the LP [p] with the bounds of column [c] replaced by [lo, hi]. *)
Definition rebounded (p : glop_lp) (c : Z) (lo hi : double) (q : glop_lp) : Prop :=
  g_cols q = change_at (g_cols p) c (fun g => mkGCol lo hi (g_obj g) (g_cname g) (g_entries g)) /\
  g_rows q = g_rows p /\ g_max q = g_max p.
(** The solver answered the LP [q] with a proven bound [b]. *)
Definition proves_bound (E : engine) (q : glop_lp) (b : option double) : Prop :=
  exists w t t' w', w_solve E w t q = (true, t', w') /\ proven (w_status E w') /\
    b = Some (w_objective E w').
(** A solve of [q] counted for [n] iterations; a failed one is not counted. *)
Definition counted (E : engine) (q : glop_lp) (n : Z) : Prop :=
  exists w t ok t' w', w_solve E w t q = (ok, t', w') /\ n = (if ok : bool then w_iterations E w' else 0).

(** *** What is solved *)
(** [q] is the LP [p] with slack variables, scaled or not. *)
Definition prepared (E : engine) (p q : glop_lp) : Prop :=
  q = lp_slacks E p \/ q = fst (sc_scale E (lp_slacks E p)).
(** The solver object [w] holds the result of solving [q], but for its parameters. *)
Definition holds_result (E : engine) (w : W E) (q : glop_lp) : Prop :=
  exists w0 t t' w' gs, w_solve E w0 t q = (true, t', w') /\ w = fold_left (w_set_params E) gs w'.
