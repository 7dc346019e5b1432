(** Specification vocabulary for the solver: what points are feasible for the user's problem,
    and what is assumed of the LP solver, the cuts and the branching rule. *)
From Coq Require Import String List ZArith Bool QArith Permutation.
From Verif Require Import Outcome Num Double DoubleFacts Rounding Problem MipData ProblemSpec
  MipTree TreeSpec Branching Solver.
Import ListNotations.
Open Scope Z_scope.

(** *** Rational points *)
Definition point := Z -> Q.
(** The rational value of a finite double. *)
Definition qval (x : double) : Q := zval x # Z.to_pos zone.
(** lo <= q and q <= hi, the ends possibly infinite. *)
Definition q_above (lo : double) (q : Q) : Prop :=
  match lo with
  | S754_infinity s => s = true
  | S754_nan => False
  | _ => (qval lo <= q)%Q
  end.
Definition q_below (q : Q) (hi : double) : Prop :=
  match hi with
  | S754_infinity s => s = false
  | S754_nan => False
  | _ => (q <= qval hi)%Q
  end.
Definition q_sum (l : list Q) : Q := fold_right Qplus 0%Q l.

(** *** The user's problem *)
Definition row_activity (c : constraint) (x : point) : Q :=
  q_sum (map (fun t => qval (snd t) * x (fst t))%Q (terms c)).
(** Inside the bounds, integral where asked, and satisfying every constraint. *)
Definition feasible (p : problem) (x : point) : Prop :=
  (forall j v, nth_var p j = Some v ->
     q_above (v_lb v) (x j) /\ q_below (x j) (v_ub v) /\
     (v_int v = true -> exists z, x j == inject_Z z)) /\
  (forall r c, nth_con p r = Some c ->
     q_above (c_lhs c) (row_activity c x) /\ q_below (row_activity c x) (c_rhs c)).
(** The objective to minimise: the user's without offset, negated if the user maximises. *)
Definition cost (p : problem) (x : point) : Q :=
  ((if p_max p then -1 else 1) *
   q_sum (map (fun j => qval (input_objective p (Z.of_nat j)) * x (Z.of_nat j))
            (seq 0 (length (p_vars p)))))%Q.

(** *** The solver's surroundings *)
(** The solver was created for [p], a well-formed problem without NaN bounds; the loops over
    the integer variables visit each once, in any order. *)
Record env_ok {W} (E : env W) (p : problem) : Prop := {
  eo_problem : problem_ok p;
  eo_data : MipData p = Ok (data E);
  eo_bounds : Forall (fun v => is_nan (v_lb v) = false /\ is_nan (v_ub v) = false /\
                dvalid (v_lb v) = true /\ dvalid (v_ub v) = true) (p_vars p);
  eo_order : Permutation (order E) (integer_variables (data E)) }.

(** At an LP optimum that is not integral the branching rule returns an integer variable with
    a finite value. *)
Definition branch_ok {W} (E : env W) : Prop :=
  forall w x, is_optimal E w = true -> primal_values E w = Ok x ->
  SolutionIsIntegral (order E) x (tolerance E) = Ok false ->
  forall j up, branch E w = Ok (j, up) ->
  In j (order E) /\ exists v, at_ x j = Ok v /\ finite_double v.

(** [x] lies between the bounds that the LP currently has for the integer variables. *)
Definition in_lp_box (p : problem) (b : Z -> double * double) (x : point) : Prop :=
  forall j, is_integer_var p j -> q_above (fst (b j)) (x j) /\ q_below (x j) (snd (b j)).

(** The LP's bounds for the integer variables are binary64 values and no wider than the
    problem's. *)
Definition no_wider (p : problem) (b : Z -> double * double) : Prop :=
  forall j v, nth_var p j = Some v -> v_int v = true ->
  dvalid (fst (b j)) = true /\ dvalid (snd (b j)) = true /\
  dleb (v_lb v) (fst (b j)) = true /\ dleb (snd (b j)) (v_ub v) = true.

(** The LP solver is sound and the cuts are valid.  [bounds w j] are the current bounds of
    column j; [rows w x] says that x satisfies the current rows (cuts included) and the bounds
    of the continuous variables.
    - The first LP contains every feasible point.
    - Setting bounds changes the bounds of that column only.
    - After solving, with bounds no wider than the problem's: if the LP has a point, the answer
      is "optimal" and the objective value is at most that of every LP point.
    - Separation keeps bounds, keeps every feasible point, and leaves a solved LP. *)
Record lp_sound {W} (E : env W) (p : problem) (w0 : W)
  (bounds : W -> Z -> double * double) (rows : W -> point -> Prop) : Prop := {
  ls_start : forall x, feasible p x -> rows w0 x;
  ls_set : forall w j l u w', set_bounds E w j l u = Ok w' ->
    bounds w' j = (l, u) /\ (forall k, k <> j -> bounds w' k = bounds w k) /\
    (forall x, rows w x -> rows w' x);
  ls_solve : forall w w', solve_dual E w = Ok w' ->
    (forall j, bounds w' j = bounds w j) /\ (forall x, rows w x -> rows w' x) /\
    (no_wider p (bounds w') -> forall x, rows w' x -> in_lp_box p (bounds w') x ->
       is_optimal E w' = true /\ q_above (objective_value E w') (cost p x));
  ls_separate : forall w w', is_optimal E w = true -> separate E w = Ok w' ->
    (forall j, bounds w' j = bounds w j) /\
    (forall x, feasible p x -> rows w x -> rows w' x) /\
    (no_wider p (bounds w') -> forall x, rows w' x -> in_lp_box p (bounds w') x ->
       is_optimal E w' = true /\ q_above (objective_value E w') (cost p x)) }.

(** The same for an LP solver that may fail to answer: an LP that has a point is either solved to
    optimality, with an objective value at most that of every LP point, or left [unsettled]. *)
Record lp_honest {W} (E : env W) (p : problem) (w0 : W)
  (bounds : W -> Z -> double * double) (rows : W -> point -> Prop) (unsettled : W -> Prop) : Prop := {
  lh_start : forall x, feasible p x -> rows w0 x;
  lh_set : forall w j l u w', set_bounds E w j l u = Ok w' ->
    bounds w' j = (l, u) /\ (forall k, k <> j -> bounds w' k = bounds w k) /\
    (forall x, rows w x -> rows w' x);
  lh_solve : forall w w', solve_dual E w = Ok w' ->
    (forall j, bounds w' j = bounds w j) /\ (forall x, rows w x -> rows w' x) /\
    (no_wider p (bounds w') -> forall x, rows w' x -> in_lp_box p (bounds w') x ->
       is_optimal E w' = true /\ q_above (objective_value E w') (cost p x) \/
       is_optimal E w' = false /\ unsettled w');
  lh_separate : forall w w', is_optimal E w = true -> separate E w = Ok w' ->
    (forall j, bounds w' j = bounds w j) /\
    (forall x, feasible p x -> rows w x -> rows w' x) /\
    (no_wider p (bounds w') -> forall x, rows w' x -> in_lp_box p (bounds w') x ->
       is_optimal E w' = true /\ q_above (objective_value E w') (cost p x) \/
       is_optimal E w' = false /\ unsettled w') }.

(** The LP, cut and branching calls succeed, and an optimal LP has a value for every column. *)
Record lp_total {W} (E : env W) (p : problem) : Prop := {
  lt_set : forall w j l u, is_integer_var p j -> dvalid l = true -> dvalid u = true ->
    exists w', set_bounds E w j l u = Ok w';
  lt_solve : forall w, exists w', solve_dual E w = Ok w';
  lt_separate : forall w, is_optimal E w = true -> exists w', separate E w = Ok w';
  lt_primal : forall w, is_optimal E w = true -> exists x, primal_values E w = Ok x /\ Z.of_nat (length x) = num_vars p;
  lt_branch : forall w x, is_optimal E w = true -> primal_values E w = Ok x ->
    SolutionIsIntegral (order E) x (tolerance E) = Ok false -> exists j up, branch E w = Ok (j, up) }.

(** The bounds of the LP's columns change only by SetColumnBounds. *)
Record lp_keeps_bounds {W} (E : env W) (bounds : W -> Z -> double * double) : Prop := {
  lk_set : forall w j l u w', set_bounds E w j l u = Ok w' ->
    bounds w' j = (l, u) /\ (forall k, k <> j -> bounds w' k = bounds w k);
  lk_solve : forall w w', solve_dual E w = Ok w' -> forall j, bounds w' j = bounds w j;
  lk_separate : forall w w', separate E w = Ok w' -> forall j, bounds w' j = bounds w j }.

(** An optimal LP point has one binary64 value per column, and for the integer variables they
    are finite and inside the bounds. *)
Definition lp_inside {W} (E : env W) (p : problem) (bounds : W -> Z -> double * double) : Prop :=
  forall w x, is_optimal E w = true -> primal_values E w = Ok x ->
  Z.of_nat (length x) = num_vars p /\ Forall (fun v => dvalid v = true) x /\
  forall j v, is_integer_var p j -> at_ x j = Ok v ->
    finite_double v /\ dleb (fst (bounds w j)) v = true /\ dleb v (snd (bounds w j)) = true.

(** As [branch_ok], and the value is not a whole number. *)
Definition branch_fractional {W} (E : env W) : Prop :=
  forall w x, is_optimal E w = true -> primal_values E w = Ok x ->
  SolutionIsIntegral (order E) x (tolerance E) = Ok false ->
  forall j up, branch E w = Ok (j, up) ->
  In j (order E) /\ exists v, at_ x j = Ok v /\ finite_double v /\ ~ is_whole (zval v).

(** All integer variables have finite bounds. *)
Definition bounded_integers (p : problem) : Prop :=
  Forall (fun v => v_int v = true -> is_finite (v_lb v) = true /\ is_finite (v_ub v) = true) (p_vars p).

(** The integer variables have whole bounds. *)
Definition whole_bounds (p : problem) : Prop :=
  Forall (fun v => v_int v = true -> is_whole (zval (v_lb v)) /\ is_whole (zval (v_ub v))) (p_vars p).

(** The bounds of the integer variables do not cross. *)
Definition uncrossed (p : problem) (b : Z -> double * double) : Prop :=
  forall j, is_integer_var p j -> dvalid (fst (b j)) = true /\ dvalid (snd (b j)) = true /\
    dleb (fst (b j)) (snd (b j)) = true.
(** As [lp_total], but for an LP solver that can be called only while the bounds do not cross. *)
Record lp_total_uncrossed {W} (E : env W) (p : problem) (bounds : W -> Z -> double * double) : Prop := {
  lu_set : forall w j l u, is_integer_var p j -> dvalid l = true -> dvalid u = true ->
    exists w', set_bounds E w j l u = Ok w';
  lu_solve : forall w, uncrossed p (bounds w) -> exists w', solve_dual E w = Ok w';
  lu_separate : forall w, uncrossed p (bounds w) -> is_optimal E w = true -> exists w', separate E w = Ok w';
  lu_primal : forall w, is_optimal E w = true -> exists x, primal_values E w = Ok x /\ Z.of_nat (length x) = num_vars p;
  lu_branch : forall w x, is_optimal E w = true -> primal_values E w = Ok x ->
    SolutionIsIntegral (order E) x (tolerance E) = Ok false -> exists j up, branch E w = Ok (j, up) }.

(** The solver uses max-fractional branching, with a non-negative tolerance. *)
Record max_fractional_env {W} (E : env W) (dir : direction) : Prop := {
  mf_branch : forall w x, primal_values E w = Ok x ->
    branch E w = MaxFractional dir (tolerance E) (order E) x;
  mf_tol : dvalid (tolerance E) = true /\ is_finite (tolerance E) = true /\ 0 <= zval (tolerance E) }.

(** The reported solutions: the best one and the additional ones. *)
Definition reported (r : result) (sol : solution) : Prop := sol = best r \/ In sol (additional r).

(** *** Runs *)
(** The states the loop goes through. *)
Inductive visits {W} (E : env W) (w0 : W) : solver_state W -> Prop :=
| visits_start : visits E w0 (solve_start w0)
| visits_step s s' : visits E w0 s -> queue s <> [] -> solver_round E s = Ok (Continue s') ->
    visits E w0 s'.

(** The objective as the user states it. *)
Definition user_objective (p : problem) (x : point) : Q :=
  (qval (p_offset p) +
   q_sum (map (fun j => qval (input_objective p (Z.of_nat j)) * x (Z.of_nat j))
            (seq 0 (length (p_vars p)))))%Q.
(** The point given by a list of doubles. *)
Definition point_of (x : list double) : point :=
  fun j => match at_ x j with Ok v => qval v | _ => 0%Q end.
(** The objective value of an optimal LP is that of its point, without rounding error. *)
Definition lp_exact {W} (E : env W) (p : problem) : Prop :=
  forall w x, is_optimal E w = true -> primal_values E w = Ok x ->
  qval (objective_value E w) == cost p (point_of x).

(** In state [s] the next round takes node [n]. *)
Definition takes {W} (s : solver_state W) (n : Z) : Prop :=
  exists q, take (backjump s) (queue s) = Ok (n, q).
(** In state [s] the next round takes node [n] and finds its LP infeasible. *)
Definition takes_infeasible {W} (E : env W) (s : solver_state W) (n : Z) : Prop :=
  takes s n /\ exists w, solve_node E (mip_tree s) n (world s) = Ok w /\ is_optimal E w = false.
Definition siblings (t : tree) (n m : Z) : Prop :=
  n <> m /\ exists dn dm, node t n = Ok dn /\ node t m = Ok dm /\ parent dn = parent dm.
