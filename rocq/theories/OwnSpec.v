(** What is assumed of the LP solver's tableau for the solver with its own cut generator. *)
From Coq Require Import List ZArith QArith Bool Sorted.
From Verif Require Import Outcome Num Double Rounding SparseVector Aggregation GlopLp GlopIface GlopSpec SolverSpec LpParams SoplexIface SoplexSolution
  Params Whole WholeSpec GlopSolution TableauSpec.
Import ListNotations.
Open Scope Z_scope.

(** The entry in row [k] of column [j] of the matrix with the slack columns appended. *)
Definition basis_entry (t : table) (j k : Z) : Q :=
  match at_ (t_cols t) j with
  | Ok c => qval (coef_in c k)
  | _ => if j - t_nc t =? k then 1%Q else 0%Q
  end.
Definition entry_at (x : scattered) (k : Z) : double :=
  match at_ (dense x) k with Ok y => y | _ => d0 end.
(** The product of a row of the inverse and a column of the basis. *)
Definition row_times (x : scattered) (t : table) (j : Z) : Q :=
  q_sum (map (fun k => qval (entry_at x k) * basis_entry t j k)%Q (upto (length (t_rows t)))).

(** After an LP is solved to optimality there is a basis, and the solver's rows of the inverse are
    those of exact arithmetic, complete and in order. *)
Definition exact_tableau {E} (T : tableau E) : Prop :=
  forall (s : gstate E) w t t' q, stored_lp (lp s) -> prepares E (lp s) q (scaler s) ->
  w_solve E w t q = (true, t', solver s) -> w_status E (solver s) = OPTIMAL ->
  proper_basis T s /\
  forall r, 0 <= r < nrows (lp s) ->
    let x := glop_row T s r in
    holds_all x (nrows (lp s)) /\ Forall finite_double (dense x) /\
    listed_in_order x (nrows (lp s)) /\
    (support x = [] \/ forall k, 0 <= k < nrows (lp s) -> is0 (entry_at x k : num_double) = true \/ In k (support x)) /\
    forall j, 0 <= j < nrows (lp s) ->
      (row_times x (table_of (lp s)) (b_col T (solver s) j) == if r =? j then 1 else 0)%Q.
(** The same for SoPlex: the column [j] of the basis, and its rows of the inverse, given as dense
    arrays. *)
Definition spx_basic (X : spx_engine) (x : SoplexIface.X X) (l : glop_lp) (j : Z) : Z :=
  let i := x_basis_ind X x j in if i <? 0 then ncols l + (- i - 1) else i.
Definition exact_spx_tableau (X : spx_engine) : Prop :=
  forall l x, stored_lp l -> spx_answer X l x -> x_status X x = ST_OPTIMAL ->
  (forall r, 0 <= r < nrows l -> - nrows l <= x_basis_ind X x r < ncols l) /\
  (forall r r', 0 <= r < nrows l -> 0 <= r' < nrows l -> x_basis_ind X x r = x_basis_ind X x r' -> r = r') /\
  forall r, 0 <= r < nrows l -> exists v,
    x_binv_row X x r = Some (v, [], -1) /\ nrows l <= Z.of_nat (length v) /\ Forall finite_double v /\
    forall j, 0 <= j < nrows l ->
      (row_times (mkSc v []) (table_of l) (spx_basic X x l j) == if r =? j then 1 else 0)%Q.
(** For the LP solver asked for. *)
Definition exact_basis {E} (X : spx_engine) (T : tableau E) (k : solver_type) : Prop :=
  match k with LP_GLOP => exact_tableau T | LP_SOPLEX => exact_spx_tableau X end.

(** SoPlex returns entries stored by ascending index in that order. *)
Definition keeps_order (X : spx_engine) : Prop :=
  forall l : list (entry num_double), StronglySorted (fun a b => idx a < idx b) l -> x_order X l = l.

(** *** What the generator reads *)
(** The view [V] of the generator answers as the getters of the interface do, at every index. *)
Definition reads_glop {E} (T : tableau E) (s : gstate E) (V : view arith_double) : Prop :=
  (forall r x, at_ (lp_rows V) r = Ok x <-> GetSparseRow (lp s) r = Ok x) /\
  (forall r x, at_ (lp_lhs V) r = Ok x <-> GetLeftHandSide (lp s) r = Ok x) /\
  (forall r x, at_ (lp_rhs V) r = Ok x <-> GetRightHandSide (lp s) r = Ok x) /\
  (forall c x, at_ (lp_lb V) c = Ok x <-> GetLowerBound (lp s) c = Ok x) /\
  (forall c x, at_ (lp_ub V) c = Ok x <-> GetUpperBound (lp s) c = Ok x) /\
  is_solved V = IsSolved s /\ is_optimal V = IsOptimal s /\
  activities V = Ok (GetRowActivities T s) /\ primal V = Ok (GetPrimalValues s) /\
  (forall r, binv_row V r = GetSparseRowOfBInverted T s r) /\
  (forall r c, at_ (GetColumnsAndRowsInBasis T s) r = Ok (Col c) -> at_ (basis V) r = Ok c) /\
  (forall r k, at_ (GetColumnsAndRowsInBasis T s) r = Ok (Row k) -> at_ (basis V) r = Ok (-1)) /\
  length (basis V) = length (GetColumnsAndRowsInBasis T s) /\
  (forall x, finite_double x -> is_inf V x = false) /\ is_inf V dinf = true.
Definition reads_soplex {X : spx_engine} (s : sstate X) (V : view arith_double) : Prop :=
  (forall r x, at_ (lp_rows V) r = Ok x <-> SpxGetSparseRow (E := X) (s_lp s) r = Ok x) /\
  (forall r x, at_ (lp_lhs V) r = Ok x <-> SpxGetLeftHandSide (s_lp s) r = Ok x) /\
  (forall r x, at_ (lp_rhs V) r = Ok x <-> SpxGetRightHandSide (s_lp s) r = Ok x) /\
  (forall c x, at_ (lp_lb V) c = Ok x <-> SpxGetLowerBound (s_lp s) c = Ok x) /\
  (forall c x, at_ (lp_ub V) c = Ok x <-> SpxGetUpperBound (s_lp s) c = Ok x) /\
  is_solved V = SpxIsSolved s /\ (forall o, SpxIsOptimal s = Ok o -> is_optimal V = o) /\
  activities V = SpxGetRowActivities s /\ primal V = SpxGetPrimalValues s /\
  (forall r, binv_row V r = SpxRowOfBInverted s r) /\
  (exists b, SpxGetColumnsAndRowsInBasis s = Ok b /\ length (basis V) = length b /\
    (forall r c, at_ b r = Ok (Col c) -> at_ (basis V) r = Ok c) /\
    (forall r k, at_ b r = Ok (Row k) -> at_ (basis V) r = Ok (-1))) /\
  (forall x, is_inf V x = true <-> dleb (spx_infty (x_rules X)) x = true).
Definition reads {E} {X : spx_engine} (T : tableau E) (l : lpi E X) (V : view arith_double) : Prop :=
  match l with GlopLpi s => reads_glop T s V | SoplexLpi s => reads_soplex s V end.
