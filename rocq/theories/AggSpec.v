(** Specification vocabulary for the rounding cuts: rational points, the linear expressions
    of rows and cuts, slacks and shifted variables written out. *)
From Coq Require Import List ZArith QArith Qround Bool Sorted.
From Verif Require Import Outcome Num Double SparseVector VectorSpec SolverSpec Aggregation.
Import ListNotations.
Open Scope Z_scope.

Definition integer (y : Q) : Prop := exists z : Z, (y == inject_Z z)%Q.

(** *** Views over any arithmetic, whose numbers have rational values [q]. *)
Section Spec.
Context {A : Arith}.
Variable q : A -> Q.

(** sum of coefficient times value *)
Definition lin (v : svec A) (x : point) : Q :=
  q_sum (map (fun e : entry A => q (val e) * x (idx e))%Q (ents v)).

(** [x] satisfies the rows of the LP; an infinite side constrains nothing. *)
Definition satisfies_rows (V : view A) (x : point) : Prop :=
  forall r a lo hi, at_ (lp_rows V) r = Ok a -> at_ (lp_lhs V) r = Ok lo ->
  at_ (lp_rhs V) r = Ok hi ->
  (is_inf V hi = false -> lin a x <= q hi)%Q /\
  (is_inf V (nopp lo) = false -> q lo <= lin a x)%Q.

(** [y] lies between the bounds. *)
Definition within (V : view A) (lo hi : A) (y : Q) : Prop :=
  (is_inf V (nopp lo) = false -> q lo <= y)%Q /\ (is_inf V hi = false -> y <= q hi)%Q.
Definition in_box (V : view A) (x : point) : Prop :=
  forall j lo hi, at_ (lp_lb V) j = Ok lo -> at_ (lp_ub V) j = Ok hi -> within V lo hi (x j).

Definition integral_at (l : list Z) (x : point) : Prop := forall j, In j l -> integer (x j).

(** A mixed-integer point of the node's LP. *)
Definition node_point (V : view A) (x : point) : Prop :=
  satisfies_rows V x /\ in_box V x /\ integral_at (ints V) x.

(** The slack of row [r] with respect to the chosen side (aggregating_generator.h:25-40). *)
Definition slack (V : view A) (sides : list bool) (x : point) (r : Z) : Q :=
  match at_ (lp_rows V) r, at_ sides r, at_ (lp_lhs V) r, at_ (lp_rhs V) r with
  | Ok a, Ok true, _, Ok hi => (q hi - lin a x)%Q
  | Ok a, Ok false, Ok lo, _ => (lin a x - q lo)%Q
  | _, _, _, _ => 0%Q
  end.
End Spec.

(** Rows as the LP interface delivers them. *)
Definition clean_row {A : Num} (v : svec A) : Prop :=
  dirty v = false /\ canonical (ents v) /\ nonneg_indices (ents v).

(** *** Exact arithmetic *)
Notation idQ := (fun y : arith_Q => (y : Q)).

(** The shifted variable of TransformToNonNegativeVariables. *)
Definition shifted (V : view arith_Q) (x : point) (j : Z) : Q :=
  match at_ (lp_lb V) j, at_ (lp_ub V) j with
  | Ok lo, Ok hi =>
      if Qle_bool 0 lo then x j
      else if is_inf V (- lo)%Q then (hi - x j)%Q else (x j - lo)%Q
  | _, _ => x j
  end.

(** Column [j] has no finite bound and may be negative. *)
Definition free_column (V : view arith_Q) (j : Z) : Prop :=
  exists lo hi, at_ (lp_lb V) j = Ok lo /\ at_ (lp_ub V) j = Ok hi /\
  (lo < 0)%Q /\ is_inf V (- lo)%Q = true /\ is_inf V hi = true.

(** What the LP interface delivers: clean rows and rows of the basis inverse, infinities are
    positive; no free row enters an aggregation. *)
Record view_ok (V : view arith_Q) : Prop := {
  vo_rows : forall r a, at_ (lp_rows V) r = Ok a -> clean_row a;
  vo_binv : forall r b, binv_row V r = Ok b -> clean_row b;
  vo_inf : forall y, is_inf V y = true -> (0 < y)%Q;
  vo_sides : forall r b e lo hi, binv_row V r = Ok b -> In e (ents b) ->
    at_ (lp_lhs V) (idx e) = Ok lo -> at_ (lp_rhs V) (idx e) = Ok hi ->
    is_inf V (- lo)%Q = false \/ is_inf V hi = false }.

(** What exactness needs from the data: no tolerance; finite bounds of integer variables are
    integers; a row flagged as integral has integer coefficients on integer variables only,
    and integer finite sides. *)
Record integral_data (V : view arith_Q) : Prop := {
  id_tol : (tol V == 0)%Q;
  id_bounds : forall j lo hi, In j (ints V) -> at_ (lp_lb V) j = Ok lo ->
    at_ (lp_ub V) j = Ok hi ->
    (is_inf V (- lo)%Q = false -> integer lo) /\ (is_inf V hi = false -> integer hi);
  id_rows : forall r a lo hi, at_ (integral_rows V) r = Ok true -> at_ (lp_rows V) r = Ok a ->
    at_ (lp_lhs V) r = Ok lo -> at_ (lp_rhs V) r = Ok hi ->
    (is_inf V (- lo)%Q = false -> integer lo) /\ (is_inf V hi = false -> integer hi) /\
    forall e, In e (ents a) -> In (idx e) (ints V) /\ integer (val e) }.

(** The right-hand side that the strong CG rounder sees is never an integer (otherwise the code
    divides by zero, which exact arithmetic does not represent). *)
Definition fractional_rows (V : view arith_Q) : Prop :=
  forall r b acts sides g t,
  activities V = Ok acts -> choose_sides V 0 acts = Ok sides -> binv_row V r = Ok b ->
  AggregateByWeight V (row_weights b) sides = Ok g ->
  TransformToNonNegative V g = Ok (t, true) -> ~ integer (a_rhs t).

(** What a row evaluates to, and the side chosen for it. *)
Definition row_value (V : view arith_Q) (x : point) (r : Z) : Q :=
  match at_ (lp_rows V) r with Ok a => lin idQ a x | _ => 0%Q end.
Definition chosen_side (V : view arith_Q) (sides : list bool) (r : Z) : Q :=
  match at_ sides r with
  | Ok true => match at_ (lp_rhs V) r with Ok y => y | _ => 0%Q end
  | _ => match at_ (lp_lhs V) r with Ok y => y | _ => 0%Q end
  end.

(** The point given by a dense vector. *)
Definition dense_point (xs : list arith_Q) : point :=
  fun j => match at_ xs j with Ok y => y | _ => 0%Q end.

(** The flags of MipData::is_integral_constraint (mip_data.cc:92-97) for rows over the
    rationals: only integer variables, only integer coefficients; the sides are ignored. *)
Definition computed_flags (V : view arith_Q) : Prop :=
  forall r a, at_ (lp_rows V) r = Ok a ->
  exists b, at_ (integral_rows V) r = Ok b /\
  (b = true <-> forall e, In e (ents a) -> In (idx e) (ints V) /\ integer (val e)).

(** The bounds of the node are inside those of the root. *)
Definition tighter (V : view arith_Q) (lb0 ub0 : list arith_Q) : Prop :=
  forall j lo hi, at_ (lp_lb V) j = Ok lo -> at_ (lp_ub V) j = Ok hi ->
  exists lo0 hi0, at_ lb0 j = Ok lo0 /\ at_ ub0 j = Ok hi0 /\ (lo0 <= lo)%Q /\ (hi <= hi0)%Q.
Definition in_root_box (V : view arith_Q) (lb0 ub0 : list arith_Q) (x : point) : Prop :=
  forall j lo hi, at_ lb0 j = Ok lo -> at_ ub0 j = Ok hi -> within idQ V lo hi (x j).

(** *** Any arithmetic: sizes agree, indices are in range. *)
Record view_sized {A : Arith} (V : view A) (rows cols : Z) : Prop := {
  vs_rows : Z.of_nat (length (lp_rows V)) = rows;
  vs_lhs : Z.of_nat (length (lp_lhs V)) = rows;
  vs_rhs : Z.of_nat (length (lp_rhs V)) = rows;
  vs_basis : Z.of_nat (length (basis V)) = rows;
  vs_lb : Z.of_nat (length (lp_lb V)) = cols;
  vs_ub : Z.of_nat (length (lp_ub V)) = cols;
  vs_row : forall r a, at_ (lp_rows V) r = Ok a ->
    dirty a = false /\ Forall (fun e : entry A => 0 <= idx e < cols) (ents a);
  vs_binv : forall r b, 0 <= r < rows -> binv_row V r = Ok b ->
    dirty b = false /\ Forall (fun e : entry A => 0 <= idx e < rows) (ents b);
  vs_binv_defined : forall r, 0 <= r < rows -> (exists b, binv_row V r = Ok b) \/ (exists c, binv_row V r = Err c);
  vs_acts : (exists l, activities V = Ok l /\ Z.of_nat (length l) = rows) \/ (exists c, activities V = Err c);
  vs_primal : (exists l, primal V = Ok l) \/ (exists c, primal V = Err c) }.
