(** What a user of the getters of the solution and of the basis inverse relies on. *)
From Coq Require Import List ZArith QArith Bool Sorted.
From Verif Require Import Outcome Num Double SparseVector VectorSpec GlopLp LpParams GlopIface GlopSpec SolverSpec GlopSolution.
Import ListNotations.
Open Scope Z_scope.

(** What Glop answers for row [r] of the basis inverse, in the user's scale: the scaling of the basic
    column of that row is undone.  Likewise column [c] of the product of the inverse and the matrix. *)
Definition glop_row {E} (T : tableau E) (s : gstate E) (r : Z) : scattered :=
  b_unscale_left T (scaler s) (b_col T (solver s) r) (b_left T (solver s) r).
Definition glop_column {E} (T : tableau E) (s : gstate E) (c : Z) : scattered :=
  b_unscale_right T (scaler s) (b_col T (solver s)) c (b_right T (solver s) c).
(** The tolerance the user set. *)
Definition tolerance_of {E} (s : gstate E) : double := primal_feasibility_tolerance (w_params E (solver s)).

(** A value that is dropped below the tolerance, and an exact zero. *)
Definition kept (tolerance y : double) : double :=
  if dleb tolerance (dabs y) && negb (is0 (y : num_double)) then y else d0.
(** The value at a position of a vector with a list of positions. *)
Definition listed (x : scattered) (i : Z) (y : double) : double :=
  if existsb (Z.eqb i) (support x) && negb (is0 (y : num_double)) then y else d0.

(** Glop's vector has a value at each of the [n] positions. *)
Definition holds_all (x : scattered) (n : Z) : Prop := n <= Z.of_nat (length (dense x)).
(** Its positions are listed in increasing order. *)
Definition listed_in_order (x : scattered) (n : Z) : Prop :=
  StronglySorted Z.lt (support x) /\ Forall (fun i => 0 <= i < n) (support x).

(** [v] has the values [f i] at the positions below [n]. *)
Definition has_values (v : svec num_double) (n : Z) (f : Z -> double -> Prop) : Prop :=
  clean_vector n v /\ forall i, 0 <= i < n -> f i (value v i).

(** Glop's basis: one column or slack per row, no two the same. *)
Definition proper_basis {E} (T : tableau E) (s : gstate E) : Prop :=
  (forall r, 0 <= r < nrows (lp s) -> 0 <= b_col T (solver s) r < ncols (lp s) + nrows (lp s)) /\
  (forall r r', 0 <= r < nrows (lp s) -> 0 <= r' < nrows (lp s) ->
     b_col T (solver s) r = b_col T (solver s) r' -> r = r').
Definition in_lp {E} (s : gstate E) (x : col_or_row) : Prop :=
  match x with Col c => 0 <= c < ncols (lp s) | Row r => 0 <= r < nrows (lp s) end.

(** The change of the objective along a direction. *)
Definition slope (l : glop_lp) (ray : list double) : Q :=
  q_sum (map (fun gx => (qval (g_obj (fst gx)) * qval (snd gx))%Q) (combine (g_cols l) ray)).
