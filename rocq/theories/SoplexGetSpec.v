(** What a user of SoPlex's solution, basis and basis inverse relies on. *)
From Coq Require Import List ZArith Bool.
From Verif Require Import Outcome Num Double SparseVector VectorSpec GlopLp LpParams GlopIface GlopSpec GlopSolution SoplexIface SoplexSpec.
Import ListNotations.
Open Scope Z_scope.

(** The answer is the vector of the [n] values SoPlex gave, or an error if it gave none. *)
Definition passes_on (n : Z) (o : option (Z -> double)) (x : outcome (list double)) : Prop :=
  match o with
  | None => exists e, x = Err e
  | Some f => exists v, x = Ok v /\ Z.of_nat (length v) = n /\ forall i, 0 <= i < n -> at_ v i = Ok (f i)
  end.

(** SoPlex's basis: column [c] is given as [c], row [r] as [-1 - r]; no two the same. *)
Definition spx_basis_code (x : col_or_row) : Z := match x with Col c => c | Row r => -1 - r end.
Definition spx_proper_basis {E} (s : sstate E) : Prop :=
  (forall r, 0 <= r < nrows (s_lp s) -> - nrows (s_lp s) <= x_basis_ind E (s_x s) r < ncols (s_lp s)) /\
  (forall r r', 0 <= r < nrows (s_lp s) -> 0 <= r' < nrows (s_lp s) ->
     x_basis_ind E (s_x s) r = x_basis_ind E (s_x s) r' -> r = r').
Definition in_spx_lp {E} (s : sstate E) (x : col_or_row) : Prop :=
  match x with Col c => 0 <= c < ncols (s_lp s) | Row r => 0 <= r < nrows (s_lp s) end.

(** A value that is dropped up to the tolerance. *)
Definition kept_above (tolerance y : double) : double :=
  if dltb tolerance (dabs y) && negb (is0 (y : num_double)) then y else d0.

(** [x] is column [c] of the LP as a dense vector. *)
Definition dense_column (E : spx_engine) (p : glop_lp) (c : Z) (x : list double) : Prop :=
  Z.of_nat (length x) = nrows p /\
  forall r, 0 <= r < nrows p -> at_ x r = SpxGetMatrixCoefficient (E := E) p c r.
