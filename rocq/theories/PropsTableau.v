(** The getters of the solution, of the basis and of the basis inverse of the Glop interface, for
    every LP engine.  The vocabulary is in [TableauSpec], the examples are in [TableauCases]. *)
From Coq Require Import String List ZArith Bool QArith Lia Permutation.
From Verif Require Import Outcome Num Double Rounding SparseVector VectorSpec LpParams GlopLp GlopIface GlopSpec
  SolverSpec GlopSolution TableauSpec GlopSolutionProofs GlopCases TableauCases.
Import ListNotations.
Open Scope Z_scope.

(** *** C81 *)
(** A row of the basis inverse: if Glop lists no positions, its values that reach the tolerance;
    if it lists positions in increasing order, its values there. *)
Theorem C81_row_partial : forall E (T : tableau E) (s : gstate E) r,
  holds_all (glop_row T s r) (nrows (lp s)) -> listed_in_order (glop_row T s r) (nrows (lp s)) ->
  exists v, GetSparseRowOfBInverted T s r = Ok v /\ clean_vector (nrows (lp s)) v /\
    forall i y, 0 <= i < nrows (lp s) -> at_ (dense (glop_row T s r)) i = Ok y ->
    value v i = match support (glop_row T s r) with
                | [] => kept (tolerance_of s) y
                | _ => listed (glop_row T s r) i y
                end.
Proof. exact @row_ok. Qed.
Print Assumptions C81_row_partial.

(** A column of the basis inverse. *)
Theorem C81_column : forall E (T : tableau E) (s : gstate E) c,
  (forall r, 0 <= r < nrows (lp s) -> 0 <= c < Z.of_nat (length (dense (glop_row T s r)))) ->
  exists v, GetSparseColumnOfBInverted T s c = Ok v /\ clean_vector (nrows (lp s)) v /\
    forall r y, 0 <= r < nrows (lp s) -> at_ (dense (glop_row T s r)) c = Ok y ->
    value v r = kept (tolerance_of s) y.
Proof. exact @column_ok. Qed.
Print Assumptions C81_column.

(** A row of the product of the basis inverse and the matrix of the LP. *)
Theorem C81_row_times : forall E (T : tableau E) (s : gstate E) r,
  exists v, GetSparseRowOfBInvertedTimesA T s r = Ok v /\ clean_vector (ncols (lp s)) v /\
    forall c g, at_ (g_cols (lp s)) c = Ok g ->
    value v c = kept (tolerance_of s) (b_product T (dense (glop_row T s r)) (g_entries g)).
Proof. exact @row_times_ok. Qed.
Print Assumptions C81_row_times.

(** A column of that product: here a value equal to the tolerance is dropped. *)
Theorem C81_column_times_partial : forall E (T : tableau E) (s : gstate E) c,
  holds_all (glop_column T s c) (nrows (lp s)) -> listed_in_order (glop_column T s c) (nrows (lp s)) ->
  exists v, GetSparseColumnOfBInvertedTimesA T s c = Ok v /\ clean_vector (nrows (lp s)) v /\
    forall i y, 0 <= i < nrows (lp s) -> at_ (dense (glop_column T s c)) i = Ok y ->
    value v i = match support (glop_column T s c) with
      | [] => if dltb (tolerance_of s) (dabs y) && negb (is0 (y : num_double)) then y else d0
      | _ => listed (glop_column T s c) i y end.
Proof. exact @column_times_ok. Qed.
Print Assumptions C81_column_times_partial.

(** The getters of rows and of columns agree if Glop lists no positions. *)
Theorem C81_agree_partial : forall E (T : tableau E) (s : gstate E) r c,
  0 <= r < nrows (lp s) -> 0 <= c < nrows (lp s) ->
  (forall r, 0 <= r < nrows (lp s) ->
     holds_all (glop_row T s r) (nrows (lp s)) /\ support (glop_row T s r) = []) ->
  exists v w, GetSparseRowOfBInverted T s r = Ok v /\ GetSparseColumnOfBInverted T s c = Ok w /\
    value v c = value w r.
Proof. exact @agree_ok. Qed.
Print Assumptions C81_agree_partial.

Example C81_case : nrows (lp two_state) = 2 /\
  (forall r, 0 <= r < 2 -> holds_all (glop_row T_dense two_state r) 2 /\ support (glop_row T_dense two_state r) = []) /\
  (forall r, 0 <= r < 2 -> holds_all (glop_row T_listed two_state r) 2 /\ listed_in_order (glop_row T_listed two_state r) 2) /\
  (forall c, holds_all (glop_column T_dense two_state c) 2 /\ listed_in_order (glop_column T_dense two_state c) 2) /\
  GetSparseRowOfBInverted T_dense two_state 0 = Ok (mkV [mkE 0 (ddiv d1 (dint 2) : num_double); mkE 1 (dint (-4) : num_double)] false) /\
  GetSparseColumnOfBInverted T_dense two_state 1 = Ok (mkV [mkE 0 (dint (-4) : num_double); mkE 1 (d1 : num_double)] false).
Proof.
  split; [apply two_rows|]. split; [exact two_dense|]. split; [exact two_listed|]. split; [exact two_column|].
  exact two_runs.
Qed.

(** If Glop lists the positions in another order - all of them in range, none twice, and exactly
    those of the non-zeros - the returned vector is not clean, and reading it gives other values. *)
Theorem C81_order_refuted : exists E (T : tableau E) (s : gstate E) r v,
  let x := glop_row T s r in
  holds_all x (nrows (lp s)) /\ Forall (fun i => 0 <= i < nrows (lp s)) (support x) /\ NoDup (support x) /\
  (forall i y, at_ (dense x) i = Ok y -> is0 (y : num_double) = negb (existsb (Z.eqb i) (support x))) /\
  GetSparseRowOfBInverted T s r = Ok v /\ dirty v = true /\
  exists i y, 0 <= i < nrows (lp s) /\ at_ (dense x) i = Ok y /\ deqb (value v i) y = false.
Proof.
  exists toy1, T_other, two_state, 0, (got (GetSparseRowOfBInverted T_other two_state 0)). cbv zeta.
  destruct two_rows as [-> _]. destruct other_runs as (R1 & R2 & R3).
  split; [unfold holds_all; cbn; lia|]. split; [repeat constructor; cbn; lia|].
  split; [constructor; [cbn; intros [H|[]]; discriminate H|constructor; [intros []|constructor]]|].
  split; [exact other_positions|]. split; [exact R1|]. split; [exact R2|].
  exists 0, (ddiv d1 (dint 2)). split; [lia|]. split; [reflexivity|exact R3].
Qed.
Print Assumptions C81_order_refuted.

(** With the positions listed in order, the getters of rows and of columns disagree on an entry
    below the tolerance. *)
Theorem C81_agree_refuted : exists E (T : tableau E) (s : gstate E) r c v w,
  0 <= r < nrows (lp s) /\ 0 <= c < nrows (lp s) /\
  (forall k, 0 <= k < nrows (lp s) ->
     holds_all (glop_row T s k) (nrows (lp s)) /\ listed_in_order (glop_row T s k) (nrows (lp s))) /\
  GetSparseRowOfBInverted T s r = Ok v /\ GetSparseColumnOfBInverted T s c = Ok w /\
  deqb (value v c) (value w r) = false.
Proof.
  exists toy1, T_listed, two_state, 1, 0, (got (GetSparseRowOfBInverted T_listed two_state 1)),
    (got (GetSparseColumnOfBInverted T_listed two_state 0)). destruct two_rows as [-> _].
  split; [lia|]. split; [lia|]. split; [exact two_listed|]. exact listed_runs.
Qed.
Print Assumptions C81_agree_refuted.

(** Rows and columns of the product disagree on an entry equal to the tolerance: both are given the
    same value by Glop, one keeps it and the other drops it. *)
Theorem C81_boundary_refuted : exists E (T : tableau E) (s : gstate E) r c g v w,
  0 <= r < nrows (lp s) /\ at_ (g_cols (lp s)) c = Ok g /\
  holds_all (glop_column T s c) (nrows (lp s)) /\ support (glop_column T s c) = [] /\
  at_ (dense (glop_column T s c)) r = Ok (b_product T (dense (glop_row T s r)) (g_entries g)) /\
  GetSparseRowOfBInvertedTimesA T s r = Ok v /\ GetSparseColumnOfBInvertedTimesA T s c = Ok w /\
  deqb (value v c) (value w r) = false.
Proof.
  exists toy1, T_dense, two_state, 0, 1, second_column, (got (GetSparseRowOfBInvertedTimesA T_dense two_state 0)),
    (got (GetSparseColumnOfBInvertedTimesA T_dense two_state 1)). destruct two_rows as [-> _].
  destruct product_runs as (R1 & R2 & R3 & R4).
  split; [lia|]. split; [exact R1|]. split; [apply two_column|]. split; [reflexivity|]. split; [reflexivity|].
  split; [exact R2|]. split; [exact R3|exact R4].
Qed.
Print Assumptions C81_boundary_refuted.

(** *** C82 *)
(** The basic columns and rows: one per row of the LP, all in range, no two the same, in the order
    of Glop's basis. *)
Theorem C82_basis : forall E (T : tableau E) (s : gstate E), proper_basis T s ->
  Z.of_nat (length (GetColumnsAndRowsInBasis T s)) = nrows (lp s) /\
  Forall (in_lp s) (GetColumnsAndRowsInBasis T s) /\ NoDup (GetColumnsAndRowsInBasis T s) /\
  forall r x, at_ (GetColumnsAndRowsInBasis T s) r = Ok x ->
    b_col T (solver s) r = match x with Col c => c | Row k => ncols (lp s) + k end.
Proof. exact @basis_ok. Qed.
Print Assumptions C82_basis.

Example C82_case : proper_basis T_dense two_state /\ GetColumnsAndRowsInBasis T_dense two_state = [Col 1; Row 0].
Proof. split; [exact two_basis|calc]. Qed.

(** *** C83 *)
(** Dual values, reduced costs and row activities: one unscaled value per row or column. *)
Theorem C83_values : forall E (T : tableau E) (s : gstate E),
  (forall r x, at_ (GetDualValues T s) r = Ok x <->
     0 <= r < nrows (lp s) /\ x = b_unscale_dual T (scaler s) r (w_dual E (solver s) r)) /\
  (forall c x, at_ (GetReducedCosts T s) c = Ok x <->
     0 <= c < ncols (lp s) /\ x = b_unscale_cost T (scaler s) c (w_redcost E (solver s) c)) /\
  (forall r x, at_ (GetRowActivities T s) r = Ok x <->
     0 <= r < nrows (lp s) /\ x = b_unscale_activity T (scaler s) r (b_activity T (solver s) r)).
Proof. exact @values_ok. Qed.
Print Assumptions C83_values.

(** The rays: one value per column or row, Glop's unscaled value with the sign changed. *)
Theorem C83_primal_ray : forall E (T : tableau E) (s : gstate E),
  ncols (lp s) <= Z.of_nat (length (b_primal_ray T (solver s))) ->
  exists ray, GetPrimalRay T s = Ok ray /\ Z.of_nat (length ray) = ncols (lp s) /\
    forall c x, at_ (b_primal_ray T (solver s)) c = Ok x -> 0 <= c < ncols (lp s) ->
    at_ ray c = Ok (dopp (sc_unscale E (scaler s) c x)).
Proof. exact @primal_ray_ok. Qed.
Print Assumptions C83_primal_ray.
Theorem C83_dual_ray : forall E (T : tableau E) (s : gstate E),
  nrows (lp s) <= Z.of_nat (length (b_dual_ray T (solver s))) ->
  exists ray, GetDualRay T s = Ok ray /\ Z.of_nat (length ray) = nrows (lp s) /\
    forall r x, at_ (b_dual_ray T (solver s)) r = Ok x -> 0 <= r < nrows (lp s) ->
    at_ ray r = Ok (dopp (b_unscale_dual T (scaler s) r x)).
Proof. exact @dual_ray_ok. Qed.
Print Assumptions C83_dual_ray.

(** So the objective rises along the returned primal ray by as much as it falls along the direction
    [d] that Glop found. *)
Theorem C83_slope : forall E (T : tableau E) (s : gstate E) d ray,
  Z.of_nat (length d) = ncols (lp s) -> Forall finite_double d ->
  (forall c y, at_ d c = Ok y ->
     exists x, at_ (b_primal_ray T (solver s)) c = Ok x /\ y = sc_unscale E (scaler s) c x) ->
  GetPrimalRay T s = Ok ray -> (slope (lp s) ray == - slope (lp s) d)%Q.
Proof. exact @ray_slope. Qed.
Print Assumptions C83_slope.

Example C83_case : GetDualValues T_dense two_state = [d0; d0] /\
  GetRowActivities T_dense two_state = [dint 7; dint 8] /\
  GetPrimalRay T_dense two_state = Ok [dm1; dint 2] /\ GetDualRay T_dense two_state = Ok [dint (-3); dopp d0] /\
  (slope (lp two_state) [dm1; dint 2] == -1)%Q.
Proof. destruct ray_runs as (R1 & R2 & R3 & R4). do 4 (split; [assumption|]). vm_compute. reflexivity. Qed.
