(** Property C86: SoPlex's solution, basis and basis inverse as the interface passes them on, for
    every SoPlex engine; C66 for SoPlex.  The vocabulary is in [SoplexSpec] and [SoplexGetSpec]. *)
From Coq Require Import String List ZArith Bool Lia.
From Verif Require Import Outcome Num Double SparseVector VectorSpec Problem MipData ProblemSpec PropsProblem GlopLp LpParams GlopIface GlopSpec GlopCases
  GlopSolution SoplexIface SoplexSpec SoplexProofs SoplexMore SoplexCases SoplexSolution SoplexGetSpec SoplexGetProofs
  WholeSoplex.
Import ListNotations.
Open Scope Z_scope.

(** *** C86 *)
(** The values are SoPlex's, one per column or row.  Primal and dual values abort the program unless
    the LP is optimal, rays unless SoPlex has one. *)
Theorem C86_solution : forall E (s : sstate E),
  (x_status E (s_x s) = ST_OPTIMAL ->
     passes_on (ncols (s_lp s)) (x_primal E (s_x s)) (SpxGetPrimalValues s) /\
     passes_on (nrows (s_lp s)) (x_dual E (s_x s)) (SpxGetDualValues s)) /\
  (x_status E (s_x s) <> ST_OPTIMAL -> SpxGetPrimalValues s = Abort /\ SpxGetDualValues s = Abort) /\
  passes_on (nrows (s_lp s)) (x_slacks E (s_x s)) (SpxGetRowActivities s) /\
  passes_on (ncols (s_lp s)) (x_redcost E (s_x s)) (SpxGetReducedCosts s) /\
  (x_has_ray E (s_x s) = true -> passes_on (ncols (s_lp s)) (x_ray E (s_x s)) (SpxGetPrimalRay s)) /\
  (x_has_ray E (s_x s) = false -> SpxGetPrimalRay s = Abort) /\
  (x_has_farkas E (s_x s) = true -> passes_on (nrows (s_lp s)) (x_farkas E (s_x s)) (SpxGetDualRay s)) /\
  (x_has_farkas E (s_x s) = false -> SpxGetDualRay s = Abort).
Proof. exact @spx_solution. Qed.
Print Assumptions C86_solution.

Example C86_solution_case : SpxGetPrimalValues (safter (E := tx1) two_rows) = Ok [dint 1; dint 2] /\
  SpxGetDualValues (safter (E := tx1) two_rows) = Ok [dint 0; dint (-1)] /\
  SpxGetPrimalValues (safter (E := tx1) build) = Abort /\
  SpxGetReducedCosts (safter (E := tx1) two_rows) = Err Internal /\
  SpxGetDualRay (safter (E := tx1) two_rows) = Abort.
Proof. calcs. Qed.

(** The basis: one column or row of the LP per row, none twice, in SoPlex's order. *)
Theorem C86_basis : forall E (s : sstate E), freed s = true -> spx_proper_basis s ->
  exists l, SpxGetColumnsAndRowsInBasis s = Ok l /\
  Z.of_nat (length l) = nrows (s_lp s) /\ Forall (in_spx_lp s) l /\ NoDup l /\
  forall r x, at_ l r = Ok x -> x_basis_ind E (s_x s) r = spx_basis_code x.
Proof. exact @spx_basis_ok. Qed.
Print Assumptions C86_basis.

Example C86_basis_case : freed (safter (E := tx1) two_rows) = true /\ spx_proper_basis (safter (E := tx1) two_rows) /\
  SpxGetColumnsAndRowsInBasis (safter (E := tx1) two_rows) = Ok [Col 1; Row 0].
Proof.
  assert (N : nrows (s_lp (safter (E := tx1) two_rows)) = 2) by calc.
  assert (C : ncols (s_lp (safter (E := tx1) two_rows)) = 2) by calc.
  split; [calc|]. split; [|calc]. unfold spx_proper_basis. rewrite N, C. split.
  - intros r R. change (x_basis_ind tx1 (s_x (safter two_rows)) r) with (if r =? 0 then 1 else -1). destruct (r =? 0); lia.
  - intros r r' R R' H. change ((if r =? 0 then 1 else -1) = (if r' =? 0 then 1 else -1)) in H.
    destruct (Z.eqb_spec r 0), (Z.eqb_spec r' 0); try discriminate H; lia.
Qed.

(** A row of the product of the basis inverse and the matrix: SoPlex's products of its row of the
    inverse with the columns, those up to the tolerance dropped. *)
Theorem C86_row_times : forall E (s : sstate E) r dense inds m, freed s = true ->
  x_binv_row E (s_x s) r = Some (dense, inds, m) ->
  exists v, SpxRowOfBInvertedTimesA s r = Ok v /\ clean_vector (ncols (s_lp s)) v /\
    forall c g, at_ (g_cols (s_lp s)) c = Ok g ->
    value v c = kept_above (feasibility_tolerance (SpxGetLpParameters s)) (x_dot E dense (x_order E (g_entries g))).
Proof. exact @spx_row_times. Qed.
Print Assumptions C86_row_times.

(** A column of the product: what SoPlex answers for the column of the LP. *)
Theorem C86_column_times : forall E (s : sstate E) c column b, freed s = true -> keeps_entries E ->
  stored_lp (s_lp s) -> 0 <= c < ncols (s_lp s) -> dense_column E (s_lp s) c column ->
  x_binv_times E (s_x s) column = Some b -> nrows (s_lp s) <= Z.of_nat (length b) ->
  exists v, SpxColumnOfBInvertedTimesA s c = Ok v /\ clean_vector (nrows (s_lp s)) v /\
    forall r y, 0 <= r < nrows (s_lp s) -> at_ b r = Ok y ->
    value v r = kept_above (feasibility_tolerance (SpxGetLpParameters s)) y.
Proof. exact @spx_column_times. Qed.
Print Assumptions C86_column_times.

(** Rows and columns of the product agree on every entry that SoPlex computes equally. *)
Theorem C86_times_agree : forall E (s : sstate E) r c dense inds m column b g, freed s = true -> keeps_entries E ->
  stored_lp (s_lp s) -> 0 <= r < nrows (s_lp s) -> at_ (g_cols (s_lp s)) c = Ok g ->
  dense_column E (s_lp s) c column -> x_binv_row E (s_x s) r = Some (dense, inds, m) ->
  x_binv_times E (s_x s) column = Some b -> nrows (s_lp s) <= Z.of_nat (length b) ->
  at_ b r = Ok (x_dot E dense (x_order E (g_entries g))) ->
  exists v w, SpxRowOfBInvertedTimesA s r = Ok v /\ SpxColumnOfBInvertedTimesA s c = Ok w /\ value v c = value w r.
Proof. exact @spx_times_agree. Qed.
Print Assumptions C86_times_agree.

Definition y_column : list double := [d0; dint 2].
Example C86_times_case : stored_lp (s_lp (safter (E := tx1) two_rows)) /\
  dense_column tx1 (s_lp (safter (E := tx1) two_rows)) 1 y_column /\
  x_binv_row tx1 (s_x (safter (E := tx1) two_rows)) 0 = Some ([d0; dint 2], [0; 0], -1) /\
  x_binv_times tx1 (s_x (safter (E := tx1) two_rows)) y_column = Some [dint 4; d0] /\
  SpxRowOfBInvertedTimesA (safter (E := tx1) two_rows) 0 = Ok (mkV [mkE 1 (dint 4 : num_double)] false) /\
  SpxColumnOfBInvertedTimesA (safter (E := tx1) two_rows) 1 = Ok (mkV [mkE 0 (dint 4 : num_double)] false).
Proof.
  split; [exact s_stored_two|]. split; [|calcs].
  assert (N : nrows (s_lp (safter (E := tx1) two_rows)) = 2) by calc. unfold dense_column. rewrite N. split; [reflexivity|].
  intros r R. assert (r = 0 \/ r = 1) as [->| ->] by lia; calc.
Qed.

(** After an error in the computation of the row or of the product the getters answer with an error. *)
Theorem C86_errors : forall E (s : sstate E) r c, freed s = true ->
  (x_binv_row E (s_x s) r = None -> SpxRowOfBInvertedTimesA s r = Err Internal /\ SpxRowOfBInverted s r = Err Internal) /\
  (keeps_entries E -> stored_lp (s_lp s) -> 0 <= c < ncols (s_lp s) ->
   (forall column, dense_column E (s_lp s) c column -> x_binv_times E (s_x s) column = None) ->
   SpxColumnOfBInvertedTimesA s c = Err Internal).
Proof. exact @spx_errors. Qed.
Print Assumptions C86_errors.
Example C86_errors_case : x_binv_row tx1 (s_x (safter (E := tx1) two_rows)) 5 = None.
Proof. calc. Qed.

(** *** C66 *)
(** A problem that loads is passed on to SoPlex as it was given, whatever the interface held before:
    the getters read its variables, bounds, constraints, sides and coefficients in the same order,
    minimising the (possibly negated) objective.  SoPlex is given no names. *)
Theorem C66_soplex : forall X (s : sstate X) p, keeps_entries X -> freed s = true ->
  problem_ok p -> integer_bounds_ordered p ->
  exists d s', MipData p = Ok d /\ sstep s (CPopulate d) = Ok (s', ROk) /\
    s_reads X (s_lp s') (nameless (problem_table p)) /\ SpxIsSolved s' = false /\ s_params s' = s_params s.
Proof. exact @spx_problem_loaded. Qed.
Print Assumptions C66_soplex.

Example C66_soplex_case : keeps_entries tx1 /\ freed (safter (E := tx1) two_rows) = true /\
  problem_ok (small_problem true) /\ integer_bounds_ordered (small_problem true) /\
  (do d <- MipData (small_problem true) ;
   do s <- sstep (safter (E := tx1) two_rows) (CPopulate d) ;
   do x <- SpxGetObjectiveCoefficient (s_lp (fst s)) 0 ; do y <- SpxGetMatrixCoefficient (E := tx1) (s_lp (fst s)) 2 0 ; Ok (x, y)) =
  Ok (dint (-2), dint 5).
Proof.
  split; [exact (toyx_keeps _ _)|]. split; [calc|]. split; [exact (small_problem_ok true)|].
  split; [exact (small_problem_bounds true)|]. calcs.
Qed.
