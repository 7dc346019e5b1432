(** Properties C49-C51, C53-C57, C70-C75, C79, C80: the SoPlex LP interface. *)
From Coq Require Import String List ZArith Bool.
From Verif Require Import Outcome Num Double SparseVector VectorSpec MipData ProblemSpec GlopLp LpParams GlopIface
  GlopSpec GlopCases SoplexIface SoplexSpec SoplexProofs SoplexMore SoplexBranch SoplexCases SoplexRuns BranchCover FreshParams SoplexThrow.
Import ListNotations.
Open Scope Z_scope.

(** *** C70 *)
(** After any history of legal calls the getters answer from the table of what was last written. *)
Theorem C70_reads : forall E p0 mx s0 l (s : sstate E) xs, keeps_entries E ->
  spx_new p0 mx = Ok s0 -> s_legal_run (mkT [] [] mx) l -> srun s0 l = Ok (s, xs) ->
  s_reads E (s_lp s) (s_table_run (mkT [] [] mx) l).
Proof. intros E. exact spx_history_reads. Qed.
Print Assumptions C70_reads.

(** Legal edits neither abort nor have undefined behaviour. *)
Theorem C70_defined : forall E p0 mx (s0 : sstate E) l, spx_new p0 mx = Ok s0 ->
  s_legal_run (mkT [] [] mx) l -> Forall edits_lp l -> exists s xs, srun s0 l = Ok (s, xs).
Proof. intros E. exact spx_history_defined. Qed.
Print Assumptions C70_defined.

Example C70_case : keeps_entries tx1 /\ spx_new (E := tx1) spx_start false = Ok fresh /\
  s_legal_run (mkT [] [] false) sedits /\ is_ok (srun (E := tx1) fresh sedits) = true /\
  SpxGetMatrixCoefficient (E := tx1) (s_lp (safter (E := tx1) sedits)) 1 1 = Ok (dint 5).
Proof.
  split; [exact (toyx_keeps _ _)|]. split; [exact (fresh_ok _ _ _)|]. split; [exact s_legal_edits|]. calcs.
Qed.
Example C70_defined_case : Forall edits_lp sedits.
Proof. repeat constructor. Qed.

(** The full statement is false of the row getter: its vector is not cleaned, so the entries come
    in the order in which SoPlex stores them. *)
Theorem C70_row_refuted : exists E p0 mx s0 l (s : sstate E) xs r v, keeps_entries E /\ spx_new p0 mx = Ok s0 /\
  s_legal_run (mkT [] [] mx) l /\ srun s0 l = Ok (s, xs) /\
  SpxGetSparseRow (E := E) (s_lp s) r = Ok v /\ ~ clean_vector (ncols (s_lp s)) v /\ map idx (ents v) = [1; 0].
Proof. exact row_dirty. Qed.
Print Assumptions C70_row_refuted.

(** *** C49 *)
Theorem C49_soplex_delete_rows : forall E (s : sstate E) mask, keeps_entries E -> stored_lp (s_lp s) ->
  freed s = true -> length mask = length (g_rows (s_lp s)) ->
  exists s' m, sstep s (CDeleteRowSet mask) = Ok (s', RMap m) /\
    length m = length mask /\ ncols (s_lp s') = ncols (s_lp s) /\ nrows (s_lp s') = rows_kept mask /\
    (forall r, at_ mask r = Ok true -> at_ m r = Ok (-1)) /\
    (forall r, at_ mask r = Ok false -> exists q, at_ m r = Ok q /\ q = kept_before mask r /\ 0 <= q < nrows (s_lp s') /\
       SpxGetLeftHandSide (s_lp s') q = SpxGetLeftHandSide (s_lp s) r /\
       SpxGetRightHandSide (s_lp s') q = SpxGetRightHandSide (s_lp s) r /\
       forall c, 0 <= c < ncols (s_lp s) ->
         SpxGetMatrixCoefficient (E := E) (s_lp s') c q = SpxGetMatrixCoefficient (E := E) (s_lp s) c r) /\
    (forall r r' q q', r < r' -> at_ mask r = Ok false -> at_ mask r' = Ok false ->
       at_ m r = Ok q -> at_ m r' = Ok q' -> q < q') /\
    (forall q, 0 <= q < nrows (s_lp s') -> exists r, at_ m r = Ok q).
Proof. intros E. exact spx_delete_row_set. Qed.
Print Assumptions C49_soplex_delete_rows.

Example C49_soplex_case : stored_lp (s_lp (safter (E := tx1) build)) /\ freed (safter (E := tx1) build) = true /\
  length [true; false; true; false] = length (g_rows (s_lp (safter (E := tx1) build))) /\
  sreplies (E := tx1) (build ++ [CDeleteRowSet [true; false; true; false]]) =
  [ROk; ROk; ROk; RMap [-1; 0; -1; 1]].
Proof. split; [apply s_stored_build; calc|]. calcs. Qed.

(** *** C50 *)
(** False: after reading another LP from a file the interface still counts as solved. *)
Theorem C50_soplex_file_refuted : exists E p0 mx s0 l (s : sstate E) xs, spx_new p0 mx = Ok s0 /\
  s_legal_run (mkT [] [] mx) l /\ srun s0 l = Ok (s, xs) /\ SpxIsSolved s = true /\
  ncols (s_lp s) = 1 /\ (exists l0, l = l0 ++ [CRead (Some (s_lp s))]).
Proof. exact s_read_after. Qed.
Print Assumptions C50_soplex_file_refuted.

(** A solve that returned an error counts as solved, too. *)
Theorem C50_soplex_error_refuted : exists E p0 mx s0 l (s : sstate E) xs, spx_new p0 mx = Ok s0 /\
  s_legal_run (mkT [] [] mx) (l ++ [CSolve true]) /\ srun s0 (l ++ [CSolve true]) = Ok (s, xs ++ [RErr]) /\
  SpxIsSolved s = true.
Proof. exact s_failed_solve. Qed.
Print Assumptions C50_soplex_error_refuted.

(** Without file reads: solved exactly if a solve call was made since the last call that edits the
    LP or changes the basis. *)
Theorem C50_soplex_partial : forall E p0 mx s0 l (s : sstate E) xs, spx_new p0 mx = Ok s0 ->
  Forall (fun c => reads_file c = false) l -> srun s0 l = Ok (s, xs) ->
  (SpxIsSolved s = true <-> attempted_since l).
Proof. intros E. exact spx_solved_history. Qed.
Print Assumptions C50_soplex_partial.

Example C50_soplex_case : Forall (fun c => reads_file c = false) (sedits ++ [CSolve false]) /\
  is_ok (srun (E := tx1) fresh (sedits ++ [CSolve false])) = true /\ attempted_since (sedits ++ [CSolve false]).
Proof. split; [repeat constructor|]. split; [calc|]. exists sedits, false, []. split; [reflexivity|constructor]. Qed.

(** *** C51 *)
(** False: solve_from_scratch is accepted and ignored. *)
Theorem C51_soplex_scratch_refuted : exists E (s s' : sstate E), sane_rules (x_rules E) /\ reached s /\
  SpxSetLpParameters s scratch = Ok (s', true) /\ solve_from_scratch (SpxGetLpParameters s') = false.
Proof. exact s_scratch_lost. Qed.
Print Assumptions C51_soplex_scratch_refuted.

(** In every reachable state: accepted exactly if supported and taken by SoPlex; then everything
    but solve_from_scratch reads back, otherwise nothing changes. *)
Theorem C51_soplex_partial : forall E (s : sstate E) p, sane_rules (x_rules E) -> reached s ->
  exists s' ok, SpxSetLpParameters s p = Ok (s', ok) /\
    (ok = true <-> soplex_supports p /\ takes (x_rules E) p) /\
    (ok = true -> SpxGetLpParameters s' = spx_resolved false (spx_infty (x_rules E)) p) /\
    (ok = false -> SpxGetLpParameters s' = SpxGetLpParameters s) /\
    s_lp s' = s_lp s /\ SpxIsSolved s' = SpxIsSolved s /\ s_x s' = s_x s /\ freed s' = freed s.
Proof. intros E. exact spx_set_get. Qed.
Print Assumptions C51_soplex_partial.

(** Setting what was read is accepted and changes nothing. *)
Theorem C51_soplex_stable : forall E (s : sstate E), sane_rules (x_rules E) -> reached s ->
  exists s', SpxSetLpParameters s (SpxGetLpParameters s) = Ok (s', true) /\
    SpxGetLpParameters s' = SpxGetLpParameters s.
Proof. intros E. exact spx_get_set. Qed.
Print Assumptions C51_soplex_stable.

(** An accepted message, and one refused by SoPlex (a tolerance of 10) after some settings were
    already made. *)
Definition loose : lp_params :=
  mkParams LP_SOPLEX false SCALING_OFF false PRICING_DEVEX ten dm1 dm1 0 dminf dinf TIMING_OFF dinf 5 0 7 false.
Example C51_soplex_case : sane_rules (x_rules tx1) /\ reached (safter (E := tx1) build) /\
  soplex_supports scratch /\ takes (x_rules tx1) scratch /\ soplex_supports loose /\ ~ takes (x_rules tx1) loose /\
  SpxGetLpParameters (sset (safter (E := tx1) build) loose) = SpxGetLpParameters (safter (E := tx1) build).
Proof.
  split; [exact (toyx_rules _ _ _)|]. split; [apply sreached; calc|]. split; [apply spx_supported_iff; calc|].
  split; [apply (eq_refl true)|]. split; [apply spx_supported_iff; calc|].
  split.
  - assert (K : spx_accepts (x_rules tx1) (to_spx (x_rules tx1) loose) = false) by calc.
    unfold takes. rewrite K. discriminate.
  - assert (P : SpxGetLpParameters (safter (E := tx1) build) = spx_resolved false spx_inf (default_params LP_SOPLEX)) by calc.
    rewrite P. calc.
Qed.

(** What a new interface reads back: the documented defaults, resolved. *)
Theorem C51_soplex_new : forall E p0 mx (s : sstate E), sane_rules (x_rules E) -> spx_new p0 mx = Ok s ->
  SpxGetLpParameters s =
  mkParams LP_SOPLEX false SCALING_EQUILIBRATION true PRICING_DEFAULT d1em6 d1em6 d1em4 0
    (dopp (spx_infty (x_rules E))) (spx_infty (x_rules E)) TIMING_OFF dinf 0 0 0 false.
Proof. exact spx_fresh. Qed.
Print Assumptions C51_soplex_new.
Example C51_soplex_new_case : sane_rules (x_rules tx1) /\ spx_new (E := tx1) spx_start false = Ok fresh /\
  feasibility_tolerance (SpxGetLpParameters (E := tx1) fresh) = d1em6.
Proof. split; [exact (toyx_rules _ _ _)|]. split; calc. Qed.

(** *** C71 *)
(** False: every solve switches presolving off for good. *)
Theorem C71_presolve_refuted : exists E (s s' : sstate E), sane_rules (x_rules E) /\ reached s /\
  SpxSolveLp true s = Ok (s', true) /\ use_presolve (SpxGetLpParameters s) = true /\
  use_presolve (SpxGetLpParameters s') = false.
Proof. exact s_presolve_lost. Qed.
Print Assumptions C71_presolve_refuted.

(** All other parameters survive every solve. *)
Theorem C71_params_partial : forall E (s : sstate E) d s' ok, sane_rules (x_rules E) -> reached s ->
  SpxSolveLp d s = Ok (s', ok) -> SpxGetLpParameters s' = with_presolve false (SpxGetLpParameters s).
Proof. intros E. exact spx_solve_params. Qed.
Print Assumptions C71_params_partial.

Example C71_case : is_ok (SpxSolveLp false (sset (safter (E := tx1) build) scratch)) = true /\
  iteration_limit (SpxGetLpParameters (ssolved false (sset (safter (E := tx1) build) scratch))) = 100.
Proof. calcs. Qed.

(** *** C72 *)
(** Solving an LP with a column or a row of crossing bounds always aborts the program. *)
Theorem C72_column_aborts : forall E (s : sstate E) d g, reached s -> sane_rules (x_rules E) ->
  In g (g_cols (s_lp s)) -> dltb (dadd (g_ub g) (x_eps_zero E)) (g_lb g) = true -> SpxSolveLp d s = Abort.
Proof. intros E. exact spx_crossing. Qed.
Print Assumptions C72_column_aborts.
Theorem C72_row_aborts : forall E (s : sstate E) d g, reached s -> sane_rules (x_rules E) ->
  In g (g_rows (s_lp s)) -> dltb (dadd (g_rhs g) (x_eps_zero E)) (g_lhs g) = true -> SpxSolveLp d s = Abort.
Proof. intros E. exact spx_crossing_rows. Qed.
Print Assumptions C72_row_aborts.

(** So the statement is false: 3 <= x <= 2 is not reported infeasible. *)
Theorem C72_crossing_refuted : exists E (s : sstate E) g, sane_rules (x_rules E) /\ never_throws E /\ reached s /\
  In g (g_cols (s_lp s)) /\ g_lb g = dint 3 /\ g_ub g = dint 2 /\
  SpxSolveLp true s = Abort /\ SpxSolveLp false s = Abort.
Proof. exact s_crossing. Qed.
Print Assumptions C72_crossing_refuted.

(** Equal bounds are fine. *)
Example C72_case :
  dltb (dadd (dint 2) (x_eps_zero tx1)) (dint 3) = true /\
  is_ok (SpxSolveLp true (safter (E := tx1) (build ++ [CSetColumnBounds 0 (dint 2) (dint 2)]))) = true.
Proof. calcs. Qed.

(** *** C75 *)
(** IsOptimal does not abort; an optimal LP has none of the other statuses. *)
Theorem C75_optimal : forall E (s : sstate E), (exists b, SpxIsOptimal s = Ok b) /\
  (SpxIsOptimal s = Ok true ->
   SpxIsPrimalUnbounded s = false /\ SpxIsPrimalInfeasible s = false /\ SpxIsDualUnbounded s = false /\
   SpxIsDualInfeasible s = false /\ SpxExistsPrimalRay s = false /\ SpxExistsDualRay s = false /\
   SpxObjectiveLimitIsExceeded s = false /\ SpxIterationLimitIsExceeded s = false /\
   SpxTimeLimitIsExceeded s = false /\ SpxIsStable s = true).
Proof. intros E s. exact (conj (ex_intro _ _ (spx_is_optimal s)) (spx_status_exclusive s)). Qed.
Print Assumptions C75_optimal.
(** The predicates say what SoPlex's last status and the status of its basis say. *)
Theorem C75_reports : forall E (s : sstate E), let st := x_status E (s_x s) in let bs := x_basis E (s_x s) in
  (SpxIsOptimal s = Ok true <-> st = ST_OPTIMAL) /\
  (SpxIsPrimalUnbounded s = true <-> st = ST_UNBOUNDED) /\ (SpxExistsPrimalRay s = true <-> st = ST_UNBOUNDED) /\
  (SpxIsDualInfeasible s = true <-> st = ST_UNBOUNDED) /\
  (SpxIsPrimalInfeasible s = true <-> st = ST_INFEASIBLE) /\ (SpxExistsDualRay s = true <-> st = ST_INFEASIBLE) /\
  (SpxIsDualUnbounded s = true <-> st = ST_INFEASIBLE /\ bs = BS_DUAL) /\
  (SpxIsPrimalFeasible s = true <-> In bs [BS_OPTIMAL; BS_PRIMAL]) /\
  (SpxIsDualFeasible s = true <-> In bs [BS_OPTIMAL; BS_DUAL]) /\
  (SpxIsStable s = false <-> In st [ST_ERROR; ST_SINGULAR; ST_OPTIMAL_UNSCALED_VIOLATIONS]) /\
  (SpxObjectiveLimitIsExceeded s = true <-> st = ST_ABORT_VALUE) /\
  (SpxIterationLimitIsExceeded s = true <-> st = ST_ABORT_ITER) /\
  (SpxTimeLimitIsExceeded s = true <-> st = ST_ABORT_TIME).
Proof. intros E. exact spx_status_reports. Qed.
Print Assumptions C75_reports.

Example C75_case : SpxIsOptimal (safter (E := tx1) (build ++ [CSolve true])) = Ok true.
Proof. calc. Qed.

(** *** C53 *)
(** False: without StartStrongBranching the call aborts as soon as a branch is not empty. *)
Theorem C53_soplex_unstarted : forall E r0 (s : sstate E) c v limit g, freed s = true ->
  at_ (g_cols (s_lp s)) c = Ok g ->
  let eps := feasibility_tolerance (SpxGetLpParameters s) in
  dleb (dsub (g_lb g) half) (dceil (dsub (dsub v d1) eps)) = true \/
  dleb (dfloor (dsub (dadd v d1) eps)) (dadd (g_ub g) half) = true ->
  SpxSolveDownAndUpStrongBranch r0 s c v limit = Abort.
Proof. intros E. exact spx_branch_unsaved. Qed.
Print Assumptions C53_soplex_unstarted.
Theorem C53_soplex_unstarted_refuted : exists E (s : sstate E) r0, sane_rules (x_rules E) /\ never_throws E /\
  reached s /\ SpxIsSolved s = true /\ ncols (s_lp s) = 2 /\
  SpxSolveDownAndUpStrongBranch r0 s 0 five_half 50 = Abort.
Proof. exact s_branch_unstarted. Qed.
Print Assumptions C53_soplex_unstarted_refuted.

(** If the call returns, with a result or an error, the LP, the parameters and the rest are as
    before. *)
Theorem C53_soplex_restores : forall E r0 (s : sstate E) c v limit s' r, sane_rules (x_rules E) -> reached s ->
  SpxSolveDownAndUpStrongBranch r0 s c v limit = Ok (s', r) ->
  s_lp s' = s_lp s /\ SpxGetLpParameters s' = SpxGetLpParameters s /\ SpxIsSolved s' = SpxIsSolved s /\
  freed s' = freed s.
Proof. intros E. exact spx_branch_restores. Qed.
Print Assumptions C53_soplex_restores.

(** The result: each branch is the LP with one bound replaced; its flag is set exactly if the
    branch is empty or the solver proved the bound. *)
Theorem C53_soplex_honest : forall E r0 (s : sstate E) c v limit s' r g, at_ (g_cols (s_lp s)) c = Ok g ->
  SpxSolveDownAndUpStrongBranch r0 s c v limit = Ok (s', Some r) ->
  let eps := feasibility_tolerance (SpxGetLpParameters s) in
  let hi := dceil (dsub (dsub v d1) eps) in
  let lo := dfloor (dsub (dadd v d1) eps) in
  (if dleb (dsub (g_lb g) half) hi
   then exists q, rebounded (s_lp s) c (g_lb g) hi q /\ answers E limit q (the_limit s) (down_valid r) (dual_bound_down r)
   else down_valid r = Some true /\ dual_bound_down r = Some (the_limit s)) /\
  (if dleb lo (dadd (g_ub g) half)
   then exists q, rebounded (s_lp s) c lo (g_ub g) q /\ answers E limit q (the_limit s) (up_valid r) (dual_bound_up r)
   else up_valid r = Some true /\ dual_bound_up r = Some (the_limit s)) /\
  sb_iterations r <> None.
Proof. intros E. exact spx_branch. Qed.
Print Assumptions C53_soplex_honest.

(** The iteration count is the sum over the branches that were solved. *)
Theorem C53_soplex_iterations : forall E r0 (s : sstate E) c v limit s' r g, at_ (g_cols (s_lp s)) c = Ok g ->
  SpxSolveDownAndUpStrongBranch r0 s c v limit = Ok (s', Some r) ->
  let eps := feasibility_tolerance (SpxGetLpParameters s) in
  let hi := dceil (dsub (dsub v d1) eps) in
  let lo := dfloor (dsub (dadd v d1) eps) in
  exists n1 n2, sb_iterations r = Some (n1 + n2) /\
  (if dleb (dsub (g_lb g) half) hi
   then exists q x', rebounded (s_lp s) c (g_lb g) hi q /\ ran_on E limit q x' /\ n1 = x_iterations E x' else n1 = 0) /\
  (if dleb lo (dadd (g_ub g) half)
   then exists q x', rebounded (s_lp s) c lo (g_ub g) q /\ ran_on E limit q x' /\ n2 = x_iterations E x' else n2 = 0).
Proof. intros E. exact spx_branch_iterations. Qed.
Print Assumptions C53_soplex_iterations.

(** Both branches solved; one infeasible; one stopped by the iteration limit. *)
Example C53_soplex_case : reached (safter (E := tx_bounds) ssession) /\ exists s' r,
  SpxSolveDownAndUpStrongBranch sb_unset (safter (E := tx_bounds) ssession) 0 five_half 50 = Ok (s', Some r) /\
  r = mkSB (Some (dint 5)) (Some ten) (Some true) (Some true) (Some 2).
Proof. split; [apply sreached; calc|]. exact s_branch_both. Qed.
Example C53_soplex_cases :
  snd (sbranched sb_unset (safter (E := tx_bounds) ssession) (ddiv (dint 9) (dint 2)) 50) =
    Some (mkSB (Some spx_inf) (Some ten) (Some true) (Some true) (Some 2)) /\
  snd (sbranched sb_unset (safter (E := tx_bounds) ssession) (ddiv (dint 17) (dint 2)) 50) =
    Some (mkSB (Some (dint 8)) (Some (dint 9)) (Some true) (Some false) (Some 2)).
Proof. exact s_branch_others. Qed.

(** *** C73 *)
(** A session on a non-empty LP: start, any branching on existing columns, end.  It runs to the
    end and leaves everything as it was, with the basis from the start. *)
Theorem C73_session_partial : forall E (s : sstate E) l rs cs, sane_rules (x_rules E) -> reached s ->
  never_throws E -> freed s = true -> x_get_basis E (s_x s) = Some (rs, cs) ->
  length rs = length (g_rows (s_lp s)) -> length cs = length (g_cols (s_lp s)) ->
  0 < ncols (s_lp s) + nrows (s_lp s) -> Forall (branches (ncols (s_lp s))) l ->
  exists s' xs, srun s (CStartStrongBranching :: l ++ [CEndStrongBranching]) = Ok (s', xs) /\
    s_lp s' = s_lp s /\ SpxGetLpParameters s' = SpxGetLpParameters s /\ SpxIsSolved s' = SpxIsSolved s /\
    freed s' = true /\ exists x, s_x s' = snd (x_set_basis E x rs cs).
Proof. intros E. exact spx_session. Qed.
Print Assumptions C73_session_partial.

Definition branching : list call := [CStrongBranch sb_unset 0 five_half 50; CStrongBranch sb_unset 1 five_half 50].
Example C73_case : Forall (branches 2) branching /\
  x_get_basis tx_bounds (s_x (safter (E := tx_bounds) (build ++ [CSolve true]))) =
    Some ([X_ON_LOWER; X_ON_LOWER; X_ON_LOWER; X_ON_LOWER], [X_BASIC; X_BASIC]) /\
  is_ok (srun (safter (E := tx_bounds) (build ++ [CSolve true])) (CStartStrongBranching :: branching ++ [CEndStrongBranching])) = true.
Proof.
  split; [|calcs]. constructor; [split; [discriminate|reflexivity]|]. constructor; [split; [discriminate|reflexivity]|constructor].
Qed.

(** On an LP without columns and rows the session cannot be ended. *)
Theorem C73_empty_aborts : forall E (s s1 : sstate E) x, ncols (s_lp s) + nrows (s_lp s) = 0 ->
  sstep s CStartStrongBranching = Ok (s1, x) -> sstep s1 CEndStrongBranching = Abort.
Proof. intros E. exact spx_end_empty. Qed.
Print Assumptions C73_empty_aborts.
Theorem C73_empty_refuted : exists E (s s1 : sstate E), never_throws E /\ reached s /\ freed s = true /\
  sstep s CStartStrongBranching = Ok (s1, ROk) /\ sstep s1 CEndStrongBranching = Abort.
Proof. exact s_empty_session. Qed.
Print Assumptions C73_empty_refuted.

(** If SoPlex refuses the saved basis with an exception, ending the session aborts exactly if the status
    is optimal then; otherwise the exception is lost and the session ends. *)
Theorem C73_throws : forall E (s : sstate E) rs cs, freed s = true -> x_get_basis E (s_x s) = Some (rs, cs) ->
  length rs = length (g_rows (s_lp s)) -> length cs = length (g_cols (s_lp s)) ->
  0 < ncols (s_lp s) + nrows (s_lp s) ->
  exists s1, SpxStartStrongBranching s = Ok s1 /\ s_x s1 = s_x s /\
  let threw := fst (x_set_basis E (s_x s) rs cs) in
  let x := snd (x_set_basis E (s_x s) rs cs) in
  (threw = true -> x_status E x = ST_OPTIMAL -> SpxEndStrongBranching s1 = Abort) /\
  (threw = false \/ x_status E x <> ST_OPTIMAL -> exists s2, SpxEndStrongBranching s1 = Ok s2 /\
     s_x s2 = x /\ s_lp s2 = s_lp s /\ freed s2 = true /\ SpxIsSolved s2 = SpxIsSolved s /\
     SpxGetLpParameters s2 = SpxGetLpParameters s).
Proof. intros E. exact spx_end_throws. Qed.
Print Assumptions C73_throws.
(** If there is no basis to save, starting aborts if the status is optimal; otherwise the session starts
    and ending it reads what was never written. *)
Theorem C73_no_basis : forall E (s : sstate E), freed s = true -> x_get_basis E (s_x s) = None ->
  0 < ncols (s_lp s) + nrows (s_lp s) ->
  (x_status E (s_x s) = ST_OPTIMAL -> SpxStartStrongBranching s = Abort) /\
  (x_status E (s_x s) <> ST_OPTIMAL -> exists s1, SpxStartStrongBranching s = Ok s1 /\ s_lp s1 = s_lp s /\
     s_x s1 = s_x s /\ SpxEndStrongBranching s1 = UB).
Proof. intros E. exact spx_start_none. Qed.
Print Assumptions C73_no_basis.
(** An engine that refuses every basis, and one without any; the LP solved or not. *)
Definition tx_strict (b : bool) : spx_engine :=
  mkSpxEngine tx (x_new tx1) (x_edit tx1) (x_optimize tx1) (x_status tx1) (x_basis tx1)
    (x_iterations tx1) (x_time tx1) (x_objective tx1) (x_col tx1) (x_row tx1)
    (if b then x_get_basis tx1 else fun _ => None) (fun x _ _ => (true, x))
    (x_clear_basis tx1) (x_order tx1) (x_binv_row tx1) (x_binv_times tx1) (x_dot tx1) (x_primal tx1) (x_dual tx1)
    (x_slacks tx1) (x_redcost tx1) (x_ray tx1) (x_farkas tx1) (x_has_ray tx1) (x_has_farkas tx1) (x_basis_ind tx1)
    (x_eps_zero tx1) (x_rules tx1).
Definition ended {E : spx_engine} (s : sstate E) : outcome unit :=
  match SpxStartStrongBranching s with
  | Ok s1 => match SpxEndStrongBranching s1 with Ok _ => Ok tt | Abort => Abort | _ => UB end
  | _ => UB
  end.
Example C73_throws_case : let solved b := safter (E := tx_strict b) (build ++ [CSolve true]) in
  let built b := safter (E := tx_strict b) build in
  freed (solved true) = true /\ x_status tx1 (s_x (solved true)) = ST_OPTIMAL /\ ended (solved true) = Abort /\
  ended (built true) = Ok tt /\ freed (built false) = true /\ ended (built false) = UB.
Proof. cbv zeta. calcs. Qed.

(** During a session every guarded call aborts... *)
Theorem C73_guarded : forall E (s : sstate E) c, freed s = false -> guarded c = true -> sstep s c = Abort.
Proof. intros E. exact spx_guarded. Qed.
Print Assumptions C73_guarded.
Example C73_guarded_case : freed (safter (E := tx1) ssession) = false /\ guarded (CSetColumnBounds 0 d0 d1) = true.
Proof. calcs. Qed.
(** ... but a row can be added, and then ending the session is undefined. *)
Theorem C73_add_row_undefined : forall E (s : sstate E) rs cs v lo hi n s1 x, saved s rs cs -> freed s = false ->
  clean_vector (ncols (s_lp s)) v -> stored_lp (s_lp s) ->
  sstep s (CAddRow v lo hi n) = Ok (s1, x) -> sstep s1 CEndStrongBranching = UB.
Proof. intros E. exact spx_add_row_session. Qed.
Print Assumptions C73_add_row_undefined.
Example C73_add_row_case :
  saved (safter (E := tx1) ssession) [X_ON_LOWER; X_ON_LOWER; X_ON_LOWER; X_ON_LOWER] [X_BASIC; X_BASIC] /\
  clean_vector 2 (vec [(0, 1)]) /\ is_ok (sstep (safter (E := tx1) ssession) (CAddRow (vec [(0, 1)]) d0 d1 "e")) = true.
Proof. split; [split; [calc|]; split; [calc|]; split; calc|]. split; [exact (clean_vec [(0, 1)] 2 eq_refl eq_refl eq_refl)|calc]. Qed.

(** *** C74 *)
(** False: 3.000001 is further than the default tolerance 1e-6 from 3, and yet the branches are
    x <= 2 and x >= 4. *)
Theorem C74_gap_refuted : exists E (s s' : sstate E) v r, sane_rules (x_rules E) /\ reached s /\
  let eps := feasibility_tolerance (SpxGetLpParameters s) in
  further_than eps v /\
  SpxSolveDownAndUpStrongBranch sb_unset s 0 v 50 = Ok (s', Some r) /\
  dceil (dsub (dsub v d1) eps) = dint 2 /\ dfloor (dsub (dadd v d1) eps) = dint 4.
Proof. exact s_branch_gap. Qed.
Print Assumptions C74_gap_refuted.

(** True with a margin: a value at least 2^-j from every integer, for a tolerance of at most half
    of that, is split off: every integer is in exactly one branch, the value in none.  The second
    part is about Glop's branches (of the scaled value). *)
Theorem C74_split_partial : forall j v eps, fractional_by j v -> tolerance_below j eps ->
  splits v (dceil (dsub (dsub v d1) eps)) (dfloor (dsub (dadd v d1) eps)) /\
  splits v (dceil (dsub (dsub v d1) eps)) (dfloor (dadd (dadd v d1) eps)).
Proof. exact branches_split. Qed.
Print Assumptions C74_split_partial.

(** 5.5 with the tolerance 1e-6 and j = 18. *)
Example C74_case : fractional_by 18 five_half /\ tolerance_below 18 d1em6.
Proof. exact five_half_fractional. Qed.

(** *** C54 *)
(** False: an empty path aborts. *)
Theorem C54_soplex_empty_refuted : exists E (s : sstate E), reached s /\
  forall written, sstep s (CWrite EmptyString written) = Abort.
Proof. exact s_write_empty. Qed.
Print Assumptions C54_soplex_empty_refuted.
Theorem C54_soplex_partial : forall E (s : sstate E) path written, path <> EmptyString ->
  sstep s (CWrite path written) = Ok (s, if written then RPath path else RErr).
Proof. intros E. exact spx_write. Qed.
Print Assumptions C54_soplex_partial.
Example C54_soplex_case : sreplies (E := tx1) [CWrite "a.lp" true; CWrite "a.lp" false] = [RPath "a.lp"; RErr].
Proof. calc. Qed.

(** *** C55 *)
(** False: after a rejected basis the next solve aborts. *)
Theorem C55_rejected_refuted : exists E p0 mx s0 l (s s' : sstate E) xs cs rs, spx_new p0 mx = Ok s0 /\
  never_throws E /\ srun s0 l = Ok (s, xs) /\ SpxSetBasis s cs rs = Ok (s', false) /\
  (exists s1, SpxSolveLp true s = Ok (s1, true)) /\ SpxSolveLp true s' = Abort.
Proof. exact s_rejected. Qed.
Print Assumptions C55_rejected_refuted.

(** Always on a non-empty LP: a rejected basis leaves the interface as in a strong branching
    session, so that every guarded call aborts. *)
Theorem C55_stuck : forall E (s : sstate E) cs rs s', SpxSetBasis s cs rs = Ok (s', false) ->
  0 < ncols (s_lp s) + nrows (s_lp s) ->
  s_lp s' = s_lp s /\ forall c, guarded c = true -> sstep s' c = Abort.
Proof. intros E. exact spx_stuck. Qed.
Print Assumptions C55_stuck.
(** A free row is always rejected, and ending the session it seems to be in is undefined. *)
Theorem C55_free_row : forall E (s : sstate E) cs rs, freed s = true -> In kFree rs ->
  length rs = length (g_rows (s_lp s)) ->
  exists s', SpxSetBasis s cs rs = Ok (s', false) /\ s_lp s' = s_lp s /\ s_x s' = s_x s /\ freed s' = false /\
    sstep s' CEndStrongBranching = UB.
Proof. intros E. exact spx_set_basis_free. Qed.
Print Assumptions C55_free_row.
Example C55_case : is_ok (srun (E := tx1) fresh rejected_basis) = true /\
  sreplies (E := tx1) rejected_basis = [ROk; ROk; ROk; RErr] /\ freed (safter (E := tx1) rejected_basis) = false.
Proof. calcs. Qed.

(** *** C56 *)
(** False: with the sparse representation a column entry is taken from the wrong position. *)
Theorem C56_column_refuted : exists E (s : sstate E) b v w, reached s /\ SpxIsOptimal s = Ok true /\
  inverse_of E (s_x s) (length (g_rows (s_lp s))) b /\
  SpxRowOfBInverted s 0 = Ok v /\ SpxColumnOfBInverted s 1 = Ok w /\
  deqb (value v 1) (dint 2) = true /\ deqb (value w 0) d0 = true.
Proof. exact s_inverse_wrong. Qed.
Print Assumptions C56_column_refuted.

(** Rows are right in either representation. *)
Theorem C56_row : forall E (s : sstate E) b r row, freed s = true ->
  inverse_of E (s_x s) (length (g_rows (s_lp s))) b -> at_ b r = Ok row ->
  exists v, SpxRowOfBInverted s r = Ok v /\ clean_vector (nrows (s_lp s)) v /\
    forall c x, at_ row c = Ok x -> value v c = drop0 (x : num_double).
Proof. intros E. exact spx_row_of_inverse. Qed.
Print Assumptions C56_row.

(** Columns are right if SoPlex answers densely, or lists the positions 0, 1, 2, ... of a row whose
    non-zeros all come first. *)
Theorem C56_column_partial : forall E (s : sstate E) b c, freed s = true ->
  inverse_of E (s_x s) (length (g_rows (s_lp s))) b ->
  listed_in_place E (s_x s) (length (g_rows (s_lp s))) -> 0 <= c < nrows (s_lp s) ->
  exists v, SpxColumnOfBInverted s c = Ok v /\ clean_vector (nrows (s_lp s)) v /\
    forall r row x, at_ b r = Ok row -> at_ row c = Ok x -> value v r = drop0 (x : num_double).
Proof. intros E. exact spx_column_of_inverse. Qed.
Print Assumptions C56_column_partial.

Example C56_case : freed (safter (E := tx_mixed) two_rows) = true /\
  inverse_of tx_mixed (s_x (safter (E := tx_mixed) two_rows)) 2 inverse2 /\
  listed_in_place tx_mixed (s_x (safter (E := tx_mixed) two_rows)) 2 /\
  nrows (s_lp (safter (E := tx_mixed) two_rows)) = 2 /\
  inverse_of tx_sparse (s_x (safter (E := tx_sparse) two_rows)) 2 inverse2 /\
  inverse_of tx1 (s_x (safter (E := tx1) two_rows)) 2 inverse2.
Proof.
  split; [calc|]. split; [apply inverse2_mixed; reflexivity|]. split; [apply inverse2_in_place; reflexivity|].
  split; [calc|]. split; [apply inverse2_sparse; reflexivity|]. apply inverse2_dense; reflexivity.
Qed.

(** *** C57 *)
(** False: a fixed column or row reads back as being at its lower bound. *)
Theorem C57_soplex_fixed_refuted : exists E (s s' : sstate E), s_reports_basis E /\ reached s /\
  SpxSetBasis s [kFixed; kFree] [kBasic; kBasic; kBasic; kFixed] = Ok (s', true) /\
  SpxGetBasisStatusForColumns s' = Ok [kAtLowerBound; kFree] /\
  SpxGetBasisStatusForRows s' = Ok [kBasic; kBasic; kBasic; kAtLowerBound].
Proof. exact s_fixed_lost. Qed.
Print Assumptions C57_soplex_fixed_refuted.
(** Unless the LP is optimal the getters abort. *)
Theorem C57_soplex_unsolved : forall E (s : sstate E), x_status E (s_x s) <> ST_OPTIMAL ->
  SpxGetBasisStatusForColumns s = Abort /\ SpxGetBasisStatusForRows s = Abort.
Proof. intros E. exact spx_basis_unsolved. Qed.
Print Assumptions C57_soplex_unsolved.
Example C57_soplex_unsolved_case : x_status tx1 (s_x (safter (E := tx1) build)) = ST_UNKNOWN.
Proof. calc. Qed.
(** Nor is there an answer if SoPlex has no status for some column or row. *)
Theorem C57_soplex_undefined : forall E (s : sstate E),
  ((exists k, 0 <= k < Z.of_nat (length (g_cols (s_lp s))) /\ x_col E (s_x s) k = X_UNDEFINED) ->
     SpxGetBasisStatusForColumns s = Abort) /\
  ((exists k, 0 <= k < Z.of_nat (length (g_rows (s_lp s))) /\ x_row E (s_x s) k = X_UNDEFINED) ->
     (forall k, 0 <= k < Z.of_nat (length (g_rows (s_lp s))) -> x_row E (s_x s) k <> X_ZERO) ->
     SpxGetBasisStatusForRows s = Abort).
Proof. intros E s. split; [exact (spx_cols_undefined s)|exact (spx_rows_undefined s)]. Qed.
Print Assumptions C57_soplex_undefined.
Definition nothing_known : sstate tx1 :=
  let s := safter (E := tx1) build in
  mkS (E := tx1) (s_lp s) (mkTX ST_OPTIMAL d0 [X_BASIC; X_BASIC; X_BASIC] [X_ON_LOWER]) (s_params s) false false true [] [].
Example C57_soplex_undefined_case : x_col tx1 (s_x nothing_known) 1 = X_UNDEFINED /\
  length (g_cols (s_lp nothing_known)) = 2%nat /\ x_row tx1 (s_x nothing_known) 3 = X_UNDEFINED /\
  length (g_rows (s_lp nothing_known)) = 4%nat /\ freed nothing_known = true /\ SpxIsOptimal nothing_known = Ok true.
Proof. calcs. Qed.
(** All other statuses are read back as set, if SoPlex reports what it was given as optimal. *)
Theorem C57_soplex_partial : forall E (s : sstate E) cs rs, s_reports_basis E -> freed s = true -> ~ In kFree rs ->
  length rs = length (g_rows (s_lp s)) -> length cs = length (g_cols (s_lp s)) ->
  exists s', SpxSetBasis s cs rs = Ok (s', true) /\
    SpxGetBasisStatusForColumns s' = Ok (map fixed_lost cs) /\
    SpxGetBasisStatusForRows s' = Ok (map fixed_lost rs) /\ s_lp s' = s_lp s.
Proof. intros E. exact spx_basis_back. Qed.
Print Assumptions C57_soplex_partial.
Example C57_soplex_case : s_reports_basis tx1 /\ freed (safter (E := tx1) build) = true /\
  SpxGetBasisStatusForRows (sbased (safter (E := tx1) build) [kFree; kAtUpperBound] [kBasic; kAtLowerBound; kAtUpperBound; kBasic]) =
  Ok [kBasic; kAtLowerBound; kAtUpperBound; kBasic].
Proof. split; [exact (toyx_basis _ _ _)|]. calcs. Qed.

(** *** C79 *)
(** A solve runs the algorithm asked for, once, on the LP as it is and with the parameters that are
    read back afterwards; the answer and the number of iterations are those of this run, and the
    statuses that count as a success are the ten listed in [spx_success]. *)
Theorem C79_soplex_run : forall E d (s s' : sstate E) ok, sane_rules (x_rules E) -> reached s ->
  SpxSolveLp d s = Ok (s', ok) ->
  exists threw x, x_optimize E (s_x s) (s_params s') d (s_lp s) = (threw, x) /\
    s_x s' = x /\ s_lp s' = s_lp s /\ SpxIsSolved s' = true /\
    (ok = true <-> spx_success (x_status E x)) /\ SpxGetNumIterations s' = x_iterations E x /\
    (threw = true -> x_status E x <> ST_OPTIMAL).
Proof. intros E d s s' ok. exact (spx_solve_run d s s' ok). Qed.
Print Assumptions C79_soplex_run.
(** An infeasible LP is a success, an error is not. *)
Example C79_soplex_case : sane_rules (x_rules tx1) /\ reached (safter (E := tx1) build) /\
  is_ok (SpxSolveLp true (safter (E := tx1) build)) = true /\
  sstep_reply (E := toyx spx_bounds (fun l => l) binv_dense) (safter (build ++ [CSetColumnBounds 0 d0 d1])) (CSolve false) = ROk /\
  st_is ST_INFEASIBLE (ssolved (E := toyx spx_bounds (fun l => l) binv_dense) false (safter (build ++ [CSetColumnBounds 0 d0 d1]))) = true /\
  sstep_reply (E := toyx spx_broken (fun l => l) binv_dense) (safter build) (CSolve true) = RErr.
Proof.
  split; [exact (toyx_rules _ _ _)|]. split; [apply sreached; calc|]. calcs.
Qed.
(** False: a solve that reports success ended without an exception. *)
Theorem C79_soplex_throw_refuted : exists E (s s' : sstate E) d, sane_rules (x_rules E) /\ reached s /\
  fst (x_optimize E (s_x s) (s_params s') d (s_lp s)) = true /\ SpxSolveLp d s = Ok (s', true).
Proof. exact s_throw_ok. Qed.
Print Assumptions C79_soplex_throw_refuted.

(** *** C80 *)
(** Reading a file: a missing one is reported and changes nothing; otherwise the LP is that of the
    file.  Parameters stay.  (So does the solved flag: see C50.) *)
Theorem C80_soplex_read : forall E (s : sstate E) f, freed s = true ->
  exists s', sstep s (CRead f) = Ok (s', match f with Some _ => ROk | None => RErr end) /\
    SpxGetLpParameters s' = SpxGetLpParameters s /\ SpxIsSolved s' = SpxIsSolved s /\ freed s' = true /\
    (f = None -> s' = s) /\ (forall p, f = Some p -> s_lp s' = p).
Proof. intros E. exact spx_reading. Qed.
Print Assumptions C80_soplex_read.
Example C80_soplex_case : freed (safter (E := tx1) []) = true /\
  SpxGetLowerBound (s_lp (safter (E := tx1) [CRead (Some (s_lp (safter (E := tx1) build)))])) 1 =
    SpxGetLowerBound (s_lp (safter (E := tx1) build)) 1 /\
  is_ok (SpxGetLowerBound (s_lp (safter (E := tx1) build)) 1) = true.
Proof. calcs. Qed.
(** While strong branching is going on, reading aborts. *)
Theorem C80_soplex_blocked : forall E (s : sstate E) f, freed s = false -> sstep s (CRead f) = Abort.
Proof. intros E. exact spx_reading_aborts. Qed.
Print Assumptions C80_soplex_blocked.
Example C80_soplex_blocked_case : freed (safter (E := tx1) (build ++ [CStartStrongBranching])) = false.
Proof. calc. Qed.
