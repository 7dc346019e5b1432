(** Properties C48-C54, C57, C63, C64, C66-C68, C79, C80: the Glop LP interface. *)
From Coq Require Import String List ZArith Bool.
From Verif Require Import Outcome Num Double SparseVector VectorSpec Problem MipData ProblemSpec PropsProblem
  GlopLp LpParams GlopIface GlopSpec GlopProofs GlopMore GlopRun GlopCases FreshParams.
Import ListNotations.
Open Scope Z_scope.

(** *** C48 *)
(** After any history of legal calls the getters read what the plain table holds. *)
Theorem C48_reads : forall E b l (s : gstate E) xs, legal_run t_new l ->
  grun (glop_new b) l = Ok (s, xs) -> reads_table (lp s) (table_run t_new l).
Proof. intros E b l s xs H. exact (history_reads b l s xs H). Qed.
Print Assumptions C48_reads.

(** Such a history runs to its end: no CHECK fails and nothing is read out of range. *)
Theorem C48_defined : forall E b l, engine_laws E -> legal_run t_new l -> safe_run t_new l ->
  exists (s : gstate E) xs, grun (glop_new b) l = Ok (s, xs) /\ length xs = length l.
Proof.
  intros E b l L H1 H2. destruct (history_defined L b l H1 H2) as (s & xs & H). exists s, xs. split; auto.
  exact (grun_replies l _ s xs H).
Qed.
Print Assumptions C48_defined.

(** Four rows of two columns, the first and third row deleted, bounds changed, solved. *)
Example C48_case : engine_laws toy1 /\ legal_run t_new edits /\ safe_run t_new edits /\
  (do (s, xs) <- grun (E := toy1) (glop_new false) edits ; Ok xs) =
    Ok [ROk; ROk; ROk; RMap [-1; 0; -1; 1]; ROk; ROk] /\
  map t_rname (t_rows table_edits) = ["b"; "d"]%string /\
  map t_coefs (t_cols table_edits) = [[d0; d0]; [dint 2; dint 5]] /\
  GetMatrixCoefficient (lp (after (E := toy1) edits)) 1 1 = Ok (dint 5) /\
  GetLowerBound (lp (after (E := toy1) edits)) 1 = Ok d1 /\
  GetLowerBound (lp (after (E := toy1) edits)) 2 = Abort.
Proof.
  split; [exact (toy_laws _ _ _ _)|]. split.
  { apply legal_build. split; [reflexivity|]. split; [split; [discriminate|reflexivity]|]. split; exact I. }
  split; [repeat split|]. calcs.
Qed.

(** *** C49 *)
(** DeleteRowSet succeeds; deleted rows map to -1, kept rows strictly increasing onto 0..n-1, and
    everything readable about a kept row is readable at its new position. *)
Theorem C49_delete_rows : forall E (s : gstate E) mask, stored_lp (lp s) ->
  length mask = length (g_rows (lp s)) ->
  exists s' m, gstep s (CDeleteRowSet mask) = Ok (s', RMap m) /\
    length m = length mask /\ ncols (lp s') = ncols (lp s) /\ nrows (lp s') = rows_kept mask /\
    (forall r, at_ mask r = Ok true -> at_ m r = Ok (-1)) /\
    (forall r, at_ mask r = Ok false ->
       exists q, at_ m r = Ok q /\ q = kept_before mask r /\ 0 <= q < nrows (lp s') /\
       GetLeftHandSide (lp s') q = GetLeftHandSide (lp s) r /\
       GetRightHandSide (lp s') q = GetRightHandSide (lp s) r /\
       forall c, GetMatrixCoefficient (lp s') c q = GetMatrixCoefficient (lp s) c r) /\
    (forall r r' q q', r < r' -> at_ mask r = Ok false -> at_ mask r' = Ok false ->
       at_ m r = Ok q -> at_ m r' = Ok q' -> q < q') /\
    (forall q, 0 <= q < nrows (lp s') -> exists r, at_ m r = Ok q).
Proof. intros E. exact delete_row_set. Qed.
Print Assumptions C49_delete_rows.

Example C49_case : stored_lp (lp (after (E := toy1) build)) /\
  length (g_rows (lp (after (E := toy1) build))) = 4%nat /\
  (do (s, x) <- gstep (after (E := toy1) build) (CDeleteRowSet [false; true; true; false]) ; Ok x) =
  Ok (RMap [0; -1; -1; 1]).
Proof.
  split; [|split; calc].
  change (lp (after (E := toy1) build)) with lp4.
  exact (stored_check lp4 eq_refl).
Qed.

(** *** C50 *)
(** False: an LP read from a file after a solve counts as solved. *)
Theorem C50_solved_refuted : exists E b l (s : gstate E) xs, engine_laws E /\ legal_run t_new l /\
  grun (glop_new b) l = Ok (s, xs) /\ IsSolved s = true /\ ~ solved_since l xs.
Proof. exact read_after_solve. Qed.
Print Assumptions C50_solved_refuted.

(** Without reading files: IsSolved is true only if an LP solve succeeded after the last
    modification, and whenever that was so and no later solve failed. *)
Theorem C50_solved_partial : forall E b l (s : gstate E) xs, grun (glop_new b) l = Ok (s, xs) ->
  Forall (fun c => reads_file c = false) l ->
  (IsSolved s = true -> solved_since l xs) /\ (solved_cleanly l xs -> IsSolved s = true).
Proof. intros E. exact solved_partial. Qed.
Print Assumptions C50_solved_partial.

Example C50_case : Forall (fun c => reads_file c = false) edits /\
  IsSolved (after (E := toy1) edits) = true /\
  IsSolved (after (E := toy1) (edits ++ [CSetObjectiveCoefficient 0 d1])) = false.
Proof. split; [repeat constructor|]. split; calc. Qed.

(** *** C51 *)
(** Exactly the supported parameters are accepted; rejected ones change nothing. *)
Theorem C51_glop_accepts : forall E (s : gstate E) p,
  (snd (SetLpParameters s p) = true <-> glop_supports p) /\
  (forall s', SetLpParameters s p = (s', false) -> s' = s) /\
  (forall s' b, SetLpParameters s p = (s', b) -> lp s' = lp s /\ scaled_lp s' = scaled_lp s /\
     IsSolved s' = IsSolved s /\ TimeLimitIsExceeded s' = TimeLimitIsExceeded s /\
     GetNumIterations s' = GetNumIterations s).
Proof. intros E s p. exact (conj (accepts s p) (conj (rejected s p) (set_keeps s p))). Qed.
Print Assumptions C51_glop_accepts.

(** Timing with an infinite time limit always reads back as no timing. *)
Theorem C51_glop_timing_lost : forall E (s s' : gstate E) p, engine_laws E ->
  SetLpParameters s p = (s', true) -> dltb (time_limit p) dinf = false ->
  timing_mode (GetLpParameters s') = TIMING_OFF.
Proof. intros E s s' p L H T. rewrite (get_set_inf L s p s' H T). reflexivity. Qed.
Print Assumptions C51_glop_timing_lost.

Definition wallclock : lp_params :=
  mkParams LP_GLOP false SCALING_OFF true PRICING_DEVEX dm1 d1 dm1 0 dminf dinf TIMING_WALLCLOCK
    ten 0 0 7 false.
Definition forever : lp_params :=
  mkParams LP_GLOP false SCALING_OFF true PRICING_DEVEX dm1 d1 dm1 0 dminf dinf TIMING_WALLCLOCK
    dinf 0 0 7 false.
(** So the full statement is false. *)
Theorem C51_glop_timing_refuted : exists E (s s' : gstate E) p, engine_laws E /\
  SetLpParameters s p = (s', true) /\ timing_mode p = TIMING_WALLCLOCK /\
  timing_mode (GetLpParameters s') = TIMING_OFF.
Proof.
  exists toy1, (glop_new false), (fst (SetLpParameters (glop_new false) forever)), forever.
  split; [exact (toy_laws _ _ _ _)|]. split; [calc|]. split; calc.
Qed.
Print Assumptions C51_glop_timing_refuted.

(** The timing mode lives in a flag of the process: another interface changes it. *)
Theorem C51_glop_flag_refuted : exists E (s s' : gstate E) p, engine_laws E /\ glop_supports p /\
  has_time_limit p /\ SetLpParameters s p = (s', true) /\
  exists s'', gstep s' (CFlag false) = Ok (s'', ROk) /\ timing_mode (GetLpParameters s'') = TIMING_CPU /\
  timing_mode p = TIMING_WALLCLOCK.
Proof.
  exists toy1, (glop_new false), (fst (SetLpParameters (glop_new false) wallclock)), wallclock.
  split; [exact (toy_laws _ _ _ _)|]. split; [apply supported_iff; calc|]. split; [right; calc|].
  split; [calc|].
  exists (stepped (fst (SetLpParameters (glop_new (E := toy1) false) wallclock)) (CFlag false)). calcs.
Qed.
Print Assumptions C51_glop_flag_refuted.

(** With a time limit (or timing off) and nobody else touching the flag: what is read back is what
    was set, defaults resolved; setting that again is accepted and reads the same. *)
Theorem C51_glop_partial : forall E (s s' : gstate E) p, engine_laws E ->
  SetLpParameters s p = (s', true) ->
  (has_time_limit p -> GetLpParameters s' = glop_resolved p) /\
  exists s'', SetLpParameters s' (GetLpParameters s') = (s'', true) /\
    GetLpParameters s'' = GetLpParameters s'.
Proof. intros E s s' p L H. exact (conj (get_set L s p s' H) (set_get_stable L s p s' H)). Qed.
Print Assumptions C51_glop_partial.

Example C51_glop_case : glop_supports wallclock /\ has_time_limit wallclock /\
  GetLpParameters (fst (SetLpParameters (glop_new (E := toy1) false) wallclock)) =
  mkParams LP_GLOP false SCALING_OFF true PRICING_DEVEX d1em8 d1 dm1 0 dminf dinf TIMING_WALLCLOCK
    ten 0 1 7 false.
Proof. split; [apply supported_iff; calc|]. split; [right; calc|calc]. Qed.

(** What a new interface reads back: the documented defaults, resolved. *)
Theorem C51_glop_new : forall E flag, engine_laws E -> GetLpParameters (glop_new (E := E) flag) =
  mkParams LP_GLOP false SCALING_EQUILIBRATION true PRICING_STEEPEST_EDGE d1em8 d1em8 dm1 0 dminf dinf
    TIMING_OFF dinf 0 1 0 false.
Proof. exact glop_fresh. Qed.
Print Assumptions C51_glop_new.
Example C51_glop_new_case : engine_laws toy1 /\
  feasibility_tolerance (GetLpParameters (glop_new (E := toy1) true)) = d1em8.
Proof. split; [exact (toy_laws _ _ _ _)|calc]. Qed.

(** *** C52 *)
Theorem C52_status : forall E (s : gstate E),
  (IsOptimal s = true -> IsPrimalFeasible s = true /\ IsDualFeasible s = true /\
     IsPrimalInfeasible s = false /\ IsDualInfeasible s = false /\ IsPrimalUnbounded s = false /\
     IsDualUnbounded s = false /\ ExistsPrimalRay s = false /\ ExistsDualRay s = false) /\
  (IsPrimalFeasible s = true -> IsDualFeasible s = true -> IsOptimal s = true) /\
  (IsPrimalFeasible s = true -> IsPrimalInfeasible s = false) /\
  (IsDualFeasible s = true -> IsDualInfeasible s = false) /\
  (ExistsPrimalRay s = HasPrimalRay s /\ ExistsPrimalRay s = IsPrimalUnbounded s) /\
  (ExistsDualRay s = HasDualRay s /\ ExistsDualRay s = IsDualUnbounded s) /\
  (ExistsPrimalRay s = true -> IsDualInfeasible s = true /\ IsPrimalInfeasible s = false) /\
  (ExistsDualRay s = true -> IsPrimalInfeasible s = true /\ IsDualInfeasible s = false).
Proof. exact status_consistent. Qed.
Print Assumptions C52_status.
(** The predicates say what Glop's last status says. *)
Theorem C52_reports : forall E (s : gstate E), let st := w_status E (solver s) in
  (IsOptimal s = true <-> st = OPTIMAL) /\
  (IsPrimalUnbounded s = true <-> st = PRIMAL_UNBOUNDED) /\
  (IsDualUnbounded s = true <-> st = DUAL_UNBOUNDED) /\
  (IsPrimalInfeasible s = true <-> In st [PRIMAL_INFEASIBLE; DUAL_UNBOUNDED]) /\
  (IsDualInfeasible s = true <-> In st [DUAL_INFEASIBLE; PRIMAL_UNBOUNDED]) /\
  (IsPrimalFeasible s = true <-> In st [OPTIMAL; PRIMAL_FEASIBLE]) /\
  (IsDualFeasible s = true <-> In st [OPTIMAL; DUAL_FEASIBLE]) /\
  (In st [ABNORMAL; INVALID_PROBLEM; IMPRECISE] -> IsStable s = false) /\
  (In st [INIT; INFEASIBLE_OR_UNBOUNDED] -> IsStable s = true).
Proof. exact status_reports. Qed.
Print Assumptions C52_reports.

Example C52_case : IsOptimal (after (E := toy1) edits) = true.
Proof. calc. Qed.

(** The iteration limit: 0 stands for none, any other value is compared with the iterations
    reported. *)
Theorem C52_limits : forall E b l (s : gstate E) xs, engine_laws E -> grun (glop_new b) l = Ok (s, xs) ->
  IterationLimitIsExceeded s = true <-> 0 < iteration_limit (GetLpParameters s) <= GetNumIterations s.
Proof. intros E b l s xs L. exact (iteration_limit_exceeded L b l s xs). Qed.
Print Assumptions C52_limits.

(** Optimal and infeasible answers are stable; a feasible one that is not optimal is stable only if
    some limit explains it. *)
Theorem C52_stable : forall E (s : gstate E),
  (IsOptimal s = true -> IsStable s = true) /\
  (IsPrimalFeasible s = true \/ IsDualFeasible s = true -> IsOptimal s = false ->
     IsStable s = ObjectiveLimitIsExceeded s || IterationLimitIsExceeded s || TimeLimitIsExceeded s) /\
  (IsPrimalInfeasible s = true \/ IsDualInfeasible s = true -> IsStable s = true).
Proof. intros E. exact stability. Qed.
Print Assumptions C52_stable.

Definition one_step : lp_params :=
  mkParams LP_GLOP false SCALING_OFF true PRICING_DEVEX dm1 d1 dm1 0 dminf dinf TIMING_OFF dinf 1 0 7 false.
(** Without a limit, and with the limit 1: Glop stops with a feasible point after one iteration. *)
Example C52_limits_case :
  IterationLimitIsExceeded (after (E := stopped) edits) = false /\
  IsStable (after (E := stopped) edits) = false /\
  IterationLimitIsExceeded (after (E := stopped) (edits ++ [CSetLpParameters one_step; CSolve true])) = true /\
  IsPrimalFeasible (after (E := stopped) (edits ++ [CSetLpParameters one_step; CSolve true])) = true /\
  IsStable (after (E := stopped) (edits ++ [CSetLpParameters one_step; CSolve true])) = true.
Proof. calcs. Qed.

(** *** C53 *)
(** False: the result is not initialised, so as soon as a branch is solved the program has
    undefined behaviour. *)
Theorem C53_uninitialised_always_ub : forall E (s : gstate E) c x g,
  at_ (g_cols (scaled_lp s)) c = Ok g -> (forall w t p, fst (fst (w_solve E w t p)) = true) ->
  let y := dmul x (sc_factor E (scaler s) c) in
  let eps := feasibility_tolerance (GetLpParameters s) in
  dleb (dsub (g_lb g) half) (dceil (dsub (dsub y d1) eps)) = true \/
  dleb (dfloor (dadd (dadd y d1) eps)) (dadd (g_ub g) half) = true ->
  SolveDownAndUpStrongBranch sb_uninitialised s c x = UB.
Proof. intros E. exact uninitialised_ub. Qed.
Print Assumptions C53_uninitialised_always_ub.

Theorem C53_uninitialised_refuted : exists E (s : gstate E) xs, engine_laws E /\
  grun (glop_new false) edits = Ok (s, xs) /\ IsSolved s = true /\ IsOptimal s = true /\
  SolveDownAndUpStrongBranch sb_uninitialised s 0 five_half = UB.
Proof. exact branch_uninitialised. Qed.
Print Assumptions C53_uninitialised_refuted.

(** False: before the first solve there is no scaled LP to branch on. *)
Theorem C53_unsolved_refuted : exists E (s : gstate E) r0 xs, engine_laws E /\
  grun (glop_new false) build = Ok (s, xs) /\ sb_iterations r0 = Some 0 /\ ncols (lp s) = 2 /\
  SolveDownAndUpStrongBranch r0 s 0 five_half = UB.
Proof. exact branch_unsolved. Qed.
Print Assumptions C53_unsolved_refuted.

(** False: if the up branch fails, its flag is not written and the down branch's proven bound is
    declared invalid. *)
Theorem C53_flags_refuted : exists E (s s' : gstate E) r0 r, engine_laws E /\
  sb_iterations r0 = Some 0 /\ up_valid r0 = Some true /\
  SolveDownAndUpStrongBranch r0 s 0 five_half = Ok (s', r) /\
  down_valid r = Some false /\ dual_bound_down r = Some d1 /\
  up_valid r = Some true /\
  (forall w t p t' w' lo hi, rebounded (scaled_lp s) 0 lo hi p -> dltb d0 lo = true ->
     w_solve E w t p = (true, t', w') -> False) /\
  exists g, at_ (g_cols (scaled_lp s)) 0 = Ok g /\ dleb (dint 6) (dadd (g_ub g) half) = true.
Proof. exact branch_flags. Qed.
Print Assumptions C53_flags_refuted.

(** False: the branches are rounded after scaling.  With a factor of 1/4, branching on 5.5 bounds
    the column by 4 from above: the integer 5 is in neither branch, or in the wrong one. *)
Theorem C53_rounding_refuted : exists E (s s' : gstate E) r0 r, engine_laws E /\
  IsSolved s = true /\ sc_factor E (scaler s) 0 = ddiv d1 (dint 4) /\
  (forall w t p t' w', w_solve E w t p = (true, t', w') ->
     w_objective E w' = match g_cols p with c :: _ => g_ub c | [] => d0 end) /\
  SolveDownAndUpStrongBranch r0 s 0 five_half = Ok (s', r) /\
  down_valid r = Some true /\ dual_bound_down r = Some d1 /\
  sc_unscale E (scaler s) 0 d1 = dint 4 /\ dltb (dint 5) five_half = true.
Proof. exact branch_rounding. Qed.
Print Assumptions C53_rounding_refuted.

(** If it returns (for any initial contents of the result), everything readable about the LP is as
    before, and the flags are set only for a branch that is empty or whose LP was solved with that
    bound proven -- or, for the up flag, if it was set from the start. *)
Theorem C53_branch_partial : forall E r0 (s s' : gstate E) c x r, engine_laws E ->
  SolveDownAndUpStrongBranch r0 s c x = Ok (s', r) ->
  lp s' = lp s /\ scaled_lp s' = scaled_lp s /\ IsSolved s' = IsSolved s /\
  GetLpParameters s' = GetLpParameters s /\ TimeLimitIsExceeded s' = TimeLimitIsExceeded s /\
  GetNumIterations s' = GetNumIterations s /\
  exists g, at_ (g_cols (scaled_lp s)) c = Ok g /\
  let y := dmul x (sc_factor E (scaler s) c) in
  let eps := feasibility_tolerance (GetLpParameters s) in
  let down := dceil (dsub (dsub y d1) eps) in
  let up := dfloor (dadd (dadd y d1) eps) in
  (down_valid r = Some true ->
     dleb (dsub (g_lb g) half) down = false \/
     exists q, rebounded (scaled_lp s) c (g_lb g) down q /\ proves_bound E q (dual_bound_down r)) /\
  (up_valid r = Some true ->
     dleb up (dadd (g_ub g) half) = false \/
     (exists q, rebounded (scaled_lp s) c up (g_ub g) q /\ proves_bound E q (dual_bound_up r)) \/
     up_valid r0 = Some true).
Proof. intros E r0 s s' c x r L. exact (strong_branch L r0 s c x s' r). Qed.
Print Assumptions C53_branch_partial.

(** For an empty branch the bound is the objective limit on the side that cuts off. *)
Theorem C53_empty : forall E r0 (s s' : gstate E) c x r g,
  SolveDownAndUpStrongBranch r0 s c x = Ok (s', r) -> at_ (g_cols (scaled_lp s)) c = Ok g ->
  let y := dmul x (sc_factor E (scaler s) c) in
  let eps := feasibility_tolerance (GetLpParameters s) in
  let cutoff := if g_max (lp s) then objective_lower_limit (GetLpParameters s)
                else objective_upper_limit (GetLpParameters s) in
  (dleb (dsub (g_lb g) half) (dceil (dsub (dsub y d1) eps)) = false ->
     dual_bound_down r = Some cutoff) /\
  (dleb (dfloor (dadd (dadd y d1) eps)) (dadd (g_ub g) half) = false ->
     up_valid r = Some true /\ dual_bound_up r = Some cutoff).
Proof. intros E r0 s s' c x r g. exact (empty_branches r0 s c x s' r g). Qed.
Print Assumptions C53_empty.

(** The iterations of the branches that were solved are added to what the result held before. *)
Theorem C53_iterations : forall E r0 (s s' : gstate E) c x r g k,
  SolveDownAndUpStrongBranch r0 s c x = Ok (s', r) ->
  at_ (g_cols (scaled_lp s)) c = Ok g -> sb_iterations r0 = Some k ->
  let y := dmul x (sc_factor E (scaler s) c) in
  let eps := feasibility_tolerance (GetLpParameters s) in
  let down := dceil (dsub (dsub y d1) eps) in
  let up := dfloor (dadd (dadd y d1) eps) in
  exists n1 n2, sb_iterations r = Some (k + n1 + n2) /\
  (if dleb (dsub (g_lb g) half) down
   then exists q, rebounded (scaled_lp s) c (g_lb g) down q /\ counted E q n1 else n1 = 0) /\
  (if dleb up (dadd (g_ub g) half)
   then exists q, rebounded (scaled_lp s) c up (g_ub g) q /\ counted E q n2 else n2 = 0).
Proof. intros E r0 s s' c x r g k. exact (branch_iterations r0 s c x s' r g k). Qed.
Print Assumptions C53_iterations.

(** If the LP solver fails on the branches, the call returns (even with an uninitialised result) with
    the bound 0.0, marked as not valid -- for both branches in the flag of the down branch. *)
Theorem C53_failed : forall E r0 (s : gstate E) c x g, at_ (g_cols (scaled_lp s)) c = Ok g ->
  (forall w t p, fst (fst (w_solve E w t p)) = false) ->
  let y := dmul x (sc_factor E (scaler s) c) in
  let eps := feasibility_tolerance (GetLpParameters s) in
  exists s' r, SolveDownAndUpStrongBranch r0 s c x = Ok (s', r) /\ sb_iterations r = sb_iterations r0 /\
  (dleb (dsub (g_lb g) half) (dceil (dsub (dsub y d1) eps)) = true ->
     dual_bound_down r = Some d0 /\ down_valid r = Some false) /\
  (dleb (dfloor (dadd (dadd y d1) eps)) (dadd (g_ub g) half) = true ->
     dual_bound_up r = Some d0 /\ down_valid r = Some false /\ up_valid r = up_valid r0).
Proof. intros E. exact failed_branches. Qed.
Print Assumptions C53_failed.
Definition broken : engine := toy (fun _ _ => (false, ABNORMAL, d0)) 2 d1 true.
Example C53_failed_case : (forall w t p, fst (fst (w_solve broken w t p)) = false) /\
  dleb (dsub d0 half) (dceil (dsub (dsub (dmul five_half d1) d1) (feasibility_tolerance (GetLpParameters (after (E := broken) edits))))) = true /\
  at_ (g_cols (scaled_lp (after (E := broken) edits))) 0 = Ok (mkGCol d0 ten d1 "x" []) /\
  snd (branched sb_uninitialised (after (E := broken) edits) five_half) = mkSB (Some d0) (Some d0) (Some false) None None.
Proof. split; [reflexivity|]. split; [calc|]. split; calc. Qed.

(** The value -11/2 lies below the bounds 0 and 10. *)
Example C53_empty_case : exists s' r,
  SolveDownAndUpStrongBranch sb_start (after (E := toy1) edits) 0 (dopp five_half) = Ok (s', r) /\
  dual_bound_down r = Some dinf /\ down_valid r = Some true.
Proof. exact branch_empty. Qed.

Example C53_case : exists s' r,
  SolveDownAndUpStrongBranch sb_start (after (E := toy1) edits) 0 five_half =
  Ok (s', r) /\ r = mkSB (Some d1) (Some d1) (Some true) (Some true) (Some 2).
Proof. exact branch_both. Qed.

(** *** C54 *)
(** False: success and failure of writing are exchanged. *)
Theorem C54_glop_refuted : exists E (s : gstate E) path,
  gstep s (CWrite path true) = Ok (s, RErr) /\ gstep s (CWrite path false) = Ok (s, RPath path).
Proof. exists toy1, (glop_new false), "lp.proto"%string. split; reflexivity. Qed.
Print Assumptions C54_glop_refuted.

(** *** C57 *)
(** A fixed column or row never reads back as fixed. *)
Theorem C57_glop_never_fixed : forall E (s s' : gstate E) cs rs, In kFixed cs ->
  SetBasisStatusForColumnsAndRows s cs rs = Ok s' ->
  GetBasisStatusForColumns s' <> cs /\ ~ In kFixed (GetBasisStatusForRows s').
Proof.
  intros E s s' cs rs H _. split.
  - intros <-. exact (proj1 (never_fixed s') H).
  - exact (proj2 (never_fixed s')).
Qed.
Print Assumptions C57_glop_never_fixed.

(** So the full statement is false. *)
Theorem C57_glop_fixed_refuted : exists E (s s' : gstate E), reports_basis E (ncols (lp s)) /\
  SetBasisStatusForColumnsAndRows s [kFixed; kBasic] [kBasic; kBasic; kBasic; kFixed] = Ok s' /\
  GetBasisStatusForColumns s' = [kAtUpperBound; kBasic] /\
  GetBasisStatusForRows s' = [kBasic; kBasic; kBasic; kAtUpperBound].
Proof.
  exists toy1, (after build), (based (after build) [kFixed; kBasic] [kBasic; kBasic; kBasic; kFixed]).
  split; [exact (toy_basis _ 2 _ _)|]. calcs.
Qed.
Print Assumptions C57_glop_fixed_refuted.

(** Every other status vector of the right size is read back as it was set. *)
Theorem C57_glop_partial : forall E (s : gstate E) cs rs, reports_basis E (ncols (lp s)) ->
  length cs = length (g_cols (lp s)) -> length rs = length (g_rows (lp s)) ->
  ~ In kFixed cs -> ~ In kFixed rs ->
  exists s', SetBasisStatusForColumnsAndRows s cs rs = Ok s' /\
    GetBasisStatusForColumns s' = cs /\ GetBasisStatusForRows s' = rs /\ lp s' = lp s /\
    IsSolved s' = IsSolved s.
Proof. intros E. exact basis_round_trip. Qed.
Print Assumptions C57_glop_partial.

Example C57_glop_case : reports_basis toy1 (ncols (lp (after (E := toy1) build))) /\
  exists s', SetBasisStatusForColumnsAndRows (after (E := toy1) build) [kFree; kBasic]
    [kBasic; kAtLowerBound; kAtUpperBound; kBasic] = Ok s' /\
  GetBasisStatusForRows s' = [kBasic; kAtLowerBound; kAtUpperBound; kBasic].
Proof.
  split; [exact (toy_basis _ 2 _ _)|].
  exists (based (after build) [kFree; kBasic] [kBasic; kAtLowerBound; kAtUpperBound; kBasic]). split; calc.
Qed.

(** *** C63 *)
(** False: the basis is shifted although it belongs to another LP, if only the sizes agree. *)
Theorem C63_basis_refuted : exists E l (s s' : gstate E) xs, engine_laws E /\ legal_run t_new l /\
  grun (glop_new false) (l ++ [CDeleteRowSet [true]]) = Ok (s', xs) /\
  grun (glop_new false) l = Ok (s, removelast xs) /\
  ncols (lp s) = 1 /\ nrows (lp s) = 1 /\ IsSolved s = false /\
  w_state E (solver s) = [V_BASIC; V_BASIC] /\ w_state E (solver s') = [V_BASIC].
Proof. exact wrong_basis. Qed.
Print Assumptions C63_basis_refuted.

(** If the solver's basis is the one of the current LP, deleting rows keeps the status of every
    column and of every kept row at its new position; otherwise the solver is left alone. *)
Theorem C63_basis_partial : forall E (s s' : gstate E) mask x, stored_lp (lp s) ->
  length mask = length (g_rows (lp s)) -> gstep s (CDeleteRowSet mask) = Ok (s', x) ->
  let st := w_state E (solver s) in
  (Z.of_nat (length st) = ncols (lp s) + nrows (lp s) ->
   exists l, solver s' = w_load E (solver s) l /\
     Z.of_nat (length l) = ncols (lp s') + nrows (lp s') /\
     (forall c, 0 <= c < ncols (lp s) -> at_ l c = at_ st c) /\
     (forall r, at_ mask r = Ok false ->
        at_ l (ncols (lp s) + kept_before mask r) = at_ st (ncols (lp s) + r))) /\
  (Z.of_nat (length st) <> ncols (lp s) + nrows (lp s) -> solver s' = solver s).
Proof. intros E s s' mask x. exact (delete_keeps_basis s mask s' x). Qed.
Print Assumptions C63_basis_partial.

(** Statuses set by hand, then two rows deleted. *)
Definition with_basis : list call :=
  build ++ [CSetBasis [kFree; kAtUpperBound] [kBasic; kAtLowerBound; kAtUpperBound; kFree]].
Example C63_case : length (w_state toy1 (solver (after (E := toy1) with_basis))) = 6%nat /\
  w_state toy1 (solver (after (E := toy1) (with_basis ++ [CDeleteRowSet [false; true; true; false]]))) =
  [V_FREE; V_AT_UPPER_BOUND; V_BASIC; V_FREE].
Proof. split; calc. Qed.

(** *** C64 *)
(** False: if the second, unscaled attempt fails, scaling stays switched off. *)
Theorem C64_params_refuted : exists E l (s s' : gstate E) xs, engine_laws E /\ legal_run t_new l /\
  grun (glop_new false) l = Ok (s, xs) /\ SolveLp true s = Ok (s', false) /\
  scaling_strategy (GetLpParameters s) = SCALING_EQUILIBRATION /\
  scaling_strategy (GetLpParameters s') = SCALING_OFF.
Proof. exact scaling_lost. Qed.
Print Assumptions C64_params_refuted.

(** A solve that succeeds keeps the parameters, with or without a second attempt. *)
Theorem C64_params_partial : forall E d (s s' : gstate E), engine_laws E ->
  SolveLp d s = Ok (s', true) -> GetLpParameters s' = GetLpParameters s.
Proof. intros E d s s' L. exact (solve_keeps_params L d s s'). Qed.
Print Assumptions C64_params_partial.

(** Two attempts, both successful. *)
Example C64_case : exists s', 
  SolveLp false (after (E := toy easy 2 d1 false) build) = Ok (s', true) /\
  GetNumIterations s' = 2 /\ scaling_strategy (GetLpParameters s') = SCALING_EQUILIBRATION.
Proof. exists (solved false (after build)). split; [apply solved_ok; calc|calcs]. Qed.

(** *** C66 *)
(** A problem that loads is passed on to the LP solver as it was given: same variables and
    constraints in the same order, minimisation of the (possibly negated) objective. *)
Theorem C66_lp_faithful : forall p, problem_ok p -> integer_bounds_ordered p ->
  exists d l, MipData p = Ok d /\ PopulateFromMipData d = Ok l /\ reads_table l (problem_table p).
Proof. exact problem_loaded. Qed.
Print Assumptions C66_lp_faithful.

(** The maximisation example: the objective is negated, the coefficients are in place. *)
Example C66_case : problem_ok (small_problem true) /\ integer_bounds_ordered (small_problem true) /\
  (do l <- PopulateFromMipData small_data ;
   do x <- GetObjectiveCoefficient l 0 ; do y <- GetMatrixCoefficient l 2 0 ; Ok (x, y)) =
  Ok (dint (-2), dint 5).
Proof. split; [exact (small_problem_ok true)|]. split; [exact (small_problem_bounds true)|]. calcs. Qed.

(** *** C67 *)
(** Always: a wall clock limit measures user time and a CPU limit measures wall clock time. *)
Theorem C67_clock_swapped : forall E (s s' : gstate E) p, SetLpParameters s p = (s', true) ->
  (timing_mode p = TIMING_WALLCLOCK -> clock_used (usertime s') = UserTime) /\
  (timing_mode p = TIMING_CPU -> clock_used (usertime s') = WallClock).
Proof. exact clock_swapped. Qed.
Print Assumptions C67_clock_swapped.

(** So the property is false. *)
Theorem C67_clock_refuted : exists E (s s' : gstate E) p, engine_laws E /\
  SetLpParameters s p = (s', true) /\ timing_mode p = TIMING_WALLCLOCK /\
  clock_used (usertime s') = UserTime.
Proof.
  exists toy1, (glop_new false), (fst (SetLpParameters (glop_new false) wallclock)), wallclock.
  split; [exact (toy_laws _ _ _ _)|]. split; [calc|]. split; calc.
Qed.
Print Assumptions C67_clock_refuted.

(** *** C68 *)
(** False: after reading an LP from a file, the LP solved is the one held before. *)
Theorem C68_solves_refuted : exists E l (s s' : gstate E) xs, engine_laws E /\ legal_run t_new l /\
  (forall w0 t p t' w', w_solve E w0 t p = (true, t', w') -> w_objective E w' = dint (ncols p)) /\
  grun (glop_new false) l = Ok (s, xs) /\ ncols (lp s) = 1 /\ SolveLp true s = Ok (s', true) /\
  GetObjectiveValue s' = dint 2.
Proof. exact solves_old. Qed.
Print Assumptions C68_solves_refuted.

(** Without reading files: a successful solve leaves the LP alone and its result is that of the
    LP currently held (with slack variables added, scaled or not). *)
Theorem C68_solves_partial : forall E b l d (s s' : gstate E) xs, engine_laws E ->
  grun (glop_new b) l = Ok (s, xs) -> Forall (fun c => reads_file c = false) l ->
  SolveLp d s = Ok (s', true) ->
  lp s' = lp s /\ exists q, prepared E (lp s) q /\ holds_result E (solver s') q.
Proof. intros E b l d s s' xs L. exact (solves_current L b l d s xs s'). Qed.
Print Assumptions C68_solves_partial.

Example C68_case : Forall (fun c => reads_file c = false) build /\
  exists s', SolveLp true (after (E := toy counting 2 d1 true) build) = Ok (s', true) /\
  GetObjectiveValue s' = dint 2.
Proof. split; [repeat constructor|]. exists (solved true (after build)). split; [apply solved_ok; calc|calc]. Qed.

(** *** C79 *)
(** A successful solve ran the algorithm asked for, in one call of the engine or, if the unscaled
    point of the first was infeasible, in a second one without scaling; the iterations and the
    time limit reported are those of these calls alone. *)
Theorem C79_run : forall E d (s s' : gstate E), engine_laws E -> SolveLp d s = Ok (s', true) ->
  exists w t q t1 w1, w_solve E w t q = (true, t1, w1) /\ use_dual_simplex (w_params E w) = d /\
  (solver s' = w1 /\ GetNumIterations s' = w_iterations E w1 /\ TimeLimitIsExceeded s' = tl_reached E t1 \/
   exists w' q' t2 w2 g, w_solve E w' t1 q' = (true, t2, w2) /\ use_dual_simplex (w_params E w') = d /\
     use_scaling (w_params E w') = false /\ solver s' = w_set_params E w2 g /\
     GetNumIterations s' = w_iterations E w1 + w_iterations E w2 /\
     TimeLimitIsExceeded s' = tl_reached E t2).
Proof. intros E d s s' L. exact (SolveLp_engine L d s s'). Qed.
Print Assumptions C79_run.

(** One iteration per call: solving again does not add up, solving twice inside does. *)
Example C79_case :
  GetNumIterations (after (E := toy1) (edits ++ [CSolve true; CSolve false])) = 1 /\
  use_dual_simplex (w_params toy1 (solver (after (E := toy1) (edits ++ [CSolve true])))) = true /\
  use_dual_simplex (w_params toy1 (solver (after (E := toy1) (edits ++ [CSolve false])))) = false /\
  GetNumIterations (after (E := toy easy 2 d1 false) edits) = 2.
Proof. calcs. Qed.

(** *** C80 *)
(** Reading a file: an unreadable one is reported and changes nothing; otherwise the getters read
    the LP of the file.  Parameters and counters stay.  (So does the solved flag: see C50.) *)
Theorem C80_read : forall E (s : gstate E) f,
  exists s', gstep s (CRead f) = Ok (s', match f with Some _ => ROk | None => RErr end) /\
  GetLpParameters s' = GetLpParameters s /\ IsSolved s' = IsSolved s /\
  GetNumIterations s' = GetNumIterations s /\ TimeLimitIsExceeded s' = TimeLimitIsExceeded s /\
  (f = None -> s' = s) /\ (forall p t, f = Some p -> reads_table p t -> reads_table (lp s') t).
Proof. intros E. exact reading. Qed.
Print Assumptions C80_read.

(** The LP with two rows is written and read into a new interface. *)
Example C80_case : reads_table (lp (after (E := toy1) edits)) table_edits /\
  GetLowerBound (lp (after (E := toy1) [CRead (Some (lp (after (E := toy1) edits)))])) 1 = Ok d1.
Proof.
  split; [|calc]. apply (C48_reads toy1 false edits (after edits) (replies (E := toy1) edits)).
  - apply legal_build. split; [reflexivity|]. split; [split; [discriminate|reflexivity]|]. split; exact I.
  - apply ran. calc.
Qed.
