(** A small LP engine for the examples and counterexamples about the Glop interface. *)
From Coq Require Import String List ZArith Bool SpecFloat Sorted Lia.
From Verif Require Import Outcome Num Double SparseVector VectorSpec GlopLp LpParams GlopIface GlopSpec.
Import ListNotations.
Open Scope Z_scope.

(** Proves an equation by computation, in the kernel only. *)
Ltac calc := match goal with |- _ = ?b => exact_no_check (eq_refl b) end.
Ltac calcs := repeat match goal with |- _ /\ _ => split end; calc.

Record tw := mkTW { tw_params : glop_params; tw_state : list vstatus; tw_status : pstatus; tw_obj : double }.

(** [solve] answers every LP from the parameters and the LP alone; after a solve the columns are
    basic and the rows at their bound.  Every column is scaled by [factor]; [feas] answers every
    feasibility test. *)
Definition toy (solve : glop_params -> glop_lp -> bool * pstatus * double) (cols : Z)
  (factor : double) (feas : bool) : engine :=
  mkEngine tw double unit
    (mkTW (to_glop (default_params LP_GLOP)) [] INIT d0)
    tw_params
    (fun w g => mkTW g (tw_state w) (tw_status w) (tw_obj w))
    (fun w t p => let '(ok, st, o) := solve (tw_params w) p in
       (ok, t, mkTW (tw_params w)
          (repeat V_BASIC (length (g_cols p)) ++ repeat V_AT_LOWER_BOUND (length (g_rows p))) st o))
    tw_status
    (fun _ => 1)
    tw_obj
    (fun _ _ => d0) (fun _ _ => d0) (fun _ _ => d0)
    (fun w c => nth (Z.to_nat c) (tw_state w) V_FREE)
    (fun w r => negated (nth (Z.to_nat (cols + r)) (tw_state w) V_FREE))
    (fun _ => false)
    tw_state
    (fun w l => mkTW (tw_params w) l (tw_status w) (tw_obj w))
    (fun w => mkTW (tw_params w) [] (tw_status w) (tw_obj w))
    d1
    (fun p => (p, factor))
    (fun f _ => f)
    (fun f _ x => ddiv x f)
    (fun _ => tt)
    (fun _ => false)
    (fun p => p)
    (fun _ _ _ => feas).

Lemma toy_laws solve cols factor feas : engine_laws (toy solve cols factor feas).
Proof.
  split; auto. intros w t p. cbn. destruct (solve (tw_params w) p) as [[? ?] ?]. auto.
Qed.
Lemma toy_basis solve cols factor feas : reports_basis (toy solve cols factor feas) cols.
Proof.
  split; cbn; intros w l c x H E.
  - unfold at_ in E. replace (c <? 0) with false in E by (symmetry; apply Z.ltb_ge; tauto).
    destruct (nth_error l (Z.to_nat c)) eqn:N; [|discriminate]. injection E as ->. apply nth_error_nth. auto.
  - unfold at_ in E. destruct (cols + c <? 0); [discriminate|].
    destruct (nth_error l (Z.to_nat (cols + c))) eqn:N; [|discriminate]. injection E as ->. 
    f_equal. apply nth_error_nth. auto.
Qed.

(** Every LP is optimal with the objective value 1. *)
Definition easy (g : glop_params) (p : glop_lp) : bool * pstatus * double := (true, OPTIMAL, d1).
(** The number of columns is reported as the objective value. *)
Definition counting (g : glop_params) (p : glop_lp) : bool * pstatus * double :=
  (true, OPTIMAL, dint (ncols p)).
(** Unscaled LPs fail. *)
Definition needs_scaling (g : glop_params) (p : glop_lp) : bool * pstatus * double :=
  (use_scaling g, OPTIMAL, d1).
(** The upper bound of the first column is reported as the objective value. *)
Definition upper_of (g : glop_params) (p : glop_lp) : bool * pstatus * double :=
  (true, OPTIMAL, match g_cols p with c :: _ => g_ub c | [] => d0 end).
(** An LP whose first column has a lower bound above 0 fails. *)
Definition fails_up (g : glop_params) (p : glop_lp) : bool * pstatus * double :=
  (match g_cols p with c :: _ => negb (dltb d0 (g_lb c)) | [] => true end, OPTIMAL, d1).

(** Stops with a feasible point. *)
Definition stops (g : glop_params) (p : glop_lp) : bool * pstatus * double := (true, PRIMAL_FEASIBLE, d1).

Definition toy1 := toy easy 2 d1 true.
Definition stopped := toy stops 2 d1 true.
Definition vec (l : list (Z * Z)) : svec num_double :=
  mkV (map (fun p => mkE (fst p) (dint (snd p) : num_double)) l) false.
Definition ten : double := dint 10.

(** Two columns and four rows 1 <= ..., 2 <= ..., built by edits. *)
Definition build : list call :=
  [CAddColumn (vec []) d0 ten d1 "x"; CAddColumn (vec []) d0 ten d0 "y";
   CAddRows [vec [(0, 1)]; vec [(1, 2)]; vec [(0, 3); (1, 4)]; vec [(1, 5)]]
     [dint 1; dint 2; dint 3; dint 4] [dinf; dinf; dinf; dinf] ["a"; "b"; "c"; "d"]%string].
(** The state after a history. *)
Definition after {E : engine} (l : list call) : gstate E :=
  match grun (glop_new false) l with Ok (s, _) => s | _ => glop_new false end.
Definition replies {E : engine} (l : list call) : list reply :=
  match grun (E := E) (glop_new false) l with Ok (_, xs) => xs | _ => [] end.
Definition is_ok {B} (x : outcome B) : bool := match x with Ok _ => true | _ => false end.
Lemma ran {E : engine} l : is_ok (grun (E := E) (glop_new false) l) = true ->
  grun (glop_new false) l = Ok (after (E := E) l, replies (E := E) l).
Proof. unfold after, replies. destruct (grun _ l) as [[s xs]| | | |]; intros H; try discriminate H. auto. Qed.
Definition ent (i x : Z) : entry num_double := mkE i (dint x : num_double).
Definition lp4 : glop_lp :=
  mkLp [mkGCol d0 ten d1 "x" [ent 0 1; ent 2 3]; mkGCol d0 ten d0 "y" [ent 1 2; ent 2 4; ent 3 5]]
    [mkGRow (dint 1) dinf "a"; mkGRow (dint 2) dinf "b"; mkGRow (dint 3) dinf "c"; mkGRow (dint 4) dinf "d"]
    false.
Definition lp_one : glop_lp := mkLp [mkGCol d0 ten d1 "x" []] [] false.

(** The state after a solve; state and result after strong branching on column 0. *)
Definition solved {E : engine} (d : bool) (s : gstate E) : gstate E :=
  match SolveLp d s with Ok (s', _) => s' | _ => s end.
Definition branched {E : engine} (r0 : sb_result) (s : gstate E) (x : double) : gstate E * sb_result :=
  match SolveDownAndUpStrongBranch r0 s 0 x with Ok y => y | _ => (s, r0) end.

Definition solve_status {E : engine} (d : bool) (s : gstate E) : bool :=
  match SolveLp d s with Ok (_, b) => b | _ => false end.
Lemma solved_ok {E : engine} d (s : gstate E) b : is_ok (SolveLp d s) = true ->
  solve_status d s = b -> SolveLp d s = Ok (solved d s, b).
Proof.
  unfold solved, solve_status. destruct (SolveLp d s) as [[s' b']| | | |]; intros H <-; try discriminate H. auto.
Qed.
Lemma branched_ok {E : engine} r0 (s : gstate E) x : is_ok (SolveDownAndUpStrongBranch r0 s 0 x) = true ->
  SolveDownAndUpStrongBranch r0 s 0 x = Ok (fst (branched r0 s x), snd (branched r0 s x)).
Proof.
  unfold branched. destruct (SolveDownAndUpStrongBranch r0 s 0 x) as [[s' r]| | | |]; intros H; try discriminate H. auto.
Qed.
Definition stepped {E : engine} (s : gstate E) (c : call) : gstate E :=
  match gstep s c with Ok (s', _) => s' | _ => s end.
Definition based {E : engine} (s : gstate E) (cs rs : list bstatus) : gstate E :=
  match SetBasisStatusForColumnsAndRows s cs rs with Ok s' => s' | _ => s end.

(** What a history leaves: the LP and the replies. *)
Definition seen (E : engine) (l : list call) : outcome (glop_lp * list reply) :=
  do (s, xs) <- grun (E := E) (glop_new false) l ; Ok (lp s, xs).

(** The build, two rows deleted, and one column of new bounds. *)
Definition edits : list call :=
  build ++ [CDeleteRowSet [true; false; true; false]; CSetColumnBounds 1 d1 d1; CSolve true].
Definition table_edits : table := table_run t_new edits.

Lemma clean_vec l n : forallb (fun p => (0 <=? fst p) && (fst p <? n) && negb (snd p =? 0)) l = true ->
  (fix inc (k : Z) (l : list (Z * Z)) : bool :=
     match l with [] => true | p :: r => (k <? fst p) && inc (fst p) r end) (-1) l = true ->
  forallb (fun p => negb (is0 (dint (snd p) : num_double))) l = true -> clean_vector n (vec l).
Proof.
  intros H1 H2 H3. split; [auto|]. split; [split|].
  - apply Sorted_StronglySorted; [intros a b c; lia|]. unfold vec. cbn [ents]. clear H1 H3. revert H2. generalize (-1). induction l as [|p l IH]; intros k H.
    + constructor.
    + apply andb_prop in H as [_ H]. specialize (IH _ H). cbn [map]. constructor; auto.
      clear IH. destruct l as [|q l]; constructor. cbn [idx]. apply andb_prop in H as [H _]. apply Z.ltb_lt in H. auto.
  - unfold vec. cbn [ents]. clear H1 H2. induction l as [|p l IH]; [constructor|]. cbn [forallb] in H3.
    apply andb_prop in H3 as [H H3]. cbn [map]. constructor; auto. cbn [val].
    apply negb_true_iff in H. auto.
  - unfold vec. cbn [ents]. clear H2 H3. induction l as [|p l IH]; [constructor|]. cbn [forallb] in H1.
    apply andb_prop in H1 as [H H1]. cbn [map]. constructor; auto. cbn [idx].
    apply andb_prop in H as [H _]. apply andb_prop in H as [H H']. apply Z.leb_le in H. apply Z.ltb_lt in H'. auto.
Qed.

(** *** Witnesses *)
Lemma legal_build r : legal_run (table_run t_new build) r -> legal_run t_new (build ++ r).
Proof.
  intros H. split; [exact (clean_vec [] 0 eq_refl eq_refl eq_refl)|].
  split; [exact (clean_vec [] 0 eq_refl eq_refl eq_refl)|].
  split.
  { split; [|repeat split].
    constructor; [exact (clean_vec [(0, 1)] 2 eq_refl eq_refl eq_refl)|].
    constructor; [exact (clean_vec [(1, 2)] 2 eq_refl eq_refl eq_refl)|].
    constructor; [exact (clean_vec [(0, 3); (1, 4)] 2 eq_refl eq_refl eq_refl)|].
    constructor; [exact (clean_vec [(1, 5)] 2 eq_refl eq_refl eq_refl)|constructor]. }
  exact H.
Qed.

Definition five_half : double := ddiv (dint 11) (dint 2).

(** Solve, then read another LP from a file. *)
Definition read_after : list call := build ++ [CSolve true; CRead (Some lp_one)].
Lemma legal_read_after : legal_run t_new read_after.
Proof.
  apply legal_build. split; [exact I|]. split; [|exact I]. constructor; [|constructor].
  split; [split; constructor|constructor].
Qed.

Lemma read_after_solve : exists E b l (s : gstate E) xs, engine_laws E /\ legal_run t_new l /\
  grun (glop_new b) l = Ok (s, xs) /\ IsSolved s = true /\ ~ solved_since l xs.
Proof.
  exists toy1, false, read_after, (after read_after), (replies (E := toy1) read_after).
  split; [apply toy_laws|]. split; [apply legal_read_after|]. split; [apply ran; calc|]. split; [calc|].
  intros (l1 & d & l2 & xs1 & xs2 & H & _ & _ & F).
  do 5 (destruct l1 as [|? l1];
    [try discriminate H; injection H as _ <-; inversion F; discriminate|cbn in H; injection H as _ H]).
  destruct l1; discriminate.
Qed.

Lemma solves_old : exists E l (s s' : gstate E) xs, engine_laws E /\ legal_run t_new l /\
  (forall w0 t p t' w', w_solve E w0 t p = (true, t', w') -> w_objective E w' = dint (ncols p)) /\
  grun (glop_new false) l = Ok (s, xs) /\ ncols (lp s) = 1 /\ SolveLp true s = Ok (s', true) /\
  GetObjectiveValue s' = dint 2.
Proof.
  exists (toy counting 2 d1 true), read_after, (after read_after),
    (solved true (after read_after)), (replies (E := toy counting 2 d1 true) read_after).
  split; [apply toy_laws|]. split; [apply legal_read_after|].
  split. { cbn. intros w0 t p t' w' H. injection H as <- <-. reflexivity. }
  split; [apply ran; calc|]. split; [calc|]. split; [apply solved_ok; calc|]. calc.
Qed.

Lemma branch_uninitialised : exists E (s : gstate E) xs, engine_laws E /\
  grun (glop_new false) edits = Ok (s, xs) /\ IsSolved s = true /\ IsOptimal s = true /\
  SolveDownAndUpStrongBranch sb_uninitialised s 0 five_half = UB.
Proof.
  exists toy1, (after edits), (replies (E := toy1) edits).
  split; [apply toy_laws|]. split; [apply ran; calc|]. calcs.
Qed.

Definition sb_zero : sb_result := mkSB None None None (Some true) (Some 0).
Lemma branch_unsolved : exists E (s : gstate E) r0 xs, engine_laws E /\
  grun (glop_new false) build = Ok (s, xs) /\ sb_iterations r0 = Some 0 /\ ncols (lp s) = 2 /\
  SolveDownAndUpStrongBranch r0 s 0 five_half = UB.
Proof.
  exists toy1, (after build), sb_zero, (replies (E := toy1) build).
  split; [apply toy_laws|]. split; [apply ran; calc|]. calcs.
Qed.

Definition cols_edits : list gcol :=
  [mkGCol d0 ten d1 "x" []; mkGCol d1 d1 d0 "y" [ent 0 2; ent 1 5]].
Lemma branch_flags : exists E (s s' : gstate E) r0 r, engine_laws E /\
  sb_iterations r0 = Some 0 /\ up_valid r0 = Some true /\
  SolveDownAndUpStrongBranch r0 s 0 five_half = Ok (s', r) /\
  down_valid r = Some false /\ dual_bound_down r = Some d1 /\
  up_valid r = Some true /\
  (forall w t p t' w' lo hi, rebounded (scaled_lp s) 0 lo hi p -> dltb d0 lo = true ->
     w_solve E w t p = (true, t', w') -> False) /\
  exists g, at_ (g_cols (scaled_lp s)) 0 = Ok g /\ dleb (dint 6) (dadd (g_ub g) half) = true.
Proof.
  exists (toy fails_up 2 d1 true), (after edits), (fst (branched sb_zero (after edits) five_half)),
    sb_zero, (snd (branched (E := toy fails_up 2 d1 true) sb_zero (after edits) five_half)).
  split; [apply toy_laws|]. split; [reflexivity|]. split; [reflexivity|].
  split; [apply branched_ok; calc|]. split; [calc|]. split; [calc|]. split; [calc|]. split.
  - assert (C : g_cols (scaled_lp (after (E := toy fails_up 2 d1 true) edits)) = cols_edits) by calc.
    intros w t p t' w' lo hi (H & _) L. rewrite C in H. clear C. cbn. unfold fails_up. destruct (g_cols p) as [|g gs] eqn:G.
    + discriminate H.
    + injection H as -> _. cbn [g_lb]. rewrite L. discriminate.
  - exists (mkGCol d0 ten d1 "x" []). split; calc.
Qed.

Definition toy_quarter := toy upper_of 2 (ddiv d1 (dint 4)) true.
Definition sb_start : sb_result := mkSB None None None None (Some 0).
Lemma branch_rounding : exists E (s s' : gstate E) r0 r, engine_laws E /\
  IsSolved s = true /\ sc_factor E (scaler s) 0 = ddiv d1 (dint 4) /\
  (forall w t p t' w', w_solve E w t p = (true, t', w') ->
     w_objective E w' = match g_cols p with c :: _ => g_ub c | [] => d0 end) /\
  SolveDownAndUpStrongBranch r0 s 0 five_half = Ok (s', r) /\
  down_valid r = Some true /\ dual_bound_down r = Some d1 /\
  sc_unscale E (scaler s) 0 d1 = dint 4 /\ dltb (dint 5) five_half = true.
Proof.
  exists toy_quarter, (after edits), (fst (branched sb_start (after edits) five_half)), sb_start,
    (snd (branched (E := toy_quarter) sb_start (after edits) five_half)).
  split; [apply toy_laws|]. split; [calc|]. split; [calc|].
  split. { cbn. intros w t p t' w' H. injection H as _ <-. reflexivity. }
  split; [apply branched_ok; calc|]. calcs.
Qed.

Lemma branch_both : exists s' r,
  SolveDownAndUpStrongBranch sb_start (after (E := toy1) edits) 0 five_half = Ok (s', r) /\
  r = mkSB (Some d1) (Some d1) (Some true) (Some true) (Some 2).
Proof.
  exists (fst (branched sb_start (after edits) five_half)),
    (snd (branched (E := toy1) sb_start (after edits) five_half)).
  split; [apply branched_ok; calc|calc].
Qed.

(** The column lies between 0 and 10. *)
Lemma branch_empty : exists s' r,
  SolveDownAndUpStrongBranch sb_start (after (E := toy1) edits) 0 (dopp five_half) = Ok (s', r) /\
  dual_bound_down r = Some dinf /\ down_valid r = Some true.
Proof.
  exists (fst (branched sb_start (after edits) (dopp five_half))),
    (snd (branched (E := toy1) sb_start (after edits) (dopp five_half))).
  split; [apply branched_ok; calc|calcs].
Qed.

(** One column, solved; the column goes, a row comes: again one object in all. *)
Definition swapped : list call :=
  [CAddColumn (vec []) d0 ten d1 "x"; CAddColumn (vec []) d0 ten d1 "y"; CSolve true;
   CDeleteColumns 1 1; CAddRow (vec [(0, 1)]) d0 ten "a"].
Lemma wrong_basis : exists E l (s s' : gstate E) xs, engine_laws E /\ legal_run t_new l /\
  grun (glop_new false) (l ++ [CDeleteRowSet [true]]) = Ok (s', xs) /\
  grun (glop_new false) l = Ok (s, removelast xs) /\
  ncols (lp s) = 1 /\ nrows (lp s) = 1 /\ IsSolved s = false /\
  w_state E (solver s) = [V_BASIC; V_BASIC] /\ w_state E (solver s') = [V_BASIC].
Proof.
  exists toy1, swapped, (after swapped), (after (swapped ++ [CDeleteRowSet [true]])),
    (replies (E := toy1) (swapped ++ [CDeleteRowSet [true]])).
  split; [apply toy_laws|]. split.
  { split; [exact (clean_vec [] 0 eq_refl eq_refl eq_refl)|].
    split; [exact (clean_vec [] 0 eq_refl eq_refl eq_refl)|].
    split; [exact I|]. split; [split; [split; discriminate|reflexivity]|].
    split; [exact (clean_vec [(0, 1)] 1 eq_refl eq_refl eq_refl)|exact I]. }
  split; [apply ran; calc|].
  assert (R1 : replies (E := toy1) (swapped ++ [CDeleteRowSet [true]]) = [ROk; ROk; ROk; ROk; ROk; RMap [-1]])
    by calc.
  assert (R2 : replies (E := toy1) swapped = [ROk; ROk; ROk; ROk; ROk]) by calc.
  split; [rewrite R1; cbn [removelast]; rewrite <- R2; apply ran; calc|]. calcs.
Qed.

Lemma scaling_lost : exists E l (s s' : gstate E) xs, engine_laws E /\ legal_run t_new l /\
  grun (glop_new false) l = Ok (s, xs) /\ SolveLp true s = Ok (s', false) /\
  scaling_strategy (GetLpParameters s) = SCALING_EQUILIBRATION /\
  scaling_strategy (GetLpParameters s') = SCALING_OFF.
Proof.
  exists (toy needs_scaling 2 d1 false), build, (after build), (solved true (after build)),
    (replies (E := toy needs_scaling 2 d1 false) build).
  split; [apply toy_laws|]. split; [rewrite <- (app_nil_r build); apply legal_build; exact I|].
  split; [apply ran; calc|]. split; [apply solved_ok; calc|]. calcs.
Qed.

(** *** Two small facts *)
Lemma status_consistent (E : engine) (s : gstate E) :
  (IsOptimal s = true -> IsPrimalFeasible s = true /\ IsDualFeasible s = true /\
     IsPrimalInfeasible s = false /\ IsDualInfeasible s = false /\ IsPrimalUnbounded s = false /\
     IsDualUnbounded s = false /\ ExistsPrimalRay s = false /\ ExistsDualRay s = false) /\
  (IsPrimalFeasible s = true -> IsDualFeasible s = true -> IsOptimal s = true) /\
  (IsPrimalFeasible s = true -> IsPrimalInfeasible s = false) /\
  (IsDualFeasible s = true -> IsDualInfeasible s = false) /\
  (ExistsPrimalRay s = HasPrimalRay s /\ ExistsPrimalRay s = IsPrimalUnbounded s) /\
  (ExistsDualRay s = HasDualRay s /\ ExistsDualRay s = IsDualUnbounded s) /\
  (ExistsPrimalRay s = true -> IsDualInfeasible s = true /\ IsPrimalInfeasible s = false) /\
  (ExistsDualRay s = true -> IsPrimalInfeasible s = true /\ IsDualInfeasible s = false).
Proof.
  unfold IsOptimal, IsPrimalFeasible, IsDualFeasible, IsPrimalInfeasible, IsDualInfeasible,
    IsPrimalUnbounded, IsDualUnbounded, ExistsPrimalRay, ExistsDualRay, HasPrimalRay, HasDualRay, is_status.
  destruct (w_status E (solver s)); cbn; repeat split; intros; congruence.
Qed.

Lemma status_reports (E : engine) (s : gstate E) : let st := w_status E (solver s) in
  (IsOptimal s = true <-> st = OPTIMAL) /\
  (IsPrimalUnbounded s = true <-> st = PRIMAL_UNBOUNDED) /\
  (IsDualUnbounded s = true <-> st = DUAL_UNBOUNDED) /\
  (IsPrimalInfeasible s = true <-> In st [PRIMAL_INFEASIBLE; DUAL_UNBOUNDED]) /\
  (IsDualInfeasible s = true <-> In st [DUAL_INFEASIBLE; PRIMAL_UNBOUNDED]) /\
  (IsPrimalFeasible s = true <-> In st [OPTIMAL; PRIMAL_FEASIBLE]) /\
  (IsDualFeasible s = true <-> In st [OPTIMAL; DUAL_FEASIBLE]) /\
  (In st [ABNORMAL; INVALID_PROBLEM; IMPRECISE] -> IsStable s = false) /\
  (In st [INIT; INFEASIBLE_OR_UNBOUNDED] -> IsStable s = true).
Proof.
  cbv zeta. unfold IsStable, IsOptimal, IsPrimalFeasible, IsDualFeasible, IsPrimalInfeasible, IsDualInfeasible,
    IsPrimalUnbounded, IsDualUnbounded, is_status.
  destruct (w_status E (solver s)); cbn [In orb andb]; intuition (discriminate || reflexivity).
Qed.

Lemma clock_swapped (E : engine) (s s' : gstate E) p : SetLpParameters s p = (s', true) ->
  (timing_mode p = TIMING_WALLCLOCK -> clock_used (usertime s') = UserTime) /\
  (timing_mode p = TIMING_CPU -> clock_used (usertime s') = WallClock).
Proof.
  unfold SetLpParameters. destruct (negb _); intros H; [discriminate|]. injection H as <-. cbn [usertime]. unfold usertime_flag.
  split; intros T; rewrite T; reflexivity.
Qed.

(** A stored LP, checked by computation. *)
Fixpoint stored_entries (k n : Z) (l : list (entry num_double)) : bool :=
  match l with
  | [] => true
  | e :: r => (k <? idx e) && (idx e <? n) && negb (is0 (val e)) && stored_entries (idx e) n r
  end.
Lemma stored_entries_ok n l : forall k, stored_entries k n l = true ->
  Sorted (fun a b => idx a < idx b) l /\ Forall (fun e => is0 (val e) = false) l /\
  Forall (fun e => k < idx e < n) l.
Proof.
  induction l as [|e l IH]; intros k H; [repeat split; constructor|].
  cbn [stored_entries] in H. apply andb_prop in H as [H H4]. apply andb_prop in H as [H H3].
  apply andb_prop in H as [H1 H2]. apply Z.ltb_lt in H1, H2. apply negb_true_iff in H3.
  destruct (IH _ H4) as (A & B & C). split; [|split].
  - constructor; auto. destruct l; constructor. inversion C. lia.
  - constructor; auto.
  - constructor; [lia|]. eapply Forall_impl; [|exact C]. intros a. cbn. lia.
Qed.
Lemma stored_check p : forallb (fun g => stored_entries (-1) (nrows p) (g_entries g)) (g_cols p) = true ->
  stored_lp p.
Proof.
  intros H. apply Forall_forall. intros g Hg. rewrite forallb_forall in H. apply H in Hg.
  apply stored_entries_ok in Hg as (A & B & C). split.
  - split; auto. apply Sorted_StronglySorted; auto. intros a b c. lia.
  - eapply Forall_impl; [|exact C]. intros a. cbn. lia.
Qed.
