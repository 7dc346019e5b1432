(** Further facts about the SoPlex interface: deletion, the solved flag, parameters, status,
    strong branching, basis and its inverse. *)
From Coq Require Import String List ZArith Bool Lia ZifyBool Permutation SpecFloat.
From Verif Require Import Outcome OutcomeFacts Num Double DoubleFacts SparseVector VectorSpec SparseVectorFacts
  VectorProofs MipData GlopLp LpParams GlopIface GlopSpec GlopProofs GlopMore SoplexIface SoplexSpec
  SoplexProofs.
Import ListNotations.
Open Scope Z_scope.

Local Notation ent := (entry num_double).

(** ** Deleting rows *)
Section Delete.
Context {E : spx_engine}.
Implicit Type s : sstate E.

Lemma checked_in {B} (l : list B) i : 0 <= i < Z.of_nat (length l) -> checked l i = at_ l i.
Proof.
  intros H. unfold checked. replace ((0 <=? i) && (i <? Z.of_nat (length l))) with true by lia. auto.
Qed.
Lemma same_lhs p r : 0 <= r < nrows p -> GetLeftHandSide p r = SpxGetLeftHandSide p r.
Proof. intros H. unfold GetLeftHandSide, SpxGetLeftHandSide. rewrite checked_in by exact H. auto. Qed.
Lemma same_rhs p r : 0 <= r < nrows p -> GetRightHandSide p r = SpxGetRightHandSide p r.
Proof. intros H. unfold GetRightHandSide, SpxGetRightHandSide. rewrite checked_in by exact H. auto. Qed.
Lemma same_coef p c r : keeps_entries E -> wf p -> 0 <= c < ncols p -> 0 <= r < nrows p ->
  GetMatrixCoefficient p c r = SpxGetMatrixCoefficient (E := E) p c r.
Proof.
  intros KE W Hc Hr. unfold GetMatrixCoefficient, SpxGetMatrixCoefficient.
  rewrite !checked_in by (exact Hr || exact Hc).
  destruct (at_ (g_cols p) c) as [g| | | |] eqn:Eg; cbn [bind]; auto.
  destruct (at_ (g_rows p) r) as [y| | | |]; cbn [bind]; auto. f_equal.
  destruct (wf_col p W c g Eg) as [Cn _]. rewrite LookUp_coef, coef_find by auto.
  rewrite <- (find_perm (x_order E (g_entries g)) (g_entries g)) by (auto using canonical_nodup).
  rewrite find_first_find. destruct (find _ _); auto.
Qed.

Lemma spx_delete_row_set s mask : keeps_entries E -> stored_lp (s_lp s) -> freed s = true ->
  length mask = length (g_rows (s_lp s)) ->
  exists s' m, sstep s (CDeleteRowSet mask) = Ok (s', RMap m) /\
    length m = length mask /\ ncols (s_lp s') = ncols (s_lp s) /\ nrows (s_lp s') = rows_kept mask /\
    (forall r, at_ mask r = Ok true -> at_ m r = Ok (-1)) /\
    (forall r, at_ mask r = Ok false -> exists q, at_ m r = Ok q /\ q = kept_before mask r /\ 0 <= q < nrows (s_lp s') /\
       SpxGetLeftHandSide (s_lp s') q = SpxGetLeftHandSide (s_lp s) r /\
       SpxGetRightHandSide (s_lp s') q = SpxGetRightHandSide (s_lp s) r /\
       forall c, 0 <= c < ncols (s_lp s) ->
         SpxGetMatrixCoefficient (E := E) (s_lp s') c q = SpxGetMatrixCoefficient (E := E) (s_lp s) c r) /\
    (forall r r' q q', r < r' -> at_ mask r = Ok false -> at_ mask r' = Ok false ->
       at_ m r = Ok q -> at_ m r' = Ok q' -> q < q') /\
    (forall q, 0 <= q < nrows (s_lp s') -> exists r, at_ m r = Ok q).
Proof.
  intros KE W F L. cbn [sstep]. unfold SpxDeleteRowSet.
  replace (freed (invalidated s)) with true by (symmetry; exact F). cbn [check bind invalidated s_lp].
  destruct (removeRows_ok (s_lp s) mask W L) as (p' & H & W' & T).
  apply bind_ok in H as (perm & E1 & E2). rewrite E1. cbn [bind]. rewrite E2. cbn [bind].
  exists (spx_with_lp (invalidated s) p'), (new_index 0 mask). rewrite perm_new_index. split; auto.
  destruct (delete_rows_readings (s_lp s) p' mask W W' L T) as (A1 & A2 & A3 & A4 & A5 & A6 & A7).
  cbn [spx_with_lp invalidated s_lp] in *. split; auto. split; auto. split; auto. split; auto. split; [|split; auto].
  intros r Hr. destruct (A5 r Hr) as (q & B1 & B2 & B3 & B4 & B5 & B6).
  pose proof (at_in_range _ _ _ Hr) as R. rewrite L in R. fold (nrows (s_lp s)) in R.
  exists q. split; auto. split; auto. split; auto.
  rewrite <- !same_lhs, <- !same_rhs by auto. split; auto. split; auto.
  intros c Hc. rewrite <- !same_coef by (auto; lia). auto.
Qed.

(** ** Solved or not *)
Lemma drops_edit s o s' x : spx_edited s o = Ok (s', x) -> s_solved s' = false /\ s_scratch s' = s_scratch s.
Proof.
  unfold spx_edited. intros H. apply bind_ok in H as (u & _ & H). apply bind_ok in H as (p & _ & H).
  injection H as <- _. auto.
Qed.
Lemma save_solved s s' : SavePreStrongbranchingBasis s = Ok s' ->
  s_solved s' = s_solved s /\ s_scratch s' = s_scratch s /\ s_lp s' = s_lp s /\ s_params s' = s_params s /\
  s_dual s' = s_dual s /\ s_x s' = s_x s.
Proof.
  unfold SavePreStrongbranchingBasis. destruct (x_get_basis E (s_x s)) as [[rs cs]|]; intros H.
  - injection H as <-. auto 10.
  - apply bind_ok in H as (u & _ & H). injection H as <-. auto 10.
Qed.
Lemma set_basis_solved s cs rs s' b : SpxSetBasis s cs rs = Ok (s', b) ->
  s_solved s' = false /\ s_scratch s' = s_scratch s /\ s_lp s' = s_lp s /\ s_params s' = s_params s.
Proof.
  unfold SpxSetBasis. intros H. apply bind_ok in H as (u & _ & H).
  apply bind_ok in H as ([ra ok] & _ & H). destruct ok; cbn [negb] in H.
  - apply bind_ok in H as (ca & _ & H). apply bind_ok in H as ([s1 threw] & H1 & H).
    apply set_saved_lp in H1 as (A1 & A2 & _ & A3 & A4 & _). cbn in A1, A2, A3, A4.
    destruct threw; injection H as <- _; cbn; auto.
  - injection H as <- _. auto.
Qed.

Lemma spx_step_solved s c s' x : s_scratch s = false -> reads_file c = false -> sstep s c = Ok (s', x) ->
  s_scratch s' = false /\
  s_solved s' = match c with CSolve _ => true | _ => if drops_solution c then false else s_solved s end.
Proof.
  intros S R H.
  destruct c; cbn [sstep drops_solution modifies reads_file] in *;
    try (apply drops_edit in H as [-> ->]; auto; fail).
  - apply bind_ok in H as (p & _ & H). injection H as <- _. auto.
  - apply bind_ok in H as ([s1 m] & H1 & H). injection H as <- _. unfold SpxDeleteRowSet in H1.
    apply bind_ok in H1 as (u & _ & H1). apply bind_ok in H1 as (perm & _ & H1).
    apply bind_ok in H1 as ([p perm'] & _ & H1). injection H1 as <- _. auto.
  - destruct (x_clear_basis E (s_x s)) as [threw y]. destruct threw.
    + apply bind_ok in H as (u & _ & H). injection H as <- _. auto.
    + injection H as <- _. auto.
  - apply bind_ok in H as (u & _ & H). apply bind_ok in H as (u2 & _ & H). apply bind_ok in H as (p & _ & H).
    injection H as <- _. auto.
  - apply bind_ok in H as ([s1 ok] & H1 & H). injection H as <- _. apply Solve_lp in H1 as (_ & A & _ & _ & _ & B).
    cbn. rewrite A, B; auto.
  - apply bind_ok in H as (s1 & H1 & H). injection H as <- _. unfold SpxStartStrongBranching in H1.
    apply bind_ok in H1 as (u & _ & H1). apply save_solved in H1 as (-> & -> & _). auto.
  - apply bind_ok in H as (s1 & H1 & H). injection H as <- _. unfold SpxEndStrongBranching in H1.
    apply bind_ok in H1 as (u & _ & H1). apply bind_ok in H1 as (s2 & H2 & H1). injection H1 as <-.
    apply restore_lp in H2 as (_ & _ & _ & A & B & _). cbn. rewrite A, B. auto.
  - apply bind_ok in H as ([s1 r] & H1 & H). injection H as <- _. apply strong_lp in H1 as (_ & -> & -> & _). auto.
  - apply bind_ok in H as ([s1 b] & H1 & H). injection H as <- _. apply set_basis_solved in H1 as (A & B & _).
    cbn. rewrite A, B. auto.
  - apply bind_ok in H as ([s1 b] & H1 & H). injection H as <- _. unfold SpxSetLpParameters in H1.
    apply bind_ok in H1 as ([q ok] & _ & H1). injection H1 as <- _. auto.
  - destruct f; [discriminate|]. apply bind_ok in H as ([s1 b] & H1 & H). injection H as <- _.
    unfold SpxReadLpFromFile in H1. apply bind_ok in H1 as (u & _ & H1). injection H1 as <- _. auto.
  - destruct (SpxWriteLpToFile s path written); try discriminate; injection H as <- _; auto.
  - injection H as <- _. auto.
Qed.

Lemma srun_app l1 : forall s l2, srun s (l1 ++ l2) =
  do (s, xs) <- srun s l1 ; do (s, ys) <- srun s l2 ; Ok (s, xs ++ ys).
Proof.
  induction l1 as [|c l1 IH]; intros s l2; cbn [app srun bind].
  - destruct (srun s l2) as [[s' ys]| | | |]; auto.
  - destruct (sstep s c) as [[s1 x]| | | |]; cbn [bind]; auto.
    rewrite IH. destruct (srun s1 l1) as [[s2 xs]| | | |]; cbn [bind]; auto.
    destruct (srun s2 l2) as [[s3 ys]| | | |]; cbn [bind]; auto.
Qed.

Lemma spx_run_solved l : forall s s' xs, s_scratch s = false ->
  Forall (fun c => reads_file c = false) l -> srun s l = Ok (s', xs) ->
  s_scratch s' = false /\
  (s_solved s' = true <-> attempted_since l \/ s_solved s = true /\ Forall (fun c => drops_solution c = false) l).
Proof.
  induction l as [|c l IH] using rev_ind; intros s s' xs S F H.
  - injection H as <- _. split; auto. split; [right; auto|].
    intros [(l1 & d & l2 & Hl & _)|[? _]]; auto. destruct l1; discriminate.
  - rewrite srun_app in H. apply bind_ok in H as ([s1 xs1] & H1 & H). apply bind_ok in H as ([s2 ys] & H2 & H).
    injection H as <- _. cbn [srun] in H2. apply bind_ok in H2 as ([s3 x] & H2 & H3). injection H3 as <- _.
    apply Forall_app in F as [F1 F2]. inversion F2 as [|? ? F3 _]; subst.
    apply IH in H1 as [S1 I1]; auto.
    destruct (spx_step_solved _ _ _ _ S1 F3 H2) as [S2 E2]. split; auto.
    assert (A : attempted_since (l ++ [c]) <-> (exists d, c = CSolve d) \/ attempted_since l /\ drops_solution c = false).
    { split.
      - intros (l1 & d & l2 & Hl & Fl). destruct l2 as [|c2 l2] using rev_ind.
        + apply app_inj_tail in Hl as [_ ->]. left. eauto.
        + clear IHl2. rewrite app_comm_cons, app_assoc in Hl. apply app_inj_tail in Hl as [-> ->].
          apply Forall_app in Fl as [Fl1 Fl2]. right. split; [|apply (Forall_inv Fl2)].
          exists l1, d, l2. auto.
      - intros [[d ->]|[(l1 & d & l2 & -> & Fl) D]].
        + exists l, d, []. auto.
        + exists l1, d, (l2 ++ [c]). rewrite <- app_assoc. split; auto. apply Forall_app. auto. }
    assert (D : drops_solution c = true -> s_solved s3 = false).
    { intros Dc. rewrite E2, Dc. destruct c; auto; discriminate. }
    assert (K : drops_solution c = false -> s_solved s3 = true <-> (exists d, c = CSolve d) \/ s_solved s1 = true).
    { intros Dc. rewrite E2, Dc. destruct c; split; try (intros [[dd Hd]|Q]; [discriminate Hd|exact Q]); eauto. }
    rewrite A, Forall_app.
    destruct (drops_solution c) eqn:Dc.
    + rewrite D by auto. split; [discriminate|].
      intros [[[d ->]|[_ ?]]|[_ [_ Q]]]; try discriminate. apply Forall_inv in Q. cbn beta in Q. congruence.
    + rewrite K by auto. rewrite I1. split.
      * intros [?|[?|[? ?]]]; auto.
      * intros [[?|[? _]]|[? [? _]]]; auto.
Qed.

Lemma spx_solved_history p0 mx s0 l s xs : spx_new (E := E) p0 mx = Ok s0 ->
  Forall (fun c => reads_file c = false) l -> srun s0 l = Ok (s, xs) ->
  (SpxIsSolved s = true <-> attempted_since l).
Proof.
  intros H0 F H. apply spx_new_ok in H0 as (q & ->).
  apply spx_run_solved in H as [_ H]; auto. unfold SpxIsSolved. rewrite H. cbn. intuition discriminate.
Qed.
End Delete.

(** ** Parameters *)
Lemma spx_supported_iff p : LpParametersAreSupportedBySoPlex p = true <-> soplex_supports p.
Proof.
  unfold LpParametersAreSupportedBySoPlex, soplex_supports. rewrite if_false, negb_false_iff, valid_iff.
  assert (M : deqb (min_markowitz_threshold p) dm1 = true -> tolerance_ok (min_markowitz_threshold p))
    by (right; auto).
  assert (T : negb (deqb (min_markowitz_threshold p) dm1) &&
         (dltb (min_markowitz_threshold p) d1em4 || dltb d1m1em4 (min_markowitz_threshold p)) = false <->
    deqb (min_markowitz_threshold p) dm1 = true \/
    dltb (min_markowitz_threshold p) d1em4 = false /\ dltb d1m1em4 (min_markowitz_threshold p) = false).
  { destruct (deqb (min_markowitz_threshold p) dm1), (dltb (min_markowitz_threshold p) d1em4),
      (dltb d1m1em4 (min_markowitz_threshold p)); cbn; intuition discriminate. }
  assert (NT : (if negb (num_threads p =? 0) && negb (num_threads p =? 1) then false else true) = true <->
    num_threads p = 0 \/ num_threads p = 1).
  { destruct (Z.eqb_spec (num_threads p) 0), (Z.eqb_spec (num_threads p) 1); cbn; intuition discriminate. }
  assert (TM : forall b : bool, match timing_mode p with TIMING_DETERMINISTIC => false | _ => b end = true <->
    timing_mode p <> TIMING_DETERMINISTIC /\ b = true).
  { intros b. destruct (timing_mode p); intuition discriminate. }
  assert (SC : forall b : bool, match scaling_strategy p with SCALING_LINEAR_PROGRAM => false | _ => b end = true <->
    scaling_strategy p <> SCALING_LINEAR_PROGRAM /\ b = true).
  { intros b. destruct (scaling_strategy p); intuition discriminate. }
  assert (TY : forall b : bool, match lp_solver_type p with LP_GLOP => false | LP_SOPLEX => b end = true <->
    lp_solver_type p = LP_SOPLEX /\ b = true).
  { intros b. destruct (lp_solver_type p); intuition discriminate. }
  rewrite TY, SC, if_false, T, TM, NT.
  assert (N0 : num_threads p = 0 \/ num_threads p = 1 -> 0 <= num_threads p) by lia.
  clear - M N0. tauto.
Qed.

Lemma spx_put_all R s t : spx_accepts R t = true -> spx_put R s t = t.
Proof.
  unfold spx_accepts, spx_put, put. rewrite !andb_true_iff. intros (((((((A & B) & C) & D) & F) & G) & H) & I).
  rewrite A, B, C, D, F, G, H, I. destruct t; auto.
Qed.

Lemma dmax_twice a b : dmax a (dmax a b) = dmax a b.
Proof. unfold dmax. destruct (dltb a b) eqn:H; rewrite ?H, ?dltb_irrefl; auto. Qed.
Lemma dmin_twice a b : dmin a (dmin a b) = dmin a b.
Proof. unfold dmin. destruct (dltb b a) eqn:H; rewrite ?H, ?dltb_irrefl; auto. Qed.
Lemma or_default_twice x d : deqb d dm1 = false -> or_default (or_default x d) d = or_default x d.
Proof. unfold or_default. intros H. destruct (deqb x dm1) eqn:X; rewrite ?H, ?X; auto. Qed.
Lemma above0_neq x : dleb x d0 = false -> deqb x d0 = false.
Proof. unfold dleb, deqb, SFleb, SFeqb. destruct (SFcompare x d0) as [[]|]; auto. Qed.

Lemma if_same {B} (b : bool) (x : B) : (if b then x else x) = x.
Proof. destruct b; auto. Qed.

Lemma params_ext : forall a b : lp_params, lp_solver_type a = lp_solver_type b -> solve_from_scratch a = solve_from_scratch b ->
      scaling_strategy a = scaling_strategy b -> use_presolve a = use_presolve b -> pricing_strategy a = pricing_strategy b ->
      feasibility_tolerance a = feasibility_tolerance b -> optimality_tolerance a = optimality_tolerance b ->
      min_markowitz_threshold a = min_markowitz_threshold b -> refactorization_interval a = refactorization_interval b ->
      objective_lower_limit a = objective_lower_limit b -> objective_upper_limit a = objective_upper_limit b ->
      timing_mode a = timing_mode b -> time_limit a = time_limit b -> iteration_limit a = iteration_limit b ->
      num_threads a = num_threads b -> random_seed a = random_seed b ->
      enable_internal_solver_output a = enable_internal_solver_output b -> a = b.
Proof. intros [] []; cbn. intros. subst. auto. Qed.

Section Rules.
Variable R : spx_rules.
Hypothesis Sane : sane_rules R.

Lemma resolved_ok p b : soplex_supports p -> from_spx (to_spx R p) b = spx_resolved b (spx_infty R) p.
Proof.
  intros (H1 & _ & _ & _ & _ & H2 & H3 & H4 & _ & _ & H5). unfold from_spx, spx_resolved, to_spx.
  cbn [SCALER SIMPLIFIER PRICER FEASTOL OPTTOL MIN_MARKOWITZ FACTOR_UPDATE_MAX OBJLIMIT_LOWER OBJLIMIT_UPPER
       TIMER TIMELIMIT ITERLIMIT seed debug_output].
  apply params_ext; cbn [lp_solver_type solve_from_scratch scaling_strategy use_presolve pricing_strategy
    feasibility_tolerance optimality_tolerance min_markowitz_threshold refactorization_interval
    objective_lower_limit objective_upper_limit timing_mode time_limit iteration_limit num_threads
    random_seed enable_internal_solver_output]; try reflexivity.
  - destruct (scaling_strategy p); auto. congruence.
  - destruct (pricing_strategy p); auto.
  - destruct (timing_mode p); auto. congruence.
  - destruct H2 as [->|H2]; auto. rewrite (above0_neq _ H2). cbn [orb].
    destruct (timing_mode p); auto. congruence.
  - destruct (Z.eqb_spec (iteration_limit p) 0) as [->|]; cbn [orb]; auto.
    destruct (INT_MAX <=? iteration_limit p); auto.
    replace (iteration_limit p =? -1) with false by lia. auto.
Qed.

(** Setting what the object reports again asks for the same settings, up to the time limit of a
    timer that is off. *)
Lemma resolved_again p b : soplex_supports p ->
  let p' := spx_resolved b (spx_infty R) p in
  soplex_supports p' /\
  (exists t, to_spx R p' = with_timelimit (to_spx R p) t /\
     (t = TIMELIMIT (to_spx R p) \/ TIMER (to_spx R p) = TIMER_OFF /\ t = ddiv (spx_infty R) (dint 2))) /\
  spx_resolved b (spx_infty R) p' = p'.
Proof.
  destruct Sane as (Sa & Sb & Sc).
  intros (H1 & T1 & T2 & T3 & RI & H2 & H3 & H4 & NT & RS & H5). cbv zeta.
  assert (D6 : deqb d1em6 dm1 = false) by reflexivity.
  assert (D4 : deqb d1em4 dm1 = false) by reflexivity.
  set (p' := spx_resolved b (spx_infty R) p).
  assert (TL : timing_mode p <> TIMING_OFF -> dleb (time_limit p') d0 = false).
  { intros N. subst p'. cbn [spx_resolved time_limit]. destruct H2 as [?|H2]; [congruence|].
    destruct (timing_mode p); try congruence; destruct (dleb (spx_infty R) (time_limit p)); auto. }
  assert (S' : soplex_supports p').
  { unfold soplex_supports. subst p'.
    cbn [spx_resolved lp_solver_type feasibility_tolerance optimality_tolerance min_markowitz_threshold
         refactorization_interval timing_mode iteration_limit num_threads random_seed scaling_strategy] in *.
    unfold default_tolerance, tolerance_ok in *.
    split; auto. split; [destruct (deqb (feasibility_tolerance p) dm1) eqn:X; rewrite ?X; auto|].
    split; [destruct (deqb (optimality_tolerance p) dm1) eqn:X; rewrite ?X; auto|].
    split; [destruct (deqb (min_markowitz_threshold p) dm1) eqn:X; rewrite ?X; [|intuition congruence]|].
    { right. split; [reflexivity|]. split; [reflexivity|]. left; reflexivity. }
    split; auto. split; [|split; auto].
    { destruct (timing_mode p) eqn:X; auto; right; apply TL; discriminate. }
    split; [destruct (INT_MAX <=? iteration_limit p); [reflexivity|exact H4]|]. split; auto. split; auto.
    destruct (scaling_strategy p); congruence. }
  assert (IT : (if (iteration_limit p' =? 0) || (INT_MAX <=? iteration_limit p') then -1 else iteration_limit p') =
    (if (iteration_limit p =? 0) || (INT_MAX <=? iteration_limit p) then -1 else iteration_limit p)).
  { subst p'. cbn [spx_resolved iteration_limit]. destruct (INT_MAX <=? iteration_limit p) eqn:X; cbn [orb].
    - rewrite orb_true_r. auto.
    - rewrite X. auto. }
  assert (DF : forall x, default_tolerance (default_tolerance x d1em6) d1em6 = default_tolerance x d1em6)
    by (intros; apply or_default_twice; auto).
  assert (DF4 : forall x, default_tolerance (default_tolerance x d1em4) d1em4 = default_tolerance x d1em4)
    by (intros; apply or_default_twice; auto).
  assert (TT : TIMELIMIT (to_spx R p') = TIMELIMIT (to_spx R p) \/
    TIMER (to_spx R p) = TIMER_OFF /\ TIMELIMIT (to_spx R p') = ddiv (spx_infty R) (dint 2)).
  { destruct (timing_mode p) eqn:X.
    - right. unfold to_spx. cbn [TIMER TIMELIMIT]. rewrite X. split; auto.
      subst p'. cbn [spx_resolved time_limit]. rewrite X, Sc, orb_true_r. auto.
    - left. assert (TL' : dleb (time_limit p') d0 = false) by (apply TL; discriminate).
      destruct H2 as [?|H2]; [discriminate|]. unfold to_spx. cbn [TIMELIMIT].
      rewrite (above0_neq _ TL'), (above0_neq _ H2). cbn [orb]. subst p'. cbn [spx_resolved time_limit]. rewrite X.
      destruct (dleb (spx_infty R) (time_limit p)) eqn:Y; rewrite ?Y; auto using if_same.
    - left. assert (TL' : dleb (time_limit p') d0 = false) by (apply TL; discriminate).
      destruct H2 as [?|H2]; [discriminate|]. unfold to_spx. cbn [TIMELIMIT].
      rewrite (above0_neq _ TL'), (above0_neq _ H2). cbn [orb]. subst p'. cbn [spx_resolved time_limit]. rewrite X.
      destruct (dleb (spx_infty R) (time_limit p)) eqn:Y; rewrite ?Y; auto using if_same.
    - congruence. }
  split; auto. split.
  - exists (TIMELIMIT (to_spx R p')). split; auto. unfold with_timelimit.
    assert (forall a b : spx_params, SCALER a = SCALER b -> SIMPLIFIER a = SIMPLIFIER b -> PRICER a = PRICER b ->
      FEASTOL a = FEASTOL b -> OPTTOL a = OPTTOL b -> MIN_MARKOWITZ a = MIN_MARKOWITZ b ->
      FACTOR_UPDATE_MAX a = FACTOR_UPDATE_MAX b -> OBJLIMIT_LOWER a = OBJLIMIT_LOWER b ->
      OBJLIMIT_UPPER a = OBJLIMIT_UPPER b -> TIMER a = TIMER b -> TIMELIMIT a = TIMELIMIT b ->
      ITERLIMIT a = ITERLIMIT b -> seed a = seed b -> debug_output a = debug_output b -> a = b) as EXT.
    { intros [] []; cbn. intros. subst. auto. }
    apply EXT; auto; unfold to_spx, p';
      cbn [SCALER SIMPLIFIER PRICER FEASTOL OPTTOL MIN_MARKOWITZ FACTOR_UPDATE_MAX OBJLIMIT_LOWER OBJLIMIT_UPPER
       TIMER TIMELIMIT ITERLIMIT seed debug_output spx_resolved scaling_strategy feasibility_tolerance
       optimality_tolerance min_markowitz_threshold objective_lower_limit objective_upper_limit]; auto.
    + destruct (scaling_strategy p); auto.
    + apply dmax_twice.
    + apply dmin_twice.
  - apply params_ext; auto; unfold p';
      cbn [spx_resolved scaling_strategy feasibility_tolerance timing_mode time_limit iteration_limit
       optimality_tolerance min_markowitz_threshold objective_lower_limit objective_upper_limit]; auto.
    + destruct (scaling_strategy p); auto.
    + apply dmax_twice.
    + apply dmin_twice.
    + destruct (timing_mode p); auto; destruct (dleb (spx_infty R) (time_limit p)) eqn:Y; rewrite ?Y; auto using if_same.
    + destruct (INT_MAX <=? iteration_limit p) eqn:X; rewrite ?X; auto.
Qed.

(** The settings come from parameters that were accepted. *)
Definition settled (q : spx_params) (b : bool) : Prop :=
  exists p, soplex_supports p /\ takes R p /\ q = to_spx R p.

Lemma settled_get q b : settled q b -> exists p, soplex_supports p /\ takes R p /\
  from_spx q b = p /\ from_spx (to_spx R p) b = p.
Proof.
  intros (p & S & T & ->). exists (spx_resolved b (spx_infty R) p).
  destruct (resolved_again p b S) as (S' & (t & E1 & E2) & E3).
  rewrite resolved_ok by auto. split; auto. split; [|split; auto].
  - unfold takes in *. rewrite E1. destruct E2 as [->|[_ ->]].
    + replace (with_timelimit (to_spx R p) (TIMELIMIT (to_spx R p))) with (to_spx R p) by (destruct (to_spx R p); auto). auto.
    + unfold spx_accepts in *. cbn [with_timelimit FEASTOL OPTTOL MIN_MARKOWITZ FACTOR_UPDATE_MAX OBJLIMIT_LOWER OBJLIMIT_UPPER
       TIMER TIMELIMIT ITERLIMIT]. rewrite !andb_true_iff in *. destruct Sane. intuition.
  - rewrite resolved_ok by auto. auto.
Qed.

Lemma set_params_settled b q p : settled q b ->
  exists q' ok, SoplexSetLpParameters 2 R b q p = Ok (q', ok) /\ settled q' b /\
    (ok = true <-> soplex_supports p /\ takes R p) /\
    (ok = true -> q' = to_spx R p) /\ (ok = false -> from_spx q' b = from_spx q b).
Proof.
  intros S. cbn [SoplexSetLpParameters].
  destruct (LpParametersAreSupportedBySoPlex p) eqn:U; cbn [negb].
  - pose proof (proj1 (spx_supported_iff p) U) as Sp. destruct (spx_accepts R (to_spx R p)) eqn:A.
    + rewrite spx_put_all by auto. exists (to_spx R p), true. split; auto. split; [exists p; auto|].
      split; [split; auto|]. split; auto. discriminate.
    + destruct (settled_get q b S) as (p0 & S0 & T0 & -> & G0).
      rewrite (proj2 (spx_supported_iff p0) S0). cbn [negb]. rewrite T0. cbn [bind check].
      rewrite spx_put_all by auto. exists (to_spx R p0), false. split; auto. split; [exists p0; auto|].
      split; [split; [discriminate|]|split; [discriminate|auto]].
      intros [_ X]. unfold takes in X. congruence.
  - exists q, false. split; auto. split; auto. split; [split; [discriminate|]|split; [discriminate|auto]].
    intros [X _]. apply spx_supported_iff in X. congruence.
Qed.

Lemma settled_simplifier q b c : settled q b -> settled (with_simplifier q c) b.
Proof.
  intros (p & S & T & ->).
  exists (mkParams (lp_solver_type p) (solve_from_scratch p) (scaling_strategy p) c (pricing_strategy p)
    (feasibility_tolerance p) (optimality_tolerance p) (min_markowitz_threshold p) (refactorization_interval p)
    (objective_lower_limit p) (objective_upper_limit p) (timing_mode p) (time_limit p) (iteration_limit p)
    (num_threads p) (random_seed p) (enable_internal_solver_output p)).
  split; [exact S|]. split; [exact T|]. reflexivity.
Qed.
Lemma settled_accepts q b : settled q b -> spx_accepts R q = true.
Proof. intros (p & _ & T & ->). exact T. Qed.
End Rules.

(** ** The settings through any history *)
Section Settings.
Context {E : spx_engine}.
Implicit Type s : sstate E.
Notation R := (x_rules E).

Lemma strong_params r0 s c v limit s' r b : settled R (s_params s) b ->
  SpxSolveDownAndUpStrongBranch r0 s c v limit = Ok (s', r) ->
  s_params s' = s_params s /\ s_dual s' = true.
Proof.
  intros S H. pose proof (settled_accepts _ _ _ S) as A. unfold spx_accepts in A. rewrite !andb_true_iff in A.
  destruct A as [_ A].
  unfold SpxSolveDownAndUpStrongBranch in H. apply bind_ok in H as (g & Hg & H).
  apply bind_ok in H as ([[s1 down] n1] & H1 & H). apply bind_ok in H as ([[s2 up] n2] & H2 & H).
  assert (K1 : exists n, s_params s1 = with_iterlimit (s_params s) n /\ s_dual s1 = true).
  { destruct (dleb _ _) in H1.
    - apply bind_ok in H1 as (p1 & E1 & H1). apply bind_ok in H1 as ([[s3 j] n] & E2 & H1).
      apply bind_ok in H1 as (p2 & E3 & H1). injection H1 as <- _ _.
      apply branch_solve_lp in E2 as (_ & A2 & A3 & _). cbn in A2, A3. eexists. cbn. rewrite A2, A3. split; [reflexivity|auto].
    - injection H1 as <- _ _. exists (ITERLIMIT (s_params s)). cbn. split; auto. destruct (s_params s); auto. }
  assert (K2 : exists n, s_params s2 = with_iterlimit (s_params s) n /\ s_dual s2 = true).
  { destruct K1 as (m & K1 & K1'). destruct down; [|injection H2 as <- _ _; eauto].
    destruct (dleb _ _) in H2; [|injection H2 as <- _ _; eauto].
    apply bind_ok in H2 as (p1 & E1 & H2). apply bind_ok in H2 as ([[s3 j] n] & E2 & H2).
    apply bind_ok in H2 as (p2 & E3 & H2). injection H2 as <- _ _.
    apply branch_solve_lp in E2 as (_ & A2 & A3 & _). cbn in A2, A3. eexists. cbn. rewrite A2, A3, K1. split; [reflexivity|auto]. }
  destruct K2 as (m & K2 & K3).
  assert (P : s_params s' = put_iterlimit (E := E) (s_params s2) (ITERLIMIT (s_params s)) /\ s_dual s' = s_dual s2).
  { destruct down as [[d dv]|]; [destruct up as [[u uv]|]|]; injection H as <- _; auto. }
  destruct P as [P ->]. split; auto. rewrite P, K2. unfold put_iterlimit, put. rewrite A. destruct (s_params s); auto.
Qed.

Lemma solve_params d s s' ok b : s_scratch s = false -> settled R (s_params s) b -> SpxSolveLp d s = Ok (s', ok) ->
  s_params s' = with_simplifier (s_params s) false /\ s_dual s' = d.
Proof.
  intros Sc S H. pose proof (settled_accepts _ _ _ S) as A. unfold spx_accepts in A. rewrite !andb_true_iff in A.
  destruct A as [[_ A] _].
  unfold SpxSolveLp, SoPlexSolve in H. apply bind_ok in H as (u & _ & H).
  cbn [s_scratch with_params invalidated with_algorithm] in H. rewrite Sc in H.
  apply bind_ok in H as (u2 & _ & H). apply bind_ok in H as ([s1 st] & H1 & H). injection H as <- _.
  unfold LpSolve in H1. apply bind_ok in H1 as (u3 & _ & H1). apply bind_ok in H1 as (u4 & _ & H1).
  destruct (x_optimize _ _ _ _) as [threw x]. apply bind_ok in H1 as (u5 & _ & H1).
  apply bind_ok in H1 as (u6 & _ & H1). apply bind_ok in H1 as (u7 & _ & H1). injection H1 as <- _.
  cbn [s_params with_params spx_with_x with_algorithm invalidated s_dual with_simplifier TIMELIMIT]. split; auto.
  unfold put_timelimit, put. rewrite A. destruct (dltb _ _); reflexivity.
Qed.

Lemma step_settled s c s' x : sane_rules R -> s_scratch s = false -> settled R (s_params s) false ->
  sstep s c = Ok (s', x) -> s_scratch s' = false /\ settled R (s_params s') false.
Proof.
  intros Sane Sc S H.
  assert (ED : forall o, spx_edited s o = Ok (s', x) -> s_scratch s' = false /\ settled R (s_params s') false).
  { intros o Ho. unfold spx_edited in Ho. apply bind_ok in Ho as (u & _ & Ho). apply bind_ok in Ho as (p & _ & Ho).
    injection Ho as <- _. auto. }
  destruct c; cbn [sstep] in H; try (eapply ED; exact H).
  - apply bind_ok in H as (p & _ & H). injection H as <- _. auto.
  - apply bind_ok in H as ([s1 m] & H1 & H). injection H as <- _. unfold SpxDeleteRowSet in H1.
    apply bind_ok in H1 as (u & _ & H1). apply bind_ok in H1 as (perm & _ & H1).
    apply bind_ok in H1 as ([p perm'] & _ & H1). injection H1 as <- _. auto.
  - destruct (x_clear_basis E (s_x s)) as [threw y]. destruct threw.
    + apply bind_ok in H as (u & _ & H). injection H as <- _. auto.
    + injection H as <- _. auto.
  - apply bind_ok in H as (u & _ & H). apply bind_ok in H as (u2 & _ & H). apply bind_ok in H as (p & _ & H).
    injection H as <- _. auto.
  - apply bind_ok in H as ([s1 ok] & H1 & H). injection H as <- _. cbn [spx_reply fst].
    pose proof (Solve_lp _ _ _ _ H1) as (_ & -> & _). split; auto.
    destruct (solve_params _ _ _ _ _ Sc S H1) as [-> _]. apply settled_simplifier. auto.
  - apply bind_ok in H as (s1 & H1 & H). injection H as <- _. unfold SpxStartStrongBranching in H1.
    apply bind_ok in H1 as (u & _ & H1). apply save_solved in H1 as (_ & -> & _ & -> & _). auto.
  - apply bind_ok in H as (s1 & H1 & H). injection H as <- _. unfold SpxEndStrongBranching in H1.
    apply bind_ok in H1 as (u & _ & H1). apply bind_ok in H1 as (s2 & H2 & H1). injection H1 as <-.
    apply restore_lp in H2 as (_ & A & _ & B & _). cbn. rewrite A, B. auto.
  - apply bind_ok in H as ([s1 r] & H1 & H). injection H as <- _.
    destruct (strong_params _ _ _ _ _ _ _ _ S H1) as [-> _]. apply strong_lp in H1 as (_ & -> & _). auto.
  - apply bind_ok in H as ([s1 b] & H1 & H). injection H as <- _. apply set_basis_solved in H1 as (_ & A & _ & B).
    cbn. rewrite A, B. auto.
  - apply bind_ok in H as ([s1 b] & H1 & H). injection H as <- _. unfold SpxSetLpParameters in H1. rewrite Sc in H1.
    destruct (set_params_settled R Sane false (s_params s) p S) as (q' & ok & E1 & S' & _). rewrite E1 in H1.
    injection H1 as <- _. auto.
  - apply bind_ok in H as ([s1 b] & H1 & H). injection H as <- _.
    unfold SpxReadLpFromFile in H1. apply bind_ok in H1 as (u & _ & H1). destruct f; injection H1 as <- _; auto.
  - destruct (SpxWriteLpToFile s path written); try discriminate; injection H as <- _; auto.
  - injection H as <- _. auto.
Qed.

Lemma run_settled l : sane_rules R -> forall s s' xs, s_scratch s = false -> settled R (s_params s) false ->
  srun s l = Ok (s', xs) -> s_scratch s' = false /\ settled R (s_params s') false.
Proof.
  intros Sane. induction l as [|c l IH]; intros s s' xs Sc S H; cbn [srun] in H.
  - injection H as <- _. auto.
  - apply bind_ok in H as ([s1 x] & H1 & H). apply bind_ok in H as ([s2 ys] & H2 & H). injection H as <- _.
    destruct (step_settled _ _ _ _ Sane Sc S H1) as [S1 S2]. eauto.
Qed.

Lemma new_settled p0 mx s : spx_new (E := E) p0 mx = Ok s -> s_scratch s = false /\ settled R (s_params s) false.
Proof.
  unfold spx_new, SpxSetLpParameters. intros H. apply bind_ok in H as ([s1 ok] & H1 & H).
  apply bind_ok in H as (u & H2 & H). apply check_ok in H2. subst ok. injection H as <-.
  apply bind_ok in H1 as ([q ok] & H1 & H2). injection H2 as <- ->. cbn [s_scratch s_params] in H1.
  cbn [SoplexSetLpParameters] in H1.
  destruct (LpParametersAreSupportedBySoPlex (default_params LP_SOPLEX)) eqn:U; cbn [negb] in H1; [|discriminate].
  destruct (spx_accepts R (to_spx R (default_params LP_SOPLEX))) eqn:A.
  - injection H1 as <-. rewrite spx_put_all by auto. split; auto. exists (default_params LP_SOPLEX).
    split; [apply spx_supported_iff; auto|]. split; auto.
  - apply bind_ok in H1 as ([q2 ok2] & _ & H1). apply bind_ok in H1 as (u2 & _ & H1). discriminate.
Qed.

(** *** Reading back what was set *)
Lemma reached_settled s : sane_rules R -> reached s -> s_scratch s = false /\ settled R (s_params s) false.
Proof.
  intros Sane (p0 & mx & s0 & l & xs & H0 & H). apply new_settled in H0 as [A B].
  eapply run_settled; eauto.
Qed.

Lemma spx_set_get s p : sane_rules R -> reached s ->
  exists s' ok, SpxSetLpParameters s p = Ok (s', ok) /\
    (ok = true <-> soplex_supports p /\ takes R p) /\
    (ok = true -> SpxGetLpParameters s' = spx_resolved false (spx_infty R) p) /\
    (ok = false -> SpxGetLpParameters s' = SpxGetLpParameters s) /\
    s_lp s' = s_lp s /\ SpxIsSolved s' = SpxIsSolved s /\ s_x s' = s_x s /\ freed s' = freed s.
Proof.
  intros Sane Re. destruct (reached_settled s Sane Re) as [Sc S].
  unfold SpxSetLpParameters. rewrite Sc.
  destruct (set_params_settled R Sane false (s_params s) p S) as (q & ok & E1 & S' & I1 & I2 & I3).
  rewrite E1. cbn [bind]. exists (with_params s q), ok. split; auto. split; auto.
  unfold SpxGetLpParameters. cbn [with_params s_params s_scratch]. rewrite Sc. split; [|auto].
  intros Ok_. rewrite (I2 Ok_). apply resolved_ok. apply I1. auto.
Qed.

Lemma spx_get_set s : sane_rules R -> reached s ->
  exists s', SpxSetLpParameters s (SpxGetLpParameters s) = Ok (s', true) /\
    SpxGetLpParameters s' = SpxGetLpParameters s.
Proof.
  intros Sane Re. destruct (reached_settled s Sane Re) as [Sc S].
  destruct (spx_set_get s (SpxGetLpParameters s) Sane Re) as (s' & ok & E1 & I1 & I2 & _).
  destruct (settled_get R Sane (s_params s) false S) as (p & S1 & T1 & G1 & G2).
  unfold SpxGetLpParameters in *. rewrite Sc in *. rewrite G1 in *.
  assert (ok = true) by (apply I1; auto). subst ok. exists s'. split; auto.
  rewrite I2 by auto. rewrite <- resolved_ok by auto. exact G2.
Qed.

Lemma spx_solve_params s d s' ok : sane_rules R -> reached s -> SpxSolveLp d s = Ok (s', ok) ->
  SpxGetLpParameters s' = with_presolve false (SpxGetLpParameters s).
Proof.
  intros Sane Re H. destruct (reached_settled s Sane Re) as [Sc S].
  destruct (solve_params _ _ _ _ _ Sc S H) as [Ep _]. apply Solve_lp in H as (_ & Es & _).
  unfold SpxGetLpParameters. rewrite Ep, Es. reflexivity.
Qed.

(** *** Crossing bounds *)
Lemma spx_crossing s d g : reached s -> sane_rules R -> In g (g_cols (s_lp s)) ->
  dltb (dadd (g_ub g) (x_eps_zero E)) (g_lb g) = true -> SpxSolveLp d s = Abort.
Proof.
  intros Re Sane Hg Hc. destruct (reached_settled s Sane Re) as [Sc _].
  unfold SpxSolveLp, SoPlexSolve. destruct (freed _); cbn [check bind]; auto.
  cbn [s_scratch with_params invalidated with_algorithm]. rewrite Sc. cbn [negb orb check bind].
  assert (CB : forall s', s_lp s' = s_lp s -> CheckConsistentBounds s' = false).
  { intros s' L. apply not_true_iff_false. unfold CheckConsistentBounds. rewrite L, forallb_forall. intros F.
    specialize (F g Hg). rewrite Hc in F. discriminate. }
  unfold LpSolve. rewrite CB by reflexivity. destruct (negb _ || _); reflexivity.
Qed.
Lemma spx_crossing_rows s d g : reached s -> sane_rules R -> In g (g_rows (s_lp s)) ->
  dltb (dadd (g_rhs g) (x_eps_zero E)) (g_lhs g) = true -> SpxSolveLp d s = Abort.
Proof.
  intros Re Sane Hg Hc. destruct (reached_settled s Sane Re) as [Sc _].
  unfold SpxSolveLp, SoPlexSolve. destruct (freed _); cbn [check bind]; auto.
  cbn [s_scratch with_params invalidated with_algorithm]. rewrite Sc. cbn [negb orb check bind].
  assert (CB : forall s', s_lp s' = s_lp s -> CheckConsistentSides s' = false).
  { intros s' L. apply not_true_iff_false. unfold CheckConsistentSides. rewrite L, forallb_forall. intros F.
    specialize (F g Hg). rewrite Hc in F. discriminate. }
  unfold LpSolve. rewrite CB by reflexivity. destruct (negb _ || _), (CheckConsistentBounds _); reflexivity.
Qed.
End Settings.
