(** The whole solver's environment, restricted to the states it can reach, meets the assumptions of
    the theorems on the branch-and-bound loop. *)
From Coq Require Import String List ZArith Bool QArith Qabs Lia ZifyBool Permutation Sorted SpecFloat.
From Verif Require Import Outcome OutcomeFacts Num Double DoubleFacts Rounding SparseVector SparseVectorFacts VectorSpec
  Aggregation Problem MipData ProblemSpec MipDataProofs CutsData Selector Runner CutSpec CutProofs LpParams
  GlopLp GlopIface GlopSpec GlopProofs GlopMore SoplexIface SoplexSpec SoplexProofs SoplexMore Branching Params ReaderSpec ReaderProofs
  MipTree TreeSpec BranchingProofs Solver SolverSpec SolverProofs SolverUncrossed Simulate SolverAgain Whole WholeSpec WholeTables WholeSoplex WholeProofs.
Import ListNotations.
Open Scope Z_scope.
Strategy 1000 [SolveInternal SolveLp].

Section Run.
Context {E : engine} {X : spx_engine} (k : solver_type) (LAWS : plain_lp E X k) (G : Type).
Context (p : problem) (PP : proper_problem p) (VALID : Prop).
Context (Q : cut -> Prop) (QP : forall c, Q c -> fitting_cut p c)
  (QV : VALID -> forall c, Q c -> proper_cut p c /\ valid_cut p c)
  (QS : forall c c', row c' = row c -> right_hand_side c' = right_hand_side c -> Q c -> Q c').
Context (sort : list cut -> list cut) (SORT : sorts sort) (draw : whole (E := E) (X := X) G -> Z -> Z)
  (make : list rounder * Z -> generator (E := E) (X := X) G) (c : config E X) (d : mip_data) (order : list Z).
Let gens := map make (rc_generators (cf_runner c)).
Let rp := rc_limits (cf_runner c).
Context (CUTS : max_iterations rp <= 0 \/ Forall (gives_q k G p VALID Q) gens).
Context (MD : MipData p = Ok d) (ND : NoDup order) (IN : forall j, In j order <-> is_integer_var p j).
Context (dir : direction) (RULE : cf_rule c = (UseMaxFractional, dir)).
Context (TOL : dvalid (cf_integrality c) = true /\ is_finite (cf_integrality c) = true /\ 0 <= zval (cf_integrality c)).
Let E1 : env (whole (E := E) (X := X) G) := whole_env G sort draw make c d order.
Let I : whole (E := E) (X := X) G -> Prop := inv k G p VALID Q.

Lemma set_inv w j l u : I w -> In j order -> forall w', set_bounds E1 w j l u = Ok w' -> I w'.
Proof.
  intros (GD & C & N) J w' H. cbn in H. unfold on_whole, on_lp in H.
  destruct (set_column_good k p VALID (lp_of w) j l u GD (proj1 (IN j) J)) as (s' & S & GD' & _).
  unfold lp_of in S at 1. rewrite S in H. cbn [bind] in H. injection H as <-. split; [exact GD'|]. split; assumption.
Qed.
Lemma solve_inv w : I w -> forall w', solve_dual E1 w = Ok w' -> I w'.
Proof.
  intros (GD & C & N) w' H. cbn in H. unfold on_whole, on_lp in H.
  apply bind_ok in H as (x & H1 & H). apply bind_ok in H1 as (s & H1 & H2). injection H2 as <-. injection H as <-.
  apply (dual_simplex_good k LAWS p VALID) in H1; [|exact GD]. split; [apply H1|]. split; assumption.
Qed.
Lemma separate_inv w : I w -> forall w', Solver.separate E1 w = Ok w' -> I w'.
Proof.
  intros W w' H. cbn in H. unfold run_separation, Separate in H.
  apply (separate_q k LAWS G p VALID Q QP QV QS sort SORT gens (rc_selector (cf_runner c)) rp CUTS) in H; [apply H|exact W].
Qed.

(** The environment on the reachable states.  SetColumnBounds is only called for integer variables,
    and the LP counts as optimal only after a solve. *)
Definition E2 : env (kept I) :=
  mkEnv (kept I)
    (fun w j l u => match in_dec Z.eq_dec j order with
       | left J => lift I (set_bounds E1 (proj1_sig w) j l u) (set_inv _ _ _ _ (proj2_sig w) J)
       | right _ => Abort end)
    (fun w => lift I (solve_dual E1 (proj1_sig w)) (solve_inv _ (proj2_sig w)))
    (fun w => lpi_optimal (lp_of (proj1_sig w)) && lpi_solved (lp_of (proj1_sig w)))
    (fun w => objective_value E1 (proj1_sig w))
    (fun w => primal_values E1 (proj1_sig w))
    (fun w => lift I (Solver.separate E1 (proj1_sig w)) (separate_inv _ (proj2_sig w)))
    (fun w => branch E1 (proj1_sig w))
    d (cf_integrality c) (cf_backtrack c) order.

Lemma solve_step w w' : solve_dual E2 w = Ok w' ->
  dual_simplex (lp_of (proj1_sig w)) = Ok (lp_of (proj1_sig w')).
Proof.
  intros H. apply lift_ok in H. cbn in H. unfold on_whole, on_lp in H.
  apply bind_ok in H as (x & H1 & H). apply bind_ok in H1 as (s & H1 & H2). injection H2 as <-. injection H as H.
  rewrite <- H. exact H1.
Qed.
Lemma separate_step w w' : Solver.separate E2 w = Ok w' ->
  sep_rel p Q (lp_of (proj1_sig w)) (lp_of (proj1_sig w')) /\
  (lpi_solved (lp_of (proj1_sig w)) = true -> lpi_solved (lp_of (proj1_sig w')) = true).
Proof.
  intros H. apply lift_ok in H. cbn in H. unfold run_separation, Separate in H.
  apply (separate_q k LAWS G p VALID Q QP QV QS sort SORT gens (rc_selector (cf_runner c)) rp CUTS) in H; [apply H|exact (proj2_sig w)].
Qed.
Lemma set_step w j l u w' : set_bounds E2 w j l u = Ok w' ->
  is_integer_var p j /\
  lp_table (lp_of (proj1_sig w')) = with_bounds (lp_table (lp_of (proj1_sig w))) j l u.
Proof.
  intros H. cbn [set_bounds E2] in H. destruct (in_dec Z.eq_dec j order) as [J|J]; [|discriminate H].
  apply lift_ok in H. apply IN in J. split; [exact J|]. cbn in H. unfold on_whole, on_lp in H.
  destruct (set_column_good k p VALID (lp_of (proj1_sig w)) j l u (proj1 (proj2_sig w)) J) as (s' & S & _ & T).
  unfold lp_of in S at 1. rewrite S in H. cbn [bind] in H. injection H as H. rewrite <- H. exact T.
Qed.
Lemma optimal2 w : is_optimal E2 w = true -> lpi_optimal (lp_of (proj1_sig w)) = true /\ lpi_solved (lp_of (proj1_sig w)) = true.
Proof. cbn [is_optimal E2]. intros H. apply andb_prop in H as [A B]. auto. Qed.
Lemma optimal2_solved w : lpi_solved (lp_of (proj1_sig w)) = true -> is_optimal E2 w = lpi_optimal (lp_of (proj1_sig w)).
Proof. intros M. cbn [is_optimal E2]. rewrite M. apply andb_true_r. Qed.

Lemma env2_simulates : simulates E1 E2 (@proj1_sig _ I).
Proof.
  constructor; try reflexivity.
  - intros w j l u J. cbn [set_bounds E2]. destruct (in_dec Z.eq_dec j order) as [J'|J']; [|contradiction].
    symmetry. apply lift_omap.
  - intros w. symmetry. apply lift_omap.
  - intros w w' H. apply solve_step in H. symmetry. apply optimal2_solved.
    apply (dual_simplex_good k LAWS p VALID) in H; [apply H|exact (proj1 (proj2_sig w))].
  - intros w _. symmetry. apply lift_omap.
  - intros w w' O H. apply separate_step in H as [_ H]. symmetry. apply optimal2_solved. apply H. apply optimal2. exact O.
Qed.

Definition bounds2 (w : kept I) := bounds_of (lp_of (proj1_sig w)).
Definition rows2 (w : kept I) := rows_of p (lp_of (proj1_sig w)).

Lemma env2_ok : env_ok E2 p.
Proof.
  constructor.
  - apply (pp_ok p PP).
  - exact MD.
  - apply (pp_bounds p PP).
  - destruct (loaded p (pp_ok p PP) (problem_bounds_ordered p PP)) as (d' & M & _ & _ & _ & _ & _ & _ & _ & _ & _ & _ & N & V & _).
    rewrite MD in M. injection M as <-. cbn [Solver.order data E2].
    apply NoDup_Permutation; auto. intros j. rewrite IN, V. reflexivity.
Qed.
Lemma env2_mf : max_fractional_env E2 dir.
Proof.
  split; [|exact TOL]. intros w x H. cbn [primal_values E2 E1 whole_env] in H.
  cbn [branch E2 E1 whole_env tolerance Solver.order]. unfold next_branching. rewrite RULE, H. reflexivity.
Qed.
Lemma env2_primal w x : is_optimal E2 w = true -> primal_values E2 w = Ok x ->
  Z.of_nat (length x) = num_vars p /\ Forall (fun v => dvalid v = true) x /\
  forall j v, at_ x j = Ok v -> finite_double v.
Proof.
  intros O H. apply optimal2 in O as [O M]. cbn [primal_values E2 E1 whole_env] in H.
  destruct (good_primal k LAWS p VALID _ (proj1 (proj2_sig w)) M O) as (x' & PX & L & F & _). rewrite H in PX. injection PX as <-.
  split; [exact L|]. split; [|exact F].
  apply Forall_forall. intros v Hv. apply In_at in Hv as [j Hj]. apply F in Hj. apply Hj.
Qed.
Lemma env2_branch : branch_ok E2 /\ branch_fractional E2 /\
  forall w x, is_optimal E2 w = true -> primal_values E2 w = Ok x ->
    SolutionIsIntegral (Solver.order E2) x (tolerance E2) = Ok false -> exists j up, branch E2 w = Ok (j, up).
Proof.
  apply (max_fractional_finite E2 p env2_ok dir env2_mf). intros w x O H.
  destruct (env2_primal w x O H) as (A & B & C). split; [exact A|]. split; [exact B|]. intros j v _ Hv. exact (C j v Hv).
Qed.
Lemma env2_random dir' : cf_rule c = (UseRandom, dir') -> integers_first p -> (forall w, is_draw (draw w)) -> branch_ok E2.
Proof.
  clear dir RULE TOL. intros RR IF DR w x O H _ j up B. cbn [branch E2 E1 whole_env] in B. unfold next_branching in B. rewrite RR in B.
  assert (V : forall i, In i (integer_variables d) <-> is_integer_var p i).
  { intros i. rewrite <- IN. pose proof (eo_order _ _ env2_ok) as PO. cbn [Solver.order data E2] in PO. split; intros K.
    - exact (Permutation_in i (Permutation_sym PO) K).
    - exact (Permutation_in i PO K). }
  assert (R : forall i, is_integer_var p i -> 0 <= i < num_vars p) by (intros i (v & A & _); apply nth_var_at, at_in_range in A; exact A).
  assert (J : In j (integer_variables d)).
  { refine (random_spec _ _ _ _ _ (DR (proj1_sig w)) _ _ _ B).
    - pose proof (eo_order _ _ env2_ok) as PO. cbn [Solver.order data E2] in PO. exact (Permutation_NoDup PO ND).
    - apply Forall_forall. intros i K. apply V, R in K. lia.
    - intros a b K L. apply V. apply (IF a b); auto. apply V. exact K. }
  split; [cbn [Solver.order E2]; apply IN, V; exact J|]. apply V, R in J. destruct (env2_primal w x O H) as (L & _ & F).
  destruct (at_range x j) as [v Hv]; [lia|]. exists v. split; [exact Hv|exact (F j v Hv)].
Qed.
Lemma env2_valid w : dvalid (objective_value E2 w) = true.
Proof. exact (objective_valid k LAWS p VALID _ (proj1 (proj2_sig w))). Qed.

Lemma env2_set_bounds w j l u w' : set_bounds E2 w j l u = Ok w' ->
  bounds2 w' j = (l, u) /\ (forall k, k <> j -> bounds2 w' k = bounds2 w k) /\ (forall x, rows2 w x -> rows2 w' x).
Proof.
  intros H. apply set_step in H as [J T]. unfold bounds2, rows2, bounds_of, rows_of. rewrite T. split; [|split].
  - rewrite at_with_bounds. destruct J as (v & Jv & _).
    destruct (good_col k p VALID _ j v (proj1 (proj2_sig w)) Jv) as [g Hg]. rewrite Hg. rewrite Z.eqb_refl. reflexivity.
  - intros i K. rewrite at_with_bounds. destruct (at_ _ i) as [g| | | |]; try reflexivity.
    destruct (Z.eqb_spec i j); [contradiction|reflexivity].
  - intros x [R B]. split; [|exact B]. apply rows_hold_bounds. exact R.
Qed.
Lemma env2_solve_bounds w w' : solve_dual E2 w = Ok w' ->
  (forall j, bounds2 w' j = bounds2 w j) /\ (forall x, rows2 w x -> rows2 w' x).
Proof.
  intros H. apply solve_step in H. apply (dual_simplex_good k LAWS p VALID) in H; [|exact (proj1 (proj2_sig w))].
  destruct H as (_ & L & _). unfold bounds2, rows2, bounds_of, rows_of, lp_table. rewrite L. auto.
Qed.
Lemma env2_keeps : lp_keeps_bounds E2 bounds2.
Proof.
  constructor.
  - intros w j l u w' H. apply env2_set_bounds in H as (A & B & _). auto.
  - intros w w' H. apply env2_solve_bounds in H as [A _]. exact A.
  - intros w w' H. apply separate_step in H as [[A _] _]. exact A.
Qed.
Lemma env2_inside : inside_lp E X k -> lp_inside E2 p bounds2.
Proof.
  intros EI w x O H. destruct (env2_primal w x O H) as (A & B & C). split; [exact A|]. split; [exact B|].
  intros j v _ Hv. split; [exact (C j v Hv)|]. apply optimal2 in O as [O M].
  cbn [primal_values E2 E1 whole_env] in H.
  destruct (good_primal k LAWS p VALID _ (proj1 (proj2_sig w)) M O) as (x' & PX & _ & _ & IX & _). rewrite H in PX. injection PX as <-.
  exact (IX EI j v Hv).
Qed.
Lemma env2_optimum w x : VALID -> exact_lp E X k -> bounded_relaxation p -> lpi_solved (lp_of (proj1_sig w)) = true ->
  no_wider p (bounds2 w) -> rows2 w x -> in_lp_box p (bounds2 w) x ->
  is_optimal E2 w = true /\ q_above (objective_value E2 w) (cost p x).
Proof.
  intros VA XE BR M NW R B. rewrite (optimal2_solved w M).
  exact (good_optimum k p PP VALID (lp_of (proj1_sig w)) x VA XE BR (proj1 (proj2_sig w)) M NW R B).
Qed.
Lemma env2_sound w0 : VALID -> exact_lp E X k -> bounded_relaxation p ->
  lp_table (lp_of (proj1_sig w0)) = nameless (problem_table p) -> lp_sound E2 p w0 bounds2 rows2.
Proof.
  intros VA XE BR T0. constructor.
  - intros x [F1 F2]. unfold rows2, rows_of. rewrite T0. split.
    + apply nl_rows, problem_rows_hold; auto.
    + intros j v Jv _. destruct (F1 j v Jv) as (A & B & _). auto.
  - exact env2_set_bounds.
  - intros w w' H. destruct (env2_solve_bounds w w' H) as [A B]. split; [exact A|]. split; [exact B|].
    intros NW x R BX. apply env2_optimum; auto. apply solve_step in H.
    apply (dual_simplex_good k LAWS p VALID) in H; [apply H|exact (proj1 (proj2_sig w))].
  - intros w w' O H. apply optimal2 in O as [_ M]. destruct (separate_step w w' H) as [[A B] C]. split; [exact A|]. split.
    + intros x F R. apply B; auto. intros q QK. apply (QV VA q QK). exact F.
    + intros NW x R BX. apply env2_optimum; auto.
Qed.

Lemma env2_unless w x : VALID -> honest_lp E X k -> lpi_solved (lp_of (proj1_sig w)) = true ->
  no_wider p (bounds2 w) -> rows2 w x -> in_lp_box p (bounds2 w) x ->
  is_optimal E2 w = true /\ q_above (objective_value E2 w) (cost p x) \/
  is_optimal E2 w = false /\ ~ says_infeasible (lp_of (proj1_sig w)).
Proof.
  intros VA XE M NW R B. rewrite (optimal2_solved w M).
  exact (good_honest k p PP VALID (lp_of (proj1_sig w)) x VA XE (proj1 (proj2_sig w)) M NW R B).
Qed.
Lemma env2_honest w0 : VALID -> honest_lp E X k ->
  lp_table (lp_of (proj1_sig w0)) = nameless (problem_table p) ->
  lp_honest E2 p w0 bounds2 rows2 (fun w => ~ says_infeasible (lp_of (proj1_sig w))).
Proof.
  intros VA XE T0. constructor.
  - intros x [F1 F2]. unfold rows2, rows_of. rewrite T0. split.
    + apply nl_rows, problem_rows_hold; auto.
    + intros j v Jv _. destruct (F1 j v Jv) as (A & B & _). auto.
  - exact env2_set_bounds.
  - intros w w' H. destruct (env2_solve_bounds w w' H) as [A B]. split; [exact A|]. split; [exact B|].
    intros NW x R BX. apply env2_unless; auto. apply solve_step in H.
    apply (dual_simplex_good k LAWS p VALID) in H; [apply H|exact (proj1 (proj2_sig w))].
  - intros w w' O H. apply optimal2 in O as [_ M]. destruct (separate_step w w' H) as [[A B] C]. split; [exact A|]. split.
    + intros x F R. apply B; auto. intros q QK. apply (QV VA q QK). exact F.
    + intros NW x R BX. apply env2_unless; auto.
Qed.

Definition total_gens : Prop := Forall (runs_q k G p VALID Q) gens \/ max_iterations rp <= 0.
Lemma set2_total w j l u : is_integer_var p j -> exists w', set_bounds E2 w j l u = Ok w'.
Proof.
  intros J. cbn [set_bounds E2]. destruct (in_dec Z.eq_dec j order) as [J'|J']; [|apply IN in J; contradiction].
  destruct (set_column_good k p VALID (lp_of (proj1_sig w)) j l u (proj1 (proj2_sig w)) J) as (s' & S & _).
  assert (H : exists w', set_bounds E1 (proj1_sig w) j l u = Ok w').
  { cbn. unfold on_whole, on_lp. unfold lp_of in S at 1. rewrite S. cbn [bind]. eauto. }
  destruct H as [w' H]. generalize (set_inv (proj1_sig w) j l u (proj2_sig w) J'). rewrite H. intros. eexists. reflexivity.
Qed.
Section Total.
Variable (U : lpi E X -> Prop).
Hypothesis (UK : forall s s', (forall j, bounds_of s' j = bounds_of s j) -> U s -> U s').
Hypothesis (ER : lp_runs (E := E) (X := X) k p VALID U).
Lemma solve2_total w : U (lp_of (proj1_sig w)) -> exists w', solve_dual E2 w = Ok w'.
Proof.
  intros UW. destruct (ER (lp_of (proj1_sig w)) (proj1 (proj2_sig w)) UW) as [s S].
  assert (H : exists w', solve_dual E1 (proj1_sig w) = Ok w').
  { cbn. unfold on_whole, on_lp. unfold lp_of in S. rewrite S. cbn [bind]. eauto. }
  destruct H as [w' H]. cbn [solve_dual E2]. generalize (solve_inv (proj1_sig w) (proj2_sig w)). rewrite H. intros. eexists. reflexivity.
Qed.
Lemma separate2_total w : total_gens -> U (lp_of (proj1_sig w)) -> exists w', Solver.separate E2 w = Ok w'.
Proof.
  intros RG UW.
  assert (H : exists w', Solver.separate E1 (proj1_sig w) = Ok w').
  { cbn. unfold run_separation, Separate.
    apply (separate_total k LAWS G p VALID Q QP QV QS sort SORT gens (rc_selector (cf_runner c)) rp CUTS U UK); auto.
    - exact (proj2_sig w).
    - fold rp. lia. }
  destruct H as [w' H]. cbn [Solver.separate E2]. generalize (separate_inv (proj1_sig w) (proj2_sig w)). rewrite H. intros. eexists. reflexivity.
Qed.
End Total.
Lemma primal2_total w : is_optimal E2 w = true -> exists x, primal_values E2 w = Ok x /\ Z.of_nat (length x) = num_vars p.
Proof.
  intros O. apply optimal2 in O as [O M].
  destruct (good_primal k LAWS p VALID _ (proj1 (proj2_sig w)) M O) as (x & PX & L & _). exists x. split; [exact PX|exact L].
Qed.
Lemma env2_total : lp_runs (E := E) (X := X) k p VALID (fun _ => True) -> total_gens -> lp_total E2 p.
Proof.
  intros ER RG. constructor.
  - intros w j l u J _ _. exact (set2_total w j l u J).
  - intros w. exact (solve2_total _ ER w Logic.I).
  - intros w _. exact (separate2_total _ (fun _ _ _ _ => Logic.I) ER w RG Logic.I).
  - exact primal2_total.
  - apply env2_branch.
Qed.
Lemma env2_total_uncrossed : lp_runs (E := E) (X := X) k p VALID (fun s => uncrossed p (bounds_of s)) -> total_gens ->
  lp_total_uncrossed E2 p bounds2.
Proof.
  intros ER RG. constructor.
  - intros w j l u J _ _. exact (set2_total w j l u J).
  - intros w UW. exact (solve2_total _ ER w UW).
  - intros w UW _. refine (separate2_total _ _ ER w RG UW). intros s s' B H j J. rewrite B. exact (H j J).
  - exact primal2_total.
  - apply env2_branch.
Qed.
End Run.

(** ** From Create to the answer *)
Section End.
Context {E : engine} {X : spx_engine} (k : solver_type) (LAWS : plain_lp E X k) (G : Type).
Context (p0 : spx_params) (mx flag : bool) (sort : list cut -> list cut) (SORT : sorts sort) (draw : whole (E := E) (X := X) G -> Z -> Z)
  (make : list rounder * Z -> generator (E := E) (X := X) G) (g : G) (order : list Z).
Context (p : problem) (PP : proper_problem p) (u : params_msg) (PR : calm_request u) (VI : visits_integers p order)
  (KIND : k = wanted_solver u).

Lemma plain_unlimited : unlimited (to_glop (wanted_lp u)).
Proof.
  destruct PR as [H2 H3 H4 H5 _]. unfold unlimited, to_glop.
  cbn [g_objective_lower_limit g_objective_upper_limit max_time_in_seconds max_deterministic_time max_number_of_iterations].
  rewrite H2, H3, H4, H5. auto.
Qed.
Lemma lpi_created l : CreateLpSolver (E := E) (X := X) p0 mx flag (wanted_lp u) = Ok l -> created k l.
Proof.
  unfold CreateLpSolver. intros H. pose proof LAWS as L. unfold plain_lp in L. rewrite KIND in L. unfold wanted_solver in L.
  unfold created. rewrite KIND. unfold wanted_solver.
  destruct (lp_solver_type (wanted_lp u)) eqn:TY.
  - unfold SetLpParameters at 1 in H. destruct (negb _); [discriminate H|]. cbn [bind] in H. injection H as <-.
    split; [reflexivity|]. cbn [solver]. rewrite (el_set E (proj1 L)). split; [exact plain_unlimited|exact Logic.I].
  - apply bind_ok in H as (s & H1 & H). apply bind_ok in H as ([s' ok] & H2 & H). destruct ok; [|discriminate H]. injection H as <-.
    destruct (spx_new_rel _ _ _ H1) as [_ F]. destruct (new_settled _ _ _ H1) as [SC _].
    destruct (spx_set_made s (wanted_lp u) s' H2) as (_ & A & B & _ & C & TL).
    split; [reflexivity|]. unfold time_ok. rewrite A, B, C. split.
    + split; [exact F|]. split; [exact SC|]. exact (plain_spx_unlimited u PR).
    + exact TL.
Qed.

(** The configuration that Create ends up with. *)
Record made (c : config E X) : Prop := {
  md_created : created k (cf_lpi c);
  md_rule : cf_rule c = (wanted_rule u, wanted_direction u);
  md_tol : cf_integrality c = setting (pm_integrality u) d1em6;
  md_limits : rc_limits (cf_runner c) = wanted_limits u }.

Lemma config_made c : Params.Create (E := E) (X := X) p0 mx flag p u = Ok c -> made c.
Proof.
  intros H. unfold Params.Create in H. rewrite (ok_accepted p (pp_ok p PP)), merged_lp in H.
  apply bind_ok in H as (l & L & H). apply lpi_created in L.
  destruct (merged_runner u) as (lim & ML & Lim). rewrite ML in H.
  apply bind_ok in H as (r & R & H). rewrite merged_rule in H. cbn [bind] in H. injection H as <-.
  unfold CreateCutRunner in R. cbn [rm_default] in R. unfold DefaultRunner in R. cbn [rm_selectors rm_generators] in R.
  apply bind_ok in R as (s1 & _ & R). apply bind_ok in R as (s2 & _ & R). injection R as <-.
  split; cbn [cf_lpi cf_runner cf_rule cf_integrality rc_limits].
  - exact L.
  - reflexivity.
  - unfold UserCustomizedParameters, MergeFrom. cbn [pm_integrality DefaultMiniMipParameters]. apply get_over.
  - exact Lim.
Qed.
Lemma config_exists l : CreateLpSolver (E := E) (X := X) p0 mx flag (wanted_lp u) = Ok l ->
  exists c, Params.Create (E := E) (X := X) p0 mx flag p u = Ok c.
Proof.
  intros L. unfold Params.Create. rewrite (ok_accepted p (pp_ok p PP)), merged_lp, L. cbn [bind].
  destruct (merged_runner u) as (lim & ML & Lim). rewrite ML, merged_rule. unfold CreateCutRunner. cbn [rm_default].
  unfold DefaultRunner. cbn [rm_selectors rm_generators].
  replace (at_ (DefaultCutSelectorParameters :: user_selectors u) 0) with (Ok DefaultCutSelectorParameters) by reflexivity.
  cbn [bind CreateCutSelector sm_hybrid DefaultCutSelectorParameters]. eauto.
Qed.

Lemma solver_made e w0 : CreateSolver G p0 mx flag sort draw make g order p u = Ok (e, w0) ->
  exists c d, made c /\ MipData p = Ok d /\ e = whole_env G sort draw make c d order /\
    (forall VALID Q, inv k G p VALID Q w0) /\ lp_table (lp_of w0) = nameless (problem_table p).
Proof.
  unfold CreateSolver. rewrite (ok_accepted p (pp_ok p PP)). intros H.
  apply bind_ok in H as (d & D & H). apply bind_ok in H as (c & C & H). pose proof (config_made c C) as M.
  apply bind_ok in H as (s1 & H1 & H). injection H as <- <-.
  unfold check_ok in H1. destruct (lpi_step (cf_lpi c) (CPopulate d)) as [s2| | | |] eqn:S; try discriminate H1. injection H1 as ->.
  destruct (populate_good k p PP True (cf_lpi c) d s1 (md_created c M) D S) as [GD T].
  exists c, d. split; [exact M|]. split; [exact D|]. split; [reflexivity|]. split; [|exact T].
  intros VALID Q. split; [apply (populate_good k p PP VALID (cf_lpi c) d s1 (md_created c M) D S)|]. split; [constructor|]. cbn. lia.
Qed.
Lemma solver_exists l : CreateLpSolver (E := E) (X := X) p0 mx flag (wanted_lp u) = Ok l ->
  exists e w0, CreateSolver G p0 mx flag sort draw make g order p u = Ok (e, w0).
Proof.
  intros L. unfold CreateSolver. rewrite (ok_accepted p (pp_ok p PP)).
  destruct (problem_loaded p (pp_ok p PP) (problem_bounds_ordered p PP)) as (d & l' & D & _ & _). rewrite D. cbn [bind].
  destruct (config_exists l L) as [c C]. rewrite C. cbn [bind]. pose proof (config_made c C) as M.
  destruct (populate_step k p PP (cf_lpi c) d (md_created c M) D) as (s' & S & _). rewrite S. cbn [check_ok bind]. eauto.
Qed.

Section Q.
Context (VALID : Prop) (Q : cut -> Prop) (QP : forall c, Q c -> fitting_cut p c)
  (QV : VALID -> forall c, Q c -> proper_cut p c /\ valid_cut p c)
  (QS : forall c c', row c' = row c -> right_hand_side c' = right_hand_side c -> Q c -> Q c').
Context (CUTS : no_cuts u \/ forall a, gives_q k G p VALID Q (make a)).
Context e w0 (H : CreateSolver G p0 mx flag sort draw make g order p u = Ok (e, w0)).

Lemma through : exists c d (M : made c) (D : MipData p = Ok d)
  (C : max_iterations (rc_limits (cf_runner c)) <= 0 \/ Forall (gives_q k G p VALID Q) (map make (rc_generators (cf_runner c)))) I0,
  lp_table (lp_of w0) = nameless (problem_table p) /\
  forall fuel, Solve e fuel w0 =
    omap (smap (@proj1_sig _ (inv k G p VALID Q))) (Solve (E2 k LAWS G p VALID Q QP QV QS sort SORT draw make c d order C (proj2 VI)) fuel (exist _ w0 I0)).
Proof.
  destruct (solver_made e w0 H) as (c & d & M & D & EQ & I0 & T). exists c, d, M, D.
  assert (C : max_iterations (rc_limits (cf_runner c)) <= 0 \/ Forall (gives_q k G p VALID Q) (map make (rc_generators (cf_runner c)))).
  { rewrite (md_limits c M). destruct CUTS as [A|A]; [left; exact A|right]. apply Forall_forall. intros x Hx.
    apply in_map_iff in Hx as (a & <- & _). apply A. }
  exists C, (I0 VALID Q). split; [exact T|]. intros fuel. subst e.
  exact (sim_Solve _ _ _ (env2_simulates k LAWS G p VALID Q QP QV QS sort SORT draw make c d order C (proj2 VI)) fuel (exist _ w0 (I0 VALID Q))).
Qed.

Lemma made_tol c : made c ->
  dvalid (cf_integrality c) = true /\ is_finite (cf_integrality c) = true /\ 0 <= zval (cf_integrality c).
Proof. intros M. rewrite (md_tol c M). exact (cr_tol u PR). Qed.

Lemma end_branch c d (D : MipData p = Ok d) C : made c -> usable_rule p u draw ->
  branch_ok (E2 k LAWS G p VALID Q QP QV QS sort SORT draw make c d order C (proj2 VI)).
Proof.
  intros M [R|(R & IF & DR)]; pose proof (md_rule c M) as RU; rewrite R in RU.
  - exact (proj1 (env2_branch k LAWS G p PP VALID Q QP QV QS sort SORT draw make c d order C D (proj1 VI) (proj2 VI) _ RU (made_tol c M))).
  - exact (env2_random k LAWS G p PP VALID Q QP QV QS sort SORT draw make c d order C D (proj1 VI) (proj2 VI) _ RU IF DR).
Qed.

Lemma end_optimum : usable_rule p u draw -> VALID -> exact_lp E X k -> bounded_relaxation p ->
  (forall fuel s, Solve e fuel w0 = Ok s -> forall x, feasible p x ->
     q_above (s_obj (best (res s))) (cost p x) /\ best (res s) <> sol_default) /\
  (forall fuel r, Solve e fuel w0 = Err r -> forall x, ~ feasible p x).
Proof.
  intros RU VA XE BR. destruct through as (c & d & M & D & C & I0 & T & S).
  set (F := E2 k LAWS G p VALID Q QP QV QS sort SORT draw make c d order C (proj2 VI)) in *.
  pose proof (env2_ok k LAWS G p PP VALID Q QP QV QS sort SORT draw make c d order C D (proj1 VI) (proj2 VI)) as OK.
  pose proof (end_branch c d D C M RU) as BO.
  pose proof (env2_sound k LAWS G p PP VALID Q QP QV QS sort SORT draw make c d order C (proj2 VI) (exist _ w0 I0) VA XE BR T) as LS.
  split.
  - intros fuel s' R. rewrite S in R. apply omap_ok in R as (s2 & R & <-). cbn [smap res].
    exact (solve_optimum F p OK _ _ _ BO (env2_valid k LAWS G p VALID Q QP QV QS sort SORT draw make c d order C (proj2 VI)) LS fuel s2 R).
  - intros fuel r R. rewrite S in R. apply omap_err in R.
    exact (solve_err_infeasible F p OK _ _ _ fuel r BO LS R).
Qed.

Lemma end_settled : usable_rule p u draw -> VALID -> honest_lp E X k ->
  (forall s n w, visits e w0 s -> takes s n -> solve_node e (mip_tree s) n (Solver.world s) = Ok w ->
     is_optimal e w = false -> says_infeasible (lp_of w)) ->
  (forall fuel s, Solve e fuel w0 = Ok s -> forall x, feasible p x ->
     q_above (s_obj (best (res s))) (cost p x) /\ best (res s) <> sol_default) /\
  (forall fuel r, Solve e fuel w0 = Err r -> forall x, ~ feasible p x).
Proof.
  intros RU VA XE SET. destruct (solver_made e w0 H) as (c & d & M & D & EQ & I0 & T).
  assert (C : max_iterations (rc_limits (cf_runner c)) <= 0 \/ Forall (gives_q k G p VALID Q) (map make (rc_generators (cf_runner c)))).
  { rewrite (md_limits c M). destruct CUTS as [A|A]; [left; exact A|right]. apply Forall_forall. intros x Hx.
    apply in_map_iff in Hx as (a & <- & _). apply A. }
  pose proof (env2_simulates k LAWS G p VALID Q QP QV QS sort SORT draw make c d order C (proj2 VI)) as SIM.
  rewrite <- EQ in SIM.
  set (F := E2 k LAWS G p VALID Q QP QV QS sort SORT draw make c d order C (proj2 VI)) in *.
  pose proof (env2_ok k LAWS G p PP VALID Q QP QV QS sort SORT draw make c d order C D (proj1 VI) (proj2 VI)) as OK.
  pose proof (end_branch c d D C M RU) as BO.
  pose proof (env2_honest k LAWS G p PP VALID Q QP QV QS sort SORT draw make c d order C (proj2 VI) (exist _ w0 (I0 VALID Q)) VA XE T) as LS.
  assert (SET2 : forall s n w, visits F (exist _ w0 (I0 VALID Q)) s -> takes s n -> solve_node F (mip_tree s) n (Solver.world s) = Ok w ->
    is_optimal F w = false -> ~ ~ says_infeasible (lp_of (proj1_sig w))).
  { intros s n w VS TK SN O NS. apply NS. destruct (sim_node _ _ _ SIM (mip_tree s) n (Solver.world s)) as [N1 N2].
    apply (SET (smap (@proj1_sig _ (inv k G p VALID Q)) s) n).
    - exact (sim_visits _ _ _ SIM _ s VS).
    - exact TK.
    - refine (eq_trans N1 _). rewrite SN. reflexivity.
    - exact (eq_trans (N2 w SN) O). }
  assert (S : forall fuel, Solve e fuel w0 = omap (smap (@proj1_sig _ (inv k G p VALID Q))) (Solve F fuel (exist _ w0 (I0 VALID Q))))
    by (intros fuel; exact (sim_Solve _ _ _ SIM fuel (exist _ w0 (I0 VALID Q)))).
  split.
  - intros fuel s' R. rewrite S in R. apply omap_ok in R as (s2 & R & <-). cbn [smap res].
    exact (solve_settled F p OK _ _ _ _ BO (env2_valid k LAWS G p VALID Q QP QV QS sort SORT draw make c d order C (proj2 VI)) LS SET2 fuel s2 R).
  - intros fuel r R. rewrite S in R. apply omap_err in R.
    exact (solve_err_settled F p OK _ _ _ _ fuel r BO LS SET2 R).
Qed.

Lemma end_terminates : wanted_rule u = UseMaxFractional -> inside_lp E X k -> lp_runs (E := E) (X := X) k p VALID (fun _ => True) -> bounded_integers p ->
  (forall a, runs_q k G p VALID Q (make a)) \/ no_cuts u ->
  exists fuel0, forall fuel, (fuel0 <= fuel)%nat ->
    (exists s, Solve e fuel w0 = Ok s) \/ Solve e fuel w0 = Err Internal.
Proof.
  intros RU EI ER BI RG. destruct through as (c & d & M & D & C & I0 & T & S).
  set (F := E2 k LAWS G p VALID Q QP QV QS sort SORT draw make c d order C (proj2 VI)) in *.
  pose proof (env2_ok k LAWS G p PP VALID Q QP QV QS sort SORT draw make c d order C D (proj1 VI) (proj2 VI)) as OK.
  pose proof (md_rule c M) as MR. rewrite RU in MR.
  destruct (env2_branch k LAWS G p PP VALID Q QP QV QS sort SORT draw make c d order C D (proj1 VI) (proj2 VI) _ MR (made_tol c M))
    as (BO & BF & _).
  pose proof (env2_keeps k LAWS G p VALID Q QP QV QS sort SORT draw make c d order C (proj2 VI)) as LK.
  pose proof (env2_inside k LAWS G p VALID Q QP QV QS sort SORT draw make c d order C (proj2 VI) EI) as LI.
  assert (RG' : Forall (runs_q k G p VALID Q) (map make (rc_generators (cf_runner c))) \/ max_iterations (rc_limits (cf_runner c)) <= 0).
  { rewrite (md_limits c M). destruct RG as [A|A]; [left|right; exact A]. apply Forall_forall. intros x Hx.
    apply in_map_iff in Hx as (a & <- & _). apply A. }
  pose proof (env2_total k LAWS G p PP VALID Q QP QV QS sort SORT draw make c d order C D (proj1 VI) (proj2 VI) _ MR (made_tol c M) ER RG') as LT.
  destruct (solve_terminates F p OK (exist _ w0 I0) _ BO LK LI BF BI LT) as [f0 H0].
  exists f0. intros fuel L. destruct (H0 fuel L) as [[s' R]|R].
  - left. eexists. rewrite S. apply omap_ok. eexists. split; [exact R|reflexivity].
  - right. rewrite S. apply omap_err. exact R.
Qed.

Lemma end_terminates_uncrossed : wanted_rule u = UseMaxFractional -> inside_lp E X k -> lp_runs (E := E) (X := X) k p VALID (fun s => uncrossed p (bounds_of s)) -> bounded_integers p -> whole_bounds p ->
  (forall a, runs_q k G p VALID Q (make a)) \/ no_cuts u ->
  exists fuel0, forall fuel, (fuel0 <= fuel)%nat ->
    (exists s, Solve e fuel w0 = Ok s) \/ Solve e fuel w0 = Err Internal.
Proof.
  intros RU EI ER BI WB RG. destruct through as (c & d & M & D & C & I0 & T & S).
  set (F := E2 k LAWS G p VALID Q QP QV QS sort SORT draw make c d order C (proj2 VI)) in *.
  pose proof (env2_ok k LAWS G p PP VALID Q QP QV QS sort SORT draw make c d order C D (proj1 VI) (proj2 VI)) as OK.
  pose proof (md_rule c M) as MR. rewrite RU in MR.
  destruct (env2_branch k LAWS G p PP VALID Q QP QV QS sort SORT draw make c d order C D (proj1 VI) (proj2 VI) _ MR (made_tol c M))
    as (BO & BF & _).
  pose proof (env2_keeps k LAWS G p VALID Q QP QV QS sort SORT draw make c d order C (proj2 VI)) as LK.
  pose proof (env2_inside k LAWS G p VALID Q QP QV QS sort SORT draw make c d order C (proj2 VI) EI) as LI.
  assert (RG' : Forall (runs_q k G p VALID Q) (map make (rc_generators (cf_runner c))) \/ max_iterations (rc_limits (cf_runner c)) <= 0).
  { rewrite (md_limits c M). destruct RG as [A|A]; [left|right; exact A]. apply Forall_forall. intros x Hx.
    apply in_map_iff in Hx as (a & <- & _). apply A. }
  pose proof (env2_total_uncrossed k LAWS G p PP VALID Q QP QV QS sort SORT draw make c d order C D (proj1 VI) (proj2 VI) _ MR (made_tol c M) ER RG') as LT.
  destruct (solve_terminates_uncrossed F p OK (exist _ w0 I0) _ BO LK LI BF BI WB LT) as [f0 H0].
  exists f0. intros fuel L. destruct (H0 fuel L) as [[s' R]|R].
  - left. eexists. rewrite S. apply omap_ok. eexists. split; [exact R|reflexivity].
  - right. rewrite S. apply omap_err. exact R.
Qed.

Lemma end_solutions : usable_rule p u draw -> inside_lp E X k -> forall fuel s, Solve e fuel w0 = Ok s ->
  forall sol, reported (res s) sol -> sol = sol_default \/
  (Z.of_nat (length (s_vals sol)) = num_vars p /\
   forall j var, nth_var p j = Some var -> v_int var = true ->
   exists v, at_ (s_vals sol) j = Ok v /\ near_integer v (setting (pm_integrality u) d1em6) /\
     dleb (v_lb var) v = true /\ dleb v (v_ub var) = true).
Proof.
  intros RU EI fuel s' R sol RS. destruct through as (c & d & M & D & C & I0 & T & S).
  set (F := E2 k LAWS G p VALID Q QP QV QS sort SORT draw make c d order C (proj2 VI)) in *.
  pose proof (env2_ok k LAWS G p PP VALID Q QP QV QS sort SORT draw make c d order C D (proj1 VI) (proj2 VI)) as OK.
  pose proof (end_branch c d D C M RU) as BO.
  pose proof (env2_keeps k LAWS G p VALID Q QP QV QS sort SORT draw make c d order C (proj2 VI)) as LK.
  pose proof (env2_inside k LAWS G p VALID Q QP QV QS sort SORT draw make c d order C (proj2 VI) EI) as LI.
  destruct (made_tol c M) as (T1 & T2 & _).
  rewrite S in R. apply omap_ok in R as (s2 & R & <-).
  destruct (solve_sols F p OK (exist _ w0 I0) _ BO LK LI T1 T2 fuel s2 R sol RS) as [Z|Z]; [left; exact Z|right].
  destruct Z as (s1 & n & q & w & _ & _ & _ & O & PV & _ & Z). rewrite <- (md_tol c M). split; [|exact Z].
  apply (LI w (s_vals sol) O PV).
Qed.
Lemma end_values eps : usable_rule p u draw -> inside_lp E X k -> accurate_lp eps E X k -> forall fuel s, Solve e fuel w0 = Ok s ->
  forall sol, reported (res s) sol -> sol = sol_default \/
  ((forall j var, nth_var p j = Some var -> exists v, at_ (s_vals sol) j = Ok v /\ finite_double v /\
      dleb (v_lb var) v = true /\ dleb v (v_ub var) = true) /\
   (forall r k, nth_con p r = Some k ->
      q_above (c_lhs k) (row_activity k (solution_point sol) + eps)%Q /\
      q_below (row_activity k (solution_point sol) - eps)%Q (c_rhs k)) /\
   finite_double (s_obj sol) /\ (Qabs (qval (s_obj sol) - cost p (solution_point sol)) <= eps)%Q).
Proof.
  intros RU EI EA fuel s' R sol RS. destruct through as (c & d & M & D & C & I0 & T & S).
  set (F := E2 k LAWS G p VALID Q QP QV QS sort SORT draw make c d order C (proj2 VI)) in *.
  pose proof (env2_ok k LAWS G p PP VALID Q QP QV QS sort SORT draw make c d order C D (proj1 VI) (proj2 VI)) as OK.
  pose proof (end_branch c d D C M RU) as BO.
  pose proof (env2_keeps k LAWS G p VALID Q QP QV QS sort SORT draw make c d order C (proj2 VI)) as LK.
  pose proof (env2_inside k LAWS G p VALID Q QP QV QS sort SORT draw make c d order C (proj2 VI) EI) as LI.
  destruct (made_tol c M) as (T1 & T2 & _).
  rewrite S in R. apply omap_ok in R as (s2 & R & <-).
  destruct (solve_sols F p OK (exist _ w0 I0) _ BO LK LI T1 T2 fuel s2 R sol RS) as [Z|Z]; [left; exact Z|right].
  destruct Z as (s1 & n & q & w & _ & _ & _ & O & PV & OB & Z).
  destruct (env2_primal k LAWS G p VALID Q QP QV QS sort SORT draw make c d order C (proj2 VI) w _ O PV) as (LV & _ & FV).
  apply optimal2 in O as [O MO]. pose proof (proj1 (proj2_sig w)) as GD.
  cbn [primal_values F E2 whole_env] in PV. cbn [objective_value F E2 whole_env] in OB.
  assert (SE : sol = mkSol (s_vals sol) (lpi_objective (lp_of (proj1_sig w)))) by (rewrite <- OB; destruct sol as [a b]; reflexivity).
  destruct (good_accurate k LAWS p VALID eps _ _ EA GD MO O PV) as (A1 & A2 & A3). rewrite <- SE in A1, A3.
  split; [|split; [apply (problem_rows_within p PP eps); exact A1|split; [rewrite OB; exact A2|rewrite OB; exact A3]]].
  intros j var J. destruct (v_int var) eqn:IV.
  - destruct (Z j var J IV) as (v & Z1 & _ & Z3 & Z4). exists v. split; [exact Z1|]. split; [exact (FV j v Z1)|]. auto.
  - destruct (good_col k p VALID _ j var GD J) as [gc Hg].
    assert (RJ : 0 <= j < num_vars p) by (apply nth_var_at, at_in_range in J; exact J).
    destruct (at_range (s_vals sol) j) as [v Hv]; [lia|]. exists v. split; [exact Hv|]. split; [exact (FV j v Hv)|].
    destruct (good_primal k LAWS p VALID _ GD MO O) as (x' & PX & _ & _ & IX & _). rewrite PV in PX. injection PX as <-.
    pose proof (IX EI j v Hv) as IB. unfold bounds_of in IB. rewrite Hg in IB.
    destruct (gd_cont k p VALID _ GD j var gc J IV Hg) as [<- <-]. exact IB.
Qed.
Lemma end_again : usable_rule p u draw -> forall fuel s, Solve e fuel w0 = Ok s -> explored s <> [0] ->
  forall fuel' s', SolveAgain e fuel' s <> Ok s'.
Proof.
  intros RU fuel s R NE. destruct (solver_made e w0 H) as (c & d & M & D & EQ & I0 & T).
  assert (C : max_iterations (rc_limits (cf_runner c)) <= 0 \/ Forall (gives_q k G p VALID Q) (map make (rc_generators (cf_runner c)))).
  { rewrite (md_limits c M). destruct CUTS as [A|A]; [left; exact A|right]. apply Forall_forall. intros x Hx.
    apply in_map_iff in Hx as (a & <- & _). apply A. }
  pose proof (env2_ok k LAWS G p PP VALID Q QP QV QS sort SORT draw make c d order C D (proj1 VI) (proj2 VI)) as OK.
  pose proof (end_branch c d D C M RU) as BO. rewrite EQ in *.
  exact (again_refused_of _ _ _ p (exist _ w0 (I0 VALID Q)) fuel s
    (env2_simulates k LAWS G p VALID Q QP QV QS sort SORT draw make c d order C (proj2 VI)) OK BO R NE).
Qed.
End Q.
End End.

(** ** The statements *)
Lemma q_keeps p : forall c c' : cut, row c' = row c -> right_hand_side c' = right_hand_side c ->
  proper_cut p c /\ valid_cut p c -> proper_cut p c' /\ valid_cut p c'.
Proof. unfold proper_cut, fitting_cut, valid_cut. intros c c' -> ->. auto. Qed.
Lemma fitting_keeps p : forall c c' : cut, row c' = row c -> right_hand_side c' = right_hand_side c ->
  fitting_cut p c -> fitting_cut p c'.
Proof. unfold fitting_cut. intros c c' -> _. auto. Qed.
Lemma good_has_columns {E X} k p VALID (s : lpi E X) : good k p VALID s -> has_columns p s.
Proof.
  intros GD. split; [exact (gd_wf k p VALID s GD)|]. rewrite <- table_nc, <- nameless_nc. exact (gd_cols k p VALID s GD).
Qed.
Lemma good_relaxes {E X} k p (VALID : Prop) (s : lpi E X) : VALID -> good k p VALID s -> relaxes p s.
Proof. intros V GD x F. apply nl_rows. exact (gd_valid k p VALID s GD V x F). Qed.

Lemma plain_calm u : plain_request u -> calm_request u.
Proof. intros [A B C D _ T]. constructor; assumption. Qed.
Lemma plain_usable {W} p u (draw : W -> Z -> Z) : plain_request u -> usable_rule p u draw.
Proof. intros R. left. exact (pr_rule u R). Qed.

Lemma whole_optimum_by E X G p0 mx flag sort draw (make : list rounder * Z -> generator (E := E) (X := X) G) g order p u e w0 :
  plain_lp E X (wanted_solver u) -> exact_lp E X (wanted_solver u) ->
  proper_problem p -> bounded_relaxation p -> calm_request u -> usable_rule p u draw -> sorts sort -> visits_integers p order ->
  no_cuts u \/ (forall a, valid_generator p (make a)) ->
  CreateSolver G p0 mx flag sort draw make g order p u = Ok (e, w0) ->
  (forall fuel s, Solve e fuel w0 = Ok s -> forall x, feasible p x ->
     q_above (s_obj (best (res s))) (cost p x) /\ best (res s) <> sol_default) /\
  (forall fuel r, Solve e fuel w0 = Err r -> forall x, ~ feasible p x).
Proof.
  intros LAWS XE PP BR PR RU SO VI CU H.
  assert (CU' : no_cuts u \/ forall a, gives_q (wanted_solver u) G p True (fun c => proper_cut p c /\ valid_cut p c) (make a)).
  { destruct CU as [C|C]; [left; exact C|right]. intros a y r s cs y' GD R.
    apply (C a y r s cs y' (good_has_columns (wanted_solver u) p True s GD)); [|exact R]. exact (good_relaxes _ p True s Logic.I GD). }
  exact (end_optimum (wanted_solver u) LAWS G p0 mx flag sort SO draw make g order p PP u PR VI eq_refl True
    (fun c => proper_cut p c /\ valid_cut p c) (fun c H => proj1 (proj1 H)) (fun _ c H => H) (q_keeps p)
    CU' e w0 H RU Logic.I XE BR).
Qed.
Lemma whole_optimum E X G p0 mx flag sort draw (make : list rounder * Z -> generator (E := E) (X := X) G) g order p u e w0 :
  plain_lp E X (wanted_solver u) -> exact_lp E X (wanted_solver u) ->
  proper_problem p -> bounded_relaxation p -> plain_request u -> sorts sort -> visits_integers p order ->
  no_cuts u \/ (forall a, valid_generator p (make a)) ->
  CreateSolver G p0 mx flag sort draw make g order p u = Ok (e, w0) ->
  (forall fuel s, Solve e fuel w0 = Ok s -> forall x, feasible p x ->
     q_above (s_obj (best (res s))) (cost p x) /\ best (res s) <> sol_default) /\
  (forall fuel r, Solve e fuel w0 = Err r -> forall x, ~ feasible p x).
Proof.
  intros LAWS XE PP BR PR SO VI CU H.
  exact (whole_optimum_by E X G p0 mx flag sort draw make g order p u e w0 LAWS XE PP BR (plain_calm u PR) (plain_usable p u draw PR) SO VI CU H).
Qed.
Lemma whole_settled_by E X G p0 mx flag sort draw (make : list rounder * Z -> generator (E := E) (X := X) G) g order p u e w0 :
  plain_lp E X (wanted_solver u) -> honest_lp E X (wanted_solver u) ->
  proper_problem p -> calm_request u -> usable_rule p u draw -> sorts sort -> visits_integers p order ->
  no_cuts u \/ (forall a, valid_generator p (make a)) ->
  CreateSolver G p0 mx flag sort draw make g order p u = Ok (e, w0) ->
  (forall s n w, visits e w0 s -> takes s n -> solve_node e (mip_tree s) n (Solver.world s) = Ok w ->
     is_optimal e w = false -> says_infeasible (lp_of w)) ->
  (forall fuel s, Solve e fuel w0 = Ok s -> forall x, feasible p x ->
     q_above (s_obj (best (res s))) (cost p x) /\ best (res s) <> sol_default) /\
  (forall fuel r, Solve e fuel w0 = Err r -> forall x, ~ feasible p x).
Proof.
  intros LAWS XE PP PR RU SO VI CU H SET.
  assert (CU' : no_cuts u \/ forall a, gives_q (wanted_solver u) G p True (fun c => proper_cut p c /\ valid_cut p c) (make a)).
  { destruct CU as [C|C]; [left; exact C|right]. intros a y r s cs y' GD R.
    apply (C a y r s cs y' (good_has_columns (wanted_solver u) p True s GD)); [|exact R]. exact (good_relaxes _ p True s Logic.I GD). }
  exact (end_settled (wanted_solver u) LAWS G p0 mx flag sort SO draw make g order p PP u PR VI eq_refl True
    (fun c => proper_cut p c /\ valid_cut p c) (fun c H => proj1 (proj1 H)) (fun _ c H => H) (q_keeps p)
    CU' e w0 H RU Logic.I XE SET).
Qed.
Lemma whole_settled E X G p0 mx flag sort draw (make : list rounder * Z -> generator (E := E) (X := X) G) g order p u e w0 :
  plain_lp E X (wanted_solver u) -> honest_lp E X (wanted_solver u) ->
  proper_problem p -> plain_request u -> sorts sort -> visits_integers p order ->
  no_cuts u \/ (forall a, valid_generator p (make a)) ->
  CreateSolver G p0 mx flag sort draw make g order p u = Ok (e, w0) ->
  (forall s n w, visits e w0 s -> takes s n -> solve_node e (mip_tree s) n (Solver.world s) = Ok w ->
     is_optimal e w = false -> says_infeasible (lp_of w)) ->
  (forall fuel s, Solve e fuel w0 = Ok s -> forall x, feasible p x ->
     q_above (s_obj (best (res s))) (cost p x) /\ best (res s) <> sol_default) /\
  (forall fuel r, Solve e fuel w0 = Err r -> forall x, ~ feasible p x).
Proof.
  intros LAWS XE PP PR SO VI CU H SET.
  exact (whole_settled_by E X G p0 mx flag sort draw make g order p u e w0 LAWS XE PP (plain_calm u PR) (plain_usable p u draw PR) SO VI CU H SET).
Qed.
Lemma whole_terminates E X G p0 mx flag sort draw (make : list rounder * Z -> generator (E := E) (X := X) G) g order p u :
  engine_laws E -> plain_engine E -> engine_inside E -> engine_runs E ->
  proper_problem p -> bounded_integers p -> plain_request u -> wanted_solver u = LP_GLOP -> glop_supports (wanted_lp u) ->
  sorts sort -> visits_integers p order ->
  no_cuts u \/ (forall a, total_generator p (make a)) ->
  exists e w0, CreateSolver G p0 mx flag sort draw make g order p u = Ok (e, w0) /\
  exists fuel0, forall fuel, (fuel0 <= fuel)%nat ->
    (exists s, Solve e fuel w0 = Ok s) \/ Solve e fuel w0 = Err Internal.
Proof.
  intros LW PE EI' ER PP BI PR GL GS SO VI CU.
  assert (LAWS : plain_lp E X (wanted_solver u)) by (rewrite GL; exact (conj LW PE)).
  assert (EI : inside_lp E X (wanted_solver u)) by (rewrite GL; exact EI').
  assert (CL : exists l, CreateLpSolver (E := E) (X := X) p0 mx flag (wanted_lp u) = Ok l).
  { unfold wanted_solver in GL. unfold CreateLpSolver. rewrite GL. unfold SetLpParameters at 1.
    rewrite (proj2 (supported_iff _) GS). cbn [negb bind]. eauto. }
  assert (RUNL : lp_runs (E := E) (X := X) (wanted_solver u) p False (fun _ => True)).
  { intros s GD _. destruct (gd_state _ p False s GD) as [K _]. rewrite GL in K. destruct s as [s|s]; [|discriminate K].
    cbn [dual_simplex]. destruct (dual_simplex_runs LW s ER) as [s' S]. rewrite S. cbn [bind]. eauto. }
  destruct CL as [l CL].
  destruct (solver_exists (wanted_solver u) LAWS G p0 mx flag sort draw make g order p PP u (plain_calm u PR) eq_refl l CL) as (e & w0 & H).
  exists e, w0. split; [exact H|].
  assert (RUNS : (forall a, total_generator p (make a)) -> forall a, runs_q (wanted_solver u) G p False (fitting_cut p) (make a)).
  { intros C a y r s GD. exact (C a y r s (good_has_columns (wanted_solver u) p False s GD)). }
  assert (CU' : no_cuts u \/ forall a, gives_q (wanted_solver u) G p False (fitting_cut p) (make a)).
  { destruct CU as [C|C]; [left; exact C|right]. intros a. apply runs_gives. exact (RUNS C a). }
  apply (end_terminates (wanted_solver u) LAWS G p0 mx flag sort SO draw make g order p PP u (plain_calm u PR) VI eq_refl False
    (fitting_cut p) (fun c H => H) (fun F => False_ind _ F) (fitting_keeps p) CU' e w0 H (pr_rule u PR) EI RUNL BI).
  destruct CU as [C|C]; [right; exact C|left; exact (RUNS C)].
Qed.
(** Adding a small number does not make a bound cross. *)
Lemma dadd_consistent x y eps : dvalid x = true -> dvalid y = true -> is_nan x = false -> is_nan y = false ->
  finite_double eps -> 0 <= zval eps -> dltb x y = false -> dltb (dadd x eps) y = false.
Proof.
  intros VX VY NX NY FE PE H. destruct (is_finite x) eqn:FX.
  - pose proof (dadd_rounds x eps (conj VX FX) FE) as [V [[F R]|[[Q R]|[Q R]]]].
    + destruct (R x (conj VX FX)) as [R1 _]. destruct (is_finite y) eqn:FY.
      * destruct (dltb (dadd x eps) y) eqn:L; [|reflexivity]. apply dltb_zval in L; auto.
        assert (L2 : dltb x y = true) by (apply dltb_zval; auto; lia). congruence.
      * destruct y as [|[]| |]; try discriminate.
        -- destruct (dadd x eps) as [|[]| |[]]; try discriminate F; reflexivity.
        -- destruct x as [|[]| |[]]; try discriminate FX; discriminate H.
    + rewrite Q. destruct y as [|[]| |[]]; try discriminate; reflexivity.
    + specialize (R x (conj VX FX)). lia.
  - destruct x as [|b| |]; try discriminate. destruct FE as [_ FE]. destruct eps as [|[]| |]; try discriminate;
      (change (dltb (S754_infinity b) y = false); exact H).
Qed.

Lemma whole_terminates_soplex E X G p0 mx flag sort draw (make : list rounder * Z -> generator (E := E) (X := X) G) g order p u e w0 :
  plain_spx X -> spx_inside X -> spx_runs X -> finite_double (x_eps_zero X) -> 0 <= zval (x_eps_zero X) ->
  proper_problem p -> bounded_integers p -> whole_bounds p -> plain_request u -> wanted_solver u = LP_SOPLEX ->
  sorts sort -> visits_integers p order ->
  no_cuts u \/ (forall a, total_generator p (make a)) ->
  CreateSolver G p0 mx flag sort draw make g order p u = Ok (e, w0) ->
  exists fuel0, forall fuel, (fuel0 <= fuel)%nat ->
    (exists s, Solve e fuel w0 = Ok s) \/ Solve e fuel w0 = Err Internal.
Proof.
  intros PX EI' ER FE PE PP BI WB PR GL SO VI CU H.
  assert (LAWS : plain_lp E X (wanted_solver u)) by (rewrite GL; exact PX).
  assert (EI : inside_lp E X (wanted_solver u)) by (rewrite GL; exact EI').
  assert (RUNL : lp_runs (E := E) (X := X) (wanted_solver u) p False (fun s => uncrossed p (bounds_of s))).
  { intros s GD UC. destruct (gd_state _ p False s GD) as [K ST]. rewrite GL in K. destruct s as [s|s]; [discriminate K|].
    destruct ST as (S1 & S2 & (_ & _ & _ & S3) & _). cbn [dual_simplex].
    destruct (spx_dual_total s ER S2 S1 S3 (gd_time _ p False _ GD)) as [s' S].
    - apply forallb_forall. intros gc Hg. apply negb_true_iff. apply In_at in Hg as [j Hj].
      set (t := lp_table (SoplexLpi (E := E) s)).
      assert (Ht : exists tc, at_ (t_cols t) j = Ok tc /\ t_lb tc = g_lb gc /\ t_ub tc = g_ub gc).
      { eexists. split; [unfold t, lp_table, nameless; cbn [lp_held t_cols]; rewrite at_map, at_table_cols, Hj; reflexivity|].
        split; reflexivity. }
      destruct Ht as (tc & Ht & <- & <-).
      destruct (good_var _ p False _ j tc GD Ht) as [v Jv].
      destruct (v_int v) eqn:IV.
      + assert (J : is_integer_var p j) by (exists v; auto). specialize (UC j J). unfold bounds_of in UC.
        fold t in UC. rewrite Ht in UC. cbn [fst snd] in UC. destruct UC as (V1 & V2 & LE).
        destruct (dleb_nan _ _ LE) as [N1 N2]. apply dadd_consistent; auto.
        rewrite dltb_negb by auto. rewrite LE. reflexivity.
      + destruct (gd_cont _ p False _ GD j v tc Jv IV Ht) as [-> ->].
        assert (Iv : In v (p_vars p)) by (apply nth_var_at, at_In in Jv; exact Jv).
        pose proof (pp_bounds p PP) as PB. rewrite Forall_forall in PB. destruct (PB v Iv) as (N1 & N2 & V1 & V2).
        destruct (pp_ok p PP) as [PV _]. rewrite Forall_forall in PV. destruct (PV v Iv) as [_ LE].
        apply dadd_consistent; auto.
    - apply forallb_forall. intros gr Hg. apply negb_true_iff.
      assert (Hr : exists r, In r (t_rows (lp_table (SoplexLpi (E := E) s))) /\ t_lhs r = g_lhs gr /\ t_rhs r = g_rhs gr).
      { exists (mkTR (g_lhs gr) (g_rhs gr) EmptyString). split; [|split; reflexivity].
        unfold lp_table, nameless. cbn [lp_held t_rows table_of]. rewrite map_map. apply in_map_iff. exists gr. split; [reflexivity|exact Hg]. }
      destruct Hr as (r & Hr & <- & <-). destruct (gd_sides _ p False _ GD r Hr) as [->|(V1 & V2 & N1 & N2 & LE)].
      + destruct (dadd (t_rhs r) (x_eps_zero X)) as [|[]| |[]]; reflexivity.
      + apply dadd_consistent; auto.
    - rewrite S. cbn [bind]. eauto. }
  assert (RUNS : (forall a, total_generator p (make a)) -> forall a, runs_q (wanted_solver u) G p False (fitting_cut p) (make a)).
  { intros C a y r s GD. exact (C a y r s (good_has_columns (wanted_solver u) p False s GD)). }
  assert (CU' : no_cuts u \/ forall a, gives_q (wanted_solver u) G p False (fitting_cut p) (make a)).
  { destruct CU as [C|C]; [left; exact C|right]. intros a. apply runs_gives. exact (RUNS C a). }
  apply (end_terminates_uncrossed (wanted_solver u) LAWS G p0 mx flag sort SO draw make g order p PP u (plain_calm u PR) VI eq_refl False
    (fitting_cut p) (fun c H => H) (fun F => False_ind _ F) (fitting_keeps p) CU' e w0 H (pr_rule u PR) EI RUNL BI WB).
  destruct CU as [C|C]; [right; exact C|left; exact (RUNS C)].
Qed.
Lemma whole_solutions_by E X G p0 mx flag sort draw (make : list rounder * Z -> generator (E := E) (X := X) G) g order p u e w0 :
  plain_lp E X (wanted_solver u) -> inside_lp E X (wanted_solver u) ->
  proper_problem p -> calm_request u -> usable_rule p u draw -> sorts sort -> visits_integers p order ->
  no_cuts u \/ (forall a, proper_generator p (make a)) ->
  CreateSolver G p0 mx flag sort draw make g order p u = Ok (e, w0) ->
  forall fuel s, Solve e fuel w0 = Ok s -> forall sol, reported (res s) sol ->
  sol = sol_default \/
  (Z.of_nat (length (s_vals sol)) = num_vars p /\
   forall j var, nth_var p j = Some var -> v_int var = true ->
   exists v, at_ (s_vals sol) j = Ok v /\ near_integer v (setting (pm_integrality u) d1em6) /\
     dleb (v_lb var) v = true /\ dleb v (v_ub var) = true).
Proof.
  intros LAWS EI PP PR RU SO VI CU H.
  assert (CU' : no_cuts u \/ forall a, gives_q (wanted_solver u) G p False (fitting_cut p) (make a)).
  { destruct CU as [C|C]; [left; exact C|right]. intros a y r s cs y' GD.
    exact (C a y r s cs y' (good_has_columns (wanted_solver u) p False s GD)). }
  exact (end_solutions (wanted_solver u) LAWS G p0 mx flag sort SO draw make g order p PP u PR VI eq_refl False
    (fitting_cut p) (fun c H => H) (fun F => False_ind _ F) (fitting_keeps p) CU' e w0 H RU EI).
Qed.
Lemma whole_solutions E X G p0 mx flag sort draw (make : list rounder * Z -> generator (E := E) (X := X) G) g order p u e w0 :
  plain_lp E X (wanted_solver u) -> inside_lp E X (wanted_solver u) ->
  proper_problem p -> plain_request u -> sorts sort -> visits_integers p order ->
  no_cuts u \/ (forall a, proper_generator p (make a)) ->
  CreateSolver G p0 mx flag sort draw make g order p u = Ok (e, w0) ->
  forall fuel s, Solve e fuel w0 = Ok s -> forall sol, reported (res s) sol ->
  sol = sol_default \/
  (Z.of_nat (length (s_vals sol)) = num_vars p /\
   forall j var, nth_var p j = Some var -> v_int var = true ->
   exists v, at_ (s_vals sol) j = Ok v /\ near_integer v (setting (pm_integrality u) d1em6) /\
     dleb (v_lb var) v = true /\ dleb v (v_ub var) = true).
Proof.
  intros LAWS EI PP PR SO VI CU H.
  exact (whole_solutions_by E X G p0 mx flag sort draw make g order p u e w0 LAWS EI PP (plain_calm u PR) (plain_usable p u draw PR) SO VI CU H).
Qed.

Lemma whole_values_by E X G p0 mx flag sort draw (make : list rounder * Z -> generator (E := E) (X := X) G) g order p u e w0 eps :
  plain_lp E X (wanted_solver u) -> inside_lp E X (wanted_solver u) -> accurate_lp eps E X (wanted_solver u) ->
  proper_problem p -> calm_request u -> usable_rule p u draw -> sorts sort -> visits_integers p order ->
  no_cuts u \/ (forall a, proper_generator p (make a)) ->
  CreateSolver G p0 mx flag sort draw make g order p u = Ok (e, w0) ->
  forall fuel s, Solve e fuel w0 = Ok s -> forall sol, reported (res s) sol ->
  sol = sol_default \/
  ((forall j var, nth_var p j = Some var -> exists v, at_ (s_vals sol) j = Ok v /\ finite_double v /\
      dleb (v_lb var) v = true /\ dleb v (v_ub var) = true) /\
   (forall r k, nth_con p r = Some k ->
      q_above (c_lhs k) (row_activity k (solution_point sol) + eps)%Q /\
      q_below (row_activity k (solution_point sol) - eps)%Q (c_rhs k)) /\
   finite_double (s_obj sol) /\ (Qabs (qval (s_obj sol) - cost p (solution_point sol)) <= eps)%Q).
Proof.
  intros LAWS EI EA PP PR RU SO VI CU H.
  assert (CU' : no_cuts u \/ forall a, gives_q (wanted_solver u) G p False (fitting_cut p) (make a)).
  { destruct CU as [C|C]; [left; exact C|right]. intros a y r s cs y' GD.
    exact (C a y r s cs y' (good_has_columns (wanted_solver u) p False s GD)). }
  exact (end_values (wanted_solver u) LAWS G p0 mx flag sort SO draw make g order p PP u PR VI eq_refl False
    (fitting_cut p) (fun c H => H) (fun F => False_ind _ F) (fitting_keeps p) CU' e w0 H eps RU EI EA).
Qed.
Lemma whole_values E X G p0 mx flag sort draw (make : list rounder * Z -> generator (E := E) (X := X) G) g order p u e w0 eps :
  plain_lp E X (wanted_solver u) -> inside_lp E X (wanted_solver u) -> accurate_lp eps E X (wanted_solver u) ->
  proper_problem p -> plain_request u -> sorts sort -> visits_integers p order ->
  no_cuts u \/ (forall a, proper_generator p (make a)) ->
  CreateSolver G p0 mx flag sort draw make g order p u = Ok (e, w0) ->
  forall fuel s, Solve e fuel w0 = Ok s -> forall sol, reported (res s) sol ->
  sol = sol_default \/
  ((forall j var, nth_var p j = Some var -> exists v, at_ (s_vals sol) j = Ok v /\ finite_double v /\
      dleb (v_lb var) v = true /\ dleb v (v_ub var) = true) /\
   (forall r k, nth_con p r = Some k ->
      q_above (c_lhs k) (row_activity k (solution_point sol) + eps)%Q /\
      q_below (row_activity k (solution_point sol) - eps)%Q (c_rhs k)) /\
   finite_double (s_obj sol) /\ (Qabs (qval (s_obj sol) - cost p (solution_point sol)) <= eps)%Q).
Proof.
  intros LAWS EI EA PP PR SO VI CU H.
  exact (whole_values_by E X G p0 mx flag sort draw make g order p u e w0 eps LAWS EI EA PP (plain_calm u PR) (plain_usable p u draw PR) SO VI CU H).
Qed.

Lemma dleb_above lo v : dvalid lo = true -> finite_double v -> dleb lo v = true -> q_above lo (qval v).
Proof.
  intros V [VV FV] L. destruct (dleb_nan lo v L) as [N1 N2]. destruct (is_finite lo) eqn:FL.
  - assert (H : (qval lo <= qval v)%Q) by (apply qval_le, dleb_zval; auto). destruct lo; try discriminate FL; exact H.
  - destruct lo as [|[]| |]; try discriminate FL; try discriminate N1; [reflexivity|].
    destruct v as [|[]| |[]]; try discriminate FV; discriminate L.
Qed.
Lemma dleb_below v hi : dvalid hi = true -> finite_double v -> dleb v hi = true -> q_below (qval v) hi.
Proof.
  intros V [VV FV] L. destruct (dleb_nan v hi L) as [N1 N2]. destruct (is_finite hi) eqn:FL.
  - assert (H : (qval v <= qval hi)%Q) by (apply qval_le, dleb_zval; auto). destruct hi; try discriminate FL; exact H.
  - destruct hi as [|[]| |]; try discriminate FL; try discriminate N2; [|reflexivity].
    destruct v as [|[]| |[]]; try discriminate FV; discriminate L.
Qed.

(** With no tolerance and an exact LP solver the best solution is an optimal one. *)
Lemma whole_argmin_by E X G p0 mx flag sort draw (make : list rounder * Z -> generator (E := E) (X := X) G) g order p u e w0 :
  plain_lp E X (wanted_solver u) -> exact_lp E X (wanted_solver u) -> inside_lp E X (wanted_solver u) -> accurate_lp 0 E X (wanted_solver u) ->
  proper_problem p -> bounded_relaxation p -> calm_request u -> usable_rule p u draw -> zval (setting (pm_integrality u) d1em6) = 0 ->
  sorts sort -> visits_integers p order ->
  no_cuts u \/ (forall a, valid_generator p (make a)) ->
  CreateSolver G p0 mx flag sort draw make g order p u = Ok (e, w0) ->
  forall fuel s, Solve e fuel w0 = Ok s ->
  (best (res s) = sol_default /\ forall y, ~ feasible p y) \/
  (feasible p (solution_point (best (res s))) /\
   (qval (s_obj (best (res s))) == cost p (solution_point (best (res s))))%Q /\
   forall y, feasible p y -> (cost p (solution_point (best (res s))) <= cost p y)%Q).
Proof.
  intros LAWS XE EI EA PP BR PR RU T0 SO VI CU H fuel s R.
  assert (CU' : no_cuts u \/ forall a, gives_q (wanted_solver u) G p True (fun c => proper_cut p c /\ valid_cut p c) (make a)).
  { destruct CU as [C|C]; [left; exact C|right]. intros a y r s1 cs y' GD R1.
    apply (C a y r s1 cs y' (good_has_columns (wanted_solver u) p True s1 GD)); [|exact R1]. exact (good_relaxes _ p True s1 Logic.I GD). }
  destruct (end_optimum (wanted_solver u) LAWS G p0 mx flag sort SO draw make g order p PP u PR VI eq_refl True
    (fun c => proper_cut p c /\ valid_cut p c) (fun c H => proj1 (proj1 H)) (fun _ c H => H) (q_keeps p)
    CU' e w0 H RU Logic.I XE BR) as [OP _].
  specialize (OP fuel s R).
  assert (RB : reported (res s) (best (res s))) by (left; reflexivity).
  pose proof (end_solutions (wanted_solver u) LAWS G p0 mx flag sort SO draw make g order p PP u PR VI eq_refl True
    (fun c => proper_cut p c /\ valid_cut p c) (fun c H => proj1 (proj1 H)) (fun _ c H => H) (q_keeps p)
    CU' e w0 H RU EI fuel s R _ RB) as SI.
  pose proof (end_values (wanted_solver u) LAWS G p0 mx flag sort SO draw make g order p PP u PR VI eq_refl True
    (fun c => proper_cut p c /\ valid_cut p c) (fun c H => proj1 (proj1 H)) (fun _ c H => H) (q_keeps p)
    CU' e w0 H 0%Q RU EI EA fuel s R _ RB) as SV.
  destruct SV as [SV|(V1 & V2 & V3 & V4)].
  - left. split; [exact SV|]. intros y F. destruct (OP y F) as [_ N]. contradiction.
  - destruct SI as [SI|[_ SI]].
    { rewrite SI in V3. discriminate (proj2 V3). }
    right. set (x := solution_point (best (res s))) in *.
    assert (EQ : (qval (s_obj (best (res s))) == cost p x)%Q).
    { apply Qabs_Qle_condition in V4 as [A B]. apply Qle_antisym.
      - apply (Qplus_le_l _ _ (- cost p x)). setoid_replace (cost p x + - cost p x)%Q with 0%Q by ring. exact B.
      - apply (Qplus_le_l _ _ (- cost p x)). setoid_replace (cost p x + - cost p x)%Q with (- 0)%Q by ring. exact A. }
    split; [|split; [exact EQ|]].
    + split.
      * intros j v J. destruct (V1 j v J) as (d & D1 & D2 & D3 & D4).
        destruct (problem_bounds_ok p PP j v J) as (_ & _ & B1 & B2).
        assert (XJ : x j = qval d) by (unfold x, solution_point; rewrite D1; reflexivity). rewrite XJ.
        split; [apply dleb_above; auto|]. split; [apply dleb_below; auto|]. intros IV.
        destruct (SI j v J IV) as (d' & D1' & (k & K) & _). rewrite D1 in D1'. injection D1' as <-.
        exists k. rewrite T0 in K. assert (K' : zval d = k * zone) by lia. unfold qval, Qeq. cbn [Qnum Qden inject_Z].
        rewrite K', Z2Pos.id by exact zone_pos. ring.
      * intros r k K. destruct (V2 r k K) as [A B].
        split; [apply (q_above_eq _ (row_activity k x + 0)%Q)|apply (q_below_eq _ (row_activity k x - 0)%Q)]; auto; ring.
    + intros y F. destruct (OP y F) as [A _]. rewrite <- EQ.
      destruct (s_obj (best (res s))); try discriminate (proj2 V3); exact A.
Qed.
Lemma whole_argmin E X G p0 mx flag sort draw (make : list rounder * Z -> generator (E := E) (X := X) G) g order p u e w0 :
  plain_lp E X (wanted_solver u) -> exact_lp E X (wanted_solver u) -> inside_lp E X (wanted_solver u) -> accurate_lp 0 E X (wanted_solver u) ->
  proper_problem p -> bounded_relaxation p -> plain_request u -> zval (setting (pm_integrality u) d1em6) = 0 ->
  sorts sort -> visits_integers p order ->
  no_cuts u \/ (forall a, valid_generator p (make a)) ->
  CreateSolver G p0 mx flag sort draw make g order p u = Ok (e, w0) ->
  forall fuel s, Solve e fuel w0 = Ok s ->
  (best (res s) = sol_default /\ forall y, ~ feasible p y) \/
  (feasible p (solution_point (best (res s))) /\
   (qval (s_obj (best (res s))) == cost p (solution_point (best (res s))))%Q /\
   forall y, feasible p y -> (cost p (solution_point (best (res s))) <= cost p y)%Q).
Proof.
  intros LAWS XE EI EA PP BR PR T0 SO VI CU H.
  exact (whole_argmin_by E X G p0 mx flag sort draw make g order p u e w0 LAWS XE EI EA PP BR (plain_calm u PR) (plain_usable p u draw PR) T0 SO VI CU H).
Qed.

(** ** Creation and the guard of the cut loop *)
Lemma whole_rejects E X G p0 mx flag sort draw (make : list rounder * Z -> generator (E := E) (X := X) G) g order p u :
  ~ problem_ok_upto (num_vars p) p -> CreateSolver G p0 mx flag sort draw make g order p u = Err InvalidArgument.
Proof.
  intros H. unfold CreateSolver. destruct (FindError p) eqn:F; [reflexivity|].
  apply find_error_iff in F. contradiction.
Qed.
Lemma whole_guard E X G p0 mx flag sort draw (make : list rounder * Z -> generator (E := E) (X := X) G) g order p u e w0 :
  CreateSolver G p0 mx flag sort draw make g order p u = Ok (e, w0) ->
  num_cutrounds w0 = 0 /\ reg w0 = reg_new /\ calls w0 = [] /\
  forall w l, l = lp_of w ->
    (exists s, l = GlopLpi s /\
      (IsSolved s = false \/ IsPrimalInfeasible s = true \/ IsPrimalUnbounded s = true \/ IsDualInfeasible s = true \/
       IsDualUnbounded s = true \/ TimeLimitIsExceeded s = true \/ IterationLimitIsExceeded s = true \/
       ObjectiveLimitIsExceeded s = true)) \/
    (exists s, l = SoplexLpi s /\
      (SpxIsSolved s = false \/ SpxIsPrimalInfeasible s = true \/ SpxIsPrimalUnbounded s = true \/ SpxIsDualInfeasible s = true \/
       SpxIsDualUnbounded s = true \/ SpxTimeLimitIsExceeded s = true \/ SpxIterationLimitIsExceeded s = true \/
       SpxObjectiveLimitIsExceeded s = true)) ->
    Solver.separate e w = Ok w.
Proof.
  unfold CreateSolver. destruct (FindError p); [discriminate|]. intros H. apply bind_ok in H as (d & _ & H).
  apply bind_ok in H as (c & _ & H). apply bind_ok in H as (s1 & _ & H). injection H as <- <-.
  split; [reflexivity|]. split; [reflexivity|]. split; [reflexivity|].
  intros w l -> HS. cbn [Solver.separate whole_env]. unfold run_separation, Separate.
  assert (M : MayRun _ (stops G) (fun x => lpi_solved (fst x)) (rc_limits (cf_runner c)) w = false).
  { unfold MayRun. destruct (stops G (Runner.world w)) eqn:ST; [reflexivity|].
    change (lpi_stops (lp_of w) = false) in ST. change (fst (Runner.world w)) with (lp_of w).
    destruct HS as [(s & L & HS)|(s & L & HS)]; rewrite L in *; cbn [lpi_stops lpi_solved] in *;
      (destruct HS as [HS|HS]; [rewrite HS; reflexivity|]);
      repeat (destruct HS as [HS|HS]; [rewrite HS in ST; rewrite ?orb_true_r in ST; discriminate ST|]);
      rewrite HS in ST; rewrite ?orb_true_r in ST; discriminate ST. }
  destruct (Z.to_nat _); cbn [Runner.separate]; rewrite M; reflexivity.
Qed.

(** Two exact runs agree. *)
Theorem whole_agree E X G p0 mx flag sort draw make g order u e w0 E' X' G' p0' mx' flag' sort' draw' make' g' order' u' e' w0' p :
  plain_lp E X (wanted_solver u) -> exact_lp E X (wanted_solver u) -> inside_lp E X (wanted_solver u) ->
  accurate_lp 0 E X (wanted_solver u) -> plain_request u -> zval (setting (pm_integrality u) d1em6) = 0 ->
  sorts sort -> visits_integers p order -> no_cuts u \/ (forall a, valid_generator p (make a)) ->
  CreateSolver (E := E) (X := X) G p0 mx flag sort draw make g order p u = Ok (e, w0) ->
  plain_lp E' X' (wanted_solver u') -> exact_lp E' X' (wanted_solver u') -> inside_lp E' X' (wanted_solver u') ->
  accurate_lp 0 E' X' (wanted_solver u') -> plain_request u' -> zval (setting (pm_integrality u') d1em6) = 0 ->
  sorts sort' -> visits_integers p order' -> no_cuts u' \/ (forall a, valid_generator p (make' a)) ->
  CreateSolver (E := E') (X := X') G' p0' mx' flag' sort' draw' make' g' order' p u' = Ok (e', w0') ->
  proper_problem p -> bounded_relaxation p ->
  forall fuel fuel' s', Solve e' fuel' w0' = Ok s' ->
  (forall s, Solve e fuel w0 = Ok s ->
     (best (res s) = sol_default /\ best (res s') = sol_default) \/
     (best (res s) <> sol_default /\ best (res s') <> sol_default /\
      (qval (s_obj (best (res s))) == qval (s_obj (best (res s'))))%Q)) /\
  (forall r, Solve e fuel w0 = Err r -> best (res s') = sol_default).
Proof.
  intros A1 A2 A3 A4 A5 A6 A7 A8 A9 A10 B1 B2 B3 B4 B5 B6 B7 B8 B9 B10 PP BR fuel fuel' s' S'.
  pose proof (whole_argmin _ _ _ _ _ _ _ _ _ _ _ _ _ _ _ B1 B2 B3 B4 PP BR B5 B6 B7 B8 B9 B10 _ _ S') as M'.
  split.
  - intros s S.
    pose proof (whole_argmin _ _ _ _ _ _ _ _ _ _ _ _ _ _ _ A1 A2 A3 A4 PP BR A5 A6 A7 A8 A9 A10 _ _ S) as M.
    destruct (whole_optimum _ _ _ _ _ _ _ _ _ _ _ _ _ _ _ A1 A2 PP BR A5 A7 A8 A9 A10) as [N _].
    destruct (whole_optimum _ _ _ _ _ _ _ _ _ _ _ _ _ _ _ B1 B2 PP BR B5 B7 B8 B9 B10) as [N' _].
    destruct M as [[M1 M2]|(F & C & L)], M' as [[M1' M2']|(F' & C' & L')].
    + left. auto.
    + exfalso. exact (M2 _ F').
    + exfalso. exact (M2' _ F).
    + right. split; [exact (proj2 (N _ _ S _ F))|]. split; [exact (proj2 (N' _ _ S' _ F))|].
      rewrite C, C'. apply Qle_antisym; auto.
  - intros r S. destruct (whole_optimum _ _ _ _ _ _ _ _ _ _ _ _ _ _ _ A1 A2 PP BR A5 A7 A8 A9 A10) as [_ N].
    destruct M' as [[M1' M2']|(F' & _)]; [exact M1'|]. exfalso. exact (N _ _ S _ F').
Qed.

Lemma whole_again E X G p0 mx flag sort draw (make : list rounder * Z -> generator (E := E) (X := X) G) g order p u e w0 :
  plain_lp E X (wanted_solver u) -> proper_problem p -> calm_request u -> usable_rule p u draw ->
  sorts sort -> visits_integers p order ->
  no_cuts u \/ (forall a, proper_generator p (make a)) ->
  CreateSolver G p0 mx flag sort draw make g order p u = Ok (e, w0) ->
  forall fuel s, Solve e fuel w0 = Ok s -> explored s <> [0] ->
  forall fuel' s', SolveAgain e fuel' s <> Ok s'.
Proof.
  intros LAWS PP PR RU SO VI CU H.
  assert (CU' : no_cuts u \/ forall a, gives_q (wanted_solver u) G p False (fitting_cut p) (make a)).
  { destruct CU as [C|C]; [left; exact C|right]. intros a y r s cs y' GD.
    exact (C a y r s cs y' (good_has_columns (wanted_solver u) p False s GD)). }
  exact (end_again (wanted_solver u) LAWS G p0 mx flag sort SO draw make g order p PP u PR VI eq_refl False
    (fitting_cut p) (fun c H => H) (fun F => False_ind _ F) (fitting_keeps p) CU' e w0 H RU).
Qed.
