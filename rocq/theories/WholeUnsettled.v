(** LP solvers that are right whenever they answer, but do not always answer. *)
From Coq Require Import String List ZArith Bool QArith Lia SpecFloat.
From Verif Require Import Outcome OutcomeFacts Num Double DoubleFacts Rounding SparseVector VectorSpec Aggregation
  Problem MipData ProblemSpec CutsData Selector Runner CutSpec CutProofs LpParams GlopLp GlopIface GlopSpec
  GlopProofs SoplexIface SoplexSpec Branching Params ReaderSpec Solver SolverSpec SolverCases GlopCases SoplexCases
  Whole WholeSpec WholeTables SolverProofs WholeCases WholeGap.
Import ListNotations.
Open Scope Z_scope.
Open Scope string_scope.

(** As [line true] and [xline true], but they give up on an LP whose only variable is at most [h]. *)
Definition hard (h : Z) (l : glop_lp) : bool :=
  match g_cols l with [c] => dleb (g_ub c) (dint h) | _ => false end.
Definition weary (h : Z) : engine :=
  let E := line true in
  mkEngine lw unit unit (w_new E) (w_params E) (w_set_params E)
    (fun w t l => if hard h l then (true, t, mkLW (lw_params w) ABNORMAL d0 None) else w_solve E w t l)
    (w_status E) (w_iterations E) (w_objective E) (w_value E) (w_redcost E) (w_dual E) (w_vstatus E) (w_cstatus E)
    (w_objlimit E) (w_state E) (w_load E) (w_clear E) (sc_new E) (sc_scale E) (sc_factor E) (sc_unscale E)
    (tl_new E) (tl_reached E) (lp_slacks E) (lp_feasible E).
Definition xweary (h : Z) : spx_engine :=
  let X := xline true in
  mkSpxEngine lx (x_new X) (x_edit X)
    (fun x q d l => if hard h l then (false, mkLX ST_SINGULAR d0 None) else x_optimize X x q d l)
    (x_status X) (x_basis X) (x_iterations X) (x_time X) (x_objective X) (x_col X) (x_row X) (x_get_basis X)
    (x_set_basis X) (x_clear_basis X) (x_order X) (x_binv_row X) (x_binv_times X) (x_dot X) (x_primal X) (x_dual X)
    (x_slacks X) (x_redcost X) (x_ray X) (x_farkas X) (x_has_ray X) (x_has_farkas X) (x_basis_ind X)
    (x_eps_zero X) (x_rules X).

Lemma weary_solve h w t l t' w' : w_solve (weary h) w t l = (true, t', w') ->
  w_solve (line true) w t l = (true, t', w') \/ w_status (weary h) w' = ABNORMAL.
Proof. cbn [w_solve weary]. destruct (hard h l); [|auto]. intros H. injection H as <- <-. right. reflexivity. Qed.
Lemma xweary_answer h l x' : spx_answer (xweary h) l x' -> spx_answer (xline true) l x' \/ x_status (xweary h) x' = ST_SINGULAR.
Proof.
  intros (x & g & U & H). cbn [x_optimize xweary] in H. destruct (hard h l); [injection H as <-; right; reflexivity|].
  left. exists x, g. auto.
Qed.

Lemma weary_laws h : engine_laws (weary h).
Proof.
  split; auto. intros w t p. cbn [w_solve weary]. destruct (hard h p); [reflexivity|]. apply (el_solve _ (line_laws true)).
Qed.
Lemma weary_plain h : plain_engine (weary h).
Proof.
  destruct (line_plain true). constructor; try reflexivity; try assumption. intros. apply number_finite.
Qed.
Lemma weary_inside h : engine_inside (weary h).
Proof.
  intros l q sc w t t' w' S P H O. destruct (weary_solve _ _ _ _ _ _ H) as [H'|A]; [|rewrite A in O; discriminate O].
  exact (line_inside true l q sc w t t' w' S P H' O).
Qed.
Lemma weary_accurate h : engine_accurate 0 (weary h).
Proof.
  intros l q sc w t t' w' S P H O. destruct (weary_solve _ _ _ _ _ _ H) as [H'|A]; [|rewrite A in O; discriminate O].
  exact (line_accurate true l q sc w t t' w' S P H' O).
Qed.
Lemma weary_runs h : engine_runs (weary h).
Proof. intros w t q. cbn [w_solve weary]. destruct (hard h q); [reflexivity|]. apply line_runs. Qed.
Lemma line_honest : honest_engine (line true).
Proof.
  intros l q sc w t t' w' _ _ _ P S x R C. apply line_prepares in P. subst q. cbn [w_solve line] in S.
  destruct (line_solve (table_of l)) as [[y b]|] eqn:L; injection S as <- <-.
  - destruct (answer_exact l y b x L R C) as (-> & F & A). cbn [w_status w_objective line lw_status lw_x].
    rewrite (number_id y F). split; [auto|]. cbn [In]. intuition discriminate.
  - cbn [w_status line lw_status]. split; [discriminate|]. cbn [In]. intuition discriminate.
Qed.
Lemma weary_honest h : honest_engine (weary h).
Proof.
  intros l q sc w t t' w' S M T P H x R C. destruct (weary_solve _ _ _ _ _ _ H) as [H'|A].
  - exact (line_honest l q sc w t t' w' S M T P H' x R C).
  - rewrite A. split; [discriminate|]. cbn [In]. intuition discriminate.
Qed.

Lemma xweary_plain h : plain_spx (xweary h).
Proof.
  destruct (xline_plain true) as [V T F]. constructor; [exact V| |].
  - intros x g l x' H. cbn [x_optimize xweary] in H. destruct (hard h l); [discriminate H|]. exact (T x g l x' H).
  - intros l x' S A O. destruct (xweary_answer _ _ _ A) as [A'|B]; [exact (F l x' S A' O)|rewrite B in O; discriminate O].
Qed.
Lemma xweary_inside h : spx_inside (xweary h).
Proof.
  intros l x' f S A O. destruct (xweary_answer _ _ _ A) as [A'|B]; [exact (xline_inside true l x' f S A' O)|rewrite B in O; discriminate O].
Qed.
Lemma xweary_accurate h : spx_accurate 0 (xweary h).
Proof.
  intros l x' f S A O. destruct (xweary_answer _ _ _ A) as [A'|B]; [exact (xline_accurate true l x' f S A' O)|rewrite B in O; discriminate O].
Qed.
Lemma xweary_runs h : spx_runs (xweary h).
Proof.
  intros x g l. cbn [x_optimize xweary]. destruct (hard h l); [|apply xline_runs]. split; [reflexivity|].
  unfold spx_success. cbn. auto 10.
Qed.
Lemma xline_honest : honest_spx (xline true).
Proof.
  intros l x' _ _ _ A x R C. apply xline_answer in A as [(y & b & L & ->)|[_ ->]].
  - destruct (answer_exact l y b x L R C) as (-> & F & A). cbn [x_status x_objective xline lx_status lx_x].
    rewrite (number_id y F). split; [auto|]. cbn [In]. intuition discriminate.
  - cbn [x_status xline lx_status]. split; [discriminate|]. cbn [In]. intuition discriminate.
Qed.
Lemma xweary_honest h : honest_spx (xweary h).
Proof.
  intros l x' S M T A x R C. destruct (xweary_answer _ _ _ A) as [A'|B].
  - exact (xline_honest l x' S M T A' x R C).
  - rewrite B. split; [discriminate|]. cbn [In]. intuition discriminate.
Qed.

(** Maximise x in [0, 3] with 1/2 <= x <= 5/2 and x integer *)
Definition unsettled_of (h : Z) (k : solver_type) :=
  CreateSolver (E := weary h) (X := xweary h) unit spx_start false false (fun l => fold_right insert_cut' [] l)
    (fun _ _ => 0) make_two tt [0] p_w (asking k without_cuts).
Lemma unsettled_best k : outcome_of (unsettled_of 2 k) 5 = Ok (sol_default, [0; 2; 1], []).
Proof. destruct k; calc. Qed.
Lemma unsettled_root k : (do (e, w) <- unsettled_of 3 k ; do s <- Solve e 5 w ; Ok tt) = Err Internal.
Proof. destruct k; calc. Qed.
Lemma unsettled_made k : made_ok (unsettled_of 3 k) = true.
Proof. destruct k; calc. Qed.
Lemma fails {G E X} (x : outcome (env (whole (E := E) (X := X) G) * whole (E := E) (X := X) G)) : made_ok x = true ->
  (do (e, w) <- x ; do s <- Solve e 5 w ; Ok tt) = Err Internal -> exists e w, x = Ok (e, w) /\ Solve e 5 w = Err Internal.
Proof.
  destruct x as [[e w]| | | |]; try discriminate. intros _ H. exists e, w. split; [reflexivity|]. cbn [bind] in H.
  destruct (Solve e 5 w); try discriminate H. cbn [bind] in H. injection H as ->. reflexivity.
Qed.
Lemma wearies_plain h k : plain_lp (weary h) (xweary h) k.
Proof. destruct k; [split; [apply weary_laws|apply weary_plain]|apply xweary_plain]. Qed.
Lemma wearies_honest h k : honest_lp (weary h) (xweary h) k.
Proof. destruct k; [apply weary_honest|apply xweary_honest]. Qed.
Lemma wearies_inside h k : inside_lp (weary h) (xweary h) k.
Proof. destruct k; [apply weary_inside|apply xweary_inside]. Qed.
Lemma wearies_accurate h k : accurate_lp 0 (weary h) (xweary h) k.
Proof. destruct k; [apply weary_accurate|apply xweary_accurate]. Qed.
Lemma wearies_run h k : runs_lp (weary h) (xweary h) k.
Proof. destruct k; [apply weary_runs|apply xweary_runs]. Qed.

Lemma unsettled_refutes k : exists E X G p0 mx flag sort draw
    (make : list rounder * Z -> generator (E := E) (X := X) G) g order p u e w0 s x,
  (plain_lp E X k /\ honest_lp E X k /\ inside_lp E X k /\ accurate_lp 0 E X k /\ runs_lp E X k /\
   proper_problem p /\ bounded_relaxation p /\ bounded_integers p /\ plain_request u /\ wanted_solver u = k /\
   sorts sort /\ visits_integers p order /\ no_cuts u /\
   CreateSolver G p0 mx flag sort draw make g order p u = Ok (e, w0)) /\
  Solve e 5 w0 = Ok s /\ Solver.status s = Some kOptimal /\ best (res s) = sol_default /\ feasible p x.
Proof.
  destruct (outcome_of_ok _ _ _ _ _ (unsettled_best k)) as (e & w & s & C & S & B & _).
  exists (weary 2), (xweary 2), unit, spx_start, false, false, (fun l => fold_right insert_cut' [] l),
    (fun _ _ => 0), make_two, tt, [0], p_w, (asking k without_cuts), e, w, s, (fun _ => inject_Z 1).
  split; [|split; [exact S|split; [exact (loop_status e 5 _ _ S)|split; [exact B|apply p_w_feasible; lia]]]].
  split; [apply wearies_plain|]. split; [apply wearies_honest|]. split; [apply wearies_inside|].
  split; [apply wearies_accurate|]. split; [apply wearies_run|]. split; [exact p_w_proper|].
  split; [exact p_w_bounded|]. split; [exact p_w_integers|].
  split; [exact (asking_plain k without_cuts eq_refl without_plain)|].
  split; [exact (asking_wanted k without_cuts eq_refl)|]. split; [exact insertion_sorts|].
  split; [exact p_w_visits|]. split; [destruct k; discriminate|exact C].
Qed.
Lemma unsettled_root_refutes k : exists E X G p0 mx flag sort draw
    (make : list rounder * Z -> generator (E := E) (X := X) G) g order p u e w0 x,
  (plain_lp E X k /\ honest_lp E X k /\ inside_lp E X k /\ accurate_lp 0 E X k /\ runs_lp E X k /\
   proper_problem p /\ bounded_relaxation p /\ bounded_integers p /\ plain_request u /\ wanted_solver u = k /\
   sorts sort /\ visits_integers p order /\ no_cuts u /\
   CreateSolver G p0 mx flag sort draw make g order p u = Ok (e, w0)) /\
  Solve e 5 w0 = Err Internal /\ feasible p x.
Proof.
  destruct (fails (unsettled_of 3 k) (unsettled_made k) (unsettled_root k)) as (e & w & C & S).
  exists (weary 3), (xweary 3), unit, spx_start, false, false, (fun l => fold_right insert_cut' [] l),
    (fun _ _ => 0), make_two, tt, [0], p_w, (asking k without_cuts), e, w, (fun _ => inject_Z 1).
  split; [|split; [exact S|apply p_w_feasible; lia]].
  split; [apply wearies_plain|]. split; [apply wearies_honest|]. split; [apply wearies_inside|].
  split; [apply wearies_accurate|]. split; [apply wearies_run|]. split; [exact p_w_proper|].
  split; [exact p_w_bounded|]. split; [exact p_w_integers|].
  split; [exact (asking_plain k without_cuts eq_refl without_plain)|].
  split; [exact (asking_wanted k without_cuts eq_refl)|]. split; [exact insertion_sorts|].
  split; [exact p_w_visits|]. split; [destruct k; discriminate|exact C].
Qed.

(** A run in which no node is closed on an LP that was given up *)
Section Audit.
Context {E : engine} {X : spx_engine} {G : Type} (e : env (whole (E := E) (X := X) G)) (w0 : whole (E := E) (X := X) G).
Definition said (l : lpi E X) : bool :=
  match l with
  | GlopLpi s => match w_status E (solver s) with PRIMAL_INFEASIBLE | DUAL_UNBOUNDED | INFEASIBLE_OR_UNBOUNDED => true | _ => false end
  | SoplexLpi s => match x_status X (s_x s) with ST_INFEASIBLE | ST_INForUNBD => true | _ => false end
  end.
Lemma said_infeasible l : said l = true -> says_infeasible l.
Proof.
  destruct l as [s|s]; cbn [said says_infeasible].
  - destruct (w_status E (solver s)); try discriminate; cbn [In]; auto.
  - destruct (x_status X (s_x s)); try discriminate; cbn [In]; auto.
Qed.
Definition audited (s : solver_state (whole (E := E) (X := X) G)) : bool :=
  match take (backjump s) (queue s) with
  | Ok (n, _) =>
      match solve_node e (mip_tree s) n (Solver.world s) with
      | Ok w => is_optimal e w || said (lp_of w)
      | _ => true
      end
  | _ => true
  end.
Fixpoint audit (fuel : nat) (s : solver_state (whole (E := E) (X := X) G)) : bool :=
  match queue s with
  | [] => true
  | _ => match fuel with
         | O => false
         | S f => audited s && match solver_round e s with Ok (Continue s') => audit f s' | _ => true end
         end
  end.
Lemma audit_visits fuel s : audit fuel (solve_start w0) = true -> visits e w0 s -> exists f, audit f s = true.
Proof.
  intros A V. induction V as [|s s' V [f IH] Q R]; [exists fuel; exact A|].
  destruct f as [|f]; cbn [audit] in IH; destruct (queue s); try congruence.
  apply andb_true_iff in IH as [_ IH]. rewrite R in IH. exists f. exact IH.
Qed.
Lemma audit_settled fuel : audit fuel (solve_start w0) = true ->
  forall s n w, visits e w0 s -> takes s n -> solve_node e (mip_tree s) n (Solver.world s) = Ok w ->
  is_optimal e w = false -> says_infeasible (lp_of w).
Proof.
  intros A s n w V [q T] S O. destruct (audit_visits fuel s A V) as [f F]. apply said_infeasible.
  destruct f as [|f]; cbn [audit] in F; destruct (queue s) eqn:Q; try discriminate F;
    try (destruct (backjump s); discriminate T).
  apply andb_true_iff in F as [F _]. unfold audited in F. rewrite Q, T, S, O in F. exact F.
Qed.
End Audit.
Lemma audited_run {G E X} (x : outcome (env (whole (E := E) (X := X) G) * whole (E := E) (X := X) G)) fuel b ns cs :
  outcome_of x fuel = Ok (b, ns, cs) -> (do (e, w) <- x ; Ok (audit e fuel (solve_start w))) = Ok true ->
  exists e w0 s, x = Ok (e, w0) /\ Solve e fuel w0 = Ok s /\ best (res s) = b /\ explored s = ns /\
    (forall s n w, visits e w0 s -> takes s n -> solve_node e (mip_tree s) n (Solver.world s) = Ok w ->
       is_optimal e w = false -> says_infeasible (lp_of w)).
Proof.
  intros H A. destruct (outcome_of_ok x fuel b ns cs H) as (e & w & s & C & S & B & N & _). exists e, w, s.
  rewrite C in A. cbn [bind] in A. injection A as A.
  split; [exact C|]. split; [exact S|]. split; [exact B|]. split; [exact N|]. exact (audit_settled e w fuel A).
Qed.
Lemma settled_audit k : (do (e, w) <- unsettled_of 0 k ; Ok (audit e 5 (solve_start w))) = Ok true.
Proof. destruct k; calc. Qed.
Lemma settled_best k : outcome_of (unsettled_of 0 k) 5 = Ok (mkSol [dint 2] (dint (-2)), [0; 2; 1], []).
Proof. destruct k; calc. Qed.
