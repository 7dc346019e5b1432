(** The random branching rule with a continuous variable in the first column. *)
From Coq Require Import String List ZArith Bool QArith Qabs Lia SpecFloat.
From Verif Require Import Outcome OutcomeFacts Num Double DoubleFacts Rounding SparseVector VectorSpec Aggregation
  Problem MipData ProblemSpec MipDataProofs CutsData Selector Runner CutSpec CutProofs LpParams GlopLp GlopIface GlopSpec
  GlopProofs SoplexIface SoplexSpec Branching Params ReaderSpec MipTree Solver SolverSpec SolverCases GlopCases SoplexCases
  Whole WholeSpec WholeTables SolverProofs SolverEndless WholeRun WholeCases WholeGap WholeUnsettled.
Import ListNotations.
Open Scope Z_scope.
Open Scope string_scope.

(** *** LP solvers for one LP only: minimise -x with y in [0, 1], x in [0, 3] and 1/2 <= x <= 5/2 *)
Definition double_dec (a b : double) : {a = b} + {a <> b}.
Proof. decide equality; apply Bool.bool_dec || apply Pos.eq_dec || apply Z.eq_dec. Defined.
Definition is_double (a b : double) : bool := if double_dec a b then true else false.
Lemma is_double_eq a b : is_double a b = true -> a = b.
Proof. unfold is_double. destruct (double_dec a b); [auto|discriminate]. Qed.
Definition the_pair (n0 n1 n : string) (b : bool) : table :=
  mkT [mkTC d0 d1 d0 n0 [d0]; mkTC d0 (dint 3) dm1 n1 [d1]] [mkTR half five_halves n] b.
Definition is_pair (t : table) : bool :=
  match t_cols t, t_rows t with
  | [mkTC l0 u0 o0 _ [a0]; mkTC l1 u1 o1 _ [a1]], [mkTR l u _] =>
      is_double l0 d0 && is_double u0 d1 && is_double o0 d0 && is_double a0 d0 &&
      is_double l1 d0 && is_double u1 (dint 3) && is_double o1 dm1 && is_double a1 d1 &&
      is_double l half && is_double u five_halves
  | _, _ => false
  end.
Lemma is_pair_eq t : is_pair t = true -> exists n0 n1 n b, t = the_pair n0 n1 n b.
Proof.
  destruct t as [cols rows b]. unfold is_pair. cbn [t_cols t_rows].
  destruct cols as [|[l0 u0 o0 n0 [|a0 [|]]] [|[l1 u1 o1 n1 [|a1 [|]]] [|]]]; try discriminate.
  destruct rows as [|[l u n] [|]]; try discriminate. intros H.
  repeat (apply andb_prop in H; destruct H as [H ?]).
  repeat match goal with K : is_double _ _ = true |- _ => apply is_double_eq in K; subst end.
  exists n0, n1, n, b. reflexivity.
Qed.
Lemma pair_row n0 n1 n b x : (row_sum (the_pair n0 n1 n b) 0 x == x 1%Z)%Q.
Proof.
  unfold row_sum, numbered. change (q_sum [qval d0 * x 0%Z; qval d1 * x 1%Z] == x 1%Z)%Q.
  unfold q_sum. cbn [fold_right]. rewrite qval_d1, qval_d0. ring.
Qed.

Lemma pair_cost n0 n1 n b x : (table_cost (the_pair n0 n1 n b) x == - x 1%Z)%Q.
Proof.
  unfold table_cost, numbered. change (q_sum [qval d0 * x 0%Z; qval dm1 * x 1%Z] == - x 1%Z)%Q.
  assert (M : (qval dm1 == -1)%Q) by (apply (qval_dint (-1)); reflexivity).
  unfold q_sum. cbn [fold_right]. rewrite M, qval_d0. ring.
Qed.
Lemma q_five_halves : (qval five_halves == 5 # 2)%Q.
Proof. reflexivity. Qed.
(** Its solution: y = 0 and x = 5/2. *)
Definition pair_value (k : Z) : double := if (k =? 1)%Z then five_halves else d0.
Lemma pair_value_finite k : finite_double (pair_value k).
Proof. unfold pair_value. destruct (k =? 1)%Z; split; reflexivity. Qed.
Lemma pair_least t x : is_pair t = true -> rows_hold t x -> q_above (dopp five_halves) (table_cost t x).
Proof.
  intros P R. apply is_pair_eq in P as (n0 & n1 & n & b & ->). destruct (R 0 (mkTR half five_halves n) eq_refl) as [_ B].
  cbn [t_rhs] in B. apply (q_below_eq _ _ _ (pair_row n0 n1 n b x)) in B.
  assert (B' : (x 1%Z <= qval five_halves)%Q) by exact B.
  apply (q_above_eq _ (- x 1%Z)%Q); [symmetry; apply pair_cost|].
  assert (H : (qval (dopp five_halves) <= - x 1%Z)%Q); [|exact H].
  assert (O : (qval (dopp five_halves) == - qval five_halves)%Q) by reflexivity.
  rewrite O. apply Qopp_le_compat. exact B'.
Qed.
Lemma pair_within t x : is_pair t = true -> (x 1%Z == qval five_halves)%Q ->
  rows_within 0 t x /\ finite_double (dopp five_halves) /\ (Qabs (qval (dopp five_halves) - table_cost t x) <= 0)%Q.
Proof.
  intros P V. apply is_pair_eq in P as (n0 & n1 & n & b & ->). split; [|split; [split; reflexivity|]].
  - intros r g H. unfold at_ in H. destruct (r <? 0)%Z eqn:N; [discriminate H|].
    destruct (Z.to_nat r) as [|m] eqn:R; [|destruct m; discriminate H]. injection H as <-.
    assert (r = 0) by (apply Z.ltb_ge in N; lia). subst r. cbn [t_lhs t_rhs]. split.
    + apply (q_above_eq _ (qval five_halves)); [rewrite pair_row, V; ring|].
      assert (H : (qval half <= qval five_halves)%Q) by (intros H; discriminate H). exact H.
    + apply (q_below_eq _ (qval five_halves)); [rewrite pair_row, V; ring|].
      assert (H : (qval five_halves <= qval five_halves)%Q) by apply Qle_refl. exact H.
  - rewrite pair_cost, V. assert (O : (qval (dopp five_halves) == - qval five_halves)%Q) by reflexivity. rewrite O.
    setoid_replace (- qval five_halves - - qval five_halves)%Q with 0%Q by ring. intros H. discriminate H.
Qed.
Lemma pair_bounds l k g : is_pair (table_of l) = true -> at_ (g_cols l) k = Ok g ->
  dleb (g_lb g) (pair_value k) = true /\ dleb (pair_value k) (g_ub g) = true.
Proof.
  intros P H. apply is_pair_eq in P as (n0 & n1 & n & b & P). unfold table_of, the_pair in P.
  destruct (g_cols l) as [|g0 [|g1 [|]]]; try discriminate P. unfold at_ in H. destruct (k <? 0)%Z eqn:N; [discriminate H|].
  injection P as L0 U0 _ _ _ L1 U1 _. apply Z.ltb_ge in N.
  destruct (Z.to_nat k) as [|[|m]] eqn:K; [| |destruct m; discriminate H]; injection H as <-.
  - assert (k = 0) by lia. subst k. rewrite L0, U0. split; reflexivity.
  - assert (k = 1) by lia. subst k. rewrite L1, U1. split; reflexivity.
Qed.

(** All other LPs are given up. *)
Definition narrow : engine :=
  let E := line true in
  mkEngine lw unit unit (w_new E) (w_params E) (w_set_params E)
    (fun w t l => (true, t, mkLW (lw_params w) (if is_pair (table_of l) then OPTIMAL else ABNORMAL) five_halves None))
    (w_status E) (w_iterations E) (fun _ => dopp five_halves) (fun _ => pair_value) (w_redcost E) (w_dual E)
    (w_vstatus E) (w_cstatus E)
    (w_objlimit E) (w_state E) (w_load E) (w_clear E) (sc_new E) (sc_scale E) (sc_factor E) (sc_unscale E)
    (tl_new E) (tl_reached E) (lp_slacks E) (lp_feasible E).
Definition xnarrow : spx_engine :=
  let X := xline true in
  mkSpxEngine lx (x_new X) (x_edit X)
    (fun x q d l => (false, mkLX (if is_pair (table_of l) then ST_OPTIMAL else ST_SINGULAR) five_halves None))
    (x_status X) (x_basis X) (x_iterations X) (x_time X) (fun _ => dopp five_halves) (x_col X) (x_row X) (x_get_basis X)
    (x_set_basis X) (x_clear_basis X) (x_order X) (x_binv_row X) (x_binv_times X) (x_dot X)
    (fun _ => Some pair_value) (x_dual X)
    (x_slacks X) (x_redcost X) (x_ray X) (x_farkas X) (x_has_ray X) (x_has_farkas X) (x_basis_ind X)
    (x_eps_zero X) (x_rules X).
Lemma narrow_prepares l q sc : prepares narrow l q sc -> q = l.
Proof. intros [H|H]; injection H as H _; exact H. Qed.
Lemma narrow_optimal l q sc w t t' w' : prepares narrow l q sc -> w_solve narrow w t q = (true, t', w') ->
  if is_pair (table_of l) then w_status narrow w' = OPTIMAL else w_status narrow w' = ABNORMAL.
Proof.
  intros P S. apply narrow_prepares in P. subst q. cbn [w_solve narrow] in S. injection S as _ <-.
  destruct (is_pair (table_of l)); reflexivity.
Qed.
Lemma narrow_laws : engine_laws narrow.
Proof. split; auto. Qed.
Lemma narrow_plain : plain_engine narrow.
Proof. constructor; try reflexivity. intros. apply pair_value_finite. Qed.
Lemma narrow_inside : engine_inside narrow.
Proof.
  intros l q sc w t t' w' _ P S O k g Hg. apply (narrow_optimal _ _ _ _ _ _ _ P) in S.
  destruct (is_pair (table_of l)) eqn:I; [|rewrite S in O; discriminate O]. exact (pair_bounds l k g I Hg).
Qed.
Lemma narrow_accurate : engine_accurate 0 narrow.
Proof.
  intros l q sc w t t' w' _ P S O. apply (narrow_optimal _ _ _ _ _ _ _ P) in S.
  destruct (is_pair (table_of l)) eqn:I; [|rewrite S in O; discriminate O]. exact (pair_within (table_of l) _ I (Qeq_refl _)).
Qed.
Lemma narrow_runs : engine_runs narrow.
Proof. intros w t q. reflexivity. Qed.
Lemma narrow_honest : honest_engine narrow.
Proof.
  intros l q sc w t t' w' _ _ _ P S x R _. apply (narrow_optimal _ _ _ _ _ _ _ P) in S.
  destruct (is_pair (table_of l)) eqn:I; rewrite S; (split; [|cbn [In]; intuition discriminate]).
  - intros _. exact (pair_least _ x I R).
  - discriminate.
Qed.

Lemma xnarrow_optimal l x' : spx_answer xnarrow l x' ->
  if is_pair (table_of l) then x_status xnarrow x' = ST_OPTIMAL else x_status xnarrow x' = ST_SINGULAR.
Proof. intros (x & g & _ & H). cbn [x_optimize xnarrow] in H. injection H as <-. destruct (is_pair (table_of l)); reflexivity. Qed.
Lemma xnarrow_plain : plain_spx xnarrow.
Proof.
  constructor; [reflexivity| |].
  - intros x g l x' H. discriminate H.
  - intros l x' _ _ _. exists pair_value. split; [reflexivity|]. intros. apply pair_value_finite.
Qed.
Lemma xnarrow_inside : spx_inside xnarrow.
Proof.
  intros l x' f _ A O P k g Hg. apply xnarrow_optimal in A. injection P as <-.
  destruct (is_pair (table_of l)) eqn:I; [|rewrite A in O; discriminate O]. exact (pair_bounds l k g I Hg).
Qed.
Lemma xnarrow_accurate : spx_accurate 0 xnarrow.
Proof.
  intros l x' f _ A O P. apply xnarrow_optimal in A. injection P as <-.
  destruct (is_pair (table_of l)) eqn:I; [|rewrite A in O; discriminate O]. exact (pair_within (table_of l) _ I (Qeq_refl _)).
Qed.
Lemma xnarrow_runs : spx_runs xnarrow.
Proof.
  intros x g l. split; [reflexivity|]. cbn [x_optimize xnarrow snd x_status xline lx_status].
  unfold spx_success. cbn. destruct (is_pair (table_of l)); auto 10.
Qed.
Lemma xnarrow_honest : honest_spx xnarrow.
Proof.
  intros l x' _ _ _ A x R _. apply xnarrow_optimal in A.
  destruct (is_pair (table_of l)) eqn:I; rewrite A; (split; [|cbn [In]; intuition discriminate]).
  - intros _. exact (pair_least _ x I R).
  - discriminate.
Qed.

Lemma narrows_plain k : plain_lp narrow xnarrow k.
Proof. destruct k; [split; [apply narrow_laws|apply narrow_plain]|apply xnarrow_plain]. Qed.
Lemma narrows_honest k : honest_lp narrow xnarrow k.
Proof. destruct k; [apply narrow_honest|apply xnarrow_honest]. Qed.
Lemma narrows_inside k : inside_lp narrow xnarrow k.
Proof. destruct k; [apply narrow_inside|apply xnarrow_inside]. Qed.
Lemma narrows_accurate k : accurate_lp 0 narrow xnarrow k.
Proof. destruct k; [apply narrow_accurate|apply xnarrow_accurate]. Qed.
Lemma narrows_run k : runs_lp narrow xnarrow k.
Proof. destruct k; [apply narrow_runs|apply xnarrow_runs]. Qed.

(** *** Maximise x with y in [0, 1], x in [0, 3] an integer and 1/2 <= x <= 5/2 *)
Definition p_pair : problem :=
  mkProblem "p" [mkVar "y" d0 d0 d1 false; mkVar "x" d1 d0 (dint 3) true] [mkCon "r" [1] [d1] half five_halves] [] true d0.
Lemma p_pair_proper : proper_problem p_pair.
Proof.
  constructor.
  - split.
    + constructor; [|constructor; [|constructor]]; (split; [discriminate|reflexivity]).
    + constructor; [|constructor]. split; [discriminate|]. cbn [c_idx c_coef c_lhs c_rhs num_vars p_pair p_vars length].
      split; [constructor; [cbn; lia|constructor]|]. split; [constructor; [intros []|constructor]|]. auto.
  - repeat constructor.
  - repeat constructor.
  - repeat constructor.
  - repeat constructor.
Qed.
Lemma p_pair_bounded : bounded_integers p_pair.
Proof. repeat constructor; intros; repeat split; reflexivity || discriminate. Qed.
Lemma p_pair_whole : whole_bounds p_pair.
Proof. constructor; [|constructor; [|constructor]]; [discriminate|]. intros _. split; [exists 0; reflexivity|exists 3; reflexivity]. Qed.
Lemma p_pair_var j v : nth_var p_pair j = Some v ->
  (j = 0 /\ v = mkVar "y" d0 d0 d1 false) \/ (j = 1 /\ v = mkVar "x" d1 d0 (dint 3) true).
Proof.
  unfold nth_var. destruct (Z.ltb_spec j 0) as [L|L]; [discriminate|].
  destruct (Z.to_nat j) as [|[|n]] eqn:N; [| |destruct n; discriminate]; intros H; injection H as <-; [left|right]; split; try reflexivity; lia.
Qed.
Lemma p_pair_visits : visits_integers p_pair [1].
Proof.
  split; [repeat constructor; intros []|]. intros j. split.
  - intros [<-|[]]. eexists. split; reflexivity.
  - intros (v & A & B). apply p_pair_var in A as [[-> ->]|[-> ->]]; [discriminate B|]. left. reflexivity.
Qed.
Lemma p_pair_feasible : feasible p_pair (fun j => inject_Z j).
Proof.
  split.
  - intros j v H. apply p_pair_var in H as [[-> ->]|[-> ->]]; cbn [v_lb v_ub v_int];
      (split; [apply above_int; reflexivity || (cbn; lia)|split; [apply below_int; reflexivity || (cbn; lia)|]]).
    + discriminate.
    + intros _. exists 1. reflexivity.
  - intros r c H. unfold nth_con in H. cbn [p_cons p_pair] in H. destruct (r <? 0)%Z; [discriminate|].
    destruct (Z.to_nat r) as [|n]; [|destruct n; discriminate]. injection H as <-. cbn [c_lhs c_rhs].
    assert (A : (row_activity (mkCon "r" [1%Z] [d1] half five_halves) (fun j => inject_Z j) == 1)%Q) by reflexivity.
    split.
    + apply (q_above_eq _ 1%Q); [symmetry; exact A|]. assert (H : (qval half <= 1)%Q) by (intros H; discriminate H). exact H.
    + apply (q_below_eq _ 1%Q); [symmetry; exact A|]. assert (H : (1 <= qval five_halves)%Q) by (intros H; discriminate H). exact H.
Qed.

(** The random rule, without cuts *)
Definition at_random : params_msg :=
  mkPM None None None (Some (mkRunM [] [] (Some (mkLim (Some 0) None None None)))) [] [] None
    (Some (mkBrM (Some (RandomRule None)) None)).
Lemma random_calm : calm_request at_random.
Proof. constructor; try reflexivity. repeat split; try reflexivity. intros H. discriminate H. Qed.
Lemma asking_calm k u : pm_lp u = None -> calm_request u -> calm_request (asking k u).
Proof. intros N [H1 H2 H3 H4 H5]. destruct k; constructor; try exact H5; try assumption; reflexivity. Qed.

(** *** The run *)
Definition plain_sort (l : list cut) : list cut := fold_right insert_cut' [] l.
Definition random_of (draw : whole (E := narrow) (X := xnarrow) unit -> Z -> Z) (k : solver_type) :=
  CreateSolver (E := narrow) (X := xnarrow) unit spx_start false false plain_sort draw make_two tt [1] p_pair (asking k at_random).
(** The LP of a node, whose integer variable has the bounds of the problem *)
Definition again (c : config narrow xnarrow) (w : whole (E := narrow) (X := xnarrow) unit) : outcome (whole unit) :=
  do w1 <- on_whole unit (fun s => set_column s 1 d0 (dint 3)) w ;
  do w2 <- check_ok (on_whole unit dual_simplex w1) ;
  if lpi_optimal (lp_of w2)
  then check_ok (run_separation unit plain_sort (map make_two (rc_generators (cf_runner c))) (rc_selector (cf_runner c))
         (rc_limits (cf_runner c)) w2)
  else Ok w2.
(** The values of computations that end *)
Definition the {A} (x : outcome A) : made_ok x = true -> A :=
  match x as y return made_ok y = true -> A with
  | Ok v => fun _ => v
  | _ => fun h => False_rect A (Bool.diff_false_true h)
  end.
Lemma the_ok {A} (x : outcome A) h : x = Ok (the x h).
Proof. destruct x; try discriminate h. reflexivity. Qed.
Definition d_pair := MipData p_pair.
Definition c_pair k := Params.Create (E := narrow) (X := xnarrow) spx_start false false p_pair (asking k at_random).
Lemma d_made : made_ok d_pair = true. Proof. calc. Qed.
Lemma c_made k : made_ok (c_pair k) = true. Proof. destruct k; calc. Qed.
Definition d_p := the d_pair d_made.
Definition c_p k := the (c_pair k) (c_made k).
Definition l_pair k := lpi_step (cf_lpi (c_p k)) (CPopulate d_p).
Lemma l_made k : made_ok (l_pair k) = true. Proof. destruct k; calc. Qed.
Definition l_p k := the (l_pair k) (l_made k).
Definition w_pair k := again (c_p k) (mkRS 0 0 reg_new [] (l_p k, tt)).
Lemma w_made k : made_ok (w_pair k) = true. Proof. destruct k; calc. Qed.
Definition w_p k := the (w_pair k) (w_made k).
Lemma w_opt k : lpi_optimal (lp_of (w_p k)) = true. Proof. destruct k; calc. Qed.
Lemma w_val k : lpi_primal (lp_of (w_p k)) = Ok [d0; five_halves]. Proof. destruct k; calc. Qed.
Lemma w_again k : again (c_p k) (w_p k) = Ok (w_p k).
Proof. destruct k; calc. Qed.
Lemma w_fractional k : SolutionIsIntegral [1] [d0; five_halves] (cf_integrality (c_p k)) = Ok false.
Proof. destruct k; calc. Qed.
Lemma c_rule k : cf_rule (c_p k) = (UseRandom, Unspecified).
Proof. destruct k; calc. Qed.
Lemma pieces k : exists d c l w, MipData p_pair = Ok d /\
  Params.Create (E := narrow) (X := xnarrow) spx_start false false p_pair (asking k at_random) = Ok c /\
  lpi_step (cf_lpi c) (CPopulate d) = Ok l /\
  again c (mkRS 0 0 reg_new [] (l, tt)) = Ok w /\ again c w = Ok w /\ lpi_optimal (lp_of w) = true /\
  lpi_primal (lp_of w) = Ok [d0; five_halves] /\
  SolutionIsIntegral [1] [d0; five_halves] (cf_integrality c) = Ok false /\ cf_rule c = (UseRandom, Unspecified) /\
  MipData.lower_bounds d = [d0; d0] /\ MipData.upper_bounds d = [d1; dint 3] /\ integer_variables d = [1].
Proof.
  exists d_p, (c_p k), (l_p k), (w_p k). split; [exact (the_ok d_pair d_made)|]. split; [exact (the_ok (c_pair k) (c_made k))|].
  split; [exact (the_ok (l_pair k) (l_made k))|]. split; [exact (the_ok (w_pair k) (w_made k))|].
  split; [apply w_again|]. split; [apply w_opt|]. split; [apply w_val|]. split; [apply w_fractional|]. split; [apply c_rule|].
  split; [calc|]. split; calc.
Qed.

Lemma random_endless k draw : (forall w, is_draw (draw w)) ->
  exists e w0, random_of draw k = Ok (e, w0) /\ forall fuel, Solve e fuel w0 = Fuel.
Proof.
  intros DR. destruct (pieces k) as (d & c & l & w & D & C & L & A0 & A1 & O & PX & IX & RU & LB & UB & IV).
  set (e := whole_env unit plain_sort draw make_two c d [1]). set (w0 := mkRS 0 0 reg_new [] (l, tt)).
  assert (FE : FindError p_pair = None) by calc.
  exists e, w0. split; [unfold random_of, CreateSolver; rewrite FE, D; cbn [bind]; rewrite C; cbn [bind]; rewrite L; reflexivity|].
  assert (OK : env_ok e p_pair).
  { constructor; [apply (pp_ok _ p_pair_proper)|exact D|apply (pp_bounds _ p_pair_proper)|]. cbn [e whole_env Solver.order data].
    rewrite IV. apply Permutation.Permutation_refl. }
  apply (endless e p_pair OK (fun x => x = w0 \/ x = w)); [|left; reflexivity].
  intros x lo up HX B. destruct (B 1 (or_introl eq_refl)) as [B1 B2]. cbn [e whole_env data] in B1, B2.
  rewrite LB in B1. rewrite UB in B2. exists w.
  split; [|split; [right; reflexivity|split; [exact O|]]].
  - assert (A : again c x = Ok w) by (destruct HX as [->| ->]; assumption). unfold set_node_bounds.
    cbn [e whole_env Solver.order foldM set_bounds solve_dual is_optimal Solver.separate]. rewrite B1, B2. cbn [bind].
    change (at_ [d0; d0] 1) with (Ok d0). change (at_ [d1; dint 3] 1) with (Ok (dint 3)). cbn [bind].
    unfold again in A. destruct (on_whole unit (fun s => set_column s 1 d0 (dint 3)) x) as [w1| | | |]; try discriminate A.
    exact A.
  - exists [d0; five_halves], 0, false, d0. split; [exact PX|]. split; [exact IX|]. split; [|split; [reflexivity|]].
    + cbn [e whole_env branch]. unfold next_branching. rewrite RU, IV. unfold RandomBranching. cbn [length Z.of_nat Pos.of_succ_nat].
      pose proof (DR w 1 eq_refl) as R. replace (draw w 1) with 0 by lia. reflexivity.
    + split; [split; reflexivity|]. split; [cbn; lia|]. intros [H|[]]. discriminate H.
Qed.

Lemma random_refutes k : exists E X G p0 mx flag sort
    (make : list rounder * Z -> generator (E := E) (X := X) G) g order p u x,
  (plain_lp E X k /\ honest_lp E X k /\ inside_lp E X k /\ accurate_lp 0 E X k /\ runs_lp E X k /\
   proper_problem p /\ bounded_integers p /\ whole_bounds p /\ feasible p x /\
   calm_request u /\ wanted_rule u = UseRandom /\ wanted_solver u = k /\
   sorts sort /\ visits_integers p order /\ no_cuts u) /\
  forall draw, (forall w, is_draw (draw w)) ->
  exists e w0, CreateSolver G p0 mx flag sort draw make g order p u = Ok (e, w0) /\
    forall fuel, Solve e fuel w0 = Fuel.
Proof.
  exists narrow, xnarrow, unit, spx_start, false, false, plain_sort, make_two, tt, [1], p_pair, (asking k at_random), inject_Z.
  split; [|exact (random_endless k)].
  split; [apply narrows_plain|]. split; [apply narrows_honest|]. split; [apply narrows_inside|].
  split; [apply narrows_accurate|]. split; [apply narrows_run|]. split; [exact p_pair_proper|].
  split; [exact p_pair_bounded|]. split; [exact p_pair_whole|]. split; [exact p_pair_feasible|].
  split; [exact (asking_calm k at_random eq_refl random_calm)|]. split; [destruct k; reflexivity|].
  split; [exact (asking_wanted k at_random eq_refl)|]. split; [exact insertion_sorts|].
  split; [exact p_pair_visits|]. destruct k; discriminate.
Qed.

(** *** With integer variables first *)
Lemma whole_random E X G p0 mx flag sort draw (make : list rounder * Z -> generator (E := E) (X := X) G) g order p u e w0 eps :
  plain_lp E X (wanted_solver u) -> proper_problem p -> calm_request u -> wanted_rule u = UseRandom ->
  integers_first p -> (forall w, is_draw (draw w)) -> sorts sort -> visits_integers p order ->
  CreateSolver G p0 mx flag sort draw make g order p u = Ok (e, w0) ->
  (exact_lp E X (wanted_solver u) -> bounded_relaxation p -> no_cuts u \/ (forall a, valid_generator p (make a)) ->
   (forall fuel s, Solve e fuel w0 = Ok s -> forall x, feasible p x ->
      q_above (s_obj (best (res s))) (cost p x) /\ best (res s) <> sol_default) /\
   (forall fuel r, Solve e fuel w0 = Err r -> forall x, ~ feasible p x)) /\
  (inside_lp E X (wanted_solver u) -> accurate_lp eps E X (wanted_solver u) ->
   no_cuts u \/ (forall a, proper_generator p (make a)) ->
   forall fuel s, Solve e fuel w0 = Ok s -> forall sol, reported (res s) sol ->
   sol = sol_default \/
   ((forall j var, nth_var p j = Some var -> exists v, at_ (s_vals sol) j = Ok v /\ finite_double v /\
       dleb (v_lb var) v = true /\ dleb v (v_ub var) = true /\
       (v_int var = true -> near_integer v (setting (pm_integrality u) d1em6))) /\
    (forall r k, nth_con p r = Some k ->
       q_above (c_lhs k) (row_activity k (solution_point sol) + eps)%Q /\
       q_below (row_activity k (solution_point sol) - eps)%Q (c_rhs k)) /\
    finite_double (s_obj sol) /\ (Qabs (qval (s_obj sol) - cost p (solution_point sol)) <= eps)%Q)).
Proof.
  intros PL PP CR RU IF DR SO VI C. assert (US : usable_rule p u draw) by (right; auto). split.
  - intros XE BR CU. exact (whole_optimum_by E X G p0 mx flag sort draw make g order p u e w0 PL XE PP BR CR US SO VI CU C).
  - intros IN AC CU fuel s S sol R.
    destruct (whole_values_by E X G p0 mx flag sort draw make g order p u e w0 eps PL IN AC PP CR US SO VI CU C fuel s S sol R)
      as [->|(A1 & A2)]; [left; reflexivity|].
    destruct (whole_solutions_by E X G p0 mx flag sort draw make g order p u e w0 PL IN PP CR US SO VI CU C fuel s S sol R)
      as [->|(_ & B)]; [left; reflexivity|]. right. split; [|exact A2].
    intros j var V. destruct (A1 j var V) as (v & H1 & H2 & H3 & H4). exists v. repeat (split; [assumption|]).
    intros I. destruct (B j var V I) as (v' & K1 & K2 & _). rewrite H1 in K1. injection K1 as <-. exact K2.
Qed.
Definition random_line (draw : whole (E := line false) (X := xline false) unit -> Z -> Z) (k : solver_type) :=
  CreateSolver (E := line false) (X := xline false) unit spx_start false false plain_sort draw make_two tt [0] p_w (asking k at_random).
Lemma random_line_best k : outcome_of (random_line (fun _ n => n - 1) k) 5 = Ok (mkSol [dint 2] (dint (-2)), [0; 1; 2], []).
Proof. destruct k; calc. Qed.
Lemma p_w_first : integers_first p_w.
Proof. intros j k (v & A & _) K. apply p_w_var in A as [-> _]. lia. Qed.
