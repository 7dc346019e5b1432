(** Proofs about the solver as a whole. *)
From Coq Require Import String List ZArith Bool QArith Qabs Lia ZifyBool Permutation Sorted SpecFloat.
From Verif Require Import Outcome OutcomeFacts Num Double DoubleFacts Rounding SparseVector SparseVectorFacts VectorSpec
  Aggregation Problem MipData ProblemSpec MipDataProofs CutsData Selector Runner CutSpec CutProofs LpParams
  GlopLp GlopIface GlopSpec GlopProofs GlopMore SoplexIface SoplexSpec SoplexProofs SoplexMore SoplexGetProofs Branching Params ReaderSpec ReaderProofs
  MipTree TreeSpec Solver SolverSpec SolverProofs Simulate Whole WholeSpec WholeTables WholeSoplex.
Import ListNotations.
Open Scope Z_scope.
Strategy 1000 [SolveInternal SolveLp].

(** ** What a solve of Glop leaves behind *)
Section Glop.
Context {E : engine} (LW : engine_laws E) (PE : plain_engine E).
Implicit Type s : gstate E.

Definition solved_by s : Prop := exists w t t' w',
  w_solve E w t (scaled_lp s) = (true, t', w') /\ unlimited (w_params E w) /\ unlimited_timer E t /\
  w_status E (solver s) = w_status E w' /\ w_objective E (solver s) = w_objective E w' /\
  forall k, w_value E (solver s) k = w_value E w' k.
Definition ready s : Prop := modified s = false -> prepares E (lp s) (scaled_lp s) (scaler s).

Lemma SolveInternal_answer fuel : forall rec s t s', SolveInternal fuel rec s t = Ok (s', true) ->
  ready s -> unlimited (w_params E (solver s)) -> unlimited_timer E t ->
  lp s' = lp s /\ modified s' = false /\ prepares E (lp s') (scaled_lp s') (scaler s') /\
  unlimited (w_params E (solver s')) /\ solved_by s'.
Proof.
  induction fuel as [|fuel IH]; intros rec s t s' H F U UT; [discriminate|].
  cbn [SolveInternal] in H.
  set (s1 := if modified s then _ else s) in H.
  assert (L1 : lp s1 = lp s /\ prepares E (lp s) (scaled_lp s1) (scaler s1) /\ solver s1 = solver s).
  { subst s1. destruct (modified s) eqn:M; auto. unfold prepares. destruct (use_scaling _).
    - destruct (sc_scale E (lp_slacks E (lp s))); auto.
    - auto. }
  set (s2 := if rec then s1 else _) in H.
  assert (L2 : lp s2 = lp s /\ prepares E (lp s) (scaled_lp s2) (scaler s2) /\ solver s2 = solver s)
    by (subst s2; destruct rec; auto).
  clearbody s1. clear L1. clearbody s2. clear s1.
  set (s3 := if scratch s2 then _ else s2) in H.
  assert (L3 : lp s3 = lp s /\ prepares E (lp s) (scaled_lp s3) (scaler s3) /\ unlimited (w_params E (solver s3))).
  { destruct L2 as (A & B & C). subst s3. destruct (scratch s2).
    - cbn. rewrite (el_clear E LW), C. auto.
    - rewrite C. auto. }
  clearbody s3. clear L2 s2. destruct L3 as (L3 & L4 & L5).
  destruct (w_solve E (solver s3) t (scaled_lp s3)) as [[ok1 t1] w1] eqn:Es.
  assert (P1 : w_params E w1 = w_params E (solver s3)).
  { pose proof (el_solve E LW (solver s3) t (scaled_lp s3)) as X. rewrite Es in X. exact X. }
  destruct ok1; cbn [negb] in H; [|discriminate H].
  destruct (_ && _ && _) in H.
  - apply bind_ok in H as ([s4 ok4] & E4 & H). destruct ok4; cbn [negb] in H; [|discriminate H].
    apply IH in E4.
    + destruct E4 as (A & B & C & D & (w & ta & tb & w' & S1 & S2 & S3 & S4 & S5 & S6)).
      cbn [lp with_modified with_solver] in A. injection H as <-. cbn.
      split; [congruence|]. split; [reflexivity|]. split; [exact C|]. split.
      * rewrite (el_set E LW). rewrite P1. exact L5.
      * exists w, ta, tb, w'. cbn. rewrite (pe_status E PE), (pe_objective E PE).
        repeat (split; [assumption|]). intros k. rewrite (pe_value E PE). apply S6.
    + intros X. discriminate X.
    + cbn. rewrite (el_set E LW), P1. exact L5.
    + eapply ut_next; eauto.
  - injection H as <-. cbn. rewrite L3. split; [reflexivity|]. split; [reflexivity|]. split; [exact L4|].
    split; [rewrite P1; exact L5|]. exists (solver s3), t, t1, w1. cbn. auto 10.
Qed.

Lemma dual_simplex_answer s s' : SolveLp true s = Ok (s', true) -> ready s -> unlimited (w_params E (solver s)) ->
  lp s' = lp s /\ modified s' = false /\ prepares E (lp s') (scaled_lp s') (scaler s') /\
  unlimited (w_params E (solver s')) /\ solved_by s'.
Proof.
  intros S R U. unfold SolveLp in S. cbv zeta in S. revert S. generalize 2%nat.
  intros n S. apply SolveInternal_answer in S.
  - exact S.
  - exact R.
  - cbn. rewrite (el_set E LW). exact U.
  - constructor. exact U.
Qed.

Lemma SolveInternal_runs fuel : engine_runs E -> forall rec s t s' ok,
  SolveInternal fuel rec s t = Ok (s', ok) -> ok = true.
Proof.
  intros ER. induction fuel as [|fuel IH]; intros rec s t s' ok H; [discriminate H|]. cbn [SolveInternal] in H.
  match type of H with context [w_solve E ?w ?t ?q] => pose proof (ER w t q) as R; destruct (w_solve E w t q) as [[ok1 t1] w1] end.
  cbn [fst] in R. subst ok1. cbn [negb] in H. destruct (_ && _ && _) in H.
  - apply bind_ok in H as ([s4 ok4] & E4 & H). apply IH in E4. subst ok4. cbn [negb] in H. injection H as _ <-. reflexivity.
  - injection H as _ <-. reflexivity.
Qed.
Lemma dual_simplex_runs s : engine_runs E -> exists s', SolveLp true s = Ok (s', true).
Proof.
  intros ER. unfold SolveLp. cbv zeta.
  destruct (SolveInternal_defined LW false (with_solver s (w_set_params E (solver s) (with_dual (w_params E (solver s)) true)))
    (tl_new E (w_params E (solver s)))) as (s' & ok & D).
  rewrite D. rewrite (SolveInternal_runs 2 ER _ _ _ _ _ D). eauto.
Qed.

Lemma status_optimal s : IsOptimal s = true -> w_status E (solver s) = OPTIMAL.
Proof. unfold IsOptimal, is_status. destruct (w_status E (solver s)); auto; discriminate. Qed.
Lemma glop_primal_at s k v : at_ (GetPrimalValues s) k = Ok v ->
  0 <= k < ncols (lp s) /\ v = sc_unscale E (scaler s) k (w_value E (solver s) k).
Proof.
  unfold GetPrimalValues. rewrite at_map. intros H.
  assert (R : 0 <= k < ncols (lp s)).
  { unfold ncols. destruct (at_ (seq 0 (length (g_cols (lp s)))) k) eqn:X; try discriminate H. apply at_in_range in X. rewrite seq_length in X. exact X. }
  split; [exact R|]. revert H. unfold at_. replace (k <? 0) with false by lia.
  destruct (nth_error (seq 0 (length (g_cols (lp s)))) (Z.to_nat k)) as [i|] eqn:X; intros H; [|discriminate H].
  injection H as <-. apply nth_error_nth with (d := 0%nat) in X. rewrite seq_nth in X by (unfold ncols in R; lia).
  cbn in X. subst i. rewrite Z2Nat.id by lia. reflexivity.
Qed.
End Glop.

Lemma q_below_mono x y q : dvalid x = true -> dvalid y = true -> dleb x y = true -> q_below q x -> q_below q y.
Proof.
  intros VX VY L H. destruct (dleb_nan x y L) as [N1 N2].
  destruct (is_finite x) eqn:FX, (is_finite y) eqn:FY.
  - assert (G : (qval x <= qval y)%Q) by (apply qval_le, dleb_zval; auto).
    destruct x; try discriminate; destruct y; try discriminate; cbn [q_below] in *; eapply Qle_trans; eauto.
  - destruct y as [|[]| |]; try discriminate; [destruct x as [|[]| |[]]; discriminate|reflexivity].
  - destruct x as [|[]| |]; try discriminate; cbn in H; try discriminate H; destruct y as [|[]| |[]]; discriminate.
  - destruct x as [|[]| |], y as [|[]| |]; try discriminate; try exact H; reflexivity.
Qed.

(** ** The invariant of the LP *)
Section Lp.
Context {E : engine} {X : spx_engine} (k : solver_type) (LAWS : plain_lp E X k).
Implicit Type s : lpi E X.
(** [VALID] says whether the cuts are known to be valid, with finite numbers. *)
Context (p : problem) (PP : proper_problem p) (VALID : Prop).
Definition lp_table s : table := nameless (table_of (lp_held s)).

(** The state of the interface: no limits, and the answer it holds, if any. *)
Definition kind_of s : solver_type := match s with GlopLpi _ => LP_GLOP | SoplexLpi _ => LP_SOPLEX end.
Definition state_ok s : Prop :=
  kind_of s = k /\
  match s with
  | GlopLpi s => unlimited (w_params E (solver s)) /\ ready s /\ (modified s = false -> solved_by s)
  | SoplexLpi s => freed s = true /\ s_scratch s = false /\ spx_unlimited X (s_params s) /\
      (s_solved s = true -> spx_answer X (s_lp s) (s_x s))
  end.

(** The sides of a row do not cross. *)
Definition side_ok (r : trow) : Prop := t_lhs r = dminf \/
  (dvalid (t_lhs r) = true /\ dvalid (t_rhs r) = true /\ is_nan (t_lhs r) = false /\ is_nan (t_rhs r) = false /\
   dltb (t_rhs r) (t_lhs r) = false).
(** SoPlex takes back its time limit. *)
Definition time_ok s : Prop :=
  match s with GlopLpi _ => True | SoplexLpi s => ok_timelimit (x_rules X) (TIMELIMIT (s_params s)) = true end.
Record good s : Prop := {
  gd_wf : wf (lp_held s);
  gd_max : g_max (lp_held s) = false;
  gd_cols : t_nc (lp_table s) = num_vars p;
  gd_tame : VALID -> tame (lp_table s);
  gd_valid : VALID -> forall x, feasible p x -> rows_hold (lp_table s) x;
  gd_cost : forall x, (table_cost (lp_table s) x == cost p x)%Q;
  gd_within : forall eps x, rows_within eps (lp_table s) x -> rows_within eps (problem_table p) x;
  gd_cont : forall j v g, nth_var p j = Some v -> v_int v = false -> at_ (t_cols (lp_table s)) j = Ok g ->
    t_lb g = v_lb v /\ t_ub g = v_ub v;
  gd_sides : forall r, In r (t_rows (lp_table s)) -> side_ok r;
  gd_time : time_ok s;
  gd_state : state_ok s }.

Lemma full_lp s : full (lp_table s).
Proof. apply nl_full, full_table. Qed.
Lemma gd_rows s x : good s -> rows_hold (lp_table s) x -> rows_hold (problem_table p) x.
Proof. intros GD H. apply rows_within_zero, (gd_within s GD), rows_within_zero. exact H. Qed.

Lemma edited_state (s : gstate E) c (s' : gstate E) x o : gstep s c = edited s o -> gstep s c = Ok (s', x) ->
  solver s' = solver s /\ modified s' = true /\ exists l, s' = GlopIface.with_lp s l.
Proof.
  intros E1 E2. rewrite E1 in E2. unfold edited in E2. apply bind_ok in E2 as (l & _ & E2). injection E2 as <- _.
  split; [reflexivity|]. split; [reflexivity|]. eauto.
Qed.

(** An edit leaves a state without an answer. *)
Lemma set_column_step s j l u : state_ok s -> wf (lp_held s) -> 0 <= j < t_nc (lp_table s) ->
  exists s', set_column s j l u = Ok s' /\ state_ok s' /\ wf (lp_held s') /\
    lp_table s' = with_bounds (lp_table s) j l u /\ g_max (lp_held s') = g_max (lp_held s) /\ (time_ok s -> time_ok s').
Proof.
  intros ST W R. unfold lp_table in R. rewrite nameless_nc in R. destruct s as [s|s]; cbn [state_ok lp_held] in *.
  - destruct ST as (K & S1 & S2 & S3).
    destruct (edit_step s (CSetColumnBounds j l u) W R Logic.I) as (s' & x & S & W' & T).
    destruct (edited_state s (CSetColumnBounds j l u) s' x (SetColumnBounds (lp s) j l u) eq_refl S) as (A1 & A2 & _).
    exists (GlopLpi s'). unfold set_column, lpi_step. rewrite S. split; [reflexivity|]. cbn [state_ok lp_held]. split; [|split; [exact W'|split]].
    + split; [exact K|]. rewrite A1. split; [exact S1|]. unfold ready. rewrite A2. split; discriminate.
    + unfold lp_table. cbn [lp_held]. rewrite <- nl_bounds. f_equal. exact T.
    + split; [|intros _; exact Logic.I]. change (t_max (table_of (lp s')) = t_max (table_of (lp s))). rewrite T. reflexivity.
  - destruct ST as (K & S1 & S2 & S3 & S4).
    set (t := nameless (table_of (s_lp s))).
    assert (R' : 0 <= j < t_nc t) by (unfold t; rewrite nameless_nc; exact R).
    destruct (spx_edit_step s (CSetColumnBounds j l u) t) as (s' & x & S & (W' & T) & F); auto.
    { split; [exact W|reflexivity]. } { split; [exact R'|exact Logic.I]. } { exact Logic.I. }
    exists (SoplexLpi s'). unfold set_column, lpi_step. rewrite S. split; [reflexivity|]. cbn [state_ok lp_held].
    assert (Q : s_params s' = s_params s /\ s_scratch s' = s_scratch s /\ s_solved s' = false /\ g_max (s_lp s') = g_max (s_lp s)).
    { cbn [sstep] in S. apply bind_ok in S as (u1 & _ & S). apply bind_ok in S as (u2 & _ & S).
      apply bind_ok in S as (q & S' & S). injection S as <- _. repeat (split; [reflexivity|]). exact (on_col_max _ _ _ _ S'). }
    destruct Q as (Q1 & Q2 & Q3 & Q4). split; [|split; [exact W'|split; [|split; [exact Q4|cbn [time_ok]; rewrite Q1; auto]]]].
    + split; [exact K|]. rewrite Q1, Q2, Q3. split; [exact F|]. split; [exact S2|]. split; [exact S3|discriminate].
    + unfold lp_table. cbn [lp_held]. rewrite T. cbn [s_table_step]. fold t.
      change (nameless (with_bounds t j l u) = with_bounds t j l u). rewrite nl_bounds. unfold t. rewrite nameless_twice. reflexivity.
Qed.
Lemma add_row_step s v b n : state_ok s -> wf (lp_held s) -> clean_vector (t_nc (lp_table s)) v ->
  exists s', add_lp_row s v dminf b n = Ok s' /\ state_ok s' /\ wf (lp_held s') /\
    lp_table s' = GlopSpec.add_row (lp_table s) v dminf b EmptyString /\ g_max (lp_held s') = g_max (lp_held s) /\
    (time_ok s -> time_ok s').
Proof.
  intros ST W R. unfold lp_table in R. rewrite nameless_nc in R. destruct s as [s|s]; cbn [state_ok lp_held] in *.
  - destruct ST as (K & S1 & S2 & S3).
    destruct (edit_step s (CAddRow v dminf b n) W R Logic.I) as (s' & x & S & W' & T).
    destruct (edited_state s (CAddRow v dminf b n) s' x (GlopLp.AddRow (lp s) v dminf b n) eq_refl S) as (A1 & A2 & _).
    exists (GlopLpi s'). unfold add_lp_row, lpi_step. rewrite S. split; [reflexivity|]. cbn [state_ok lp_held]. split; [|split; [exact W'|split]].
    + split; [exact K|]. rewrite A1. split; [exact S1|]. unfold ready. rewrite A2. split; discriminate.
    + unfold lp_table. cbn [lp_held]. rewrite <- (nameless_add_row _ _ _ _ n). f_equal. exact T.
    + split; [|intros _; exact Logic.I]. change (t_max (table_of (lp s')) = t_max (table_of (lp s))). rewrite T. reflexivity.
  - destruct ST as (K & S1 & S2 & S3 & S4).
    set (t := nameless (table_of (s_lp s))).
    assert (R' : clean_vector (t_nc t) v) by (unfold t; rewrite nameless_nc; exact R).
    destruct (spx_edit_step s (CAddRow v dminf b n) t) as (s' & x & S & (W' & T) & F); auto.
    { split; [exact W|reflexivity]. } { split; [exact R'|exact Logic.I]. } { exact Logic.I. }
    exists (SoplexLpi s'). unfold add_lp_row, lpi_step. rewrite S. split; [reflexivity|]. cbn [state_ok lp_held].
    assert (Q : s_params s' = s_params s /\ s_scratch s' = s_scratch s /\ s_solved s' = false /\ g_max (s_lp s') = g_max (s_lp s)).
    { cbn [sstep] in S. apply bind_ok in S as (q & S' & S). injection S as <- _. repeat (split; [reflexivity|]).
      exact (AddRow_max _ _ _ _ _ _ S'). }
    destruct Q as (Q1 & Q2 & Q3 & Q4). split; [|split; [exact W'|split; [|split; [exact Q4|cbn [time_ok]; rewrite Q1; auto]]]].
    + split; [exact K|]. rewrite Q1, Q2, Q3. split; [exact F|]. split; [exact S2|]. split; [exact S3|discriminate].
    + unfold lp_table. cbn [lp_held]. rewrite T. cbn [s_table_step table_step]. rewrite nameless_add_row.
      unfold t. rewrite nameless_twice. reflexivity.
Qed.

Lemma set_column_good s j l u : good s -> is_integer_var p j ->
  exists s', set_column s j l u = Ok s' /\ good s' /\ lp_table s' = with_bounds (lp_table s) j l u.
Proof.
  intros GD (v & Jv & Iv).
  assert (R : 0 <= j < t_nc (lp_table s)).
  { rewrite (gd_cols s GD). apply nth_var_at, at_in_range in Jv. exact Jv. }
  destruct (set_column_step s j l u (gd_state s GD) (gd_wf s GD) R) as (s' & S & ST & W & T' & MX & TO).
  exists s'. split; [exact S|]. split; [|exact T'].
  constructor; auto; rewrite ?T'.
  - rewrite MX. apply (gd_max s GD).
  - unfold t_nc. rewrite with_bounds_length. apply (gd_cols s GD).
  - intros V. apply tame_bounds, (gd_tame s GD V).
  - intros V y F. apply rows_hold_bounds, (gd_valid s GD V y F).
  - intros y. rewrite table_cost_bounds. apply (gd_cost s GD).
  - intros eps y H. apply rows_within_bounds in H. apply (gd_within s GD). exact H.
  - intros i v' g Kv Ki Hg. rewrite at_with_bounds in Hg.
    destruct (at_ (t_cols (lp_table s)) i) as [g0| | | |] eqn:H0; try discriminate Hg. injection Hg as <-.
    destruct (Z.eqb_spec i j) as [->|D]; [congruence|]. apply (gd_cont s GD i v' g0); auto.
  - exact (gd_sides s GD).
  - exact (TO (gd_time s GD)).
Qed.

Lemma add_lp_row_good s v b n : good s -> clean_vector (num_vars p) v ->
  (VALID -> Forall (fun e : entry num_double => finite_double (val e)) (ents v) /\ is_nan b = false /\
     forall x, feasible p x -> q_below (entries_sum v x) b) ->
  exists s', add_lp_row s v dminf b n = Ok s' /\ good s' /\
    lp_table s' = GlopSpec.add_row (lp_table s) v dminf b EmptyString.
Proof.
  intros GD C F. rewrite <- (gd_cols s GD) in C.
  destruct (add_row_step s v b n (gd_state s GD) (gd_wf s GD) C) as (s' & S & ST & W & T' & MX & TO).
  exists s'. split; [exact S|]. split; [|exact T'].
  constructor; auto; rewrite ?T'.
  - rewrite MX. apply (gd_max s GD).
  - unfold t_nc. rewrite add_row_cols. apply (gd_cols s GD).
  - intros V. destruct (F V) as (F1 & F2 & _). apply tame_add; auto; [exact (gd_tame s GD V)|apply C].
  - intros V y Fy. apply rows_hold_add; [apply full_lp|exact C|]. split; [exact (gd_valid s GD V y Fy)|].
    split; [reflexivity|]. apply (F V). exact Fy.
  - intros y. rewrite table_cost_add. apply (gd_cost s GD).
  - intros eps y H. apply rows_within_add in H; [|apply full_lp]. apply (gd_within s GD). exact H.
  - intros i v' g Kv Ki Hg. rewrite at_add_row_col in Hg.
    destruct (at_ (t_cols (lp_table s)) i) as [g0| | | |] eqn:H0; try discriminate Hg. injection Hg as <-.
    apply (gd_cont s GD i v' g0); auto.
  - intros r Hr. cbn [GlopSpec.add_row t_rows] in Hr. apply in_app_or in Hr as [Hr|[<-|[]]]; [exact (gd_sides s GD r Hr)|left; reflexivity].
  - exact (TO (gd_time s GD)).
Qed.

Lemma dual_simplex_step s s' : state_ok s -> dual_simplex s = Ok s' ->
  state_ok s' /\ lp_held s' = lp_held s /\ lpi_solved s' = true /\ time_ok s'.
Proof.
  intros ST H. destruct s as [s|s]; cbn [state_ok dual_simplex kind_of] in *; pose proof LAWS as L; unfold plain_lp in L; rewrite <- (proj1 ST) in L.
  - destruct L as [LW PE]. destruct ST as (K & S1 & S2 & S3). apply bind_ok in H as ([s1 ok] & S & H).
    destruct ok; [|discriminate H]. injection H as <-.
    destruct (dual_simplex_answer LW PE s s1 S S2 S1) as (A & B & C & D & F).
    split; [|split; [exact A|split; [cbn [lpi_solved]; unfold IsSolved; rewrite B; reflexivity|exact Logic.I]]].
    cbn [state_ok]. split; [exact K|]. split; [exact D|]. split; [intros _; exact C|intros _; exact F].
  - destruct ST as (K & S1 & S2 & S3 & S4). apply bind_ok in H as ([s1 ok] & S & H).
    destruct ok; [|discriminate H]. injection H as <-.
    destruct (spx_dual_answer s s1 L S2 S3 S) as (A & B & C & D & F & A1).
    split; [|split; [exact A|split; [exact D|exact (spx_dual_timelimit s s1 true S S2)]]]. cbn [state_ok]. split; [exact K|]. split; [exact C|]. split; [exact B|]. split; [exact F|].
    intros _. rewrite A. exact A1.
Qed.
Lemma dual_simplex_good s s' : good s -> dual_simplex s = Ok s' ->
  good s' /\ lp_held s' = lp_held s /\ lpi_solved s' = true.
Proof.
  intros GD S. destruct (dual_simplex_step s s' (gd_state s GD) S) as (A & B & C & TM).
  split; [|auto]. destruct GD. constructor; unfold lp_table in *; rewrite ?B; auto.
Qed.

(** The interface as it is created. *)
Definition created s : Prop :=
  kind_of s = k /\
  match s with
  | GlopLpi s => unlimited (w_params E (solver s))
  | SoplexLpi s => freed s = true /\ s_scratch s = false /\ spx_unlimited X (s_params s)
  end /\ time_ok s.
Lemma populate_step s d : created s -> MipData p = Ok d ->
  exists s', lpi_step s (CPopulate d) = Ok s' /\ state_ok s' /\ wf (lp_held s') /\
    lp_table s' = nameless (problem_table p) /\ g_max (lp_held s') = false /\ time_ok s'.
Proof.
  intros CR D. destruct s as [s|s]; cbn [created kind_of] in CR; destruct CR as (K & CR & TM).
  - destruct (problem_loaded p (pp_ok p PP) (problem_bounds_ordered p PP)) as (d' & l & D' & PL & _).
    rewrite D in D'. injection D' as <-.
    destruct (loaded_table p d l (pp_ok p PP) (problem_bounds_ordered p PP) D PL) as [W T].
    exists (GlopLpi (GlopIface.with_lp s l)). cbn [lpi_step gstep]. unfold edited. rewrite PL. cbn [bind].
    split; [reflexivity|]. cbn [state_ok lp_held]. split; [|split; [exact W|split]].
    + split; [exact K|]. split; [exact CR|]. split; [intros H; discriminate H|]. intros H; discriminate H.
    + unfold lp_table. cbn [lp_held]. f_equal. exact T.
    + split; [|exact Logic.I]. change (t_max (table_of l) = false). rewrite T. reflexivity.
  - destruct (spx_loaded_table p d (pp_ok p PP) (problem_bounds_ordered p PP) D) as (l & PL & W & MX & T).
    destruct CR as (C1 & C2 & C3). exists (SoplexLpi (spx_with_lp (invalidated s) l)). cbn [lpi_step sstep]. unfold spx_edited.
    assert (C1' : freed (invalidated s) = true) by exact C1. rewrite C1'. cbn [check bind]. rewrite PL. cbn [bind].
    split; [reflexivity|]. cbn [state_ok lp_held]. split; [|split; [exact W|split; [exact T|split; [exact MX|exact TM]]]].
    split; [exact K|]. split; [exact C1|]. split; [exact C2|]. split; [exact C3|]. intros H. discriminate H.
Qed.
Lemma populate_good s d s' : created s -> MipData p = Ok d -> lpi_step s (CPopulate d) = Ok s' ->
  good s' /\ lp_table s' = nameless (problem_table p).
Proof.
  intros CR D S. destruct (populate_step s d CR D) as (s1 & S1 & ST & W & T' & MX & TM). rewrite S in S1. injection S1 as <-.
  split; [|exact T']. constructor; auto; rewrite ?T'.
  - rewrite nameless_nc. unfold t_nc. rewrite problem_cols_length. reflexivity.
  - intros _. apply nl_tame, problem_tame; auto.
  - intros _ y F. apply nl_rows, (problem_rows_hold p PP). apply F.
  - intros y. rewrite nl_cost. apply problem_cost; auto.
  - intros eps y H. apply (nl_within eps (problem_table p) y). exact H.
  - intros j v g Jv _ Hg. rewrite at_nameless_col, at_problem_cols, (proj1 (nth_var_at p j v) Jv) in Hg. injection Hg as <-. auto.
  - intros r Hr. unfold nameless, problem_table in Hr. cbn [t_rows] in Hr.
    apply in_map_iff in Hr as (r1 & <- & Hr). apply in_map_iff in Hr as (c & <- & Hc). right. cbn [t_lhs t_rhs].
    pose proof (pp_sides p PP) as PS. rewrite Forall_forall in PS. destruct (PS c Hc) as (N1 & N2 & V1 & V2).
    destruct (pp_ok p PP) as [_ PC]. rewrite Forall_forall in PC. destruct (PC c Hc) as (_ & _ & _ & _ & LE). auto 10.
Qed.

(** ** What the answer means *)
Definition bounds_of s (j : Z) : double * double :=
  match at_ (t_cols (lp_table s)) j with Ok g => (t_lb g, t_ub g) | _ => (d0, d0) end.
Definition rows_of s (x : point) : Prop :=
  rows_hold (lp_table s) x /\
  forall j v, nth_var p j = Some v -> v_int v = false -> q_above (v_lb v) (x j) /\ q_below (x j) (v_ub v).

Lemma good_var s j g : good s -> at_ (t_cols (lp_table s)) j = Ok g -> exists v, nth_var p j = Some v.
Proof.
  intros GD H. apply at_in_range in H. pose proof (gd_cols s GD) as N. unfold t_nc, num_vars in N.
  destruct (at_range (p_vars p) j) as [v Hv]; [lia|]. exists v. apply nth_var_at. exact Hv.
Qed.
Lemma good_col s j v : good s -> nth_var p j = Some v -> exists g, at_ (t_cols (lp_table s)) j = Ok g.
Proof.
  intros GD H. apply nth_var_at, at_in_range in H. pose proof (gd_cols s GD) as N. unfold t_nc, num_vars in N.
  apply at_range. lia.
Qed.

Lemma box_cols s x : good s -> rows_of s x -> in_lp_box p (bounds_of s) x -> cols_hold (lp_table s) x.
Proof.
  intros GD [_ C] B j g Hg. destruct (good_var s j g GD Hg) as [v Jv]. destruct (v_int v) eqn:Iv.
  - assert (Y := B j (ex_intro _ v (conj Jv Iv))). unfold bounds_of in Y. rewrite Hg in Y. exact Y.
  - destruct (gd_cont s GD j v g Jv Iv Hg) as [-> ->]. exact (C j v Jv Iv).
Qed.
Lemma cols_relaxed s x : good s -> no_wider p (bounds_of s) -> rows_hold (lp_table s) x -> cols_hold (lp_table s) x ->
  relaxed p x.
Proof.
  intros GD NW R C. split.
  - intros j v Jv. destruct (good_col s j v GD Jv) as [g Hg]. destruct (C j g Hg) as [A B].
    destruct (v_int v) eqn:Iv.
    + destruct (NW j v Jv Iv) as (V1 & V2 & D1 & D2). unfold bounds_of in V1, V2, D1, D2. rewrite Hg in V1, V2, D1, D2. cbn [fst snd] in *.
      destruct (problem_bounds_ok p PP j v Jv) as (_ & _ & V3 & V4).
      split; [apply (q_above_mono (v_lb v) (t_lb g))|apply (q_below_mono (t_ub g) (v_ub v))]; auto.
    + destruct (gd_cont s GD j v g Jv Iv Hg) as [<- <-]. auto.
  - apply (problem_rows_hold p PP). apply (gd_rows s x GD). exact R.
Qed.
Lemma good_proper s : VALID -> good s -> no_wider p (bounds_of s) -> proper_table (lp_table s).
Proof.
  intros VA GD NW. destruct (gd_tame s GD VA) as [T1 T2]. split; [|exact T2]. apply Forall_forall. intros g Hg.
  rewrite Forall_forall in T1. destruct (T1 g Hg) as [A B]. split; [exact A|]. split; [exact B|].
  apply In_at in Hg as [j Hg]. destruct (good_var s j g GD Hg) as [v Jv].
  destruct (problem_bounds_ok p PP j v Jv) as (N1 & N2 & _). destruct (v_int v) eqn:Iv.
  - destruct (NW j v Jv Iv) as (_ & _ & D1 & D2). unfold bounds_of in D1, D2. rewrite Hg in D1, D2. cbn [fst snd] in *.
    apply dleb_nan in D1. apply dleb_nan in D2. tauto.
  - destruct (gd_cont s GD j v g Jv Iv Hg) as [-> ->]. auto.
Qed.

Lemma good_optimum s x : VALID -> exact_lp E X k -> bounded_relaxation p -> good s -> lpi_solved s = true ->
  no_wider p (bounds_of s) -> rows_of s x -> in_lp_box p (bounds_of s) x ->
  lpi_optimal s = true /\ q_above (lpi_objective s) (cost p x).
Proof.
  intros VA XE (m & BR) GD M NW R B. assert (C := box_cols s x GD R B).
  pose proof (proj1 (nl_proper _) (good_proper s VA GD NW)) as P. pose proof (gd_state s GD) as ST.
  assert (BB : bounded_below (table_of (lp_held s))).
  { exists m. intros y Ry Cy. pose proof (gd_cost s GD y) as EC. unfold lp_table in EC. rewrite nl_cost in EC. rewrite EC.
    apply BR. apply (cols_relaxed s y GD NW); [apply nl_rows; exact Ry|apply nl_cols; exact Cy]. }
  assert (RH : rows_hold (table_of (lp_held s)) x) by (apply nl_rows, R).
  assert (CH : cols_hold (table_of (lp_held s)) x) by (apply nl_cols; exact C).
  assert (CE : (table_cost (table_of (lp_held s)) x == cost p x)%Q) by (rewrite <- nl_cost; apply (gd_cost s GD)).
  pose proof (gd_wf s GD) as W. pose proof (gd_max s GD) as MX. clear GD NW R B C.
  destruct s as [s|s]; cbn [state_ok kind_of lp_held lpi_solved lpi_optimal lpi_objective] in *;
    destruct ST as [K ST]; unfold exact_lp in XE; rewrite <- K in XE.
  - destruct ST as (S1 & S2 & S3). unfold IsSolved in M. apply negb_true_iff in M.
    destruct (S3 M) as (w & t & t' & w' & T1 & T2 & T3 & T4 & T5 & _).
    destruct (XE (lp s) (scaled_lp s) (scaler s) w t t' w' W MX P (S2 M) T2 T3 T1 BB x RH CH) as [O1 O2].
    unfold IsOptimal, is_status, GetObjectiveValue. rewrite T4, T5, O1. split; [reflexivity|].
    eapply q_above_eq; [|exact O2]. exact CE.
  - destruct ST as (S1 & S2 & S3 & S4).
    destruct (XE (s_lp s) (s_x s) W MX P (S4 M) BB x RH CH) as [O1 O2].
    rewrite optimal_iff, O1. split; [reflexivity|]. eapply q_above_eq; [|exact O2]. exact CE.
Qed.

Lemma good_honest s x : VALID -> honest_lp E X k -> good s -> lpi_solved s = true ->
  no_wider p (bounds_of s) -> rows_of s x -> in_lp_box p (bounds_of s) x ->
  lpi_optimal s = true /\ q_above (lpi_objective s) (cost p x) \/ lpi_optimal s = false /\ ~ says_infeasible s.
Proof.
  intros VA XE GD M NW R B. assert (C := box_cols s x GD R B).
  pose proof (proj1 (nl_proper _) (good_proper s VA GD NW)) as P. pose proof (gd_state s GD) as ST.
  assert (RH : rows_hold (table_of (lp_held s)) x) by (apply nl_rows, R).
  assert (CH : cols_hold (table_of (lp_held s)) x) by (apply nl_cols; exact C).
  assert (CE : (table_cost (table_of (lp_held s)) x == cost p x)%Q) by (rewrite <- nl_cost; apply (gd_cost s GD)).
  pose proof (gd_wf s GD) as W. pose proof (gd_max s GD) as MX. clear GD NW R B C.
  destruct s as [s|s]; cbn [state_ok kind_of lp_held lpi_solved lpi_optimal lpi_objective says_infeasible] in *;
    destruct ST as [K ST]; unfold honest_lp in XE; rewrite <- K in XE.
  - destruct ST as (S1 & S2 & S3). unfold IsSolved in M. apply negb_true_iff in M.
    destruct (S3 M) as (w & t & t' & w' & T1 & T2 & T3 & T4 & T5 & _).
    destruct (XE (lp s) (scaled_lp s) (scaler s) w t t' w' W MX P (S2 M) T1 x RH CH) as [O1 O2].
    unfold IsOptimal, is_status, GetObjectiveValue. rewrite T4, T5. destruct (w_status E w') eqn:ST'; auto.
    left. split; [reflexivity|]. eapply q_above_eq; [exact CE|]. apply O1. reflexivity.
  - destruct ST as (S1 & S2 & S3 & S4).
    destruct (XE (s_lp s) (s_x s) W MX P (S4 M) x RH CH) as [O1 O2].
    rewrite optimal_iff. destruct (x_status X (s_x s)) eqn:ST'; auto.
    left. split; [reflexivity|]. eapply q_above_eq; [exact CE|]. apply O1. reflexivity.
Qed.

(** The values that an optimal LP gives: readable, finite, one for each variable. *)
Lemma good_primal s : good s -> lpi_solved s = true -> lpi_optimal s = true ->
  exists x, lpi_primal s = Ok x /\ Z.of_nat (length x) = num_vars p /\
  (forall i v, at_ x i = Ok v -> finite_double v) /\
  (inside_lp E X k -> forall i v, at_ x i = Ok v ->
     dleb (fst (bounds_of s i)) v = true /\ dleb v (snd (bounds_of s i)) = true) /\
  (forall eps, accurate_lp eps E X k -> let y := solution_point (mkSol x (lpi_objective s)) in
     rows_within eps (lp_table s) y /\ finite_double (lpi_objective s) /\
     (Qabs (qval (lpi_objective s) - table_cost (lp_table s) y) <= eps)%Q).
Proof.
  intros GD M O. pose proof (gd_state s GD) as ST.
  assert (NC : ncols (lp_held s) = num_vars p).
  { rewrite <- (gd_cols s GD). unfold lp_table. rewrite nameless_nc, table_nc. reflexivity. }
  assert (BO : forall i g, at_ (g_cols (lp_held s)) i = Ok g -> bounds_of s i = (g_lb g, g_ub g)).
  { intros i g Hg. unfold bounds_of, lp_table. rewrite at_nameless_col, at_table_cols, Hg. reflexivity. }
  assert (FIN : exists x f, lpi_primal s = Ok x /\ Z.of_nat (length x) = num_vars p /\
    (forall i, 0 <= i < num_vars p -> at_ x i = Ok (f i) /\ finite_double (f i)) /\
    (inside_lp E X k -> forall i g, at_ (g_cols (lp_held s)) i = Ok g -> dleb (g_lb g) (f i) = true /\ dleb (f i) (g_ub g) = true) /\
    (forall eps, accurate_lp eps E X k -> let y i := qval (f i) in
       rows_within eps (table_of (lp_held s)) y /\ finite_double (lpi_objective s) /\
       (Qabs (qval (lpi_objective s) - table_cost (table_of (lp_held s)) y) <= eps)%Q)).
  { pose proof (gd_wf s GD) as W. clear BO GD.
    destruct s as [s|s]; cbn [state_ok kind_of lp_held lpi_solved lpi_optimal lpi_objective lpi_primal] in *;
      destruct ST as [K ST]; pose proof LAWS as L; unfold plain_lp, inside_lp, accurate_lp in *; rewrite <- K in L; rewrite <- K.
    - destruct L as [LW PE]. destruct ST as (S1 & S2 & S3). unfold IsSolved in M. apply negb_true_iff in M.
      destruct (S3 M) as (w & t & t' & w' & T1 & T2 & T3 & T4 & T5 & T6). specialize (S2 M).
      apply status_optimal in O. rewrite T4 in O.
      exists (GetPrimalValues s), (fun i => sc_unscale E (scaler s) i (w_value E w' i)). split; [reflexivity|].
      assert (LN : Z.of_nat (length (GetPrimalValues s)) = num_vars p).
      { unfold GetPrimalValues. rewrite map_length, seq_length. exact NC. }
      split; [exact LN|]. split; [|split].
      + intros i Ri. split.
        * destruct (at_range (GetPrimalValues s) i) as [v Hv]; [rewrite LN; exact Ri|]. rewrite Hv.
          apply glop_primal_at in Hv as [_ ->]. rewrite T6. reflexivity.
        * apply (pe_finite E PE (lp s) (scaled_lp s) (scaler s) w t t' w' W S2 T1 O). rewrite NC. exact Ri.
      + intros EI. exact (EI (lp s) (scaled_lp s) (scaler s) w t t' w' W S2 T1 O).
      + intros eps EA. unfold GetObjectiveValue. rewrite T5. exact (EA (lp s) (scaled_lp s) (scaler s) w t t' w' W S2 T1 O).
    - destruct ST as (S1 & S2 & S3 & S4). specialize (S4 M). rewrite optimal_iff in O.
      assert (O' : x_status X (s_x s) = ST_OPTIMAL) by (destruct (x_status X (s_x s)); try discriminate O; reflexivity).
      destruct (ps_finite X L (s_lp s) (s_x s) W S4 O') as (f & PF & FF).
      unfold SpxGetPrimalValues. rewrite optimal_iff, O', PF. cbn [bind check spx_vector]. exists (map (fun i => f (Z.of_nat i)) (seq 0 (spx_n_cols s))), f.
      split; [reflexivity|]. assert (LN : Z.of_nat (spx_n_cols s) = num_vars p) by exact NC.
      rewrite map_length, seq_length. split; [exact LN|]. split; [|split].
      + intros i Ri. split; [|apply FF; rewrite NC; exact Ri]. rewrite at_map.
        destruct (at_range (seq 0 (spx_n_cols s)) i) as [a Ha]; [rewrite seq_length; lia|]. rewrite Ha. f_equal. f_equal.
        unfold at_ in Ha. replace (i <? 0) with false in Ha by lia.
        destruct (nth_error (seq 0 (spx_n_cols s)) (Z.to_nat i)) as [b|] eqn:NE; [|discriminate Ha]. injection Ha as <-.
        apply nth_error_nth with (d := 0%nat) in NE. rewrite seq_nth in NE by lia. lia.
      + intros EI. exact (EI (s_lp s) (s_x s) f W S4 O' PF).
      + intros eps EA. exact (EA (s_lp s) (s_x s) f W S4 O' PF). }
  destruct FIN as (x & f & PX & LX & FX & IX & AX). exists x. split; [exact PX|]. split; [exact LX|].
  assert (AT : forall i v, at_ x i = Ok v -> 0 <= i < num_vars p /\ v = f i /\ finite_double v).
  { intros i v Hv. assert (Ri : 0 <= i < num_vars p) by (rewrite <- LX; exact (at_in_range _ _ _ Hv)).
    destruct (FX i Ri) as [A B]. rewrite A in Hv. injection Hv as <-. auto. }
  split; [|split].
  - intros i v Hv. apply AT in Hv. apply Hv.
  - intros EI i v Hv. destruct (AT i v Hv) as (Ri & -> & _).
    destruct (at_range (g_cols (lp_held s)) i) as [g Hg]; [unfold ncols in NC; lia|].
    rewrite (BO i g Hg). exact (IX EI i g Hg).
  - intros eps EA y. destruct (AX eps EA) as (A & B & C). set (z := fun i => qval (f i)) in *.
    assert (XY : forall j g, at_ (t_cols (table_of (lp_held s))) j = Ok g -> y j = z j).
    { intros j g Hg. unfold y, solution_point. cbn [s_vals]. destruct (FX j) as [-> _]; [|reflexivity].
      rewrite <- NC, <- table_nc. exact (at_in_range _ _ _ Hg). }
    split; [|split; [exact B|]].
    + apply nl_within. intros r g Hg. destruct (A r g Hg) as [A1 A2].
      assert (SE : (row_sum (table_of (lp_held s)) r y == row_sum (table_of (lp_held s)) r z)%Q).
      { unfold row_sum. apply numbered_ext; [reflexivity|]. intros j b c Hb Hc. rewrite Hb in Hc. injection Hc as <-.
        cbn [fst snd]. rewrite (XY j b Hb). reflexivity. }
      split; [apply (q_above_eq _ (row_sum (table_of (lp_held s)) r z + eps)%Q)|apply (q_below_eq _ (row_sum (table_of (lp_held s)) r z - eps)%Q)];
        auto; rewrite SE; reflexivity.
    + assert (SE : (table_cost (lp_table s) y == table_cost (table_of (lp_held s)) z)%Q).
      { unfold lp_table. rewrite nl_cost. unfold table_cost. apply numbered_ext; [reflexivity|]. intros j b c Hb Hc.
        rewrite Hb in Hc. injection Hc as <-. cbn [fst snd]. rewrite (XY j b Hb). reflexivity. }
      rewrite SE. exact C.
Qed.
Lemma good_accurate eps s x : accurate_lp eps E X k -> good s -> lpi_solved s = true -> lpi_optimal s = true ->
  lpi_primal s = Ok x -> let y := solution_point (mkSol x (lpi_objective s)) in
  rows_within eps (problem_table p) y /\ finite_double (lpi_objective s) /\
  (Qabs (qval (lpi_objective s) - cost p y) <= eps)%Q.
Proof.
  intros EA GD M O PX. destruct (good_primal s GD M O) as (x' & PX' & _ & _ & _ & A). rewrite PX in PX'. injection PX' as <-.
  destruct (A eps EA) as (A1 & A2 & A3). split; [apply (gd_within s GD); exact A1|]. split; [exact A2|].
  rewrite <- (gd_cost s GD). exact A3.
Qed.
Lemma objective_valid s : good s -> dvalid (lpi_objective s) = true.
Proof.
  intros GD. pose proof (gd_state s GD) as ST. destruct s as [s|s]; cbn [state_ok kind_of lpi_objective] in *; pose proof LAWS as L; unfold plain_lp in L; rewrite <- (proj1 ST) in L.
  - exact (pe_valid E (proj2 L) _).
  - exact (ps_valid X L _).
Qed.
End Lp.

(** ** Separation *)
Section Sep.
Context {E : engine} {X : spx_engine} (k : solver_type) (LAWS : plain_lp E X k) (G : Type).
Context (p : problem) (PP : proper_problem p) (VALID : Prop).
Context (Q : cut -> Prop) (QP : forall c, Q c -> fitting_cut p c)
  (QV : VALID -> forall c, Q c -> proper_cut p c /\ valid_cut p c)
  (QS : forall c c', row c' = row c -> right_hand_side c' = right_hand_side c -> Q c -> Q c').
Context (sort : list cut -> list cut) (SORT : sorts sort).
Context (gens : list (generator (E := E) (X := X) G)) (sp : selector_params) (rp : runner_params).
Definition gives_q (g : generator (E := E) (X := X) G) : Prop :=
  forall y r s cs y', good k p VALID s -> g y r s = Ok (cs, y') -> Forall Q cs.
Context (CUTS : max_iterations rp <= 0 \/ Forall gives_q gens).
Implicit Type w : whole (E := E) (X := X) G.
Implicit Type s : lpi E X.

Definition inv w : Prop := good k p VALID (lp_of w) /\ Forall Q (cuts (reg w)) /\ 0 <= num_cutrounds w.

(** From [s] to [s'] only rows of cuts were added. *)
Record sep_rel s s' : Prop := {
  sr_bounds : forall j, bounds_of s' j = bounds_of s j;
  sr_rows : forall x, (forall c, Q c -> q_below (entries_sum (row c) x) (right_hand_side c)) ->
    rows_of p s x -> rows_of p s' x }.
Lemma sep_refl s : sep_rel s s.
Proof. split; auto. Qed.
Lemma sep_trans s s1 s2 : sep_rel s s1 -> sep_rel s1 s2 -> sep_rel s s2.
Proof.
  intros [A B] [C D]. split.
  - intros j. rewrite C. apply A.
  - intros x H R. apply D; auto.
Qed.
Lemma sep_same s s' : lp_held s' = lp_held s -> sep_rel s s'.
Proof. intros L. split; unfold bounds_of, rows_of, lp_table; rewrite L; auto. Qed.

Lemma select_q cs fs : SelectCuttingPlanes sort sp cs = Ok fs -> Forall Q cs -> Forall Q fs.
Proof.
  intros H F. destruct (select_subset sort sp cs fs SORT H) as ((rest & P) & _).
  rewrite Forall_forall in *. intros c Hc.
  assert (I : In (unscored c) (map unscored cs)).
  { eapply Permutation_in; [exact P|]. apply in_or_app. left. apply in_map. exact Hc. }
  apply in_map_iff in I as (c' & U & I). apply (QS c').
  - change (row c) with (row (unscored c)). rewrite <- U. reflexivity.
  - change (right_hand_side c) with (right_hand_side (unscored c)). rewrite <- U. reflexivity.
  - auto.
Qed.
Lemma add_cuts_q fs : forall g, Forall Q fs -> Forall Q (cuts g) -> Forall Q (cuts (fst (add_cuts g fs))).
Proof.
  induction fs as [|c fs IH]; intros g F H; cbn [add_cuts]; [exact H|].
  inversion F; subst. unfold AddCut. cbv zeta.
  match goal with |- context [add_cuts ?g1 fs] => specialize (IH g1); destruct (add_cuts g1 fs) end. cbn [fst] in *.
  apply IH; auto. cbn [cuts]. apply Forall_app. split; auto. constructor; auto. apply (QS c); auto.
Qed.

Lemma run_gens_q l : Forall gives_q l -> forall g x new g' x' new',
  run_generators (lpi E X * G) (run_selector G sort sp) (map (run_generator G) l) g x new = Ok (g', x', new') ->
  Forall Q (cuts g) -> good k p VALID (fst x) -> Forall Q (cuts g') /\ fst x' = fst x.
Proof.
  induction l as [|gen l IH]; intros F g x new g' x' new' H C GD; cbn [map run_generators] in H.
  - injection H as <- <- <-. auto.
  - inversion F as [|? ? F1 F2]; subst. apply bind_ok in H as ([cs x1] & H1 & H). unfold run_generator in H1.
    apply bind_ok in H1 as ([cs0 y] & H1 & H2). injection H2 as <- <-. apply F1 in H1; [|exact GD].
    destruct cs0 as [|c cs0].
    + apply IH in H; auto.
    + apply bind_ok in H as ([fs x2] & H2 & H). unfold run_selector in H2.
      apply bind_ok in H2 as (fs0 & H2 & H3). injection H3 as <- <-. apply select_q in H2; auto.
      pose proof (add_cuts_q fs0 g H2 C) as AC. destruct (add_cuts g fs0) as [g1 is]. cbn [fst] in AC.
      apply IH in H; auto.
Qed.

Definition add_row_of (x : lpi E X * G) (v : svec num_double) (l u : double) (n : string) :=
  on_lp G (fun s => add_lp_row s v l u n) x.

Lemma cut_row_good s c : good k p VALID s -> Q c ->
  exists s', add_lp_row s (row c) dminf (right_hand_side c) (name c) = Ok s' /\ good k p VALID s' /\ sep_rel s s'.
Proof.
  intros GD QC. pose proof (QP c QC) as C. unfold fitting_cut in C.
  destruct (add_lp_row_good k p VALID s (row c) (right_hand_side c) (name c) GD C) as (s' & S & GD' & T).
  { intros VA. destruct (QV VA c QC) as [(_ & F & N) V]. split; [exact F|]. split; [exact N|]. exact V. }
  exists s'. split; [exact S|]. split; [exact GD'|]. split.
  - intros j. unfold bounds_of. rewrite T, at_add_row_col. destruct (at_ (t_cols (lp_table s)) j); reflexivity.
  - intros x H [R1 R2]. split; [|exact R2]. rewrite T. apply rows_hold_add; [apply full_lp| |].
    + rewrite (gd_cols k p VALID s GD). exact C.
    + split; [exact R1|]. split; [reflexivity|]. apply H. exact QC.
Qed.

Lemma add_rows_q g is : Forall Q (cuts g) -> forall x log x' log',
  Runner.add_rows (lpi E X * G) add_row_of g is x log = Ok (x', log') -> good k p VALID (fst x) ->
  good k p VALID (fst x') /\ sep_rel (fst x) (fst x').
Proof.
  intros C. induction is as [|i is IH]; intros x log x' log' H GD; cbn [Runner.add_rows] in H.
  - injection H as <- <-. split; [exact GD|apply sep_refl].
  - apply bind_ok in H as (c & H1 & H). apply bind_ok in H as (x1 & H2 & H).
    assert (QC : Q c). { rewrite Forall_forall in C. apply C. eapply at_In. exact H1. }
    destruct (cut_row_good (fst x) c GD QC) as (s' & S & GD' & R).
    unfold add_row_of, on_lp in H2. rewrite S in H2. cbn [bind] in H2. injection H2 as <-.
    apply IH in H; [|exact GD']. destruct H as [H3 H4]. split; [exact H3|]. eapply sep_trans; [exact R|exact H4].
Qed.

Lemma may_run w : MayRun (lpi E X * G) (stops G) (fun x => lpi_solved (fst x)) rp w = true ->
  0 <= num_cutrounds w -> Forall gives_q gens /\ num_cutrounds w < max_iterations rp.
Proof.
  unfold MayRun. intros M N. destruct (stops G (Runner.world w)); [discriminate M|].
  destruct (negb _); [discriminate M|]. destruct (Z.leb_spec (max_iterations rp) (num_cutrounds w)) as [L|L]; [discriminate M|].
  split; [|exact L]. destruct CUTS as [C|C]; [lia|exact C].
Qed.

Lemma separate_q fuel : forall w w',
  Runner.separate (lpi E X * G) (stops G) (fun x => lpi_solved (fst x)) (map (run_generator G) gens)
    (run_selector G sort sp) add_row_of (on_lp G dual_simplex) rp fuel w = Ok w' ->
  inv w -> inv w' /\ sep_rel (lp_of w) (lp_of w') /\ (lpi_solved (lp_of w) = true -> lpi_solved (lp_of w') = true).
Proof.
  induction fuel as [|fuel IH]; intros w w' H (GD & C & N); cbn [Runner.separate] in H;
    destruct (MayRun _ _ _ _ _) eqn:M; try discriminate H; try (injection H as <-; split; [split; auto|split; [apply sep_refl|auto]]; fail).
  destruct (may_run w M N) as [GQ _].
  apply bind_ok in H as ([[g x] new] & H1 & H). apply (run_gens_q gens GQ) in H1; [|exact C|exact GD]. destruct H1 as [C1 X1].
  destruct new as [|i new].
  - injection H as <-.
    assert (L : forall a b c d, lp_of (mkRS (W := lpi E X * G) a b c d x) = lp_of w) by (intros; exact X1).
    unfold inv. rewrite L. split; [split; [exact GD|split; [exact C1|exact N]]|]. split; [apply sep_refl|auto].
  - apply bind_ok in H as ([x1 log] & H1 & H). apply bind_ok in H as (x2 & H2 & H).
    apply add_rows_q in H1; [|exact C1|rewrite X1; exact GD]. destruct H1 as [GD1 R1]. rewrite X1 in R1.
    unfold on_lp in H2. apply bind_ok in H2 as (s2 & H2 & H3). injection H3 as <-.
    destruct (dual_simplex_good k LAWS p VALID (fst x1) s2 GD1 H2) as (GD2 & L2 & M2).
    apply IH in H; [|split; [exact GD2|split; [exact C1|cbn; lia]]].
    destruct H as (H3 & H4 & H5). split; [exact H3|]. cbn [lp_of Runner.world fst] in H4, H5.
    split; [|intros _; apply H5; exact M2].
    eapply sep_trans; [exact R1|]. eapply sep_trans; [apply sep_same; exact L2|exact H4].
Qed.

(** *** Without failures *)
Definition runs_q (g : generator (E := E) (X := X) G) : Prop :=
  forall y r s, good k p VALID s -> exists cs y', g y r s = Ok (cs, y') /\
  Forall (fun c => Q c /\ number_of_non_zeros c <> 0) cs.
Lemma runs_gives g : runs_q g -> gives_q g.
Proof.
  intros R y r s cs y' GD H. destruct (R y r s GD) as (cs' & y2 & H' & F). rewrite H in H'. injection H' as <- <-.
  eapply Forall_impl; [|exact F]. intros c [QC _]. exact QC.
Qed.
Lemma run_gens_total l : Forall runs_q l -> forall g x new, good k p VALID (fst x) -> exists r,
  run_generators (lpi E X * G) (run_selector G sort sp) (map (run_generator G) l) g x new = Ok r.
Proof.
  induction 1 as [|gen l F1 F2 IH]; intros g x new GD; cbn [map run_generators]; [eauto|].
  unfold run_generator at 1. destruct (F1 (snd x) g (fst x) GD) as (cs & y & H & F). rewrite H. cbn [bind].
  destruct cs as [|c cs]; [apply IH; exact GD|].
  unfold run_selector at 1. destruct (select_total sort sp (c :: cs) SORT) as [r S].
  { eapply Forall_impl; [|exact F]. cbn. tauto. }
  rewrite S. cbn [bind]. destruct (add_cuts g r). apply IH. exact GD.
Qed.
Lemma add_rows_total g is : Forall Q (cuts g) -> Forall (fun i => 0 <= i < Z.of_nat (length (cuts g))) is ->
  forall x log, good k p VALID (fst x) -> exists r, Runner.add_rows (lpi E X * G) add_row_of g is x log = Ok r.
Proof.
  intros C. induction 1 as [|i is R F IH]; intros x log GD; cbn [Runner.add_rows]; [eauto|].
  unfold GetCut. destruct (at_range (cuts g) i R) as [c Hc]. rewrite Hc. cbn [bind].
  assert (QC : Q c). { rewrite Forall_forall in C. apply C. eapply at_In. exact Hc. }
  destruct (cut_row_good (fst x) c GD QC) as (s' & S & GD' & _).
  unfold add_row_of at 1, on_lp. rewrite S. cbn [bind]. apply IH. exact GD'.
Qed.
Definition lp_runs (U : lpi E X -> Prop) : Prop := forall s, good k p VALID s -> U s -> exists s', dual_simplex s = Ok s'.
Lemma separate_total (U : lpi E X -> Prop) (UK : forall s s', (forall j, bounds_of s' j = bounds_of s j) -> U s -> U s') fuel :
  lp_runs U -> Forall runs_q gens \/ max_iterations rp <= 0 -> forall w, inv w -> U (lp_of w) ->
  max_iterations rp - num_cutrounds w <= Z.of_nat fuel ->
  exists w', Runner.separate (lpi E X * G) (stops G) (fun x => lpi_solved (fst x)) (map (run_generator G) gens)
    (run_selector G sort sp) add_row_of (on_lp G dual_simplex) rp fuel w = Ok w'.
Proof.
  intros ER RG. induction fuel as [|fuel IH]; intros w (GD & C & N) UW L; cbn [Runner.separate];
    destruct (MayRun _ _ _ _ _) eqn:M; eauto; destruct (may_run w M N) as [GQ ML]; [cbn in L; lia|].
  assert (R : Forall runs_q gens) by (destruct RG; [auto|lia]).
  destruct (run_gens_total gens R (reg w) (Runner.world w) [] GD) as [[[g x] new] H1]. rewrite H1. cbn [bind].
  destruct (run_generators_ok _ _ _ _ _ _ _ _ _ H1) as (fresh & A & _ & B & _). cbn [app] in B.
  apply (run_gens_q gens GQ) in H1; [|exact C|exact GD]. destruct H1 as [C1 X1].
  destruct new as [|i new]; [eauto|].
  destruct (add_rows_total g (i :: new) C1) with (x := x) (log := calls w) as [[x1 log] H1].
  { rewrite B. apply Forall_forall. intros i0 Hk. apply in_map_iff in Hk as (n & <- & Hn). apply in_seq in Hn.
    rewrite A, app_length. lia. }
  { rewrite X1. exact GD. }
  rewrite H1. cbn [bind]. apply add_rows_q in H1; [|exact C1|rewrite X1; exact GD]. destruct H1 as [GD1 [SR _]].
  assert (U1 : U (fst x1)) by (apply (UK (lp_of w)); [intros j; rewrite SR, X1; reflexivity|exact UW]).
  unfold on_lp at 1. destruct (ER (fst x1) GD1 U1) as [s2 H2]. rewrite H2. cbn [bind].
  destruct (dual_simplex_good k LAWS p VALID (fst x1) s2 GD1 H2) as (GD2 & LH & _).
  apply IH; [split; [exact GD2|split; [exact C1|cbn; lia]]| |cbn; lia].
  apply (UK (fst x1)); [|exact U1]. intros j. unfold bounds_of, lp_table. cbn [lp_of Runner.world fst]. rewrite LH. reflexivity.
Qed.
End Sep.
