(** Facts for the SoPlex interface inside the whole solver: tables without names, loading a problem,
    solving, and the parameters of a plain request. *)
From Coq Require Import String List ZArith Bool QArith Qabs Lia ZifyBool Permutation Sorted SpecFloat.
From Verif Require Import Outcome OutcomeFacts Num Double DoubleFacts SparseVector SparseVectorFacts VectorSpec
  SparseMatrix MatrixSpec MatrixFacts Aggregation Problem MipData ProblemSpec MipDataProofs LpParams
  GlopLp GlopIface GlopSpec GlopProofs GlopMore SoplexIface SoplexSpec SoplexProofs SoplexMore Params ReaderSpec
  Solver SolverSpec SolverProofs Whole WholeSpec WholeTables.
Import ListNotations.
Open Scope Z_scope.

(** ** Names do not matter *)
Lemma at_nameless_col t j : at_ (t_cols (nameless t)) j =
  match at_ (t_cols t) j with Ok g => Ok (anon_c g) | _ => UB end.
Proof. rewrite nameless_eq. cbn [t_cols]. rewrite at_map. destruct (at_ (t_cols t) j); reflexivity. Qed.
Lemma at_nameless_row t r : at_ (t_rows (nameless t)) r =
  match at_ (t_rows t) r with Ok g => Ok (anon_r g) | _ => UB end.
Proof. rewrite nameless_eq. cbn [t_rows]. rewrite at_map. destruct (at_ (t_rows t) r); reflexivity. Qed.
Lemma nl_sum t r x : (row_sum (nameless t) r x == row_sum t r x)%Q.
Proof.
  unfold row_sum. apply numbered_ext; [apply map_length|]. intros j b g Hb Hg.
  rewrite at_nameless_col, Hg in Hb. injection Hb as <-. reflexivity.
Qed.
Lemma nl_cost t x : (table_cost (nameless t) x == table_cost t x)%Q.
Proof.
  unfold table_cost. apply numbered_ext; [apply map_length|]. intros j b g Hb Hg.
  rewrite at_nameless_col, Hg in Hb. injection Hb as <-. reflexivity.
Qed.
Lemma nl_within eps t x : rows_within eps (nameless t) x <-> rows_within eps t x.
Proof.
  split; intros H r g Hg.
  - destruct (H r (anon_r g)) as [A B]; [rewrite at_nameless_row, Hg; reflexivity|].
    split; [apply (q_above_eq _ (row_sum (nameless t) r x + eps)%Q)|apply (q_below_eq _ (row_sum (nameless t) r x - eps)%Q)];
      auto; rewrite nl_sum; reflexivity.
  - rewrite at_nameless_row in Hg. destruct (at_ (t_rows t) r) as [g0| | | |] eqn:H0; try discriminate Hg. injection Hg as <-.
    destruct (H r g0 H0) as [A B].
    split; [apply (q_above_eq _ (row_sum t r x + eps)%Q)|apply (q_below_eq _ (row_sum t r x - eps)%Q)];
      auto; rewrite nl_sum; reflexivity.
Qed.
Lemma nl_rows t x : rows_hold (nameless t) x <-> rows_hold t x.
Proof. rewrite <- !rows_within_zero. apply nl_within. Qed.
Lemma nl_cols t x : cols_hold (nameless t) x <-> cols_hold t x.
Proof.
  split; intros H j g Hg.
  - apply (H j (anon_c g)). rewrite at_nameless_col, Hg. reflexivity.
  - rewrite at_nameless_col in Hg. destruct (at_ (t_cols t) j) as [g0| | | |] eqn:H0; try discriminate Hg. injection Hg as <-.
    exact (H j g0 H0).
Qed.
Lemma nl_proper t : proper_table (nameless t) <-> proper_table t.
Proof. unfold proper_table. rewrite nameless_eq. cbn [t_cols t_rows]. rewrite !Forall_map. reflexivity. Qed.
Lemma nl_tame t : tame (nameless t) <-> tame t.
Proof. unfold tame. rewrite nameless_eq. cbn [t_cols t_rows]. rewrite !Forall_map. reflexivity. Qed.
Lemma nl_full t : full (nameless t) <-> full t.
Proof. unfold full. rewrite nameless_eq. cbn [t_cols t_rows]. rewrite !Forall_map, map_length. reflexivity. Qed.
Lemma nl_bounds t j l u : nameless (with_bounds t j l u) = with_bounds (nameless t) j l u.
Proof.
  unfold with_bounds. cbn [table_step]. rewrite !nameless_eq. cbn [t_cols t_rows t_max]. f_equal.
  apply change_at_map1. reflexivity.
Qed.

(** ** Loading *)
Lemma objective_clean p d : problem_ok p -> integer_bounds_ordered p -> MipData p = Ok d ->
  clean_vector (num_vars p) (objective d).
Proof.
  intros [PV PC] IB. unfold MipData.
  destruct (load_vars_ok (p_vars p) 0 [] vempty) as (ints & obj & E & G & ND & IN & CO).
  { apply good_empty. } { reflexivity. } { intros j []. } { constructor. } { lia. }
  { unfold integer_bounds_ordered in IB. rewrite Forall_forall in *. intros v Hv. apply ordered_le; auto. }
  rewrite E. cbn [bind fst snd]. intros H. apply bind_ok in H as ([fl m] & _ & H). injection H as <-. cbn [objective].
  destruct (good_cleanup obj G) as ((G1 & G2) & D1 & C1 & _).
  assert (IR : forall e : entry num_double, In e (ents (CleanUp obj)) -> 0 <= idx e < num_vars p).
  { intros e He. specialize (G1 D1). pose proof (find_first_in _ _ G1 He) as F.
    assert (FF : find_first (ents (CleanUp obj)) (idx e) = content (CleanUp obj) (idx e)) by (unfold content; rewrite D1; auto).
    rewrite F, C1, CO in FF. rewrite Z.sub_0_r in FF. unfold vnth in FF. destruct (Z.ltb_spec (idx e) 0) as [L|L]; [discriminate FF|].
    destruct (nth_error (p_vars p) (Z.to_nat (idx e))) eqn:NE; [|discriminate FF].
    assert (X : nth_error (p_vars p) (Z.to_nat (idx e)) <> None) by congruence. apply nth_error_Some in X. unfold num_vars. lia. }
  destruct (p_max p).
  - destruct (Transform_ok (fun _ v => nopp (v : num_double)) (CleanUp obj) G1 D1) as (S & Z & F).
    split; [exact D1|]. split; [split; [exact S|exact Z]|]. apply Forall_forall. intros e He.
    pose proof (find_first_in _ _ S He) as F1. rewrite F in F1.
    destruct (find_first (ents (CleanUp obj)) (idx e)) as [y|] eqn:F2; [|discriminate F1].
    apply find_first_some in F2 as (e' & I' & J' & _). rewrite <- J'. apply IR. exact I'.
  - split; [exact D1|]. split; [split; [exact (G1 D1)|exact (G2 D1)]|]. apply Forall_forall. exact IR.
Qed.

Lemma spx_populate_ok d a :
  length (right_hand_sides d) = length (left_hand_sides d) ->
  length (constraint_names d) = length (left_hand_sides d) ->
  length (upper_bounds d) = length (lower_bounds d) ->
  length (variable_names d) = length (lower_bounds d) ->
  mrel (matrix d) a -> a_nc a = Z.of_nat (length (lower_bounds d)) ->
  a_nr a = Z.of_nat (length (left_hand_sides d)) ->
  clean_vector (Z.of_nat (length (lower_bounds d))) (objective d) ->
  exists p', spx_populate d = Ok p' /\ wf p' /\ g_max p' = false /\
    nameless (table_of p') = nameless (data_table d (matrix_coef (matrix d))).
Proof.
  intros L1 L2 L3 L4 R NC NR O.
  destruct (dense_objective_ok d O) as (objs & Eo & Lo & Fo).
  destruct (populate_ok (unnamed d) a) as (p' & Ep & W & T); cbn [unnamed right_hand_sides left_hand_sides constraint_names
    upper_bounds lower_bounds variable_names matrix]; rewrite ?map_length; auto.
  unfold PopulateFromMipData in Ep. apply bind_ok in Ep as (p1 & E1 & Ep).
  apply bind_ok in Ep as (p2 & E2 & Ep). injection Ep as Ep.
  cbn [unnamed left_hand_sides matrix] in E1, E2.
  destruct R as (Ec & Er & g & Hg & Hv).
  assert (LC : length (cols (matrix d)) = length (lower_bounds d)) by (unfold num_cols in Ec; lia).
  destruct (populate_cols_as d g objs (length (cols (matrix d))) 0 (matrix d) p1 p2 []) as (vs & Ev & Lv & Es);
    auto; try lia.
  unfold spx_populate. rewrite (populate_rows_as _ _ _ _ _ E1). cbn [bind]. rewrite Eo. cbn [bind].
  rewrite Ev. cbn [bind]. rewrite Lv. exists p2. split; [exact Es|].
  assert (G : g_max p2 = false).
  { apply populate_cols_max in E2. apply populate_rows_max in E1. rewrite E2, E1. auto. }
  assert (Pq : p' = p2). { rewrite <- Ep. unfold SetObjectiveSense. destruct p2; cbn in *; subst; auto. }
  subst p'. rewrite Pq in W, T. split; auto. split; auto. rewrite T, nameless_data. auto.
Qed.
Lemma spx_loaded_table p d : problem_ok p -> integer_bounds_ordered p -> MipData p = Ok d ->
  exists l, spx_populate d = Ok l /\ wf l /\ g_max l = false /\ nameless (table_of l) = nameless (problem_table p).
Proof.
  intros H1 H2 D. pose proof (objective_clean p d H1 H2 D) as O.
  destruct (problem_loaded p H1 H2) as (d0' & l0 & D0 & PL & _). rewrite D in D0. injection D0 as <-.
  destruct (loaded_table p d l0 H1 H2 D PL) as [_ T0].
  destruct (loaded p H1 H2) as (d' & E & A1 & A2 & A3 & A4 & A5 & A6 & A7 & A8 & A9 & A10 & A11 & A12 & (a & R & NC & NR & V) & A13 & _ & _ & OB).
  rewrite D in E. injection E as <-.
  destruct (populate_ok d a) as (l' & El & _ & T); rewrite ?A4, ?A5, ?A6, ?A8, ?A9, ?A10, ?map_length; auto.
  rewrite PL in El. injection El as <-.
  destruct (spx_populate_ok d a) as (l & Es & W & M & T1); rewrite ?A4, ?A5, ?A6, ?A8, ?A9, ?A10, ?map_length; auto.
  exists l. split; [exact Es|]. split; [exact W|]. split; [exact M|]. rewrite T1, <- T, T0. reflexivity.
Qed.

(** ** Solving *)
Section Spx.
Context {X : spx_engine}.
Implicit Type s : sstate X.

Lemma spx_dual_answer s s' : plain_spx X -> s_scratch s = false -> spx_unlimited X (s_params s) ->
  SpxSolveLp true s = Ok (s', true) ->
  s_lp s' = s_lp s /\ s_scratch s' = false /\ freed s' = true /\ s_solved s' = true /\
  spx_unlimited X (s_params s') /\ spx_answer X (s_lp s) (s_x s').
Proof.
  intros PS Sc U H. destruct (Solve_lp true s s' true H) as (A1 & A2 & A3 & A4 & A5 & A6).
  split; [exact A1|]. split; [congruence|]. split; [unfold freed in *; rewrite A3, A4; exact A5|]. split; [exact (A6 Sc)|].
  unfold SpxSolveLp, SoPlexSolve in H. apply bind_ok in H as (u & _ & H).
  cbn [s_scratch with_params invalidated with_algorithm] in H. rewrite Sc in H.
  apply bind_ok in H as (u2 & _ & H). apply bind_ok in H as ([s1 st] & H1 & H). injection H as <- ST.
  unfold LpSolve in H1. apply bind_ok in H1 as (u3 & _ & H1). apply bind_ok in H1 as (u4 & _ & H1).
  destruct (x_optimize _ _ _ _) as [threw x] eqn:XO. apply bind_ok in H1 as (u5 & _ & H1).
  apply bind_ok in H1 as (u6 & _ & H1). apply bind_ok in H1 as (u7 & _ & H1). injection H1 as <- SE.
  cbn [s_params s_x s_lp s_dual with_params spx_with_x with_algorithm invalidated] in *. subst st.
  destruct U as (U1 & U2 & U3 & U4). split.
  - unfold put_timelimit. destruct (dltb _ _); repeat split; assumption.
  - destruct threw.
    + exfalso. apply (ps_throw X PS _ _ _ _ XO). unfold spx_success. clear - ST.
      destruct (x_status X x); try discriminate ST; cbn; intuition.
    + do 2 eexists. split; [|exact XO]. repeat split; assumption.
Qed.

Lemma spx_dual_timelimit s s' ok : SpxSolveLp true s = Ok (s', ok) ->
  s_scratch s = false -> ok_timelimit (x_rules X) (TIMELIMIT (s_params s')) = true.
Proof.
  intros H Sc. unfold SpxSolveLp, SoPlexSolve in H. apply bind_ok in H as (u & _ & H).
  cbn [s_scratch with_params invalidated with_algorithm] in H. rewrite Sc in H.
  apply bind_ok in H as (u2 & _ & H). apply bind_ok in H as ([s1 st] & H1 & H). injection H as <- _.
  unfold LpSolve in H1. apply bind_ok in H1 as (u3 & _ & H1). apply bind_ok in H1 as (u4 & _ & H1).
  destruct (x_optimize _ _ _ _) as [threw x]. apply bind_ok in H1 as (u5 & _ & H1).
  apply bind_ok in H1 as (u6 & _ & H1). apply bind_ok in H1 as (u7 & H7 & H1). injection H1 as <- _.
  cbn [s_params with_params spx_with_x with_algorithm invalidated with_simplifier TIMELIMIT] in *.
  unfold put_timelimit. cbn [with_timelimit TIMELIMIT].
  match type of H7 with check ?b = _ => destruct b eqn:B; [|discriminate H7] end. unfold put. rewrite B. exact B.
Qed.
Lemma spx_dual_total s : spx_runs X -> s_scratch s = false -> freed s = true -> ITERLIMIT (s_params s) = -1 ->
  ok_timelimit (x_rules X) (TIMELIMIT (s_params s)) = true ->
  CheckConsistentBounds s = true -> CheckConsistentSides s = true -> exists s', SpxSolveLp true s = Ok (s', true).
Proof.
  intros RU Sc F IT TL CB CS. unfold SpxSolveLp, SoPlexSolve.
  change (freed (invalidated (with_algorithm s true))) with (freed s). rewrite F. cbn [check bind].
  cbn [s_scratch with_params invalidated with_algorithm]. rewrite Sc. cbn [negb orb check bind].
  unfold LpSolve.
  match goal with |- context [check (CheckConsistentBounds ?z)] => change (CheckConsistentBounds z) with (CheckConsistentBounds s);
    change (CheckConsistentSides z) with (CheckConsistentSides s) end.
  rewrite CB, CS. cbn [check bind].
  cbn [s_params s_x s_lp s_dual with_params spx_with_x with_algorithm invalidated with_simplifier ITERLIMIT TIMELIMIT].
  match goal with |- context [x_optimize X ?x ?g true ?l] => destruct (RU x g l) as [R1 R2]; destruct (x_optimize X x g true l) as [threw x1] eqn:XO end.
  cbn [fst snd] in R1, R2. subst threw. cbn [bind s_params with_params spx_with_x ITERLIMIT TIMELIMIT].
  rewrite IT. cbn [Z.ltb Z.compare orb check bind]. rewrite TL. cbn [check bind].
  cbn [s_scratch with_params spx_with_x invalidated with_algorithm]. rewrite Sc. cbn [negb orb check bind].
  match goal with |- exists s', Ok (_, ?b) = _ => assert (B : b = true) end.
  { revert R2. unfold spx_success. destruct (x_status X x1); try reflexivity; cbn; intuition discriminate. }
  rewrite B. eexists. reflexivity.
Qed.

(** ** Creation *)
Lemma spx_set_made s (p : lp_params) s' : SpxSetLpParameters s p = Ok (s', true) ->
  s_lp s' = s_lp s /\ s_scratch s' = s_scratch s /\ freed s' = freed s /\ s_solved s' = s_solved s /\
  s_params s' = to_spx (x_rules X) p /\ ok_timelimit (x_rules X) (TIMELIMIT (to_spx (x_rules X) p)) = true.
Proof.
  unfold SpxSetLpParameters. intros H. apply bind_ok in H as ([q ok] & H1 & H). injection H as <- ->.
  repeat (split; [reflexivity|]). cbn [with_params s_params]. cbn [SoplexSetLpParameters] in H1.
  destruct (negb _); [discriminate H1|]. destruct (spx_accepts _ _) eqn:A.
  - injection H1 as <-. split; [apply spx_put_all; exact A|]. unfold spx_accepts in A.
    apply andb_prop in A as [A _]. apply andb_prop in A as [_ A]. exact A.
  - apply bind_ok in H1 as ([q2 ok2] & _ & H1). apply bind_ok in H1 as (t & _ & H1). discriminate H1.
Qed.
Lemma plain_spx_unlimited u : calm_request u -> spx_unlimited X (to_spx (x_rules X) (wanted_lp u)).
Proof.
  intros [H2 H3 H4 H5 _]. unfold spx_unlimited, to_spx. cbn [OBJLIMIT_LOWER OBJLIMIT_UPPER TIMER ITERLIMIT].
  rewrite H2, H3, H4, H5. split; [|split; [|split]]; try reflexivity.
  - unfold dmax. destruct (dopp (spx_infty (x_rules X))) as [[]|[]| |[]]; reflexivity.
  - unfold dmin. destruct (spx_infty (x_rules X)) as [[]|[]| |[]]; reflexivity.
Qed.
End Spx.

(** Loading a problem into the interface, whatever it held before. *)
Lemma spx_problem_loaded {X : spx_engine} (s : sstate X) p : keeps_entries X -> freed s = true ->
  problem_ok p -> integer_bounds_ordered p ->
  exists d s', MipData p = Ok d /\ sstep s (CPopulate d) = Ok (s', ROk) /\
    s_reads X (s_lp s') (nameless (problem_table p)) /\ SpxIsSolved s' = false /\ s_params s' = s_params s.
Proof.
  intros KE F H1 H2. destruct (problem_loaded p H1 H2) as (d & _ & D & _).
  destruct (spx_loaded_table p d H1 H2 D) as (l & PL & W & _ & T).
  exists d, (spx_with_lp (invalidated s) l). split; [exact D|]. cbn [sstep]. unfold spx_edited.
  assert (F' : freed (invalidated s) = true) by exact F. rewrite F', PL. cbn [check bind].
  split; [reflexivity|]. split; [|split; reflexivity]. cbn [spx_with_lp s_lp]. rewrite <- T. apply s_reads_ok; auto.
Qed.
