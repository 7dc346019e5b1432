(** A small LP solver used in the examples of [PropsSolver]: one integer variable x in [0,3]
    and one row c <= x <= d; minimise or maximise x. *)
From Coq Require Import String List ZArith Bool QArith Lia Permutation.
From Verif Require Import Outcome Num Double DoubleFacts Rounding Problem MipData ProblemSpec MipDataProofs
  MipTree TreeSpec Branching Solver SolverSpec SolverProofs.
Import ListNotations.
Open Scope Z_scope.

Definition half : double := S754_finite false 4503599627370496 (-53).
Definition tol6 : double := S754_finite false 4722366482869645 (-72).

Definition toy_problem (mx : bool) (off c d : double) : problem :=
  mkProblem "" [mkVar "x" d1 d0 (dint 3) true] [mkCon "r" [0] [d1] c d] [] mx off.

(** The LP: the bounds of the column and whether it is solved. *)
Record toy := mkToy { t_lo : double; t_up : double; t_solved : bool;
                      t_valid : dvalid t_lo && dvalid t_up = true }.

Definition toy_set (w : toy) (j : Z) (l u : double) : outcome toy :=
  match Bool.bool_dec (dvalid l && dvalid u) true with
  | left H => if j =? 0 then Ok (mkToy l u false H) else Err InvalidArgument
  | right _ => Err InvalidArgument
  end.

Section Toy.
Variables (mx : bool) (c d : double).
Definition t_min (w : toy) : double := if dleb (t_lo w) c then c else t_lo w.
Definition t_max (w : toy) : double := if dleb d (t_up w) then d else t_up w.
Definition t_point (w : toy) : double := if mx then t_max w else t_min w.
Definition t_optimal (w : toy) : bool :=
  t_solved w && is_finite (t_point w) && dleb (t_min w) (t_max w).

Definition toy_env (dat : mip_data) (limit : Z) : env toy :=
  mkEnv toy toy_set
    (fun w => Ok (mkToy (t_lo w) (t_up w) true (t_valid w)))
    t_optimal
    (fun w => if mx then dopp (t_point w) else t_point w)
    (fun w => Ok [t_point w])
    (fun w => Ok w)
    (fun w => MaxFractional Down tol6 [0] [t_point w])
    dat tol6 limit [0].
End Toy.

Definition toy_start : toy := mkToy d0 (dint 3) false eq_refl.
Definition toy_bounds (w : toy) (j : Z) : double * double :=
  if j =? 0 then (t_lo w, t_up w) else (dminf, dinf).
Definition toy_rows (c d : double) (w : toy) (x : point) : Prop := q_above c (x 0) /\ q_below (x 0) d.

Section ToyFacts.
Variables (mx : bool) (off c d : double).
Hypothesis (Vc : dvalid c = true) (Vd : dvalid d = true) (Nc : is_nan c = false) (Nd : is_nan d = false).
Variables (dat : mip_data) (limit : Z).
Let E := toy_env mx c d dat limit.
Let p := toy_problem mx off c d.

Lemma toy_integer j : is_integer_var p j <-> j = 0.
Proof.
  unfold is_integer_var, nth_var. cbn [p_vars p toy_problem]. split.
  - intros (v & H & _). destruct (Z.ltb_spec j 0); [discriminate|].
    destruct (Z.to_nat j) as [|k] eqn:N; [lia|]. cbn in H. destruct k; discriminate.
  - intros ->. eexists. split; reflexivity.
Qed.

Lemma toy_keeps : lp_keeps_bounds E toy_bounds.
Proof.
  constructor.
  - intros w j l u w' H. cbn [set_bounds E toy_env] in H. unfold toy_set in H.
    destruct (bool_dec _ true); [|discriminate]. destruct (Z.eqb_spec j 0) as [->|]; [|discriminate].
    injection H as <-. split; [reflexivity|]. intros k K. unfold toy_bounds.
    destruct (Z.eqb_spec k 0); [contradiction|reflexivity].
  - intros w w' H j. injection H as <-. reflexivity.
  - intros w w' H j. injection H as <-. reflexivity.
Qed.

Lemma valid_lo w : dvalid (t_lo w) = true.
Proof. pose proof (t_valid w) as H. apply andb_prop in H. tauto. Qed.
Lemma valid_up w : dvalid (t_up w) = true.
Proof. pose proof (t_valid w) as H. apply andb_prop in H. tauto. Qed.
Lemma valid_min w : dvalid (t_min c w) = true.
Proof. unfold t_min. destruct (dleb _ _); auto using valid_lo. Qed.
Lemma valid_max w : dvalid (t_max d w) = true.
Proof. unfold t_max. destruct (dleb _ _); auto using valid_up. Qed.
Lemma valid_point w : dvalid (t_point mx c d w) = true.
Proof. unfold t_point. destruct mx; auto using valid_min, valid_max. Qed.

Hypothesis (Fm : is_finite (if mx then d else c) = true).
Lemma q_le a b x : dvalid a = true -> dvalid b = true -> q_above a x -> q_below x b -> dleb a b = true.
Proof.
  intros Va Vb A B. destruct (is_finite a) eqn:Fa, (is_finite b) eqn:Fb.
  - apply dleb_zval; auto. assert (L : (qval a <= qval b)%Q).
    { apply (Qle_trans _ x); destruct a, b; try discriminate; auto. }
    unfold qval, Qle in L. cbn [Qnum Qden] in L. apply Z.mul_le_mono_pos_r in L; auto. lia.
  - destruct a, b; try discriminate; cbn in B |- *; subst; try contradiction; reflexivity.
  - destruct a, b; try discriminate; cbn in A |- *; subst; try contradiction; reflexivity.
  - destruct a, b; try discriminate; cbn in A, B |- *; subst; try contradiction; reflexivity.
Qed.

(** A point of the row and of the box makes the LP optimal, with the right bound. *)
Lemma toy_optimal w x : q_above c (x 0) -> q_below (x 0) d -> q_above (t_lo w) (x 0) -> q_below (x 0) (t_up w) ->
  t_solved w = true ->
  t_optimal mx c d w = true /\ q_above (if mx then dopp (t_point mx c d w) else t_point mx c d w) (cost p x).
Proof.
  intros C D L U S.
  assert (A : q_above (t_min c w) (x 0)) by (unfold t_min; destruct (dleb _ _); auto).
  assert (B : q_below (x 0) (t_max d w)) by (unfold t_max; destruct (dleb _ _); auto).
  assert (G : is_finite (t_point mx c d w) = true).
  { unfold t_point. destruct mx; unfold t_max, t_min.
    - destruct (dleb d (t_up w)) eqn:H; auto. destruct (t_up w) as [| s | |] eqn:X; auto; cbn in U; try contradiction. subst s.
      destruct d; try discriminate; auto.
    - destruct (dleb (t_lo w) c) eqn:H; auto. destruct (t_lo w) as [| s | |] eqn:X; auto; cbn in L; try contradiction. subst s.
      destruct c; try discriminate; auto. }
  split.
  - unfold t_optimal. rewrite S, G, (q_le _ _ (x 0)); auto using valid_min, valid_max.
  - assert (CO : (cost p x == (if mx then -1 else 1) * x 0%Z)%Q).
    { unfold cost, p. cbn [toy_problem p_max p_vars length seq map q_sum fold_right Z.of_nat].
      assert (K : (qval (input_objective (toy_problem mx off c d) 0%Z) == 1)%Q).
      { unfold input_objective, nth_var. cbn. unfold qval, Qeq. cbn [Qnum Qden].
        change (zval _) with (zval d1). rewrite (proj2 one_double). rewrite Z2Pos.id; [lia|apply zone_pos]. }
      rewrite K. destruct mx; ring. }
    unfold t_point in *. destruct mx.
    + apply (q_above_eq _ (- x 0%Z)%Q); [rewrite CO; ring|].
      destruct (dopp_spec (t_max d w) (valid_max w) G) as (_ & F & Z).
      assert (Q : (qval (dopp (t_max d w)) <= - x 0%Z)%Q).
      { assert (X : (qval (dopp (t_max d w)) == - qval (t_max d w))%Q) by (unfold qval, Qeq; cbn [Qnum Qden Qopp]; rewrite Z; lia).
        rewrite X. apply Qopp_le_compat. destruct (t_max d w); try discriminate; auto. }
      destruct (dopp (t_max d w)); try discriminate; auto.
    + apply (q_above_eq _ (x 0)); [rewrite CO; ring|auto].
Qed.

Lemma toy_sound : lp_sound E p toy_start toy_bounds (toy_rows c d).
Proof.
  assert (R : forall x, feasible p x -> q_above c (x 0) /\ q_below (x 0) d).
  { intros x [_ F]. destruct (F 0 (mkCon "r" [0] [d1] c d) eq_refl) as [A B]. cbn [c_lhs c_rhs] in A, B.
    assert (K : (row_activity (mkCon "r" [0%Z] [d1] c d) x == x 0%Z)%Q).
    { unfold row_activity, terms. cbn. assert (K : (qval d1 == 1)%Q).
      { unfold qval, Qeq. cbn [Qnum Qden]. rewrite (proj2 one_double). rewrite Z2Pos.id; [lia|apply zone_pos]. }
      rewrite K. ring. }
    split; [apply (q_above_eq _ _ _ K A)|apply (q_below_eq _ _ _ K B)]. }
  destruct toy_keeps as [K1 K2 K3].
  assert (O : forall w x, t_solved w = true -> toy_rows c d w x -> in_lp_box p (toy_bounds w) x ->
    is_optimal E w = true /\ q_above (objective_value E w) (cost p x)).
  { intros w x S [A B] X. destruct (X 0) as [X1 X2]; [apply toy_integer; auto|]. apply toy_optimal; auto. }
  constructor.
  - exact R.
  - intros w j l u w' H. destruct (K1 _ _ _ _ _ H) as [A B]. split; auto.
  - intros w w' H. split; [apply (K2 _ _ H)|]. split; auto. intros _ x. apply O. injection H as <-. reflexivity.
  - intros w w' I H. split; [apply (K3 _ _ H)|]. split; auto. intros _ x. apply O. injection H as <-.
    cbn [is_optimal E toy_env] in I. unfold t_optimal in I. destruct (t_solved w); auto.
Qed.

Lemma toy_objective_valid w : dvalid (objective_value E w) = true.
Proof.
  cbn [objective_value E toy_env]. pose proof (valid_point w) as V. destruct mx; auto.
  unfold dopp, SFopp. destruct (t_point _ c d w); auto.
Qed.

Lemma toy_inside : lp_inside E p toy_bounds.
Proof.
  intros w x O P. injection P as <-. cbn [is_optimal E toy_env] in O. unfold t_optimal in O.
  apply andb_prop in O as [O L]. apply andb_prop in O as [S F].
  split; [reflexivity|]. split; [constructor; auto using valid_point|].
  intros j v J A. apply toy_integer in J. subst j. injection A as <-. split; [split; auto using valid_point|].
  cbn [toy_bounds fst snd Z.eqb].
  pose proof (dleb_nan _ _ L) as [N1 N2].
  assert (B1 : dleb (t_lo w) (t_min c w) = true).
  { unfold t_min in *. destruct (dleb (t_lo w) c) eqn:H; auto. apply dleb_refl; auto. }
  assert (B2 : dleb (t_max d w) (t_up w) = true).
  { unfold t_max in *. destruct (dleb d (t_up w)) eqn:H; auto. apply dleb_refl; auto. }
  unfold t_point in *. destruct mx; split; auto.
  - apply (dleb_trans _ (t_min c w)); auto using valid_min, valid_max, valid_lo.
  - apply (dleb_trans _ (t_max d w)); auto using valid_min, valid_max, valid_up.
Qed.

Lemma toy_exact : lp_exact E p.
Proof.
  clear Fm.
  intros w x O P. injection P as <-. cbn [is_optimal objective_value E toy_env] in *. unfold t_optimal in O.
  apply andb_prop in O as [O L]. apply andb_prop in O as [S F].
  unfold cost, p. cbn [toy_problem p_max p_vars length seq map q_sum fold_right Z.of_nat point_of].
  assert (K : (qval (input_objective (toy_problem mx off c d) 0%Z) == 1)%Q).
  { unfold input_objective, nth_var. cbn. unfold qval, Qeq. cbn [Qnum Qden].
    change (zval _) with (zval d1). rewrite (proj2 one_double). rewrite Z2Pos.id; [lia|apply zone_pos]. }
  rewrite K. unfold point_of. cbn [at_]. change (at_ [t_point mx c d w] 0) with (Ok (t_point mx c d w)).
  pose proof (valid_point w) as VP. destruct mx; [|ring].
  destruct (dopp_spec _ VP F) as (_ & _ & Z).
  assert (X : (qval (dopp (t_point true c d w)) == - qval (t_point true c d w))%Q) by (unfold qval, Qeq; cbn [Qnum Qden Qopp]; rewrite Z; lia).
  rewrite X. ring.
Qed.

Lemma toy_mf : max_fractional_env E Down.
Proof.
  constructor.
  - intros w x P. injection P as <-. reflexivity.
  - split; [reflexivity|]. split; [reflexivity|]. change 0 with (zval d0). apply dleb_zval; reflexivity.
Qed.

Hypothesis (OK : env_ok E p).
Lemma toy_total : lp_total E p.
Proof.
  constructor.
  - intros w j l u J Vl Vu. apply toy_integer in J. subst j. cbn [set_bounds E toy_env]. unfold toy_set.
    destruct (bool_dec (dvalid l && dvalid u) true) as [H|H]; [eexists; reflexivity|]. rewrite Vl, Vu in H. contradiction H. reflexivity.
  - intros w. eexists. reflexivity.
  - intros w _. eexists. reflexivity.
  - intros w _. eexists. split; reflexivity.
  - apply (max_fractional_ok E p OK Down toy_bounds toy_mf toy_inside).
Qed.
End ToyFacts.

(** *** The three problems of the examples: minimise x + 10 with x >= 1/2; with x = 1/2;
    maximise x + 10 with 1/2 <= x <= 5/2. *)
Definition no_data : mip_data :=
  mkData "" false d0 SparseVector.vempty [] [] [] [] [] [] [] [] [] [] (SparseMatrix.mat_new 0 0).
Definition data_of (p : problem) : mip_data := match MipData p with Ok d => d | _ => no_data end.
Definition p_a : problem := toy_problem false (dint 10) half dinf.
Definition p_b : problem := toy_problem false (dint 10) half half.
Definition p_c : problem := toy_problem true (dint 10) half (ddiv (dint 5) (dint 2)).
Definition data_a : mip_data := Eval vm_compute in data_of p_a.
Definition data_b : mip_data := Eval vm_compute in data_of p_b.
Definition data_c : mip_data := Eval vm_compute in data_of p_c.
Definition env_a : env toy := toy_env false half dinf data_a 2.
Definition env_b : env toy := toy_env false half half data_b 2.
Definition env_c : env toy := toy_env true half (ddiv (dint 5) (dint 2)) data_c 2.

Lemma toy_env_ok mx off c d limit dat : MipData (toy_problem mx off c d) = Ok dat -> integer_variables dat = [0] ->
  dltb d c = false -> env_ok (toy_env mx c d dat limit) (toy_problem mx off c d).
Proof.
  intros M I L. constructor.
  - split.
    + constructor; [|constructor]. split; [discriminate|reflexivity].
    + constructor; [|constructor]. split; [discriminate|]. cbn [c_idx c_coef c_lhs c_rhs num_vars toy_problem p_vars length].
      split; [constructor; [cbn; lia|constructor]|]. split; [constructor; [intros []|constructor]|]. auto.
  - exact M.
  - constructor; [|constructor]. split; [reflexivity|]. split; [reflexivity|]. split; reflexivity.
  - cbn [order toy_env data]. rewrite I. apply Permutation_refl.
Qed.
Lemma env_a_ok : env_ok env_a p_a.
Proof. apply toy_env_ok; reflexivity. Qed.
Lemma env_b_ok : env_ok env_b p_b.
Proof. apply toy_env_ok; reflexivity. Qed.
Lemma env_c_ok : env_ok env_c p_c.
Proof. apply toy_env_ok; reflexivity. Qed.
Lemma env_a_sound : lp_sound env_a p_a toy_start toy_bounds (toy_rows half dinf).
Proof. apply toy_sound; reflexivity. Qed.
Lemma env_b_sound : lp_sound env_b p_b toy_start toy_bounds (toy_rows half half).
Proof. apply toy_sound; reflexivity. Qed.
Lemma env_c_sound : lp_sound env_c p_c toy_start toy_bounds (toy_rows half (ddiv (dint 5) (dint 2))).
Proof. apply toy_sound; reflexivity. Qed.
Lemma env_a_valid w : dvalid (objective_value env_a w) = true.
Proof. exact (toy_objective_valid false d0 half dinf eq_refl eq_refl data_a 2 eq_refl w). Qed.
Lemma env_a_inside : lp_inside env_a p_a toy_bounds.
Proof. apply toy_inside; reflexivity. Qed.
Lemma env_a_branch : branch_ok env_a.
Proof. exact (proj1 (max_fractional_ok env_a p_a env_a_ok Down toy_bounds (toy_mf _ _ _ _ _) env_a_inside)). Qed.
Lemma env_b_branch : branch_ok env_b.
Proof.
  refine (proj1 (max_fractional_ok env_b p_b env_b_ok Down toy_bounds (toy_mf _ _ _ _ _) _)). apply toy_inside; reflexivity.
Qed.
Lemma env_c_branch : branch_ok env_c.
Proof.
  refine (proj1 (max_fractional_ok env_c p_c env_c_ok Down toy_bounds (toy_mf _ _ _ _ _) _)). apply toy_inside; reflexivity.
Qed.
Lemma bounded_a : bounded_integers p_a.
Proof. constructor; [|constructor]. intros _. split; reflexivity. Qed.

(** *** An LP solver for x in [0,3], x >= 1/2 with objective 0: any point of the LP is optimal;
    this one returns 3/2, or 1/2 if 3/2 is cut off, or the lower bound. *)
Definition any_point (w : toy) : double :=
  if dleb d1 (t_lo w) then t_lo w else if dleb (dint 3) (t_up w) then ddiv (dint 3) (dint 2) else half.
Definition p_0 : problem :=
  mkProblem "" [mkVar "x" d0 d0 (dint 3) true] [mkCon "r" [0] [d1] half dinf] [] false d0.
Definition data_0 : mip_data := Eval vm_compute in data_of p_0.
Definition env_0 (limit : Z) : env toy :=
  mkEnv toy toy_set
    (fun w => Ok (mkToy (t_lo w) (t_up w) true (t_valid w)))
    (fun w => t_solved w && is_finite (any_point w) && dleb half (any_point w) &&
              dleb (t_lo w) (any_point w) && dleb (any_point w) (t_up w))
    (fun w => d0)
    (fun w => Ok [any_point w])
    (fun w => Ok w)
    (fun w => MaxFractional Down tol6 [0] [any_point w])
    data_0 tol6 limit [0].
Lemma env_0_ok limit : env_ok (env_0 limit) p_0.
Proof.
  constructor.
  - split.
    + constructor; [|constructor]. split; [discriminate|reflexivity].
    + constructor; [|constructor]. split; [discriminate|]. cbn [c_idx c_coef c_lhs c_rhs num_vars p_vars p_0 length].
      split; [constructor; [cbn; lia|constructor]|]. split; [constructor; [intros []|constructor]|]. split; reflexivity.
  - reflexivity.
  - constructor; [|constructor]. split; [reflexivity|]. split; [reflexivity|]. split; reflexivity.
  - apply Permutation_refl.
Qed.

Lemma any_point_valid w : dvalid (any_point w) = true.
Proof. unfold any_point. destruct (dleb d1 (t_lo w)); [apply valid_lo|]. destruct (dleb _ _); reflexivity. Qed.
Lemma env_0_inside limit : lp_inside (env_0 limit) p_0 toy_bounds.
Proof.
  intros w x O P. injection P as <-. cbn [is_optimal env_0] in O. rewrite !andb_true_iff in O.
  destruct O as ((((_ & F) & _) & L) & U). split; [reflexivity|]. split; [constructor; auto using any_point_valid|].
  intros j v J A. assert (j = 0).
  { destruct J as (var & J & _). unfold nth_var in J. cbn [p_vars p_0] in J. destruct (Z.ltb_spec j 0); [discriminate|].
    destruct (Z.to_nat j) as [|k] eqn:N; [lia|destruct k; discriminate]. }
  subst j. injection A as <-. split; [split; auto using any_point_valid|]. split; auto.
Qed.
Lemma env_0_branch limit : branch_ok (env_0 limit).
Proof.
  refine (proj1 (max_fractional_ok (env_0 limit) p_0 (env_0_ok limit) Down toy_bounds _ (env_0_inside limit))).
  constructor.
  - intros w x P. injection P as <-. reflexivity.
  - split; [reflexivity|]. split; [reflexivity|]. change 0 with (zval d0). apply dleb_zval; reflexivity.
Qed.

(** The states of a run. *)
Fixpoint run_states (E : env toy) (k : nat) (s : solver_state toy) : option (solver_state toy) :=
  match k with
  | O => Some s
  | S k' => match queue s, solver_round E s with
            | _ :: _, Ok (Continue s') => run_states E k' s'
            | _, _ => None
            end
  end.
Lemma run_visits E w0 k : forall s s', visits E w0 s -> run_states E k s = Some s' -> visits E w0 s'.
Proof.
  induction k as [|k IH]; intros s s' V H; cbn in H; [injection H as <-; auto|].
  destruct (queue s) as [|n q] eqn:Q; [discriminate|]. destruct (solver_round E s) as [[s1|s1]| | | |] eqn:R; try discriminate.
  apply (IH s1); auto. apply (visits_step E w0 s s1 V); auto. congruence.
Qed.

Lemma qval_dint n : Z.abs n < 2 ^ 53 -> (qval (dint n) == inject_Z n)%Q.
Proof.
  intros H. destruct (dint_spec false n H) as (_ & _ & Z). unfold qval, Qeq, inject_Z, dint. cbn [Qnum Qden].
  rewrite Z, Z2Pos.id; [lia|apply zone_pos].
Qed.
Lemma above_int a n : Z.abs n < 2 ^ 53 -> dvalid a = true -> dleb a (dint n) = true -> q_above a (inject_Z n).
Proof.
  intros H V L. destruct (dint_spec false n H) as (V1 & F1 & _). apply (q_above_mono a (dint n)); auto.
  apply (q_above_eq _ (qval (dint n))); [apply qval_dint; auto|].
  unfold dint in *. destruct (dint_ false n); try discriminate; apply Qle_refl.
Qed.
Lemma below_int a n : Z.abs n < 2 ^ 53 -> dvalid a = true -> dleb (dint n) a = true -> q_below (inject_Z n) a.
Proof.
  intros H V L. destruct (dint_spec false n H) as (V1 & F1 & _). fold (dint n) in V1, F1.
  assert (Q : (inject_Z n <= qval (dint n))%Q) by (rewrite qval_dint; auto; apply Qle_refl).
  destruct (is_finite a) eqn:F.
  - assert (G : (qval (dint n) <= qval a)%Q) by (apply qval_le, dleb_zval; auto).
    pose proof (Qle_trans _ _ _ Q G). destruct a; try discriminate; auto.
  - destruct a as [|s| |]; try discriminate.
    + destruct s; auto. cbn. destruct (dint n); discriminate.
    + destruct (dint n) as [|[]| |[]]; discriminate.
Qed.

Lemma two_feasible : feasible p_a (fun _ => inject_Z 2).
Proof.
  split.
  - intros j v H. unfold nth_var in H. cbn [p_vars p_a toy_problem] in H. destruct (j <? 0); [discriminate|].
    destruct (Z.to_nat j) as [|k]; [|destruct k; discriminate]. injection H as <-. cbn [v_lb v_ub v_int].
    split; [apply above_int; [lia|reflexivity..]|]. split; [apply below_int; [lia|reflexivity..]|].
    intros _. exists 2. reflexivity.
  - intros r c H. unfold nth_con in H. cbn [p_cons p_a toy_problem] in H. destruct (r <? 0); [discriminate|].
    destruct (Z.to_nat r) as [|k]; [|destruct k; discriminate]. injection H as <-. cbn [c_lhs c_rhs].
    assert (K : (row_activity (mkCon "r" [0%Z] [d1] half dinf) (fun _ => inject_Z 2) == inject_Z 2)%Q).
    { unfold row_activity, terms. cbn [c_idx c_coef combine map q_sum fold_right fst snd].
      assert (K : (qval d1 == 1)%Q) by (apply (qval_dint 1); lia). rewrite K. ring. }
    split; [|reflexivity]. apply (q_above_eq _ (inject_Z 2)); [symmetry; exact K|apply above_int; [lia|reflexivity..]].
Qed.

Lemma status_codes :
  NoDup [kProblemInvalid; kNotSolved; kOptimal; kFeasible; kImprecise; kInfeasible; kInfeasibleOrUnbounded].
Proof. repeat constructor; cbn [In]; intuition discriminate. Qed.
Lemma status_refuted :
  (exists W (E : env W) p w0 bounds rows s fuel,
     env_ok E p /\ branch_ok E /\ lp_sound E p w0 bounds rows /\ lp_exact E p /\
     Solve E fuel w0 = Ok s /\ status s = Some kOptimal /\ best (res s) = sol_default) /\
  (exists W (E : env W) p w0 bounds rows s fuel,
     env_ok E p /\ branch_ok E /\ lp_sound E p w0 bounds rows /\ lp_exact E p /\
     Solve E fuel w0 = Ok s /\ best (res s) <> sol_default /\ p_max p = false /\
     ~ (qval (s_obj (best (res s))) == user_objective p (point_of (s_vals (best (res s)))))%Q) /\
  (exists W (E : env W) p w0 bounds rows s fuel,
     env_ok E p /\ branch_ok E /\ lp_sound E p w0 bounds rows /\ lp_exact E p /\
     Solve E fuel w0 = Ok s /\ best (res s) = mkSol [dint 2] (dint (-2)) /\ p_max p = true) /\
  kInfeasible = kUnbounded.
Proof.
  split; [|split; [|split; [|reflexivity]]].
  - eexists toy, env_b, p_b, toy_start, toy_bounds, _, _, 5%nat.
    split; [exact env_b_ok|]. split; [exact env_b_branch|]. split; [exact env_b_sound|].
    split; [apply toy_exact; reflexivity|]. split; [vm_compute; reflexivity|]. split; reflexivity.
  - destruct (Solve env_a 5 toy_start) as [s| | | |] eqn:R; [|vm_compute in R; discriminate R..].
    assert (B : best (res s) = mkSol [d1] d1).
    { transitivity (match Solve env_a 5 toy_start with Ok s => best (res s) | _ => sol_default end);
        [rewrite R; reflexivity|vm_compute; reflexivity]. }
    exists toy, env_a, p_a, toy_start, toy_bounds, (toy_rows half dinf), s, 5%nat.
    split; [exact env_a_ok|]. split; [exact env_a_branch|]. split; [exact env_a_sound|].
    split; [apply toy_exact; reflexivity|]. split; [auto|]. rewrite B.
    split; [discriminate|]. split; [reflexivity|]. cbn [s_obj s_vals]. intros Q.
    assert (U : (user_objective p_a (point_of [d1]) == 11)%Q).
    { rewrite cost_user. unfold cost. cbn [p_a toy_problem p_max p_offset p_vars length seq map q_sum fold_right Z.of_nat].
      unfold input_objective, nth_var. cbn [Z.ltb Z.compare p_vars toy_problem Z.to_nat nth_error v_obj].
      change (point_of [d1] 0) with (qval d1).
      assert (K : (qval d1 == 1)%Q) by (apply (qval_dint 1); lia).
      assert (K' : (qval (dint 10) == 10)%Q) by (apply (qval_dint 10); lia).
      rewrite K, K'. reflexivity. }
    assert (K : (qval d1 == 1)%Q) by (apply (qval_dint 1); lia).
    rewrite U, K in Q. discriminate Q.
  - eexists toy, env_c, p_c, toy_start, toy_bounds, _, _, 5%nat.
    split; [exact env_c_ok|]. split; [exact env_c_branch|]. split; [exact env_c_sound|].
    split; [apply toy_exact; reflexivity|]. split; [vm_compute; reflexivity|]. split; reflexivity.
Qed.

(** *** C47: the run of [env_0]; of two children the down child is explored first *)
Definition plunges (limit next : Z) : Prop := exists s s',
  visits (env_0 limit) toy_start s /\ queue s = [3; 2; 4] /\ takes_infeasible (env_0 limit) s 3 /\
  siblings (mip_tree s) 3 4 /\
  (exists d2 d4, node (mip_tree s) 2 = Ok d2 /\ node (mip_tree s) 4 = Ok d4 /\ depth d2 < depth d4) /\
  solver_round (env_0 limit) s = Ok (Continue s') /\ queue s' = [2; 4] /\ takes s' next.
Ltac plunge limit :=
  let R := fresh in
  destruct (run_states (env_0 limit) 2 (solve_start toy_start)) as [s|] eqn:R; [|exfalso; vm_compute in R; discriminate R];
  exists s; eexists;
  (split; [exact (run_visits _ _ _ _ _ (visits_start _ _) R)|]);
  vm_compute in R; injection R as <-;
  (split; [reflexivity|]);
  (split; [split; [eexists; reflexivity|eexists; split; vm_compute; reflexivity]|]);
  (split; [split; [lia|do 2 eexists; split; [vm_compute; reflexivity|split; vm_compute; reflexivity]]|]);
  (split; [do 2 eexists; split; [vm_compute; reflexivity|split; [vm_compute; reflexivity|reflexivity]]|]);
  (split; [vm_compute; reflexivity|]); (split; [reflexivity|]); eexists; reflexivity.
Lemma plunge_2 : plunges 2 2.
Proof. plunge 2. Qed.
Lemma plunge_1 : plunges 1 2.
Proof. plunge 1. Qed.
Lemma plunge_0 : plunges 0 4.
Proof. plunge 0. Qed.
Lemma plunge_m1 : plunges (-1) 4.
Proof. plunge (-1). Qed.

(** *** A second call *)
(** The first call finds the optimum after branching; the second one trips a check. *)
Lemma again_trips : exists s, Solve env_a 5 toy_start = Ok s /\ best (res s) = mkSol [d1] d1 /\ explored s = [0; 1; 2] /\
  forall fuel, SolveAgain env_a (S fuel) s = Abort.
Proof.
  eexists. split; [vm_compute; reflexivity|]. split; [reflexivity|]. split; [reflexivity|]. intros fuel. vm_compute. reflexivity.
Qed.
(** An LP whose first optimum is integral. *)
Definition p_d : problem := toy_problem false (dint 10) d1 dinf.
Definition data_d : mip_data := Eval vm_compute in data_of p_d.
Definition env_d : env toy := toy_env false d1 dinf data_d 2.
Lemma env_d_ok : env_ok env_d p_d.
Proof. apply toy_env_ok; reflexivity. Qed.
Lemma env_d_case : max_fractional_env env_d Down /\ lp_keeps_bounds env_d toy_bounds /\ lp_inside env_d p_d toy_bounds /\
  bounded_integers p_d /\ lp_total env_d p_d /\ lp_sound env_d p_d toy_start toy_bounds (toy_rows d1 dinf) /\
  (forall w, dvalid (objective_value env_d w) = true) /\
  exists s s', Solve env_d 5 toy_start = Ok s /\ explored s = [0] /\ SolveAgain env_d 5 s = Ok s' /\
    best (res s') = mkSol [d1] d1 /\ best (res s) = mkSol [d1] d1.
Proof.
  split; [apply toy_mf|]. split; [apply toy_keeps|]. split; [apply toy_inside; reflexivity|].
  split; [constructor; [|constructor]; intros _; split; reflexivity|].
  split; [apply toy_total; try reflexivity; exact env_d_ok|]. split; [apply toy_sound; reflexivity|].
  split; [intros w; exact (toy_objective_valid false d0 d1 dinf eq_refl eq_refl data_d 2 eq_refl w)|].
  eexists. eexists. split; [vm_compute; reflexivity|]. split; [reflexivity|]. split; [vm_compute; reflexivity|].
  split; reflexivity.
Qed.
