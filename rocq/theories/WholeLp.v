(** The LP during a whole solve: the problem's and one row per stored cut. *)
From Coq Require Import String List ZArith Bool Lia.
From Verif Require Import Outcome OutcomeFacts Num Double SparseVector VectorSpec Aggregation Problem MipData ProblemSpec
  CutsData Selector Runner CutSpec CutProofs LpParams GlopLp GlopIface GlopSpec SoplexIface SoplexSpec Branching Params
  ReaderSpec MipTree Solver SolverSpec SolverProofs Whole WholeSpec WholeTables WholeProofs WholeRun WholeRounds.
Import ListNotations.
Open Scope Z_scope.

(** A table without the bounds of the columns in [js]. *)
Definition boundless_col (c : tcol) : tcol := mkTC d0 d0 (t_obj c) (t_name c) (t_coefs c).
Definition boundless (js : list Z) (t : table) : table :=
  mkT (map (fun p => if existsb (Z.eqb (fst p)) js then boundless_col (snd p) else snd p)
         (combine (upto (length (t_cols t))) (t_cols t)))
      (t_rows t) (t_max t).
(** A table with one more row for each cut. *)
Definition with_cuts (t : table) (cs : list cut) : table :=
  fold_left (fun t c => GlopSpec.add_row t (row c) dminf (right_hand_side c) EmptyString) cs t.

Lemma upto_length n : length (upto n) = n.
Proof. unfold upto. rewrite map_length, seq_length. reflexivity. Qed.
Lemma boundless_with js t j lo hi : In j js -> boundless js (with_bounds t j lo hi) = boundless js t.
Proof.
  intros J. unfold boundless, with_bounds. cbn [table_step t_cols t_rows t_max]. f_equal. unfold change_at.
  rewrite map_length, combine_length, upto_length, Nat.min_id.
  generalize (upto_length (length (t_cols t))). generalize (upto (length (t_cols t))).
  induction (t_cols t) as [|c cs IH]; intros [|i is] L; try discriminate L; [reflexivity|].
  cbn [combine map fst snd]. f_equal; [|apply IH; injection L as L; exact L].
  destruct (i =? j) eqn:Q; [|reflexivity]. apply Z.eqb_eq in Q. subst i.
  assert (H : existsb (Z.eqb j) js = true) by (apply existsb_exists; exists j; split; [exact J|apply Z.eqb_refl]).
  rewrite H. reflexivity.
Qed.
Lemma boundless_add js t v lo hi n : boundless js (GlopSpec.add_row t v lo hi n) = GlopSpec.add_row (boundless js t) v lo hi n.
Proof.
  unfold boundless, GlopSpec.add_row. cbn [t_cols t_rows t_max]. f_equal.
  rewrite !map_length, !combine_length, !upto_length, !Nat.min_id.
  generalize (upto_length (length (t_cols t))). generalize (upto (length (t_cols t))).
  induction (t_cols t) as [|c cs IH]; intros [|i is] L; try discriminate L; [reflexivity|].
  cbn [combine map fst snd]. f_equal; [|apply IH; injection L as L; exact L].
  destruct (existsb (Z.eqb i) js); reflexivity.
Qed.

(** What the runner's calls do to a table. *)
Definition call_step (t : table) (c : lp_call) : table :=
  match c with Runner.AddRow r lo hi _ => GlopSpec.add_row t r lo hi EmptyString | SolveDual => t end.
Lemma rounds_calls rounds : forall t, fold_left call_step (concat (map round_calls rounds)) t = with_cuts t (concat rounds).
Proof.
  induction rounds as [|r rs IH]; intros t; [reflexivity|]. cbn [map concat]. unfold with_cuts. rewrite !fold_left_app.
  change (round_calls r) with (map cut_row r ++ [SolveDual]). rewrite fold_left_app. cbn [fold_left call_step]. rewrite IH. unfold with_cuts. f_equal.
  clear. revert t. induction r as [|c r IH]; intros t; [reflexivity|]. cbn [map fold_left]. apply IH.
Qed.

Section Lp.
Context {E : engine} {X : spx_engine} (k : solver_type) (LAWS : plain_lp E X k) (G : Type).
Context (p : problem) (base : table) (js : list Z).
Let Q := fitting_cut p.
Let good' : lpi E X -> Prop := good k p False.
Definition logged (s : lpi E X) (log : list lp_call) : Prop :=
  boundless js (lp_table s) = boundless js (fold_left call_step log base).

Lemma add_rows_logged g is : Forall Q (cuts g) -> forall (x : lpi E X * G) log x' log',
  Runner.add_rows (lpi E X * G) (fun x v l u n => on_lp G (fun s => add_lp_row s v l u n) x) g is x log = Ok (x', log') ->
  good' (fst x) -> logged (fst x) log -> good' (fst x') /\ logged (fst x') log'.
Proof using.
  intros C. induction is as [|i is IH]; intros x log x' log' H GD L; cbn [Runner.add_rows] in H.
  - injection H as <- <-. auto.
  - apply bind_ok in H as (c & H1 & H). apply bind_ok in H as (x1 & H2 & H).
    assert (QC : Q c). { rewrite Forall_forall in C. apply C. eapply at_In. exact H1. }
    destruct (add_lp_row_good k p False (fst x) (row c) (right_hand_side c) (name c) GD QC) as (s' & S & GD' & T).
    { intros []. }
    unfold on_lp in H2. rewrite S in H2. cbn [bind] in H2. injection H2 as <-.
    apply IH in H; [exact H|exact GD'|]. unfold logged in *. cbn [fst]. rewrite T, boundless_add, L, fold_left_app.
    cbn [fold_left call_step]. rewrite boundless_add. reflexivity.
Qed.

Context (sort : list cut -> list cut) (SORT : sorts sort).
Context (gens : list (generator (E := E) (X := X) G)) (sp : selector_params) (rp : runner_params).
Context (CUTS : max_iterations rp <= 0 \/ Forall (gives_q k G p False Q) gens).
Let I (w : whole (E := E) (X := X) G) : Prop := inv k G p False Q w /\ logged (lp_of w) (calls w).

Lemma separate_logged fuel : forall w w',
  Runner.separate (lpi E X * G) (stops G) (fun x => lpi_solved (fst x)) (map (run_generator G) gens)
    (run_selector G sort sp) (fun x v l u n => on_lp G (fun s => add_lp_row s v l u n) x) (on_lp G dual_simplex) rp fuel w = Ok w' ->
  I w -> I w'.
Proof using LAWS SORT CUTS.
  induction fuel as [|fuel IH]; intros w w' H ((GD & C & N) & L); cbn [Runner.separate] in H;
    destruct (MayRun _ _ _ _ _) eqn:M; try discriminate H; try (injection H as <-; split; [split; auto|auto]; fail).
  destruct (may_run k G p False Q gens rp CUTS w M N) as [GQ _].
  apply bind_ok in H as ([[g x] new] & H1 & H).
  apply (run_gens_q k G p False Q (fitting_keeps p) sort SORT sp gens GQ) in H1; [|exact C|exact GD]. destruct H1 as [C1 X1].
  destruct new as [|i new].
  - injection H as <-. unfold I, inv, lp_of. cbn [Runner.world reg num_cutrounds calls]. rewrite X1. split; [|exact L].
    split; [exact GD|]. split; [exact C1|exact N].
  - apply bind_ok in H as ([x1 log] & H1 & H). apply bind_ok in H as (x2 & H2 & H).
    apply add_rows_logged in H1; [|exact C1|unfold good'; rewrite X1; exact GD|rewrite X1; exact L]. destruct H1 as [GD1 L1].
    unfold on_lp in H2. apply bind_ok in H2 as (s2 & H2 & H3). injection H3 as <-.
    destruct (dual_simplex_good k LAWS p False (fst x1) s2 GD1 H2) as (GD2 & L2 & M2).
    apply IH in H; [exact H|]. split; [split; [exact GD2|split; [exact C1|cbn; lia]]|].
    unfold logged, lp_of in *. cbn [Runner.world fst calls]. unfold lp_table. rewrite L2. fold (lp_table (fst x1)).
    rewrite fold_left_app. exact L1.
Qed.
End Lp.

Lemma whole_lp E X G p0 mx flag sort draw (make : list rounder * Z -> generator (E := E) (X := X) G) g order p u e w0 s :
  plain_lp E X (wanted_solver u) -> proper_problem p -> calm_request u -> sorts sort -> visits_integers p order ->
  no_cuts u \/ (forall a, proper_generator p (make a)) ->
  CreateSolver G p0 mx flag sort draw make g order p u = Ok (e, w0) ->
  visits e w0 s \/ (exists fuel, Solve e fuel w0 = Ok s) ->
  boundless order (nameless (table_of (lp_held (lp_of (Solver.world s))))) =
  boundless order (with_cuts (nameless (problem_table p)) (cuts (reg (Solver.world s)))).
Proof.
  intros LAWS PP PR SO VI CU H V.
  destruct (whole_rounds _ _ _ _ _ _ _ _ _ _ _ _ _ _ _ s H V) as (rounds & _ & _ & R1 & _ & R2 & _).
  destruct (solver_made (wanted_solver u) LAWS G p0 mx flag sort draw make g order p PP u PR eq_refl e w0 H)
    as (c & d & M & D & EQ & I0 & T).
  assert (C : max_iterations (rc_limits (cf_runner c)) <= 0 \/
    Forall (gives_q (wanted_solver u) G p False (fitting_cut p)) (map make (rc_generators (cf_runner c)))).
  { rewrite (md_limits _ _ c M). destruct CU as [A|A]; [left; exact A|right]. apply Forall_forall. intros x Hx.
    apply in_map_iff in Hx as (a & <- & _). intros y r l cs y' GD.
    exact (A a y r l cs y' (good_has_columns (wanted_solver u) p False l GD)). }
  set (base := nameless (problem_table p)).
  set (I := fun w : whole (E := E) (X := X) G => inv (wanted_solver u) G p False (fitting_cut p) w /\ logged base order (lp_of w) (calls w)).
  assert (I1 : forall w j l b w', I w -> In j (Solver.order e) -> set_bounds e w j l b = Ok w' -> I w').
  { intros w j l b w' ((GD & C1 & N) & L) J K. rewrite EQ in J, K. cbn [Solver.order whole_env] in J. cbn in K. unfold on_whole, on_lp in K.
    destruct (set_column_good (wanted_solver u) p False (lp_of w) j l b GD (proj1 (proj2 VI j) J)) as (s' & S & GD' & T').
    unfold lp_of in S at 1. rewrite S in K. cbn [bind] in K. injection K as <-. split; [split; [exact GD'|split; assumption]|].
    unfold logged, lp_of in *. cbn [Runner.world fst calls]. rewrite T', boundless_with by exact J. exact L. }
  assert (I2 : forall w w', I w -> solve_dual e w = Ok w' -> I w').
  { intros w w' ((GD & C1 & N) & L) K. rewrite EQ in K. cbn in K. unfold on_whole, on_lp in K.
    apply bind_ok in K as (x & K1 & K). apply bind_ok in K1 as (s1 & K1 & K2). injection K2 as <-. injection K as <-.
    apply (dual_simplex_good (wanted_solver u) LAWS p False) in K1; [|exact GD]. destruct K1 as (A & B & _).
    split; [split; [exact A|split; assumption]|]. unfold logged, lp_of in *. cbn [Runner.world fst calls].
    unfold lp_table. rewrite B. exact L. }
  assert (I3 : forall w w', I w -> Solver.separate e w = Ok w' -> I w').
  { intros w w' Hw K. rewrite EQ in K. cbn in K. unfold run_separation, Separate in K.
    exact (separate_logged (wanted_solver u) LAWS G p base order sort SO _ _ _ C _ w w' K Hw). }
  assert (W0 : I w0).
  { split; [apply I0|]. unfold logged. rewrite T.
    assert (K0 : calls w0 = []).
    { clear - H. unfold CreateSolver in H. destruct (FindError p); [discriminate H|].
      apply bind_ok in H as (d & _ & H). apply bind_ok in H as (c & _ & H). apply bind_ok in H as (l & _ & H). injection H as _ <-. reflexivity. }
    rewrite K0. reflexivity. }
  assert (Is : I (Solver.world s)).
  { destruct V as [V|[fuel V]]; [exact (visits_world e I I1 I2 I3 w0 s W0 V)|].
    exact (loop_world e I I1 I2 I3 fuel (solve_start w0) s W0 V). }
  destruct Is as [_ L]. unfold logged in L. rewrite R2, rounds_calls, <- R1 in L. exact L.
Qed.
