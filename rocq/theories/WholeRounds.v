(** The cut rounds of a whole solve. *)
From Coq Require Import String List ZArith Bool Lia.
From Verif Require Import Outcome OutcomeFacts Num Double SparseVector VectorSpec Aggregation Problem MipData CutsData Selector Runner
  CutSpec CutProofs LpParams GlopLp GlopIface SoplexIface Branching Params ReaderSpec ReaderProofs
  MipTree Solver SolverSpec SolverProofs Whole.
Import ListNotations.
Open Scope Z_scope.

(** What holds of the world in all the solver's states. *)
Section Loop.
Context {W : Type} (E : env W) (I : W -> Prop).
Context (I1 : forall w j l u w', I w -> In j (order E) -> set_bounds E w j l u = Ok w' -> I w').
Context (I2 : forall w w', I w -> solve_dual E w = Ok w' -> I w').
Context (I3 : forall w w', I w -> Solver.separate E w = Ok w' -> I w').

Lemma bounds_world lo up l : incl l (order E) -> forall w w', I w ->
  foldM (fun w col => do l <- at_ lo col ; do u <- at_ up col ; check_ok (set_bounds E w col l u)) w l = Ok w' -> I w'.
Proof using I1.
  induction l as [|j l IH]; intros SUB w w' H K; cbn [foldM] in K; [injection K as <-; exact H|].
  apply bind_ok in K as (w1 & K1 & K). apply bind_ok in K1 as (a & _ & K1). apply bind_ok in K1 as (b & _ & K1).
  apply check_ok_ok in K1. apply incl_cons_inv in SUB as [S1 S2]. exact (IH S2 w1 w' (I1 w j a b w1 H S1 K1) K).
Qed.
Lemma node_world t n w w' : I w -> solve_node E t n w = Ok w' -> I w'.
Proof using I1 I2 I3.
  intros H K. unfold solve_node in K. apply bind_ok in K as (lo & _ & K). apply bind_ok in K as (up & _ & K).
  apply bind_ok in K as (w1 & K1 & K). apply bounds_world in K1; [|apply incl_refl|exact H].
  apply bind_ok in K as (w2 & K2 & K). apply check_ok_ok in K2. apply I2 in K2; [|exact K1].
  destruct (is_optimal E w2); [|injection K as <-; exact K2]. apply check_ok_ok in K. exact (I3 w2 w' K2 K).
Qed.
Lemma round_world s v : I (Solver.world s) -> solver_round E s = Ok v -> I (Solver.world (state_of v)).
Proof using I1 I2 I3.
  intros H K. unfold solver_round in K. apply bind_ok in K as ([n q] & _ & K).
  apply bind_ok in K as (w & K1 & K). apply node_world in K1; [|exact H].
  destruct (negb (is_optimal E w)).
  - destruct (n =? 0); [discriminate K|]. apply bind_ok in K as (t & _ & K).
    destruct (_ <? _); injection K as <-; exact K1.
  - apply bind_ok in K as (t & _ & K). apply bind_ok in K as (x & _ & K). apply bind_ok in K as (b & _ & K).
    destruct b.
    + destruct (n =? 0); injection K as <-; exact K1.
    + apply bind_ok in K as ([j uf] & _ & K). apply bind_ok in K as (y & _ & K).
      apply bind_ok in K as ([t1 dn] & _ & K). apply bind_ok in K as ([t2 up] & _ & K). injection K as <-. exact K1.
Qed.
Lemma visits_world w0 s : I w0 -> visits E w0 s -> I (Solver.world s).
Proof using I1 I2 I3. intros H. induction 1 as [|s s' V IH Q K]; [exact H|]. exact (round_world s (Continue s') IH K). Qed.
Lemma loop_world fuel : forall s s', I (Solver.world s) -> solve_loop E fuel s = Ok s' -> I (Solver.world s').
Proof using I1 I2 I3.
  induction fuel as [|fuel IH]; intros s s' H K; cbn [solve_loop] in K.
  - destruct (queue s); [injection K as <-; exact H|discriminate K].
  - destruct (queue s); [injection K as <-; exact H|]. apply bind_ok in K as (v & K1 & K).
    apply round_world in K1; [|exact H]. destruct v as [s1|s1]; [exact (IH s1 s' K1 K)|injection K as <-; exact K1].
Qed.
End Loop.

(** The rounds a runner has made since it was new. *)
Definition rounds_made {W} (limit : Z) (w : runner_state W) (rounds : list (list cut)) : Prop :=
  Forall (fun l => l <> []) rounds /\ Z.of_nat (length rounds) <= Z.max 0 limit /\
  num_cutrounds w = Z.of_nat (length rounds) /\ num_of_cuts_added_since_last_run w = 0 /\
  cuts (reg w) = concat rounds /\ active_cuts (reg w) = [] /\ in_step (cuts (reg w)) /\
  calls w = concat (map round_calls rounds).

Lemma config_limits E X p0 mx flag pb u (c : config E X) : Params.Create (E := E) (X := X) p0 mx flag pb u = Ok c ->
  rc_limits (cf_runner c) = wanted_limits u.
Proof.
  intros H. unfold Params.Create in H. destruct (FindError pb); [discriminate H|].
  apply bind_ok in H as (l & _ & H). destruct (merged_runner u) as (lim & ML & Lim). rewrite ML in H.
  apply bind_ok in H as (r & R & H). apply bind_ok in H as (b & _ & H). injection H as <-.
  unfold CreateCutRunner in R. cbn [rm_default] in R. unfold DefaultRunner in R.
  apply bind_ok in R as (s1 & _ & R). apply bind_ok in R as (s2 & _ & R). injection R as <-. exact Lim.
Qed.

Lemma whole_rounds_by E X G p0 mx flag sort draw (make : list rounder * Z -> generator (E := E) (X := X) G) g order p u e w0 :
  CreateSolver G p0 mx flag sort draw make g order p u = Ok (e, w0) ->
  let limit := max_iterations (wanted_limits u) in
  (forall s, visits e w0 s -> exists rounds, rounds_made limit (Solver.world s) rounds) /\
  (forall fuel s, Solve e fuel w0 = Ok s -> exists rounds, rounds_made limit (Solver.world s) rounds).
Proof.
  intros H limit. unfold CreateSolver in H. destruct (FindError p); [discriminate H|].
  apply bind_ok in H as (d & _ & H). apply bind_ok in H as (c & C & H). apply bind_ok in H as (l & _ & H).
  apply config_limits in C. injection H as <- <-.
  set (e := whole_env G sort draw make c d order).
  set (I := fun w : whole (E := E) (X := X) G => exists rounds, rounds_made limit w rounds).
  assert (ON : forall f w w', I w -> on_whole G f w = Ok w' -> I w').
  { intros f w w' Hw K. unfold on_whole in K. apply bind_ok in K as (x & _ & K). injection K as <-. exact Hw. }
  assert (I1 : forall w j l u w', I w -> In j (Solver.order e) -> set_bounds e w j l u = Ok w' -> I w') by (intros w j a b w' Hw _; apply ON; exact Hw).
  assert (I2 : forall w w', I w -> solve_dual e w = Ok w' -> I w') by (intros w w' Hw; apply ON; exact Hw).
  assert (I3 : forall w w', I w -> Solver.separate e w = Ok w' -> I w').
  { intros w w' (r & A1 & A2 & A3 & A4 & A5 & A6 & A7 & A8) K. cbn [Solver.separate e whole_env] in K.
    unfold run_separation, Separate in K. apply separate_ok in K as (r1 & B1 & B2 & B3 & B4 & B5 & B6 & B7 & B8).
    rewrite C in B3. exists (r ++ r1). split; [apply Forall_app; auto|].
    assert (N : num_cutrounds w' = Z.of_nat (length (r ++ r1))) by (rewrite app_length; lia).
    split; [|split; [exact N|]].
    - rewrite <- N. destruct r1; [cbn in B2; lia|]. assert (num_cutrounds w' <= limit) by (apply B3; discriminate). lia.
    - split; [lia|]. split; [rewrite B5, A5, concat_app; reflexivity|]. split; [congruence|]. split; [exact (B8 A7)|].
      rewrite B7, A8, map_app, concat_app. reflexivity. }
  assert (I0 : I (mkRS 0 0 reg_new [] (l, g))).
  { exists []. split; [constructor|]. split; [cbn; lia|]. split; [reflexivity|]. split; [reflexivity|]. split; [reflexivity|].
    split; [reflexivity|]. split; [|reflexivity]. intros i x N. destruct i; discriminate N. }
  split.
  - intros s V. exact (visits_world e I I1 I2 I3 _ s I0 V).
  - intros fuel s K. exact (loop_world e I I1 I2 I3 fuel (solve_start (mkRS 0 0 reg_new [] (l, g))) s I0 K).
Qed.

Lemma whole_rounds E X G p0 mx flag sort draw (make : list rounder * Z -> generator (E := E) (X := X) G)
    g order p u e w0 s :
  CreateSolver G p0 mx flag sort draw make g order p u = Ok (e, w0) ->
  visits e w0 s \/ (exists fuel, Solve e fuel w0 = Ok s) ->
  exists rounds, Forall (fun l => l <> []) rounds /\
    Z.of_nat (List.length rounds) <= Z.max 0 (max_iterations (wanted_limits u)) /\
    cuts (reg (Solver.world s)) = concat rounds /\ in_step (cuts (reg (Solver.world s))) /\
    calls (Solver.world s) = concat (map round_calls rounds) /\
    num_cutrounds (Solver.world s) = Z.of_nat (List.length rounds) /\
    num_of_cuts_added_since_last_run (Solver.world s) = 0 /\ active_cuts (reg (Solver.world s)) = [].
Proof.
  intros H K. apply whole_rounds_by in H as [A B].
  assert (R : exists rounds, rounds_made (max_iterations (wanted_limits u)) (Solver.world s) rounds).
  { destruct K as [V|[fuel V]]; [exact (A s V)|exact (B fuel s V)]. }
  destruct R as (r & R1 & R2 & R3 & R4 & R5 & R6 & R7 & R8). exists r. auto 10.
Qed.
