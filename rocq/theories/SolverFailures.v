(** Proofs for C94: what Solve() does when a call it makes fails. *)
From Coq Require Import String List ZArith Bool QArith Lia Permutation.
From Verif Require Import Outcome Num Double DoubleFacts Rounding Problem MipData ProblemSpec MipTree
  TreeSpec Branching Solver SolverSpec SolverProofs SolverCases.
Import ListNotations.
Open Scope Z_scope.

Section Failures.
Context {W : Type} (E : env W) (p : problem) (OK : env_ok E p) (w0 : W) (BO : branch_ok E).

Lemma taken_leaf s n : visits E w0 s -> takes s n ->
  tree_ok (num_vars p) (mip_tree s) /\ leaf (mip_tree s) n.
Proof.
  intros V [q TK]. destruct (inv_visits E p OK w0 s BO V) as (T & _ & LF & _). split; [exact T|].
  apply LF. eapply Permutation_in; [apply Permutation_sym, (take_perm _ _ _ _ TK)|cbn; auto].
Qed.

Lemma node_failure_aborts s n : visits E w0 s -> takes s n ->
  solve_node E (mip_tree s) n (world s) = Abort -> solver_round E s = Abort.
Proof. intros V [q TK] H. unfold solver_round. rewrite TK. cbn [bind]. rewrite H. reflexivity. Qed.

Lemma solve_failure s n lo up w1 c : visits E w0 s -> takes s n ->
  RetrieveLower (mip_tree s) n (lower_bounds (data E)) = Ok lo ->
  RetrieveUpper (mip_tree s) n (upper_bounds (data E)) = Ok up ->
  set_node_bounds E (world s) lo up = Ok w1 ->
  solve_dual E w1 = Err c \/
  (exists w2, solve_dual E w1 = Ok w2 /\ is_optimal E w2 = true /\ separate E w2 = Err c) ->
  solver_round E s = Abort.
Proof.
  intros V TK L U B H. apply (node_failure_aborts s n V TK). unfold solve_node.
  rewrite L, U. cbn [bind]. rewrite B. cbn [bind]. destruct H as [->|(w2 & -> & O & S)]; [reflexivity|].
  cbn [check_ok bind]. rewrite O, S. reflexivity.
Qed.

Lemma answer_failure s n w c : visits E w0 s -> takes s n ->
  solve_node E (mip_tree s) n (world s) = Ok w -> is_optimal E w = true ->
  primal_values E w = Err c \/
  (exists x, primal_values E w = Ok x /\ SolutionIsIntegral (order E) x (tolerance E) = Ok false /\
     branch E w = Err c) ->
  solver_round E s = Abort.
Proof.
  intros V TK S O H. destruct (taken_leaf s n V TK) as [T LF]. destruct TK as [q TK].
  destruct (setlp_step (num_vars p) _ n (objective_value E w) T LF) as (t & SL & _).
  unfold solver_round. rewrite TK. cbn [bind]. rewrite S. cbn [bind]. rewrite O. cbn [negb]. rewrite SL. cbn [bind].
  destruct H as [->|(x & -> & IX & B)]; [reflexivity|]. cbn [check_ok bind]. rewrite IX. cbn [bind]. rewrite B. reflexivity.
Qed.

Lemma visits_loop_abort s fuel : visits E w0 s -> queue s <> [] -> solver_round E s = Abort ->
  solve_loop E (S fuel) s = Abort.
Proof. intros V Q R. cbn [solve_loop]. destruct (queue s); [congruence|]. rewrite R. reflexivity. Qed.

Lemma visits_solve s : visits E w0 s -> exists k, forall fuel, Solve E (k + fuel) w0 = solve_loop E fuel s.
Proof.
  induction 1 as [|s s' V [k IH] Q R]; [exists 0%nat; reflexivity|].
  exists (k + 1)%nat. intros fuel. replace (k + 1 + fuel)%nat with (k + S fuel)%nat by lia. rewrite IH.
  cbn [solve_loop]. destruct (queue s); [congruence|]. rewrite R. reflexivity.
Qed.

Lemma round_abort_solve s : visits E w0 s -> queue s <> [] -> solver_round E s = Abort ->
  exists k, forall fuel, Solve E (k + fuel) w0 = Abort.
Proof.
  intros V Q R. destruct (visits_solve s V) as [k H]. exists (k + 1)%nat. intros fuel.
  replace (k + 1 + fuel)%nat with (k + S fuel)%nat by lia. rewrite H. apply visits_loop_abort; auto.
Qed.

Lemma takes_queue (s : solver_state W) n : takes s n -> queue s <> [].
Proof. intros [q TK] Q. unfold take in TK. rewrite Q in TK. destruct (backjump s); discriminate. Qed.

(** A call that Solve() makes in state [s], or would make, fails. *)
Lemma failure_aborts s n c : visits E w0 s -> takes s n ->
  (exists lo up w1,
     RetrieveLower (mip_tree s) n (lower_bounds (data E)) = Ok lo /\
     RetrieveUpper (mip_tree s) n (upper_bounds (data E)) = Ok up /\
     set_node_bounds E (world s) lo up = Ok w1 /\
     (solve_dual E w1 = Err c \/
      exists w2, solve_dual E w1 = Ok w2 /\ is_optimal E w2 = true /\ separate E w2 = Err c)) \/
  (exists w, solve_node E (mip_tree s) n (world s) = Ok w /\ is_optimal E w = true /\
     (primal_values E w = Err c \/
      exists x, primal_values E w = Ok x /\ SolutionIsIntegral (order E) x (tolerance E) = Ok false /\
        branch E w = Err c)) ->
  exists k, forall fuel, Solve E (k + fuel) w0 = Abort.
Proof.
  intros V TK H. apply (round_abort_solve s V (takes_queue s n TK)).
  destruct H as [(lo & up & w1 & L & U & B & H)|(w & S & O & H)].
  - exact (solve_failure s n lo up w1 c V TK L U B H).
  - exact (answer_failure s n w c V TK S O H).
Qed.
End Failures.

(** The LP of [env_a] with an LP solver that always fails. *)
Definition env_failing (c : code) : env toy :=
  mkEnv toy (set_bounds env_a) (fun _ => Err c) (is_optimal env_a) (objective_value env_a) (primal_values env_a)
    (separate env_a) (branch env_a) (data env_a) (tolerance env_a) (backtrack_limit env_a) (order env_a).
Lemma failing_ok c : env_ok (env_failing c) p_a.
Proof. destruct env_a_ok as [A B C D]. split; [exact A|exact B|exact C|exact D]. Qed.
Lemma failing_branch c : branch_ok (env_failing c).
Proof. exact env_a_branch. Qed.
Lemma failing_aborts c fuel : Solve (env_failing c) (S fuel) toy_start = Abort.
Proof. vm_compute. reflexivity. Qed.
