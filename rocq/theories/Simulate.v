(** Two environments of the branch-and-bound loop that answer alike along a run give the same
    run.  Used to restrict an environment to the states that satisfy an invariant. *)
From Coq Require Import String List ZArith Bool.
From Verif Require Import Outcome OutcomeFacts Num Double Problem MipData MipTree Branching Solver SolverSpec.
Import ListNotations.
Open Scope Z_scope.

Definition omap {A B} (f : A -> B) (x : outcome A) : outcome B := do a <- x ; Ok (f a).

Lemma omap_ok {A B} (f : A -> B) x b : omap f x = Ok b <-> exists a, x = Ok a /\ f a = b.
Proof.
  split.
  - intros H. apply bind_ok in H as (a & A1 & A2). injection A2 as <-. eauto.
  - intros (a & -> & <-). reflexivity.
Qed.
Lemma omap_err {A B} (f : A -> B) x c : omap f x = Err c <-> x = Err c.
Proof. destruct x; cbn; split; intros H; try discriminate H; auto; injection H as <-; auto. Qed.
Lemma omap_fuel {A B} (f : A -> B) x : omap f x = Fuel <-> x = Fuel.
Proof. destruct x; cbn; split; intros H; try discriminate H; auto. Qed.

Section Sim.
Context {W1 W2 : Type} (E1 : env W1) (E2 : env W2) (f : W2 -> W1).

Record simulates : Prop := {
  sim_data : data E1 = data E2;
  sim_tol : tolerance E1 = tolerance E2;
  sim_back : backtrack_limit E1 = backtrack_limit E2;
  sim_order : order E1 = order E2;
  sim_set : forall w j l u, In j (order E2) -> set_bounds E1 (f w) j l u = omap f (set_bounds E2 w j l u);
  sim_solve : forall w, solve_dual E1 (f w) = omap f (solve_dual E2 w);
  sim_solved : forall w w', solve_dual E2 w = Ok w' -> is_optimal E1 (f w') = is_optimal E2 w';
  sim_separate : forall w, is_optimal E2 w = true -> separate E1 (f w) = omap f (separate E2 w);
  sim_separated : forall w w', is_optimal E2 w = true -> separate E2 w = Ok w' ->
    is_optimal E1 (f w') = is_optimal E2 w';
  sim_objective : forall w, objective_value E1 (f w) = objective_value E2 w;
  sim_primal : forall w, primal_values E1 (f w) = primal_values E2 w;
  sim_branch : forall w, branch E1 (f w) = branch E2 w }.
Hypothesis S : simulates.

Definition smap (s : solver_state W2) : solver_state W1 :=
  mkSS (queue s) (backjump s) (infeasible_run s) (mip_tree s) (res s) (status s) (f (world s)) (explored s).
Definition vmap (v : verdict W2) : verdict W1 :=
  match v with Continue s => Continue (smap s) | Break s => Break (smap s) end.

Lemma sim_fold lo up l : (forall j, In j l -> In j (order E2)) -> forall w,
  foldM (fun w col => do a <- at_ lo col ; do b <- at_ up col ; check_ok (set_bounds E1 w col a b)) (f w) l =
  omap f (foldM (fun w col => do a <- at_ lo col ; do b <- at_ up col ; check_ok (set_bounds E2 w col a b)) w l).
Proof.
  induction l as [|c l IH]; intros IN w; [reflexivity|]. cbn [foldM].
  destruct (at_ lo c); cbn [bind omap]; auto. destruct (at_ up c); cbn [bind omap]; auto.
  rewrite (sim_set S) by (apply IN; left; auto).
  destruct (set_bounds E2 w c _ _); cbn [omap bind check_ok]; auto. apply IH. intros j J. apply IN. right. auto.
Qed.

Lemma sim_node t n w : solve_node E1 t n (f w) = omap f (solve_node E2 t n w) /\
  forall w', solve_node E2 t n w = Ok w' -> is_optimal E1 (f w') = is_optimal E2 w'.
Proof.
  unfold solve_node, set_node_bounds. rewrite (sim_data S), (sim_order S).
  destruct (RetrieveLower _ _ _) as [lo| | | |]; cbn [bind omap]; try (split; [reflexivity|intros ? H; discriminate H]).
  destruct (RetrieveUpper _ _ _) as [up| | | |]; cbn [bind omap]; try (split; [reflexivity|intros ? H; discriminate H]).
  rewrite sim_fold by auto.
  destruct (foldM _ w _) as [w1| | | |]; cbn [bind omap]; try (split; [reflexivity|intros ? H; discriminate H]).
  rewrite (sim_solve S). destruct (solve_dual E2 w1) as [w2| | | |] eqn:D; cbn [bind omap check_ok];
    try (split; [reflexivity|intros ? H; discriminate H]).
  pose proof (sim_solved S _ _ D) as O. rewrite O. destruct (is_optimal E2 w2) eqn:O2.
  - rewrite (sim_separate S _ O2). destruct (separate E2 w2) as [w3| | | |] eqn:P; cbn [bind omap check_ok];
      try (split; [reflexivity|intros ? H; discriminate H]).
    split; [reflexivity|]. intros w' H. injection H as <-. apply (sim_separated S _ _ O2 P).
  - split; [reflexivity|]. intros w' H. injection H as <-. congruence.
Qed.

Lemma sim_round s : solver_round E1 (smap s) = omap vmap (solver_round E2 s).
Proof.
  unfold solver_round. cbn [smap queue backjump mip_tree world res status infeasible_run explored].
  destruct (take (backjump s) (queue s)) as [[n q]| | | |]; cbn [bind omap]; auto.
  destruct (sim_node (mip_tree s) n (world s)) as [N1 N2]. rewrite N1.
  destruct (solve_node E2 (mip_tree s) n (world s)) as [w| | | |]; cbn [bind omap]; auto.
  rewrite (N2 w eq_refl). destruct (is_optimal E2 w); cbn [negb].
  - rewrite (sim_objective S). destruct (SetLp _ _ _) as [t| | | |]; cbn [bind omap]; auto.
    rewrite (sim_primal S). destruct (primal_values E2 w) as [x| | | |]; cbn [bind omap check_ok]; auto.
    rewrite (sim_order S), (sim_tol S). destruct (SolutionIsIntegral _ _ _) as [b| | | |]; cbn [bind omap]; auto.
    destruct b.
    + destruct (n =? 0); reflexivity.
    + rewrite (sim_branch S). destruct (branch E2 w) as [[j u]| | | |]; cbn [bind omap check_ok]; auto.
      destruct (at_ x j) as [v| | | |]; cbn [bind omap]; auto.
      destruct (AddNode _ _ _ true _) as [[t1 a]| | | |]; cbn [bind omap]; auto.
      destruct (AddNode t1 _ _ _ _) as [[t2 b]| | | |]; cbn [bind omap]; auto.
  - destruct (n =? 0); [reflexivity|]. destruct (CloseNode _ _) as [t| | | |]; cbn [bind omap]; auto.
    rewrite (sim_back S). destruct (_ <? _); reflexivity.
Qed.

Lemma sim_visits w0 s : visits E2 w0 s -> visits E1 (f w0) (smap s).
Proof.
  induction 1 as [|s s' V IH Q R]; [apply visits_start|].
  apply (visits_step E1 (f w0) (smap s)); [exact IH|exact Q|]. rewrite sim_round, R. reflexivity.
Qed.

Lemma sim_loop fuel : forall s, solve_loop E1 fuel (smap s) = omap smap (solve_loop E2 fuel s).
Proof.
  induction fuel as [|k IH]; intros s.
  - cbn [solve_loop]. change (queue (smap s)) with (queue s). destruct (queue s); reflexivity.
  - cbn [solve_loop]. change (queue (smap s)) with (queue s). rewrite sim_round.
    destruct (queue s); [reflexivity|].
    destruct (solver_round E2 s) as [v| | | |]; cbn [omap bind]; auto.
    destruct v as [s'|s']; cbn [vmap]; [apply IH|reflexivity].
Qed.

Lemma sim_Solve fuel w : Solve E1 fuel (f w) = omap smap (Solve E2 fuel w).
Proof. exact (sim_loop fuel (solve_start w)). Qed.
End Sim.

(** *** Restriction to an invariant *)
Section Restrict.
Context {W : Type} (I : W -> Prop).
Definition kept : Type := { w | I w }.
Definition lift (x : outcome W) : (forall w, x = Ok w -> I w) -> outcome kept :=
  match x with
  | Ok w => fun H => Ok (exist _ w (H w eq_refl))
  | Err c => fun _ => Err c
  | Abort => fun _ => Abort
  | UB => fun _ => UB
  | Fuel => fun _ => Fuel
  end.
Lemma lift_omap x H : omap (@proj1_sig W I) (lift x H) = x.
Proof. destruct x; reflexivity. Qed.
Lemma lift_ok x H w : lift x H = Ok w -> x = Ok (proj1_sig w).
Proof. intros L. rewrite <- (lift_omap x H), L. reflexivity. Qed.
End Restrict.
