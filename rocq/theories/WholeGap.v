(** An integer variable with a fractional bound, and SoPlex as the LP solver. *)
From Coq Require Import String List ZArith Bool QArith Lia SpecFloat.
From Verif Require Import Outcome OutcomeFacts Num Double DoubleFacts Rounding SparseVector VectorSpec Aggregation
  Problem MipData ProblemSpec CutsData Selector Runner CutSpec CutProofs LpParams GlopLp GlopIface GlopSpec
  GlopProofs SoplexIface Branching Params ReaderSpec Solver SolverSpec SolverCases GlopCases SoplexCases
  Whole WholeSpec WholeTables SolverProofs WholeCases.
Import ListNotations.
Open Scope Z_scope.
Open Scope string_scope.

(** Maximise x in [0, 3/2] with x <= 2 and x integer *)
Definition p_gap : problem :=
  mkProblem "g" [mkVar "x" d1 d0 (ddiv (dint 3) (dint 2)) true] [mkCon "r" [0] [d1] dminf (dint 2)] [] true d0.
Definition gap_of (k : solver_type) :=
  CreateSolver (E := line true) (X := xline true) unit spx_start false false (fun l => fold_right insert_cut' [] l)
    (fun _ _ => 0) make_two tt [0] p_gap (asking k without_cuts).
Lemma p_gap_proper : proper_problem p_gap.
Proof.
  constructor.
  - split.
    + constructor; [|constructor]. split; [discriminate|reflexivity].
    + constructor; [|constructor]. split; [discriminate|]. cbn [c_idx c_coef c_lhs c_rhs num_vars p_gap p_vars length].
      split; [constructor; [cbn; lia|constructor]|]. split; [constructor; [intros []|constructor]|]. auto.
  - repeat constructor.
  - repeat constructor.
  - repeat constructor.
  - repeat constructor.
Qed.
Lemma p_gap_bounded : bounded_integers p_gap.
Proof. repeat constructor. Qed.
Lemma p_gap_visits : visits_integers p_gap [0].
Proof.
  split; [repeat constructor; intros []|]. intros j. split.
  - intros [<-|[]]. eexists. split; reflexivity.
  - intros (v & A & _). unfold nth_var in A. destruct (Z.ltb_spec j 0) as [L|L]; [discriminate|].
    destruct (Z.to_nat j) as [|n] eqn:N; [left; lia|destruct n; discriminate].
Qed.
Lemma gap_glop : outcome_of (gap_of LP_GLOP) 5 = Ok (mkSol [d1] (dint (-1)), [0; 2; 1], []).
Proof. calc. Qed.
Definition made_ok {A} (o : outcome A) : bool := match o with Ok _ => true | _ => false end.
Lemma gap_made : made_ok (gap_of LP_SOPLEX) = true.
Proof. calc. Qed.
Lemma gap_soplex fuel : outcome_of (gap_of LP_SOPLEX) (S (S fuel)) = Abort.
Proof. calc. Qed.
Lemma aborts {G E X} (x : outcome (env (whole (E := E) (X := X) G) * whole (E := E) (X := X) G)) : made_ok x = true ->
  (forall fuel, outcome_of x (S (S fuel)) = Abort) ->
  exists e w, x = Ok (e, w) /\ forall fuel, (2 <= fuel)%nat -> Solve e fuel w = Abort.
Proof.
  destruct x as [[e w]| | | |]; try discriminate. intros _ H. exists e, w. split; [reflexivity|].
  intros [|[|fuel]] F; [lia|lia|]. specialize (H fuel). unfold outcome_of in H. cbn [bind] in H.
  destruct (Solve e (S (S fuel)) w); try discriminate H. reflexivity.
Qed.
Lemma gap_aborts : exists e w, gap_of LP_SOPLEX = Ok (e, w) /\ forall fuel, (2 <= fuel)%nat -> Solve e fuel w = Abort.
Proof. exact (aborts (gap_of LP_SOPLEX) gap_made gap_soplex). Qed.
Lemma p_w_whole : whole_bounds p_w.
Proof.
  constructor; [|constructor]. intros _. split; [exists 0; reflexivity|exists 3; reflexivity].
Qed.
Lemma xline_eps ok : finite_double (x_eps_zero (xline ok)) /\ 0 <= zval (x_eps_zero (xline ok)).
Proof. split; [split; reflexivity|cbn; lia]. Qed.

Lemma gap_refutes : exists E X G p0 mx flag sort draw
    (make : list rounder * Z -> generator (E := E) (X := X) G) g order p u e w0,
  (plain_spx X /\ spx_inside X /\ spx_runs X /\ finite_double (x_eps_zero X) /\ 0 <= zval (x_eps_zero X) /\
   proper_problem p /\ bounded_integers p /\ plain_request u /\ wanted_solver u = LP_SOPLEX /\
   sorts sort /\ visits_integers p order /\ no_cuts u /\
   CreateSolver G p0 mx flag sort draw make g order p u = Ok (e, w0)) /\
  (exists fuel0, forall fuel, (fuel0 <= fuel)%nat -> Solve e fuel w0 = Abort) /\
  (exists u' e' w0' s, wanted_solver u' = LP_GLOP /\
     CreateSolver G p0 mx flag sort draw make g order p u' = Ok (e', w0') /\
     Solve e' 5 w0' = Ok s /\ best (res s) = mkSol [d1] (dint (-1))).
Proof.
  destruct gap_aborts as (e & w & C & A).
  destruct (outcome_of_ok _ _ _ _ _ gap_glop) as (e' & w' & s & C' & S & B & _).
  exists (line true), (xline true), unit, spx_start, false, false, (fun l => fold_right insert_cut' [] l),
    (fun _ _ => 0), make_two, tt, [0], p_gap, (asking LP_SOPLEX without_cuts), e, w.
  split; [|split].
  - split; [apply xline_plain|]. split; [apply xline_inside|]. split; [exact xline_runs|].
    destruct (xline_eps true) as [E1 E2]. split; [exact E1|]. split; [exact E2|].
    split; [exact p_gap_proper|]. split; [exact p_gap_bounded|].
    split; [exact (asking_plain LP_SOPLEX without_cuts eq_refl without_plain)|].
    split; [exact (asking_wanted LP_SOPLEX without_cuts eq_refl)|]. split; [exact insertion_sorts|].
    split; [exact p_gap_visits|]. split; [discriminate|exact C].
  - exists 2%nat. exact A.
  - exists (asking LP_GLOP without_cuts), e', w', s. split; [exact (asking_wanted LP_GLOP without_cuts eq_refl)|].
    split; [exact C'|]. split; [exact S|exact B].
Qed.
