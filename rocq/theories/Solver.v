(** Model of minimip/solver.{h,cc}. *)
From Coq Require Import String List ZArith Bool.
From Verif Require Import Outcome Num Double Problem MipData MipTree Branching.
Import ListNotations.
Open Scope Z_scope.

(** CHECK_OK(status) and StatusOr::value(): an error aborts. *)
Definition check_ok {A} (x : outcome A) : outcome A :=
  match x with Err _ => Abort | y => y end.

(** MiniMipSolveStatus (problem.h:121-156) by its underlying values. *)
Definition solve_status := Z.
Definition kProblemInvalid : solve_status := 0.
Definition kNotSolved : solve_status := 1.
Definition kOptimal : solve_status := 2.
Definition kFeasible : solve_status := 3.
Definition kImprecise : solve_status := 4.
Definition kInfeasible : solve_status := 5.
Definition kUnbounded : solve_status := 5.
Definition kInfeasibleOrUnbounded : solve_status := 6.

(** The local variables of Solver::Solve (solver.cc:30-34) and the members it changes.
    [status] is result_.solve_status, which has no initialiser ([None]).  [world] is
    everything behind the LP interface and the cut runner.  [explored] is not in the code:
    it records the nodes taken from the queue, in order. *)
Record solver_state (W : Type) := mkSS {
  queue : list Z;
  backjump : bool;
  infeasible_run : Z;
  mip_tree : tree;
  res : result;
  status : option solve_status;
  world : W;
  explored : list Z }.
Arguments mkSS {W} _ _ _ _ _ _ _ _.
Arguments queue {W} _.
Arguments backjump {W} _.
Arguments infeasible_run {W} _.
Arguments mip_tree {W} _.
Arguments res {W} _.
Arguments status {W} _.
Arguments world {W} _.
Arguments explored {W} _.

(** What one round of the loop does: go on, or break. *)
Inductive verdict (W : Type) := Continue (s : solver_state W) | Break (s : solver_state W).
Arguments Continue {W} s.
Arguments Break {W} s.

(** Everything the loop calls or reads besides the tree and the result:
    - the LpInterface calls SetColumnBounds, SolveLpWithDualSimplex, IsOptimal,
      GetObjectiveValue, GetPrimalValues;
    - CutRunnerInterface::SeparateCurrentLPSolution, which changes the LP;
    - BranchingRuleInterface::NextBranchingVariable, a function of the state of the world (a
      random rule's generator is part of that state and may be advanced by the other calls);
    - mip_data_, the parameters integrality_tolerance and backtrack_limit, and the order in
      which the hash set of integer variables is iterated. *)
Record env (W : Type) := mkEnv {
  set_bounds : W -> Z -> double -> double -> outcome W;
  solve_dual : W -> outcome W;
  is_optimal : W -> bool;
  objective_value : W -> double;
  primal_values : W -> outcome (list double);
  separate : W -> outcome W;
  branch : W -> outcome branching_variable;
  data : mip_data;
  tolerance : double;
  backtrack_limit : Z;
  order : list Z }.
Arguments set_bounds {W} _ _ _ _ _.
Arguments solve_dual {W} _ _.
Arguments is_optimal {W} _ _.
Arguments objective_value {W} _ _.
Arguments primal_values {W} _ _.
Arguments separate {W} _ _.
Arguments branch {W} _ _.
Arguments data {W} _.
Arguments tolerance {W} _.
Arguments backtrack_limit {W} _.
Arguments order {W} _.

Section Solve.
Context {W : Type} (E : env W).

(** The loop that sets the node's bounds (solver.cc:68-71). *)
Definition set_node_bounds (w : W) (lo up : list double) : outcome W :=
  foldM (fun w col => do l <- at_ lo col ; do u <- at_ up col ;
                      check_ok (set_bounds E w col l u)) w (order E).

(** Taking a node from the queue (48-55); the queue is not empty. *)
Definition take (back : bool) (q : list Z) : outcome (Z * list Z) :=
  if back then match rev q with [] => UB | n :: r => Ok (n, rev r) end
  else match q with [] => UB | n :: r => Ok (n, r) end.

(** Solving the node's LP (62-79): bounds, solve, separation. *)
Definition solve_node (t : tree) (n : Z) (w : W) : outcome W :=
  do lo <- RetrieveLower t n (lower_bounds (data E)) ;
  do up <- RetrieveUpper t n (upper_bounds (data E)) ;
  do w1 <- set_node_bounds w lo up ;
  do w2 <- check_ok (solve_dual E w1) ;
  if is_optimal E w2 then check_ok (separate E w2) else Ok w2.

(** One round of the loop (48-151). *)
Definition solver_round (s : solver_state W) : outcome (verdict W) :=
  do (n, q) <- take (backjump s) (queue s) ;
  do w <- solve_node (mip_tree s) n (world s) ;
  let seen := explored s ++ [n] in
  if negb (is_optimal E w) then
    if n =? 0 then Err Internal
    else
      do t <- CloseNode (mip_tree s) n ;
      let k := infeasible_run s + 1 in
      if backtrack_limit E <? k
      then Ok (Continue (mkSS q true 0 t (res s) (status s) w seen))
      else Ok (Continue (mkSS q false k t (res s) (status s) w seen))
  else
    do t <- SetLp (mip_tree s) n (objective_value E w) ;
    do x <- check_ok (primal_values E w) ;
    do integral <- SolutionIsIntegral (order E) x (tolerance E) ;
    if integral then
      let r := AddSolution (res s) (mkSol x (objective_value E w)) in
      if n =? 0 then Ok (Break (mkSS q false 0 t r (status s) w seen))
      else Ok (Continue (mkSS q true 0 t r (status s) w seen))
    else
      do (j, up_first) <- check_ok (branch E w) ;
      do v <- at_ x j ;
      do (t1, down) <- AddNode t n j true v ;
      do (t2, up) <- AddNode t1 n j false v ;
      let q' := if (up_first : bool) then up :: q ++ [down] else down :: q ++ [up] in
      Ok (Continue (mkSS q' false 0 t2 (res s) (status s) w seen)).

Definition finish (s : solver_state W) : solver_state W :=
  mkSS (queue s) (backjump s) (infeasible_run s) (mip_tree s) (res s) (Some kOptimal) (world s)
    (explored s).

(** The loop (36-152) and the final assignment (153-154). *)
Fixpoint solve_loop (fuel : nat) (s : solver_state W) : outcome (solver_state W) :=
  match queue s with
  | [] => Ok (finish s)
  | _ :: _ =>
      match fuel with
      | O => Fuel
      | S fuel' =>
          do v <- solver_round s ;
          match v with
          | Continue s' => solve_loop fuel' s'
          | Break s' => Ok (finish s')
          end
      end
  end.

(** The state in which the loop of a new solver starts (28-34, MipTree(), MiniMipResult());
    [w] is the LP after PopulateFromMipData. *)
Definition solve_start (w : W) : solver_state W := mkSS [0] true 0 tree_new res_default None w [].

(** Solver::Solve (28-155) on a new solver. *)
Definition Solve (fuel : nat) (w : W) : outcome (solver_state W) := solve_loop fuel (solve_start w).
End Solve.

(** Solver::Create (solver.h:38-73).  [factories] are CreateLpSolver, CreateCutRunner and
    CreateBranchingRule, whose errors are returned; [populate] is PopulateFromMipData.
    MipData's constructor runs after the check of the problem. *)
Definition Create {W} (factories : mip_data -> outcome (env W * W))
  (populate : W -> mip_data -> outcome W) (p : problem) : outcome (env W * W) :=
  match FindError p with
  | Some _ => Err InvalidArgument
  | None =>
      do d <- MipData p ;
      do (E, w) <- factories d ;
      do w <- check_ok (populate w d) ;
      Ok (E, w)
  end.

(** absl::StatusOr<T>(const absl::Status&): an OK status is not a legal argument; in a
    release build the result is an internal error. *)
Definition status_or {A B} (x : outcome A) : outcome B :=
  match x with
  | Ok _ => Err Internal
  | Err c => Err c
  | Abort => Abort
  | UB => UB
  | Fuel => Fuel
  end.

(** minimip::Solve (solver.h:158-163): "return solver->Solve();" in a function that returns
    StatusOr<MiniMipResult>. *)
Definition SolveProblem {W} (factories : mip_data -> outcome (env W * W))
  (populate : W -> mip_data -> outcome W) (p : problem) (fuel : nat) : outcome result :=
  do (E, w) <- Create factories populate p ;
  status_or (Solve E fuel w).

(** Solver::Solve (28-155) on a solver that has been used before: [s] is its state after the last
    call.  The local variables start afresh, the members are as they were left. *)
Definition SolveAgain {W} (E : env W) (fuel : nat) (s : solver_state W) : outcome (solver_state W) :=
  solve_loop E fuel (mkSS [0] true 0 (mip_tree s) (res s) (status s) (world s) []).
