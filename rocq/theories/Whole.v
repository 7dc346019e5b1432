(** The solver put together: Solver::Create and Solver::Solve (solver.{h,cc}) with the Glop or the
    SoPlex interface (lpi_glop.cc, lpi_soplex.cc), the default cut runner (default_runner.cc) with
    the hybrid selector (hybrid_selector.cc) and the branching rules.  All of these are the models
    of the other files; what is left open is the LP engines, the inside of the cut generators,
    std::sort, the iteration order of the hash set of integer variables, and the random numbers. *)
From Coq Require Import String List ZArith Bool.
From Verif Require Import Outcome Num Double SparseVector Problem MipData MipTree CutsData Selector Runner
  Aggregation LpParams GlopLp GlopIface SoplexIface Branching Params Solver.
Import ListNotations.
Open Scope Z_scope.

Section Whole.
Context {E : engine} {X : spx_engine}.
(** The inner state of the cut generators and of the random number generator. *)
Variable G : Type.

(** The virtual functions of LpInterface (lpi.h) that the solver calls: the object behind the
    pointer is a Glop or a SoPlex interface. *)
Local Notation LPI := (lpi E X).
Definition lpi_step (l : LPI) (c : call) : outcome LPI :=
  match l with
  | GlopLpi s => do (s, _) <- gstep s c ; Ok (GlopLpi s)
  | SoplexLpi s => do (s, _) <- sstep s c ; Ok (SoplexLpi s)
  end.
(** The calls of SetColumnBounds, AddRow and SolveLpWithDualSimplex. *)
Definition set_column (l : LPI) (j : Z) (lo hi : double) : outcome LPI :=
  lpi_step l (CSetColumnBounds j lo hi).
Definition add_lp_row (l : LPI) (v : svec num_double) (lo hi : double) (n : string) : outcome LPI :=
  lpi_step l (CAddRow v lo hi n).
Definition dual_simplex (l : LPI) : outcome LPI :=
  match l with
  | GlopLpi s => do (s, ok) <- SolveLp true s ; if (ok : bool) then Ok (GlopLpi s) else Err Internal
  | SoplexLpi s => do (s, ok) <- SpxSolveLp true s ; if (ok : bool) then Ok (SoplexLpi s) else Err Internal
  end.
Definition lpi_solved (l : LPI) : bool :=
  match l with GlopLpi s => IsSolved s | SoplexLpi s => SpxIsSolved s end.
(** The CHECK in IsOptimal of the SoPlex interface cannot fail (C75_optimal). *)
Definition lpi_optimal (l : LPI) : bool :=
  match l with
  | GlopLpi s => IsOptimal s
  | SoplexLpi s => match SpxIsOptimal s with Ok b => b | _ => false end
  end.
Definition lpi_objective (l : LPI) : double :=
  match l with GlopLpi s => GetObjectiveValue s | SoplexLpi s => SpxGetObjectiveValue s end.
Definition lpi_primal (l : LPI) : outcome (list double) :=
  match l with GlopLpi s => Ok (GetPrimalValues s) | SoplexLpi s => SpxGetPrimalValues s end.
(** The seven predicates of default_runner.cc:41-47. *)
Definition lpi_stops (l : LPI) : bool :=
  match l with
  | GlopLpi s =>
      IsPrimalInfeasible s || IsPrimalUnbounded s || IsDualInfeasible s || IsDualUnbounded s ||
      TimeLimitIsExceeded s || IterationLimitIsExceeded s || ObjectiveLimitIsExceeded s
  | SoplexLpi s =>
      SpxIsPrimalInfeasible s || SpxIsPrimalUnbounded s || SpxIsDualInfeasible s || SpxIsDualUnbounded s ||
      SpxTimeLimitIsExceeded s || SpxIterationLimitIsExceeded s || SpxObjectiveLimitIsExceeded s
  end.

(** GenerateCuttingPlanes (cuts_generator.h:37-41): the context, hence the LP, is const to it. *)
Definition generator : Type := G -> registry -> LPI -> outcome (list cut * G).

(** The runner with the LP and [G] behind it. *)
Definition whole : Type := runner_state (LPI * G).
Definition lp_of (w : whole) : LPI := fst (Runner.world w).

(** The calls on the LP inside the whole. *)
Definition on_lp (f : LPI -> outcome LPI) (x : LPI * G) : outcome (LPI * G) :=
  do s <- f (fst x) ; Ok (s, snd x).
Definition on_whole (f : LPI -> outcome LPI) (w : whole) : outcome whole :=
  do x <- on_lp f (Runner.world w) ;
  Ok (mkRS (num_cutrounds w) (num_of_cuts_added_since_last_run w) (reg w) (calls w) x).

Definition stops (x : LPI * G) : bool := lpi_stops (fst x).

(** A generator and the selector as the runner calls them. *)
Definition run_generator (g : generator) (r : registry) (x : LPI * G)
  : outcome (list cut * (LPI * G)) :=
  do (cs, y) <- g (snd x) r (fst x) ; Ok (cs, (fst x, y)).
Definition run_selector (sort : list cut -> list cut) (p : selector_params) (r : registry)
  (x : LPI * G) (cs : list cut) : outcome (list cut * (LPI * G)) :=
  do fs <- SelectCuttingPlanes sort p cs ; Ok (fs, x).

Definition run_separation (sort : list cut -> list cut) (gens : list generator)
  (sp : selector_params) (rp : runner_params) (w : whole) : outcome whole :=
  Separate (LPI * G) stops (fun x => lpi_solved (fst x)) (map run_generator gens)
    (run_selector sort sp) (fun x v l u n => on_lp (fun s => add_lp_row s v l u n) x)
    (on_lp dual_simplex) rp w.

(** The rules (branching_factory.h:25-34); [draw w n] is the number from 0 .. n-1 that the random
    number generator gives in state [w] (it is seeded anew for each call). *)
Definition next_branching (draw : whole -> Z -> Z) (c : config E X) (d : mip_data) (order : list Z)
  (w : whole) : outcome branching_variable :=
  match cf_rule c with
  | (UseMaxFractional, dir) =>
      do x <- check_ok (lpi_primal (lp_of w)) ; MaxFractional dir (cf_integrality c) order x
  | (UseRandom, dir) => RandomBranching dir (draw w) (integer_variables d)
  end.

(** The members of the solver as Solve() uses them. *)
Definition whole_env (sort : list cut -> list cut) (draw : whole -> Z -> Z)
  (make : list rounder * Z -> generator) (c : config E X) (d : mip_data) (order : list Z) : env whole :=
  mkEnv whole (fun w j l u => on_whole (fun s => set_column s j l u) w)
    (on_whole dual_simplex)
    (fun w => lpi_optimal (lp_of w))
    (fun w => lpi_objective (lp_of w))
    (fun w => lpi_primal (lp_of w))
    (run_separation sort (map make (rc_generators (cf_runner c))) (rc_selector (cf_runner c))
       (rc_limits (cf_runner c)))
    (next_branching draw c d order)
    d (cf_integrality c) (cf_backtrack c) order.

(** Solver::Create (solver.h:38-73).  [make] builds a generator from its configuration, [g] is the
    initial inner state, [order] the iteration order of the integer variables. *)
Definition CreateSolver (p0 : spx_params) (maximize flag : bool) (sort : list cut -> list cut)
  (draw : whole -> Z -> Z) (make : list rounder * Z -> generator) (g : G) (order : list Z)
  (pb : problem) (user : params_msg) : outcome (env whole * whole) :=
  match FindError pb with
  | Some _ => Err InvalidArgument
  | None =>
      do d <- MipData pb ;
      do c <- Params.Create (E := E) (X := X) p0 maximize flag pb user ;
      do l <- check_ok (lpi_step (cf_lpi c) (CPopulate d)) ;
      Ok (whole_env sort draw make c d order, mkRS 0 0 reg_new [] (l, g))
  end.
End Whole.
Arguments lp_of {E X G} w.
