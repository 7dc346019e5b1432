(** Model of minimip/parameters_factory.h, the factories of the components, and the part of
    Solver::Create (solver.h:38-73) that chooses and configures them.

    Protocol buffer messages: an optional field is an [option], a repeated field a list, a oneof
    an [option] of a sum; a getter of an unset field returns the default of parameters.proto.
    MergeFrom follows the documentation of protobuf: set scalars overwrite, messages merge
    field by field, repeated fields are appended, a oneof is overwritten unless both sides hold
    the same member, in which case the members merge.  VLOG and LOG are not modelled. *)
From Coq Require Import String List ZArith Bool SpecFloat.
From Verif Require Import Outcome Num Double Problem LpParams Selector Runner Branching Aggregation
  Reader GlopIface SoplexIface.
Import ListNotations.
Open Scope Z_scope.

(** *** Messages (parameters.proto) *)
(** 22-26 *)
Record tableau_msg := mkTab { t_mir : option bool; t_scg : option bool }.
(** 28-36 *)
Record generator_msg := mkGen { gm_max : option Z; gm_tableau : option tableau_msg }.
(** 40-63 *)
Record hybrid_msg := mkHyb {
  h_efficacy : option double;
  h_parallelism : option double;
  h_support : option double;
  h_orthogonality : option double;
  h_orthogonality_root : option double;
  h_signed : option bool;
  h_threshold : option double;
  h_depth : option Z;
  h_max : option Z }.
(** 65-70 *)
Record selector_msg := mkSelM { sm_hybrid : option hybrid_msg }.
(** 73-78 *)
Record limits_msg := mkLim {
  l_iterations : option Z; l_total : option Z; l_root : option Z; l_node : option Z }.
(** 80-87 *)
Record runner_msg := mkRunM {
  rm_generators : list generator_msg;
  rm_selectors : list selector_msg;
  rm_default : option limits_msg }.
(** 89-114 *)
Inductive rule_msg := RandomRule (seed : option Z) | MaxFractionalRule.
Record branching_msg := mkBrM { bm_rule : option rule_msg; bm_direction : option direction }.
(** 116-207 *)
Record lp_msg := mkLpM {
  lm_solver : option solver_type;
  lm_scratch : option bool;
  lm_scaling : option scaling;
  lm_presolve : option bool;
  lm_pricing : option pricing;
  lm_feasibility : option double;
  lm_optimality : option double;
  lm_markowitz : option double;
  lm_refactorization : option Z;
  lm_lower : option double;
  lm_upper : option double;
  lm_timing : option timing;
  lm_time : option double;
  lm_iterations : option Z;
  lm_threads : option Z;
  lm_seed : option Z;
  lm_output : option bool }.
(** 209-241 *)
Record params_msg := mkPM {
  pm_integrality : option double;
  pm_numerical : option double;
  pm_lp : option lp_msg;
  pm_runner : option runner_msg;
  pm_generators : list generator_msg;
  pm_selectors : list selector_msg;
  pm_backtrack : option Z;
  pm_branching : option branching_msg }.

(** The empty messages. *)
Definition lp_empty : lp_msg :=
  mkLpM None None None None None None None None None None None None None None None None None.
Definition hybrid_empty : hybrid_msg := mkHyb None None None None None None None None None.
Definition limits_empty : limits_msg := mkLim None None None None.
Definition tableau_empty : tableau_msg := mkTab None None.
Definition params_empty : params_msg := mkPM None None None None [] [] None None.

(** *** Getters with the proto's defaults *)
Definition d1em9 : double := S754_finite false 4835703278458517 (-82).
Definition d01 : double := S754_finite false 7205759403792794 (-56).
Definition d09 : double := S754_finite false 8106479329266893 (-53).

Definition lp_params_of (m : lp_msg) : lp_params :=
  mkParams (get (lm_solver m) LP_GLOP) (get (lm_scratch m) false)
    (get (lm_scaling m) SCALING_DEFAULT) (get (lm_presolve m) true)
    (get (lm_pricing m) PRICING_DEFAULT) (get (lm_feasibility m) dm1)
    (get (lm_optimality m) dm1) (get (lm_markowitz m) dm1) (get (lm_refactorization m) 0)
    (get (lm_lower m) dminf) (get (lm_upper m) dinf) (get (lm_timing m) TIMING_OFF)
    (get (lm_time m) dinf) (get (lm_iterations m) 0) (get (lm_threads m) 0)
    (get (lm_seed m) 0) (get (lm_output m) false).
Definition selector_of (m : hybrid_msg) : selector_params :=
  mkSel (get (h_efficacy m) d1) (get (h_support m) d01) (get (h_parallelism m) d01)
    (get (h_orthogonality m) d09) (get (h_signed m) false) (get (h_threshold m) d1em6)
    (get (h_max m) (-1)).
Definition limits_of (m : limits_msg) : runner_params :=
  mkRunner (get (l_iterations m) 100) (get (l_node m) 100) (get (l_total m) 100).

(** *** MergeFrom *)
Definition over {B} (into from : option B) : option B :=
  match from with Some x => Some x | None => into end.
(** A singular message field. *)
Definition over_msg {B} (merge : B -> B -> B) (into from : option B) : option B :=
  match into, from with
  | Some x, Some y => Some (merge x y)
  | None, Some y => Some y
  | x, None => x
  end.
Definition merge_lp (a b : lp_msg) : lp_msg :=
  mkLpM (over (lm_solver a) (lm_solver b)) (over (lm_scratch a) (lm_scratch b))
    (over (lm_scaling a) (lm_scaling b)) (over (lm_presolve a) (lm_presolve b))
    (over (lm_pricing a) (lm_pricing b)) (over (lm_feasibility a) (lm_feasibility b))
    (over (lm_optimality a) (lm_optimality b)) (over (lm_markowitz a) (lm_markowitz b))
    (over (lm_refactorization a) (lm_refactorization b)) (over (lm_lower a) (lm_lower b))
    (over (lm_upper a) (lm_upper b)) (over (lm_timing a) (lm_timing b))
    (over (lm_time a) (lm_time b)) (over (lm_iterations a) (lm_iterations b))
    (over (lm_threads a) (lm_threads b)) (over (lm_seed a) (lm_seed b))
    (over (lm_output a) (lm_output b)).
Definition merge_limits (a b : limits_msg) : limits_msg :=
  mkLim (over (l_iterations a) (l_iterations b)) (over (l_total a) (l_total b))
    (over (l_root a) (l_root b)) (over (l_node a) (l_node b)).
Definition merge_runner (a b : runner_msg) : runner_msg :=
  mkRunM (rm_generators a ++ rm_generators b) (rm_selectors a ++ rm_selectors b)
    (over_msg merge_limits (rm_default a) (rm_default b)).
(** The oneof branching_specific. *)
Definition merge_rule (a b : rule_msg) : rule_msg :=
  match a, b with
  | RandomRule s, RandomRule s' => RandomRule (over s s')
  | _, _ => b
  end.
Definition merge_branching (a b : branching_msg) : branching_msg :=
  mkBrM (over_msg merge_rule (bm_rule a) (bm_rule b)) (over (bm_direction a) (bm_direction b)).
Definition MergeFrom (a b : params_msg) : params_msg :=
  mkPM (over (pm_integrality a) (pm_integrality b)) (over (pm_numerical a) (pm_numerical b))
    (over_msg merge_lp (pm_lp a) (pm_lp b))
    (over_msg merge_runner (pm_runner a) (pm_runner b))
    (pm_generators a ++ pm_generators b) (pm_selectors a ++ pm_selectors b)
    (over (pm_backtrack a) (pm_backtrack b))
    (over_msg merge_branching (pm_branching a) (pm_branching b)).

(** *** parameters_factory.h *)
(** 24-29, 33-38, 42-53, 57-61 *)
Definition DefaultCutGeneratorParameters : generator_msg := mkGen None (Some tableau_empty).
Definition DefaultCutSelectorParameters : selector_msg := mkSelM (Some hybrid_empty).
Definition DefaultCutRunnerParameters : runner_msg :=
  mkRunM [DefaultCutGeneratorParameters] [DefaultCutSelectorParameters] (Some limits_empty).
Definition DefaultBranchingParameters : branching_msg := mkBrM (Some MaxFractionalRule) None.
(** 64-78 *)
Definition DefaultMiniMipParameters : params_msg :=
  mkPM None None (Some lp_empty) (Some DefaultCutRunnerParameters) [] [] None
    (Some DefaultBranchingParameters).
(** 83-92 *)
Definition UserCustomizedParameters (user : params_msg) : params_msg :=
  MergeFrom DefaultMiniMipParameters user.

(** *** The factories *)
(** CreateCutGenerator (generator_factory.h:23-30) and the constructor of the generator
    (aggregating_generator.h:124-136): the rounders and max_num_cuts. *)
Definition CreateCutGenerator (m : generator_msg) : outcome (list rounder * Z) :=
  match gm_tableau m with
  | Some t => Ok (make_rounders (get (t_mir t) true) (get (t_scg t) true), get (gm_max m) 100)
  | None => Err InvalidArgument
  end.
(** CreateCutSelector (selector_factory.h:23-30). *)
Definition CreateCutSelector (m : selector_msg) : outcome selector_params :=
  match sm_hybrid m with
  | Some h => Ok (selector_of h)
  | None => Err InvalidArgument
  end.
(** The constructor of DefaultRunner (default_runner.h:34-55): generators that cannot be
    configured are skipped; value() of a failed selector aborts; Get(0) of an empty repeated
    field is undefined. *)
Fixpoint usable_generators (l : list generator_msg) : list (list rounder * Z) :=
  match l with
  | [] => []
  | m :: r => match CreateCutGenerator m with
              | Ok g => g :: usable_generators r
              | _ => usable_generators r
              end
  end.
Record runner_config := mkRC {
  rc_limits : runner_params;
  rc_generators : list (list rounder * Z);
  rc_selector : selector_params }.
Definition DefaultRunner (m : runner_msg) (limits : limits_msg) : outcome runner_config :=
  do s <- at_ (rm_selectors m) 0 ;
  do s <- match CreateCutSelector s with Ok x => Ok x | _ => Abort end ;
  Ok (mkRC (limits_of limits) (usable_generators (rm_generators m)) s).
(** CreateCutRunner (runner_factory.h:24-31). *)
Definition CreateCutRunner (m : runner_msg) : outcome runner_config :=
  match rm_default m with
  | Some l => DefaultRunner m l
  | None => Err InvalidArgument
  end.
(** CreateBranchingRule (branching_factory.h:25-34). *)
Inductive rule := UseRandom | UseMaxFractional.
Definition CreateBranchingRule (m : branching_msg) : outcome (rule * direction) :=
  match bm_rule m with
  | Some (RandomRule _) => Ok (UseRandom, get (bm_direction m) Unspecified)
  | Some MaxFractionalRule => Ok (UseMaxFractional, get (bm_direction m) Unspecified)
  | None => Err InvalidArgument
  end.

Section Create.
Context {E : engine} {X : spx_engine}.
(** The settings and sense of a new SoPlex object. *)
Variable p0 : spx_params.
Variable maximize : bool.

(** CreateLpSolver (lpi_factory.cc:26-45); [flag] is the process-wide clock flag. *)
Inductive lpi := GlopLpi (s : gstate E) | SoplexLpi (s : sstate X).
Definition CreateLpSolver (flag : bool) (p : lp_params) : outcome lpi :=
  match lp_solver_type p with
  | LP_GLOP =>
      let (s, ok) := SetLpParameters (glop_new flag) p in
      if (ok : bool) then Ok (GlopLpi s) else Err InvalidArgument
  | LP_SOPLEX =>
      do s <- spx_new p0 maximize ;
      do (s, ok) <- SpxSetLpParameters s p ;
      if (ok : bool) then Ok (SoplexLpi s) else Err InvalidArgument
  end.

(** The members of a new solver that come from the parameters. *)
Record config := mkCfg {
  cf_lpi : lpi;
  cf_runner : runner_config;
  cf_rule : rule * direction;
  cf_integrality : double;
  cf_numerical : double;
  cf_backtrack : Z }.

(** Solver::Create (solver.h:38-73) up to the construction of the solver: the problem, the LP,
    the cut runner, the branching rule.  A message field that is unset reads as the empty
    message. *)
Definition Create (flag : bool) (pb : problem) (user : params_msg) : outcome config :=
  match FindError pb with
  | Some _ => Err InvalidArgument
  | None =>
      let p := UserCustomizedParameters user in
      do l <- CreateLpSolver flag (lp_params_of (get (pm_lp p) lp_empty)) ;
      do r <- CreateCutRunner (get (pm_runner p) (mkRunM [] [] None)) ;
      do b <- CreateBranchingRule (get (pm_branching p) (mkBrM None None)) ;
      Ok (mkCfg l r b (get (pm_integrality p) d1em6) (get (pm_numerical p) d1em9) (get (pm_backtrack p) 2))
  end.
End Create.
Arguments config : clear implicits.
Arguments lpi : clear implicits.
