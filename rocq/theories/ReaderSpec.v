(** Specification vocabulary for reading models and for parameters. *)
From Coq Require Import String List ZArith Bool.
From Verif Require Import Outcome Num Double Aggregation LpParams Selector Runner Branching Problem
  ProblemSpec Reader Params GlopIface GlopSpec SoplexIface SoplexSpec.
Import ListNotations.
Open Scope Z_scope.

(** *** Models *)
Definition supported_model (m : mp_model) : Prop :=
  m_general m = O /\ m_quadratic m = false /\ m_annotations m = O.

(** [v] is what was set, or the default. *)
Definition said {B} (field : option B) (default v : B) : Prop :=
  (forall x, field = Some x -> v = x) /\ (field = None -> v = default).

Record same_variable (a : mp_variable) (v : variable) : Prop := mkSameVar {
  sv_name : said (mv_name a) EmptyString (v_name v);
  sv_obj : said (mv_obj a) d0 (v_obj v);
  sv_lb : said (mv_lb a) dminf (v_lb v);
  sv_ub : said (mv_ub a) dinf (v_ub v);
  sv_int : said (mv_int a) false (v_int v) }.
Record same_constraint (a : mp_constraint) (c : constraint) : Prop := mkSameCon {
  sc_name : said (mc_name a) EmptyString (c_name c);
  sc_idx : c_idx c = mc_idx a;
  sc_coef : c_coef c = mc_coef a;
  sc_lb : said (mc_lb a) dminf (c_lhs c);
  sc_ub : said (mc_ub a) dinf (c_rhs c) }.
Record same_model (m : mp_model) (p : problem) : Prop := mkSame {
  sm_name : said (m_name m) EmptyString (p_name p);
  sm_max : said (m_max m) false (p_max p);
  sm_offset : said (m_offset m) d0 (p_offset p);
  sm_vars : Forall2 same_variable (m_vars m) (p_vars p);
  sm_cons : Forall2 same_constraint (m_cons m) (p_cons p);
  sm_some_hint : forall h, m_hint m = Some h -> p_hints p = [mkHint (mh_idx h) (mh_val h)];
  sm_no_hint : m_hint m = None -> p_hints p = [] }.

Definition ends_with (suffix s : string) : Prop := exists r, s = (r ++ suffix)%string.

(** *** Parameters: what the user asked for, with the documented defaults *)
Definition setting {B} (user : option B) (default : B) : B :=
  match user with Some x => x | None => default end.
(** A field of a message that may itself be unset. *)
Definition within {M B} (m : option M) (field : M -> option B) : option B :=
  match m with Some x => field x | None => None end.

Definition wanted_lp (u : params_msg) : lp_params :=
  let f {B} (field : lp_msg -> option B) d := setting (within (pm_lp u) field) d in
  mkParams (f lm_solver LP_GLOP) (f lm_scratch false) (f lm_scaling SCALING_DEFAULT)
    (f lm_presolve true) (f lm_pricing PRICING_DEFAULT) (f lm_feasibility dm1)
    (f lm_optimality dm1) (f lm_markowitz dm1) (f lm_refactorization 0) (f lm_lower dminf)
    (f lm_upper dinf) (f lm_timing TIMING_OFF) (f lm_time dinf) (f lm_iterations 0)
    (f lm_threads 0) (f lm_seed 0) (f lm_output false).
Definition wanted_limits (u : params_msg) : runner_params :=
  let l := within (pm_runner u) rm_default in
  mkRunner (setting (within l l_iterations) 100) (setting (within l l_node) 100)
    (setting (within l l_total) 100).
Definition wanted_rule (u : params_msg) : rule :=
  match within (pm_branching u) bm_rule with
  | Some (RandomRule _) => UseRandom
  | _ => UseMaxFractional
  end.
Definition wanted_direction (u : params_msg) : direction :=
  setting (within (pm_branching u) bm_direction) Unspecified.

(** The generators and selectors listed by the user for the cut runner. *)
Definition user_generators (u : params_msg) : list generator_msg :=
  match pm_runner u with Some r => rm_generators r | None => [] end.
Definition user_selectors (u : params_msg) : list selector_msg :=
  match pm_runner u with Some r => rm_selectors r | None => [] end.
(** The rounders and the limit that a generator message asks for. *)
Definition asks_for (m : generator_msg) (g : list rounder * Z) : Prop :=
  exists t, gm_tableau m = Some t /\ snd g = setting (gm_max m) 100 /\
  (In MIR (fst g) <-> setting (t_mir t) true = true) /\
  (In SCG (fst g) <-> setting (t_scg t) true = true) /\ NoDup (fst g).
Definition configurable (m : generator_msg) : bool :=
  match gm_tableau m with Some _ => true | None => false end.
(** The selector parameters that a message asks for. *)
Definition wanted_selector (h : hybrid_msg) : selector_params :=
  mkSel (setting (h_efficacy h) d1) (setting (h_support h) d01) (setting (h_parallelism h) d01)
    (setting (h_orthogonality h) d09) (setting (h_signed h) false)
    (setting (h_threshold h) d1em6) (setting (h_max h) (-1)).
(** The LP interface of a new solver: of the requested kind, reporting the requested parameters
    with the defaults resolved.  (solve_from_scratch is lost by SoPlex, C51.) *)
Definition lp_as_wanted {E X} (p : lp_params) (l : lpi E X) : Prop :=
  match lp_solver_type p with
  | LP_GLOP => exists s, l = GlopLpi s /\ (has_time_limit p -> GetLpParameters s = glop_resolved p)
  | LP_SOPLEX => exists s, l = SoplexLpi s /\
      SpxGetLpParameters s = spx_resolved false (spx_infty (x_rules X)) p
  end.
Definition lp_supported (X : spx_engine) (p : lp_params) : Prop :=
  match lp_solver_type p with
  | LP_GLOP => glop_supports p
  | LP_SOPLEX => soplex_supports p /\ takes (x_rules X) p
  end.
(** A new solver: everything as requested, except that the default generator precedes the user's
    generators (those with a kind) and the selector is the default one. *)
Definition as_wanted {E X} (u : params_msg) (c : config E X) : Prop :=
  lp_as_wanted (wanted_lp u) (cf_lpi c) /\
  rc_limits (cf_runner c) = wanted_limits u /\
  cf_rule c = (wanted_rule u, wanted_direction u) /\
  cf_integrality c = setting (pm_integrality u) d1em6 /\
  cf_numerical c = setting (pm_numerical u) d1em9 /\
  cf_backtrack c = setting (pm_backtrack u) 2 /\
  (exists gs, rc_generators (cf_runner c) = ([MIR; SCG], 100) :: gs /\
     Forall2 asks_for (filter configurable (user_generators u)) gs) /\
  rc_selector (cf_runner c) = wanted_selector hybrid_empty.
