(** Property C95: numbers in code and documentation, and comparisons of doubles. *)
From Coq Require Import List ZArith Bool Lia.
From Coq Require Import Floats.SpecFloat.
From Verif Require Import Outcome Num Double DoubleFacts Rounding Selector Branching Aggregation LpParams Params GlopIface
  GlopSpec LiteralSpec LiteralProofs.
Import ListNotations.
Open Scope Z_scope.

(** C95. Tolerances that are not set are reported as the doubles nearest to 1e-8 with Glop and to
    1e-6 with SoPlex, SoPlex' Markowitz threshold as the one nearest to 1e-4. *)
Theorem C95_glop_defaults : forall p scratch flag,
  deqb (feasibility_tolerance p) dm1 = true -> deqb (optimality_tolerance p) dm1 = true ->
  nearest_double (feasibility_tolerance (from_glop (to_glop p) scratch flag)) 1 (10 ^ 8) /\
  nearest_double (optimality_tolerance (from_glop (to_glop p) scratch flag)) 1 (10 ^ 8).
Proof. exact glop_defaults. Qed.
Print Assumptions C95_glop_defaults.

Theorem C95_soplex_defaults : forall R p scratch,
  deqb (feasibility_tolerance p) dm1 = true -> deqb (optimality_tolerance p) dm1 = true ->
  deqb (min_markowitz_threshold p) dm1 = true ->
  nearest_double (feasibility_tolerance (from_spx (to_spx R p) scratch)) 1 (10 ^ 6) /\
  nearest_double (optimality_tolerance (from_spx (to_spx R p) scratch)) 1 (10 ^ 6) /\
  nearest_double (min_markowitz_threshold (from_spx (to_spx R p) scratch)) 1 (10 ^ 4).
Proof. exact soplex_defaults. Qed.
Print Assumptions C95_soplex_defaults.

(** A Markowitz threshold that SoPlex is said to support is at least 1e-4 and at most the double
    nearest to 1 - 1e-4. *)
Theorem C95_markowitz : forall p, LpParametersAreSupportedBySoPlex p = true ->
  finite_double (min_markowitz_threshold p) -> zval (min_markowitz_threshold p) <> - zone ->
  zone <= 10 ^ 4 * zval (min_markowitz_threshold p) /\
  exists top, nearest_double top (10 ^ 4 - 1) (10 ^ 4) /\ zval (min_markowitz_threshold p) <= zval top.
Proof. exact markowitz_range. Qed.
Print Assumptions C95_markowitz.

(** The defaults of the selector and of the solver's tolerances; one half where the code rounds or
    compares with it; the largest iteration limit that is passed on to SoPlex. *)
Theorem C95_literals :
  nearest_double d1em4 1 (10 ^ 4) /\ nearest_double d1m1em4 (10 ^ 4 - 1) (10 ^ 4) /\ nearest_double d1em6 1 (10 ^ 6) /\
  nearest_double d1em8 1 (10 ^ 8) /\ nearest_double d1em9 1 (10 ^ 9) /\ nearest_double d01 1 10 /\
  nearest_double d09 9 10 /\ nearest_double dhalf 1 2 /\ nearest_double GlopIface.half 1 2 /\
  nearest_double (@ahalf arith_double) 1 2 /\ INT_MAX = 2147483647.
Proof. exact literals. Qed.
Print Assumptions C95_literals.

(** The comparisons and roundings that the cut generator makes on doubles are exact; halves are rounded away
    from zero. *)
Theorem C95_double_arith : forall x y, finite_double x -> finite_double y ->
  (@aleb arith_double x y = true <-> zval x <= zval y) /\
  (@altb arith_double x y = true <-> zval x < zval y) /\
  (@aeqb arith_double x y = true <-> zval x = zval y) /\
  zval (@afloor arith_double x) = zval x / zone * zone /\
  zval (@aceil arith_double x) = - ((- zval x) / zone) * zone /\
  zval (@around arith_double x) = Z.sgn (zval x) * ((2 * Z.abs (zval x) + zone) / (2 * zone)) * zone /\
  zval (@aabs arith_double x) = Z.abs (zval x).
Proof. exact double_arith. Qed.
Print Assumptions C95_double_arith.

Definition spx_message (m : double) : lp_params :=
  mkParams LP_SOPLEX false SCALING_OFF true PRICING_DEVEX dm1 dm1 m 0 dminf dinf TIMING_OFF dinf 0 0 0 false.
Example C95_case : LpParametersAreSupportedBySoPlex (spx_message dhalf) = true /\
  finite_double dhalf /\ zval dhalf <> - zone /\
  LpParametersAreSupportedBySoPlex (spx_message d1em6) = false /\
  LpParametersAreSupportedBySoPlex (spx_message d1) = false /\
  deqb (feasibility_tolerance (spx_message d1)) dm1 = true /\
  zval (@around arith_double (ddiv (dint (-5)) (dint 2))) = -3 * zone.
Proof.
  split; [vm_compute; reflexivity|]. split; [split; reflexivity|]. split; [vm_compute; discriminate|].
  split; [vm_compute; reflexivity|]. split; [vm_compute; reflexivity|]. split; vm_compute; reflexivity.
Qed.
