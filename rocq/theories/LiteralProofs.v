(** Proofs for C95. *)
From Coq Require Import List ZArith Bool Lia.
From Coq Require Import Floats.SpecFloat.
From Verif Require Import Outcome Num Double DoubleFacts DoubleExact Rounding MipDataProofs Branching Aggregation LpParams Params GlopIface LiteralSpec.
Import ListNotations.
Open Scope Z_scope.

Lemma gap_above m e y : bounded prec emax m e = true -> 2 ^ 52 < Zpos m -> finite_double y ->
  zval y = Zpos m * 2 ^ (e + 1074) \/ 2 ^ (e + 1074) <= Z.abs (zval y - Zpos m * 2 ^ (e + 1074)).
Proof.
  intros B M [V F]. pose proof (bounded_spec m e B) as (E1 & E2 & _).
  set (u := 2 ^ (e + 1074)). assert (U : 0 < u) by (apply Z.pow_pos_nonneg; lia).
  assert (MU : 2 ^ 52 * u + u <= Zpos m * u) by nia.
  destruct y as [s|s| |s m' e']; try discriminate; cbn [zval].
  { right. assert (0 <= 2 ^ 52 * u) by nia. lia. }
  pose proof (bounded_spec m' e' V) as (E1' & E2' & _).
  pose proof (zval_pos m' e' (proj1 E1')) as P.
  destruct (Z.le_gt_cases e e') as [L|L].
  - assert (K : exists k, 0 < k /\ 2 ^ (e' + 1074) = k * u).
    { exists (2 ^ (e' - e)). split; [apply Z.pow_pos_nonneg; lia|]. unfold u. rewrite <- Z.pow_add_r by lia. f_equal. lia. }
    destruct K as (k & KP & K). rewrite K.
    set (z := (if s then - Zpos m' else Zpos m') * k).
    replace ((if s then - Zpos m' else Zpos m') * (k * u)) with (z * u) by (unfold z; ring).
    destruct (Z.eq_dec z (Zpos m)) as [->|N]; [left; reflexivity|right].
    rewrite <- Z.mul_sub_distr_r, Z.abs_mul, (Z.abs_eq u) by lia. nia.
  - assert (K : exists k, 2 <= k /\ u = k * 2 ^ (e' + 1074)).
    { exists (2 ^ (e - e')). split; [change 2 with (2 ^ 1) at 1; apply Z.pow_le_mono_r; lia|].
      unfold u. rewrite <- Z.pow_add_r by lia. f_equal. lia. }
    destruct K as (k & KP & K). set (v := 2 ^ (e' + 1074)) in *. clearbody v.
    assert (W : Zpos m' * v <= 2 ^ 52 * u).
    { rewrite K. assert (0 < v) by nia. change (2 ^ 53) with (2 * 2 ^ 52) in E2'. nia. }
    right. clearbody u. assert (0 <= 2 ^ 52 * u) by nia. destruct s; nia.
Qed.

Lemma literal_nearest m e p q : bounded prec emax m e = true -> 2 ^ 52 < Zpos m -> 0 < q ->
  2 * Z.abs (q * zval (S754_finite false m e) - p * zone) <= q * 2 ^ (e + 1074) ->
  nearest_double (S754_finite false m e) p q.
Proof.
  intros B M Q H. split; [split; [exact B|reflexivity]|]. intros y Y. cbn [zval] in *.
  destruct (gap_above m e y B M Y) as [->|G]; [lia|].
  set (a := Zpos m * 2 ^ (e + 1074)) in *. set (u := 2 ^ (e + 1074)) in *. set (t := p * zone) in *.
  clearbody a u t. set (w := zval y) in *. clearbody w.
  assert (X : q * u <= Z.abs (q * w - q * a)).
  { rewrite <- Z.mul_sub_distr_l, Z.abs_mul, (Z.abs_eq q) by lia. apply Z.mul_le_mono_nonneg_l; lia. }
  set (qw := q * w) in *. set (qa := q * a) in *. set (qu := q * u) in *. clearbody qw qa qu. lia.
Qed.
Lemma exact_nearest d p q : finite_double d -> q * zval d = p * zone -> nearest_double d p q.
Proof. intros F E. split; [exact F|]. intros y Y. rewrite E, Z.sub_diag. apply Z.abs_nonneg. Qed.

Lemma literals :
  nearest_double d1em4 1 (10 ^ 4) /\ nearest_double d1m1em4 (10 ^ 4 - 1) (10 ^ 4) /\ nearest_double d1em6 1 (10 ^ 6) /\
  nearest_double d1em8 1 (10 ^ 8) /\ nearest_double d1em9 1 (10 ^ 9) /\ nearest_double d01 1 10 /\
  nearest_double d09 9 10 /\ nearest_double dhalf 1 2 /\ nearest_double GlopIface.half 1 2 /\
  nearest_double (@ahalf arith_double) 1 2 /\ INT_MAX = 2147483647.
Proof.
  assert (D : d1m1em4 = S754_finite false 9006298534815518 (-53)) by (vm_compute; reflexivity).
  rewrite D.
  repeat match goal with |- _ /\ _ => split end;
    try (apply literal_nearest; [reflexivity|reflexivity|reflexivity|apply Z.leb_le; vm_compute; reflexivity]).
  1,2,3: apply exact_nearest; [split; vm_compute; reflexivity|vm_compute; reflexivity].
  reflexivity.
Qed.

Lemma dround_away x : finite_double x ->
  zval (dround x) = Z.sgn (zval x) * ((2 * Z.abs (zval x) + zone) / (2 * zone)) * zone.
Proof.
  intros [V F]. pose proof zone_pos as ZP. destruct x as [s|s| |s m e]; try discriminate; [reflexivity|].
  pose proof (bounded_spec m e V) as (E1 & E2 & E3). pose proof (zval_pos m e (proj1 E1)) as P.
  assert (AB : Z.abs (zval (S754_finite s m e)) = Zpos m * 2 ^ (e + 1074)).
  { cbn [zval]. set (w := 2 ^ (e + 1074)) in *. clearbody w. destruct s; lia. }
  assert (SG : Z.sgn (zval (S754_finite s m e)) = if s then -1 else 1).
  { cbn [zval]. set (w := 2 ^ (e + 1074)) in *. clearbody w. destruct s; [apply Z.sgn_neg|apply Z.sgn_pos]; lia. }
  rewrite AB, SG. cbn [dround]. destruct (Z.leb_spec 0 e) as [G|G].
  - assert (EQ : Zpos m * 2 ^ (e + 1074) = Zpos m * 2 ^ e * zone).
    { rewrite (Z.pow_add_r 2 e) by lia. rewrite zone_pow. ring. }
    assert (Q : (2 * (Zpos m * 2 ^ (e + 1074)) + zone) / (2 * zone) = Zpos m * 2 ^ e).
    { rewrite EQ. symmetry. apply Z.div_unique with zone; [left; lia|ring]. }
    rewrite Q. cbn [zval]. rewrite (Z.pow_add_r 2 e), zone_pow by lia. destruct s; ring.
  - set (w := 2 ^ (- e)). assert (W : 2 <= w).
    { unfold w. replace (- e) with (1 + (- e - 1)) by lia. rewrite Z.pow_add_r by lia.
      assert (0 < 2 ^ (- e - 1)) by (apply Z.pow_pos_nonneg; lia). lia. }
    assert (ZW : zone = w * 2 ^ (e + 1074)).
    { unfold w. rewrite <- Z.pow_add_r by lia. rewrite zone_pow. f_equal. lia. }
    assert (Q : (2 * (Zpos m * 2 ^ (e + 1074)) + zone) / (2 * zone) = (2 * Zpos m + w) / (2 * w)).
    { rewrite ZW. set (v := 2 ^ (e + 1074)) in *. replace (2 * (Zpos m * v) + w * v) with ((2 * Zpos m + w) * v) by ring.
      replace (2 * (w * v)) with (2 * w * v) by ring. apply Z.div_mul_cancel_r; [lia|]. clearbody v. intros ->. lia. }
    rewrite Q. set (a := (2 * Zpos m + w) / (2 * w)).
    assert (A0 : 0 <= a) by (apply Z.div_pos; lia).
    assert (A1 : a <= Zpos m) by (apply Z.div_le_upper_bound; [lia|nia]).
    destruct (dint_spec s (if s then - a else a)) as (_ & _ & E); [destruct s; lia|]. rewrite E. destruct s; ring.
Qed.

Lemma double_arith x y : finite_double x -> finite_double y ->
  (@aleb arith_double x y = true <-> zval x <= zval y) /\
  (@altb arith_double x y = true <-> zval x < zval y) /\
  (@aeqb arith_double x y = true <-> zval x = zval y) /\
  zval (@afloor arith_double x) = zval x / zone * zone /\
  zval (@aceil arith_double x) = - ((- zval x) / zone) * zone /\
  zval (@around arith_double x) = Z.sgn (zval x) * ((2 * Z.abs (zval x) + zone) / (2 * zone)) * zone /\
  zval (@aabs arith_double x) = Z.abs (zval x).
Proof.
  intros [V F] [V' F']. cbn [aleb altb aeqb afloor aceil around aabs arith_double].
  split; [exact (dleb_zval x y V V' F F')|]. split; [exact (dltb_zval x y V V' F F')|].
  split; [exact (deqb_zval x y V V' F F')|]. split; [exact (proj2 (proj2 (dfloor_spec x V F)))|].
  split; [exact (proj2 (proj2 (dceil_spec x V F)))|].
  split; [exact (dround_away x (conj V F))|].
  exact (proj2 (proj2 (dabs_spec x (zval x) (conj V (conj F eq_refl))))).
Qed.

Lemma markowitz_range p : LpParametersAreSupportedBySoPlex p = true ->
  finite_double (min_markowitz_threshold p) -> zval (min_markowitz_threshold p) <> - zone ->
  zone <= 10 ^ 4 * zval (min_markowitz_threshold p) /\
  exists top, nearest_double top (10 ^ 4 - 1) (10 ^ 4) /\ zval (min_markowitz_threshold p) <= zval top.
Proof.
  unfold LpParametersAreSupportedBySoPlex. set (v := min_markowitz_threshold p). intros H [V F] N.
  assert (NE : deqb v dm1 = false).
  { destruct (deqb v dm1) eqn:E; auto. apply (deqb_zval v dm1 V eq_refl F eq_refl) in E.
    change (zval dm1) with (- zone) in E. contradiction. }
  assert (K : dltb v d1em4 || dltb d1m1em4 v = false).
  { destruct (negb (LpParametersAreValid p)); [discriminate|]. destruct (lp_solver_type p); [discriminate|].
    rewrite NE in H. cbn [negb andb] in H.
    destruct (scaling_strategy p); destruct (dltb v d1em4 || dltb d1m1em4 v); auto; discriminate. }
  apply orb_false_iff in K as [K1 K2].
  destruct literals as (_ & T & _). destruct T as [[VT FT] T].
  split.
  - destruct (Z.le_gt_cases zone (10 ^ 4 * zval v)) as [L|L]; auto. exfalso.
    assert (X : dltb v d1em4 = true); [|congruence].
    apply (dltb_zval v d1em4 V eq_refl F eq_refl).
    assert (B : zone < 10 ^ 4 * zval d1em4) by (vm_compute; reflexivity).
    set (a := zval v) in *. set (b := zval d1em4) in *. set (z := zone) in *. clearbody a b z. clear - L B. lia.
  - exists d1m1em4. split; [split; [split; [exact VT|exact FT]|exact T]|].
    destruct (Z.le_gt_cases (zval v) (zval d1m1em4)) as [L|L]; auto. exfalso.
    assert (X : dltb d1m1em4 v = true); [|congruence].
    apply (dltb_zval d1m1em4 v VT V FT F). exact L.
Qed.

Lemma default_is x d : deqb x dm1 = true -> or_default x d = d.
Proof. unfold or_default. intros ->. reflexivity. Qed.
Lemma glop_defaults p scratch flag : deqb (feasibility_tolerance p) dm1 = true -> deqb (optimality_tolerance p) dm1 = true ->
  nearest_double (feasibility_tolerance (from_glop (to_glop p) scratch flag)) 1 (10 ^ 8) /\
  nearest_double (optimality_tolerance (from_glop (to_glop p) scratch flag)) 1 (10 ^ 8).
Proof.
  intros A B. destruct literals as (_ & _ & _ & L & _).
  cbn [from_glop to_glop feasibility_tolerance optimality_tolerance primal_feasibility_tolerance dual_feasibility_tolerance].
  rewrite (default_is _ _ A), (default_is _ _ B). split; exact L.
Qed.
Lemma soplex_defaults R p scratch : deqb (feasibility_tolerance p) dm1 = true -> deqb (optimality_tolerance p) dm1 = true ->
  deqb (min_markowitz_threshold p) dm1 = true ->
  nearest_double (feasibility_tolerance (from_spx (to_spx R p) scratch)) 1 (10 ^ 6) /\
  nearest_double (optimality_tolerance (from_spx (to_spx R p) scratch)) 1 (10 ^ 6) /\
  nearest_double (min_markowitz_threshold (from_spx (to_spx R p) scratch)) 1 (10 ^ 4).
Proof.
  intros A B C. destruct literals as (L4 & _ & L6 & _).
  cbn [from_spx to_spx feasibility_tolerance optimality_tolerance min_markowitz_threshold FEASTOL OPTTOL MIN_MARKOWITZ].
  rewrite (default_is _ _ A), (default_is _ _ B), (default_is _ _ C). auto.
Qed.
