(** Binary64 square root and division of positive numbers round faithfully. *)
From Coq Require Import ZArith Bool Lia SpecFloat ZifyBool.
From Verif Require Import Num Double DoubleFacts DoubleExact Rounding.
Open Scope Z_scope.

Lemma shr_record_m q l : shr_m (shr_record_of_loc q l) = q.
Proof. destruct l as [|[]]; reflexivity. Qed.

(** The rounding step for a mantissa of at least 53 digits with a location. *)
Lemma round_aux_loc s p e l E : let n := E - e in let k := Zpos p / 2 ^ n in
  E = Zpos (digits2_pos p) + e - 53 -> e <= E -> -1074 <= E <= 970 ->
  2 ^ 52 <= k < 2 ^ 53 /\
  exists m, (m = k \/ (m = k + 1 /\ (l <> loc_Exact \/ Zpos p <> k * 2 ^ n))) /\
  exists M e', binary_round_aux prec emax s (Zpos p) e l = S754_finite s M e' /\
    bounded prec emax M e' = true /\ Zpos M * 2 ^ (e' + 1074) = m * 2 ^ (E + 1074).
Proof.
  intros n k HE He HB. pose proof (digits2_bounds p) as [A B]. set (d := Zpos (digits2_pos p)) in *.
  assert (EE : n = d - 53) by lia. assert (P : 0 < 2 ^ n) by (apply Z.pow_pos_nonneg; lia).
  assert (K : 2 ^ 52 <= k < 2 ^ 53).
  { unfold k. split.
    - apply Z.div_le_lower_bound; auto. rewrite <- Z.pow_add_r by lia. replace (n + 52) with (d - 1) by lia. auto.
    - apply Z.div_lt_upper_bound; auto. rewrite <- Z.pow_add_r by lia. replace (n + 53) with d by lia. auto. }
  split; [exact K|].
  unfold binary_round_aux, shr_fexp. cbn [Zdigits2]. change (fexp prec emax) with fexp'. fold d.
  rewrite fexp_eq. replace (Z.max (d + e - 53) (-1074)) with E by lia. fold n.
  assert (S : exists r, shr (shr_record_of_loc (Zpos p) l) e n = (r, E) /\ shr_m r = k /\
    (loc_of_shr_record r <> loc_Exact -> l <> loc_Exact \/ Zpos p <> k * 2 ^ n)).
  { destruct n as [|q|q] eqn:N; try lia.
    - exists (shr_record_of_loc (Zpos p) l). cbn [shr]. split; [f_equal; lia|]. split.
      + rewrite shr_record_m. unfold k. rewrite Z.pow_0_r, Z.div_1_r. reflexivity.
      + intros X. left. intros ->. apply X. reflexivity.
    - exists (SpecFloat.iter_pos shr_1 q (shr_record_of_loc (Zpos p) l)). cbn [shr]. split; [f_equal; lia|]. split.
      + rewrite iter_shr_m by (rewrite shr_record_m; lia). rewrite shr_record_m. reflexivity.
      + intros X. destruct l as [|c]; [|left; discriminate]. right. intros Y. apply X. cbn [shr_record_of_loc].
        rewrite Y, iter_shr by lia. reflexivity. }
  destruct S as (r & -> & R & X).
  set (m := round_nearest_even (shr_m r) (loc_of_shr_record r)).
  assert (M : m = k \/ (m = k + 1 /\ (l <> loc_Exact \/ Zpos p <> k * 2 ^ n))).
  { unfold m. destruct (round_step (shr_m r) (loc_of_shr_record r)) as [H|[H HL]]; [lia|left; congruence|].
    right. split; [congruence|auto]. }
  exists m. split; [exact M|].
  destruct (Z.eqb_spec m (2 ^ 53)) as [M53|M53].
  - rewrite M53. change (Zdigits2 (2 ^ 53)) with 54. rewrite fexp_eq.
    replace (Z.max (54 + E - 53) (-1074) - E) with 1 by lia. cbn [shr SpecFloat.iter_pos shr_record_of_loc].
    change (2 ^ 53) with (2 * 2 ^ 52). rewrite shr_1_even by lia. cbn [shr_m].
    change (emax - prec) with 971. change (2 ^ 52) with (Zpos (2 ^ 52)).
    replace (E + 1 <=? 971) with true by lia.
    exists (2 ^ 52)%positive, (E + 1). split; [reflexivity|].
    split; [apply bounded_normal; [split; reflexivity || discriminate|lia]|].
    replace (E + 1 + 1074) with (1 + (E + 1074)) by lia. rewrite (Z.pow_add_r 2 1) by lia.
    change (Zpos (2 ^ 52)) with (2 ^ 52). lia.
  - assert (D : Zdigits2 m = 53).
    { apply zdigits_unique; [lia|]. change (53 - 1) with 52. lia. }
    rewrite D, fexp_eq. replace (Z.max (53 + E - 53) (-1074) - E) with 0 by lia. cbn [shr shr_m shr_record_of_loc].
    change (emax - prec) with 971. destruct m as [|mp|mp]; try lia.
    replace (E <=? 971) with true by lia. exists mp, E. split; [reflexivity|].
    split; [apply bounded_normal; lia|reflexivity].
Qed.

(** From the rounding step to faithfulness.  [below z] and [above z] say that the exact result
    is at least, at most [z] units. *)
Lemma loc_faithful s p e l E (below above : Z -> Prop) : let n := E - e in
  E = Zpos (digits2_pos p) + e - 53 -> e <= E -> -1074 <= E <= 970 ->
  (forall j, below (j * 2 ^ (E + 1074)) -> j * 2 ^ n <= Zpos p) ->
  (forall j, above (j * 2 ^ (E + 1074)) -> Zpos p <= j * 2 ^ n /\ (l <> loc_Exact -> Zpos p < j * 2 ^ n)) ->
  (forall z k, k * 2 ^ n <= Zpos p -> above z -> k * 2 ^ (E + 1074) <= z) ->
  exists M e', binary_round_aux prec emax s (Zpos p) e l = S754_finite s M e' /\
    bounded prec emax M e' = true /\
    forall z, mag z -> (below z -> z <= Zpos M * 2 ^ (e' + 1074)) /\ (above z -> Zpos M * 2 ^ (e' + 1074) <= z).
Proof.
  intros n HE He HB Bl Ab Mono.
  destruct (round_aux_loc s p e l E HE He HB) as (K & m & M & Mp & e' & R & V & EQ).
  fold n in K, M. set (k := Zpos p / 2 ^ n) in *.
  exists Mp, e'. split; [exact R|]. split; [exact V|]. rewrite EQ. intros z Mz.
  assert (PN : 0 < 2 ^ n) by (apply Z.pow_pos_nonneg; lia).
  assert (PE : 0 < 2 ^ (E + 1074)) by (apply Z.pow_pos_nonneg; lia).
  assert (KP : k * 2 ^ n <= Zpos p) by (unfold k; rewrite Z.mul_comm; apply Z.mul_div_le; lia).
  assert (KG : Zpos p < (k + 1) * 2 ^ n) by (unfold k; pose proof (Z.mul_succ_div_gt (Zpos p) (2 ^ n) PN); lia).
  assert (K2 : 2 ^ (52 + (E + 1074)) <= k * 2 ^ (E + 1074)) by (rewrite Z.pow_add_r by lia; nia).
  destruct (Z.lt_ge_cases z (2 ^ (52 + (E + 1074)))) as [L|L].
  - split; [intros _; nia|]. intros H. specialize (Mono z k KP H). lia.
  - destruct (mag_multiple z (E + 1074) ltac:(lia) Mz L) as [j ->]. split; intros H.
    + specialize (Bl j H). assert (j <= k) by nia. nia.
    + destruct (Ab j H) as [H1 H2]. assert (m <= j); [|nia].
      destruct M as [->|[-> [X|X]]].
      * nia.
      * specialize (H2 X). nia.
      * nia.
Qed.

Lemma new_location_exact m : new_location m 0 = loc_Exact.
Proof. unfold new_location, new_location_even, new_location_odd. destruct (Z.even m); reflexivity. Qed.

(** *** Division *)
Lemma div_core m1 e1 m2 e2 t : bounded prec emax m1 e1 = true -> bounded prec emax m2 e2 = true ->
  t = Zpos (digits2_pos m1) + e1 - (Zpos (digits2_pos m2) + e2) -> -1000 <= t <= 1000 ->
  exists M e', ddiv (S754_finite false m1 e1) (S754_finite false m2 e2) = S754_finite false M e' /\
    bounded prec emax M e' = true /\
    forall z, mag z ->
      (z * (Zpos m2 * 2 ^ (e2 + 1074)) <= Zpos m1 * 2 ^ (e1 + 1074) * zone -> z <= Zpos M * 2 ^ (e' + 1074)) /\
      (Zpos m1 * 2 ^ (e1 + 1074) * zone <= z * (Zpos m2 * 2 ^ (e2 + 1074)) -> Zpos M * 2 ^ (e' + 1074) <= z).
Proof.
  intros V1 V2 T HT. pose proof (bounded_spec _ _ V1) as (B1 & B1' & _). pose proof (bounded_spec _ _ V2) as (B2 & B2' & _).
  unfold ddiv. cbn [SFdiv]. unfold SFdiv_core_binary. cbn [Zdigits2]. change (fexp prec emax) with fexp'.
  pose proof (digits2_bounds m1) as [A1 A1']. pose proof (digits2_bounds m2) as [A2 A2'].
  set (d1 := Zpos (digits2_pos m1)) in *. set (d2 := Zpos (digits2_pos m2)) in *.
  rewrite <- T, fexp_eq. replace (Z.max (t - 53) (-1074)) with (t - 53) by lia.
  set (e := Z.min (t - 53) (e1 - e2)). set (s := e1 - e2 - e).
  assert (D1 : 1 <= d1) by lia. assert (D2 : 1 <= d2) by lia.
  assert (Hs : 0 <= s) by lia. assert (Hs2 : 53 + d2 - d1 <= s) by lia.
  assert (SH : match s with Zpos _ => Z.shiftl (Zpos m1) s | 0 => Zpos m1 | Zneg _ => 0 end = Zpos m1 * 2 ^ s).
  { destruct s eqn:X; try lia. rewrite Z.shiftl_mul_pow2 by lia. reflexivity. }
  rewrite SH. clear SH. set (m' := Zpos m1 * 2 ^ s).
  assert (Ps : 0 < 2 ^ s) by (apply Z.pow_pos_nonneg; lia).
  pose proof (Z_div_mod m' (Zpos m2) ltac:(lia)) as DM. destruct (Z.div_eucl m' (Zpos m2)) as [q r].
  destruct DM as [DM RM].
  assert (L1 : 2 ^ (d1 - 1 + s) <= m') by (rewrite Z.pow_add_r by lia; unfold m'; nia).
  assert (L2 : m' < 2 ^ (d1 + s)) by (rewrite Z.pow_add_r by lia; unfold m'; nia).
  assert (Q0 : 2 ^ (d1 - 1 + s - d2) <= q).
  { assert (X : 2 ^ (d1 - 1 + s) = 2 ^ (d1 - 1 + s - d2) * 2 ^ d2) by (apply pow_split; lia).
    assert (0 < 2 ^ d2) by (apply Z.pow_pos_nonneg; lia).
    apply Z.lt_succ_r. apply Z.mul_lt_mono_pos_r with (2 ^ d2); [lia|]. nia. }
  assert (Q1 : q < 2 ^ (d1 + s - d2 + 1)).
  { assert (X : 2 ^ (d1 + s) = 2 ^ (d1 + s - d2 + 1) * 2 ^ (d2 - 1)).
    { rewrite <- Z.pow_add_r by lia. f_equal. lia. }
    assert (0 < 2 ^ (d2 - 1)) by (apply Z.pow_pos_nonneg; lia).
    apply Z.mul_lt_mono_pos_r with (2 ^ (d2 - 1)); [lia|]. nia. }
  assert (Pq : 0 < 2 ^ (d1 - 1 + s - d2)) by (apply Z.pow_pos_nonneg; lia).
  destruct q as [|p|p]; try lia.
  pose proof (digits2_bounds p) as [A3 A3']. set (dq := Zpos (digits2_pos p)).
  assert (DQ1 : d1 + s - d2 <= dq).
  { destruct (Z.le_gt_cases (d1 + s - d2) dq) as [|X]; auto.
    assert (2 ^ dq <= 2 ^ (d1 - 1 + s - d2)) by (apply Z.pow_le_mono_r; lia). fold dq in A3'. lia. }
  assert (DQ2 : dq <= d1 + s - d2 + 1).
  { destruct (Z.le_gt_cases dq (d1 + s - d2 + 1)) as [|X]; auto.
    assert (2 ^ (d1 + s - d2 + 1) <= 2 ^ (dq - 1)) by (apply Z.pow_le_mono_r; lia). fold dq in A3. lia. }
  set (E := dq + e - 53). set (n := E - e). cbn beta iota. change (xorb false false) with false.
  assert (Pn : 0 < 2 ^ n) by (apply Z.pow_pos_nonneg; lia).
  set (c := e + 1074 + (e2 + 1074)).
  assert (Hc : 0 <= c) by lia. assert (Pc : 0 < 2 ^ c) by (apply Z.pow_pos_nonneg; lia).
  assert (Xz : Zpos m1 * 2 ^ (e1 + 1074) * zone = m' * 2 ^ c).
  { unfold m'. rewrite zone_pow, <- !Z.mul_assoc, <- !Z.pow_add_r by lia. do 2 f_equal. lia. }
  assert (Yz : forall j, j * 2 ^ (E + 1074) * (Zpos m2 * 2 ^ (e2 + 1074)) = (j * 2 ^ n) * Zpos m2 * 2 ^ c).
  { intros j. replace ((j * 2 ^ n) * Zpos m2 * 2 ^ c) with (j * Zpos m2 * (2 ^ n * 2 ^ c)) by ring.
    replace (j * 2 ^ (E + 1074) * (Zpos m2 * 2 ^ (e2 + 1074))) with (j * Zpos m2 * (2 ^ (E + 1074) * 2 ^ (e2 + 1074))) by ring.
    rewrite <- !Z.pow_add_r by lia. do 2 f_equal. lia. }
  destruct (loc_faithful false p e (new_location (Zpos m2) r) E
    (fun z => z * (Zpos m2 * 2 ^ (e2 + 1074)) <= Zpos m1 * 2 ^ (e1 + 1074) * zone)
    (fun z => Zpos m1 * 2 ^ (e1 + 1074) * zone <= z * (Zpos m2 * 2 ^ (e2 + 1074)))) as (M & e' & R & V & F);
    [reflexivity|lia|lia| | | |].
  - intros j. rewrite Xz, Yz. intros H. apply Z.mul_le_mono_pos_r in H; [|exact Pc]. fold n. nia.
  - intros j. rewrite Xz, Yz. intros H. apply Z.mul_le_mono_pos_r in H; [|exact Pc]. fold n. split; [nia|].
    intros L. assert (r <> 0) by (intros ->; apply L, new_location_exact). nia.
  - intros z k HK. rewrite Xz. fold n in HK. intros H.
    assert (PY : 0 < Zpos m2 * 2 ^ (e2 + 1074)) by (apply zval_pos; lia).
    apply Z.mul_le_mono_pos_r with (Zpos m2 * 2 ^ (e2 + 1074)); [exact PY|]. rewrite Yz.
    eapply Z.le_trans; [|exact H]. apply Z.mul_le_mono_pos_r; [exact Pc|]. nia.
  - exists M, e'. auto.
Qed.

(** *** Square root *)
Lemma sqrt_core m1 e1 : bounded prec emax m1 e1 = true ->
  exists M e', dsqrt (S754_finite false m1 e1) = S754_finite false M e' /\
    bounded prec emax M e' = true /\
    forall z, mag z ->
      (z * z <= Zpos m1 * 2 ^ (e1 + 1074) * zone -> z <= Zpos M * 2 ^ (e' + 1074)) /\
      (Zpos m1 * 2 ^ (e1 + 1074) * zone <= z * z -> Zpos M * 2 ^ (e' + 1074) <= z).
Proof.
  intros V1. pose proof (bounded_spec _ _ V1) as (B1 & B1' & B53).
  unfold dsqrt. cbn [SFsqrt]. unfold SFsqrt_core_binary. cbn [Zdigits2]. change (fexp prec emax) with fexp'.
  pose proof (digits2_bounds m1) as [A1 A1']. set (d := Zpos (digits2_pos m1)) in *.
  assert (D1 : 1 <= d) by lia.
  assert (D53 : d <= 53).
  { destruct (Z.le_gt_cases d 53) as [|X]; auto.
    assert (2 ^ 53 <= 2 ^ (d - 1)) by (apply Z.pow_le_mono_r; lia). lia. }
  rewrite fexp_eq, !Z.div2_div. set (t := (d + e1 + 1) / 2). set (h := e1 / 2).
  assert (HT : 2 * t <= d + e1 + 1 < 2 * t + 2) by (unfold t; pose proof (Z.div_mod (d + e1 + 1) 2); pose proof (Z.mod_pos_bound (d + e1 + 1) 2); lia).
  assert (HH : 2 * h <= e1 < 2 * h + 2) by (unfold h; pose proof (Z.div_mod e1 2); pose proof (Z.mod_pos_bound e1 2); lia).
  replace (Z.max (t - 53) (-1074)) with (t - 53) by lia.
  set (e := Z.min (t - 53) h). set (s := e1 - 2 * e).
  assert (Hs : 0 <= s) by lia. assert (Hs2 : 105 - d <= s) by lia.
  assert (SH : match s with Zpos _ => Z.shiftl (Zpos m1) s | 0 => Zpos m1 | Zneg _ => 0 end = Zpos m1 * 2 ^ s).
  { destruct s eqn:X; try lia. rewrite Z.shiftl_mul_pow2 by lia. reflexivity. }
  rewrite SH. clear SH. set (m' := Zpos m1 * 2 ^ s).
  assert (Ps : 0 < 2 ^ s) by (apply Z.pow_pos_nonneg; lia).
  assert (Pm : 0 <= m') by (unfold m'; nia).
  pose proof (Z.sqrtrem_spec m' Pm) as DM. destruct (Z.sqrtrem m') as [q r].
  destruct DM as [DM RM].
  assert (L1 : 2 ^ (d - 1 + s) <= m') by (rewrite Z.pow_add_r by lia; unfold m'; nia).
  assert (L2 : m' < 2 ^ (d + s)) by (rewrite Z.pow_add_r by lia; unfold m'; nia).
  assert (Pq : 0 < q).
  { destruct (Z.le_gt_cases q 0) as [X|]; auto. assert (0 < 2 ^ (d - 1 + s)) by (apply Z.pow_pos_nonneg; lia). nia. }
  destruct q as [|p|p]; try lia.
  pose proof (digits2_bounds p) as [A3 A3']. set (dq := Zpos (digits2_pos p)) in *.
  assert (DQ1 : d + s <= 2 * dq).
  { destruct (Z.le_gt_cases (d + s) (2 * dq)) as [|X]; auto. exfalso.
    assert (2 ^ (dq + dq) <= 2 ^ (d - 1 + s)) by (apply Z.pow_le_mono_r; lia).
    rewrite Z.pow_add_r in H by lia. nia. }
  assert (DQ2 : 2 * dq - 2 < d + s).
  { destruct (Z.lt_ge_cases (2 * dq - 2) (d + s)) as [|X]; auto. exfalso.
    assert (2 ^ (d + s) <= 2 ^ ((dq - 1) + (dq - 1))) by (apply Z.pow_le_mono_r; lia).
    rewrite (Z.pow_add_r 2 (dq - 1)) in H by lia. nia. }
  set (E := dq + e - 53). set (n := E - e).
  assert (Pn : 0 < 2 ^ n) by (apply Z.pow_pos_nonneg; lia).
  set (c := e + 1074). assert (Hc : 0 <= c) by lia. assert (Pc : 0 < 2 ^ c) by (apply Z.pow_pos_nonneg; lia).
  assert (Xz : Zpos m1 * 2 ^ (e1 + 1074) * zone = m' * (2 ^ c * 2 ^ c)).
  { unfold m'. rewrite zone_pow, <- !Z.mul_assoc, <- !Z.pow_add_r by lia. do 2 f_equal. lia. }
  assert (Yz : forall j, j * 2 ^ (E + 1074) = (j * 2 ^ n) * 2 ^ c).
  { intros j. rewrite <- Z.mul_assoc, <- Z.pow_add_r by lia. do 2 f_equal. lia. }
  destruct (loc_faithful false p e (if Zeq_bool r 0 then loc_Exact else loc_Inexact (if r <=? Zpos p then Lt else Gt)) E
    (fun z => 0 <= z -> z * z <= Zpos m1 * 2 ^ (e1 + 1074) * zone)
    (fun z => 0 <= z /\ Zpos m1 * 2 ^ (e1 + 1074) * zone <= z * z)) as (M & e' & R & V & F);
    [reflexivity|lia|lia| | | |].
  - intros j. rewrite Xz, Yz. intros H. fold n. destruct (Z.le_gt_cases j 0); [nia|].
    assert (J : 0 <= j * 2 ^ n) by nia.
    specialize (H ltac:(nia)).
    assert (H' : (j * 2 ^ n) * (j * 2 ^ n) * (2 ^ c * 2 ^ c) <= m' * (2 ^ c * 2 ^ c)) by lia.
    apply Z.mul_le_mono_pos_r in H'; [|nia]. nia.
  - intros j. rewrite Xz, Yz. intros [H0 H]. fold n.
    assert (J : 0 <= j * 2 ^ n) by nia.
    assert (H' : m' * (2 ^ c * 2 ^ c) <= (j * 2 ^ n) * (j * 2 ^ n) * (2 ^ c * 2 ^ c)) by lia.
    apply Z.mul_le_mono_pos_r in H'; [|nia]. split; [nia|].
    intros L. assert (r <> 0) by (intros ->; apply L; reflexivity). nia.
  - intros z k HK. rewrite Xz, Yz. fold n in HK. intros [H0 H].
    destruct (Z.le_gt_cases k 0); [nia|].
    assert (J : 0 <= k * 2 ^ n) by nia.
    assert ((k * 2 ^ n) * (k * 2 ^ n) <= m') by nia.
    assert ((k * 2 ^ n * 2 ^ c) * (k * 2 ^ n * 2 ^ c) <= z * z).
    { eapply Z.le_trans; [|exact H].
      replace ((k * 2 ^ n * 2 ^ c) * (k * 2 ^ n * 2 ^ c)) with ((k * 2 ^ n) * (k * 2 ^ n) * (2 ^ c * 2 ^ c)) by ring.
      apply Z.mul_le_mono_nonneg_r; nia. }
    assert (0 <= k * 2 ^ n * 2 ^ c) by nia. nia.
  - exists M, e'. split; [exact R|]. split; [exact V|]. intros z Mz. destruct (F z Mz) as [F1 F2].
    assert (0 <= z). { destruct Mz as [->|(mm & ee & Bm & ->)]; [lia|]. pose proof (bounded_spec _ _ Bm). pose proof (zval_pos mm ee). lia. }
    split; auto.
Qed.

(** *** For doubles *)
Lemma positive_double x : finite_double x -> 0 < zval x -> exists m e, x = S754_finite false m e /\ bounded prec emax m e = true.
Proof.
  intros [V F] P. destruct x as [s|s| |s m e]; try discriminate; cbn [zval] in P; try lia.
  exists m, e. split; [|exact V]. pose proof (bounded_spec m e V) as (E1 & _).
  pose proof (zval_pos m e (proj1 E1)). destruct s; [lia|reflexivity].
Qed.

Lemma mag_value z : finite_double z -> 0 <= zval z -> mag (zval z).
Proof. intros H P. rewrite <- (Z.abs_eq (zval z)) by lia. apply mag_abs. exact H. Qed.

Lemma dsqrt_rounds x : finite_double x -> 0 < zval x ->
  finite_double (dsqrt x) /\ 0 < zval (dsqrt x) /\
  forall z, finite_double z -> 0 <= zval z ->
    (zval z * zval z <= zval x * zone -> zval z <= zval (dsqrt x)) /\
    (zval x * zone <= zval z * zval z -> zval (dsqrt x) <= zval z).
Proof.
  intros H P. destruct (positive_double x H P) as (m & e & -> & V).
  destruct (sqrt_core m e V) as (M & e' & R & VM & F). rewrite R.
  assert (B := bounded_spec _ _ VM). split; [split; [exact VM|reflexivity]|].
  split; [cbn [zval]; apply zval_pos; lia|]. intros z Hz Pz. cbn [zval]. apply F, mag_value; auto.
Qed.

Lemma ddiv_rounds x y : finite_double x -> finite_double y -> 0 < zval x -> 0 < zval y ->
  zval x <= zval y * 2 ^ 500 -> zval y <= zval x * 2 ^ 500 ->
  finite_double (ddiv x y) /\ 0 < zval (ddiv x y) /\
  forall z, finite_double z -> 0 <= zval z ->
    (zval z * zval y <= zval x * zone -> zval z <= zval (ddiv x y)) /\
    (zval x * zone <= zval z * zval y -> zval (ddiv x y) <= zval z).
Proof.
  intros Hx Hy Px Py R1 R2.
  destruct (positive_double x Hx Px) as (m1 & e1 & -> & V1). destruct (positive_double y Hy Py) as (m2 & e2 & -> & V2).
  cbn [zval] in R1, R2. pose proof (bounded_spec _ _ V1) as (B1 & _). pose proof (bounded_spec _ _ V2) as (B2 & _).
  pose proof (digits2_bounds m1) as [A1 A1']. pose proof (digits2_bounds m2) as [A2 A2'].
  destruct (div_core m1 e1 m2 e2 _ V1 V2 eq_refl) as (M & e' & R & VM & F).
  { set (d1 := Zpos (digits2_pos m1)) in *. set (d2 := Zpos (digits2_pos m2)) in *.
    assert (1 <= d1) by lia. assert (1 <= d2) by lia.
    assert (U : forall a b a' b' p q, 0 <= p -> 0 <= q -> 1 <= a -> 1 <= b -> 2 ^ (a - 1) <= Zpos a' -> Zpos b' < 2 ^ b ->
      Zpos a' * 2 ^ p <= Zpos b' * 2 ^ q * 2 ^ 500 -> a + p <= b + q + 501).
    { intros a b a' b' p q Hp Hq Ha Hb L U Le. destruct (Z.le_gt_cases (a + p) (b + q + 501)) as [|X]; auto. exfalso.
      assert (0 < 2 ^ p) by (apply Z.pow_pos_nonneg; lia). assert (0 < 2 ^ q) by (apply Z.pow_pos_nonneg; lia).
      assert (2 ^ (b + q + 500) <= 2 ^ (a - 1 + p)) by (apply Z.pow_le_mono_r; lia).
      rewrite !Z.pow_add_r in H3 by lia.
      assert (Zpos b' * 2 ^ q * 2 ^ 500 < 2 ^ b * 2 ^ q * 2 ^ 500).
      { apply Z.mul_lt_mono_pos_r; [apply Z.pow_pos_nonneg; lia|]. nia. }
      assert (2 ^ (a - 1) * 2 ^ p <= Zpos a' * 2 ^ p) by nia. lia. }
    pose proof (U d1 d2 m1 m2 (e1 + 1074) (e2 + 1074)). pose proof (U d2 d1 m2 m1 (e2 + 1074) (e1 + 1074)). lia. }
  rewrite R. assert (B := bounded_spec _ _ VM). split; [split; [exact VM|reflexivity]|].
  split; [cbn [zval]; apply zval_pos; lia|]. intros z Hz Pz. cbn [zval]. apply F, mag_value; auto.
Qed.
