(** The two branches of strong branching, computed in floating point: ceil(v - 1 - eps) and
    floor(v + 1 -/+ eps) (lpi_soplex.cc:285,342; lpi_glop.cc:696,715). *)
From Coq Require Import ZArith Bool SpecFloat Lia.
From Verif Require Import Double DoubleFacts Rounding ProblemSpec SoplexSpec.
Open Scope Z_scope.

(** Multiples of 2^-j below 2^53 of them are doubles. *)
Lemma grid_double n j : 0 <= j <= 1000 -> Z.abs n < 2 ^ 53 -> exists y, finite_double y /\ zval y = n * 2 ^ (1074 - j).
Proof.
  intros Hj Hn. destruct (Z.eq_dec n 0) as [->|N]. { exists d0. split; [exact zero_double|reflexivity]. }
  assert (K : forall p, Zpos p < 2 ^ 53 -> exists q e, bounded prec emax q e = true /\ Zpos q * 2 ^ (e + 1074) = Zpos p * 2 ^ (1074 - j)).
  { intros p Hp. destruct (dint_mag p Hp) as [E B]. set (d := Zpos (digits2_pos p)) in *.
    pose proof (digits2_bounds p) as [L U]. fold d in L, U.
    assert (Hd : 0 < d <= 53).
    { split; [unfold d; lia|]. destruct (Z.le_gt_cases d 53); auto. exfalso.
      assert (2 ^ 53 <= 2 ^ (d - 1)) by (apply Z.pow_le_mono_r; lia). lia. }
    exists (Pos.shiftl p (Z.to_N (53 - d))), (d - 53 - j). split.
    - apply bounded_intro; [lia|]. left.
      apply digits2_unique. 
      assert (Zpos (Pos.shiftl p (Z.to_N (53 - d))) = Zpos p * 2 ^ (53 - d)) as ->.
      { rewrite shiftl_pos, Z2N.id by lia. auto. }
      replace (2 ^ (53 - 1)) with (2 ^ (d - 1) * 2 ^ (53 - d)) by (rewrite <- Z.pow_add_r by lia; f_equal; lia).
      replace (2 ^ 53) with (2 ^ d * 2 ^ (53 - d)) by (rewrite <- Z.pow_add_r by lia; f_equal; lia).
      assert (0 < 2 ^ (53 - d)) by (apply Z.pow_pos_nonneg; lia). nia.
    - rewrite shiftl_pos, Z2N.id by lia. rewrite <- Z.mul_assoc, <- Z.pow_add_r by lia. f_equal. f_equal. lia. }
  destruct n as [|p|p]; [lia| |].
  - destruct (K p) as (q & e & B & E); [lia|]. exists (S754_finite false q e). split; [split; auto|]. exact E.
  - destruct (K p) as (q & e & B & E); [lia|]. exists (S754_finite true q e). split; [split; auto|]. cbn [zval]. lia.
Qed.

Section Cover.
Variables (j k : Z) (v eps : double).
Hypothesis J : 0 <= j <= 40.
Hypothesis Kb : Z.abs k < 2 ^ (50 - j).
Hypothesis Fv : finite_double v.
Hypothesis Fe : finite_double eps.
Hypothesis E0 : 0 <= zval eps.
Hypothesis E1 : zval eps * 2 ^ (j + 1) <= zone.
Hypothesis V0 : (k * 2 ^ j + 1) * zone <= zval v * 2 ^ j.
Hypothesis V1 : zval v * 2 ^ j <= ((k + 1) * 2 ^ j - 1) * zone.

Let U := 2 ^ (1074 - (j + 1)).
Let zone_U : zone = 2 * 2 ^ j * U.
Proof. unfold zone, U. change 2 with (2 ^ 1) at 2. rewrite <- !Z.pow_add_r by lia. f_equal. lia. Qed.
Let U_pos : 0 < U. Proof. apply Z.pow_pos_nonneg; lia. Qed.
Let P_pos : 0 < 2 ^ j. Proof. apply Z.pow_pos_nonneg; lia. Qed.
Let eps_U : zval eps <= U.
Proof. rewrite Z.pow_add_r in E1 by lia. change (2 ^ 1) with 2 in E1. rewrite zone_U in E1. nia. Qed.
Let v_lo : k * zone + 2 * U <= zval v. Proof. rewrite zone_U in *. nia. Qed.
Let v_hi : zval v <= (k + 1) * zone - 2 * U. Proof. rewrite zone_U in *. nia. Qed.
Let near n : Z.abs n <= 2 * 2 ^ j * 3 -> exists y, finite_double y /\ zval y = k * zone + n * U.
Proof.
  intros Hn. destruct (grid_double (k * (2 * 2 ^ j) + n) (j + 1)) as (y & Fy & Ey); [lia| |].
  - assert (Z.abs k * 2 ^ j < 2 ^ 50).
    { replace (2 ^ 50) with (2 ^ (50 - j) * 2 ^ j) by (rewrite <- Z.pow_add_r by lia; f_equal; lia). nia. }
    assert (2 ^ j <= 2 ^ 40) by (apply Z.pow_le_mono_r; lia).
    change (2 ^ 53) with (8 * 2 ^ 50). change (2 ^ 50) with (1024 * 2 ^ 40) in *. nia.
  - exists y. split; auto. rewrite Ey, zone_U. fold U. ring.
Qed.
Let between a b m n r : rounds_to m r -> Z.abs a <= 2 * 2 ^ j * 3 -> Z.abs b <= 2 * 2 ^ j * 3 ->
  m = n -> k * zone + a * U <= n <= k * zone + b * U -> finite_double r /\ k * zone + a * U <= zval r <= k * zone + b * U.
Proof.
  intros R Ha Hb -> H. destruct (near a Ha) as (x & Fx & Ex). destruct (near b Hb) as (y & Fy & Ey).
  rewrite <- Ex, <- Ey in *. apply (rounds_between _ _ x y R); auto.
Qed.
Let floor_at x n : finite_double x -> n * zone <= zval x < (n + 1) * zone ->
  finite_double (dfloor x) /\ zval (dfloor x) = n * zone.
Proof.
  intros F H. destruct (floor_double x F) as [A B]. split; auto. rewrite B. f_equal.
  pose proof zone_pos. symmetry. apply (Z.div_unique_pos _ _ _ (zval x - n * zone)); lia.
Qed.
Let ceil_at x n : finite_double x -> (n - 1) * zone < zval x <= n * zone ->
  finite_double (dceil x) /\ zval (dceil x) = n * zone.
Proof.
  intros [V F] H. unfold dceil. destruct (dopp_spec x V F) as (V' & F' & E').
  destruct (floor_at (dopp x) (- n)) as [[A A'] B]; [split; auto|rewrite E'; lia|].
  destruct (dopp_spec _ A A') as (V2 & F2 & E2). split; [split; auto|]. rewrite E2, B. ring.
Qed.

Lemma down_branch : finite_double (dceil (dsub (dsub v d1) eps)) /\ zval (dceil (dsub (dsub v d1) eps)) = k * zone.
Proof.
  destruct one_double as [O1 O2].
  destruct (between (2 - 2 * 2 ^ j) (-2) _ (zval v - zone) _ (dsub_rounds v d1 Fv O1)) as [F1 R1];
    [lia|lia|rewrite O2; auto|rewrite zone_U in *; nia|].
  destruct (between (1 - 2 * 2 ^ j) (-2) _ (zval (dsub v d1) - zval eps) _ (dsub_rounds _ eps F1 Fe)) as [F2 R2];
    [lia|lia|auto|nia|].
  apply ceil_at; auto. rewrite zone_U in *. nia.
Qed.
Lemma up_branch_minus : finite_double (dfloor (dsub (dadd v d1) eps)) /\
  zval (dfloor (dsub (dadd v d1) eps)) = (k + 1) * zone.
Proof.
  destruct one_double as [O1 O2].
  destruct (between (2 + 2 * 2 ^ j) (4 * 2 ^ j - 2) _ (zval v + zone) _ (dadd_rounds v d1 Fv O1)) as [F1 R1];
    [lia|lia|rewrite O2; auto|rewrite zone_U in *; nia|].
  destruct (between (1 + 2 * 2 ^ j) (4 * 2 ^ j - 2) _ (zval (dadd v d1) - zval eps) _ (dsub_rounds _ eps F1 Fe)) as [F2 R2];
    [lia|lia|auto|nia|].
  apply floor_at; auto. rewrite zone_U in *. nia.
Qed.
Lemma up_branch_plus : finite_double (dfloor (dadd (dadd v d1) eps)) /\
  zval (dfloor (dadd (dadd v d1) eps)) = (k + 1) * zone.
Proof.
  destruct one_double as [O1 O2].
  destruct (between (2 + 2 * 2 ^ j) (4 * 2 ^ j - 2) _ (zval v + zone) _ (dadd_rounds v d1 Fv O1)) as [F1 R1];
    [lia|lia|rewrite O2; auto|rewrite zone_U in *; nia|].
  destruct (between (2 + 2 * 2 ^ j) (4 * 2 ^ j - 1) _ (zval (dadd v d1) + zval eps) _ (dadd_rounds _ eps F1 Fe)) as [F2 R2];
    [lia|lia|auto|nia|].
  apply floor_at; auto. rewrite zone_U in *. nia.
Qed.
End Cover.

Lemma fractional_between j v : fractional_by j v -> exists k, Z.abs k < 2 ^ (50 - j) /\
  (k * 2 ^ j + 1) * zone <= zval v * 2 ^ j <= ((k + 1) * 2 ^ j - 1) * zone.
Proof.
  intros (J & Vv & Fv & B & H). exists (zval v / zone). pose proof zone_pos as Z0.
  assert (P : 0 < 2 ^ j) by (apply Z.pow_pos_nonneg; lia).
  pose proof (Z.mul_div_le (zval v) zone Z0) as L. pose proof (Z.mul_succ_div_gt (zval v) zone Z0) as G. unfold Z.succ in G.
  set (k := zval v / zone) in *. split.
  - replace (50 - j) with (1 + (49 - j)) by lia. rewrite Z.pow_add_r by lia. change (2 ^ 1) with 2.
    assert (1 <= 2 ^ (49 - j)) by (apply (Z.pow_le_mono_r 2 0 (49 - j)); lia).
    set (Q := 2 ^ (49 - j)) in *. assert (k < Q) by (apply (Z.mul_lt_mono_pos_l zone); lia).
    assert (- Q < k + 1) by (apply (Z.mul_lt_mono_pos_l zone); lia). lia.
  - pose proof (H k) as H1. pose proof (H (k + 1)) as H2. nia.
Qed.
Lemma whole_splits v hi lo k : finite_double v -> finite_double hi -> finite_double lo -> zval hi = k * zone ->
  zval lo = (k + 1) * zone -> k * zone < zval v < (k + 1) * zone -> splits v hi lo.
Proof.
  intros [Vv Fv] [Vh Fh] [Vl Fl] Eh El H. pose proof zone_pos. split.
  - intros z Vz Fz [n En]. rewrite !dleb_zval by auto. rewrite En, Eh, El.
    rewrite <- !Z.mul_le_mono_pos_r by auto. lia.
  - rewrite !dltb_zval by auto. lia.
Qed.
Lemma branches_split j v eps : fractional_by j v -> tolerance_below j eps ->
  splits v (dceil (dsub (dsub v d1) eps)) (dfloor (dsub (dadd v d1) eps)) /\
  splits v (dceil (dsub (dsub v d1) eps)) (dfloor (dadd (dadd v d1) eps)).
Proof.
  intros F (Ve & Fe & E0 & E1). destruct (fractional_between j v F) as (k & Kb & V0 & V1).
  destruct F as (J & Vv & Fv & _). pose proof zone_pos.
  assert (P : 0 < 2 ^ j) by (apply Z.pow_pos_nonneg; lia).
  pose proof (conj Vv Fv : finite_double v) as Hv. pose proof (conj Ve Fe : finite_double eps) as He.
  destruct (down_branch j k v eps J Kb Hv He E0 E1 V0 V1) as [A1 A2].
  destruct (up_branch_minus j k v eps J Kb Hv He E0 E1 V0 V1) as [B1 B2].
  destruct (up_branch_plus j k v eps J Kb Hv He E0 E1 V0 V1) as [C1 C2].
  split; apply (whole_splits v _ _ k); auto; nia.
Qed.
