(** Order and rounding facts about binary64, proved in Z (no axioms). *)
From Coq Require Import ZArith Lia Bool.
From Verif Require Import Num Double.
Open Scope Z_scope.

(** ** Digits and validity *)
Lemma digits2_bounds p :
  2 ^ (Zpos (digits2_pos p) - 1) <= Zpos p < 2 ^ Zpos (digits2_pos p).
Proof.
  induction p as [p IH|p IH|]; cbn [digits2_pos].
  - rewrite Pos2Z.inj_succ. unfold Z.succ.
    replace (Zpos (digits2_pos p) + 1 - 1) with (Zpos (digits2_pos p) - 1 + 1) by lia.
    rewrite !Z.pow_add_r by lia. change (2 ^ 1) with 2.
    lia.
  - rewrite Pos2Z.inj_succ. unfold Z.succ.
    replace (Zpos (digits2_pos p) + 1 - 1) with (Zpos (digits2_pos p) - 1 + 1) by lia.
    rewrite !Z.pow_add_r by lia. change (2 ^ 1) with 2.
    lia.
  - cbn. lia.
Qed.

Lemma bounded_spec m e : bounded prec emax m e = true ->
  -1074 <= e <= 971 /\ Zpos m < 2 ^ 53 /\ (e = -1074 \/ 2 ^ 52 <= Zpos m).
Proof.
  unfold bounded, canonical_mantissa, fexp, emin, prec, emax. intros H.
  apply andb_true_iff in H as [H1 H2]. apply Zeq_bool_eq in H1. apply Z.leb_le in H2.
  pose proof (digits2_bounds m) as [L U].
  set (d := Zpos (digits2_pos m)) in *.
  assert (Hd : d <= 53) by lia.
  split; [lia|]. split.
  - apply Z.lt_le_trans with (2 ^ d); auto. apply Z.pow_le_mono_r; lia.
  - destruct (Z.eq_dec d 53) as [E|E]; [|left; lia].
    right. rewrite E in L. exact L.
Qed.

Lemma bounded_intro m e : -1074 <= e <= 971 ->
  (Zpos (digits2_pos m) = 53 \/ (e = -1074 /\ Zpos (digits2_pos m) <= 53)) ->
  bounded prec emax m e = true.
Proof.
  unfold bounded, canonical_mantissa, fexp, emin, prec, emax. intros H1 H2.
  apply andb_true_iff; split; [|apply Z.leb_le; lia].
  apply Zeq_is_eq_bool. lia.
Qed.

(** ** Comparison is comparison of the numerical values *)
Lemma pow_scaled a b : 0 <= a -> 0 < 2 ^ a /\ (a < b -> 2 ^ b = 2 * 2 ^ (b - 1 - a) * 2 ^ a /\ 0 < 2 ^ (b - 1 - a)).
Proof.
  intros Ha. split; [apply Z.pow_pos_nonneg; lia|]. intros Hb. split.
  - replace b with (1 + (b - 1 - a) + a) at 1 by lia.
    rewrite !Z.pow_add_r by lia. reflexivity.
  - apply Z.pow_pos_nonneg; lia.
Qed.

Lemma mag_compare m1 e1 m2 e2 :
  bounded prec emax m1 e1 = true -> bounded prec emax m2 e2 = true ->
  (Zpos m1 * 2 ^ (e1 + 1074) ?= Zpos m2 * 2 ^ (e2 + 1074)) =
  match e1 ?= e2 with Eq => Pos.compare_cont Eq m1 m2 | c => c end.
Proof.
  intros B1 B2. apply bounded_spec in B1 as (R1 & U1 & C1). apply bounded_spec in B2 as (R2 & U2 & C2).
  change (2 ^ 53) with (2 * 2 ^ 52) in *.
  assert (P52 : 0 < 2 ^ 52) by reflexivity.
  set (K := 2 ^ 52) in *. clearbody K.
  destruct (Z.compare_spec e1 e2) as [E|E|E].
  - subst e2. change (Pos.compare_cont Eq m1 m2) with (Zpos m1 ?= Zpos m2).
    assert (0 < 2 ^ (e1 + 1074)) by (apply Z.pow_pos_nonneg; lia).
    rewrite <- Zmult_compare_compat_r by lia. reflexivity.
  - apply Z.compare_lt_iff.
    destruct (pow_scaled (e1 + 1074) (e2 + 1074)) as [P Q]; [lia|].
    destruct Q as [Q1 Q2]; [lia|]. rewrite Q1.
    set (a := 2 ^ (e1 + 1074)) in *. set (b := 2 ^ (e2 + 1074 - 1 - (e1 + 1074))) in *.
    clearbody a b. assert (K <= Zpos m2) by lia.
    assert (Zpos m1 < Zpos m2 * (2 * b)) by nia.
    replace (Zpos m2 * (2 * b * a)) with (Zpos m2 * (2 * b) * a) by ring.
    apply Z.mul_lt_mono_pos_r; lia.
  - apply Z.compare_gt_iff.
    destruct (pow_scaled (e2 + 1074) (e1 + 1074)) as [P Q]; [lia|].
    destruct Q as [Q1 Q2]; [lia|]. rewrite Q1.
    set (a := 2 ^ (e2 + 1074)) in *. set (b := 2 ^ (e1 + 1074 - 1 - (e2 + 1074))) in *.
    clearbody a b. assert (K <= Zpos m1) by lia.
    assert (Zpos m2 < Zpos m1 * (2 * b)) by nia.
    replace (Zpos m1 * (2 * b * a)) with (Zpos m1 * (2 * b) * a) by ring.
    apply Z.mul_lt_mono_pos_r; lia.
Qed.

Lemma zval_pos m e : -1074 <= e -> 0 < Zpos m * 2 ^ (e + 1074).
Proof. intros. apply Z.mul_pos_pos; [lia|]. apply Z.pow_pos_nonneg; lia. Qed.

Lemma compare_zval x y : dvalid x = true -> dvalid y = true ->
  is_finite x = true -> is_finite y = true ->
  SFcompare x y = Some (zval x ?= zval y).
Proof.
  intros Vx Vy Fx Fy.
  destruct x as [sx|sx| |sx mx ex]; try discriminate;
  destruct y as [sy|sy| |sy my ey]; try discriminate; cbn [SFcompare zval]; f_equal.
  - pose proof (bounded_spec _ _ Vy) as [R _].
    pose proof (zval_pos my ey ltac:(lia)) as P.
    destruct sy; symmetry; [apply Z.compare_gt_iff|apply Z.compare_lt_iff]; lia.
  - pose proof (bounded_spec _ _ Vx) as [R _].
    pose proof (zval_pos mx ex ltac:(lia)) as P.
    destruct sx; symmetry; [apply Z.compare_lt_iff|apply Z.compare_gt_iff]; lia.
  - pose proof (bounded_spec _ _ Vy) as [Ry _].
    pose proof (zval_pos my ey ltac:(lia)) as Py.
    pose proof (bounded_spec _ _ Vx) as [Rx _].
    pose proof (zval_pos mx ex ltac:(lia)) as Px.
    pose proof (mag_compare mx ex my ey Vx Vy) as M.
    destruct sx, sy.
    + rewrite !Z.mul_opp_l, Z.compare_opp, (Z.compare_antisym (Zpos mx * _)), M.
      destruct (ex ?= ey); auto.
    + symmetry; apply Z.compare_lt_iff; lia.
    + symmetry; apply Z.compare_gt_iff; lia.
    + rewrite M. destruct (ex ?= ey); auto.
Qed.

Lemma dleb_zval x y : dvalid x = true -> dvalid y = true ->
  is_finite x = true -> is_finite y = true -> (dleb x y = true <-> zval x <= zval y).
Proof.
  intros. unfold dleb, SFleb. rewrite compare_zval by auto.
  destruct (Z.compare_spec (zval x) (zval y)); split; intros; try lia; auto; discriminate.
Qed.

Lemma dltb_zval x y : dvalid x = true -> dvalid y = true ->
  is_finite x = true -> is_finite y = true -> (dltb x y = true <-> zval x < zval y).
Proof.
  intros. unfold dltb, SFltb. rewrite compare_zval by auto.
  destruct (Z.compare_spec (zval x) (zval y)); split; intros; try lia; auto; discriminate.
Qed.

Lemma deqb_zval x y : dvalid x = true -> dvalid y = true ->
  is_finite x = true -> is_finite y = true -> (deqb x y = true <-> zval x = zval y).
Proof.
  intros. unfold deqb, SFeqb. rewrite compare_zval by auto.
  destruct (Z.compare_spec (zval x) (zval y)); split; intros; try lia; auto; discriminate.
Qed.

(** ** Total order on non-NaN values (no validity needed) *)
Lemma SFcompare_refl x : is_nan x = false -> SFcompare x x = Some Eq.
Proof.
  destruct x as [s|s| |s m e]; cbn; intros H; try discriminate; auto.
  - destruct s; auto.
  - rewrite Z.compare_refl. change (Pos.compare_cont Eq m m) with (m ?= m)%positive.
    rewrite Pos.compare_refl. destruct s; auto.
Qed.

Lemma SFcompare_some x y : is_nan x = false -> is_nan y = false ->
  exists c, SFcompare x y = Some c.
Proof. destruct x, y; cbn; intros; try discriminate; eauto. Qed.

Lemma SFcompare_nan x y c : SFcompare x y = Some c -> is_nan x = false /\ is_nan y = false.
Proof. destruct x, y; cbn; intros; try discriminate; auto. Qed.

Lemma SFcompare_antisym x y :
  SFcompare y x = option_map CompOpp (SFcompare x y).
Proof.
  destruct x as [s1|s1| |s1 m1 e1], y as [s2|s2| |s2 m2 e2]; cbn; auto;
    try (destruct s1; auto; fail); try (destruct s2; auto; fail);
    try (destruct s1, s2; auto; fail).
  f_equal. rewrite (Z.compare_antisym e1 e2).
  change (Pos.compare_cont Eq m1 m2) with (m1 ?= m2)%positive.
  change (Pos.compare_cont Eq m2 m1) with (m2 ?= m1)%positive.
  rewrite (Pos.compare_antisym m1 m2).
  destruct s1, s2, (e1 ?= e2), (m1 ?= m2)%positive; auto.
Qed.

(** Lexicographic key. *)
Definition sgn_class (x : double) : Z :=
  match x with
  | S754_zero _ => 0
  | S754_infinity s => if s then -2 else 2
  | S754_nan => 0
  | S754_finite s _ _ => if s then -1 else 1
  end.

Definition le3 (x y : double) : Prop :=
  sgn_class x < sgn_class y \/
  sgn_class x = sgn_class y /\
  match x, y with
  | S754_finite false m1 e1, S754_finite _ m2 e2 => e1 < e2 \/ e1 = e2 /\ (m1 <= m2)%positive
  | S754_finite true m1 e1, S754_finite _ m2 e2 => e2 < e1 \/ e1 = e2 /\ (m2 <= m1)%positive
  | _, _ => True
  end.

Lemma dleb_le3 x y : is_nan x = false -> is_nan y = false -> (dleb x y = true <-> le3 x y).
Proof.
  intros Nx Ny. unfold dleb, SFleb, le3.
  destruct x as [s1|s1| |s1 m1 e1], y as [s2|s2| |s2 m2 e2]; cbn in *; try discriminate;
   try (destruct s1); try (destruct s2); try (split; [lia|]; intros; auto; lia);
   change (Pos.compare_cont Eq m1 m2) with (m1 ?= m2)%positive;
   destruct (Z.compare_spec e1 e2), (Pos.compare_spec m1 m2); cbn; split; try lia; auto; intros; lia.
Qed.

Lemma dleb_nan x y : dleb x y = true -> is_nan x = false /\ is_nan y = false.
Proof.
  unfold dleb, SFleb. destruct (SFcompare x y) eqn:E; [|discriminate].
  intros _. eapply SFcompare_nan; eauto.
Qed.

Lemma dltb_nan x y : dltb x y = true -> is_nan x = false /\ is_nan y = false.
Proof.
  unfold dltb, SFltb. destruct (SFcompare x y) eqn:E; [|discriminate].
  intros _. eapply SFcompare_nan; eauto.
Qed.

Lemma dleb_refl x : is_nan x = false -> dleb x x = true.
Proof. intros H. unfold dleb, SFleb. rewrite SFcompare_refl; auto. Qed.

Lemma dleb_trans x y z : dleb x y = true -> dleb y z = true -> dleb x z = true.
Proof.
  intros H1 H2. pose proof (dleb_nan _ _ H1) as [Nx Ny]. pose proof (dleb_nan _ _ H2) as [_ Nz].
  apply dleb_le3 in H1; auto. apply dleb_le3 in H2; auto. apply dleb_le3; auto.
  unfold le3 in *.
  destruct x as [s1|s1| |s1 m1 e1], y as [s2|s2| |s2 m2 e2], z as [s3|s3| |s3 m3 e3];
    cbn in *; try discriminate;
   try (destruct s1); try (destruct s2); try (destruct s3); lia.
Qed.

Lemma dltb_negb x y : is_nan x = false -> is_nan y = false -> dltb x y = negb (dleb y x).
Proof.
  intros Nx Ny. unfold dltb, dleb, SFltb, SFleb. rewrite (SFcompare_antisym x y).
  destruct (SFcompare_some x y Nx Ny) as [c ->]. destruct c; auto.
Qed.

Lemma dltb_le x y : dltb x y = true -> dleb x y = true.
Proof. unfold dltb, dleb, SFltb, SFleb. destruct (SFcompare x y) as [[]|]; auto. Qed.

Lemma dleb_total x y : is_nan x = false -> is_nan y = false ->
  dleb x y = true \/ dleb y x = true.
Proof.
  intros Nx Ny. destruct (dleb x y) eqn:E; auto. right.
  apply dltb_le. rewrite dltb_negb; auto. rewrite E; auto.
Qed.

Lemma dltb_irrefl x : dltb x x = false.
Proof.
  unfold dltb, SFltb. destruct (is_nan x) eqn:E.
  - destruct x; cbn in *; try discriminate; auto.
  - rewrite SFcompare_refl; auto.
Qed.

Lemma dlt_le_trans x y z : dltb x y = true -> dleb y z = true -> dltb x z = true.
Proof.
  intros H1 H2. pose proof (dltb_nan _ _ H1) as [Nx Ny]. pose proof (dleb_nan _ _ H2) as [_ Nz].
  rewrite dltb_negb; auto. destruct (dleb z x) eqn:E; auto.
  pose proof (dleb_trans _ _ _ H2 E) as C. rewrite dltb_negb in H1; auto.
  rewrite C in H1. discriminate.
Qed.

Lemma dle_lt_trans x y z : dleb x y = true -> dltb y z = true -> dltb x z = true.
Proof.
  intros H1 H2. pose proof (dleb_nan _ _ H1) as [Nx Ny]. pose proof (dltb_nan _ _ H2) as [_ Nz].
  rewrite dltb_negb; auto. destruct (dleb z x) eqn:E; auto.
  pose proof (dleb_trans _ _ _ E H1) as C. rewrite dltb_negb in H2; auto.
  rewrite C in H2. discriminate.
Qed.

Lemma dltb_trans x y z : dltb x y = true -> dltb y z = true -> dltb x z = true.
Proof. intros H1 H2. eapply dlt_le_trans; eauto. apply dltb_le; auto. Qed.

(** max / min *)
Lemma dmax_le_l a b : is_nan a = false -> dleb a (dmax a b) = true.
Proof.
  intros H. unfold dmax. destruct (dltb a b) eqn:E; [apply dltb_le; auto|apply dleb_refl; auto].
Qed.
Lemma dmin_le_l a b : is_nan a = false -> dleb (dmin a b) a = true.
Proof.
  intros H. unfold dmin. destruct (dltb b a) eqn:E; [apply dltb_le; auto|apply dleb_refl; auto].
Qed.
Lemma dmax_le_r a b : is_nan a = false -> is_nan b = false -> dleb b (dmax a b) = true.
Proof.
  intros Ha Hb. unfold dmax. destruct (dltb a b) eqn:E; [apply dleb_refl; auto|].
  rewrite dltb_negb in E; auto. destruct (dleb b a); auto; discriminate.
Qed.
Lemma dmin_le_r a b : is_nan a = false -> is_nan b = false -> dleb (dmin a b) b = true.
Proof.
  intros Ha Hb. unfold dmin. destruct (dltb b a) eqn:E; [apply dleb_refl; auto|].
  rewrite dltb_negb in E; auto. destruct (dleb a b); auto; discriminate.
Qed.

(** ** Integers and floor / ceil *)
Lemma zone_pos : 0 < zone.
Proof. apply Z.pow_pos_nonneg; lia. Qed.

Lemma zone_split k : 0 <= k <= 1074 -> zone = 2 ^ k * 2 ^ (1074 - k).
Proof. intros. unfold zone. rewrite <- Z.pow_add_r by lia. f_equal. lia. Qed.

Opaque zone.

Lemma shiftl_pos p n : Zpos (Pos.shiftl p n) = Zpos p * 2 ^ Z.of_N n.
Proof.
  destruct n as [|n]; [cbn; lia|]. cbn [Z.of_N Pos.shiftl].
  revert p. induction n as [|n IHn] using Pos.peano_ind; intros p.
  - cbn. lia.
  - rewrite Pos.iter_succ, Pos2Z.inj_xO, IHn.
    rewrite Pos2Z.inj_succ, Z.pow_succ_r by lia. ring.
Qed.

Lemma digits2_unique p d : 2 ^ (d - 1) <= Zpos p < 2 ^ d -> Zpos (digits2_pos p) = d.
Proof.
  intros [L U]. pose proof (digits2_bounds p) as [L' U'].
  set (k := Zpos (digits2_pos p)) in *.
  assert (0 < d) by (destruct (Z.lt_ge_cases 0 d); auto; exfalso;
    assert (2 ^ d <= 2 ^ 0) by (apply Z.pow_le_mono_r; lia); cbn in *; lia).
  destruct (Z.lt_trichotomy k d) as [H'|[H'|H']]; auto; exfalso.
  - assert (2 ^ k <= 2 ^ (d - 1)) by (apply Z.pow_le_mono_r; lia). lia.
  - assert (2 ^ d <= 2 ^ (k - 1)) by (apply Z.pow_le_mono_r; lia). lia.
Qed.

Lemma dint_mag p : Zpos p < 2 ^ 53 ->
  let d := Zpos (digits2_pos p) in
  Zpos (Pos.shiftl p (Z.to_N (53 - d))) * 2 ^ (d - 53 + 1074) = Zpos p * zone /\
  bounded prec emax (Pos.shiftl p (Z.to_N (53 - d))) (d - 53) = true.
Proof.
  intros H d. pose proof (digits2_bounds p) as [L U]. fold d in L, U.
  assert (Hd : d <= 53).
  { destruct (Z.le_gt_cases d 53); auto. exfalso.
    assert (2 ^ 53 <= 2 ^ (d - 1)) by (apply Z.pow_le_mono_r; lia). lia. }
  assert (0 < d) by (unfold d; lia).
  rewrite shiftl_pos, Z2N.id by lia. split.
  - rewrite <- Z.mul_assoc, <- Z.pow_add_r by lia.
    replace (53 - d + (d - 53 + 1074)) with 1074 by lia. reflexivity.
  - apply bounded_intro; [lia|]. left. apply digits2_unique.
    rewrite shiftl_pos, Z2N.id by lia. change (53 - 1) with 52.
    replace 52 with ((d - 1) + (53 - d)) at 1 by lia.
    replace (2 ^ 53) with (2 ^ (d + (53 - d))) by (f_equal; lia).
    rewrite !Z.pow_add_r by lia.
    assert (0 < 2 ^ (53 - d)) by (apply Z.pow_pos_nonneg; lia). nia.
Qed.

Lemma dint_spec b n : Z.abs n < 2 ^ 53 ->
  dvalid (dint_ b n) = true /\ is_finite (dint_ b n) = true /\ zval (dint_ b n) = n * zone.
Proof.
  intros H. destruct n as [|p|p]; cbn [dint_ is_finite].
  - auto.
  - destruct (dint_mag p H) as [E B]. repeat split; auto.
  - destruct (dint_mag p H) as [E B]. repeat split; auto.
    cbn [zval]. rewrite Z.mul_opp_l, E. lia.
Qed.

Lemma dopp_spec x : dvalid x = true -> is_finite x = true ->
  dvalid (dopp x) = true /\ is_finite (dopp x) = true /\ zval (dopp x) = - zval x.
Proof.
  destruct x as [s|s| |s m e]; intros V F; try discriminate; auto.
  repeat split; auto. cbn [dopp SFopp zval]. destruct s; cbn [negb]; lia.
Qed.

Lemma dfloor_spec x : dvalid x = true -> is_finite x = true ->
  dvalid (dfloor x) = true /\ is_finite (dfloor x) = true /\
  zval (dfloor x) = (zval x / zone) * zone.
Proof.
  intros V F. destruct x as [s|s| |s m e]; try discriminate.
  - cbn. auto.
  - unfold dfloor. pose proof (bounded_spec _ _ V) as (R & U & _).
    destruct (Z.leb_spec 0 e) as [L|L].
    + repeat split; auto. cbn [zval].
      assert (E : 2 ^ (e + 1074) = 2 ^ e * zone).
      { rewrite Z.pow_add_r by lia. reflexivity. }
      rewrite E, Z.mul_assoc, Z.div_mul; auto. pose proof zone_pos; lia.
    + set (n := if s then - Zpos m else Zpos m).
      assert (Hk : 2 <= 2 ^ (- e)) by (change 2 with (2 ^ 1) at 1; apply Z.pow_le_mono_r; lia).
      assert (Q : zval (S754_finite s m e) / zone = n / 2 ^ (- e)).
      { cbn [zval]. fold n. rewrite (zone_split (- e)) by lia.
        replace (1074 - - e) with (e + 1074) by lia.
        apply Z.div_mul_cancel_r; [lia|].
        assert (0 < 2 ^ (e + 1074)) by (apply Z.pow_pos_nonneg; lia). lia. }
      rewrite Q. apply dint_spec.
      assert (Hn : Z.abs n < 2 ^ 53) by (unfold n; destruct s; lia).
      set (k := 2 ^ (- e)) in *. set (B := 2 ^ 53) in *.
      assert (Z.abs (n / k) <= Z.abs n); [|lia].
      clearbody n k. clear - Hk.
      pose proof (Z.div_mod n k ltac:(lia)). pose proof (Z.mod_pos_bound n k ltac:(lia)).
      nia.
Qed.

Lemma dceil_spec x : dvalid x = true -> is_finite x = true ->
  dvalid (dceil x) = true /\ is_finite (dceil x) = true /\
  zval (dceil x) = - ((- zval x) / zone) * zone.
Proof.
  intros V F. unfold dceil.
  destruct (dopp_spec x V F) as (V1 & F1 & Z1).
  destruct (dfloor_spec _ V1 F1) as (V2 & F2 & Z2).
  destruct (dopp_spec _ V2 F2) as (V3 & F3 & Z3).
  repeat split; auto. rewrite Z3, Z2, Z1. lia.
Qed.

(** Integer against double. *)
Definition int_le (z : Z) (x : double) : Prop :=
  match x with
  | S754_infinity s => s = false
  | S754_nan => False
  | _ => z * zone <= zval x
  end.
Definition int_ge (z : Z) (x : double) : Prop :=
  match x with
  | S754_infinity s => s = true
  | S754_nan => False
  | _ => zval x <= z * zone
  end.

Lemma floor_mult z a u : 0 < u -> (z * u <= (a / u) * u <-> z * u <= a).
Proof.
  intros Hu. rewrite <- Z.mul_le_mono_pos_r by lia. split; intros H.
  - pose proof (Z.mul_div_le a u Hu). nia.
  - apply Z.div_le_lower_bound; lia.
Qed.

Lemma int_le_floor z x : dvalid x = true -> is_finite x = true ->
  (int_le z (dfloor x) <-> int_le z x).
Proof.
  intros V F. destruct (dfloor_spec x V F) as (V1 & F1 & E).
  assert (A : int_le z (dfloor x) <-> z * zone <= zval (dfloor x))
    by (destruct (dfloor x); cbn in *; try discriminate; tauto).
  assert (B : int_le z x <-> z * zone <= zval x)
    by (destruct x; cbn in *; try discriminate; tauto).
  rewrite A, B, E. apply floor_mult, zone_pos.
Qed.

Lemma int_ge_ceil z x : dvalid x = true -> is_finite x = true ->
  (int_ge z (dceil x) <-> int_ge z x).
Proof.
  intros V F. destruct (dceil_spec x V F) as (V1 & F1 & E).
  assert (A : int_ge z (dceil x) <-> zval (dceil x) <= z * zone)
    by (destruct (dceil x); cbn in *; try discriminate; tauto).
  assert (B : int_ge z x <-> zval x <= z * zone)
    by (destruct x; cbn in *; try discriminate; tauto).
  rewrite A, B, E. pose proof (floor_mult (- z) (- zval x) zone zone_pos). lia.
Qed.

Lemma int_le_mono z x y : dvalid x = true -> dvalid y = true ->
  int_le z x -> dleb x y = true -> int_le z y.
Proof.
  intros Vx Vy Hx H. pose proof (dleb_nan _ _ H) as [Nx Ny].
  destruct (is_finite x) eqn:Fx, (is_finite y) eqn:Fy.
  - apply dleb_zval in H; auto.
    destruct x; try discriminate; destruct y; try discriminate; cbn [int_le] in *; lia.
  - destruct y as [| s | |]; try discriminate. destruct s; cbn; auto.
    destruct x; try discriminate; cbn in H; discriminate.
  - destruct x as [| s | |]; try discriminate. cbn in Hx; subst.
    destruct y; discriminate.
  - destruct x as [| s | |]; try discriminate. cbn in Hx; subst.
    destruct y as [| s | |]; try discriminate. destruct s; cbn in *; auto; discriminate.
Qed.

Lemma int_ge_mono z x y : dvalid x = true -> dvalid y = true ->
  int_ge z x -> dleb y x = true -> int_ge z y.
Proof.
  intros Vx Vy Hx H. pose proof (dleb_nan _ _ H) as [Ny Nx].
  destruct (is_finite x) eqn:Fx, (is_finite y) eqn:Fy.
  - apply dleb_zval in H; auto.
    destruct x; try discriminate; destruct y; try discriminate; cbn [int_ge] in *; lia.
  - destruct y as [| s | |]; try discriminate. destruct s; cbn; auto.
    destruct x; try discriminate; cbn in H; discriminate.
  - destruct x as [| s | |]; try discriminate. cbn in Hx; subst.
    destruct y; discriminate.
  - destruct x as [| s | |]; try discriminate. cbn in Hx; subst.
    destruct y as [| s | |]; try discriminate. destruct s; cbn in *; auto; discriminate.
Qed.

(** No integer lies strictly between floor(v) and ceil(v). *)
Lemma floor_ceil_cover z v : dvalid v = true -> is_finite v = true ->
  int_le z (dfloor v) \/ int_ge z (dceil v).
Proof.
  intros V F. rewrite int_le_floor, int_ge_ceil by auto.
  destruct v; try discriminate; cbn [int_le int_ge]; lia.
Qed.
