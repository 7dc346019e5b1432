(** Binary64 addition and subtraction round faithfully: no double lies strictly between the
    exact and the computed result. *)
From Coq Require Import ZArith Bool Lia SpecFloat ZifyBool.
From Verif Require Import Num Double DoubleFacts DoubleExact.
Open Scope Z_scope.

Lemma shr_1_m r : 0 <= shr_m r -> shr_m (shr_1 r) = shr_m r / 2.
Proof.
  destruct r as [m a b]. cbn [shr_m shr_1]. intros H. destruct m as [|[p|p|]|p]; try lia; cbn [shr_m]; auto.
  - apply Z.div_unique with 1; lia.
  - apply Z.div_unique with 0; lia.
Qed.

Lemma iter_shr_m n : forall r, 0 <= shr_m r ->
  shr_m (SpecFloat.iter_pos shr_1 n r) = shr_m r / 2 ^ Zpos n.
Proof.
  assert (G : forall a k, 0 <= a -> 0 <= a / 2 ^ Zpos k).
  { intros. apply Z.div_pos; auto. apply Z.pow_pos_nonneg; lia. }
  assert (P : forall k, 0 < 2 ^ Zpos k) by (intros; apply Z.pow_pos_nonneg; lia).
  induction n as [n IH|n IH|]; intros r H; cbn [SpecFloat.iter_pos].
  - assert (0 <= shr_m (shr_1 r)) by (rewrite shr_1_m by auto; apply Z.div_pos; lia).
    rewrite IH by (rewrite IH by auto; auto). rewrite IH by auto. rewrite shr_1_m by auto.
    rewrite !Z.div_div by (try lia; specialize (P n); lia). f_equal.
    replace (Zpos (xI n)) with (1 + Zpos n + Zpos n) by lia. rewrite !Z.pow_add_r by lia. ring.
  - rewrite IH by (rewrite IH by auto; auto). rewrite IH by auto.
    rewrite !Z.div_div by (try lia; specialize (P n); lia). f_equal.
    replace (Zpos (xO n)) with (Zpos n + Zpos n) by lia. rewrite !Z.pow_add_r by lia. ring.
  - rewrite shr_1_m by auto. reflexivity.
Qed.

Lemma round_step m l : 0 <= m -> round_nearest_even m l = m \/ (round_nearest_even m l = m + 1 /\ l <> loc_Exact).
Proof.
  intros H. destruct l as [|[]]; cbn; auto; try (right; split; [reflexivity|discriminate]).
  destruct (Z.even m); auto. right; split; auto; discriminate.
Qed.

(** The magnitudes of finite doubles, in units. *)
Definition mag (y : Z) : Prop :=
  y = 0 \/ exists m e, bounded prec emax m e = true /\ y = Zpos m * 2 ^ (e + 1074).

Definition faithful (v w : Z) : Prop :=
  forall y, mag y -> (y <= v -> y <= w) /\ (v <= y -> w <= y).

Lemma pow_split a b : 0 <= a <= b -> 2 ^ b = 2 ^ (b - a) * 2 ^ a.
Proof. intros. rewrite <- Z.pow_add_r by lia. f_equal. lia. Qed.

(** Doubles at or above 2^(52+T) are multiples of 2^T. *)
Lemma mag_multiple y t : 0 <= t -> mag y -> 2 ^ (52 + t) <= y -> exists k, y = k * 2 ^ t.
Proof.
  intros Ht [->|(m & e & B & ->)] H; [exists 0; lia|].
  pose proof (bounded_spec _ _ B) as (E1 & E2 & E3).
  destruct (Z.le_gt_cases t (e + 1074)) as [L|L].
  - exists (Zpos m * 2 ^ (e + 1074 - t)). rewrite (pow_split t (e + 1074)) by lia. ring.
  - exfalso. assert (X : 2 ^ (52 + t) = 2 ^ (52 + t - (e + 1074)) * 2 ^ (e + 1074)) by (apply pow_split; lia).
    assert (Y : 2 ^ 53 <= 2 ^ (52 + t - (e + 1074))) by (apply Z.pow_le_mono_r; lia).
    assert (0 < 2 ^ (e + 1074)) by (apply Z.pow_pos_nonneg; lia). nia.
Qed.

Lemma faithful_near v w t k : 0 <= t -> 2 ^ 52 <= k -> k * 2 ^ t <= v < (k + 1) * 2 ^ t ->
  w = k * 2 ^ t \/ (w = (k + 1) * 2 ^ t /\ v <> k * 2 ^ t) -> faithful v w.
Proof.
  intros Ht Hk Hv Hw y My.
  assert (P : 0 < 2 ^ t) by (apply Z.pow_pos_nonneg; lia).
  assert (K : 2 ^ (52 + t) <= k * 2 ^ t) by (rewrite Z.pow_add_r by lia; nia).
  destruct (Z.lt_ge_cases y (2 ^ (52 + t))) as [L|L].
  - split; intros; destruct Hw as [-> |[-> _]]; nia.
  - destruct (mag_multiple y t Ht My L) as [j ->]. split; intros.
    + assert (j <= k) by nia. destruct Hw as [-> |[-> _]]; nia.
    + destruct Hw as [-> |[-> Hn]]; [nia|]. assert (k < j) by nia. nia.
Qed.

(** The rounding step when low bits have to go. *)
Lemma round_aux_cut s p e E : E = Z.max (Zpos (digits2_pos p) + e - 53) (-1074) -> -1074 <= e < E ->
  let n := E - e in let k := Zpos p / 2 ^ n in
  2 ^ 52 <= k < 2 ^ 53 /\
  exists m, (m = k \/ (m = k + 1 /\ Zpos p <> k * 2 ^ n)) /\
  binary_round_aux prec emax s (Zpos p) e loc_Exact =
    if (m =? 2 ^ 53) then (if E + 1 <=? 971 then S754_finite s (2 ^ 52) (E + 1) else S754_infinity s)
    else (if E <=? 971 then S754_finite s (Z.to_pos m) E else S754_infinity s).
Proof.
  intros HE He n k. pose proof (digits2_bounds p) as [A B]. set (d := Zpos (digits2_pos p)) in *.
  assert (EE : n = d - 53) by lia. assert (P : 0 < 2 ^ n) by (apply Z.pow_pos_nonneg; lia).
  assert (K : 2 ^ 52 <= k < 2 ^ 53).
  { unfold k. split.
    - apply Z.div_le_lower_bound; auto. rewrite <- Z.pow_add_r by lia. replace (n + 52) with (d - 1) by lia. auto.
    - apply Z.div_lt_upper_bound; auto. rewrite <- Z.pow_add_r by lia. replace (n + 53) with d by lia. auto. }
  split; [exact K|].
  unfold binary_round_aux, shr_fexp. cbn [Zdigits2]. change (fexp prec emax) with fexp'. fold d.
  rewrite fexp_eq, <- HE. fold n. cbn [shr_record_of_loc].
  destruct n as [|q|q] eqn:N; try lia. cbn [shr].
  set (r := SpecFloat.iter_pos shr_1 q (Build_shr_record (Zpos p) false false)).
  assert (R : shr_m r = k) by (unfold r; rewrite iter_shr_m by (cbn; lia); reflexivity).
  set (m := round_nearest_even (shr_m r) (loc_of_shr_record r)).
  replace (e + Zpos q) with E by lia.
  assert (M : m = k \/ (m = k + 1 /\ Zpos p <> k * 2 ^ Zpos q)).
  { unfold m. destruct (round_step (shr_m r) (loc_of_shr_record r)) as [H|[H HL]]; [lia|left; congruence|].
    right. split; [congruence|]. intros X. apply HL. unfold r. rewrite X.
    rewrite iter_shr by lia. reflexivity. }
  exists m. split; [exact M|].
  destruct (Z.eqb_spec m (2 ^ 53)) as [M53|M53].
  - rewrite M53. change (Zdigits2 (2 ^ 53)) with 54. rewrite fexp_eq.
    replace (Z.max (54 + E - 53) (-1074) - E) with 1 by lia. cbn [shr SpecFloat.iter_pos].
    change (2 ^ 53) with (2 * 2 ^ 52). rewrite shr_1_even by lia. cbn [shr_m].
    change (emax - prec) with 971. change (2 ^ 52) with (Zpos (2 ^ 52)). reflexivity.
  - assert (D : Zdigits2 m = 53).
    { apply zdigits_unique; [lia|]. change (53 - 1) with 52. lia. }
    rewrite D, fexp_eq. replace (Z.max (53 + E - 53) (-1074) - E) with 0 by lia. cbn [shr shr_m].
    change (emax - prec) with 971. destruct m as [|mp|mp]; try lia. reflexivity.
Qed.

Lemma bounded_normal m e : 2 ^ 52 <= Zpos m < 2 ^ 53 -> -1074 <= e <= 971 -> bounded prec emax m e = true.
Proof. intros Hm He. apply bounded_intro; auto. left. apply digits2_unique. exact Hm. Qed.

Lemma mag_max y : mag y -> y <= (2 ^ 53 - 1) * 2 ^ 2045.
Proof.
  intros [->|(m & e & B & ->)].
  - apply Z.mul_nonneg_nonneg; [lia|]. apply Z.pow_nonneg; lia.
  - pose proof (bounded_spec _ _ B) as (E1 & E2 & _).
    assert (2 ^ (e + 1074) <= 2 ^ 2045) by (apply Z.pow_le_mono_r; lia).
    assert (0 < 2 ^ (e + 1074)) by (apply Z.pow_pos_nonneg; lia). nia.
Qed.

Lemma round_faithful s p e : -1074 <= e -> let v := Zpos p * 2 ^ (e + 1074) in
  (exists q E, binary_round prec emax s p e = S754_finite s q E /\ bounded prec emax q E = true /\
     faithful v (Zpos q * 2 ^ (E + 1074))) \/
  (binary_round prec emax s p e = S754_infinity s /\ forall y, mag y -> y < v).
Proof.
  intros He v. set (E := Z.max (Zpos (digits2_pos p) + e - 53) (-1074)).
  pose proof (digits2_bounds p) as [A B]. set (d := Zpos (digits2_pos p)) in *.
  assert (PE : 0 < 2 ^ (e + 1074)) by (apply Z.pow_pos_nonneg; lia).
  destruct (Z.le_gt_cases E e) as [G|G].
  - destruct (Z.le_gt_cases E 971) as [G2|G2].
    + left. destruct (binary_round_exact s p e (E + 1074)) as (q & E' & R & V & W); try lia.
      * eapply Z.lt_le_trans; [apply Z.mul_lt_mono_pos_r; [exact PE|exact B]|].
        rewrite <- Z.pow_add_r by lia. apply Z.pow_le_mono_r; unfold E; lia.
      * exists (Zpos p * 2 ^ (e - E)). replace (e + 1074) with (e - E + (E + 1074)) by lia.
        rewrite Z.pow_add_r by (unfold E in *; lia). ring.
      * exists q, E'. split; [exact R|]. split; auto. rewrite W. intros y _. lia.
    + right. assert (EE : E = d + e - 53) by (unfold E in *; lia).
      assert (VB : 2 ^ (d - 1) * 2 ^ (e + 1074) <= v) by (unfold v; nia).
      rewrite <- Z.pow_add_r in VB by lia.
      assert (2 ^ (53 + 2045) <= v).
      { eapply Z.le_trans; [|exact VB]. apply Z.pow_le_mono_r; lia. }
      split; [|intros y My; apply mag_max in My; rewrite (Z.pow_add_r 2 53 2045) in H by lia;
        assert (0 < 2 ^ 2045) by (apply Z.pow_pos_nonneg; lia); nia].
      unfold binary_round, shl_align. change (fexp prec emax) with fexp'.
      rewrite fexp_eq. fold d. fold E.
      assert (X : exists q k, (let '(mz, ez) := match E - e with Zneg d0 => (shift_pos d0 p, E) | _ => (p, e) end in
         binary_round_aux prec emax s (Zpos mz) ez loc_Exact) = binary_round_aux prec emax s (Zpos q) E loc_Exact /\
         Zpos q = Zpos p * 2 ^ k /\ k = e - E).
      { destruct (E - e) as [|k|k] eqn:X; try lia.
        - exists p, 0. replace e with E by lia. split; [reflexivity|]. rewrite Z.pow_0_r; split; lia.
        - exists (shift_pos k p), (Zpos k). split; [reflexivity|]. rewrite shift_pos_spec. split; auto. lia. }
      destruct X as (q & k & -> & Q & KE).
      assert (DQ : Zpos (digits2_pos q) = 53).
      { apply digits2_unique. rewrite Q. assert (0 < 2 ^ k) by (apply Z.pow_pos_nonneg; lia).
        assert (P1 : 2 ^ (53 - 1) = 2 ^ (d - 1) * 2 ^ k) by (rewrite <- Z.pow_add_r by lia; f_equal; lia).
        assert (P2 : 2 ^ 53 = 2 ^ d * 2 ^ k) by (rewrite <- Z.pow_add_r by lia; f_equal; lia).
        rewrite P1, P2. nia. }
      unfold binary_round_aux, shr_fexp. cbn [Zdigits2 shr_record_of_loc]. change (fexp prec emax) with fexp'.
      rewrite DQ, fexp_eq. replace (Z.max (53 + E - 53) (-1074) - E) with 0 by lia.
      cbn [shr shr_m loc_of_shr_record round_nearest_even shr_record_of_loc Zdigits2].
      rewrite DQ, fexp_eq. replace (Z.max (53 + E - 53) (-1074) - E) with 0 by lia. cbn [shr shr_m].
      change (emax - prec) with 971. replace (E <=? 971) with false by lia. reflexivity.
  - destruct (round_aux_cut s p e E eq_refl ltac:(lia)) as (K & m & M & R).
    assert (S : binary_round prec emax s p e = binary_round_aux prec emax s (Zpos p) e loc_Exact).
    { unfold binary_round, shl_align. change (fexp prec emax) with fexp'. rewrite fexp_eq. fold d. fold E.
      destruct (E - e) eqn:X; auto; lia. }
    rewrite S, R. clear S R. set (n := E - e) in *. set (k := Zpos p / 2 ^ n) in *.
    assert (PN : 0 < 2 ^ n) by (apply Z.pow_pos_nonneg; lia).
    assert (SP : 2 ^ (E + 1074) = 2 ^ n * 2 ^ (e + 1074)) by (rewrite <- Z.pow_add_r by lia; f_equal; lia).
    assert (HP : k * 2 ^ n <= Zpos p < (k + 1) * 2 ^ n).
    { unfold k. pose proof (Z.mul_div_le (Zpos p) (2 ^ n) PN). pose proof (Z.mul_succ_div_gt (Zpos p) (2 ^ n) PN). lia. }
    assert (HV : k * 2 ^ (E + 1074) <= v < (k + 1) * 2 ^ (E + 1074)) by (rewrite SP; unfold v; nia).
    assert (F : faithful v (m * 2 ^ (E + 1074))).
    { apply faithful_near with (t := E + 1074) (k := k); try lia.
      destruct M as [->|[-> NE]]; [left; reflexivity|right; split; [reflexivity|]].
      rewrite SP. unfold v. intros X. apply NE. apply Z.mul_reg_r with (2 ^ (e + 1074)); [lia|]. lia. }
    assert (INF : 971 < E \/ (E = 971 /\ m = 2 ^ 53) -> forall y, mag y -> y < v).
    { intros I y My. apply mag_max in My. eapply Z.le_lt_trans; [exact My|].
      assert (0 < 2 ^ 2045) by (apply Z.pow_pos_nonneg; lia). destruct I as [I|[I J]].
      - assert (2 ^ (1 + 2045) <= 2 ^ (E + 1074)) by (apply Z.pow_le_mono_r; lia).
        rewrite (Z.pow_add_r 2 1 2045) in H0 by lia. nia.
      - subst m. destruct M as [M|[M NE]]; [lia|].
        assert (v <> k * 2 ^ (E + 1074)).
        { rewrite SP. unfold v. intros X. apply NE. apply Z.mul_reg_r with (2 ^ (e + 1074)); [lia|]. lia. }
        rewrite I in *. change (971 + 1074) with 2045 in *. nia. }
    destruct (Z.eqb_spec m (2 ^ 53)) as [M53|M53].
    + destruct (Z.leb_spec (E + 1) 971).
      * left. exists (2 ^ 52)%positive, (E + 1). split; [reflexivity|]. split; [apply bounded_normal; [split; reflexivity || discriminate|lia]|].
        replace (Zpos (2 ^ 52) * 2 ^ (E + 1 + 1074)) with (m * 2 ^ (E + 1074)); auto.
        rewrite M53. replace (E + 1 + 1074) with (1 + (E + 1074)) by lia. rewrite (Z.pow_add_r 2 1) by lia.
        change (Zpos (2 ^ 52)) with (2 ^ 52). lia.
      * right. split; [reflexivity|]. apply INF. lia.
    + destruct (Z.leb_spec E 971).
      * left. exists (Z.to_pos m), E. split; [reflexivity|]. rewrite Z2Pos.id by lia. split; auto.
        apply bounded_normal; [rewrite Z2Pos.id by lia; lia|lia].
      * right. split; [reflexivity|]. apply INF. lia.
Qed.

(** *** Signed version *)
Definition finite_double (x : double) : Prop := dvalid x = true /\ is_finite x = true.

Lemma mag_abs x : finite_double x -> mag (Z.abs (zval x)).
Proof.
  intros [V F]. destruct x as [s|s| |s m e]; try discriminate; [left; reflexivity|].
  right. exists m, e. split; [exact V|]. pose proof (bounded_spec m e V) as (E1 & _).
  cbn [zval]. assert (0 < 2 ^ (e + 1074)) by (apply Z.pow_pos_nonneg; lia). destruct s; nia.
Qed.

(** [r] is a faithful rounding of [v] units: no finite double separates them. *)
Definition rounds_to (v : Z) (r : double) : Prop :=
  dvalid r = true /\
  ((is_finite r = true /\ forall y, finite_double y -> (zval y <= v -> zval y <= zval r) /\ (v <= zval y -> zval r <= zval y)) \/
   (r = dinf /\ forall y, finite_double y -> zval y < v) \/
   (r = dminf /\ forall y, finite_double y -> v < zval y)).

Lemma normalize_rounds z e sz : -1074 <= e ->
  rounds_to (z * 2 ^ (e + 1074)) (binary_normalize prec emax z e sz).
Proof.
  intros He. assert (P : 0 < 2 ^ (e + 1074)) by (apply Z.pow_pos_nonneg; lia).
  destruct z as [|p|p]; cbn [binary_normalize].
  - split; [reflexivity|]. left. split; [reflexivity|]. intros y _. cbn [zval]. lia.
  - destruct (round_faithful false p e He) as [(q & E & -> & V & F)|[-> I]].
    + split; [exact V|]. left. split; [reflexivity|]. intros y Hy. pose proof (mag_abs y Hy) as M.
      specialize (F _ M). cbn [zval].
      assert (0 < Zpos q * 2 ^ (E + 1074)) by (apply zval_pos; pose proof (bounded_spec _ _ V); lia). nia.
    + split; [reflexivity|]. right; left. split; [reflexivity|]. intros y Hy. specialize (I _ (mag_abs y Hy)). lia.
  - replace (Zneg p * 2 ^ (e + 1074)) with (- (Zpos p * 2 ^ (e + 1074))) by lia.
    destruct (round_faithful true p e He) as [(q & E & -> & V & F)|[-> I]].
    + split; [exact V|]. left. split; [reflexivity|]. intros y Hy. pose proof (mag_abs y Hy) as M.
      specialize (F _ M). cbn [zval].
      assert (0 < Zpos q * 2 ^ (E + 1074)) by (apply zval_pos; pose proof (bounded_spec _ _ V); lia). nia.
    + split; [reflexivity|]. right; right. split; [reflexivity|]. intros y Hy. specialize (I _ (mag_abs y Hy)). lia.
Qed.

Lemma dadd_rounds x y : finite_double x -> finite_double y -> rounds_to (zval x + zval y) (dadd x y).
Proof.
  intros [Vx Fx] [Vy Fy]. unfold dadd.
  destruct x as [sx|sx| |sx mx ex], y as [sy|sy| |sy my ey]; try discriminate.
  - split; [destruct sx, sy; reflexivity|]. left. split; [destruct sx, sy; reflexivity|]. intros z _.
    destruct sx, sy; cbn; lia.
  - split; [exact Vy|]. left. split; [reflexivity|]. intros z _. cbn; lia.
  - split; [exact Vx|]. left. split; [reflexivity|]. intros z _. cbn; lia.
  - assert (BX := bounded_spec mx ex Vx). assert (BY := bounded_spec my ey Vy).
    cbn [SFadd]. set (ez := Z.min ex ey).
    set (z := cond_Zopp sx _ + cond_Zopp sy _).
    assert (EQ : zval (S754_finite sx mx ex) + zval (S754_finite sy my ey) = z * 2 ^ (ez + 1074)).
    { unfold z. rewrite Z.mul_add_distr_r. f_equal; symmetry; apply aligned; lia. }
    rewrite EQ. apply normalize_rounds. lia.
Qed.

Lemma dsub_eq x y : is_finite x = true -> is_finite y = true ->
  dsub x y = dadd x (dopp y) \/ (zval (dsub x y) = 0 /\ zval x - zval y = 0 /\ exists s, dsub x y = S754_zero s).
Proof.
  unfold dsub, dadd, dopp. destruct x as [sx|sx| |sx mx ex], y as [sy|sy| |sy my ey]; intros; try discriminate; auto.
  left. destruct sx, sy; reflexivity.
Qed.

Lemma dsub_rounds x y : finite_double x -> finite_double y -> rounds_to (zval x - zval y) (dsub x y).
Proof.
  intros Hx Hy. destruct (dopp_spec y (proj1 Hy) (proj2 Hy)) as (V & F & E).
  destruct (dsub_eq x y (proj2 Hx) (proj2 Hy)) as [->|(A & B & s & ->)].
  - rewrite <- Z.add_opp_r, <- E. apply dadd_rounds; auto. split; auto.
  - rewrite B. split; [reflexivity|]. left. split; [reflexivity|]. intros z _. cbn; lia.
Qed.

Lemma zero_double : finite_double d0. Proof. split; reflexivity. Qed.

(** The unit 2^-1074. *)
Lemma tiny_double : exists y, finite_double y /\ zval y = 1.
Proof. exists (S754_finite false 1 (-1074)). split; [split|]; reflexivity. Qed.
Lemma mtiny_double : exists y, finite_double y /\ zval y = -1.
Proof. exists (S754_finite true 1 (-1074)). split; [split|]; reflexivity. Qed.
Lemma one_double : finite_double d1 /\ zval d1 = zone.
Proof. destruct (dint_spec false 1) as (A & B & C); [lia|]. rewrite Z.mul_1_l in C. split; [split|]; auto. Qed.

(** The computed difference has the sign of the exact one. *)
Lemma dsub_pos x y : finite_double x -> finite_double y ->
  (dltb d0 (dsub x y) = true <-> zval y < zval x).
Proof.
  intros Hx Hy. pose proof (dsub_rounds x y Hx Hy) as [V [[F R]|[[-> R]|[-> R]]]].
  - rewrite dltb_zval by auto. change (zval d0) with 0.
    destruct (R _ zero_double) as [R1 R2]. change (zval d0) with 0 in *.
    destruct tiny_double as (t & Ht & Et). destruct (R t Ht) as [R3 R4]. rewrite Et in *. lia.
  - split; [|reflexivity]. intros _. destruct tiny_double as (t & Ht & Et). specialize (R t Ht). lia.
  - split; [discriminate|]. intros H. destruct mtiny_double as (t & Ht & Et). specialize (R t Ht). lia.
Qed.

(** Between two finite doubles the rounding is finite and stays between them. *)
Lemma rounds_between v r a b : rounds_to v r -> finite_double a -> finite_double b ->
  zval a <= v <= zval b -> finite_double r /\ zval a <= zval r <= zval b.
Proof.
  intros [V [[F R]|[[-> R]|[-> R]]]] Ha Hb H.
  - split; [split; auto|]. destruct (R a Ha), (R b Hb). lia.
  - specialize (R b Hb). lia.
  - specialize (R a Ha). lia.
Qed.

(** *** The fractional part x - floor(x) *)
Definition frac (x : double) : double := dsub x (dfloor x).

Lemma floor_double x : finite_double x -> finite_double (dfloor x) /\ zval (dfloor x) = zval x / zone * zone.
Proof. intros [V F]. destruct (dfloor_spec x V F) as (A & B & C). split; [split|]; auto. Qed.

Lemma frac_rounds x : finite_double x -> rounds_to (zval x mod zone) (frac x).
Proof.
  intros H. destruct (floor_double x H) as [A B]. pose proof zone_pos.
  replace (zval x mod zone) with (zval x - zval (dfloor x)) by (rewrite B, Z.mod_eq by lia; lia).
  apply dsub_rounds; auto.
Qed.

Lemma frac_range x : finite_double x -> finite_double (frac x) /\ 0 <= zval (frac x) <= zone.
Proof.
  intros H. pose proof zone_pos. destruct one_double as [O1 O2]. rewrite <- O2.
  apply (rounds_between (zval x mod zone) (frac x) d0 d1); auto using frac_rounds, zero_double.
  rewrite O2. change (zval d0) with 0. pose proof (Z.mod_pos_bound (zval x) zone). lia.
Qed.

Lemma frac_pos x : finite_double x -> (dltb d0 (frac x) = true <-> zval x mod zone <> 0).
Proof.
  intros H. destruct (floor_double x H) as [A B]. pose proof zone_pos. unfold frac.
  rewrite dsub_pos by auto. rewrite B. rewrite Z.mod_eq by lia.
  pose proof (Z.mul_div_le (zval x) zone). lia.
Qed.
