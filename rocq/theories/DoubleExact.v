(** Cases in which binary64 operations are exact: if the exact result is representable,
    rounding returns it. *)
From Coq Require Import ZArith Bool Lia SpecFloat ZifyBool.
From Verif Require Import Num Double DoubleFacts.
Open Scope Z_scope.

Lemma zdigits_bounds m : 0 < m -> 2 ^ (Zdigits2 m - 1) <= m < 2 ^ Zdigits2 m.
Proof. destruct m as [|p|p]; try lia. intros _. apply digits2_bounds. Qed.

Lemma zdigits_unique m d : 0 < m -> 2 ^ (d - 1) <= m < 2 ^ d -> Zdigits2 m = d.
Proof. destruct m as [|p|p]; try lia. intros _. apply digits2_unique. Qed.

Lemma shr_1_even m : 0 <= m -> shr_1 (Build_shr_record (2 * m) false false) = Build_shr_record m false false.
Proof. destruct m as [|p|p]; try lia; reflexivity. Qed.

Lemma iter_shr n : forall m, 0 <= m ->
  SpecFloat.iter_pos shr_1 n (Build_shr_record (m * 2 ^ Zpos n) false false) = Build_shr_record m false false.
Proof.
  assert (A : forall p m, 0 <= m -> 0 <= m * 2 ^ Zpos p).
  { intros. apply Z.mul_nonneg_nonneg; auto. apply Z.pow_nonneg; lia. }
  induction n as [n IH|n IH|]; intros m Hm; cbn [SpecFloat.iter_pos].
  - assert (Q : m * 2 ^ Zpos (xI n) = 2 * (m * 2 ^ Zpos n * 2 ^ Zpos n)).
    { replace (Zpos (xI n)) with (1 + (Zpos n + Zpos n)) by lia. rewrite !Z.pow_add_r by lia. ring. }
    rewrite Q, shr_1_even by (apply A; apply A; auto). rewrite IH by (apply A; auto). apply IH; auto.
  - assert (Q : m * 2 ^ Zpos (xO n) = m * 2 ^ Zpos n * 2 ^ Zpos n).
    { replace (Zpos (xO n)) with (Zpos n + Zpos n) by lia. rewrite !Z.pow_add_r by lia. ring. }
    rewrite Q, IH by (apply A; auto). apply IH; auto.
  - replace (m * 2 ^ 1) with (2 * m) by lia. apply shr_1_even; auto.
Qed.

Lemma shr_exact m e n : 0 <= n -> 0 <= m ->
  shr (Build_shr_record (m * 2 ^ n) false false) e n = (Build_shr_record m false false, e + n).
Proof.
  intros Hn Hm. destruct n as [|n|n]; try lia.
  - cbn [shr]. rewrite Z.pow_0_r, Z.mul_1_r, Z.add_0_r. auto.
  - cbn [shr]. rewrite iter_shr; auto.
Qed.

Definition fexp' (x : Z) := fexp prec emax x.
Lemma fexp_eq x : fexp' x = Z.max (x - 53) (-1074).
Proof. reflexivity. Qed.

Lemma round_aux_exact s p E k :
  0 <= k -> E = Z.max (Zpos (digits2_pos p) + E - 53) (-1074) -> E <= 971 ->
  binary_round_aux prec emax s (Zpos p * 2 ^ k) (E - k) loc_Exact = S754_finite s p E /\
  bounded prec emax p E = true.
Proof.
  intros Hk HE HM.
  assert (P : 0 < 2 ^ k) by (apply Z.pow_pos_nonneg; lia).
  assert (DG : Zdigits2 (Zpos p * 2 ^ k) = Zpos (digits2_pos p) + k).
  { apply zdigits_unique; [nia|]. pose proof (digits2_bounds p) as [A B]. split.
    - replace (Zpos (digits2_pos p) + k - 1) with (Zpos (digits2_pos p) - 1 + k) by lia.
      rewrite Z.pow_add_r by lia. nia.
    - rewrite Z.pow_add_r by lia. nia. }
  split.
  - unfold binary_round_aux, shr_fexp. rewrite DG.
    change (fexp prec emax) with fexp'. rewrite fexp_eq.
    replace (Zpos (digits2_pos p) + k + (E - k)) with (Zpos (digits2_pos p) + E) by lia.
    rewrite <- HE. replace (E - (E - k)) with k by lia.
    cbn [shr_record_of_loc]. rewrite shr_exact by lia. replace (E - k + k) with E by lia.
    cbn [shr_m loc_of_shr_record round_nearest_even shr_record_of_loc].
    cbn [Zdigits2]. rewrite fexp_eq, <- HE, Z.sub_diag. cbn [shr shr_m].
    change (emax - prec) with 971. replace (E <=? 971) with true by lia. auto.
  - unfold bounded, canonical_mantissa. change (fexp prec emax) with fexp'. rewrite fexp_eq, <- HE.
    change (emax - prec) with 971. rewrite (proj1 (Zeq_is_eq_bool E E) eq_refl). cbn. lia.
Qed.

(** If [p * 2^e] is a multiple of [2^T] below [2^(53+T)] then it is [q * 2^E] with [q], [E]
    canonical. *)
Lemma canonical_form p e t : 0 <= t <= 2045 -> -1074 <= e ->
  Zpos p * 2 ^ (e + 1074) < 2 ^ (53 + t) -> (2 ^ t | Zpos p * 2 ^ (e + 1074)) ->
  let E := Z.max (Zpos (digits2_pos p) + e - 53) (-1074) in
  E <= 971 /\ (e <= E -> exists q, Zpos p = Zpos q * 2 ^ (E - e) /\
                 E = Z.max (Zpos (digits2_pos q) + E - 53) (-1074)).
Proof.
  intros Ht He Hlt Hd E.
  pose proof (digits2_bounds p) as [A B]. set (d := Zpos (digits2_pos p)) in *.
  assert (D1 : 1 <= d) by (unfold d; lia).
  assert (ET : E + 1074 <= t).
  { unfold E. enough (d + e + 1074 <= 53 + t) by lia.
    destruct (Z.le_gt_cases (d + e + 1074) (53 + t)) as [|G]; auto. exfalso.
    assert (2 ^ (53 + t) <= 2 ^ (d - 1 + (e + 1074))) by (apply Z.pow_le_mono_r; lia).
    rewrite (Z.pow_add_r 2 (d - 1)) in H by lia.
    assert (0 < 2 ^ (e + 1074)) by (apply Z.pow_pos_nonneg; lia). nia. }
  split; [lia|]. intros HE.
  assert (DV : (2 ^ (E - e) | Zpos p)).
  { assert (D2 : (2 ^ (E - e) * 2 ^ (e + 1074) | Zpos p * 2 ^ (e + 1074))).
    { rewrite <- Z.pow_add_r by lia. eapply Z.divide_trans; [|exact Hd].
      exists (2 ^ (t - (E + 1074))). rewrite <- Z.pow_add_r by lia. f_equal. lia. }
    apply Z.mul_divide_cancel_r in D2; auto. apply Z.pow_nonzero; lia. }
  destruct DV as [q Hq]. assert (P : 0 < 2 ^ (E - e)) by (apply Z.pow_pos_nonneg; lia).
  destruct q as [|q|q]; [lia| |nia]. exists q. split; auto.
  assert (DQ : Zpos (digits2_pos q) = d - (E - e)).
  { apply digits2_unique.
    assert (E - e < d).
    { destruct (Z.lt_ge_cases (E - e) d) as [|G]; auto.
      assert (2 ^ d <= 2 ^ (E - e)) by (apply Z.pow_le_mono_r; lia). nia. }
    assert (Z1 : 2 ^ d = 2 ^ (d - (E - e)) * 2 ^ (E - e)) by (rewrite <- Z.pow_add_r by lia; f_equal; lia).
    assert (Z2 : 2 ^ (d - 1) = 2 ^ (d - (E - e) - 1) * 2 ^ (E - e)) by (rewrite <- Z.pow_add_r by lia; f_equal; lia).
    rewrite Z1 in B. rewrite Z2 in A. rewrite Hq in A, B. nia. }
  rewrite DQ. unfold E at 2. lia.
Qed.

Lemma shift_pos_spec n p : Zpos (shift_pos n p) = Zpos p * 2 ^ Zpos n.
Proof.
  rewrite Zpower.shift_pos_correct, Z.mul_comm. reflexivity.
Qed.

Lemma binary_round_exact s p e t : 0 <= t <= 2045 -> -1074 <= e ->
  Zpos p * 2 ^ (e + 1074) < 2 ^ (53 + t) -> (2 ^ t | Zpos p * 2 ^ (e + 1074)) ->
  exists q E, binary_round prec emax s p e = S754_finite s q E /\ bounded prec emax q E = true /\
    Zpos q * 2 ^ (E + 1074) = Zpos p * 2 ^ (e + 1074).
Proof.
  intros Ht He Hlt Hd. destruct (canonical_form p e t Ht He Hlt Hd) as [HE HQ].
  set (E := Z.max (Zpos (digits2_pos p) + e - 53) (-1074)) in *.
  unfold binary_round, shl_align. change (fexp prec emax) with fexp'.
  rewrite fexp_eq. fold E.
  destruct (Z.le_gt_cases e E) as [G|G].
  - destruct (HQ G) as (q & Eq & Ec).
    assert (S : (match E - e with Zneg d => (shift_pos d p, E) | _ => (p, e) end) = (p, e))
      by (destruct (E - e) eqn:X; auto; lia).
    rewrite S. rewrite Eq.
    destruct (round_aux_exact s q E (E - e)) as [R1 R2]; try lia.
    replace (E - (E - e)) with e in R1 by lia.
    exists q, E. split; [exact R1|]. split; auto.
    rewrite <- Z.mul_assoc, <- Z.pow_add_r by lia. do 2 f_equal. lia.
  - destruct (E - e) as [|d|d] eqn:X; try lia.
    set (q := shift_pos d p). assert (Hq : Zpos q = Zpos p * 2 ^ Zpos d) by apply shift_pos_spec.
    assert (DQ : Zpos (digits2_pos q) = Zpos (digits2_pos p) + Zpos d).
    { apply digits2_unique. rewrite Hq. pose proof (digits2_bounds p) as [A B].
      replace (Zpos (digits2_pos p) + Zpos d - 1) with (Zpos (digits2_pos p) - 1 + Zpos d) by lia.
      rewrite !Z.pow_add_r by lia. assert (0 < 2 ^ Zpos d) by (apply Z.pow_pos_nonneg; lia). nia. }
    destruct (round_aux_exact s q E 0) as [R1 R2]; try lia.
    rewrite Z.pow_0_r, Z.mul_1_r, Z.sub_0_r in R1.
    exists q, E. split; [exact R1|]. split; auto.
    rewrite Hq, <- Z.mul_assoc, <- Z.pow_add_r by (unfold E in *; lia). do 2 f_equal. lia.
Qed.

(** [x] is finite, a binary64 value, and worth [v] units. *)
Definition worth (x : double) (v : Z) : Prop :=
  dvalid x = true /\ is_finite x = true /\ zval x = v.

Lemma normalize_exact z e sz t : 0 <= t <= 2045 -> -1074 <= e ->
  Z.abs (z * 2 ^ (e + 1074)) < 2 ^ (53 + t) -> (2 ^ t | z * 2 ^ (e + 1074)) ->
  worth (binary_normalize prec emax z e sz) (z * 2 ^ (e + 1074)).
Proof.
  intros Ht He Hlt Hd. assert (P : 0 < 2 ^ (e + 1074)) by (apply Z.pow_pos_nonneg; lia).
  destruct z as [|p|p]; cbn [binary_normalize].
  - split; [|split]; auto.
  - destruct (binary_round_exact false p e t) as (q & E & R & B & V); auto; try nia.
    rewrite R. split; [|split]; auto.
  - destruct (binary_round_exact true p e t) as (q & E & R & B & V); auto; try nia.
    { replace (Zpos p * 2 ^ (e + 1074)) with (- (Zneg p * 2 ^ (e + 1074))) by lia.
      apply Z.divide_opp_r; auto. }
    rewrite R. split; [|split]; auto. cbn [zval]. nia.
Qed.

Lemma shl_align_spec m e e' : e' <= e ->
  Zpos (fst (shl_align m e e')) = Zpos m * 2 ^ (e - e').
Proof.
  intros H. unfold shl_align. destruct (e' - e) as [|d|d] eqn:X; try lia.
  - replace (e - e') with 0 by lia. cbn. lia.
  - cbn [fst]. rewrite shift_pos_spec. f_equal. f_equal. lia.
Qed.

Lemma aligned s m e ez : -1074 <= ez <= e ->
  cond_Zopp s (Zpos (fst (shl_align m e ez))) * 2 ^ (ez + 1074) = zval (S754_finite s m e).
Proof.
  intros H. rewrite shl_align_spec by lia. cbn [zval].
  replace (e + 1074) with (e - ez + (ez + 1074)) by lia. rewrite (Z.pow_add_r 2 (e - ez)) by lia.
  destruct s; cbn [cond_Zopp]; ring.
Qed.

Lemma dadd_exact x y t : dvalid x = true -> dvalid y = true ->
  is_finite x = true -> is_finite y = true -> 0 <= t <= 2045 ->
  Z.abs (zval x + zval y) < 2 ^ (53 + t) -> (2 ^ t | zval x + zval y) ->
  worth (dadd x y) (zval x + zval y).
Proof.
  intros Vx Vy Fx Fy Ht Hlt Hd. unfold dadd.
  destruct x as [sx|sx| |sx mx ex], y as [sy|sy| |sy my ey]; try discriminate;
    try (split; [|split]; cbn in *; auto; destruct sx, sy; auto; cbn; lia).
  assert (BX := bounded_spec mx ex Vx). assert (BY := bounded_spec my ey Vy).
  cbn [SFadd]. set (ez := Z.min ex ey).
  set (z := cond_Zopp sx _ + cond_Zopp sy _).
  assert (EQ : zval (S754_finite sx mx ex) + zval (S754_finite sy my ey) = z * 2 ^ (ez + 1074)).
  { unfold z. rewrite Z.mul_add_distr_r. f_equal; symmetry; apply aligned; lia. }
  rewrite EQ in *. apply normalize_exact with (t := t); auto. lia.
Qed.

Lemma dsub_opp x y : is_finite x = true -> is_finite y = true ->
  zval (dsub x y) = zval (dadd x (dopp y)) /\ is_finite (dsub x y) = is_finite (dadd x (dopp y)) /\
  dvalid (dsub x y) = dvalid (dadd x (dopp y)).
Proof.
  unfold dsub, dadd, dopp. destruct x as [sx|sx| |sx mx ex], y as [sy|sy| |sy my ey]; intros; try discriminate;
    try (destruct sx, sy; cbn; auto; fail).
Qed.

Lemma dsub_exact x y t : dvalid x = true -> dvalid y = true ->
  is_finite x = true -> is_finite y = true -> 0 <= t <= 2045 ->
  Z.abs (zval x - zval y) < 2 ^ (53 + t) -> (2 ^ t | zval x - zval y) ->
  worth (dsub x y) (zval x - zval y).
Proof.
  intros Vx Vy Fx Fy Ht Hlt Hd.
  destruct (dopp_spec y Vy Fy) as (V & F & E). destruct (dsub_opp x y Fx Fy) as (A & B & C).
  rewrite <- Z.add_opp_r, <- E in *.
  destruct (dadd_exact x (dopp y) t) as (P & Q & R); auto.
  split; [|split]; congruence.
Qed.

(** Multiplication by one and minus one. *)
Lemma mul_one s m e (sy : bool) : bounded prec emax m e = true ->
  SFmul prec emax (S754_finite s m e) (S754_finite sy 4503599627370496 (-52)) =
  S754_finite (xorb s sy) m e.
Proof.
  intros B. cbn [SFmul]. pose proof (bounded_spec m e B) as (E1 & E2 & E3).
  replace (Zpos (m * 4503599627370496)) with (Zpos m * 2 ^ 52) by (change (2 ^ 52) with 4503599627370496; lia).
  replace (e + -52) with (e - 52) by lia. apply round_aux_exact; try lia.
  unfold bounded, canonical_mantissa in B. apply andb_prop in B as [B _].
  apply Zeq_bool_eq in B.
  change (fexp prec emax) with fexp' in B. rewrite fexp_eq in B. lia.
Qed.

Lemma dmul_1 x : dvalid x = true -> dmul x d1 = x.
Proof.
  intros V. unfold dmul. change d1 with (S754_finite false 4503599627370496 (-52)).
  destruct x as [s|s| |s m e]; try (destruct s; reflexivity); try reflexivity.
  rewrite mul_one by exact V. destruct s; auto.
Qed.

Lemma dmul_m1 x : dvalid x = true -> dmul x dm1 = dopp x.
Proof.
  intros V. unfold dmul. change dm1 with (S754_finite true 4503599627370496 (-52)).
  destruct x as [s|s| |s m e]; try (destruct s; reflexivity); try reflexivity.
  rewrite mul_one by exact V. destruct s; auto.
Qed.

(** std::round. *)
Lemma zone_pow : zone = 2 ^ 1074.
Proof. rewrite (zone_split 0) by lia. rewrite Z.pow_0_r, Z.mul_1_l. f_equal. Qed.

Lemma dround_spec x : dvalid x = true -> is_finite x = true ->
  exists k, worth (dround x) (k * zone) /\ 2 * Z.abs (zval x - k * zone) <= zone.
Proof.
  intros V F. pose proof zone_pos as ZP. destruct x as [s|s| |s m e]; try discriminate.
  - exists 0. split; [split; [|split]; auto|]. cbn. lia.
  - pose proof (bounded_spec m e V) as (E1 & E2 & E3). cbn [dround].
    destruct (Z.leb_spec 0 e) as [G|G].
    + exists ((if s then - Zpos m else Zpos m) * 2 ^ e).
      assert (EQ : zval (S754_finite s m e) = (if s then - Zpos m else Zpos m) * 2 ^ e * zone).
      { cbn [zval]. rewrite (Z.pow_add_r 2 e) by lia. rewrite zone_pow. ring. }
      split; [split; [|split]; auto|]. rewrite EQ. lia.
    + set (w := 2 ^ (- e)). assert (W : 2 <= w).
      { unfold w. replace (- e) with (1 + (- e - 1)) by lia. rewrite Z.pow_add_r by lia.
        assert (0 < 2 ^ (- e - 1)) by (apply Z.pow_pos_nonneg; lia). lia. }
      set (a := (2 * Zpos m + w) / (2 * w)).
      assert (A0 : 0 <= a) by (apply Z.div_pos; lia).
      assert (A1 : a <= Zpos m).
      { unfold a. apply Z.div_le_upper_bound; [lia|]. nia. }
      assert (ZW : zone = w * 2 ^ (e + 1074)).
      { unfold w. rewrite <- Z.pow_add_r by lia. rewrite zone_pow. f_equal. lia. }
      assert (D : 2 * w * a <= 2 * Zpos m + w < 2 * w * a + 2 * w).
      { unfold a. pose proof (Z.mul_div_le (2 * Zpos m + w) (2 * w)).
        pose proof (Z.mul_succ_div_gt (2 * Zpos m + w) (2 * w)). lia. }
      assert (P : 0 < 2 ^ (e + 1074)) by (apply Z.pow_pos_nonneg; lia).
      exists (if s then - a else a). split.
      * destruct (dint_spec s (if s then - a else a)) as (X & Y & Z); [destruct s; lia|].
        split; [|split]; auto.
      * cbn [zval]. rewrite ZW. destruct s; nia.
Qed.
