(** Binary64 products and sums of whole numbers below 2^53 are exact. *)
From Coq Require Import ZArith Bool Lia SpecFloat ZifyBool.
From Verif Require Import Num Double DoubleFacts DoubleExact Rounding RootQuotient.
Open Scope Z_scope.

(** *** Products of whole numbers *)
Lemma whole_normal s m e a : bounded prec emax m e = true -> zval (S754_finite s m e) = a * zone -> a <> 0 ->
  2 ^ 52 <= Zpos m /\ -53 < e /\ Zpos m * 2 ^ (e + 1074) = Z.abs a * zone.
Proof.
  intros B H A. pose proof (bounded_spec _ _ B) as (E1 & E2 & E3). pose proof zone_pos as ZP.
  pose proof (zval_pos m e (proj1 E1)) as P. cbn [zval] in H.
  assert (V : Zpos m * 2 ^ (e + 1074) = Z.abs a * zone) by (destruct s; nia).
  assert (L : 2 ^ 53 * 2 ^ (e + 1074) > zone).
  { assert (0 < 2 ^ (e + 1074)) by (apply Z.pow_pos_nonneg; lia). nia. }
  assert (-53 < e).
  { destruct (Z.lt_ge_cases (-53) e) as [|X]; auto. exfalso.
    rewrite <- Z.pow_add_r in L by lia. rewrite zone_pow in L.
    assert (2 ^ (53 + (e + 1074)) <= 2 ^ 1074) by (apply Z.pow_le_mono_r; lia). lia. }
  split; [|split]; auto. destruct E3 as [E3|]; [lia|auto].
Qed.

Lemma zero_whole a : a * zone = 0 -> a = 0.
Proof. intros H. apply Z.mul_eq_0_l in H; auto. pose proof zone_pos as P. intros X. rewrite X in P. discriminate P. Qed.

Lemma dmul_whole x y a b : worth x (a * zone) -> worth y (b * zone) -> Z.abs (a * b) < 2 ^ 53 ->
  worth (dmul x y) (a * b * zone).
Proof.
  intros (Vx & Fx & Ex) (Vy & Fy & Ey) H. pose proof zone_pos as ZP. unfold dmul.
  destruct x as [sx|sx| |sx mx ex], y as [sy|sy| |sy my ey]; try discriminate.
  1, 2, 3: assert (AB : a * b = 0) by
      (first [rewrite (zero_whole a (eq_sym Ex)) | rewrite (zero_whole b (eq_sym Ey))]; rewrite ?Z.mul_0_r; reflexivity);
    rewrite AB; split; [destruct sx, sy; reflexivity|split; [destruct sx, sy; reflexivity|]];
    destruct sx, sy; reflexivity.
  assert (A : a <> 0). { intros ->. pose proof (bounded_spec mx ex Vx) as (E1 & _). pose proof (zval_pos mx ex (proj1 E1)). cbn [zval] in Ex. destruct sx; lia. }
  assert (B : b <> 0). { intros ->. pose proof (bounded_spec my ey Vy) as (E1 & _). pose proof (zval_pos my ey (proj1 E1)). cbn [zval] in Ey. destruct sy; lia. }
  destruct (whole_normal sx mx ex a Vx Ex A) as (MX & NX & WX).
  destruct (whole_normal sy my ey b Vy Ey B) as (MY & NY & WY).
  cbn [SFmul]. set (p := (mx * my)%positive). set (e := ex + ey).
  set (c := Z.abs (a * b)). assert (Pc : 0 < c) by (unfold c; nia).
  assert (W : Zpos p * 2 ^ (e + 2148) = c * 2 ^ 2148).
  { unfold p, c. rewrite Pos2Z.inj_mul, Z.abs_mul.
    replace (2 ^ (e + 2148)) with (2 ^ (ex + 1074) * 2 ^ (ey + 1074)) by (rewrite <- Z.pow_add_r by lia; f_equal; unfold e; lia).
    replace (2 ^ 2148) with (zone * zone) by (rewrite zone_pow, <- Z.pow_add_r by lia; f_equal).
    replace (Zpos mx * Zpos my * (2 ^ (ex + 1074) * 2 ^ (ey + 1074))) with ((Zpos mx * 2 ^ (ex + 1074)) * (Zpos my * 2 ^ (ey + 1074))) by ring.
    rewrite WX, WY. ring. }
  pose proof (digits2_bounds p) as [D1 D2]. set (d := Zpos (digits2_pos p)) in *.
  assert (He : -104 <= e) by (unfold e; lia).
  assert (PP : 2 ^ 104 <= Zpos p). { unfold p. rewrite Pos2Z.inj_mul. change (2 ^ 104) with (2 ^ 52 * 2 ^ 52). nia. }
  assert (D3 : 104 < d).
  { destruct (Z.lt_ge_cases 104 d) as [|X]; auto. assert (2 ^ d <= 2 ^ 104) by (apply Z.pow_le_mono_r; lia). lia. }
  assert (P1 : 0 < 2 ^ (e + 2148)) by (apply Z.pow_pos_nonneg; lia).
  assert (P2 : 0 < 2 ^ 2148) by (apply Z.pow_pos_nonneg; lia).
  assert (U1 : d + e <= 53).
  { destruct (Z.le_gt_cases (d + e) 53) as [|X]; auto. exfalso.
    assert (2 ^ (53 + 2148) <= 2 ^ (d - 1 + (e + 2148))) by (apply Z.pow_le_mono_r; lia).
    rewrite !Z.pow_add_r in H0 by lia. fold c in H. nia. }
  assert (U2 : 0 < d + e).
  { destruct (Z.lt_ge_cases 0 (d + e)) as [|X]; auto. exfalso.
    assert (2 ^ (d + (e + 2148)) <= 2 ^ 2148) by (apply Z.pow_le_mono_r; lia).
    rewrite Z.pow_add_r in H0 by lia. nia. }
  set (E := d + e - 53).
  destruct (round_aux_loc (xorb sx sy) p e loc_Exact E eq_refl ltac:(lia) ltac:(lia)) as (K & m & M & Mp & e' & R & V & EQ).
  set (n := E - e) in *.
  assert (PN : 0 < 2 ^ n) by (apply Z.pow_pos_nonneg; lia).
  assert (PE : Zpos p = c * 2 ^ (- E) * 2 ^ n).
  { apply Z.mul_reg_r with (2 ^ (e + 2148)); [lia|]. rewrite W, <- !Z.mul_assoc, <- !Z.pow_add_r by lia. do 2 f_equal. unfold n. lia. }
  assert (KE : Zpos p / 2 ^ n = c * 2 ^ (- E)) by (rewrite PE; apply Z.div_mul; lia).
  rewrite KE in M. assert (m = c * 2 ^ (- E)) by (destruct M as [M|[_ [X|X]]]; [exact M|congruence|congruence]). subst m.
  assert (R2 : Zpos Mp * 2 ^ (e' + 1074) = c * zone).
  { rewrite EQ, <- Z.mul_assoc, <- Z.pow_add_r by lia. rewrite zone_pow. do 2 f_equal. lia. }
  rewrite R. split; [exact V|]. split; [reflexivity|].
  cbn [zval]. cbn [zval] in Ex, Ey.
  assert (SA : a = if sx then - Z.abs a else Z.abs a).
  { apply Z.mul_reg_r with zone; [lia|]. rewrite <- Ex. destruct sx; rewrite ?Z.mul_opp_l, WX; reflexivity. }
  assert (SB : b = if sy then - Z.abs b else Z.abs b).
  { apply Z.mul_reg_r with zone; [lia|]. rewrite <- Ey. destruct sy; rewrite ?Z.mul_opp_l, WY; reflexivity. }
  assert (AB : a * b = if xorb sx sy then - c else c).
  { assert (X : a * b = (if sx then - Z.abs a else Z.abs a) * (if sy then - Z.abs b else Z.abs b)) by (rewrite <- SA, <- SB; reflexivity).
    rewrite X. unfold c. rewrite Z.abs_mul. destruct sx, sy; cbn [xorb]; ring. }
  rewrite AB. destruct (xorb sx sy); rewrite ?Z.mul_opp_l, R2; reflexivity.
Qed.

Lemma dadd_whole x y a b : worth x (a * zone) -> worth y (b * zone) -> Z.abs (a + b) < 2 ^ 53 ->
  worth (dadd x y) ((a + b) * zone).
Proof.
  intros (Vx & Fx & Ex) (Vy & Fy & Ey) H. rewrite Z.mul_add_distr_r, <- Ex, <- Ey.
  apply dadd_exact with (t := 1074); auto; [lia| |].
  - rewrite Ex, Ey, <- Z.mul_add_distr_r, Z.abs_mul, (Z.abs_eq zone) by (pose proof zone_pos; lia).
    rewrite Z.pow_add_r by lia. rewrite <- zone_pow. pose proof zone_pos. nia.
  - rewrite Ex, Ey, <- zone_pow, <- Z.mul_add_distr_r. exists (a + b). reflexivity.
Qed.

