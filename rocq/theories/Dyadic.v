(** Products, sums and quotients of a whole number and a binary fraction. *)
From Coq Require Import ZArith Bool Lia SpecFloat ZifyBool.
From Verif Require Import Num Double DoubleFacts DoubleExact Rounding RootQuotient WholeNumbers.
Open Scope Z_scope.

Lemma dyadic_normal s m e b v : bounded prec emax m e = true -> zval (S754_finite s m e) = b * 2 ^ v -> b <> 0 ->
  1034 <= v <= 1074 ->
  2 ^ 52 <= Zpos m /\ v - 1127 < e /\ Zpos m * 2 ^ (e + 1074) = Z.abs b * 2 ^ v.
Proof.
  intros B H A Hv. pose proof (bounded_spec _ _ B) as (E1 & E2 & E3).
  pose proof (zval_pos m e (proj1 E1)) as P. cbn [zval] in H.
  assert (PV : 0 < 2 ^ v) by (apply Z.pow_pos_nonneg; lia).
  assert (V : Zpos m * 2 ^ (e + 1074) = Z.abs b * 2 ^ v).
  { set (w := 2 ^ v) in *. set (q := 2 ^ (e + 1074)) in *. clearbody w q. destruct s; nia. }
  assert (L : 2 ^ v < 2 ^ (53 + (e + 1074))).
  { rewrite Z.pow_add_r by lia. assert (0 < 2 ^ (e + 1074)) by (apply Z.pow_pos_nonneg; lia).
    set (w := 2 ^ v) in *. set (q := 2 ^ (e + 1074)) in *. clearbody w q. nia. }
  apply Z.pow_lt_mono_r_iff in L; [|lia|lia].
  split; [|split]; auto; [|lia]. destruct E3 as [E3|]; [lia|auto].
Qed.

Lemma zero_dyadic b v : 0 <= v -> b * 2 ^ v = 0 -> b = 0.
Proof. intros Hv H. apply Z.mul_eq_0_l in H; auto. apply Z.pow_nonzero; lia. Qed.

Lemma dmul_dyadic x y a b v : worth x (a * zone) -> worth y (b * 2 ^ v) -> 1034 <= v <= 1074 -> Z.abs (a * b) < 2 ^ 53 ->
  worth (dmul x y) (a * b * 2 ^ v).
Proof.
  intros (Vx & Fx & Ex) (Vy & Fy & Ey) Hv H. pose proof zone_pos as ZP. unfold dmul.
  destruct x as [sx|sx| |sx mx ex], y as [sy|sy| |sy my ey]; try discriminate.
  1, 2, 3: assert (AB : a * b = 0) by
      (first [rewrite (zero_whole a (eq_sym Ex)) | rewrite (zero_dyadic b v ltac:(lia) (eq_sym Ey))]; rewrite ?Z.mul_0_r; reflexivity);
    rewrite AB; split; [destruct sx, sy; reflexivity|split; [destruct sx, sy; reflexivity|]];
    destruct sx, sy; reflexivity.
  assert (A : a <> 0). { intros ->. pose proof (bounded_spec mx ex Vx) as (E1 & _). pose proof (zval_pos mx ex (proj1 E1)). cbn [zval] in Ex. destruct sx; lia. }
  assert (B : b <> 0). { intros ->. pose proof (bounded_spec my ey Vy) as (E1 & _). pose proof (zval_pos my ey (proj1 E1)). cbn [zval] in Ey. destruct sy; lia. }
  destruct (whole_normal sx mx ex a Vx Ex A) as (MX & NX & WX).
  destruct (dyadic_normal sy my ey b v Vy Ey B Hv) as (MY & NY & WY).
  cbn [SFmul]. set (p := (mx * my)%positive). set (e := ex + ey).
  set (c := Z.abs (a * b)). assert (Pc : 0 < c) by (unfold c; lia).
  assert (He : -150 <= e) by (unfold e; lia).
  assert (W : Zpos p * 2 ^ (e + 2148) = c * 2 ^ (1074 + v)).
  { unfold p, c. rewrite Pos2Z.inj_mul, Z.abs_mul.
    replace (2 ^ (e + 2148)) with (2 ^ (ex + 1074) * 2 ^ (ey + 1074)) by (rewrite <- Z.pow_add_r by lia; f_equal; unfold e; lia).
    rewrite (Z.pow_add_r 2 1074) by lia. rewrite <- zone_pow.
    replace (Zpos mx * Zpos my * (2 ^ (ex + 1074) * 2 ^ (ey + 1074))) with ((Zpos mx * 2 ^ (ex + 1074)) * (Zpos my * 2 ^ (ey + 1074))) by ring.
    rewrite WX, WY. ring. }
  clearbody e. clear NX NY.
  pose proof (digits2_bounds p) as [D1 D2]. set (d := Zpos (digits2_pos p)) in *.
  assert (PP : 2 ^ 104 <= Zpos p).
  { unfold p. rewrite Pos2Z.inj_mul. change (2 ^ 104) with (2 ^ 52 * 2 ^ 52). apply Z.mul_le_mono_nonneg; lia. }
  assert (D3 : 104 < d).
  { apply Z.pow_lt_mono_r_iff with 2; [lia|unfold d; lia|]. eapply Z.le_lt_trans; [exact PP|exact D2]. }
  assert (P1 : 0 < 2 ^ (e + 2148)) by (apply Z.pow_pos_nonneg; lia).
  assert (P2 : 0 < 2 ^ (1074 + v)) by (apply Z.pow_pos_nonneg; lia).
  assert (U1 : d - 1 + (e + 2148) < 53 + (1074 + v)).
  { apply Z.pow_lt_mono_r_iff with 2; [lia|lia|]. rewrite (Z.pow_add_r 2 (d - 1)), (Z.pow_add_r 2 53) by lia.
    eapply Z.le_lt_trans; [apply Z.mul_le_mono_nonneg_r; [lia|exact D1]|]. rewrite W. apply Z.mul_lt_mono_pos_r; [exact P2|exact H]. }
  set (E := d + e - 53).
  destruct (round_aux_loc (xorb sx sy) p e loc_Exact E eq_refl ltac:(lia) ltac:(lia)) as (K & m & M & Mp & e' & R & V & EQ).
  set (n := E - e) in *.
  assert (PN : 0 < 2 ^ n) by (apply Z.pow_pos_nonneg; lia).
  assert (PE : Zpos p = c * 2 ^ (v - 1074 - E) * 2 ^ n).
  { apply Z.mul_reg_r with (2 ^ (e + 2148)); [lia|]. rewrite W, <- !Z.mul_assoc, <- !Z.pow_add_r by lia. do 2 f_equal. unfold n. lia. }
  assert (KE : Zpos p / 2 ^ n = c * 2 ^ (v - 1074 - E)) by (rewrite PE; apply Z.div_mul; lia).
  rewrite KE in M. assert (m = c * 2 ^ (v - 1074 - E)) by (destruct M as [M|[_ [X|X]]]; [exact M|congruence|congruence]). subst m.
  assert (R2 : Zpos Mp * 2 ^ (e' + 1074) = c * 2 ^ v).
  { rewrite EQ, <- Z.mul_assoc, <- Z.pow_add_r by lia. do 2 f_equal. lia. }
  rewrite R. split; [exact V|]. split; [reflexivity|].
  cbn [zval]. cbn [zval] in Ex, Ey. assert (PV : 0 < 2 ^ v) by (apply Z.pow_pos_nonneg; lia).
  assert (SA : a = if sx then - Z.abs a else Z.abs a).
  { apply Z.mul_reg_r with zone; [lia|]. rewrite <- Ex. destruct sx; rewrite ?Z.mul_opp_l, WX; reflexivity. }
  assert (SB : b = if sy then - Z.abs b else Z.abs b).
  { apply Z.mul_reg_r with (2 ^ v); [lia|]. rewrite <- Ey. destruct sy; rewrite ?Z.mul_opp_l, WY; reflexivity. }
  assert (AB : a * b = if xorb sx sy then - c else c).
  { assert (X : a * b = (if sx then - Z.abs a else Z.abs a) * (if sy then - Z.abs b else Z.abs b)) by (rewrite <- SA, <- SB; reflexivity).
    rewrite X. unfold c. rewrite Z.abs_mul. destruct sx, sy; cbn [xorb]; ring. }
  rewrite AB. destruct (xorb sx sy); rewrite ?Z.mul_opp_l, R2; reflexivity.
Qed.

Lemma dadd_dyadic x y a b v : worth x (a * 2 ^ v) -> worth y (b * 2 ^ v) -> 0 <= v <= 1074 -> Z.abs (a + b) < 2 ^ 53 ->
  worth (dadd x y) ((a + b) * 2 ^ v).
Proof.
  intros (Vx & Fx & Ex) (Vy & Fy & Ey) Hv H. rewrite Z.mul_add_distr_r, <- Ex, <- Ey.
  assert (PV : 0 < 2 ^ v) by (apply Z.pow_pos_nonneg; lia).
  apply dadd_exact with (t := v); auto; [lia| |].
  - rewrite Ex, Ey, <- Z.mul_add_distr_r, Z.abs_mul, (Z.abs_eq (2 ^ v)) by lia.
    rewrite Z.pow_add_r by lia. apply Z.mul_lt_mono_pos_r; [exact PV|exact H].
  - rewrite Ex, Ey, <- Z.mul_add_distr_r. exists (a + b). reflexivity.
Qed.
Lemma dsub_dyadic x y a b v : worth x (a * 2 ^ v) -> worth y (b * 2 ^ v) -> 0 <= v <= 1074 -> Z.abs (a - b) < 2 ^ 53 ->
  worth (dsub x y) ((a - b) * 2 ^ v).
Proof.
  intros (Vx & Fx & Ex) (Vy & Fy & Ey) Hv H. rewrite Z.mul_sub_distr_r, <- Ex, <- Ey.
  assert (PV : 0 < 2 ^ v) by (apply Z.pow_pos_nonneg; lia).
  apply dsub_exact with (t := v); auto; [lia| |].
  - rewrite Ex, Ey, <- Z.mul_sub_distr_r, Z.abs_mul, (Z.abs_eq (2 ^ v)) by lia.
    rewrite Z.pow_add_r by lia. apply Z.mul_lt_mono_pos_r; [exact PV|exact H].
  - rewrite Ex, Ey, <- Z.mul_sub_distr_r. exists (a - b). reflexivity.
Qed.

(** Quotients of negative numbers. *)
Lemma round_aux_opp m e l : binary_round_aux prec emax true m e l = SFopp (binary_round_aux prec emax false m e l).
Proof.
  unfold binary_round_aux. destruct (shr_fexp prec emax m e l) as [mrs e']. destruct (shr_fexp prec emax _ _ loc_Exact) as [mrs' e''].
  destruct (shr_m mrs'); try reflexivity. destruct (_ <=? _); reflexivity.
Qed.
Lemma ddiv_opp m e m' e' : ddiv (S754_finite true m e) (S754_finite false m' e') = dopp (ddiv (S754_finite false m e) (S754_finite false m' e')).
Proof.
  unfold ddiv, dopp. cbn [SFdiv xorb]. destruct (SFdiv_core_binary prec emax _ _ _ _) as [[q e1] l]. apply round_aux_opp.
Qed.
