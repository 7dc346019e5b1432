(** The angle between two cuts with whole numbers. *)
From Coq Require Import String List ZArith Bool Lia Sorted Permutation ZifyBool SpecFloat.
From Verif Require Import Num Double DoubleFacts DoubleExact Rounding RootQuotient WholeNumbers Dyadic SparseVector
  SparseVectorFacts VectorSpec VectorProofs MipDataProofs ParallelSpec ParallelProofs EfficacyProofs Outcome CutsData Selector CutSpec CutProofs.
Import ListNotations.
Open Scope Z_scope.

(** *** Products of doubles that are not small *)
Lemma normal_of x : finite_double x -> zone <= zval x -> exists m e, x = S754_finite false m e /\
  2 ^ 52 <= Zpos m /\ -53 < e /\ zval x = Zpos m * 2 ^ (e + 1074).
Proof.
  intros H L. pose proof zone_pos as ZP. destruct (positive_double x H ltac:(lia)) as (m & e & -> & B).
  exists m, e. split; [reflexivity|]. cbn [zval] in *. pose proof (bounded_spec _ _ B) as (E1 & E2 & E3).
  assert (P : 0 < 2 ^ (e + 1074)) by (apply Z.pow_pos_nonneg; lia).
  assert (G : -53 < e).
  { destruct (Z.lt_ge_cases (-53) e) as [|X]; auto. exfalso.
    assert (Q : 2 ^ (e + 1074) <= 2 ^ 1021) by (apply Z.pow_le_mono_r; lia).
    assert (zone = 2 ^ 53 * 2 ^ 1021) by (rewrite zone_pow; reflexivity).
    set (T := 2 ^ 1021) in *. clearbody T. nia. }
  split; [lia|]. split; [exact G|reflexivity].
Qed.

Lemma dmul_round m1 e1 m2 e2 : 2 ^ 52 <= Zpos m1 -> 2 ^ 52 <= Zpos m2 -> -53 < e1 -> -53 < e2 ->
  dmul (S754_finite false m1 e1) (S754_finite false m2 e2) = binary_round prec emax false (m1 * m2) (e1 + e2).
Proof.
  intros H1 H2 L1 L2. unfold dmul. cbn [SFmul xorb]. unfold binary_round.
  set (p := (m1 * m2)%positive). pose proof (digits2_bounds p) as [D1 D2]. set (d := Zpos (digits2_pos p)) in *.
  assert (PP : 2 ^ 104 <= Zpos p). { unfold p. rewrite Pos2Z.inj_mul. change (2 ^ 104) with (2 ^ 52 * 2 ^ 52). nia. }
  assert (D3 : 104 < d).
  { destruct (Z.lt_ge_cases 104 d) as [|X]; auto. assert (2 ^ d <= 2 ^ 104) by (apply Z.pow_le_mono_r; lia). lia. }
  unfold shl_align. change (fexp prec emax) with fexp'. rewrite fexp_eq.
  destruct (Z.max (d + (e1 + e2) - 53) (-1074) - (e1 + e2)) eqn:X; try reflexivity. lia.
Qed.

Lemma product_relative x y : finite_double x -> finite_double y ->
  zone <= zval x <= 2 ^ 30 * zone -> zone <= zval y <= 2 ^ 30 * zone -> let p := dmul x y in
  finite_double p /\ zone <= zval p /\
  (2 ^ 52 - 1) * (zval p * zone) <= 2 ^ 52 * (zval x * zval y) /\
  2 ^ 52 * (zval x * zval y) <= (2 ^ 52 + 1) * (zval p * zone).
Proof.
  intros Hx Hy [Lx Ux] [Ly Uy] p. pose proof zone_pos as ZP.
  destruct (normal_of x Hx Lx) as (m1 & e1 & -> & M1 & E1 & V1).
  destruct (normal_of y Hy Ly) as (m2 & e2 & -> & M2 & E2 & V2).
  assert (EP := dmul_round m1 e1 m2 e2 M1 M2 E1 E2). fold p in EP.
  set (X := zval (S754_finite false m1 e1)) in *. set (Y := zval (S754_finite false m2 e2)) in *.
  assert (XY : Zpos (m1 * m2) * 2 ^ (e1 + e2 + 1074) * zone = X * Y).
  { rewrite V1, V2, zone_pow, Pos2Z.inj_mul, <- Z.mul_assoc, <- Z.pow_add_r by lia.
    replace (e1 + e2 + 1074 + 1074) with ((e1 + 1074) + (e2 + 1074)) by lia. rewrite Z.pow_add_r by lia. ring. }
  set (v := Zpos (m1 * m2) * 2 ^ (e1 + e2 + 1074)) in *.
  assert (MZ : forall k, 0 <= k <= 60 -> mag (2 ^ k * zone)).
  { intros k Hk. right. exists (2 ^ 52)%positive, (k - 52). split; [|].
    - assert (G : forallb (fun j => bounded prec emax (2 ^ 52)%positive (Z.of_nat j - 52)) (seq 0 61) = true) by reflexivity.
      rewrite forallb_forall in G. specialize (G (Z.to_nat k)). rewrite Z2Nat.id in G by lia. apply G. apply in_seq. lia.
    - change (Z.pos (2 ^ 52)) with (2 ^ 52). rewrite zone_pow, <- !Z.pow_add_r by lia. f_equal. lia. }
  assert (v1 : zone <= v) by nia. 
  assert (v2 : v <= 2 ^ 60 * zone).
  { apply Z.mul_le_mono_pos_r with zone; [lia|]. rewrite XY. change (2 ^ 60) with (2 ^ 30 * 2 ^ 30).
    replace (2 ^ 30 * 2 ^ 30 * zone * zone) with ((2 ^ 30 * zone) * (2 ^ 30 * zone)) by ring. apply Z.mul_le_mono_nonneg; lia. }
  destruct (round_faithful false (m1 * m2) (e1 + e2) ltac:(lia)) as [(q & E & R & V & F)|[_ I]]; fold v in F || fold v in I.
  2: { specialize (I _ (MZ 60 ltac:(lia))). lia. }
  rewrite R in EP. assert (FP : finite_double p) by (rewrite EP; split; [exact V|reflexivity]).
  assert (EV : zval p = Zpos q * 2 ^ (E + 1074)) by (rewrite EP; reflexivity). rewrite <- EV in F.
  destruct (F _ (MZ 0 ltac:(lia))) as [F0 _]. destruct (F _ (MZ 60 ltac:(lia))) as [_ F1].
  rewrite Z.pow_0_r, Z.mul_1_l in F0. specialize (F0 v1). specialize (F1 v2).
  assert (Z52 : 2 ^ 52 <= zone) by (rewrite zone_pow; apply Z.pow_le_mono_r; lia).
  assert (Z1200 : 2 ^ 60 * zone <= 2 ^ 1200) by (rewrite zone_pow, <- Z.pow_add_r by lia; apply Z.pow_le_mono_r; lia).
  destruct (neighbours p FP ltac:(lia) ltac:(lia)) as (d & y1 & y2 & Pd & Hd & G1 & W1 & G2 & W2).
  split; [exact FP|]. split; [exact F0|].
  assert (N1 : zval p - d < v).
  { apply Z.nle_gt. intros C. rewrite <- W1 in C. destruct (F (zval y1)) as [_ Q]; [apply mag_value; [exact G1|]|specialize (Q C); lia].
    rewrite W1. clear - Hd Pd. assert (1 <= 2 ^ 52) by (apply Z.leb_le; reflexivity). set (K := 2 ^ 52) in *. clearbody K. nia. }
  assert (N2 : v < zval p + d).
  { apply Z.nle_gt. intros C. rewrite <- W2 in C. destruct (F (zval y2)) as [Q _]; [apply mag_value; [exact G2|lia]|specialize (Q C); lia]. }
  rewrite <- XY. clear - N1 N2 Hd ZP Pd. set (K := 2 ^ 52) in *. assert (1 < K) by (apply Z.ltb_lt; reflexivity). clearbody K v.
  set (P := zval p) in *. clearbody P.
  rewrite !Z.mul_assoc. split; apply Z.mul_le_mono_nonneg_r; nia.
Qed.

(** *** Composition of the relative errors *)
Lemma compose_upper K J aa bb sa sb pp cc BB zz : 1 < K -> 1 < J -> 0 < zz -> 0 <= aa -> 0 <= bb ->
  0 <= sa -> 0 <= sb -> 0 <= pp -> 0 <= cc -> 0 <= BB ->
  K ^ 2 * (aa * zz) <= (K + 1) ^ 2 * sa -> K ^ 2 * (bb * zz) <= (K + 1) ^ 2 * sb ->
  K ^ 2 * (sa * sb) <= (K + 1) ^ 2 * (pp * zz) -> (K - 1) ^ 2 * (cc * pp) <= K ^ 2 * (BB * zz * zz) ->
  (J - 1) ^ 2 * (K + 1) ^ 6 <= (J + 1) ^ 2 * (K ^ 4 * (K - 1) ^ 2) ->
  (J - 1) ^ 2 * (aa * bb * cc) <= (J + 1) ^ 2 * (BB * zz).
Proof.
  intros HK HJ Hz Ha Hb Hsa Hsb Hpp Hcc HB A1 A2 A3 A4 A5.
  assert (P2 : forall x, 0 <= x ^ 2) by (intros; rewrite Z.pow_2_r; apply Z.square_nonneg).
  assert (M : forall a b c d, 0 <= a -> 0 <= c -> a <= b -> c <= d -> a * c <= b * d) by (intros; apply Z.mul_le_mono_nonneg; auto).
  assert (B1 : (K ^ 2 * (aa * zz)) * (K ^ 2 * (bb * zz)) <= ((K + 1) ^ 2 * sa) * ((K + 1) ^ 2 * sb)).
  { apply M; auto; apply Z.mul_nonneg_nonneg; auto; apply Z.mul_nonneg_nonneg; lia. }
  assert (B2 : (K ^ 2 * (aa * zz)) * (K ^ 2 * (bb * zz)) * K ^ 2 <= (K + 1) ^ 6 * (pp * zz)).
  { eapply Z.le_trans; [apply Z.mul_le_mono_nonneg_r; [apply P2|exact B1]|].
    replace ((K + 1) ^ 2 * sa * ((K + 1) ^ 2 * sb) * K ^ 2) with ((K + 1) ^ 4 * (K ^ 2 * (sa * sb))) by ring.
    replace ((K + 1) ^ 6 * (pp * zz)) with ((K + 1) ^ 4 * ((K + 1) ^ 2 * (pp * zz))) by ring.
    apply Z.mul_le_mono_nonneg_l; [|exact A3]. apply Z.pow_nonneg. lia. }
  assert (B3 : (K ^ 2 * (aa * zz)) * (K ^ 2 * (bb * zz)) * K ^ 2 * ((K - 1) ^ 2 * cc) <= (K + 1) ^ 6 * zz * (K ^ 2 * (BB * zz * zz))).
  { eapply Z.le_trans; [apply Z.mul_le_mono_nonneg_r; [apply Z.mul_nonneg_nonneg; auto|exact B2]|].
    replace ((K + 1) ^ 6 * (pp * zz) * ((K - 1) ^ 2 * cc)) with ((K + 1) ^ 6 * zz * ((K - 1) ^ 2 * (cc * pp))) by ring.
    apply Z.mul_le_mono_nonneg_l; [|exact A4]. apply Z.mul_nonneg_nonneg; [apply Z.pow_nonneg; lia|lia]. }
  assert (P0 : 0 < K ^ 2 * (zz * zz)) by (clear - HK Hz; apply Z.mul_pos_pos; [apply Z.pow_pos_nonneg; lia|apply Z.mul_pos_pos; lia]).
  assert (B4 : K ^ 4 * (K - 1) ^ 2 * (aa * bb * cc) <= (K + 1) ^ 6 * (BB * zz)).
  { apply Z.mul_le_mono_pos_l with (K ^ 2 * (zz * zz)); [exact P0|].
    replace (K ^ 2 * (zz * zz) * (K ^ 4 * (K - 1) ^ 2 * (aa * bb * cc))) with ((K ^ 2 * (aa * zz)) * (K ^ 2 * (bb * zz)) * K ^ 2 * ((K - 1) ^ 2 * cc)) by ring.
    replace (K ^ 2 * (zz * zz) * ((K + 1) ^ 6 * (BB * zz))) with ((K + 1) ^ 6 * zz * (K ^ 2 * (BB * zz * zz))) by ring. exact B3. }
  assert (PK : 0 < K ^ 4 * (K - 1) ^ 2) by (clear - HK; apply Z.mul_pos_pos; apply Z.pow_pos_nonneg; lia).
  apply Z.mul_le_mono_pos_l with (K ^ 4 * (K - 1) ^ 2); [exact PK|].
  replace (K ^ 4 * (K - 1) ^ 2 * ((J - 1) ^ 2 * (aa * bb * cc))) with ((J - 1) ^ 2 * (K ^ 4 * (K - 1) ^ 2 * (aa * bb * cc))) by ring.
  eapply Z.le_trans; [apply Z.mul_le_mono_nonneg_l; [apply P2|exact B4]|].
  replace ((J - 1) ^ 2 * ((K + 1) ^ 6 * (BB * zz))) with ((J - 1) ^ 2 * (K + 1) ^ 6 * (BB * zz)) by ring.
  replace (K ^ 4 * (K - 1) ^ 2 * ((J + 1) ^ 2 * (BB * zz))) with ((J + 1) ^ 2 * (K ^ 4 * (K - 1) ^ 2) * (BB * zz)) by ring.
  apply Z.mul_le_mono_nonneg_r; [clear - HB Hz; apply Z.mul_nonneg_nonneg; lia|exact A5].
Qed.

Lemma compose_lower K J aa bb sa sb pp cc BB zz : 1 < K -> 1 < J -> 0 < zz -> 0 <= aa -> 0 <= bb ->
  0 <= sa -> 0 <= sb -> 0 <= pp -> 0 <= cc -> 0 <= BB ->
  (K - 1) ^ 2 * sa <= K ^ 2 * (aa * zz) -> (K - 1) ^ 2 * sb <= K ^ 2 * (bb * zz) ->
  (K - 1) ^ 2 * (pp * zz) <= K ^ 2 * (sa * sb) -> K ^ 2 * (BB * zz * zz) <= (K + 1) ^ 2 * (cc * pp) ->
  (J - 1) ^ 2 * (K ^ 4 * (K + 1) ^ 2) <= (J + 1) ^ 2 * (K - 1) ^ 6 ->
  (J - 1) ^ 2 * (BB * zz) <= (J + 1) ^ 2 * (aa * bb * cc).
Proof.
  intros HK HJ Hz Ha Hb Hsa Hsb Hpp Hcc HB A1 A2 A3 A4 A5.
  assert (P2 : forall x, 0 <= x ^ 2) by (intros; rewrite Z.pow_2_r; apply Z.square_nonneg).
  assert (M : forall a b c d, 0 <= a -> 0 <= c -> a <= b -> c <= d -> a * c <= b * d) by (intros; apply Z.mul_le_mono_nonneg; auto).
  assert (P4 : 0 <= (K - 1) ^ 4) by (apply Z.pow_nonneg; lia).
  assert (B1 : ((K - 1) ^ 2 * sa) * ((K - 1) ^ 2 * sb) <= (K ^ 2 * (aa * zz)) * (K ^ 2 * (bb * zz))).
  { apply M; auto; apply Z.mul_nonneg_nonneg; auto. }
  assert (B2 : (K - 1) ^ 6 * (pp * zz) <= K ^ 2 * ((K ^ 2 * (aa * zz)) * (K ^ 2 * (bb * zz)))).
  { replace ((K - 1) ^ 6 * (pp * zz)) with ((K - 1) ^ 4 * ((K - 1) ^ 2 * (pp * zz))) by ring.
    eapply Z.le_trans; [apply Z.mul_le_mono_nonneg_l; [exact P4|exact A3]|].
    replace ((K - 1) ^ 4 * (K ^ 2 * (sa * sb))) with (K ^ 2 * (((K - 1) ^ 2 * sa) * ((K - 1) ^ 2 * sb))) by ring.
    apply Z.mul_le_mono_nonneg_l; auto. }
  assert (P6 : 0 <= (K - 1) ^ 6 * zz) by (clear - HK Hz; apply Z.mul_nonneg_nonneg; [apply Z.pow_nonneg|]; lia).
  assert (B3 : (K - 1) ^ 6 * zz * (K ^ 2 * (BB * zz * zz)) <= (K + 1) ^ 2 * cc * (K ^ 2 * ((K ^ 2 * (aa * zz)) * (K ^ 2 * (bb * zz))))).
  { eapply Z.le_trans; [apply Z.mul_le_mono_nonneg_l; [exact P6|exact A4]|].
    replace ((K - 1) ^ 6 * zz * ((K + 1) ^ 2 * (cc * pp))) with ((K + 1) ^ 2 * cc * ((K - 1) ^ 6 * (pp * zz))) by ring.
    apply Z.mul_le_mono_nonneg_l; [apply Z.mul_nonneg_nonneg; auto|exact B2]. }
  assert (P0 : 0 < K ^ 2 * (zz * zz)) by (clear - HK Hz; apply Z.mul_pos_pos; [apply Z.pow_pos_nonneg; lia|apply Z.mul_pos_pos; lia]).
  assert (B4 : (K - 1) ^ 6 * (BB * zz) <= K ^ 4 * (K + 1) ^ 2 * (aa * bb * cc)).
  { apply Z.mul_le_mono_pos_l with (K ^ 2 * (zz * zz)); [exact P0|].
    replace (K ^ 2 * (zz * zz) * ((K - 1) ^ 6 * (BB * zz))) with ((K - 1) ^ 6 * zz * (K ^ 2 * (BB * zz * zz))) by ring.
    replace (K ^ 2 * (zz * zz) * (K ^ 4 * (K + 1) ^ 2 * (aa * bb * cc))) with ((K + 1) ^ 2 * cc * (K ^ 2 * ((K ^ 2 * (aa * zz)) * (K ^ 2 * (bb * zz))))) by ring. exact B3. }
  assert (PK : 0 < (K - 1) ^ 6) by (clear - HK; apply Z.pow_pos_nonneg; lia).
  apply Z.mul_le_mono_pos_l with ((K - 1) ^ 6); [exact PK|].
  replace ((K - 1) ^ 6 * ((J - 1) ^ 2 * (BB * zz))) with ((J - 1) ^ 2 * ((K - 1) ^ 6 * (BB * zz))) by ring.
  eapply Z.le_trans; [apply Z.mul_le_mono_nonneg_l; [apply P2|exact B4]|].
  replace ((J - 1) ^ 2 * (K ^ 4 * (K + 1) ^ 2 * (aa * bb * cc))) with ((J - 1) ^ 2 * (K ^ 4 * (K + 1) ^ 2) * (aa * bb * cc)) by ring.
  replace ((K - 1) ^ 6 * ((J + 1) ^ 2 * (aa * bb * cc))) with ((J + 1) ^ 2 * (K - 1) ^ 6 * (aa * bb * cc)) by ring.
  apply Z.mul_le_mono_nonneg_r; [|exact A5]. apply Z.mul_nonneg_nonneg; auto. apply Z.mul_nonneg_nonneg; auto.
Qed.

Lemma product_bound K aa bb sa sb pp zz : 1 < K -> 0 < zz -> 0 <= aa -> 0 <= bb ->
  0 <= sa -> 0 <= sb -> 0 <= pp ->
  (K - 1) ^ 2 * sa <= K ^ 2 * (aa * zz) -> (K - 1) ^ 2 * sb <= K ^ 2 * (bb * zz) ->
  (K - 1) ^ 2 * (pp * zz) <= K ^ 2 * (sa * sb) ->
  (K - 1) ^ 6 * pp <= K ^ 6 * (aa * bb * zz).
Proof.
  intros HK Hz Ha Hb Hsa Hsb Hpp A1 A2 A3.
  assert (P2 : forall x, 0 <= x ^ 2) by (intros; rewrite Z.pow_2_r; apply Z.square_nonneg).
  assert (P4 : 0 <= (K - 1) ^ 4) by (apply Z.pow_nonneg; lia).
  assert (B1 : ((K - 1) ^ 2 * sa) * ((K - 1) ^ 2 * sb) <= (K ^ 2 * (aa * zz)) * (K ^ 2 * (bb * zz))).
  { apply Z.mul_le_mono_nonneg; auto; apply Z.mul_nonneg_nonneg; auto. }
  apply Z.mul_le_mono_pos_r with zz; [exact Hz|].
  replace ((K - 1) ^ 6 * pp * zz) with ((K - 1) ^ 4 * ((K - 1) ^ 2 * (pp * zz))) by ring.
  eapply Z.le_trans; [apply Z.mul_le_mono_nonneg_l; [exact P4|exact A3]|].
  replace ((K - 1) ^ 4 * (K ^ 2 * (sa * sb))) with (K ^ 2 * (((K - 1) ^ 2 * sa) * ((K - 1) ^ 2 * sb))) by ring.
  replace (K ^ 6 * (aa * bb * zz) * zz) with (K ^ 2 * ((K ^ 2 * (aa * zz)) * (K ^ 2 * (bb * zz)))) by ring.
  apply Z.mul_le_mono_nonneg_l; auto.
Qed.

Lemma square_both K x y : 0 <= K -> 0 <= x -> 0 <= y -> forall L, 0 <= L -> K * x <= L * y -> K ^ 2 * x ^ 2 <= L ^ 2 * y ^ 2.
Proof.
  intros HK Hx Hy L HL H. rewrite <- !Z.pow_mul_l. apply Z.pow_le_mono_l. split; [apply Z.mul_nonneg_nonneg|]; auto.
Qed.

Lemma square_le a b : 0 <= b -> a ^ 2 <= b ^ 2 -> a <= b.
Proof. intros Hb H. destruct (Z.le_gt_cases a b) as [|L]; auto. exfalso. rewrite !Z.pow_2_r in H. nia. Qed.

(** *** The cosine *)
Lemma cosine_whole n a b u w : holds_integers n (row a) u -> holds_integers n (row b) w ->
  0 < dot n u u -> 0 < dot n w w -> dot n u u * dot n w w <= 2 ^ 48 ->
  let c := cosine a b in
  finite_double c /\ Z.sgn (zval c) = Z.sgn (dot n u w) /\
  (2 ^ 50 - 1) ^ 2 * (dot n u u * dot n w w * zval c ^ 2) <= (2 ^ 50 + 1) ^ 2 * (dot n u w ^ 2 * zone ^ 2) /\
  (2 ^ 50 - 1) ^ 2 * (dot n u w ^ 2 * zone ^ 2) <= (2 ^ 50 + 1) ^ 2 * (dot n u u * dot n w w * zval c ^ 2).
Proof.
  intros Hu Hw Pu Pw B c. pose proof zone_pos as ZP.
  assert (K48 : 2 ^ 48 < 2 ^ 50) by reflexivity. assert (K50 : 2 ^ 50 < 2 ^ 53) by reflexivity.
  assert (Bu : dot n u u <= 2 ^ 48) by (clear - B Pu Pw; nia). assert (Bw : dot n w w <= 2 ^ 48) by (clear - B Pu Pw; nia).
  pose proof (abs_product n u u) as A1. pose proof (abs_product n w w) as A2. pose proof (abs_product n u w) as A3.
  pose proof (dot_exact n _ _ u u Hu Hu ltac:(lia)) as WU. pose proof (dot_exact n _ _ w w Hw Hw ltac:(lia)) as WW.
  pose proof (dot_exact n _ _ u w Hu Hw ltac:(lia)) as WD. pose proof (dot_abs n u w) as DA.
  destruct (root_of_whole _ _ WU ltac:(lia)) as (FU & RU & _ & U1 & U2).
  destruct (root_of_whole _ _ WW ltac:(lia)) as (FW & RW & _ & W1 & W2).
  unfold c, cosine. clear c.
  assert (T30 : 2 ^ 25 * zone <= 2 ^ 30 * zone) by (apply Z.mul_le_mono_nonneg_r; [lia|discriminate]).
  destruct (product_relative _ _ FU FW ltac:(lia) ltac:(lia)) as (FP & LP & P1 & P2).
  set (D := DotProduct (row a) (row b)) in *.
  set (SU := dsqrt (DotProduct (row a) (row a))) in *. set (SW := dsqrt (DotProduct (row b) (row b))) in *.
  set (P := dmul SU SW) in *. clearbody SU SW P D. clear WU WW A1 A2 T30.
  assert (K1 : 1 < 2 ^ 52) by reflexivity.
  assert (N6 : (2 ^ 52) ^ 6 * 2 ^ 48 <= (2 ^ 52 - 1) ^ 6 * 2 ^ 50) by (apply Z.leb_le; vm_compute; reflexivity).
  assert (J1 : (2 ^ 50 - 1) ^ 2 * (2 ^ 52 + 1) ^ 6 <= (2 ^ 50 + 1) ^ 2 * ((2 ^ 52) ^ 4 * (2 ^ 52 - 1) ^ 2)) by (apply Z.leb_le; vm_compute; reflexivity).
  assert (J2 : (2 ^ 50 - 1) ^ 2 * ((2 ^ 52) ^ 4 * (2 ^ 52 + 1) ^ 2) <= (2 ^ 50 + 1) ^ 2 * (2 ^ 52 - 1) ^ 6) by (apply Z.leb_le; vm_compute; reflexivity).
  assert (K2 : 1 < 2 ^ 50) by reflexivity.
  assert (SQ : forall x, 0 <= x ^ 2) by (intros; rewrite Z.pow_2_r; apply Z.square_nonneg).
  assert (Z2 : 0 < zone ^ 2) by (apply Z.pow_pos_nonneg; lia).
  replace (zval SU * zval SU) with (zval SU ^ 2) in * by ring. replace (zval SW * zval SW) with (zval SW ^ 2) in * by ring.
  replace (dot n u u * zone * zone) with (dot n u u * zone ^ 2) in * by ring.
  replace (dot n w w * zone * zone) with (dot n w w * zone ^ 2) in * by ring.
  assert (Q1 : (2 ^ 52 - 1) ^ 2 * (zval P ^ 2 * zone ^ 2) <= (2 ^ 52) ^ 2 * (zval SU ^ 2 * zval SW ^ 2)).
  { rewrite <- !(Z.pow_mul_l _ _ 2). apply Z.pow_le_mono_l. split; [|exact P1].
    apply Z.mul_nonneg_nonneg; [lia|]. apply Z.mul_nonneg_nonneg; lia. }
  assert (Q2 : (2 ^ 52) ^ 2 * (zval SU ^ 2 * zval SW ^ 2) <= (2 ^ 52 + 1) ^ 2 * (zval P ^ 2 * zone ^ 2)).
  { rewrite <- !(Z.pow_mul_l _ _ 2). apply Z.pow_le_mono_l. split; [|exact P2].
    apply Z.mul_nonneg_nonneg; [lia|]. apply Z.mul_nonneg_nonneg; lia. }
  assert (UP : zval P <= 2 ^ 25 * zone).
  { apply square_le; [lia|]. rewrite Z.pow_mul_l. change ((2 ^ 25) ^ 2) with (2 ^ 50).
    pose proof (product_bound (2 ^ 52) (dot n u u) (dot n w w) (zval SU ^ 2) (zval SW ^ 2) (zval P ^ 2) (zone ^ 2) K1 Z2
      ltac:(lia) ltac:(lia) (SQ _) (SQ _) (SQ _) U1 W1 Q1) as PB.
    apply Z.mul_le_mono_pos_l with ((2 ^ 52 - 1) ^ 6); [reflexivity|]. eapply Z.le_trans; [exact PB|].
    eapply Z.le_trans; [apply Z.mul_le_mono_nonneg_l; [discriminate|apply Z.mul_le_mono_nonneg_r; [apply SQ|exact B]]|].
    rewrite !Z.mul_assoc. apply Z.mul_le_mono_nonneg_r; [apply SQ|exact N6]. }
  rewrite zone_pow in WD. destruct (quotient_signed D P (dot n u w) 1074 WD ltac:(lia) ltac:(lia) FP (conj LP UP)) as (FC & SG & D1 & D2).
  rewrite <- zone_pow in D1, D2. set (c := ddiv D P) in *. clearbody c.
  split; [exact FC|]. split; [exact SG|].
  assert (AB : forall x, Z.abs x ^ 2 = x ^ 2) by (intros x; rewrite !Z.pow_2_r; apply Z.abs_square).
  assert (E1 : (2 ^ 52 - 1) ^ 2 * (zval c ^ 2 * zval P ^ 2) <= (2 ^ 52) ^ 2 * (dot n u w ^ 2 * zone ^ 2 * zone ^ 2)).
  { rewrite <- (AB (zval c)), <- (AB (dot n u w)), <- !(Z.pow_mul_l _ _ 2). apply Z.pow_le_mono_l. split; [|exact D1].
    apply Z.mul_nonneg_nonneg; [lia|]. apply Z.mul_nonneg_nonneg; lia. }
  assert (E2 : (2 ^ 52) ^ 2 * (dot n u w ^ 2 * zone ^ 2 * zone ^ 2) <= (2 ^ 52 + 1) ^ 2 * (zval c ^ 2 * zval P ^ 2)).
  { rewrite <- (AB (zval c)), <- (AB (dot n u w)), <- !(Z.pow_mul_l _ _ 2). apply Z.pow_le_mono_l. split; [|exact D2].
    apply Z.mul_nonneg_nonneg; [lia|]. apply Z.mul_nonneg_nonneg; [apply Z.mul_nonneg_nonneg|]; lia. }
  split.
  - apply (compose_upper (2 ^ 52) (2 ^ 50) (dot n u u) (dot n w w) (zval SU ^ 2) (zval SW ^ 2) (zval P ^ 2)); auto; lia.
  - apply (compose_lower (2 ^ 52) (2 ^ 50) (dot n u u) (dot n w w) (zval SU ^ 2) (zval SW ^ 2) (zval P ^ 2)); auto; lia.
Qed.

(** *** The test of the selector *)
Lemma threshold_upper m : finite_double m -> zone <= 2 ^ 48 * zval m ->
  exists t, dsub d1 m = t /\ dvalid t = true /\ (t = dminf \/ (is_finite t = true /\ 2 ^ 48 * zval t <= (2 ^ 48 - 1) * zone)).
Proof.
  intros Hm L. pose proof zone_pos as ZP. destruct one_double as [F1 V1]. exists (dsub d1 m). split; [reflexivity|].
  set (y := S754_finite false (2 ^ 53 - 32) (-53)).
  assert (Fy : finite_double y) by (split; vm_compute; reflexivity).
  assert (Ey : 2 ^ 48 * zval y = (2 ^ 48 - 1) * zone) by (vm_compute; reflexivity).
  pose proof (dsub_rounds d1 m F1 Hm) as [V [[F R]|[[E R]|[E R]]]]; rewrite V1 in R.
  - split; [exact V|]. right. split; [exact F|]. rewrite <- Ey. apply Z.mul_le_mono_nonneg_l; [discriminate|].
    apply (R y Fy). clearbody y. lia.
  - exfalso. specialize (R y Fy). clearbody y. lia.
  - split; [exact V|]. left. exact E.
Qed.

Lemma threshold_lower m : finite_double m -> zval m <= zone ->
  exists t, dsub d1 m = t /\ dvalid t = true /\ (t = dinf \/ (is_finite t = true /\ 0 <= zval t)).
Proof.
  intros Hm L. pose proof zone_pos as ZP. destruct one_double as [F1 V1]. exists (dsub d1 m). split; [reflexivity|].
  pose proof (dsub_rounds d1 m F1 Hm) as [V [[F R]|[[E R]|[E R]]]]; rewrite V1 in R; (split; [exact V|]).
  - right. split; [exact F|]. destruct (R _ zero_double) as [R1 _]. change (zval d0) with 0 in R1. lia.
  - left. exact E.
  - exfalso. specialize (R _ zero_double). change (zval d0) with 0 in R. lia.
Qed.

Definition measured (p : selector_params) (a b : cut) : double :=
  if signed_orthogonality p then cosine a b else dabs (cosine a b).

Lemma measured_value p a b : finite_double (cosine a b) ->
  finite_double (measured p a b) /\
  zval (measured p a b) = if signed_orthogonality p then zval (cosine a b) else Z.abs (zval (cosine a b)).
Proof.
  intros [V F]. unfold measured. destruct (signed_orthogonality p); [split; [split|]; auto|].
  destruct (dabs_spec (cosine a b) (zval (cosine a b)) (conj V (conj F eq_refl))) as (X & Y & W). split; [split|]; auto.
Qed.

Lemma proportional_dropped n p a b u w : holds_integers n (row a) u -> holds_integers n (row b) w ->
  0 < dot n u u -> 0 < dot n w w -> dot n u u * dot n w w <= 2 ^ 48 -> parallel n u w ->
  (signed_orthogonality p = true -> 0 < dot n u w) ->
  finite_double (minimum_orthogonality p) -> zone <= 2 ^ 48 * zval (minimum_orthogonality p) ->
  too_parallel p a b.
Proof.
  intros Hu Hw Pu Pw B PA SG Hm Lm. pose proof zone_pos as ZP.
  destruct (cosine_whole n a b u w Hu Hw Pu Pw B) as (FC & S & _ & C2).
  apply equality_parallel in PA; auto. rewrite <- PA in C2. rewrite <- Z.pow_2_r in C2.
  assert (NZ : 0 < dot n u w ^ 2) by (rewrite Z.pow_2_r, PA; apply Z.mul_pos_pos; auto).
  assert (C3 : (2 ^ 50 - 1) * zone <= (2 ^ 50 + 1) * Z.abs (zval (cosine a b))).
  { apply square_le; [apply Z.mul_nonneg_nonneg; [discriminate|apply Z.abs_nonneg]|]. rewrite !Z.pow_mul_l.
    apply Z.mul_le_mono_pos_l with (dot n u w ^ 2); [exact NZ|].
    assert (AB : Z.abs (zval (cosine a b)) ^ 2 = zval (cosine a b) ^ 2) by (rewrite !Z.pow_2_r; apply Z.abs_square). rewrite AB.
    clear - C2. set (X := (2 ^ 50 - 1) ^ 2) in *. set (Y := (2 ^ 50 + 1) ^ 2) in *. clearbody X Y. lia. }
  destruct (measured_value p a b FC) as [[VM FM] EM].
  assert (C4 : (2 ^ 50 - 1) * zone <= (2 ^ 50 + 1) * zval (measured p a b)).
  { rewrite EM. destruct (signed_orthogonality p); [|exact C3]. specialize (SG eq_refl).
    rewrite (Z.sgn_pos _ SG) in S. apply Z.sgn_pos_iff in S. rewrite Z.abs_eq in C3 by lia. exact C3. }
  unfold too_parallel. fold (measured p a b).
  destruct (threshold_upper _ Hm Lm) as (t & -> & Vt & [->|[Ft Et]]).
  - destruct (measured p a b) as [s|s| |s mm e]; try discriminate FM; reflexivity.
  - apply dltb_zval; auto. clear - C4 Et ZP.
    apply Z.mul_lt_mono_pos_l with ((2 ^ 50 + 1) * 2 ^ 48); [reflexivity|]. eapply Z.lt_le_trans with ((2 ^ 50 - 1) * zone * 2 ^ 48).
    + eapply Z.le_lt_trans with ((2 ^ 50 + 1) * ((2 ^ 48 - 1) * zone)).
      * rewrite <- Z.mul_assoc. apply Z.mul_le_mono_nonneg_l; [discriminate|exact Et].
      * rewrite Z.mul_assoc, <- (Z.mul_assoc _ zone), (Z.mul_comm zone), (Z.mul_assoc (2 ^ 50 - 1)). apply Z.mul_lt_mono_pos_r; [exact ZP|reflexivity].
    + replace ((2 ^ 50 + 1) * 2 ^ 48 * zval (measured p a b)) with ((2 ^ 50 + 1) * zval (measured p a b) * 2 ^ 48) by ring.
      apply Z.mul_le_mono_nonneg_r; [discriminate|exact C4].
Qed.

Lemma orthogonal_kept n p a b u w : holds_integers n (row a) u -> holds_integers n (row b) w ->
  0 < dot n u u -> 0 < dot n w w -> dot n u u * dot n w w <= 2 ^ 48 -> dot n u w = 0 ->
  finite_double (minimum_orthogonality p) -> zval (minimum_orthogonality p) <= zone ->
  ~ too_parallel p a b.
Proof.
  intros Hu Hw Pu Pw B Z0 Hm Lm T.
  destruct (cosine_whole n a b u w Hu Hw Pu Pw B) as (FC & S & _). rewrite Z0 in S. apply (proj1 (Z.sgn_null_iff _)) in S.
  destruct (measured_value p a b FC) as [[VM FM] EM].
  assert (E0 : zval (measured p a b) = 0) by (rewrite EM, S; destruct (signed_orthogonality p); reflexivity).
  unfold too_parallel in T. fold (measured p a b) in T.
  destruct (threshold_lower _ Hm Lm) as (t & E & Vt & [D|[Ft Et]]); rewrite E in T.
  - rewrite D in T. destruct (measured p a b) as [s|s| |s mm e]; try discriminate FM; discriminate T.
  - apply dltb_zval in T; auto. lia.
Qed.

(** *** The selection *)
Lemma select_proportional n sort p cs r i j a b u w : sorts sort -> SelectCuttingPlanes sort p cs = Ok r ->
  (i < j)%nat -> nth_error r i = Some a -> nth_error r j = Some b ->
  holds_integers n (row a) u -> holds_integers n (row b) w ->
  0 < dot n u u -> 0 < dot n w w -> dot n u u * dot n w w <= 2 ^ 48 -> parallel n u w ->
  (signed_orthogonality p = true -> 0 < dot n u w) ->
  finite_double (minimum_orthogonality p) -> zone <= 2 ^ 48 * zval (minimum_orthogonality p) ->
  is_forced b = true.
Proof.
  intros S H L Hi Hj Hu Hw Pu Pw B PA SG Hm Lm.
  destruct (select_orthogonal sort p cs r S H i j a b L Hi Hj) as [F|N]; [exact F|]. exfalso. apply N.
  eapply proportional_dropped; eauto.
Qed.

Lemma select_keeps n sort p cs r c s w : sorts sort -> SelectCuttingPlanes sort p cs = Ok r ->
  (forall c s, In c cs -> ComputeCutScore p c = Ok s -> is_nan s = false) ->
  Z.of_nat (length r) <> max_num_cuts p \/ max_num_cuts p <= 0 ->
  finite_double (minimum_orthogonality p) -> zval (minimum_orthogonality p) <= zone ->
  In c cs -> ComputeCutScore p c = Ok s -> dltb s (score_threshold p) = false ->
  holds_integers n (row c) w -> 0 < dot n w w ->
  (forall a, In a cs -> a = c \/ exists u, holds_integers n (row a) u /\ 0 < dot n u u /\
     dot n u u * dot n w w <= 2 ^ 48 /\ dot n u w = 0) ->
  In (SetScore c s) r.
Proof.
  intros S H NN X Hm Lm Hc Hs T Hw Pw O.
  destruct (select_maximal sort p cs r S H NN X c s Hc Hs T) as [I|(_ & a & Ia & TP)]; [exact I|].
  destruct (select_inv sort p cs r S H) as (sc & F2 & P).
  destruct (picks_prefix sort S p sc [] r P) as (t & E & rs & Q). cbn in E. subst t.
  assert (IS : exists a0 s0, In a0 cs /\ ComputeCutScore p a0 = Ok s0 /\ a = SetScore a0 s0).
  { assert (J : In a sc) by (eapply Permutation_in; [exact Q|]; apply in_app_iff; auto).
    clear - F2 J. induction F2 as [|x y l l' (s0 & E & D) R IH]; [destruct J|]. destruct J as [->|J].
    - exists x, s0. split; [left; reflexivity|auto].
    - destruct (IH J) as (a0 & s1 & I & Q). exists a0, s1. split; [right|]; auto. }
  destruct IS as (a0 & s0 & I0 & E0 & ->). destruct (O a0 I0) as [->|(u & Hu & Pu & B & Z0)].
  - rewrite Hs in E0. injection E0 as <-. exact Ia.
  - exfalso. revert TP. apply (orthogonal_kept n p (SetScore a0 s0) c u w); auto.
Qed.
