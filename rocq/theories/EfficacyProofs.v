(** The efficacy of a cut with whole numbers at a point with binary fractions. *)
From Coq Require Import String List ZArith Bool Lia Sorted Permutation ZifyBool.
From Verif Require Import Num Double DoubleFacts DoubleExact Rounding RootQuotient WholeNumbers Dyadic SparseVector
  SparseVectorFacts VectorSpec VectorProofs ParallelSpec ParallelProofs EfficacySpec Outcome CutsData CutProofs.
Import ListNotations.
Open Scope Z_scope.

Lemma sum_dyadic (x y : svec num_double) (a b : Z -> Z) v : 1034 <= v <= 1074 -> forall is A acc, worth acc (A * 2 ^ v) ->
  (forall i, In i is -> worth (value x i) (a i * zone) /\ worth (value y i) (b i * 2 ^ v)) ->
  Z.abs A + zsum (map (fun i => Z.abs (a i * b i)) is) < 2 ^ 53 ->
  worth (fold_left (fun acc i => dadd acc (dmul (value x i) (value y i))) is acc)
    ((A + zsum (map (fun i => a i * b i) is)) * 2 ^ v).
Proof.
  intros Hv. assert (N : forall (f : Z -> Z) l, 0 <= zsum (map (fun i => Z.abs (f i)) l)).
  { intros f l. unfold zsum. induction l; cbn; lia. }
  induction is as [|i r IH]; intros A acc HA HI HB; cbn [map fold_left].
  - unfold zsum. cbn [map fold_right]. rewrite Z.add_0_r. exact HA.
  - unfold zsum in *. cbn [map fold_right] in *. specialize (N (fun i => a i * b i) r). cbn beta in N.
    destruct (HI i (or_introl eq_refl)) as [Hx Hy]. rewrite Z.add_assoc.
    apply IH; [|intros; apply HI; right; auto|lia].
    apply dadd_dyadic; [exact HA| |lia|lia]. apply dmul_dyadic; auto. lia.
Qed.

Lemma fraction_unit s V b : 0 <= s <= 40 -> 2 ^ s * V = b * zone -> V = b * 2 ^ (1074 - s).
Proof.
  intros Hs H. apply Z.mul_reg_l with (2 ^ s); [apply Z.pow_nonzero; lia|]. rewrite H.
  replace (2 ^ s * (b * 2 ^ (1074 - s))) with (b * (2 ^ s * 2 ^ (1074 - s))) by ring.
  rewrite <- Z.pow_add_r by lia. replace (s + (1074 - s)) with 1074 by lia. rewrite zone_pow. reflexivity.
Qed.

Lemma dot_dyadic s n r x a b : 0 <= s <= 40 -> holds_integers n r a -> holds_fractions s n x b ->
  dot n (fun i => Z.abs (a i)) (fun i => Z.abs (b i)) < 2 ^ 53 ->
  worth (DotProduct r x) (dot n a b * 2 ^ (1074 - s)).
Proof.
  intros Hs (Cv & Iv & Hv) (Cw & Iw & Hw) H.
  rewrite (DotProduct_spec r x Cv Cw). unfold sum_products.
  set (is := filter (holdsb x) (map idx (ents r))). set (v := 1074 - s).
  set (a' := fun z => a (Z.to_nat z)). set (b' := fun z => b (Z.to_nat z)).
  assert (S : StronglySorted Z.lt (map idx (ents r))) by (apply map_idx_sorted; apply Cv).
  assert (ND : NoDup is) by (apply NoDup_filter, sorted_lt_nodup, S).
  assert (IN : incl is (columns n)).
  { intros y Hy. apply filter_In in Hy as [Hy _]. apply in_map_iff in Hy as (e & <- & He).
    rewrite Forall_forall in Iv. apply columns_in. auto. }
  assert (VA : forall i, In i (columns n) -> worth (value r i) (a' i * zone) /\ worth (value x i) (b' i * 2 ^ v)).
  { intros i Hi. apply columns_in in Hi. unfold a', b'. replace i with (Z.of_nat (Z.to_nat i)) at 1 3 by lia.
    destruct (Hv (Z.to_nat i) ltac:(lia)) as [[P1 P2] P3]. destruct (Hw (Z.to_nat i) ltac:(lia)) as [[Q1 Q2] Q3].
    split; (split; [|split]); auto. apply fraction_unit; auto. }
  assert (E : dot n a b = 0 + zsum (map (fun i => a' i * b' i) is)).
  { unfold dot. rewrite <- (columns_sum n (fun i => a i * b i)). rewrite Z.add_0_l. symmetry.
    apply (zsum_incl (fun i => a' i * b' i)); auto using columns_nodup.
    intros y Hy Ny. destruct (VA y Hy) as [(_ & _ & V1) (_ & _ & V2)].
    unfold is in Ny. rewrite filter_In, <- holdsb_in in Ny.
    destruct (holdsb r y) eqn:B1.
    - destruct (holdsb x y) eqn:B2; [exfalso; apply Ny; auto|].
      rewrite (value_none x y Cw B2) in V2. rewrite (zero_dyadic (b' y) v) by (unfold v; lia || (symmetry; exact V2)). apply Z.mul_0_r.
    - rewrite (value_none r y Cv B1) in V1. rewrite (zero_whole (a' y)) by (symmetry; exact V1). reflexivity. }
  rewrite E. apply (sum_dyadic r x a' b' v ltac:(unfold v; lia) is 0 d0).
  - split; [|split]; reflexivity.
  - intros i Hi. apply VA, IN, Hi.
  - cbn [Z.abs]. rewrite Z.add_0_l. eapply Z.le_lt_trans; [|exact H].
    eapply Z.le_trans; [apply (zsum_sub (fun i => Z.abs (a' i * b' i)) is (columns n)); auto; intros; apply Z.abs_nonneg|].
    unfold dot. rewrite <- (columns_sum n (fun i => Z.abs (a i) * Z.abs (b i))). unfold a', b'.
    apply Z.eq_le_incl. f_equal. apply map_ext. intros z. apply Z.abs_mul.
Qed.

Lemma dot_abs n a b : Z.abs (dot n a b) <= dot n (fun i => Z.abs (a i)) (fun i => Z.abs (b i)).
Proof.
  unfold dot. induction (seq 0 n) as [|i r IH]; cbn [map fold_right]; [lia|]. rewrite <- Z.abs_mul. lia.
Qed.

Lemma quarter_double : exists y, finite_double y /\ zval y = 2 ^ 1009.
Proof. exists (S754_finite false 4503599627370496 (-117)). split; [split; reflexivity|]. vm_compute. reflexivity. Qed.
Lemma large_double : exists y, finite_double y /\ zval y = 2 ^ 1127.
Proof. exists (S754_finite false 4503599627370496 1). split; [split; reflexivity|]. vm_compute. reflexivity. Qed.

Lemma quotient_dyadic x S b v : worth x (b * 2 ^ v) -> 1034 <= v <= 1074 -> 1 <= b < 2 ^ 53 -> finite_double S ->
  zone <= zval S <= 2 ^ 25 * zone -> let p := ddiv x S in
  finite_double p /\ 0 < zval p /\
  (2 ^ 52 - 1) * (zval p * zval S) <= 2 ^ 52 * (b * 2 ^ v * zone) /\
  2 ^ 52 * (b * 2 ^ v * zone) <= (2 ^ 52 + 1) * (zval p * zval S).
Proof.
  intros (V & F & E) Hv Hb FS [L U] p. pose proof zone_pos as ZP.
  assert (H : finite_double x) by (split; auto).
  assert (X1 : 2 ^ 1034 <= zval x).
  { rewrite E. eapply Z.le_trans; [apply (Z.pow_le_mono_r 2 1034 v); lia|].
    rewrite <- (Z.mul_1_l (2 ^ v)) at 1. apply Z.mul_le_mono_nonneg_r; [apply Z.pow_nonneg; lia|lia]. }
  assert (X2 : zval x <= 2 ^ 1127).
  { rewrite E. change 1127 with (53 + 1074). rewrite Z.pow_add_r by lia.
    apply Z.mul_le_mono_nonneg; [lia|lia|apply Z.pow_nonneg; lia|apply Z.pow_le_mono_r; lia]. }
  assert (P : 0 < zval x) by (eapply Z.lt_le_trans; [|exact X1]; apply Z.pow_pos_nonneg; lia).
  assert (PS : 0 < zval S) by lia.
  assert (C1 : zval x <= zval S * 2 ^ 500).
  { eapply Z.le_trans; [exact X2|]. change 1127 with (627 + 500). rewrite Z.pow_add_r by lia.
    apply Z.mul_le_mono_nonneg_r; [apply Z.pow_nonneg; lia|]. eapply Z.le_trans; [|exact L]. rewrite zone_pow. apply Z.pow_le_mono_r; lia. }
  assert (C2 : zval S <= zval x * 2 ^ 500).
  { eapply Z.le_trans; [exact U|]. rewrite zone_pow, <- Z.pow_add_r by lia.
    eapply Z.le_trans; [apply (Z.pow_le_mono_r 2 (25 + 1074) (1034 + 500)); lia|]. rewrite Z.pow_add_r by lia.
    apply Z.mul_le_mono_nonneg_r; [apply Z.pow_nonneg; lia|exact X1]. }
  destruct (ddiv_rounds x S H FS P PS C1 C2) as (FP & PP & R). fold p in FP, PP, R.
  split; [exact FP|]. split; [exact PP|]. rewrite <- E. apply (div_relative x S H FS P PS C1 C2). fold p. split.
  - destruct quarter_double as (y & Fy & Ey). assert (0 <= zval y) by (rewrite Ey; apply Z.pow_nonneg; lia).
    destruct (R y Fy H0) as [R3 _]. eapply Z.le_trans; [|apply R3].
    + rewrite Ey. apply Z.pow_le_mono_r; lia.
    + eapply Z.le_trans; [apply Z.mul_le_mono_nonneg_l; [exact H0|exact U]|].
      rewrite Ey, Z.mul_assoc, <- Z.pow_add_r by lia. apply Z.mul_le_mono_nonneg_r; [lia|exact X1].
  - destruct large_double as (y & Fy & Ey). assert (0 <= zval y) by (rewrite Ey; apply Z.pow_nonneg; lia).
    destruct (R y Fy H0) as [_ R3]. eapply Z.le_trans; [apply R3|].
    + rewrite Ey. apply Z.mul_le_mono_nonneg; [lia|exact X2|lia|exact L].
    + rewrite Ey. apply Z.pow_le_mono_r; lia.
Qed.

(** The same for numerators of either sign. *)
Lemma dopp_worth x v : worth x v -> worth (dopp x) (- v).
Proof.
  intros (V & F & E). destruct x as [s|s| |s m e]; try discriminate; unfold dopp; cbn [SFopp].
  - cbn in E. subst v. split; [|split]; destruct s; reflexivity.
  - split; [exact V|]. split; [reflexivity|]. cbn [zval] in *. rewrite <- E. destruct s; cbn [negb]; ring.
Qed.

Lemma quotient_signed x S b v : worth x (b * 2 ^ v) -> 1034 <= v <= 1074 -> Z.abs b < 2 ^ 53 -> finite_double S ->
  zone <= zval S <= 2 ^ 25 * zone -> let p := ddiv x S in
  finite_double p /\ Z.sgn (zval p) = Z.sgn b /\
  (2 ^ 52 - 1) * (Z.abs (zval p) * zval S) <= 2 ^ 52 * (Z.abs b * 2 ^ v * zone) /\
  2 ^ 52 * (Z.abs b * 2 ^ v * zone) <= (2 ^ 52 + 1) * (Z.abs (zval p) * zval S).
Proof.
  intros W Hv Hb FS HS p. pose proof zone_pos as ZP.
  assert (PV : 0 < 2 ^ v) by (apply Z.pow_pos_nonneg; lia).
  destruct (positive_double S FS ltac:(lia)) as (ms & es & ES & _).
  destruct (Z.lt_trichotomy b 0) as [N|[Z0|P]].
  - pose proof (dopp_worth _ _ W) as WO. rewrite <- Z.mul_opp_l in WO.
    destruct (quotient_dyadic (dopp x) S (- b) v WO Hv ltac:(lia) FS HS) as (FP & PP & D1 & D2).
    assert (EP : p = dopp (ddiv (dopp x) S)).
    { destruct W as (V & F & E). assert (zval x < 0) by (rewrite E; apply Z.mul_neg_pos; lia).
      unfold p. destruct x as [s|s| |s m e]; try discriminate; cbn [zval] in H; try lia.
      pose proof (bounded_spec m e V) as (E1 & _). pose proof (zval_pos m e (proj1 E1)).
      destruct s; [|lia]. rewrite ES. unfold dopp at 2. cbn [SFopp negb]. apply ddiv_opp. }
    assert (WP : worth p (- zval (ddiv (dopp x) S))) by (rewrite EP; apply dopp_worth; destruct FP; split; auto).
    destruct WP as (V1 & F1 & E1). rewrite E1. set (q := zval (ddiv (dopp x) S)) in *.
    replace (Z.abs (- q)) with q by lia. replace (Z.abs b) with (- b) by lia.
    split; [split; auto|]. split; [|split; auto]. rewrite Z.sgn_opp, (Z.sgn_pos q PP), (Z.sgn_neg b N). reflexivity.
  - subst b. destruct W as (V & F & E). rewrite Z.mul_0_l in E.
    assert (EZ : exists s, x = S754_zero s).
    { destruct x as [s|s| |s m' e']; try discriminate; [eauto|]. pose proof (bounded_spec m' e' V) as (E1 & _).
      pose proof (zval_pos m' e' (proj1 E1)). cbn [zval] in E. exfalso. destruct s; lia. }
    destruct EZ as [s EX]. unfold p. rewrite ES, EX. unfold ddiv. cbn [SFdiv zval Z.abs Z.sgn].
    split; [split; reflexivity|]. split; [reflexivity|]. rewrite !Z.mul_0_l, !Z.mul_0_r. split; apply Z.le_refl.
  - destruct (quotient_dyadic x S b v W Hv ltac:(lia) FS HS) as (FP & PP & D1 & D2). fold p in FP, PP, D1, D2.
    rewrite (Z.abs_eq (zval p)), (Z.abs_eq b) by lia. split; [exact FP|]. split; [|split; auto].
    rewrite !Z.sgn_pos by lia. reflexivity.
Qed.

Lemma efficacy_whole s n ints obj x r rhs nm f a b R :
  0 <= s <= 40 -> holds_integers n r a -> holds_fractions s n x b ->
  finite_double rhs -> 2 ^ s * zval rhs = R * zone ->
  0 < dot n a a <= 2 ^ 50 -> dot n (fun i => Z.abs (a i)) (fun i => Z.abs (b i)) + Z.abs R < 2 ^ 53 ->
  let e := efficacy (CreateCut ints obj x r rhs nm f) in let N := dot n a b - R in
  finite_double e /\ Z.sgn (zval e) = Z.sgn N /\
  (2 ^ 52 - 1) ^ 2 * (dot n a a * (2 ^ s * zval e) ^ 2) <= (2 ^ 52 + 1) ^ 2 * (N ^ 2 * zone ^ 2) /\
  (2 ^ 52 - 1) ^ 2 * (N ^ 2 * zone ^ 2) <= (2 ^ 52 + 1) ^ 2 * (dot n a a * (2 ^ s * zval e) ^ 2).
Proof.
  intros Hs Ha Hx [Vr Fr] Er HA HB e N. pose proof zone_pos as ZP. set (v := 1074 - s).
  pose proof (dot_abs n a b) as DA. pose proof (abs_product n a a) as B1.
  pose proof (dot_exact n r r a a Ha Ha ltac:(lia)) as WA.
  pose proof (dot_dyadic s n r x a b Hs Ha Hx ltac:(lia)) as WB. fold v in WB.
  assert (WR : worth rhs (R * 2 ^ v)) by (split; [|split]; auto; apply fraction_unit; auto).
  pose proof (dsub_dyadic _ _ _ _ v WB WR ltac:(unfold v; lia) ltac:(lia)) as WN. fold N in WN.
  unfold e, CreateCut. cbn [efficacy]. unfold ComputeEfficacy. clear e.
  destruct (root_of_whole (DotProduct r r) (dot n a a) WA ltac:(lia)) as (FS & BS & _ & S1 & S2).
  destruct (quotient_signed _ (dsqrt (DotProduct r r)) N v WN ltac:(unfold v; lia) ltac:(lia) FS BS) as (FP & SG & D1 & D2).
  set (S := dsqrt (DotProduct r r)) in *. set (p := ddiv _ S) in *. clearbody S p. clear WA WB WR WN.
  split; [exact FP|]. split; [exact SG|].
  assert (P2 : 0 < 2 ^ s) by (apply Z.pow_pos_nonneg; lia).
  assert (ZS : 2 ^ s * 2 ^ v = zone) by (rewrite <- Z.pow_add_r by (unfold v; lia); rewrite zone_pow; f_equal; unfold v; lia).
  assert (AB : 2 ^ s * Z.abs (zval p) = Z.abs (2 ^ s * zval p)) by (rewrite Z.abs_mul, (Z.abs_eq (2 ^ s)) by lia; reflexivity).
  rewrite (Z.pow_even_abs N 2), (Z.pow_even_abs (2 ^ s * zval p) 2) by (exists 1; reflexivity).
  assert (T1 : (2 ^ 52 - 1) * (Z.abs (2 ^ s * zval p) * zval S) <= 2 ^ 52 * (Z.abs N * zone * zone)).
  { rewrite <- AB, <- ZS at 1. set (w := 2 ^ v) in *. set (u := 2 ^ s) in *. clearbody w u.
    assert (M : u * ((2 ^ 52 - 1) * (Z.abs (zval p) * zval S)) <= u * (2 ^ 52 * (Z.abs N * w * zone))) by (apply Z.mul_le_mono_nonneg_l; [lia|exact D1]).
    clear - M. lia. }
  assert (T2 : 2 ^ 52 * (Z.abs N * zone * zone) <= (2 ^ 52 + 1) * (Z.abs (2 ^ s * zval p) * zval S)).
  { rewrite <- AB, <- ZS at 1. set (w := 2 ^ v) in *. set (u := 2 ^ s) in *. clearbody w u.
    assert (M : u * (2 ^ 52 * (Z.abs N * w * zone)) <= u * ((2 ^ 52 + 1) * (Z.abs (zval p) * zval S))) by (apply Z.mul_le_mono_nonneg_l; [lia|exact D2]).
    clear - M. lia. }
  apply (accuracy (2 ^ 52) (dot n a a) zone (zval S) (Z.abs N) (Z.abs (2 ^ s * zval p))); auto; lia || reflexivity.
Qed.

Lemma update_whole s n g x i c0 a b R :
  GetCut g i = Ok c0 -> 0 <= s <= 40 -> holds_integers n (row c0) a -> holds_fractions s n x b ->
  finite_double (right_hand_side c0) -> 2 ^ s * zval (right_hand_side c0) = R * zone ->
  0 < dot n a a <= 2 ^ 50 -> dot n (fun i => Z.abs (a i)) (fun i => Z.abs (b i)) + Z.abs R < 2 ^ 53 ->
  exists c, GetCut (UpdateCutEfficacy g x) i = Ok c /\ row c = row c0 /\ right_hand_side c = right_hand_side c0 /\
  finite_double (efficacy c) /\ Z.sgn (zval (efficacy c)) = Z.sgn (dot n a b - R) /\
  (2 ^ 52 - 1) ^ 2 * (dot n a a * (2 ^ s * zval (efficacy c)) ^ 2) <= (2 ^ 52 + 1) ^ 2 * ((dot n a b - R) ^ 2 * zone ^ 2) /\
  (2 ^ 52 - 1) ^ 2 * ((dot n a b - R) ^ 2 * zone ^ 2) <= (2 ^ 52 + 1) ^ 2 * (dot n a a * (2 ^ s * zval (efficacy c)) ^ 2).
Proof.
  intros G Hs Ha Hx Fr Er HA HB.
  pose proof (efficacy_whole s n [] (mkV [] false) x (row c0) (right_hand_side c0) EmptyString false a b R Hs Ha Hx Fr Er HA HB) as W.
  cbv zeta in W. unfold CreateCut in W. cbn [efficacy] in W.
  exists (SetEfficacy c0 (ComputeEfficacy (row c0) (right_hand_side c0) x)).
  split; [exact (proj2 (proj2 (update_efficacy_spec g x)) i c0 G)|].
  split; [reflexivity|]. split; [reflexivity|]. exact W.
Qed.
