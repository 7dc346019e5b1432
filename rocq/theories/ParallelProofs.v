(** Objective parallelism of cuts with whole numbers. *)
From Coq Require Import String List ZArith Bool Lia Sorted Permutation ZifyBool.
From Verif Require Import Num Double DoubleFacts DoubleExact Rounding RootQuotient WholeNumbers SparseVector
  SparseVectorFacts VectorSpec VectorProofs ParallelSpec CutsData.
Import ListNotations.
Open Scope Z_scope.

(** *** Sums *)
Definition zsum (l : list Z) : Z := fold_right Z.add 0 l.

Lemma zsum_app l1 l2 : zsum (l1 ++ l2) = zsum l1 + zsum l2.
Proof. unfold zsum. induction l1; cbn; auto. rewrite IHl1. lia. Qed.
Lemma zsum_perm l1 l2 : Permutation l1 l2 -> zsum l1 = zsum l2.
Proof. unfold zsum. induction 1; cbn; lia. Qed.
Lemma zsum_zero {A} (f : A -> Z) l : (forall x, In x l -> f x = 0) -> zsum (map f l) = 0.
Proof.
  unfold zsum. induction l as [|x r IH]; cbn; auto. intros H. rewrite (H x), IH by auto. reflexivity.
Qed.

Lemma nodup_app (l1 l2 : list Z) : NoDup l1 -> NoDup l2 -> (forall x, In x l1 -> ~ In x l2) -> NoDup (l1 ++ l2).
Proof.
  induction 1 as [|x l H1 H2 IH]; cbn; auto. intros N D. constructor.
  - rewrite in_app_iff. intros [K|K]; [auto|]. apply (D x); auto.
  - apply IH; auto.
Qed.

Lemma zsum_incl (f : Z -> Z) l1 l2 : NoDup l1 -> NoDup l2 -> incl l1 l2 ->
  (forall x, In x l2 -> ~ In x l1 -> f x = 0) -> zsum (map f l1) = zsum (map f l2).
Proof.
  intros N1 N2 I Z.
  set (g := fun x => negb (existsb (Z.eqb x) l1)).
  assert (G : forall x, g x = true <-> ~ In x l1).
  { intros x. unfold g. rewrite negb_true_iff, <- not_true_iff_false, existsb_exists. split; intros H K; apply H.
    - exists x. split; auto. apply Z.eqb_refl.
    - destruct K as (y & Hy & E). apply Z.eqb_eq in E. subst. exact Hy. }
  assert (P : Permutation (l1 ++ filter g l2) l2).
  { apply NoDup_Permutation; auto.
    - apply nodup_app; auto; [apply NoDup_filter; auto|]. intros x Hx Hf. apply filter_In in Hf as [_ Hf]. apply G in Hf. auto.
    - intros x. rewrite in_app_iff, filter_In, G. destruct (in_dec Z.eq_dec x l1); split; intros; try tauto; auto. }
  rewrite <- (zsum_perm _ _ (Permutation_map f P)), map_app, zsum_app.
  rewrite (zsum_zero f (filter g l2)); [lia|]. intros x Hx. apply filter_In in Hx as [H1 H2]. apply Z; auto. apply G. auto.
Qed.

(** *** Dot products of whole vectors *)
Lemma sum_exact (v w : svec num_double) (a b : Z -> Z) : forall is A acc, worth acc (A * zone) ->
  (forall i, In i is -> worth (value v i) (a i * zone) /\ worth (value w i) (b i * zone)) ->
  Z.abs A + zsum (map (fun i => Z.abs (a i * b i)) is) < 2 ^ 53 ->
  worth (fold_left (fun acc i => dadd acc (dmul (value v i) (value w i))) is acc)
    ((A + zsum (map (fun i => a i * b i) is)) * zone).
Proof.
  assert (N : forall (f : Z -> Z) l, 0 <= zsum (map (fun i => Z.abs (f i)) l)).
  { intros f l. unfold zsum. induction l; cbn; lia. }
  induction is as [|i r IH]; intros A acc HA HI HB; cbn [map fold_left].
  - unfold zsum. cbn [map fold_right]. rewrite Z.add_0_r. exact HA.
  - unfold zsum in *. cbn [map fold_right] in *. specialize (N (fun i => a i * b i) r). cbn beta in N.
    destruct (HI i (or_introl eq_refl)) as [Hv Hw]. rewrite Z.add_assoc.
    apply IH; [|intros; apply HI; right; auto|lia].
    apply dadd_whole; [exact HA| |lia]. apply dmul_whole; auto. lia.
Qed.

Lemma value_none (v : svec num_double) i : canonical (ents v) -> holdsb v i = false -> value v i = d0.
Proof.
  intros C H. rewrite (value_find v) by apply C. rewrite holdsb_find in H.
  destruct (find_first (ents v) i); [discriminate|reflexivity].
Qed.

Lemma holdsb_in (v : svec num_double) i : holdsb v i = true <-> In i (map idx (ents v)).
Proof.
  unfold holdsb. rewrite existsb_exists, in_map_iff. split; intros (e & H).
  - exists e. destruct H as [H E]. apply Z.eqb_eq in E. auto.
  - exists e. destruct H as [E H]. split; auto. apply Z.eqb_eq. auto.
Qed.

Lemma sorted_lt_nodup l : StronglySorted Z.lt l -> NoDup l.
Proof.
  induction 1 as [|x l H IH F]; constructor; auto. rewrite Forall_forall in F. intros K. specialize (F x K). lia.
Qed.

Lemma zsum_sub (f : Z -> Z) l1 l2 : (forall x, 0 <= f x) -> NoDup l1 -> incl l1 l2 -> zsum (map f l1) <= zsum (map f l2).
Proof.
  intros P N. revert l2. induction N as [|x l H N IH]; intros l2 I.
  - unfold zsum at 1. cbn. clear I. unfold zsum. induction l2; cbn; [lia|]. specialize (P a). lia.
  - destruct (in_split x l2) as (u & w & ->); [apply I; left; auto|].
    rewrite map_app, zsum_app. unfold zsum at 1 3. cbn [map fold_right]. fold (zsum (map f l)) (zsum (map f w)).
    assert (J : incl l (u ++ w)).
    { intros y Hy. assert (K : In y (u ++ x :: w)) by (apply I; right; auto). apply in_app_iff in K as [K|[K|K]].
      - apply in_app_iff; auto.
      - subst. contradiction.
      - apply in_app_iff; auto. }
    specialize (IH _ J). rewrite map_app, zsum_app in IH. lia.
Qed.

Definition columns (n : nat) : list Z := map Z.of_nat (seq 0 n).
Lemma columns_in n x : In x (columns n) <-> 0 <= x < Z.of_nat n.
Proof.
  unfold columns. rewrite in_map_iff. split.
  - intros (i & <- & H). apply in_seq in H. lia.
  - intros H. exists (Z.to_nat x). split; [lia|]. apply in_seq. lia.
Qed.
Lemma columns_nodup n : NoDup (columns n).
Proof. apply FinFun.Injective_map_NoDup; [intros x y; lia|apply seq_NoDup]. Qed.
Lemma columns_sum n (f : nat -> Z) : zsum (map (fun z => f (Z.to_nat z)) (columns n)) = fold_right Z.add 0 (map f (seq 0 n)).
Proof. unfold columns, zsum. rewrite map_map. f_equal. apply map_ext. intros i. rewrite Nat2Z.id. reflexivity. Qed.

Lemma dot_exact n v w a b : holds_integers n v a -> holds_integers n w b ->
  dot n (fun i => Z.abs (a i)) (fun i => Z.abs (b i)) < 2 ^ 53 ->
  worth (DotProduct v w) (dot n a b * zone).
Proof.
  intros (Cv & Iv & Hv) (Cw & Iw & Hw) H.
  rewrite (DotProduct_spec v w Cv Cw). unfold sum_products.
  set (is := filter (holdsb w) (map idx (ents v))).
  set (a' := fun z => a (Z.to_nat z)). set (b' := fun z => b (Z.to_nat z)).
  assert (S : StronglySorted Z.lt (map idx (ents v))) by (apply map_idx_sorted; apply Cv).
  assert (ND : NoDup is) by (apply NoDup_filter, sorted_lt_nodup, S).
  assert (IN : incl is (columns n)).
  { intros x Hx. apply filter_In in Hx as [Hx _]. apply in_map_iff in Hx as (e & <- & He).
    rewrite Forall_forall in Iv. apply columns_in. auto. }
  assert (VA : forall i, In i (columns n) -> worth (value v i) (a' i * zone) /\ worth (value w i) (b' i * zone)).
  { intros i Hi. apply columns_in in Hi. unfold a', b'. replace i with (Z.of_nat (Z.to_nat i)) at 1 3 by lia.
    destruct (Hv (Z.to_nat i) ltac:(lia)) as [[P1 P2] P3]. destruct (Hw (Z.to_nat i) ltac:(lia)) as [[Q1 Q2] Q3].
    split; (split; [|split]); auto. }
  assert (E : dot n a b = 0 + zsum (map (fun i => a' i * b' i) is)).
  { unfold dot. rewrite <- (columns_sum n (fun i => a i * b i)). rewrite Z.add_0_l. symmetry.
    apply (zsum_incl (fun i => a' i * b' i)); auto using columns_nodup.
    intros x Hx Nx. destruct (VA x Hx) as [(_ & _ & V1) (_ & _ & V2)].
    unfold is in Nx. rewrite filter_In, <- holdsb_in in Nx.
    destruct (holdsb v x) eqn:B1.
    - destruct (holdsb w x) eqn:B2; [exfalso; apply Nx; auto|].
      rewrite (value_none w x Cw B2) in V2. rewrite (zero_whole (b' x)) by (symmetry; exact V2). apply Z.mul_0_r.
    - rewrite (value_none v x Cv B1) in V1. rewrite (zero_whole (a' x)) by (symmetry; exact V1). reflexivity. }
  rewrite E. apply (sum_exact v w a' b' is 0 d0).
  - split; [|split]; reflexivity.
  - intros i Hi. apply VA, IN, Hi.
  - cbn [Z.abs]. rewrite Z.add_0_l. eapply Z.le_lt_trans; [|exact H].
    eapply Z.le_trans; [apply (zsum_sub (fun i => Z.abs (a' i * b' i)) is (columns n)); auto; intros; apply Z.abs_nonneg|].
    unfold dot. rewrite <- (columns_sum n (fun i => Z.abs (a i) * Z.abs (b i))). unfold a', b'.
    apply Z.eq_le_incl. f_equal. apply map_ext. intros z. apply Z.abs_mul.
Qed.

(** *** Cauchy-Schwarz *)
Lemma sum_squares (p q : Z) (a b : nat -> Z) l :
  fold_right Z.add 0 (map (fun i => (p * a i - q * b i) * (p * a i - q * b i)) l) =
  p * p * fold_right Z.add 0 (map (fun i => a i * a i) l) - 2 * p * q * fold_right Z.add 0 (map (fun i => a i * b i) l)
  + q * q * fold_right Z.add 0 (map (fun i => b i * b i) l).
Proof. induction l as [|i r IH]; cbn [map fold_right]; [lia|]. rewrite IH. ring. Qed.

Lemma sum_nonneg (f : nat -> Z) l : (forall i, 0 <= f i) -> 0 <= fold_right Z.add 0 (map f l).
Proof. intros H. induction l as [|i r IH]; cbn [map fold_right]; [lia|]. specialize (H i). lia. Qed.

Lemma sum_zero_all (f : nat -> Z) l : (forall i, 0 <= f i) -> fold_right Z.add 0 (map f l) = 0 -> forall i, In i l -> f i = 0.
Proof.
  intros H. induction l as [|j r IH]; cbn [map fold_right]; [intros _ i []|]. intros E i [<-|Hi].
  - pose proof (sum_nonneg f r H). specialize (H j). lia.
  - apply IH; auto. pose proof (sum_nonneg f r H). specialize (H j). lia.
Qed.

Lemma cauchy_schwarz n a b : 0 < dot n b b ->
  dot n a b * dot n a b <= dot n a a * dot n b b.
Proof.
  intros P. pose proof (sum_squares (dot n b b) (dot n a b) a b (seq 0 n)) as E.
  pose proof (sum_nonneg (fun i => (dot n b b * a i - dot n a b * b i) * (dot n b b * a i - dot n a b * b i)) (seq 0 n)
    (fun i => Z.square_nonneg _)) as N.
  rewrite E in N. fold (dot n a a) (dot n a b) (dot n b b) in N.
  set (A := dot n a a) in *. set (B := dot n a b) in *. set (C := dot n b b) in *.
  assert (0 <= C * (A * C - B * B)) by lia. nia.
Qed.

Lemma equality_parallel n a b : 0 < dot n a a -> 0 < dot n b b ->
  (dot n a b * dot n a b = dot n a a * dot n b b <-> parallel n a b).
Proof.
  intros PA PC. split.
  - intros H. exists (dot n b b), (dot n a b). split; [lia|]. intros i Hi.
    pose proof (sum_squares (dot n b b) (dot n a b) a b (seq 0 n)) as E.
    fold (dot n a a) (dot n a b) (dot n b b) in E.
    pose proof (sum_zero_all (fun i => (dot n b b * a i - dot n a b * b i) * (dot n b b * a i - dot n a b * b i)) (seq 0 n)
      (fun i => Z.square_nonneg _)) as Z0.
    cbv beta in Z0. rewrite E in Z0.
    assert (Hs : In i (seq 0 n)) by (apply in_seq; split; [apply Nat.le_0_l|exact Hi]).
    assert (W : (dot n b b * a i - dot n a b * b i) * (dot n b b * a i - dot n a b * b i) = 0).
    { apply Z0; [|exact Hs]. set (A := dot n a a) in *. set (B := dot n a b) in *. set (C := dot n b b) in *.
      replace (C * C * A - 2 * C * B * B + B * B * C) with (C * (A * C - B * B)) by ring. rewrite H. ring. }
    apply Z.mul_eq_0 in W. clear - W. lia.
  - intros (p & q & H & L).
    assert (D : forall c, p * dot n a c = q * dot n b c).
    { intros c. unfold dot. assert (G : forall l, (forall i, In i l -> (i < n)%nat) ->
        p * fold_right Z.add 0 (map (fun i => a i * c i) l) = q * fold_right Z.add 0 (map (fun i => b i * c i) l)).
      { induction l as [|i r IH]; cbn [map fold_right]; intros Hl; [lia|].
        specialize (IH (fun j Hj => Hl j (or_intror Hj))). specialize (L i (Hl i (or_introl eq_refl))).
        rewrite !Z.mul_add_distr_l, IH, !Z.mul_assoc, L. reflexivity. }
      apply G. intros i Hi. apply in_seq in Hi. lia. }
    assert (S : dot n b a = dot n a b) by (unfold dot; f_equal; apply map_ext; intros; apply Z.mul_comm).
    pose proof (D a) as D1. pose proof (D b) as D2. rewrite S in D1. clear D L.
    set (A := dot n a a) in *. set (B := dot n a b) in *. set (C := dot n b b) in *.
    assert (Hp : p <> 0) by (intros ->; nia).
    apply Z.mul_reg_l with p; [exact Hp|].
    replace (p * (B * B)) with ((p * B) * B) by ring. rewrite D2.
    replace (p * (A * C)) with ((p * A) * C) by ring. rewrite D1. ring.
Qed.

Lemma abs_product n a b : 2 * dot n (fun i => Z.abs (a i)) (fun i => Z.abs (b i)) <= dot n a a + dot n b b.
Proof.
  unfold dot. induction (seq 0 n) as [|i r IH]; cbn [map fold_right]; [lia|].
  assert (2 * (Z.abs (a i) * Z.abs (b i)) <= a i * a i + b i * b i); [|lia].
  rewrite <- (Z.abs_square (a i)), <- (Z.abs_square (b i)).
  pose proof (Z.square_nonneg (Z.abs (a i) - Z.abs (b i))). lia.
Qed.

(** *** Neighbours of a double *)
Lemma neighbours r : finite_double r -> 2 ^ 52 <= zval r -> zval r <= 2 ^ 1200 ->
  exists d y1 y2, 0 < d /\ 2 ^ 52 * d <= zval r /\
    finite_double y1 /\ zval y1 = zval r - d /\ finite_double y2 /\ zval y2 = zval r + d.
Proof.
  intros H L U. assert (P : 0 < zval r) by (eapply Z.lt_le_trans; [|exact L]; reflexivity).
  destruct (positive_double r H P) as (m & e & -> & B). cbn [zval] in *.
  pose proof (bounded_spec _ _ B) as (E1 & E2 & E3).
  assert (P1 : 0 < 2 ^ (e + 1074)) by (apply Z.pow_pos_nonneg; lia).
  assert (M : 2 ^ 52 <= Zpos m).
  { destruct E3 as [->|]; auto. change (-1074 + 1074) with 0 in L. rewrite Z.pow_0_r, Z.mul_1_r in L. exact L. }
  assert (E4 : e + 1074 <= 1200).
  { destruct (Z.le_gt_cases (e + 1074) 1200) as [|X]; auto. exfalso.
    assert (2 ^ (1 + 1200) <= 2 ^ (e + 1074)) by (apply Z.pow_le_mono_r; lia).
    rewrite Z.pow_add_r in H0 by lia. assert (0 < 2 ^ 1200) by (apply Z.pow_pos_nonneg; lia).
    set (T := 2 ^ 1200) in *. clearbody T. nia. }
  assert (G : forall k, 0 < k <= 2 ^ 53 -> exists y, finite_double y /\ zval y = k * 2 ^ (e + 1074)).
  { intros k Hk. exists (binary_normalize prec emax k e false).
    assert (W : worth (binary_normalize prec emax k e false) (k * 2 ^ (e + 1074))).
    { destruct (Z.eq_dec k (2 ^ 53)) as [->|N].
      - apply normalize_exact with (t := e + 1074 + 1); try lia.
        + rewrite Z.abs_eq by nia. rewrite <- Z.pow_add_r by lia. apply Z.pow_lt_mono_r; lia.
        + exists (2 ^ 52). rewrite <- !Z.pow_add_r by lia. f_equal. lia.
      - apply normalize_exact with (t := e + 1074); try lia.
        + rewrite Z.abs_eq by nia. rewrite (Z.pow_add_r 2 53) by lia. apply Z.mul_lt_mono_pos_r; [exact P1|lia].
        + exists k. reflexivity. }
    destruct W as (W1 & W2 & W3). split; [split|]; auto. }
  destruct (G (Zpos m - 1) ltac:(lia)) as (y1 & F1 & V1). destruct (G (Zpos m + 1) ltac:(lia)) as (y2 & F2 & V2).
  exists (2 ^ (e + 1074)), y1, y2. split; [exact P1|]. split; [nia|].
  split; [exact F1|]. split; [rewrite V1; ring|]. split; [exact F2|]. rewrite V2. ring.
Qed.

Lemma square_le_mono a b : 0 <= a -> a <= b -> a * a <= b * b.
Proof. intros. apply Z.mul_le_mono_nonneg; lia. Qed.

(** *** Relative errors *)
Lemma sqrt_relative x : finite_double x -> 0 < zval x -> 2 ^ 52 <= zval (dsqrt x) <= 2 ^ 1200 ->
  (2 ^ 52 - 1) ^ 2 * (zval (dsqrt x) * zval (dsqrt x)) <= (2 ^ 52) ^ 2 * (zval x * zone) /\
  (2 ^ 52) ^ 2 * (zval x * zone) <= (2 ^ 52 + 1) ^ 2 * (zval (dsqrt x) * zval (dsqrt x)).
Proof.
  intros H P [L U]. destruct (dsqrt_rounds x H P) as (F & Ps & R).
  destruct (neighbours (dsqrt x) F L U) as (d & y1 & y2 & Pd & Hd & F1 & V1 & F2 & V2).
  set (S := zval (dsqrt x)) in *. set (X := zval x * zone) in *.
  assert (K1 : 1 < 2 ^ 52) by reflexivity. set (K := 2 ^ 52) in *. clearbody K.
  assert (d <= S) by nia.
  destruct (R y1 F1 ltac:(lia)) as [_ R1]. destruct (R y2 F2 ltac:(lia)) as [R2 _]. rewrite V1, V2 in *.
  assert (X1 : (S - d) * (S - d) < X). { apply Z.nle_gt. intros C. specialize (R1 C). lia. }
  assert (X2 : X < (S + d) * (S + d)). { apply Z.nle_gt. intros C. specialize (R2 C). lia. }
  rewrite !Z.pow_2_r. split.
  - replace ((K - 1) * (K - 1) * (S * S)) with (((K - 1) * S) * ((K - 1) * S)) by ring.
    eapply Z.le_trans; [apply (square_le_mono _ (K * (S - d)))|]; [nia|nia|].
    replace (K * (S - d) * (K * (S - d))) with (K * K * ((S - d) * (S - d))) by ring. apply Z.mul_le_mono_nonneg_l; nia.
  - replace ((K + 1) * (K + 1) * (S * S)) with (((K + 1) * S) * ((K + 1) * S)) by ring.
    eapply Z.le_trans; [|apply (square_le_mono (K * (S + d)))]; [|nia|nia].
    replace (K * (S + d) * (K * (S + d))) with (K * K * ((S + d) * (S + d))) by ring. apply Z.mul_le_mono_nonneg_l; nia.
Qed.

Lemma div_relative x y : finite_double x -> finite_double y -> 0 < zval x -> 0 < zval y ->
  zval x <= zval y * 2 ^ 500 -> zval y <= zval x * 2 ^ 500 -> 2 ^ 52 <= zval (ddiv x y) <= 2 ^ 1200 ->
  (2 ^ 52 - 1) * (zval (ddiv x y) * zval y) <= 2 ^ 52 * (zval x * zone) /\
  2 ^ 52 * (zval x * zone) <= (2 ^ 52 + 1) * (zval (ddiv x y) * zval y).
Proof.
  intros Hx Hy Px Py B1 B2 [L U]. destruct (ddiv_rounds x y Hx Hy Px Py B1 B2) as (F & Ps & R). clear B1 B2.
  destruct (neighbours (ddiv x y) F L U) as (d & y1 & y2 & Pd & Hd & F1 & V1 & F2 & V2).
  set (S := zval (ddiv x y)) in *. set (X := zval x * zone) in *. set (Y := zval y) in *.
  assert (K1 : 1 < 2 ^ 52) by reflexivity. set (K := 2 ^ 52) in *. clearbody K.
  assert (d <= S) by nia.
  destruct (R y1 F1 ltac:(lia)) as [_ R1]. destruct (R y2 F2 ltac:(lia)) as [R2 _]. rewrite V1, V2 in *.
  assert (X1 : (S - d) * Y < X). { apply Z.nle_gt. intros C. specialize (R1 C). lia. }
  assert (X2 : X < (S + d) * Y). { apply Z.nle_gt. intros C. specialize (R2 C). lia. }
  assert (Yd : K * (d * Y) <= S * Y) by nia.
  assert (K * ((S - d) * Y) <= K * X) by (apply Z.mul_le_mono_nonneg_l; lia).
  assert (K * X <= K * ((S + d) * Y)) by (apply Z.mul_le_mono_nonneg_l; lia). lia.
Qed.

(** Two doubles are apart by the last digit of the larger one. *)
Lemma doubles_apart x s : finite_double x -> finite_double s -> 0 <= zval x < zval s -> 2 ^ 53 <= zval s ->
  zval s <= 2 ^ 53 * (zval s - zval x).
Proof.
  intros Hx Hs [Px Lt] Big. destruct (positive_double s Hs ltac:(lia)) as (m & e & -> & B). cbn [zval] in *.
  pose proof (bounded_spec _ _ B) as (E1 & E2 & E3).
  set (t := e + 1074) in *. assert (P1 : 0 < 2 ^ t) by (apply Z.pow_pos_nonneg; lia).
  assert (T : 0 < t).
  { destruct (Z.lt_ge_cases 0 t) as [|X]; auto. assert (t = 0) by lia. rewrite H, Z.pow_0_r in Big. lia. }
  assert (M : 2 ^ 52 <= Zpos m) by (destruct E3; [lia|auto]).
  assert (MX : mag (zval x)) by (apply mag_value; auto).
  assert (HT : 2 ^ t = 2 * 2 ^ (t - 1)) by (replace t with (1 + (t - 1)) at 1 by lia; rewrite Z.pow_add_r by lia; reflexivity).
  assert (P2 : 0 < 2 ^ (t - 1)) by (apply Z.pow_pos_nonneg; lia).
  assert (PA : 2 ^ (52 + t) = 2 ^ 52 * 2 ^ t) by (apply Z.pow_add_r; lia).
  assert (PB : 2 ^ (52 + (t - 1)) = 2 ^ 52 * 2 ^ (t - 1)) by (apply Z.pow_add_r; lia).
  change (2 ^ 53) with (2 * 2 ^ 52) in *. assert (K1 : 1 < 2 ^ 52) by reflexivity.
  destruct (Z.lt_ge_cases (zval x) (2 ^ (52 + t))) as [L|L].
  - destruct (Z.lt_ge_cases (2 ^ 52) (Zpos m)) as [L2|L2].
    + set (K := 2 ^ 52) in *. clearbody K. set (Y := zval x) in *. clearbody Y. nia.
    + assert (EM : Zpos m = 2 ^ 52) by lia. rewrite EM in *.
      destruct (Z.lt_ge_cases (zval x) (2 ^ (52 + (t - 1)))) as [L3|L3].
      * set (K := 2 ^ 52) in *. clearbody K. set (Y := zval x) in *. clearbody Y. nia.
      * destruct (mag_multiple (zval x) (t - 1) ltac:(lia) MX L3) as [j EJ]. rewrite EJ in *.
        set (K := 2 ^ 52) in *. clearbody K. rewrite HT in *. assert (j < 2 * K) by nia. nia.
  - destruct (mag_multiple (zval x) t ltac:(lia) MX L) as [j EJ]. rewrite EJ in *.
    set (K := 2 ^ 52) in *. clearbody K. assert (j < Zpos m) by nia. nia.
Qed.

(** *** The parallelism *)
Lemma accuracy K N z S B p : 1 < K -> 0 < z -> 0 <= p -> 0 <= S -> 0 <= B ->
  (K - 1) ^ 2 * (S * S) <= K ^ 2 * (N * z * z) -> K ^ 2 * (N * z * z) <= (K + 1) ^ 2 * (S * S) ->
  (K - 1) * (p * S) <= K * (B * z * z) -> K * (B * z * z) <= (K + 1) * (p * S) ->
  (K - 1) ^ 2 * (N * p ^ 2) <= (K + 1) ^ 2 * (B ^ 2 * z ^ 2) /\
  (K - 1) ^ 2 * (B ^ 2 * z ^ 2) <= (K + 1) ^ 2 * (N * p ^ 2).
Proof.
  intros HK Hz Hp HS HB S1 S2 D1 D2. rewrite !Z.pow_2_r in *.
  assert (P : 0 < K * K * (z * z)) by nia.
  assert (PS : 0 <= p * S) by (apply Z.mul_nonneg_nonneg; lia).
  assert (Q1 : 0 <= (K - 1) * (K - 1) * (p * p)) by (apply Z.mul_nonneg_nonneg; apply Z.square_nonneg).
  assert (Q2 : 0 <= (K + 1) * (K + 1) * (p * p)) by (apply Z.mul_nonneg_nonneg; apply Z.square_nonneg).
  assert (Q3 : 0 <= (K + 1) * (K + 1)) by apply Z.square_nonneg.
  assert (Q4 : 0 <= (K - 1) * (K - 1)) by apply Z.square_nonneg.
  assert (Q5 : 0 <= B * z * z) by (apply Z.mul_nonneg_nonneg; [apply Z.mul_nonneg_nonneg|]; lia).
  assert (Q6 : 0 <= (K - 1) * (p * S)) by (apply Z.mul_nonneg_nonneg; lia).
  assert (Q7 : 0 <= K * (B * z * z)) by (apply Z.mul_nonneg_nonneg; lia).
  pose proof (square_le_mono _ _ Q6 D1) as T1. pose proof (square_le_mono _ _ Q7 D2) as T2.
  pose proof (Z.mul_le_mono_nonneg_l _ _ _ Q1 S2) as U2. pose proof (Z.mul_le_mono_nonneg_l _ _ _ Q2 S1) as U1.
  pose proof (Z.mul_le_mono_nonneg_l _ _ _ Q3 T1) as T1'. pose proof (Z.mul_le_mono_nonneg_l _ _ _ Q4 T2) as T2'.
  split; apply Z.mul_le_mono_pos_r with (K * K * (z * z)); auto; clear - T1' T2' U1 U2; lia.
Qed.

Lemma dabs_worth x v : worth x v -> worth (dabs x) (Z.abs v).
Proof.
  intros (V & F & E). destruct x as [s|s| |s m e]; try discriminate; unfold dabs; cbn [SFabs].
  - cbn in E. subst v. split; [|split]; reflexivity.
  - split; [exact V|]. split; [reflexivity|]. cbn [zval] in *. rewrite <- E.
    pose proof (bounded_spec m e V) as (E1 & _). pose proof (zval_pos m e (proj1 E1)). destruct s; lia.
Qed.

Lemma whole_double k : Z.abs k < 2 ^ 53 -> exists y, finite_double y /\ zval y = k * zone.
Proof. intros H. destruct (dint_spec false k H) as (A & B & C). eexists. split; [split; [exact A|exact B]|exact C]. Qed.
Lemma small_double : exists y, finite_double y /\ 2 ^ 25 * zval y = zone.
Proof. exists (S754_finite false 4503599627370496 (-77)). split; [split; reflexivity|]. vm_compute. reflexivity. Qed.
Lemma below_one : exists y, finite_double y /\ 2 ^ 53 * (zone - zval y) = zone /\ 0 <= zval y < zone.
Proof. exists (S754_finite false 9007199254740991 (-53)). split; [split; reflexivity|]. split; [vm_compute; reflexivity|]. split; [vm_compute; discriminate|reflexivity]. Qed.

Lemma root_of_whole N n : worth N (n * zone) -> 1 <= n <= 2 ^ 50 -> let S := dsqrt N in
  finite_double S /\ zone <= zval S <= 2 ^ 25 * zone /\
  (forall k, 0 <= k < 2 ^ 53 -> (k * k <= n -> k * zone <= zval S) /\ (n <= k * k -> zval S <= k * zone)) /\
  (2 ^ 52 - 1) ^ 2 * (zval S * zval S) <= (2 ^ 52) ^ 2 * (n * zone * zone) /\
  (2 ^ 52) ^ 2 * (n * zone * zone) <= (2 ^ 52 + 1) ^ 2 * (zval S * zval S).
Proof.
  intros (V & F & E) Hn S. pose proof zone_pos as ZP.
  assert (H : finite_double N) by (split; auto).
  assert (P : 0 < zval N) by (rewrite E; apply Z.mul_pos_pos; lia).
  destruct (dsqrt_rounds N H P) as (FS & PS & R). fold S in FS, PS, R. rewrite E in R.
  assert (G : forall k, 0 <= k < 2 ^ 53 -> (k * k <= n -> k * zone <= zval S) /\ (n <= k * k -> zval S <= k * zone)).
  { intros k Hk. destruct (whole_double k ltac:(lia)) as (y & Fy & Ey).
    assert (0 <= zval y) by (rewrite Ey; apply Z.mul_nonneg_nonneg; lia).
    destruct (R y Fy H0) as [R1 R2]. rewrite Ey in R1, R2.
    assert (EQ : k * zone * (k * zone) = k * k * (zone * zone)) by ring.
    assert (EN : n * zone * zone = n * (zone * zone)) by ring.
    assert (ZZ : 0 <= zone * zone) by (apply Z.mul_nonneg_nonneg; lia).
    split; intros L; [apply R1|apply R2]; rewrite EQ, EN; apply Z.mul_le_mono_nonneg_r; auto. }
  assert (B : zone <= zval S <= 2 ^ 25 * zone).
  { split.
    - destruct (G 1 ltac:(lia)) as [G1 _]. rewrite Z.mul_1_l in G1. apply G1. lia.
    - destruct (G (2 ^ 25) ltac:(lia)) as [_ G1]. apply G1. apply Hn. }
  split; [exact FS|]. split; [exact B|]. split; [exact G|].
  rewrite <- E. apply (sqrt_relative N H P). fold S. destruct B as [B1 B2]. split.
  - eapply Z.le_trans; [|exact B1]. rewrite zone_pow. apply Z.pow_le_mono_r; lia.
  - eapply Z.le_trans; [exact B2|]. rewrite zone_pow, <- Z.pow_add_r by lia. apply Z.pow_le_mono_r; lia.
Qed.

Lemma quotient_of_whole x S b : worth x (b * zone) -> 1 <= b -> finite_double S ->
  b * zone <= zval S -> zval S <= 2 ^ 25 * zone -> let p := ddiv x S in
  finite_double p /\ 0 < zval p <= zone /\ (zval p = zone <-> zval S = b * zone) /\
  (2 ^ 52 - 1) * (zval p * zval S) <= 2 ^ 52 * (b * zone * zone) /\
  2 ^ 52 * (b * zone * zone) <= (2 ^ 52 + 1) * (zval p * zval S).
Proof.
  intros (V & F & E) Hb FS L U p. pose proof zone_pos as ZP.
  assert (H : finite_double x) by (split; auto).
  assert (BZ : zone <= b * zone) by nia.
  assert (P : 0 < zval x) by (rewrite E; lia). assert (PS : 0 < zval S) by lia.
  assert (T : 2 ^ 25 <= 2 ^ 500) by (apply Z.pow_le_mono_r; lia).
  assert (C1 : zval x <= zval S * 2 ^ 500).
  { rewrite E. eapply Z.le_trans; [exact L|]. assert (1 <= 2 ^ 500) by (eapply Z.le_trans; [|exact T]; discriminate).
    rewrite <- (Z.mul_1_r (zval S)) at 1. apply Z.mul_le_mono_nonneg_l; lia. }
  assert (C2 : zval S <= zval x * 2 ^ 500).
  { rewrite E. eapply Z.le_trans; [exact U|]. rewrite (Z.mul_comm (2 ^ 25)). apply Z.mul_le_mono_nonneg; lia. }
  destruct (ddiv_rounds x S H FS P PS C1 C2) as (FP & PP & R). fold p in FP, PP, R. rewrite E in R.
  destruct one_double as [F1 V1]. destruct (R d1 F1 ltac:(lia)) as [R1 R2]. rewrite V1 in R1, R2.
  assert (PL : zval p <= zone). { apply R2. rewrite (Z.mul_comm zone). apply Z.mul_le_mono_nonneg_r; lia. }
  split; [exact FP|]. split; [lia|]. split; [split|].
  - intros EP. destruct (Z.eq_dec (zval S) (b * zone)) as [|NE]; auto. exfalso.
    assert (BB : 2 ^ 53 <= zone) by (rewrite zone_pow; apply Z.pow_le_mono_r; lia).
    pose proof (doubles_apart x S H FS ltac:(lia) ltac:(lia)) as AP. rewrite E in AP.
    destruct below_one as (y & Fy & Ey & Ry). destruct (R y Fy ltac:(lia)) as [_ R3].
    set (q := zval y) in *. set (s := zval S) in *. set (X := b * zone) in *. clear R R1 R2 U C1 C2 T V1 BB E.
    assert (X * zone <= q * s); [|specialize (R3 H0); lia].
    assert (K0 : 0 < 2 ^ 53) by reflexivity.
    apply Z.mul_le_mono_pos_r with (2 ^ 53); [exact K0|]. set (K := 2 ^ 53) in *. clearbody K.
    replace (q * s * K) with (zone * s * K - K * (zone - q) * s) by ring. rewrite Ey.
    assert (zone * s <= zone * (K * (s - X))) by (apply Z.mul_le_mono_nonneg_l; lia). lia.
  - intros ES. apply Z.le_antisymm; [exact PL|]. apply R1. rewrite ES. lia.
  - rewrite <- E. apply (div_relative x S H FS P PS C1 C2). fold p. split.
    + destruct small_double as (y & Fy & Ey). assert (0 <= zval y) by lia. destruct (R y Fy H0) as [R3 _].
      eapply Z.le_trans; [|apply R3].
      * assert (2 ^ 25 * 2 ^ 52 <= 2 ^ 25 * zval y); [|lia]. rewrite Ey, zone_pow, <- Z.pow_add_r by lia. apply Z.pow_le_mono_r; lia.
      * eapply Z.le_trans; [apply Z.mul_le_mono_nonneg_l; [exact H0|exact U]|].
        replace (zval y * (2 ^ 25 * zone)) with ((2 ^ 25 * zval y) * zone) by ring. rewrite Ey. apply Z.mul_le_mono_nonneg_r; lia.
    + eapply Z.le_trans; [exact PL|]. rewrite zone_pow. apply Z.pow_le_mono_r; lia.
Qed.

Lemma parallelism_whole n ints obj x r rhs nm f a c :
  holds_integers n r a -> holds_integers n obj c -> 0 < dot n a a -> 0 < dot n c c -> dot n a a * dot n c c <= 2 ^ 50 ->
  let p := objective_parallelism (CreateCut ints obj x r rhs nm f) in
  finite_double p /\ 0 <= zval p <= zone /\
  (zval p = 0 <-> dot n a c = 0) /\ (zval p = zone <-> parallel n a c) /\
  (2 ^ 52 - 1) ^ 2 * (dot n a a * dot n c c * zval p ^ 2) <= (2 ^ 52 + 1) ^ 2 * (dot n a c ^ 2 * zone ^ 2) /\
  (2 ^ 52 - 1) ^ 2 * (dot n a c ^ 2 * zone ^ 2) <= (2 ^ 52 + 1) ^ 2 * (dot n a a * dot n c c * zval p ^ 2).
Proof.
  intros Ha Hc PA PC LE p. pose proof zone_pos as ZP.
  pose proof (abs_product n a a) as B1. pose proof (abs_product n c c) as B2. pose proof (abs_product n a c) as B3.
  pose proof (cauchy_schwarz n a c PC) as CS. pose proof (equality_parallel n a c PA PC) as EP.
  assert (MA : dot n a a <= 2 ^ 50) by nia. assert (MC : dot n c c <= 2 ^ 50) by nia.
  pose proof (dot_exact n r r a a Ha Ha ltac:(lia)) as WA. pose proof (dot_exact n obj obj c c Hc Hc ltac:(lia)) as WC.
  pose proof (dot_exact n r obj a c Ha Hc ltac:(lia)) as WB.
  unfold p, CreateCut. cbn [objective_parallelism]. clear p.
  set (A := dot n a a) in *. set (B := dot n a c) in *. set (C := dot n c c) in *. clear B1 B2 B3 Ha Hc.
  assert (WN : worth (dmul (DotProduct r r) (DotProduct obj obj)) (A * C * zone)) by (apply dmul_whole; auto; rewrite Z.abs_eq; nia).
  set (N := dmul (DotProduct r r) (DotProduct obj obj)) in *.
  apply dabs_worth in WB. rewrite Z.abs_mul, (Z.abs_eq zone) in WB by lia. set (b := dabs (DotProduct r obj)) in *.
  clearbody N b. clear WA WC.
  destruct (root_of_whole N (A * C) WN ltac:(nia)) as (FS & BS & GS & S1 & S2). set (S := dsqrt N) in *. clearbody S.
  assert (SQ : Z.abs B * Z.abs B = B * B) by apply Z.abs_square.
  assert (MB : Z.abs B <= 2 ^ 25) by (clear - LE CS SQ; nia).
  destruct (Z.eq_dec B 0) as [Z0|NZ].
  - rewrite Z0 in *. destruct WB as (V & F & E). destruct (positive_double S FS ltac:(lia)) as (m & e & ES & _).
    assert (EZ : exists s, b = S754_zero s).
    { destruct b as [s|s| |s m' e']; try discriminate; [eauto|]. pose proof (bounded_spec m' e' V) as (E1 & _).
      pose proof (zval_pos m' e' (proj1 E1)). cbn [zval Z.abs] in E. exfalso. destruct s; lia. }
    destruct EZ as [s ->]. rewrite ES. unfold ddiv. cbn [SFdiv zval].
    split; [split; reflexivity|]. split; [lia|]. split; [split; reflexivity|]. split.
    + rewrite <- EP. split; intros; exfalso; nia.
    + split; rewrite ?Z.pow_2_r, ?Z.mul_0_r, ?Z.mul_0_l, ?Z.mul_0_r; apply Z.le_refl.
  - assert (L : Z.abs B * zone <= zval S). { apply GS; [lia|]. rewrite SQ. exact CS. }
    destruct (quotient_of_whole b S (Z.abs B) WB ltac:(lia) FS L (proj2 BS)) as (FP & PP & PE & D1 & D2).
    set (p := ddiv b S) in *. clearbody p.
    split; [exact FP|]. split; [lia|]. split; [split; intros; exfalso; lia|]. split.
    + rewrite PE, <- EP. split.
      * intros ES. rewrite ES in S2.
        assert (Q : (2 ^ 52) ^ 2 * (A * C) <= (2 ^ 52 + 1) ^ 2 * (B * B)).
        { apply Z.mul_le_mono_pos_r with (zone * zone); [apply Z.mul_pos_pos; lia|].
          rewrite <- SQ. clear - S2. lia. }
        clear - Q CS LE. set (u := B * B) in *. set (v := A * C) in *. clearbody u v.
        change ((2 ^ 52) ^ 2) with 20282409603651670423947251286016 in Q.
        change ((2 ^ 52 + 1) ^ 2) with 20282409603651679431146506027009 in Q. change (2 ^ 50) with 1125899906842624 in LE. lia.
      * intros EQ. apply Z.le_antisymm; [|exact L]. apply GS; [lia|]. rewrite SQ, EQ. lia.
    + rewrite (Z.pow_even_abs B 2) by (exists 1; reflexivity).
      apply (accuracy (2 ^ 52) (A * C) zone (zval S) (Z.abs B) (zval p)); auto; lia || reflexivity.
Qed.
