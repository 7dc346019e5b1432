(** Sparse vectors of whole numbers: multiples, sums and aggregations are exact. *)
From Coq Require Import String List ZArith Bool Lia Sorted Permutation ZifyBool.
From Verif Require Import Outcome OutcomeFacts Num Double DoubleFacts DoubleExact Rounding RootQuotient WholeNumbers
  SparseVector SparseVectorFacts VectorSpec VectorProofs ParallelSpec ParallelProofs Aggregation AggSpec AggProofs.
Import ListNotations.
Open Scope Z_scope.

Lemma worth_drop0 (x : num_double) v : worth x v -> worth (drop0 x) v.
Proof.
  intros (V & F & E). unfold drop0. destruct (is0 x) eqn:Z0; [|split; auto].
  assert (H : v = 0); [|rewrite H; split; [|split]; reflexivity].
  rewrite <- E. destruct x as [s|s| |s m e]; try discriminate; [reflexivity|destruct s; discriminate Z0].
Qed.

Lemma holdsb_spec (v : svec num_double) i : holdsb v i = true <-> holds v i.
Proof. rewrite holdsb_in, in_map_iff. unfold holds. split; intros (e & H); exists e; tauto. Qed.

Lemma range_nonneg n (l : list (entry num_double)) : Forall (fun e => 0 <= idx e < Z.of_nat n) l -> nonneg_indices l.
Proof. apply Forall_impl. intros e H. lia. Qed.

Lemma add_multiple_exact n v w f a b k : holds_integers n v a -> holds_integers n w b -> dirty v = false -> dirty w = false ->
  worth f (k * zone) -> (forall i, (i < n)%nat -> Z.abs (k * b i) < 2 ^ 53 /\ Z.abs (a i + k * b i) < 2 ^ 53) ->
  exists r, AddMultiple v f w = Ok r /\ dirty r = false /\ holds_integers n r (fun i => a i + k * b i).
Proof.
  intros (Cv & Iv & Hv) (Cw & Iw & Hw) Dv Dw Wf B.
  destruct (AddMultiple_pointwise num_double_ok v f w Dv Dw Cv Cw (range_nonneg _ _ Iv) (range_nonneg _ _ Iw)) as (r & E & Dr & Cr & _ & P).
  exists r. split; [exact E|]. split; [exact Dr|]. split; [exact Cr|].
  split; [apply (AddMultiple_idx (fun i => 0 <= i < Z.of_nat n) v f w r E Iv Iw)|].
  intros i Hi. destruct (Hv i Hi) as [[V1 V2] V3]. destruct (Hw i Hi) as [[W1 W2] W3]. destruct (B i Hi) as [B1 B2].
  assert (Wv : worth (value v (Z.of_nat i)) (a i * zone)) by (split; [|split]; auto).
  assert (Ww : worth (value w (Z.of_nat i)) (b i * zone)) by (split; [|split]; auto).
  assert (Wm : worth (dmul (value w (Z.of_nat i)) f) (k * b i * zone)).
  { rewrite (Z.mul_comm k). apply dmul_whole; auto. rewrite (Z.mul_comm (b i)). exact B1. }
  destruct (P (Z.of_nat i)) as (P1 & P2 & P3 & P4).
  assert (G : worth (value r (Z.of_nat i)) ((a i + k * b i) * zone)).
  { assert (DV : holds v (Z.of_nat i) \/ ~ holds v (Z.of_nat i)).
    { rewrite <- (holdsb_spec v). destruct (holdsb v (Z.of_nat i)); auto. }
    assert (DW : holds w (Z.of_nat i) \/ ~ holds w (Z.of_nat i)).
    { rewrite <- (holdsb_spec w). destruct (holdsb w (Z.of_nat i)); auto. }
    assert (NV : ~ holds v (Z.of_nat i) -> a i = 0).
    { intros N. apply zero_whole. rewrite <- V3. rewrite (value_none v); auto.
      rewrite <- (holdsb_spec v) in N. destruct (holdsb v (Z.of_nat i)); congruence. }
    assert (NW : ~ holds w (Z.of_nat i) -> b i = 0).
    { intros N. apply zero_whole. rewrite <- W3. rewrite (value_none w); auto.
      rewrite <- (holdsb_spec w) in N. destruct (holdsb w (Z.of_nat i)); congruence. }
    destruct DV as [Y1|N1], DW as [Y2|N2].
    - rewrite (P1 Y1 Y2). apply worth_drop0. apply dadd_whole; auto.
    - rewrite (P3 Y1 N2), (NW N2), Z.mul_0_r, Z.add_0_r. exact Wv.
    - rewrite (P2 N1 Y2), (NV N1), Z.add_0_l. apply worth_drop0. exact Wm.
    - rewrite (proj1 (P4 N1 N2)), (NV N1), (NW N2), Z.mul_0_r. split; [|split]; reflexivity. }
  destruct G as (G1 & G2 & G3). split; [split|]; auto.
Qed.

(** *** Aggregation *)
Lemma zsum_cons x l : zsum (x :: l) = x + zsum l.
Proof. reflexivity. Qed.

Section Agg.
Variables (V : view arith_double) (n : nat) (k R : Z -> Z) (A : Z -> nat -> Z) (sides : list bool).

Definition row_is (r : Z) : Prop :=
  forall a, at_ (lp_rows V) r = Ok a -> dirty a = false /\ holds_integers n a (A r).
Definition side_is (r : Z) : Prop :=
  forall b y, at_ sides r = Ok b -> at_ (if b : bool then lp_rhs V else lp_lhs V) r = Ok y -> worth y (R r * zone).

Lemma agg_exact (es : list (entry num_double)) : forall (g g' : agg arith_double) acc R0, foldM (agg_step V sides) g es = Ok g' ->
  Forall (fun e : entry num_double => worth (val e) (k (idx e) * zone) /\ row_is (idx e) /\ side_is (idx e)) es ->
  dirty (a_var g) = false -> holds_integers n (a_var g) acc -> worth (a_rhs g) (R0 * zone) ->
  (forall j, (j < n)%nat -> Z.abs (acc j) + zsum (map (fun r => Z.abs (k r * A r j)) (map (@idx num_double) es)) < 2 ^ 53) ->
  Z.abs R0 + zsum (map (fun r => Z.abs (k r * R r)) (map (@idx num_double) es)) < 2 ^ 53 ->
  dirty (a_var g') = false /\
  holds_integers n (a_var g') (fun j => acc j + zsum (map (fun r => k r * A r j) (map (@idx num_double) es))) /\
  worth (a_rhs g') ((R0 + zsum (map (fun r => k r * R r) (map (@idx num_double) es))) * zone).
Proof.
  assert (NN : forall (f : Z -> Z) l, 0 <= zsum (map (fun i => Z.abs (f i)) l)).
  { intros f l. unfold zsum. induction l; cbn; lia. }
  assert (EXT : forall v a b, (forall i, (i < n)%nat -> a i = b i) -> holds_integers n v a -> holds_integers n v b).
  { intros v a b E (C & I & H). split; auto. split; auto. intros i Hi. rewrite <- E by auto. auto. }
  induction es as [|e r IH]; intros g g' acc R0 H F D HI HR B1 B2; cbn [foldM] in H.
  - injection H as <-. split; auto. unfold zsum. cbn [map fold_right]. rewrite Z.add_0_r. split; [|exact HR].
    eapply EXT; [|exact HI]. intros; cbn; lia.
  - apply bind_ok in H as (g1 & S & H). inversion F as [|e' r' (We & Re & Se) F2]; subst. cbn [map] in B1, B2.
    pose proof S as S'. unfold agg_step in S'.
    apply bind_ok in S' as (b & Eb & S'). apply bind_ok in S' as (y & Ey & S'). apply bind_ok in S' as (a & Ea & S').
    apply bind_ok in S' as (v & Ev & S'). injection S' as <-.
    destruct (Re a Ea) as [Da Ha]. pose proof (Se b y Eb Ey) as Wy.
    assert (G1 : exists v', AddMultiple (a_var g) (val e) a = Ok v' /\ dirty v' = false /\
      holds_integers n v' (fun i => acc i + k (idx e) * A (idx e) i)).
    { apply add_multiple_exact; auto. intros i Hi. specialize (B1 i Hi). rewrite zsum_cons in B1.
      pose proof (NN (fun r0 => k r0 * A r0 i) (map (@idx num_double) r)) as P.
      lia. }
    destruct G1 as (v' & Ev' & Dv & Hv). assert (X : v = v') by (change (AddMultiple (a_var g) (val e) a = Ok v) in Ev; congruence). subst v'. clear Ev'.
    assert (G2 : worth (dadd (a_rhs g) (dmul (val e) y)) ((R0 + k (idx e) * R (idx e)) * zone)).
    { rewrite zsum_cons in B2.
      pose proof (NN (fun r0 => k r0 * R r0) (map (@idx num_double) r)) as P.
      apply dadd_whole; [exact HR| |lia]. apply dmul_whole; auto. lia. }
    destruct (IH _ _ (fun i => acc i + k (idx e) * A (idx e) i) (R0 + k (idx e) * R (idx e)) H F2) as (I1 & I2 & I3); auto.
    + intros j Hj. specialize (B1 j Hj). rewrite zsum_cons in B1. lia.
    + rewrite zsum_cons in B2. lia.
    + split; auto. split.
      * eapply EXT; [|exact I2]. intros i _. cbn [map]. rewrite zsum_cons. lia.
      * cbn [map]. rewrite zsum_cons, Z.add_assoc. exact I3.
Qed.
End Agg.

Lemma aggregate_exact m n (V : view arith_double) (w : svec num_double) sides (g : agg arith_double) (k R : nat -> Z) (A : nat -> nat -> Z) :
  holds_integers m w k -> AggregateByWeight (A := arith_double) V w sides = Ok g ->
  (forall r a, (r < m)%nat -> at_ (lp_rows V) (Z.of_nat r) = Ok a -> dirty a = false /\ holds_integers n a (A r)) ->
  (forall r (b : bool) y, (r < m)%nat -> k r <> 0 -> at_ sides (Z.of_nat r) = Ok b ->
     at_ (if b then lp_rhs V else lp_lhs V) (Z.of_nat r) = Ok y -> finite_double y /\ zval y = R r * zone) ->
  (forall j, (j < n)%nat -> dot m (fun r => Z.abs (k r)) (fun r => Z.abs (A r j)) < 2 ^ 53) ->
  dot m (fun r => Z.abs (k r)) (fun r => Z.abs (R r)) < 2 ^ 53 ->
  holds_integers n (a_var g) (fun j => dot m k (fun r => A r j)) /\
  finite_double (a_rhs g) /\ zval (a_rhs g) = dot m k R * zone.
Proof.
  intros (Cw & Iw & Hw) H HA HS B1 B2. unfold AggregateByWeight in H.
  apply bind_ok in H as (g1 & H & E). injection E as <-. cbn [a_var a_rhs].
  set (ks := fun z => k (Z.to_nat z)). set (Rs := fun z => R (Z.to_nat z)). set (As := fun z => A (Z.to_nat z)).
  assert (SO : StronglySorted Z.lt (map (@idx num_double) (ents w))) by (apply map_idx_sorted; apply Cw).
  set (is := map (@idx num_double) (ents w)) in *.
  assert (ND : NoDup is) by (apply sorted_lt_nodup; exact SO).
  assert (IN : incl is (columns m)).
  { intros x Hx. apply in_map_iff in Hx as (e & <- & He). rewrite Forall_forall in Iw. apply columns_in. auto. }
  assert (OUT : forall x, In x (columns m) -> ~ In x is -> ks x = 0).
  { intros x Hx Nx. apply columns_in in Hx. unfold ks. destruct (Hw (Z.to_nat x) ltac:(lia)) as [_ V3].
    rewrite Z2Nat.id in V3 by lia. unfold is in Nx. rewrite <- holdsb_in in Nx.
    rewrite (value_none w x Cw) in V3 by (destruct (holdsb w x); congruence). apply zero_whole. symmetry. exact V3. }
  assert (SUM : forall (c : nat -> Z), zsum (map (fun z => ks z * c (Z.to_nat z)) is) = dot m k c).
  { intros c. unfold dot. rewrite <- (columns_sum m (fun i => k i * c i)).
    apply (zsum_incl (fun z => ks z * c (Z.to_nat z))); auto using columns_nodup.
    intros x Hx Nx. rewrite (OUT x Hx Nx). apply Z.mul_0_l. }
  assert (ABS : forall (c : nat -> Z), zsum (map (fun z => Z.abs (ks z * c (Z.to_nat z))) is) <= dot m (fun r => Z.abs (k r)) (fun r => Z.abs (c r))).
  { intros c. unfold dot. rewrite <- (columns_sum m (fun i => Z.abs (k i) * Z.abs (c i))).
    eapply Z.le_trans; [apply (zsum_sub (fun z => Z.abs (ks z * c (Z.to_nat z))) is (columns m)); auto; intros; apply Z.abs_nonneg|].
    apply Z.eq_le_incl. f_equal. apply map_ext. intros z. apply Z.abs_mul. }
  assert (EM : holds_integers n (@vempty num_double) (fun _ => 0)).
  { split; [split; constructor|]. split; [constructor|]. intros i _. split; [split|]; reflexivity. }
  destruct (agg_exact V n ks Rs As sides (ents w) (mkAgg vempty vempty vempty vempty (n0 : arith_double)) g1 (fun _ => 0) 0 H) as (_ & G1 & G2); auto.
  - apply Forall_forall. intros e He. assert (Hi : In (idx e) is) by (apply in_map; auto).
    apply IN, columns_in in Hi. split; [|split].
    + destruct (Hw (Z.to_nat (idx e)) ltac:(lia)) as [[V1 V2] V3]. rewrite Z2Nat.id in V1, V2, V3 by lia.
      rewrite (value_find w) in V1, V2, V3 by apply Cw. rewrite (find_first_in _ _ (proj1 Cw) He) in V1, V2, V3.
      split; [|split]; auto.
    + intros a Ea. apply (HA (Z.to_nat (idx e)) a); [lia|]. rewrite Z2Nat.id by lia. exact Ea.
    + intros b y Eb Ey. destruct (HS (Z.to_nat (idx e)) b y) as [[F1 F2] F3]; [lia| |rewrite Z2Nat.id by lia; exact Eb|rewrite Z2Nat.id by lia; exact Ey|].
      * intros K0. destruct (Hw (Z.to_nat (idx e)) ltac:(lia)) as [[V1 V2] V3]. rewrite Z2Nat.id in V1, V2, V3 by lia.
        rewrite K0 in V3. rewrite (value_find w) in V1, V2, V3 by apply Cw. rewrite (find_first_in _ _ (proj1 Cw) He) in V1, V2, V3.
        destruct Cw as [_ NZ]. rewrite Forall_forall in NZ. specialize (NZ e He).
        destruct (val e) as [s|s| |s mm ee]; try discriminate.
        pose proof (bounded_spec mm ee V1) as (E1 & _). pose proof (zval_pos mm ee (proj1 E1)). change (zval (SpecFloat.S754_finite s mm ee) = 0 * zone) in V3. rewrite Z.mul_0_l in V3. cbn [zval] in V3. destruct s; lia.
      * split; [|split]; auto.
  - split; [|split]; reflexivity.
  - intros j Hj. cbn [Z.abs]. rewrite Z.add_0_l. eapply Z.le_lt_trans; [apply (ABS (fun r => A r j))|]. apply B1. exact Hj.
  - cbn [Z.abs]. rewrite Z.add_0_l. eapply Z.le_lt_trans; [apply (ABS R)|exact B2].
  - change (map (@idx num_double) (ents w)) with is in G1, G2. unfold Rs in G2. rewrite (SUM R), Z.add_0_l in G2. split; [|destruct G2 as (Q1 & Q2 & Q3); split; [split|]; auto].
    destruct G1 as (C1 & I1 & H1). split; auto. split; auto. intros i Hi. specialize (H1 i Hi). cbv beta in H1. unfold As in H1.
    rewrite (SUM (fun r => A r i)), Z.add_0_l in H1. exact H1.
Qed.

(** Every point that satisfies the chosen sides satisfies the aggregated row, in exact arithmetic. *)
Lemma dot_swap m n (k x : nat -> Z) (A : nat -> nat -> Z) :
  dot n (fun j => dot m k (fun r => A r j)) x = dot m k (fun r => dot n (A r) x).
Proof.
  unfold dot. induction (seq 0 m) as [|r l IH]; cbn [map fold_right].
  - induction (seq 0 n) as [|j l IHl]; cbn [map fold_right]; lia.
  - rewrite <- IH. clear IH. induction (seq 0 n) as [|j q IHq]; cbn [map fold_right]; [lia|].
    rewrite IHq. set (S1 := fold_right Z.add 0 (map (fun i => A r i * x i) q)).
    set (S2 := fold_right Z.add 0 (map (fun i => k i * A i j) l)). nia.
Qed.

Lemma dot_le m (k a b : nat -> Z) : (forall r, (r < m)%nat -> k r * a r <= k r * b r) -> dot m k a <= dot m k b.
Proof.
  intros H. unfold dot. assert (G : forall r, In r (seq 0 m) -> k r * a r <= k r * b r) by (intros r Hr; apply in_seq in Hr; apply H; lia).
  clear H. induction (seq 0 m) as [|r l IH]; cbn [map fold_right]; [lia|].
  pose proof (G r (or_introl eq_refl)). assert (fold_right Z.add 0 (map (fun i => k i * a i) l) <= fold_right Z.add 0 (map (fun i => k i * b i) l)) by (apply IH; intros; apply G; right; auto). lia.
Qed.

Lemma aggregate_valid m n (k R x : nat -> Z) (A : nat -> nat -> Z) :
  (forall r, (r < m)%nat -> k r > 0 -> dot n (A r) x <= R r) ->
  (forall r, (r < m)%nat -> k r < 0 -> R r <= dot n (A r) x) ->
  dot n (fun j => dot m k (fun r => A r j)) x <= dot m k R.
Proof.
  intros H1 H2. rewrite dot_swap. apply dot_le. intros r Hr.
  destruct (Z.lt_trichotomy (k r) 0) as [L|[Z0|G]].
  - specialize (H2 r Hr L). nia.
  - rewrite Z0. lia.
  - specialize (H1 r Hr ltac:(lia)). nia.
Qed.

Lemma aggregate_whole m n (V : view arith_double) (w : svec num_double) sides (g : agg arith_double) (k R : nat -> Z) (A : nat -> nat -> Z) :
  holds_integers m w k -> AggregateByWeight (A := arith_double) V w sides = Ok g ->
  (forall r a, (r < m)%nat -> at_ (lp_rows V) (Z.of_nat r) = Ok a -> dirty a = false /\ holds_integers n a (A r)) ->
  (forall r (b : bool) y, (r < m)%nat -> k r <> 0 -> at_ sides (Z.of_nat r) = Ok b ->
     at_ (if b then lp_rhs V else lp_lhs V) (Z.of_nat r) = Ok y -> finite_double y /\ zval y = R r * zone) ->
  (forall j, (j < n)%nat -> dot m (fun r => Z.abs (k r)) (fun r => Z.abs (A r j)) < 2 ^ 53) ->
  dot m (fun r => Z.abs (k r)) (fun r => Z.abs (R r)) < 2 ^ 53 ->
  exists c d, holds_integers n (a_var g) c /\ finite_double (a_rhs g) /\ zval (a_rhs g) = d * zone /\
  (forall j, (j < n)%nat -> c j = dot m k (fun r => A r j)) /\ d = dot m k R /\
  forall x, (forall r, (r < m)%nat -> k r > 0 -> dot n (A r) x <= R r) ->
            (forall r, (r < m)%nat -> k r < 0 -> R r <= dot n (A r) x) -> dot n c x <= d.
Proof.
  intros H1 H2 H3 H4 H5 H6. destruct (aggregate_exact m n V w sides g k R A H1 H2 H3 H4 H5 H6) as (G1 & G2 & G3).
  exists (fun j => dot m k (fun r => A r j)), (dot m k R). split; [exact G1|]. split; [exact G2|]. split; [exact G3|].
  split; [reflexivity|]. split; [reflexivity|]. intros x X1 X2. apply aggregate_valid; auto.
Qed.

Lemma dot_whole n v w a b : holds_integers n v a -> holds_integers n w b ->
  dot n (fun i => Z.abs (a i)) (fun i => Z.abs (b i)) < 2 ^ 53 ->
  finite_double (DotProduct v w) /\ zval (DotProduct v w) = dot n a b * zone.
Proof. intros H1 H2 H3. destruct (dot_exact n v w a b H1 H2 H3) as (G1 & G2 & G3). split; [split|]; auto. Qed.

Lemma add_multiple_whole n v w f a b k : holds_integers n v a -> holds_integers n w b -> dirty v = false -> dirty w = false ->
  finite_double f -> zval f = k * zone ->
  (forall i, (i < n)%nat -> Z.abs (k * b i) < 2 ^ 53 /\ Z.abs (a i + k * b i) < 2 ^ 53) ->
  exists r, AddMultiple v f w = Ok r /\ dirty r = false /\ holds_integers n r (fun i => a i + k * b i).
Proof. intros H1 H2 H3 H4 [F1 F2] F3 H5. apply add_multiple_exact; auto. split; auto. Qed.

Lemma scale_whole n v (s : num_double) a k : holds_integers n v a -> finite_double s -> zval s = k * zone ->
  (forall i, (i < n)%nat -> Z.abs (k * a i) < 2 ^ 53) ->
  holds_integers n (Scale v s) (fun i => k * a i) /\ dirty (Scale v s) = dirty v.
Proof.
  intros (C & I & H) [F1 F2] F3 B. unfold Scale.
  destruct (is0 s) eqn:S0.
  - split; [|reflexivity]. assert (K : k = 0).
    { apply zero_whole. rewrite <- F3. destruct s as [b|b| |b mm ee]; try discriminate; [reflexivity|destruct b; discriminate S0]. }
    subst k. split; [split; constructor|]. split; [constructor|]. intros i _. split; [split|]; reflexivity.
  - split; [|reflexivity].
    assert (K : k <> 0).
    { intros ->. rewrite Z.mul_0_l in F3. destruct s as [b|b| |b mm ee]; try discriminate.
      pose proof (bounded_spec mm ee F1) as (E1 & _). pose proof (zval_pos mm ee (proj1 E1)). cbn [zval] in F3. destruct b; lia. }
    assert (W : forall e, In e (ents v) -> worth (val e) (a (Z.to_nat (idx e)) * zone) /\ a (Z.to_nat (idx e)) <> 0 /\
       worth (dmul (val e) s) (k * a (Z.to_nat (idx e)) * zone) /\ 0 <= idx e < Z.of_nat n).
    { intros e He. rewrite Forall_forall in I. specialize (I e He).
      destruct (H (Z.to_nat (idx e)) ltac:(lia)) as [[V1 V2] V3]. rewrite Z2Nat.id in V1, V2, V3 by lia.
      rewrite (value_find v) in V1, V2, V3 by apply C. rewrite (find_first_in _ _ (proj1 C) He) in V1, V2, V3. cbn [or0] in V1, V2, V3.
      assert (We : worth (val e) (a (Z.to_nat (idx e)) * zone)) by (split; [|split]; auto).
      split; [exact We|]. split; [|split; [|lia]].
      - intros A0. rewrite A0, Z.mul_0_l in V3. destruct C as [_ NZ]. rewrite Forall_forall in NZ. specialize (NZ e He).
        destruct (val e) as [b|b| |b mm ee]; try discriminate.
        pose proof (bounded_spec mm ee V1) as (E1 & _). pose proof (zval_pos mm ee (proj1 E1)). cbn [zval] in V3. destruct b; lia.
      - rewrite (Z.mul_comm k). apply dmul_whole; auto; [split; [|split]; auto|].
        rewrite (Z.mul_comm _ k). apply B. lia. }
    set (l := map (fun e : entry num_double => @mkE num_double (idx e) (nmul (val e) s)) (ents v)).
    assert (IX : map (@idx num_double) l = map (@idx num_double) (ents v)) by (unfold l; rewrite map_map; reflexivity).
    assert (CL : canonical l).
    { split.
      - pose proof (map_idx_sorted (ents v) (proj1 C)) as SO. rewrite <- IX in SO. clearbody l. clear - SO.
        induction l as [|e r IH]; [constructor|]. cbn [map] in SO. inversion SO as [|x y S1 S2]; subst.
        constructor; [apply IH; exact S1|]. rewrite Forall_forall in *. intros e' He'. apply S2. apply in_map. exact He'.
      - apply Forall_forall. intros e' He'. apply in_map_iff in He' as (e & <- & He).
        destruct (W e He) as (_ & A0 & (W1 & W2 & W3) & _). cbn [val].
        change (@is0 num_double (dmul (val e) s) = false). destruct (@is0 num_double (dmul (val e) s)) eqn:Z0; [|reflexivity]. exfalso.
        assert (X : k * a (Z.to_nat (idx e)) = 0).
        { apply zero_whole. rewrite <- W3. destruct (dmul (val e) s) as [b|b| |b mm ee]; try discriminate; [reflexivity|destruct b; discriminate Z0]. }
        apply Z.mul_eq_0 in X. tauto. }
    split; [exact CL|]. split.
    + apply Forall_forall. intros e' He'. apply in_map_iff in He' as (e & <- & He). cbn [idx]. apply W. exact He.
    + intros i Hi. destruct (holdsb v (Z.of_nat i)) eqn:HB.
      * apply holdsb_spec in HB as (e & He & Ei).
        destruct (W e He) as (_ & _ & (W1 & W2 & W3) & _).
        assert (Ef : value (mkV l (dirty v)) (Z.of_nat i) = dmul (val e) s).
        { rewrite value_find by apply CL. cbn [ents]. rewrite <- Ei.
          change (idx e) with (idx (@mkE num_double (idx e) (nmul (val e) s))).
          rewrite (find_first_in l _ (proj1 CL)); [reflexivity|]. unfold l. apply in_map_iff. exists e. auto. }
        rewrite Ef. rewrite Ei, Nat2Z.id in W3. split; [split|]; auto.
      * assert (A0 : a i = 0).
        { apply zero_whole. destruct (H i Hi) as [_ V3]. rewrite <- V3. rewrite (value_none v); auto. }
        rewrite A0, Z.mul_0_r, Z.mul_0_l.
        rewrite (value_none (mkV l (dirty v))); [split; [split|]; reflexivity|exact CL|].
        destruct (holdsb (mkV l (dirty v)) (Z.of_nat i)) eqn:Q; [|reflexivity].
        apply holdsb_in in Q. cbn [ents] in Q. rewrite IX in Q. apply holdsb_in in Q. congruence.
Qed.
