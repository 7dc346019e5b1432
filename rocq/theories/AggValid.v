(** Validity of the rounding cuts in exact arithmetic. *)
From Coq Require Import String List ZArith QArith Qround Qabs Bool Sorted Lia Lqa Permutation.
From Verif Require Import Outcome OutcomeFacts Num Double SparseVector SparseVectorFacts VectorSpec
  VectorProofs SolverSpec CutsData Aggregation AggSpec AggProofs.
Import ListNotations.
Open Scope Z_scope.

Section Transform.
Context {A : Arith}.

Lemma map_state_map (f : Z -> A -> unit -> outcome (A * unit)) (F : Z -> A -> A) l : forall l' s s',
  (forall c y z, f c y tt = Ok z -> fst z = F c y) ->
  map_state f l s = Ok (l', s') -> l' = map (fun e : entry A => mkE (idx e) (F (idx e) (val e))) l.
Proof.
  induction l as [|e r IH]; intros l' s s' Hf H; cbn [map_state] in H.
  - injection H as <- <-. reflexivity.
  - destruct s. destruct (f (idx e) (val e) tt) as [p| | | |] eqn:E; try discriminate. cbn [bind] in H.
    destruct (map_state f r (snd p)) as [[l2 s2]| | | |] eqn:E2; try discriminate.
    cbn [bind fst snd] in H. injection H as <- _. cbn [map].
    rewrite (Hf _ _ _ E), (IH _ _ _ Hf E2). reflexivity.
Qed.

Lemma TransformS_map (f : Z -> A -> unit -> outcome (A * unit)) (F : Z -> A -> A) v v' s :
  (forall c y z, f c y tt = Ok z -> fst z = F c y) ->
  TransformS f v tt = Ok (v', s) ->
  dirty v' = false /\
  ents v' = drop_zeros (map (fun e : entry A => mkE (idx e) (F (idx e) (val e))) (ents v)).
Proof.
  intros Hf. unfold TransformS. destruct (dirty v) eqn:D; [discriminate|].
  destruct (map_state f (ents v) tt) as [[l s1]| | | |] eqn:E; try discriminate.
  cbn [bind fst snd]. intros H. injection H as <- _. split; auto. cbn [ents]. f_equal.
  exact (map_state_map f F _ _ _ _ Hf E).
Qed.
End Transform.

Lemma drop_map_idx {A : Arith} (F : Z -> A -> A) l e :
  In e (drop_zeros (map (fun e : entry A => mkE (idx e) (F (idx e) (val e))) l)) ->
  exists e', In e' l /\ idx e' = idx e.
Proof.
  intros H. apply filter_In in H as [H _]. apply in_map_iff in H as (e' & <- & H). exists e'. auto.
Qed.

Lemma sum_arith (w1 w2 z1 z2 l1 l2 r : Q) : (w1 - z1 <= l1 -> w2 - z2 <= l2 -> l1 + l2 <= r ->
  w1 + w2 - (z1 + z2) <= r)%Q.
Proof. intros; lra. Qed.

Lemma Qle_eq_trans (a b c : Q) : (a <= b -> c == b -> a <= c)%Q.
Proof. intros; lra. Qed.
Lemma Qeq_le_eq (a b c d : Q) : (a == b -> b <= c -> d == c -> a <= d)%Q.
Proof. intros; lra. Qed.

Lemma Qsub0 (a b : Q) : (0 == a - b -> a == b)%Q.
Proof. intros; lra. Qed.

Section Rounders.
Variable V : view arith_Q.
Hypothesis T0 : (tol V == 0)%Q.
Variables (y s : point).                  (* shifted variables and slacks *)
Variable t : agg arith_Q.

Definition flag (r : Z) : bool := match at_ (integral_rows V) r with Ok b => b | _ => false end.

Hypothesis Hvar : forall e : qentry, In e (ents (a_var t)) ->
  (0 <= y (idx e))%Q /\ (is_int V (idx e) = true -> integer (y (idx e))).
Hypothesis Hslk : forall e : qentry, In e (ents (a_slack t)) ->
  (0 <= s (idx e))%Q /\ (flag (idx e) = true -> integer (s (idx e))).
Hypothesis Hrow : (lq (ents (a_var t)) y + lq (ents (a_slack t)) s <= (a_rhs t : Q))%Q.

Definition mirF (kind : Z -> bool) (f0 : arith_Q) (c : Z) (x : arith_Q) : arith_Q :=
  if kind c then MIRRoundInteger V x f0 else MIRRoundContinuous x f0.

Lemma mir_valid g1 : MIRRound V t = Ok (Some g1) ->
  a_sign g1 = a_sign t /\ a_side g1 = a_side t /\
  (forall e, In e (ents (a_slack g1)) -> exists e', In e' (ents (a_slack t)) /\ idx e' = idx e) /\
  (lq (ents (a_var g1)) y + lq (ents (a_slack g1)) s <= (a_rhs g1 : Q))%Q.
Proof.
  unfold MIRRound. set (f0 := Fractionality V (a_rhs t)).
  destruct (TransformS _ (a_var t) tt) as [[v1 u1]| | | |] eqn:E1; try discriminate. cbn [bind].
  destruct (TransformS _ (a_slack t) tt) as [[v2 u2]| | | |] eqn:E2; try discriminate. cbn [bind fst].
  intros H. injection H as <-. cbn [a_sign a_side a_slack a_var a_rhs].
  apply (TransformS_map _ (mirF (is_int V) f0)) in E1
    as [_ E1]; [|intros c x z K; injection K as <-; reflexivity].
  apply (TransformS_map _ (mirF flag f0)) in E2
    as [_ E2].
  2:{ intros c x z K. unfold mirF, HasIntegralSlack, flag in *. destruct (at_ (integral_rows V) c); try discriminate.
      cbn [bind] in K. injection K as <-. reflexivity. }
  split; [reflexivity|]. split; [reflexivity|]. split.
  { rewrite E2. intros e He. exact (drop_map_idx (mirF flag f0) _ _ He). }
  rewrite E1, E2.
  rewrite (lq_map_drop (mirF (is_int V) f0)), (lq_map_drop (mirF flag f0)).
  pose proof (fr_bounds V T0 (a_rhs t)) as F.
  destruct (mir_list V T0 (is_int V) y (fr V (a_rhs t)) (ents (a_var t)) F Hvar) as (w1 & z1 & A1 & A2 & A3).
  destruct (mir_list V T0 flag s (fr V (a_rhs t)) (ents (a_slack t)) F Hslk) as (w2 & z2 & B1 & B2 & B3).
  assert (D : ~ (1 - fr V (a_rhs t) == 0)%Q) by lra.
  assert (Hf : (fr V (a_rhs t) == (a_rhs t : Q) - inject_Z (Qfloor (a_rhs t)))%Q)
    by (exact (Fractionality_frac V T0 (a_rhs t))).
  assert (K := mir_final (w1 + w2) (z1 + z2) (a_rhs t) (fr V (a_rhs t))).
  rewrite inject_Z_plus in K.
  assert (Hz : (0 <= z1 + z2)%Q) by (clear - A1 B1; lra).
  assert (Hle : (inject_Z w1 + inject_Z w2 - (z1 + z2) <= (a_rhs t : Q))%Q)
    by (exact (sum_arith _ _ _ _ _ _ _ A3 B3 Hrow)).
  specialize (K Hz Hf Hle).
  pose proof (FloorTol_floor V T0 (a_rhs t)) as Fl.
  refine (Qle_trans _ (inject_Z w1 + inject_Z w2 - (z1 + z2) / (1 - fr V (a_rhs t))) _ _ _).
  - apply Qle_lteq. right.
    transitivity ((inject_Z w1 - z1 / (1 - fr V (a_rhs t))) + (inject_Z w2 - z2 / (1 - fr V (a_rhs t))))%Q.
    + apply Qplus_comp; [exact A2|exact B2].
    + field. exact D.
  - exact (Qle_eq_trans _ _ _ K Fl).
Qed.

Hypothesis Hallint : forall e : qentry, In e (ents (a_var t)) -> is_int V (idx e) = true.
Hypothesis Hfrac : ~ integer (a_rhs t : Q).

Definition cgF (kind : Z -> bool) (k f0 : arith_Q) (c : Z) (x : arith_Q) : arith_Q :=
  if kind c then CGRoundInteger V x k f0 else n0.

Lemma cgI_k (c k k' f0 : Q) : (k == k')%Q -> (cgI V c k f0 == cgI V c k' f0)%Q.
Proof.
  intros E. rewrite !(cgI_eq V T0). destruct (Qle_bool (fr V c) f0).
  - rewrite E. reflexivity.
  - assert (C : Qceiling (k * (fr V c - f0) / (1 - f0)) = Qceiling (k' * (fr V c - f0) / (1 - f0))).
    { apply Qceiling_comp. rewrite E. reflexivity. }
    rewrite C, E. reflexivity.
Qed.

Lemma cg_sum (kind : Z -> bool) (k k' f0 : Q) (l : list qentry) (x : point) : (k == k')%Q ->
  (forall e, In e l -> kind (idx e) = true) ->
  (q_sum (map (fun e : qentry => (cgF kind k f0 (idx e) (val e) : Q) * x (idx e)) l) ==
   q_sum (map (fun e : qentry => cgI V (val e) k' f0 * x (idx e)) l))%Q.
Proof.
  intros E H. induction l as [|e r IH]; [reflexivity|].
  cbn [map q_sum fold_right]. change (fold_right Qplus 0%Q) with q_sum.
  apply Qplus_comp; [|apply IH; intros; apply H; right; auto].
  apply Qmult_comp; [|reflexivity]. unfold cgF. rewrite (H e (or_introl eq_refl)).
  exact (cgI_k (val e) k k' f0 E).
Qed.

Lemma cg_slacks l : cg_slacks_ok V l = Ok true -> forall e : qentry, In e l -> flag (idx e) = true.
Proof.
  induction l as [|e r IH]; intros H e' He; [destruct He|]. cbn [cg_slacks_ok] in H.
  unfold HasIntegralSlack in H.
  destruct (at_ (integral_rows V) (idx e)) as [b| | | |] eqn:E; try discriminate. cbn [bind] in H.
  destruct b; cbn [andb] in H; [|discriminate].
  destruct (aleb n0 (val e)); [|discriminate]. destruct He as [<-|He]; [|auto].
  unfold flag. rewrite E. reflexivity.
Qed.

Lemma cg_valid g1 : CGRound V t = Ok (Some g1) ->
  a_sign g1 = a_sign t /\ a_side g1 = a_side t /\
  (forall e, In e (ents (a_slack g1)) -> exists e', In e' (ents (a_slack t)) /\ idx e' = idx e) /\
  (lq (ents (a_var g1)) y + lq (ents (a_slack g1)) s <= (a_rhs g1 : Q))%Q.
Proof.
  unfold CGRound.
  destruct (cg_slacks_ok V (ents (a_slack t))) as [ok| | | |] eqn:E0; try discriminate. cbn [bind].
  destruct ok; cbn [negb]; [|discriminate].
  destruct (cg_vars_ok V (ents (a_var t))); cbn [negb]; [|discriminate].
  set (f0 := Fractionality V (a_rhs t)). set (k := asub (aceil (ndiv n1 f0)) n1).
  destruct (TransformS _ (a_slack t) tt) as [[v2 u2]| | | |] eqn:E2; try discriminate. cbn [bind].
  destruct (TransformS _ (a_var t) tt) as [[v1 u1]| | | |] eqn:E1; try discriminate. cbn [bind fst].
  intros H. injection H as <-. cbn [a_sign a_side a_slack a_var a_rhs].
  apply (TransformS_map _ (cgF (is_int V) k f0)) in E1
    as [_ E1]; [|intros c x z K; injection K as <-; reflexivity].
  apply (TransformS_map _ (cgF flag k f0)) in E2 as [_ E2].
  2:{ intros c x z K. unfold cgF, HasIntegralSlack, flag in *. destruct (at_ (integral_rows V) c); try discriminate.
      cbn [bind] in K. injection K as <-. reflexivity. }
  pose proof (cg_slacks _ E0) as Hfl. clear E0.
  split; [reflexivity|]. split; [reflexivity|]. split.
  { rewrite E2. intros e He. exact (drop_map_idx (cgF flag k f0) _ _ He). }
  rewrite E1, E2.
  rewrite (lq_map_drop (cgF (is_int V) k f0)), (lq_map_drop (cgF flag k f0)).
  pose proof (fr_bounds V T0 (a_rhs t)) as F. set (f := fr V (a_rhs t)) in *.
  assert (Hf : (f == (a_rhs t : Q) - inject_Z (Qfloor (a_rhs t)))%Q)
    by (exact (Fractionality_frac V T0 (a_rhs t))).
  assert (Fp : (0 < f)%Q).
  { destruct (Qlt_le_dec 0 f) as [L|L]; auto. exfalso. apply Hfrac.
    exists (Qfloor (a_rhs t)). assert (E : (f == 0)%Q) by lra. rewrite E in Hf. clear - Hf.
    exact (Qsub0 _ _ Hf). }
  set (kz := Qceiling (1 / f) - 1).
  assert (I1 : (1 < 1 / f)%Q) by (apply Qlt_shift_div_l; lra).
  pose proof (Qceiling_bounds (1 / f)) as [C1 C2].
  assert (Kz : (1 <= kz)%Z).
  { assert (C : (inject_Z 1 < inject_Z (Qceiling (1 / f)))%Q).
    { change (inject_Z 1) with 1%Q. lra. }
    rewrite <- Zlt_Qlt in C. unfold kz. lia. }
  assert (Kq : (inject_Z kz == inject_Z (Qceiling (1 / f)) - 1)%Q).
  { unfold kz, Z.sub. rewrite inject_Z_plus. reflexivity. }
  assert (Ek : ((k : Q) == inject_Z kz)%Q) by (rewrite Kq; reflexivity).
  assert (Kf : (1 <= f * (inject_Z kz + 1))%Q).
  { rewrite Kq. assert (M : (f * (1 / f) == 1)%Q) by (field; lra).
    assert (0 <= f * (inject_Z (Qceiling (1 / f)) - 1 / f))%Q by (apply Qmult_le_0_compat; lra). lra. }
  destruct (cg_list V T0 y f kz (ents (a_var t)) F Kz) as (X1 & P1 & m1 & M1 & A2 & A3 & A4).
  { intros e He. destruct (Hvar e He) as [Y0 Yi]. split; [exact Y0|]. apply Yi. apply Hallint. exact He. }
  destruct (cg_list V T0 s f kz (ents (a_slack t)) F Kz) as (X2 & P2 & m2 & M2 & B2 & B3 & B4).
  { intros e He. destruct (Hslk e He) as [Y0 Yi]. split; [exact Y0|]. apply Yi. apply Hfl. exact He. }
  assert (Kq1 : (1 <= inject_Z kz)%Q) by (change 1%Q with (inject_Z 1); rewrite <- Zle_Qle; exact Kz).
  assert (Hrk : ((lq (ents (a_var t)) y + lq (ents (a_slack t)) s) * inject_Z kz <= (a_rhs t : Q) * inject_Z kz)%Q)
    by (apply Qmult_le_compat_r; [exact Hrow|lra]).
  assert (K := cg_final (X1 + X2) (P1 + P2) (m1 + m2) kz (a_rhs t) f Hf Kz Kf).
  rewrite !inject_Z_plus in K.
  refine (Qeq_le_eq _ _ _ _ _ (K _ _ _) (FloorTol_floor V T0 (a_rhs t))).
  - transitivity ((inject_Z X1 + inject_Z P1 / (inject_Z kz + 1)) + (inject_Z X2 + inject_Z P2 / (inject_Z kz + 1)))%Q.
    + apply Qplus_comp.
      * etransitivity; [exact (cg_sum (is_int V) k (inject_Z kz) f0 _ y Ek Hallint)|exact A2].
      * etransitivity; [exact (cg_sum flag k (inject_Z kz) f0 _ s Ek Hfl)|exact B2].
    + field. lra.
  - clear - M1 M2. destruct M1 as (? & ? & ?), M2 as (? & ? & ?). split; [lia|split; [lia|]].
    rewrite Z.mul_add_distr_l. lia.
  - clear - A3 B3 Hrk. set (ra := (a_rhs t : Q)) in *. clearbody ra. lra.
  - intros Hm. set (ra := (a_rhs t : Q)) in *. clearbody ra.
    destruct (Z_lt_ge_dec 0 m1) as [L|L].
    + specialize (A4 L). clear - A4 B3 Hrk. lra.
    + assert (L2 : (0 < m2)%Z) by (clear - L Hm; lia). specialize (B4 L2). clear - A3 B4 Hrk. lra.
Qed.
End Rounders.

Lemma shift_ident (v1 r1 v2 r2 sl : Q) : (v1 - r1 == v2 - r2 -> v2 + sl == r2 -> v1 + sl == r1)%Q.
Proof. intros; lra. Qed.
Lemma final_arith (v2 r2 vb rb sl v1 r1 : Q) :
  (v2 - r2 == vb + sl - rb -> vb - rb == v1 - r1 -> v1 + sl <= r1 -> v2 <= r2)%Q.
Proof. intros; lra. Qed.

(** *** From the LP to the hypotheses of the rounders *)
Section Node.
Variable V : view arith_Q.
Hypothesis OK : view_ok V.
Hypothesis ID : integral_data V.

Lemma choose_sides_at acts : forall r0 sides i b, choose_sides V r0 acts = Ok sides ->
  at_ sides i = Ok b ->
  exists a lo hi, at_ (lp_lhs V) (r0 + i) = Ok lo /\ at_ (lp_rhs V) (r0 + i) = Ok hi /\
  b = choose_side V a lo hi.
Proof.
  induction acts as [|a l IH]; intros r0 sides i b H Hi; cbn [choose_sides] in H.
  - injection H as <-. exfalso. revert Hi. unfold at_. destruct (i <? 0); [discriminate|].
    destruct (Z.to_nat i); discriminate.
  - destruct (at_ (lp_rhs V) r0) as [hi| | | |] eqn:E1; try discriminate. cbn [bind] in H.
    destruct (at_ (lp_lhs V) r0) as [lo| | | |] eqn:E2; try discriminate. cbn [bind] in H.
    destruct (choose_sides V (r0 + 1) l) as [q| | | |] eqn:E3; try discriminate. cbn [bind] in H.
    injection H as <-. unfold at_ in Hi. destruct (Z.ltb_spec i 0) as [|L]; [discriminate|].
    destruct (Z.eq_dec i 0) as [->|N].
    + cbn in Hi. injection Hi as <-. exists a, lo, hi. rewrite Z.add_0_r. auto.
    + assert (Ei : Z.to_nat i = S (Z.to_nat (i - 1))) by lia. rewrite Ei in Hi. cbn [nth_error] in Hi.
      destruct (IH (r0 + 1) q (i - 1) b E3) as (a' & lo' & hi' & K).
      { unfold at_. destruct (Z.ltb_spec (i - 1) 0); [lia|]. exact Hi. }
      exists a', lo', hi'. replace (r0 + 1 + (i - 1)) with (r0 + i) in K by lia. exact K.
Qed.

Lemma choose_side_finite (a lo hi : arith_Q) : is_inf V (- lo)%Q = false \/ is_inf V hi = false ->
  if choose_side V (a : arith_Q) lo hi then is_inf V hi = false else is_inf V (- lo)%Q = false.
Proof.
  intros H. unfold choose_side. change (@nopp arith_Q lo) with (- lo)%Q.
  destruct (is_inf V hi) eqn:E1; [destruct H; auto; discriminate|].
  destruct (is_inf V (- lo)%Q) eqn:E2; [reflexivity|].
  destruct (aeqb lo hi); [reflexivity|]. destruct (aleb _ _); reflexivity.
Qed.

Variable x : point.
Hypothesis SR : satisfies_rows idQ V x.
Hypothesis IA : integral_at (ints V) x.
Hypothesis NN : forall j lo hi, at_ (lp_lb V) j = Ok lo -> at_ (lp_ub V) j = Ok hi ->
  ~ free_column V j -> (0 <= shifted V x j)%Q.

Lemma is_int_In j : is_int V j = true <-> In j (ints V).
Proof.
  unfold is_int. rewrite existsb_exists. split.
  - intros (z & Hz & E). apply Z.eqb_eq in E. subst. auto.
  - intros H. exists j. split; auto. apply Z.eqb_refl.
Qed.

Lemma to_nonneg_known l : forall s l' s', map_state (to_nonneg V) l s = Ok (l', s') ->
  Forall (fun e : qentry => exists lo hi, at_ (lp_lb V) (idx e) = Ok lo /\ at_ (lp_ub V) (idx e) = Ok hi) l.
Proof.
  induction l as [|e r IH]; intros s l' s' H; cbn [map_state] in H; [constructor|].
  destruct (to_nonneg V (idx e) (val e) s) as [p| | | |] eqn:E; try discriminate. cbn [bind] in H.
  destruct (map_state (to_nonneg V) r (snd p)) as [[l2 s2]| | | |] eqn:E2; try discriminate.
  constructor; [|exact (IH _ _ _ E2)]. unfold to_nonneg in E.
  destruct (at_ (lp_lb V) (idx e)) as [lo| | | |]; try discriminate. cbn [bind] in E.
  destruct (at_ (lp_ub V) (idx e)) as [hi| | | |]; try discriminate. exists lo, hi. auto.
Qed.

Lemma shifted_ok g t : TransformToNonNegative V g = Ok (t, true) ->
  forall e : qentry, In e (ents (a_var t)) ->
  (0 <= shifted V x (idx e))%Q /\ (is_int V (idx e) = true -> integer (shifted V x (idx e))).
Proof.
  intros H e He. destruct (to_nonneg_ok V g t true H) as (_ & _ & _ & Hf & Hs & _).
  destruct (Hs e He) as (e' & He' & Ei).
  assert (Nf : ~ free_column V (idx e)).
  { assert (F : Forall (fun e : qentry => ~ free_column V (idx e)) (ents (a_var g))) by (apply Hf; reflexivity).
    rewrite Forall_forall in F. rewrite <- Ei. apply F. exact He'. }
  assert (Kn : exists lo hi, at_ (lp_lb V) (idx e) = Ok lo /\ at_ (lp_ub V) (idx e) = Ok hi).
  { unfold TransformToNonNegative, TransformS in H. destruct (dirty (a_var g)); [discriminate|].
    destruct (map_state _ _ _) as [[l' s']| | | |] eqn:E; try discriminate.
    apply to_nonneg_known in E. rewrite Forall_forall in E. rewrite <- Ei. apply E. exact He'. }
  destruct Kn as (lo & hi & E1 & E2). split; [apply (NN _ lo hi); auto|].
  intros Hi. apply is_int_In in Hi. pose proof (IA _ Hi) as Ix.
  destruct (id_bounds V ID _ lo hi Hi E1 E2) as [B1 B2].
  unfold shifted. rewrite E1, E2. destruct (Qle_bool 0 lo) eqn:L; [exact Ix|].
  destruct (is_inf V (- lo)%Q) eqn:I1.
  - destruct (is_inf V hi) eqn:I2.
    + exfalso. apply Nf. exists lo, hi. repeat split; auto. apply Qle_bool_false. exact L.
    + apply integer_sub; auto.
  - apply integer_sub; auto.
Qed.

Lemma act_integer r a : at_ (lp_rows V) r = Ok a ->
  (forall e, In e (ents a) -> In (idx e) (ints V) /\ integer (val e)) -> integer (lq (ents a) x).
Proof.
  intros _ H. unfold lq. apply integer_sum. apply Forall_map, Forall_forall.
  intros e He. destruct (H e He) as [H1 H2]. apply integer_mul; [exact H2|apply IA; exact H1].
Qed.

Lemma slack_ok r b sides acts e : binv_row V r = Ok b -> In e (ents b) ->
  choose_sides V 0 acts = Ok sides -> known V sides (idx e) ->
  (0 <= slack idQ V sides x (idx e))%Q /\
  (flag V (idx e) = true -> integer (slack idQ V sides x (idx e))).
Proof.
  intros Hb He Hc (bb & a & yy & K1 & K2 & K3).
  destruct (choose_sides_at _ _ _ _ _ Hc K1) as (ac & lo & hi & L1 & L2 & L3).
  rewrite Z.add_0_l in L1, L2.
  pose proof (vo_sides V OK r b e lo hi Hb He L1 L2) as Fin.
  pose proof (choose_side_finite ac lo hi Fin) as Fs. rewrite <- L3 in Fs.
  destruct (SR (idx e) a lo hi K2 L1 L2) as [S1 S2]. change (@nopp arith_Q lo) with (- lo)%Q in S2.
  unfold slack. rewrite K2, K1, L1, L2. rewrite lin_lq in *. destruct bb.
  - split; [specialize (S1 Fs); clear - S1; exact (proj1 (Qle_minus_iff _ _) S1)|].
    unfold flag. destruct (at_ (integral_rows V) (idx e)) as [fb| | | |] eqn:Ef; try discriminate.
    intros ->. destruct (id_rows V ID _ a lo hi Ef K2 L1 L2) as (B1 & B2 & B3).
    apply integer_sub; [apply B2; exact Fs|exact (act_integer _ _ K2 B3)].
  - split; [specialize (S2 Fs); clear - S2; exact (proj1 (Qle_minus_iff _ _) S2)|].
    unfold flag. destruct (at_ (integral_rows V) (idx e)) as [fb| | | |] eqn:Ef; try discriminate.
    intros ->. destruct (id_rows V ID _ a lo hi Ef K2 L1 L2) as (B1 & B2 & B3).
    apply integer_sub; [exact (act_integer _ _ K2 B3)|apply B1; exact Fs].
Qed.

Lemma agg_var_from (P : Z -> Prop) sides (es : list qentry) : forall g g',
  foldM (agg_step V sides) g es = Ok g' ->
  Forall (fun e : qentry => P (idx e)) (ents (a_var g)) ->
  (forall e a e', In e es -> at_ (lp_rows V) (idx e) = Ok a -> In e' (ents a) -> P (idx e')) ->
  Forall (fun e : qentry => P (idx e)) (ents (a_var g')).
Proof.
  induction es as [|e r IH]; intros g g' H Hg Hp; cbn [foldM] in H.
  - injection H as <-. exact Hg.
  - destruct (agg_step V sides g e) as [g1| | | |] eqn:E; try discriminate. cbn [bind] in H.
    apply agg_step_inv in E as (_ & (a & Ea & E1) & _).
    apply (IH _ _ H).
    + eapply AddMultiple_idx; [exact E1|exact Hg|].
      apply Forall_forall. intros e' He'. apply (Hp e a e'); auto. left. auto.
    + intros e1 a1 e' H1. apply Hp. right. exact H1.
Qed.

(** A row whose slacks are all flagged mentions integer variables only. *)
Lemma all_integer (w : qvec) sides g t : canonical (ents w) -> nonneg_indices (ents w) ->
  AggregateByWeight V w sides = Ok g -> TransformToNonNegative V g = Ok (t, true) ->
  cg_slacks_ok V (ents (a_slack t)) = Ok true -> (forall e, In e (ents w) -> exists lo hi,
    at_ (lp_lhs V) (idx e) = Ok lo /\ at_ (lp_rhs V) (idx e) = Ok hi) ->
  forall e : qentry, In e (ents (a_var t)) -> is_int V (idx e) = true.
Proof.
  intros C Nn Hg Ht Hok Hsd e He.
  destruct (to_nonneg_ok V g t true Ht) as (Es & _ & _ & _ & Hs & _).
  rewrite Es in Hok. pose proof (cg_slacks V _ Hok) as Hfl.
  destruct (agg_lists V sides w g C Nn Hg) as (Kn & E1 & _).
  destruct (Hs e He) as (e' & He' & Ei). rewrite <- Ei.
  unfold AggregateByWeight in Hg.
  destruct (foldM _ _ _) as [g1| | | |] eqn:E; try discriminate. cbn [bind] in Hg.
  injection Hg as Hg. assert (Ev : a_var g = a_var g1) by (rewrite <- Hg; reflexivity).
  rewrite Ev in He'.
  pose proof (agg_var_from (fun j => is_int V j = true) sides _ _ _ E) as K. cbn [a_var ents vempty] in K.
  assert (F : Forall (fun e : qentry => is_int V (idx e) = true) (ents (a_var g1))).
  { apply K; [constructor|]. intros e1 a e2 H1 Ha H2.
    assert (Hsl : In (mkE (idx e1) (nmul (sgn sides (idx e1)) (val e1))) (ents (a_slack g))).
    { rewrite E1. cbn [ents]. apply filter_In. split.
      - apply in_map_iff. exists e1. auto.
      - cbn [val]. destruct C as [_ Z0]. rewrite Forall_forall in Z0. specialize (Z0 e1 H1).
        apply negb_true_iff. unfold sgn.
        assert (Zq : ~ (qv e1 == 0)%Q) by (apply is0_Q_false; exact Z0).
        match goal with |- is0 ?t = false => destruct (is0 t) eqn:Ez; auto; exfalso; apply is0_Q in Ez end.
        destruct (at_ sides (idx e1)) as [[|]| | | |].
        + change (1 * qv e1 == 0)%Q in Ez. apply Zq. rewrite <- Ez. ring.
        + change (-1 * qv e1 == 0)%Q in Ez. apply Zq. setoid_replace (qv e1) with (- (-1 * qv e1))%Q by ring. rewrite Ez. ring.
        + change (-1 * qv e1 == 0)%Q in Ez. apply Zq. setoid_replace (qv e1) with (- (-1 * qv e1))%Q by ring. rewrite Ez. ring.
        + change (-1 * qv e1 == 0)%Q in Ez. apply Zq. setoid_replace (qv e1) with (- (-1 * qv e1))%Q by ring. rewrite Ez. ring.
        + change (-1 * qv e1 == 0)%Q in Ez. apply Zq. setoid_replace (qv e1) with (- (-1 * qv e1))%Q by ring. rewrite Ez. ring.
        + change (-1 * qv e1 == 0)%Q in Ez. apply Zq. setoid_replace (qv e1) with (- (-1 * qv e1))%Q by ring. rewrite Ez. ring. }
    specialize (Hfl _ Hsl). cbn [idx] in Hfl. unfold flag in Hfl.
    destruct (at_ (integral_rows V) (idx e1)) as [fb| | | |] eqn:Ef; try discriminate. subst fb.
    destruct (Hsd e1 H1) as (lo & hi & L1 & L2).
    destruct (id_rows V ID _ a lo hi Ef Ha L1 L2) as (_ & _ & B3).
    apply is_int_In. apply (B3 e2 H2). }
  rewrite Forall_forall in F. apply F. exact He'.
Qed.

Lemma cut_valid ks c : cut_trace V ks c -> (In SCG ks -> fractional_rows V) ->
  (lq (ents (c_row c)) x <= (c_rhs c : Q))%Q.
Proof.
  intros T Hfr. destruct T as [acts sides xs r col b g t k g1 bk g2 S E1 E2 E3 E4 E5 E6 E7 E8 [E9a E9] E10 E11 E12 [E13 E14]].
  destruct (vo_binv V OK r b E6) as (Db & Cb & Nb).
  assert (Ew : row_weights b = mkV (ents b) false) by (exact (row_weights_clean b Cb Nb)).
  rewrite Ew in E7. set (w := mkV (ents b) false) in *.
  assert (Cw : canonical (ents w)) by exact Cb. assert (Nw : nonneg_indices (ents w)) by exact Nb.
  destruct (agg_lists V sides w g Cw Nw E7) as (Kn & Esl & _).
  pose proof (aggregate_identity V w sides g x Cw Nw E7) as Id.
  destruct (to_nonneg_ok V g t true E8) as (T1 & T2 & T3 & _ & _ & _ & T4).
  specialize (T4 eq_refl x).
  pose proof (shifted_ok g t E8) as Hv.
  assert (Hsl : forall e : qentry, In e (ents (a_slack t)) -> exists e', In e' (ents w) /\ idx e' = idx e).
  { rewrite T1, Esl. intros e He. cbn [ents] in He.
    exact (drop_map_idx (fun r y => nmul (sgn sides r) y) _ _ He). }
  assert (Hk : forall e : qentry, In e (ents w) -> known V sides (idx e)).
  { rewrite Forall_forall in Kn. exact Kn. }
  assert (Hs : forall e : qentry, In e (ents (a_slack t)) ->
    (0 <= slack idQ V sides x (idx e))%Q /\
    (flag V (idx e) = true -> integer (slack idQ V sides x (idx e)))).
  { intros e He. destruct (Hsl e He) as (e' & He' & Ei). rewrite <- Ei.
    apply (slack_ok r b sides acts e'); auto. }
  assert (Hrow : (lq (ents (a_var t)) (shifted V x) + lq (ents (a_slack t)) (slack idQ V sides x) <= (a_rhs t : Q))%Q).
  { rewrite T1. apply Qle_lteq. right. exact (shift_ident _ _ _ _ _ T4 Id). }
  assert (R : a_sign g1 = a_sign t /\ a_side g1 = a_side t /\
    (forall e, In e (ents (a_slack g1)) -> exists e', In e' (ents (a_slack t)) /\ idx e' = idx e) /\
    (lq (ents (a_var g1)) (shifted V x) + lq (ents (a_slack g1)) (slack idQ V sides x) <= (a_rhs g1 : Q))%Q).
  { destruct k; cbn [round_with] in E9.
    - exact (mir_valid V (id_tol V ID) _ _ t Hv Hs Hrow g1 E9).
    - refine (cg_valid V (id_tol V ID) _ _ t Hv Hs Hrow _ _ g1 E9).
      + unfold CGRound in E9.
        destruct (cg_slacks_ok V (ents (a_slack t))) as [ok| | | |] eqn:Eok; try discriminate.
        destruct ok; [|discriminate].
        apply (all_integer w sides g t Cw Nw E7 E8 Eok).
        intros e He. destruct (Hk e He) as (bb & _ & _ & K1 & _).
        destruct (choose_sides_at _ _ _ _ _ E2 K1) as (_ & lo & hi & L1 & L2 & _).
        rewrite Z.add_0_l in L1, L2. exists lo, hi. auto.
      + refine (Hfr E9a r b acts sides g t E1 E2 E6 _ E8). rewrite Ew. exact E7. }
  destruct R as (R1 & R2 & R3 & R4).
  destruct (from_nonneg_ok V g1 bk true E10) as (B1 & B2 & B3 & _ & B4). specialize (B4 eq_refl x).
  assert (Ebk : bk = mkAgg (a_var bk) (a_slack bk) (a_sign g) (a_side g) (a_rhs bk)).
  { rewrite <- T2, <- T3, <- R1, <- R2, <- B2, <- B3. destruct bk; reflexivity. }
  rewrite Ebk in E11.
  pose proof (substitute_ok V w sides g (a_var bk) (a_slack bk) (a_rhs bk) g2 x Cw Nw E7) as Sub.
  assert (Hin : forall e, In e (ents (a_slack bk)) -> exists e', In e' (ents w) /\ idx e' = idx e).
  { rewrite B1. intros e He. destruct (R3 e He) as (e1 & H1 & I1).
    destruct (Hsl e1 H1) as (e2 & H2 & I2). exists e2. split; auto. congruence. }
  specialize (Sub Hin E11). rewrite E13, E14. rewrite B1 in Sub.
  exact (final_arith _ _ _ _ _ _ _ Sub B4 R4).
Qed.
End Node.

(** *** Theorems about GenerateCuttingPlanes *)
Lemma neg_arith (lo : Q) : (0 <= lo -> 0 < - lo -> False)%Q.
Proof. intros; lra. Qed.

Lemma free_iff V b (l : list qentry) :
  (b = true <-> Forall (fun e : qentry => ~ free_column V (idx e)) l) ->
  (b = false <-> exists e, In e l /\ free_column V (idx e)).
Proof.
  intros H. rewrite <- not_true_iff_false, H. split.
  - intros N. destruct (Exists_dec (fun e : qentry => free_column V (idx e)) l) as [X|X].
    + intros e. unfold free_column.
      destruct (at_ (lp_lb V) (idx e)) as [lo| | | |]; [|right; intros (? & ? & ? & _); discriminate..].
      destruct (at_ (lp_ub V) (idx e)) as [hi| | | |]; [|right; intros (? & ? & _ & ? & _); discriminate..].
      destruct (Qlt_le_dec lo 0) as [L|L].
      * destruct (is_inf V (- lo)%Q) eqn:I1; [destruct (is_inf V hi) eqn:I2|].
        -- left. exists lo, hi. auto.
        -- right. intros (? & ? & E1 & E2 & _ & _ & E3). injection E2 as <-. congruence.
        -- right. intros (? & ? & E1 & E2 & _ & E3 & _). injection E1 as <-. congruence.
      * right. intros (? & ? & E1 & _ & E2 & _). injection E1 as <-. exact (Qle_not_lt _ _ L E2).
    + apply Exists_exists in X. exact X.
    + exfalso. apply N. apply Forall_forall. intros e He F. apply X. apply Exists_exists. eauto.
  - intros (e & He & F) N. rewrite Forall_forall in N. exact (N e He F).
Qed.

Lemma box_shifted V x : view_ok V -> in_box idQ V x ->
  forall j lo hi, at_ (lp_lb V) j = Ok lo -> at_ (lp_ub V) j = Ok hi ->
  ~ free_column V j -> (0 <= shifted V x j)%Q.
Proof.
  intros OK B j lo hi E1 E2 Nf. destruct (B j lo hi E1 E2) as [B1 B2].
  change (@nopp arith_Q lo) with (- lo)%Q in B1. unfold shifted. rewrite E1, E2.
  destruct (Qle_bool 0 lo) eqn:L.
  - apply Qle_bool_iff in L. assert (I : is_inf V (- lo)%Q = false).
    { destruct (is_inf V (- lo)%Q) eqn:I; auto. apply (vo_inf V OK) in I. exfalso.
      exact (neg_arith _ L I). }
    exact (Qle_trans _ _ _ L (B1 I)).
  - destruct (is_inf V (- lo)%Q) eqn:I1.
    + destruct (is_inf V hi) eqn:I2.
      * exfalso. apply Nf. exists lo, hi. repeat split; auto. apply Qle_bool_false. exact L.
      * exact (proj1 (Qle_minus_iff _ _) (B2 eq_refl)).
    + exact (proj1 (Qle_minus_iff _ _) (B1 eq_refl)).
Qed.

Lemma generate_valid V ks limit cuts c x : view_ok V -> integral_data V ->
  (In SCG ks -> fractional_rows V) -> Generate V ks limit = Ok cuts -> In c cuts ->
  node_point idQ V x -> (lin idQ (c_row c) x <= (c_rhs c : Q))%Q.
Proof.
  intros OK ID Fr G Hc (SR & B & IA). destruct (generate_trace V ks limit cuts G) as [T _].
  rewrite Forall_forall in T. rewrite lin_lq.
  exact (cut_valid V OK ID x SR IA (box_shifted V x OK B) ks c (T c Hc) Fr).
Qed.

Lemma generate_global V lb0 ub0 ks limit cuts c x : view_ok V -> integral_data V ->
  (In SCG ks -> fractional_rows V) -> tighter V lb0 ub0 ->
  (forall j lo, at_ lb0 j = Ok lo -> (0 <= (lo : Q))%Q \/
     (at_ (lp_lb V) j = at_ lb0 j /\ at_ (lp_ub V) j = at_ ub0 j)) ->
  Generate V ks limit = Ok cuts -> In c cuts ->
  satisfies_rows idQ V x -> in_root_box V lb0 ub0 x -> integral_at (ints V) x ->
  (lin idQ (c_row c) x <= (c_rhs c : Q))%Q.
Proof.
  intros OK ID Fr Ti Hb G Hc SR B IA. destruct (generate_trace V ks limit cuts G) as [T _].
  rewrite Forall_forall in T. rewrite lin_lq.
  refine (cut_valid V OK ID x SR IA _ ks c (T c Hc) Fr).
  intros j lo hi E1 E2 Nf. destruct (Ti j lo hi E1 E2) as (lo0 & hi0 & F1 & F2 & L1 & L2).
  destruct (B j lo0 hi0 F1 F2) as [B1 B2]. change (@nopp arith_Q lo0) with (- lo0)%Q in B1.
  destruct (Hb j lo0 F1) as [P|[Q1 Q2]].
  - assert (I : is_inf V (- lo0)%Q = false).
    { destruct (is_inf V (- lo0)%Q) eqn:I; auto. apply (vo_inf V OK) in I. exfalso.
      exact (neg_arith _ P I). }
    unfold shifted. rewrite E1, E2.
    assert (Pl : Qle_bool 0 lo = true) by (apply Qle_bool_iff; exact (Qle_trans _ _ _ P L1)).
    rewrite Pl. exact (Qle_trans _ _ _ P (B1 I)).
  - rewrite F1, E1 in Q1. injection Q1 as <-. rewrite F2, E2 in Q2. injection Q2 as <-.
    unfold shifted. rewrite E1, E2. destruct (Qle_bool 0 lo) eqn:L.
    + apply Qle_bool_iff in L. assert (I : is_inf V (- lo)%Q = false).
      { destruct (is_inf V (- lo)%Q) eqn:I; auto. apply (vo_inf V OK) in I. exfalso.
        exact (neg_arith _ L I). }
      exact (Qle_trans _ _ _ L (B1 I)).
    + destruct (is_inf V (- lo)%Q) eqn:I1.
      * destruct (is_inf V hi) eqn:I2.
        -- exfalso. apply Nf. exists lo, hi. repeat split; auto. apply Qle_bool_false. exact L.
        -- exact (proj1 (Qle_minus_iff _ _) (B2 eq_refl)).
      * exact (proj1 (Qle_minus_iff _ _) (B1 eq_refl)).
Qed.

(** The aggregation in the words of the specification. *)
Lemma aggregation_ok V (w : qvec) sides g : clean_row w -> AggregateByWeight V w sides = Ok g ->
  forall x,
  (lin idQ (a_var g) x == q_sum (map (fun e : qentry => (val e : Q) * row_value V x (idx e)) (ents w)) /\
   (a_rhs g : Q) == q_sum (map (fun e : qentry => (val e : Q) * chosen_side V sides (idx e)) (ents w)) /\
   lin idQ (a_slack g) (slack idQ V sides x) ==
     q_sum (map (fun e : qentry => (match at_ sides (idx e) with Ok true => 1 | _ => -1 end) * (val e : Q)
                   * slack idQ V sides x (idx e)) (ents w)) /\
   lin idQ (a_var g) x + lin idQ (a_slack g) (slack idQ V sides x) == (a_rhs g : Q))%Q.
Proof.
  intros (_ & C & Nn) H x. destruct (agg_total V w sides g x H) as [H1 H2].
  split; [exact H1|]. split; [exact H2|]. split.
  - destruct (agg_lists V sides w g C Nn H) as (_ & E1 & _). rewrite lin_lq, E1. cbn [ents].
    rewrite (lq_map_drop (fun r y => nmul (sgn sides r) y)).
    clear. induction (ents w) as [|e r IH]; [reflexivity|]. cbn [map q_sum fold_right].
    change (fold_right Qplus 0%Q) with q_sum. apply Qplus_comp; [|exact IH].
    unfold sgn. destruct (at_ sides (idx e)) as [[|]| | | |]; reflexivity.
  - rewrite !lin_lq. exact (aggregate_identity V w sides g x C Nn H).
Qed.

Lemma substitution_ok V (w : qvec) sides g var slk rhs g' : clean_row w ->
  AggregateByWeight V w sides = Ok g ->
  (forall e : qentry, In e (ents slk) -> holds w (idx e)) ->
  SubstituteSlack V (mkAgg var slk (a_sign g) (a_side g) rhs) = Ok g' ->
  ents (a_slack g') = [] /\
  forall x, (lin idQ (a_var g') x - (a_rhs g' : Q) ==
     lin idQ var x + lin idQ slk (slack idQ V sides x) - (rhs : Q))%Q.
Proof.
  intros (_ & C & Nn) H Hin Hs. split.
  - unfold SubstituteSlack in Hs. destruct (foldM _ _ _); try discriminate.
    injection Hs as <-. reflexivity.
  - intros x. rewrite !lin_lq. exact (substitute_ok V w sides g var slk rhs g' x C Nn H Hin Hs).
Qed.

Lemma shift_ok V g t b : TransformToNonNegative V g = Ok (t, b) ->
  (b = false <-> exists e, In e (ents (a_var g)) /\ free_column V (idx e)) /\
  a_slack t = a_slack g /\ a_sign t = a_sign g /\ a_side t = a_side g /\
  (b = true -> forall x,
    (lin idQ (a_var t) (shifted V x) - (a_rhs t : Q) == lin idQ (a_var g) x - (a_rhs g : Q))%Q).
Proof.
  intros H. destruct (to_nonneg_ok V g t b H) as (T1 & T2 & T3 & T4 & _ & _ & T5).
  split; [exact (free_iff V b _ T4)|]. auto.
Qed.

Lemma back_ok V u t b : TransformBack V u = Ok (t, b) ->
  (b = false <-> exists e, In e (ents (a_var u)) /\ free_column V (idx e)) /\
  a_slack t = a_slack u /\ a_sign t = a_sign u /\ a_side t = a_side u /\
  (b = true -> forall x,
    (lin idQ (a_var t) x - (a_rhs t : Q) == lin idQ (a_var u) (shifted V x) - (a_rhs u : Q))%Q).
Proof.
  intros H. destruct (from_nonneg_ok V u t b H) as (T1 & T2 & T3 & T4 & T5).
  split; [exact (free_iff V b _ T4)|]. auto.
Qed.

Lemma round_half (x : Q) : (Qabs (x - Qround_away x) <= 1 # 2)%Q.
Proof.
  unfold Qround_away. apply Qabs_Qle_condition. destruct (Qle_bool 0 x).
  - pose proof (Qfloor_le (x + (1 # 2))) as H1. pose proof (Qlt_floor (x + (1 # 2))) as H2.
    rewrite inject_Z_plus in H2. change (inject_Z 1) with 1%Q in H2. split; lra.
  - pose proof (Qle_ceiling (x - (1 # 2))) as H1. pose proof (Qceiling_lt (x - (1 # 2))) as H2.
    unfold Z.sub in H2. rewrite inject_Z_plus in H2. change (inject_Z (- (1))) with (-1)%Q in H2. split; lra.
Qed.

Lemma round_int (x : Q) : exists z, (Qround_away x = inject_Z z)%Q.
Proof. unfold Qround_away. destruct (Qle_bool 0 x); eauto. Qed.

Lemma round_nearest (x : Q) (z : Z) : (Qabs (x - Qround_away x) <= Qabs (x - inject_Z z))%Q.
Proof.
  destruct (round_int x) as (n & E). pose proof (round_half x) as H. rewrite E in *.
  apply Qabs_Qle_condition in H. apply Qabs_Qle_condition.
  destruct (Z.eq_dec n z) as [<-|N]; [apply Qabs_Qle_condition, Qle_refl|].
  assert (D : (inject_Z n + 1 <= inject_Z z \/ inject_Z z + 1 <= inject_Z n)%Q).
  { change 1%Q with (inject_Z 1). rewrite <- !inject_Z_plus, <- !Zle_Qle. lia. }
  assert (B : (1 # 2 <= Qabs (x - inject_Z z))%Q).
  { destruct (Qlt_le_dec (Qabs (x - inject_Z z)) (1 # 2)) as [L|]; auto. exfalso.
    pose proof (proj1 (Qabs_Qle_condition _ _) (Qlt_le_weak _ _ L)) as [L1 L2].
    pose proof (Qle_Qabs (x - inject_Z z)) as L3. pose proof (Qle_Qabs (- (x - inject_Z z))) as L4.
    rewrite Qabs_opp in L4. destruct D; lra. }
  split; lra.
Qed.

Lemma not_near (V : view arith_Q) (x : Q) z : near V x = false -> ((tol V : Q) < Qabs (x - inject_Z z))%Q.
Proof.
  intros H. unfold near in H.
  change (Qle_bool (Qabs (x - Qround_away x)) (tol V) = false) in H. apply Qle_bool_false in H.
  exact (Qlt_le_trans _ _ _ H (round_nearest x z)).
Qed.

Lemma sub_comp (a b c : Q) : (a == b)%Q -> (b - c == a - c)%Q.
Proof. intros H. rewrite H. reflexivity. Qed.

Lemma generate_removes (V : view arith_double) ks limit cuts : Generate V ks limit = Ok cuts ->
  exists xs, primal V = Ok xs /\
  forall c, In c cuts -> dltb (c_rhs c) (DotProduct (N := num_double) (c_row c) (of_dense (N := num_double) xs)) = true.
Proof.
  intros G. destruct (generate_trace V ks limit cuts G) as [T _]. rewrite Forall_forall in T.
  assert (P : exists xs, primal V = Ok xs).
  { unfold Generate in G. destruct (is_solved V); cbn [negb] in G; [|discriminate].
    destruct (is_optimal V); cbn [negb] in G; [|discriminate].
    destruct (activities V) as [a| | | |]; try discriminate. cbn [bind] in G.
    destruct (choose_sides V 0 a) as [sd| | | |]; try discriminate. cbn [bind] in G.
    destruct (primal V) as [xs| | | |]; try discriminate. eauto. }
  destruct P as (xs & Px). exists xs. split; [exact Px|]. intros c Hc. destruct (T c Hc).
  rewrite Px in E3. injection E3 as E3. subst xs0. destruct E13 as [-> ->]. exact E12.
Qed.
Lemma generate_separates V ks limit cuts : view_ok V ->
  Generate V ks limit = Ok cuts ->
  exists xs, primal V = Ok xs /\
  (forall c, In c cuts -> ((c_rhs c : Q) < lin idQ (c_row c) (dense_point xs))%Q) /\
  (forall c, In c cuts -> exists r j, at_ (basis V) r = Ok j /\ In j (ints V) /\
     forall z, ((tol V : Q) < Qabs (dense_point xs j - inject_Z z))%Q).
Proof.
  intros OK G. destruct (generate_trace V ks limit cuts G) as [T _]. rewrite Forall_forall in T.
  assert (P : exists xs, primal V = Ok xs).
  { unfold Generate in G. destruct (is_solved V); cbn [negb] in G; [|discriminate].
    destruct (is_optimal V); cbn [negb] in G; [|discriminate].
    destruct (activities V) as [a| | | |]; try discriminate. cbn [bind] in G.
    destruct (choose_sides V 0 a) as [sd| | | |]; try discriminate. cbn [bind] in G.
    destruct (primal V) as [xs| | | |]; try discriminate. eauto. }
  destruct P as (xs & Px). exists xs. split; [exact Px|]. split.
  - intros c Hc. pose proof (T c Hc) as Tc.
    assert (S : sorted (ents (c_row c))).
    { apply (cut_sorted V num_Q_ok) with (ks := ks); auto. intros r a Ha.
      destruct (vo_rows V OK r a Ha) as (D & [Sa _] & _). auto. }
    destruct Tc as [acts sides xs' r col b g t k g1 bk g2 S0 E1 E2 E3 E4 E5 E6 E7 E8 E9 E10 E11 E12 [E13 E14]].
    rewrite Px in E3. injection E3 as <-. unfold RemovesLPOptimum in E12. rewrite <- E13, <- E14 in E12.
    change (negb (Qle_bool (DotProduct (c_row c) (of_dense xs)) (c_rhs c)) = true) in E12.
    apply negb_true_iff, Qle_bool_false in E12.
    rewrite <- (dot_lin (c_row c) xs S). exact E12.
  - intros c Hc. destruct (T c Hc) as [acts sides xs' r col b g t k g1 bk g2 S0 E1 E2 E3 [E4 _] (E5 & E6 & E7) _ _ _ _ _ _ _ _].
    rewrite Px in E3. injection E3 as <-. exists r, col. split; [exact E4|].
    split; [apply is_int_In; exact E6|]. intros z.
    assert (Ev : ((value (of_dense xs) col : Q) == dense_point xs col)%Q).
    { destruct (dense_ok xs 0) as ([Sd _] & _ & F).
      rewrite (value_find (of_dense xs)) by exact Sd. cbn [of_dense ents]. rewrite F, Z.sub_0_r.
      unfold dense_point, at_. destruct (col <? 0); [reflexivity|].
      destruct (nth_error xs (Z.to_nat col)) as [y|]; cbn [nz or0]; [|reflexivity].
      destruct (is0 y) eqn:Z0; [|reflexivity]. apply is0_Q in Z0. cbn [or0].
      symmetry. exact Z0. }
    assert (E : (dense_point xs col - inject_Z z == (value (of_dense xs) col : Q) - inject_Z z)%Q)
      by exact (sub_comp _ _ _ Ev).
    rewrite E. exact (not_near V _ z E7).
Qed.

Lemma mir_only_valid V limit cuts c x : view_ok V -> integral_data V ->
  Generate V [MIR] limit = Ok cuts -> In c cuts -> node_point idQ V x ->
  (lin idQ (c_row c) x <= (c_rhs c : Q))%Q.
Proof. intros O D. apply generate_valid; auto. intros [E|[]]. discriminate. Qed.

(** *** The chosen side, the rows strong CG declines, the returned cuts *)
Lemma choose_sides_acts (V : view arith_Q) acts : forall r0 sides i b a, choose_sides V r0 acts = Ok sides ->
  at_ sides i = Ok b -> at_ acts i = Ok a ->
  exists lo hi, at_ (lp_lhs V) (r0 + i) = Ok lo /\ at_ (lp_rhs V) (r0 + i) = Ok hi /\
  b = choose_side V a lo hi.
Proof.
  induction acts as [|a0 l IH]; intros r0 sides i b a H Hi Ha; cbn [choose_sides] in H.
  - apply at_ok in Ha as [_ Ha]. destruct (Z.to_nat i); discriminate Ha.
  - destruct (at_ (lp_rhs V) r0) as [hi| | | |] eqn:E1; try discriminate H. cbn [bind] in H.
    destruct (at_ (lp_lhs V) r0) as [lo| | | |] eqn:E2; try discriminate H. cbn [bind] in H.
    destruct (choose_sides V (r0 + 1) l) as [q| | | |] eqn:E3; try discriminate H. cbn [bind] in H.
    injection H as <-. unfold at_ in Hi, Ha. destruct (Z.ltb_spec i 0) as [|L]; [discriminate Hi|].
    destruct (Z.eq_dec i 0) as [->|N].
    + cbn in Hi, Ha. injection Hi as <-. injection Ha as <-. exists lo, hi. rewrite Z.add_0_r. auto.
    + assert (Ei : Z.to_nat i = S (Z.to_nat (i - 1))) by lia. rewrite Ei in Hi, Ha.
      cbn [nth_error] in Hi, Ha.
      destruct (IH (r0 + 1) q (i - 1) b a E3) as (lo' & hi' & K).
      { unfold at_. destruct (Z.ltb_spec (i - 1) 0); [lia|]. exact Hi. }
      { unfold at_. destruct (Z.ltb_spec (i - 1) 0); [lia|]. exact Ha. }
      exists lo', hi'. replace (r0 + 1 + (i - 1)) with (r0 + i) in K by lia. exact K.
Qed.

Lemma nearer_side (V : view arith_Q) acts sides r (b : bool) (a lo hi : arith_Q) :
  choose_sides V 0 acts = Ok sides -> at_ sides r = Ok b -> at_ acts r = Ok a ->
  at_ (lp_lhs V) r = Ok lo -> at_ (lp_rhs V) r = Ok hi ->
  (is_inf V hi = true -> b = false) /\
  (is_inf V hi = false -> is_inf V (- lo)%Q = true -> b = true) /\
  (is_inf V hi = false -> is_inf V (- lo)%Q = false -> ((lo : Q) < hi)%Q ->
     (b = true <-> ((hi : Q) - a <= a - lo)%Q)).
Proof.
  intros H Hb Ha Hl Hh. destruct (choose_sides_acts V acts 0 sides r b a H Hb Ha) as (lo' & hi' & L & U & ->).
  rewrite Z.add_0_l in L, U. rewrite L in Hl. injection Hl as ->. rewrite U in Hh. injection Hh as ->.
  unfold choose_side. change (@nopp arith_Q lo) with (- lo)%Q.
  split; [intros ->; reflexivity|]. split; [intros -> ->; reflexivity|]. intros -> -> LT.
  assert (N : @aeqb arith_Q lo hi = false).
  { change (Qeq_bool lo hi = false). destruct (Qeq_bool lo hi) eqn:E; auto.
    apply Qeq_bool_iff in E. exfalso. rewrite E in LT. exact (Qlt_irrefl _ LT). }
  rewrite N. change (Qle_bool (1 # 2) ((a - lo) / (hi - lo)) = true <-> (hi - a <= a - lo)%Q).
  rewrite Qle_bool_iff. assert (P : (0 < hi - lo)%Q) by lra.
  split; intros K.
  - assert (M : ((1 # 2) * (hi - lo) <= (a - lo) / (hi - lo) * (hi - lo))%Q) by (apply Qmult_le_compat_r; lra).
    rewrite Qmult_comm with (x := ((a - lo) / (hi - lo))%Q), Qmult_div_r in M by lra. lra.
  - apply Qle_shift_div_l; lra.
Qed.

Lemma cg_slacks_dec (A : Arith) (V : view A) l :
  Forall (fun e : entry A => exists b, at_ (integral_rows V) (idx e) = Ok b) l ->
  exists b, cg_slacks_ok V l = Ok b /\
  (b = true <-> forall e : entry A, In e l -> at_ (integral_rows V) (idx e) = Ok true /\ aleb n0 (val e) = true).
Proof.
  induction l as [|e r IH]; intros F.
  - exists true. split; [reflexivity|]. split; [intros _ e []|reflexivity].
  - cbn [cg_slacks_ok]. unfold HasIntegralSlack. destruct (Forall_inv F) as [b E]. rewrite E. cbn [bind].
    destruct (IH (Forall_inv_tail F)) as (b' & K & D).
    destruct b; [destruct (aleb n0 (val e)) eqn:L|]; cbn [andb].
    + exists b'. split; [exact K|]. rewrite D. split.
      * intros G e' [<-|I]; [split; assumption|exact (G e' I)].
      * intros G e' I. exact (G e' (or_intror I)).
    + exists false. split; [reflexivity|]. split; [discriminate|]. intros G.
      destruct (G e (or_introl eq_refl)) as [_ X]. rewrite L in X. discriminate X.
    + exists false. split; [reflexivity|]. split; [discriminate|]. intros G.
      destruct (G e (or_introl eq_refl)) as [X _]. rewrite E in X. discriminate X.
Qed.

Lemma is_int_iff (A : Arith) (V : view A) c : is_int V c = true <-> In c (ints V).
Proof.
  unfold is_int. rewrite existsb_exists. split.
  - intros (y & I & E). apply Z.eqb_eq in E. subst. exact I.
  - intros I. exists c. split; [exact I|apply Z.eqb_refl].
Qed.

Lemma cg_declines (V : view arith_Q) (g : agg arith_Q) :
  Forall (fun e : entry arith_Q => exists b, at_ (integral_rows V) (idx e) = Ok b) (ents (a_slack g)) ->
  (CGRound V g = Ok None <->
   (exists e : entry arith_Q, In e (ents (a_slack g)) /\
      (at_ (integral_rows V) (idx e) = Ok false \/ ((val e : Q) < 0)%Q)) \/
   (exists e : entry arith_Q, In e (ents (a_var g)) /\ In (idx e) (ints V) /\ ((val e : Q) < 0)%Q)).
Proof.
  intros F. destruct (cg_slacks_dec _ V _ F) as (b & E & D). unfold CGRound. rewrite E. cbn [bind].
  assert (NEG : forall q : arith_Q, aleb (n0 : arith_Q) q = false <-> ((q : Q) < 0)%Q).
  { intros q. change (Qle_bool 0 q = false <-> (q < 0)%Q). destruct (Qle_bool 0 q) eqn:L.
    - apply Qle_bool_iff in L. split; [discriminate|lra].
    - split; [|reflexivity]. intros _. apply Qnot_le_lt. intros G. apply Qle_bool_iff in G. congruence. }
  destruct b; cbn [negb].
  2:{ split; [|reflexivity]. intros _. left.
      assert (X : ~ forall e : entry arith_Q, In e (ents (a_slack g)) ->
                at_ (integral_rows V) (idx e) = Ok true /\ aleb (n0 : arith_Q) (val e) = true).
      { intros G. apply D in G. discriminate G. }
      clear E D. induction (ents (a_slack g)) as [|e r IH]; [exfalso; apply X; intros ? []|].
      destruct (Forall_inv F) as [b E]. destruct b.
      - destruct (aleb (n0 : arith_Q) (val e)) eqn:L.
        + destruct IH as (e' & I & K).
          * exact (Forall_inv_tail F).
          * intros G. apply X. intros e' [<-|I]; auto.
          * exists e'. split; [right; exact I|exact K].
        + exists e. split; [left; reflexivity|]. right. apply NEG. exact L.
      - exists e. split; [left; reflexivity|]. left. exact E. }
  assert (NS : ~ exists e : entry arith_Q, In e (ents (a_slack g)) /\
      (at_ (integral_rows V) (idx e) = Ok false \/ ((val e : Q) < 0)%Q)).
  { intros (e & I & K). destruct (proj1 D eq_refl e I) as [K1 K2]. destruct K as [K|K].
    - rewrite K in K1. discriminate K1.
    - apply NEG in K. rewrite K in K2. discriminate K2. }
  destruct (cg_vars_ok V (ents (a_var g))) eqn:CV; cbn [negb].
  - split.
    + intros H. exfalso. revert H.
      destruct (TransformS _ (a_slack g) tt) as [[s1 u1]| | | |]; cbn [bind]; try discriminate.
      destruct (TransformS _ (a_var g) tt) as [[s2 u2]| | | |]; cbn [bind]; discriminate.
    + intros [K|(e & I & J & K)]; [contradiction|]. exfalso. unfold cg_vars_ok in CV.
      rewrite forallb_forall in CV. specialize (CV e I). apply is_int_iff in J. apply NEG in K.
      rewrite J, K in CV. discriminate CV.
  - split; [|reflexivity]. intros _. right. unfold cg_vars_ok in CV.
    induction (ents (a_var g)) as [|e r IH]; [discriminate CV|]. cbn [forallb] in CV.
    apply andb_false_iff in CV as [CV|CV].
    + apply orb_false_iff in CV as [C1 C2]. apply negb_false_iff in C1.
      exists e. split; [left; reflexivity|]. split; [apply is_int_iff; exact C1|apply NEG; exact C2].
    + destruct (IH CV) as (e' & I & K). exists e'. split; [right; exact I|exact K].
Qed.

Lemma generated_data (V : view arith_double) ks limit obj cuts :
  GenerateCuttingPlanes V ks limit obj = Ok cuts ->
  exists raw xs, Generate V ks limit = Ok raw /\ primal V = Ok xs /\
  Forall2 (fun (c : raw_cut arith_double) d => row d = c_row c /\ right_hand_side d = c_rhs c /\ name d = c_name c /\
     is_forced d = false /\ is_active d = false /\
     efficacy d = ComputeEfficacy (c_row c) (c_rhs c) (of_dense (N := num_double) xs)) raw cuts.
Proof.
  unfold GenerateCuttingPlanes. intros H.
  destruct (Generate V ks limit) as [raw| | | |]; try discriminate H. cbn [bind] in H.
  destruct (primal V) as [xs| | | |]; try discriminate H. cbn [bind] in H. injection H as <-.
  exists raw, xs. split; [reflexivity|]. split; [reflexivity|].
  induction raw as [|c r IH]; constructor; auto. repeat split; reflexivity.
Qed.

(** *** Values within the tolerance of an integer *)
Lemma round_away_near (y : Q) z : (Qabs (y - inject_Z z) < 1 # 2)%Q -> Qround_away y = inject_Z z.
Proof.
  intros H. apply Qabs_Qlt_condition in H as [L U]. unfold Qround_away. destruct (Qle_bool 0 y); f_equal.
  - pose proof (Qfloor_le (y + (1 # 2))) as F1. pose proof (Qlt_floor (y + (1 # 2))) as F2.
    assert (K1 : (inject_Z (Qfloor (y + (1 # 2))) < inject_Z (z + 1))%Q)
      by (rewrite inject_Z_plus; change (inject_Z 1) with 1%Q; lra).
    assert (K2 : (inject_Z z < inject_Z (Qfloor (y + (1 # 2)) + 1))%Q) by lra.
    rewrite <- Zlt_Qlt in K1, K2. lia.
  - pose proof (Qle_ceiling (y - (1 # 2))) as F1. pose proof (Qceiling_lt (y - (1 # 2))) as F2.
    assert (K1 : (inject_Z (z - 1) < inject_Z (Qceiling (y - (1 # 2))))%Q).
    { unfold Z.sub. rewrite inject_Z_plus. change (inject_Z (-(1))) with (-(1))%Q. lra. }
    assert (K2 : (inject_Z (Qceiling (y - (1 # 2)) - 1) < inject_Z z)%Q) by lra.
    rewrite <- Zlt_Qlt in K1, K2. lia.
Qed.

Lemma snap_near (V : view arith_Q) (y : arith_Q) z : (tol V < 1 # 2)%Q ->
  (Qabs (y - inject_Z z) <= tol V)%Q -> near V y = true /\ around y = inject_Z z.
Proof.
  intros T H. assert (E : Qround_away y = inject_Z z) by (apply round_away_near; lra).
  split; [|exact E]. unfold near. change (@around arith_Q y) with (Qround_away y). rewrite E.
  change (Qle_bool (Qabs (y - inject_Z z)) (tol V) = true). apply Qle_bool_iff. exact H.
Qed.

Lemma snaps (V : view arith_Q) (c : arith_Q) z : (tol V < 1 # 2)%Q -> (Qabs (c - inject_Z z) <= tol V)%Q ->
  (Fractionality V c == 0)%Q /\
  (forall f0 : arith_Q, (0 <= (f0 : Q))%Q -> (MIRRoundInteger V c f0 == inject_Z z)%Q) /\
  (forall k f0 : arith_Q, (0 <= (f0 : Q))%Q -> (CGRoundInteger V c k f0 == inject_Z z)%Q).
Proof.
  intros T H. destruct (snap_near V c z T H) as [N E].
  assert (F : Fractionality V c = 0%Q) by (unfold Fractionality; rewrite N; reflexivity).
  assert (L : forall f0 : Q, (0 <= f0)%Q -> @aleb arith_Q 0%Q f0 = true)
    by (intros f0 P; change (Qle_bool 0 f0 = true); apply Qle_bool_iff; exact P).
  split; [rewrite F; reflexivity|]. split.
  - intros f0 P. unfold MIRRoundInteger. rewrite F, L by exact P. unfold FloorTol. rewrite N, E. reflexivity.
  - intros k f0 P. unfold CGRoundInteger. rewrite F, L by exact P. unfold FloorTol. rewrite N, E.
    change (inject_Z z + 0 / (k + 1) == inject_Z z)%Q. unfold Qdiv. rewrite Qmult_0_l. apply Qplus_0_r.
Qed.
