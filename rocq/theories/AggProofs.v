(** Lemmas behind the rounding-cut properties. *)
From Coq Require Import String List ZArith QArith Qround Qabs Bool Sorted Lia Lqa Permutation.
From Verif Require Import Outcome Num Double SparseVector SparseVectorFacts VectorSpec
  VectorProofs SolverSpec Aggregation AggSpec.
Import ListNotations.
Open Scope Z_scope.

Notation qvec := (svec arith_Q).
Notation qentry := (entry arith_Q).

(** *** Linear expressions *)
Definition qv (e : qentry) : Q := val e.
Definition lq (l : list qentry) (x : point) : Q :=
  q_sum (map (fun e : qentry => qv e * x (idx e))%Q l).

Lemma lin_lq (v : qvec) x : lin idQ v x = lq (ents v) x.
Proof. reflexivity. Qed.

Lemma lq_cons (e : qentry) l x : lq (e :: l) x = (qv e * x (idx e) + lq l x)%Q.
Proof. reflexivity. Qed.

Lemma lq_nil x : lq [] x = 0%Q.
Proof. reflexivity. Qed.

Lemma lq_app l1 l2 x : (lq (l1 ++ l2) x == lq l1 x + lq l2 x)%Q.
Proof.
  induction l1 as [|e r IH]; cbn [app]; rewrite ?lq_nil, ?lq_cons; [lra|]. rewrite IH. lra.
Qed.

Lemma lq_ext l x y : (forall e, In e l -> x (idx e) == y (idx e))%Q -> (lq l x == lq l y)%Q.
Proof.
  induction l as [|e r IH]; intros H; [reflexivity|]. rewrite !lq_cons.
  rewrite (H e) by (left; auto). rewrite IH by (intros; apply H; right; auto). reflexivity.
Qed.

Lemma is0_Q (y : arith_Q) : is0 y = true -> (y == 0)%Q.
Proof. apply Qeq_bool_iff. Qed.

Lemma is0_Q_false (y : arith_Q) : is0 y = false -> ~ (y == 0)%Q.
Proof. intros H E. apply Qeq_bool_iff in E. change (Qeq_bool y 0) with (is0 y) in E. congruence. Qed.

Lemma lq_drop l x : (lq (drop_zeros l) x == lq l x)%Q.
Proof.
  induction l as [|e r IH]; [reflexivity|]. unfold drop_zeros in *. cbn [filter].
  destruct (is0 (val e)) eqn:Z0; cbn [negb].
  - rewrite IH, lq_cons. apply is0_Q in Z0. change (qv e == 0)%Q in Z0. rewrite Z0. lra.
  - rewrite !lq_cons, IH. reflexivity.
Qed.

Lemma lq_merge l1 : forall l2 x, (lq (merge l1 l2) x == lq l1 x + lq l2 x)%Q.
Proof.
  induction l1 as [|a r1 IH1]; intros l2 x; [cbn [merge]; rewrite lq_nil; lra|].
  induction l2 as [|b r2 IH2]; [cbn [merge]; rewrite lq_nil; lra|].
  cbn [merge]. destruct (idx b <? idx a).
  - rewrite lq_cons. change ((fix merge_aux (l0 : list qentry) : list qentry :=
      match l0 with
      | [] => a :: r1
      | b0 :: r0 => if idx b0 <? idx a then b0 :: merge_aux r0 else a :: merge r1 l0
      end) r2) with (merge (a :: r1) r2). rewrite IH2, (lq_cons b r2). lra.
  - rewrite (lq_cons a (merge _ _)), IH1, (lq_cons a r1). lra.
Qed.

Lemma lq_sum_run l : forall (cur : qentry) zs x,
  (lq (sum_run cur zs l) x == lq (cur :: zs) x + lq l x)%Q.
Proof.
  induction l as [|e r IH]; intros cur zs x; cbn [sum_run]; [rewrite lq_nil; lra|].
  destruct (Z.eqb_spec (idx e) (idx cur)) as [E|E].
  - rewrite IH, !lq_cons, lq_app, !lq_cons, lq_nil. cbn [idx val].
    change (qv (mkE (idx cur) (nadd (val cur) (val e)))) with (qv cur + qv e)%Q.
    change (qv (mkE (idx e) n0)) with 0%Q. rewrite E. lra.
  - rewrite !lq_cons, lq_app, IH, !lq_cons, lq_nil. lra.
Qed.

Lemma lq_scaled (f : Q) l x : (lq (scaled (f : arith_Q) l) x == f * lq l x)%Q.
Proof.
  induction l as [|e r IH]; [cbn [scaled map]; rewrite lq_nil; lra|]. cbn [scaled map]. rewrite !lq_cons.
  change (map (fun e0 : qentry => mkE (idx e0) (nmul (val e0) (f : arith_Q))) r) with (scaled (f : arith_Q) r).
  rewrite IH. cbn [idx val].
  change (qv (mkE (idx e) (nmul (val e) (f : arith_Q)))) with (qv e * f)%Q. lra.
Qed.

Lemma lq_AddMultiple (v : qvec) (f : Q) w r x : AddMultiple v (f : arith_Q) w = Ok r ->
  (lq (ents r) x == lq (ents v) x + f * lq (ents w) x)%Q.
Proof.
  unfold AddMultiple. destruct (dirty v || dirty w); [discriminate|].
  rewrite <- (lq_scaled f (ents w) x), <- (lq_merge (ents v) (scaled (f : arith_Q) (ents w)) x).
  destruct (merge (ents v) (scaled (f : arith_Q) (ents w))) as [|e l]; cbn [sum_dups bind].
  - intros H. injection H as <-. reflexivity.
  - destruct (idx e =? -1); cbn [bind]; [discriminate|]. intros H. injection H as <-.
    cbn [ents]. rewrite lq_drop, lq_sum_run, !lq_cons, lq_nil. lra.
Qed.

Lemma lq_MinusEq (v w r : qvec) x : MinusEq v w = Ok r ->
  (lq (ents r) x == lq (ents v) x - lq (ents w) x)%Q.
Proof.
  unfold MinusEq. intros H. rewrite (lq_AddMultiple v (-1) w r x H). lra.
Qed.

Lemma lq_Scale (a : qvec) (f : Q) x : (lq (ents (Scale a (f : arith_Q))) x == f * lq (ents a) x)%Q.
Proof.
  unfold Scale. destruct (is0 (f : arith_Q)) eqn:Z0; cbn [ents].
  - apply is0_Q in Z0. change (f == 0)%Q in Z0. rewrite Z0, lq_nil. lra.
  - apply lq_scaled.
Qed.

(** *** Any arithmetic: where indices come from *)
Section Indices.
Context {N : Num}.
Implicit Types (l : list (entry N)) (v w : svec N).

Lemma merge_in l1 : forall l2 e, In e (merge l1 l2) <-> In e l1 \/ In e l2.
Proof.
  induction l1 as [|a r1 IH1]; intros l2 e; [cbn; tauto|].
  induction l2 as [|b r2 IH2]; [cbn; tauto|].
  cbn [merge]. destruct (idx b <? idx a).
  - change (In e (b :: merge (a :: r1) r2) <-> In e (a :: r1) \/ In e (b :: r2)).
    cbn [In] in *. rewrite IH2. tauto.
  - cbn [In]. rewrite IH1. cbn [In]. tauto.
Qed.

Lemma sum_run_idx (P : Z -> Prop) l : forall cur zs,
  P (idx cur) -> Forall (fun e => P (idx e)) zs -> Forall (fun e => P (idx e)) l ->
  Forall (fun e => P (idx e)) (sum_run cur zs l).
Proof.
  induction l as [|e r IH]; intros cur zs H1 H2 H3; cbn [sum_run].
  - constructor; auto.
  - inversion H3; subst. destruct (idx e =? idx cur).
    + apply IH; auto. apply Forall_app; split; auto.
    + constructor; auto. apply Forall_app; split; auto.
Qed.

Lemma drop_idx (P : Z -> Prop) l :
  Forall (fun e => P (idx e)) l -> Forall (fun e => P (idx e)) (drop_zeros l).
Proof.
  rewrite !Forall_forall. intros H e He. apply H. apply filter_In in He. tauto.
Qed.

Lemma scaled_idx (P : Z -> Prop) (f : N) l :
  Forall (fun e => P (idx e)) l -> Forall (fun e => P (idx e)) (scaled f l).
Proof. intros H. apply Forall_map. exact H. Qed.

Lemma AddMultiple_idx (P : Z -> Prop) v (f : N) w r : AddMultiple v f w = Ok r ->
  Forall (fun e => P (idx e)) (ents v) -> Forall (fun e => P (idx e)) (ents w) ->
  dirty r = false /\ Forall (fun e => P (idx e)) (ents r).
Proof.
  intros H Hv Hw. unfold AddMultiple in H.
  destruct (dirty v) eqn:D; [discriminate|]. destruct (dirty w); [discriminate|].
  cbn [orb] in H.
  assert (Hm : Forall (fun e => P (idx e)) (merge (ents v) (scaled f (ents w)))).
  { apply Forall_forall. intros e He. apply merge_in in He as [He|He].
    - rewrite Forall_forall in Hv. auto.
    - pose proof (scaled_idx P f _ Hw) as Hs. rewrite Forall_forall in Hs. auto. }
  destruct (merge (ents v) (scaled f (ents w))) as [|e l]; cbn [sum_dups bind] in H.
  - injection H as <-. split; [reflexivity|constructor].
  - destruct (idx e =? -1); cbn [bind] in H; [discriminate|]. injection H as <-.
    split; [reflexivity|]. cbn [ents]. apply drop_idx. inversion Hm; subst.
    apply sum_run_idx; auto.
Qed.

Lemma AddMultiple_def v (f : N) w : dirty v = false -> dirty w = false ->
  Forall (fun e => 0 <= idx e) (ents v) -> Forall (fun e => 0 <= idx e) (ents w) ->
  exists r, AddMultiple v f w = Ok r.
Proof.
  intros Dv Dw Hv Hw. unfold AddMultiple. rewrite Dv, Dw. cbn [orb].
  assert (Hm : Forall (fun e => 0 <= idx e) (merge (ents v) (scaled f (ents w)))).
  { apply Forall_forall. intros e He. apply merge_in in He as [He|He].
    - rewrite Forall_forall in Hv. auto.
    - pose proof (scaled_idx (fun i => 0 <= i) f _ Hw) as Hs. rewrite Forall_forall in Hs. auto. }
  destruct (merge (ents v) (scaled f (ents w))) as [|e l]; cbn [sum_dups bind]; [eauto|].
  inversion Hm; subst. destruct (Z.eqb_spec (idx e) (-1)); [lia|]. cbn [bind]. eauto.
Qed.

(** Appending entries in increasing index order. *)
Lemma add_increasing (f : entry N -> N) es : forall v, dirty v = false ->
  sorted (ents v ++ map (fun e => mkE (idx e) (f e)) es) -> Forall (fun e => 0 <= idx e) es ->
  fold_left (fun u e => AddEntry u (idx e) (f e)) es v =
  mkV (ents v ++ drop_zeros (map (fun e => mkE (idx e) (f e)) es)) false.
Proof.
  induction es as [|e r IH]; intros v D S Nn; cbn [fold_left map].
  - cbn. rewrite app_nil_r. destruct v; cbn in *; congruence.
  - inversion Nn; subst. set (m := map (fun e0 : entry N => mkE (idx e0) (f e0)) r) in *.
    cbn [map] in S. fold m in S.
    assert (L : last_index v < idx e).
    { unfold last_index. destruct (rev (ents v)) as [|b q] eqn:R; [lia|].
      assert (Hb : In b (ents v)) by (apply in_rev; rewrite R; left; auto).
      clear - S Hb. induction (ents v) as [|c l IHl]; [destruct Hb|].
      cbn [app] in S. inversion S as [|? ? S1 S2]; subst. destruct Hb as [->|Hb]; auto.
      rewrite Forall_forall in S2. apply (S2 (mkE (idx e) (f e))).
      apply in_or_app. right. left. auto. }
    assert (EA : AddEntry v (idx e) (f e) =
      mkV (ents v ++ drop_zeros [mkE (idx e) (f e)]) false).
    { unfold AddEntry. rewrite D. destruct (Z.leb_spec (idx e) (last_index v)); [lia|].
      cbn. destruct (is0 (f e)); cbn; auto. rewrite app_nil_r. destruct v; cbn in *; congruence. }
    rewrite EA, IH; cbn [ents dirty]; auto.
    + f_equal. rewrite <- app_assoc. f_equal. fold m. unfold drop_zeros. cbn [filter val].
      destruct (is0 (f e)); auto.
    + fold m. cbn. destruct (is0 (f e)); cbn [negb].
      * rewrite app_nil_r. clear - S. induction (ents v) as [|c l IHl]; cbn [app] in *.
        -- inversion S; auto.
        -- inversion S as [|? ? S1 S2]; subst. constructor; [apply IHl; exact S1|].
           rewrite Forall_forall in *. intros y Hy. apply S2.
           apply in_app_or in Hy. apply in_or_app. cbn. tauto.
      * rewrite <- app_assoc. exact S.
Qed.

Lemma map_idx_strict (f : entry N -> N) l : sorted l -> sorted (map (fun e => mkE (idx e) (f e)) l).
Proof. apply (map_sorted (fun e => mkE (idx e) (f e))). reflexivity. Qed.

Lemma row_weights_clean v : canonical (ents v) -> nonneg_indices (ents v) ->
  fold_left (fun u e => AddEntry u (idx e) (val e)) (ents v) vempty = mkV (ents v) false.
Proof.
  intros [S Z0] Nn. rewrite (add_increasing (fun e => val e)); [|reflexivity| |exact Nn].
  - cbn [ents app vempty]. f_equal.
    clear - Z0. induction Z0 as [|e r He Hr IH]; [reflexivity|].
    unfold drop_zeros in *. cbn [map filter val]. rewrite He. cbn [negb]. rewrite IH.
    destruct e; auto.
  - cbn [ents app vempty]. apply map_idx_strict. exact S.
Qed.
End Indices.

(** *** Aggregation, any arithmetic *)
Section Agg.
Context {A : Arith}.
Variable V : view A.
Variable sides : list bool.
Implicit Types (e : entry A) (g : agg A).

Definition sgn (r : Z) : A := match at_ sides r with Ok true => n1 | _ => nm1 end.
Definition sdv (r : Z) : A :=
  match at_ sides r with
  | Ok true => match at_ (lp_rhs V) r with Ok y => y | _ => n0 end
  | _ => match at_ (lp_lhs V) r with Ok y => y | _ => n0 end
  end.
Definition known (r : Z) : Prop :=
  exists b a y, at_ sides r = Ok b /\ at_ (lp_rows V) r = Ok a /\
  at_ (if b then lp_rhs V else lp_lhs V) r = Ok y.

Lemma agg_step_inv g e g' : agg_step V sides g e = Ok g' ->
  known (idx e) /\
  (exists a, at_ (lp_rows V) (idx e) = Ok a /\ AddMultiple (a_var g) (val e) a = Ok (a_var g')) /\
  a_slack g' = AddEntry (a_slack g) (idx e) (nmul (sgn (idx e)) (val e)) /\
  a_sign g' = AddEntry (a_sign g) (idx e) (sgn (idx e)) /\
  a_side g' = AddEntry (a_side g) (idx e) (sdv (idx e)) /\
  a_rhs g' = nadd (a_rhs g) (nmul (val e) (sdv (idx e))).
Proof.
  unfold agg_step. destruct (at_ sides (idx e)) as [b| | | |] eqn:E1; try discriminate.
  cbn [bind]. destruct (at_ (if b then _ else _) (idx e)) as [y| | | |] eqn:E2; try discriminate.
  cbn [bind]. destruct (at_ (lp_rows V) (idx e)) as [a| | | |] eqn:E3; try discriminate.
  cbn [bind]. destruct (AddMultiple (a_var g) (val e) a) as [v| | | |] eqn:E4; try discriminate.
  cbn [bind]. intros H. injection H as <-. cbn [a_slack a_sign a_side a_rhs a_var].
  assert (E5 : sgn (idx e) = if b then n1 else nm1) by (unfold sgn; rewrite E1; destruct b; auto).
  assert (E6 : sdv (idx e) = y) by (unfold sdv; rewrite E1; destruct b; rewrite E2; auto).
  rewrite E5, E6. repeat split; auto.
  - exists b, a, y. auto.
  - exists a. auto.
Qed.

Lemma agg_fold es : forall g g', foldM (agg_step V sides) g es = Ok g' ->
  Forall (fun e => known (idx e)) es /\
  a_slack g' = fold_left (fun u e => AddEntry u (idx e) (nmul (sgn (idx e)) (val e))) es (a_slack g) /\
  a_sign g' = fold_left (fun u e => AddEntry u (idx e) (sgn (idx e))) es (a_sign g) /\
  a_side g' = fold_left (fun u e => AddEntry u (idx e) (sdv (idx e))) es (a_side g).
Proof.
  induction es as [|e r IH]; intros g g' H; cbn [foldM] in H.
  - injection H as <-. repeat split; constructor.
  - destruct (agg_step V sides g e) as [g1| | | |] eqn:E; try discriminate. cbn [bind] in H.
    apply agg_step_inv in E as (K & _ & E1 & E2 & E3 & _).
    destruct (IH _ _ H) as (H1 & H2 & H3 & H4). cbn [fold_left].
    rewrite <- E1, <- E2, <- E3. repeat split; auto.
Qed.

Lemma agg_lists (w : svec A) g : canonical (ents w) -> nonneg_indices (ents w) ->
  AggregateByWeight V w sides = Ok g ->
  Forall (fun e => known (idx e)) (ents w) /\
  a_slack g = mkV (drop_zeros (map (fun e => mkE (idx e) (nmul (sgn (idx e)) (val e))) (ents w))) false /\
  a_sign g = mkV (drop_zeros (map (fun e => mkE (idx e) (sgn (idx e))) (ents w))) false /\
  a_side g = mkV (drop_zeros (map (fun e => mkE (idx e) (sdv (idx e))) (ents w))) false.
Proof.
  intros [S Z0] Nn H. unfold AggregateByWeight in H.
  destruct (foldM _ _ _) as [g1| | | |] eqn:E; try discriminate. cbn [bind] in H.
  injection H as <-. cbn [a_slack a_sign a_side].
  destruct (agg_fold _ _ _ E) as (K & H1 & H2 & H3). cbn [a_slack a_sign a_side] in *.
  split; [exact K|].
  rewrite (add_increasing (fun e => nmul (sgn (idx e)) (val e))) in H1;
    [|reflexivity|apply map_idx_strict; exact S|exact Nn].
  rewrite (add_increasing (fun e => sgn (idx e))) in H2;
    [|reflexivity|apply map_idx_strict; exact S|exact Nn].
  rewrite (add_increasing (fun e => sdv (idx e))) in H3;
    [|reflexivity|apply map_idx_strict; exact S|exact Nn].
  rewrite H1, H2, H3. repeat split; reflexivity.
Qed.
End Agg.

(** Values of a mapped, sorted list after dropping zeros. *)
Lemma value_map {N : Num} (Hn : num_ok N) (f : Z -> N -> N) (l : list (entry N)) i :
  sorted l ->
  value (mkV (drop_zeros (map (fun e => mkE (idx e) (f (idx e) (val e))) l)) false) i =
  match find_first l i with Some x => drop0 (f i x) | None => n0 end.
Proof.
  intros S. pose proof (Transform_ok f (mkV l false) (fun _ => S) eq_refl) as (H1 & H2 & H3).
  change (mkV (drop_zeros (map (fun e => mkE (idx e) (f (idx e) (val e))) l)) false)
    with (Transform f (mkV l false)).
  rewrite value_find by exact H1. rewrite H3. cbn [ents].
  destruct (find_first l i) as [x|]; cbn; auto. unfold drop0. destruct (is0 (f i x)); auto.
Qed.

(** *** Aggregation in exact arithmetic *)
Section Exact.
Variable V : view arith_Q.

Definition act (x : point) (r : Z) : Q :=
  match at_ (lp_rows V) r with Ok a => lq (ents a) x | _ => 0%Q end.

Lemma agg_sums sides es : forall g g' x, foldM (agg_step V sides) g es = Ok g' ->
  (lq (ents (a_var g')) x == lq (ents (a_var g)) x + lq es (act x))%Q /\
  (a_rhs g' == (a_rhs g : Q) + lq es (sdv V sides))%Q.
Proof.
  induction es as [|e r IH]; intros g g' x H; cbn [foldM] in H.
  - injection H as <-. rewrite !lq_nil. split; lra.
  - destruct (agg_step V sides g e) as [g1| | | |] eqn:E; try discriminate. cbn [bind] in H.
    apply agg_step_inv in E as (_ & (a & Ea & E1) & _ & _ & _ & E4).
    destruct (IH _ _ x H) as (H1 & H2). rewrite !lq_cons.
    apply (lq_AddMultiple _ (val e) _ _ x) in E1. split.
    + rewrite H1, E1. unfold act at 2. rewrite Ea. change (val e : Q) with (qv e). lra.
    + rewrite H2, E4.
      change (nadd (a_rhs g) (nmul (val e) (sdv V sides (idx e))) : Q)
        with ((a_rhs g : Q) + qv e * (sdv V sides (idx e) : Q))%Q. lra.
Qed.

Lemma agg_total (w : qvec) sides g x : AggregateByWeight V w sides = Ok g ->
  (lq (ents (a_var g)) x == lq (ents w) (act x))%Q /\
  (a_rhs g == lq (ents w) (sdv V sides))%Q.
Proof.
  intros H. unfold AggregateByWeight in H.
  destruct (foldM _ _ _) as [g1| | | |] eqn:E; try discriminate. cbn [bind] in H.
  injection H as <-. cbn [a_var a_rhs].
  destruct (agg_sums _ _ _ _ x E) as [H1 H2]. cbn [a_var a_rhs vempty ents] in *.
  rewrite lq_nil in H1. change ((n0 : arith_Q) : Q) with 0%Q in H2. split; lra.
Qed.

(** The slack of a known row, written with sign and side. *)
Definition sq (sides : list bool) (r : Z) : Q := @sgn arith_Q sides r.
Definition dq (sides : list bool) (r : Z) : Q := @sdv arith_Q V sides r.
Lemma slack_sgn sides x r : known V sides r ->
  (slack idQ V sides x r == sq sides r * (dq sides r - act x r))%Q.
Proof.
  intros (b & a & y & E1 & E2 & E3).
  unfold slack, sq, dq, sgn, sdv, act. rewrite E1, E2.
  destruct b; rewrite E3; rewrite lin_lq.
  - destruct (at_ (lp_lhs V) r); change ((n1 : arith_Q) : Q) with 1%Q; lra.
  - destruct (at_ (lp_rhs V) r); change ((nm1 : arith_Q) : Q) with (-1)%Q; lra.
Qed.

Lemma lq_map_drop (f : Z -> arith_Q -> arith_Q) l x :
  (lq (drop_zeros (map (fun e : qentry => mkE (idx e) (f (idx e) (val e))) l)) x ==
   q_sum (map (fun e : qentry => (f (idx e) (val e) : Q) * x (idx e)) l))%Q.
Proof.
  rewrite lq_drop. unfold lq. rewrite map_map. reflexivity.
Qed.


Lemma drop0_Q (y : arith_Q) : ((drop0 y : arith_Q) == (y : Q))%Q.
Proof.
  unfold drop0. destruct (is0 y) eqn:E; [|reflexivity].
  apply is0_Q in E. rewrite E. reflexivity.
Qed.

Lemma sgn_neq sides r : drop0 (sgn sides r : arith_Q) = sgn sides r.
Proof. unfold sgn. destruct (at_ sides r) as [[|]| | | |]; reflexivity. Qed.

Lemma Qopp_is0 (y : Q) : Qeq_bool (- y) 0 = Qeq_bool y 0.
Proof.
  apply eq_true_iff_eq. rewrite !Qeq_bool_iff. split; intros E.
  - setoid_replace y with (- - y)%Q by ring. rewrite E. reflexivity.
  - rewrite E. reflexivity.
Qed.

Lemma num_Q_ok : num_ok arith_Q.
Proof. split; [reflexivity|exact Qopp_is0]. Qed.

(** Facts about signs and sides recorded by the aggregation. *)
Lemma agg_records (w : qvec) sides g e : canonical (ents w) -> nonneg_indices (ents w) ->
  AggregateByWeight V w sides = Ok g -> In e (ents w) ->
  (value (a_sign g) (idx e) : Q) = sq sides (idx e) /\
  ((value (a_side g) (idx e) : Q) == dq sides (idx e))%Q /\
  ((value (a_slack g) (idx e) : Q) == sq sides (idx e) * qv e)%Q.
Proof.
  intros C Nn H He. destruct (agg_lists V sides w g C Nn H) as (_ & E1 & E2 & E3).
  destruct C as [S _]. pose proof (find_first_in _ _ S He) as F.
  pose proof (value_map num_Q_ok (fun r _ => sgn sides r) _ (idx e) S) as K2.
  pose proof (value_map num_Q_ok (fun r _ => sdv V sides r) _ (idx e) S) as K3.
  pose proof (value_map num_Q_ok (fun r y => nmul (sgn sides r) y) _ (idx e) S) as K1.
  rewrite F in K1, K2, K3.
  assert (T : forall a b c : Q, a = b -> (b == c)%Q -> (a == c)%Q) by (intros; subst; auto).
  split; [|split].
  - rewrite E2. etransitivity; [exact K2|]. apply sgn_neq.
  - rewrite E3. exact (T _ _ _ K3 (drop0_Q _)).
  - rewrite E1. exact (T _ _ _ K1 (drop0_Q _)).
Qed.

Definition ssum (x : point) (sg sd : Z -> Q) (es : list qentry) : Q :=
  lq es (fun r => sg r * (sd r - act x r))%Q.

Lemma subst_arith (a b s c l d t : Q) :
  (a - s * c * l - (b - s * c * d) + t == a - b + (c * (s * (d - l)) + t))%Q.
Proof. ring. Qed.

Lemma subst_fold es : forall (g g' : agg arith_Q) x, foldM (subst_step V) g es = Ok g' ->
  (lq (ents (a_var g')) x - (a_rhs g' : Q) ==
   lq (ents (a_var g)) x - (a_rhs g : Q) +
   ssum x (fun r => value (a_sign g) r) (fun r => value (a_side g) r) es)%Q.
Proof.
  induction es as [|e r IH]; intros g g' x H; cbn [foldM] in H.
  - injection H as <-. unfold ssum. rewrite lq_nil. lra.
  - destruct (subst_step V g e) as [g1| | | |] eqn:E; try discriminate. cbn [bind] in H.
    unfold subst_step in E.
    destruct (at_ (lp_rows V) (idx e)) as [a| | | |] eqn:Ea; try discriminate. cbn [bind] in E.
    destruct (dirty a); try discriminate. cbn [bind] in E.
    destruct (MinusEq _ _) as [v| | | |] eqn:Em; try discriminate. cbn [bind] in E.
    injection E as <-. apply (lq_MinusEq _ _ _ x) in Em.
    pose proof (lq_Scale a (nmul (value (a_sign g) (idx e)) (val e)) x) as Es.
    rewrite (IH _ _ x H). cbn [a_var a_rhs a_sign a_side]. rewrite Em. unfold ssum.
    rewrite lq_cons. unfold act at 2. rewrite Ea.
    set (sg := value (a_sign g) (idx e)) in *. set (sd := value (a_side g) (idx e)) in *.
    change (nmul sg (val e) : Q) with ((sg : Q) * qv e)%Q in Es.
    change (asub (a_rhs g) (nmul (nmul sg (val e)) sd) : Q)
      with ((a_rhs g : Q) - (sg : Q) * qv e * (sd : Q))%Q.
    setoid_rewrite Es.
    exact (subst_arith (lq (ents (a_var g)) x) (a_rhs g) sg (qv e) (lq (ents a) x) sd _).
Qed.

(** SubstituteSlackVariables undoes the definition of the slacks, whatever the rounding did to
    the coefficients. *)
Lemma substitute_ok (w : qvec) sides g var slk rhs g' x :
  canonical (ents w) -> nonneg_indices (ents w) -> AggregateByWeight V w sides = Ok g ->
  (forall e, In e (ents slk) -> exists e', In e' (ents w) /\ idx e' = idx e) ->
  SubstituteSlack V (mkAgg var slk (a_sign g) (a_side g) rhs) = Ok g' ->
  (lq (ents (a_var g')) x - (a_rhs g' : Q) ==
   lq (ents var) x + lq (ents slk) (slack idQ V sides x) - (rhs : Q))%Q.
Proof.
  intros C Nn H Hin Hs. unfold SubstituteSlack in Hs.
  destruct (foldM _ _ _) as [g1| | | |] eqn:E; try discriminate. cbn [bind] in Hs.
  injection Hs as <-. cbn [a_var a_rhs a_slack] in *.
  rewrite (subst_fold _ _ _ x E). cbn [a_var a_rhs a_sign a_side].
  assert (K : (ssum x (fun r => value (a_sign g) r) (fun r => value (a_side g) r) (ents slk) ==
               lq (ents slk) (slack idQ V sides x))%Q).
  { unfold ssum. apply lq_ext. intros e He. destruct (Hin e He) as (e' & He' & Ei).
    destruct (agg_records w sides g e' C Nn H He') as (E1 & E2 & _). rewrite Ei in *.
    destruct (agg_lists V sides w g C Nn H) as (Kn & _). rewrite Forall_forall in Kn.
    specialize (Kn e' He'). cbn beta in Kn. rewrite Ei in Kn.
    rewrite (slack_sgn sides x (idx e) Kn). rewrite E1, E2. reflexivity. }
  rewrite K. lra.
Qed.

Lemma ident_arith (c a l1 s d t l2 : Q) : (s * s == 1 -> l1 + t == l2 ->
  c * a + l1 + (s * c * (s * (d - a)) + t) == c * d + l2)%Q.
Proof.
  intros H1 H2. setoid_replace (s * c * (s * (d - a)))%Q with (s * s * (c * (d - a)))%Q by ring.
  rewrite H1, <- H2. ring.
Qed.

(** The aggregated row is an identity between variables and slacks. *)
Lemma aggregate_identity (w : qvec) sides g x :
  canonical (ents w) -> nonneg_indices (ents w) -> AggregateByWeight V w sides = Ok g ->
  (lq (ents (a_var g)) x + lq (ents (a_slack g)) (slack idQ V sides x) == (a_rhs g : Q))%Q.
Proof.
  intros C Nn H. destruct (agg_total w sides g x H) as [H1 H2].
  destruct (agg_lists V sides w g C Nn H) as (Kn & E1 & _).
  rewrite E1. cbn [ents].
  rewrite (lq_map_drop (fun r y => nmul (sgn sides r) y)), H1, H2.
  clear - Kn. induction (ents w) as [|e l IH]; [cbn [map q_sum fold_right]; rewrite !lq_nil; reflexivity|].
  inversion Kn as [|? ? K1 K2]; subst. specialize (IH K2).
  rewrite !lq_cons. cbn [map q_sum fold_right].
  change (fold_right Qplus 0%Q) with q_sum in *.
  rewrite (slack_sgn sides x (idx e) K1).
  change (nmul (sgn sides (idx e)) (val e) : Q) with (sq sides (idx e) * qv e)%Q.
  change (sdv V sides (idx e) : Q) with (dq sides (idx e)).
  assert (S2 : (sq sides (idx e) * sq sides (idx e) == 1)%Q).
  { unfold sq, sgn. destruct (at_ sides (idx e)) as [[|]| | | |]; reflexivity. }
  exact (ident_arith _ _ _ _ _ _ _ S2 IH).
Qed.


(** *** Shifting to non-negative variables *)
Lemma to_nonneg_step j (c : Q) (s : Q * bool) c' s' x :
  to_nonneg V j c s = Ok (c', s') ->
  (snd s' = true <-> snd s = true /\ ~ free_column V j) /\
  (snd s' = true -> (c' : Q) * shifted V x j - fst s' == c * x j - fst s)%Q.
Proof.
  unfold to_nonneg, shifted, free_column.
  destruct (at_ (lp_lb V) j) as [lo| | | |]; try discriminate. cbn [bind].
  destruct (at_ (lp_ub V) j) as [hi| | | |]; try discriminate. cbn [bind].
  change (aleb (n0 : arith_Q) lo) with (Qle_bool 0 lo).
  change (nopp lo : Q) with (- lo)%Q.
  destruct (Qle_bool 0 lo) eqn:L.
  - intros H. injection H as <- <-. apply Qle_bool_iff in L. split; [|intros _; reflexivity].
    split; [|tauto]. intros H. split; auto. intros (lo' & hi' & E1 & E2 & E3 & _).
    injection E1 as <-. lra.
  - assert (Ln : (lo < 0)%Q).
    { apply Qnot_le_lt. intros C. apply Qle_bool_iff in C. congruence. }
    destruct (is_inf V (- lo)%Q) eqn:I1; cbn [negb].
    + destruct (is_inf V hi) eqn:I2; cbn [negb]; intros H; injection H as <- <-.
      * split; [|cbn; discriminate]. cbn. split; [discriminate|]. intros [_ N]. exfalso.
        apply N. exists lo, hi. auto.
      * split.
        -- cbn. split; [|tauto]. intros H. split; auto. intros (lo' & hi' & _ & E2 & _ & _ & E3).
           injection E2 as <-. congruence.
        -- intros _. cbn [fst]. change (nopp (c : arith_Q) : Q) with (- c)%Q.
           change (asub (fst s : arith_Q) (nmul (c : arith_Q) hi) : Q) with (fst s - c * hi)%Q. ring.
    + intros H. injection H as <- <-. split.
      * cbn. split; [|tauto]. intros H. split; auto. intros (lo' & hi' & E1 & _ & _ & E3 & _).
        injection E1 as <-. congruence.
      * intros _. cbn [fst].
        change (asub (fst s : arith_Q) (nmul (c : arith_Q) lo) : Q) with (fst s - c * lo)%Q. ring.
Qed.

Lemma shift_arith (c1 y f1 t2 f2 ce xe fs t1 : Q) : (c1 * y - f1 == ce * xe - fs ->
  t2 - f2 == t1 - f1 -> c1 * y + t2 - f2 == ce * xe + t1 - fs)%Q.
Proof. intros; lra. Qed.

Lemma to_nonneg_list l : forall (s : Q * bool) l' s' x,
  map_state (to_nonneg V) l s = Ok (l', s') ->
  map idx l' = map idx l /\
  (snd s' = true <-> snd s = true /\ Forall (fun e : qentry => ~ free_column V (idx e)) l) /\
  (snd s' = true -> lq l' (shifted V x) - fst s' == lq l x - fst s)%Q.
Proof.
  induction l as [|e r IH]; intros s l' s' x H; cbn [map_state] in H.
  - injection H as <- <-. split; auto. split; [split; auto; tauto|]. intros _. reflexivity.
  - destruct (to_nonneg V (idx e) (val e) s) as [[c1 s1]| | | |] eqn:E; try discriminate.
    cbn [bind snd fst] in H.
    destruct (map_state (to_nonneg V) r s1) as [[l2 s2]| | | |] eqn:E2; try discriminate.
    cbn [bind snd fst] in H. injection H as <- <-.
    destruct (to_nonneg_step _ _ _ _ _ x E) as [A1 A2].
    destruct (IH _ _ _ x E2) as (B1 & B2 & B3). cbn [map idx]. rewrite B1.
    split; auto. split.
    + rewrite B2, A1. rewrite Forall_cons_iff. tauto.
    + intros T. specialize (B3 T). assert (T1 : snd s1 = true) by tauto. specialize (A2 T1).
      rewrite !lq_cons. cbn [idx]. change (qv (mkE (idx e) c1)) with (c1 : Q).
      exact (shift_arith _ _ _ _ _ _ _ _ _ A2 B3).
Qed.

Lemma from_nonneg_step j (c : Q) (s : Q * bool) c' s' x :
  from_nonneg V j c s = Ok (c', s') ->
  (snd s' = true <-> snd s = true /\ ~ free_column V j) /\
  (snd s' = true -> (c' : Q) * x j - fst s' == c * shifted V x j - fst s)%Q.
Proof.
  unfold from_nonneg, shifted, free_column.
  destruct (at_ (lp_lb V) j) as [lo| | | |]; try discriminate. cbn [bind].
  destruct (at_ (lp_ub V) j) as [hi| | | |]; try discriminate. cbn [bind].
  change (aleb (n0 : arith_Q) lo) with (Qle_bool 0 lo).
  change (nopp lo : Q) with (- lo)%Q.
  destruct (Qle_bool 0 lo) eqn:L.
  - intros H. injection H as <- <-. apply Qle_bool_iff in L. split; [|intros _; reflexivity].
    split; [|tauto]. intros H. split; auto. intros (lo' & hi' & E1 & E2 & E3 & _).
    injection E1 as <-. lra.
  - assert (Ln : (lo < 0)%Q).
    { apply Qnot_le_lt. intros C. apply Qle_bool_iff in C. congruence. }
    destruct (is_inf V (- lo)%Q) eqn:I1; cbn [negb].
    + destruct (is_inf V hi) eqn:I2; cbn [negb]; intros H; injection H as <- <-.
      * split; [|cbn; discriminate]. cbn. split; [discriminate|]. intros [_ N]. exfalso.
        apply N. exists lo, hi. auto.
      * split.
        -- cbn. split; [|tauto]. intros H. split; auto. intros (lo' & hi' & _ & E2 & _ & _ & E3).
           injection E2 as <-. congruence.
        -- intros _. cbn [fst]. change (nopp (c : arith_Q) : Q) with (- c)%Q.
           change (asub (fst s : arith_Q) (nmul (c : arith_Q) hi) : Q) with (fst s - c * hi)%Q. ring.
    + intros H. injection H as <- <-. split.
      * cbn. split; [|tauto]. intros H. split; auto. intros (lo' & hi' & E1 & _ & _ & E3 & _).
        injection E1 as <-. congruence.
      * intros _. cbn [fst].
        change (nadd (fst s : arith_Q) (nmul (c : arith_Q) lo) : Q) with (fst s + c * lo)%Q. ring.
Qed.

Lemma from_nonneg_list l : forall (s : Q * bool) l' s' x,
  map_state (from_nonneg V) l s = Ok (l', s') ->
  map idx l' = map idx l /\
  (snd s' = true <-> snd s = true /\ Forall (fun e : qentry => ~ free_column V (idx e)) l) /\
  (snd s' = true -> lq l' x - fst s' == lq l (shifted V x) - fst s)%Q.
Proof.
  induction l as [|e r IH]; intros s l' s' x H; cbn [map_state] in H.
  - injection H as <- <-. split; auto. split; [split; auto; tauto|]. intros _. reflexivity.
  - destruct (from_nonneg V (idx e) (val e) s) as [[c1 s1]| | | |] eqn:E; try discriminate.
    cbn [bind snd fst] in H.
    destruct (map_state (from_nonneg V) r s1) as [[l2 s2]| | | |] eqn:E2; try discriminate.
    cbn [bind snd fst] in H. injection H as <- <-.
    destruct (from_nonneg_step _ _ _ _ _ x E) as [A1 A2].
    destruct (IH _ _ _ x E2) as (B1 & B2 & B3). cbn [map idx]. rewrite B1.
    split; auto. split.
    + rewrite B2, A1. rewrite Forall_cons_iff. tauto.
    + intros T. specialize (B3 T). assert (T1 : snd s1 = true) by tauto. specialize (A2 T1).
      rewrite !lq_cons. cbn [idx]. change (qv (mkE (idx e) c1)) with (c1 : Q).
      exact (shift_arith _ _ _ _ _ _ _ _ _ A2 B3).
Qed.

Lemma to_nonneg_ok g t b : TransformToNonNegative V g = Ok (t, b) ->
  a_slack t = a_slack g /\ a_sign t = a_sign g /\ a_side t = a_side g /\
  (b = true <-> Forall (fun e : qentry => ~ free_column V (idx e)) (ents (a_var g))) /\
  (forall e, In e (ents (a_var t)) -> exists e', In e' (ents (a_var g)) /\ idx e' = idx e) /\
  dirty (a_var t) = false /\
  (b = true -> forall x,
     lq (ents (a_var t)) (shifted V x) - (a_rhs t : Q) == lq (ents (a_var g)) x - (a_rhs g : Q))%Q.
Proof.
  unfold TransformToNonNegative, TransformS. destruct (dirty (a_var g)); [discriminate|].
  destruct (map_state _ _ _) as [[l' [rhs' b']]| | | |] eqn:E; try discriminate.
  cbn [bind fst snd]. intros H. injection H as <- <-. cbn [a_slack a_sign a_side a_var a_rhs ents dirty].
  repeat (split; [reflexivity|]).
  pose proof (fun x => to_nonneg_list _ _ _ _ x E) as K. cbn [fst snd] in K.
  split; [destruct (K (fun _ => 0%Q)) as (_ & K2 & _); rewrite K2; tauto|].
  split; [|split; [reflexivity|]].
  - destruct (K (fun _ => 0%Q)) as (K1 & _). intros e He. apply filter_In in He as [He _].
    assert (Hm : In (idx e) (map idx (ents (a_var g)))) by (rewrite <- K1; apply in_map; exact He).
    apply in_map_iff in Hm as (e' & H1 & H2). exists e'. split; [exact H2|exact H1].
  - intros T x. destruct (K x) as (_ & _ & K3). rewrite lq_drop. apply K3. exact T.
Qed.

Lemma from_nonneg_ok g t b : TransformBack V g = Ok (t, b) ->
  a_slack t = a_slack g /\ a_sign t = a_sign g /\ a_side t = a_side g /\
  (b = true <-> Forall (fun e : qentry => ~ free_column V (idx e)) (ents (a_var g))) /\
  (b = true -> forall x,
     lq (ents (a_var t)) x - (a_rhs t : Q) == lq (ents (a_var g)) (shifted V x) - (a_rhs g : Q))%Q.
Proof.
  unfold TransformBack, TransformS. destruct (dirty (a_var g)); [discriminate|].
  destruct (map_state _ _ _) as [[l' [rhs' b']]| | | |] eqn:E; try discriminate.
  cbn [bind fst snd]. intros H. injection H as <- <-. cbn [a_slack a_sign a_side a_var a_rhs ents].
  repeat (split; [reflexivity|]).
  pose proof (fun x => from_nonneg_list _ _ _ _ x E) as K. cbn [fst snd] in K.
  split; [destruct (K (fun _ => 0%Q)) as (_ & K2 & _); rewrite K2; tauto|].
  intros T x. destruct (K x) as (_ & _ & K3). rewrite lq_drop. apply K3. exact T.
Qed.

End Exact.

(** *** Rounding in exact arithmetic *)
Lemma integer_eq (a b : Q) : (a == b)%Q -> integer a -> integer b.
Proof. intros E [z H]. exists z. rewrite <- E. exact H. Qed.

Lemma integer_Z z : integer (inject_Z z).
Proof. exists z. reflexivity. Qed.

Lemma integer_add a b : integer a -> integer b -> integer (a + b).
Proof. intros [x Hx] [y Hy]. exists (x + y). rewrite Hx, Hy, inject_Z_plus. reflexivity. Qed.

Lemma integer_mul a b : integer a -> integer b -> integer (a * b).
Proof. intros [x Hx] [y Hy]. exists (x * y). rewrite Hx, Hy, inject_Z_mult. reflexivity. Qed.

Lemma integer_opp a : integer a -> integer (- a).
Proof. intros [x Hx]. exists (- x). rewrite Hx, inject_Z_opp. reflexivity. Qed.

Lemma integer_sub a b : integer a -> integer b -> integer (a - b).
Proof. intros H1 H2. apply integer_add; auto. apply integer_opp; auto. Qed.

Lemma integer_sum (l : list Q) : Forall integer l -> integer (q_sum l).
Proof.
  induction 1 as [|a l Ha Hl IH]; [exists 0; reflexivity|]. apply integer_add; auto.
Qed.

Lemma Qfloor_unique (y : Q) z : (inject_Z z <= y -> y < inject_Z z + 1 -> Qfloor y = z)%Q.
Proof.
  intros H1 H2. apply Z.le_antisymm.
  - assert (H : (inject_Z (Qfloor y) < inject_Z (z + 1))%Q).
    { rewrite inject_Z_plus. eapply Qle_lt_trans; [apply Qfloor_le|exact H2]. }
    rewrite <- Zlt_Qlt in H. lia.
  - rewrite <- (Qfloor_Z z). apply Qfloor_resp_le. exact H1.
Qed.

Lemma Qfloor_bounds (y : Q) : (inject_Z (Qfloor y) <= y /\ y < inject_Z (Qfloor y) + 1)%Q.
Proof.
  split; [apply Qfloor_le|]. pose proof (Qlt_floor y) as H. rewrite inject_Z_plus in H. exact H.
Qed.

Lemma Qround_away_int z (y : Q) : (y == inject_Z z)%Q -> (Qround_away y == y)%Q.
Proof.
  intros E. unfold Qround_away. destruct (Qle_bool 0 y).
  - assert (H : Qfloor (y + (1 # 2)) = z).
    { apply Qfloor_unique; rewrite E; lra. }
    rewrite H, E. reflexivity.
  - assert (H : Qceiling (y - (1 # 2)) = z).
    { unfold Qceiling. assert (H : Qfloor (- (y - (1 # 2))) = - z).
      { apply Qfloor_unique; rewrite inject_Z_opp, E; lra. }
      lia. }
    rewrite H, E. reflexivity.
Qed.

Lemma Qround_away_integer (y : Q) : integer (Qround_away y).
Proof. unfold Qround_away. destruct (Qle_bool 0 y); apply integer_Z. Qed.

Section Round.
Variable V : view arith_Q.
Hypothesis T0 : (tol V == 0)%Q.

Lemma near_integer (y : Q) : near V (y : arith_Q) = true <-> integer y.
Proof.
  change (Qle_bool (Qabs (y - Qround_away y)) (tol V) = true <-> integer y).
  rewrite Qle_bool_iff, T0. split.
  - intros H. apply (integer_eq (Qround_away y)); [|apply Qround_away_integer].
    pose proof (Qabs_nonneg (y - Qround_away y)) as H0.
    pose proof (Qle_Qabs (y - Qround_away y)) as H1.
    pose proof (Qle_Qabs (- (y - Qround_away y))) as H2. rewrite Qabs_opp in H2. lra.
  - intros [z Hz]. pose proof (Qround_away_int z y Hz) as E.
    setoid_replace (y - Qround_away y)%Q with 0%Q by lra. apply Qle_refl.
Qed.

Lemma FloorTol_floor (y : Q) : ((FloorTol V (y : arith_Q) : Q) == inject_Z (Qfloor y))%Q.
Proof.
  unfold FloorTol. destruct (near V (y : arith_Q)) eqn:E.
  - apply near_integer in E as [z Hz]. change (around (y : arith_Q) : Q) with (Qround_away y).
    rewrite (Qround_away_int z y Hz), Hz, Qfloor_Z. reflexivity.
  - reflexivity.
Qed.

Lemma Fractionality_frac (y : Q) :
  ((Fractionality V (y : arith_Q) : Q) == y - inject_Z (Qfloor y))%Q.
Proof.
  unfold Fractionality. destruct (near V (y : arith_Q)) eqn:E.
  - apply near_integer in E as [z Hz]. change ((n0 : arith_Q) : Q) with 0%Q.
    rewrite (Qfloor_comp _ _ Hz), Qfloor_Z. lra.
  - reflexivity.
Qed.

Definition fr (y : Q) : Q := Fractionality V (y : arith_Q).
Lemma fr_bounds y : (0 <= fr y /\ fr y < 1)%Q.
Proof.
  unfold fr. rewrite Fractionality_frac. pose proof (Qfloor_bounds y). lra.
Qed.
Lemma fr_split y : (y == inject_Z (Qfloor y) + fr y)%Q.
Proof. unfold fr. rewrite Fractionality_frac. lra. Qed.

Definition mirI (c f0 : Q) : Q := MIRRoundInteger V (c : arith_Q) (f0 : arith_Q).
Definition mirC (c f0 : Q) : Q := MIRRoundContinuous (A:=arith_Q) c f0.
Definition cgI (c k f0 : Q) : Q := CGRoundInteger V (c : arith_Q) (k : arith_Q) (f0 : arith_Q).

Lemma mirI_eq c f0 :
  (mirI c f0 == if Qle_bool (fr c) f0 then inject_Z (Qfloor c)
               else inject_Z (Qfloor c) + (fr c - f0) / (1 - f0))%Q.
Proof.
  unfold mirI, MIRRoundInteger. change (aleb (Fractionality V (c : arith_Q)) (f0 : arith_Q))
    with (Qle_bool (fr c) f0). destruct (Qle_bool (fr c) f0).
  - apply FloorTol_floor.
  - rewrite <- FloorTol_floor. reflexivity.
Qed.

Lemma mirC_eq c f0 : mirC c f0 = if Qle_bool 0 c then 0%Q else (c / (1 - f0))%Q.
Proof. reflexivity. Qed.

Lemma Qle_bool_false a b : Qle_bool a b = false -> (b < a)%Q.
Proof. intros H. apply Qnot_le_lt. intros C. apply Qle_bool_iff in C. congruence. Qed.

(** One term of the mixed-integer rounding inequality. *)
Lemma mir_term (b : bool) (c y f0 : Q) : (0 <= f0 /\ f0 < 1)%Q -> (0 <= y)%Q ->
  (b = true -> integer y) ->
  exists (w : Z) (z : Q), (0 <= z)%Q /\
    ((if b then mirI c f0 else mirC c f0) * y == inject_Z w - z / (1 - f0))%Q /\
    (inject_Z w - z <= c * y)%Q.
Proof.
  intros [F1 F2] Y0 Hi. assert (D : ~ (1 - f0 == 0)%Q) by lra.
  destruct b.
  - destruct (Hi eq_refl) as [n Hn]. pose proof (fr_split c) as Sc. pose proof (fr_bounds c) as Bc.
    assert (Sy : (c * y == (inject_Z (Qfloor c) + fr c) * y)%Q)
      by (apply Qmult_comp; [exact Sc|reflexivity]).
    cbv iota. setoid_rewrite mirI_eq. destruct (Qle_bool (fr c) f0) eqn:L.
    + exists (Qfloor c * n), 0%Q. split; [lra|]. rewrite inject_Z_mult, <- Hn. split.
      * field. exact D.
      * assert (0 <= fr c * y)%Q by (apply Qmult_le_0_compat; lra). lra.
    + apply Qle_bool_false in L.
      exists ((Qfloor c + 1) * n), ((1 - fr c) * y)%Q. split; [apply Qmult_le_0_compat; lra|].
      rewrite inject_Z_mult, inject_Z_plus, <- Hn. change (inject_Z 1) with 1%Q. split.
      * field. exact D.
      * lra.
  - cbv iota. rewrite mirC_eq. destruct (Qle_bool 0 c) eqn:L.
    + apply Qle_bool_iff in L. exists 0, 0%Q. split; [lra|]. change (inject_Z 0) with 0%Q. split.
      * field. exact D.
      * assert (0 <= c * y)%Q by (apply Qmult_le_0_compat; lra). lra.
    + apply Qle_bool_false in L. exists 0, (- c * y)%Q. change (inject_Z 0) with 0%Q.
      split; [apply Qmult_le_0_compat; lra|]. split; [field; exact D|lra].
Qed.

Lemma mir_list (kind : Z -> bool) (y : Z -> Q) (f0 : Q) l : (0 <= f0 /\ f0 < 1)%Q ->
  (forall e : qentry, In e l -> (0 <= y (idx e))%Q /\ (kind (idx e) = true -> integer (y (idx e)))) ->
  exists (w : Z) (z : Q), (0 <= z)%Q /\
    (q_sum (map (fun e : qentry =>
       (if kind (idx e) then mirI (val e) f0 else mirC (val e) f0) * y (idx e)) l)
     == inject_Z w - z / (1 - f0))%Q /\
    (inject_Z w - z <= lq l y)%Q.
Proof.
  intros F H. assert (D : ~ (1 - f0 == 0)%Q) by lra. induction l as [|e r IH].
  - exists 0, 0%Q. rewrite lq_nil. cbn [map q_sum fold_right]. change (inject_Z 0) with 0%Q.
    split; [lra|]. split; [field; exact D|lra].
  - destruct IH as (w & z & H1 & H2 & H3); [intros; apply H; right; auto|].
    destruct (H e (or_introl eq_refl)) as [Y0 Yi].
    destruct (mir_term (kind (idx e)) (val e) (y (idx e)) f0 F Y0 Yi) as (w1 & z1 & K1 & K2 & K3).
    exists (w1 + w), (z1 + z)%Q. split; [lra|]. rewrite inject_Z_plus. split.
    + cbn [map]. change (q_sum (?a :: ?b)) with (a + q_sum b)%Q.
      cbn [q_sum fold_right]. change (fold_right Qplus 0%Q) with q_sum. rewrite H2, K2.
      field. exact D.
    + rewrite lq_cons. change (val e : Q) with (qv e) in K3. lra.
Qed.

Lemma mir_final (w : Z) (z r f0 : Q) : (0 <= z)%Q -> (f0 == r - inject_Z (Qfloor r))%Q ->
  (inject_Z w - z <= r)%Q -> (inject_Z w - z / (1 - f0) <= inject_Z (Qfloor r))%Q.
Proof.
  intros Z0 F H. pose proof (Qfloor_bounds r) as [B1 B2].
  assert (D : (0 < 1 - f0)%Q) by lra.
  destruct (Z_le_gt_dec w (Qfloor r)) as [L|L].
  - rewrite Zle_Qle in L. assert (0 <= z / (1 - f0))%Q by (apply Qle_shift_div_l; lra). lra.
  - assert (L' : (Qfloor r + 1 <= w)%Z) by lia. rewrite Zle_Qle, inject_Z_plus in L'.
    change (inject_Z 1) with 1%Q in L'.
    assert (K : (inject_Z w - inject_Z (Qfloor r) <= z / (1 - f0))%Q).
    { apply Qle_shift_div_l; [exact D|].
      assert (0 <= (inject_Z w - inject_Z (Qfloor r) - 1) * f0)%Q by (apply Qmult_le_0_compat; lra).
      lra. }
    lra.
Qed.

Lemma cgI_eq c k f0 :
  (cgI c k f0 == inject_Z (Qfloor c) +
     (if Qle_bool (fr c) f0 then 0 else inject_Z (Qceiling (k * (fr c - f0) / (1 - f0)))) / (k + 1))%Q.
Proof.
  unfold cgI, CGRoundInteger. change (aleb (Fractionality V (c : arith_Q)) (f0 : arith_Q))
    with (Qle_bool (fr c) f0). rewrite <- FloorTol_floor. destruct (Qle_bool (fr c) f0); reflexivity.
Qed.

Lemma Qceiling_bounds (y : Q) : (inject_Z (Qceiling y) - 1 < y /\ y <= inject_Z (Qceiling y))%Q.
Proof.
  split; [|apply Qle_ceiling]. unfold Qceiling. rewrite inject_Z_opp.
  pose proof (Qfloor_bounds (- y)). lra.
Qed.

(** One term of the strong Chvatal-Gomory inequality. *)
Lemma cg_term (c y f0 : Q) (k : Z) : (0 <= f0 /\ f0 < 1)%Q -> (1 <= k)%Z -> (0 <= y)%Q -> integer y ->
  exists X P m : Z, (0 <= m /\ 0 <= P /\ P <= k * m)%Z /\
    (cgI c (inject_Z k) f0 * y == inject_Z X + inject_Z P / (inject_Z k + 1))%Q /\
    (inject_Z X * inject_Z k + f0 * inject_Z m * inject_Z k + (inject_Z P - inject_Z m) * (1 - f0)
       <= c * y * inject_Z k)%Q /\
    ((0 < m)%Z -> inject_Z X * inject_Z k + f0 * inject_Z m * inject_Z k
       + (inject_Z P - inject_Z m) * (1 - f0) < c * y * inject_Z k)%Q.
Proof.
  intros [F1 F2] K1 Y0 [n Hn]. assert (D : ~ (1 - f0 == 0)%Q) by lra.
  assert (Kq : (1 <= inject_Z k)%Q) by (change 1%Q with (inject_Z 1); rewrite <- Zle_Qle; exact K1).
  assert (Dk : ~ (inject_Z k + 1 == 0)%Q) by lra.
  assert (N0 : (0 <= n)%Z). { rewrite Zle_Qle, <- Hn. exact Y0. }
  pose proof (fr_split c) as Sc. pose proof (fr_bounds c) as Bc.
  assert (Sy : (c * y == (inject_Z (Qfloor c) + fr c) * y)%Q)
    by (apply Qmult_comp; [exact Sc|reflexivity]).
  setoid_rewrite cgI_eq. destruct (Qle_bool (fr c) f0) eqn:L.
  - exists (Qfloor c * n), 0, 0. change (inject_Z 0) with 0%Q. rewrite inject_Z_mult, <- Hn.
    repeat split; try lia.
    + field. exact Dk.
    + assert (0 <= fr c * y * inject_Z k)%Q by (repeat apply Qmult_le_0_compat; lra).
      assert (E : (c * y * inject_Z k == (inject_Z (Qfloor c) + fr c) * y * inject_Z k)%Q)
        by (apply Qmult_comp; [exact Sy|reflexivity]). lra.
  - apply Qle_bool_false in L.
    set (t := (inject_Z k * (fr c - f0) / (1 - f0))%Q).
    pose proof (Qceiling_bounds t) as [T1 T2]. set (p := Qceiling t) in *.
    assert (Tk : (t * (1 - f0) == inject_Z k * (fr c - f0))%Q) by (unfold t; field; exact D).
    assert (Tpos : (0 < t)%Q).
    { apply Qlt_shift_div_l; [lra|]. rewrite Qmult_0_l. apply Qmult_lt_0_compat; lra. }
    assert (Tle : (t < inject_Z k)%Q).
    { apply Qlt_shift_div_r; [lra|]. apply Qmult_lt_l; lra. }
    assert (P1 : (1 <= p)%Z).
    { assert (H : (inject_Z 0 < inject_Z p)%Q) by (change (inject_Z 0) with 0%Q; lra).
      rewrite <- Zlt_Qlt in H. lia. }
    assert (Pk : (p <= k)%Z).
    { assert (H : (inject_Z p < inject_Z (k + 1))%Q).
      { rewrite inject_Z_plus. change (inject_Z 1) with 1%Q. lra. }
      rewrite <- Zlt_Qlt in H. lia. }
    assert (Main : ((inject_Z p - 1) * (1 - f0) < inject_Z k * (fr c - f0))%Q).
    { rewrite <- Tk. apply Qmult_lt_r; lra. }
    exists (Qfloor c * n), (p * n), n. rewrite !inject_Z_mult, <- Hn.
    assert (E : (c * y * inject_Z k == (inject_Z (Qfloor c) + fr c) * y * inject_Z k)%Q)
        by (apply Qmult_comp; [exact Sy|reflexivity]).
    split; [split; [exact N0|split; [apply Z.mul_nonneg_nonneg; lia|apply Z.mul_le_mono_nonneg_r; lia]]|].
    split; [field; exact Dk|]. split.
    + rewrite E.
      assert (0 <= (inject_Z k * (fr c - f0) - (inject_Z p - 1) * (1 - f0)) * y)%Q
        by (apply Qmult_le_0_compat; lra). lra.
    + intros Hm. assert (Yp : (0 < y)%Q).
      { rewrite Hn. change 0%Q with (inject_Z 0). rewrite <- Zlt_Qlt. exact Hm. }
      rewrite E.
      assert (0 < (inject_Z k * (fr c - f0) - (inject_Z p - 1) * (1 - f0)) * y)%Q
        by (apply Qmult_lt_0_compat; lra). lra.
Qed.

Lemma cg_list (y : Z -> Q) (f0 : Q) (k : Z) l : (0 <= f0 /\ f0 < 1)%Q -> (1 <= k)%Z ->
  (forall e : qentry, In e l -> (0 <= y (idx e))%Q /\ integer (y (idx e))) ->
  exists X P m : Z, (0 <= m /\ 0 <= P /\ P <= k * m)%Z /\
    (q_sum (map (fun e : qentry => cgI (val e) (inject_Z k) f0 * y (idx e)) l)
     == inject_Z X + inject_Z P / (inject_Z k + 1))%Q /\
    (inject_Z X * inject_Z k + f0 * inject_Z m * inject_Z k + (inject_Z P - inject_Z m) * (1 - f0)
       <= lq l y * inject_Z k)%Q /\
    ((0 < m)%Z -> inject_Z X * inject_Z k + f0 * inject_Z m * inject_Z k
       + (inject_Z P - inject_Z m) * (1 - f0) < lq l y * inject_Z k)%Q.
Proof.
  intros F K1 H.
  assert (Kq : (1 <= inject_Z k)%Q) by (change 1%Q with (inject_Z 1); rewrite <- Zle_Qle; exact K1).
  assert (Dk : ~ (inject_Z k + 1 == 0)%Q) by lra. induction l as [|e r IH].
  - exists 0, 0, 0. rewrite lq_nil. cbn [map q_sum fold_right]. change (inject_Z 0) with 0%Q.
    repeat split; try lia; try lra.
  - destruct IH as (X & P & m & (A1 & A2 & A3) & H2 & H3 & H4); [intros; apply H; right; auto|].
    destruct (H e (or_introl eq_refl)) as [Y0 Yi].
    destruct (cg_term (val e) (y (idx e)) f0 k F K1 Y0 Yi) as (X1 & P1 & m1 & (B1 & B2 & B3) & J2 & J3 & J4).
    change (val e : Q) with (qv e) in J3, J4.
    exists (X1 + X), (P1 + P), (m1 + m).
    split; [split; [|split]; lia|]. rewrite lq_cons, !inject_Z_plus. split; [|split].
    + cbn [map q_sum fold_right]. change (fold_right Qplus 0%Q) with q_sum. rewrite H2, J2.
      field. exact Dk.
    + lra.
    + intros M. destruct (Z_lt_ge_dec 0 m1) as [M1|M1].
      * specialize (J4 M1). lra.
      * assert (0 < m)%Z by lia. specialize (H4 H0). lra.
Qed.

Lemma cg_final (X P m k : Z) (r f0 : Q) :
  (f0 == r - inject_Z (Qfloor r))%Q -> (1 <= k)%Z -> (1 <= f0 * (inject_Z k + 1))%Q ->
  (0 <= m /\ 0 <= P /\ P <= k * m)%Z ->
  (inject_Z X * inject_Z k + f0 * inject_Z m * inject_Z k + (inject_Z P - inject_Z m) * (1 - f0)
       <= r * inject_Z k)%Q ->
  ((0 < m)%Z -> inject_Z X * inject_Z k + f0 * inject_Z m * inject_Z k
       + (inject_Z P - inject_Z m) * (1 - f0) < r * inject_Z k)%Q ->
  (inject_Z X + inject_Z P / (inject_Z k + 1) <= inject_Z (Qfloor r))%Q.
Proof.
  intros F K1 Kf (M0 & P0 & Pm) L S. pose proof (Qfloor_bounds r) as [B1 B2].
  assert (Kq : (1 <= inject_Z k)%Q) by (change 1%Q with (inject_Z 1); rewrite <- Zle_Qle; exact K1).
  set (R := Qfloor r) in *.
  assert (Goal' : ((k + 1) * (X - R) + P <= 0)%Z ->
    (inject_Z X + inject_Z P / (inject_Z k + 1) <= inject_Z R)%Q).
  { intros G. rewrite Zle_Qle, inject_Z_plus, inject_Z_mult, inject_Z_plus in G.
    unfold Z.sub in G. rewrite inject_Z_plus, inject_Z_opp in G.
    change (inject_Z 1) with 1%Q in G. change (inject_Z 0) with 0%Q in G.
    assert (J : (inject_Z P / (inject_Z k + 1) <= inject_Z R - inject_Z X)%Q).
    { apply Qle_shift_div_r; lra. }
    lra. }
  apply Goal'. destruct (Z_le_gt_dec ((k + 1) * (X - R) + P) 0) as [G|G]; [exact G|exfalso].
  set (D := X - R) in *. assert (EX : X = D + R) by lia. rewrite EX, inject_Z_plus in L, S.
  assert (Er : (r == inject_Z R + f0)%Q) by lra.
  assert (Erk : (r * inject_Z k == (inject_Z R + f0) * inject_Z k)%Q)
    by (apply Qmult_comp; [exact Er|reflexivity]).
  assert (P0' : (0 <= inject_Z P)%Q) by (change 0%Q with (inject_Z 0); rewrite <- Zle_Qle; exact P0).
  assert (M0' : (0 <= inject_Z m)%Q) by (change 0%Q with (inject_Z 0); rewrite <- Zle_Qle; exact M0).
  destruct (Z.eq_dec m 0) as [M|M].
  - assert (P = 0) by nia. subst m P. change (inject_Z 0) with 0%Q in *.
    assert (D1 : (1 <= D)%Z) by nia.
    assert (D1' : (1 <= inject_Z D)%Q) by (change 1%Q with (inject_Z 1); rewrite <- Zle_Qle; exact D1).
    assert (0 < (inject_Z D - f0) * inject_Z k)%Q by (apply Qmult_lt_0_compat; lra). lra.
  - assert (M1 : (0 < m)%Z) by lia. specialize (S M1). clear L.
    assert (M1' : (1 <= inject_Z m)%Q) by (change 1%Q with (inject_Z 1); rewrite <- Zle_Qle; lia).
    destruct (Z_le_gt_dec 1 D) as [D1|D1].
    + assert (D1' : (1 <= inject_Z D)%Q) by (change 1%Q with (inject_Z 1); rewrite <- Zle_Qle; exact D1).
      assert (0 < (inject_Z D - f0) * inject_Z k)%Q by (apply Qmult_lt_0_compat; lra).
      assert (0 <= inject_Z P * (1 - f0))%Q by (apply Qmult_le_0_compat; lra).
      assert (0 <= inject_Z m * (f0 * (inject_Z k + 1) - 1))%Q by (apply Qmult_le_0_compat; lra).
      lra.
    + assert (Dm : (1 - D <= m)%Z) by nia.
      assert (GP : (1 - (k + 1) * D <= P)%Z) by lia.
      assert (Dm' : (1 - inject_Z D <= inject_Z m)%Q).
      { rewrite Zle_Qle in Dm. unfold Z.sub in Dm. rewrite inject_Z_plus, inject_Z_opp in Dm.
        change (inject_Z 1) with 1%Q in Dm. lra. }
      assert (GP' : (1 - (inject_Z k + 1) * inject_Z D <= inject_Z P)%Q).
      { rewrite Zle_Qle in GP. unfold Z.sub in GP.
        rewrite inject_Z_plus, inject_Z_opp, inject_Z_mult, inject_Z_plus in GP.
        change (inject_Z 1) with 1%Q in GP. lra. }
      assert (0 <= (inject_Z P - (1 - (inject_Z k + 1) * inject_Z D)) * (1 - f0))%Q
        by (apply Qmult_le_0_compat; lra).
      assert (0 <= (inject_Z m - (1 - inject_Z D)) * (f0 * (inject_Z k + 1) - 1))%Q
        by (apply Qmult_le_0_compat; lra).
      lra.
Qed.
End Round.

(** *** Where a cut comes from (any arithmetic) *)
Section Trace.
Context {A : Arith}.
Variable V : view A.

Inductive cut_trace (ks : list rounder) (c : raw_cut A) : Prop :=
| mkTrace (acts : list A) (sides : list bool) (xs : list A) (r col : Z) (b : svec A)
    (g t : agg A) (k : rounder) (g1 bk g2 : agg A)
    (S : is_solved V = true /\ is_optimal V = true)
    (E1 : activities V = Ok acts)
    (E2 : choose_sides V 0 acts = Ok sides)
    (E3 : primal V = Ok xs)
    (E4 : at_ (basis V) r = Ok col /\ 0 <= r < Z.of_nat (length (lp_rows V)))
    (E5 : col <> -1 /\ is_int V col = true /\ near V (value (of_dense xs) col) = false)
    (E6 : binv_row V r = Ok b)
    (E7 : AggregateByWeight V (row_weights b) sides = Ok g)
    (E8 : TransformToNonNegative V g = Ok (t, true))
    (E9 : In k ks /\ round_with V k t = Ok (Some g1))
    (E10 : TransformBack V g1 = Ok (bk, true))
    (E11 : SubstituteSlack V bk = Ok g2)
    (E12 : RemovesLPOptimum (a_var g2) (a_rhs g2) (of_dense xs) = true)
    (E13 : c_row c = a_var g2 /\ c_rhs c = a_rhs g2).

Lemma round_loop_trace ks0 g x : forall ks n acc acc' (P : raw_cut A -> Prop),
  incl ks ks0 -> round_loop V ks g x n acc = Ok acc' ->
  (forall c k g1 bk g2, In k ks0 -> round_with V k g = Ok (Some g1) ->
     TransformBack V g1 = Ok (bk, true) -> SubstituteSlack V bk = Ok g2 ->
     RemovesLPOptimum (a_var g2) (a_rhs g2) x = true ->
     c_row c = a_var g2 -> c_rhs c = a_rhs g2 -> P c) ->
  Forall P acc -> Forall P acc' /\ (length acc <= length acc' <= length acc + length ks)%nat.
Proof.
  induction ks as [|k r IH]; intros n acc acc' P Hi H HP Ha; cbn [round_loop] in H.
  - injection H as <-. split; auto. cbn. lia.
  - assert (Hr : incl r ks0) by (intros z Hz; apply Hi; right; auto).
    assert (Hk : In k ks0) by (apply Hi; left; auto).
    destruct (round_with V k g) as [[g1|]| | | |] eqn:E1; try discriminate; cbn [bind] in H.
    + destruct (TransformBack V g1) as [[bk b]| | | |] eqn:E2; try discriminate; cbn [bind fst snd] in H.
      destruct b; cbn [negb] in H; [|discriminate].
      destruct (SubstituteSlack V bk) as [g2| | | |] eqn:E3; try discriminate; cbn [bind] in H.
      destruct (RemovesLPOptimum (a_var g2) (a_rhs g2) x) eqn:E4; cbn [negb] in H.
      * destruct (IH _ _ _ P Hr H HP) as [H1 H2].
        { apply Forall_app. split; auto. constructor; auto.
          apply (HP _ k g1 bk g2); auto. }
        split; auto. rewrite app_length in H2. cbn [length] in *. lia.
      * destruct (IH _ _ _ P Hr H HP Ha) as [H1 H2]. split; auto. cbn [length]. lia.
    + destruct (IH _ _ _ P Hr H HP Ha) as [H1 H2]. split; auto. cbn [length]. lia.
Qed.

Lemma gen_loop_trace ks sides x limit : forall n r acc acc' (P : raw_cut A -> Prop),
  0 <= limit -> gen_loop V n ks sides x limit r acc = Ok acc' ->
  (forall i acc acc', r <= i < r + Z.of_nat n -> tableau_row V ks sides x i acc = Ok acc' ->
     Forall P acc -> Forall P acc' /\ (length acc <= length acc' <= length acc + length ks)%nat) ->
  Forall P acc -> Z.of_nat (length acc) <= Z.max 0 (limit - 1 + Z.of_nat (length ks)) ->
  Forall P acc' /\ Z.of_nat (length acc') <= Z.max 0 (limit - 1 + Z.of_nat (length ks)).
Proof.
  induction n as [|n IH]; intros r acc acc' P L H HP Ha Hl; cbn [gen_loop] in H.
  - injection H as <-. auto.
  - destruct (size_lt (Z.of_nat (length acc)) limit) eqn:E; cbn [negb] in H.
    + destruct (tableau_row V ks sides x r acc) as [acc1| | | |] eqn:E1; try discriminate.
      cbn [bind] in H. destruct (HP r acc acc1) as [H1 H2]; auto; [lia|].
      apply (IH _ _ _ P L H); auto.
      * intros i a a' Hi. apply HP. lia.
      * unfold size_lt in E. destruct (Z.ltb_spec limit 0); [lia|].
        apply Z.ltb_lt in E. lia.
    + injection H as <-. auto.
Qed.

Lemma generate_trace ks limit cuts : Generate V ks limit = Ok cuts ->
  Forall (cut_trace ks) cuts /\
  Z.of_nat (length cuts) <= Z.max 0 (limit - 1 + Z.of_nat (length ks)).
Proof.
  unfold Generate. destruct (is_solved V) eqn:S1; cbn [negb]; [|discriminate].
  destruct (is_optimal V) eqn:S2; cbn [negb]; [|discriminate].
  destruct (activities V) as [acts| | | |] eqn:E1; try discriminate. cbn [bind].
  destruct (choose_sides V 0 acts) as [sides| | | |] eqn:E2; try discriminate. cbn [bind].
  destruct (primal V) as [xs| | | |] eqn:E3; try discriminate. cbn [bind].
  destruct (Z.ltb_spec limit 0); [discriminate|]. intros H0.
  refine (gen_loop_trace ks sides (of_dense xs) limit _ _ _ _ (cut_trace ks) H H0 _ _ _);
    [|constructor|cbn; lia].
  intros i acc acc' Hi Ht Ha. unfold tableau_row in Ht.
  destruct (at_ (basis V) i) as [col| | | |] eqn:E4; try discriminate. cbn [bind] in Ht.
  destruct (Z.eqb_spec col (-1)); [injection Ht as <-; split; auto; lia|].
  destruct (is_int V col) eqn:E5; cbn [negb] in Ht; [|injection Ht as <-; split; auto; lia].
  destruct (near V (value (of_dense xs) col)) eqn:E6; [injection Ht as <-; split; auto; lia|].
  destruct (binv_row V i) as [b| | | |] eqn:E7; try discriminate. cbn [bind] in Ht.
  destruct (AggregateByWeight V (row_weights b) sides) as [g| | | |] eqn:E8; try discriminate. cbn [bind] in Ht.
  destruct (TransformToNonNegative V g) as [[t ok]| | | |] eqn:E9; try discriminate. cbn [bind fst snd] in Ht.
  destruct ok; cbn [negb] in Ht; [|injection Ht as <-; split; auto; lia].
  apply (round_loop_trace ks t (of_dense xs) ks 0 acc acc' (cut_trace ks)); auto; [intros z Hz; exact Hz|].
  intros c k g1 bk g2 K1 K2 K3 K4 K5 K6 K7.
  apply (mkTrace ks c acts sides xs i col b g t k g1 bk g2); auto.
Qed.
End Trace.

(** *** Cuts are sorted; the dot product is the linear expression *)
Section SortedRows.
Context {A : Arith}.
Variable V : view A.
Hypothesis NO : num_ok A.
Hypothesis VR : forall r a, at_ (lp_rows V) r = Ok a -> dirty a = false /\ sorted (ents a).

Lemma sorted_idx (l l' : list (entry A)) : map idx l' = map idx l -> sorted l -> sorted l'.
Proof.
  revert l'. induction l as [|e r IH]; intros [|e' r'] E S; try discriminate; [constructor|].
  cbn [map] in E. injection E as E1 E2. inversion S as [|? ? S1 S2]; subst. constructor.
  - apply IH; auto.
  - apply Forall_forall. intros z Hz. apply (in_map idx) in Hz. rewrite E2 in Hz.
    apply in_map_iff in Hz as (y & Ey & Hy). rewrite Forall_forall in S2. specialize (S2 y Hy). unfold lt_e in *. lia.
Qed.

Lemma map_state_idx {S} (f : Z -> A -> S -> outcome (A * S)) l : forall s l' s',
  map_state f l s = Ok (l', s') -> map idx l' = map idx l.
Proof.
  induction l as [|e r IH]; intros s l' s' H; cbn [map_state] in H; [injection H as <- _; auto|].
  destruct (f (idx e) (val e) s) as [p| | | |]; try discriminate. cbn [bind] in H.
  destruct (map_state f r (snd p)) as [[l2 s2]| | | |] eqn:E; try discriminate.
  cbn [bind fst snd] in H. injection H as <- _. cbn [map idx]. f_equal. exact (IH _ _ _ E).
Qed.

Lemma drop_sorted (l : list (entry A)) : sorted l -> sorted (drop_zeros l).
Proof.
  induction 1 as [|e r S IH F]; [constructor|]. unfold drop_zeros. cbn [filter].
  destruct (negb (is0 (val e))); [|exact IH]. constructor; [exact IH|].
  rewrite Forall_forall in *. intros y Hy. apply F. apply filter_In in Hy. tauto.
Qed.

Lemma TransformS_sorted {S} (f : Z -> A -> S -> outcome (A * S)) v s v' s' :
  TransformS f v s = Ok (v', s') -> sorted (ents v) -> sorted (ents v').
Proof.
  unfold TransformS. destruct (dirty v); [discriminate|].
  destruct (map_state f (ents v) s) as [[l s1]| | | |] eqn:E; try discriminate.
  cbn [bind fst snd]. intros H Hs. injection H as <- _. cbn [ents]. apply drop_sorted.
  apply (sorted_idx (ents v)); auto. exact (map_state_idx _ _ _ _ _ E).
Qed.

Lemma AddMultiple_sorted v (f : A) w r : AddMultiple v f w = Ok r -> sorted (ents v) ->
  sorted (ents w) -> sorted (ents r).
Proof.
  intros H Sv Sw. apply (AddMultiple_ok NO v f w r (fun _ => Sv) (fun _ => Sw) H).
Qed.

Lemma agg_sorted w sides g : AggregateByWeight V w sides = Ok g -> sorted (ents (a_var g)).
Proof.
  unfold AggregateByWeight. destruct (foldM _ _ _) as [g1| | | |] eqn:E; try discriminate.
  cbn [bind]. intros H. injection H as <-. cbn [a_var].
  assert (G : forall es g g', foldM (agg_step V sides) g es = Ok g' ->
    sorted (ents (a_var g)) -> sorted (ents (a_var g'))).
  { induction es as [|e r IH]; intros g g' H S; cbn [foldM] in H; [injection H as <-; auto|].
    destruct (agg_step V sides g e) as [g2| | | |] eqn:E2; try discriminate. cbn [bind] in H.
    apply agg_step_inv in E2 as (_ & (a & Ea & E3) & _). apply (IH _ _ H).
    exact (AddMultiple_sorted _ _ _ _ E3 S (proj2 (VR _ _ Ea))). }
  apply (G _ _ _ E). constructor.
Qed.

Lemma subst_sorted g g' : SubstituteSlack V g = Ok g' -> sorted (ents (a_var g)) -> sorted (ents (a_var g')).
Proof.
  unfold SubstituteSlack. destruct (foldM _ _ _) as [g1| | | |] eqn:E; try discriminate.
  cbn [bind]. intros H. injection H as <-. cbn [a_var].
  revert E. generalize (ents (a_slack g)) as es. intros es. revert g g1.
  induction es as [|e r IH]; intros g g1 E Hs; cbn [foldM] in E; [injection E as <-; auto|].
  - destruct (subst_step V g e) as [g2| | | |] eqn:E2; try discriminate. cbn [bind] in E.
    apply (IH _ _ E). unfold subst_step in E2.
    destruct (at_ (lp_rows V) (idx e)) as [a| | | |] eqn:Ea; try discriminate. cbn [bind] in E2.
    destruct (dirty a); try discriminate. cbn [bind] in E2.
    destruct (MinusEq _ _) as [v| | | |] eqn:Em; try discriminate. cbn [bind] in E2.
    injection E2 as <-. cbn [a_var]. unfold MinusEq in Em.
    apply (AddMultiple_sorted _ _ _ _ Em); [assumption|].
    unfold Scale. match goal with |- context [is0 ?t] => destruct (is0 t) end; cbn [ents]; [constructor|].
    apply (sorted_idx (ents a)); [|exact (proj2 (VR _ _ Ea))]. rewrite map_map. reflexivity.
Qed.

Lemma round_sorted k t g1 : round_with V k t = Ok (Some g1) -> sorted (ents (a_var t)) ->
  sorted (ents (a_var g1)).
Proof.
  destruct k; cbn [round_with].
  - unfold MIRRound.
    destruct (TransformS _ (a_var t) tt) as [[v1 u1]| | | |] eqn:E1; try discriminate. cbn [bind].
    destruct (TransformS _ (a_slack t) tt) as [[v2 u2]| | | |] eqn:E2; try discriminate. cbn [bind fst].
    intros H S. injection H as <-. cbn [a_var]. exact (TransformS_sorted _ _ _ _ _ E1 S).
  - unfold CGRound. destruct (cg_slacks_ok V (ents (a_slack t))) as [ok| | | |]; try discriminate. cbn [bind].
    destruct ok; cbn [negb]; [|discriminate].
    destruct (cg_vars_ok V (ents (a_var t))); cbn [negb]; [|discriminate].
    destruct (TransformS _ (a_slack t) tt) as [[v2 u2]| | | |] eqn:E2; try discriminate. cbn [bind].
    destruct (TransformS _ (a_var t) tt) as [[v1 u1]| | | |] eqn:E1; try discriminate. cbn [bind fst].
    intros H S. injection H as <-. cbn [a_var]. exact (TransformS_sorted _ _ _ _ _ E1 S).
Qed.

Lemma cut_sorted ks c : cut_trace V ks c -> sorted (ents (c_row c)).
Proof.
  intros T. destruct T as [acts sides xs r col b g t k g1 bk g2 S E1 E2 E3 E4 E5 E6 E7 E8 [E9a E9] E10 E11 E12 [E13 E14]].
  rewrite E13. apply (subst_sorted _ _ E11).
  assert (St : sorted (ents (a_var t))).
  { unfold TransformToNonNegative in E8.
    destruct (TransformS _ _ _) as [[v s]| | | |] eqn:Et; try discriminate. cbn [bind fst snd] in E8.
    injection E8 as <- _. cbn [a_var]. apply (TransformS_sorted _ _ _ _ _ Et). exact (agg_sorted _ _ _ E7). }
  unfold TransformBack in E10.
  destruct (TransformS _ _ _) as [[v s]| | | |] eqn:Et; try discriminate. cbn [bind fst snd] in E10.
  injection E10 as <- _. cbn [a_var]. apply (TransformS_sorted _ _ _ _ _ Et).
  exact (round_sorted _ _ _ E9 St).
Qed.
End SortedRows.

Lemma dot_arith (a b c d e : Q) : (e == d -> a + b * c + d == a + (b * c + e))%Q.
Proof. intros; lra. Qed.

Lemma dot_lin (v : qvec) (xs : list arith_Q) : sorted (ents v) ->
  ((DotProduct v (of_dense xs) : Q) == lin idQ v (dense_point xs))%Q.
Proof.
  intros S. unfold DotProduct. destruct (dense_ok xs 0) as ([Sd _] & _ & F).
  rewrite dot_loop_spec by (exact S || exact Sd). cbn [of_dense ents].
  rewrite lin_lq. clear S.
  assert (G : forall l (acc : Q), (fold_left (dot_step (dense_entries 0 xs)) l (acc : arith_Q) ==
    acc + lq l (dense_point xs))%Q).
  { induction l as [|e r IH]; intros acc; cbn [fold_left]; [rewrite lq_nil; lra|].
    rewrite IH, lq_cons. unfold dot_step, dense_point at 2, at_. rewrite F. rewrite Z.sub_0_r.
    destruct (idx e <? 0); [lra|].
    destruct (nth_error xs (Z.to_nat (idx e))) as [y|]; cbn [nz]; [|lra].
    destruct (is0 y) eqn:Z0.
    - apply is0_Q in Z0. change (acc + lq r (dense_point xs) == acc + (qv e * (y : Q) + lq r (dense_point xs)))%Q.
      rewrite Z0. lra.
    - change (acc + qv e * (y : Q) + lq r (dense_point xs) == acc + (qv e * (y : Q) + lq r (dense_point xs)))%Q.
      apply dot_arith. reflexivity. }
  rewrite G. change ((n0 : arith_Q) : Q) with 0%Q. lra.
Qed.
