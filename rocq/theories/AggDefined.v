(** Cut generation is defined on LPs whose sizes agree (any arithmetic). *)
From Coq Require Import String List ZArith QArith Bool Sorted Lia Permutation.
From Verif Require Import Outcome OutcomeFacts Num Double SparseVector SparseVectorFacts VectorSpec
  VectorProofs SolverSpec Aggregation AggSpec AggProofs.
Import ListNotations.
Open Scope Z_scope.

Section Defined.
Context {A : Arith}.
Variable V : view A.
Variables rows cols : Z.
Hypothesis VS : view_sized V rows cols.
Hypothesis FL : Z.of_nat (length (integral_rows V)) = rows.
Implicit Types (e : entry A) (g : agg A).

Definition settled {B} (o : outcome B) : Prop := (exists b, o = Ok b) \/ (exists c, o = Err c).

Definition in_cols e : Prop := 0 <= idx e < cols.
Definition in_rows e : Prop := 0 <= idx e < rows.

Record agg_good g : Prop := {
  ag_var : dirty (a_var g) = false /\ Forall in_cols (ents (a_var g));
  ag_slack : dirty (a_slack g) = false /\ Forall in_rows (ents (a_slack g)) }.

Lemma insert_in e l e' : In e' (insert e l) -> e' = e \/ In e' l.
Proof.
  induction l as [|a r IH]; cbn [insert]; [cbn; intuition|].
  destruct (idx a <? idx e); cbn [In]; intuition.
Qed.

Lemma sort_in l e : In e (stable_sort l) -> In e l.
Proof.
  induction l as [|a r IH]; cbn [stable_sort]; auto. intros H.
  apply insert_in in H as [->|H]; [left; auto|right; auto].
Qed.

Lemma compact_in l e : In e (compact l) -> In e l.
Proof.
  induction l as [|a r IH]; [auto|]. intros H. cbn [compact] in H.
  assert (K : In e (if is0 (val a) then compact r else a :: compact r) -> In e (a :: r)).
  { destruct (is0 (val a)); cbn [In]; intuition. }
  destruct r as [|b r']; [auto|]. destruct (idx a =? idx b); [right; auto|auto].
Qed.

Lemma CleanUp_idx (P : entry A -> Prop) v : Forall P (ents v) ->
  dirty (CleanUp v) = false /\ Forall P (ents (CleanUp v)).
Proof.
  intros H. unfold CleanUp. destruct (dirty v) eqn:D; auto. cbn [dirty ents]. split; auto.
  rewrite Forall_forall in *. intros e He. apply H, sort_in, compact_in. exact He.
Qed.

Lemma AddEntry_idx (P : Z -> Prop) v i (y : A) : Forall (fun e => P (idx e)) (ents v) -> P i ->
  Forall (fun e => P (idx e)) (ents (AddEntry v i y)).
Proof.
  intros H Hi. unfold AddEntry.
  assert (K : Forall (fun e => P (idx e)) (ents v ++ [mkE i y])) by (apply Forall_app; split; auto).
  destruct (dirty v); auto. destruct (i <=? last_index v); auto. destruct (is0 y); auto.
Qed.

Lemma row_weights_idx (P : Z -> Prop) (b : svec A) : Forall (fun e => P (idx e)) (ents b) ->
  Forall (fun e => P (idx e)) (ents (row_weights b)).
Proof.
  unfold row_weights. generalize (ents b) as l. intros l.
  assert (G : forall v : svec A, Forall (fun e => P (idx e)) (ents v) -> Forall (fun e => P (idx e)) l ->
    Forall (fun e => P (idx e)) (ents (fold_left (fun v e => AddEntry v (idx e) (val e)) l v))).
  { induction l as [|e r IH]; intros v Hv Hl; cbn [fold_left]; auto.
    inversion Hl; subst. apply IH; auto. apply AddEntry_idx; auto. }
  intros H. apply G; auto. constructor.
Qed.

Lemma in_cols_pos l : Forall in_cols l -> Forall (fun e => 0 <= idx e) l.
Proof. apply Forall_impl. unfold in_cols. intros; lia. Qed.

Lemma agg_defined sides (w : svec A) : Z.of_nat (length sides) = rows -> Forall in_rows (ents w) ->
  exists g, AggregateByWeight V w sides = Ok g /\ agg_good g.
Proof.
  intros Hs Hw. unfold AggregateByWeight.
  assert (G : forall es g, Forall in_rows es ->
    dirty (a_var g) = false -> Forall in_cols (ents (a_var g)) -> Forall in_rows (ents (a_slack g)) ->
    exists g', foldM (agg_step V sides) g es = Ok g' /\
      dirty (a_var g') = false /\ Forall in_cols (ents (a_var g')) /\ Forall in_rows (ents (a_slack g'))).
  { induction es as [|e r IH]; intros g Hes D1 H1 H2; cbn [foldM]; [eauto 6|].
    inversion Hes as [|? ? He Hr]; subst. unfold in_rows in He.
    assert (S : exists g1, agg_step V sides g e = Ok g1 /\ dirty (a_var g1) = false /\
      Forall in_cols (ents (a_var g1)) /\ Forall in_rows (ents (a_slack g1))).
    { unfold agg_step.
      destruct (at_range sides (idx e)) as (b & ->); [lia|]. cbn [bind].
      destruct (at_range (if b then lp_rhs V else lp_lhs V) (idx e)) as (sd & ->).
      { destruct b; [rewrite (vs_rhs V _ _ VS)|rewrite (vs_lhs V _ _ VS)]; lia. }
      cbn [bind]. destruct (at_range (lp_rows V) (idx e)) as (a & Ea).
      { rewrite (vs_rows V _ _ VS). lia. }
      rewrite Ea. cbn [bind]. destruct (vs_row V _ _ VS _ _ Ea) as [Da Ia].
      destruct (AddMultiple_def (a_var g) (val e) a D1 Da) as (v & Ev).
      { apply in_cols_pos. exact H1. }
      { apply in_cols_pos. exact Ia. }
      rewrite Ev. cbn [bind]. eexists. split; [reflexivity|]. cbn [a_var a_slack].
      destruct (AddMultiple_idx (fun i => 0 <= i < cols) _ _ _ _ Ev H1 Ia) as [K1 K2].
      split; [exact K1|]. split; [exact K2|].
      apply (AddEntry_idx (fun i => 0 <= i < rows)); [exact H2|lia]. }
    destruct S as (g1 & -> & S1 & S2 & S3). cbn [bind]. apply IH; auto. }
  destruct (G (ents w) (mkAgg vempty vempty vempty vempty n0) Hw eq_refl) as (g & -> & G1 & G2 & G3);
    [constructor|constructor|]. cbn [bind].
  eexists. split; [reflexivity|]. split; cbn [a_var a_slack]; [split; auto|].
  exact (CleanUp_idx in_rows _ G3).
Qed.

Lemma map_state_defined {S} (f : Z -> A -> S -> outcome (A * S)) (P : Z -> Prop) l : forall s,
  (forall c y s, P c -> exists z, f c y s = Ok z) -> Forall (fun e => P (idx e)) l ->
  exists l' s', map_state f l s = Ok (l', s') /\ map idx l' = map idx l.
Proof.
  induction l as [|e r IH]; intros s Hf Hl; cbn [map_state]; [exists [], s; auto|].
  inversion Hl; subst. destruct (Hf (idx e) (val e) s) as (z & ->); auto. cbn [bind].
  destruct (IH (snd z) Hf) as (l' & s' & -> & E); auto. cbn [bind fst snd].
  eexists _, _. split; [reflexivity|]. cbn [map idx]. rewrite E. reflexivity.
Qed.

Lemma TransformS_defined {S} (f : Z -> A -> S -> outcome (A * S)) (P : Z -> Prop) v s :
  (forall c y s, P c -> exists z, f c y s = Ok z) ->
  dirty v = false -> Forall (fun e => P (idx e)) (ents v) ->
  exists v' s', TransformS f v s = Ok (v', s') /\ dirty v' = false /\ Forall (fun e => P (idx e)) (ents v').
Proof.
  intros Hf D H. unfold TransformS. rewrite D.
  destruct (map_state_defined f P (ents v) s Hf H) as (l' & s' & -> & E). cbn [bind fst snd].
  eexists _, _. split; [reflexivity|]. split; [reflexivity|]. cbn [ents]. apply drop_idx.
  apply Forall_forall. intros e He. apply (in_map idx) in He. rewrite E in He.
  apply in_map_iff in He as (e' & Ei & He'). rewrite <- Ei. rewrite Forall_forall in H. auto.
Qed.

Lemma box_at c : 0 <= c < cols -> (exists lo, at_ (lp_lb V) c = Ok lo) /\ (exists hi, at_ (lp_ub V) c = Ok hi).
Proof.
  intros H. split; apply at_range; [rewrite (vs_lb V _ _ VS)|rewrite (vs_ub V _ _ VS)]; lia.
Qed.

Lemma to_defined g : agg_good g ->
  exists t b, TransformToNonNegative V g = Ok (t, b) /\ agg_good t.
Proof.
  intros [[D H] Hs]. unfold TransformToNonNegative.
  destruct (TransformS_defined (to_nonneg V) (fun c => 0 <= c < cols) (a_var g) (a_rhs g, true))
    as (v' & s' & -> & D' & H'); auto.
  { intros c y s Hc. unfold to_nonneg. destruct (box_at c Hc) as [(lo & ->) (hi & ->)]. cbn [bind].
    destruct (aleb n0 lo); [eauto|]. destruct (is_inf V (nopp lo)); cbn [negb]; [|eauto].
    destruct (is_inf V hi); cbn [negb]; eauto. }
  cbn [bind fst snd]. eexists _, _. split; [reflexivity|]. split; cbn [a_var a_slack]; auto.
Qed.

Lemma back_defined g : agg_good g ->
  exists t b, TransformBack V g = Ok (t, b) /\ agg_good t.
Proof.
  intros [[D H] Hs]. unfold TransformBack.
  destruct (TransformS_defined (from_nonneg V) (fun c => 0 <= c < cols) (a_var g) (a_rhs g, true))
    as (v' & s' & -> & D' & H'); auto.
  { intros c y s Hc. unfold from_nonneg. destruct (box_at c Hc) as [(lo & ->) (hi & ->)]. cbn [bind].
    destruct (aleb n0 lo); [eauto|]. destruct (is_inf V (nopp lo)); cbn [negb]; [|eauto].
    destruct (is_inf V hi); cbn [negb]; eauto. }
  cbn [bind fst snd]. eexists _, _. split; [reflexivity|]. split; cbn [a_var a_slack]; auto.
Qed.

Lemma flag_at r : 0 <= r < rows -> exists b, HasIntegralSlack V r = Ok b.
Proof. intros H. apply at_range. lia. Qed.

Lemma round_defined k g : agg_good g ->
  exists o, round_with V k g = Ok o /\ (forall g1, o = Some g1 -> agg_good g1).
Proof.
  intros [[D H] [Ds Hs]]. destruct k; cbn [round_with].
  - unfold MIRRound. set (f0 := Fractionality V (a_rhs g)).
    match goal with |- context [TransformS ?f (a_var g) tt] =>
      destruct (TransformS_defined f (fun c => 0 <= c < cols) (a_var g) tt)
      as (v' & s' & -> & D' & H'); auto; [intros; eauto|] end.
    cbn [bind].
    match goal with |- context [TransformS ?f (a_slack g) tt] =>
      destruct (TransformS_defined f (fun c => 0 <= c < rows) (a_slack g) tt)
      as (v2 & s2 & -> & D2 & H2); auto end.
    { intros c y s Hc. destruct (flag_at c Hc) as (b & ->). cbn [bind]. eauto. }
    cbn [bind fst]. eexists. split; [reflexivity|]. intros g1 E. injection E as <-.
    split; cbn [a_var a_slack]; auto.
  - unfold CGRound.
    assert (S : exists b, cg_slacks_ok V (ents (a_slack g)) = Ok b).
    { clear - VS FL Hs. induction (ents (a_slack g)) as [|e r IH]; cbn [cg_slacks_ok]; eauto.
      inversion Hs; subst. destruct (flag_at (idx e)) as (b & ->); auto. cbn [bind].
      destruct (b && aleb n0 (val e)); eauto. }
    destruct S as (b & ->). cbn [bind]. destruct b; cbn [negb]; [|eexists; split; [reflexivity|discriminate]].
    destruct (cg_vars_ok V (ents (a_var g))); cbn [negb]; [|eexists; split; [reflexivity|discriminate]].
    set (f0 := Fractionality V (a_rhs g)). set (kk := asub (aceil (ndiv n1 f0)) n1).
    match goal with |- context [TransformS ?f (a_slack g) tt] =>
      destruct (TransformS_defined f (fun c => 0 <= c < rows) (a_slack g) tt)
      as (v2 & s2 & -> & D2 & H2); auto end.
    { intros c y s Hc. destruct (flag_at c Hc) as (b & ->). cbn [bind]. eauto. }
    cbn [bind].
    match goal with |- context [TransformS ?f (a_var g) tt] =>
      destruct (TransformS_defined f (fun c => 0 <= c < cols) (a_var g) tt)
      as (v' & s' & -> & D' & H'); auto; [intros; eauto|] end.
    cbn [bind fst]. eexists. split; [reflexivity|]. intros g1 E. injection E as <-.
    split; cbn [a_var a_slack]; auto.
Qed.

Lemma subst_defined g : agg_good g -> exists g', SubstituteSlack V g = Ok g'.
Proof.
  intros [[D H] [Ds Hs]]. unfold SubstituteSlack.
  assert (G : forall es g, Forall in_rows es -> dirty (a_var g) = false -> Forall in_cols (ents (a_var g)) ->
    exists g', foldM (subst_step V) g es = Ok g').
  { clear - VS. induction es as [|e r IH]; intros g Hes D H; cbn [foldM]; [eauto|].
    inversion Hes as [|? ? He Hr]; subst. unfold in_rows in He. unfold subst_step at 1.
    destruct (at_range (lp_rows V) (idx e)) as (a & Ea).
    { rewrite (vs_rows V _ _ VS). lia. }
    rewrite Ea. cbn [bind]. destruct (vs_row V _ _ VS _ _ Ea) as [Da Ia]. rewrite Da. cbn [bind].
    set (f := nmul (value (a_sign g) (idx e)) (val e)).
    assert (Df : dirty (Scale a f) = false) by (unfold Scale; destruct (is0 f); auto).
    assert (If : Forall in_cols (ents (Scale a f))).
    { unfold Scale. destruct (is0 f); cbn [ents]; [constructor|].
      apply Forall_map. exact Ia. }
    unfold MinusEq.
    destruct (AddMultiple_def (a_var g) nm1 (Scale a f) D Df) as (v & Ev);
      [apply in_cols_pos; exact H|apply in_cols_pos; exact If|].
    rewrite Ev. cbn [bind].
    destruct (AddMultiple_idx (fun i => 0 <= i < cols) _ _ _ _ Ev H If) as [K1 K2].
    apply IH; cbn [a_var]; auto. }
  destruct (G (ents (a_slack g)) g Hs D H) as (g' & ->). cbn [bind]. eauto.
Qed.

Lemma round_loop_defined ks g x : agg_good g -> forall n acc, settled (round_loop V ks g x n acc).
Proof.
  intros Hg. induction ks as [|k r IH]; intros n acc; cbn [round_loop]; [left; eauto|].
  destruct (round_defined k g Hg) as (o & -> & Ho). cbn [bind]. destruct o as [g1|]; [|apply IH].
  destruct (back_defined g1 (Ho g1 eq_refl)) as (t & b & -> & Ht). cbn [bind fst snd].
  destruct b; cbn [negb]; [|right; eauto].
  destruct (subst_defined t Ht) as (g2 & ->). cbn [bind].
  destruct (RemovesLPOptimum _ _ _); cbn [negb]; apply IH.
Qed.

Lemma tableau_defined ks sides x r acc : Z.of_nat (length sides) = rows -> 0 <= r < rows ->
  settled (tableau_row V ks sides x r acc).
Proof.
  intros Hs Hr. unfold tableau_row.
  destruct (at_range (basis V) r) as (c & ->); [rewrite (vs_basis V _ _ VS); lia|]. cbn [bind].
  destruct (c =? -1); [left; eauto|]. destruct (is_int V c); cbn [negb]; [|left; eauto].
  destruct (near V (value x c)); [left; eauto|].
  destruct (vs_binv_defined V _ _ VS r Hr) as [(b & Eb)|(cc & ->)]; [|right; cbn [bind]; eauto].
  rewrite Eb. cbn [bind]. destruct (vs_binv V _ _ VS r b Hr Eb) as [_ Hb].
  destruct (agg_defined sides (row_weights b) Hs) as (g & -> & Hg).
  { apply (row_weights_idx (fun i => 0 <= i < rows)). exact Hb. }
  cbn [bind]. destruct (to_defined g Hg) as (t & ok & -> & Ht). cbn [bind fst snd].
  destruct ok; cbn [negb]; [|left; eauto]. apply round_loop_defined. exact Ht.
Qed.

Lemma choose_sides_defined acts : forall r, 0 <= r -> r + Z.of_nat (length acts) <= rows ->
  exists sides, choose_sides V r acts = Ok sides /\ length sides = length acts.
Proof.
  induction acts as [|a l IH]; intros r H0 H1; cbn [choose_sides]; [eauto|].
  cbn [length] in H1.
  destruct (at_range (lp_rhs V) r) as (hi & ->); [rewrite (vs_rhs V _ _ VS); lia|]. cbn [bind].
  destruct (at_range (lp_lhs V) r) as (lo & ->); [rewrite (vs_lhs V _ _ VS); lia|]. cbn [bind].
  destruct (IH (r + 1)) as (sides & -> & E); [lia|lia|]. cbn [bind]. eexists. split; [reflexivity|].
  cbn [length]. congruence.
Qed.

Lemma gen_defined ks sides x limit : Z.of_nat (length sides) = rows -> forall n r acc,
  0 <= r -> r + Z.of_nat n <= rows -> settled (gen_loop V n ks sides x limit r acc).
Proof.
  intros Hs. induction n as [|n IH]; intros r acc H0 H1; cbn [gen_loop]; [left; eauto|].
  destruct (size_lt _ limit); cbn [negb]; [|left; eauto].
  destruct (tableau_defined ks sides x r acc Hs) as [(a & ->)|(c & ->)]; [lia| |]; cbn [bind].
  - apply IH; lia.
  - right; eauto.
Qed.

Theorem generate_defined ks limit : 0 <= limit -> settled (Generate V ks limit).
Proof.
  intros L. unfold Generate. destruct (is_solved V); cbn [negb]; [|right; eauto].
  destruct (is_optimal V); cbn [negb]; [|right; eauto].
  destruct (vs_acts V _ _ VS) as [(acts & -> & La)|(c & ->)]; cbn [bind]; [|right; eauto].
  destruct (choose_sides_defined acts 0) as (sides & -> & Ls); [lia|lia|]. cbn [bind].
  destruct (vs_primal V _ _ VS) as [(xs & ->)|(c & ->)]; cbn [bind]; [|right; eauto].
  destruct (Z.ltb_spec limit 0); [lia|]. apply gen_defined; [lia|lia|].
  rewrite (vs_rows V _ _ VS). lia.
Qed.
End Defined.
