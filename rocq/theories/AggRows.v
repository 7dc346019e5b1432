(** The rows of generated cuts are clean vectors over the columns of the LP (any arithmetic); the
    rows of the LP are clean if they are marked so. *)
From Coq Require Import String List ZArith QArith Bool Sorted Lia Permutation.
From Verif Require Import Outcome OutcomeFacts Num Double SparseVector SparseVectorFacts VectorSpec
  VectorProofs SolverSpec Aggregation AggSpec AggProofs AggDefined.
Import ListNotations.
Open Scope Z_scope.

Section Rows.
Context {A : Arith}.
Variable V : view A.
Variable cols : Z.
Definition neat (v : svec A) : Prop :=
  dirty v = false /\ canonical (ents v) /\ Forall (fun e => 0 <= idx e < cols) (ents v).
Hypothesis OK : num_ok A.
Hypothesis NR : forall r a, at_ (lp_rows V) r = Ok a -> dirty a = false -> neat a.
Implicit Types (e : entry A) (g : agg A).

Lemma neat_empty : neat vempty.
Proof. split; [reflexivity|]. split; [split; constructor|constructor]. Qed.
Lemma neat_AddMultiple v f w r : neat v -> dirty w = false -> sorted (ents w) ->
  Forall (fun e => 0 <= idx e < cols) (ents w) -> AddMultiple v f w = Ok r -> neat r.
Proof.
  intros (_ & [S _] & R) _ Sw Rw H.
  destruct (AddMultiple_ok OK v f w r) as (D & S' & N' & _); [intros _; exact S|intros _; exact Sw|exact H|].
  split; [exact D|]. split; [split; [exact S'|exact N']|].
  apply (AddMultiple_idx (fun i => 0 <= i < cols) v f w r H R Rw).
Qed.

Lemma AddMultiple_dirty (v : svec A) f w r : AddMultiple v f w = Ok r -> dirty w = false.
Proof. unfold AddMultiple. destruct (dirty v), (dirty w); intros H; try discriminate H; reflexivity. Qed.

Lemma agg_neat sides w g : AggregateByWeight V w sides = Ok g -> neat (a_var g).
Proof.
  unfold AggregateByWeight. intros H. apply bind_ok in H as (g1 & H & E). injection E as <-. cbn [a_var].
  assert (G : forall es g0 g1, neat (a_var g0) -> foldM (agg_step V sides) g0 es = Ok g1 -> neat (a_var g1)).
  { induction es as [|e r IH]; intros g0 g2 N F; cbn [foldM] in F; [injection F as <-; exact N|].
    apply bind_ok in F as (g3 & S & F). apply (IH g3 g2); [|exact F]. clear IH F.
    unfold agg_step in S. apply bind_ok in S as (b & _ & S). apply bind_ok in S as (sd & _ & S).
    apply bind_ok in S as (a & Ea & S). apply bind_ok in S as (v & Ev & S). injection S as <-. cbn [a_var].
    destruct (NR _ _ Ea (AddMultiple_dirty _ _ _ _ Ev)) as (D & [Sa _] & Ra). exact (neat_AddMultiple _ _ _ _ N D Sa Ra Ev). }
  refine (G _ _ _ _ H). exact neat_empty.
Qed.

Lemma map_state_idx {S} (f : Z -> A -> S -> outcome (A * S)) l : forall s l' s',
  map_state f l s = Ok (l', s') -> map idx l' = map idx l.
Proof.
  induction l as [|e r IH]; intros s l' s' H; cbn [map_state] in H; [injection H as <- _; reflexivity|].
  apply bind_ok in H as (x & _ & H). apply bind_ok in H as ([l1 s1] & H1 & H). injection H as <- _.
  cbn [map idx fst]. rewrite (IH _ _ _ H1). reflexivity.
Qed.
Lemma sorted_idx (l l' : list (entry A)) : map idx l' = map idx l -> sorted l -> sorted l'.
Proof.
  revert l'. induction l as [|e r IH]; intros [|e' r'] E S; try discriminate E; [constructor|].
  cbn [map] in E. injection E as E1 E2. inversion S as [|? ? S1 S2]; subst. constructor; [apply IH; auto|].
  apply Forall_forall. intros x Hx. apply (in_map idx) in Hx. rewrite E2 in Hx.
  apply in_map_iff in Hx as (y & Ey & Hy). rewrite Forall_forall in S2. specialize (S2 y Hy).
  unfold lt_e in *. rewrite E1, <- Ey. exact S2.
Qed.
Lemma TransformS_neat {S} (f : Z -> A -> S -> outcome (A * S)) v s q :
  neat v -> TransformS f v s = Ok q -> neat (fst q).
Proof.
  intros (D & [Sv _] & R) H. unfold TransformS in H. rewrite D in H.
  apply bind_ok in H as ([l' s'] & H & E). injection E as <-. apply map_state_idx in H. cbn [fst].
  split; [reflexivity|]. cbn [ents]. split; [split; [apply filter_sorted, (sorted_idx _ _ H Sv)|apply drop_zeros_nonzero]|].
  apply (drop_idx (fun i => 0 <= i < cols)). apply Forall_forall. intros e He. apply (in_map idx) in He.
  rewrite H in He. apply in_map_iff in He as (e' & <- & He). rewrite Forall_forall in R. auto.
Qed.
Lemma to_neat g q : neat (a_var g) -> TransformToNonNegative V g = Ok q -> neat (a_var (fst q)).
Proof.
  intros N H. unfold TransformToNonNegative in H. apply bind_ok in H as (x & H & E). injection E as <-.
  exact (TransformS_neat _ _ _ _ N H).
Qed.
Lemma back_neat g q : neat (a_var g) -> TransformBack V g = Ok q -> neat (a_var (fst q)).
Proof.
  intros N H. unfold TransformBack in H. apply bind_ok in H as (x & H & E). injection E as <-.
  exact (TransformS_neat _ _ _ _ N H).
Qed.
Lemma round_neat k g g1 : neat (a_var g) -> round_with V k g = Ok (Some g1) -> neat (a_var g1).
Proof.
  intros N H. destruct k; cbn [round_with] in H.
  - unfold MIRRound in H. apply bind_ok in H as (x & H & E). apply bind_ok in E as (y & _ & E). injection E as <-.
    exact (TransformS_neat _ _ _ _ N H).
  - unfold CGRound in H. apply bind_ok in H as (b & _ & H). destruct b; [|discriminate H]. cbn [negb] in H.
    destruct (cg_vars_ok V (ents (a_var g))); [|discriminate H]. cbn [negb] in H.
    apply bind_ok in H as (x & _ & H). apply bind_ok in H as (y & H & E). injection E as <-.
    exact (TransformS_neat _ _ _ _ N H).
Qed.
Lemma subst_neat g g' : neat (a_var g) -> SubstituteSlack V g = Ok g' -> neat (a_var g').
Proof.
  intros N H. unfold SubstituteSlack in H. apply bind_ok in H as (g1 & H & E). injection E as <-. cbn [a_var].
  revert N H. generalize (ents (a_slack g)). intros l. revert g.
  induction l as [|e r IH]; intros g N F; cbn [foldM] in F; [injection F as <-; exact N|].
  apply bind_ok in F as (g3 & S & F). apply (IH g3); [|exact F]. clear IH F.
  unfold subst_step in S. apply bind_ok in S as (a & Ea & S). apply bind_ok in S as (? & _ & S).
  apply bind_ok in S as (v & Ev & S). injection S as <-. cbn [a_var].
  unfold MinusEq in Ev. pose proof (AddMultiple_dirty _ _ _ _ Ev) as DS.
  destruct (NR _ _ Ea) as (D & [Sa _] & Ra); [unfold Scale in DS; destruct (is0 _) in DS; exact DS|].
  refine (neat_AddMultiple _ _ _ _ N _ _ _ Ev); unfold Scale; destruct (is0 _); cbn [dirty ents]; auto.
  - constructor.
  - apply map_sorted; auto.
  - apply Forall_map. exact Ra.
Qed.
Lemma round_loop_neat ks g x : neat (a_var g) -> forall n acc l, Forall (fun c => neat (c_row c)) acc ->
  round_loop V ks g x n acc = Ok l -> Forall (fun c => neat (c_row c)) l.
Proof.
  intros N. induction ks as [|k r IH]; intros n acc l F H; cbn [round_loop] in H; [injection H as <-; exact F|].
  apply bind_ok in H as (o & R & H). destruct o as [g1|]; [|exact (IH n acc l F H)].
  apply bind_ok in H as ([t b] & B & H). cbn [fst snd] in H. destruct b; [|discriminate H]. cbn [negb] in H.
  apply bind_ok in H as (g2 & S & H).
  destruct (RemovesLPOptimum _ _ _); cbn [negb] in H; [|exact (IH n acc l F H)].
  refine (IH _ _ l _ H). apply Forall_app. split; [exact F|]. constructor; [|constructor]. cbn [c_row].
  apply (subst_neat t); [|exact S]. apply (back_neat g1 (t, true)); [|exact B]. exact (round_neat k g g1 N R).
Qed.
Lemma tableau_neat ks sides x r acc l : Forall (fun c => neat (c_row c)) acc ->
  tableau_row V ks sides x r acc = Ok l -> Forall (fun c => neat (c_row c)) l.
Proof.
  intros F H. unfold tableau_row in H. apply bind_ok in H as (c & _ & H).
  destruct (c =? -1); [injection H as <-; exact F|]. destruct (is_int V c); cbn [negb] in H; [|injection H as <-; exact F].
  destruct (near V (value x c)); [injection H as <-; exact F|].
  apply bind_ok in H as (b & _ & H). apply bind_ok in H as (g & G & H). apply bind_ok in H as ([t ok] & T & H).
  cbn [fst snd] in H. destruct ok; cbn [negb] in H; [|injection H as <-; exact F].
  refine (round_loop_neat ks t x _ 0%nat acc l F H). apply (to_neat g (t, true)); [|exact T]. exact (agg_neat _ _ _ G).
Qed.
Lemma gen_neat ks sides x limit : forall n r acc l, Forall (fun c => neat (c_row c)) acc ->
  gen_loop V n ks sides x limit r acc = Ok l -> Forall (fun c => neat (c_row c)) l.
Proof.
  induction n as [|n IH]; intros r acc l F H; cbn [gen_loop] in H; [injection H as <-; exact F|].
  destruct (size_lt _ limit); cbn [negb] in H; [|injection H as <-; exact F].
  apply bind_ok in H as (acc' & T & H). exact (IH _ _ _ (tableau_neat _ _ _ _ _ _ F T) H).
Qed.
Theorem generate_neat ks limit l : Generate V ks limit = Ok l -> Forall (fun c => neat (c_row c)) l.
Proof.
  unfold Generate. intros H. destruct (is_solved V); [|discriminate H]. destruct (is_optimal V); [|discriminate H].
  cbn [negb] in H. apply bind_ok in H as (acts & _ & H). apply bind_ok in H as (sides & _ & H).
  apply bind_ok in H as (xs & _ & H). destruct (limit <? 0); [discriminate H|].
  exact (gen_neat _ _ _ _ _ _ _ _ (Forall_nil _) H).
Qed.
End Rows.
