(** Calling Solve() a second time. *)
From Coq Require Import List ZArith Bool Lia Permutation QArith.
From Verif Require Import Outcome OutcomeFacts Num Double DoubleFacts Rounding SparseVector Problem MipData ProblemSpec
  MipTree TreeSpec TreeFacts TreeProofs Branching Solver SolverSpec SolverProofs Simulate.
Import ListNotations.
Open Scope Z_scope.

Lemma root_no_leaf t x : ~ leaf t 0 -> forall t', SetLp t 0 x <> Ok t'.
Proof.
  intros NL t' H. apply NL. unfold SetLp in H. apply bind_ok in H as ([] & A & H). apply bind_ok in H as (c & C & H).
  apply bind_ok in H as (b & B & _). unfold check in B. destruct (Z.eqb_spec c 0) as [->|]; [|discriminate].
  split; [|exact C]. unfold active, node. rewrite A. cbn [bind].
  unfold check_active in A. apply bind_ok in A as (? & _ & A). apply bind_ok in A as (? & _ & A). apply bind_ok in A as (d & D & _).
  exists d. exact D.
Qed.

Lemma set_lp_aborts t x : active t 0 -> reachable t -> ~ leaf t 0 -> SetLp t 0 x = Abort.
Proof.
  intros [d A] R NL. destruct (well_formed t R 0 d A) as (_ & _ & _ & _ & lc & _ & Q & _).
  unfold SetLp. unfold node in A. apply bind_ok in A as ([] & A & B). rewrite A. cbn [bind].
  unfold num_open_children in Q. rewrite Q. cbn [bind]. destruct (Z.eqb_spec (Z.of_nat (length lc)) 0) as [Z|Z]; [|reflexivity].
  exfalso. apply NL. split; [|unfold num_open_children; rewrite Q, Z; reflexivity].
  exists d. unfold node. rewrite A. exact B.
Qed.

Lemma inactive_aborts t : reachable t -> ~ active t 0 -> check_active t 0 = Abort.
Proof.
  intros R NA. apply reachable_tinv in R.
  unfold check_active. cbn [Z.leb Z.compare check bind].
  destruct (Z.ltb_spec 0 (Z.of_nat (length (nodes t)))) as [L|L]; [|reflexivity]. cbn [check bind].
  destruct (at_range (nodes t) 0) as [d D]; [lia|]. rewrite D. cbn [bind].
  destruct (Z.leb_spec 0 (depth d)) as [P|P]; [|reflexivity]. exfalso. apply NA. exists d. apply node_iff. auto.
Qed.

Section Again.
Context {W : Type} (E : env W).

(** The second call returns OK only if the root has no children. *)
Lemma again_never fuel (s s' : solver_state W) : ~ leaf (mip_tree s) 0 -> SolveAgain E fuel s <> Ok s'.
Proof.
  intros NL H. unfold SolveAgain in H. destruct fuel; cbn [solve_loop queue] in H; [discriminate|].
  apply bind_ok in H as (v & R & _). apply round_cases in R.
  inversion R as [n q w t bj k seen H1 H2 H3 H4 H5 Hv|n q w t x bj seen H1 H2 H3 H4 H5 H6 H7 Hv
    |n q w t x bj seen H1 H2 H3 H4 H5 H6 H7 Hv|n q w t x j uf v0 t1 a t2 b q' seen H1 H2 H3 H4 H5 H6 H7 H8 H9 H10 H11 Hv];
    cbn in H1; injection H1 as <- _; cbn [mip_tree] in *; try congruence;
    exact (root_no_leaf _ _ NL _ H4).
Qed.

Section Ok.
Context (p : problem) (OK : env_ok E p).
Let nc := num_vars p.

(** A round that does not take the root leaves no root without children behind, nor does branching
    from the root. *)
Lemma round_root s s' : inv p s -> branch_ok E -> (~ In 0 (queue s) -> ~ leaf (mip_tree s) 0) ->
  solver_round E s = Ok (Continue s') -> ~ leaf (mip_tree s') 0.
Proof.
  intros I BO NL R. pose proof I as (T & ND & LF & RT). apply round_cases in R.
  assert (TK : forall n q, take (backjump s) (queue s) = Ok (n, q) -> leaf (mip_tree s) n /\ (n <> 0 -> ~ In 0 (queue s))).
  { intros n q H0. apply take_perm in H0. split; [apply LF; eapply Permutation_in; [apply Permutation_sym, H0|cbn; auto]|].
    intros N I0. specialize (RT I0). rewrite RT in H0. apply Permutation_length_1_inv in H0. injection H0 as H0 _. auto. }
  inversion R as [n q w t bj k seen H1 H2 H3 H4 H5 Hv|n q w t x bj seen H1 H2 H3 H4 H5 H6 H7 Hv
    | |n q w t x j uf v0 t1 a t2 b q' seen H1 H2 H3 H4 H5 H6 H7 H8 H9 H10 H11 Hv];
    subst s'; cbn [mip_tree]; destruct (TK _ _ H1) as (LN & N0); intros L.
  - apply (NL (N0 H4)). exact (proj1 (close_leaves p _ n t 0 T LN H4 H5 L)).
  - apply (NL (N0 H7)). exact (setlp_leaves p _ n _ t 0 T LN H4 L).
  - destruct (setlp_step nc _ n (objective_value E w) T LN) as (t' & C1 & C2 & C3 & C4). rewrite H4 in C1. injection C1 as C1. subst t'.
    destruct (BO w x H3 H5 H6 j uf H7) as (J & v1 & V1 & V2). rewrite H8 in V1. injection V1 as <-.
    destruct (add_step nc t n j v0 C2 (C3 n LN) (env_range E p OK j J) V2) as (t1' & a' & t2' & b' & A1 & A2 & A3 & A4 & A5 & A6 & A7 & A8 & A9 & A10).
    rewrite H9 in A1. injection A1 as A1 A1b. subst t1' a'. rewrite H10 in A2. injection A2 as A2 A2b. subst t2' b'.
    assert (R0 : active t 0) by (eapply root_active; [exact C2|apply C4, LN]).
    destruct (add_spec t n j true v0 t1 a (proj1 C2) H9) as (_ & _ & _ & _ & _ & R1 & _).
    destruct (add_leaves p t1 n j false v0 t2 b 0 R1 H10 L) as [Z|[L1 M1]]; [subst b; auto|].
    destruct (add_leaves p t n j true v0 t1 a 0 (proj1 C2) H9 L1) as [Z|[L2 M2]]; [subst a; auto|].
    apply (NL (N0 (not_eq_sym M1))). exact (setlp_leaves p _ n _ t 0 T LN H4 L2).
Qed.

Lemma loop_root fuel : forall s s', inv p s -> branch_ok E -> ~ In 0 (queue s) -> ~ leaf (mip_tree s) 0 ->
  solve_loop E fuel s = Ok s' -> tree_ok nc (mip_tree s') /\ ~ leaf (mip_tree s') 0.
Proof.
  induction fuel as [|f IH]; intros s s' I BO Q0 NL H; cbn [solve_loop] in H; destruct (queue s) as [|n q] eqn:Q; try discriminate.
  1,2: injection H as <-; split; [exact (proj1 I)|exact NL].
  rewrite <- Q in *. apply bind_ok in H as (v & R & H).
  pose proof (inv_round E p OK s v I BO (round_cases E s v R)) as I'.
  destruct v as [s1|s1].
  - apply (IH s1 s'); auto; [exact (round_no_root E p OK s s1 I BO R)|].
    exact (round_root s s1 I BO (fun _ => NL) R).
  - exfalso. apply round_cases in R. inversion R as [| |n' q' w t x bj seen H1 H2 H3 H4 H5 H6 H7 Hv|]. subst n'.
    apply take_perm in H1. apply Q0. eapply Permutation_in; [apply Permutation_sym, H1|left; reflexivity].
Qed.

(** What a first call leaves behind. *)
Lemma solve_leaves w0 fuel s : branch_ok E -> Solve E fuel w0 = Ok s ->
  (explored s = [0] /\ inv p (mkSS [0] true 0 (mip_tree s) (res s) (status s) (world s) [])) \/
  ((2 <= length (explored s))%nat /\ tree_ok nc (mip_tree s) /\ ~ leaf (mip_tree s) 0).
Proof.
  intros BO H. unfold Solve in H. destruct fuel; cbn [solve_loop queue solve_start] in H; [discriminate|].
  apply bind_ok in H as (v & R & H). pose proof (inv_start p w0) as I0.
  pose proof (inv_round E p OK _ v I0 BO (round_cases E _ v R)) as I'.
  destruct v as [s1|s1].
  - right. assert (Q0 : ~ In 0 (queue s1)) by exact (round_no_root E p OK _ s1 I0 BO R).
    assert (NL : ~ leaf (mip_tree s1) 0).
    { apply (round_root (solve_start w0) s1 I0 BO); [|exact R]. intros N. exfalso. apply N. left. reflexivity. }
    split; [|exact (loop_root fuel s1 s I' BO Q0 NL H)].
    pose proof (round_explored E p _ s1 R) as L1. cbn [solve_start explored length] in L1.
    assert (Q1 : queue s1 <> []).
    { apply round_cases in R. inversion R as [n q w t bj k seen H1 H2 H3 H4 H5 Hv|n q w t x bj seen H1 H2 H3 H4 H5 H6 H7 Hv
        | |n q w t x j uf v0 t1 a t2 b q' seen H1 H2 H3 H4 H5 H6 H7 H8 H9 H10 H11 Hv]; cbn in H1; injection H1 as <- <-; try congruence.
      cbn [queue]. intros ->. apply Permutation_nil in H11. discriminate. }
    assert (G : forall f a b, solve_loop E f a = Ok b -> (length (explored a) <= length (explored b))%nat /\
      (queue a <> [] -> (length (explored a) < length (explored b))%nat)).
    { clear -E p. induction f as [|f IH]; intros a b H; cbn [solve_loop] in H; destruct (queue a) eqn:Q; try discriminate;
        try (injection H as <-; cbn [finish explored]; split; [lia|congruence]).
      apply bind_ok in H as (v & R & H). destruct v as [c|c].
      - apply (round_explored E p) in R. apply IH in H as [H _]. split; [|intros _]; lia.
      - injection H as <-. cbn [finish explored]. unfold solver_round in R.
        apply bind_ok in R as ([n q] & T & R). apply bind_ok in R as (w & S & R). destruct (is_optimal E w); cbn [negb] in R.
        + apply bind_ok in R as (t & SL & R). apply bind_ok in R as (x & P & R).
          apply bind_ok in R as (i & I & R). destruct i.
          * destruct (n =? 0); [|discriminate]. injection R as <-. cbn [explored]. rewrite app_length. cbn [length]. split; [|intros _]; lia.
          * apply bind_ok in R as ([j uf] & B & R). apply bind_ok in R as (y & Y & R).
            apply bind_ok in R as ([t1 a1] & A1 & R). apply bind_ok in R as ([t2 b] & A2 & R). discriminate.
        + destruct (n =? 0); [discriminate|]. apply bind_ok in R as (t & C & R). destruct (_ <? _); discriminate. }
    apply G in H as [_ H]. specialize (H Q1). lia.
  - left. injection H as <-. cbn [finish explored mip_tree res status world].
    unfold solver_round in R. cbn [solve_start queue backjump take rev app bind mip_tree world res status infeasible_run explored] in R.
    apply bind_ok in R as (w & S & R). destruct (is_optimal E w); cbn [negb] in R; [|discriminate].
    apply bind_ok in R as (t & SL & R). apply bind_ok in R as (x & P & R). apply bind_ok in R as (i & IX & R). destruct i.
    + cbn [Z.eqb] in R. injection R as <-. cbn [explored mip_tree res status world app]. split; [reflexivity|].
      destruct I0 as (T & _ & LF & _). destruct (setlp_step nc tree_new 0 (objective_value E w) T (LF 0 (or_introl eq_refl))) as (t' & C1 & C2 & C3 & C4).
      rewrite SL in C1. injection C1 as <-. split; [exact C2|]. cbn [queue mip_tree]. split; [repeat constructor; auto|].
      split; [|intros _; reflexivity]. intros n Hn. apply C3. exact (LF n Hn).
    + apply bind_ok in R as ([j uf] & B & R). apply bind_ok in R as (y & Y & R).
      apply bind_ok in R as ([t1 a1] & A1 & R). apply bind_ok in R as ([t2 b] & A2 & R). discriminate.
Qed.

(** After a run that branched, the second call fails. *)
Lemma again_refused w0 fuel s : branch_ok E -> Solve E fuel w0 = Ok s -> explored s <> [0] ->
  forall fuel' s', SolveAgain E fuel' s <> Ok s'.
Proof.
  intros BO H X fuel' s'. destruct (solve_leaves w0 fuel s BO H) as [[X' _]|(_ & _ & NL)]; [congruence|].
  exact (again_never fuel' s s' NL).
Qed.
Lemma again_aborts w0 fuel s : branch_ok E -> lp_total E p -> Solve E fuel w0 = Ok s -> explored s <> [0] ->
  forall fuel', SolveAgain E (S fuel') s = Abort \/
    (SolveAgain E (S fuel') s = Err Internal /\
     exists w, solve_node E (mip_tree s) 0 (world s) = Ok w /\ is_optimal E w = false).
Proof.
  intros BO LT H X fuel'. destruct (solve_leaves w0 fuel s BO H) as [[X' _]|(_ & T & NL)]; [congruence|].
  unfold SolveAgain. cbn [solve_loop queue]. unfold solver_round.
  cbn [queue backjump take rev app bind mip_tree world].
  destruct (check_active (mip_tree s) 0) as [u| | | |] eqn:C.
  - assert (A : active (mip_tree s) 0).
    { unfold active, node. rewrite C. cbn [bind]. unfold check_active in C. apply bind_ok in C as (? & _ & C).
      apply bind_ok in C as (? & _ & C). apply bind_ok in C as (d & D & _). exists d. exact D. }
    destruct (solve_node_total E p OK (mip_tree s) 0 (world s) LT T A) as [w SW]. rewrite SW. cbn [bind].
    destruct (is_optimal E w) eqn:O; cbn [negb].
    + left. rewrite (set_lp_aborts _ _ A (proj1 T) NL). reflexivity.
    + right. cbn [Z.eqb bind]. split; [reflexivity|]. exists w. auto.
  - exfalso. assert (NA : ~ active (mip_tree s) 0) by (intros [d A]; unfold node in A; rewrite C in A; discriminate).
    rewrite (inactive_aborts _ (proj1 T) NA) in C. discriminate.
  - left. unfold solve_node, RetrieveLower. rewrite C. reflexivity.
  - exfalso. assert (NA : ~ active (mip_tree s) 0) by (intros [d A]; unfold node in A; rewrite C in A; discriminate).
    rewrite (inactive_aborts _ (proj1 T) NA) in C. discriminate.
  - exfalso. assert (NA : ~ active (mip_tree s) 0) by (intros [d A]; unfold node in A; rewrite C in A; discriminate).
    rewrite (inactive_aborts _ (proj1 T) NA) in C. discriminate.
Qed.
End Ok.

(** The best solution is only replaced by a better one. *)
Definition no_worse (r r' : result) : Prop := best r' = best r \/ dltb (s_obj (best r')) (s_obj (best r)) = true.
Lemma no_worse_trans a b c : no_worse a b -> no_worse b c -> no_worse a c.
Proof.
  intros [A|A] [B|B]; unfold no_worse.
  - left. congruence.
  - right. rewrite <- A. exact B.
  - right. rewrite B. exact A.
  - right. exact (dltb_trans _ _ _ B A).
Qed.
Lemma loop_no_worse fuel : forall s s', solve_loop E fuel s = Ok s' -> no_worse (res s) (res s').
Proof.
  assert (AW : forall r x, no_worse r (AddSolution r x)).
  { intros r x. unfold no_worse, AddSolution. destruct (dltb (s_obj x) (s_obj (best r))) eqn:D; cbn [best]; auto. }
  induction fuel as [|f IH]; intros s s' H; cbn [solve_loop] in H; destruct (queue s) eqn:Q; try discriminate.
  1,2: injection H as <-; left; reflexivity.
  apply bind_ok in H as (v & R & H). apply round_cases in R.
  destruct v as [s1|s1].
  - apply IH in H. apply (no_worse_trans _ (res s1)); [|exact H]. inversion R; cbn [res]; auto; left; reflexivity.
  - injection H as <-. inversion R; cbn [res finish]; auto.
Qed.
Lemma loop_valid (VO : forall w, dvalid (objective_value E w) = true) fuel : forall s s', solve_loop E fuel s = Ok s' ->
  dvalid (s_obj (best (res s))) = true -> dvalid (s_obj (best (res s'))) = true.
Proof.
  assert (AW : forall r x, dvalid (s_obj (best r)) = true -> dvalid (s_obj x) = true -> dvalid (s_obj (best (AddSolution r x))) = true).
  { intros r x A B. unfold AddSolution. destruct (dltb (s_obj x) (s_obj (best r))); exact B || exact A. }
  induction fuel as [|f IH]; intros s s' H V; cbn [solve_loop] in H; destruct (queue s) eqn:Q; try discriminate.
  1,2: injection H as <-; exact V.
  apply bind_ok in H as (v & R & H). apply round_cases in R.
  destruct v as [s1|s1].
  - apply IH in H; [exact H|]. inversion R; cbn [res]; auto. apply AW; [exact V|apply VO].
  - injection H as <-. inversion R; cbn [res finish]. apply AW; [exact V|apply VO].
Qed.
End Again.

Lemma again_after_root {W} (E : env W) p w0 bounds dir fuel s : env_ok E p -> max_fractional_env E dir ->
  lp_keeps_bounds E bounds -> lp_inside E p bounds -> bounded_integers p -> lp_total E p ->
  Solve E fuel w0 = Ok s -> explored s = [0] ->
  (exists fuel0, forall fuel', (fuel0 <= fuel')%nat ->
     (exists s', SolveAgain E fuel' s = Ok s') \/ SolveAgain E fuel' s = Err Internal) /\
  (forall fuel' s', SolveAgain E fuel' s = Ok s' ->
     best (res s') = best (res s) \/ dltb (s_obj (best (res s'))) (s_obj (best (res s))) = true).
Proof.
  intros OK MF LK LI BI LT H X. destruct (max_fractional_ok E p OK dir bounds MF LI) as (BO & BF & _).
  destruct (solve_leaves E p OK w0 fuel s BO H) as [[_ I]|[L _]]; [|rewrite X in L; cbn in L; lia].
  split.
  - eexists. intros fuel' F. apply (loop_fuel E p OK bounds BO LK LI BF BI); auto. cbn [mip_tree queue].
    instantiate (1 := S (Z.to_nat (weight E (mip_tree s) [0]))) in F. lia.
  - intros fuel' s' R. exact (loop_no_worse E fuel' _ s' R).
Qed.

Lemma again_bound {W} (E : env W) p w0 bounds rows fuel s fuel' s' : env_ok E p -> branch_ok E ->
  (forall w, dvalid (objective_value E w) = true) -> lp_sound E p w0 bounds rows ->
  Solve E fuel w0 = Ok s -> SolveAgain E fuel' s = Ok s' ->
  forall x, feasible p x -> q_above (s_obj (best (res s'))) (cost p x).
Proof.
  intros OK BO VO LS H H' x F. destruct (solve_optimum E p OK w0 bounds rows BO VO LS fuel s H x F) as [Q _].
  assert (V : dvalid (s_obj (best (res s))) = true) by (apply (loop_valid E VO fuel _ s H); reflexivity).
  assert (V' : dvalid (s_obj (best (res s'))) = true) by exact (loop_valid E VO fuel' _ s' H' V).
  pose proof (loop_no_worse E fuel' _ s' H') as N. cbn [res] in N. destruct N as [->|N]; [exact Q|].
  apply (q_above_mono _ (s_obj (best (res s)))); auto. apply dltb_leb. exact N.
Qed.

(** Used by the theorem on the whole solver. *)
Lemma again_refused_of {W1 W2} (E1 : env W1) (E2 : env W2) f p w fuel s : simulates E1 E2 f -> env_ok E2 p -> branch_ok E2 ->
  Solve E1 fuel (f w) = Ok s -> explored s <> [0] -> forall fuel' s', SolveAgain E1 fuel' s <> Ok s'.
Proof.
  intros SM OK BO H X fuel' s' A. rewrite (sim_Solve E1 E2 f SM) in H. apply omap_ok in H as (s2 & H & <-).
  unfold SolveAgain in A. cbn [smap mip_tree res status world] in A.
  assert (A2 : solve_loop E1 fuel' (smap f (mkSS [0] true 0 (mip_tree s2) (res s2) (status s2) (world s2) [])) = Ok s') by exact A.
  rewrite (sim_loop E1 E2 f SM) in A2. apply omap_ok in A2 as (s3 & A2 & _).
  exact (again_refused E2 p OK w fuel s2 BO H X fuel' s3 A2).
Qed.
