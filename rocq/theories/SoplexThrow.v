(** Strong branching sessions when SoPlex throws. *)
From Coq Require Import String List ZArith Bool Lia.
From Verif Require Import Outcome OutcomeFacts Num Double SparseVector VectorSpec MipData GlopLp LpParams GlopIface
  GlopSpec SoplexIface SoplexSpec SoplexProofs SoplexMore SoplexBranch.
Import ListNotations.
Open Scope Z_scope.

Section Throw.
Context {E : spx_engine}.
Implicit Type s : sstate E.

Lemma spx_end_throws s rs cs : freed s = true -> x_get_basis E (s_x s) = Some (rs, cs) ->
  length rs = length (g_rows (s_lp s)) -> length cs = length (g_cols (s_lp s)) ->
  0 < ncols (s_lp s) + nrows (s_lp s) ->
  exists s1, SpxStartStrongBranching s = Ok s1 /\ s_x s1 = s_x s /\
  let threw := fst (x_set_basis E (s_x s) rs cs) in
  let x := snd (x_set_basis E (s_x s) rs cs) in
  (threw = true -> x_status E x = ST_OPTIMAL -> SpxEndStrongBranching s1 = Abort) /\
  (threw = false \/ x_status E x <> ST_OPTIMAL -> exists s2, SpxEndStrongBranching s1 = Ok s2 /\
     s_x s2 = x /\ s_lp s2 = s_lp s /\ freed s2 = true /\ SpxIsSolved s2 = SpxIsSolved s /\
     SpxGetLpParameters s2 = SpxGetLpParameters s).
Proof.
  intros F B L1 L2 Ne. unfold SpxStartStrongBranching. rewrite F. cbn [check bind].
  unfold SavePreStrongbranchingBasis. rewrite B, <- L1, <- L2, !fill_all.
  eexists. split; [reflexivity|]. split; [reflexivity|]. cbv zeta.
  set (s1 := with_saved s (map Some cs) (map Some rs)).
  assert (S1 : saved s1 rs cs) by (repeat split; auto).
  assert (F1 : freed s1 = false).
  { unfold freed. cbn. unfold ncols, nrows in Ne. destruct rs, cs; auto. cbn in *. lia. }
  unfold SpxEndStrongBranching, RestorePreStrongbranchingBasis, set_saved_basis. rewrite F1. cbn [negb check bind].
  destruct S1 as (A & B' & C & D). rewrite A, B', <- C, <- D, !saved_values_some. cbn [bind].
  change (s_x s1) with (s_x s). destruct (x_set_basis E (s_x s) rs cs) as [threw x]. cbn [fst snd bind].
  change (s_x (spx_with_x s1 x)) with x. unfold is_optimal_status. split.
  - intros -> ->. reflexivity.
  - intros H. eexists. split.
    + destruct threw; [|reflexivity]. destruct H as [H|H]; [discriminate H|].
      destruct (x_status E x); try reflexivity. congruence.
    + repeat split; reflexivity.
Qed.

(** Without a basis. *)
Lemma spx_start_none s : freed s = true -> x_get_basis E (s_x s) = None -> 0 < ncols (s_lp s) + nrows (s_lp s) ->
  (x_status E (s_x s) = ST_OPTIMAL -> SpxStartStrongBranching s = Abort) /\
  (x_status E (s_x s) <> ST_OPTIMAL -> exists s1, SpxStartStrongBranching s = Ok s1 /\ s_lp s1 = s_lp s /\
     s_x s1 = s_x s /\ SpxEndStrongBranching s1 = UB).
Proof.
  intros F B Ne. unfold SpxStartStrongBranching. rewrite F. cbn [check bind].
  unfold SavePreStrongbranchingBasis. rewrite B. unfold is_optimal_status. split.
  - intros ->. reflexivity.
  - intros H. exists (with_saved s (repeat None (length (g_cols (s_lp s)))) (repeat None (length (g_rows (s_lp s))))).
    split; [destruct (x_status E (s_x s)); try reflexivity; congruence|]. split; [reflexivity|]. split; [reflexivity|].
    unfold SpxEndStrongBranching, RestorePreStrongbranchingBasis, set_saved_basis, freed, ncols, nrows in *.
    cbn [s_cols s_rows s_lp with_saved].
    destruct (g_rows (s_lp s)) as [|r rs], (g_cols (s_lp s)) as [|c cs]; cbn [length repeat] in *; try reflexivity.
    lia.
Qed.
End Throw.
