(** What a solve with SoPlex ran, and reading a file. *)
From Coq Require Import String List ZArith Bool Lia.
From Verif Require Import Outcome OutcomeFacts Num Double SparseVector VectorSpec MipData GlopLp LpParams GlopIface
  GlopSpec GlopCases SoplexIface SoplexSpec SoplexProofs SoplexMore SoplexCases.
Import ListNotations.
Open Scope Z_scope.

Section Runs.
Context {E : spx_engine}.
Implicit Type s : sstate E.
Local Notation R := (x_rules E).

Lemma spx_solve_run d s s' ok : sane_rules R -> reached s -> SpxSolveLp d s = Ok (s', ok) ->
  exists threw x, x_optimize E (s_x s) (s_params s') d (s_lp s) = (threw, x) /\
    s_x s' = x /\ s_lp s' = s_lp s /\ SpxIsSolved s' = true /\
    (ok = true <-> spx_success (x_status E x)) /\ SpxGetNumIterations s' = x_iterations E x /\
    (threw = true -> x_status E x <> ST_OPTIMAL).
Proof.
  intros Sane Re H. destruct (reached_settled s Sane Re) as [Sc S].
  destruct (solve_params _ _ _ _ _ Sc S H) as [Ep _]. destruct (Solve_lp _ _ _ _ H) as (El & _ & _ & _ & _ & Es).
  specialize (Es Sc). rewrite Ep, El. unfold SpxSolveLp, SoPlexSolve in H. apply bind_ok in H as (u & _ & H).
  cbn [s_scratch with_params invalidated with_algorithm] in H. rewrite Sc in H.
  apply bind_ok in H as (u2 & _ & H). apply bind_ok in H as ([s1 st] & H1 & H). injection H as <- <-.
  unfold LpSolve in H1. apply bind_ok in H1 as (u3 & _ & H1). apply bind_ok in H1 as (u4 & _ & H1).
  cbn [s_x s_params s_dual s_lp spx_with_x with_params invalidated with_algorithm] in H1.
  destruct (x_optimize _ _ _ _ _) as [threw x]. apply bind_ok in H1 as (u5 & T & H1).
  apply bind_ok in H1 as (u6 & _ & H1). apply bind_ok in H1 as (u7 & _ & H1). injection H1 as <- <-.
  exists threw, x. split; auto. split; [reflexivity|]. split; [reflexivity|]. split; [exact Es|]. split; [|split].
  - unfold spx_success. cbn [In]. destruct (x_status E x); split; intros K; try reflexivity; try discriminate K; auto 12;
      repeat (destruct K as [K|K]; [discriminate K|]); destruct K.
  - reflexivity.
  - intros ->. apply check_ok in T. intros O. unfold is_optimal_status in T. rewrite O in T. discriminate T.
Qed.

Lemma spx_reading s f : freed s = true ->
  exists s', sstep s (CRead f) = Ok (s', match f with Some _ => ROk | None => RErr end) /\
    SpxGetLpParameters s' = SpxGetLpParameters s /\ SpxIsSolved s' = SpxIsSolved s /\ freed s' = true /\
    (f = None -> s' = s) /\ (forall p, f = Some p -> s_lp s' = p).
Proof.
  intros F. cbn [sstep]. unfold SpxReadLpFromFile. rewrite F. cbn [check bind].
  destruct f as [p|]; eexists; (split; [reflexivity|]); cbn [fst spx_reply]; repeat split; auto; try discriminate.
  intros q [= <-]. reflexivity.
Qed.
Lemma spx_reading_aborts s f : freed s = false -> sstep s (CRead f) = Abort.
Proof. intros F. cbn [sstep]. unfold SpxReadLpFromFile. rewrite F. reflexivity. Qed.
End Runs.

(** optimize() throws, and leaves the status of a singular basis. *)
Definition tx_throws : spx_engine :=
  mkSpxEngine tx (x_new tx1) (x_edit tx1) (fun x q d p => (true, mkTX ST_SINGULAR d0 [] [])) (x_status tx1) (x_basis tx1)
    (x_iterations tx1) (x_time tx1) (x_objective tx1) (x_col tx1) (x_row tx1) (x_get_basis tx1) (x_set_basis tx1)
    (x_clear_basis tx1) (x_order tx1) (x_binv_row tx1) (x_binv_times tx1) (x_dot tx1) (x_primal tx1) (x_dual tx1)
    (x_slacks tx1) (x_redcost tx1) (x_ray tx1) (x_farkas tx1) (x_has_ray tx1) (x_has_farkas tx1) (x_basis_ind tx1)
    (x_eps_zero tx1) (x_rules tx1).
Lemma s_throw_ok : exists E (s s' : sstate E) d, sane_rules (x_rules E) /\ reached s /\
  fst (x_optimize E (s_x s) (s_params s') d (s_lp s)) = true /\ SpxSolveLp d s = Ok (s', true).
Proof.
  exists tx_throws, (safter build), (ssolved true (safter build)), true.
  split; [split; [|split]; calc|]. split.
  - exists spx_start, false, fresh, build, (sreplies (E := tx_throws) build). split.
    + unfold fresh. assert (H : is_ok (spx_new (E := tx_throws) spx_start false) = true) by calc.
      destruct (spx_new spx_start false); try discriminate H. auto.
    + apply sran. calc.
  - split; [reflexivity|]. unfold ssolved.
    assert (H : (match SpxSolveLp true (safter (E := tx_throws) build) with Ok (_, b) => b | _ => false end) = true) by calc.
    destruct (SpxSolveLp true (safter (E := tx_throws) build)) as [[s' b]| | | |]; try discriminate H. rewrite H. reflexivity.
Qed.
