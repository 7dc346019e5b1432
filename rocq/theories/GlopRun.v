(** Proofs about limits, stability, empty branches and the engine calls of a solve of the Glop
    interface. *)
From Coq Require Import String List ZArith Lia Bool ZifyBool SpecFloat.
From Verif Require Import Outcome OutcomeFacts Num Double SparseVector GlopLp LpParams GlopIface GlopSpec GlopProofs GlopMore.
Import ListNotations.
Open Scope Z_scope.

Section Run.
Context {E : engine} (LW : engine_laws E).
Implicit Type s : gstate E.

(** ** Empty branches *)
Lemma add_iterations_keeps r n r' : add_iterations r n = Ok r' ->
  dual_bound_down r' = dual_bound_down r /\ dual_bound_up r' = dual_bound_up r /\
  down_valid r' = down_valid r /\ up_valid r' = up_valid r.
Proof. unfold add_iterations. destruct (sb_iterations r); [|discriminate]. intros H. injection H as <-. auto. Qed.

Lemma empty_branches r0 s c x s' r g : SolveDownAndUpStrongBranch r0 s c x = Ok (s', r) ->
  at_ (g_cols (scaled_lp s)) c = Ok g ->
  let y := dmul x (sc_factor E (scaler s) c) in
  let eps := feasibility_tolerance (GetLpParameters s) in
  let cutoff := if g_max (lp s) then objective_lower_limit (GetLpParameters s)
                else objective_upper_limit (GetLpParameters s) in
  (dleb (dsub (g_lb g) half) (dceil (dsub (dsub y d1) eps)) = false ->
     dual_bound_down r = Some cutoff) /\
  (dleb (dfloor (dadd (dadd y d1) eps)) (dadd (g_ub g) half) = false ->
     up_valid r = Some true /\ dual_bound_up r = Some cutoff).
Proof.
  intros H Eg. unfold SolveDownAndUpStrongBranch in H. rewrite Eg in H. cbn [bind] in H.
  set (params := with_dual (w_params E (solver s)) true) in H.
  change (feasibility_tolerance (GetLpParameters s)) with (primal_feasibility_tolerance params).
  change (objective_lower_limit (GetLpParameters s)) with (g_objective_lower_limit params).
  change (objective_upper_limit (GetLpParameters s)) with (g_objective_upper_limit params).
  cbn zeta in H |- *.
  set (y := dmul x (sc_factor E (scaler s) c)) in *.
  set (eps := primal_feasibility_tolerance params) in *.
  set (down := dceil (dsub (dsub y d1) eps)) in *.
  set (up := dfloor (dadd (dadd y d1) eps)) in *.
  set (cutoff := if g_max (lp s) then _ else _) in *. clearbody cutoff.
  apply bind_ok in H as ([[[p1 w1] t1] r1] & H1 & H).
  apply bind_ok in H as ([[[p2 w2] t2] r2] & H2 & H).
  apply bind_ok in H as (p3 & H3 & H). injection H as _ <-.
  assert (K : dual_bound_down r2 = dual_bound_down r1).
  { destruct (dleb up (dadd (g_ub g) half)).
    - apply bind_ok in H2 as (q & _ & H2). destruct (w_solve E w1 t1 q) as [[ok tt] ww]. destruct ok.
      + apply bind_ok in H2 as (r' & Hr & H2). injection H2 as _ _ _ <-.
        apply add_iterations_keeps in Hr as (A & _). auto.
      + injection H2 as _ _ _ <-. auto.
    - injection H2 as _ _ _ <-. auto. }
  split; intros B.
  - rewrite K. rewrite B in H1. injection H1 as _ _ _ <-. auto.
  - rewrite B in H2. injection H2 as _ _ _ <-. auto.
Qed.

(** ** Iterations of the two branches *)
Lemma failed_branches r0 s c x g : at_ (g_cols (scaled_lp s)) c = Ok g ->
  (forall w t p, fst (fst (w_solve E w t p)) = false) ->
  let y := dmul x (sc_factor E (scaler s) c) in
  let eps := feasibility_tolerance (GetLpParameters s) in
  exists s' r, SolveDownAndUpStrongBranch r0 s c x = Ok (s', r) /\ sb_iterations r = sb_iterations r0 /\
  (dleb (dsub (g_lb g) half) (dceil (dsub (dsub y d1) eps)) = true ->
     dual_bound_down r = Some d0 /\ down_valid r = Some false) /\
  (dleb (dfloor (dadd (dadd y d1) eps)) (dadd (g_ub g) half) = true ->
     dual_bound_up r = Some d0 /\ down_valid r = Some false /\ up_valid r = up_valid r0).
Proof.
  intros Eg OK y eps. unfold SolveDownAndUpStrongBranch. rewrite Eg. cbn [bind].
  set (params := with_dual (w_params E (solver s)) true).
  change (primal_feasibility_tolerance params) with eps. fold y.
  assert (Rc : 0 <= c < Z.of_nat (length (g_cols (scaled_lp s)))) by (eapply at_in_range; eauto).
  assert (SB : forall a b, exists q, SetVariableBounds (scaled_lp s) c a b = Ok q).
  { intros a b. unfold SetVariableBounds, on_col. rewrite change_ok by auto. cbn [bind]. eauto. }
  assert (SB2 : forall q a b a' b', SetVariableBounds (scaled_lp s) c a b = Ok q ->
     SetVariableBounds q c a' b' = SetVariableBounds (scaled_lp s) c a' b')
    by (intros q a b a' b' Eq; apply (bounds_again _ _ _ _ _ a' b' Eq)).
  cbn zeta. set (cutoff := if g_max (lp s) then _ else _). clearbody cutoff.
  set (down := dceil (dsub (dsub y d1) eps)). set (up := dfloor (dadd (dadd y d1) eps)).
  assert (UP : forall p w t r, (forall a b, SetVariableBounds p c a b = SetVariableBounds (scaled_lp s) c a b) ->
    exists p' w' t' r', (if dleb up (dadd (g_ub g) half)
     then do p <- SetVariableBounds p c up (g_ub g) ;
          let '(ok, t, w) := w_solve E w t p in
          if (ok : bool)
          then do r <- add_iterations r (w_iterations E w) ;
               Ok (p, w, t, mkSB (dual_bound_down r) (Some (w_objective E w)) (down_valid r)
                              (Some (IsDualBoundValid (w_status E w))) (sb_iterations r))
          else Ok (p, w, t, mkSB (dual_bound_down r) (Some d0) (Some false) (up_valid r) (sb_iterations r))
     else Ok (p, w, t, mkSB (dual_bound_down r) (Some cutoff) (down_valid r) (Some true) (sb_iterations r))) = Ok (p', w', t', r') /\
    (exists q, SetVariableBounds p' c (g_lb g) (g_ub g) = Ok q) /\
    sb_iterations r' = sb_iterations r /\ dual_bound_down r' = dual_bound_down r /\
    (down_valid r = Some false -> down_valid r' = Some false) /\
    (dleb up (dadd (g_ub g) half) = true -> dual_bound_up r' = Some d0 /\ down_valid r' = Some false /\ up_valid r' = up_valid r)).
  { intros p w t r SV. destruct (dleb up (dadd (g_ub g) half)).
    - rewrite SV. destruct (SB up (g_ub g)) as [q Eq]. rewrite Eq. cbn [bind].
      pose proof (OK w t q) as K. destruct (w_solve E w t q) as [[ok tt] ww]. cbn in K. subst ok.
      do 4 eexists. split; [reflexivity|]. split; [rewrite (SB2 q _ _ _ _ Eq); apply SB|].
      split; [reflexivity|]. split; [reflexivity|]. split; [auto|]. intros _. split; [reflexivity|]. split; reflexivity.
    - do 4 eexists. split; [reflexivity|]. split; [rewrite SV; apply SB|].
      split; [reflexivity|]. split; [reflexivity|]. split; [auto|]. discriminate. }
  destruct (dleb (dsub (g_lb g) half) down).
  - destruct (SB (g_lb g) down) as [q Eq]. rewrite Eq. cbn [bind].
    match goal with |- context [w_solve E ?w ?t q] => pose proof (OK w t q) as K; destruct (w_solve E w t q) as [[ok tt] ww] end.
    cbn in K. subst ok. cbn [bind].

    destruct (UP q ww tt (mkSB (Some d0) (dual_bound_up r0) (Some false) (up_valid r0) (sb_iterations r0))) as (p' & w' & t' & r' & U1 & (q' & U2) & U3 & U4 & U5 & U6);
      [intros a b; apply (SB2 q _ _ _ _ Eq)|].
    cbn [bind] in U1 |- *. rewrite U1. cbn [bind]. rewrite U2. cbn [bind]. do 2 eexists. split; [reflexivity|].
    split; [exact U3|]. split; [intros _; split; [exact U4|apply U5; reflexivity]|]. intros B. destruct (U6 B) as (X1 & X2 & X3). auto.
  - cbn [bind].
    match goal with |- context [w_set_params E ?a ?b] => set (w0 := w_set_params E a b) end.
    match goal with |- context [tl_new E ?a] => set (t0 := tl_new E a) end.
    destruct (UP (scaled_lp s) w0 t0 (mkSB (Some cutoff) (dual_bound_up r0) (Some true) (up_valid r0) (sb_iterations r0))) as (p' & w' & t' & r' & U1 & (q' & U2) & U3 & U4 & U5 & U6);
      [reflexivity|].
    rewrite U1. cbn [bind]. rewrite U2. cbn [bind]. do 2 eexists. split; [reflexivity|].
    split; [exact U3|]. split; [discriminate|]. intros B. destruct (U6 B) as (X1 & X2 & X3). auto.
Qed.

Lemma branch_iterations r0 s c x s' r g k : SolveDownAndUpStrongBranch r0 s c x = Ok (s', r) ->
  at_ (g_cols (scaled_lp s)) c = Ok g -> sb_iterations r0 = Some k ->
  let y := dmul x (sc_factor E (scaler s) c) in
  let eps := feasibility_tolerance (GetLpParameters s) in
  let down := dceil (dsub (dsub y d1) eps) in
  let up := dfloor (dadd (dadd y d1) eps) in
  exists n1 n2, sb_iterations r = Some (k + n1 + n2) /\
  (if dleb (dsub (g_lb g) half) down
   then exists q, rebounded (scaled_lp s) c (g_lb g) down q /\ counted E q n1 else n1 = 0) /\
  (if dleb up (dadd (g_ub g) half)
   then exists q, rebounded (scaled_lp s) c up (g_ub g) q /\ counted E q n2 else n2 = 0).
Proof.
  intros H Eg K. unfold SolveDownAndUpStrongBranch in H. rewrite Eg in H. cbn [bind] in H.
  set (params := with_dual (w_params E (solver s)) true) in H.
  change (feasibility_tolerance (GetLpParameters s)) with (primal_feasibility_tolerance params).
  cbn zeta in H |- *.
  set (y := dmul x (sc_factor E (scaler s) c)) in *.
  set (eps := primal_feasibility_tolerance params) in *.
  set (down := dceil (dsub (dsub y d1) eps)) in *.
  set (up := dfloor (dadd (dadd y d1) eps)) in *.
  set (cutoff := if g_max (lp s) then _ else _) in *. clearbody cutoff.
  apply bind_ok in H as ([[[p1 w1] t1] r1] & H1 & H).
  apply bind_ok in H as ([[[p2 w2] t2] r2] & H2 & H).
  apply bind_ok in H as (p3 & H3 & H). injection H as _ <-.
  assert (D : exists n1, sb_iterations r1 = Some (k + n1) /\
    (forall a b, SetVariableBounds p1 c a b = SetVariableBounds (scaled_lp s) c a b) /\
    if dleb (dsub (g_lb g) half) down
    then exists q, rebounded (scaled_lp s) c (g_lb g) down q /\ counted E q n1 else n1 = 0).
  { destruct (dleb (dsub (g_lb g) half) down).
    - apply bind_ok in H1 as (q & Eq & H1).
      assert (RB : rebounded (scaled_lp s) c (g_lb g) down q) by (apply (bounds_again _ _ _ _ _ d0 d0 Eq)).
      assert (SV : forall a b, SetVariableBounds q c a b = SetVariableBounds (scaled_lp s) c a b)
        by (intros a b; apply (bounds_again _ _ _ _ _ a b Eq)).
      destruct (w_solve E _ _ q) as [[ok tt] ww] eqn:Es. destruct ok.
      + apply bind_ok in H1 as (r' & Hr & H1). injection H1 as <- _ _ <-.
        unfold add_iterations in Hr. rewrite K in Hr. injection Hr as <-. exists (w_iterations E ww).
        split; [reflexivity|]. split; auto. exists q. split; auto. do 5 eexists. split; [exact Es|reflexivity].
      + injection H1 as <- _ _ <-. exists 0. cbn [sb_iterations]. rewrite Z.add_0_r. split; [exact K|]. split; auto.
        exists q. split; auto. do 5 eexists. split; [exact Es|reflexivity].
    - injection H1 as <- _ _ <-. exists 0. cbn [sb_iterations]. rewrite Z.add_0_r. auto. }
  destruct D as (n1 & D1 & SV & D2). clear H1 H3.
  destruct (dleb up (dadd (g_ub g) half)).
  - apply bind_ok in H2 as (q & Eq & H2). rewrite SV in Eq.
    assert (RB : rebounded (scaled_lp s) c up (g_ub g) q) by (apply (bounds_again _ _ _ _ _ d0 d0 Eq)).
    destruct (w_solve E w1 t1 q) as [[ok tt] ww] eqn:Es. destruct ok.
    + apply bind_ok in H2 as (r' & Hr & H2). injection H2 as _ _ _ <-.
      unfold add_iterations in Hr. rewrite D1 in Hr. injection Hr as <-. exists n1, (w_iterations E ww).
      split; [reflexivity|]. split; auto. exists q. split; auto. do 5 eexists. split; [exact Es|reflexivity].
    + injection H2 as _ _ _ <-. exists n1, 0. cbn [sb_iterations]. rewrite Z.add_0_r. split; [exact D1|]. split; auto.
      exists q. split; auto. do 5 eexists. split; [exact Es|reflexivity].
  - injection H2 as _ _ _ <-. exists n1, 0. cbn [sb_iterations]. rewrite Z.add_0_r. auto.
Qed.

(** ** The iteration limit *)
Definition limit_ok s : Prop :=
  let m := max_number_of_iterations (w_params E (solver s)) in m = -1 \/ 0 < m.

Lemma SolveInternal_limit fuel : forall rec s t s' ok, SolveInternal fuel rec s t = Ok (s', ok) ->
  max_number_of_iterations (w_params E (solver s')) = max_number_of_iterations (w_params E (solver s)).
Proof.
  induction fuel as [|fuel IH]; intros rec s t s' ok H; [discriminate|].
  cbn [SolveInternal] in H.
  set (s1 := if modified s then _ else s) in H.
  assert (L1 : solver s1 = solver s).
  { subst s1. destruct (modified s); auto. destruct (use_scaling _); auto.
    destruct (sc_scale E (lp_slacks E (lp s))); auto. }
  set (s2 := if rec then s1 else _) in H.
  assert (L2 : solver s2 = solver s) by (subst s2; destruct rec; auto).
  clearbody s1. clear L1. clearbody s2. clear s1.
  set (s3 := if scratch s2 then _ else s2) in H.
  assert (L3 : w_params E (solver s3) = w_params E (solver s)).
  { subst s3. destruct (scratch s2); [|congruence]. cbn. rewrite (el_clear E LW). congruence. }
  clearbody s3. clear L2 s2.
  pose proof (el_solve E LW (solver s3) t (scaled_lp s3)) as PS.
  destruct (w_solve E (solver s3) t (scaled_lp s3)) as [[ok1 t1] w1]. cbn in PS.
  destruct ok1; cbn [negb] in H; [|injection H as <- <-; cbn; congruence].
  destruct (_ && _ && _) in H.
  - apply bind_ok in H as ([s4 ok4] & E4 & H). apply IH in E4. cbn in E4. rewrite (el_set E LW) in E4. cbn in E4.
    destruct ok4; cbn in H; injection H as <- <-; cbn; rewrite ?(el_set E LW); cbn; congruence.
  - injection H as <- <-. cbn. congruence.
Qed.
Lemma SolveLp_limit d s s' ok : SolveLp d s = Ok (s', ok) -> limit_ok s -> limit_ok s'.
Proof.
  unfold SolveLp, limit_ok. cbv zeta. generalize 2%nat. intros n H. apply SolveInternal_limit in H. rewrite H.
  cbn. rewrite (el_set E LW). cbn. auto.
Qed.
Lemma SetLpParameters_limit s p : limit_ok s -> limit_ok (fst (SetLpParameters s p)).
Proof.
  unfold limit_ok, SetLpParameters. destruct (negb _) eqn:S; auto. intros _. cbn. rewrite (el_set E LW). cbn.
  apply negb_false_iff in S. apply supported_iff in S. destruct S as (_ & _ & _ & _ & _ & _ & S & _).
  destruct (Z.eqb_spec (iteration_limit p) 0); lia.
Qed.
Lemma new_limit b : limit_ok (glop_new b).
Proof. unfold limit_ok, glop_new, SetLpParameters. cbn. rewrite (el_set E LW). cbn. auto. Qed.

Lemma edited_solver s z s' y : edited s z = Ok (s', y) -> solver s' = solver s.
Proof. unfold edited. intros H. apply bind_ok in H as (p & _ & H). injection H as <- _. auto. Qed.
Lemma DeleteRows_params s mask s' : DeleteRowsAndUpdateCurrentBasis s mask = Ok s' ->
  w_params E (solver s') = w_params E (solver s).
Proof.
  unfold DeleteRowsAndUpdateCurrentBasis. cbv zeta. intros H. apply bind_ok in H as (s1 & H1 & H).
  apply bind_ok in H as (p & _ & H). injection H as <-. cbn.
  destruct (_ =? _) in H1.
  - apply bind_ok in H1 as (y & _ & H1). injection H1 as <-. cbn. apply (el_load E LW).
  - injection H1 as <-. auto.
Qed.
Lemma branch_params r0 s c x s' r : SolveDownAndUpStrongBranch r0 s c x = Ok (s', r) ->
  w_params E (solver s') = with_dual (w_params E (solver s)) true.
Proof.
  intros H. unfold SolveDownAndUpStrongBranch in H. apply bind_ok in H as (g & Eg & H).
  set (params := with_dual (w_params E (solver s)) true) in H |- *.
  set (w0 := w_set_params E (solver s) params) in H.
  assert (P0 : w_params E w0 = params) by apply (el_set E LW).
  cbn zeta in H.
  apply bind_ok in H as ([[[p1 w1] t1] r1] & H1 & H).
  apply bind_ok in H as ([[[p2 w2] t2] r2] & H2 & H).
  apply bind_ok in H as (p3 & H3 & H). injection H as <- _. cbn [solver].
  assert (P1 : w_params E w1 = params).
  { destruct (dleb _ _) in H1; [|injection H1 as _ <- _ _; auto].
    apply bind_ok in H1 as (q & _ & H1). pose proof (el_solve E LW w0 (tl_new E params) q) as PS.
    destruct (w_solve E w0 (tl_new E params) q) as [[ok tt] ww]. cbn in PS. destruct ok.
    - apply bind_ok in H1 as (r' & _ & H1). injection H1 as _ <- _ _. congruence.
    - injection H1 as _ <- _ _. congruence. }
  destruct (dleb _ _) in H2; [|injection H2 as _ <- _ _; auto].
  apply bind_ok in H2 as (q & _ & H2). pose proof (el_solve E LW w1 t1 q) as PS.
  destruct (w_solve E w1 t1 q) as [[ok tt] ww]. cbn in PS. destruct ok.
  - apply bind_ok in H2 as (r' & _ & H2). injection H2 as _ <- _ _. congruence.
  - injection H2 as _ <- _ _. congruence.
Qed.
Lemma step_limit s c s' x : gstep s c = Ok (s', x) -> limit_ok s -> limit_ok s'.
Proof.
  intros H F.
  assert (SAME : w_params E (solver s') = w_params E (solver s) -> limit_ok s').
  { unfold limit_ok. intros ->. exact F. }
  assert (ED : forall z, edited s z = Ok (s', x) -> limit_ok s').
  { intros z Hz. apply SAME. f_equal. eapply edited_solver; eauto. }
  destruct c; cbn [gstep] in H; try (apply ED in H; auto; fail);
    try (injection H as <- _; auto; fail).
  - destruct vs; [injection H as <- _; auto|apply ED in H; auto].
  - destruct vs; [injection H as <- _; auto|apply ED in H; auto].
  - apply bind_ok in H as (mask & _ & H). apply bind_ok in H as (s1 & H1 & H). injection H as <- _.
    apply SAME. eapply DeleteRows_params; eauto.
  - apply bind_ok in H as (m & _ & H). apply bind_ok in H as (s1 & H1 & H). injection H as <- _.
    apply SAME. eapply DeleteRows_params; eauto.
  - injection H as <- _. apply SAME. cbn. apply (el_clear E LW).
  - apply bind_ok in H as ([s1 ok] & H1 & H). injection H as <- _. cbn [fst]. eapply SolveLp_limit; eauto.
  - apply bind_ok in H as ([s1 r] & H1 & H). injection H as <- _.
    apply branch_params in H1. unfold limit_ok in *. rewrite H1. exact F.
  - apply bind_ok in H as (s1 & H1 & H). injection H as <- _.
    unfold SetBasisStatusForColumnsAndRows in H1. apply bind_ok in H1 as (a & _ & H1).
    apply bind_ok in H1 as (b & _ & H1). injection H1 as <-. apply SAME. cbn. apply (el_load E LW).
  - injection H as <- _. cbn [status fst]. apply SetLpParameters_limit. auto.
  - destruct f; injection H as <- _; auto.
  - unfold WriteLpToFile in H; destruct written; injection H as <- _; auto.
Qed.
Lemma run_limit l : forall s s' xs, grun s l = Ok (s', xs) -> limit_ok s -> limit_ok s'.
Proof.
  induction l as [|c l IH]; intros s s' xs H F; cbn [grun] in H.
  - injection H as <- _. auto.
  - apply bind_ok in H as ([s1 x] & H1 & H). apply bind_ok in H as ([s2 xs2] & H2 & H). injection H as <- _.
    eapply IH; eauto. eapply step_limit; eauto.
Qed.

Lemma iteration_limit_exceeded b l s xs : grun (glop_new b) l = Ok (s, xs) ->
  IterationLimitIsExceeded s = true <-> 0 < iteration_limit (GetLpParameters s) <= GetNumIterations s.
Proof.
  intros H. apply run_limit in H; [|apply new_limit]. unfold limit_ok in H. cbn zeta in H.
  unfold IterationLimitIsExceeded, GetNumIterations, GetLpParameters, from_glop. cbv zeta. cbn [iteration_limit].
  set (m := max_number_of_iterations _) in *. clearbody m.
  destruct (Z.eqb_spec m (-1)); cbn [negb andb]; split; intros X; try discriminate; try lia.
Qed.

Lemma stability s :
  (IsOptimal s = true -> IsStable s = true) /\
  (IsPrimalFeasible s = true \/ IsDualFeasible s = true -> IsOptimal s = false ->
     IsStable s = ObjectiveLimitIsExceeded s || IterationLimitIsExceeded s || TimeLimitIsExceeded s) /\
  (IsPrimalInfeasible s = true \/ IsDualInfeasible s = true -> IsStable s = true).
Proof.
  unfold IsStable, IsOptimal, IsPrimalFeasible, IsDualFeasible, IsPrimalInfeasible, IsDualInfeasible, is_status.
  destruct (ObjectiveLimitIsExceeded s), (IterationLimitIsExceeded s), (TimeLimitIsExceeded s);
  destruct (w_status E (solver s)); cbn; intuition (auto; discriminate).
Qed.

Lemma reading s f : exists s', gstep s (CRead f) = Ok (s', match f with Some _ => ROk | None => RErr end) /\
  GetLpParameters s' = GetLpParameters s /\ IsSolved s' = IsSolved s /\
  GetNumIterations s' = GetNumIterations s /\ TimeLimitIsExceeded s' = TimeLimitIsExceeded s /\
  (f = None -> s' = s) /\ (forall p t, f = Some p -> reads_table p t -> reads_table (lp s') t).
Proof.
  destruct f as [p|].
  - eexists. split; [reflexivity|]. cbn. do 4 (split; [reflexivity|]). split; [discriminate|].
    intros p' t X. injection X as <-. auto.
  - exists s. do 5 (split; [reflexivity|]). split; [auto|discriminate].
Qed.

(** ** The engine calls of a solve *)
Lemma SolveInternal_engine n rec s t s' : SolveInternal (S n) rec s t = Ok (s', true) ->
  exists w q t1 w1, w_solve E w t q = (true, t1, w1) /\ w_params E w = w_params E (solver s) /\
  w_params E w1 = w_params E (solver s) /\
  (solver s' = w1 /\ iterations s' = (if rec then iterations s else 0) + w_iterations E w1 /\
     time_reached s' = tl_reached E t1 \/
   use_scaling (w_params E (solver s)) = true /\
   exists s5 s4, solver s5 = w_set_params E w1 (with_scaling (w_params E w1) false) /\
     iterations s5 = (if rec then iterations s else 0) + w_iterations E w1 /\
     SolveInternal n true s5 t1 = Ok (s4, true) /\
     solver s' = w_set_params E (solver s4) (with_scaling (w_params E w1) true) /\
     iterations s' = iterations s4 /\ time_reached s' = time_reached s4).
Proof.
  intros H. cbn [SolveInternal] in H.
  set (s1 := if modified s then _ else s) in H.
  assert (L1 : solver s1 = solver s /\ iterations s1 = iterations s).
  { subst s1. destruct (modified s); auto. destruct (use_scaling _); auto.
    destruct (sc_scale E (lp_slacks E (lp s))); auto. }
  set (s2 := if rec then s1 else _) in H.
  assert (L2 : solver s2 = solver s /\ iterations s2 = if rec then iterations s else 0)
    by (subst s2; destruct rec; auto; cbn; tauto).
  clearbody s1. clear L1. clearbody s2. clear s1. destruct L2 as [L2 I2].
  set (s3 := if scratch s2 then _ else s2) in H.
  assert (L3 : w_params E (solver s3) = w_params E (solver s) /\ iterations s3 = if rec then iterations s else 0).
  { subst s3. destruct (scratch s2); [|split; congruence]. cbn. rewrite (el_clear E LW). split; congruence. }
  clearbody s3. clear L2 I2 s2. destruct L3 as [L3 I3].
  pose proof (el_solve E LW (solver s3) t (scaled_lp s3)) as PS.
  destruct (w_solve E (solver s3) t (scaled_lp s3)) as [[ok1 t1] w1] eqn:Es. cbn in PS.
  destruct ok1; cbn [negb] in H; [|discriminate H].
  exists (solver s3), (scaled_lp s3), t1, w1. split; [exact Es|]. split; [exact L3|]. split; [congruence|].
  match type of H with (if ?b then _ else _) = _ => destruct b eqn:B end.
  - right. apply andb_true_iff in B as [B _]. apply andb_true_iff in B as [_ B].
    split; [rewrite PS, L3 in B; exact B|].
    apply bind_ok in H as ([s4 ok4] & E4 & H). destruct ok4; cbn [negb] in H; [|discriminate H].
    injection H as <-. eexists. exists s4. split; [|split; [|split; [exact E4|]]].
    + reflexivity.
    + cbn. congruence.
    + cbn. auto.
  - left. injection H as <-. cbn. split; auto. split; [congruence|auto].
Qed.

Lemma SolveLp_engine d s s' : SolveLp d s = Ok (s', true) ->
  exists w t q t1 w1, w_solve E w t q = (true, t1, w1) /\ use_dual_simplex (w_params E w) = d /\
  (solver s' = w1 /\ GetNumIterations s' = w_iterations E w1 /\ TimeLimitIsExceeded s' = tl_reached E t1 \/
   exists w' q' t2 w2 g, w_solve E w' t1 q' = (true, t2, w2) /\ use_dual_simplex (w_params E w') = d /\
     use_scaling (w_params E w') = false /\ solver s' = w_set_params E w2 g /\
     GetNumIterations s' = w_iterations E w1 + w_iterations E w2 /\
     TimeLimitIsExceeded s' = tl_reached E t2).
Proof.
  unfold SolveLp. cbv zeta. set (t := tl_new _ _). clearbody t. set (s0 := with_solver s _).
  assert (D0 : use_dual_simplex (w_params E (solver s0)) = d) by (subst s0; cbn; rewrite (el_set E LW); auto).
  clearbody s0. intros H.
  apply SolveInternal_engine in H as (w & q & t1 & w1 & Ew & P1 & Q1 & H).
  exists w, t, q, t1, w1. split; auto. split; [congruence|].
  destruct H as [H|(U & s5 & s4 & L5 & I5 & H & L4 & I4 & T4)]; [left; exact H|]. right.
  apply SolveInternal_engine in H as (w' & q' & t2 & w2 & Ew2 & P2 & Q2 & H).
  assert (L5' : use_dual_simplex (w_params E (solver s5)) = d /\ use_scaling (w_params E (solver s5)) = false).
  { rewrite L5, (el_set E LW). cbn. split; congruence. }
  destruct L5' as [D5 U5].
  destruct H as [(L6 & I6 & T6)|(U6 & _)]; [|congruence].
  exists w', q', t2, w2, (with_scaling (w_params E w1) true). split; auto. split; [congruence|]. split; [congruence|].
  split; [congruence|]. unfold GetNumIterations, TimeLimitIsExceeded. split; [|congruence]. cbn in I5. lia.
Qed.
End Run.
