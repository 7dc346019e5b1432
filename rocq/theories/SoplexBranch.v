(** Strong branching, the basis and its inverse in the SoPlex interface. *)
From Coq Require Import String List ZArith Bool Lia ZifyBool Permutation SpecFloat.
From Verif Require Import Outcome OutcomeFacts Num Double DoubleFacts SparseVector VectorSpec SparseVectorFacts
  VectorProofs MipData GlopLp LpParams GlopIface GlopSpec GlopProofs GlopMore SoplexIface SoplexSpec
  SoplexProofs SoplexMore.
Import ListNotations.
Open Scope Z_scope.

Local Notation ent := (entry num_double).

Section Branch.
Context {E : spx_engine}.
Implicit Type s : sstate E.
Notation R := (x_rules E).

Lemma change_at_same {B} (l : list B) c g f f' : at_ l c = Ok g -> f g = f' g -> change_at l c f = change_at l c f'.
Proof.
  intros H Ef. apply at_ext; [rewrite !change_at_length; auto|].
  intros k _. rewrite !at_change_at. destruct (Z.eqb_spec k c) as [->|]; auto. rewrite H. congruence.
Qed.
Lemma upper_rebounded p c g x : at_ (g_cols p) c = Ok g ->
  exists q, changeUpper p c x = Ok q /\ rebounded p c (g_lb g) x q.
Proof.
  intros Hg. unfold changeUpper, on_col. rewrite change_ok by (eapply at_in_range; eauto). cbn [bind].
  eexists. split; [reflexivity|]. split; auto. cbn. eapply change_at_same; eauto.
Qed.
Lemma lower_rebounded p c g x : at_ (g_cols p) c = Ok g ->
  exists q, changeLower p c x = Ok q /\ rebounded p c x (g_ub g) q.
Proof.
  intros Hg. unfold changeLower, on_col. rewrite change_ok by (eapply at_in_range; eauto). cbn [bind].
  eexists. split; [reflexivity|]. split; auto. cbn. eapply change_at_same; eauto.
Qed.

Lemma judge_answers s q x' x0 p0 limit d v : 
  x_optimize E x0 (put_iterlimit (E := E) p0 limit) true q = (false, x') ->
  judge (spx_with_x s x') = Some (d, v) ->
  answers E limit q (objective_limit s) (Some v) (Some d).
Proof.
  intros O J. exists x'. split.
  - exists x0, (put_iterlimit (E := E) p0 limit). split; auto. intros L. unfold put_iterlimit, put. rewrite L. auto.
  - unfold judge in J. cbn [spx_with_x s_x] in J.
    change (objective_limit (spx_with_x s x')) with (objective_limit s) in J.
    destruct (x_status E x') eqn:St; try discriminate; injection J as <- <-; auto 10.
Qed.

Lemma spx_branch r0 s c v limit s' r g : at_ (g_cols (s_lp s)) c = Ok g ->
  SpxSolveDownAndUpStrongBranch r0 s c v limit = Ok (s', Some r) ->
  let eps := feasibility_tolerance (SpxGetLpParameters s) in
  let hi := dceil (dsub (dsub v d1) eps) in
  let lo := dfloor (dsub (dadd v d1) eps) in
  (if dleb (dsub (g_lb g) half) hi
   then exists q, rebounded (s_lp s) c (g_lb g) hi q /\ answers E limit q (the_limit s) (down_valid r) (dual_bound_down r)
   else down_valid r = Some true /\ dual_bound_down r = Some (the_limit s)) /\
  (if dleb lo (dadd (g_ub g) half)
   then exists q, rebounded (s_lp s) c lo (g_ub g) q /\ answers E limit q (the_limit s) (up_valid r) (dual_bound_up r)
   else up_valid r = Some true /\ dual_bound_up r = Some (the_limit s)) /\
  sb_iterations r <> None.
Proof.
  intros Hg H. unfold SpxSolveDownAndUpStrongBranch in H. rewrite Hg in H. cbn [bind] in H. cbv zeta.
  change (feasibility_tolerance (SpxGetLpParameters s)) with (FEASTOL (s_params s)).
  apply bind_ok in H as ([[s1 down] n1] & H1 & H). apply bind_ok in H as ([[s2 up] n2] & H2 & H).
  cbn [with_algorithm s_params s_lp] in H1, H2.
  set (eps := FEASTOL (s_params s)) in *.
  set (hi := dceil (dsub (dsub v d1) eps)) in *. set (lo := dfloor (dsub (dadd v d1) eps)) in *.
  destruct down as [[dd dv]|]; [|injection H2 as <- <- <-; discriminate].
  destruct up as [[ud uv]|]; [|discriminate]. injection H as <- <-. cbn [down_valid dual_bound_down up_valid dual_bound_up sb_iterations].
  assert (K1 : s_lp s1 = s_lp s /\ objective_limit s1 = objective_limit s /\ s_dual s1 = true /\
    (if dleb (dsub (g_lb g) half) hi
     then exists q, rebounded (s_lp s) c (g_lb g) hi q /\ answers E limit q (the_limit s) (Some dv) (Some dd)
     else Some dv = Some true /\ Some dd = Some (the_limit s))).
  { destruct (dleb (dsub (g_lb g) half) hi) eqn:L.
    - destruct (upper_rebounded (s_lp s) c g hi Hg) as (q & Eq & Rq).
      rewrite Eq in H1. cbn [bind] in H1. apply bind_ok in H1 as ([[s3 j] n] & E2 & H1).
      apply bind_ok in H1 as (p2 & E3 & H1). injection H1 as <- -> _.
      pose proof (branch_solve_lp _ _ _ _ _ E2) as (A1 & A2 & A3 & _ & _ & _ & _ & _ & x' & O & _ & J).
      rewrite A1 in E3. cbn [spx_with_lp s_lp with_algorithm s_dual s_params s_x] in *.
      rewrite (upper_back _ _ _ _ _ _ Hg Eq E3). split; auto. split; [|split; auto].
      { unfold objective_limit. cbn. rewrite A2. reflexivity. }
      exists q. split; auto. symmetry in J.
      apply (judge_answers _ q x' _ _ limit dd dv O) in J.
      replace (the_limit s) with (objective_limit (with_params (spx_with_lp (with_algorithm s true) q)
        (put_iterlimit (E := E) (s_params s) limit))); auto.
      change (the_limit s) with (objective_limit s). unfold objective_limit. cbn. destruct Rq as (_ & _ & ->). auto.
    - injection H1 as <- <- <- <-. auto 10. }
  destruct K1 as (L1 & OL1 & D1 & K1). split; auto. split; [|discriminate].
  cbv beta iota in H2. destruct (dleb lo (dadd (g_ub g) half)) eqn:L.
  - rewrite L1 in H2. destruct (lower_rebounded (s_lp s) c g lo Hg) as (q & Eq & Rq).
    rewrite Eq in H2. cbn [bind] in H2. apply bind_ok in H2 as ([[s3 j] n] & E2 & H2).
    apply bind_ok in H2 as (p2 & E3 & H2). injection H2 as <- -> _.
    pose proof (branch_solve_lp _ _ _ _ _ E2) as (A1 & A2 & A3 & _ & _ & _ & _ & _ & x' & O & _ & J).
    cbn [spx_with_lp s_lp with_algorithm s_dual s_params s_x] in *. rewrite D1 in O.
    exists q. split; auto. symmetry in J. apply (judge_answers _ q x' _ _ limit ud uv O) in J.
    replace (the_limit s) with (objective_limit (with_params (spx_with_lp s1 q)
        (put_iterlimit (E := E) (s_params s1) limit))); auto.
    change (the_limit s) with (objective_limit s). rewrite <- OL1. unfold objective_limit. cbn. destruct Rq as (_ & _ & ->). rewrite L1. auto.
  - injection H2 as <- <- <- <-. rewrite OL1. auto.
Qed.

Lemma spx_branch_iterations r0 s c v limit s' r g : at_ (g_cols (s_lp s)) c = Ok g ->
  SpxSolveDownAndUpStrongBranch r0 s c v limit = Ok (s', Some r) ->
  let eps := feasibility_tolerance (SpxGetLpParameters s) in
  let hi := dceil (dsub (dsub v d1) eps) in
  let lo := dfloor (dsub (dadd v d1) eps) in
  exists n1 n2, sb_iterations r = Some (n1 + n2) /\
  (if dleb (dsub (g_lb g) half) hi
   then exists q x', rebounded (s_lp s) c (g_lb g) hi q /\ ran_on E limit q x' /\ n1 = x_iterations E x' else n1 = 0) /\
  (if dleb lo (dadd (g_ub g) half)
   then exists q x', rebounded (s_lp s) c lo (g_ub g) q /\ ran_on E limit q x' /\ n2 = x_iterations E x' else n2 = 0).
Proof.
  intros Hg H. unfold SpxSolveDownAndUpStrongBranch in H. rewrite Hg in H. cbn [bind] in H. cbv zeta.
  change (feasibility_tolerance (SpxGetLpParameters s)) with (FEASTOL (s_params s)).
  apply bind_ok in H as ([[s1 down] n1] & H1 & H). apply bind_ok in H as ([[s2 up] n2] & H2 & H).
  cbn [with_algorithm s_params s_lp] in H1, H2.
  set (eps := FEASTOL (s_params s)) in *.
  set (hi := dceil (dsub (dsub v d1) eps)) in *. set (lo := dfloor (dsub (dadd v d1) eps)) in *.
  assert (RO : forall x0 p0 q x', x_optimize E x0 (put_iterlimit (E := E) p0 limit) true q = (false, x') -> ran_on E limit q x').
  { intros x0 p0 q x' O. exists x0, (put_iterlimit (E := E) p0 limit). split; auto. intros L. unfold put_iterlimit, put. rewrite L. auto. }
  destruct down as [[dd dv]|]; [|injection H2 as <- <- <-; discriminate].
  destruct up as [[ud uv]|]; [|discriminate]. injection H as <- <-. cbn [sb_iterations].
  assert (K1 : s_lp s1 = s_lp s /\ s_dual s1 = true /\
    (if dleb (dsub (g_lb g) half) hi
     then exists q x', rebounded (s_lp s) c (g_lb g) hi q /\ ran_on E limit q x' /\ n1 = x_iterations E x' else n1 = 0)).
  { destruct (dleb (dsub (g_lb g) half) hi) eqn:L.
    - destruct (upper_rebounded (s_lp s) c g hi Hg) as (q & Eq & Rq).
      rewrite Eq in H1. cbn [bind] in H1. apply bind_ok in H1 as ([[s3 j] n] & E2 & H1).
      apply bind_ok in H1 as (p2 & E3 & H1). injection H1 as <- -> <-.
      pose proof (branch_solve_lp _ _ _ _ _ E2) as (A1 & A2 & A3 & _ & _ & _ & _ & _ & x' & O & N & _).
      rewrite A1 in E3. cbn [spx_with_lp s_lp with_algorithm s_dual s_params s_x] in *.
      rewrite (upper_back _ _ _ _ _ _ Hg Eq E3). split; auto. split; auto.
      exists q, x'. split; auto. split; [eapply RO; exact O|exact N].
    - injection H1 as <- _ _ <-. auto. }
  destruct K1 as (L1 & D1 & K1). exists n1, n2. split; [reflexivity|]. split; auto.
  cbv beta iota in H2. destruct (dleb lo (dadd (g_ub g) half)) eqn:L.
  - rewrite L1 in H2. destruct (lower_rebounded (s_lp s) c g lo Hg) as (q & Eq & Rq).
    rewrite Eq in H2. cbn [bind] in H2. apply bind_ok in H2 as ([[s3 j] n] & E2 & H2).
    apply bind_ok in H2 as (p2 & E3 & H2). injection H2 as _ _ <-.
    pose proof (branch_solve_lp _ _ _ _ _ E2) as (_ & _ & _ & _ & _ & _ & _ & _ & x' & O & N & _).
    cbn [spx_with_lp s_lp with_algorithm s_dual s_params s_x] in *. rewrite D1 in O.
    exists q, x'. split; auto. split; [eapply RO; exact O|exact N].
  - injection H2 as _ _ _ <-. reflexivity.
Qed.

(** *** The session *)
Lemma saved_values_some (l : list spx_var) : saved_values (length l) 0 (map Some l) = Ok l.
Proof.
  assert (G : forall l pre, saved_values (length l) (Z.of_nat (length pre)) (map Some (pre ++ l)) = Ok l).
  { clear l. induction l as [|x l IH]; intros pre; auto. cbn [length saved_values].
    rewrite map_app. cbn [map].
    rewrite at_app, map_length. replace (_ <? _) with false by lia.
    rewrite Z.sub_diag. cbn [at_ Z.to_nat nth_error Z.leb Z.ltb Z.compare length]. 
    cbn. specialize (IH (pre ++ [x])). rewrite app_length in IH. cbn in IH.
    replace (Z.of_nat (length pre + 1)) with (Z.of_nat (length pre) + 1) in IH by lia.
    rewrite <- app_assoc in IH. cbn [app] in IH. rewrite map_app in IH. cbn [map] in IH. rewrite IH. auto. }
  exact (G l []).
Qed.
Lemma fill_all (l : list spx_var) : fill (length l) l = map Some l.
Proof.
  unfold fill. induction l as [|x l IH]; auto. cbn [length seq map nth_error]. f_equal.
  rewrite <- IH, <- seq_shift, map_map. auto.
Qed.

(** The saved basis is complete. *)
Definition saved s (rs cs : list spx_var) : Prop :=
  s_rows s = map Some rs /\ s_cols s = map Some cs /\
  length rs = length (g_rows (s_lp s)) /\ length cs = length (g_cols (s_lp s)).

Lemma restore_ok s rs cs : never_throws E -> saved s rs cs ->
  RestorePreStrongbranchingBasis s = Ok (spx_with_x s (snd (x_set_basis E (s_x s) rs cs))).
Proof.
  intros [_ T] (A & B & C & D). unfold RestorePreStrongbranchingBasis, set_saved_basis.
  rewrite A, B, <- C, <- D, !saved_values_some. cbn [bind].
  specialize (T (s_x s) rs cs). destruct (x_set_basis E (s_x s) rs cs) as [threw x]. cbn in T. subst threw. auto.
Qed.

Lemma branch_solve_ok s rs cs limit : never_throws E -> saved s rs cs -> freed s = false ->
  exists s' j n, branch_solve s limit = Ok (s', j, n) /\ exists x, s_x s' = snd (x_set_basis E x rs cs).
Proof.
  intros T S F. unfold branch_solve. cbn [with_params s_x s_params s_dual s_lp].
  destruct (x_optimize E (s_x s) (put_iterlimit (E := E) (s_params s) limit) (s_dual s) (s_lp s)) as [threw x] eqn:O.
  assert (threw = false). { destruct T as [T _]. specialize (T (s_x s) (put_iterlimit (E := E) (s_params s) limit) (s_dual s) (s_lp s)).
    rewrite O in T. auto. } subst threw. cbn [negb check bind].
  replace (freed (spx_with_x _ x)) with false by (symmetry; exact F). cbn [negb check bind].
  erewrite restore_ok; [|exact T|exact S]. cbn [bind]. do 3 eexists. split; [reflexivity|]. cbn. eauto.
Qed.

Lemma saved_same s s' rs cs : saved s rs cs -> s_lp s' = s_lp s -> s_cols s' = s_cols s -> s_rows s' = s_rows s ->
  saved s' rs cs.
Proof. intros (A & B & C & D) H1 H2 H3. unfold saved. rewrite H1, H2, H3. auto. Qed.
Lemma freed_same s s' : s_cols s' = s_cols s -> s_rows s' = s_rows s -> freed s' = freed s.
Proof. intros H1 H2. unfold freed. rewrite H1, H2. auto. Qed.
Lemma on_col_dims p c f q : on_col p c f = Ok q ->
  length (g_rows q) = length (g_rows p) /\ length (g_cols q) = length (g_cols p).
Proof.
  unfold on_col. intros H. apply bind_ok in H as (cs & H1 & H). injection H as <-. cbn. split; auto.
  unfold change in H1. apply bind_ok in H1 as (g & _ & H1). eapply set_at_length; eauto.
Qed.

Lemma spx_branch_ok r0 s c v limit rs cs : never_throws E -> saved s rs cs -> freed s = false ->
  0 <= c < ncols (s_lp s) ->
  exists s' r, SpxSolveDownAndUpStrongBranch r0 s c v limit = Ok (s', r).
Proof.
  intros T S F Hc. unfold SpxSolveDownAndUpStrongBranch.
  destruct (at_range (g_cols (s_lp s)) c Hc) as [g Hg]. rewrite Hg. cbn [bind].
  set (hi := dceil _). set (lo := dfloor _).
  assert (K1 : exists s1 down n1, (if dleb (dsub (g_lb g) half) hi
     then do p <- changeUpper (s_lp (with_algorithm s true)) c hi ;
          do (s, j, n) <- branch_solve (spx_with_lp (with_algorithm s true) p) limit ;
          do p <- changeUpper (s_lp s) c (g_ub g) ;
          Ok (spx_with_lp s p, j, n)
     else Ok (with_algorithm s true, Some (objective_limit (with_algorithm s true), true), 0)) = Ok (s1, down, n1) /\
    s_lp s1 = s_lp s /\ s_cols s1 = s_cols s /\ s_rows s1 = s_rows s).
  { destruct (dleb _ _); [|do 3 eexists; split; [reflexivity|auto]].
    cbn [with_algorithm s_lp]. destruct (upper_rebounded (s_lp s) c g hi Hg) as (q & Eq & Rq). rewrite Eq. cbn [bind].
    destruct (on_col_dims _ _ _ _ Eq) as [D1 D2].
    destruct (branch_solve_ok (spx_with_lp (with_algorithm s true) q) rs cs limit) as (s3 & j & n & E3 & _); auto.
    { destruct S as (A & B & C & D). unfold saved. cbn. rewrite D1, D2. auto. }
    rewrite E3. cbn [bind]. apply branch_solve_lp in E3 as (A1 & _ & _ & _ & _ & A6 & A7 & _).
    cbn [spx_with_lp s_lp s_cols s_rows with_algorithm] in *. rewrite A1.
    assert (Hq : exists g', at_ (g_cols q) c = Ok g') by (apply at_range; rewrite D2; exact Hc).
    destruct Hq as [g' Hq]. destruct (upper_rebounded q c g' (g_ub g) Hq) as (p2 & E4 & _). rewrite E4. cbn [bind].
    do 3 eexists. split; [reflexivity|]. cbn. rewrite (upper_back _ _ _ _ _ _ Hg Eq E4). auto. }
  destruct K1 as (s1 & down & n1 & E1 & L1 & C1 & R1). cbn [with_algorithm s_params s_lp] in E1 |- *.
  rewrite E1. cbn [bind].
  assert (K2 : exists s2 up n2, match down with
    | None => Ok (s1, None, 0)
    | Some _ =>
        if dleb lo (dadd (g_ub g) half)
        then do p <- changeLower (s_lp s1) c lo ;
             do (s, j, n) <- branch_solve (spx_with_lp s1 p) limit ;
             do p <- changeLower (s_lp s) c (g_lb g) ;
             Ok (spx_with_lp s p, j, n)
        else Ok (s1, Some (objective_limit s1, true), 0)
    end = Ok (s2, up, n2)).
  { destruct down; [|eauto]. destruct (dleb lo (dadd (g_ub g) half)); [|eauto].
    rewrite L1. destruct (lower_rebounded (s_lp s) c g lo Hg) as (q & Eq & Rq). rewrite Eq. cbn [bind].
    destruct (on_col_dims _ _ _ _ Eq) as [D1 D2].
    destruct (branch_solve_ok (spx_with_lp s1 q) rs cs limit) as (s3 & j & n & E3 & _); auto.
    { destruct S as (A & B & C & D). unfold saved. cbn. rewrite D1, D2, C1, R1. auto. }
    { rewrite <- F. apply freed_same; auto. }
    rewrite E3. cbn [bind]. apply branch_solve_lp in E3 as (A1 & _). rewrite A1. cbn [spx_with_lp s_lp].
    assert (Hq : exists g', at_ (g_cols q) c = Ok g') by (apply at_range; rewrite D2; exact Hc).
    destruct Hq as [g' Hq]. destruct (lower_rebounded q c g' (g_lb g) Hq) as (p2 & E4 & _). rewrite E4. cbn [bind]. eauto. }
  destruct K2 as (s2 & up & n2 & E2). rewrite E2. cbn [bind].
  destruct down as [[? ?]|]; [destruct up as [[? ?]|]|]; eauto.
Qed.

Lemma branch_run l : never_throws E -> forall s rs cs, settled R (s_params s) false ->
  saved s rs cs -> freed s = false -> Forall (branches (ncols (s_lp s))) l ->
  exists s' xs, srun s l = Ok (s', xs) /\ s_lp s' = s_lp s /\ s_cols s' = s_cols s /\ s_rows s' = s_rows s /\
    s_params s' = s_params s /\ s_scratch s' = s_scratch s /\ s_solved s' = s_solved s.
Proof.
  intros T. induction l as [|c l IH]; intros s rs cs St S F Hl.
  - exists s, []. cbn. auto 10.
  - inversion Hl as [|? ? Hc Hl']; subst. destruct c; cbn [branches] in Hc; try tauto.
    cbn [srun sstep]. destruct (spx_branch_ok r0 s c x limit rs cs T S F Hc) as (s1 & r & E1). rewrite E1. cbn [bind].
    destruct (strong_params _ _ _ _ _ _ _ _ St E1) as [P1 _].
    apply strong_lp in E1 as (L1 & Sc1 & So1 & C1 & R1).
    destruct (IH s1 rs cs) as (s2 & xs & E2 & L2 & C2 & R2 & P2 & Sc2 & So2).
    { rewrite P1. auto. } { eapply saved_same; eauto. } { rewrite <- F. apply freed_same; auto. } { rewrite L1. auto. }
    rewrite E2. cbn [bind]. do 2 eexists. split; [reflexivity|]. 
    rewrite L2, C2, R2, P2, Sc2, So2. auto 10.
Qed.

Lemma spx_session s l rs cs : sane_rules R -> reached s -> never_throws E -> freed s = true ->
  x_get_basis E (s_x s) = Some (rs, cs) ->
  length rs = length (g_rows (s_lp s)) -> length cs = length (g_cols (s_lp s)) ->
  0 < ncols (s_lp s) + nrows (s_lp s) -> Forall (branches (ncols (s_lp s))) l ->
  exists s' xs, srun s (CStartStrongBranching :: l ++ [CEndStrongBranching]) = Ok (s', xs) /\
    s_lp s' = s_lp s /\ SpxGetLpParameters s' = SpxGetLpParameters s /\ SpxIsSolved s' = SpxIsSolved s /\
    freed s' = true /\ exists x, s_x s' = snd (x_set_basis E x rs cs).
Proof.
  intros Sane Re T F B L1 L2 Ne Hl. destruct (reached_settled s Sane Re) as [Sc St].
  cbn [srun sstep]. unfold SpxStartStrongBranching. rewrite F. cbn [check bind].
  unfold SavePreStrongbranchingBasis. rewrite B, <- L1, <- L2, !fill_all. cbn [bind].
  set (s1 := with_saved s (map Some cs) (map Some rs)).
  assert (S1 : saved s1 rs cs) by (repeat split; auto).
  assert (F1 : freed s1 = false).
  { unfold freed. cbn. unfold ncols, nrows in Ne. destruct rs, cs; auto. cbn in *. lia. }
  destruct (branch_run l T s1 rs cs St S1 F1 Hl) as (s2 & xs & E2 & A1 & A2 & A3 & A4 & A5 & A6).
  rewrite srun_app, E2. cbn [bind srun sstep]. unfold SpxEndStrongBranching.
  rewrite (freed_same s1 s2 A2 A3), F1. cbn [negb check bind].
  rewrite (restore_ok s2 rs cs T (saved_same _ _ _ _ S1 A1 A2 A3)). cbn [bind].
  do 2 eexists. split; [reflexivity|]. unfold SpxGetLpParameters, SpxIsSolved. cbn. rewrite A1, A4, A5, A6. cbn. eauto 10.
Qed.

(** Without a saved basis the first solve of a branch aborts. *)
Lemma spx_branch_restores r0 s c v limit s' r : sane_rules R -> reached s ->
  SpxSolveDownAndUpStrongBranch r0 s c v limit = Ok (s', r) ->
  s_lp s' = s_lp s /\ SpxGetLpParameters s' = SpxGetLpParameters s /\ SpxIsSolved s' = SpxIsSolved s /\
  freed s' = freed s.
Proof.
  intros Sane Re H. destruct (reached_settled s Sane Re) as [Sc St].
  destruct (strong_params _ _ _ _ _ _ _ _ St H) as [P _]. apply strong_lp in H as (L & Es & So & Cs & Rs).
  unfold SpxGetLpParameters, SpxIsSolved. rewrite P, Es, So. split; auto. split; auto. split; auto.
  apply freed_same; auto.
Qed.
Lemma spx_branch_unsaved r0 s c v limit g : freed s = true -> at_ (g_cols (s_lp s)) c = Ok g ->
  let eps := feasibility_tolerance (SpxGetLpParameters s) in
  dleb (dsub (g_lb g) half) (dceil (dsub (dsub v d1) eps)) = true \/
  dleb (dfloor (dsub (dadd v d1) eps)) (dadd (g_ub g) half) = true ->
  SpxSolveDownAndUpStrongBranch r0 s c v limit = Abort.
Proof.
  intros F Hg eps H. subst eps. change (feasibility_tolerance (SpxGetLpParameters s)) with (FEASTOL (s_params s)) in H.
  assert (BS : forall s', freed s' = true -> branch_solve s' limit = Abort).
  { intros s' F'. unfold branch_solve. destruct (x_optimize _ _ _ _) as [threw x]. destruct threw; auto. cbn [negb check bind].
    replace (freed (spx_with_x _ x)) with true by (symmetry; exact F'). auto. }
  unfold SpxSolveDownAndUpStrongBranch. rewrite Hg. cbn [bind with_algorithm s_params s_lp].
  destruct (dleb (dsub (g_lb g) half) _) eqn:D.
  - destruct (upper_rebounded (s_lp s) c g (dceil (dsub (dsub v d1) (FEASTOL (s_params s)))) Hg) as (q & -> & _). cbn [bind].
    rewrite BS; auto.
  - cbn [bind]. destruct H as [H|H]; [congruence|]. cbn [with_algorithm s_params s_lp]. rewrite H.
    destruct (lower_rebounded (s_lp s) c g (dfloor (dsub (dadd v d1) (FEASTOL (s_params s)))) Hg) as (q & -> & _). cbn [bind].
    rewrite BS; auto.
Qed.

(** End on an LP without rows and columns aborts. *)
Lemma spx_end_empty s s1 x : ncols (s_lp s) + nrows (s_lp s) = 0 ->
  sstep s CStartStrongBranching = Ok (s1, x) -> sstep s1 CEndStrongBranching = Abort.
Proof.
  unfold ncols, nrows. intros L H. cbn [sstep] in H. apply bind_ok in H as (s2 & H1 & H). injection H as <- _.
  unfold SpxStartStrongBranching in H1. apply bind_ok in H1 as (u & _ & H1).
  assert (N1 : length (g_cols (s_lp s)) = 0%nat) by lia. assert (N2 : length (g_rows (s_lp s)) = 0%nat) by lia.
  unfold SavePreStrongbranchingBasis in H1. rewrite N1, N2 in H1.
  assert (F : freed s2 = true).
  { destruct (x_get_basis E (s_x s)) as [[? ?]|]; [injection H1 as <-; auto|].
    apply bind_ok in H1 as (u2 & _ & H1). injection H1 as <-. auto. }
  cbn [sstep]. unfold SpxEndStrongBranching. rewrite F. auto.
Qed.

(** Edits with a saved basis abort. *)
Lemma spx_guarded s c : freed s = false -> guarded c = true -> sstep s c = Abort.
Proof.
  intros F G. assert (F' : freed (invalidated s) = false) by exact F.
  assert (ED : forall o, spx_edited s o = Abort) by (intros o; unfold spx_edited; rewrite F'; auto).
  destruct c; try discriminate G; cbn [sstep]; auto;
    unfold SpxDeleteRowSet, SpxReadLpFromFile, SpxSolveLp, SoPlexSolve, SpxStartStrongBranching, SpxSetBasis;
    rewrite ?F, ?F'; auto.
  replace (freed (invalidated (with_algorithm s dual))) with false by (symmetry; exact F). auto.
Qed.
Lemma spx_guarded_reads s : freed s = false ->
  SpxGetBasisStatusForColumns s = Abort /\ SpxGetBasisStatusForRows s = Abort /\
  (forall r, SpxRowOfBInverted s r = Abort) /\ (forall c, SpxColumnOfBInverted s c = Abort) /\
  (forall r, SpxRowOfBInvertedTimesA s r = Abort) /\ (forall c, SpxColumnOfBInvertedTimesA s c = Abort).
Proof.
  intros F. unfold SpxGetBasisStatusForColumns, SpxGetBasisStatusForRows, SpxRowOfBInverted, SpxColumnOfBInverted,
    SpxRowOfBInvertedTimesA, SpxColumnOfBInvertedTimesA. rewrite F. auto 10.
Qed.

Lemma saved_short l : forall n k, (exists j, k <= j < k + Z.of_nat n /\ (at_ l j = UB \/ at_ l j = Ok None)) ->
  saved_values n k l = UB.
Proof.
  induction n as [|n IH]; intros k (j & Hj & H); [lia|]. cbn [saved_values].
  destruct (Z.eq_dec j k) as [->|].
  - destruct H as [->| ->]; auto.
  - destruct (at_cases l k) as [[_ [o ->]]|[_ ->]]; auto. cbn [bind]. destruct o; auto.
    rewrite IH; auto. exists j. split; auto. lia.
Qed.

(** AddRow during a session: the later restore reads past the saved rows. *)
Lemma spx_add_row_session s rs cs v lo hi n s1 x : saved s rs cs -> freed s = false ->
  clean_vector (ncols (s_lp s)) v -> stored_lp (s_lp s) ->
  sstep s (CAddRow v lo hi n) = Ok (s1, x) -> sstep s1 CEndStrongBranching = UB.
Proof.
  intros (A & B & C & D) F Cv W H. cbn [sstep] in H. apply bind_ok in H as (p & H1 & H). injection H as <- _.
  destruct (step_addRow (s_lp s) v lo hi W Cv) as (p' & E1 & W1 & T1). rewrite E1 in H1. injection H1 as <-.
  assert (LR : length (g_rows p') = S (length (g_rows (s_lp s)))).
  { assert (K : t_nr (nameless (table_of p')) = t_nr (nameless (table_of (s_lp s))) + 1).
    { rewrite T1. unfold add_row, t_nr. cbn. rewrite ?map_length, ?app_length, ?map_length. cbn. lia. }
    rewrite !nameless_nr, !table_nr in K. unfold nrows in K. lia. }
  cbn [sstep]. unfold SpxEndStrongBranching.
  replace (freed (spx_with_lp (invalidated s) p')) with false by (symmetry; exact F). cbn [negb check bind].
  unfold RestorePreStrongbranchingBasis, set_saved_basis. cbn [spx_with_lp invalidated s_lp s_rows s_cols].
  rewrite saved_short; auto. exists (Z.of_nat (length rs)). split; [lia|]. left.
  rewrite A. destruct (at_cases (map Some rs) (Z.of_nat (length rs))) as [[HH _]|[_ ->]]; auto.
  rewrite map_length in HH. lia.
Qed.

(** *** Setting a basis *)
Definition row_var (b : bstatus) : spx_var :=
  match b with kBasic => X_BASIC | kAtLowerBound => X_ON_LOWER | kAtUpperBound => X_ON_UPPER | kFixed => X_FIXED
             | kFree => X_ZERO end.

Lemma set_mid {B} (l0 : list B) x y l : set_at (l0 ++ x :: l) (Z.of_nat (length l0)) y = Ok (l0 ++ y :: l).
Proof.
  destruct (set_at_range (l0 ++ x :: l) (Z.of_nat (length l0)) y) as [l' Hs].
  { rewrite app_length. cbn. lia. }
  rewrite Hs. f_equal. apply set_at_ok in Hs as [_ ->]. rewrite Nat2Z.id.
  clear. induction l0; cbn; congruence.
Qed.
Lemma set_mid' {B} (l0 : list B) x y l n : length l0 = n -> set_at (l0 ++ x :: l) (Z.of_nat n) y = Ok (l0 ++ y :: l).
Proof. intros <-. apply set_mid. Qed.
Lemma set_cols_ok (l : list bstatus) : forall pre done, length done = length pre ->
  set_cols_loop (length l) (Z.of_nat (length pre)) (pre ++ l) (done ++ repeat None (length l)) =
  Ok (done ++ map (fun b => Some (row_var b)) l).
Proof.
  induction l as [|b l IH]; intros pre done L; cbn [length set_cols_loop repeat map]; auto.
  rewrite at_app. replace (_ <? _) with false by lia. rewrite Z.sub_diag. cbn [at_ Z.leb Z.compare Z.to_nat nth_error bind].
  cbn. rewrite <- L. rewrite set_mid. cbn [bind].
  rewrite L. specialize (IH (pre ++ [b]) (done ++ [Some (row_var b)])).
  rewrite !app_length in IH. cbn [length] in IH. rewrite <- !app_assoc in IH. cbn [app] in IH.
  replace (Z.of_nat (length pre) + 1) with (Z.of_nat (length pre + 1)) by lia. fold (row_var b). rewrite IH by lia.
  reflexivity.
Qed.
Lemma set_rows_ok (l : list bstatus) : ~ In kFree l -> forall pre done, length done = length pre ->
  set_rows_loop (length l) (Z.of_nat (length pre)) (pre ++ l) (done ++ repeat None (length l)) =
  Ok (done ++ map (fun b => Some (row_var b)) l, true).
Proof.
  induction l as [|b l IH]; intros N pre done L; cbn [length set_rows_loop repeat map]; auto.
  rewrite at_mid by auto. cbn [bind].
  assert (K : set_rows_loop (length l) (Z.of_nat (length pre) + 1) (pre ++ b :: l)
      (done ++ Some (row_var b) :: repeat None (length l)) =
    Ok (done ++ Some (row_var b) :: map (fun b => Some (row_var b)) l, true)).
  { assert (N' : ~ In kFree l) by (intros X; apply N; right; auto).
    specialize (IH N' (pre ++ [b]) (done ++ [Some (row_var b)])). rewrite !app_length in IH. cbn [length] in IH.
    rewrite <- !app_assoc in IH. cbn [app] in IH.
    replace (Z.of_nat (length pre) + 1) with (Z.of_nat (length pre + 1)) by lia. apply IH. lia. }
  destruct b; try (rewrite (set_mid' _ _ _ _ _ L); cbn [bind]; exact K).
  destruct N. left; auto.
Qed.
Lemma set_rows_free (l : list bstatus) : In kFree l -> forall pre done, length done = length pre ->
  exists a j, set_rows_loop (length l) (Z.of_nat (length pre)) (pre ++ l) (done ++ repeat None (length l)) = Ok (a, false) /\
    length a = (length pre + length l)%nat /\ 0 <= j < Z.of_nat (length a) /\ at_ a j = Ok None.
Proof.
  induction l as [|b l IH]; intros N pre done L; [destruct N|]. cbn [length set_rows_loop repeat].
  rewrite at_mid by auto. cbn [bind].
  assert (K : In kFree l -> exists a j, set_rows_loop (length l) (Z.of_nat (length pre) + 1) (pre ++ b :: l)
      (done ++ Some (row_var b) :: repeat None (length l)) = Ok (a, false) /\
    length a = (length pre + S (length l))%nat /\ 0 <= j < Z.of_nat (length a) /\ at_ a j = Ok None).
  { intros N'. specialize (IH N' (pre ++ [b]) (done ++ [Some (row_var b)])). rewrite !app_length in IH. cbn [length] in IH.
    rewrite <- !app_assoc in IH. cbn [app] in IH.
    replace (Z.of_nat (length pre) + 1) with (Z.of_nat (length pre + 1)) by lia.
    replace (length pre + S (length l))%nat with (length pre + 1 + length l)%nat by lia. apply IH. lia. }
  destruct b; try (rewrite (set_mid' _ _ _ _ _ L); cbn [bind]; apply K; destruct N as [N|N]; [discriminate|auto]; fail).
  exists (done ++ None :: repeat None (length l)), (Z.of_nat (length done)). split; auto.
  rewrite app_length. cbn [length]. rewrite repeat_length. split; [lia|]. split; [lia|]. apply at_mid. auto.
Qed.

Lemma freed_invalid s : freed (invalidated s) = freed s.
Proof. reflexivity. Qed.

(** A basis without free rows is handed to the engine; its statuses are kept only if it throws. *)
Lemma spx_set_basis_ok s cs rs : freed s = true -> ~ In kFree rs ->
  length rs = length (g_rows (s_lp s)) -> length cs = length (g_cols (s_lp s)) ->
  let y := x_set_basis E (s_x s) (map row_var rs) (map row_var cs) in
  exists s', SpxSetBasis s cs rs = Ok (s', negb (fst y)) /\ s_x s' = snd y /\ s_lp s' = s_lp s /\
    (fst y = false -> freed s' = true).
Proof.
  intros F N Lr Lc y. unfold SpxSetBasis. rewrite F. cbn [check bind with_saved s_rows s_cols].
  rewrite <- Lr, <- Lc. pose proof (set_rows_ok rs N [] [] eq_refl) as H1. cbn [length app Z.of_nat] in H1.
  rewrite H1. cbn [bind negb]. pose proof (set_cols_ok cs [] [] eq_refl) as H2. cbn [length app Z.of_nat] in H2.
  cbn [s_cols with_saved]. rewrite H2. cbn [bind]. unfold set_saved_basis. cbn [with_saved invalidated s_lp s_rows s_cols s_x].
  rewrite <- Lr, <- Lc. rewrite <- (map_map row_var Some rs), <- (map_map row_var Some cs).
  rewrite <- (map_length row_var rs), <- (map_length row_var cs), !saved_values_some. cbn [bind].
  subst y. destruct (x_set_basis E (s_x s) (map row_var rs) (map row_var cs)) as [threw x]. cbn [bind fst snd].
  destruct threw; cbn [negb]; eexists; (split; [reflexivity|]); cbn; split; auto; split; auto; discriminate.
Qed.
Lemma spx_set_basis_free s cs rs : freed s = true -> In kFree rs ->
  length rs = length (g_rows (s_lp s)) ->
  exists s', SpxSetBasis s cs rs = Ok (s', false) /\ s_lp s' = s_lp s /\ s_x s' = s_x s /\ freed s' = false /\
    sstep s' CEndStrongBranching = UB.
Proof.
  intros F N Lr. unfold SpxSetBasis. rewrite F. cbn [check bind with_saved s_rows s_cols].
  rewrite <- Lr. destruct (set_rows_free rs N [] [] eq_refl) as (a & j & H1 & La & Hj & Ha). cbn [length app Z.of_nat] in H1.
  rewrite H1. cbn [bind negb]. eexists. split; [reflexivity|]. cbn. split; auto. split; auto.
  assert (Fr : forall s', s_rows s' = a -> freed s' = false).
  { intros s' <-. unfold freed. destruct (s_rows s'); auto. cbn in Hj. lia. }
  split; [apply Fr; auto|].
  unfold SpxEndStrongBranching. rewrite Fr by reflexivity. cbn [negb check bind].
  unfold RestorePreStrongbranchingBasis, set_saved_basis. cbn [with_saved invalidated s_lp s_rows s_cols s_x].
  rewrite saved_short; auto. exists j. split; auto. cbn in La. lia.
Qed.
(** Whatever the reason for the rejection, the saved statuses stay. *)
Lemma spx_rejected s cs rs s' : SpxSetBasis s cs rs = Ok (s', false) -> 0 < ncols (s_lp s) + nrows (s_lp s) ->
  freed s' = false /\ s_lp s' = s_lp s.
Proof.
  intros H N. split; [|eapply set_basis_solved; eauto].
  unfold SpxSetBasis in H. apply bind_ok in H as (u & _ & H). apply bind_ok in H as ([ra ok] & H1 & H).
  assert (LR : forall n k l a a' b, set_rows_loop n k l a = Ok (a', b) -> length a' = length a).
  { clear. induction n as [|n IH]; intros k l a a' b H; cbn [set_rows_loop] in H; [injection H as <- _; auto|].
    apply bind_ok in H as (y & _ & H). destruct y; try (injection H as <- _; auto; fail);
      apply bind_ok in H as (a1 & H1 & H); apply IH in H; rewrite H; eapply set_at_length; eauto. }
  assert (LC : forall n k l a a', set_cols_loop n k l a = Ok a' -> length a' = length a).
  { clear. induction n as [|n IH]; intros k l a a' H; cbn [set_cols_loop] in H; [injection H as <-; auto|].
    apply bind_ok in H as (y & _ & H). apply bind_ok in H as (a1 & H1 & H); apply IH in H; rewrite H; eapply set_at_length; eauto. }
  apply LR in H1. cbn [with_saved s_rows s_cols] in H1, H. rewrite repeat_length in H1.
  assert (K : forall s2, length (s_rows s2) = length (g_rows (s_lp s)) -> length (s_cols s2) = length (g_cols (s_lp s)) ->
    freed s2 = false).
  { intros s2 A B. unfold freed. unfold ncols, nrows in N. destruct (s_rows s2), (s_cols s2); auto. cbn in *. lia. }
  destruct ok; cbn [negb] in H.
  - apply bind_ok in H as (ca & H2 & H). apply LC in H2. rewrite repeat_length in H2.
    apply bind_ok in H as ([s1 threw] & H3 & H). destruct threw; [|discriminate]. injection H as <-.
    apply set_saved_lp in H3 as (_ & _ & _ & _ & _ & A & B). cbn in A, B. apply K; congruence.
  - injection H as <-. apply K; cbn; auto. rewrite repeat_length. auto.
Qed.

Lemma spx_stuck s cs rs s' : SpxSetBasis s cs rs = Ok (s', false) -> 0 < ncols (s_lp s) + nrows (s_lp s) ->
  s_lp s' = s_lp s /\ forall c, guarded c = true -> sstep s' c = Abort.
Proof.
  intros H N. destruct (spx_rejected _ _ _ _ H N) as [F L]. split; auto. intros c. apply spx_guarded; auto.
Qed.
Lemma spx_cols_read s n k l : (forall j b, at_ l j = Ok b -> x_col E (s_x s) (k + j) = row_var b) -> n = length l ->
  spx_cols_loop n k s = Ok (map fixed_lost l).
Proof.
  revert k l. induction n as [|n IH]; intros k l H L; destruct l as [|b l]; try discriminate L; auto.
  cbn [spx_cols_loop map]. pose proof (H 0 b eq_refl) as H0. rewrite Z.add_0_r in H0. rewrite H0.
  rewrite (IH (k + 1) l); [destruct b; auto| |cbn in L; lia].
  intros j b' Hj. rewrite <- Z.add_assoc. apply H. rewrite <- Hj. pose proof (at_in_range _ _ _ Hj).
  change (b :: l) with ([b] ++ l). rewrite at_app. cbn [length]. replace (1 + j <? Z.of_nat 1) with false by lia. f_equal. lia.
Qed.
Lemma spx_rows_read s n k l : ~ In kFree l ->
  (forall j b, at_ l j = Ok b -> x_row E (s_x s) (k + j) = row_var b) -> n = length l ->
  spx_rows_loop n k s = Ok (map fixed_lost l).
Proof.
  revert k l. induction n as [|n IH]; intros k l N H L; destruct l as [|b l]; try discriminate L; auto.
  cbn [spx_rows_loop map]. pose proof (H 0 b eq_refl) as H0. rewrite Z.add_0_r in H0. rewrite H0.
  rewrite (IH (k + 1) l); [| | |cbn in L; lia].
  - destruct b; auto. destruct N. left; auto.
  - intros X. apply N. right; auto.
  - intros j b' Hj. rewrite <- Z.add_assoc. apply H. rewrite <- Hj. pose proof (at_in_range _ _ _ Hj).
    change (b :: l) with ([b] ++ l). rewrite at_app. cbn [length]. replace (1 + j <? Z.of_nat 1) with false by lia. f_equal. lia.
Qed.

Lemma spx_is_optimal s : SpxIsOptimal s = Ok (st_is ST_OPTIMAL s).
Proof.
  unfold SpxIsOptimal, SpxIsPrimalFeasible, SpxIsDualFeasible. destruct (x_basis E (s_x s)) eqn:B;
    unfold bs_is; rewrite B; auto.
Qed.

Lemma spx_cols_undefined s :
  (exists k, 0 <= k < Z.of_nat (length (g_cols (s_lp s))) /\ x_col E (s_x s) k = X_UNDEFINED) ->
  SpxGetBasisStatusForColumns s = Abort.
Proof.
  intros (k & K & U). unfold SpxGetBasisStatusForColumns. destruct (freed s); [|reflexivity]. cbn [check bind].
  unfold SpxIsOptimal. destruct (Bool.eqb _ _); [|reflexivity]. cbn [check bind].
  destruct (st_is ST_OPTIMAL s); [|reflexivity]. cbn [check bind].
  assert (G : forall n a, a <= k < a + Z.of_nat n -> spx_cols_loop n a s = Abort).
  { induction n as [|n IH]; intros a A; [lia|]. cbn [spx_cols_loop].
    destruct (Z.eq_dec a k) as [->|N]; [rewrite U; reflexivity|].
    rewrite (IH (a + 1)) by lia. destruct (x_col E (s_x s) a); reflexivity. }
  apply G. lia.
Qed.
Lemma spx_rows_undefined s :
  (exists k, 0 <= k < Z.of_nat (length (g_rows (s_lp s))) /\ x_row E (s_x s) k = X_UNDEFINED) ->
  (forall k, 0 <= k < Z.of_nat (length (g_rows (s_lp s))) -> x_row E (s_x s) k <> X_ZERO) ->
  SpxGetBasisStatusForRows s = Abort.
Proof.
  intros (k & K & U) Z. unfold SpxGetBasisStatusForRows. destruct (freed s); [|reflexivity]. cbn [check bind].
  unfold SpxIsOptimal. destruct (Bool.eqb _ _); [|reflexivity]. cbn [check bind].
  destruct (st_is ST_OPTIMAL s); [|reflexivity]. cbn [check bind].
  assert (G : forall n a, 0 <= a -> a + Z.of_nat n <= Z.of_nat (length (g_rows (s_lp s))) ->
    a <= k < a + Z.of_nat n -> spx_rows_loop n a s = Abort).
  { induction n as [|n IH]; intros a A0 A1 A; [lia|]. cbn [spx_rows_loop].
    destruct (Z.eq_dec a k) as [->|N]; [rewrite U; reflexivity|].
    rewrite (IH (a + 1)) by lia. specialize (Z a ltac:(lia)). destruct (x_row E (s_x s) a); congruence || reflexivity. }
  apply G; lia.
Qed.

Lemma spx_basis_back s cs rs : s_reports_basis E -> freed s = true -> ~ In kFree rs ->
  length rs = length (g_rows (s_lp s)) -> length cs = length (g_cols (s_lp s)) ->
  exists s', SpxSetBasis s cs rs = Ok (s', true) /\
    SpxGetBasisStatusForColumns s' = Ok (map fixed_lost cs) /\
    SpxGetBasisStatusForRows s' = Ok (map fixed_lost rs) /\ s_lp s' = s_lp s.
Proof.
  intros SR F N Lr Lc. destruct (spx_set_basis_ok s cs rs F N Lr Lc) as (s' & E1 & X1 & L1 & F1).
  rewrite (srb_takes _ SR) in E1, F1. exists s'. split; auto.
  assert (O : st_is ST_OPTIMAL s' = true).
  { unfold st_is. rewrite X1, (srb_optimal _ SR). auto. }
  unfold SpxGetBasisStatusForColumns, SpxGetBasisStatusForRows.
  rewrite F1, spx_is_optimal, O by auto. cbn [check bind]. rewrite L1.
  split; [|split; auto].
  - apply spx_cols_read; auto. intros j b Hj. cbn [Z.add]. rewrite X1. apply (srb_col _ SR). rewrite at_map, Hj. auto.
  - apply spx_rows_read; auto. intros j b Hj. cbn [Z.add]. rewrite X1. apply (srb_row _ SR). rewrite at_map, Hj. auto.
Qed.
Lemma spx_basis_unsolved s : x_status E (s_x s) <> ST_OPTIMAL ->
  SpxGetBasisStatusForColumns s = Abort /\ SpxGetBasisStatusForRows s = Abort.
Proof.
  intros N. unfold SpxGetBasisStatusForColumns, SpxGetBasisStatusForRows. rewrite spx_is_optimal.
  replace (st_is ST_OPTIMAL s) with false; [|unfold st_is; destruct (x_status E (s_x s)); auto; congruence].
  destruct (freed s); auto.
Qed.

(** *** Status *)
Lemma spx_status_exclusive s :
  SpxIsOptimal s = Ok true ->
  SpxIsPrimalUnbounded s = false /\ SpxIsPrimalInfeasible s = false /\ SpxIsDualUnbounded s = false /\
  SpxIsDualInfeasible s = false /\ SpxExistsPrimalRay s = false /\ SpxExistsDualRay s = false /\
  SpxObjectiveLimitIsExceeded s = false /\ SpxIterationLimitIsExceeded s = false /\
  SpxTimeLimitIsExceeded s = false /\ SpxIsStable s = true.
Proof.
  rewrite spx_is_optimal. intros H. injection H as H.
  unfold SpxIsPrimalUnbounded, SpxIsPrimalInfeasible, SpxIsDualUnbounded, SpxIsDualInfeasible, SpxExistsPrimalRay,
    SpxExistsDualRay, SpxObjectiveLimitIsExceeded, SpxIterationLimitIsExceeded, SpxTimeLimitIsExceeded, SpxIsStable.
  unfold st_is in *. destruct (x_status E (s_x s)); try discriminate H; auto 20.
Qed.

Lemma spx_status_reports s : let st := x_status E (s_x s) in let bs := x_basis E (s_x s) in
  (SpxIsOptimal s = Ok true <-> st = ST_OPTIMAL) /\
  (SpxIsPrimalUnbounded s = true <-> st = ST_UNBOUNDED) /\ (SpxExistsPrimalRay s = true <-> st = ST_UNBOUNDED) /\
  (SpxIsDualInfeasible s = true <-> st = ST_UNBOUNDED) /\
  (SpxIsPrimalInfeasible s = true <-> st = ST_INFEASIBLE) /\ (SpxExistsDualRay s = true <-> st = ST_INFEASIBLE) /\
  (SpxIsDualUnbounded s = true <-> st = ST_INFEASIBLE /\ bs = BS_DUAL) /\
  (SpxIsPrimalFeasible s = true <-> In bs [BS_OPTIMAL; BS_PRIMAL]) /\
  (SpxIsDualFeasible s = true <-> In bs [BS_OPTIMAL; BS_DUAL]) /\
  (SpxIsStable s = false <-> In st [ST_ERROR; ST_SINGULAR; ST_OPTIMAL_UNSCALED_VIOLATIONS]) /\
  (SpxObjectiveLimitIsExceeded s = true <-> st = ST_ABORT_VALUE) /\
  (SpxIterationLimitIsExceeded s = true <-> st = ST_ABORT_ITER) /\
  (SpxTimeLimitIsExceeded s = true <-> st = ST_ABORT_TIME).
Proof.
  cbv zeta. rewrite spx_is_optimal. unfold SpxIsPrimalUnbounded, SpxIsPrimalInfeasible, SpxIsDualUnbounded, SpxIsDualInfeasible, SpxExistsPrimalRay,
    SpxExistsDualRay, SpxObjectiveLimitIsExceeded, SpxIterationLimitIsExceeded, SpxTimeLimitIsExceeded, SpxIsStable,
    SpxIsPrimalFeasible, SpxIsDualFeasible.
  unfold st_is, bs_is. destruct (x_status E (s_x s)), (x_basis E (s_x s)); cbn [In orb andb];
    repeat (apply conj; [|]); intros; intuition congruence.
Qed.

(** *** Writing *)
Lemma spx_write s path written : path <> EmptyString ->
  sstep s (CWrite path written) = Ok (s, if written then RPath path else RErr).
Proof.
  intros N. cbn [sstep]. unfold SpxWriteLpToFile. destruct (String.eqb_spec path EmptyString); [congruence|].
  destruct written; auto.
Qed.
Lemma spx_write_empty s written : sstep s (CWrite EmptyString written) = Abort.
Proof. reflexivity. Qed.

(** *** The inverse *)
Lemma add_all_distinct (l : list ent) n : NoDup (map idx l) -> inrange n l ->
  clean_vector n (CleanUp (add_all l)) /\
  forall i, value (CleanUp (add_all l)) i = or0 (nz (find_first l i)).
Proof.
  intros D Rg.
  destruct (add_all_from l (vempty (N := num_double))) as (I & Cn & F).
  { intros _. constructor. } { intros _. constructor. }
  fold (add_all l) in I, Cn, F.
  destruct (CleanUp_ok _ I) as (Dc & Sc & Fc). pose proof (CleanUp_nonzero _ Cn) as Nc.
  assert (Ce : canonical (ents (CleanUp (add_all l)))) by (split; [exact Sc|exact Nc]).
  assert (FF : forall i, find_first (ents (CleanUp (add_all l))) i = nz (find_first l i)).
  { intros i. rewrite Fc, F, (find_last_perm l l i (Permutation_refl l) D). 
    change (content (vempty (N := num_double)) i) with (@None num_double). destruct (find_first l i); auto. }
  destruct (CleanUp (add_all l)) as [es b] eqn:Ev. cbn [dirty ents] in *. subst b. split.
  - split; auto. split; auto. apply Forall_forall. intros e He.
    assert (Fe : find_first es (idx e) = Some (val e)).
    { apply find_first_in; auto. }
    rewrite FF in Fe. destruct (find_first l (idx e)) eqn:G; [|discriminate]. 
    apply find_first_some in G as (e' & He' & Hi & _). unfold inrange in Rg. rewrite Forall_forall in Rg.
    rewrite <- Hi. apply Rg; auto.
  - intros i. rewrite canonical_value by auto. rewrite FF. auto.
Qed.

Definition numbered (k : Z) (l : list double) : list ent :=
  map (fun p => mkE (fst p) (snd p : num_double)) (combine (map (fun j => k + Z.of_nat j) (seq 0 (length l))) l).
Lemma numbered_cons k x l : numbered k (x :: l) = mkE k (x : num_double) :: numbered (k + 1) l.
Proof.
  unfold numbered. cbn [length seq map combine fst snd]. rewrite Z.add_0_r. f_equal. f_equal. f_equal.
  rewrite <- seq_shift, map_map. apply map_ext. intros. lia.
Qed.
Lemma numbered_idx l : forall k e, In e (numbered k l) -> k <= idx e < k + Z.of_nat (length l).
Proof.
  induction l as [|x l IH]; intros k e H; [destruct H|]. rewrite numbered_cons in H. cbn [length].
  destruct H as [<-|H]; [cbn; lia|]. apply IH in H. lia.
Qed.
Lemma numbered_nodup l : forall k, NoDup (map idx (numbered k l)).
Proof.
  induction l as [|x l IH]; intros k; [constructor|]. rewrite numbered_cons. cbn [map idx]. constructor; auto.
  intros H. apply in_map_iff in H as (e & He & H). apply numbered_idx in H. lia.
Qed.
Lemma numbered_find l : forall k i, find_first (numbered k l) (k + i) =
  match at_ l i with Ok x => Some (x : num_double) | _ => None end.
Proof.
  induction l as [|x l IH]; intros k i.
  - destruct (at_cases (@nil double) i) as [[H _]|[_ ->]]; auto. cbn in H. lia.
  - rewrite numbered_cons. cbn [find_first idx val]. destruct (Z.eqb_spec k (k + i)).
    + assert (i = 0) by lia. subst. auto.
    + replace (k + i) with (k + 1 + (i - 1)) by lia. rewrite IH. change (x :: l) with ([x] ++ l). rewrite at_app. cbn [length].
      destruct (i <? Z.of_nat 1) eqn:B; auto.
      destruct (at_cases l (i - 1)) as [[H _]|[_ ->]]; [lia|]. destruct (at_cases [x] i) as [[H _]|[_ ->]]; auto. cbn in H. lia.
Qed.

Lemma or0_nz (x : num_double) : or0 (nz (Some x)) = drop0 x.
Proof. unfold nz, drop0. destruct (is0 x); auto. Qed.

(** The dense loop skips the zeros. *)
Lemma dense_loop_ok (l : list double) : forall pre v,
  dense_loop (length l) (Z.of_nat (length pre)) (pre ++ l) v =
  Ok (fold_left (fun v (e : ent) => AddEntry v (idx e) (val e))
        (filter (fun e : ent => negb (is0 (val e))) (numbered (Z.of_nat (length pre)) l)) v).
Proof.
  induction l as [|x l IH]; intros pre v; auto. cbn [length dense_loop].
  rewrite at_mid by auto. cbn [bind]. rewrite numbered_cons. cbn [filter val].
  specialize (IH (pre ++ [x])). rewrite app_length in IH. cbn [length] in IH. rewrite <- app_assoc in IH. cbn [app] in IH.
  replace (Z.of_nat (length pre) + 1) with (Z.of_nat (length pre + 1)) by lia. rewrite IH.
  change (deqb x d0) with (is0 (x : num_double)). destruct (is0 (x : num_double)); cbn [negb fold_left idx val]; auto.
Qed.

Lemma sparse_loop_ok (is : list Z) (dense : list double) : forall pre post v,
  (forall i, In i is -> exists x, at_ dense i = Ok x) ->
  exists es, sparse_loop (length is) (Z.of_nat (length pre)) dense (pre ++ is ++ post) v =
    Ok (fold_left (fun v (e : ent) => AddEntry v (idx e) (val e)) es v) /\
    map idx es = is /\ forall e, In e es -> at_ dense (idx e) = Ok (val e : double).
Proof.
  induction is as [|i is IH]; intros pre post v H.
  - exists []. cbn. split; auto. split; auto. tauto.
  - cbn [length sparse_loop app]. rewrite at_mid by auto. cbn [bind].
    destruct (H i (or_introl eq_refl)) as [x Hx]. rewrite Hx. cbn [bind].
    destruct (IH (pre ++ [i]) post (AddEntry v i (x : num_double))) as (es & E1 & E2 & E3).
    { intros; apply H; right; auto. }
    rewrite app_length in E1. cbn [length] in E1. rewrite <- app_assoc in E1. cbn [app] in E1.
    replace (Z.of_nat (length pre) + 1) with (Z.of_nat (length pre + 1)) by lia. rewrite E1.
    exists (mkE i (x : num_double) :: es). split; auto. cbn [map idx]. split; [congruence|].
    intros e [<-|He]; auto.
Qed.

Lemma spx_row_of_inverse s b r row : freed s = true -> inverse_of E (s_x s) (length (g_rows (s_lp s))) b ->
  at_ b r = Ok row ->
  exists v, SpxRowOfBInverted s r = Ok v /\ clean_vector (nrows (s_lp s)) v /\
    forall c x, at_ row c = Ok x -> value v c = drop0 (x : num_double).
Proof.
  intros F [Lb Hb] Hr. destruct (Hb r row Hr) as (Lrow & inds & m & E1 & Hm).
  unfold SpxRowOfBInverted. rewrite F, E1. cbn [check bind].
  destruct (Z.eqb_spec m (-1)) as [->|Nm].
  - rewrite <- Lrow. pose proof (dense_loop_ok row [] vempty) as D. cbn [length app Z.of_nat] in D. rewrite D. cbn [bind].
    eexists. split; [reflexivity|].
    set (l := filter _ _). fold (add_all l).
    assert (ND : NoDup (map idx l)).
    { subst l. pose proof (numbered_nodup row 0) as N. revert N. generalize (numbered 0 row). clear.
      induction l as [|e l IH]; cbn; intros N; auto. inversion N as [|? ? N1 N2]; subst.
      destruct (negb _); cbn; auto. constructor; auto. intros H. apply N1.
      apply in_map_iff in H as (e' & <- & H). apply filter_In in H as [H _]. apply in_map. auto. }
    assert (IR : inrange (nrows (s_lp s)) l).
    { subst l. apply Forall_forall. intros e He. apply filter_In in He as [He _]. apply numbered_idx in He.
      unfold nrows. lia. }
    destruct (add_all_distinct l (nrows (s_lp s)) ND IR) as [CV VV]. split; auto.
    intros c x Hx. rewrite VV.
    assert (FL : forall (l0 : list ent) i, NoDup (map idx l0) ->
      find_first (filter (fun e : ent => negb (is0 (val e))) l0) i = nz (find_first l0 i)).
    { clear. induction l0 as [|e l0 IH]; intros i N; auto. cbn [map] in N. inversion N as [|? ? N1 N2]; subst.
      cbn [filter find_first]. destruct (is0 (val e)) eqn:Z0; cbn [negb].
      - rewrite IH by auto. destruct (Z.eqb_spec (idx e) i) as [<-|]; auto.
        unfold nz at 2. rewrite Z0. rewrite find_first_none; auto.
        intros e' He' Hi. apply N1. rewrite <- Hi. apply in_map. auto.
      - cbn [find_first]. destruct (idx e =? i); auto. unfold nz. rewrite Z0. auto. }
    subst l. rewrite FL by apply numbered_nodup.
    pose proof (numbered_find row 0 c) as Q. rewrite Z.add_0_l, Hx in Q. rewrite Q.
    unfold nz, drop0. destruct (is0 (x : num_double)) eqn:Z0; auto. rewrite Z0. auto.
  - destruct Hm as [?|(Hm & ND & Hi)]; [congruence|].
    set (is := firstn (Z.to_nat m) inds) in *.
    assert (Li : length is = Z.to_nat m) by (subst is; rewrite firstn_length; lia).
    destruct (sparse_loop_ok is row [] (skipn (Z.to_nat m) inds) vempty) as (es & D & Ee & Hv).
    { intros i Hin. apply Hi in Hin as (x & Hx & _). eauto. }
    cbn [length app Z.of_nat] in D. rewrite Li in D. unfold is in D at 1. rewrite firstn_skipn in D. rewrite D. cbn [bind].
    eexists. split; [reflexivity|]. fold (add_all es).
    assert (IR : inrange (nrows (s_lp s)) es).
    { apply Forall_forall. intros e He. apply Hv in He. apply at_in_range in He. unfold nrows. lia. }
    rewrite <- Ee in ND. destruct (add_all_distinct es (nrows (s_lp s)) ND IR) as [CV VV]. split; auto.
    intros c x Hx. rewrite VV. destruct (find_first es c) as [y|] eqn:Fc.
    + apply find_first_some in Fc as (e & He & Hc & Hy). apply Hv in He. rewrite Hc, Hx in He. injection He as ->.
      rewrite <- Hy. apply or0_nz.
    + unfold drop0. destruct (is0 (x : num_double)) eqn:Z0; auto. exfalso.
      assert (Hin : In c is) by (apply Hi; eauto). rewrite <- Ee in Hin. apply in_map_iff in Hin as (e & He1 & He2).
      assert (G : forall (l : list ent), In e l -> find_first l (idx e) <> None).
      { clear. induction l as [|e' l IH]; cbn; intros H; [tauto|]. destruct (Z.eqb_spec (idx e') (idx e)); [discriminate|].
        destruct H as [->|H]; [congruence|auto]. }
      apply G in He2. congruence.
Qed.

(** What std::find returns in an index array whose listed part is in place. *)
Lemma position_nth : forall l c k, position l c = Some k ->
  nth_error l k = Some c /\ forall j, (j < k)%nat -> nth_error l j <> Some c.
Proof.
  induction l as [|x l IH]; intros c k H; cbn [position] in H; [discriminate|].
  destruct (x =? c) eqn:Q.
  - injection H as <-. split; [cbn; f_equal; lia|]. intros j Hj. lia.
  - destruct (position l c) as [k'|] eqn:P; [|discriminate]. injection H as <-.
    destruct (IH _ _ P) as [P1 P2]. split; [auto|]. intros [|j] Hj K; cbn in K.
    + injection K as K. lia.
    + apply (P2 j); [lia|auto].
Qed.
Lemma position_none : forall l c k, position l c = None -> nth_error l k <> Some c.
Proof.
  induction l as [|x l IH]; intros c k H K; cbn [position] in H; [destruct k; discriminate|].
  destruct (x =? c) eqn:Q; [discriminate|]. destruct (position l c) eqn:P; [discriminate|].
  destruct k as [|k]; cbn in K; [injection K as K; lia|]. exact (IH c k P K).
Qed.
Lemma position_in_place (inds : list Z) m c : (forall i, 0 <= i < m -> at_ inds i = Ok i) -> 0 <= c ->
  (c < m -> position inds c = Some (Z.to_nat c)) /\
  (m <= c -> match position inds c with Some k => m <= Z.of_nat k | None => True end).
Proof.
  intros IP Hc. split; intros Hm.
  - pose proof (IP c (conj Hc Hm)) as A. apply at_ok in A as [_ A].
    destruct (position inds c) as [k|] eqn:P; [|exfalso; exact (position_none _ _ _ P A)].
    destruct (position_nth _ _ _ P) as [P1 P2]. f_equal.
    destruct (Nat.lt_trichotomy (Z.to_nat c) k) as [L|[L|L]]; [exfalso; exact (P2 _ L A)|auto|].
    exfalso. assert (0 <= Z.of_nat k < m) as R by lia. apply IP, at_ok in R as [_ R].
    rewrite Nat2Z.id in R. rewrite P1 in R. injection R as R. lia.
  - destruct (position inds c) as [k|] eqn:P; auto. destruct (position_nth _ _ _ P) as [P1 _].
    destruct (Z_lt_le_dec (Z.of_nat k) m) as [L|L]; auto. exfalso.
    assert (0 <= Z.of_nat k < m) as R by lia. apply IP, at_ok in R as [_ R].
    rewrite Nat2Z.id in R. rewrite P1 in R. injection R as R. lia.
Qed.

(** The entries the loop adds, one per row unless the row has a zero there. *)
Lemma column_loop_ok s (b : list (list double)) c n0 : inverse_of E (s_x s) n0 b -> listed_in_place E (s_x s) n0 ->
  0 <= c < Z.of_nat n0 ->
  forall post pre v, b = pre ++ post ->
  exists es, column_loop (length post) (Z.of_nat (length pre)) s c v =
    Ok (fold_left (fun v (e : ent) => AddEntry v (idx e) (val e)) es v) /\
    NoDup (map idx es) /\
    Forall (fun e : ent => Z.of_nat (length pre) <= idx e < Z.of_nat (length pre + length post)) es /\
    forall k row x, nth_error post k = Some row -> at_ row c = Ok x ->
      or0 (nz (find_first es (Z.of_nat (length pre + k)))) = drop0 (x : num_double).
Proof.
  intros [Lb Hb] IP Hc. induction post as [|row post IH]; intros pre v Eb.
  - exists []. cbn. repeat split; [constructor|constructor|]. intros [|k]; discriminate.
  - cbn [length column_loop].
    assert (Hr : at_ b (Z.of_nat (length pre)) = Ok row) by (rewrite Eb; apply at_mid; auto).
    destruct (Hb _ _ Hr) as (Lrow & inds & m & E1 & Rep). rewrite E1.
    destruct (at_range row c) as [x Hx]; [lia|].
    assert (Rr : 0 <= Z.of_nat (length pre) < Z.of_nat n0) by (apply at_in_range in Hr; lia).
    pose proof (IP _ _ _ _ Rr E1) as IPr.
    assert (Step : (if m =? -1 then do x <- at_ row c ; Ok (AddEntry v (Z.of_nat (length pre)) (x : num_double))
        else match position inds c with
             | Some i => if Z.of_nat i <? m
                 then do x <- at_ row (Z.of_nat i) ; Ok (AddEntry v (Z.of_nat (length pre)) (x : num_double))
                 else Ok v
             | None => Ok v
             end) = Ok (AddEntry v (Z.of_nat (length pre)) (x : num_double)) \/
      ((if m =? -1 then do x <- at_ row c ; Ok (AddEntry v (Z.of_nat (length pre)) (x : num_double))
        else match position inds c with
             | Some i => if Z.of_nat i <? m
                 then do x <- at_ row (Z.of_nat i) ; Ok (AddEntry v (Z.of_nat (length pre)) (x : num_double))
                 else Ok v
             | None => Ok v
             end) = Ok v /\ is0 (x : num_double) = true)).
    { destruct (m =? -1) eqn:M; [left; rewrite Hx; auto|].
      destruct Rep as [->|(Rm & ND & Li)]; [discriminate|]. destruct IPr as [->|IPr]; [discriminate|].
      destruct (position_in_place inds m c IPr (proj1 Hc)) as [PA PB].
      destruct (Z_lt_le_dec c m) as [L|L].
      - left. rewrite (PA L), Z2Nat.id by lia. replace (c <? m) with true by lia. rewrite Hx. auto.
      - right. specialize (PB L). split.
        + destruct (position inds c) as [k|]; auto. replace (Z.of_nat k <? m) with false by lia. auto.
        + destruct (is0 (x : num_double)) eqn:Z0; auto. exfalso.
          assert (In c (firstn (Z.to_nat m) inds)) as Ic by (apply Li; eauto).
          apply In_nth_error in Ic as [k Hk].
          assert (k < Z.to_nat m)%nat as Lk.
          { pose proof (nth_error_Some (firstn (Z.to_nat m) inds) k) as Q. rewrite Hk in Q.
            assert (k < length (firstn (Z.to_nat m) inds))%nat as Q' by (apply Q; discriminate).
            rewrite firstn_length in Q'. lia. }
          assert (nth_error inds k = Some c) as Hk'.
          { rewrite <- (firstn_skipn (Z.to_nat m) inds), nth_error_app1; auto.
            apply nth_error_Some. rewrite Hk. discriminate. }
          assert (0 <= Z.of_nat k < m) as R by lia. apply IPr, at_ok in R as [_ R].
          rewrite Nat2Z.id, Hk' in R. injection R as R. lia. }
    assert (Next : forall v', exists es, column_loop (length post) (Z.of_nat (length pre) + 1) s c v' =
        Ok (fold_left (fun v (e : ent) => AddEntry v (idx e) (val e)) es v') /\ NoDup (map idx es) /\
        Forall (fun e : ent => Z.of_nat (length pre + 1) <= idx e < Z.of_nat (length pre + S (length post))) es /\
        forall k row x, nth_error post k = Some row -> at_ row c = Ok x ->
          or0 (nz (find_first es (Z.of_nat (length pre + S k)))) = drop0 (x : num_double)).
    { intros v'. destruct (IH (pre ++ [row]) v') as (es & F1 & F2 & F3 & F4); [rewrite <- app_assoc; auto|].
      rewrite app_length in F1, F3, F4. cbn [length] in F1, F3, F4.
      replace (Z.of_nat (length pre) + 1) with (Z.of_nat (length pre + 1)) by lia.
      exists es. split; [exact F1|]. split; [exact F2|]. split.
      - eapply Forall_impl; [|exact F3]. cbn beta. intros e. lia.
      - intros k row' x' K1 K2. replace (length pre + S k)%nat with (length pre + 1 + k)%nat by lia. eauto. }
    destruct Step as [St|[St Z0]]; rewrite St; cbn [bind].
    + destruct (Next (AddEntry v (Z.of_nat (length pre)) (x : num_double))) as (es & F1 & F2 & F3 & F4).
      exists (@mkE num_double (Z.of_nat (length pre)) (x : num_double) :: es). split; [exact F1|]. split.
      { cbn [map idx]. constructor; auto. intros K. apply in_map_iff in K as (e & K1 & K2).
        rewrite Forall_forall in F3. specialize (F3 e K2). lia. }
      split.
      { constructor; [cbn [idx]; lia|]. eapply Forall_impl; [|exact F3]. cbn beta. intros e. lia. }
      intros [|k] row' x' K1 K2; cbn [nth_error] in K1; cbn [find_first idx val].
      * injection K1 as <-. rewrite Nat.add_0_r, Z.eqb_refl. rewrite Hx in K2. injection K2 as <-. apply or0_nz.
      * replace (Z.of_nat (length pre) =? Z.of_nat (length pre + S k)) with false by lia. eauto.
    + destruct (Next v) as (es & F1 & F2 & F3 & F4).
      exists es. split; [exact F1|]. split; [exact F2|]. split.
      { eapply Forall_impl; [|exact F3]. cbn beta. intros e. lia. }
      intros [|k] row' x' K1 K2; cbn [nth_error] in K1.
      * injection K1 as <-. rewrite Hx in K2. injection K2 as <-. rewrite Nat.add_0_r.
        assert (find_first es (Z.of_nat (length pre)) = None) as ->.
        { clear - F3. induction F3 as [|e es He F IHF]; auto. cbn [find_first].
          replace (idx e =? Z.of_nat (length pre)) with false by lia. auto. }
        unfold drop0. rewrite Z0. auto.
      * eauto.
Qed.
Lemma spx_column_of_inverse s b c : freed s = true -> inverse_of E (s_x s) (length (g_rows (s_lp s))) b ->
  listed_in_place E (s_x s) (length (g_rows (s_lp s))) -> 0 <= c < nrows (s_lp s) ->
  exists v, SpxColumnOfBInverted s c = Ok v /\ clean_vector (nrows (s_lp s)) v /\
    forall r row x, at_ b r = Ok row -> at_ row c = Ok x -> value v r = drop0 (x : num_double).
Proof.
  intros F I IP Hc. unfold SpxColumnOfBInverted. rewrite F. cbn [check bind].
  destruct (column_loop_ok s b c _ I IP Hc b [] vempty eq_refl) as (es & E1 & E2 & E3 & E4).
  destruct I as [Lb Hb]. cbn [length Z.of_nat] in E1. rewrite Lb in E1. rewrite E1. cbn [bind].
  eexists. split; [reflexivity|]. fold (add_all es).
  destruct (add_all_distinct es (nrows (s_lp s)) E2) as [CV VV].
  { eapply Forall_impl; [|exact E3]. cbn beta. unfold nrows. cbn [length]. intros e. lia. }
  split; auto. intros r row x Hr Hx. rewrite VV.
  apply at_ok in Hr as [Hr0 Hr]. specialize (E4 _ _ _ Hr Hx). cbn [length] in E4.
  rewrite Nat.add_0_l, Z2Nat.id in E4 by lia. exact E4.
Qed.
End Branch.
