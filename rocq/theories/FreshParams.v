(** The parameters of new interfaces; the data of new cuts. *)
From Coq Require Import String List ZArith Bool Lia Sorted.
From Verif Require Import Outcome OutcomeFacts Num Double DoubleFacts SparseVector VectorSpec CutsData LpParams GlopIface GlopSpec GlopMore SoplexIface SoplexSpec SoplexProofs
  SoplexMore.
Import ListNotations.
Open Scope Z_scope.

Lemma glop_fresh (E : engine) flag : engine_laws E ->
  GetLpParameters (glop_new (E := E) flag) =
  mkParams LP_GLOP false SCALING_EQUILIBRATION true PRICING_STEEPEST_EDGE d1em8 d1em8 dm1 0 dminf dinf
    TIMING_OFF dinf 0 1 0 false.
Proof.
  intros L. unfold glop_new. set (s0 := mkG _ _ _ _ _ _ _ _ _).
  destruct (SetLpParameters s0 (default_params LP_GLOP)) as [s' ok] eqn:H.
  assert (ok = true) as ->. { pose proof (accepts s0 (default_params LP_GLOP)) as A. rewrite H in A. cbn [snd] in A. apply A. apply supported_iff. vm_compute. reflexivity. }
  cbn [fst]. rewrite (get_set L s0 _ s' H); [|left; reflexivity]. reflexivity.
Qed.

Lemma spx_fresh (E : spx_engine) p0 mx s : sane_rules (x_rules E) -> spx_new (E := E) p0 mx = Ok s ->
  SpxGetLpParameters s =
  mkParams LP_SOPLEX false SCALING_EQUILIBRATION true PRICING_DEFAULT d1em6 d1em6 d1em4 0
    (dopp (spx_infty (x_rules E))) (spx_infty (x_rules E)) TIMING_OFF dinf 0 0 0 false.
Proof.
  intros Sane H. set (R := x_rules E) in *.
  assert (SP : LpParametersAreSupportedBySoPlex (default_params LP_SOPLEX) = true) by (vm_compute; reflexivity).
  assert (EQ : s_scratch s = false /\ s_params s = to_spx R (default_params LP_SOPLEX)).
  { unfold spx_new, SpxSetLpParameters in H. apply bind_ok in H as ([s1 ok] & H1 & H).
    apply bind_ok in H as (u & H2 & H). apply check_ok in H2. subst ok. injection H as <-.
    apply bind_ok in H1 as ([q ok] & H1 & H2). injection H2 as <- ->. cbn [s_scratch s_params] in H1.
    cbn [SoplexSetLpParameters] in H1. rewrite SP in H1. cbn [negb] in H1. fold R in H1.
    destruct (spx_accepts R (to_spx R (default_params LP_SOPLEX))) eqn:A.
    - injection H1 as <-. rewrite spx_put_all by auto. split; reflexivity.
    - apply bind_ok in H1 as ([q2 ok2] & _ & H1). apply bind_ok in H1 as (u2 & _ & H1). discriminate. }
  destruct EQ as [E1 E2]. unfold SpxGetLpParameters. rewrite E1, E2.
  rewrite (resolved_ok R (default_params LP_SOPLEX) false) by (apply spx_supported_iff; exact SP).
  unfold spx_resolved, default_params.
  cbn [scaling_strategy use_presolve pricing_strategy feasibility_tolerance optimality_tolerance min_markowitz_threshold
    refactorization_interval objective_lower_limit objective_upper_limit timing_mode time_limit iteration_limit random_seed
    enable_internal_solver_output].
  assert (X1 : dltb (dopp (spx_infty R)) dminf = false) by (destruct (spx_infty R) as [[|]|[|]| |[|] m e]; reflexivity).
  assert (X2 : dltb dinf (spx_infty R) = false) by (destruct (spx_infty R) as [[|]|[|]| |[|] m e]; reflexivity).
  rewrite X1, X2. reflexivity.
Qed.

(** A new cut. *)
Lemma new_cut ints obj x r rhs nm f : canonical (ents r) ->
  let c := CreateCut ints obj x r rhs nm f in
  row c = r /\ right_hand_side c = rhs /\ name c = nm /\ is_forced c = f /\ is_active c = false /\
  number_of_non_zeros c = Z.of_nat (length (ents r)) /\
  exists js, NoDup js /\ (forall j, In j js <-> In j ints /\ In j (map idx (ents r))) /\
    number_of_integer_variables c = Z.of_nat (length js).
Proof.
  intros [SO _] c. do 6 (split; [reflexivity|]).
  exists (map idx (filter (fun e : entry num_double => existsb (Z.eqb (idx e)) ints) (ents r))).
  split; [|split].
  - clear - SO. revert SO. generalize (ents r). intros l. induction 1 as [|e l S IH F]; cbn [filter]; [constructor|].
    destruct (existsb _ _); [|exact IH]. cbn [map]. constructor; [|exact IH]. intros I.
    apply in_map_iff in I as (e' & I1 & I2). apply filter_In in I2 as [I2 _]. rewrite Forall_forall in F. specialize (F _ I2). lia.
  - intros j. rewrite in_map_iff. split.
    + intros (e & <- & I). apply filter_In in I as [I X]. apply existsb_exists in X as (y & Y & Q). apply Z.eqb_eq in Q. rewrite Q.
      split; [exact Y|]. rewrite <- Q. apply in_map. exact I.
    + intros [I J]. apply in_map_iff in J as (e & <- & J). exists e. split; [reflexivity|]. apply filter_In. split; [exact J|].
      apply existsb_exists. exists (idx e). split; [exact I|apply Z.eqb_refl].
  - rewrite map_length. reflexivity.
Qed.
