(** A small SoPlex for the examples and counterexamples about the SoPlex interface. *)
From Coq Require Import String List ZArith Bool SpecFloat Permutation Lia.
From Verif Require Import Outcome Num Double SparseVector VectorSpec MipData ProblemSpec GlopLp LpParams GlopIface
  GlopSpec GlopCases SoplexIface SoplexSpec SoplexProofs SoplexBranch.
Import ListNotations.
Open Scope Z_scope.

Record tx := mkTX { tx_status : spx_status; tx_obj : double; tx_rows : list spx_var; tx_cols : list spx_var }.

(** 1e-16, and the infinity 1e100 *)
Definition eps_zero : double := S754_finite false 8112963841460668 (-106).
Definition spx_inf : double := S754_finite false 5147557589468029 280.
(** Tolerances above 1 are refused. *)
Definition rules1 : spx_rules :=
  mkRules (fun x => dleb x d1) (fun x => dleb x d1) (fun _ => true) (fun _ => true) (fun _ => true)
    (fun x => dleb d0 x) (fun n => -1 <=? n) spx_inf.

(** [solve] answers every LP from the settings and the LP alone; after an edit the basis is that of
    the slacks, after a solve that of the columns.  [order] is the order of the entries and [binv]
    the inverse of the basis matrix. *)
(** The product of a dense vector with the inverse [inverse2] below. *)
Definition swapped (l : list double) : list double :=
  [dmul (dint 2) (nth 1 l d0); dmul (dint 3) (nth 0 l d0)].
Definition toyx (solve : spx_params -> glop_lp -> spx_status * double)
  (order : list (entry num_double) -> list (entry num_double))
  (binv : Z -> option (list double * list Z * Z)) : spx_engine :=
  mkSpxEngine tx
    (mkTX ST_NO_PROBLEM d0 [] [])
    (fun x p => mkTX ST_UNKNOWN d0 (repeat X_BASIC (length (g_rows p))) (repeat X_ON_LOWER (length (g_cols p))))
    (fun x q d p => let '(st, o) := solve q p in
       (false, mkTX st o (repeat X_ON_LOWER (length (g_rows p))) (repeat X_BASIC (length (g_cols p)))))
    tx_status
    (fun x => match tx_status x with ST_OPTIMAL => BS_OPTIMAL | _ => BS_REGULAR end)
    (fun _ => 1) (fun _ => d0) tx_obj
    (fun x c => nth (Z.to_nat c) (tx_cols x) X_UNDEFINED)
    (fun x r => nth (Z.to_nat r) (tx_rows x) X_UNDEFINED)
    (fun x => Some (tx_rows x, tx_cols x))
    (fun x rs cs => (false, mkTX ST_OPTIMAL (tx_obj x) rs cs))
    (fun x => (false, mkTX ST_NO_PROBLEM d0 [] []))
    order (fun _ => binv) (fun _ l => Some (swapped l))
    (fun l es => fold_left (fun t (e : entry num_double) => dadd t (dmul (nth (Z.to_nat (idx e)) l d0) (val e : double))) es d0)
    (fun x => match tx_status x with ST_OPTIMAL => Some (fun c => dint (c + 1)) | _ => None end)
    (fun _ => Some (fun r => dint (- r))) (fun _ => Some (fun r => dint (10 + r))) (fun _ => None)
    (fun _ => Some (fun c => dint (c - 1))) (fun _ => Some (fun r => dint (r - 1)))
    (fun x => match tx_status x with ST_UNBOUNDED => true | _ => false end)
    (fun x => match tx_status x with ST_INFEASIBLE => true | _ => false end)
    (fun _ r => if r =? 0 then 1 else -1) eps_zero rules1.

Lemma toyx_throws solve order binv : never_throws (toyx solve order binv).
Proof. split; auto. intros x p d q. cbn. destruct (solve p q). auto. Qed.
Lemma toyx_rules solve order binv : sane_rules (x_rules (toyx solve order binv)).
Proof. split; [|split]; calc. Qed.
Lemma toyx_basis solve order binv : s_reports_basis (toyx solve order binv).
Proof.
  assert (N : forall (l : list spx_var) c v, at_ l c = Ok v -> nth (Z.to_nat c) l X_UNDEFINED = v).
  { intros l c v H. unfold at_ in H. destruct (c <? 0); [discriminate|].
    destruct (nth_error l (Z.to_nat c)) eqn:E; [|discriminate]. injection H as ->. apply nth_error_nth. auto. }
  split; auto; intros x rs cs c v H; apply N; auto.
Qed.
Lemma toyx_keeps solve binv : keeps_entries (toyx solve (fun l => l) binv).
Proof. intros l. apply Permutation_refl. Qed.
Lemma toyx_keeps_rev solve binv : keeps_entries (toyx solve (@rev _) binv).
Proof. intros l. symmetry. apply Permutation_rev. Qed.

(** Every LP is optimal with the value 1. *)
Definition spx_easy (q : spx_params) (p : glop_lp) : spx_status * double := (ST_OPTIMAL, d1).
(** Optimal with the upper bound of the first column as value, infeasible if that is below 5,
    stopped by the iteration limit if its lower bound is above 8. *)
Definition spx_bounds (q : spx_params) (p : glop_lp) : spx_status * double :=
  match g_cols p with
  | [] => (ST_OPTIMAL, d0)
  | c :: _ => if dltb (dint 8) (g_lb c) then (ST_ABORT_ITER, g_lb c)
              else if dltb (g_ub c) (dint 5) then (ST_INFEASIBLE, d0) else (ST_OPTIMAL, g_ub c)
  end.
(** Every solve ends with an error. *)
Definition spx_broken (q : spx_params) (p : glop_lp) : spx_status * double := (ST_ERROR, d0).
(** The inverse with rows (0, 2) and (3, 0), sparse or dense. *)
Definition inverse2 : list (list double) := [[d0; dint 2]; [dint 3; d0]].
Definition binv_sparse (r : Z) : option (list double * list Z * Z) :=
  if r =? 0 then Some ([d0; dint 2], [1; 0], 1) else if r =? 1 then Some ([dint 3; d0], [0; 0], 1) else None.
Definition binv_dense (r : Z) : option (list double * list Z * Z) :=
  if r =? 0 then Some ([d0; dint 2], [0; 0], -1) else if r =? 1 then Some ([dint 3; d0], [0; 0], -1) else None.
(** Row 0 dense, row 1 sparse with its only non-zero in front. *)
Definition binv_mixed (r : Z) : option (list double * list Z * Z) :=
  if r =? 0 then Some ([d0; dint 2], [0; 0], -1) else if r =? 1 then Some ([dint 3; d0], [0; 0], 1) else None.
Definition tx1 := toyx spx_easy (fun l => l) binv_dense.

(** A new interface. *)
Definition spx_start : spx_params := to_spx rules1 (default_params LP_SOPLEX).
Definition fresh {E : spx_engine} : sstate E :=
  match spx_new (E := E) spx_start false with
  | Ok s => s | _ => mkS (mkLp [] [] false) (x_new E) spx_start true false false [] []
  end.
Lemma fresh_ok solve order binv : spx_new (E := toyx solve order binv) spx_start false = Ok fresh.
Proof.
  unfold fresh. assert (H : is_ok (spx_new (E := toyx solve order binv) spx_start false) = true) by calc.
  destruct (spx_new spx_start false); try discriminate H. auto.
Qed.
Definition safter {E : spx_engine} (l : list call) : sstate E :=
  match srun fresh l with Ok (s, _) => s | _ => fresh end.
Definition sreplies {E : spx_engine} (l : list call) : list reply :=
  match srun (E := E) fresh l with Ok (_, xs) => xs | _ => [] end.
Lemma sran {E : spx_engine} l : is_ok (srun (E := E) fresh l) = true ->
  srun fresh l = Ok (safter (E := E) l, sreplies (E := E) l).
Proof. unfold safter, sreplies. destruct (srun _ l) as [[s xs]| | | |]; intros H; try discriminate H. auto. Qed.
Lemma sreached solve order binv l : is_ok (srun (E := toyx solve order binv) fresh l) = true ->
  reached (safter (E := toyx solve order binv) l).
Proof.
  intros H. exists spx_start, false, fresh, l, (sreplies (E := toyx solve order binv) l).
  split; [apply fresh_ok|apply sran; auto].
Qed.
Definition ssolved {E : spx_engine} (d : bool) (s : sstate E) : sstate E :=
  match SpxSolveLp d s with Ok (s', _) => s' | _ => s end.
Definition ssolve_status {E : spx_engine} (d : bool) (s : sstate E) : bool :=
  match SpxSolveLp d s with Ok (_, b) => b | _ => false end.
Lemma ssolved_ok {E : spx_engine} d (s : sstate E) b : is_ok (SpxSolveLp d s) = true ->
  ssolve_status d s = b -> SpxSolveLp d s = Ok (ssolved d s, b).
Proof.
  unfold ssolved, ssolve_status. destruct (SpxSolveLp d s) as [[s' b']| | | |]; intros H <-; try discriminate H. auto.
Qed.
Definition sbranched {E : spx_engine} (r0 : sb_result) (s : sstate E) (v : double) (limit : Z)
  : sstate E * option sb_result :=
  match SpxSolveDownAndUpStrongBranch r0 s 0 v limit with Ok y => y | _ => (s, None) end.
Lemma sbranched_ok {E : spx_engine} r0 (s : sstate E) v limit r :
  snd (sbranched r0 s v limit) = Some r ->
  SpxSolveDownAndUpStrongBranch r0 s 0 v limit = Ok (fst (sbranched r0 s v limit), Some r).
Proof.
  unfold sbranched. destruct (SpxSolveDownAndUpStrongBranch r0 s 0 v limit) as [[s' r']| | | |];
    cbn [fst snd]; intros H; try discriminate H. rewrite H. auto.
Qed.
Definition sbased {E : spx_engine} (s : sstate E) (cs rs : list bstatus) : sstate E :=
  match SpxSetBasis s cs rs with Ok (s', _) => s' | _ => s end.
Definition sbased_status {E : spx_engine} (s : sstate E) (cs rs : list bstatus) : bool :=
  match SpxSetBasis s cs rs with Ok (_, b) => b | _ => false end.
Lemma sbased_ok {E : spx_engine} (s : sstate E) cs rs b : is_ok (SpxSetBasis s cs rs) = true ->
  sbased_status s cs rs = b -> SpxSetBasis s cs rs = Ok (sbased s cs rs, b).
Proof.
  unfold sbased, sbased_status. destruct (SpxSetBasis s cs rs) as [[s' b']| | | |]; intros H <-; try discriminate H. auto.
Qed.
Definition sset {E : spx_engine} (s : sstate E) (p : lp_params) : sstate E :=
  match SpxSetLpParameters s p with Ok (s', _) => s' | _ => s end.
Definition sset_status {E : spx_engine} (s : sstate E) (p : lp_params) : bool :=
  match SpxSetLpParameters s p with Ok (_, b) => b | _ => false end.
Lemma sset_ok {E : spx_engine} (s : sstate E) p b : is_ok (SpxSetLpParameters s p) = true ->
  sset_status s p = b -> SpxSetLpParameters s p = Ok (sset s p, b).
Proof.
  unfold sset, sset_status. destruct (SpxSetLpParameters s p) as [[s' b']| | | |]; intros H <-; try discriminate H. auto.
Qed.

(** *** Histories *)
Lemma s_legal_build r : s_legal_run (s_table_run (mkT [] [] false) build) r -> s_legal_run (mkT [] [] false) (build ++ r).
Proof.
  intros H. split; [split; [exact (clean_vec [] 0 eq_refl eq_refl eq_refl)|exact I]|].
  split; [split; [exact (clean_vec [] 0 eq_refl eq_refl eq_refl)|exact I]|].
  split.
  { split; [|exact I]. split; [|repeat split].
    constructor; [exact (clean_vec [(0, 1)] 2 eq_refl eq_refl eq_refl)|].
    constructor; [exact (clean_vec [(1, 2)] 2 eq_refl eq_refl eq_refl)|].
    constructor; [exact (clean_vec [(0, 3); (1, 4)] 2 eq_refl eq_refl eq_refl)|].
    constructor; [exact (clean_vec [(1, 5)] 2 eq_refl eq_refl eq_refl)|constructor]. }
  exact H.
Qed.
(** The build, two rows deleted, new bounds. *)
Definition sedits : list call :=
  build ++ [CDeleteRowSet [true; false; true; false]; CSetColumnBounds 1 d1 d1].
Lemma s_legal_edits : s_legal_run (mkT [] [] false) sedits.
Proof.
  apply s_legal_build. split; [split; [reflexivity|exact I]|]. split; [split; [|exact I]|exact I].
  split; [discriminate|reflexivity].
Qed.

(** *** Witnesses *)
Definition tx_rev := toyx spx_easy (@rev _) binv_dense.
(** The third row of the build holds two entries. *)
Definition row2 {E : spx_engine} : svec num_double :=
  match SpxGetSparseRow (E := E) (s_lp (safter (E := E) build)) 2 with Ok v => v | _ => vempty end.
Lemma row2_ok {E : spx_engine} : is_ok (SpxGetSparseRow (E := E) (s_lp (safter (E := E) build)) 2) = true ->
  SpxGetSparseRow (E := E) (s_lp (safter (E := E) build)) 2 = Ok (row2 (E := E)).
Proof. unfold row2. destruct (SpxGetSparseRow _ 2); intros H; try discriminate H. auto. Qed.
Lemma row_dirty : exists E p0 mx s0 l (s : sstate E) xs r v, keeps_entries E /\ spx_new p0 mx = Ok s0 /\
  s_legal_run (mkT [] [] mx) l /\ srun s0 l = Ok (s, xs) /\
  SpxGetSparseRow (E := E) (s_lp s) r = Ok v /\ ~ clean_vector (ncols (s_lp s)) v /\ map idx (ents v) = [1; 0].
Proof.
  exists tx_rev, spx_start, false, fresh, build, (safter build), (sreplies (E := tx_rev) build), 2, (row2 (E := tx_rev)).
  split; [apply toyx_keeps_rev|]. split; [apply fresh_ok|].
  split; [rewrite <- (app_nil_r build); apply s_legal_build; exact I|].
  split; [apply sran; calc|]. split; [apply row2_ok; calc|]. split; [|calc].
  intros [H _]. assert (K : dirty (row2 (E := tx_rev)) = true) by calc. rewrite K in H. discriminate H.
Qed.

(** A solve, then another LP from a file. *)
Lemma s_read_after : exists E p0 mx s0 l (s : sstate E) xs, spx_new p0 mx = Ok s0 /\
  s_legal_run (mkT [] [] mx) l /\ srun s0 l = Ok (s, xs) /\ SpxIsSolved s = true /\
  ncols (s_lp s) = 1 /\ (exists l0, l = l0 ++ [CRead (Some (s_lp s))]).
Proof.
  exists tx1, spx_start, false, fresh, read_after, (safter read_after), (sreplies (E := tx1) read_after).
  split; [apply fresh_ok|]. split.
  { apply s_legal_build. split; [split; exact I|]. split; [|exact I]. split; [|exact I]. constructor; [|constructor].
    split; [split; constructor|constructor]. }
  split; [apply sran; calc|]. split; [calc|]. split; [calc|].
  exists (build ++ [CSolve true]).
  assert (K : s_lp (safter (E := tx1) read_after) = lp_one) by calc. rewrite K. calc.
Qed.
(** A solve that returned an error. *)
Lemma s_failed_solve : exists E p0 mx s0 l (s : sstate E) xs, spx_new p0 mx = Ok s0 /\
  s_legal_run (mkT [] [] mx) (l ++ [CSolve true]) /\ srun s0 (l ++ [CSolve true]) = Ok (s, xs ++ [RErr]) /\
  SpxIsSolved s = true.
Proof.
  pose (E := toyx spx_broken (fun l => l) binv_dense).
  exists E, spx_start, false, fresh, build, (safter (build ++ [CSolve true])), (sreplies (E := E) build).
  split; [apply fresh_ok|]. split; [apply s_legal_build; split; [split; exact I|exact I]|].
  assert (R1 : sreplies (E := E) (build ++ [CSolve true]) = [ROk; ROk; ROk; RErr]) by calc.
  assert (R2 : sreplies (E := E) build = [ROk; ROk; ROk]) by calc.
  split; [rewrite R2; cbn [app]; rewrite <- R1; apply sran; calc|calc].
Qed.

(** *** Parameters *)
Definition scratch : lp_params :=
  mkParams LP_SOPLEX true SCALING_OFF true PRICING_DEVEX d1em8 dm1 dm1 0 dminf dinf TIMING_WALLCLOCK
    ten 100 1 7 false.
Lemma s_scratch_lost : exists E (s s' : sstate E), sane_rules (x_rules E) /\ reached s /\
  SpxSetLpParameters s scratch = Ok (s', true) /\ solve_from_scratch (SpxGetLpParameters s') = false.
Proof.
  exists tx1, (safter []), (sset (safter []) scratch). split; [apply toyx_rules|].
  split; [apply sreached; calc|]. split; [apply sset_ok; calc|calc].
Qed.
Lemma s_presolve_lost : exists E (s s' : sstate E), sane_rules (x_rules E) /\ reached s /\
  SpxSolveLp true s = Ok (s', true) /\ use_presolve (SpxGetLpParameters s) = true /\
  use_presolve (SpxGetLpParameters s') = false.
Proof.
  exists tx1, (safter build), (ssolved true (safter build)). split; [apply toyx_rules|].
  split; [apply sreached; calc|]. split; [apply ssolved_ok; calc|]. calcs.
Qed.

(** *** Strong branching *)
Definition tx_bounds := toyx spx_bounds (fun l => l) binv_dense.
Definition ssession : list call := build ++ [CSolve true; CStartStrongBranching].
Definition sb_unset : sb_result := mkSB None None None None None.
Lemma s_branch_both : exists s' r,
  SpxSolveDownAndUpStrongBranch sb_unset (safter (E := tx_bounds) ssession) 0 five_half 50 = Ok (s', Some r) /\
  r = mkSB (Some (dint 5)) (Some ten) (Some true) (Some true) (Some 2).
Proof.
  eexists (fst (sbranched sb_unset (safter (E := tx_bounds) ssession) five_half 50)), _. split; [|reflexivity].
  apply sbranched_ok. calc.
Qed.
(** 4.5: the down branch is infeasible; 8.5: the up branch reaches the iteration limit. *)
Lemma s_branch_others :
  snd (sbranched sb_unset (safter (E := tx_bounds) ssession) (ddiv (dint 9) (dint 2)) 50) =
    Some (mkSB (Some spx_inf) (Some ten) (Some true) (Some true) (Some 2)) /\
  snd (sbranched sb_unset (safter (E := tx_bounds) ssession) (ddiv (dint 17) (dint 2)) 50) =
    Some (mkSB (Some (dint 8)) (Some (dint 9)) (Some true) (Some false) (Some 2)).
Proof. calcs. Qed.
Lemma s_branch_unstarted : exists E (s : sstate E) r0, sane_rules (x_rules E) /\ never_throws E /\ reached s /\
  SpxIsSolved s = true /\ ncols (s_lp s) = 2 /\ SpxSolveDownAndUpStrongBranch r0 s 0 five_half 50 = Abort.
Proof.
  exists tx1, (safter (build ++ [CSolve true])), sb_unset. split; [apply toyx_rules|]. split; [apply toyx_throws|].
  split; [apply sreached; calc|]. calcs.
Qed.

(** *** Basis *)
Definition rejected_basis : list call := build ++ [CSetBasis [kBasic; kBasic] [kAtLowerBound; kFree; kBasic; kBasic]].
Lemma s_rejected : exists E p0 mx s0 l (s s' : sstate E) xs cs rs, spx_new p0 mx = Ok s0 /\ never_throws E /\
  srun s0 l = Ok (s, xs) /\ SpxSetBasis s cs rs = Ok (s', false) /\
  (exists s1, SpxSolveLp true s = Ok (s1, true)) /\ SpxSolveLp true s' = Abort.
Proof.
  pose (cs := [kBasic; kBasic]). pose (rs := [kAtLowerBound; kFree; kBasic; kBasic]).
  exists tx1, spx_start, false, fresh, build, (safter build), (sbased (safter build) cs rs),
    (sreplies (E := tx1) build), cs, rs.
  split; [apply fresh_ok|]. split; [apply toyx_throws|]. split; [apply sran; calc|]. split; [apply sbased_ok; calc|].
  split; [exists (ssolved true (safter build)); apply ssolved_ok; calc|calc].
Qed.
Lemma s_fixed_lost : exists E (s s' : sstate E), s_reports_basis E /\ reached s /\
  SpxSetBasis s [kFixed; kFree] [kBasic; kBasic; kBasic; kFixed] = Ok (s', true) /\
  SpxGetBasisStatusForColumns s' = Ok [kAtLowerBound; kFree] /\
  SpxGetBasisStatusForRows s' = Ok [kBasic; kBasic; kBasic; kAtLowerBound].
Proof.
  exists tx1, (safter build), (sbased (safter build) [kFixed; kFree] [kBasic; kBasic; kBasic; kFixed]).
  split; [apply toyx_basis|]. split; [apply sreached; calc|]. split; [apply sbased_ok; calc|calcs].
Qed.

(** *** The inverse: an LP with two rows *)
Definition two_rows : list call := build ++ [CDeleteRows 2 3; CSolve true].
Lemma inverse_in (b : list (list double)) n f :
  length b = n -> Forall (fun r => length r = n) b ->
  (forall r row, at_ b r = Ok row -> exists inds m, f r = Some (row, inds, m) /\
      (m = -1 \/
       0 <= m <= Z.of_nat (length inds) /\ NoDup (firstn (Z.to_nat m) inds) /\
       forall i, In i (firstn (Z.to_nat m) inds) <-> exists v, at_ row i = Ok v /\ is0 (v : num_double) = false)) ->
  forall E (x : X E), x_binv_row E x = f -> inverse_of E x n b.
Proof.
  intros L F H E x Ef. split; auto. intros r row Hr. split; [|rewrite Ef; auto].
  rewrite Forall_forall in F. apply F. unfold at_ in Hr. destruct (r <? 0); [discriminate|].
  destruct (nth_error b (Z.to_nat r)) eqn:N; [|discriminate]. injection Hr as <-. eapply nth_error_In; eauto.
Qed.
Lemma at_two {B} (a b : B) r x : at_ [a; b] r = Ok x -> r = 0 /\ x = a \/ r = 1 /\ x = b.
Proof.
  unfold at_. destruct (Z.ltb_spec r 0); [discriminate|]. destruct (Z.to_nat r) as [|[|k]] eqn:K; cbn; intros Hx.
  - injection Hx as <-. left. split; auto. lia.
  - injection Hx as <-. right. split; auto. lia.
  - destruct k; discriminate.
Qed.
Lemma inverse2_sparse E (x : X E) : x_binv_row E x = binv_sparse -> inverse_of E x 2 inverse2.
Proof.
  apply inverse_in; [reflexivity|repeat constructor|]. intros r row Hr. apply at_two in Hr as [[-> ->]|[-> ->]].
  - exists [1; 0], 1. split; [calc|]. right. split; [split; discriminate|]. split; [repeat constructor; intros []|].
    intros i. cbn [Z.to_nat Pos.to_nat Pos.iter_op firstn In]. split.
    + intros [<-|[]]. exists (dint 2). split; calc.
    + intros (v & Hv & Z0). apply at_two in Hv as [[-> ->]|[-> ->]]; [|left; auto].
      assert (K : is0 (d0 : num_double) = true) by calc. rewrite K in Z0. discriminate Z0.
  - exists [0; 0], 1. split; [calc|]. right. split; [split; discriminate|]. split; [repeat constructor; intros []|].
    intros i. cbn [Z.to_nat Pos.to_nat Pos.iter_op firstn In]. split.
    + intros [<-|[]]. exists (dint 3). split; calc.
    + intros (v & Hv & Z0). apply at_two in Hv as [[-> ->]|[-> ->]]; [left; auto|].
      assert (K : is0 (d0 : num_double) = true) by calc. rewrite K in Z0. discriminate Z0.
Qed.
Lemma inverse2_dense E (x : X E) : x_binv_row E x = binv_dense -> inverse_of E x 2 inverse2.
Proof.
  apply inverse_in; [reflexivity|repeat constructor|]. intros r row Hr. apply at_two in Hr as [[-> ->]|[-> ->]].
  - exists [0; 0], (-1). split; [calc|]. left. auto.
  - exists [0; 0], (-1). split; [calc|]. left. auto.
Qed.
Lemma inverse2_mixed E (x : X E) : x_binv_row E x = binv_mixed -> inverse_of E x 2 inverse2.
Proof.
  apply inverse_in; [reflexivity|repeat constructor|]. intros r row Hr. apply at_two in Hr as [[-> ->]|[-> ->]].
  - exists [0; 0], (-1). split; [calc|]. left. auto.
  - exists [0; 0], 1. split; [calc|]. right. split; [split; discriminate|]. split; [repeat constructor; intros []|].
    intros i. cbn [Z.to_nat Pos.to_nat Pos.iter_op firstn In]. split.
    + intros [<-|[]]. exists (dint 3). split; calc.
    + intros (v & Hv & Z0). apply at_two in Hv as [[-> ->]|[-> ->]]; [left; auto|].
      assert (K : is0 (d0 : num_double) = true) by calc. rewrite K in Z0. discriminate Z0.
Qed.
Lemma inverse2_in_place E (x : X E) : x_binv_row E x = binv_mixed -> listed_in_place E x 2.
Proof.
  intros H r row inds m Hr. rewrite H. unfold binv_mixed.
  destruct (r =? 0); [intros K; injection K as _ _ <-; auto|].
  destruct (r =? 1); [|discriminate]. intros K. injection K as _ <- <-. right. intros i Hi.
  assert (i = 0) as -> by lia. reflexivity.
Qed.
Definition tx_mixed := toyx spx_easy (fun l => l) binv_mixed.
Definition tx_sparse := toyx spx_easy (fun l => l) binv_sparse.
Definition inv_row {E : spx_engine} (s : sstate E) r :=
  match SpxRowOfBInverted s r with Ok v => v | _ => vempty end.
Definition inv_col {E : spx_engine} (s : sstate E) c :=
  match SpxColumnOfBInverted s c with Ok v => v | _ => vempty end.
Lemma inv_row_ok {E : spx_engine} (s : sstate E) r : is_ok (SpxRowOfBInverted s r) = true ->
  SpxRowOfBInverted s r = Ok (inv_row s r).
Proof. unfold inv_row. destruct (SpxRowOfBInverted s r); intros H; try discriminate H. auto. Qed.
Lemma inv_col_ok {E : spx_engine} (s : sstate E) c : is_ok (SpxColumnOfBInverted s c) = true ->
  SpxColumnOfBInverted s c = Ok (inv_col s c).
Proof. unfold inv_col. destruct (SpxColumnOfBInverted s c); intros H; try discriminate H. auto. Qed.
Lemma s_inverse_wrong : exists E (s : sstate E) b v w, reached s /\ SpxIsOptimal s = Ok true /\
  inverse_of E (s_x s) (length (g_rows (s_lp s))) b /\
  SpxRowOfBInverted s 0 = Ok v /\ SpxColumnOfBInverted s 1 = Ok w /\
  deqb (value v 1) (dint 2) = true /\ deqb (value w 0) d0 = true.
Proof.
  exists tx_sparse, (safter two_rows), inverse2, (inv_row (safter (E := tx_sparse) two_rows) 0),
    (inv_col (safter (E := tx_sparse) two_rows) 1).
  split; [apply sreached; calc|]. split; [calc|].
  assert (L : length (g_rows (s_lp (safter (E := tx_sparse) two_rows))) = 2%nat) by calc.
  split; [rewrite L; apply inverse2_sparse; reflexivity|].
  split; [apply inv_row_ok; calc|]. split; [apply inv_col_ok; calc|]. calcs.
Qed.

(** *** The branches *)
(** 3.000001 *)
Definition three_eps : double := S754_finite false 6755401692855558 (-51).
Lemma three_eps_far : further_than d1em6 three_eps.
Proof.
  intros n. assert (A : zval three_eps = 3 * zone + 1125899907 * 2 ^ 1024) by calc.
  assert (B : zone = 2 ^ 50 * 2 ^ 1024) by calc. assert (C : zval d1em6 < 1125899907 * 2 ^ 1024) by reflexivity.
  assert (D : 0 < 2 ^ 1024) by reflexivity. rewrite A, B. set (u := 2 ^ 1024) in *. clearbody u. clear A B.
  destruct (Z.le_gt_cases n 3).
  - nia.
  - assert (1125899907 < 2 ^ 49) by reflexivity. change (2 ^ 50) with (2 * 2 ^ 49). nia.
Qed.
Lemma s_branch_gap : exists E (s s' : sstate E) v r, sane_rules (x_rules E) /\ reached s /\
  let eps := feasibility_tolerance (SpxGetLpParameters s) in
  further_than eps v /\
  SpxSolveDownAndUpStrongBranch sb_unset s 0 v 50 = Ok (s', Some r) /\
  dceil (dsub (dsub v d1) eps) = dint 2 /\ dfloor (dsub (dadd v d1) eps) = dint 4.
Proof.
  exists tx1, (safter ssession), (fst (sbranched sb_unset (safter ssession) three_eps 50)), three_eps.
  exists (mkSB (Some d1) (Some d1) (Some true) (Some true) (Some 2)).
  split; [apply toyx_rules|]. split; [apply sreached; calc|].
  assert (T : feasibility_tolerance (SpxGetLpParameters (safter (E := tx1) ssession)) = d1em6) by calc.
  rewrite T. cbv zeta. split; [exact three_eps_far|]. split; [apply sbranched_ok; calc|calcs].
Qed.
Lemma five_half_fractional : fractional_by 18 five_half /\ tolerance_below 18 d1em6.
Proof.
  assert (A : zval five_half = 11 * 2 ^ 1073) by calc. assert (B : zone = 2 * 2 ^ 1073) by calc.
  assert (D : 0 < 2 ^ 1073) by reflexivity. split.
  - split; [lia|]. split; [calc|]. split; [calc|]. rewrite A, B. set (u := 2 ^ 1073) in *. clearbody u.
    change (2 ^ (49 - 18)) with 2147483648. split; [lia|]. intros n. change (2 ^ 18) with 262144.
    destruct (Z.le_gt_cases n 5); nia.
  - split; [calc|]. split; [calc|]. split; [discriminate|].
    assert (K : (zval d1em6 * 2 ^ (18 + 1) <=? zone) = true) by calc. apply Z.leb_le. exact K.
Qed.

Lemma s_stored_build solve order binv : is_ok (srun (E := toyx solve order binv) fresh build) = true ->
  stored_lp (s_lp (safter (E := toyx solve order binv) build)).
Proof.
  intros H. apply (spx_history_stored spx_start false fresh build _ (sreplies (E := toyx solve order binv) build)).
  - apply fresh_ok.
  - rewrite <- (app_nil_r build). apply s_legal_build. exact I.
  - apply sran. auto.
Qed.
Definition crossing : list call := build ++ [CSetColumnBounds 0 (dint 3) (dint 2)].
Lemma s_crossing : exists E (s : sstate E) g, sane_rules (x_rules E) /\ never_throws E /\ reached s /\
  In g (g_cols (s_lp s)) /\ g_lb g = dint 3 /\ g_ub g = dint 2 /\
  SpxSolveLp true s = Abort /\ SpxSolveLp false s = Abort.
Proof.
  exists tx1, (safter crossing), (mkGCol (dint 3) (dint 2) d1 EmptyString [ent 0 1; ent 2 3]).
  split; [apply toyx_rules|]. split; [apply toyx_throws|]. split; [apply sreached; calc|]. split; [|calcs].
  assert (K : nth_error (g_cols (s_lp (safter (E := tx1) crossing))) 0 =
    Some (mkGCol (dint 3) (dint 2) d1 EmptyString [ent 0 1; ent 2 3])) by calc.
  eapply nth_error_In. exact K.
Qed.
Definition sstepped {E : spx_engine} (s : sstate E) (c : call) : sstate E :=
  match sstep s c with Ok (s', _) => s' | _ => s end.
Definition sstep_reply {E : spx_engine} (s : sstate E) (c : call) : reply :=
  match sstep s c with Ok (_, x) => x | _ => RErr end.
Lemma sstepped_ok {E : spx_engine} (s : sstate E) c x : is_ok (sstep s c) = true -> sstep_reply s c = x ->
  sstep s c = Ok (sstepped s c, x).
Proof. unfold sstepped, sstep_reply. destruct (sstep s c) as [[s' x']| | | |]; intros H <-; try discriminate H. auto. Qed.
Lemma s_empty_session : exists E (s s1 : sstate E), never_throws E /\ reached s /\ freed s = true /\
  sstep s CStartStrongBranching = Ok (s1, ROk) /\ sstep s1 CEndStrongBranching = Abort.
Proof.
  exists tx1, (safter []), (sstepped (safter []) CStartStrongBranching).
  split; [apply toyx_throws|]. split; [apply sreached; calc|]. split; [calc|]. split; [apply sstepped_ok; calc|calc].
Qed.
Lemma s_write_empty : exists E (s : sstate E), reached s /\ forall written, sstep s (CWrite EmptyString written) = Abort.
Proof. exists tx1, (safter []). split; [apply sreached; calc|]. intros written. apply spx_write_empty. Qed.

(** The LP of [two_rows] is stored properly. *)
Lemma s_stored_two : stored_lp (s_lp (safter (E := tx1) two_rows)).
Proof.
  apply (spx_history_stored spx_start false fresh two_rows _ (sreplies (E := tx1) two_rows)).
  - apply fresh_ok.
  - apply s_legal_build. split; [split; [|exact I]|split; [split; exact I|exact I]]. cbn. lia.
  - apply sran. calc.
Qed.
