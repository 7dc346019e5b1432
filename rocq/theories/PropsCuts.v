(** Property theorems C25-C31, C61, C62 (cut registry, selection, separation rounds).
    Specification vocabulary: [CutSpec].  Models: [CutsData], [Selector], [Runner]. *)
From Coq Require Import String List ZArith Bool Lia Permutation Sorted.
From Verif Require Import Outcome Num Double SparseVector VectorSpec MipData CutsData Selector
  Runner CutSpec CutProofs CutAlias FreshParams.
Import ListNotations.
Open Scope Z_scope.
Open Scope string_scope.

(** Cuts for the examples: x0 + x1 <= k and 2 x0 <= k. *)
Definition ent (i : Z) (x : double) : entry num_double := mkE (N := num_double) i x.
Definition cutA (k : Z) : cut :=
  mkCut (mkV [ent 0 d1; ent 1 d1] false) (dint k) 2 1 d0 "A" false false (dint k) None None.
Definition cutB (k : Z) : cut :=
  mkCut (mkV [ent 0 (dint 2)] false) (dint k) 1 1 d0 "B" false false (dint k) None None.
Definition forced (c : cut) : cut :=
  mkCut (row c) (right_hand_side c) (number_of_non_zeros c) (number_of_integer_variables c)
    (objective_parallelism c) (name c) true (is_active c) (efficacy c) (cut_index c) (score_ c).
Definition reg_case : list rop :=
  [RAdd (cutA 1); RAdd (cutB 2); RAdd (cutA 3); RActivate 2; RActivate 0; RRemove 0; RAdd (cutB 4)].

(** C25. After any history with in-range arguments every call succeeds and every stored
    cut's index is its position. *)
Theorem C25_defined : forall ops, rcalls_ok reg_new ops -> exists g, rrun reg_new ops = Ok g.
Proof. exact registry_defined. Qed.
Print Assumptions C25_defined.

Theorem C25_index : forall g i c, reg_reachable g -> GetCut g i = Ok c -> index c = Ok i.
Proof. exact registry_index. Qed.
Print Assumptions C25_index.

(** C25. Until it is stored a new cut has no index, and until it is selected no score: asking for one
    throws. Storing it sets the index and leaves the score as it was. *)
Theorem C25_unset : forall ints obj x r rhs nm f g,
  let c := CreateCut ints obj x r rhs nm f in
  index c = Abort /\ score c = Abort /\
  forall c0 g' i, AddCut g c0 = (g', i) -> exists c1, GetCut g' i = Ok c1 /\ index c1 = Ok i /\ score c1 = score c0.
Proof. exact unset_spec. Qed.
Print Assumptions C25_unset.

(** C25. A new cut holds what it was made of, is not active, and counts the entries of its row and the
    integer variables among them. *)
Theorem C25_create : forall ints obj x r rhs nm f, canonical (ents r) ->
  let c := CreateCut ints obj x r rhs nm f in
  row c = r /\ right_hand_side c = rhs /\ name c = nm /\ is_forced c = f /\ is_active c = false /\
  number_of_non_zeros c = Z.of_nat (List.length (ents r)) /\
  exists js, NoDup js /\ (forall j, In j js <-> In j ints /\ In j (map idx (ents r))) /\
    number_of_integer_variables c = Z.of_nat (List.length js).
Proof. exact new_cut. Qed.
Print Assumptions C25_create.
(** A forced cut 2 x0 + x3 <= 5 where x0 and x7 are integer. *)
Example C25_create_case : let r := mkV [ent 0 (dint 2); ent 3 d1] false in
  let c := CreateCut [7; 0] r r r (dint 5) "F" true in
  canonical (ents r) /\ is_forced c = true /\ is_active c = false /\ number_of_non_zeros c = 2 /\
  number_of_integer_variables c = 1.
Proof.
  split; [|repeat split; reflexivity]. split; [repeat constructor|].
  repeat constructor; discriminate.
Qed.

(** C25: AddCut returns the position of the new cut and changes nothing else. *)
Theorem C25_add : forall g c g' i, AddCut g c = (g', i) ->
  i = num_cuts g /\ num_cuts g' = num_cuts g + 1 /\ bodies g' = (bodies g ++ [body c])%list /\
  GetCut g' i = Ok (SetIndex c i) /\ (forall j, j <> i -> GetCut g' j = GetCut g j) /\
  active_cuts g' = active_cuts g.
Proof. exact add_cut_spec. Qed.
Print Assumptions C25_add.

(** C25: RemoveCut removes exactly the named cut; order and contents of the others stay. *)
Theorem C25_remove : forall g i, reg_reachable g -> 0 <= i < num_cuts g ->
  exists g', RemoveCut g i = Ok g' /\ bodies g' = erase_at (bodies g) (Z.to_nat i) /\
    num_cuts g' = num_cuts g - 1.
Proof. exact remove_cut_spec. Qed.
Print Assumptions C25_remove.

Lemma reg_case_ok : rcalls_ok reg_new reg_case.
Proof.
  cbn [reg_case rcalls_ok]. repeat match goal with
  | |- _ /\ _ => split; [vm_compute; try split; congruence|]
  | |- forall g', _ => intros ? HH; cbn in HH; injection HH as <-
  end. exact I.
Qed.
Example C25_case : exists g, rcalls_ok reg_new reg_case /\ rrun reg_new reg_case = Ok g /\
  reg_reachable g /\ num_cuts g = 3 /\ active_cuts g = [1] /\
  (exists c, GetCut g 1 = Ok c /\ body c = body (cutA 3)).
Proof.
  eexists. split; [apply reg_case_ok|]. split; [vm_compute; reflexivity|].
  split; [exists reg_case; split; [apply reg_case_ok|vm_compute; reflexivity]|].
  split; [reflexivity|]. split; [reflexivity|]. eexists. split; reflexivity.
Qed.

(** C26, full statement: active_cuts names exactly the cuts activated and not removed.
    False if a cut is activated twice: after removing it an entry is left that is out of
    range, or names a cut that was never activated. *)
Theorem C26_active_refuted :
  (exists ops g j, rcalls_ok reg_new ops /\ rrun reg_new ops = Ok g /\
     In j (active_cuts g) /\ num_cuts g <= j) /\
  (exists ops g j, rcalls_ok reg_new ops /\ rrun reg_new ops = Ok g /\
     In j (active_cuts g) /\ 0 <= j < num_cuts g /\
     ~ In (id_at (areg_run areg_new ops) j) (acts (areg_run areg_new ops))).
Proof.
  split.
  - exists [RAdd (cutA 1); RActivate 0; RActivate 0; RRemove 0]. eexists. exists 0.
    split; [|split; [vm_compute; reflexivity|split; [left; reflexivity|vm_compute; congruence]]].
    cbn [rcalls_ok]. repeat match goal with
    | |- _ /\ _ => split; [vm_compute; try split; congruence|]
    | |- forall g', _ => intros ? HH; cbn in HH; injection HH as <-
    end. exact I.
  - exists [RAdd (cutA 1); RAdd (cutB 2); RActivate 0; RActivate 0; RRemove 0]. eexists. exists 0.
    split; [|split; [vm_compute; reflexivity|split; [left; reflexivity|split; [vm_compute; split; congruence|]]]].
    + cbn [rcalls_ok]. repeat match goal with
      | |- _ /\ _ => split; [vm_compute; try split; congruence|]
      | |- forall g', _ => intros ? HH; cbn in HH; injection HH as <-
      end. exact I.
    + vm_compute. tauto.
Qed.
Print Assumptions C26_active_refuted.

(** C26, what does hold: if no cut is activated while active, active_cuts lists, in order
    of activation and without repetition, the positions of exactly the cuts activated and
    not removed. Missing: repeated activation. *)
Theorem C26_active_partial : forall ops g, rcalls_ok reg_new ops -> activated_once areg_new ops ->
  rrun reg_new ops = Ok g ->
  let s := areg_run areg_new ops in
  List.length (cuts g) = List.length (ids s) /\ NoDup (active_cuts g) /\
  Forall (fun j => 0 <= j < num_cuts g) (active_cuts g) /\
  map (id_at s) (active_cuts g) = acts s.
Proof. exact active_list. Qed.
Print Assumptions C26_active_partial.

Example C26_case : rcalls_ok reg_new reg_case /\ activated_once areg_new reg_case /\
  areg_run areg_new reg_case = mkAreg [1; 2; 3]%nat [2]%nat 4.
Proof.
  split; [apply reg_case_ok|]. split; [|reflexivity]. vm_compute. intuition discriminate.
Qed.

(** C61, full statement: RemoveCut may be called with any index the registry hands out.
    False for active_cuts()[k], which is handed out by reference: the registry changes it
    while still using it. Here the cuts left have wrong indices, or the call reads past
    the end. *)
Theorem C61_remove_alias_refuted :
  (exists g g' i c, reg_reachable g /\ RemoveCutAlias g 0 = Ok g' /\
     GetCut g' i = Ok c /\ index c <> Ok i) /\
  (exists g, reg_reachable g /\ active_cuts g = [0] /\ RemoveCutAlias g 0 = UB).
Proof.
  split.
  - exists ltac:(let g := eval vm_compute in (rrun reg_new [RAdd (cutA 1); RAdd (cutA 2); RAdd (cutA 3);
        RActivate 0; RActivate 2]) in match g with Ok ?x => exact x end).
    eexists. exists 0. eexists. split.
    + exists [RAdd (cutA 1); RAdd (cutA 2); RAdd (cutA 3); RActivate 0; RActivate 2]. split; [|vm_compute; reflexivity].
      cbn [rcalls_ok]. repeat match goal with
      | |- _ /\ _ => split; [vm_compute; try split; congruence|]
      | |- forall g', _ => intros ? HH; cbn in HH; injection HH as <-
      end. exact I.
    + split; [vm_compute; reflexivity|]. split; [reflexivity|]. vm_compute. discriminate.
  - exists ltac:(let g := eval vm_compute in (rrun reg_new [RAdd (cutA 1); RActivate 0]) in match g with Ok ?x => exact x end).
    split; [|split; reflexivity].
    exists [RAdd (cutA 1); RActivate 0]. split; [|vm_compute; reflexivity].
    cbn [rcalls_ok]. repeat match goal with
    | |- _ /\ _ => split; [vm_compute; try split; congruence|]
    | |- forall g', _ => intros ? HH; cbn in HH; injection HH as <-
    end. exact I.
Qed.
Print Assumptions C61_remove_alias_refuted.

(** C61: handing it the last active cut is undefined in every registry. *)
Theorem C61_last_undefined : forall g k, S k = List.length (active_cuts g) -> RemoveCutAlias g k = UB.
Proof. exact remove_last_alias. Qed.
Print Assumptions C61_last_undefined.

(** C61: handing it any other active cut [i] always goes wrong. With [i'] the active cut after it, the
    cut then stored at position min i i' has another index (i + 1 or i' - 1); in the active list the
    entries above [i'], not those above [i], are decremented. *)
Theorem C61_always_wrong : forall g k i i', reg_reachable g -> NoDup (active_cuts g) ->
  nth_error (active_cuts g) k = Some i -> nth_error (active_cuts g) (S k) = Some i' ->
  0 <= i < num_cuts g -> 0 <= i' < num_cuts g ->
  exists g', RemoveCutAlias g k = Ok g' /\
  active_cuts g' = map (fun j => if (i' <? j)%Z then j - 1 else j) (firstn k (active_cuts g) ++ skipn (S k) (active_cuts g)) /\
  num_cuts g' = num_cuts g - 1 /\
  exists c, GetCut g' (Z.min i i') = Ok c /\ index c = Ok (if (i <? i')%Z then i + 1 else i' - 1).
Proof. exact alias_wrong. Qed.
Print Assumptions C61_always_wrong.

(** Three cuts, 2 and 0 active in this order: after removing active_cuts()[0] the first cut says it is
    number -1, and the active list holds it. *)
Example C61_wrong_case : exists g g' c,
  rrun reg_new [RAdd (cutA 1); RAdd (cutA 2); RAdd (cutA 3); RActivate 2; RActivate 0] = Ok g /\
  active_cuts g = [2; 0] /\ RemoveCutAlias g 0 = Ok g' /\ active_cuts g' = [0] /\
  GetCut g' 0 = Ok c /\ index c = Ok (-1).
Proof.
  eexists. eexists. eexists. split; [vm_compute; reflexivity|]. split; [reflexivity|].
  split; [vm_compute; reflexivity|]. repeat split.
Qed.

(** C62. UpdateCutEfficacy recomputes the efficacy of every cut and changes nothing else. *)
Theorem C62_update_efficacy : forall g x,
  let g' := UpdateCutEfficacy g x in
  active_cuts g' = active_cuts g /\ num_cuts g' = num_cuts g /\
  forall i c, GetCut g i = Ok c ->
    GetCut g' i = Ok (SetEfficacy c (ComputeEfficacy (row c) (right_hand_side c) x)).
Proof. exact update_efficacy_spec. Qed.
Print Assumptions C62_update_efficacy.

Example C62_case : exists g c, rrun reg_new reg_case = Ok g /\
  GetCut (UpdateCutEfficacy g (mkV [ent 0 (dint 5)] false)) 0 = Ok c /\
  efficacy c = dint 4 /\ index c = Ok 0.
Proof. eexists. eexists. split; [vm_compute; reflexivity|]. split; [vm_compute; reflexivity|]. split; reflexivity. Qed.

(** C62. That efficacy is the distance by which the point is beyond the cut. *)
Theorem C62_efficacy : forall r rhs x, canonical (ents r) -> canonical (ents x) ->
  ComputeEfficacy r rhs x = distance r rhs x.
Proof. exact efficacy_formula. Qed.
Print Assumptions C62_efficacy.

Example C62_efficacy_case :
  ComputeEfficacy (mkV [ent 0 (dint 3); ent 2 (dint 4)] false) (dint 5)
    (mkV [ent 0 (dint 5); ent 1 d1] false) = dint 2.
Proof. reflexivity. Qed.

(** A sort for the examples, and proof that such a sort exists. *)
Fixpoint insert_cut (c : cut) (l : list cut) : list cut :=
  match l with
  | [] => [c]
  | d :: r => if dltb (score_of c) (score_of d) then d :: insert_cut c r else c :: d :: r
  end.
Definition sort_cuts (l : list cut) : list cut := fold_right insert_cut [] l.
Lemma sort_cuts_sorts : sorts sort_cuts.
Proof. exact insertion_sorts. Qed.

Definition sel_case (n : Z) : selector_params :=
  mkSel d1 d0 d0 (ddiv d1 (dint 2)) false (dint 2) n.
Definition cuts_case : list cut := [cutA 1; cutB 3; cutA 5; cutA 4; forced (cutA 2); cutB 2].

(** C27. Selection terminates for every list of cuts that have non-zeros ... *)
Theorem C27_terminates : forall sort p cs, sorts sort ->
  Forall (fun c => number_of_non_zeros c <> 0) cs ->
  exists r, SelectCuttingPlanes sort p cs = Ok r.
Proof. exact select_total. Qed.
Print Assumptions C27_terminates.

(** ... and whatever it returns is a sub-collection of its input (no cut more often than
    given), each with its score set and not below the threshold, at most max_num_cuts of
    them if that is positive, in order of decreasing score if no score is NaN. *)
Theorem C27_subset : forall sort p cs r, sorts sort -> SelectCuttingPlanes sort p cs = Ok r ->
  sub_multiset (map unscored r) (map unscored cs) /\
  Forall (fun c => exists s, score_ c = Some s /\ ComputeCutScore p (unscored c) = Ok s /\
            dltb s (score_threshold p) = false) r /\
  (0 < max_num_cuts p -> Z.of_nat (List.length r) <= max_num_cuts p) /\
  ((forall c s, In c cs -> ComputeCutScore p c = Ok s -> is_nan s = false) ->
     StronglySorted (fun a b => dleb (score_of b) (score_of a) = true) r).
Proof. exact select_subset. Qed.
Print Assumptions C27_subset.

Example C27_case : sorts sort_cuts /\ exists r, SelectCuttingPlanes sort_cuts (sel_case 2) cuts_case = Ok r /\
  map unscored r = [cutA 5; forced (cutA 2)].
Proof. split; [apply sort_cuts_sorts|]. eexists. split; [vm_compute; reflexivity|]. reflexivity. Qed.

(** C65, full statement: any list of cuts can be given to the selector. False: a cut without
    non-zeros makes it divide by zero (the MIR rounder produces such cuts, see C36). *)
Theorem C65_empty_always_ub : forall sort p cs c, In c cs -> number_of_non_zeros c = 0 ->
  dltb d0 (integer_support_weight p) = true -> SelectCuttingPlanes sort p cs = UB.
Proof. exact empty_cut_ub. Qed.
Print Assumptions C65_empty_always_ub.

Theorem C65_empty_refuted : exists sort p c ints obj x, sorts sort /\
  c = CreateCut ints obj x (mkV [] false) (dint (-1)) "MIR0" false /\
  SelectCuttingPlanes sort p [c] = UB.
Proof.
  exists sort_cuts, (mkSel d1 d1 d1 d0 false d0 1).
  exists (CreateCut [0] (mkV [ent 0 d1] false) (mkV [ent 0 d1] false) (mkV [] false) (dint (-1)) "MIR0" false).
  exists [0], (mkV [ent 0 d1] false), (mkV [ent 0 d1] false).
  split; [apply sort_cuts_sorts|]. split; reflexivity.
Qed.
Print Assumptions C65_empty_refuted.

(** C69, full statement: the score is the weighted sum of efficacy, the fraction of integer
    variables and objective parallelism. False: the fraction is an integer division. *)
Theorem C69_score_refuted : exists p c s, number_of_non_zeros c = 2 /\ number_of_integer_variables c = 1 /\
  ComputeCutScore p c = Ok s /\ s = d0 /\ weighted_score p c (integer_support c) = ddiv d1 (dint 2).
Proof.
  exists (mkSel d1 d1 d1 d0 false d0 1),
    (mkCut (mkV [ent 0 d1; ent 1 d1] false) d1 2 1 d0 "C" false false d0 None None), d0.
  repeat split.
Qed.
Print Assumptions C69_score_refuted.

(** C69, what does hold: for a cut made by CreateCut with a non-empty row the score is the weighted
    sum with a fraction that counts as 1 if every non-zero belongs to an integer variable and as 0
    otherwise. *)
Theorem C69_score_partial : forall p ints obj x r rhs nm f,
  let c := CreateCut ints obj x r rhs nm f in ents r <> [] ->
  number_of_non_zeros c = Z.of_nat (List.length (ents r)) /\
  exists s, ComputeCutScore p c = Ok (weighted_score p c s) /\
    ((forall e, In e (ents r) -> In (idx e) ints) -> s = d1) /\
    ((exists e, In e (ents r) /\ ~ In (idx e) ints) -> s = d0).
Proof. exact created_score. Qed.
Print Assumptions C69_score_partial.

Example C69_case : ComputeCutScore (mkSel (dint 2) (dint 3) d0 d0 false d0 1)
  (CreateCut [0; 1] (mkV [ent 0 d1] false) (mkV [ent 0 (dint 5)] false)
     (mkV [ent 0 d1] false) d1 "C" false) = Ok (dint 11).
Proof. reflexivity. Qed.

(** C28. Of two selected cuts the later one is forced or not too parallel to the earlier
    one: the (signed or absolute) cosine does not exceed 1 - minimum_orthogonality. *)
Theorem C28_orthogonal : forall sort p cs r, sorts sort -> SelectCuttingPlanes sort p cs = Ok r ->
  forall i j a b, (i < j)%nat -> nth_error r i = Some a -> nth_error r j = Some b ->
    is_forced b = true \/ ~ too_parallel p a b.
Proof. exact select_orthogonal. Qed.
Print Assumptions C28_orthogonal.

Example C28_case : exists r, SelectCuttingPlanes sort_cuts (sel_case 0) cuts_case = Ok r /\
  map unscored r = [cutA 5; forced (cutA 2)] /\ too_parallel (sel_case 0) (cutA 5) (cutB 3) /\
  exists r', SelectCuttingPlanes sort_cuts (sel_case 0)
     [cutA 5; mkCut (mkV [ent 2 d1] false) d1 1 1 d0 "C" false false (dint 3) None None] = Ok r' /\
     List.length r' = 2%nat.
Proof.
  eexists. split; [vm_compute; reflexivity|]. split; [reflexivity|]. split; [vm_compute; reflexivity|].
  eexists. split; [vm_compute; reflexivity|]. reflexivity.
Qed.

(** C29, full statement: max_num_cuts = 0 turns the selector off, -1 means no limit and
    forced cuts are always selected. False: with 0 cuts are still selected, and a forced
    cut is dropped if its score is low or the limit is reached before it. *)
Theorem C29_limits_refuted :
  (exists sort p cs r, sorts sort /\ max_num_cuts p = 0 /\ SelectCuttingPlanes sort p cs = Ok r /\ r <> []) /\
  (exists sort p c, sorts sort /\ is_forced c = true /\ SelectCuttingPlanes sort p [c] = Ok []) /\
  (exists sort p cs r, sorts sort /\ SelectCuttingPlanes sort p cs = Ok r /\
     score_threshold p = d0 /\ In (forced (cutA 2)) cs /\ ~ exists c, In c r /\ is_forced c = true).
Proof.
  split; [|split].
  - exists sort_cuts, (sel_case 0), cuts_case. eexists. split; [apply sort_cuts_sorts|].
    split; [reflexivity|]. split; [vm_compute; reflexivity|]. discriminate.
  - exists sort_cuts, (sel_case 0), (forced (cutA 1)). split; [apply sort_cuts_sorts|].
    split; [reflexivity|]. vm_compute; reflexivity.
  - exists sort_cuts, (mkSel d1 d0 d0 (ddiv d1 (dint 2)) false d0 1), [forced (cutA 2); cutA 5].
    eexists. split; [apply sort_cuts_sorts|]. split; [vm_compute; reflexivity|]. split; [reflexivity|].
    split; [left; reflexivity|]. intros (c & [<-|[]] & H). discriminate.
Qed.
Print Assumptions C29_limits_refuted.

(** C29, what does hold: with a non-positive limit, or one that is not reached, every cut
    whose score is not below the threshold is selected, unless it is unforced and too
    parallel to a selected one. So -1 means no limit, and forced cuts of sufficient score
    are selected. Missing: 0 as "off", and forced cuts of low score or past the limit. *)
Theorem C29_limits_partial : forall sort p cs r, sorts sort -> SelectCuttingPlanes sort p cs = Ok r ->
  (forall c s, In c cs -> ComputeCutScore p c = Ok s -> is_nan s = false) ->
  Z.of_nat (List.length r) <> max_num_cuts p \/ max_num_cuts p <= 0 ->
  forall c s, In c cs -> ComputeCutScore p c = Ok s -> dltb s (score_threshold p) = false ->
  In (SetScore c s) r \/ (is_forced c = false /\ exists a, In a r /\ too_parallel p a c).
Proof. exact select_maximal. Qed.
Print Assumptions C29_limits_partial.

Example C29_case :
  (forall c s, In c cuts_case -> ComputeCutScore (sel_case (-1)) c = Ok s -> is_nan s = false) /\
  exists r, SelectCuttingPlanes sort_cuts (sel_case (-1)) cuts_case = Ok r /\
    map unscored r = [cutA 5; forced (cutA 2)].
Proof.
  split; [|eexists; split; [vm_compute; reflexivity|reflexivity]].
  intros c s H E. cbn in H. decompose [or] H; try tauto; subst c; vm_compute in E; injection E as <-; reflexivity.
Qed.

(** C30. Over the lifetime of a runner, whatever generators, selector and LP do, at most
    max_iterations rounds are completed; each one registers a non-empty list of new cuts,
    adds exactly those to the LP, in registry order, with left side -inf and the cut's
    right side, and then solves; nothing else is registered or sent to the LP. *)
Theorem C30_rounds : forall W stops solved gens sel addr solve p between g (w : W) s',
  separations (Separate W stops solved gens sel addr solve p) between (fresh_runner g w) = Ok s' ->
  exists rounds, Forall (fun l => l <> []) rounds /\
    Z.of_nat (List.length rounds) <= Z.max 0 (max_iterations p) /\
    cuts (reg s') = (cuts g ++ concat rounds)%list /\
    active_cuts (reg s') = active_cuts g /\
    calls s' = concat (map round_calls rounds) /\
    (in_step (cuts g) -> in_step (cuts (reg s'))).
Proof. exact runner_lifetime. Qed.
Print Assumptions C30_rounds.

(** C30: nothing happens if the LP is in a stopping state or not solved ... *)
Theorem C30_guard : forall W stops solved gens sel addr solve p (s s' : runner_state W),
  Separate W stops solved gens sel addr solve p s = Ok s' ->
  stops (world s) = true \/ solved (world s) = false -> s' = s.
Proof. intros W. exact separate_guard. Qed.
Print Assumptions C30_guard.

(** ... and otherwise, below the limits, the cuts chosen from those of the first generator are
    added to the LP as rows, and the LP is solved. *)
Theorem C30_progress : forall W stops solved gen rest sel addr solve p (s s' : runner_state W) cs w1 fs w2,
  Separate W stops solved (gen :: rest) sel addr solve p s = Ok s' ->
  stops (world s) = false -> solved (world s) = true ->
  num_cutrounds s < max_iterations p -> num_of_cuts_added_since_last_run s < max_num_cuts_per_node p ->
  Z.of_nat (List.length (active_cuts (reg s))) < max_num_cuts_total p ->
  gen (reg s) (world s) = Ok (cs, w1) -> cs <> [] ->
  sel (reg s) w1 cs = Ok (fs, w2) -> fs <> [] ->
  exists more, calls s' = (calls s ++ map cut_row fs ++ more)%list /\ In SolveDual more.
Proof. intros W. exact separate_progress. Qed.
Print Assumptions C30_progress.

(** C30: if generators and selector leave the LP alone, the LP at the end is the LP of the
    beginning after exactly the logged calls. *)
Theorem C30_lp : forall W stops solved (gens : list (registry -> W -> outcome (list cut * W))) sel addr solve p s s',
  (forall g r w cs w', In g gens -> g r w = Ok (cs, w') -> w' = w) ->
  (forall r w cs fs w', sel r w cs = Ok (fs, w') -> w' = w) ->
  Separate W stops solved gens sel addr solve p s = Ok s' ->
  exists l, calls s' = (calls s ++ l)%list /\ replay addr solve (world s) l = Ok (world s').
Proof.
  intros W stops solved gens sel addr solve p s s' H1 H2 H. exact (separate_replay _ _ _ _ _ _ _ H1 H2 _ _ _ H).
Qed.
Print Assumptions C30_lp.

(** C30: a call always comes to an end if the calls it makes do. *)
Theorem C30_terminates : forall W stops solved gens sel addr solve p (s : runner_state W),
  (forall g w, In g gens -> forall r, g r w <> Fuel) -> (forall r w c, sel r w c <> Fuel) ->
  (forall w a b c d, addr w a b c d <> Fuel) -> (forall w, solve w <> Fuel) ->
  Separate W stops solved gens sel addr solve p s <> Fuel.
Proof. exact runner_no_fuel. Qed.
Print Assumptions C30_terminates.

(** A world that counts LP solves; the generator always finds three cuts. *)
Definition gen_case (r : registry) (w : nat) : outcome (list cut * nat) := Ok ([cutA 1; cutB 2; cutA 3], w).
Definition sep_case (p : runner_params) : runner_state nat -> outcome (runner_state nat) :=
  Separate nat (fun _ => false) (fun _ => true) [gen_case; gen_case]
    (fun _ w cs => Ok (tl cs, w)) (fun w _ _ _ _ => Ok w) (fun w => Ok (S w)) p.
Example C30_case : exists s', separations (sep_case (mkRunner 3 100 100)) [S; S] (fresh_runner reg_new 0%nat) = Ok s' /\
  world s' = 5%nat /\ num_cuts (reg s') = 12 /\ num_rows_added (calls s') = 12.
Proof. eexists. split; [vm_compute; reflexivity|]. repeat split. Qed.

(** C31, full statement: the limits per node and in total are respected. False: with both
    limits 2, twelve cuts are added. *)
Theorem C31_limits_refuted : exists W stops solved gens sel addr solve p (w : W) s',
  max_num_cuts_per_node p = 2 /\ max_num_cuts_total p = 2 /\
  Separate W stops solved gens sel addr solve p (fresh_runner reg_new w) = Ok s' /\
  num_rows_added (calls s') = 12.
Proof.
  exists nat, (fun _ => false), (fun _ => true), [gen_case; gen_case],
    (fun _ w cs => Ok (tl cs, w)), (fun w _ _ _ _ => Ok w), (fun w => Ok (S w)), (mkRunner 3 2 2), 0%nat.
  eexists. split; [reflexivity|]. split; [reflexivity|]. split; [vm_compute; reflexivity|]. reflexivity.
Qed.
Print Assumptions C31_limits_refuted.

(** C31, in general: positive limits never have any effect: two runners with the same round
    limit and any positive cut limits behave identically, for all generators and LPs. *)
Theorem C31_limits_ignored : forall W stops solved gens sel addr solve p p',
  max_iterations p = max_iterations p' ->
  0 < max_num_cuts_per_node p -> 0 < max_num_cuts_per_node p' ->
  0 < max_num_cuts_total p -> 0 < max_num_cuts_total p' ->
  forall between g (w : W), active_cuts g = [] ->
  separations (Separate W stops solved gens sel addr solve p) between (fresh_runner g w) =
  separations (Separate W stops solved gens sel addr solve p') between (fresh_runner g w).
Proof. exact limits_ignored. Qed.
Print Assumptions C31_limits_ignored.

(** C31, what does hold: limit 0 (or a negative limit per node) adds no cut at all.
    Missing: every positive limit. *)
Theorem C31_limits_partial : forall W stops solved gens sel addr solve p between g (w : W) s',
  max_num_cuts_per_node p <= 0 \/ max_num_cuts_total p = 0 ->
  separations (Separate W stops solved gens sel addr solve p) between (fresh_runner g w) = Ok s' ->
  calls s' = [] /\ reg s' = g.
Proof. exact limits_zero. Qed.
Print Assumptions C31_limits_partial.

Example C31_case : exists s', separations (sep_case (mkRunner 3 0 100)) [S; S] (fresh_runner reg_new 0%nat) = Ok s' /\
  world s' = 2%nat.
Proof. eexists. split; [vm_compute; reflexivity|]. reflexivity. Qed.
