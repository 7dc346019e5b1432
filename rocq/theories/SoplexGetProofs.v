(** Proofs about SoPlex's solution, basis and products with the basis inverse. *)
From Coq Require Import String List ZArith QArith Bool Sorted Lia ZifyBool Permutation.
From Verif Require Import Outcome OutcomeFacts Num Double DoubleFacts SparseVector SparseVectorFacts VectorSpec VectorProofs
  CutsData Aggregation AggProofs MipData GlopLp LpParams GlopIface GlopSpec GlopProofs WholeTables GlopSolution GlopSolutionProofs
  SoplexIface SoplexSpec SoplexProofs SoplexMore SoplexBranch SoplexSolution SoplexGetSpec.
Import ListNotations.
Open Scope Z_scope.

Lemma list_ext {A} (l : list A) : forall l', (forall n, nth_error l n = nth_error l' n) -> l = l'.
Proof.
  induction l as [|x l IH]; intros [|y l'] H; [reflexivity|specialize (H 0%nat); discriminate H|specialize (H 0%nat); discriminate H|].
  pose proof (H 0%nat) as H0. injection H0 as <-. f_equal. apply IH. intros n. exact (H (S n)).
Qed.

Section Getters.
Context {E : spx_engine}.
Implicit Type s : sstate E.

Lemma spx_vector_ok n o : passes_on (Z.of_nat n) o (spx_vector n o).
Proof.
  destruct o as [f|]; cbn [spx_vector passes_on]; [|eexists; reflexivity].
  eexists. split; [reflexivity|]. split; [rewrite map_length, seq_length; reflexivity|].
  intros i R. apply at_seq_map. split; [exact R|reflexivity].
Qed.
Lemma optimal_iff s : SpxIsOptimal s = Ok (match x_status E (s_x s) with ST_OPTIMAL => true | _ => false end).
Proof. rewrite spx_is_optimal. unfold st_is. destruct (x_status E (s_x s)); reflexivity. Qed.

Lemma spx_solution s :
  (x_status E (s_x s) = ST_OPTIMAL ->
     passes_on (ncols (s_lp s)) (x_primal E (s_x s)) (SpxGetPrimalValues s) /\
     passes_on (nrows (s_lp s)) (x_dual E (s_x s)) (SpxGetDualValues s)) /\
  (x_status E (s_x s) <> ST_OPTIMAL -> SpxGetPrimalValues s = Abort /\ SpxGetDualValues s = Abort) /\
  passes_on (nrows (s_lp s)) (x_slacks E (s_x s)) (SpxGetRowActivities s) /\
  passes_on (ncols (s_lp s)) (x_redcost E (s_x s)) (SpxGetReducedCosts s) /\
  (x_has_ray E (s_x s) = true -> passes_on (ncols (s_lp s)) (x_ray E (s_x s)) (SpxGetPrimalRay s)) /\
  (x_has_ray E (s_x s) = false -> SpxGetPrimalRay s = Abort) /\
  (x_has_farkas E (s_x s) = true -> passes_on (nrows (s_lp s)) (x_farkas E (s_x s)) (SpxGetDualRay s)) /\
  (x_has_farkas E (s_x s) = false -> SpxGetDualRay s = Abort).
Proof.
  unfold SpxGetPrimalValues, SpxGetDualValues, SpxGetRowActivities, SpxGetReducedCosts, SpxGetPrimalRay, SpxGetDualRay.
  rewrite optimal_iff. cbn [bind]. split; [|split; [|split; [|split; [|split; [|split; [|split]]]]]].
  - intros ->. cbn [check bind]. split; apply spx_vector_ok.
  - intros H. destruct (x_status E (s_x s)); try (split; reflexivity). contradiction.
  - apply spx_vector_ok.
  - apply spx_vector_ok.
  - intros ->. cbn [check bind]. apply spx_vector_ok.
  - intros ->. reflexivity.
  - intros ->. cbn [check bind]. apply spx_vector_ok.
  - intros ->. reflexivity.
Qed.

Lemma spx_basis_ok s : freed s = true -> spx_proper_basis s -> exists l, SpxGetColumnsAndRowsInBasis s = Ok l /\
  Z.of_nat (length l) = nrows (s_lp s) /\ Forall (in_spx_lp s) l /\ NoDup l /\
  forall r x, at_ l r = Ok x -> x_basis_ind E (s_x s) r = spx_basis_code x.
Proof.
  intros FR [R I]. unfold SpxGetColumnsAndRowsInBasis. rewrite FR. cbn [check bind].
  eexists. split; [reflexivity|].
  assert (IN : forall k, In k (seq 0 (length (g_rows (s_lp s)))) -> 0 <= Z.of_nat k < nrows (s_lp s)).
  { intros k Hk. apply in_seq in Hk. unfold nrows. lia. }
  split; [rewrite map_length, seq_length; reflexivity|]. split; [|split].
  - apply Forall_map, Forall_forall. intros k Hk. specialize (R _ (IN k Hk)). cbv zeta.
    destruct (Z.ltb_spec (x_basis_ind E (s_x s) (Z.of_nat k)) 0); cbn [in_spx_lp]; lia.
  - revert IN. generalize (seq_NoDup (length (g_rows (s_lp s))) 0). generalize (seq 0 (length (g_rows (s_lp s)))).
    intros l ND IN. induction ND as [|k l NI ND IH]; cbn [map]; constructor.
    + intros Y. apply in_map_iff in Y as (j & EQ & Hj). cbv zeta in EQ.
      assert (j = k); [|subst; contradiction].
      assert (RJ := IN j (or_intror Hj)). assert (RK := IN k (or_introl eq_refl)).
      apply Nat2Z.inj. apply I; auto.
      destruct (Z.ltb_spec (x_basis_ind E (s_x s) (Z.of_nat j)) 0), (Z.ltb_spec (x_basis_ind E (s_x s) (Z.of_nat k)) 0);
        try discriminate EQ; injection EQ as EQ; lia.
    + apply IH. intros j Hj. apply IN. right. exact Hj.
  - intros r x H.
    apply (at_seq_map (fun r => let i := x_basis_ind E (s_x s) r in if i <? 0 then Row (- i - 1) else Col i)) in H as [_ ->].
    cbv zeta. destruct (Z.ltb_spec (x_basis_ind E (s_x s) r) 0); cbn [spx_basis_code]; lia.
Qed.

(** ** Products *)
Definition pick (eps : double) (l : list (entry num_double)) : list (entry num_double) :=
  filter (fun e : entry num_double => dltb eps (dabs (val e : double))) l.
Lemma picked eps f n : let v := fold_left (fun u (e : entry num_double) => AddEntry u (idx e) (val e)) (pick eps (entry_list f n)) vempty in
  clean_vector (Z.of_nat n) v /\ forall i, 0 <= i < Z.of_nat n -> value v i = kept_above eps (f i).
Proof.
  intros v. destruct (collected (Z.of_nat n) (pick eps (entry_list f n))) as [C W].
  - apply filter_sorted, entry_list_sorted.
  - apply Forall_forall. intros e He. apply filter_In in He as [He _]. unfold entry_list in He.
    apply in_map_iff in He as (k & <- & Hk). apply in_seq in Hk. cbn [idx]. lia.
  - split; [exact C|]. intros i R. unfold v. rewrite W. unfold pick. rewrite filter_find by apply entry_list_sorted.
    rewrite entry_list_find by exact R. cbn [val]. unfold kept_above. destruct (dltb eps (dabs (f i))); cbn [or0 andb]; unfold drop0.
    + destruct (is0 (f i : num_double)); reflexivity.
    + reflexivity.
Qed.
Lemma pick_fold eps f : forall n k v,
  fold_left (fun u (e : entry num_double) => AddEntry u (idx e) (val e))
    (pick eps (map (fun k => mkE (Z.of_nat k) (f (Z.of_nat k) : num_double)) (seq k n))) v =
  fold_left (fun u j => if dltb eps (dabs (f (Z.of_nat j))) then AddEntry u (Z.of_nat j) (f (Z.of_nat j) : num_double) else u) (seq k n) v.
Proof.
  induction n as [|n IH]; intros k v; [reflexivity|]. cbn [seq map pick filter val fold_left].
  change (filter ?g ?l) with (pick eps l). unfold pick in *. cbn [val].
  destruct (dltb eps (dabs (f (Z.of_nat k)))); cbn [fold_left idx val]; apply IH.
Qed.

Lemma times_loop_fold eps dense (h : Z -> double) l : forall k v,
  (forall j g, nth_error l j = Some g -> h (Z.of_nat (k + j)) = x_dot E dense (x_order E (g_entries g))) ->
  times_loop (E := E) (Z.of_nat k) l eps dense v =
  fold_left (fun u j => if dltb eps (dabs (h (Z.of_nat j))) then AddEntry u (Z.of_nat j) (h (Z.of_nat j) : num_double) else u)
    (seq k (length l)) v.
Proof.
  induction l as [|g l IH]; intros k v H; [reflexivity|]. cbn [times_loop length seq fold_left]. cbv zeta.
  rewrite <- (H 0%nat g eq_refl), Nat.add_0_r. replace (Z.of_nat k + 1) with (Z.of_nat (S k)) by lia.
  apply IH. intros j g' Hj. rewrite <- (H (S j) g' Hj). f_equal. lia.
Qed.
Lemma spx_row_times s r dense inds m : freed s = true -> x_binv_row E (s_x s) r = Some (dense, inds, m) ->
  exists v, SpxRowOfBInvertedTimesA s r = Ok v /\ clean_vector (ncols (s_lp s)) v /\
    forall c g, at_ (g_cols (s_lp s)) c = Ok g ->
    value v c = kept_above (feasibility_tolerance (SpxGetLpParameters s)) (x_dot E dense (x_order E (g_entries g))).
Proof.
  intros FR B. unfold SpxRowOfBInvertedTimesA. rewrite FR, B. cbn [check bind]. eexists. split; [reflexivity|].
  set (h := fun c => match at_ (g_cols (s_lp s)) c with Ok g => x_dot E dense (x_order E (g_entries g)) | _ => d0 end).
  change 0 with (Z.of_nat 0). rewrite (times_loop_fold _ _ h).
  2: { intros j g Hj. unfold h, at_. destruct (Z.ltb_spec (Z.of_nat (0 + j)) 0); [lia|]. rewrite Nat2Z.id. cbn [Nat.add]. rewrite Hj. reflexivity. }
  rewrite <- pick_fold. change (map _ (seq 0 _)) with (entry_list h (length (g_cols (s_lp s)))).
  destruct (picked (FEASTOL (s_params s)) h (length (g_cols (s_lp s)))) as [C W].
  split; [exact C|]. intros c g Hg. rewrite W by exact (at_in_range _ _ _ Hg). unfold h. rewrite Hg. reflexivity.
Qed.

Lemma above_loop_fold eps dense (h : Z -> double) : forall n k v,
  (forall j, (j < n)%nat -> at_ dense (Z.of_nat (k + j)) = Ok (h (Z.of_nat (k + j)))) ->
  above_loop n (Z.of_nat k) eps dense v =
  Ok (fold_left (fun u j => if dltb eps (dabs (h (Z.of_nat j))) then AddEntry u (Z.of_nat j) (h (Z.of_nat j) : num_double) else u)
    (seq k n) v).
Proof.
  induction n as [|n IH]; intros k v H; [reflexivity|]. cbn [above_loop seq fold_left].
  rewrite <- (Nat.add_0_r k) at 1. rewrite (H 0%nat) by lia. rewrite Nat.add_0_r. cbn [bind].
  replace (Z.of_nat k + 1) with (Z.of_nat (S k)) by lia. apply IH. intros j Hj.
  replace (S k + j)%nat with (k + S j)%nat by lia. apply H. lia.
Qed.
Lemma find_as_first (l : list (entry num_double)) r :
  match find (fun e : entry num_double => idx e =? r) l with Some e => Some (val e) | None => None end = find_first l r.
Proof. induction l as [|e l IH]; [reflexivity|]. cbn [find find_first]. destruct (idx e =? r); [reflexivity|exact IH]. Qed.

Lemma spx_scatter s c : keeps_entries E -> stored_lp (s_lp s) -> 0 <= c < ncols (s_lp s) ->
  exists g column, at_ (g_cols (s_lp s)) c = Ok g /\ dense_column E (s_lp s) c column /\
    foldM (fun l (e : entry num_double) => set_at l (idx e) (val e : double))
      (repeat d0 (length (g_rows (s_lp s)))) (x_order E (g_entries g)) = Ok column.
Proof.
  intros K ST RC. destruct (at_range (g_cols (s_lp s)) c RC) as [g Hg].
  assert (SG : canonical (g_entries g) /\ Forall (fun e => 0 <= idx e < nrows (s_lp s)) (g_entries g)).
  { unfold stored_lp in ST. rewrite Forall_forall in ST. apply ST. eapply at_In. exact Hg. }
  destruct SG as [CA RA].
  destruct (scatter_ok (x_order E (g_entries g)) (repeat d0 (length (g_rows (s_lp s))))) as (l & EL & LL & F).
  { eapply Permutation_NoDup; [symmetry; apply Permutation_map; apply K|]. apply canonical_nodup. exact CA. }
  { unfold inrange. rewrite repeat_length. eapply Permutation_Forall; [symmetry; apply K|]. exact RA. }
  exists g, l. split; [exact Hg|]. split; [|exact EL]. rewrite repeat_length in LL. split; [unfold nrows; lia|].
  intros r R. unfold nrows in R. rewrite F, <- find_as_first. unfold SpxGetMatrixCoefficient. rewrite Hg. cbn [bind].
  destruct (at_range (g_rows (s_lp s)) r R) as [q Hq]. rewrite Hq. cbn [bind].
  destruct (find _ _) as [e|]; [reflexivity|]. rewrite at_repeat.
  destruct ((0 <=? r) && (r <? Z.of_nat (length (g_rows (s_lp s))))) eqn:BB; [reflexivity|lia].
Qed.
Lemma dense_column_inj p c x y : dense_column E p c x -> dense_column E p c y -> x = y.
Proof.
  intros [LX VX] [LY VY]. apply list_ext. intros n. destruct (Nat.lt_ge_cases n (length x)) as [L1|L1].
  - assert (EQ : at_ x (Z.of_nat n) = at_ y (Z.of_nat n)) by (rewrite VX, VY by lia; reflexivity).
    unfold at_ in EQ. destruct (Z.ltb_spec (Z.of_nat n) 0); [lia|]. rewrite Nat2Z.id in EQ.
    destruct (nth_error x n) eqn:N1, (nth_error y n) eqn:N2; try discriminate EQ; congruence.
  - assert (N1 : nth_error x n = None) by (apply nth_error_None; lia).
    assert (N2 : nth_error y n = None) by (apply nth_error_None; lia). congruence.
Qed.

Lemma spx_column_times s c column b : freed s = true -> keeps_entries E -> stored_lp (s_lp s) ->
  0 <= c < ncols (s_lp s) -> dense_column E (s_lp s) c column -> x_binv_times E (s_x s) column = Some b ->
  nrows (s_lp s) <= Z.of_nat (length b) ->
  exists v, SpxColumnOfBInvertedTimesA s c = Ok v /\ clean_vector (nrows (s_lp s)) v /\
    forall r y, 0 <= r < nrows (s_lp s) -> at_ b r = Ok y ->
    value v r = kept_above (feasibility_tolerance (SpxGetLpParameters s)) y.
Proof.
  intros FR K ST RC D B LB. unfold SpxColumnOfBInvertedTimesA. rewrite FR. cbn [check bind].
  destruct (spx_scatter s c K ST RC) as (g & column' & Hg & D' & EL). rewrite Hg. cbn [bind]. rewrite EL. cbn [bind].
  rewrite (dense_column_inj _ _ _ _ D' D), B.
  set (h := fun r => match at_ b r with Ok y => y | _ => d0 end).
  change 0 with (Z.of_nat 0) at 1. rewrite (above_loop_fold _ _ h).
  2: { intros j Hj. unfold h. cbn [Nat.add]. destruct (at_range b (Z.of_nat j)) as [y Hy]; [unfold nrows in LB; lia|]. rewrite Hy. reflexivity. }
  eexists. split; [reflexivity|]. rewrite <- pick_fold. change (map _ (seq 0 _)) with (entry_list h (length (g_rows (s_lp s)))).
  destruct (picked (FEASTOL (s_params s)) h (length (g_rows (s_lp s)))) as [C W].
  split; [exact C|]. intros r y R Hy. rewrite W by exact R. unfold h. rewrite Hy. reflexivity.
Qed.

Lemma spx_errors s r c : freed s = true ->
  (x_binv_row E (s_x s) r = None -> SpxRowOfBInvertedTimesA s r = Err Internal /\ SpxRowOfBInverted s r = Err Internal) /\
  (keeps_entries E -> stored_lp (s_lp s) -> 0 <= c < ncols (s_lp s) ->
   (forall column, dense_column E (s_lp s) c column -> x_binv_times E (s_x s) column = None) ->
   SpxColumnOfBInvertedTimesA s c = Err Internal).
Proof.
  intros FR. split.
  - intros B. unfold SpxRowOfBInvertedTimesA, SpxRowOfBInverted. rewrite FR, B. split; reflexivity.
  - intros K ST RC B. unfold SpxColumnOfBInvertedTimesA. rewrite FR. cbn [check bind].
    destruct (spx_scatter s c K ST RC) as (g & column' & Hg & D' & EL). rewrite Hg. cbn [bind]. rewrite EL. cbn [bind].
    rewrite (B _ D'). reflexivity.
Qed.

(** Rows and columns of the product agree wherever SoPlex's values do. *)
Lemma spx_times_agree s r c dense inds m column b g : freed s = true -> keeps_entries E -> stored_lp (s_lp s) ->
  0 <= r < nrows (s_lp s) -> at_ (g_cols (s_lp s)) c = Ok g -> dense_column E (s_lp s) c column ->
  x_binv_row E (s_x s) r = Some (dense, inds, m) -> x_binv_times E (s_x s) column = Some b ->
  nrows (s_lp s) <= Z.of_nat (length b) -> at_ b r = Ok (x_dot E dense (x_order E (g_entries g))) ->
  exists v w, SpxRowOfBInvertedTimesA s r = Ok v /\ SpxColumnOfBInvertedTimesA s c = Ok w /\ value v c = value w r.
Proof.
  intros FR K ST R HG D B B' LB Y.
  destruct (spx_row_times s r dense inds m FR B) as (v & H & _ & W).
  destruct (spx_column_times s c column b FR K ST (at_in_range _ _ _ HG) D B' LB) as (w & H' & _ & W').
  exists v, w. split; [exact H|]. split; [exact H'|]. rewrite (W c g HG), (W' r _ R Y). reflexivity.
Qed.
End Getters.
