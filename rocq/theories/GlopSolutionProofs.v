(** Proofs about the getters of the solution and of the basis inverse. *)
From Coq Require Import String List ZArith QArith Bool Sorted Lia ZifyBool.
From Verif Require Import Outcome OutcomeFacts Num Double DoubleFacts Rounding SparseVector SparseVectorFacts VectorSpec VectorProofs
  CutsData Aggregation AggProofs MipData GlopLp LpParams GlopIface GlopSpec GlopProofs SolverSpec WholeSpec WholeTables GlopSolution TableauSpec.
Import ListNotations.
Open Scope Z_scope.

(** ** Collecting entries *)
Lemma foldM_pure {A B} (f : A -> B -> outcome A) (g : A -> B -> A) l : forall a,
  (forall a b, In b l -> f a b = Ok (g a b)) -> foldM f a l = Ok (fold_left g l a).
Proof.
  induction l as [|b l IH]; intros a H; [reflexivity|]. cbn [foldM fold_left]. rewrite H by (left; reflexivity). cbn [bind].
  apply IH. intros a' b' Hb. apply H. right. exact Hb.
Qed.

Lemma sorted_map_filter (keep : entry num_double -> bool) (l : list (entry num_double)) : sorted l -> sorted (filter keep l).
Proof. apply filter_sorted. Qed.

(** The vector of the entries of [l] that are kept. *)
Lemma collected (n : Z) (l : list (entry num_double)) : sorted l -> Forall (fun e => 0 <= idx e < n) l ->
  let v := fold_left (fun u e => AddEntry u (idx e) (val e)) l vempty in
  clean_vector n v /\ forall i, value v i = drop0 (or0 (find_first l i)).
Proof.
  intros S R v.
  assert (EV : v = mkV (drop_zeros l) false).
  { unfold v. rewrite (add_increasing (fun e => val e)); [|reflexivity| |].
    - cbn [ents app vempty]. replace (map (fun e : entry num_double => mkE (idx e) (val e)) l) with l; [reflexivity|].
      clear. induction l as [|e r IH]; [reflexivity|]. cbn [map]. rewrite <- IH. destruct e. reflexivity.
    - cbn [ents app vempty]. apply (map_idx_strict (fun e => val e)). exact S.
    - eapply Forall_impl; [|exact R]. cbn. intros; lia. }
  rewrite EV. split.
  - split; [reflexivity|]. cbn [ents]. split; [split; [apply filter_sorted; exact S|apply drop_zeros_nonzero]|].
    apply (drop_idx (fun i => 0 <= i < n)). exact R.
  - intros i. rewrite value_find by (cbn [ents]; apply filter_sorted; exact S). cbn [ents].
    rewrite drop_zeros_find by exact S. destruct (find_first l i) as [y|]; cbn [nz or0]; unfold drop0.
    + destruct (is0 y); reflexivity.
    + reflexivity.
Qed.

Definition entry_list (f : Z -> double) (n : nat) : list (entry num_double) :=
  map (fun k => mkE (Z.of_nat k) (f (Z.of_nat k) : num_double)) (seq 0 n).
Lemma entry_list_sorted f n : sorted (entry_list f n).
Proof.
  unfold entry_list. generalize 0%nat. induction n as [|n IH]; intros k; cbn [seq map]; constructor; [apply IH|].
  apply Forall_map. apply Forall_forall. intros j Hj. apply in_seq in Hj. unfold lt_e. cbn [idx]. lia.
Qed.
Lemma filter_find (keep : entry num_double -> bool) l i : sorted l ->
  find_first (filter keep l) i = match find_first l i with Some y => if keep (mkE i y) then Some y else None | None => None end.
Proof.
  intros S. induction S as [|e r S IH F]; [reflexivity|]. cbn [filter find_first]. destruct (Z.eqb_spec (idx e) i) as [EI|EI].
  - subst i. destruct e as [j y]. cbn [idx val] in *. destruct (keep (mkE j y)) eqn:K; cbn [find_first idx val].
    + rewrite Z.eqb_refl. reflexivity.
    + rewrite IH. rewrite find_first_none; [reflexivity|]. intros e He EQ. rewrite Forall_forall in F. specialize (F e He).
      unfold lt_e in F. cbn [idx] in F. lia.
  - destruct (keep e); cbn [find_first]; [|exact IH]. destruct (Z.eqb_spec (idx e) i); [contradiction|exact IH].
Qed.
Lemma entry_list_find f n i : 0 <= i < Z.of_nat n -> find_first (entry_list f n) i = Some (f i).
Proof.
  intros R. apply (find_first_in (entry_list f n) (mkE i (f i : num_double)) (entry_list_sorted f n)).
  unfold entry_list. apply in_map_iff. exists (Z.to_nat i). rewrite Z2Nat.id by lia. split; [reflexivity|]. apply in_seq. lia.
Qed.

Lemma add_kept_ok keep value_at (f : Z -> double) n :
  (forall i, 0 <= i < Z.of_nat n -> value_at i = Ok (f i)) ->
  exists v, add_kept keep value_at (seq 0 n) = Ok v /\ clean_vector (Z.of_nat n) v /\
    forall i, 0 <= i < Z.of_nat n -> value v i = if keep (f i) && negb (is0 (f i : num_double)) then f i else d0.
Proof.
  intros V. unfold add_kept.
  rewrite (foldM_pure _ (fun v k => if keep (f (Z.of_nat k)) then AddEntry v (Z.of_nat k) (f (Z.of_nat k) : num_double) else v)).
  2: { intros v k Hk. apply in_seq in Hk. rewrite V by lia. reflexivity. }
  eexists. split; [reflexivity|].
  set (l := filter (fun e : entry num_double => keep (val e)) (entry_list f n)).
  replace (fold_left _ (seq 0 n) vempty) with (fold_left (fun u (e : entry num_double) => AddEntry u (idx e) (val e)) l vempty).
  2: { unfold l, entry_list. generalize (@vempty num_double) as v. generalize (seq 0 n). clear. induction l as [|k l IH]; intros v; [reflexivity|].
       cbn [map filter val idx fold_left]. destruct (keep (f (Z.of_nat k))); cbn [fold_left idx val]; apply IH. }
  destruct (collected (Z.of_nat n) l) as [C W].
  - apply filter_sorted, entry_list_sorted.
  - apply Forall_forall. intros e He. apply filter_In in He as [He _]. unfold entry_list in He.
    apply in_map_iff in He as (k & <- & Hk). apply in_seq in Hk. cbn [idx]. lia.
  - split; [exact C|]. intros i R. rewrite W. unfold l. rewrite filter_find by apply entry_list_sorted.
    rewrite entry_list_find by exact R. cbn [val]. destruct (keep (f i)); cbn [or0 andb]; unfold drop0.
    + destruct (is0 (f i : num_double)); reflexivity.
    + reflexivity.
Qed.

Lemma add_listed_ok x n : holds_all x n -> listed_in_order x n ->
  exists v, add_listed x = Ok v /\ clean_vector n v /\
    forall i y, 0 <= i < n -> at_ (dense x) i = Ok y -> value v i = listed x i y.
Proof.
  intros HA [S R]. unfold add_listed. set (f := fun i => match at_ (dense x) i with Ok y => y | _ => d0 end).
  rewrite (foldM_pure _ (fun v i => AddEntry v i (f i : num_double))).
  2: { intros v i Hi. rewrite Forall_forall in R. specialize (R i Hi). unfold holds_all in HA.
       destruct (at_range (dense x) i) as [y Hy]; [lia|]. unfold f. rewrite Hy. reflexivity. }
  eexists. split; [reflexivity|].
  set (l := map (fun i => mkE i (f i : num_double)) (support x)).
  replace (fold_left _ (support x) vempty) with (fold_left (fun u (e : entry num_double) => AddEntry u (idx e) (val e)) l vempty).
  2: { unfold l. generalize (@vempty num_double) as v. generalize (support x). clear. induction l as [|k l IH]; intros v; [reflexivity|].
       cbn [map val idx fold_left]. apply IH. }
  assert (SL : sorted l).
  { unfold l. clear -S. induction S as [|i r S IH F]; cbn [map]; constructor; [exact IH|]. apply Forall_map. exact F. }
  destruct (collected n l SL) as [C W].
  - unfold l. apply Forall_map. exact R.
  - split; [exact C|]. intros i y Ri Hy. rewrite W. unfold listed.
    assert (F : find_first l i = if existsb (Z.eqb i) (support x) then Some y else None).
    { destruct (existsb (Z.eqb i) (support x)) eqn:X.
      - apply existsb_exists in X as (j & Hj & E). apply Z.eqb_eq in E. subst j.
        assert (FI : f i = y) by (unfold f; rewrite Hy; reflexivity). rewrite <- FI.
        apply (find_first_in l (mkE i (f i : num_double)) SL). unfold l. apply in_map_iff. eauto.
      - apply find_first_none. intros e He EQ. unfold l in He. apply in_map_iff in He as (j & <- & Hj). cbn [idx] in EQ. subst j.
        assert (X' : existsb (Z.eqb i) (support x) = true) by (apply existsb_exists; exists i; rewrite Z.eqb_refl; auto). congruence. }
    rewrite F. destruct (existsb (Z.eqb i) (support x)); cbn [or0 andb]; unfold drop0.
    + destruct (is0 (y : num_double)); reflexivity.
    + reflexivity.
Qed.

(** ** The getters of the basis inverse *)
Section Getters.
Context {E : engine} (T : tableau E).
Implicit Type s : gstate E.

Lemma row_ok s r : holds_all (inverse_row T s r) (nrows (lp s)) -> listed_in_order (inverse_row T s r) (nrows (lp s)) ->
  exists v, GetSparseRowOfBInverted T s r = Ok v /\ clean_vector (nrows (lp s)) v /\
    forall i y, 0 <= i < nrows (lp s) -> at_ (dense (inverse_row T s r)) i = Ok y ->
    value v i = match support (inverse_row T s r) with [] => kept (feasibility s) y | _ => listed (inverse_row T s r) i y end.
Proof.
  intros HA L. unfold GetSparseRowOfBInverted. destruct (support (inverse_row T s r)) as [|k l] eqn:X.
  - destruct (add_kept_ok (fun y => dleb (feasibility s) (dabs y)) (at_ (dense (inverse_row T s r)))
      (fun i => match at_ (dense (inverse_row T s r)) i with Ok y => y | _ => d0 end) (length (g_rows (lp s)))) as (v & H & C & W).
    { intros i R. unfold holds_all, nrows in HA. destruct (at_range (dense (inverse_row T s r)) i) as [y ->]; [lia|reflexivity]. }
    exists v. split; [exact H|]. split; [exact C|]. intros i y R Hy. rewrite (W i R). rewrite Hy. reflexivity.
  - destruct (add_listed_ok _ _ HA L) as (v & H & C & W). exists v. split; [exact H|]. split; [exact C|]. exact W.
Qed.
Lemma column_ok s c : (forall r, 0 <= r < nrows (lp s) -> 0 <= c < Z.of_nat (length (dense (inverse_row T s r)))) ->
  exists v, GetSparseColumnOfBInverted T s c = Ok v /\ clean_vector (nrows (lp s)) v /\
    forall r y, 0 <= r < nrows (lp s) -> at_ (dense (inverse_row T s r)) c = Ok y -> value v r = kept (feasibility s) y.
Proof.
  intros HA. unfold GetSparseColumnOfBInverted.
  destruct (add_kept_ok (fun y => dleb (feasibility s) (dabs y)) (fun r => at_ (dense (inverse_row T s r)) c)
    (fun r => match at_ (dense (inverse_row T s r)) c with Ok y => y | _ => d0 end) (length (g_rows (lp s)))) as (v & H & C & W).
  { intros r R. destruct (at_range (dense (inverse_row T s r)) c (HA r R)) as [y ->]. reflexivity. }
  exists v. split; [exact H|]. split; [exact C|]. intros r y R Hy. rewrite (W r R). rewrite Hy. reflexivity.
Qed.
Lemma row_times_ok s r : exists v, GetSparseRowOfBInvertedTimesA T s r = Ok v /\ clean_vector (ncols (lp s)) v /\
    forall c g, at_ (g_cols (lp s)) c = Ok g ->
    value v c = kept (feasibility s) (b_product T (dense (inverse_row T s r)) (g_entries g)).
Proof.
  unfold GetSparseRowOfBInvertedTimesA.
  destruct (add_kept_ok (fun y => dleb (feasibility s) (dabs y))
    (fun c => do g <- at_ (g_cols (lp s)) c ; Ok (b_product T (dense (inverse_row T s r)) (g_entries g)))
    (fun c => match at_ (g_cols (lp s)) c with Ok g => b_product T (dense (inverse_row T s r)) (g_entries g) | _ => d0 end)
    (length (g_cols (lp s)))) as (v & H & C & W).
  { intros c R. destruct (at_range (g_cols (lp s)) c R) as [g ->]. reflexivity. }
  exists v. split; [exact H|]. split; [exact C|]. intros c g Hg. rewrite W by exact (at_in_range _ _ _ Hg). rewrite Hg. reflexivity.
Qed.
Lemma column_times_ok s c : holds_all (inverse_column T s c) (nrows (lp s)) ->
  listed_in_order (inverse_column T s c) (nrows (lp s)) ->
  exists v, GetSparseColumnOfBInvertedTimesA T s c = Ok v /\ clean_vector (nrows (lp s)) v /\
    forall i y, 0 <= i < nrows (lp s) -> at_ (dense (inverse_column T s c)) i = Ok y ->
    value v i = match support (inverse_column T s c) with
      | [] => if dltb (feasibility s) (dabs y) && negb (is0 (y : num_double)) then y else d0
      | _ => listed (inverse_column T s c) i y end.
Proof.
  intros HA L. unfold GetSparseColumnOfBInvertedTimesA. destruct (support (inverse_column T s c)) as [|k l] eqn:X.
  - destruct (add_kept_ok (fun y => dltb (feasibility s) (dabs y)) (at_ (dense (inverse_column T s c)))
      (fun i => match at_ (dense (inverse_column T s c)) i with Ok y => y | _ => d0 end) (length (g_rows (lp s)))) as (v & H & C & W).
    { intros i R. unfold holds_all, nrows in HA. destruct (at_range (dense (inverse_column T s c)) i) as [y ->]; [lia|reflexivity]. }
    exists v. split; [exact H|]. split; [exact C|]. intros i y R Hy. rewrite (W i R). rewrite Hy. reflexivity.
  - destruct (add_listed_ok _ _ HA L) as (v & H & C & W). exists v. split; [exact H|]. split; [exact C|]. exact W.
Qed.

(** The row and the column getter agree if Glop lists no positions. *)
Lemma agree_ok s r c : 0 <= r < nrows (lp s) -> 0 <= c < nrows (lp s) ->
  (forall r, 0 <= r < nrows (lp s) -> holds_all (inverse_row T s r) (nrows (lp s)) /\ support (inverse_row T s r) = []) ->
  exists v w, GetSparseRowOfBInverted T s r = Ok v /\ GetSparseColumnOfBInverted T s c = Ok w /\ value v c = value w r.
Proof.
  intros R C HA. destruct (HA r R) as [A S].
  destruct (row_ok s r A) as (v & H & _ & W).
  { unfold listed_in_order. rewrite S. split; constructor. }
  destruct (column_ok s c) as (w & H' & _ & W').
  { intros r' R'. destruct (HA r' R') as [A' _]. unfold holds_all in A'. lia. }
  exists v, w. split; [exact H|]. split; [exact H'|].
  destruct (at_range (dense (inverse_row T s r)) c) as [y Hy]; [unfold holds_all in A; lia|].
  rewrite (W c y C Hy), (W' r y R Hy), S. reflexivity.
Qed.

(** ** The basis *)
Lemma basis_ok s : proper_basis T s ->
  Z.of_nat (length (GetColumnsAndRowsInBasis T s)) = nrows (lp s) /\
  Forall (in_lp s) (GetColumnsAndRowsInBasis T s) /\ NoDup (GetColumnsAndRowsInBasis T s) /\
  forall r x, at_ (GetColumnsAndRowsInBasis T s) r = Ok x ->
    b_col T (solver s) r = match x with Col c => c | Row k => ncols (lp s) + k end.
Proof.
  intros [R I]. unfold GetColumnsAndRowsInBasis, rows.
  assert (IN : forall k, In k (seq 0 (length (g_rows (lp s)))) -> 0 <= Z.of_nat k < nrows (lp s)).
  { intros k Hk. apply in_seq in Hk. unfold nrows. lia. }
  split; [rewrite map_length, seq_length; reflexivity|]. split; [|split].
  - apply Forall_map, Forall_forall. intros k Hk. specialize (R _ (IN k Hk)). cbv zeta.
    destruct (Z.ltb_spec (b_col T (solver s) (Z.of_nat k)) (ncols (lp s))); cbn [in_lp]; lia.
  - revert IN. generalize (seq_NoDup (length (g_rows (lp s))) 0). generalize (seq 0 (length (g_rows (lp s)))).
    intros l ND IN. induction ND as [|k l NI ND IH]; cbn [map]; constructor.
    + intros X. apply in_map_iff in X as (j & EQ & Hj). cbv zeta in EQ.
      assert (j = k); [|subst; contradiction].
      assert (RJ := IN j (or_intror Hj)). assert (RK := IN k (or_introl eq_refl)).
      apply Nat2Z.inj. apply I; auto.
      destruct (Z.ltb_spec (b_col T (solver s) (Z.of_nat j)) (ncols (lp s))), (Z.ltb_spec (b_col T (solver s) (Z.of_nat k)) (ncols (lp s)));
        try discriminate EQ; injection EQ as EQ; lia.
    + apply IH. intros j Hj. apply IN. right. exact Hj.
  - intros r x H. unfold at_ in H. destruct (Z.ltb_spec r 0); [discriminate H|]. rewrite nth_error_map in H.
    destruct (nth_error (seq 0 (length (g_rows (lp s)))) (Z.to_nat r)) as [k|] eqn:K; [|discriminate H]. cbn [option_map] in H. injection H as <-.
    assert (KL : (Z.to_nat r < length (seq 0 (length (g_rows (lp s)))))%nat) by (apply nth_error_Some; congruence). rewrite seq_length in KL.
    apply nth_error_nth with (d := 0%nat) in K. rewrite seq_nth in K by exact KL. subst k. rewrite Nat.add_0_l, Z2Nat.id by lia. cbv zeta.
    destruct (Z.ltb_spec (b_col T (solver s) r) (ncols (lp s))); lia.
Qed.

(** ** The solution *)
Lemma at_seq_map {B} (f : Z -> B) n r x : at_ (map (fun k => f (Z.of_nat k)) (seq 0 n)) r = Ok x <-> 0 <= r < Z.of_nat n /\ x = f r.
Proof.
  unfold at_. destruct (Z.ltb_spec r 0) as [L|L]; [split; [discriminate|lia]|]. rewrite nth_error_map.
  destruct (nth_error (seq 0 n) (Z.to_nat r)) as [k|] eqn:K; cbn [option_map].
  - assert (KL : (Z.to_nat r < length (seq 0 n))%nat) by (apply nth_error_Some; congruence). rewrite seq_length in KL.
    apply nth_error_nth with (d := 0%nat) in K. rewrite seq_nth in K by exact KL. subst k. rewrite Nat.add_0_l, Z2Nat.id by lia.
    split; [intros H; injection H as <-; split; [lia|reflexivity]|intros [_ ->]; reflexivity].
  - apply nth_error_None in K. rewrite seq_length in K. split; [discriminate|lia].
Qed.
Lemma values_ok s :
  (forall r x, at_ (GetDualValues T s) r = Ok x <-> 0 <= r < nrows (lp s) /\ x = b_unscale_dual T (scaler s) r (w_dual E (solver s) r)) /\
  (forall c x, at_ (GetReducedCosts T s) c = Ok x <-> 0 <= c < ncols (lp s) /\ x = b_unscale_cost T (scaler s) c (w_redcost E (solver s) c)) /\
  (forall r x, at_ (GetRowActivities T s) r = Ok x <-> 0 <= r < nrows (lp s) /\ x = b_unscale_activity T (scaler s) r (b_activity T (solver s) r)).
Proof.
  unfold GetDualValues, GetReducedCosts, GetRowActivities, rows, columns, nrows, ncols.
  split; [|split]; intros r x.
  - apply (at_seq_map (fun r => b_unscale_dual T (scaler s) r (w_dual E (solver s) r))).
  - apply (at_seq_map (fun r => b_unscale_cost T (scaler s) r (w_redcost E (solver s) r))).
  - apply (at_seq_map (fun r => b_unscale_activity T (scaler s) r (b_activity T (solver s) r))).
Qed.

Lemma ray_loop_ok f l : forall n k, (k + n <= length l)%nat ->
  exists ys, ray_loop f (seq k n) l = Ok ys /\ length ys = n /\
    forall i x, nth_error l (k + i) = Some x -> (i < n)%nat -> nth_error ys i = Some (dopp (f (Z.of_nat (k + i)) x)).
Proof.
  induction n as [|n IH]; intros k L; cbn [seq ray_loop]; [exists []; split; [reflexivity|]; split; [reflexivity|]; intros; lia|].
  destruct (at_range l (Z.of_nat k)) as [x Hx]; [lia|]. rewrite Hx. cbn [bind].
  destruct (IH (S k)) as (ys & -> & LY & N); [lia|]. cbn [bind]. eexists. split; [reflexivity|]. split; [cbn [length]; lia|].
  intros [|i] y Hy Li; cbn [nth_error].
  - rewrite Nat.add_0_r in *. unfold at_ in Hx. destruct (Z.ltb_spec (Z.of_nat k) 0); [lia|]. rewrite Nat2Z.id, Hy in Hx. injection Hx as ->. reflexivity.
  - replace (k + S i)%nat with (S k + i)%nat in * by lia. apply N; [exact Hy|lia].
Qed.
Lemma ray_at f n l : (n <= length l)%nat -> exists ys, ray_loop f (seq 0 n) l = Ok ys /\ length ys = n /\
  forall i x, at_ l i = Ok x -> 0 <= i < Z.of_nat n -> at_ ys i = Ok (dopp (f i x)).
Proof.
  intros L. destruct (ray_loop_ok f l n 0 L) as (ys & H & LY & N). exists ys. split; [exact H|]. split; [exact LY|].
  intros i x Hx R. unfold at_ in *. destruct (Z.ltb_spec i 0); [lia|].
  destruct (nth_error l (Z.to_nat i)) as [z|] eqn:Z1; [|discriminate Hx]. injection Hx as ->.
  rewrite (N (Z.to_nat i) x Z1) by lia. cbn [Nat.add]. rewrite Z2Nat.id by lia. reflexivity.
Qed.
Lemma primal_ray_ok s : ncols (lp s) <= Z.of_nat (length (b_primal_ray T (solver s))) ->
  exists ray, GetPrimalRay T s = Ok ray /\ Z.of_nat (length ray) = ncols (lp s) /\
    forall c x, at_ (b_primal_ray T (solver s)) c = Ok x -> 0 <= c < ncols (lp s) ->
    at_ ray c = Ok (dopp (sc_unscale E (scaler s) c x)).
Proof.
  intros L. destruct (ray_at (sc_unscale E (scaler s)) (length (g_cols (lp s))) (b_primal_ray T (solver s))) as (ys & H & LY & N).
  { unfold ncols in L. lia. }
  exists ys. split; [exact H|]. split; [unfold ncols; lia|exact N].
Qed.
Lemma dual_ray_ok s : nrows (lp s) <= Z.of_nat (length (b_dual_ray T (solver s))) ->
  exists ray, GetDualRay T s = Ok ray /\ Z.of_nat (length ray) = nrows (lp s) /\
    forall r x, at_ (b_dual_ray T (solver s)) r = Ok x -> 0 <= r < nrows (lp s) ->
    at_ ray r = Ok (dopp (b_unscale_dual T (scaler s) r x)).
Proof.
  intros L. destruct (ray_at (b_unscale_dual T (scaler s)) (length (g_rows (lp s))) (b_dual_ray T (solver s))) as (ys & H & LY & N).
  { unfold nrows in L. lia. }
  exists ys. split; [exact H|]. split; [unfold nrows; lia|exact N].
Qed.

(** Glop's ray, unscaled: the returned one points the other way. *)
Lemma slope_opp (cs : list gcol) : forall d e, Forall finite_double d -> length e = length d ->
  (forall k x, nth_error d k = Some x -> nth_error e k = Some (dopp x)) ->
  (q_sum (map (fun gx : gcol * double => qval (g_obj (fst gx)) * qval (snd gx)) (combine cs e)) ==
   - q_sum (map (fun gx : gcol * double => qval (g_obj (fst gx)) * qval (snd gx)) (combine cs d)))%Q.
Proof.
  induction cs as [|g cs IH]; intros d e F L N; [reflexivity|].
  destruct d as [|x d], e as [|y e]; try discriminate L; [reflexivity|].
  cbn [combine map]. unfold q_sum. cbn [fold_right fst snd]. fold (q_sum (map (fun gx : gcol * double => qval (g_obj (fst gx)) * qval (snd gx)) (combine cs e))%Q).
  fold (q_sum (map (fun gx : gcol * double => qval (g_obj (fst gx)) * qval (snd gx)) (combine cs d))%Q).
  inversion F as [|? ? [V FX] F']; subst. rewrite (IH d e F'); [|injection L as L; exact L|intros k z Hz; exact (N (S k) z Hz)].
  pose proof (N 0%nat x eq_refl) as Y. injection Y as ->.
  rewrite (qval_opp x (dopp x)); [ring|apply (dopp_spec x V FX)].
Qed.
Lemma ray_slope s d ray : Z.of_nat (length d) = ncols (lp s) -> Forall finite_double d ->
  (forall c y, at_ d c = Ok y -> exists x, at_ (b_primal_ray T (solver s)) c = Ok x /\ y = sc_unscale E (scaler s) c x) ->
  GetPrimalRay T s = Ok ray -> (slope (lp s) ray == - slope (lp s) d)%Q.
Proof.
  intros L F D H.
  assert (LL : ncols (lp s) <= Z.of_nat (length (b_primal_ray T (solver s)))).
  { destruct d as [|y0 d0] eqn:X; [cbn in L; lia|]. rewrite <- X in *.
    destruct (at_range d (ncols (lp s) - 1)) as [y Hy]; [rewrite X in *; cbn [length] in *; lia|].
    destruct (D _ _ Hy) as (x & Hx & _). apply at_in_range in Hx. lia. }
  destruct (primal_ray_ok s LL) as (ray' & H' & LR & N). rewrite H in H'. injection H' as <-.
  unfold slope. apply slope_opp; [exact F|lia|].
  intros k y Hy. assert (HK : at_ d (Z.of_nat k) = Ok y).
  { unfold at_. destruct (Z.ltb_spec (Z.of_nat k) 0); [lia|]. rewrite Nat2Z.id, Hy. reflexivity. }
  destruct (D _ _ HK) as (x & Hx & ->). apply at_in_range in HK. specialize (N _ _ Hx). unfold at_ in N.
  destruct (Z.ltb_spec (Z.of_nat k) 0); [lia|]. rewrite Nat2Z.id in N.
  destruct (nth_error ray k); [|discriminate N]. { assert (N' := N ltac:(lia)). injection N' as ->. reflexivity. }
  assert (N' := N ltac:(lia)). discriminate N'.
Qed.
End Getters.
