(** Proofs about the solver with the cut generator of the repository. *)
From Coq Require Import String List ZArith Bool QArith Qabs Lia Permutation Sorting.Sorted.
From Verif Require Import Outcome OutcomeFacts Num Double DoubleFacts Rounding SparseVector VectorSpec SparseVectorFacts VectorProofs
  Aggregation AggSpec AggProofs AggDefined AggRows Problem MipData MipDataProofs ProblemSpec CutsData Selector Runner CutSpec
  LpParams GlopLp GlopIface GlopSpec GlopProofs SoplexIface SoplexSolution SoplexSpec SoplexProofs SoplexBranch SoplexGetSpec SoplexGetProofs Branching Params ReaderSpec Solver SolverSpec Whole
  WholeSpec WholeProofs WholeRun GlopSolution TableauSpec GlopSolutionProofs Own OwnSpec.
Import ListNotations.
Open Scope Z_scope.

Section OwnProofs.
Context {E : engine} {X : spx_engine}.
Variable T : tableau E.
Variable G : Type.
Implicit Type s : gstate E.

Lemma view_row d tolerance s r (a : svec num_double) : stored_lp (lp s) ->
  at_ (lp_rows (glop_view T d tolerance s)) r = Ok a ->
  a = mkV (transposed_row 0 r (g_cols (lp s))) false /\ clean_vector (ncols (lp s)) a.
Proof.
  intros HS H. cbn [glop_view lp_rows] in H. unfold rows in H.
  apply (at_seq_map (fun k => collect (transposed_row 0 k (g_cols (lp s))))) in H. destruct H as [_ ->].
  destruct (transposed_ok (g_cols (lp s)) r 0) as (C & R & _).
  { eapply Forall_impl; [|exact HS]. cbn; intros ? [? _]; auto. }
  rewrite (collect_ok _ (ncols (lp s)) C); [|exact R]. split; [reflexivity|]. split; [reflexivity|]. split; [exact C|exact R].
Qed.

Lemma spx_view_row d tolerance (s : sstate X) V r (a : svec num_double) : keeps_entries X -> stored_lp (s_lp s) ->
  spx_view (E := E) d tolerance s = Ok V -> at_ (lp_rows V) r = Ok a -> dirty a = false ->
  neat (A := arith_double) (ncols (s_lp s)) a.
Proof.
  intros KE HS HV H D. unfold spx_view in HV. apply bind_ok in HV as (b & _ & HV). injection HV as <-.
  cbn [lp_rows] in H.
  apply (at_seq_map (fun k => add_all (x_order X (transposed_row 0 k (g_cols (s_lp s)))))) in H. destruct H as [_ ->].
  destruct (transposed_ok (g_cols (s_lp s)) r 0) as (C & R & _).
  { eapply Forall_impl; [|exact HS]. cbn; intros ? [? _]; auto. }
  set (l := x_order X _) in *. assert (P : Permutation l (transposed_row 0 r (g_cols (s_lp s)))) by apply KE.
  assert (RL : Forall (fun e : ent => 0 <= idx e < ncols (s_lp s)) l).
  { rewrite Forall_forall in R |- *. intros e He. apply (R e). eapply Permutation_in; [exact P|exact He]. }
  destruct (add_all_from l (vempty (N := num_double))) as (I & Cn & _); [intros _; constructor..|].
  fold (add_all l) in I, Cn. split; [exact D|]. split; [split; [exact (I D)|exact (Cn D)]|].
  unfold add_all. clear -RL.
  assert (G0 : Forall (fun e : ent => 0 <= idx e < ncols (s_lp s)) (ents (vempty (N := num_double)))) by constructor.
  revert G0. generalize (vempty (N := num_double)). induction RL as [|e l He _ IH]; intros v Hv; cbn [fold_left]; [exact Hv|].
  apply IH. exact (AddEntry_idx (A := arith_double) (fun i => 0 <= i < ncols (s_lp s)) v (idx e) (val e) Hv He).
Qed.

Lemma own_fitting d tolerance a p : keeps_entries X -> proper_generator p (own_generator (X := X) T G d tolerance a).
Proof.
  intros KE y r l cs y' [HS HN] H. unfold own_generator in H. apply bind_ok in H. destruct H as (V & HV & H).
  apply bind_ok in H. destruct H as (cs' & H & H2).
  injection H2 as <- <-. unfold GenerateCuttingPlanes in H. apply bind_ok in H. destruct H as (l' & H & H2).
  apply bind_ok in H2. destruct H2 as (xs & _ & H2). injection H2 as <-.
  assert (N : Forall (fun c => neat (A := arith_double) (num_vars p) (c_row c)) l').
  { eapply (generate_neat V (num_vars p) num_double_ok); [|exact H].
    intros i v Hv Dv. destruct l as [s|s]; cbn [own_view lp_held] in HV, HS, HN.
    - injection HV as <-. destruct (view_row _ _ _ _ _ HS Hv) as [_ C]. rewrite HN in C. exact C.
    - rewrite <- HN. exact (spx_view_row _ _ _ _ _ _ KE HS HV Hv Dv). }
  rewrite Forall_map. eapply Forall_impl; [|exact N]. intros c (N1 & N2 & N3). unfold fitting_cut. cbn [CreateCut row].
  split; [exact N1|]. split; [exact N2|exact N3].
Qed.

(** No assumption on the tableau is needed for the integrality of the answers. *)
Theorem own_solutions p0 mx flag sort draw g order p u e w0 :
  keeps_entries X -> plain_lp E X (wanted_solver u) -> inside_lp E X (wanted_solver u) ->
  proper_problem p -> plain_request u -> sorts sort -> visits_integers p order ->
  CreateOwn (X := X) T G p0 mx flag sort draw g order p u = Ok (e, w0) ->
  forall fuel t, Solve e fuel w0 = Ok t -> forall sol, reported (res t) sol ->
  sol = sol_default \/
  (Z.of_nat (length (s_vals sol)) = num_vars p /\
   forall j var, nth_var p j = Some var -> v_int var = true ->
   exists v, at_ (s_vals sol) j = Ok v /\ near_integer v (setting (pm_integrality u) d1em6) /\
     dleb (v_lb var) v = true /\ dleb v (v_ub var) = true).
Proof.
  intros KE PE IN PP PR SO VI H. unfold CreateOwn in H. destruct (FindError p); [discriminate H|].
  apply bind_ok in H. destruct H as (d & _ & H). apply bind_ok in H. destruct H as (c & _ & H).
  apply (whole_solutions _ _ _ _ _ _ _ _ _ _ _ _ _ _ _ PE IN PP PR SO VI
    (or_intror (fun a => own_fitting d (cf_integrality c) a p KE)) H).
Qed.

Theorem own_values p0 mx flag sort draw g order p u e w0 eps :
  keeps_entries X -> plain_lp E X (wanted_solver u) -> inside_lp E X (wanted_solver u) ->
  accurate_lp eps E X (wanted_solver u) ->
  proper_problem p -> plain_request u -> sorts sort -> visits_integers p order ->
  CreateOwn (X := X) T G p0 mx flag sort draw g order p u = Ok (e, w0) ->
  forall fuel t, Solve e fuel w0 = Ok t -> forall sol, reported (res t) sol ->
  sol = sol_default \/
  ((forall j var, nth_var p j = Some var -> exists v, at_ (s_vals sol) j = Ok v /\ finite_double v /\
      dleb (v_lb var) v = true /\ dleb v (v_ub var) = true) /\
   (forall r k, nth_con p r = Some k ->
      q_above (c_lhs k) (row_activity k (solution_point sol) + eps)%Q /\
      q_below (row_activity k (solution_point sol) - eps)%Q (c_rhs k)) /\
   finite_double (s_obj sol) /\ (Qabs (qval (s_obj sol) - cost p (solution_point sol)) <= eps)%Q).
Proof.
  intros KE PE IN EA PP PR SO VI H. unfold CreateOwn in H. destruct (FindError p); [discriminate H|].
  apply bind_ok in H. destruct H as (d & _ & H). apply bind_ok in H. destruct H as (c & _ & H).
  apply (whole_values _ _ _ _ _ _ _ _ _ _ _ _ _ _ _ eps PE IN EA PP PR SO VI
    (or_intror (fun a => own_fitting d (cf_integrality c) a p KE)) H).
Qed.

(** With the rows of the problem only, the generator is defined. *)
Theorem own_defined d tolerance ks limit p y r s : stored_lp (lp s) -> problem_ok p -> integer_bounds_ordered p ->
  MipData p = Ok d -> nrows (lp s) = num_cons p -> 0 <= limit ->
  (forall k, 0 <= k < num_cons p -> holds_all (inverse_row T s k) (num_cons p) /\
     listed_in_order (inverse_row T s k) (num_cons p)) ->
  (exists cs, own_generator (X := X) T G d tolerance (ks, limit) y r (GlopLpi s) = Ok (cs, y)) \/
  (exists c, own_generator (X := X) T G d tolerance (ks, limit) y r (GlopLpi s) = Err c).
Proof.
  intros HS P1 P2 HD HN HL HT.
  assert (FL : length (is_integral_constraint d) = length (p_cons p)).
  { destruct (MipDataProofs.faithful p P1 P2) as (d' & HD' & _ & _ & _ & _ & _ & _ & _ & _ & _ & F & _).
    rewrite HD in HD'. injection HD' as <-. exact F. }
  set (V := glop_view T d tolerance s).
  assert (VS : view_sized V (nrows (lp s)) (ncols (lp s))).
  { constructor.
    - unfold V; cbn [glop_view lp_rows]. unfold rows, nrows. rewrite map_length, seq_length. reflexivity.
    - unfold V; cbn [glop_view lp_lhs]. rewrite map_length. reflexivity.
    - unfold V; cbn [glop_view lp_rhs]. rewrite map_length. reflexivity.
    - unfold V; cbn [glop_view basis]. unfold GetColumnsAndRowsInBasis, rows, nrows. rewrite !map_length, seq_length. reflexivity.
    - unfold V; cbn [glop_view lp_lb]. rewrite map_length. reflexivity.
    - unfold V; cbn [glop_view lp_ub]. rewrite map_length. reflexivity.
    - intros i a Ha. destruct (view_row _ _ _ _ _ HS Ha) as [_ (C1 & _ & C3)]. split; [exact C1|exact C3].
    - intros i b Hi Hb. destruct (row_ok T s i) as (v & Hv & (C1 & _ & C3) & _); [rewrite HN; apply HT; lia..|].
      change (GetSparseRowOfBInverted T s i = Ok b) in Hb. rewrite Hv in Hb. injection Hb as <-. split; [exact C1|exact C3].
    - intros i Hi. left. destruct (row_ok T s i) as (v & Hv & _); [rewrite HN; apply HT; lia..|].
      exists v. exact Hv.
    - left. exists (GetRowActivities T s). split; [reflexivity|]. unfold GetRowActivities, rows, nrows.
      rewrite map_length, seq_length. reflexivity.
    - left. exists (GetPrimalValues s). reflexivity. }
  destruct (generate_defined V (nrows (lp s)) (ncols (lp s)) VS) with (ks := ks) (limit := limit) as [[l Hl]|[c Hc]].
  - unfold V; cbn [glop_view integral_rows]. rewrite FL, HN. reflexivity.
  - exact HL.
  - left. eexists. unfold own_generator, GenerateCuttingPlanes. cbn [own_view bind fst snd]. fold V. rewrite Hl. cbn [bind].
    unfold V; cbn [glop_view primal bind]. reflexivity.
  - right. exists c. unfold own_generator, GenerateCuttingPlanes. cbn [own_view bind fst snd]. fold V. rewrite Hc. reflexivity.
Qed.

(** The view is what the getters answer. *)
Lemma at_checked {B C} (f : B -> C) l k x : at_ (map f l) k = Ok x <-> (do g <- checked l k ; Ok (f g)) = Ok x.
Proof.
  rewrite at_map. unfold checked. destruct (at_ l k) as [b| | | |] eqn:A.
  1: apply at_in_range in A. replace ((0 <=? k) && (k <? Z.of_nat (length l))) with true by lia. reflexivity.
  all: destruct ((0 <=? k) && (k <? Z.of_nat (length l))); cbn; split; discriminate.
Qed.
Lemma at_read {B C} (f : B -> C) l k x : at_ (map f l) k = Ok x <-> (do g <- at_ l k ; Ok (f g)) = Ok x.
Proof. rewrite at_map. destruct (at_ l k); cbn; split; auto; discriminate. Qed.
Lemma at_rows {B C} (f : Z -> C) (l : list B) r x :
  at_ (map (fun k => f (Z.of_nat k)) (seq 0 (length l))) r = Ok x <-> (do _ <- at_ l r ; Ok (f r)) = Ok x.
Proof.
  rewrite (at_seq_map f). split.
  - intros [R ->]. destruct (at_range l r R) as [b ->]. reflexivity.
  - destruct (at_ l r) eqn:A; try discriminate. cbn [bind]. intros H. injection H as <-.
    apply at_in_range in A. auto.
Qed.
Lemma basis_col l r c : at_ l r = Ok (Col c) -> at_ (map col_of l) r = Ok c.
Proof. intros H. rewrite at_map, H. reflexivity. Qed.
Lemma basis_row l r k : at_ l r = Ok (Row k) -> at_ (map col_of l) r = Ok (-1).
Proof. intros H. rewrite at_map, H. reflexivity. Qed.

Lemma own_reads d tolerance (l : lpi E X) V : own_view T d tolerance l = Ok V ->
  reads T l V /\ ints V = integer_variables d /\ integral_rows V = is_integral_constraint d /\ tol V = tolerance.
Proof.
  intros H. destruct l as [s|s]; cbn [own_view] in H.
  - injection H as <-. cbn [reads]. split; [|split; [|split]; reflexivity]. unfold reads_glop.
    cbn [glop_view lp_rows lp_lhs lp_rhs lp_lb lp_ub is_solved is_optimal activities primal binv_row basis is_inf].
    split; [intros r x; apply (at_rows (fun r => collect (transposed_row 0 r (g_cols (lp s)))))|].
    split; [intros; apply at_checked|]. split; [intros; apply at_checked|]. split; [intros; apply at_checked|].
    split; [intros; apply at_checked|]. do 5 (split; [reflexivity|]).
    split; [intros; apply basis_col; auto|]. split; [intros r k K; eapply basis_row; exact K|].
    split; [apply map_length|]. split; [|reflexivity].
    intros x [F1 F2]. destruct x; try discriminate F2; reflexivity.
  - unfold spx_view in H. apply bind_ok in H as (b & B & H). injection H as <-.
    cbn [reads]. split; [|split; [|split]; reflexivity]. unfold reads_soplex.
    cbn [lp_rows lp_lhs lp_rhs lp_lb lp_ub is_solved is_optimal activities primal binv_row basis is_inf].
    split; [intros r x; apply (at_rows (fun r => add_all (x_order X (transposed_row 0 r (g_cols (s_lp s))))))|].
    split; [intros; apply at_read|]. split; [intros; apply at_read|]. split; [intros; apply at_read|].
    split; [intros; apply at_read|]. split; [reflexivity|].
    split; [intros o O; cbn [lpi_optimal]; rewrite O; reflexivity|]. do 3 (split; [reflexivity|]).
    split; [|reflexivity]. exists b. split; [exact B|]. split; [apply map_length|].
    split; [intros; apply basis_col; auto|]. intros r k K; eapply basis_row; exact K.
Qed.

(** The same with SoPlex, if it returns rows in order. *)
Lemma spx_view_clean d tolerance (s : sstate X) V r (a : svec num_double) : keeps_order X -> stored_lp (s_lp s) ->
  spx_view (E := E) d tolerance s = Ok V -> at_ (lp_rows V) r = Ok a -> clean_vector (ncols (s_lp s)) a.
Proof.
  intros KO HS HV H. unfold spx_view in HV. apply bind_ok in HV as (b & _ & HV). injection HV as <-.
  cbn [lp_rows] in H.
  apply (at_seq_map (fun k => add_all (x_order X (transposed_row 0 k (g_cols (s_lp s)))))) in H. destruct H as [_ ->].
  destruct (transposed_ok (g_cols (s_lp s)) r 0) as (C & R & _).
  { eapply Forall_impl; [|exact HS]. cbn; intros ? [? _]; auto. }
  rewrite KO; [|exact (proj1 C)].
  assert (AC : add_all (transposed_row 0 r (g_cols (s_lp s))) = collect (transposed_row 0 r (g_cols (s_lp s)))).
  { unfold collect, add_all. rewrite collect_start. reflexivity. }
  rewrite AC, (collect_ok _ (ncols (s_lp s)) C) by exact R. split; [reflexivity|]. split; [exact C|exact R].
Qed.
Theorem own_defined_spx d tolerance ks limit p y r (s : sstate X) b : keeps_order X -> stored_lp (s_lp s) ->
  problem_ok p -> integer_bounds_ordered p -> MipData p = Ok d -> nrows (s_lp s) = num_cons p -> 0 <= limit ->
  freed s = true -> inverse_of X (s_x s) (length (g_rows (s_lp s))) b ->
  (exists cs, own_generator (X := X) T G d tolerance (ks, limit) y r (SoplexLpi s) = Ok (cs, y)) \/
  (exists c, own_generator (X := X) T G d tolerance (ks, limit) y r (SoplexLpi s) = Err c).
Proof.
  intros KO HS P1 P2 HD HN HL FR INV.
  assert (FL : length (is_integral_constraint d) = length (p_cons p)).
  { destruct (MipDataProofs.faithful p P1 P2) as (d' & HD' & _ & _ & _ & _ & _ & _ & _ & _ & _ & F & _).
    rewrite HD in HD'. injection HD' as <-. exact F. }
  assert (VO : exists V, spx_view (E := E) d tolerance s = Ok V).
  { unfold spx_view, SpxGetColumnsAndRowsInBasis. rewrite FR. cbn [check bind]. eexists. reflexivity. }
  destruct VO as [V HV].
  destruct (own_reads d tolerance (SoplexLpi s) V HV) as (RD & _ & IR & _). cbn [reads] in RD.
  destruct RD as (_ & _ & _ & _ & _ & SO & OP & AC & PR & BI & (bs & BS & BL & _) & _).
  unfold own_generator, GenerateCuttingPlanes. cbn [own_view fst snd]. rewrite HV. cbn [bind].
  destruct (Aggregation.is_optimal V) eqn:O.
  2:{ right. unfold Generate. destruct (is_solved V); cbn [negb]; [|eexists; reflexivity]. rewrite O. eexists; reflexivity. }
  assert (OT : x_status X (s_x s) = ST_OPTIMAL).
  { pose proof (optimal_iff s) as OI. specialize (OP _ OI). destruct (x_status X (s_x s)); try discriminate OP. reflexivity. }
  assert (PX : (exists xs, primal V = Ok xs) \/ exists c, primal V = Err c).
  { rewrite PR. unfold SpxGetPrimalValues. rewrite optimal_iff, OT. cbn [bind check]. unfold spx_vector.
    destruct (x_primal X (s_x s)); eauto. }
  assert (VS : view_sized V (nrows (s_lp s)) (ncols (s_lp s))).
  { pose proof HV as HV'. unfold spx_view in HV'. apply bind_ok in HV' as (b' & Hb' & HV'). 
    constructor.
    - injection HV' as <-. cbn [lp_rows]. unfold nrows. rewrite map_length, seq_length. reflexivity.
    - injection HV' as <-. cbn [lp_lhs]. rewrite map_length. reflexivity.
    - injection HV' as <-. cbn [lp_rhs]. rewrite map_length. reflexivity.
    - rewrite BL. unfold SpxGetColumnsAndRowsInBasis in BS. rewrite FR in BS. injection BS as <-.
      unfold nrows. rewrite map_length, seq_length. reflexivity.
    - injection HV' as <-. cbn [lp_lb]. rewrite map_length. reflexivity.
    - injection HV' as <-. cbn [lp_ub]. rewrite map_length. reflexivity.
    - intros i a Ha. destruct (spx_view_clean _ _ _ _ _ _ KO HS HV Ha) as (C1 & _ & C3). split; [exact C1|exact C3].
    - intros i v Hi Hv. rewrite BI in Hv. destruct (at_range b i) as [row Hr]; [rewrite (proj1 INV); unfold nrows in Hi; lia|].
      destruct (spx_row_of_inverse s b i row FR INV Hr) as (v' & Hv' & (C1 & _ & C3) & _).
      rewrite Hv in Hv'. injection Hv' as <-. split; [exact C1|exact C3].
    - intros i Hi. left. destruct (at_range b i) as [row Hr]; [rewrite (proj1 INV); unfold nrows in Hi; lia|].
      destruct (spx_row_of_inverse s b i row FR INV Hr) as (v' & Hv' & _). exists v'. rewrite BI. exact Hv'.
    - rewrite AC. unfold SpxGetRowActivities, spx_vector. destruct (x_slacks X (s_x s)) as [f|]; [left|right; eauto].
      eexists. split; [reflexivity|]. unfold spx_n_rows, nrows. rewrite map_length, seq_length. reflexivity.
    - exact PX. }
  destruct (generate_defined V (nrows (s_lp s)) (ncols (s_lp s)) VS) with (ks := ks) (limit := limit) as [[l Hl]|[c Hc]].
  - rewrite IR, FL, HN. reflexivity.
  - exact HL.
  - rewrite Hl. cbn [bind]. destruct PX as [[xs ->]|[c ->]]; cbn [bind]; eauto.
  - rewrite Hc. right. eexists. reflexivity.
Qed.

End OwnProofs.

Lemma own_rejects E X (T : tableau E) G p0 mx flag sort draw g order p u :
  ~ problem_ok_upto (num_vars p) p -> CreateOwn (X := X) T G p0 mx flag sort draw g order p u = Err InvalidArgument.
Proof.
  intros H. unfold CreateOwn. destruct (FindError p) eqn:F; [reflexivity|].
  apply find_error_iff in F. contradiction.
Qed.
