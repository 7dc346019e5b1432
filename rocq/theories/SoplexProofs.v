(** Proofs about the LP held by the SoPlex interface. *)
From Coq Require Import String List ZArith Lia Bool ZifyBool Sorted Permutation.
From Verif Require Import Outcome OutcomeFacts Num Double SparseVector SparseVectorFacts VectorSpec
  VectorProofs SparseMatrix MatrixSpec MatrixFacts Problem MipData GlopLp LpParams GlopIface GlopSpec GlopProofs
  GlopMore SoplexIface SoplexSpec.
Import ListNotations.
Open Scope Z_scope.

Local Notation ent := (entry num_double).

(** ** Tables without names *)
Definition anon_c (c : tcol) : tcol := mkTC (t_lb c) (t_ub c) (t_obj c) EmptyString (t_coefs c).
Definition anon_r (r : trow) : trow := mkTR (t_lhs r) (t_rhs r) EmptyString.
Lemma nameless_eq t : nameless t = mkT (map anon_c (t_cols t)) (map anon_r (t_rows t)) (t_max t).
Proof. auto. Qed.
Lemma nameless_twice t : nameless (nameless t) = nameless t.
Proof. rewrite !nameless_eq. cbn. rewrite !map_map. auto. Qed.
Lemma nameless_nc t : t_nc (nameless t) = t_nc t.
Proof. unfold t_nc. cbn. rewrite map_length. auto. Qed.
Lemma nameless_nr t : t_nr (nameless t) = t_nr t.
Proof. unfold t_nr. cbn. rewrite map_length. auto. Qed.

Lemma nameless_add_column t v lo hi o n :
  nameless (add_column t v lo hi o n) = add_column (nameless t) v lo hi o EmptyString.
Proof. unfold add_column. rewrite !nameless_eq. cbn. rewrite map_app, map_length. auto. Qed.
Lemma combine_map_r {B C D} (f : C -> D) (l : list B) l' :
  combine l (map f l') = map (fun p => (fst p, f (snd p))) (combine l l').
Proof. revert l'. induction l as [|x l IH]; intros [|y l']; cbn; auto. rewrite IH. auto. Qed.
Lemma nameless_add_row t v lo hi n :
  nameless (add_row t v lo hi n) = add_row (nameless t) v lo hi EmptyString.
Proof.
  unfold add_row. rewrite !nameless_eq. cbn. rewrite map_app, map_map, map_length, combine_map_r, map_map. auto.
Qed.
Lemma nameless_add_columns vs : forall t los his objs ns,
  nameless (add_columns t vs los his objs ns) =
  add_columns (nameless t) vs los his objs (map (fun _ => EmptyString) ns).
Proof.
  induction vs as [|v vs IH]; intros t [|lo los] [|hi his] [|o objs] [|n ns]; auto.
  cbn [add_columns map]. rewrite IH, nameless_add_column. auto.
Qed.
Lemma nameless_add_rows vs : forall t los his ns,
  nameless (add_rows t vs los his ns) =
  add_rows (nameless t) vs los his (map (fun _ => EmptyString) ns).
Proof.
  induction vs as [|v vs IH]; intros t [|lo los] [|hi his] [|n ns]; auto.
  cbn [add_rows map]. rewrite IH, nameless_add_row. auto.
Qed.
Lemma nameless_remove_rows mask t : nameless (remove_rows mask t) = remove_rows mask (nameless t).
Proof.
  unfold remove_rows. rewrite !nameless_eq. cbn. rewrite keep_map, !map_map. auto.
Qed.
Lemma without_map {B C} (f : B -> C) i j l : without i j (map f l) = map f (without i j l).
Proof. unfold without. rewrite map_app, firstn_map, skipn_map. auto. Qed.
Lemma change_at_map {B C} (a : B -> C) l i f f' : (forall x, a (f x) = f' (a x)) ->
  map a (change_at l i f) = change_at (map a l) i f'.
Proof.
  intros H. unfold change_at. rewrite map_length, combine_map_r, !map_map. apply map_ext.
  intros [j x]. cbn. destruct (j =? i); auto.
Qed.
Lemma change_at_map1 {B} (a : B -> B) l i f : (forall x, a (f x) = f (a x)) ->
  map a (change_at l i f) = change_at (map a l) i f.
Proof. apply change_at_map. Qed.

Lemma names_cols (F : Z * (double * (double * string)) -> tcol) (l0 : list Z) :
  (forall j lo hi n n', anon_c (F (j, (lo, (hi, n)))) = anon_c (F (j, (lo, (hi, n'))))) ->
  forall l u ns, map anon_c (map F (combine l0 (combine l (combine u ns)))) =
    map anon_c (map F (combine l0 (combine l (combine u (map (fun _ => EmptyString) ns))))).
Proof.
  intros H. induction l0 as [|j l0 IH]; intros [|lo l] [|hi u] [|n ns]; auto.
  cbn [combine map]. rewrite (H j lo hi n EmptyString). f_equal. apply IH.
Qed.
Lemma names_rows (F : double * (double * string) -> trow) :
  (forall lo hi n n', anon_r (F (lo, (hi, n))) = anon_r (F (lo, (hi, n')))) ->
  forall l u ns, map anon_r (map F (combine l (combine u ns))) =
    map anon_r (map F (combine l (combine u (map (fun _ => EmptyString) ns)))).
Proof.
  intros H. induction l as [|lo l IH]; intros [|hi u] [|n ns]; auto.
  cbn [combine map]. rewrite (H lo hi n EmptyString). f_equal. apply IH.
Qed.

Definition unnamed (d : mip_data) : mip_data :=
  mkData (problem_name d) (was_maximization d) (objective_offset d) (objective d) (hints d)
    (map (fun _ => EmptyString) (variable_names d)) (lower_bounds d) (upper_bounds d) (integer_variables d)
    (variable_is_integer d) (map (fun _ => EmptyString) (constraint_names d)) (left_hand_sides d)
    (right_hand_sides d) (is_integral_constraint d) (matrix d).
Lemma nameless_data d x : nameless (data_table (unnamed d) x) = nameless (data_table d x).
Proof.
  rewrite !nameless_eq. unfold data_table. cbn [t_cols t_rows t_max unnamed lower_bounds upper_bounds
    variable_names constraint_names left_hand_sides right_hand_sides objective].
  f_equal; symmetry; [apply names_cols|apply names_rows]; auto.
Qed.

(** ** Edits *)
Lemma dsvector_clean n v : clean_vector n v -> mkV (dsvector v) false = v.
Proof.
  intros (D & [_ C] & _). destruct v as [es b]. cbn in *. subst b. f_equal.
  unfold dsvector. cbn [ents]. induction C as [|e l He _ IH]; auto. cbn. rewrite He. cbn. f_equal. auto.
Qed.

Lemma step_addCol p v lo hi obj : wf p -> clean_vector (nrows p) v ->
  exists p', addColReal p obj (dsvector v) hi lo = Ok p' /\ wf p' /\
    nameless (table_of p') = add_column (nameless (table_of p)) v lo hi obj EmptyString.
Proof.
  intros W C. unfold addColReal. rewrite (dsvector_clean _ _ C).
  destruct (step_AddColumn p v lo hi obj EmptyString W C) as (p' & E & W' & T).
  exists p'. rewrite T, nameless_add_column. auto.
Qed.
Lemma step_addRow p v lo hi : wf p -> clean_vector (ncols p) v ->
  exists p', addRowReal p lo (dsvector v) hi = Ok p' /\ wf p' /\
    nameless (table_of p') = add_row (nameless (table_of p)) v lo hi EmptyString.
Proof.
  intros W C. unfold addRowReal. rewrite (dsvector_clean _ _ C).
  destruct (step_AddRow p v lo hi EmptyString W C) as (p' & E & W' & T).
  exists p'. rewrite T, nameless_add_row. auto.
Qed.

Lemma spx_add_cols_as n : forall k p vs los his objs ss q,
  Forall (fun s => s = EmptyString) ss -> Forall (fun v => mkV (dsvector v) false = v) vs ->
  add_columns_loop n k p vs los his objs ss = Ok q -> spx_add_cols n k p vs los his objs = Ok q.
Proof.
  induction n as [|n IH]; intros k p vs los his objs ss q S C H; auto.
  cbn [add_columns_loop] in H. cbn [spx_add_cols].
  apply bind_ok in H as (v & Ev & H). apply bind_ok in H as (lo & El & H).
  apply bind_ok in H as (hi & Eh & H). apply bind_ok in H as (o & Eo & H).
  apply bind_ok in H as (s & Es & H). apply bind_ok in H as (p1 & E1 & H).
  rewrite Ev, El, Eh, Eo. cbn [bind]. unfold addColReal.
  rewrite Forall_forall in S, C. rewrite (C v (at_In _ _ _ Ev)).
  rewrite (S s (at_In _ _ _ Es)) in E1. rewrite E1. cbn [bind].
  eapply IH; [| |exact H]; apply Forall_forall; auto.
Qed.
Lemma spx_add_rows_as n : forall k p vs los his ss q,
  Forall (fun s => s = EmptyString) ss -> Forall (fun v => mkV (dsvector v) false = v) vs ->
  add_rows_loop n k p vs los his ss = Ok q -> spx_add_rows n k p vs los his = Ok q.
Proof.
  induction n as [|n IH]; intros k p vs los his ss q S C H; auto.
  cbn [add_rows_loop] in H. cbn [spx_add_rows].
  apply bind_ok in H as (v & Ev & H). apply bind_ok in H as (lo & El & H).
  apply bind_ok in H as (hi & Eh & H).
  apply bind_ok in H as (s & Es & H). apply bind_ok in H as (p1 & E1 & H).
  rewrite Ev, El, Eh. cbn [bind]. unfold addRowReal.
  rewrite Forall_forall in S, C. rewrite (C v (at_In _ _ _ Ev)).
  rewrite (S s (at_In _ _ _ Es)) in E1. rewrite E1. cbn [bind].
  eapply IH; [| |exact H]; apply Forall_forall; auto.
Qed.
Lemma blanks {B} (l : list B) : Forall (fun s => s = EmptyString) (map (fun _ => EmptyString) l).
Proof. apply Forall_forall. intros s H. apply in_map_iff in H as (? & <- & _). auto. Qed.
Lemma all_clean n vs : Forall (clean_vector n) vs -> Forall (fun v => mkV (dsvector v) false = v) vs.
Proof. intros H. eapply Forall_impl; [|exact H]. cbn. intros v Hv. eapply dsvector_clean; eauto. Qed.

Lemma step_addCols p vs los his objs ns : wf p -> Forall (clean_vector (nrows p)) vs ->
  length los = length vs -> length his = length vs -> length objs = length vs -> length ns = length vs ->
  exists p', spx_add_cols (length vs) 0 p vs los his objs = Ok p' /\ wf p' /\
    nameless (table_of p') = nameless (add_columns (table_of p) vs los his objs ns).
Proof.
  intros W C L1 L2 L3 L4.
  destruct (step_AddColumns vs 0 los his objs (map (fun _ => EmptyString) ns) [] [] [] [] [] p)
    as (p' & E & W' & T); auto. { rewrite map_length. auto. }
  exists p'. cbn [app] in E. split; [|split; auto].
  - eapply spx_add_cols_as; [apply (blanks ns)|eapply all_clean; eauto|exact E].
  - rewrite T, !nameless_add_columns, map_map. auto.
Qed.
Lemma step_addRows p vs los his ns : wf p -> Forall (clean_vector (ncols p)) vs ->
  length los = length vs -> length his = length vs -> length ns = length vs ->
  exists p', spx_add_rows (length vs) 0 p vs los his = Ok p' /\ wf p' /\
    nameless (table_of p') = nameless (add_rows (table_of p) vs los his ns).
Proof.
  intros W C L1 L2 L4.
  destruct (step_AddRows vs 0 los his (map (fun _ => EmptyString) ns) [] [] [] [] p)
    as (p' & E & W' & T); auto. { rewrite map_length. auto. }
  exists p'. cbn [app] in E. split; [|split; auto].
  - eapply spx_add_rows_as; [apply (blanks ns)|eapply all_clean; eauto|exact E].
  - rewrite T, !nameless_add_rows, map_map. auto.
Qed.

(** ** Scattering entries into a dense array *)
Lemma at_map_update {B} (l l' : list B) i x : set_at l i x = Ok l' -> forall j,
  at_ l' j = if j =? i then Ok x else at_ l j.
Proof. intros H j. rewrite (at_set_at _ _ _ _ _ H). auto. Qed.
Lemma scatter_ok (es : list ent) : forall l0, NoDup (map idx es) -> inrange (Z.of_nat (length l0)) es ->
  exists l, foldM (fun l (e : ent) => set_at l (idx e) (val e : double)) l0 es = Ok l /\
    length l = length l0 /\
    forall j, at_ l j = match find_first es j with Some x => Ok (x : double) | None => at_ l0 j end.
Proof.
  induction es as [|e es IH]; intros l0 D R.
  - exists l0. auto.
  - cbn [map] in D. inversion D as [|? ? Hn D']; subst. inversion R as [|? ? Re R']; subst.
    destruct (set_at_range l0 (idx e) (val e : double) Re) as [l1 E1].
    pose proof (set_at_length _ _ _ _ E1) as L1.
    destruct (IH l1 D') as (l & E & L & F). { rewrite L1. auto. }
    exists l. cbn [foldM]. rewrite E1. cbn [bind]. split; auto. split; [lia|].
    intros j. rewrite F. cbn [find_first]. rewrite (at_map_update _ _ _ _ E1).
    destruct (find_first es j) as [x|] eqn:Ef.
    + destruct (Z.eqb_spec (idx e) j) as [Ej|]; auto. exfalso. apply Hn.
      apply find_first_some in Ef as (e' & He & Hi & _). rewrite Ej, <- Hi. apply in_map. auto.
    + rewrite Z.eqb_sym. destruct (idx e =? j); auto.
Qed.
Lemma canonical_nodup (l : list ent) : canonical l -> NoDup (map idx l).
Proof.
  intros [S _]. induction S as [|e l _ IH Ha]; cbn; constructor; auto.
  intros H. apply in_map_iff in H as (e' & E & H). rewrite Forall_forall in Ha. specialize (Ha e' H). lia.
Qed.

Lemma dense_objective_ok d : clean_vector (Z.of_nat (length (lower_bounds d))) (objective d) ->
  exists l, dense_objective d = Ok l /\ length l = length (lower_bounds d) /\
    forall j, 0 <= j < Z.of_nat (length (lower_bounds d)) -> at_ l j = Ok (value (objective d) j : double).
Proof.
  intros (_ & C & R). unfold dense_objective.
  destruct (scatter_ok (ents (objective d)) (repeat d0 (length (lower_bounds d)))) as (l & E & L & F).
  { apply canonical_nodup. auto. } { rewrite repeat_length. exact R. }
  rewrite repeat_length in L. exists l. split; auto. split; auto.
  intros j Hj. rewrite F, value_find by apply C.
  destruct (find_first (ents (objective d)) j); auto. rewrite at_repeat.
  destruct ((0 <=? j) && (j <? _)) eqn:B; auto. lia.
Qed.

Lemma populate_rows_as n : forall k p d q, populate_rows n k p (unnamed d) = Ok q -> spx_empty_rows n k p d = Ok q.
Proof.
  induction n as [|n IH]; intros k p d q H; auto.
  cbn [populate_rows] in H. cbn [unnamed left_hand_sides right_hand_sides constraint_names] in H.
  cbn [spx_empty_rows].
  apply bind_ok in H as (lo & El & H). apply bind_ok in H as (hi & Eh & H).
  apply bind_ok in H as (s & Es & H). apply bind_ok in H as (p1 & E1 & H).
  rewrite El, Eh. cbn [bind]. unfold addRowReal. pose proof (blanks (constraint_names d)) as B.
  rewrite Forall_forall in B. rewrite (B s (at_In _ _ _ Es)) in E1.
  change (mkV [] false) with (vempty (N := num_double)). rewrite E1. cbn [bind]. apply IH. exact H.
Qed.
Lemma populate_cols_as d (g : Z -> Z -> option num_double) objs n : forall k (m : smat num_double) p q pre,
  minv m g -> 0 <= k -> k + Z.of_nat n <= Z.of_nat (length (lower_bounds d)) ->
  (forall j, 0 <= j < Z.of_nat (length (lower_bounds d)) -> at_ objs j = Ok (value (objective d) j : double)) ->
  Z.of_nat (length pre) = k ->
  populate_cols n k m p (unnamed d) = Ok q ->
  exists vs, matrix_columns n k m = Ok vs /\ length vs = n /\
    spx_add_cols n k p (pre ++ vs) (lower_bounds d) (upper_bounds d) objs = Ok q.
Proof.
  induction n as [|n IH]; intros k m p q pre M K0 K1 O Lp H.
  - exists []. cbn in *. auto.
  - cbn [populate_cols] in H. cbn [unnamed lower_bounds upper_bounds variable_names objective] in H.
    apply bind_ok in H as ([v m1] & Ev & H). cbn [fst snd] in H.
    apply bind_ok in H as (lo & El & H). apply bind_ok in H as (hi & Eh & H).
    apply bind_ok in H as (s & Es & H). apply bind_ok in H as (p1 & E1 & H).
    destruct (col_clean m g k v m1 M Ev) as (Rk & CV & M' & NC' & NR' & V).
    pose proof (blanks (variable_names d)) as B. rewrite Forall_forall in B.
    rewrite (B s (at_In _ _ _ Es)) in E1.
    destruct (IH (k + 1) m1 p1 q (pre ++ [v])) as (vs & Evs & Lv & Hq); auto; try lia.
    { rewrite app_length. cbn. lia. }
    exists (v :: vs). cbn [matrix_columns]. rewrite Ev. cbn [bind fst snd]. rewrite Evs. cbn [bind].
    split; auto. split; [cbn; lia|]. cbn [spx_add_cols].
    rewrite <- Lp, at_mid by auto. rewrite Lp. cbn [bind]. rewrite O by lia. cbn [bind].
    rewrite El, Eh. cbn [bind]. unfold addColReal. rewrite (dsvector_clean _ _ CV), E1. cbn [bind].
    rewrite <- app_assoc in Hq. exact Hq.
Qed.

Lemma table_max p b : nameless (table_of (SetObjectiveSense p b)) =
  mkT (t_cols (nameless (table_of p))) (t_rows (nameless (table_of p))) b.
Proof. auto. Qed.
Lemma on_col_max p c f q : on_col p c f = Ok q -> g_max q = g_max p.
Proof. intros H. unfold on_col in H. apply bind_ok in H as (x & _ & H). injection H as <-. auto. Qed.
Lemma on_row_max p c f q : on_row p c f = Ok q -> g_max q = g_max p.
Proof. intros H. unfold on_row in H. apply bind_ok in H as (x & _ & H). injection H as <-. auto. Qed.
Lemma coef_max p c r x q : LpSetCoefficient p r c x = Ok q -> g_max q = g_max p.
Proof.
  intros H. unfold LpSetCoefficient in H. apply bind_ok in H as (y & _ & H). eapply on_col_max; eauto.
Qed.
Lemma AddColumn_max p v lo hi o n q : AddColumn p v lo hi o n = Ok q -> g_max q = g_max p.
Proof.
  intros H. unfold AddColumn in H. apply bind_ok in H as (p1 & E1 & H). apply bind_ok in H as (p2 & E2 & H).
  apply bind_ok in H as (p3 & E3 & H).
  apply on_col_max in E1. apply on_col_max in E2. apply on_col_max in E3.
  assert (X : g_max q = g_max p3).
  { unfold set_col_entries in H. revert H.
    generalize (ents v). intros l. revert p3 E3. induction l as [|e l IH]; intros p3 E3 H.
    - injection H as <-. auto.
    - cbn [foldM] in H. apply bind_ok in H as (p4 & E4 & H). apply coef_max in E4. 
      rewrite (IH p4); auto. congruence. }
  cbn in E1. congruence.
Qed.
Lemma AddRow_max p v lo hi n q : AddRow p v lo hi n = Ok q -> g_max q = g_max p.
Proof.
  intros H. unfold AddRow in H. apply bind_ok in H as (p1 & E1 & H). apply bind_ok in H as (p2 & E2 & H).
  apply on_row_max in E1. apply on_row_max in E2.
  assert (X : g_max q = g_max p2).
  { unfold set_row_entries in H. revert H.
    generalize (ents v). intros l. revert p2 E2. induction l as [|e l IH]; intros p2 E2 H.
    - injection H as <-. auto.
    - cbn [foldM] in H. apply bind_ok in H as (p4 & E4 & H). apply coef_max in E4. 
      rewrite (IH p4); auto. congruence. }
  cbn in E1. congruence.
Qed.
Lemma populate_rows_max n : forall k p d q, populate_rows n k p d = Ok q -> g_max q = g_max p.
Proof.
  induction n as [|n IH]; intros k p d q H; [injection H as <-; auto|]. cbn [populate_rows] in H.
  apply bind_ok in H as (lo & El & H). apply bind_ok in H as (hi & Eh & H).
  apply bind_ok in H as (s & Es & H). apply bind_ok in H as (p1 & E1 & H).
  apply AddRow_max in E1. apply IH in H. congruence.
Qed.
Lemma populate_cols_max n : forall k m p d q, populate_cols n k m p d = Ok q -> g_max q = g_max p.
Proof.
  induction n as [|n IH]; intros k m p d q H; [injection H as <-; auto|]. cbn [populate_cols] in H.
  apply bind_ok in H as (vm & Ev & H).
  apply bind_ok in H as (lo & El & H). apply bind_ok in H as (hi & Eh & H).
  apply bind_ok in H as (s & Es & H). apply bind_ok in H as (p1 & E1 & H).
  apply AddColumn_max in E1. apply IH in H. congruence.
Qed.

Lemma step_populate d : s_legal t_new (CPopulate d) ->
  exists p', spx_populate d = Ok p' /\ wf p' /\
    nameless (table_of p') = nameless (data_table d (matrix_coef (matrix d))).
Proof.
  intros [(L1 & L2 & L3 & L4 & B) O].
  destruct (dense_objective_ok d O) as (objs & Eo & Lo & Fo).
  destruct (step_Populate (unnamed d)) as (p' & Ep & W & T).
  { cbn. rewrite !map_length. auto. }
  unfold PopulateFromMipData in Ep. apply bind_ok in Ep as (p1 & E1 & Ep).
  apply bind_ok in Ep as (p2 & E2 & Ep). injection Ep as Ep.
  cbn [unnamed left_hand_sides matrix] in E1, E2.
  destruct B as (c & r & ops & H1 & H2 & H3).
  destruct (mrel_run ops _ _ (mrel_new c r) H1) as (m & E & R). rewrite H2 in E. injection E as <-.
  destruct H3 as [NC NR]. destruct R as (Ec & Er & g & Hg & Hv).
  assert (LC : length (cols (matrix d)) = length (lower_bounds d)) by (unfold num_cols in Ec; lia).
  destruct (populate_cols_as d g objs (length (cols (matrix d))) 0 (matrix d) p1 p2 []) as (vs & Ev & Lv & Es);
    auto; try lia.
  unfold spx_populate. rewrite (populate_rows_as _ _ _ _ _ E1). cbn [bind]. rewrite Eo. cbn [bind].
  rewrite Ev. cbn [bind]. rewrite Lv. exists p2. split; [exact Es|].
  assert (G : g_max p2 = false).
  { apply populate_cols_max in E2. apply populate_rows_max in E1. rewrite E2, E1. auto. }
  assert (Pq : p' = p2). { rewrite <- Ep. unfold SetObjectiveSense. destruct p2; cbn in *; subst; auto. }
  subst p'. rewrite Pq in W, T. split; auto. rewrite T, nameless_data. auto.
Qed.


(** ** DeleteRowSet *)
Lemma negate_loop_ok (mask : list bool) : forall (l0 : list Z) n, length l0 = n ->
  forall rest,
  negate_loop (length mask) (Z.of_nat n) (l0 ++ map (fun b : bool => if b then 1 else 0) mask ++ rest) =
  Ok (l0 ++ map (fun b : bool => if b then -1 else 0) mask ++ rest).
Proof.
  induction mask as [|b mask IH]; intros l0 n L rest; auto.
  cbn [length negate_loop map app]. rewrite at_mid by auto. cbn [bind].
  destruct (set_at_range (l0 ++ (if b then 1 else 0) :: map (fun b : bool => if b then 1 else 0) mask ++ rest)
    (Z.of_nat n) (- (if b then 1 else 0))) as [l' E]. { rewrite app_length. cbn. lia. }
  rewrite E. cbn [bind]. apply set_at_ok in E as [_ ->]. rewrite Nat2Z.id.
  assert (U : forall (m0 : list Z) x y l, update (m0 ++ x :: l) (length m0) y = (m0 ++ [y]) ++ l).
  { clear. intros m0 x y l. rewrite <- app_assoc. induction m0 as [|a m0 IHm]; cbn; [|f_equal]; auto. }
  rewrite <- L, U. replace (Z.of_nat (length l0) + 1) with (Z.of_nat (S n)) by lia.
  rewrite (IH (l0 ++ [- (if b then 1 else 0)]) (S n)) by (rewrite app_length; cbn; lia).
  rewrite <- app_assoc. cbn [app]. destruct b; auto.
Qed.

Fixpoint perm_of (next : Z) (mask : list bool) : list Z :=
  match mask with
  | [] => []
  | true :: m => -1 :: perm_of next m
  | false :: m => next :: perm_of (next + 1) m
  end.
Lemma new_perm_ok (mask : list bool) : forall (l0 : list Z) n next, length l0 = n ->
  new_perm (length mask) (Z.of_nat n) next (l0 ++ map (fun b : bool => if b then -1 else 0) mask) =
  Ok (l0 ++ perm_of next mask).
Proof.
  induction mask as [|b mask IH]; intros l0 n next L; auto.
  cbn [length new_perm map]. rewrite at_mid by auto. cbn [bind].
  assert (U : forall (m0 : list Z) x y l, update (m0 ++ x :: l) (length m0) y = (m0 ++ [y]) ++ l).
  { clear. intros m0 x y l. rewrite <- app_assoc. induction m0 as [|a m0 IHm]; cbn; [|f_equal]; auto. }
  destruct b; cbn [Z.ltb Z.compare perm_of].
  - replace (Z.of_nat n + 1) with (Z.of_nat (S n)) by lia.
    change (l0 ++ -1 :: ?l) with (l0 ++ [-1] ++ l). rewrite app_assoc.
    rewrite (IH (l0 ++ [-1])) by (rewrite app_length; cbn; lia). rewrite <- app_assoc. auto.
  - destruct (set_at_range (l0 ++ 0 :: map (fun b : bool => if b then -1 else 0) mask)
      (Z.of_nat n) next) as [l' E]. { rewrite app_length. cbn. lia. }
    rewrite E. cbn [bind]. apply set_at_ok in E as [_ ->]. rewrite Nat2Z.id, <- L, U.
    replace (Z.of_nat (length l0) + 1) with (Z.of_nat (S n)) by lia.
    rewrite (IH (l0 ++ [next])) by (rewrite app_length; cbn; lia). rewrite <- app_assoc. auto.
Qed.
Lemma perm_new_index mask : forall next, result_mapping mask (perm_of next mask) = new_index next mask.
Proof. induction mask as [|[] m IH]; intros next; cbn; auto; rewrite IH; auto. Qed.

Lemma removeRows_ok p mask : wf p -> length mask = length (g_rows p) ->
  exists p', (do perm <- negate_loop (length (g_rows p)) 0 (map (fun b : bool => if b then 1 else 0) mask) ;
              removeRowsReal p perm) = Ok (p', perm_of 0 mask) /\ wf p' /\
    table_of p' = remove_rows mask (table_of p).
Proof.
  intros W L. pose proof (negate_loop_ok mask [] 0 eq_refl []) as N. cbn [app] in N. rewrite !app_nil_r in N.
  pose proof (new_perm_ok mask [] 0 0 eq_refl) as M. cbn [app] in M. change (Z.of_nat 0) with 0 in N, M.
  rewrite L in N, M. rewrite N. cbn [bind]. unfold removeRowsReal. rewrite M. cbn [bind].
  rewrite map_map. rewrite firstn_all2 by (rewrite map_length; lia).
  rewrite (map_ext (fun x : bool => (if x then -1 else 0) <? 0) (fun x => x)) by (intros []; auto).
  rewrite map_id. destruct (step_delete_rows p mask W L) as (p' & E & W' & T).
  rewrite E. cbn [bind]. eauto.
Qed.

(** ** Histories *)
Section History.
Context {E : spx_engine}.
Implicit Type s : sstate E.

Definition rel s (t : table) : Prop := wf (s_lp s) /\ nameless (table_of (s_lp s)) = t.

Lemma spx_edit_step s c t : rel s t -> s_legal t c -> edits_lp c -> freed s = true ->
  exists s' x, sstep s c = Ok (s', x) /\ rel s' (s_table_step t c) /\ freed s' = true.
Proof.
  intros [W T] [L L'] Ec Fr. subst t.
  assert (NC : t_nc (nameless (table_of (s_lp s))) = ncols (s_lp s)) by (rewrite nameless_nc; apply table_nc).
  assert (NR : t_nr (nameless (table_of (s_lp s))) = nrows (s_lp s)) by (rewrite nameless_nr; apply table_nr).
  assert (Fr' : freed (invalidated s) = true) by exact Fr.
  assert (K : forall (o : outcome glop_lp) t, (exists p, o = Ok p /\ wf p /\ nameless (table_of p) = t) ->
    exists s' x, spx_edited s o = Ok (s', x) /\ rel s' t /\ freed s' = true).
  { intros o t (p & -> & W' & T'). unfold spx_edited. rewrite Fr'. cbn [check bind]. do 2 eexists.
    split; [reflexivity|]. split; [split|]; auto. }
  destruct c; cbn [edits_lp] in Ec; try tauto; cbn [sstep legal s_table_step] in *.
  - apply K. apply step_populate. split; auto.
  - apply K. destruct (step_addCol (s_lp s) v lo hi obj W) as (p & E1 & W1 & T1); [rewrite <- NR; auto|].
    exists p. split; auto. split; auto. rewrite T1. cbn [table_step].
    rewrite nameless_add_column, nameless_twice. auto.
  - destruct L as (L0 & L1 & L2 & L3 & L4). rewrite NR in L0. apply K.
    destruct (step_addCols (s_lp s) vs los his objs names W L0 L1 L2 L3 L4) as (p & E1 & W1 & T1).
    exists p. split; auto. split; auto. rewrite T1. cbn [table_step].
    rewrite !nameless_add_columns, nameless_twice. auto.
  - destruct L as [L1 L2]. rewrite NC in L2. apply K.
    unfold removeColRange. rewrite range_mask_ok by auto. cbn [bind]. eexists. split; [reflexivity|].
    match goal with |- context [lp_delete_cols _ ?m] => destruct (step_delete_cols (s_lp s) m W) as [W' T'] end.
    split; auto. rewrite T'. cbn [table_step]. rewrite !nameless_eq. cbn [t_cols t_rows t_max].
    rewrite without_map, !map_map. f_equal. f_equal.
    replace (length (g_cols (s_lp s))) with (length (t_cols (table_of (s_lp s)))) by (cbn; apply map_length).
    apply keep_range; auto. cbn. rewrite map_length. auto.
  - destruct (step_addRow (s_lp s) v lo hi W) as (p & E1 & W1 & T1); [rewrite <- NC; auto|].
    rewrite E1. cbn [bind]. do 2 eexists. split; [reflexivity|]. split; [|exact Fr]. split; auto.
    cbn [spx_with_lp s_lp]. rewrite T1. cbn [table_step]. rewrite nameless_add_row, nameless_twice. auto.
  - destruct L as (L0 & L1 & L2 & L3). rewrite NC in L0. apply K.
    destruct (step_addRows (s_lp s) vs los his names W L0 L1 L2 L3) as (p & E1 & W1 & T1).
    exists p. split; auto. split; auto. rewrite T1. cbn [table_step].
    rewrite !nameless_add_rows, nameless_twice. auto.
  - destruct L as [L1 L2]. rewrite NR in L2. apply K. unfold removeRowRange.
    rewrite range_mask_ok by auto. cbn [bind].
    match goal with |- context [lp_delete_rows _ ?m] =>
      destruct (step_delete_rows (s_lp s) m W) as (p & E1 & W1 & T1) end.
    { rewrite !app_length, !repeat_length. unfold nrows in L2. lia. }
    exists p. split; auto. split; auto. rewrite T1. cbn [table_step].
    replace (length (g_rows (s_lp s))) with (length (t_rows (table_of (s_lp s)))) by (cbn; apply map_length).
    rewrite rows_without; auto; [|rewrite table_nr; auto|apply table_full].
    rewrite !nameless_eq. cbn [t_cols t_rows t_max]. rewrite without_map, !map_map. auto.
  - cbn in L. rewrite !map_length in L. unfold SpxDeleteRowSet. rewrite Fr'. cbn [check bind].
    destruct (removeRows_ok (s_lp s) mask W L) as (p & E1 & W1 & T1).
    apply bind_ok in E1 as (perm & E0 & E1). cbn [invalidated s_lp]. rewrite E0. cbn [bind]. rewrite E1. cbn [bind].
    do 2 eexists. split; [reflexivity|]. split; [|exact Fr]. split; auto.
    cbn [spx_with_lp s_lp]. rewrite T1. cbn [table_step]. rewrite !nameless_remove_rows, nameless_twice. auto.
  - apply K. eexists. split; [reflexivity|]. split; [constructor|]. auto.
  - rewrite Fr'. cbn [check bind invalidated s_lp]. rewrite NC in L.
    replace ((0 <=? c) && (c <? ncols (s_lp s))) with true by lia. cbn [check bind].
    destruct (step_change_col (s_lp s) c (fun g => mkGCol lo hi (g_obj g) (g_cname g) (g_entries g))
      (fun g => mkTC lo hi (t_obj g) (t_name g) (t_coefs g)) W L) as (p & E1 & W1 & T1); auto.
    unfold SetVariableBounds. rewrite E1. cbn [bind]. do 2 eexists. split; [reflexivity|]. split; [|exact Fr].
    split; auto. cbn [spx_with_lp s_lp]. rewrite T1. cbn [table_step]. rewrite !nameless_eq. cbn [t_cols t_rows t_max].
    rewrite map_map, !change_at_map1, map_map by auto. auto.
  - rewrite NR in L. apply K.
    destruct (step_change_row (s_lp s) r (fun g => mkGRow lo hi (g_rname g))
      (fun g => mkTR lo hi (t_rname g)) W L) as (p & E1 & W1 & T1); auto.
    exists p. split; auto. split; auto. rewrite T1. cbn [table_step]. rewrite !nameless_eq. cbn [t_cols t_rows t_max].
    rewrite map_map, !change_at_map1, map_map by auto. auto.
  - apply K. eexists. split; [reflexivity|]. split; [exact W|]. rewrite !nameless_eq. cbn. rewrite !map_map. auto.
  - rewrite NC in L. apply K.
    destruct (step_change_col (s_lp s) c (fun g => mkGCol (g_lb g) (g_ub g) x (g_cname g) (g_entries g))
      (fun g => mkTC (t_lb g) (t_ub g) x (t_name g) (t_coefs g)) W L) as (p & E1 & W1 & T1); auto.
    exists p. split; auto. split; auto. rewrite T1. cbn [table_step]. rewrite !nameless_eq. cbn [t_cols t_rows t_max].
    rewrite map_map, !change_at_map1, map_map by auto. auto.
  - unfold SpxReadLpFromFile. rewrite Fr. cbn [check bind]. destruct f as [p|]; cbn [bind].
    + do 2 eexists. split; [reflexivity|]. split; [|exact Fr]. split; auto.
    + do 2 eexists. split; [reflexivity|]. split; [|exact Fr]. split; auto.
      cbn [table_step]. rewrite nameless_twice. auto.
Qed.

Lemma check_ok b (x : unit) : check b = Ok x -> b = true.
Proof. destruct b; auto. discriminate. Qed.

Lemma spx_edit_ok s c t s' x : rel s t -> s_legal t c -> edits_lp c -> sstep s c = Ok (s', x) ->
  rel s' (s_table_step t c).
Proof.
  intros R L Ec H. destruct (freed s) eqn:Fr.
  { destruct (spx_edit_step s c t R L Ec Fr) as (s1 & x1 & E1 & R1 & _). rewrite E1 in H.
    injection H as <- _. auto. }
  assert (Fr' : freed (invalidated s) = false) by exact Fr.
  destruct c; cbn [edits_lp] in Ec; try tauto; cbn [sstep] in H; unfold spx_edited, SpxDeleteRowSet,
    SpxReadLpFromFile in H; rewrite ?Fr, ?Fr' in H; try discriminate.
  (* AddRow *)
  destruct R as [W <-]. destruct L as [L _]. cbn [legal] in L. rewrite nameless_nc, table_nc in L.
  destruct (step_addRow (s_lp s) v lo hi W) as (p & E1 & W1 & T1); [auto|].
  rewrite E1 in H. cbn [bind] in H. injection H as <- _. split; auto.
  cbn [spx_with_lp s_lp s_table_step]. rewrite T1. cbn [table_step]. rewrite nameless_add_row, nameless_twice. auto.
Qed.

(** *** Calls that leave the LP alone *)
Lemma on_col_back p c g f f' p1 p2 : at_ (g_cols p) c = Ok g -> f' (f g) = g ->
  on_col p c f = Ok p1 -> on_col p1 c f' = Ok p2 -> p2 = p.
Proof.
  intros Hg B H1 H2. unfold on_col in *. pose proof (at_in_range _ _ _ Hg) as R.
  rewrite change_ok in H1 by auto. cbn [bind] in H1. injection H1 as <-. cbn [g_cols g_rows g_max] in H2.
  rewrite change_ok in H2 by (rewrite change_at_length; auto). cbn [bind] in H2. injection H2 as <-.
  destruct p as [cs rs mx]. cbn [g_cols g_rows g_max] in *. f_equal. apply at_ext; [cbn; rewrite !change_at_length; auto|].
  intros k _. rewrite !at_change_at. destruct (Z.eqb_spec k c) as [->|].
  - rewrite Hg. congruence.
  - destruct (at_cases cs k) as [[_ [y ->]]|[_ ->]]; auto.
Qed.
Lemma upper_back p c g x p1 p2 : at_ (g_cols p) c = Ok g -> changeUpper p c x = Ok p1 ->
  changeUpper p1 c (g_ub g) = Ok p2 -> p2 = p.
Proof. intros Hg. apply (on_col_back _ _ g); auto. destruct g; auto. Qed.
Lemma lower_back p c g x p1 p2 : at_ (g_cols p) c = Ok g -> changeLower p c x = Ok p1 ->
  changeLower p1 c (g_lb g) = Ok p2 -> p2 = p.
Proof. intros Hg. apply (on_col_back _ _ g); auto. destruct g; auto. Qed.

Lemma set_saved_lp s s' b : set_saved_basis s = Ok (s', b) ->
  s_lp s' = s_lp s /\ s_params s' = s_params s /\ s_dual s' = s_dual s /\ s_scratch s' = s_scratch s /\
  s_solved s' = s_solved s /\ s_cols s' = s_cols s /\ s_rows s' = s_rows s.
Proof.
  unfold set_saved_basis. intros H. apply bind_ok in H as (rs & _ & H). apply bind_ok in H as (cs & _ & H).
  destruct (x_set_basis E (s_x s) rs cs) as [threw y]. injection H as <- _. cbn. auto 10.
Qed.
Lemma restore_lp s s' : RestorePreStrongbranchingBasis s = Ok s' ->
  s_lp s' = s_lp s /\ s_params s' = s_params s /\ s_dual s' = s_dual s /\ s_scratch s' = s_scratch s /\
  s_solved s' = s_solved s /\ s_cols s' = s_cols s /\ s_rows s' = s_rows s.
Proof.
  unfold RestorePreStrongbranchingBasis. intros H. apply bind_ok in H as ([s1 threw] & H1 & H).
  apply bind_ok in H as (u & _ & H). injection H as <-. eapply set_saved_lp; eauto.
Qed.
Lemma branch_solve_lp s limit s' j n : branch_solve s limit = Ok (s', j, n) ->
  s_lp s' = s_lp s /\ s_params s' = put_iterlimit (E := E) (s_params s) limit /\ s_dual s' = s_dual s /\ s_scratch s' = s_scratch s /\
  s_solved s' = s_solved s /\ s_cols s' = s_cols s /\ s_rows s' = s_rows s /\ freed s = false /\
  exists x', x_optimize E (s_x s) (put_iterlimit (E := E) (s_params s) limit) (s_dual s) (s_lp s) = (false, x') /\
    n = x_iterations E x' /\
    j = judge (spx_with_x (with_params s (put_iterlimit (E := E) (s_params s) limit)) x').
Proof.
  unfold branch_solve. cbn [with_params s_x s_params s_dual s_lp]. intros H.
  destruct (x_optimize E (s_x s) (put_iterlimit (E := E) (s_params s) limit) (s_dual s) (s_lp s)) as [threw x'] eqn:O.
  apply bind_ok in H as (u & H1 & H). apply check_ok in H1. destruct threw; [discriminate|].
  apply bind_ok in H as (u2 & H2 & H). apply check_ok in H2.
  apply bind_ok in H as (s1 & H3 & H). injection H as <- <- <-.
  apply restore_lp in H3 as (A1 & A2 & A3 & A4 & A5 & A6 & A7).
  rewrite A1, A2, A3, A4, A5, A6, A7. cbn. repeat (split; [reflexivity|]).
  split. { destruct (freed _) eqn:F in H2; [discriminate|]. exact F. }
  exists x'. auto.
Qed.

Lemma strong_lp r0 s c v limit s' r : SpxSolveDownAndUpStrongBranch r0 s c v limit = Ok (s', r) ->
  s_lp s' = s_lp s /\ s_scratch s' = s_scratch s /\ s_solved s' = s_solved s /\ s_cols s' = s_cols s /\
  s_rows s' = s_rows s.
Proof.
  unfold SpxSolveDownAndUpStrongBranch. intros H.
  apply bind_ok in H as (g & Hg & H). apply bind_ok in H as ([[s1 down] n1] & H1 & H).
  apply bind_ok in H as ([[s2 up] n2] & H2 & H).
  assert (K1 : s_lp s1 = s_lp s /\ s_scratch s1 = s_scratch s /\ s_solved s1 = s_solved s /\ s_cols s1 = s_cols s /\
    s_rows s1 = s_rows s).
  { destruct (dleb _ _) in H1; [|injection H1 as <- _ _; auto].
    apply bind_ok in H1 as (p1 & E1 & H1). apply bind_ok in H1 as ([[s3 j] n] & E2 & H1).
    apply bind_ok in H1 as (p2 & E3 & H1). injection H1 as <- _ _.
    apply branch_solve_lp in E2 as (A1 & A2 & A3 & A4 & A5 & A6 & A7 & _).
    rewrite A1 in E3. cbn [spx_with_lp s_lp with_algorithm] in *.
    rewrite (upper_back _ _ _ _ _ _ Hg E1 E3). auto. }
  assert (K2 : s_lp s2 = s_lp s1 /\ s_scratch s2 = s_scratch s1 /\ s_solved s2 = s_solved s1 /\ s_cols s2 = s_cols s1 /\
    s_rows s2 = s_rows s1).
  { destruct down; [|injection H2 as <- _ _; auto].
    destruct (dleb _ _) in H2; [|injection H2 as <- _ _; auto].
    apply bind_ok in H2 as (p1 & E1 & H2). apply bind_ok in H2 as ([[s3 j] n] & E2 & H2).
    apply bind_ok in H2 as (p2 & E3 & H2). injection H2 as <- _ _.
    apply branch_solve_lp in E2 as (A1 & A2 & A3 & A4 & A5 & A6 & A7 & _).
    rewrite A1 in E3. cbn [spx_with_lp s_lp with_algorithm] in *.
    destruct K1 as [K1 _]. rewrite <- K1 in Hg. rewrite (lower_back _ _ _ _ _ _ Hg E1 E3). auto. }
  destruct K1 as (K1 & K3 & K4 & K5 & K6), K2 as (J1 & J3 & J4 & J5 & J6).
  assert (s_lp s' = s_lp s2 /\ s_scratch s' = s_scratch s2 /\ s_solved s' = s_solved s2 /\ s_cols s' = s_cols s2 /\
    s_rows s' = s_rows s2).
  { destruct down as [[d dv]|]; [destruct up as [[u uv]|]|]; injection H as <- _; auto. }
  intuition congruence.
Qed.

Lemma LpSolve_lp s s' st : LpSolve s = Ok (s', st) ->
  s_lp s' = s_lp s /\ s_scratch s' = s_scratch s /\ s_cols s' = s_cols s /\ s_rows s' = s_rows s.
Proof.
  unfold LpSolve. intros H. apply bind_ok in H as (u1 & _ & H). apply bind_ok in H as (u2 & _ & H).
  destruct (x_optimize _ _ _ _) as [threw x]. apply bind_ok in H as (u3 & _ & H).
  apply bind_ok in H as (u4 & _ & H). apply bind_ok in H as (u5 & _ & H).
  injection H as <- _. cbn. auto.
Qed.
Lemma Solve_lp dual s s' ok : SpxSolveLp dual s = Ok (s', ok) ->
  s_lp s' = s_lp s /\ s_scratch s' = s_scratch s /\ s_cols s' = s_cols s /\ s_rows s' = s_rows s /\
  freed s = true /\ (s_scratch s = false -> s_solved s' = true).
Proof.
  unfold SpxSolveLp, SoPlexSolve. intros H.
  apply bind_ok in H as (u1 & F & H). apply check_ok in F.
  cbn [with_algorithm invalidated with_params s_scratch s_x s_params] in H.
  destruct (if s_scratch s then x_clear_basis E (s_x s) else (false, s_x s)) as [threw x] eqn:C.
  destruct threw.
  - apply bind_ok in H as (u2 & _ & H). injection H as <- _. cbn. repeat (split; auto).
    intros S. rewrite S in C. discriminate.
  - apply bind_ok in H as (u2 & _ & H). apply bind_ok in H as ([s1 st] & E1 & H).
    apply LpSolve_lp in E1 as (A1 & A2 & A3 & A4). injection H as <- _. cbn. cbn in A1, A2, A3, A4.
    rewrite A1, A2, A3, A4. auto 10.
Qed.

Lemma spx_other_lp s c s' x : ~ edits_lp c -> sstep s c = Ok (s', x) -> s_lp s' = s_lp s.
Proof.
  intros Ne H. destruct c; cbn [edits_lp] in Ne; try tauto; cbn [sstep] in H.
  - destruct (x_clear_basis E (s_x s)) as [threw y]. destruct threw.
    + apply bind_ok in H as (u & _ & H). injection H as <- _. auto.
    + injection H as <- _. auto.
  - apply bind_ok in H as ([s1 ok] & H1 & H). injection H as <- _. apply Solve_lp in H1. apply H1.
  - apply bind_ok in H as (s1 & H1 & H). injection H as <- _.
    unfold SpxStartStrongBranching, SavePreStrongbranchingBasis in H1. apply bind_ok in H1 as (u & _ & H1).
    destruct (x_get_basis E (s_x s)) as [[rs cs]|].
    + injection H1 as <-. auto.
    + apply bind_ok in H1 as (u2 & _ & H1). injection H1 as <-. auto.
  - apply bind_ok in H as (s1 & H1 & H). injection H as <- _.
    unfold SpxEndStrongBranching in H1. apply bind_ok in H1 as (u & _ & H1).
    apply bind_ok in H1 as (s2 & H2 & H1). injection H1 as <-. apply restore_lp in H2. apply H2.
  - apply bind_ok in H as ([s1 r] & H1 & H). injection H as <- _. apply strong_lp in H1. apply H1.
  - apply bind_ok in H as ([s1 ok] & H1 & H). injection H as <- _. unfold SpxSetBasis in H1.
    apply bind_ok in H1 as (u & _ & H1). apply bind_ok in H1 as ([ra ok1] & _ & H1).
    destruct ok1; [|injection H1 as <- _; auto].
    apply bind_ok in H1 as (ca & _ & H1). apply bind_ok in H1 as ([s2 threw] & H2 & H1).
    apply set_saved_lp in H2. destruct threw; injection H1 as <- _; apply H2.
  - apply bind_ok in H as ([s1 ok] & H1 & H). injection H as <- _. unfold SpxSetLpParameters in H1.
    apply bind_ok in H1 as ([q ok1] & _ & H1). injection H1 as <- _. auto.
  - destruct (SpxWriteLpToFile s path written); try discriminate; injection H as <- _; auto.
  - injection H as <- _. auto.
Qed.

Lemma spx_other_table t c : ~ edits_lp c -> nameless (table_step t c) = nameless t.
Proof. intros Ne. destruct c; cbn [edits_lp] in Ne; try tauto; auto. Qed.

Lemma spx_step_reads s c s' x t : rel s t -> s_legal t c -> sstep s c = Ok (s', x) -> rel s' (s_table_step t c).
Proof.
  intros R L H. assert (D : edits_lp c \/ ~ edits_lp c) by (destruct c; cbn; auto).
  destruct D as [D|D]; [eapply spx_edit_ok; eauto|].
  destruct R as [W <-]. unfold rel. rewrite (spx_other_lp _ _ _ _ D H). split; auto.
  assert (T : s_table_step (nameless (table_of (s_lp s))) c = nameless (table_of (s_lp s))).
  { unfold s_table_step. pose proof (spx_other_table (nameless (table_of (s_lp s))) c D) as Q.
    rewrite nameless_twice in Q. destruct c; auto. cbn in D. tauto. }
  auto.
Qed.
Lemma spx_run_reads l : forall s s' xs t, rel s t -> s_legal_run t l -> srun s l = Ok (s', xs) ->
  rel s' (s_table_run t l).
Proof.
  induction l as [|c l IH]; intros s s' xs t R L H.
  - injection H as <- _. auto.
  - destruct L as [L1 L2]. cbn [srun] in H. apply bind_ok in H as ([s1 x] & H1 & H).
    apply bind_ok in H as ([s2 xs2] & H2 & H). injection H as <- _.
    exact (IH _ _ _ _ (spx_step_reads _ _ _ _ _ R L1 H1) L2 H2).
Qed.
Lemma spx_run_defined l : forall s t, rel s t -> freed s = true -> s_legal_run t l -> Forall edits_lp l ->
  exists s' xs, srun s l = Ok (s', xs) /\ freed s' = true.
Proof.
  induction l as [|c l IH]; intros s t R F L Ec.
  - do 2 eexists. split; [reflexivity|]. auto.
  - destruct L as [L1 L2]. pose proof (Forall_inv Ec) as E1. apply Forall_inv_tail in Ec.
    destruct (spx_edit_step s c t R L1 E1 F) as (s1 & x & H1 & R1 & F1).
    destruct (IH s1 _ R1 F1 L2 Ec) as (s2 & xs & H2 & F2).
    cbn [srun]. rewrite H1. cbn [bind]. rewrite H2. cbn [bind]. eauto.
Qed.

Lemma spx_new_ok p0 mx s : spx_new (E := E) p0 mx = Ok s ->
  exists q, s = mkS (mkLp [] [] mx) (x_new E) q true false false [] [].
Proof.
  unfold spx_new, SpxSetLpParameters. intros H. apply bind_ok in H as ([s1 ok] & H1 & H).
  apply bind_ok in H as (u & _ & H). injection H as <-. apply bind_ok in H1 as ([q ok1] & _ & H1).
  injection H1 as <- _. exists q. auto.
Qed.
Lemma spx_new_rel p0 mx s : spx_new (E := E) p0 mx = Ok s -> rel s (mkT [] [] mx) /\ freed s = true.
Proof. intros H. apply spx_new_ok in H as [q ->]. split; auto. split; auto. constructor. Qed.

(** ** Reading back *)
Lemma find_first_find (l : list ent) r : find_first l r = option_map (fun e => val e) (find (fun e : ent => idx e =? r) l).
Proof. induction l as [|e l IH]; auto. cbn. destruct (idx e =? r); auto. Qed.
Lemma find_perm (l l' : list ent) r : Permutation l l' -> NoDup (map idx l') -> find_first l r = find_first l' r.
Proof.
  intros P D.
  assert (D' : NoDup (map idx l)). { apply (Permutation_NoDup (l := map idx l')); auto. apply Permutation_map. symmetry. auto. }
  assert (K : forall (a b : list ent), Permutation a b -> NoDup (map idx b) -> forall y, find_first a r = Some y -> find_first b r = Some y).
  { clear. intros a b P D y H. apply find_first_some in H as (e & He & Hi & Hv).
    assert (Hb : In e b) by (eapply Permutation_in; eauto). clear He P.
    induction b as [|e' b IH]; [destruct Hb|]. cbn [map] in D. inversion D as [|? ? Hn D']; subst.
    cbn [find_first]. destruct Hb as [->|Hb].
    - rewrite Z.eqb_refl. auto.
    - destruct (Z.eqb_spec (idx e') (idx e)) as [Ei|]; [|auto]. exfalso. apply Hn. rewrite Ei. apply in_map. auto. }
  destruct (find_first l r) eqn:E1; [symmetry; eauto|].
  destruct (find_first l' r) eqn:E2; auto. rewrite (K l' l (Permutation_sym P) D' _ E2) in E1. discriminate.
Qed.

Lemma add_all_from (l : list ent) : forall v, vinv v -> canon v ->
  let w := fold_left (fun v (e : ent) => AddEntry v (idx e) (val e)) l v in
  vinv w /\ canon w /\
  forall i, content w i = match find_last l i with Some x => nz (Some x) | None => content v i end.
Proof.
  induction l as [|e l IH]; intros v I C; cbn [fold_left].
  - auto.
  - destruct (IH (AddEntry v (idx e) (val e)) (AddEntry_inv _ _ _ I) (AddEntry_canon _ _ _ C)) as (I' & C' & F).
    split; auto. split; auto. intros i. rewrite F. cbn [find_last].
    destruct (find_last l i); auto. rewrite AddEntry_content by auto. destruct (idx e =? i); auto.
Qed.
Lemma find_last_perm (l l' : list ent) r : Permutation l l' -> NoDup (map idx l') -> find_last l r = find_first l' r.
Proof.
  intros P D. rewrite <- (find_perm (rev l) l' r); auto.
  - clear. induction l as [|e l IH]; auto. cbn [rev find_last].
    assert (A : forall (a b : list ent), find_first (a ++ b) r = match find_first a r with Some y => Some y | None => find_first b r end).
    { clear. induction a as [|e a IH]; intros b; auto. cbn. destruct (idx e =? r); auto. }
    rewrite A, <- IH. destruct (find_last l r); auto.
  - rewrite <- Permutation_rev. auto.
Qed.

Lemma add_all_clean (l l' : list ent) n : Permutation l l' -> canonical l' -> inrange n l' ->
  CleanUp (add_all l) = mkV l' false.
Proof.
  intros P C R. pose proof (canonical_nodup _ C) as D.
  destruct (add_all_from l (vempty (N := num_double))) as (I & Cn & F).
  { intros _. constructor. } { intros _. constructor. }
  fold (add_all l) in I, Cn, F.
  destruct (CleanUp_ok _ I) as (Dc & Sc & Fc). pose proof (CleanUp_nonzero _ Cn) as Nc.
  destruct (CleanUp (add_all l)) as [es b] eqn:Ev. cbn [dirty ents] in Dc, Sc, Fc, Nc. subst b. f_equal.
  assert (Ce : canonical es) by (split; [exact Sc|exact Nc]).
  apply (canonical_unique num_double_ok es l' Ce C).
  intros i. rewrite !canonical_value by auto. f_equal. rewrite Fc, F.
  rewrite (find_last_perm _ _ _ P D). change (content (vempty (N := num_double)) i) with (@None num_double).
  destruct (find_first l' i) eqn:Ef; auto. unfold nz. rewrite (nonzero_find _ _ _ (proj2 C) Ef). auto.
Qed.

Lemma spx_count_rows (p : glop_lp) : forall cs c, Forall (fun g => inrange (nrows p) (g_entries g)) cs ->
  fold_right (fun r n => Z.of_nat (length (transposed_row c (Z.of_nat r) cs)) + n) 0 (seq 0 (length (g_rows p))) =
  fold_right (fun g n => Z.of_nat (length (g_entries g)) + n) 0 cs.
Proof.
  assert (Z0 : forall l, fold_right (fun (r : nat) n => 0 + n) 0 l = 0) by (induction l; auto).
  assert (A : forall (f h : nat -> Z) l, fold_right (fun r n => f r + h r + n) 0 l =
            fold_right (fun r n => f r + n) 0 l + fold_right (fun r n => h r + n) 0 l).
  { intros f h. induction l as [|x l IH]; auto. cbn [fold_right]. rewrite IH. lia. }
  assert (X : forall (f h : nat -> Z) l, (forall r, In r l -> f r = h r) ->
            fold_right (fun r n => f r + n) 0 l = fold_right (fun r n => h r + n) 0 l).
  { intros f h. induction l as [|x l IH]; intros H; auto. cbn [fold_right]. rewrite H by (left; auto).
    rewrite IH; auto. intros r Hr. apply H. right. auto. }
  induction cs as [|g cs IH]; intros c H.
  - cbn [transposed_row length fold_right]. apply Z0.
  - pose proof (Forall_inv H) as Hg. apply Forall_inv_tail in H. cbn [fold_right].
    rewrite <- (IH (c + 1) H).
    rewrite (X _ (fun r => Z.of_nat (length (filter (fun e : ent => idx e =? Z.of_nat r) (g_entries g))) +
                            Z.of_nat (length (transposed_row (c + 1) (Z.of_nat r) cs)))).
    2:{ intros r _. cbn [transposed_row]. rewrite app_length, map_length. lia. }
    rewrite A. f_equal. clear - Hg A X Z0. unfold nrows in Hg. induction (g_entries g) as [|e l IH].
    + cbn [filter length]. apply Z0.
    + pose proof (Forall_inv Hg) as He. apply Forall_inv_tail in Hg. specialize (IH Hg). cbn beta in He. cbn [length].
      rewrite (X _ (fun r => (if (r =? Z.to_nat (idx e))%nat then 1 else 0) +
        Z.of_nat (length (filter (fun e : ent => idx e =? Z.of_nat r) l)))).
      2:{ intros r _. cbn [filter]. destruct (Nat.eqb_spec r (Z.to_nat (idx e))) as [->|Nr].
          - rewrite Z2Nat.id by lia. rewrite Z.eqb_refl. cbn [length]. lia.
          - destruct (Z.eqb_spec (idx e) (Z.of_nat r)); [lia|]. lia. }
      rewrite A, IH.
      assert (S1 : forall k n a, (a <= k < a + n)%nat ->
        fold_right (fun r m => (if (r =? k)%nat then 1 else 0) + m) 0 (seq a n) = 1).
      { clear - Z0 X. intros k n. induction n as [|n IHn]; intros a Ha; [lia|]. cbn [seq fold_right].
        destruct (Nat.eqb_spec a k) as [->|Nk].
        - rewrite (X (fun r => if (r =? k)%nat then 1 else 0) (fun _ => 0)).
          + rewrite Z0. auto.
          + intros r Hr. apply in_seq in Hr. destruct (Nat.eqb_spec r k); auto. lia.
        - rewrite IHn by lia. auto. }
      rewrite S1 by lia. lia.
Qed.

Lemma s_reads_ok p : keeps_entries E -> wf p -> s_reads E p (nameless (table_of p)).
Proof.
  intros KE W. pose proof (wf_reads p W) as R.
  assert (C : forall c g', at_ (t_cols (nameless (table_of p))) c = Ok g' ->
    exists g, at_ (g_cols p) c = Ok g /\ t_lb g' = g_lb g /\ t_ub g' = g_ub g /\ t_obj g' = g_obj g /\
      t_coefs g' = map (coef (g_entries g)) (upto (length (g_rows p)))).
  { intros c g' H. rewrite nameless_eq in H. cbn [t_cols] in H. rewrite at_map, at_table_cols in H.
    destruct (at_ (g_cols p) c) as [g| | | |] eqn:Eg; try discriminate. injection H as <-. exists g. auto. }
  assert (Q : forall r g', at_ (t_rows (nameless (table_of p))) r = Ok g' ->
    exists g, at_ (g_rows p) r = Ok g /\ t_lhs g' = g_lhs g /\ t_rhs g' = g_rhs g).
  { intros r g' H. rewrite nameless_eq in H. cbn [t_rows] in H. rewrite at_map, at_table_rows in H.
    destruct (at_ (g_rows p) r) as [g| | | |] eqn:Eg; try discriminate. injection H as <-. exists g. auto. }
  constructor.
  - rewrite nameless_nc, table_nc. auto.
  - rewrite nameless_nr, table_nr. auto.
  - auto.
  - intros c g' H. destruct (C c g' H) as (g & Eg & -> & _). unfold SpxGetLowerBound. rewrite Eg. auto.
  - intros c g' H. destruct (C c g' H) as (g & Eg & _ & -> & _). unfold SpxGetUpperBound. rewrite Eg. auto.
  - intros c g' H. destruct (C c g' H) as (g & Eg & _ & _ & -> & _). unfold SpxGetObjectiveCoefficient. rewrite Eg. auto.
  - intros r g' H. destruct (Q r g' H) as (g & Eg & -> & _). unfold SpxGetLeftHandSide. rewrite Eg. auto.
  - intros r g' H. destruct (Q r g' H) as (g & Eg & _ & ->). unfold SpxGetRightHandSide. rewrite Eg. auto.
  - intros c r g' x H Hx. destruct (C c g' H) as (g & Eg & _ & _ & _ & Ec). rewrite Ec, at_coefs in Hx.
    destruct ((0 <=? r) && (r <? nrows p)) eqn:B; [|discriminate]. injection Hx as <-.
    unfold SpxGetMatrixCoefficient. rewrite Eg. cbn [bind].
    destruct (at_range (g_rows p) r) as [y ->]; [unfold nrows in B; lia|]. cbn [bind]. f_equal.
    destruct (wf_col p W c g Eg) as [Cn _]. rewrite coef_find by auto.
    rewrite <- (find_perm (x_order E (g_entries g)) (g_entries g)) by (auto using canonical_nodup).
    rewrite find_first_find. destruct (find _ _); auto.
  - intros c g' H. destruct (C c g' H) as (g & Eg & _ & _ & _ & ->).
    rewrite map_length, upto_length. cbn. rewrite !map_length. auto.
  - intros c g' H. destruct (C c g' H) as (g & Eg & _ & _ & _ & Ec).
    destruct (wf_col p W c g Eg) as [Cn Rn]. unfold SpxGetSparseColumn. rewrite Eg. cbn [bind].
    rewrite (add_all_clean _ _ _ (KE (g_entries g)) Cn Rn). eexists. split; [reflexivity|].
    rewrite nameless_nr, table_nr. split.
    + split; auto.
    + intros r x Hx. rewrite Ec, at_coefs in Hx. destruct (_ && _); [|discriminate]. injection Hx as <-.
      rewrite canonical_value, coef_find; auto.
  - intros r Hr. rewrite nameless_nr, table_nr in Hr.
    destruct (at_range (g_rows p) r Hr) as [y Ey]. unfold SpxGetSparseRow. rewrite Ey. cbn [bind].
    eexists. split; [reflexivity|]. rewrite nameless_nc, table_nc.
    destruct (transposed_ok (g_cols p) r 0) as (Ct & Rt & Ft).
    { unfold wf, stored_lp in W. eapply Forall_impl; [|exact W]. cbn; intros ? [? _]; auto. }
    rewrite (add_all_clean _ _ (ncols p) (KE (transposed_row 0 r (g_cols p))) Ct Rt). split.
    + split; auto.
    + intros c g' x H Hx. destruct (C c g' H) as (g & Eg & _ & _ & _ & Ec).
      rewrite Ec, at_coefs in Hx. destruct (_ && _); [|discriminate]. injection Hx as <-.
      rewrite canonical_value by auto. destruct (wf_col p W c g Eg) as [C0 _]. rewrite coef_find by auto.
      f_equal. apply (Ft c g Eg).
  - assert (N : t_cols (nameless (table_of p)) = map anon_c (t_cols (table_of p))) by auto.
    rewrite N. assert (F : forall l, flat_map t_coefs (map anon_c l) = flat_map t_coefs l).
    { induction l; cbn; congruence. }
    rewrite F, <- (rt_nonzeros _ _ R). unfold SpxGetNumberOfNonZeros, GetNumberOfNonZeros.
    destruct (_ <? _); auto. apply spx_count_rows.
    unfold wf, stored_lp in W. eapply Forall_impl; [|exact W]. cbn; intros ? [_ ?]; auto.
Qed.

Lemma spx_history_reads p0 mx s0 l s xs : keeps_entries E -> spx_new (E := E) p0 mx = Ok s0 ->
  s_legal_run (mkT [] [] mx) l -> srun s0 l = Ok (s, xs) ->
  s_reads E (s_lp s) (s_table_run (mkT [] [] mx) l).
Proof.
  intros KE N L H. apply spx_new_rel in N as [R _].
  destruct (spx_run_reads l _ _ _ _ R L H) as [W <-]. apply s_reads_ok; auto.
Qed.
Lemma spx_history_stored p0 mx s0 l s xs : spx_new (E := E) p0 mx = Ok s0 ->
  s_legal_run (mkT [] [] mx) l -> srun s0 l = Ok (s, xs) -> stored_lp (s_lp s).
Proof.
  intros N L H. apply spx_new_rel in N as [R _]. destruct (spx_run_reads l _ _ _ _ R L H) as [W _]. exact W.
Qed.
Lemma spx_history_defined p0 mx s0 l : spx_new (E := E) p0 mx = Ok s0 ->
  s_legal_run (mkT [] [] mx) l -> Forall edits_lp l -> exists s xs, srun s0 l = Ok (s, xs).
Proof.
  intros N L Ec. apply spx_new_rel in N as [R F].
  destruct (spx_run_defined l _ _ R F L Ec) as (s & xs & H & _). eauto.
Qed.
End History.
