(** Proofs about row deletion, solved state, parameters, strong branching and bases of the Glop
    interface. *)
From Coq Require Import String List ZArith Lia Bool ZifyBool Sorted SpecFloat.
From Verif Require Import Outcome OutcomeFacts Num Double DoubleFacts SparseVector SparseVectorFacts VectorSpec
  VectorProofs SparseMatrix MatrixSpec MatrixFacts Problem MipData ProblemSpec MipDataProofs
  GlopLp LpParams GlopIface GlopSpec GlopProofs.
Import ListNotations.
Open Scope Z_scope.

(** ** Row deletion *)
Lemma kept_before_eq mask r : kept_before mask r = Z.of_nat (left_over (firstn (Z.to_nat r) mask)).
Proof. auto. Qed.

Lemma mapping_loop_spec mask : forall mask0 next m0 m, length m = length mask ->
  length m0 = length mask0 ->
  mapping_loop (length mask) (Z.of_nat (length mask0)) next (mask0 ++ mask) (m0 ++ m) =
  Ok (m0 ++ new_index next mask).
Proof.
  induction mask as [|b mask IH]; intros mask0 next m0 [|x m] L L0; cbn in L; try discriminate; auto.
  cbn [length mapping_loop]. rewrite at_mid by auto. cbn [bind].
  assert (S : forall y, set_at (m0 ++ x :: m) (Z.of_nat (length mask0)) y = Ok ((m0 ++ [y]) ++ m)).
  { intros y. destruct (set_at_range (m0 ++ x :: m) (Z.of_nat (length mask0)) y) as [l' E].
    { rewrite app_length. cbn. lia. }
    rewrite E. f_equal. apply set_at_ok in E as [_ ->]. rewrite Nat2Z.id, <- L0.
    rewrite <- app_assoc. cbn. clear. induction m0; cbn; congruence. }
  specialize (IH (mask0 ++ [b])). rewrite app_length in IH. cbn [length] in IH.
  replace (Z.of_nat (length mask0 + 1)) with (Z.of_nat (length mask0) + 1) in IH by lia.
  rewrite <- app_assoc in IH. cbn [app] in IH.
  destruct b; rewrite S; cbn [bind new_index].
  - rewrite IH; [|lia|rewrite app_length; cbn; lia]. rewrite <- app_assoc. auto.
  - rewrite IH; [|lia|rewrite app_length; cbn; lia]. rewrite <- app_assoc. auto.
Qed.
Lemma row_mapping_ok p mask : length mask = length (g_rows p) ->
  row_mapping p mask = Ok (new_index 0 mask).
Proof.
  intros L. unfold row_mapping. rewrite <- L.
  exact (mapping_loop_spec mask [] 0 [] (repeat 0 (length mask)) (repeat_length _ _) eq_refl).
Qed.

Lemma at_keep {B} (mask : list bool) : forall (l : list B) r, length mask = length l -> at_ mask r = Ok false ->
  at_ (keep mask l) (kept_before mask r) = at_ l r.
Proof.
  induction mask as [|b mask IH]; intros [|x l] r L H; cbn in L; try discriminate.
  { apply at_in_range in H. cbn in H. lia. }
  rewrite <- kept_keep. pose proof (at_in_range _ _ _ H) as R.
  destruct (Z.eqb_spec r 0) as [->|N].
  - assert (b = false) by (cbn in H; congruence). subst b. auto.
  - assert (E : Z.to_nat r = S (Z.to_nat (r - 1))) by lia.
    replace r with ((r - 1) + 1) in H at 1 by lia. rewrite at_cons in H by lia.
    assert (K : kept_before (b :: mask) r = (if b then 0 else 1) + kept_before mask (r - 1)).
    { unfold kept_before, rows_kept. rewrite E. cbn [firstn filter]. destruct b; cbn [negb length]; lia. }
    specialize (IH l (r - 1) ltac:(lia) H). rewrite K.
    replace (at_ (x :: l) r) with (at_ l (r - 1)) by (rewrite <- (at_cons x l) by lia; f_equal; lia).
    destruct b; cbn [kept]; rewrite kept_keep.
    + rewrite Z.add_0_l. auto.
    + rewrite Z.add_comm, at_cons by (unfold kept_before, rows_kept; lia). auto.
Qed.

Lemma kept_onto mask : forall q, 0 <= q < rows_kept mask ->
  exists r, at_ mask r = Ok false /\ kept_before mask r = q.
Proof.
  unfold rows_kept. induction mask as [|b mask IH]; intros q H; cbn in H; [lia|].
  assert (K : forall r, 0 <= r -> kept_before (b :: mask) (r + 1) = (if b then 0 else 1) + kept_before mask r).
  { intros r Hr. unfold kept_before, rows_kept. replace (Z.to_nat (r + 1)) with (S (Z.to_nat r)) by lia.
    cbn [firstn filter]. destruct b; cbn [negb length]; lia. }
  destruct b; cbn [negb length] in H.
  - destruct (IH q H) as (r & H1 & H2). pose proof (at_in_range _ _ _ H1).
    exists (r + 1). rewrite at_cons, K by lia. auto.
  - destruct (Z.eqb_spec q 0) as [->|].
    + exists 0. auto.
    + destruct (IH (q - 1)) as (r & H1 & H2); [lia|]. pose proof (at_in_range _ _ _ H1).
      exists (r + 1). rewrite at_cons, K by lia. split; auto. lia.
Qed.

Lemma new_index_at mask r b : at_ mask r = Ok b ->
  at_ (new_index 0 mask) r = Ok (if b then -1 else kept_before mask r).
Proof.
  intros H. destruct (at_range (new_index 0 mask) r) as [q E].
  { rewrite new_index_length. apply at_in_range in H. auto. }
  rewrite E. destruct (new_index_spec _ _ _ _ E) as [[H1 ->]|[H1 ->]]; rewrite H in H1; injection H1 as ->; auto.
Qed.

Lemma kept_before_lt mask r : at_ mask r = Ok false -> 0 <= kept_before mask r < rows_kept mask.
Proof.
  intros H. pose proof (at_in_range _ _ _ H). apply at_ok in H as [_ H].
  pose proof (left_over_strict mask (Z.to_nat r) (length mask) ltac:(lia) H) as L.
  rewrite firstn_all in L. unfold kept_before, rows_kept, left_over in *. lia.
Qed.
Lemma kept_before_mono mask r r' : at_ mask r = Ok false -> r < r' -> kept_before mask r < kept_before mask r'.
Proof.
  intros H L. apply at_ok in H as [? H].
  pose proof (left_over_strict mask (Z.to_nat r) (Z.to_nat r') ltac:(lia) H).
  unfold kept_before, rows_kept, left_over in *. lia.
Qed.

Lemma rows_kept_length mask {B} (l : list B) : length mask = length l -> Z.of_nat (length (keep mask l)) = rows_kept mask.
Proof. intros L. rewrite keep_length by auto. auto. Qed.

(** Keeps conversion from unrolling a solve. *)
Strategy 1000 [SolveInternal SolveLp].

Lemma delete_rows_readings p p' mask : stored_lp p -> stored_lp p' -> length mask = length (g_rows p) ->
  table_of p' = remove_rows mask (table_of p) ->
  let m := new_index 0 mask in
    length m = length mask /\ ncols p' = ncols p /\ nrows p' = rows_kept mask /\
    (forall r, at_ mask r = Ok true -> at_ m r = Ok (-1)) /\
    (forall r, at_ mask r = Ok false -> exists q, at_ m r = Ok q /\ q = kept_before mask r /\ 0 <= q < nrows p' /\
       GetLeftHandSide p' q = GetLeftHandSide p r /\
       GetRightHandSide p' q = GetRightHandSide p r /\
       forall c, GetMatrixCoefficient p' c q = GetMatrixCoefficient p c r) /\
    (forall r r' q q', r < r' -> at_ mask r = Ok false -> at_ mask r' = Ok false ->
       at_ m r = Ok q -> at_ m r' = Ok q' -> q < q') /\
    (forall q, 0 <= q < nrows p' -> exists r, at_ m r = Ok q).
Proof.
  intros W W' L T m. unfold m.
  pose proof (wf_reads _ W) as R. pose proof (wf_reads _ W') as R'. rewrite T in R'.
  assert (Lt : length mask = length (t_rows (table_of p))) by (cbn; rewrite map_length; auto).
  assert (NR : nrows p' = rows_kept mask).
  { rewrite (rt_rows _ _ R'). unfold t_nr, remove_rows. cbn [t_rows]. apply rows_kept_length. auto. }
  split; [apply new_index_length|]. split; [|split; [auto|split; [|split; [|split]]]].
  - rewrite (rt_cols _ _ R'), (rt_cols _ _ R). unfold t_nc, remove_rows. cbn [t_cols]. rewrite map_length. auto.
  - intros r H. rewrite (new_index_at _ _ _ H). auto.
  - intros r H. exists (kept_before mask r). rewrite (new_index_at _ _ _ H), NR.
    split; auto. split; auto. split; [apply kept_before_lt; auto|].
    rewrite (rt_lhs _ _ R'), (rt_lhs _ _ R), (rt_rhs _ _ R'), (rt_rhs _ _ R). unfold or_abort at 1 2 3 4.
    unfold remove_rows at 1 2. cbn [t_rows]. rewrite at_keep by auto. split; auto. split; auto.
    intros c. rewrite (rt_coef _ _ R'), (rt_coef _ _ R). unfold or_abort.
    unfold remove_rows. cbn [t_cols]. rewrite at_map.
    destruct (at_ (t_cols (table_of p)) c) as [g| | | |] eqn:Ec; auto.
    cbn [map_coefs t_coefs]. rewrite at_keep; auto.
    rewrite (rt_full _ _ R c g Ec). auto.
  - intros r r' q q' Hl H1 H2 E1 E2. rewrite (new_index_at _ _ _ H1) in E1. rewrite (new_index_at _ _ _ H2) in E2.
    injection E1 as <-. injection E2 as <-. apply kept_before_mono; auto.
  - intros q Hq. rewrite NR in Hq. destruct (kept_onto mask q Hq) as (r & H1 & H2).
    exists r. rewrite (new_index_at _ _ _ H1). rewrite H2. auto.
Qed.

Section Deletion.
Context {E : engine}.
Implicit Type s : gstate E.

Lemma delete_row_set s mask : stored_lp (lp s) -> length mask = length (g_rows (lp s)) ->
  exists s' m, gstep s (CDeleteRowSet mask) = Ok (s', RMap m) /\
    length m = length mask /\ ncols (lp s') = ncols (lp s) /\ nrows (lp s') = rows_kept mask /\
    (forall r, at_ mask r = Ok true -> at_ m r = Ok (-1)) /\
    (forall r, at_ mask r = Ok false -> exists q, at_ m r = Ok q /\ q = kept_before mask r /\ 0 <= q < nrows (lp s') /\
       GetLeftHandSide (lp s') q = GetLeftHandSide (lp s) r /\
       GetRightHandSide (lp s') q = GetRightHandSide (lp s) r /\
       forall c, GetMatrixCoefficient (lp s') c q = GetMatrixCoefficient (lp s) c r) /\
    (forall r r' q q', r < r' -> at_ mask r = Ok false -> at_ mask r' = Ok false ->
       at_ m r = Ok q -> at_ m r' = Ok q' -> q < q') /\
    (forall q, 0 <= q < nrows (lp s') -> exists r, at_ m r = Ok q).
Proof.
  intros W L. cbn [gstep]. rewrite row_mapping_ok by auto. cbn [bind].
  destruct (DeleteRows_ok s mask W L) as (s' & Es & W' & T & _). rewrite Es. cbn [bind].
  exists s', (new_index 0 mask). split; auto. apply delete_rows_readings; auto.
Qed.

(** ** The basis after deletion *)
Lemma firstn_set {B} (l l' : list B) k x : set_at l (Z.of_nat k) x = Ok l' ->
  firstn (S k) l' = firstn k l ++ [x].
Proof.
  intros H. apply set_at_ok in H as [H ->]. rewrite Nat2Z.id. assert (L : (k < length l)%nat) by lia. clear H.
  revert k L. induction l as [|y l IH]; intros [|k] L; cbn in *; try lia; auto.
  f_equal. rewrite <- IH by lia. destruct l; auto.
Qed.
Lemma skipn_set {B} (l l' : list B) k x j : set_at l (Z.of_nat k) x = Ok l' -> (k < j)%nat ->
  skipn j l' = skipn j l.
Proof.
  intros H. apply set_at_ok in H as [H ->]. rewrite Nat2Z.id. clear H.
  revert k j. induction l as [|y l IH]; intros [|k] [|j] L; cbn in *; try lia; auto. apply IH. lia.
Qed.
Lemma skipn_cons_at {B} (l : list B) k x : at_ l (Z.of_nat k) = Ok x -> skipn k l = x :: skipn (S k) l.
Proof.
  intros H. apply at_ok in H as [_ H]. rewrite Nat2Z.id in H. revert k H.
  induction l as [|y l IH]; intros [|k] H; cbn in *; try discriminate; auto. congruence.
Qed.

Lemma shift_loop_spec n : forall row ns cols mask st,
  (ns <= cols + row)%nat -> (row + n = length mask)%nat -> (cols + row + n = length st)%nat ->
  exists st' ns', shift_loop n (Z.of_nat row) (Z.of_nat ns) (Z.of_nat cols) mask st = Ok (st', Z.of_nat ns') /\
    firstn ns' st' = firstn ns st ++ keep (skipn row mask) (skipn (cols + row) st) /\ (ns' <= length st')%nat /\ (ns <= ns')%nat.
Proof.
  induction n as [|n IH]; intros row ns cols mask st H1 H2 H3; cbn [shift_loop].
  - exists st, ns. split; auto. rewrite (skipn_all2 (n := row) mask) by lia. cbn. rewrite app_nil_r. split; auto. lia.
  - destruct (at_range mask (Z.of_nat row)) as [b Eb]; [lia|]. rewrite Eb. cbn [bind].
    rewrite (skipn_cons_at _ _ _ Eb).
    destruct (at_range st (Z.of_nat (cols + row))) as [x Ex]; [lia|].
    rewrite (skipn_cons_at _ _ _ Ex).
    replace (Z.of_nat row + 1) with (Z.of_nat (S row)) by lia.
    destruct b.
    + destruct (IH (S row) ns cols mask st) as (st' & ns' & E1 & E2 & E3 & E4); try lia.
      exists st', ns'. split; auto. rewrite E2.
      replace (cols + S row)%nat with (S (cols + row)) by lia. split; auto.
    + replace (Z.of_nat cols + Z.of_nat row) with (Z.of_nat (cols + row)) by lia. rewrite Ex. cbn [bind].
      destruct (set_at_range st (Z.of_nat ns) x) as [st1 Es]; [lia|]. rewrite Es. cbn [bind].
      replace (Z.of_nat ns + 1) with (Z.of_nat (S ns)) by lia.
      pose proof (set_at_length _ _ _ _ Es) as Ls.
      destruct (IH (S row) (S ns) cols mask st1) as (st' & ns' & E1 & E2 & E3 & E4); try lia.
      exists st', ns'. split; auto. rewrite E2. rewrite (firstn_set _ _ _ _ Es).
      rewrite (skipn_set _ _ _ _ _ Es) by lia.
      replace (cols + S row)%nat with (S (cols + row)) by lia. rewrite <- app_assoc. cbn [app].
      split; [|lia]. auto.
Qed.

Lemma resize_firstn {B} (l : list B) n d : (n <= length l)%nat -> resize l n d = firstn n l.
Proof.
  intros H. unfold resize. replace (n - length l)%nat with 0%nat by lia. cbn. apply app_nil_r.
Qed.

Lemma delete_keeps_basis s mask s' x : stored_lp (lp s) ->
  length mask = length (g_rows (lp s)) ->
  gstep s (CDeleteRowSet mask) = Ok (s', x) ->
  let st := w_state E (solver s) in
  (Z.of_nat (length st) = ncols (lp s) + nrows (lp s) ->
   exists l, solver s' = w_load E (solver s) l /\
     Z.of_nat (length l) = ncols (lp s') + nrows (lp s') /\
     (forall c, 0 <= c < ncols (lp s) -> at_ l c = at_ st c) /\
     (forall r, at_ mask r = Ok false ->
        at_ l (ncols (lp s) + kept_before mask r) = at_ st (ncols (lp s) + r))) /\
  (Z.of_nat (length st) <> ncols (lp s) + nrows (lp s) -> solver s' = solver s).
Proof.
  intros W L H st.
  destruct (delete_row_set s mask W L) as (s1 & m & E1 & _ & NC & NR & _).
  rewrite E1 in H. injection H as <- _.
  cbn [gstep] in E1. rewrite row_mapping_ok in E1 by auto. cbn [bind] in E1.
  apply bind_ok in E1 as (s2 & E1 & E2). injection E2 as ->.
  unfold DeleteRowsAndUpdateCurrentBasis in E1. fold st in E1.
  split; intros HL.
  - replace (Z.of_nat (length st) =? ncols (lp s) + nrows (lp s)) with true in E1 by lia.
    destruct (shift_loop_spec (length (g_rows (lp s))) 0 (length (g_cols (lp s))) (length (g_cols (lp s))) mask st)
      as (st' & ns' & F1 & F2 & F3 & F4); try lia.
    { unfold ncols, nrows in HL. lia. }
    change (Z.of_nat 0) with 0 in F1. unfold ncols at 1 2 in E1. rewrite F1 in E1. cbn [bind fst snd] in E1.
    apply bind_ok in E1 as (p & Ep & E1). injection E1 as E1.
    eexists. split; [rewrite <- E1; reflexivity|]. clear E1. rewrite Nat2Z.id, resize_firstn, F2 by auto.
    rewrite Nat.add_0_r. change (skipn 0 mask) with mask.
    assert (LC : length (firstn (length (g_cols (lp s))) st) = length (g_cols (lp s))).
    { rewrite firstn_length. unfold ncols, nrows in HL. lia. }
    assert (LS : length mask = length (skipn (length (g_cols (lp s))) st)).
    { rewrite skipn_length. unfold ncols, nrows in HL. lia. }
    split; [|split].
    + rewrite app_length, LC, NC, NR. unfold ncols.
      rewrite Nat2Z.inj_add, (rows_kept_length mask) by auto. auto.
    + intros c Hc. rewrite at_app, LC. unfold ncols in Hc.
      replace (c <? Z.of_nat (length (g_cols (lp s)))) with true by lia.
      unfold at_. rewrite nth_error_firstn. replace (Z.to_nat c <? length (g_cols (lp s)))%nat with true by lia. auto.
    + intros r Hr. rewrite at_app, LC. pose proof (kept_before_lt _ _ Hr).
      unfold ncols. replace (_ <? _) with false by lia.
      replace (Z.of_nat (length (g_cols (lp s))) + kept_before mask r - Z.of_nat (length (g_cols (lp s))))
        with (kept_before mask r) by lia.
      rewrite at_keep by auto. pose proof (at_in_range _ _ _ Hr).
      rewrite <- (firstn_skipn (length (g_cols (lp s))) st) at 2.
      rewrite at_app, LC. replace (_ <? _) with false by lia. f_equal. lia.
  - replace (Z.of_nat (length st) =? ncols (lp s) + nrows (lp s)) with false in E1 by lia.
    cbn [bind] in E1. apply bind_ok in E1 as (p & Ep & E1). injection E1 as <-. auto.
Qed.
End Deletion.

Lemma app_eq_len {B} (a b c d : list B) : length a = length c -> a ++ b = c ++ d -> a = c /\ b = d.
Proof.
  revert c. induction a as [|x a IH]; intros [|y c] L H; cbn in *; try discriminate; auto.
  injection H as -> H. apply IH in H as [-> ->]; auto.
Qed.

(** ** Solved or not *)
Section Solved.
Context {E : engine}.
Implicit Type s : gstate E.

Lemma SolveInternal_modified fuel : forall rec s t s' ok, SolveInternal fuel rec s t = Ok (s', ok) ->
  (ok = true -> modified s' = false) /\ (ok = false -> modified s' = false -> modified s = false).
Proof.
  induction fuel as [|fuel IH]; intros rec s t s' ok H; [discriminate|].
  cbn [SolveInternal] in H.
  set (s1 := if modified s then _ else s) in H.
  assert (L1 : modified s1 = modified s).
  { subst s1. destruct (modified s) eqn:M; auto. destruct (use_scaling _); auto.
    destruct (sc_scale E (lp_slacks E (lp s))); auto. }
  set (s2 := if rec then s1 else _) in H.
  assert (L2 : modified s2 = modified s) by (subst s2; destruct rec; auto).
  clearbody s1. clear L1. clearbody s2. clear s1.
  set (s3 := if scratch s2 then _ else s2) in H.
  assert (L3 : modified s3 = modified s) by (subst s3; destruct (scratch s2); auto).
  clearbody s3. clear L2 s2.
  destruct (w_solve E (solver s3) t (scaled_lp s3)) as [[ok1 t1] w1].
  destruct ok1; cbn [negb] in H.
  - destruct (_ && _ && _) in H.
    + apply bind_ok in H as ([s4 ok4] & E4 & H). apply IH in E4 as [E4 E5]. cbn in E4, E5.
      destruct ok4; cbn in H; injection H as <- <-; split; auto; try discriminate.
      intros _ M. specialize (E5 eq_refl M). discriminate.
    + injection H as <- <-. split; auto. discriminate.
  - injection H as <- <-. cbn. split; [discriminate|]. intros _ M. congruence.
Qed.

Lemma SolveLp_modified d s s' ok : SolveLp d s = Ok (s', ok) ->
  (ok = true -> modified s' = false) /\ (ok = false -> modified s' = false -> modified s = false).
Proof.
  unfold SolveLp. cbv zeta. generalize 2%nat. intros n H. apply SolveInternal_modified in H. exact H.
Qed.

Lemma step_modified s c s' x : gstep s c = Ok (s', x) -> reads_file c = false ->
  (modifies c = true -> modified s' = true) /\
  (forall d, c = CSolve d -> (x = ROk -> modified s' = false) /\
     (x <> ROk -> modified s' = false -> modified s = false)) /\
  (modifies c = false -> (forall d, c <> CSolve d) -> modified s' = modified s).
Proof.
  intros H Hr.
  assert (ED : forall o, edited s o = Ok (s', x) -> modified s' = true).
  { intros o Ho. unfold edited in Ho. apply bind_ok in Ho as (p & _ & Ho). injection Ho as <- _. auto. }
  destruct c; cbn [gstep modifies reads_file] in *;
    try (split; [intros _; eapply ED; exact H|split; [intros; discriminate|discriminate]]);
    try (injection H as <- <-; split; [first [discriminate|solve [auto]]|split; [intros; discriminate|first [discriminate|solve [auto]]]]; fail).
  - destruct vs as [|v vs]; [injection H as <- <-; split; [discriminate|split; [intros; discriminate|auto]]|].
    split; [intros _; eapply ED; exact H|split; [intros; discriminate|discriminate]].
  - destruct vs as [|v vs]; [injection H as <- <-; split; [discriminate|split; [intros; discriminate|auto]]|].
    split; [intros _; eapply ED; exact H|split; [intros; discriminate|discriminate]].
  - split; [|split; [intros; discriminate|discriminate]]. intros _.
    apply bind_ok in H as (m & _ & H). apply bind_ok in H as (s1 & H1 & H). injection H as <- _.
    unfold DeleteRowsAndUpdateCurrentBasis in H1. apply bind_ok in H1 as (s2 & _ & H1).
    apply bind_ok in H1 as (p & _ & H1). injection H1 as <-. auto.
  - split; [|split; [intros; discriminate|discriminate]]. intros _.
    apply bind_ok in H as (m & _ & H). apply bind_ok in H as (s1 & H1 & H). injection H as <- _.
    unfold DeleteRowsAndUpdateCurrentBasis in H1. apply bind_ok in H1 as (s2 & _ & H1).
    apply bind_ok in H1 as (p & _ & H1). injection H1 as <-. auto.
  - apply bind_ok in H as ([s1 ok] & H1 & H). injection H as <- <-. cbn [fst snd].
    split; [discriminate|]. split; [|intros _ C; exfalso; eapply C; reflexivity].
    intros d _. apply SolveLp_modified in H1 as [H1 H2].
    split; [intros X|intros X].
    + apply H1. destruct ok; auto; discriminate.
    + apply H2. destruct ok; auto. congruence.
  - apply bind_ok in H as ([s1 r] & H1 & H). injection H as <- <-.
    split; [discriminate|]. split; [intros; discriminate|]. intros _ _.
    unfold SolveDownAndUpStrongBranch in H1. apply bind_ok in H1 as (g & _ & H1).
    apply bind_ok in H1 as ([[[p1 w1] t1] r1] & _ & H1).
    apply bind_ok in H1 as ([[[p2 w2] t2] r2] & _ & H1).
    apply bind_ok in H1 as (p3 & _ & H1). injection H1 as <- _. auto.
  - apply bind_ok in H as (s1 & H1 & H). injection H as <- <-.
    split; [discriminate|]. split; [intros; discriminate|]. intros _ _.
    unfold SetBasisStatusForColumnsAndRows in H1.
    apply bind_ok in H1 as (a & _ & H1). apply bind_ok in H1 as (b & _ & H1). injection H1 as <-. auto.
  - injection H as <- <-. split; [discriminate|]. split; [intros; discriminate|]. intros _ _.
    unfold SetLpParameters. destruct (negb _); auto.
  - destruct f; try discriminate. injection H as <- <-. split; [discriminate|]. split; [intros; discriminate|]. auto.
  - split; [discriminate|]. split; [intros; discriminate|]. intros _ _.
    unfold WriteLpToFile in H; destruct written; injection H as <- <-; auto.
Qed.

Lemma grun_replies l : forall s s' xs, grun s l = Ok (s', xs) -> length xs = length l.
Proof.
  induction l as [|c l IH]; intros s s' xs H; cbn [grun] in H.
  - injection H as _ <-. auto.
  - apply bind_ok in H as ([s1 x] & H1 & H). apply bind_ok in H as ([s2 xs2] & H2 & H).
    injection H as _ <-. cbn. f_equal. eauto.
Qed.
Lemma grun_app l1 : forall l2 s s' xs, grun s (l1 ++ l2) = Ok (s', xs) ->
  exists s1 xs1 xs2, grun s l1 = Ok (s1, xs1) /\ grun s1 l2 = Ok (s', xs2) /\ xs = xs1 ++ xs2.
Proof.
  induction l1 as [|c l1 IH]; intros l2 s s' xs H; cbn [app grun] in *.
  - exists s, [], xs. auto.
  - apply bind_ok in H as ([s1 x] & H1 & H). apply bind_ok in H as ([s2 xs2] & H2 & H).
    injection H as <- <-. destruct (IH _ _ _ _ H2) as (s3 & xs3 & xs4 & E1 & E2 & E3).
    exists s3, (x :: xs3), xs4. rewrite H1. cbn [bind]. rewrite E1. cbn [bind]. subst. auto.
Qed.

Lemma solved_cons c x l xs : solved_since l xs -> solved_since (c :: l) (x :: xs).
Proof.
  intros (l1 & d & l2 & xs1 & xs2 & -> & -> & L & F).
  exists (c :: l1), d, l2, (x :: xs1), xs2. cbn. auto.
Qed.

Lemma run_solved l : forall s s' xs, grun s l = Ok (s', xs) ->
  Forall (fun c => reads_file c = false) l -> modified s' = false ->
  (modified s = false /\ Forall (fun c => modifies c = false) l) \/ solved_since l xs.
Proof.
  induction l as [|c l IH]; intros s s' xs H F M; cbn [grun] in H.
  - injection H as <- <-. auto.
  - apply bind_ok in H as ([s1 x] & H1 & H). apply bind_ok in H as ([s2 xs2] & H2 & H).
    injection H as <- <-. inversion F as [|? ? F1 F2]; subst.
    destruct (IH _ _ _ H2 F2 M) as [[M1 N]|S]; [|right; apply solved_cons; auto].
    destruct (step_modified _ _ _ _ H1 F1) as (A & B & C).
    assert (D : (exists d, c = CSolve d) \/ (forall d, c <> CSolve d)).
    { destruct c; try (right; intros ? ?; discriminate). left; eauto. }
    destruct D as [[d ->]|D].
    + destruct (B d eq_refl) as [B1 B2].
      assert (X : x = ROk \/ x <> ROk) by (destruct x; auto; right; discriminate).
      destruct X as [->|X].
      * right. exists [], d, l, [], xs2. auto.
      * left. split; auto.
    + left. destruct (modifies c) eqn:Mc; [rewrite A in M1; auto; discriminate|].
      split; [rewrite <- C; auto|constructor; auto].
Qed.

Lemma run_stays l : forall s s' xs, grun s l = Ok (s', xs) -> modified s = false ->
  Forall (fun c => reads_file c = false) l -> Forall (fun c => modifies c = false) l ->
  Forall2 (fun c x => match c with CSolve _ => x = ROk | _ => True end) l xs -> modified s' = false.
Proof.
  induction l as [|c l IH]; intros s s' xs H M F N S; cbn [grun] in H.
  - injection H as <- _. auto.
  - apply bind_ok in H as ([s1 x] & H1 & H). apply bind_ok in H as ([s2 xs2] & H2 & H).
    injection H as <- <-. inversion F as [|? ? F1 F2]; subst. inversion N as [|? ? N1 N2]; subst.
    inversion S as [|? ? ? ? S1 S2]; subst. eapply IH; eauto.
    destruct (step_modified _ _ _ _ H1 F1) as (A & B & C).
    assert (D : (exists d, c = CSolve d) \/ (forall d, c <> CSolve d)).
    { destruct c; try (right; intros ? ?; discriminate). left; eauto. }
    destruct D as [[d ->]|D].
    + apply (B d eq_refl). auto.
    + rewrite C; auto.
Qed.

Lemma new_modified b : modified (glop_new (E := E) b) = true.
Proof. unfold glop_new, SetLpParameters. destruct (negb _); auto. Qed.

Lemma solved_partial b l s xs : grun (glop_new (E := E) b) l = Ok (s, xs) ->
  Forall (fun c => reads_file c = false) l ->
  (IsSolved s = true -> solved_since l xs) /\ (solved_cleanly l xs -> IsSolved s = true).
Proof.
  intros H F. unfold IsSolved. split.
  - intros M. destruct (run_solved l _ _ _ H F) as [[X _]|X]; auto.
    { destruct (modified s); auto; discriminate. }
    rewrite new_modified in X. discriminate.
  - intros (l1 & d & l2 & xs1 & xs2 & -> & -> & L & N & S).
    destruct (grun_app _ _ _ _ _ H) as (s1 & ys1 & ys2 & E1 & E2 & E3).
    pose proof (grun_replies _ _ _ _ E1) as L1.
    assert (X : xs1 = ys1 /\ ROk :: xs2 = ys2).
    { apply app_eq_len. congruence. auto. }
    destruct X as [-> <-]. cbn [grun] in E2.
    apply bind_ok in E2 as ([s2 x] & G1 & E2). apply bind_ok in E2 as ([s3 xs3] & G2 & E2).
    injection E2 as -> -> ->.
    apply Forall_app in F as [_ F]. inversion F as [|? ? F1 F2]; subst.
    rewrite (run_stays l2 s2 s xs2); auto.
    destruct (step_modified _ _ _ _ G1 F1) as (_ & B & _). apply (B d eq_refl). auto.
Qed.
End Solved.

(** ** Parameters *)
Lemma tolerance_bool x : dltb x d0 && negb (deqb x dm1) = false <-> tolerance_ok x.
Proof. unfold tolerance_ok. destruct (dltb x d0), (deqb x dm1); cbn; intuition discriminate. Qed.

Lemma timing_bool p : negb (is_off (timing_mode p)) && dleb (time_limit p) d0 = false <->
  timing_mode p = TIMING_OFF \/ dleb (time_limit p) d0 = false.
Proof. destruct (timing_mode p), (dleb (time_limit p) d0); cbn; intuition discriminate. Qed.
Lemma if_false (b c : bool) : (if b then false else c) = true <-> b = false /\ c = true.
Proof. destruct b; intuition discriminate. Qed.

Lemma valid_iff p : LpParametersAreValid p = true <->
  tolerance_ok (feasibility_tolerance p) /\ tolerance_ok (optimality_tolerance p) /\
  tolerance_ok (min_markowitz_threshold p) /\ 0 <= refactorization_interval p /\
  (timing_mode p = TIMING_OFF \/ dleb (time_limit p) d0 = false) /\
  0 <= iteration_limit p /\ 0 <= num_threads p /\ 0 <= random_seed p.
Proof.
  unfold LpParametersAreValid. rewrite !if_false, !tolerance_bool, timing_bool, !Z.ltb_ge. tauto.
Qed.

Lemma supported_iff p : LpParametersAreSupportedByGlop p = true <-> glop_supports p.
Proof.
  unfold LpParametersAreSupportedByGlop, glop_supports. rewrite if_false, negb_false_iff, valid_iff.
  assert (M : deqb (min_markowitz_threshold p) dm1 = true -> tolerance_ok (min_markowitz_threshold p))
    by (right; auto).
  assert (X : match lp_solver_type p with
    | LP_GLOP => match scaling_strategy p with
      | SCALING_LEAST_SQUARES => false
      | _ => match pricing_strategy p with
        | PRICING_STEEPEST_EDGE_QUICK_START | PRICING_PARTIAL_DANTZIG => false
        | _ => if negb (deqb (min_markowitz_threshold p) dm1) then false
               else if negb (refactorization_interval p =? 0) then false else true
        end
      end
    | LP_SOPLEX => false end = true <->
    lp_solver_type p = LP_GLOP /\ scaling_strategy p <> SCALING_LEAST_SQUARES /\
    (pricing_strategy p <> PRICING_STEEPEST_EDGE_QUICK_START /\ pricing_strategy p <> PRICING_PARTIAL_DANTZIG) /\
    deqb (min_markowitz_threshold p) dm1 = true /\ refactorization_interval p = 0).
  { rewrite <- Z.eqb_eq. generalize (deqb (min_markowitz_threshold p) dm1) (refactorization_interval p =? 0). intros b1 b2.
    destruct (lp_solver_type p), (scaling_strategy p), (pricing_strategy p), b1, b2; cbn;
      (split; [intros H; first [discriminate H | repeat split; congruence] | intros (? & ? & (? & ?) & ? & ?); congruence]). }
  rewrite X. intuition lia.
Qed.

Lemma from_to_glop p flag : glop_supports p -> has_time_limit p ->
  from_glop (to_glop p) (solve_from_scratch p) (usertime_flag p flag) = glop_resolved p.
Proof.
  intros (S1 & S2 & S3 & S4 & S5 & S6 & S7 & S8 & S9 & S10 & S11 & S12) T.
  unfold from_glop, to_glop, glop_resolved, usertime_flag. cbn.
  assert (I : (if (if iteration_limit p =? 0 then -1 else iteration_limit p) =? -1
               then 0 else (if iteration_limit p =? 0 then -1 else iteration_limit p)) = iteration_limit p).
  { destruct (Z.eqb_spec (iteration_limit p) 0); cbn; auto.
    destruct (Z.eqb_spec (iteration_limit p) (-1)); auto; lia. }
  rewrite I. unfold default_tolerance, or_default.
  replace (if match scaling_strategy p with SCALING_OFF => false | _ => true end
     then match match scaling_strategy p with SCALING_LINEAR_PROGRAM => G_LINEAR_PROGRAM | _ => G_EQUILIBRATION end with
          | G_DEFAULT => SCALING_DEFAULT | G_EQUILIBRATION => SCALING_EQUILIBRATION | G_LINEAR_PROGRAM => SCALING_LINEAR_PROGRAM
          end
     else SCALING_OFF) with (match scaling_strategy p with SCALING_DEFAULT => SCALING_EQUILIBRATION | m => m end)
    by (destruct (scaling_strategy p); auto; congruence).
  replace (match match pricing_strategy p with PRICING_DANTZIG => G_DANTZIG | PRICING_DEVEX => G_DEVEX | _ => G_STEEPEST_EDGE end with
     | G_DANTZIG => PRICING_DANTZIG | G_STEEPEST_EDGE => PRICING_STEEPEST_EDGE | G_DEVEX => PRICING_DEVEX end)
    with (match pricing_strategy p with PRICING_DEFAULT => PRICING_STEEPEST_EDGE | m => m end)
    by (destruct (pricing_strategy p); auto; congruence).
  destruct T as [T|T].
  - rewrite T. auto.
  - destruct (timing_mode p); cbn; rewrite ?T; auto.
Qed.

Lemma resolved_supports p : glop_supports p -> has_time_limit p ->
  glop_supports (glop_resolved p) /\ has_time_limit (glop_resolved p) /\
  glop_resolved (glop_resolved p) = glop_resolved p.
Proof.
  intros (S1 & S2 & S3 & S4 & S5 & S6 & S7 & S8 & S9 & S10 & S11 & S12) T.
  assert (TD : forall x, tolerance_ok x -> tolerance_ok (default_tolerance x d1em8)).
  { intros x [H|H]; unfold default_tolerance.
    - destruct (deqb x dm1); left; auto.
    - rewrite H. left. auto. }
  assert (DD : forall x, default_tolerance (default_tolerance x d1em8) d1em8 = default_tolerance x d1em8).
  { intros x. unfold default_tolerance. destruct (deqb x dm1) eqn:D; auto. rewrite D. auto. }
  split; [|split].
  - unfold glop_supports, glop_resolved. cbn.
    split; auto. split; auto. split; auto. split; auto. split; auto.
    split. { destruct S6 as [->|H]; auto. destruct (timing_mode p); auto. }
    split; auto. split. { destruct (Z.eqb_spec (num_threads p) 0); lia. }
    split; auto. split. { destruct (scaling_strategy p); congruence. }
    split; destruct (pricing_strategy p); congruence.
  - unfold has_time_limit, glop_resolved. cbn. destruct T as [->|H]; auto. destruct (timing_mode p); auto.
  - unfold glop_resolved at 1. cbn. unfold glop_resolved. rewrite !DD. f_equal.
    + destruct (scaling_strategy p); auto.
    + destruct (pricing_strategy p); auto.
    + destruct (timing_mode p); auto.
    + destruct (Z.eqb_spec (num_threads p) 0); auto. destruct (Z.eqb_spec (num_threads p) 0); auto; lia.
Qed.

(** Without a finite time limit the parameters read back as with timing off. *)
Definition timing_off (p : lp_params) : lp_params :=
  mkParams (lp_solver_type p) (solve_from_scratch p) (scaling_strategy p) (use_presolve p)
    (pricing_strategy p) (feasibility_tolerance p) (optimality_tolerance p)
    (min_markowitz_threshold p) (refactorization_interval p) (objective_lower_limit p)
    (objective_upper_limit p) TIMING_OFF (time_limit p) (iteration_limit p) (num_threads p)
    (random_seed p) (enable_internal_solver_output p).

Lemma from_to_glop_inf p flag : glop_supports p -> dltb (time_limit p) dinf = false ->
  from_glop (to_glop p) (solve_from_scratch p) (usertime_flag p flag) = glop_resolved (timing_off p).
Proof.
  intros S T. rewrite <- (from_to_glop (timing_off p) (usertime_flag p flag)).
  - unfold from_glop, to_glop, timing_off. cbn. destruct (timing_mode p); cbn; rewrite ?T; auto.
  - unfold glop_supports, timing_off in *. cbn. intuition auto.
  - left. auto.
Qed.
Lemma supports_off p : glop_supports p -> glop_supports (timing_off p) /\ has_time_limit (timing_off p).
Proof. unfold glop_supports, has_time_limit, timing_off. cbn. intuition auto. Qed.

Section Params.
Context {E : engine}.
Implicit Type s : gstate E.

Lemma accepts s p : snd (SetLpParameters s p) = true <-> glop_supports p.
Proof.
  rewrite <- supported_iff. unfold SetLpParameters.
  destruct (LpParametersAreSupportedByGlop p); cbn; split; auto.
Qed.
Lemma rejected s p s' : SetLpParameters s p = (s', false) -> s' = s.
Proof. unfold SetLpParameters. destruct (negb _); intros H; inversion H; auto. Qed.

Lemma set_keeps s p s' b : SetLpParameters s p = (s', b) ->
  lp s' = lp s /\ scaled_lp s' = scaled_lp s /\ IsSolved s' = IsSolved s /\
  TimeLimitIsExceeded s' = TimeLimitIsExceeded s /\ GetNumIterations s' = GetNumIterations s.
Proof.
  unfold SetLpParameters. destruct (negb _); intros H; injection H as <- <-; auto.
Qed.

Hypothesis LW : engine_laws E.

Lemma get_set s p s' : SetLpParameters s p = (s', true) -> has_time_limit p ->
  GetLpParameters s' = glop_resolved p.
Proof.
  intros H T. assert (S : glop_supports p) by (apply (accepts s); rewrite H; auto).
  unfold SetLpParameters in H. destruct (negb _); [discriminate|]. injection H as <-.
  unfold GetLpParameters. cbn. rewrite (el_set E LW). apply from_to_glop; auto.
Qed.
Lemma get_set_inf s p s' : SetLpParameters s p = (s', true) -> dltb (time_limit p) dinf = false ->
  GetLpParameters s' = glop_resolved (timing_off p).
Proof.
  intros H T. assert (S : glop_supports p) by (apply (accepts s); rewrite H; auto).
  unfold SetLpParameters in H. destruct (negb _); [discriminate|]. injection H as <-.
  unfold GetLpParameters. cbn. rewrite (el_set E LW). apply from_to_glop_inf; auto.
Qed.

Lemma set_get_stable s p s' : SetLpParameters s p = (s', true) ->
  exists s'', SetLpParameters s' (GetLpParameters s') = (s'', true) /\
    GetLpParameters s'' = GetLpParameters s'.
Proof.
  intros H. assert (S : glop_supports p) by (apply (accepts s); rewrite H; auto).
  assert (X : exists r, glop_supports r /\ has_time_limit r /\ GetLpParameters s' = glop_resolved r).
  { destruct (dltb (time_limit p) dinf) eqn:T.
    - exists p. split; auto. assert (has_time_limit p) by (right; auto). split; auto. apply (get_set s); auto.
    - exists (timing_off p). destruct (supports_off p S). split; auto. split; auto. apply (get_set_inf s); auto. }
  destruct X as (r & R1 & R2 & ->).
  destruct (resolved_supports r R1 R2) as (Q1 & Q2 & Q3).
  assert (A : snd (SetLpParameters s' (glop_resolved r)) = true) by (apply accepts; auto).
  destruct (SetLpParameters s' (glop_resolved r)) as [s'' b] eqn:Es. cbn in A. subst b.
  exists s''. split; auto. rewrite (get_set s' _ _ Es Q2). auto.
Qed.

(** ** Solving keeps the parameters *)
Lemma SolveInternal_rest fuel : forall rec s t s' ok, SolveInternal fuel rec s t = Ok (s', ok) ->
  scratch s' = scratch s /\ usertime s' = usertime s.
Proof.
  induction fuel as [|fuel IH]; intros rec s t s' ok H; [discriminate|].
  cbn [SolveInternal] in H.
  set (s1 := if modified s then _ else s) in H.
  assert (L1 : scratch s1 = scratch s /\ usertime s1 = usertime s).
  { subst s1. destruct (modified s); auto. destruct (use_scaling _); auto.
    destruct (sc_scale E (lp_slacks E (lp s))); auto. }
  set (s2 := if rec then s1 else _) in H.
  assert (L2 : scratch s2 = scratch s /\ usertime s2 = usertime s) by (subst s2; destruct rec; auto).
  clearbody s1. clear L1. clearbody s2. clear s1.
  set (s3 := if scratch s2 then _ else s2) in H.
  assert (L3 : scratch s3 = scratch s /\ usertime s3 = usertime s) by (subst s3; destruct (scratch s2) eqn:?; cbn; intuition congruence).
  clearbody s3. clear L2 s2. destruct L3 as [L3 L4].
  destruct (w_solve E (solver s3) t (scaled_lp s3)) as [[ok1 t1] w1].
  destruct ok1; cbn [negb] in H; [|injection H as <- <-; auto].
  destruct (_ && _ && _) in H.
  - apply bind_ok in H as ([s4 ok4] & E4 & H). apply IH in E4 as [E4 E5]. cbn in E4, E5.
    destruct ok4; cbn in H; injection H as <- <-; cbn; split; congruence.
  - injection H as <- <-. auto.
Qed.

Lemma solve_keeps_params d s s' : SolveLp d s = Ok (s', true) -> GetLpParameters s' = GetLpParameters s.
Proof.
  unfold SolveLp. cbv zeta. generalize 2%nat. intros n H. pose proof (SolveInternal_rest _ _ _ _ _ _ H) as [R1 R2].
  apply (SolveInternal_params LW) in H; auto. cbn in H, R1, R2. rewrite (el_set E LW) in H.
  unfold GetLpParameters. rewrite H, R1, R2. auto.
Qed.

(** ** Strong branching *)
Lemma bounds_again p c a b p1 a' b' : SetVariableBounds p c a b = Ok p1 ->
  SetVariableBounds p1 c a' b' = SetVariableBounds p c a' b' /\ rebounded p c a b p1.
Proof.
  intros H. unfold SetVariableBounds, on_col in *.
  assert (R : 0 <= c < Z.of_nat (length (g_cols p))).
  { unfold change in H. apply bind_ok in H as (cs & H & _). apply bind_ok in H as (g & H & _).
    apply at_in_range in H. auto. }
  rewrite change_ok in H by auto. cbn [bind] in H. injection H as <-. split.
  - cbn [g_cols g_rows g_max]. rewrite !change_ok by (rewrite ?change_at_length; auto). cbn [bind].
    do 2 f_equal. apply at_ext.
    + rewrite !change_at_length. auto.
    + intros k Hk. rewrite !at_change_at. destruct (at_ (g_cols p) k) as [g| | | |]; auto.
      f_equal. destruct (k =? c); auto.
  - repeat split.
Qed.
Lemma bounds_same p c g : at_ (g_cols p) c = Ok g -> SetVariableBounds p c (g_lb g) (g_ub g) = Ok p.
Proof.
  intros H. unfold SetVariableBounds, on_col. rewrite change_ok by (eapply at_in_range; eauto). cbn [bind].
  f_equal. destruct p as [cs rs mx]. cbn [g_cols g_rows g_max] in *. f_equal. apply at_ext.
  - apply change_at_length.
  - intros k Hk. rewrite change_at_length in Hk. rewrite at_change_at. destruct (at_range cs k Hk) as [g' E']. rewrite E'.
    destruct (Z.eqb_spec k c) as [->|]; auto. assert (g' = g) by congruence. subst. destruct g; auto.
Qed.
Lemma dual_bound_valid v : IsDualBoundValid v = true -> proven v.
Proof. unfold proven. destruct v; cbn; auto; discriminate. Qed.

Lemma strong_branch r0 s c x s' r : SolveDownAndUpStrongBranch r0 s c x = Ok (s', r) ->
  lp s' = lp s /\ scaled_lp s' = scaled_lp s /\ IsSolved s' = IsSolved s /\
  GetLpParameters s' = GetLpParameters s /\ TimeLimitIsExceeded s' = TimeLimitIsExceeded s /\
  GetNumIterations s' = GetNumIterations s /\
  exists g, at_ (g_cols (scaled_lp s)) c = Ok g /\
  let y := dmul x (sc_factor E (scaler s) c) in
  let eps := feasibility_tolerance (GetLpParameters s) in
  let down := dceil (dsub (dsub y d1) eps) in
  let up := dfloor (dadd (dadd y d1) eps) in
  (down_valid r = Some true ->
     dleb (dsub (g_lb g) half) down = false \/
     exists q, rebounded (scaled_lp s) c (g_lb g) down q /\ proves_bound E q (dual_bound_down r)) /\
  (up_valid r = Some true ->
     dleb up (dadd (g_ub g) half) = false \/
     (exists q, rebounded (scaled_lp s) c up (g_ub g) q /\ proves_bound E q (dual_bound_up r)) \/
     up_valid r0 = Some true).
Proof.
  intros H. unfold SolveDownAndUpStrongBranch in H.
  apply bind_ok in H as (g & Eg & H).
  set (params := with_dual (w_params E (solver s)) true) in H.
  set (w0 := w_set_params E (solver s) params) in H.
  assert (P0 : w_params E w0 = params) by apply (el_set E LW).
  change (feasibility_tolerance (GetLpParameters s)) with (primal_feasibility_tolerance params).
  cbn zeta in H |- *.
  set (y := dmul x (sc_factor E (scaler s) c)) in *.
  set (eps := primal_feasibility_tolerance params) in *.
  set (down := dceil (dsub (dsub y d1) eps)) in *.
  set (up := dfloor (dadd (dadd y d1) eps)) in *.
  set (cutoff := if g_max (lp s) then _ else _) in H. clearbody cutoff.
  apply bind_ok in H as ([[[p1 w1] t1] r1] & H1 & H).
  apply bind_ok in H as ([[[p2 w2] t2] r2] & H2 & H).
  apply bind_ok in H as (p3 & H3 & H). injection H as <- <-.
  assert (D : w_params E w1 = params /\
     (forall a b, SetVariableBounds p1 c a b = SetVariableBounds (scaled_lp s) c a b) /\
     up_valid r1 = up_valid r0 /\
     (down_valid r1 = Some true -> dleb (dsub (g_lb g) half) down = false \/
        exists q, rebounded (scaled_lp s) c (g_lb g) down q /\ proves_bound E q (dual_bound_down r1))).
  { destruct (dleb (dsub (g_lb g) half) down) eqn:B.
    - apply bind_ok in H1 as (q & Eq & H1).
      pose proof (el_solve E LW w0 (tl_new E params) q) as PS.
      destruct (w_solve E w0 (tl_new E params) q) as [[ok tt] ww] eqn:Es. cbn in PS.
      assert (RB : rebounded (scaled_lp s) c (g_lb g) down q) by (apply (bounds_again _ _ _ _ _ d0 d0 Eq)).
      assert (SV : forall a b, SetVariableBounds q c a b = SetVariableBounds (scaled_lp s) c a b)
        by (intros a b; apply (bounds_again _ _ _ _ _ a b Eq)).
      destruct ok.
      + apply bind_ok in H1 as (r' & Hr & H1). injection H1 as <- <- _ <-.
        assert (UV : up_valid r' = up_valid r0).
        { unfold add_iterations in Hr. destruct (sb_iterations r0); [|discriminate]. injection Hr as <-. auto. }
        split; [congruence|]. split; auto. split; [auto|]. cbn [down_valid dual_bound_down]. intros V. right.
        exists q. split; auto. exists w0, (tl_new E params), tt, ww. split; auto. split; auto.
        apply dual_bound_valid. congruence.
      + injection H1 as <- <- _ <-. split; [congruence|]. split; auto. split; auto. cbn. discriminate.
    - injection H1 as <- <- _ <-. split; auto. }
  destruct D as (P1 & S1 & U1 & D1). clear H1.
  assert (U : w_params E w2 = params /\
     (forall a b, SetVariableBounds p2 c a b = SetVariableBounds (scaled_lp s) c a b) /\
     (down_valid r2 = Some true -> down_valid r1 = Some true /\ dual_bound_down r2 = dual_bound_down r1) /\
     (up_valid r2 = Some true -> dleb up (dadd (g_ub g) half) = false \/
        (exists q, rebounded (scaled_lp s) c up (g_ub g) q /\ proves_bound E q (dual_bound_up r2)) \/
        up_valid r0 = Some true)).
  { destruct (dleb up (dadd (g_ub g) half)) eqn:B.
    - apply bind_ok in H2 as (q & Eq & H2). rewrite S1 in Eq.
      pose proof (el_solve E LW w1 t1 q) as PS.
      destruct (w_solve E w1 t1 q) as [[ok tt] ww] eqn:Es. cbn in PS.
      assert (RB : rebounded (scaled_lp s) c up (g_ub g) q) by (apply (bounds_again _ _ _ _ _ d0 d0 Eq)).
      assert (SV : forall a b, SetVariableBounds q c a b = SetVariableBounds (scaled_lp s) c a b)
        by (intros a b; apply (bounds_again _ _ _ _ _ a b Eq)).
      destruct ok.
      + apply bind_ok in H2 as (r' & Hr & H2). injection H2 as <- <- _ <-.
        assert (UV : down_valid r' = down_valid r1 /\ dual_bound_down r' = dual_bound_down r1).
        { unfold add_iterations in Hr. destruct (sb_iterations r1); [|discriminate]. injection Hr as <-. auto. }
        destruct UV as [UV1 UV2].
        split; [congruence|]. split; auto. cbn. split; [rewrite UV1, UV2; auto|]. intros V. right. left.
        exists q. split; auto. exists w1, t1, tt, ww. split; auto. split; auto.
        apply dual_bound_valid. congruence.
      + injection H2 as <- <- _ <-. split; [congruence|]. split; auto. cbn. split; [discriminate|].
        rewrite U1. auto.
    - injection H2 as <- <- _ <-. split; auto. }
  destruct U as (P2 & S2 & D2 & U2). rewrite S2, (bounds_same _ _ _ Eg) in H3. injection H3 as <-.
  split; auto. split; auto. split; auto. split.
  { unfold GetLpParameters. cbn. rewrite P2. auto. }
  split; auto. split; auto. exists g. split; auto. split.
  - intros V. destruct (D2 V) as [V1 ->]. auto.
  - auto.
Qed.

(** Members never initialised. *)
Lemma uninitialised_ub s c x g : at_ (g_cols (scaled_lp s)) c = Ok g ->
  (forall w t p, fst (fst (w_solve E w t p)) = true) ->
  let y := dmul x (sc_factor E (scaler s) c) in
  let eps := feasibility_tolerance (GetLpParameters s) in
  dleb (dsub (g_lb g) half) (dceil (dsub (dsub y d1) eps)) = true \/
  dleb (dfloor (dadd (dadd y d1) eps)) (dadd (g_ub g) half) = true ->
  SolveDownAndUpStrongBranch sb_uninitialised s c x = UB.
Proof.
  intros Eg OK y eps H. unfold SolveDownAndUpStrongBranch. rewrite Eg. cbn [bind].
  set (params := with_dual (w_params E (solver s)) true).
  change (primal_feasibility_tolerance params) with eps. fold y.
  assert (Rc : 0 <= c < Z.of_nat (length (g_cols (scaled_lp s)))) by (eapply at_in_range; eauto).
  assert (SB : forall a b, exists q, SetVariableBounds (scaled_lp s) c a b = Ok q).
  { intros a b. unfold SetVariableBounds, on_col. rewrite change_ok by auto. cbn [bind]. eauto. }
  cbn zeta.
  destruct (dleb (dsub (g_lb g) half) (dceil (dsub (dsub y d1) eps))) eqn:B.
  - destruct (SB (g_lb g) (dceil (dsub (dsub y d1) eps))) as [q ->]. cbn [bind].
    match goal with |- context [w_solve E ?w ?t q] => pose proof (OK w t q) as K; destruct (w_solve E w t q) as [[ok ?] ?] end.
    cbn in K. subst ok. auto.
  - destruct H as [H|H]; [discriminate|]. cbn [bind]. rewrite H.
    destruct (SB (dfloor (dadd (dadd y d1) eps)) (g_ub g)) as [q ->]. cbn [bind].
    match goal with |- context [w_solve E ?w ?t q] => pose proof (OK w t q) as K; destruct (w_solve E w t q) as [[ok ?] ?] end.
    cbn in K. subst ok. auto.
Qed.
End Params.

(** ** Bases *)
Section Basis.
Context {E : engine}.
Implicit Type s : gstate E.

Lemma convert_loop_map f l : forall l0, 
  convert_loop f (length l) (Z.of_nat (length l0)) (l0 ++ l) = Ok (map f l).
Proof.
  induction l as [|b l IH]; intros l0; auto.
  cbn [length convert_loop]. rewrite at_mid by auto. cbn [bind].
  specialize (IH (l0 ++ [b])). rewrite app_length, <- app_assoc in IH. cbn [app length] in IH.
  replace (Z.of_nat (length l0 + 1)) with (Z.of_nat (length l0) + 1) in IH by lia.
  rewrite IH. auto.
Qed.

Lemma basis_round_trip s cs rs : reports_basis E (ncols (lp s)) ->
  length cs = length (g_cols (lp s)) -> length rs = length (g_rows (lp s)) ->
  ~ In kFixed cs -> ~ In kFixed rs ->
  exists s', SetBasisStatusForColumnsAndRows s cs rs = Ok s' /\
    GetBasisStatusForColumns s' = cs /\ GetBasisStatusForRows s' = rs /\ lp s' = lp s /\
    IsSolved s' = IsSolved s.
Proof.
  intros RB LC LR NC NR. unfold SetBasisStatusForColumnsAndRows. rewrite <- LC, <- LR.
  pose proof (convert_loop_map ConvertMiniMIPVariableStatus cs []) as A. cbn [app length] in A.
  change (Z.of_nat 0) with 0 in A. rewrite A. cbn [bind].
  pose proof (convert_loop_map ConvertMiniMIPConstraintStatusToSlackStatus rs []) as B. cbn [app length] in B.
  change (Z.of_nat 0) with 0 in B. rewrite B. cbn [bind].
  eexists. split; [reflexivity|]. cbn [lp with_solver]. 
  set (l := map ConvertMiniMIPVariableStatus cs ++ map ConvertMiniMIPConstraintStatusToSlackStatus rs).
  assert (X : forall (f : Z -> bstatus) (bs : list bstatus), 
     (forall k b, at_ bs k = Ok b -> f k = b) ->
     map (fun k => f (Z.of_nat k)) (seq 0 (length bs)) = bs).
  { intros f bs. assert (G : forall bs0 bs1, bs = bs0 ++ bs1 -> (forall k b, at_ bs k = Ok b -> f k = b) ->
      map (fun k => f (Z.of_nat k)) (seq (length bs0) (length bs1)) = bs1).
    { intros bs0 bs1. revert bs0. induction bs1 as [|b bs1 IH]; intros bs0 Eb F; auto.
      cbn [length seq map]. f_equal.
      - apply F. subst bs. apply at_mid. auto.
      - specialize (IH (bs0 ++ [b])). rewrite app_length in IH. cbn in IH. rewrite Nat.add_1_r in IH.
        apply IH; auto. rewrite <- app_assoc. auto. }
    intros F. apply (G [] bs); auto. }
  split; [|split; [|split; auto]].
  - unfold GetBasisStatusForColumns. cbn [lp with_solver solver]. rewrite <- LC.
    apply (X (fun k => ConvertGlopStatus (w_vstatus E (w_load E (solver s) l) k) (w_redcost E (w_load E (solver s) l) k))).
    intros k b Hk. pose proof (at_in_range _ _ _ Hk) as R.
    rewrite (rb_col _ _ RB _ l k (ConvertMiniMIPVariableStatus b)).
    + assert (b <> kFixed) by (intros ->; apply NC; eapply at_In; eauto). destruct b; cbn; congruence.
    + unfold ncols. rewrite <- LC. auto.
    + subst l. rewrite at_app, map_length. replace (k <? _) with true by lia. rewrite at_map, Hk. auto.
  - unfold GetBasisStatusForRows. cbn [lp with_solver solver]. rewrite <- LR.
    apply (X (fun k => ConvertGlopStatus (w_cstatus E (w_load E (solver s) l) k) (w_dual E (w_load E (solver s) l) k))).
    intros k b Hk. pose proof (at_in_range _ _ _ Hk) as R.
    rewrite (rb_row _ _ RB _ l k (ConvertMiniMIPConstraintStatusToSlackStatus b)).
    + assert (b <> kFixed) by (intros ->; apply NR; eapply at_In; eauto). destruct b; cbn; congruence.
    + lia.
    + subst l. rewrite at_app, map_length. unfold ncols. rewrite LC. replace (_ <? _) with false by lia.
      replace (Z.of_nat (length (g_cols (lp s))) + k - Z.of_nat (length (g_cols (lp s)))) with k by lia.
      rewrite at_map, Hk. auto.
Qed.

Lemma never_fixed s : ~ In kFixed (GetBasisStatusForColumns s) /\ ~ In kFixed (GetBasisStatusForRows s).
Proof.
  assert (X : forall v x, ConvertGlopStatus v x <> kFixed).
  { intros v x. destruct v; cbn; try discriminate. destruct (dltb d0 x); discriminate. }
  split; intros H; apply in_map_iff in H as (k & H & _); apply X in H; auto.
Qed.
End Basis.

(** ** Loading a problem *)
Lemma problem_loaded p : problem_ok p -> integer_bounds_ordered p ->
  exists d l, MipData p = Ok d /\ PopulateFromMipData d = Ok l /\ reads_table l (problem_table p).
Proof.
  intros H1 H2.
  destruct (loaded p H1 H2) as (d & E & A1 & A2 & A3 & A4 & A5 & A6 & A7 & A8 & A9 & A10 & A11 & A12 & (a & R & NC & NR & V) & A13 & _ & _ & OB).
  exists d. destruct (populate_ok d a) as (l & El & W & T); rewrite ?A4, ?A5, ?A6, ?A8, ?A9, ?A10, ?map_length; auto.
  exists l. split; auto. split; auto. 
  replace (problem_table p) with (table_of l); [apply wf_reads; auto|]. rewrite T.
  destruct R as (Ec & Er & g & Hg & Hv).
  apply table_ext; auto; unfold data_table, problem_table; cbn [t_cols t_rows].
  - rewrite A5, A6, A4, A9, !map_length. apply at_ext.
    { rewrite !map_length, !combine_length, !upto_length, !map_length. lia. }
    intros k Hk. rewrite map_length, !combine_length, upto_length, !map_length in Hk.
    rewrite !at_map, !at_combine, !at_map, at_upto by lia.
    destruct (at_ (p_vars p) k) as [v| | | |] eqn:Ev; auto. f_equal. rewrite OB.
    assert (NV : nth_var p k = Some v).
    { apply at_ok in Ev as [K1 K2]. unfold nth_var. replace (k <? 0) with false by lia. auto. }
    rewrite NV. f_equal. apply map_ext_in. intros r Hr. apply In_upto in Hr.
    unfold matrix_coef. unfold num_vars, num_cons in *.
    destruct (get_ok (matrix d) g k r Hg) as (m' & Em & _); [lia|lia|]. rewrite Em.
    rewrite Hv by (unfold in_cols, in_rows; lia). apply V. lia.
  - rewrite A8, A9, A10. apply at_ext.
    { rewrite !map_length, !combine_length, !map_length. lia. }
    intros k Hk. rewrite map_length, !combine_length, !map_length in Hk.
    rewrite !at_map, !at_combine, !at_map. destruct (at_ (p_cons p) k); auto.
Qed.

(** ** What is solved *)
Section Solved.
Context {E : engine} (LW : engine_laws E).
Implicit Type s : gstate E.
Definition fresh s : Prop := modified s = false -> prepared E (lp s) (scaled_lp s).

Lemma SolveInternal_solves fuel : forall rec s t s' ok, SolveInternal fuel rec s t = Ok (s', ok) -> fresh s ->
  fresh s' /\ lp s' = lp s /\
  (ok = true -> prepared E (lp s') (scaled_lp s') /\ holds_result E (solver s') (scaled_lp s')).
Proof.
  induction fuel as [|fuel IH]; intros rec s t s' ok H F; [discriminate|].
  cbn [SolveInternal] in H.
  set (s1 := if modified s then _ else s) in H.
  assert (L1 : lp s1 = lp s /\ modified s1 = modified s /\ prepared E (lp s) (scaled_lp s1)).
  { subst s1. destruct (modified s) eqn:M; auto. unfold prepared. destruct (use_scaling _).
    - destruct (sc_scale E (lp_slacks E (lp s))); auto.
    - auto. }
  set (s2 := if rec then s1 else _) in H.
  assert (L2 : lp s2 = lp s /\ modified s2 = modified s /\ prepared E (lp s) (scaled_lp s2))
    by (subst s2; destruct rec; auto).
  clearbody s1. clear L1. clearbody s2. clear s1.
  set (s3 := if scratch s2 then _ else s2) in H.
  assert (L3 : lp s3 = lp s /\ modified s3 = modified s /\ prepared E (lp s) (scaled_lp s3))
    by (subst s3; destruct (scratch s2); auto).
  clearbody s3. clear L2 s2. destruct L3 as (L3 & L4 & L5).
  destruct (w_solve E (solver s3) t (scaled_lp s3)) as [[ok1 t1] w1] eqn:Es.
  destruct ok1; cbn [negb] in H.
  2:{ injection H as <- <-. unfold fresh. cbn. rewrite L3. split; auto. split; auto. discriminate. }
  destruct (_ && _ && _) in H.
  - apply bind_ok in H as ([s4 ok4] & E4 & H). apply IH in E4; [|intros X; discriminate X].
    cbn [lp with_modified with_solver] in E4. destruct E4 as (E4 & E5 & E6).
    destruct ok4; cbn [negb] in H; injection H as <- <-.
    + destruct (E6 eq_refl) as (E7 & (w0 & ta & tb & w' & gs & Ew & Er)). unfold fresh. cbn.
      split; auto. split; [congruence|]. intros _. split; auto.
      exists w0, ta, tb, w', (gs ++ [with_scaling (w_params E w1) true]). split; auto.
      rewrite fold_left_app. cbn. congruence.
    + split; auto. split; [congruence|discriminate].
  - injection H as <- <-. unfold fresh. cbn. rewrite L3. split; auto. split; auto. intros _. split; auto.
    exists (solver s3), t, t1, w1, []. auto.
Qed.

Lemma SolveLp_solves d s s' ok : SolveLp d s = Ok (s', ok) -> fresh s ->
  fresh s' /\ lp s' = lp s /\
  (ok = true -> prepared E (lp s') (scaled_lp s') /\ holds_result E (solver s') (scaled_lp s')).
Proof.
  unfold SolveLp. cbv zeta. generalize 2%nat. intros n H F. apply SolveInternal_solves in H; [exact H|exact F].
Qed.

Lemma SetLpParameters_fresh s p : fresh s -> fresh (fst (SetLpParameters s p)).
Proof. unfold fresh, SetLpParameters. destruct (negb _); auto. Qed.

Lemma edited_modified s x s' y : edited s x = Ok (s', y) -> modified s' = true.
Proof. unfold edited. intros H. apply bind_ok in H as (p & _ & H). injection H as <- _. auto. Qed.

Lemma DeleteRows_modified s mask s' : DeleteRowsAndUpdateCurrentBasis s mask = Ok s' -> modified s' = true.
Proof.
  unfold DeleteRowsAndUpdateCurrentBasis. intros H. apply bind_ok in H as (s1 & _ & H).
  apply bind_ok in H as (p & _ & H). injection H as <-. auto.
Qed.

Lemma step_fresh s c s' x : gstep s c = Ok (s', x) -> reads_file c = false -> fresh s -> fresh s'.
Proof.
  intros H R F. 
  assert (ED : forall z, edited s z = Ok (s', x) -> fresh s').
  { intros z Hz. apply edited_modified in Hz. unfold fresh. rewrite Hz. discriminate. }
  destruct c; cbn [gstep] in H; try (apply ED in H; auto; fail).
  - destruct vs; [injection H as <- _; auto|apply ED in H; auto].
  - destruct vs; [injection H as <- _; auto|apply ED in H; auto].
  - apply bind_ok in H as (mask & _ & H). apply bind_ok in H as (s1 & H1 & H). injection H as <- _.
    apply DeleteRows_modified in H1. unfold fresh. rewrite H1. discriminate.
  - apply bind_ok in H as (m & _ & H). apply bind_ok in H as (s1 & H1 & H). injection H as <- _.
    apply DeleteRows_modified in H1. unfold fresh. rewrite H1. discriminate.
  - injection H as <- _. unfold fresh. cbn. discriminate.
  - injection H as <- _. auto.
  - injection H as <- _. unfold fresh. cbn. discriminate.
  - apply bind_ok in H as ([s1 ok] & H1 & H). injection H as <- _. cbn [fst].
    apply SolveLp_solves in H1; [tauto|auto].
  - injection H as <- _. auto.
  - injection H as <- _. auto.
  - apply bind_ok in H as ([s1 r] & H1 & H). injection H as <- _.
    destruct (strong_branch LW _ _ _ _ _ _ H1) as (A & B & C & _). unfold IsSolved in C. unfold fresh.
    rewrite A, B. intros M. apply F. destruct (modified s), (modified s1); auto; discriminate.
  - apply bind_ok in H as (s1 & H1 & H). injection H as <- _.
    unfold SetBasisStatusForColumnsAndRows in H1. apply bind_ok in H1 as (a & _ & H1).
    apply bind_ok in H1 as (b & _ & H1). injection H1 as <-. auto.
  - injection H as <- _. cbn [status fst]. apply SetLpParameters_fresh. auto.
  - destruct f; [discriminate|]. injection H as <- _. auto.
  - unfold WriteLpToFile in H; destruct written; injection H as <- _; auto.
  - injection H as <- _. auto.
Qed.

Lemma run_fresh l : forall s s' xs, grun s l = Ok (s', xs) -> Forall (fun c => reads_file c = false) l ->
  fresh s -> fresh s'.
Proof.
  induction l as [|c l IH]; intros s s' xs H R F; cbn [grun] in H.
  - injection H as <- _. auto.
  - apply bind_ok in H as ([s1 x] & H1 & H). apply bind_ok in H as ([s2 xs2] & H2 & H). injection H as <- _.
    inversion R; subst. eapply IH; eauto. eapply step_fresh; eauto.
Qed.

Lemma solves_current b l d s xs s' : grun (glop_new (E := E) b) l = Ok (s, xs) ->
  Forall (fun c => reads_file c = false) l -> SolveLp d s = Ok (s', true) ->
  lp s' = lp s /\ exists q, prepared E (lp s) q /\ holds_result E (solver s') q.
Proof.
  intros H R S.
  assert (F : fresh s).
  { eapply run_fresh; eauto. unfold glop_new. apply SetLpParameters_fresh. intros X. discriminate X. }
  apply SolveLp_solves in S; [|auto]. destruct S as (_ & L & S).
  split; auto. exists (scaled_lp s'). rewrite <- L. auto.
Qed.
End Solved.
