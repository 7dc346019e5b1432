(** Proofs about the LP held by the Glop interface. *)
From Coq Require Import String List ZArith Lia Bool ZifyBool Sorted.
From Verif Require Import Outcome OutcomeFacts Num Double SparseVector SparseVectorFacts VectorSpec
  VectorProofs SparseMatrix MatrixSpec MatrixFacts Problem MipData GlopLp LpParams GlopIface GlopSpec.
Import ListNotations.
Open Scope Z_scope.

(** ** Lists *)
Lemma at_ext {B} (l l' : list B) : length l = length l' ->
  (forall i, 0 <= i < Z.of_nat (length l) -> at_ l i = at_ l' i) -> l = l'.
Proof.
  revert l'. induction l as [|x r IH]; intros [|y r'] L H; cbn in L; try discriminate; auto.
  f_equal.
  - specialize (H 0). cbn in H. assert (E : Ok x = Ok y) by (apply H; lia). congruence.
  - apply IH; [lia|]. intros i Hi. specialize (H (i + 1)). unfold at_ in *.
    destruct (Z.ltb_spec (i + 1) 0), (Z.ltb_spec i 0); try lia.
    replace (Z.to_nat (i + 1)) with (S (Z.to_nat i)) in H by lia. cbn in H. apply H. cbn; lia.
Qed.

Lemma upto_length n : length (upto n) = n.
Proof. unfold upto. rewrite map_length, seq_length. auto. Qed.
Lemma at_upto n k : 0 <= k < Z.of_nat n -> at_ (upto n) k = Ok k.
Proof.
  intros H. apply at_ok. split; [lia|]. unfold upto. rewrite nth_error_map.
  rewrite (nth_error_nth' _ 0%nat) by (rewrite seq_length; lia).
  rewrite seq_nth by lia. cbn. f_equal. lia.
Qed.
Lemma upto_S n : upto (S n) = upto n ++ [Z.of_nat n].
Proof. unfold upto. rewrite seq_S, map_app. auto. Qed.
Lemma In_upto n k : In k (upto n) <-> 0 <= k < Z.of_nat n.
Proof.
  unfold upto. rewrite in_map_iff. split.
  - intros (m & <- & H). apply in_seq in H. lia.
  - intros H. exists (Z.to_nat k). split; [lia|]. apply in_seq. lia.
Qed.

Lemma at_combine {B C} (l : list B) (l' : list C) k :
  at_ (combine l l') k =
  match at_ l k, at_ l' k with Ok x, Ok y => Ok (x, y) | _, _ => UB end.
Proof.
  unfold at_. destruct (k <? 0); auto. generalize (Z.to_nat k) as n. clear k.
  revert l'. induction l as [|x r IH]; intros [|y r'] [|n]; cbn; auto.
  destruct (nth_error r n); auto.
Qed.
Lemma at_app {B} (l l' : list B) k :
  at_ (l ++ l') k = if k <? Z.of_nat (length l) then at_ l k else at_ l' (k - Z.of_nat (length l)).
Proof.
  unfold at_. destruct (Z.ltb_spec k 0), (Z.ltb_spec k (Z.of_nat (length l))); try lia; auto.
  - rewrite nth_error_app1 by lia. auto.
  - destruct (Z.ltb_spec (k - Z.of_nat (length l)) 0); try lia.
    rewrite nth_error_app2 by lia.
    replace (Z.to_nat k - length l)%nat with (Z.to_nat (k - Z.of_nat (length l))) by lia. auto.
Qed.

Lemma change_at_length {B} (l : list B) i f : length (change_at l i f) = length l.
Proof. unfold change_at. rewrite map_length, combine_length, upto_length. lia. Qed.
Lemma at_change_at {B} (l : list B) i f k :
  at_ (change_at l i f) k =
  match at_ l k with Ok x => Ok (if k =? i then f x else x) | _ => UB end.
Proof.
  unfold change_at. rewrite at_map, at_combine.
  destruct (at_cases l k) as [[R [x E]]|[R E]]; rewrite E.
  - rewrite at_upto by auto. cbn. auto.
  - destruct (at_ (upto (length l)) k); auto.
Qed.
Lemma change_ok {B} (l : list B) i f : 0 <= i < Z.of_nat (length l) ->
  change l i f = Ok (change_at l i f).
Proof.
  intros R. unfold change. destruct (at_range l i R) as [x E]. rewrite E. cbn.
  destruct (set_at_range l i (f x) R) as [l' E']. rewrite E'. f_equal.
  apply at_ext.
  - rewrite change_at_length. eapply set_at_length; eauto.
  - intros k Hk. rewrite at_change_at, (at_set_at _ _ _ _ _ E').
    rewrite (set_at_length _ _ _ _ E') in Hk.
    destruct (at_range l k Hk) as [y Ey]. rewrite Ey.
    destruct (Z.eqb_spec k i) as [->|]; auto. rewrite E in Ey. congruence.
Qed.
Lemma change_last {B} (l : list B) x f :
  change (l ++ [x]) (Z.of_nat (length l)) f = Ok (l ++ [f x]).
Proof.
  rewrite change_ok by (rewrite app_length; cbn; lia). f_equal. apply at_ext.
  - rewrite change_at_length, !app_length. auto.
  - intros k Hk. rewrite change_at_length, app_length in Hk. cbn in Hk.
    rewrite at_change_at, !at_app.
    destruct (Z.ltb_spec k (Z.of_nat (length l))).
    + destruct (at_range l k) as [y Ey]; [lia|]. rewrite Ey.
      destruct (Z.eqb_spec k (Z.of_nat (length l))); auto; lia.
    + replace (k - Z.of_nat (length l)) with 0 by lia. cbn.
      destruct (Z.eqb_spec k (Z.of_nat (length l))); auto; lia.
Qed.

(** ** Coefficients *)
Notation ent := (entry num_double).
Definition inrange (n : Z) (l : list ent) := Forall (fun e : ent => 0 <= idx e < n) l.
Definition wf (p : glop_lp) : Prop := stored_lp p.

Lemma coef_find (l : list ent) i : canonical l -> coef l i = or0 (find_first l i).
Proof. intros C. unfold coef, read. rewrite entries_map_canonical; auto. Qed.
Lemma coef_none (l : list ent) i : (forall e, In e l -> idx e <> i) -> coef l i = d0.
Proof.
  intros H. unfold coef, read. rewrite entries_map_spec.
  rewrite find_last_none by auto. auto.
Qed.
Lemma coef_out n (l : list ent) i : inrange n l -> ~ 0 <= i < n -> coef l i = d0.
Proof.
  intros H R. apply coef_none. intros e He <-. unfold inrange in H. rewrite Forall_forall in H. auto.
Qed.
Lemma LookUp_last (l : list ent) r (x : double) :
  fold_left (fun (x : double) (e : ent) => if idx e =? r then val e else x) l x =
  match find_last l r with Some y => y | None => x end.
Proof.
  revert x. induction l as [|e l IH]; intros x; cbn; auto.
  rewrite IH. destruct (find_last l r); auto. destruct (idx e =? r); auto.
Qed.
Lemma LookUp_coef (l : list ent) r : canonical l -> LookUp l r = coef l r.
Proof.
  intros C. unfold LookUp. rewrite LookUp_last, coef_find by auto.
  rewrite sorted_find by apply C. unfold or0. destruct (find_first l r); auto.
Qed.

(** ** collect *)
Lemma compact_zeros {N : Num} (l : list (entry N)) : Forall (fun e => is0 (val e) = true) l -> compact l = [].
Proof.
  induction 1 as [|e r He Hr IH]; cbn; auto. rewrite He, IH. destruct r; auto. destruct (_ =? _); auto.
Qed.
Lemma collect_start n :
  CleanUp (mkV (repeat (mkE (-1) (n0 : num_double)) n) true) = (vempty : svec num_double).
Proof.
  unfold CleanUp. cbn [dirty ents]. rewrite compact_zeros; auto.
  assert (H : Forall (fun e : ent => is0 (val e) = true) (repeat (mkE (-1) (n0 : num_double)) n)).
  { apply Forall_forall. intros e He. apply repeat_spec in He. subst. reflexivity. }
  revert H. generalize (repeat (mkE (-1) (n0 : num_double)) n) as l. intros l H.
  apply Forall_forall. intros e He. rewrite Forall_forall in H. apply H.
  revert e He. induction l as [|a r IH]; cbn; auto. intros e He.
  apply insert_in in He as [->|He]; auto. right. apply IH; auto. intros; apply H; cbn; auto.
Qed.
Lemma collect_ok (l : list ent) n : canonical l -> inrange n l -> collect l = mkV l false.
Proof.
  intros C R. unfold collect. rewrite collect_start.
  assert (G : forall (b a : list ent), canonical (a ++ b) -> inrange n (a ++ b) ->
    fold_left (fun v e => AddEntry v (idx e) (val e)) b (mkV a false) = mkV (a ++ b) false).
  { induction b as [|e b IH]; intros a Ca Ra; cbn [fold_left].
    - rewrite app_nil_r. auto.
    - assert (E : AddEntry (mkV a false) (idx e) (val e) = mkV (a ++ [e]) false).
      { unfold AddEntry. cbn [dirty ents].
        destruct Ca as [Cs Cn]. apply Forall_app in Cn as [_ Cn]. inversion Cn as [|? ? H1 H2]; subst.
        assert (L : last_index (mkV a false) < idx e).
        { unfold last_index. cbn [ents]. destruct (rev a) as [|x ra] eqn:Er.
          - unfold inrange in Ra. apply Forall_app in Ra as [_ Ra]. inversion Ra; subst. lia.
          - assert (Ea : a = rev ra ++ [x]) by (rewrite <- (rev_involutive a), Er; auto).
            rewrite Ea in Cs. rewrite <- !app_assoc in Cs. cbn in Cs.
            clear - Cs. induction (rev ra) as [|y r IH]; cbn in Cs.
            + inversion Cs as [|? ? ? Ha]; subst. inversion Ha; auto.
            + inversion Cs; subst; auto. }
        destruct (Z.leb_spec (idx e) (last_index (mkV a false))); try lia.
        rewrite H1. destruct e; auto. }
      rewrite E. rewrite IH; rewrite <- app_assoc; auto. }
  apply (G l []); auto.
Qed.

(** ** Reading back the table *)
Section Reads.
Variable p : glop_lp.
Hypothesis Hw : wf p.

Lemma at_table_cols c : at_ (t_cols (table_of p)) c =
  match at_ (g_cols p) c with
  | Ok g => Ok (mkTC (g_lb g) (g_ub g) (g_obj g) (g_cname g)
                  (map (coef (g_entries g)) (upto (length (g_rows p)))))
  | _ => UB
  end.
Proof. cbn. apply at_map. Qed.
Lemma at_table_rows r : at_ (t_rows (table_of p)) r =
  match at_ (g_rows p) r with
  | Ok g => Ok (mkTR (g_lhs g) (g_rhs g) (g_rname g)) | _ => UB end.
Proof. cbn. apply at_map. Qed.
Lemma at_coefs (l : list ent) r : at_ (map (coef l) (upto (length (g_rows p)))) r =
  if (0 <=? r) && (r <? nrows p) then Ok (coef l r) else UB.
Proof.
  rewrite at_map. destruct (at_cases (upto (length (g_rows p))) r) as [[R [k E]]|[R E]]; rewrite E;
    rewrite upto_length in R; unfold nrows.
  - rewrite at_upto in E by auto. injection E as <-.
    replace ((0 <=? r) && (r <? Z.of_nat (length (g_rows p)))) with true by lia. auto.
  - replace ((0 <=? r) && (r <? Z.of_nat (length (g_rows p)))) with false by lia. auto.
Qed.

Lemma checked_or {B C D} (l : list B) (l' : list C) i (f : B -> outcome D) (g : C -> outcome D) h :
  (forall k, at_ l' k = match at_ l k with Ok x => Ok (h x) | _ => UB end) ->
  (forall x, at_ l i = Ok x -> f x = g (h x)) ->
  bind (checked l i) f = or_abort l' i g.
Proof.
  intros H1 H2. unfold checked, or_abort. rewrite H1.
  destruct (at_cases l i) as [[R [x E]]|[R E]]; rewrite E.
  - replace ((0 <=? i) && (i <? Z.of_nat (length l))) with true by lia. cbn. auto.
  - replace ((0 <=? i) && (i <? Z.of_nat (length l))) with false by lia. auto.
Qed.

Lemma wf_col c g : at_ (g_cols p) c = Ok g -> canonical (g_entries g) /\ inrange (nrows p) (g_entries g).
Proof. intros H. unfold wf, stored_lp in Hw. rewrite Forall_forall in Hw. apply Hw. eapply at_In; eauto. Qed.

Lemma filter_row (l : list ent) r : canonical l ->
  filter (fun e : ent => idx e =? r) l =
  match find_first l r with Some x => [mkE r x] | None => [] end.
Proof.
  intros [Hs _]. induction Hs as [|e l Hs IH Ha]; cbn; auto.
  destruct (Z.eqb_spec (idx e) r) as [<-|E]; auto.
  rewrite IH. rewrite find_first_none.
  - destruct e; auto.
  - intros e' He'. rewrite Forall_forall in Ha. specialize (Ha e' He'). lia.
Qed.

Lemma transposed_ok : forall cs r c, Forall (fun g => canonical (g_entries g)) cs ->
  canonical (transposed_row c r cs) /\
  Forall (fun e : ent => c <= idx e < c + Z.of_nat (length cs)) (transposed_row c r cs) /\
  (forall k g, at_ cs k = Ok g -> find_first (transposed_row c r cs) (c + k) = find_first (g_entries g) r).
Proof.
  induction cs as [|g cs IH]; intros r c H; cbn [transposed_row length].
  - split; [split; constructor|]. split; [constructor|]. intros k g Hk.
    apply at_in_range in Hk. cbn in Hk. lia.
  - inversion H as [|? ? Hg Hcs]; subst. destruct (IH r (c + 1) Hcs) as ([I1 I2] & I3 & I4).
    rewrite filter_row by auto.
    assert (T : forall k g', at_ (g :: cs) k = Ok g' -> k <> 0 -> at_ cs (k - 1) = Ok g').
    { intros k g' Hk K0. pose proof (at_in_range _ _ _ Hk). apply at_ok in Hk as [K1 K2].
      apply at_ok. split; [lia|]. replace (Z.to_nat k) with (S (Z.to_nat (k - 1))) in K2 by lia. auto. }
    destruct (find_first (g_entries g) r) as [x|] eqn:F; cbn [map app].
    + split; [split|split].
      * constructor; auto. eapply Forall_impl; [|exact I3]. cbn; intros; lia.
      * constructor; auto. cbn [val]. exact (nonzero_find _ _ _ (proj2 Hg) F).
      * constructor; [cbn; lia|]. eapply Forall_impl; [|exact I3]. cbn; intros; lia.
      * intros k g' Hk. cbn [find_first idx val]. destruct (Z.eqb_spec c (c + k)) as [E|E].
        -- assert (k = 0) by lia. subst k. cbn in Hk. injection Hk as <-. auto.
        -- replace (c + k) with (c + 1 + (k - 1)) by lia. apply I4. apply T; auto. lia.
    + split; [split; auto|split].
      * eapply Forall_impl; [|exact I3]. cbn; intros; lia.
      * intros k g' Hk. destruct (Z.eqb_spec k 0) as [->|E].
        -- cbn in Hk. injection Hk as <-. rewrite F. apply find_first_none.
           intros e He. rewrite Forall_forall in I3. specialize (I3 e He). lia.
        -- replace (c + k) with (c + 1 + (k - 1)) by lia. apply I4. apply T; auto.
Qed.

Lemma nonzeros_app l l' : nonzeros (l ++ l') = nonzeros l ++ nonzeros l'.
Proof. apply filter_app. Qed.
Lemma canonical_app (l : list ent) e : canonical (l ++ [e]) ->
  canonical l /\ is0 (val e) = false /\ forall x, In x l -> idx x < idx e.
Proof.
  intros [Hs Hn]. apply Forall_app in Hn as [Hn1 Hn2]. inversion Hn2; subst.
  assert (K : StronglySorted (fun a b : ent => idx a < idx b) l /\ forall x, In x l -> idx x < idx e).
  { clear Hn1 Hn2. induction l as [|a r IH]; cbn in Hs.
    - split; [constructor|]. intros x [].
    - inversion Hs as [|? ? Hr Ha]; subst. destruct (IH Hr) as [I1 I2].
      apply Forall_app in Ha as [Ha1 Ha2]. inversion Ha2; subst. split.
      + constructor; auto.
      + intros x [->|Hx]; auto. }
  destruct K. split; [split|]; auto.
Qed.
Lemma coef_snoc (l : list ent) e i : canonical (l ++ [e]) ->
  coef (l ++ [e]) i = if i =? idx e then val e else coef l i.
Proof.
  intros C. destruct (canonical_app _ _ C) as (C' & Z0 & _).
  unfold coef, read. rewrite !entries_map_spec, find_last_app. cbn [find_last].
  rewrite Z.eqb_sym. destruct (Z.eqb_spec i (idx e)); auto. unfold nz. rewrite Z0. auto.
Qed.
Lemma nonzeros_upto n : forall (l : list ent), canonical l -> inrange (Z.of_nat n) l ->
  length (nonzeros (map (coef l) (upto n))) = length l.
Proof.
  induction n as [|n IH]; intros l C R.
  - destruct l as [|e r]; auto. inversion R; subst. lia.
  - rewrite upto_S, map_app, nonzeros_app, app_length. cbn [map].
    assert (S : inrange (Z.of_nat n) l -> (length (nonzeros (map (coef l) (upto n))) +
              length (nonzeros [coef l (Z.of_nat n)]) = length l)%nat).
    { intros R'. rewrite IH by auto. rewrite (coef_out _ _ _ R') by lia. cbn. lia. }
    destruct l as [|e0 r0]; [apply S; constructor|].
    destruct (exists_last (l := e0 :: r0)) as (l' & e & E); [discriminate|].
    rewrite E in *. clear E e0 r0.
    destruct (canonical_app _ _ C) as (C' & Z0 & L).
    unfold inrange in R. apply Forall_app in R as [R1 R2]. inversion R2 as [|? ? R3 _]; subst.
    destruct (Z.eqb_spec (idx e) (Z.of_nat n)) as [En|En].
    + assert (R' : inrange (Z.of_nat n) l').
      { apply Forall_forall. intros x Hx. rewrite Forall_forall in R1. specialize (R1 x Hx).
        specialize (L x Hx). cbn in *. lia. }
      rewrite (map_ext_in (coef (l' ++ [e])) (coef l')).
      * rewrite IH, app_length by auto. f_equal. rewrite coef_snoc by auto. rewrite En, Z.eqb_refl.
        cbn [nonzeros filter]. change (filter _ [val e]) with (nonzeros [val e]).
        unfold nonzeros. cbn [filter]. rewrite Z0. auto.
      * intros i Hi. apply In_upto in Hi. rewrite coef_snoc by auto.
        destruct (Z.eqb_spec i (idx e)); auto. lia.
    + apply S. apply Forall_app. split.
      * apply Forall_forall. intros x Hx. rewrite Forall_forall in R1. specialize (R1 x Hx).
        specialize (L x Hx). cbn in *. lia.
      * constructor; auto. lia.
Qed.

Lemma count_nonzeros : forall cs, Forall (fun g => canonical (g_entries g) /\ inrange (nrows p) (g_entries g)) cs ->
  fold_right (fun g n => Z.of_nat (length (g_entries g)) + n) 0 cs =
  Z.of_nat (length (nonzeros (flat_map t_coefs (map (fun g => mkTC (g_lb g) (g_ub g) (g_obj g) (g_cname g)
                       (map (coef (g_entries g)) (upto (length (g_rows p))))) cs)))).
Proof.
  induction 1 as [|g cs [Hc Hr] Hcs IH]; auto.
  cbn [fold_right map flat_map t_coefs]. rewrite nonzeros_app, app_length, nonzeros_upto by auto. lia.
Qed.

Lemma wf_reads : reads_table p (table_of p).
Proof.
  constructor.
  - unfold t_nc. cbn. rewrite map_length. auto.
  - unfold t_nr. cbn. rewrite map_length. auto.
  - auto.
  - cbn. rewrite !map_map. auto.
  - intros c. apply (checked_or _ _ _ _ _ _ at_table_cols). auto.
  - intros c. apply (checked_or _ _ _ _ _ _ at_table_cols). auto.
  - intros c. apply (checked_or _ _ _ _ _ _ at_table_cols). auto.
  - intros c. apply (checked_or _ _ _ _ _ _ at_table_rows). auto.
  - intros c. apply (checked_or _ _ _ _ _ _ at_table_rows). auto.
  - intros c r. apply (checked_or _ _ _ _ _ _ at_table_cols). intros g Hg. cbn [t_coefs].
    unfold or_abort. rewrite at_coefs. unfold checked, nrows.
    destruct (wf_col c g Hg) as [C _]. rewrite LookUp_coef by auto.
    destruct ((0 <=? r) && (r <? Z.of_nat (length (g_rows p)))) eqn:B; auto. cbn [check bind].
    destruct (at_range (g_rows p) r) as [x ->]; auto. lia.
  - intros c g Hg. rewrite at_table_cols in Hg. destruct (at_ (g_cols p) c) as [g0| | | |]; try discriminate.
    injection Hg as <-. cbn. rewrite !map_length, upto_length. auto.
  - intros c g Hg. rewrite at_table_cols in Hg. destruct (at_ (g_cols p) c) as [g0| | | |] eqn:E; try discriminate.
    injection Hg as <-. destruct (wf_col c g0 E) as [C R].
    exists (mkV (g_entries g0) false). unfold GetSparseColumn. rewrite E. cbn [bind].
    rewrite (collect_ok _ _ C R). split; auto. split.
    + unfold clean_vector, t_nr. cbn. rewrite map_length. auto.
    + intros r x Hx. cbn [t_coefs] in Hx. rewrite at_coefs in Hx.
      destruct (_ && _); try discriminate. injection Hx as <-.
      rewrite canonical_value, coef_find; auto.
  - intros r Hr. unfold t_nr in Hr. cbn in Hr. rewrite map_length in Hr.
    destruct (at_range (g_rows p) r Hr) as [x E].
    destruct (transposed_ok (g_cols p) r 0) as (C & R & F).
    { unfold wf, stored_lp in Hw. eapply Forall_impl; [|exact Hw]. cbn; intros ? [? _]; auto. }
    exists (mkV (transposed_row 0 r (g_cols p)) false). unfold GetSparseRow. rewrite E. cbn [bind].
    rewrite (collect_ok _ (Z.of_nat (length (g_cols p))) C R). split; auto. split.
    + unfold clean_vector, t_nc. cbn. rewrite map_length. auto.
    + intros c g y Hg Hy. rewrite at_table_cols in Hg.
      destruct (at_ (g_cols p) c) as [g0| | | |] eqn:E0; try discriminate. injection Hg as <-.
      cbn [t_coefs] in Hy. rewrite at_coefs in Hy. destruct (_ && _); try discriminate.
      injection Hy as <-. rewrite canonical_value by auto.
      destruct (wf_col c g0 E0) as [C0 _]. rewrite coef_find by auto. f_equal.
      apply (F c g0 E0).
  - unfold GetNumberOfNonZeros. apply count_nonzeros. exact Hw.
Qed.
End Reads.

(** ** Edits *)
Definition with_entries (es : list ent) (g : gcol) : gcol :=
  mkGCol (g_lb g) (g_ub g) (g_obj g) (g_cname g) es.
Definition row_entries (r : Z) (l : list ent) (j : Z) : list ent :=
  map (fun e : ent => mkE r (val e)) (filter (fun e : ent => idx e =? j) l).
Definition extend_cols (r : Z) (l : list ent) (cs : list gcol) : list gcol :=
  map (fun q => with_entries (g_entries (snd q) ++ row_entries r l (fst q)) (snd q))
    (combine (upto (length cs)) cs).

Lemma extend_cols_length r l cs : length (extend_cols r l cs) = length cs.
Proof. unfold extend_cols. rewrite map_length, combine_length, upto_length. lia. Qed.
Lemma at_extend_cols r l cs k : at_ (extend_cols r l cs) k =
  match at_ cs k with Ok g => Ok (with_entries (g_entries g ++ row_entries r l k) g) | _ => UB end.
Proof.
  unfold extend_cols. rewrite at_map, at_combine.
  destruct (at_cases cs k) as [[R [x E]]|[R E]]; rewrite E.
  - rewrite at_upto by auto. cbn. auto.
  - destruct (at_ (upto (length cs)) k); auto.
Qed.

Lemma set_col_entries_ok cs g rs mx v :
  inrange (Z.of_nat (length rs)) (ents v) ->
  set_col_entries (mkLp (cs ++ [g]) rs mx) (Z.of_nat (length cs)) v =
  Ok (mkLp (cs ++ [with_entries (g_entries g ++ ents v) g]) rs mx).
Proof.
  unfold set_col_entries. intros R. revert g. induction R as [|e l He Hl IH]; intros g; cbn [foldM].
  - rewrite app_nil_r. destruct g; auto.
  - unfold LpSetCoefficient, on_col. cbn [g_cols g_rows g_max].
    destruct (at_range rs (idx e) He) as [x E]. rewrite E. cbn [bind].
    rewrite change_last. cbn [bind]. rewrite IH. cbn [g_entries with_entries g_lb g_ub g_obj g_cname].
    rewrite <- app_assoc. destruct e; auto.
Qed.

Lemma AddColumn_ok p v lo hi obj s : inrange (nrows p) (ents v) ->
  AddColumn p v lo hi obj s =
  Ok (mkLp (g_cols p ++ [mkGCol lo hi obj s (ents v)]) (g_rows p) (g_max p)).
Proof.
  intros R. unfold AddColumn, CreateNewVariable, SetVariableBounds, SetObjective, SetVariableName, on_col, ncols.
  cbn [g_cols g_rows g_max]. rewrite change_last. cbn [bind g_cols g_rows g_max].
  rewrite change_last. cbn [bind g_cols g_rows g_max].
  rewrite change_last. cbn [bind g_cols g_rows g_max].
  rewrite set_col_entries_ok by exact R. auto.
Qed.

Lemma set_row_entries_ok rs mx r v : 0 <= r < Z.of_nat (length rs) -> forall cs,
  inrange (Z.of_nat (length cs)) (ents v) ->
  set_row_entries (mkLp cs rs mx) r v = Ok (mkLp (extend_cols r (ents v) cs) rs mx).
Proof.
  unfold set_row_entries. intros Hr. destruct (at_range rs r Hr) as [x Ex].
  induction (ents v) as [|e l IH]; intros cs R; cbn [foldM].
  - do 2 f_equal. apply at_ext; rewrite ?extend_cols_length; auto.
    intros k Hk. rewrite at_extend_cols. destruct (at_range cs k Hk) as [g Eg]. rewrite Eg.
    cbn. rewrite app_nil_r. destruct g; auto.
  - inversion R as [|? ? He Hl]; subst.
    unfold LpSetCoefficient, on_col. cbn [g_cols g_rows g_max]. rewrite Ex. cbn [bind].
    rewrite change_ok by auto. cbn [bind].
    rewrite IH by (unfold inrange; rewrite change_at_length; auto).
    do 2 f_equal. apply at_ext; rewrite ?extend_cols_length, ?change_at_length; auto.
    intros k Hk. rewrite !at_extend_cols, at_change_at.
    destruct (at_range cs k Hk) as [g Eg]. rewrite Eg. f_equal. unfold row_entries. cbn [filter].
    rewrite (Z.eqb_sym (idx e) k). destruct (k =? idx e); auto.
    cbn. rewrite <- app_assoc. auto.
Qed.

Lemma AddRow_ok p v lo hi s : inrange (ncols p) (ents v) ->
  AddRow p v lo hi s =
  Ok (mkLp (extend_cols (nrows p) (ents v) (g_cols p)) (g_rows p ++ [mkGRow lo hi s]) (g_max p)).
Proof.
  intros R. unfold AddRow, CreateNewConstraint, SetConstraintBounds, SetConstraintName, on_row, nrows.
  cbn [g_cols g_rows g_max]. rewrite change_last. cbn [bind g_cols g_rows g_max].
  rewrite change_last. cbn [bind g_cols g_rows g_max].
  rewrite set_row_entries_ok; auto. rewrite app_length. cbn. lia.
Qed.

(** wf and the table after adding *)
Lemma table_ext (t t' : table) : t_cols t = t_cols t' -> t_rows t = t_rows t' -> t_max t = t_max t' -> t = t'.
Proof. destruct t, t'; cbn; intros; subst; auto. Qed.

Lemma step_AddColumn p v lo hi obj s : wf p -> clean_vector (nrows p) v ->
  exists p', AddColumn p v lo hi obj s = Ok p' /\ wf p' /\
    table_of p' = add_column (table_of p) v lo hi obj s.
Proof.
  intros W (_ & C & R). eexists. split; [apply AddColumn_ok; exact R|]. split.
  - apply Forall_app. split; [exact W|]. constructor; auto.
  - unfold table_of, add_column. cbn. rewrite map_app, map_length. auto.
Qed.

Lemma row_entries_find r (l : list ent) j : canonical l ->
  row_entries r l j = match find_first l j with Some x => [mkE r x] | None => [] end.
Proof.
  intros C. unfold row_entries. rewrite filter_row by auto. destruct (find_first l j); auto.
Qed.

Lemma step_AddRow p v lo hi s : wf p -> clean_vector (ncols p) v ->
  exists p', AddRow p v lo hi s = Ok p' /\ wf p' /\
    table_of p' = add_row (table_of p) v lo hi s.
Proof.
  intros W (_ & C & R). eexists. split; [apply AddRow_ok; exact R|].
  assert (X : forall k g, at_ (g_cols p) k = Ok g ->
    let es := g_entries g ++ row_entries (nrows p) (ents v) k in
    canonical es /\ inrange (nrows p + 1) es /\
    (forall i, 0 <= i < nrows p -> coef es i = coef (g_entries g) i) /\
    coef es (nrows p) = coef (ents v) k).
  { intros k g Hk es. destruct (wf_col p W k g Hk) as [C1 R1].
    assert (R1' : inrange (nrows p + 1) (g_entries g)).
    { eapply Forall_impl; [|exact R1]. cbn; intros; lia. }
    subst es. rewrite row_entries_find by auto. rewrite (coef_find (ents v) k) by auto.
    destruct (find_first (ents v) k) as [x|] eqn:F.
    - assert (C2 : canonical (g_entries g ++ [mkE (nrows p) x])).
      { split.
        - apply sorted_snoc; [apply C1|]. intros y Hy. unfold inrange in R1. rewrite Forall_forall in R1.
          specialize (R1 y Hy). cbn. lia.
        - apply Forall_app. split; [apply C1|]. constructor; auto. cbn [val].
          exact (nonzero_find _ _ _ (proj2 C) F). }
      split; auto. split; [|split].
      + apply Forall_app. split; auto. constructor; auto. cbn [idx]. unfold nrows. lia.
      + intros i Hi. rewrite coef_snoc by auto. cbn [idx]. destruct (Z.eqb_spec i (nrows p)); auto; lia.
      + rewrite coef_snoc by auto. cbn [idx val]. rewrite Z.eqb_refl. auto.
    - rewrite app_nil_r. split; auto. split; auto. split; auto.
      rewrite (coef_out _ _ _ R1) by lia. auto. }
  split.
  - unfold wf, stored_lp. cbn [g_cols g_rows]. apply Forall_forall. intros g' Hg'.
    apply In_at in Hg' as [k Hk]. rewrite at_extend_cols in Hk.
    destruct (at_ (g_cols p) k) as [g| | | |] eqn:E; try discriminate. injection Hk as <-.
    destruct (X k g E) as (X1 & X2 & _). cbn [g_entries with_entries]. split; auto.
    unfold nrows in *. cbn [g_rows]. rewrite app_length. cbn [length].
    replace (Z.of_nat (length (g_rows p) + 1)) with (Z.of_nat (length (g_rows p)) + 1) by lia. auto.
  - apply table_ext; auto.
    + unfold table_of, add_row. cbn [g_cols g_rows t_cols]. apply at_ext.
      { rewrite !map_length, combine_length, upto_length, !map_length, extend_cols_length. lia. }
      intros k Hk. rewrite map_length, extend_cols_length in Hk.
      rewrite at_map, at_extend_cols, at_map, at_combine, map_length, at_upto, at_map by auto.
      destruct (at_ (g_cols p) k) as [g| | | |] eqn:E; auto. f_equal.
      cbn. unfold map_coefs. cbn. f_equal.
      rewrite app_length. cbn. rewrite Nat.add_1_r, upto_S, map_app. cbn [map].
      destruct (X k g E) as (_ & _ & X3 & X4). f_equal.
      * apply map_ext_in. intros i Hi. apply In_upto in Hi. apply X3. auto.
      * f_equal. exact X4.
    + cbn. rewrite map_app. auto.
Qed.

(** ** Deleting *)
Lemma kept_keep {B} (mask : list bool) (l : list B) : kept mask l = keep mask l.
Proof.
  revert l. induction mask as [|b m IH]; intros [|x r]; auto.
  unfold keep. cbn. destruct b; cbn; rewrite IH; auto.
Qed.
Lemma keep_map {B C} (f : B -> C) mask l : keep mask (map f l) = map f (keep mask l).
Proof.
  rewrite <- !kept_keep. revert l. induction mask as [|b m IH]; intros [|x r]; auto.
  cbn. destruct b; cbn; rewrite IH; auto.
Qed.
Definition zfrom (i : Z) (n : nat) : list Z := map (fun k => i + Z.of_nat k) (seq 0 n).
Lemma zfrom_S i n : zfrom i (S n) = i :: zfrom (i + 1) n.
Proof.
  unfold zfrom. cbn. rewrite <- seq_shift, map_map. f_equal; [lia|].
  apply map_ext. intros; lia.
Qed.
Lemma upto_zfrom n : upto n = zfrom 0 n.
Proof. unfold upto, zfrom. apply map_ext. intros; lia. Qed.

Definition left_over (mask : list bool) : nat := length (filter negb mask).

Lemma keep_length {B} mask (l : list B) : length mask = length l -> length (keep mask l) = left_over mask.
Proof.
  rewrite <- kept_keep. revert l. unfold left_over. induction mask as [|b m IH]; intros [|x r] L; cbn in L; try discriminate; auto.
  cbn. destruct b; cbn; rewrite IH; auto.
Qed.

Lemma new_index_length mask : forall k, length (new_index k mask) = length mask.
Proof. induction mask as [|b m IH]; intros k; cbn; auto. destruct b; cbn; rewrite IH; auto. Qed.

(** The renumbering followed at the kept positions. *)
Lemma follow {B} (g g' : Z -> B) mask : forall i k,
  (forall j q, at_ mask j = Ok false -> at_ (new_index k mask) j = Ok q -> g' q = g (i + j)) ->
  map g' (zfrom k (left_over mask)) = keep mask (map g (zfrom i (length mask))).
Proof.
  induction mask as [|b m IH]; intros i k H; auto.
  rewrite <- kept_keep. cbn [length]. rewrite zfrom_S. cbn [map kept].
  assert (S1 : forall j (b' : bool), at_ m j = Ok b' -> at_ (b :: m) (j + 1) = Ok b').
  { intros j b' Hj. apply at_ok in Hj as [J1 J2]. apply at_ok. split; [lia|].
    replace (Z.to_nat (j + 1)) with (S (Z.to_nat j)) by lia. auto. }
  assert (S2 : forall j q k' x, at_ (new_index k' m) j = Ok q -> at_ (x :: new_index k' m) (j + 1) = Ok q).
  { intros j q k' x Hj. apply at_ok in Hj as [J1 J2]. apply at_ok. split; [lia|].
    replace (Z.to_nat (j + 1)) with (S (Z.to_nat j)) by lia. auto. }
  destruct b; cbn [new_index] in H; rewrite kept_keep.
  - apply IH. intros j q H1 H2. rewrite (H (j + 1)); auto. f_equal. lia.
  - unfold left_over. cbn [filter negb length]. rewrite zfrom_S. cbn [map]. f_equal.
    + rewrite (H 0 k); auto. f_equal. lia.
    + apply IH. intros j q H1 H2. rewrite (H (j + 1)); auto. f_equal. lia.
Qed.

(** new_index is increasing on the kept positions. *)
Lemma new_index_spec mask : forall k j q, at_ (new_index k mask) j = Ok q ->
  (at_ mask j = Ok true /\ q = -1) \/
  (at_ mask j = Ok false /\ q = k + Z.of_nat (left_over (firstn (Z.to_nat j) mask))).
Proof.
  induction mask as [|b m IH]; intros k j q H.
  - apply at_in_range in H. cbn in H. lia.
  - pose proof (at_in_range _ _ _ H) as R. apply at_ok in H as [H1 H2].
    destruct (Z.eqb_spec j 0) as [->|J].
    + cbn in *. destruct b; cbn in H2; injection H2 as <-; [left|right]; split; auto. lia.
    + assert (E : Z.to_nat j = S (Z.to_nat (j - 1))) by lia.
      assert (A : forall b', at_ m (j - 1) = Ok b' -> at_ (b :: m) j = Ok b').
      { intros b' Hb. apply at_ok in Hb as [_ Hb]. apply at_ok. split; auto. rewrite E. auto. }
      rewrite E in *. cbn [firstn]. unfold left_over. cbn [filter].
      destruct b; cbn [new_index nth_error negb] in *.
      * destruct (IH k (j - 1) q) as [[? ?]|[? ?]]; auto.
        apply at_ok. split; [lia|auto].
      * destruct (IH (k + 1) (j - 1) q) as [[? ?]|[? Hq]]; auto.
        { apply at_ok. split; [lia|auto]. }
        right. split; auto. cbn [length]. unfold left_over in Hq. lia.
Qed.

Lemma left_over_mono mask : forall n n' : nat, (n <= n')%nat ->
  (left_over (firstn n mask) <= left_over (firstn n' mask))%nat.
Proof.
  unfold left_over. induction mask as [|b m IH]; intros [|n] [|n'] H; cbn; try lia.
  specialize (IH n n'). destruct b; cbn; lia.
Qed.
Lemma left_over_strict mask : forall n n' : nat, (n < n')%nat ->
  nth_error mask n = Some false ->
  (left_over (firstn n mask) < left_over (firstn n' mask))%nat.
Proof.
  unfold left_over. induction mask as [|b m IH]; intros [|n] [|n'] H E; cbn in *; try lia; try discriminate.
  - injection E as ->. cbn. lia.
  - specialize (IH n n'). destruct b; cbn; apply IH in E; lia.
Qed.
Lemma left_over_firstn mask n : (left_over (firstn n mask) <= left_over mask)%nat.
Proof.
  pose proof (left_over_mono mask n (max n (length mask)) ltac:(lia)) as H.
  rewrite (firstn_all2 (n := max n (length mask)) mask) in H by lia. auto.
Qed.

Lemma renumber_ok mask n (l : list ent) : canonical l -> inrange n l -> n = Z.of_nat (length mask) ->
  exists l', renumber (new_index 0 mask) l = Ok l' /\ canonical l' /\
    inrange (Z.of_nat (left_over mask)) l' /\
    (forall i q, at_ mask i = Ok false -> at_ (new_index 0 mask) i = Ok q -> coef l' q = coef l i) /\
    (forall e', In e' l' -> exists e, In e l /\ at_ (new_index 0 mask) (idx e) = Ok (idx e') /\ at_ mask (idx e) = Ok false).
Proof.
  intros C R ->. 
  assert (INJ : forall i j q, at_ (new_index 0 mask) i = Ok q -> at_ (new_index 0 mask) j = Ok q ->
     at_ mask i = Ok false -> i = j).
  { intros i j q Hi Hj Mi. pose proof (at_in_range _ _ _ Hi). pose proof (at_in_range _ _ _ Hj).
    destruct (new_index_spec _ _ _ _ Hi) as [[? ?]|[M1 E1]]; [congruence|].
    destruct (new_index_spec _ _ _ _ Hj) as [[? ?]|[M2 E2]]; [subst; lia|].
    apply at_ok in M1 as [_ M1]. apply at_ok in M2 as [_ M2].
    destruct (Z.lt_trichotomy i j) as [L|[->|L]]; auto; exfalso.
    - pose proof (left_over_strict mask (Z.to_nat i) (Z.to_nat j) ltac:(lia) M1). lia.
    - pose proof (left_over_strict mask (Z.to_nat j) (Z.to_nat i) ltac:(lia) M2). lia. }
  destruct C as [Cs Cn]. induction Cs as [|e l Cs IH Ha].
  - exists []. split; auto. split; [split; constructor|]. split; [constructor|]. split; auto. intros e' [].
  - inversion Cn as [|? ? Z0 Cn']; subst. inversion R as [|? ? Re Rl]; subst.
    destruct (IH Cn' Rl) as (l' & E & [Cs1 Cn1] & R' & F & G).
    destruct (at_range (new_index 0 mask) (idx e)) as [q Eq]; [rewrite new_index_length; auto|].
    cbn [renumber]. rewrite Eq. cbn [bind]. rewrite E. cbn [bind].
    assert (Cel : canonical (e :: l)) by (split; constructor; auto).
    assert (Cl : canonical l) by (split; auto).
    destruct (new_index_spec _ _ _ _ Eq) as [[M ->]|[M Hq]].
    + cbn [Z.eqb Pos.eqb]. exists l'. split; auto. split; [split; auto|]. split; auto. split.
      * intros i q Hi Hiq. rewrite (F i q Hi Hiq), !coef_find by auto. cbn [find_first].
        destruct (Z.eqb_spec (idx e) i); auto. congruence.
      * intros e' He'. destruct (G e' He') as (x & ? & ? & ?). exists x. cbn; auto.
    + destruct (Z.eqb_spec q (-1)); [lia|]. eexists. split; [reflexivity|].
      assert (L : forall x, In x l' -> q < idx x).
      { intros x Hx. destruct (G x Hx) as (y & Hy & Eyi & My).
        destruct (new_index_spec _ _ _ _ Eyi) as [[? ?]|[_ E2]]; [congruence|].
        rewrite Forall_forall in Ha. specialize (Ha y Hy). cbn in Ha.
        apply at_ok in M as [_ M].
        pose proof (left_over_strict mask (Z.to_nat (idx e)) (Z.to_nat (idx y)) ltac:(lia) M). lia. }
      assert (C' : canonical (mkE q (val e) :: l')).
      { split; constructor; auto. apply Forall_forall. intros x Hx. cbn. auto. }
      split; auto. split; [|split].
      * constructor; auto. cbn [idx]. apply at_ok in M as [_ M].
        assert (Z.to_nat (idx e) < length mask)%nat by (apply nth_error_Some; congruence).
        pose proof (left_over_strict mask (Z.to_nat (idx e)) (length mask) ltac:(lia) M) as L2.
        rewrite firstn_all in L2. lia.
      * intros i q' Hi Hiq. rewrite !coef_find by auto. cbn [find_first idx val].
        destruct (Z.eqb_spec (idx e) i) as [<-|Ni].
        -- assert (q = q') by congruence. subst. rewrite Z.eqb_refl. auto.
        -- destruct (Z.eqb_spec q q') as [<-|Nq].
           { exfalso. apply Ni. symmetry. eapply INJ; eauto. }
           rewrite <- coef_find by (split; auto). rewrite (F i q' Hi Hiq). apply coef_find; auto.
      * intros e' [<-|He'].
        -- exists e. cbn; auto.
        -- destruct (G e' He') as (x & ? & ? & ?). exists x. cbn; auto.
Qed.

Lemma renumber_cols_ok mask n cs : n = length mask ->
  Forall (fun g => canonical (g_entries g) /\ inrange (Z.of_nat n) (g_entries g)) cs ->
  exists cs', renumber_cols (new_index 0 mask) cs = Ok cs' /\
    Forall (fun g => canonical (g_entries g) /\ inrange (Z.of_nat (left_over mask)) (g_entries g)) cs' /\
    map (fun g => mkTC (g_lb g) (g_ub g) (g_obj g) (g_cname g)
                       (map (coef (g_entries g)) (upto (left_over mask)))) cs' =
    map (fun g => mkTC (g_lb g) (g_ub g) (g_obj g) (g_cname g)
                       (keep mask (map (coef (g_entries g)) (upto n)))) cs.
Proof.
  intros ->. induction 1 as [|g cs [C R] Hcs IH].
  - exists []. split; auto.
  - destruct IH as (cs' & E & F & T).
    destruct (renumber_ok mask _ (g_entries g) C R eq_refl) as (l' & El & C' & R' & P & _).
    eexists. cbn [renumber_cols]. rewrite El. cbn [bind]. rewrite E. cbn [bind].
    split; [reflexivity|]. split; [constructor; auto|].
    cbn [map g_lb g_ub g_obj g_cname g_entries]. rewrite T. f_equal. f_equal.
    rewrite (upto_zfrom (left_over mask)), (upto_zfrom (length mask)). apply follow. intros j q H1 H2. rewrite Z.add_0_l. auto.
Qed.

Lemma step_delete_rows p mask : wf p -> length mask = length (g_rows p) ->
  exists p', lp_delete_rows p mask = Ok p' /\ wf p' /\ table_of p' = remove_rows mask (table_of p).
Proof.
  intros W L. destruct (renumber_cols_ok mask (length (g_rows p)) (g_cols p) (eq_sym L) W) as (cs' & E & F & T).
  unfold lp_delete_rows. rewrite E. cbn [bind]. eexists. split; [reflexivity|].
  assert (LK : length (kept mask (g_rows p)) = left_over mask) by (rewrite kept_keep; apply keep_length; auto).
  split.
  - unfold wf, stored_lp, nrows. cbn [g_cols g_rows]. rewrite LK. exact F.
  - apply table_ext; auto; unfold table_of, remove_rows; cbn [t_cols t_rows t_max g_cols g_rows g_max].
    + rewrite LK, T, map_map. auto.
    + rewrite kept_keep, keep_map. auto.
Qed.

Lemma step_delete_cols p mask : wf p ->
  let p' := lp_delete_cols p mask in
  wf p' /\ table_of p' = mkT (keep mask (t_cols (table_of p))) (t_rows (table_of p)) (t_max (table_of p)).
Proof.
  intros W. split.
  - unfold wf, stored_lp, nrows. cbn [lp_delete_cols g_cols g_rows]. apply Forall_forall. intros g Hg.
    unfold wf, stored_lp in W. rewrite Forall_forall in W. apply W.
    clear - Hg. revert Hg. generalize (g_cols p). induction mask as [|b m IH]; intros [|x r] H; cbn in *; try tauto.
    destruct b; cbn in H; [right; auto|]. destruct H; auto.
  - apply table_ext; auto. cbn. rewrite kept_keep, keep_map. auto.
Qed.

(** range_mask *)
Lemma mark_ok n : forall k mask, 0 <= k -> k + Z.of_nat n <= Z.of_nat (length mask) ->
  exists m, mark n k mask = Ok m /\ length m = length mask /\
  forall j, at_ m j = if (k <=? j) && (j <? k + Z.of_nat n) then Ok true else at_ mask j.
Proof.
  induction n as [|n IH]; intros k mask Hk Hn; cbn [mark].
  - exists mask. split; auto. split; auto. intros j.
    replace ((k <=? j) && (j <? k + Z.of_nat 0)) with false by lia. auto.
  - destruct (set_at_range mask k true) as [m1 E1]; [lia|]. rewrite E1. cbn [bind].
    pose proof (set_at_length _ _ _ _ E1) as L1.
    destruct (IH (k + 1) m1) as (m & E & L & A); try lia.
    exists m. split; auto. split; [congruence|]. intros j. rewrite A, (at_set_at _ _ _ _ _ E1).
    destruct (Z.eqb_spec j k) as [->|].
    + replace ((k + 1 <=? k) && (k <? k + 1 + Z.of_nat n)) with false by lia.
      replace ((k <=? k) && (k <? k + Z.of_nat (S n))) with true by lia. auto.
    + replace ((k <=? j) && (j <? k + Z.of_nat (S n))) with ((k + 1 <=? j) && (j <? k + 1 + Z.of_nat n)) by lia. auto.
Qed.

Lemma range_mask_ok size first last : 0 <= first <= last -> last < Z.of_nat size ->
  range_mask size first last =
  Ok (repeat false (Z.to_nat first) ++ repeat true (Z.to_nat (last - first + 1)) ++
      repeat false (size - Z.to_nat (last + 1))).
Proof.
  intros H1 H2. unfold range_mask.
  destruct (mark_ok (Z.to_nat (last - first + 1)) first (repeat false size)) as (m & E & L & A);
    rewrite ?repeat_length; try lia.
  rewrite E. f_equal. rewrite repeat_length in L. apply at_ext.
  - rewrite !app_length, !repeat_length. lia.
  - intros k Hk. rewrite A, !at_app, !at_repeat, !repeat_length.
    destruct ((first <=? k) && (k <? first + Z.of_nat (Z.to_nat (last - first + 1)))) eqn:B.
    + replace (k <? Z.of_nat (Z.to_nat first)) with false by lia.
      replace (k - Z.of_nat (Z.to_nat first) <? Z.of_nat (Z.to_nat (last - first + 1))) with true by lia.
      replace (0 <=? k - Z.of_nat (Z.to_nat first)) with true by lia. auto.
    + destruct (Z.ltb_spec k (Z.of_nat (Z.to_nat first))).
      * replace ((0 <=? k) && (k <? Z.of_nat size)) with true by lia.
        replace (0 <=? k) with true by lia. auto.
      * replace (k - Z.of_nat (Z.to_nat first) <? Z.of_nat (Z.to_nat (last - first + 1))) with false by lia.
        replace ((0 <=? k) && (k <? Z.of_nat size)) with true by lia.
        match goal with |- _ = if ?b then _ else _ => replace b with true by lia end. auto.
Qed.

Lemma keep_app {B} m1 m2 (l1 l2 : list B) : length m1 = length l1 ->
  keep (m1 ++ m2) (l1 ++ l2) = keep m1 l1 ++ keep m2 l2.
Proof.
  rewrite <- !kept_keep. revert l1. induction m1 as [|b m IH]; intros [|x r] L; cbn in L; try discriminate; auto.
  cbn. destruct b; cbn; rewrite IH; auto.
Qed.
Lemma keep_false {B} (l : list B) : keep (repeat false (length l)) l = l.
Proof. rewrite <- kept_keep. induction l; cbn; congruence. Qed.
Lemma keep_true {B} (l : list B) : keep (repeat true (length l)) l = [].
Proof. rewrite <- kept_keep. induction l; cbn; congruence. Qed.

Lemma skipn_twice {B} x y (l : list B) : skipn x (skipn y l) = skipn (x + y) l.
Proof.
  revert l. induction y as [|y IH]; intros l; [rewrite Nat.add_0_r; auto|].
  rewrite Nat.add_succ_r. destruct l; cbn; auto. destruct x; auto.
Qed.
Lemma keep_range {B} (l : list B) first last : 0 <= first <= last -> last < Z.of_nat (length l) ->
  keep (repeat false (Z.to_nat first) ++ repeat true (Z.to_nat (last - first + 1)) ++
      repeat false (length l - Z.to_nat (last + 1))) l = without first last l.
Proof.
  intros H1 H2. unfold without.
  rewrite <- (firstn_skipn (Z.to_nat first) l) at 2.
  rewrite keep_app by (rewrite repeat_length, firstn_length; lia).
  rewrite <- (firstn_length_le l (n := Z.to_nat first)) at 1 by lia.
  rewrite keep_false. f_equal.
  rewrite <- (firstn_skipn (Z.to_nat (last - first + 1)) (skipn (Z.to_nat first) l)) at 1.
  rewrite keep_app by (rewrite repeat_length, firstn_length, skipn_length; lia).
  rewrite <- (firstn_length_le (skipn (Z.to_nat first) l) (n := Z.to_nat (last - first + 1))) at 1
    by (rewrite skipn_length; lia).
  rewrite keep_true. cbn [app].
  rewrite skipn_twice. replace (Z.to_nat (last - first + 1) + Z.to_nat first)%nat with (Z.to_nat (last + 1)) by lia.
  rewrite <- (skipn_length (Z.to_nat (last + 1)) l). apply keep_false.
Qed.

(** ** One call *)
Lemma table_nc p : t_nc (table_of p) = ncols p.
Proof. unfold t_nc, ncols. cbn. rewrite map_length. auto. Qed.
Lemma table_nr p : t_nr (table_of p) = nrows p.
Proof. unfold t_nr, nrows. cbn. rewrite map_length. auto. Qed.

Lemma at_cons {B} (x : B) l k : 0 <= k -> at_ (x :: l) (k + 1) = at_ l k.
Proof.
  intros H. unfold at_. destruct (Z.ltb_spec k 0), (Z.ltb_spec (k + 1) 0); try lia.
  replace (Z.to_nat (k + 1)) with (S (Z.to_nat k)) by lia. auto.
Qed.
Lemma at_mid {B} (l0 : list B) x l n : length l0 = n -> at_ (l0 ++ x :: l) (Z.of_nat n) = Ok x.
Proof.
  intros <-. rewrite at_app. replace (Z.of_nat (length l0) <? Z.of_nat (length l0)) with false by lia.
  rewrite Z.sub_diag. auto.
Qed.

Lemma add_row_nc t v lo hi s : t_nc (add_row t v lo hi s) = t_nc t.
Proof. unfold t_nc, add_row. cbn. rewrite map_length, combine_length, upto_length. lia. Qed.

Lemma step_AddRows vs : forall k los his ss (vs0 : list (svec num_double)) (los0 his0 : list double) (ss0 : list string) p,
  wf p -> Forall (clean_vector (ncols p)) vs ->
  length los = length vs -> length his = length vs -> length ss = length vs ->
  length vs0 = k -> length los0 = k -> length his0 = k -> length ss0 = k ->
  exists p', add_rows_loop (length vs) (Z.of_nat k) p (vs0 ++ vs) (los0 ++ los) (his0 ++ his) (ss0 ++ ss) = Ok p' /\
    wf p' /\ table_of p' = add_rows (table_of p) vs los his ss.
Proof.
  induction vs as [|v vs IH]; intros k [|lo los] [|hi his] [|s ss] vs0 los0 his0 ss0 p W F L1 L2 L3 K0 K1 K2 K3;
    cbn in L1, L2, L3; try discriminate.
  - cbn. eauto.
  - pose proof (Forall_inv F) as Fv. apply Forall_inv_tail in F. cbn [length add_rows_loop].
    rewrite at_mid by auto. cbn [bind]. rewrite at_mid by auto. cbn [bind].
    rewrite at_mid by auto. cbn [bind]. rewrite at_mid by auto. cbn [bind].
    destruct (step_AddRow p v lo hi s W Fv) as (p1 & E1 & W1 & T1). rewrite E1. cbn [bind].
    destruct (IH (S k) los his ss (vs0 ++ [v]) (los0 ++ [lo]) (his0 ++ [hi]) (ss0 ++ [s]) p1)
      as (p2 & E2 & W2 & T2); auto; try lia; try (rewrite app_length; cbn; lia).
    { rewrite <- (table_nc p1), T1, add_row_nc, table_nc. auto. }
    exists p2. rewrite <- !app_assoc in E2. cbn [app] in E2.
    replace (Z.of_nat (S k)) with (Z.of_nat k + 1) in E2 by lia.
    rewrite E2. cbn [add_rows]. rewrite <- T1. auto.
Qed.

Lemma step_AddColumns vs : forall k los his objs ss (vs0 : list (svec num_double)) (los0 his0 objs0 : list double) (ss0 : list string) p,
  wf p -> Forall (clean_vector (nrows p)) vs ->
  length los = length vs -> length his = length vs -> length objs = length vs -> length ss = length vs ->
  length vs0 = k -> length los0 = k -> length his0 = k -> length objs0 = k -> length ss0 = k ->
  exists p', add_columns_loop (length vs) (Z.of_nat k) p (vs0 ++ vs) (los0 ++ los) (his0 ++ his) (objs0 ++ objs) (ss0 ++ ss) = Ok p' /\
    wf p' /\ table_of p' = add_columns (table_of p) vs los his objs ss.
Proof.
  induction vs as [|v vs IH]; intros k [|lo los] [|hi his] [|o objs] [|s ss] vs0 los0 his0 objs0 ss0 p W F L1 L2 L3 L4 K0 K1 K2 K3 K4;
    cbn in L1, L2, L3, L4; try discriminate.
  - cbn. eauto.
  - pose proof (Forall_inv F) as Fv. apply Forall_inv_tail in F. cbn [length add_columns_loop].
    rewrite at_mid by auto. cbn [bind]. rewrite at_mid by auto. cbn [bind].
    rewrite at_mid by auto. cbn [bind]. rewrite at_mid by auto. cbn [bind].
    rewrite at_mid by auto. cbn [bind].
    destruct (step_AddColumn p v lo hi o s W Fv) as (p1 & E1 & W1 & T1). rewrite E1. cbn [bind].
    destruct (IH (S k) los his objs ss (vs0 ++ [v]) (los0 ++ [lo]) (his0 ++ [hi]) (objs0 ++ [o]) (ss0 ++ [s]) p1)
      as (p2 & E2 & W2 & T2); auto; try lia; try (rewrite app_length; cbn; lia).
    { rewrite <- (table_nr p1), T1. unfold t_nr. cbn. rewrite map_length. auto. }
    exists p2. rewrite <- !app_assoc in E2. cbn [app] in E2.
    replace (Z.of_nat (S k)) with (Z.of_nat k + 1) in E2 by lia.
    rewrite E2. cbn [add_columns]. rewrite <- T1. auto.
Qed.

Lemma step_change_col p c f (f' : tcol -> tcol) : wf p -> 0 <= c < ncols p ->
  (forall g, g_entries (f g) = g_entries g) ->
  (forall g l, f' (mkTC (g_lb g) (g_ub g) (g_obj g) (g_cname g) l) =
               mkTC (g_lb (f g)) (g_ub (f g)) (g_obj (f g)) (g_cname (f g)) l) ->
  exists p', on_col p c f = Ok p' /\ wf p' /\
    table_of p' = mkT (change_at (t_cols (table_of p)) c f') (t_rows (table_of p)) (t_max (table_of p)).
Proof.
  intros W R H1 H2. unfold on_col. rewrite change_ok by auto. cbn [bind]. eexists. split; [reflexivity|].
  split.
  - unfold wf, stored_lp in *. cbn [g_cols g_rows]. apply Forall_forall. intros g' Hg.
    apply In_at in Hg as [k Hk]. rewrite at_change_at in Hk.
    destruct (at_ (g_cols p) k) as [g| | | |] eqn:E; try discriminate. injection Hk as <-.
    rewrite Forall_forall in W. specialize (W g (at_In _ _ _ E)).
    destruct (k =? c); auto. rewrite H1. auto.
  - apply table_ext; auto. unfold table_of. cbn [t_cols g_cols g_rows]. apply at_ext.
    { rewrite map_length, !change_at_length, map_length. auto. }
    intros k Hk. rewrite at_map, !at_change_at, at_map.
    destruct (at_ (g_cols p) k) as [g| | | |]; auto. f_equal.
    destruct (k =? c); auto. rewrite H2, H1. auto.
Qed.
Lemma step_change_row p r f (f' : trow -> trow) : wf p -> 0 <= r < nrows p ->
  (forall g, f' (mkTR (g_lhs g) (g_rhs g) (g_rname g)) = mkTR (g_lhs (f g)) (g_rhs (f g)) (g_rname (f g))) ->
  exists p', on_row p r f = Ok p' /\ wf p' /\
    table_of p' = mkT (t_cols (table_of p)) (change_at (t_rows (table_of p)) r f') (t_max (table_of p)).
Proof.
  intros W R H2. unfold on_row. rewrite change_ok by auto. cbn [bind]. eexists. split; [reflexivity|].
  split.
  - unfold wf, stored_lp, nrows in *. cbn [g_cols g_rows]. rewrite change_at_length. auto.
  - apply table_ext; auto; unfold table_of; cbn [t_cols t_rows g_cols g_rows].
    + rewrite change_at_length. auto.
    + apply at_ext.
      { rewrite map_length, !change_at_length, map_length. auto. }
      intros k Hk. rewrite at_map, !at_change_at, at_map.
      destruct (at_ (g_rows p) k) as [g| | | |]; auto. f_equal.
      destruct (k =? r); auto.
Qed.

(** ** PopulateFromMipData *)
Lemma col_clean (m : smat num_double) g c v m' : minv m g -> col m c = Ok (v, m') ->
  0 <= c < num_cols m /\ clean_vector (num_rows m) v /\ minv m' g /\
  num_cols m' = num_cols m /\ num_rows m' = num_rows m /\
  forall r, coef (ents v) r = or0 (g c r).
Proof.
  intros Hm E. pose proof E as E0. unfold col in E0.
  destruct (recompute_cols_ok m g Hm) as (m1 & E1 & (Hs & Hrs & Hcs) & N1 & C1 & R1 & _).
  rewrite E1 in E0. cbn [bind] in E0.
  apply bind_ok in E0 as (v0 & Ev & E0). pose proof (at_in_range _ _ _ Ev) as Rc.
  assert (Rc' : 0 <= c < num_cols m) by (unfold num_cols in *; lia).
  destruct (col_ok m g c Hm Rc') as (v1 & m1' & E2 & M' & C' & R' & V).
  rewrite E in E2. injection E2 as <- <-.
  apply bind_ok in E0 as (cs & Es & E0). injection E0 as <- _.
  destruct (Hcs N1 _ _ Ev) as [G C].
  destruct (good_cleanup v0 G) as (G' & D' & Ct & F' & V').
  assert (Cn : canonical (ents (CleanUp v0))).
  { destruct G' as [G1 G2]. split; [apply G1|apply G2]; auto. }
  split; auto. split; [|split; [auto|split; [auto|split; [auto|]]]].
  - split; [auto|]. split; [auto|]. apply Forall_forall. intros e He.
    assert (X : g c (idx e) <> None).
    { rewrite <- C, <- F', sorted_find by apply Cn. rewrite find_first_in by (auto; apply Cn). discriminate. }
    destruct (Hs _ _ X). lia.
  - intros r. rewrite coef_find by auto. rewrite <- V. rewrite value_find by apply Cn. auto.
Qed.

Lemma populate_rows_ok d l : forall k r ss (l0 r0 : list double) (s0 : list string) p,
  wf p -> g_cols p = [] ->
  left_hand_sides d = l0 ++ l -> right_hand_sides d = r0 ++ r -> constraint_names d = s0 ++ ss ->
  length r = length l -> length ss = length l ->
  length l0 = k -> length r0 = k -> length s0 = k ->
  exists p', populate_rows (length l) (Z.of_nat k) p d = Ok p' /\ wf p' /\ g_cols p' = [] /\
    t_rows (table_of p') = t_rows (table_of p) ++
      map (fun q => match q with (lo, (hi, n)) => mkTR lo hi n end) (combine l (combine r ss)).
Proof.
  induction l as [|lo l IH]; intros k [|hi r] [|s ss] l0 r0 s0 p W C EL ER ES L1 L2 K0 K1 K2; cbn in L1, L2; try discriminate.
  - exists p. cbn [length populate_rows combine map]. rewrite app_nil_r. auto.
  - cbn [length populate_rows]. rewrite EL, ER, ES.
    rewrite at_mid by auto. cbn [bind]. rewrite at_mid by auto. cbn [bind]. rewrite at_mid by auto. cbn [bind].
    destruct (step_AddRow p vempty lo hi s W) as (p1 & E1 & W1 & T1).
    { split; auto. split; [split; constructor|constructor]. }
    rewrite E1. cbn [bind].
    destruct (IH (S k) r ss (l0 ++ [lo]) (r0 ++ [hi]) (s0 ++ [s]) p1) as (p2 & E2 & W2 & C2 & T2);
      rewrite <- ?app_assoc; auto; try lia; try (rewrite app_length; cbn; lia).
    { assert (X : length (t_cols (table_of p1)) = 0%nat) by (rewrite T1; cbn; rewrite C; auto).
      cbn in X. rewrite map_length in X. destruct (g_cols p1); auto; discriminate. }
    exists p2. replace (Z.of_nat (S k)) with (Z.of_nat k + 1) in E2 by lia.
    split; auto. split; auto. split; auto. rewrite T2, T1.
    cbn [add_row t_rows combine map]. rewrite <- app_assoc. auto.
Qed.

Definition from_data (d : mip_data) (nr : nat) (x : Z -> Z -> double) (q : Z * (double * (double * string))) : tcol :=
  match q with (j, (lo, (hi, n))) => mkTC lo hi (value (objective d) j) n (map (x j) (upto nr)) end.

Lemma populate_cols_ok d (g : Z -> Z -> option num_double) (x : Z -> Z -> double) l : forall k u ss (l0 u0 : list double) (s0 : list string) p (m : smat num_double),
  wf p -> minv m g ->
  lower_bounds d = l0 ++ l -> upper_bounds d = u0 ++ u -> variable_names d = s0 ++ ss ->
  length u = length l -> length ss = length l ->
  length l0 = k -> length u0 = k -> length s0 = k ->
  num_cols m = Z.of_nat (k + length l) -> num_rows m = nrows p ->
  (forall c r, 0 <= c < num_cols m -> 0 <= r < num_rows m -> x c r = or0 (g c r)) ->
  exists p', populate_cols (length l) (Z.of_nat k) m p d = Ok p' /\ wf p' /\ g_rows p' = g_rows p /\
    t_cols (table_of p') = t_cols (table_of p) ++
      map (from_data d (length (g_rows p)) x) (combine (zfrom (Z.of_nat k) (length l)) (combine l (combine u ss))).
Proof.
  induction l as [|lo l IH]; intros k [|hi u] [|s ss] l0 u0 s0 p m W M EL ER ES L1 L2 K0 K1 K2 NC NR X; cbn in L1, L2; try discriminate.
  - exists p. cbn [length populate_cols combine map]. rewrite app_nil_r. auto.
  - cbn [length populate_cols]. rewrite EL, ER, ES.
    destruct (col_ok m g (Z.of_nat k) M) as (v & m' & E & _); [rewrite NC; cbn; lia|].
    destruct (col_clean m g _ v m' M E) as (Rk & CV & M' & NC' & NR' & V).
    rewrite E. cbn [bind fst snd].
    rewrite at_mid by auto. cbn [bind]. rewrite at_mid by auto. cbn [bind]. rewrite at_mid by auto. cbn [bind].
    rewrite NR in CV.
    destruct (step_AddColumn p v lo hi (value (objective d) (Z.of_nat k)) s W CV) as (p1 & E1 & W1 & T1).
    pose proof E1 as E1'. rewrite AddColumn_ok in E1' by apply CV. injection E1' as E1'.
    rewrite E1. cbn [bind].
    assert (GR : g_rows p1 = g_rows p) by (rewrite <- E1'; auto).
    destruct (IH (S k) u ss (l0 ++ [lo]) (u0 ++ [hi]) (s0 ++ [s]) p1 m') as (p2 & E2 & W2 & C2 & T2);
      rewrite <- ?app_assoc; auto; try lia; try (rewrite app_length; cbn; lia).
    { rewrite NC', NC. cbn. lia. }
    { rewrite NR', NR. unfold nrows. rewrite GR. auto. }
    { rewrite NC', NR'. auto. }
    exists p2. replace (Z.of_nat (S k)) with (Z.of_nat k + 1) in E2, T2 by lia.
    split; auto. split; auto. split; [congruence|]. rewrite T2, T1, GR.
    cbn [add_column t_cols]. rewrite zfrom_S. cbn [combine map from_data]. rewrite <- app_assoc. cbn [app].
    do 3 f_equal. cbn [table_of t_rows]. rewrite map_length. apply map_ext_in. intros r Hr.
    apply In_upto in Hr. rewrite V, X; auto. rewrite NR. auto.
Qed.

Lemma populate_ok d a :
  length (right_hand_sides d) = length (left_hand_sides d) ->
  length (constraint_names d) = length (left_hand_sides d) ->
  length (upper_bounds d) = length (lower_bounds d) ->
  length (variable_names d) = length (lower_bounds d) ->
  mrel (matrix d) a -> a_nc a = Z.of_nat (length (lower_bounds d)) ->
  a_nr a = Z.of_nat (length (left_hand_sides d)) ->
  exists p', PopulateFromMipData d = Ok p' /\ wf p' /\ table_of p' = data_table d (matrix_coef (matrix d)).
Proof.
  intros L1 L2 L3 L4 (Ec & Er & g & Hg & Hv) NC NR.
  assert (W0 : wf lp_new) by constructor.
  destruct (populate_rows_ok d (left_hand_sides d) 0 (right_hand_sides d) (constraint_names d) [] [] [] lp_new)
    as (p1 & E1 & W1 & C1 & T1); auto.
  unfold PopulateFromMipData. change 0 with (Z.of_nat 0). rewrite E1. cbn [bind].
  assert (N1 : length (g_rows p1) = length (left_hand_sides d)).
  { assert (X : length (t_rows (table_of p1)) = length (left_hand_sides d)).
    { rewrite T1. cbn. rewrite map_length, !combine_length. lia. }
    cbn in X. rewrite map_length in X. auto. }
  assert (X : forall j q, 0 <= j < num_cols (matrix d) -> 0 <= q < num_rows (matrix d) ->
            matrix_coef (matrix d) j q = or0 (g j q)).
  { intros j q Hj Hq. unfold matrix_coef.
    destruct (get_ok (matrix d) g j q Hg Hj Hq) as (m' & Em & _). rewrite Em. auto. }
  destruct (populate_cols_ok d g (matrix_coef (matrix d)) (lower_bounds d) 0 (upper_bounds d) (variable_names d)
     [] [] [] p1 (matrix d)) as (p2 & E2 & W2 & GR & T2); auto.
  { rewrite Ec, NC. cbn. auto. }
  { unfold nrows. rewrite N1, Er, NR. auto. }
  assert (LC : length (cols (matrix d)) = length (lower_bounds d)).
  { unfold num_cols in Ec. lia. }
  rewrite LC, E2. cbn [bind]. eexists. split; [reflexivity|]. split; [exact W2|].
  apply table_ext; auto.
  - transitivity (t_cols (table_of p2)); [reflexivity|]. rewrite T2. cbn [table_of t_cols]. rewrite C1. cbn [map app].
    unfold data_table. cbn [t_cols]. rewrite upto_zfrom, N1. apply map_ext.
    intros [j [lo [hi n]]]. auto.
  - transitivity (t_rows (table_of p2)); [reflexivity|]. cbn [table_of t_rows]. rewrite GR.
    transitivity (t_rows (table_of p1)); [reflexivity|]. rewrite T1. auto.
Qed.

Lemma step_Populate d : legal t_new (CPopulate d) ->
  exists p', PopulateFromMipData d = Ok p' /\ wf p' /\ table_of p' = data_table d (matrix_coef (matrix d)).
Proof.
  intros (L1 & L2 & L3 & L4 & (c & r & ops & H1 & H2 & H3)).
  destruct (mrel_run ops _ _ (mrel_new c r) H1) as (m & E & R).
  rewrite H2 in E. injection E as <-. destruct H3 as [NC NR].
  exact (populate_ok d _ L1 L2 L3 L4 R NC NR).
Qed.

(** ** Histories *)
(** Keeps conversion from unrolling a solve. *)
Strategy 1000 [SolveInternal SolveLp].

Section History.
Context {E : engine}.
Implicit Type s : gstate E.

Lemma SolveInternal_lp fuel : forall rec s t s' ok,
  SolveInternal fuel rec s t = Ok (s', ok) -> lp s' = lp s.
Proof.
  induction fuel as [|fuel IH]; intros rec s t s' ok H; [discriminate|].
  cbn [SolveInternal] in H.
  set (s1 := if modified s then _ else s) in H.
  assert (L1 : lp s1 = lp s).
  { subst s1. destruct (modified s); auto. destruct (use_scaling _); auto.
    destruct (sc_scale E (lp_slacks E (lp s))); auto. }
  set (s2 := if rec then s1 else _) in H.
  assert (L2 : lp s2 = lp s) by (subst s2; destruct rec; auto).
  clearbody s1. clear L1. clearbody s2. clear s1.
  set (s3 := if scratch s2 then _ else s2) in H.
  assert (L3 : lp s3 = lp s) by (subst s3; destruct (scratch s2); auto).
  clearbody s3. clear L2 s2.
  destruct (w_solve E (solver s3) t (scaled_lp s3)) as [[ok1 t1] w1].
  destruct ok1; cbn [negb] in H; [|injection H as <- <-; auto].
  destruct (_ && _ && _) in H.
  - apply bind_ok in H as ([s4 ok4] & E4 & H). apply IH in E4. cbn in E4.
    destruct ok4; cbn in H; injection H as <- <-; cbn; congruence.
  - injection H as <- <-. auto.
Qed.

Lemma SolveLp_lp d s s' ok : SolveLp d s = Ok (s', ok) -> lp s' = lp s.
Proof.
  unfold SolveLp. cbv zeta. generalize 2%nat. intros n H. apply SolveInternal_lp in H. exact H.
Qed.

Lemma shift_loop_ok n : forall row new_size cols mask st,
  0 <= row -> 0 <= cols -> 0 <= new_size <= cols + row ->
  row + Z.of_nat n <= Z.of_nat (length mask) -> cols + row + Z.of_nat n <= Z.of_nat (length st) ->
  exists x, shift_loop n row new_size cols mask st = Ok x.
Proof.
  induction n as [|n IH]; intros row new_size cols mask st H1 H2 H3 H4 H5; cbn [shift_loop]; eauto.
  destruct (at_range mask row) as [b ->]; [lia|]. cbn [bind].
  destruct b.
  - apply IH; lia.
  - destruct (at_range st (cols + row)) as [x ->]; [lia|]. cbn [bind].
    destruct (set_at_range st new_size x) as [st' Es]; [lia|]. rewrite Es. cbn [bind].
    apply IH; try lia. rewrite (set_at_length _ _ _ _ Es). lia.
Qed.

Lemma DeleteRows_ok s mask : wf (lp s) -> length mask = length (g_rows (lp s)) ->
  exists s', DeleteRowsAndUpdateCurrentBasis s mask = Ok s' /\ wf (lp s') /\
    table_of (lp s') = remove_rows mask (table_of (lp s)) /\ modified s' = true.
Proof.
  intros W L. unfold DeleteRowsAndUpdateCurrentBasis.
  destruct (step_delete_rows (lp s) mask W L) as (p' & Ep & W' & T).
  match goal with |- context [bind ?a _] => assert (X : exists s1, a = Ok s1 /\ lp s1 = lp s) end.
  { destruct (Z.eqb_spec (Z.of_nat (length (w_state E (solver s)))) (ncols (lp s) + nrows (lp s))) as [Es|]; eauto.
    destruct (shift_loop_ok (length (g_rows (lp s))) 0 (ncols (lp s)) (ncols (lp s)) mask (w_state E (solver s)))
      as [x Ex]; unfold ncols, nrows in *; try lia.
    rewrite Ex. cbn [bind]. eexists. split; [reflexivity|]. auto. }
  destruct X as (s1 & -> & L1). cbn [bind]. rewrite L1, Ep. cbn [bind]. eexists. split; [reflexivity|]. auto.
Qed.

Lemma mapping_ok n : forall row next mask m,
  0 <= row -> row + Z.of_nat n <= Z.of_nat (length mask) -> length m = length mask ->
  exists m', mapping_loop n row next mask m = Ok m' /\ length m' = length mask.
Proof.
  induction n as [|n IH]; intros row next mask m H1 H2 H3; cbn [mapping_loop]; eauto.
  destruct (at_range mask row) as [b ->]; [lia|]. cbn [bind].
  destruct b.
  - destruct (set_at_range m row (-1)) as [m' Es]; [lia|]. rewrite Es. cbn [bind].
    apply IH; try lia. rewrite (set_at_length _ _ _ _ Es). lia.
  - destruct (set_at_range m row next) as [m' Es]; [lia|]. rewrite Es. cbn [bind].
    apply IH; try lia. rewrite (set_at_length _ _ _ _ Es). lia.
Qed.

Definition edit_call (c : call) : Prop :=
  match c with
  | CSolve _ | CStrongBranch _ _ _ _ | CSetBasis _ _ => False
  | _ => True
  end.

Lemma rows_without t first last :
  0 <= first <= last -> last < t_nr t ->
  Forall (fun g => length (t_coefs g) = length (t_rows t)) (t_cols t) ->
  remove_rows (repeat false (Z.to_nat first) ++ repeat true (Z.to_nat (last - first + 1)) ++
      repeat false (length (t_rows t) - Z.to_nat (last + 1))) t =
  mkT (map (map_coefs (without first last)) (t_cols t)) (without first last (t_rows t)) (t_max t).
Proof.
  intros H1 H2 H3. unfold remove_rows. rewrite keep_range by auto. f_equal.
  apply map_ext_in. intros g Hg. unfold map_coefs. f_equal.
  rewrite Forall_forall in H3. rewrite <- (H3 g Hg). apply keep_range; auto.
  rewrite (H3 g Hg). auto.
Qed.
Lemma table_full p : Forall (fun g => length (t_coefs g) = length (t_rows (table_of p))) (t_cols (table_of p)).
Proof.
  apply Forall_forall. intros g Hg. cbn in Hg. apply in_map_iff in Hg as (g0 & <- & _).
  cbn. rewrite !map_length, upto_length. auto.
Qed.

Lemma edit_step s c : wf (lp s) -> legal (table_of (lp s)) c -> edit_call c ->
  exists s' x, gstep s c = Ok (s', x) /\ wf (lp s') /\
    table_of (lp s') = table_step (table_of (lp s)) c.
Proof.
  intros W L Ec.
  assert (K : forall (o : outcome glop_lp) t, (exists p, o = Ok p /\ wf p /\ table_of p = t) ->
    exists s' x, edited s o = Ok (s', x) /\ wf (lp s') /\ table_of (lp s') = t).
  { intros o t (p & -> & W' & T'). unfold edited. cbn [bind]. do 2 eexists. split; [reflexivity|]. auto. }
  destruct c; cbn [edit_call] in Ec; try tauto; cbn [gstep legal table_step] in *;
    try (do 2 eexists; split; [reflexivity|]; cbn; auto; fail).
  - apply K. apply step_Populate. exact L.
  - apply K. apply step_AddColumn; auto. rewrite <- table_nr. auto.
  - destruct L as (L0 & L1 & L2 & L3 & L4). rewrite table_nr in L0.
    destruct vs as [|v vs].
    + do 2 eexists. split; [reflexivity|]. cbn. auto.
    + apply K. apply (step_AddColumns (v :: vs) 0 los his objs names [] [] [] [] [] (lp s)); auto.
  - destruct L as [L1 L2]. rewrite table_nc in L2. apply K.
    unfold DeleteColumns. rewrite range_mask_ok by auto. cbn [bind]. eexists. split; [reflexivity|].
    match goal with |- context [lp_delete_cols _ ?m] => destruct (step_delete_cols (lp s) m W) as [W' T'] end.
    split; auto. rewrite T'. f_equal.
    replace (length (g_cols (lp s))) with (length (t_cols (table_of (lp s)))) by (cbn; apply map_length).
    apply keep_range; auto. cbn. rewrite map_length. auto.
  - apply K. apply step_AddRow; auto. rewrite <- table_nc. auto.
  - destruct L as (L0 & L1 & L2 & L3). rewrite table_nc in L0.
    destruct vs as [|v vs].
    + do 2 eexists. split; [reflexivity|]. cbn. auto.
    + apply K. apply (step_AddRows (v :: vs) 0 los his names [] [] [] [] (lp s)); auto.
  - destruct L as [L1 L2]. rewrite table_nr in L2.
    rewrite range_mask_ok by auto. cbn [bind].
    match goal with |- context [DeleteRowsAndUpdateCurrentBasis _ ?m] =>
      destruct (DeleteRows_ok s m W) as (s' & Es & W' & T' & _) end.
    { rewrite !app_length, !repeat_length. unfold nrows in L2. lia. }
    rewrite Es. cbn [bind]. do 2 eexists. split; [reflexivity|]. split; auto. rewrite T'.
    replace (length (g_rows (lp s))) with (length (t_rows (table_of (lp s)))) by (cbn; apply map_length).
    apply rows_without; auto. rewrite table_nr. auto. apply table_full.
  - cbn in L. rewrite map_length in L.
    destruct (mapping_ok (length (g_rows (lp s))) 0 0 mask (repeat 0 (length mask))) as (m & Em & _);
      rewrite ?repeat_length; try lia.
    unfold row_mapping. rewrite Em. cbn [bind].
    destruct (DeleteRows_ok s mask W L) as (s' & Es & W' & T' & _).
    rewrite Es. cbn [bind]. do 2 eexists. split; [reflexivity|]. auto.
  - do 2 eexists. split; [reflexivity|]. cbn. split; auto. constructor.
  - apply K. apply step_change_col; auto. rewrite <- table_nc. auto.
  - apply K. apply step_change_row; auto. rewrite <- table_nr. auto.
  - apply K. apply step_change_col; auto. rewrite <- table_nc. auto.
  - do 2 eexists. split; [reflexivity|]. unfold SetLpParameters.
    destruct (negb _); cbn; auto.
  - do 2 eexists. split; [reflexivity|]. destruct f as [p|]; cbn; auto.
  - unfold WriteLpToFile. destruct written; do 2 eexists; (split; [reflexivity|]); auto.
Qed.

Lemma convert_loop_ok f n : forall k l, 0 <= k -> k + Z.of_nat n <= Z.of_nat (length l) ->
  exists r, convert_loop f n k l = Ok r.
Proof.
  induction n as [|n IH]; intros k l H1 H2; cbn [convert_loop]; eauto.
  destruct (at_range l k) as [b ->]; [lia|]. cbn [bind].
  destruct (IH (k + 1) l) as [r ->]; try lia. cbn [bind]. eauto.
Qed.

Lemma other_step_lp s c s' x : ~ edit_call c -> gstep s c = Ok (s', x) ->
  lp s' = lp s /\ table_step (table_of (lp s)) c = table_of (lp s).
Proof.
  intros Ne H. destruct c; cbn [edit_call] in Ne; try tauto; cbn [gstep table_step] in *.
  - apply bind_ok in H as ([s1 ok] & H1 & H2). injection H2 as <- _.
    apply SolveLp_lp in H1. auto.
  - apply bind_ok in H as ([s1 r] & H1 & H2). injection H2 as <- _. split; auto.
    unfold SolveDownAndUpStrongBranch in H1. apply bind_ok in H1 as (g & _ & H1).
    apply bind_ok in H1 as ([[[p1 w1] t1] r1] & _ & H1).
    apply bind_ok in H1 as ([[[p2 w2] t2] r2] & _ & H1).
    apply bind_ok in H1 as (p3 & _ & H1). injection H1 as <- _. auto.
  - apply bind_ok in H as (s1 & H1 & H2). injection H2 as <- _. split; auto.
    unfold SetBasisStatusForColumnsAndRows in H1.
    apply bind_ok in H1 as (a & _ & H1). apply bind_ok in H1 as (b & _ & H1).
    injection H1 as <-. auto.
Qed.

Lemma step_reads s c s' x : wf (lp s) -> legal (table_of (lp s)) c -> gstep s c = Ok (s', x) ->
  wf (lp s') /\ table_of (lp s') = table_step (table_of (lp s)) c.
Proof.
  intros W L H. assert (D : edit_call c \/ ~ edit_call c) by (destruct c; cbn; auto).
  destruct D as [D|D].
  - destruct (edit_step s c W L D) as (s1 & x1 & E1 & W1 & T1). rewrite E1 in H. injection H as <- _. auto.
  - destruct (other_step_lp s c s' x D H) as [E1 E2]. rewrite E1, E2. auto.
Qed.

Lemma run_reads l : forall s s' xs, wf (lp s) -> legal_run (table_of (lp s)) l ->
  grun s l = Ok (s', xs) -> wf (lp s') /\ table_of (lp s') = table_run (table_of (lp s)) l.
Proof.
  induction l as [|c l IH]; intros s s' xs W L H.
  - injection H as <- _. auto.
  - destruct L as [L1 L2]. cbn [grun] in H.
    apply bind_ok in H as ([s1 x] & H1 & H). apply bind_ok in H as ([s2 xs2] & H2 & H).
    injection H as <- _. destruct (step_reads s c s1 x W L1 H1) as [W1 T1].
    rewrite <- T1 in L2. destruct (IH s1 s2 xs2 W1 L2 H2) as [W2 T2]. split; auto.
    rewrite T2, T1. auto.
Qed.

Lemma new_lp b : lp (glop_new (E := E) b) = lp_new.
Proof. unfold glop_new, SetLpParameters. destruct (negb _); auto. Qed.

Lemma history_reads b l s xs : legal_run t_new l -> grun (glop_new (E := E) b) l = Ok (s, xs) ->
  reads_table (lp s) (table_run t_new l).
Proof.
  intros L H. assert (T0 : table_of lp_new = t_new) by auto.
  assert (W0 : wf lp_new) by constructor.
  destruct (run_reads l (glop_new b) s xs) as [W T]; rewrite ?new_lp, ?T0; auto.
  rewrite new_lp, T0 in T. rewrite <- T. apply wf_reads. auto.
Qed.

(** ** Definedness *)
Hypothesis LW : engine_laws E.

Lemma scaling_setup s : w_params E (solver (if modified s
               then let p := lp_slacks E (lp s) in
                    let '(p, sc) := if use_scaling (w_params E (solver s))
                                    then sc_scale E p else (p, sc_new E) in
                    mkG (lp s) p (solver s) sc (scratch s) (modified s) (time_reached s) (iterations s) (usertime s)
               else s)) = w_params E (solver s).
Proof.
  destruct (modified s); auto. cbn zeta. destruct (use_scaling _); auto.
  destruct (sc_scale E (lp_slacks E (lp s))); auto.
Qed.

Lemma SolveInternal_params fuel : forall rec s t s' ok,
  SolveInternal fuel rec s t = Ok (s', ok) -> ok = true ->
  w_params E (solver s') = w_params E (solver s).
Proof.
  induction fuel as [|fuel IH]; intros rec s t s' ok H Hok; [discriminate|].
  cbn [SolveInternal] in H. pose proof (scaling_setup s) as L1.
  set (s1 := if modified s then _ else s) in H, L1.
  set (s2 := if rec then s1 else _) in H.
  assert (L2 : w_params E (solver s2) = w_params E (solver s)) by (subst s2; destruct rec; auto).
  clearbody s1. clear L1. clearbody s2. clear s1.
  set (s3 := if scratch s2 then _ else s2) in H.
  assert (L3 : w_params E (solver s3) = w_params E (solver s)).
  { subst s3; destruct (scratch s2); auto. cbn. rewrite (el_clear E LW). auto. }
  clearbody s3. clear L2 s2.
  pose proof (el_solve E LW (solver s3) t (scaled_lp s3)) as P.
  destruct (w_solve E (solver s3) t (scaled_lp s3)) as [[ok1 t1] w1]. cbn [snd] in P.
  destruct ok1; cbn [negb] in H; [|injection H as <- <-; discriminate].
  destruct (_ && _ && _) eqn:B in H.
  - apply bind_ok in H as ([s4 ok4] & E4 & H). apply IH in E4; [|destruct ok4; cbn in H; injection H as <- <-; auto; discriminate].
    destruct ok4; cbn in H; injection H as <- <-; [|discriminate]. cbn.
    rewrite (el_set E LW). rewrite <- L3, <- P.
    assert (U : use_scaling (w_params E w1) = true) by lia.
    clear - U. destruct (w_params E w1); cbn in *. subst. auto.
  - injection H as <- <-. cbn. congruence.
Qed.

Lemma SolveInternal_unscaled fuel rec s t : use_scaling (w_params E (solver s)) = false ->
  exists s' ok, SolveInternal (S fuel) rec s t = Ok (s', ok).
Proof.
  intros U. cbn [SolveInternal]. pose proof (scaling_setup s) as L1.
  set (s1 := if modified s then _ else s) in *. clearbody s1.
  set (s2 := if rec then s1 else _).
  assert (L2 : w_params E (solver s2) = w_params E (solver s)) by (subst s2; destruct rec; auto).
  clearbody s2. clear s1 L1.
  set (s3 := if scratch s2 then _ else s2).
  assert (L3 : w_params E (solver s3) = w_params E (solver s)).
  { subst s3; destruct (scratch s2); auto. cbn. rewrite (el_clear E LW). auto. }
  clearbody s3. clear L2 s2.
  pose proof (el_solve E LW (solver s3) t (scaled_lp s3)) as P.
  destruct (w_solve E (solver s3) t (scaled_lp s3)) as [[ok1 t1] w1]. cbn [snd] in P.
  destruct ok1; cbn [negb]; eauto.
  assert (UW : use_scaling (w_params E w1) = false) by (rewrite P, L3; auto).
  cbn [solver with_solver]. rewrite UW, andb_false_r. cbn [andb]. eauto.
Qed.

Lemma SolveInternal_defined rec s t : exists s' ok, SolveInternal 2 rec s t = Ok (s', ok).
Proof.
  assert (X : forall one, (forall s t, use_scaling (w_params E (solver s)) = false ->
      exists s' ok, SolveInternal one true s t = Ok (s', ok)) ->
    exists s' ok, SolveInternal (S one) rec s t = Ok (s', ok)).
  { intros one U. cbn [SolveInternal].
    set (s1 := if modified s then _ else s). clearbody s1.
    set (s2 := if rec then s1 else _). clearbody s2. clear s1.
    set (s3 := if scratch s2 then _ else s2). clearbody s3. clear s2.
    destruct (w_solve E (solver s3) t (scaled_lp s3)) as [[ok1 t1] w1].
    destruct ok1; cbn [negb]; eauto.
    destruct (_ && _ && _); eauto.
    match goal with |- context [SolveInternal one true ?s _] => destruct (U s t1) as (s4 & ok4 & E4) end.
    { cbn. rewrite (el_set E LW). auto. }
    rewrite E4. cbn [bind]. destruct ok4; cbn [negb]; eauto. }
  apply (X 1%nat). intros s0 t0 U. exact (SolveInternal_unscaled 0 true s0 t0 U).
Qed.

Lemma step_defined s c : wf (lp s) -> legal (table_of (lp s)) c -> safe (table_of (lp s)) c ->
  exists s' x, gstep s c = Ok (s', x).
Proof.
  intros W L Sf. assert (D : edit_call c \/ ~ edit_call c) by (destruct c; cbn; auto).
  destruct D as [D|D].
  - destruct (edit_step s c W L D) as (s1 & x1 & E1 & _). eauto.
  - destruct c; cbn [edit_call] in D; try tauto; cbn [gstep safe] in *; try tauto.
    + unfold SolveLp. match goal with |- context [SolveInternal 2 false ?s ?t] =>
        destruct (SolveInternal_defined false s t) as (s1 & ok & E1) end.
      rewrite E1. cbn [bind]. unfold status. eauto.
    + cbn in Sf. rewrite !map_length in Sf. destruct Sf as [S1 S2].
      unfold SetBasisStatusForColumnsAndRows.
      destruct (convert_loop_ok ConvertMiniMIPVariableStatus (length (g_cols (lp s))) 0 cs) as [a ->]; try lia.
      cbn [bind].
      destruct (convert_loop_ok ConvertMiniMIPConstraintStatusToSlackStatus (length (g_rows (lp s))) 0 rs) as [b ->]; try lia.
      cbn [bind]. eauto.
Qed.

Lemma run_defined l : forall s, wf (lp s) -> legal_run (table_of (lp s)) l -> safe_run (table_of (lp s)) l ->
  exists s' xs, grun s l = Ok (s', xs).
Proof.
  induction l as [|c l IH]; intros s W L Sf; cbn [grun]; eauto.
  destruct L as [L1 L2], Sf as [S1 S2].
  destruct (step_defined s c W L1 S1) as (s1 & x & E1). rewrite E1. cbn [bind].
  destruct (step_reads s c s1 x W L1 E1) as [W1 T1]. rewrite <- T1 in L2, S2.
  destruct (IH s1 W1 L2 S2) as (s2 & xs & E2). rewrite E2. cbn [bind]. eauto.
Qed.

Lemma history_defined b l : legal_run t_new l -> safe_run t_new l ->
  exists s xs, grun (glop_new (E := E) b) l = Ok (s, xs).
Proof.
  intros L Sf. apply run_defined; rewrite ?new_lp; auto. constructor.
Qed.
End History.
