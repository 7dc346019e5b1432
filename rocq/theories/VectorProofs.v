(** Lemmas behind the vector properties. *)
From Coq Require Import List ZArith Lia Bool Sorted.
From Verif Require Import Outcome Num Double DoubleFacts DoubleExact SparseVector SparseVectorFacts VectorSpec.
Import ListNotations.
Open Scope Z_scope.

Section Proofs.
Context {N : Num}.
Hypothesis Hnum : num_ok N.
Implicit Types (l : list (entry N)) (v w : svec N).

Lemma find_rev_last l i :
  find_last l i = option_map val (find (fun e => idx e =? i) (rev l)).
Proof.
  induction l as [|e r IH] using rev_ind; cbn; auto.
  rewrite rev_app_distr. cbn. rewrite find_last_app. cbn.
  destruct (idx e =? i); auto.
Qed.

Lemma entries_map_spec l i : entries_map l i = nz (find_last l i).
Proof.
  unfold entries_map. rewrite find_rev_last.
  destruct (find (fun e => idx e =? i) (rev l)); auto.
Qed.

Lemma entries_map_canonical l i : canonical l -> entries_map l i = find_first l i.
Proof.
  intros [Hs Hn]. rewrite entries_map_spec, sorted_find by exact Hs.
  destruct (find_first l i) eqn:E; auto. cbn. rewrite (nonzero_find _ _ _ Hn E). auto.
Qed.

Lemma store_nz (x : N) : store x = nz (Some x).
Proof. reflexivity. Qed.

Definition rep v (m : pmap N) : Prop :=
  vinv v /\ canon v /\ forall i, content v i = m i.

Lemma rep_step v v' m o : rep v m -> no_underflow_step m o -> vstep v o = Ok v' ->
  rep v' (map_step m o).
Proof.
  intros (Hi & Hc & Hm) Hu Hs. destruct o as [i x| | |l|f| |s|s|f w]; cbn in Hs.
  - inversion Hs; subst; clear Hs. split; [apply AddEntry_inv; auto|].
    split; [apply AddEntry_canon; auto|]. intros j.
    rewrite AddEntry_content by auto. cbn. rewrite (Z.eqb_sym j i).
    destruct (i =? j); auto.
  - inversion Hs; subst. split; [|split]; cbn; try (intros _; constructor); auto.
  - inversion Hs; subst.
    destruct (CleanUp_ok v Hi) as (D & Hso & Hf). split; [|split].
    + intros _; auto.
    + intros _; apply CleanUp_nonzero; auto.
    + intros i. unfold content. rewrite D, Hf. apply Hm.
  - inversion Hs; subst. split; [|split]; try (intros C; discriminate).
    intros i. unfold content, mutate; cbn. rewrite entries_map_spec. auto.
  - destruct (dirty v) eqn:D; inversion Hs; subst; clear Hs.
    destruct (Transform_ok f v Hi D) as (H1 & H2 & H3). split; [|split].
    + intros _; auto.
    + intros _; auto.
    + intros i. unfold content. cbn [dirty Transform map_step]. rewrite D, H3.
      specialize (Hm i). unfold content in Hm. rewrite D in Hm. rewrite Hm. auto.
  - destruct (dirty v) eqn:D; inversion Hs; subst; clear Hs.
    split; [|split].
    + intros _. apply map_sorted; auto.
    + intros _. unfold nonzero, Negate; cbn. apply Forall_map.
      eapply Forall_impl; [|exact (Hc D)]. cbn. intros e He.
      rewrite (proj2 Hnum). auto.
    + intros i. unfold content. cbn [dirty Negate ents map_step]. rewrite D.
      rewrite (map_find (fun _ x => nopp x)).
      specialize (Hm i). unfold content in Hm. rewrite D in Hm. rewrite Hm.
      destruct (m i); auto.
  - destruct (dirty v) eqn:D; inversion Hs; subst; clear Hs.
    unfold Scale. destruct (is0 s) eqn:S0.
    + split; [|split]; try (intros _; constructor).
      intros i. unfold content. cbn. rewrite D, S0. auto.
    + cbn in Hu. specialize (Hu S0). split; [|split].
      * intros _. apply map_sorted; auto.
      * intros _. unfold nonzero; cbn. apply Forall_map. apply Forall_forall.
        intros e He. cbn. apply (Hu (idx e)). rewrite <- Hm. unfold content. rewrite D.
        apply find_first_in; auto.
      * intros i. unfold content. cbn [dirty ents map_step]. rewrite D, S0.
        rewrite (map_find (fun _ x => nmul x s)).
        specialize (Hm i). unfold content in Hm. rewrite D in Hm. rewrite Hm.
        destruct (m i); auto.
  - destruct (dirty v) eqn:D; inversion Hs; subst; clear Hs. cbn in Hu.
    unfold Unscale. split; [|split].
      * intros _. apply map_sorted; auto.
      * intros _. unfold nonzero; cbn. apply Forall_map. apply Forall_forall.
        intros e He. cbn. apply (Hu (idx e)). rewrite <- Hm. unfold content. rewrite D.
        apply find_first_in; auto.
      * intros i. unfold content. cbn [dirty ents map_step]. rewrite D.
        rewrite (map_find (fun _ x => ndiv x s)).
        specialize (Hm i). unfold content in Hm. rewrite D in Hm. rewrite Hm.
        destruct (m i); auto.
  - cbn in Hu.
    assert (Dv : dirty v = false).
    { unfold AddMultiple in Hs. destruct (dirty v); auto; discriminate. }
    destruct (AddMultiple_ok Hnum v f w v' Hi (fun _ => proj1 Hu) Hs) as (D & H1 & H2 & H3).
    split; [intros _; auto|]. split; [intros _; auto|].
    intros i. unfold content. rewrite D, H3. cbn [map_step].
    rewrite entries_map_canonical by auto.
    specialize (Hm i). unfold content in Hm. rewrite Dv in Hm. rewrite Hm.
    destruct (m i) as [x|] eqn:Em; cbn; destruct (find_first (ents w) i); auto.
    rewrite (nonzero_find (ents v) i x (Hc Dv) Hm). auto.
Qed.

Lemma rep_run ops : forall v v' m, rep v m -> no_underflow m ops ->
  foldM vstep v ops = Ok v' -> rep v' (fold_left map_step ops m).
Proof.
  induction ops as [|o r IH]; cbn; intros v v' m Hr Hu Hs.
  - inversion Hs; subst; auto.
  - destruct (vstep v o) as [v1| | | |] eqn:E; try discriminate.
    destruct Hu as [Hu1 Hu2]. eapply IH; [|exact Hu2|exact Hs].
    eapply rep_step; eauto.
Qed.

Lemma rep_empty : rep vempty (fun _ => None).
Proof. split; [|split]; try (intros _; constructor); auto. Qed.

Lemma full_history ops v : no_underflow (fun _ => None) ops -> vrun vempty ops = Ok v ->
  (forall i, value (CleanUp v) i = read (replay ops) i) /\
  canonical (ents (CleanUp v)) /\ (dirty v = false -> canonical (ents v)).
Proof.
  intros Hu Hs. destruct (rep_run ops _ _ _ rep_empty Hu Hs) as (Hi & Hc & Hm).
  split; [|split].
  - intros i. rewrite content_clean by auto. rewrite Hm. reflexivity.
  - split; [apply CleanUp_ok; auto|apply CleanUp_nonzero; auto].
  - intros D. split; [apply Hi; auto|apply Hc; auto].
Qed.

Lemma defined_step v o : write_op o -> exists v', vstep v o = Ok v'.
Proof. destruct o; cbn; intros H; try tauto; eauto. Qed.

Lemma log_replay ops : Forall write_op ops -> forall (log : list (Z * N)) (m : pmap N),
  (forall i, m i = match find (fun p => fst p =? i) (rev log) with
                   | Some (_, x) => store x | None => None end) ->
  forall i, read (fold_left map_step ops m) i = drop0 (last_written (fold_left log_step ops log) i).
Proof.
  induction 1 as [|o r Ho Hr IH]; intros log m Hm i.
  - cbn. unfold read, last_written. rewrite Hm.
    destruct (find _ (rev log)) as [[j x]|]; unfold store, drop0.
    + destruct (is0 x); auto.
    + rewrite (proj1 Hnum). auto.
  - cbn [fold_left]. apply IH. intros j.
    destruct o as [k x| | |l|f| |s|s|f w]; cbn in Ho; try contradiction; cbn [map_step log_step].
    + rewrite rev_app_distr. cbn. rewrite Hm, (Z.eqb_sym k j).
      destruct (j =? k); auto.
    + reflexivity.
    + apply Hm.
    + unfold entries_map. rewrite <- map_rev.
      induction (rev l) as [|e q IHq]; cbn; auto. destruct (idx e =? j); auto.
Qed.

Lemma write_no_underflow ops (m : pmap N) : Forall write_op ops -> no_underflow m ops.
Proof.
  intros H. revert m. induction H as [|o r Ho Hr IH]; intros m; cbn; auto.
  split; auto. destruct o; cbn in *; tauto.
Qed.

Lemma write_history ops : Forall write_op ops ->
  exists v, vrun vempty ops = Ok v /\
  forall i, value (CleanUp v) i = drop0 (last_written (write_log ops) i).
Proof.
  intros Hw.
  assert (E : forall v, exists v', foldM vstep v ops = Ok v').
  { clear - Hw. induction Hw as [|o r Ho Hr IH]; intros v; cbn; eauto.
    destruct (defined_step v o Ho) as [v1 ->]. cbn. auto. }
  destruct (E vempty) as [v Hv]. exists v. split; auto. intros i.
  destruct (full_history ops v (write_no_underflow ops _ Hw) Hv) as [H _].
  rewrite H. unfold replay, write_log. apply log_replay; auto.
Qed.

(** Uniqueness of canonical entries. *)
Lemma canonical_value l i d : canonical l -> value (mkV l d) i = or0 (find_first l i).
Proof. intros [Hs _]. rewrite value_find by exact Hs. auto. Qed.

Lemma canonical_unique l1 : forall l2, canonical l1 -> canonical l2 ->
  (forall i, value (mkV l1 false) i = value (mkV l2 false) i) -> l1 = l2.
Proof.
  intros l2 C1 C2 H.
  assert (F : forall i, find_first l1 i = find_first l2 i).
  { intros i. specialize (H i). rewrite !canonical_value in H by auto.
    destruct (find_first l1 i) eqn:E1, (find_first l2 i) eqn:E2; cbn in H; auto.
    - congruence.
    - pose proof (nonzero_find _ _ _ (proj2 C1) E1). rewrite H, (proj1 Hnum) in *. discriminate.
    - pose proof (nonzero_find _ _ _ (proj2 C2) E2). rewrite <- H, (proj1 Hnum) in *. discriminate. }
  destruct C1 as [S1 _], C2 as [S2 _]. clear H. revert l2 S2 F.
  induction S1 as [|a r1 Hr1 IH Ha]; intros l2 S2 F.
  - destruct l2 as [|b r2]; auto. specialize (F (idx b)). cbn in F.
    rewrite Z.eqb_refl in F. discriminate.
  - destruct l2 as [|b r2].
    + specialize (F (idx a)). cbn in F. rewrite Z.eqb_refl in F. discriminate.
    + inversion S2 as [|? ? S3 Hb]; subst. rewrite Forall_forall in Ha, Hb.
      assert (idx a = idx b).
      { destruct (Z.lt_trichotomy (idx a) (idx b)) as [L|[L|L]]; auto; exfalso.
        - pose proof (F (idx a)) as Fa. cbn in Fa. rewrite Z.eqb_refl in Fa.
          destruct (Z.eqb_spec (idx b) (idx a)); [lia|].
          symmetry in Fa. apply find_first_some in Fa as (e & He & Ee & _).
          specialize (Hb e He). lia.
        - pose proof (F (idx b)) as Fb. cbn in Fb. rewrite Z.eqb_refl in Fb.
          destruct (Z.eqb_spec (idx a) (idx b)); [lia|].
          apply find_first_some in Fb as (e & He & Ee & _).
          specialize (Ha e He). lia. }
      assert (val a = val b).
      { specialize (F (idx a)). cbn in F. rewrite H, Z.eqb_refl in F. congruence. }
      f_equal; [destruct a, b; cbn in *; congruence|].
      apply IH; auto. intros i. specialize (F i). cbn in F. rewrite H in F.
      destruct (Z.eqb_spec (idx b) i) as [E|E]; auto.
      rewrite !find_first_none; auto; intros e He.
      * specialize (Hb e He). lia.
      * specialize (Ha e He). lia.
Qed.

(** Pointwise update. *)
Lemma holds_find v i : canonical (ents v) ->
  (holds v i -> find_first (ents v) i = Some (value v i)) /\
  (~ holds v i -> find_first (ents v) i = None /\ value v i = n0).
Proof.
  intros [Hs Hn]. rewrite value_find by exact Hs. split.
  - intros (e & He & <-). rewrite (find_first_in (ents v) e) by auto. auto.
  - intros H. rewrite find_first_none; auto. intros e He E. apply H. exists e; auto.
Qed.

Lemma AddMultiple_pointwise v f w :
  dirty v = false -> dirty w = false -> canonical (ents v) -> canonical (ents w) ->
  nonneg_indices (ents v) -> nonneg_indices (ents w) ->
  exists r, AddMultiple v f w = Ok r /\ dirty r = false /\ canonical (ents r) /\
    nonneg_indices (ents r) /\
    forall i,
      (holds v i -> holds w i -> value r i = drop0 (nadd (value v i) (nmul (value w i) f))) /\
      (~ holds v i -> holds w i -> value r i = drop0 (nmul (value w i) f)) /\
      (holds v i -> ~ holds w i -> value r i = value v i) /\
      (~ holds v i -> ~ holds w i -> value r i = n0 /\ ~ holds r i).
Proof.
  intros Dv Dw Cv Cw Nv Nw.
  destruct (AddMultiple_defined v f w Dv Dw Nv Nw) as [r Hr].
  destruct (AddMultiple_ok Hnum v f w r (fun _ => proj1 Cv) (fun _ => proj1 Cw) Hr)
    as (Dr & Sr & Zr & Fr).
  exists r. split; auto. split; auto. split; [split; auto|]. split.
  { apply Forall_forall. intros e He.
    pose proof (find_first_in _ _ Sr He) as F. rewrite Fr in F.
    unfold nonneg_indices in *. rewrite Forall_forall in Nv, Nw.
    destruct (find_first (ents v) (idx e)) eqn:E1.
    - apply find_first_some in E1 as (e' & He' & <- & _). auto.
    - destruct (find_first (ents w) (idx e)) eqn:E2; [|discriminate].
      apply find_first_some in E2 as (e' & He' & <- & _). auto. }
  intros i. rewrite value_find by auto. rewrite Fr.
  pose proof (holds_find v i Cv) as [Hv1 Hv2]. pose proof (holds_find w i Cw) as [Hw1 Hw2].
  repeat split.
  - intros A B. rewrite (Hv1 A), (Hw1 B). cbn. unfold drop0. destruct (is0 _); auto.
  - intros A B. destruct (Hv2 A) as [-> _]. rewrite (Hw1 B). cbn. unfold drop0. destruct (is0 _); auto.
  - intros A B. destruct (Hw2 B) as [-> _]. rewrite (Hv1 A). cbn.
    rewrite (nonzero_find _ _ _ (proj2 Cv) (Hv1 A)). auto.
  - intros. destruct (Hv2 H) as [-> _], (Hw2 H0) as [-> _]. auto.
  - intros (e & He & Ei). pose proof (find_first_in _ _ Sr He) as F. rewrite Ei, Fr in F.
    destruct (Hv2 H) as [E1 _], (Hw2 H0) as [E2 _]. rewrite E1, E2 in F. discriminate.
Qed.

(** Dot product. *)
Lemma holdsb_find v i : holdsb v i = match find_first (ents v) i with Some _ => true | None => false end.
Proof.
  unfold holdsb. induction (ents v) as [|e r IH]; cbn; auto.
  destruct (idx e =? i); auto.
Qed.

Lemma DotProduct_spec v w : canonical (ents v) -> canonical (ents w) ->
  DotProduct v w = sum_products v w (filter (holdsb w) (map idx (ents v))).
Proof.
  intros Cv Cw. unfold DotProduct. rewrite dot_loop_spec by (apply Cv || apply Cw).
  unfold sum_products.
  assert (G : forall l acc, (forall e, In e l -> In e (ents v)) ->
    fold_left (dot_step (ents w)) l acc =
    fold_left (fun acc i => nadd acc (nmul (value v i) (value w i)))
      (filter (holdsb w) (map idx l)) acc).
  { induction l as [|e r IH]; intros acc Hl; cbn; auto.
    rewrite IH by (intros; apply Hl; cbn; auto).
    rewrite holdsb_find. unfold dot_step.
    destruct (find_first (ents w) (idx e)) eqn:E; cbn; auto.
    rewrite (value_find v), (value_find w) by (apply Cv || apply Cw).
    rewrite (find_first_in (ents v) e) by (try apply Cv; apply Hl; cbn; auto).
    rewrite E. auto. }
  apply G. auto.
Qed.

Lemma sorted_incl_filter (l1 l2 : list Z) :
  StronglySorted Z.lt l1 -> StronglySorted Z.lt l2 ->
  filter (fun i => existsb (Z.eqb i) l2) l1 = filter (fun i => existsb (Z.eqb i) l1) l2.
Proof.
  assert (U : forall a b : list Z, StronglySorted Z.lt a -> StronglySorted Z.lt b ->
     (forall x, In x a <-> In x b) -> a = b).
  { intros a b Ha. revert b. induction Ha as [|x a Ha IH Hx]; intros b Hb H.
    - destruct b as [|y b]; auto. exfalso. apply (H y). cbn; auto.
    - destruct Hb as [|y b Hb Hy]; [exfalso; apply (H x); cbn; auto|].
      rewrite Forall_forall in Hx, Hy.
      assert (x = y).
      { assert (In x (y :: b)) by (apply H; cbn; auto).
        assert (In y (x :: a)) by (apply H; cbn; auto).
        cbn in *. destruct H0 as [|H0]; auto. destruct H1 as [|H1]; auto.
        specialize (Hy x H0). specialize (Hx y H1). lia. }
      subst y. f_equal. apply IH; auto. intros z. split; intros Hz.
      + assert (In z (x :: b)) by (apply H; cbn; auto). destruct H0 as [<-|]; auto.
        specialize (Hx x Hz). lia.
      + assert (In z (x :: a)) by (apply H; cbn; auto). destruct H0 as [<-|]; auto.
        specialize (Hy x Hz). lia. }
  assert (FS : forall f (l : list Z), StronglySorted Z.lt l -> StronglySorted Z.lt (filter f l)).
  { intros f. induction 1 as [|x l Hl IH Hx]; cbn; [constructor|].
    destruct (f x); auto. constructor; auto. apply Forall_forall. intros y Hy.
    apply filter_In in Hy as [Hy _]. rewrite Forall_forall in Hx. auto. }
  intros H1 H2. apply U; auto. intros x. rewrite !filter_In.
  assert (EX : forall l : list Z, existsb (Z.eqb x) l = true <-> In x l).
  { intros l. rewrite existsb_exists. split.
    - intros (y & Hy & E). apply Z.eqb_eq in E. subst; auto.
    - intros Hx. exists x. rewrite Z.eqb_refl. auto. }
  rewrite !EX. tauto.
Qed.

Lemma map_idx_sorted l : StronglySorted (fun a b => idx a < idx b) l -> StronglySorted Z.lt (map idx l).
Proof.
  induction 1 as [|e r Hr IH He]; cbn; constructor; auto. apply Forall_map. exact He.
Qed.

Lemma DotProduct_sym v w : (forall x y : N, nmul x y = nmul y x) ->
  canonical (ents v) -> canonical (ents w) -> DotProduct v w = DotProduct w v.
Proof.
  intros Hc Cv Cw. rewrite !DotProduct_spec by auto.
  assert (HB : forall (u : svec N) i, holdsb u i = existsb (Z.eqb i) (map idx (ents u))).
  { intros u i. unfold holdsb. induction (ents u) as [|e r IH]; cbn; auto.
    rewrite IH, Z.eqb_sym. auto. }
  rewrite (filter_ext _ _ (HB w)), (filter_ext _ _ (HB v)).
  rewrite (sorted_incl_filter (map idx (ents v)) (map idx (ents w)))
    by (apply map_idx_sorted; apply Cv || apply Cw).
  unfold sum_products. generalize (@n0 N).
  induction (filter (fun i => existsb (Z.eqb i) (map idx (ents v))) (map idx (ents w)))
    as [|i r IH]; cbn; auto. intros acc. rewrite Hc. apply IH.
Qed.

(** Pointwise transformations. *)
Lemma transform_pointwise f v : dirty v = false -> canonical (ents v) ->
  let r := Transform f v in
  dirty r = false /\ canonical (ents r) /\
  (forall i, holds v i -> value r i = drop0 (f i (value v i))) /\
  (forall i, ~ holds v i -> value r i = n0) /\
  (forall i, holds r i <-> holds v i /\ is0 (f i (value v i)) = false).
Proof.
  intros D C r. destruct (Transform_ok f v (fun _ => proj1 C) D) as (H1 & H2 & H3).
  fold r in H1, H2, H3.
  assert (Cr : canonical (ents r)) by (split; auto).
  split; auto. split; auto.
  pose proof (fun i => holds_find v i C) as Hv. pose proof (fun i => holds_find r i Cr) as Hr.
  split; [|split].
  - intros i Hi. rewrite value_find by auto. rewrite H3.
    rewrite (proj1 (Hv i) Hi). cbn. unfold drop0. destruct (is0 _); auto.
  - intros i Hi. rewrite value_find by auto. rewrite H3.
    destruct (proj2 (Hv i) Hi) as [-> _]. auto.
  - intros i. assert (HH : forall u : svec N, canonical (ents u) -> (holds u i <-> find_first (ents u) i <> None)).
    { intros u [Hs _]. split.
      - intros (e & He & <-). rewrite (find_first_in _ e Hs He). discriminate.
      - intros Hn. destruct (find_first (ents u) i) eqn:E; [|tauto].
        apply find_first_some in E as (e & He & Ei & _). exists e; auto. }
    rewrite (HH r Cr), (HH v C), H3.
    split.
    + destruct (find_first (ents v) i) eqn:E; [|tauto]. intros Hn. split; [discriminate|].
      rewrite (value_find v) by apply C. rewrite E. cbn in *. destruct (is0 (f i n)); tauto.
    + intros [Hn Hz]. rewrite (value_find v) in Hz by apply C.
      destruct (find_first (ents v) i); [|tauto]. cbn in *. rewrite Hz. discriminate.
Qed.

Lemma map_pointwise (g : N -> N) v : canonical (ents v) ->
  let r := mkV (map (fun e => mkE (idx e) (g (val e))) (ents v)) (dirty v) in
  map idx (ents r) = map idx (ents v) /\
  (forall i, holds v i -> value r i = g (value v i)) /\
  (forall i, ~ holds v i -> value r i = n0).
Proof.
  intros C r. assert (Sr : sorted (ents r)) by (apply map_sorted; auto; apply C).
  pose proof (fun i => holds_find v i C) as Hv.
  split; [|split].
  - cbn. rewrite map_map. auto.
  - intros i Hi. rewrite value_find by auto. cbn. rewrite (map_find (fun _ => g)).
    rewrite (proj1 (Hv i) Hi). auto.
  - intros i Hi. rewrite value_find by auto. cbn. rewrite (map_find (fun _ => g)).
    destruct (proj2 (Hv i) Hi) as [-> _]. auto.
Qed.

Lemma canonical_history (ops : list (vop N)) v :
  no_underflow (fun _ => None) ops -> vrun vempty ops = Ok v ->
  (MayNeedCleaning v = false -> canonical (ents v)) /\
  MayNeedCleaning (CleanUp v) = false /\ canonical (ents (CleanUp v)).
Proof.
  intros H1 H2. destruct (full_history ops v H1 H2) as (_ & A & B).
  split; [exact B|]. split; [|exact A].
  unfold MayNeedCleaning, CleanUp. destruct (dirty v) eqn:D; auto.
Qed.

(** Constructors. *)
Lemma from_entries l :
  let v := of_entries l in
  dirty v = false /\ canonical (ents v) /\
  forall i, value v i = drop0 (last_written (map (fun e => (idx e, val e)) l) i).
Proof.
  cbn zeta. unfold of_entries.
  assert (Hi : vinv (mkV l true)) by (intros C; discriminate).
  assert (Hc : canon (mkV l true)) by (intros C; discriminate).
  destruct (CleanUp_ok _ Hi) as (D & Hs & _). split; [exact D|].
  split; [split; [exact Hs|apply CleanUp_nonzero; exact Hc]|].
  intros i. rewrite content_clean by exact Hi. unfold content. cbn [dirty ents].
  rewrite find_rev_last. unfold last_written. rewrite <- map_rev.
  assert (G : find (fun p : Z * N => fst p =? i) (map (fun e => (idx e, val e)) (rev l)) =
    option_map (fun e => (idx e, val e)) (find (fun e => idx e =? i) (rev l))).
  { induction (rev l) as [|e r IH]; cbn; auto. destruct (idx e =? i); auto. }
  rewrite G. destruct (find _ (rev l)) as [e|]; cbn; unfold drop0.
  - destruct (is0 (val e)); auto.
  - rewrite (proj1 Hnum). auto.
Qed.

Lemma dense_ok (l : list N) : forall k,
  canonical (dense_entries k l) /\ Forall (fun e => k <= idx e) (dense_entries k l) /\
  forall i, find_first (dense_entries k l) i =
    if i <? k then None else nz (nth_error l (Z.to_nat (i - k))).
Proof.
  induction l as [|x r IH]; intros k; cbn [dense_entries].
  - split; [split; constructor|]. split; [constructor|]. intros i. cbn.
    destruct (i <? k); auto. destruct (Z.to_nat (i - k)); auto.
  - destruct (IH (k + 1)) as ([H1 H2] & H3 & H4).
    assert (G : forall i, i <> k ->
      (if i <? k + 1 then None else nz (nth_error r (Z.to_nat (i - (k + 1))))) =
      if i <? k then None else nz (nth_error (x :: r) (Z.to_nat (i - k)))).
    { intros i Hi. destruct (Z.ltb_spec i (k + 1)), (Z.ltb_spec i k); try lia; auto.
      replace (Z.to_nat (i - k)) with (S (Z.to_nat (i - (k + 1)))) by lia. auto. }
    destruct (is0 x) eqn:Z0.
    + split; [split; auto|]. split; [eapply Forall_impl; [|exact H3]; cbn; intros; lia|].
      intros i. rewrite H4. destruct (Z.eq_dec i k) as [->|Hi]; [|apply G; auto].
      rewrite Z.ltb_irrefl, Z.sub_diag. cbn. rewrite Z0.
      destruct (Z.ltb_spec k (k + 1)); [auto|lia].
    + split; [split; constructor; auto; eapply Forall_impl; [|exact H3]; cbn; intros; lia|].
      split; [constructor; [cbn; lia|]; eapply Forall_impl; [|exact H3]; cbn; intros; lia|].
      intros i. cbn [find_first idx]. destruct (Z.eqb_spec k i) as [->|Hi].
      * rewrite Z.ltb_irrefl, Z.sub_diag. cbn. rewrite Z0. auto.
      * rewrite H4. apply G. auto.
Qed.

Lemma from_dense (l : list N) :
  let v := of_dense l in
  dirty v = false /\ canonical (ents v) /\ nonneg_indices (ents v) /\
  (forall k x, nth_error l k = Some x -> value v (Z.of_nat k) = drop0 x) /\
  (forall i, i < 0 \/ Z.of_nat (length l) <= i -> value v i = n0).
Proof.
  cbn zeta. destruct (dense_ok l 0) as (C & F & G).
  split; [reflexivity|]. split; [exact C|]. split; [exact F|].
  assert (V : forall i, value (of_dense l) i = or0 (find_first (dense_entries 0 l) i)).
  { intros i. apply (value_find (of_dense l)). apply C. }
  split.
  - intros k x Hk. rewrite V, G. destruct (Z.ltb_spec (Z.of_nat k) 0); [lia|].
    rewrite Z.sub_0_r, Nat2Z.id, Hk. cbn. unfold drop0. destruct (is0 x); auto.
  - intros i Hi. rewrite V, G. destruct (Z.ltb_spec i 0); auto.
    rewrite Z.sub_0_r. rewrite (proj2 (nth_error_None l (Z.to_nat i))) by lia. auto.
Qed.

(** IsClean, first and last index. *)
Lemma strictly_sorted_spec l : strictly_sorted l = true <-> sorted l.
Proof.
  induction l as [|e r IH]; [split; constructor|]. destruct r as [|e' r'].
  - split; [repeat constructor|reflexivity].
  - cbn [strictly_sorted] in *. rewrite andb_true_iff, IH, Z.ltb_lt. split.
    + intros [H1 H2]. constructor; auto. inversion H2 as [|? ? H3 H4]; subst.
      constructor; [exact H1|]. eapply Forall_impl; [|exact H4].
      unfold lt_e. intros; lia.
    + intros H. inversion H as [|? ? H1 H2]; subst. inversion H2; subst. auto.
Qed.

Lemma is_clean_spec v : IsClean v = true <-> canonical (ents v) /\ nonneg_indices (ents v).
Proof.
  unfold IsClean, canonical, nonneg_indices. rewrite andb_true_iff, strictly_sorted_spec.
  rewrite forallb_forall, !Forall_forall. split.
  - intros [H1 H2]. split; [split; auto|]; intros e He; specialize (H2 e He);
      apply andb_true_iff in H2 as [A B].
    + apply negb_true_iff in A. auto.
    + apply Z.leb_le in B. auto.
  - intros [[H1 H2] H3]. split; auto. intros e He. rewrite (H2 e He). cbn.
    apply Z.leb_le. auto.
Qed.

Lemma first_last_spec v : canonical (ents v) ->
  (ents v = [] -> first_index v = -1 /\ last_index v = -1) /\
  (ents v <> [] -> holds v (first_index v) /\ holds v (last_index v) /\
     forall i, holds v i -> first_index v <= i <= last_index v).
Proof.
  intros [Hs _]. split.
  - intros E. unfold first_index, last_index. rewrite E. auto.
  - intros E. split; [|split].
    + unfold first_index, holds. destruct (ents v) as [|e r]; [tauto|]. exists e. cbn; auto.
    + unfold last_index, holds. destruct (rev (ents v)) as [|e r] eqn:R.
      * apply (f_equal (@rev _)) in R. rewrite rev_involutive in R. tauto.
      * exists e. split; auto. apply in_rev. rewrite R. cbn; auto.
    + intros i (e & He & <-). split; [|apply last_index_spec; auto].
      unfold first_index. destruct (ents v) as [|a r]; [destruct He|].
      destruct He as [->|He]; [lia|]. inversion Hs as [|? ? H1 H2]; subst.
      rewrite Forall_forall in H2. specialize (H2 e He). unfold lt_e in H2. lia.
Qed.

End Proofs.

Lemma negate_scale_pointwise (v : svec num_double) : canonical (ents v) ->
  (map idx (ents (Negate v)) = map idx (ents v) /\
   (forall i, holds v i -> value (Negate v) i = dopp (value v i)) /\
   (forall i, ~ holds v i -> value (Negate v) i = d0)) /\
  (forall s : num_double, deqb s d0 = false ->
   map idx (ents (Scale v s)) = map idx (ents v) /\
   (forall i, holds v i -> value (Scale v s) i = dmul (value v i) s) /\
   (forall i, ~ holds v i -> value (Scale v s) i = d0)) /\
  (forall s : num_double, deqb s d0 = true -> forall i, value (Scale v s) i = d0) /\
  (forall s : num_double,
   map idx (ents (Unscale v s)) = map idx (ents v) /\
   (forall i, holds v i -> value (Unscale v s) i = ddiv (value v i) s) /\
   (forall i, ~ holds v i -> value (Unscale v s) i = d0)).
Proof.
  intros C. split; [|split; [|split]].
  - exact (map_pointwise (N:=num_double) dopp v C).
  - intros s Hs. unfold Scale. change (is0 s) with (deqb s d0). rewrite Hs.
    exact (map_pointwise (N:=num_double) (fun x => dmul x s) v C).
  - intros s Hs i. unfold Scale. change (is0 s) with (deqb s d0). rewrite Hs. reflexivity.
  - intros s. exact (map_pointwise (N:=num_double) (fun x => ddiv x s) v C).
Qed.

Lemma dmul_comm x y : dmul x y = dmul y x.
Proof.
  destruct x as [s1|s1| |s1 m1 e1], y as [s2|s2| |s2 m2 e2]; cbn; auto;
    try (rewrite xorb_comm; auto; fail).
  unfold dmul, SFmul. rewrite xorb_comm, Pos.mul_comm, Z.add_comm. auto.
Qed.

Lemma plus_minus_pointwise (v w : svec num_double) :
  MayNeedCleaning v = false -> MayNeedCleaning w = false ->
  canonical (ents v) -> canonical (ents w) ->
  nonneg_indices (ents v) -> nonneg_indices (ents w) ->
  Forall (fun e : entry num_double => dvalid (val e) = true) (ents w) ->
  exists p m, PlusEq v w = Ok p /\ MinusEq v w = Ok m /\
    canonical (ents p) /\ canonical (ents m) /\
    forall i,
      (holds v i -> holds w i ->
         value p i = drop0 (dadd (value v i) (value w i) : num_double) /\
         value m i = drop0 (dadd (value v i) (dopp (value w i)) : num_double)) /\
      (~ holds v i -> holds w i -> value p i = value w i /\ value m i = dopp (value w i)) /\
      (holds v i -> ~ holds w i -> value p i = value v i /\ value m i = value v i) /\
      (~ holds v i -> ~ holds w i -> value p i = d0 /\ value m i = d0).
Proof.
  intros D1 D2 C1 C2 N1 N2 VV.
  destruct (AddMultiple_pointwise num_double_ok v d1 w D1 D2 C1 C2 N1 N2) as (p & Ep & _ & Cp & _ & Hp).
  destruct (AddMultiple_pointwise num_double_ok v dm1 w D1 D2 C1 C2 N1 N2) as (m & Em & _ & Cm & _ & Hm).
  exists p, m. split; [exact Ep|]. split; [exact Em|]. split; [exact Cp|]. split; [exact Cm|].
  intros i. destruct (Hp i) as (P1 & P2 & P3 & P4). destruct (Hm i) as (M1 & M2 & M3 & M4).
  assert (W : holds w i -> dvalid (value w i) = true /\ is0 (value w i) = false).
  { intros Hw. pose proof (proj1 (holds_find w i C2) Hw) as F. split.
    - apply find_first_some in F as (e & He & _ & <-).
      rewrite Forall_forall in VV. apply VV; auto.
    - eapply nonzero_find; [apply C2|exact F]. }
  assert (K1 : forall x : num_double, dvalid x = true -> (nmul x (d1 : num_double) : num_double) = x)
    by exact dmul_1.
  assert (K2 : forall x : num_double, dvalid x = true -> (nmul x (dm1 : num_double) : num_double) = nopp x)
    by exact dmul_m1.
  split; [|split; [|split]].
  - intros A B. rewrite (P1 A B), (M1 A B), K1, K2 by (apply W; auto). auto.
  - intros A B. rewrite (P2 A B), (M2 A B), K1, K2 by (apply W; auto).
    destruct (W B) as [_ Z0]. unfold drop0. rewrite (proj2 num_double_ok), Z0. auto.
  - intros A B. auto.
  - intros A B. split; [apply P4|apply M4]; auto.
Qed.

(** When AddMultipleOfVector is undefined. *)
Lemma add_multiple_undefined (v w : svec num_double) f : canonical (ents v) -> canonical (ents w) ->
  (AddMultiple v f w = UB <-> dirty v = true \/ dirty w = true \/
    ((holds v (-1) \/ holds w (-1)) /\ forall i, holds v i \/ holds w i -> -1 <= i)) /\
  (AddMultiple v f w = UB \/ exists r, AddMultiple v f w = Ok r).
Proof.
  intros [Sv _] [Sw _]. unfold AddMultiple. destruct (dirty v); [cbn [orb]; split; [split; auto|auto]|].
  destruct (dirty w); [cbn [orb]; split; [split; auto|auto]|]. cbn [orb].
  assert (Hm : wsorted (merge (ents v) (scaled f (ents w)))) by (apply merge_wsorted; [exact Sv|apply map_sorted; auto]).
  assert (IN : forall i, holds v i \/ holds w i <-> exists e, In e (merge (ents v) (scaled f (ents w))) /\ idx e = i).
  { intros i. split.
    - intros [(e & He & Hi)|(e & He & Hi)].
      + exists e. split; [apply merge_in; auto|exact Hi].
      + exists (mkE (idx e) (nmul (val e) f)). split; [|exact Hi]. apply merge_in. right.
        apply in_map_iff. exists e. auto.
    - intros (e & He & Hi). apply merge_in in He as [He|He]; [left; exists e; auto|right].
      apply in_map_iff in He as (b & <- & Hb). exists b. auto. }
  destruct (merge (ents v) (scaled f (ents w))) as [|a l].
  - cbn [sum_dups bind]. split; [|right; eauto]. split; [discriminate|].
    intros [H|[H|[H _]]]; try discriminate. apply IN in H as (e & He & _). destruct He.
  - cbn [sum_dups]. inversion Hm as [|x y H1 H2]; subst. rewrite Forall_forall in H2.
    assert (LO : forall i, holds v i \/ holds w i -> idx a <= i).
    { intros i Hi. apply IN in Hi as (e & He & <-). destruct He as [<-|He]; [lia|]. apply H2. exact He. }
    destruct (Z.eqb_spec (idx a) (-1)) as [Ea|Ea]; cbn [bind].
    + split; [|auto]. split; [|auto]. intros _. right. right. split; [|rewrite <- Ea; exact LO].
      apply IN. exists a. split; [left; reflexivity|exact Ea].
    + split; [|right; eauto]. split; [discriminate|]. intros [H|[H|[H B]]]; try discriminate.
      assert (A : -1 <= idx a) by (apply B, IN; exists a; split; [left|]; reflexivity). specialize (LO _ H). lia.
Qed.
