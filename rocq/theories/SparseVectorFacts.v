(** Proofs about the sparse vector model. *)
From Coq Require Import List ZArith Lia Bool Sorted Permutation.
From Verif Require Import Outcome Num SparseVector.
Import ListNotations.
Open Scope Z_scope.

Section Facts.
Context {N : Num}.
Hypothesis Hnum2 : num_ok N.
Let Hnum : is0 (@n0 N) = true := proj1 Hnum2.

Notation entry := (entry N).
Notation svec := (svec N).
Implicit Types (e : entry) (l : list entry) (v w : svec).

(** First and last entry with a given index. *)
Fixpoint find_first (l : list entry) (i : Z) : option N :=
  match l with
  | [] => None
  | e :: r => if idx e =? i then Some (val e) else find_first r i
  end.

Fixpoint find_last (l : list entry) (i : Z) : option N :=
  match l with
  | [] => None
  | e :: r => match find_last r i with
              | Some x => Some x
              | None => if idx e =? i then Some (val e) else None
              end
  end.

Definition nz (o : option N) : option N :=
  match o with Some x => if is0 x then None else Some x | None => None end.

Definition lt_e (a b : entry) := idx a < idx b.
Definition le_e (a b : entry) := idx a <= idx b.
Definition sorted (l : list entry) := StronglySorted lt_e l.
Definition wsorted (l : list entry) := StronglySorted le_e l.
Definition nonzero (l : list entry) := Forall (fun e => is0 (val e) = false) l.

Lemma find_first_none l i : (forall e, In e l -> idx e <> i) -> find_first l i = None.
Proof.
  induction l as [|e r IH]; cbn; intros H; auto.
  destruct (Z.eqb_spec (idx e) i) as [E|E].
  - exfalso. apply (H e); auto.
  - apply IH. intros; apply H; auto.
Qed.

Lemma find_last_none l i : (forall e, In e l -> idx e <> i) -> find_last l i = None.
Proof.
  induction l as [|e r IH]; cbn; intros H; auto.
  rewrite IH by (intros; apply H; auto).
  destruct (Z.eqb_spec (idx e) i) as [E|E]; auto.
  exfalso. apply (H e); auto.
Qed.

Lemma find_last_app l1 l2 i :
  find_last (l1 ++ l2) i =
  match find_last l2 i with Some x => Some x | None => find_last l1 i end.
Proof.
  induction l1 as [|e r IH]; cbn.
  - destruct (find_last l2 i); auto.
  - rewrite IH. destruct (find_last l2 i); auto.
Qed.

Lemma sorted_find l i : sorted l -> find_last l i = find_first l i.
Proof.
  induction 1 as [|e r Hr IH Hall]; cbn; auto.
  rewrite IH.
  destruct (Z.eqb_spec (idx e) i) as [E|E].
  - rewrite find_first_none; auto.
    intros x Hx. rewrite Forall_forall in Hall. specialize (Hall x Hx).
    unfold lt_e in Hall. lia.
  - destruct (find_first r i); auto.
Qed.

Lemma find_first_some l i x :
  find_first l i = Some x -> exists e, In e l /\ idx e = i /\ val e = x.
Proof.
  induction l as [|e r IH]; cbn; intros H; try discriminate.
  destruct (Z.eqb_spec (idx e) i) as [E|E].
  - inversion H; subst. exists e; auto.
  - destruct (IH H) as (e' & ? & ? & ?). exists e'; auto.
Qed.

Lemma find_first_in l e : sorted l -> In e l -> find_first l (idx e) = Some (val e).
Proof.
  induction 1 as [|a r Hr IH Hall]; cbn; intros Hin; [tauto|].
  destruct Hin as [->|Hin].
  - rewrite Z.eqb_refl; auto.
  - rewrite Forall_forall in Hall. specialize (Hall e Hin). unfold lt_e in Hall.
    destruct (Z.eqb_spec (idx a) (idx e)); [lia|]. auto.
Qed.

(** ** Binary search *)
Lemma sorted_nth l : sorted l -> forall p q a b, (p < q)%nat ->
  nth_error l p = Some a -> nth_error l q = Some b -> idx a < idx b.
Proof.
  induction 1 as [|e r Hr IH Hall]; intros p q a b Hpq Ha Hb.
  - destruct p; discriminate.
  - destruct p, q; cbn in *; try lia.
    + inversion Ha; subst. apply nth_error_In in Hb.
      rewrite Forall_forall in Hall. apply (Hall b Hb).
    + apply (IH p q); auto; lia.
Qed.

Lemma lower_bound_spec l i : sorted l -> forall fuel first len,
  (len <= fuel)%nat -> (first + len <= length l)%nat ->
  (forall p e, (p < first)%nat -> nth_error l p = Some e -> idx e < i) ->
  (forall p e, (first + len <= p)%nat -> nth_error l p = Some e -> i <= idx e) ->
  let r := lower_bound fuel l first len i in
  (r <= length l)%nat /\
  (forall p e, (p < r)%nat -> nth_error l p = Some e -> idx e < i) /\
  (forall p e, (r <= p)%nat -> nth_error l p = Some e -> i <= idx e).
Proof.
  intros Hs. induction fuel as [|fuel IH]; intros first len Hf Hlen Hlo Hhi; cbn.
  - assert (len = 0)%nat by lia. subst.
    repeat split; try lia; auto. intros p e Hp He; apply (Hhi p e); auto; lia.
  - destruct len as [|len'].
    + repeat split; try lia; auto. intros p e Hp He; apply (Hhi p e); auto; lia.
    + set (len := S len') in *.
      assert (Hd : (Nat.div2 len < len)%nat) by (apply Nat.lt_div2; lia).
      change (match len' with O => O | S n' => S (Nat.div2 n') end) with (Nat.div2 len).
      destruct (nth_error l (first + Nat.div2 len)) as [e|] eqn:En.
      2:{ apply nth_error_None in En. lia. }
      destruct (Z.ltb_spec (idx e) i) as [L|L].
      * apply IH; try lia.
        -- intros p e' Hp He'.
           destruct (Nat.eq_dec p (first + Nat.div2 len)) as [->|Hne].
           ++ rewrite En in He'; inversion He'; subst; auto.
           ++ assert (idx e' < idx e); [|lia].
              apply (sorted_nth l Hs p (first + Nat.div2 len)); auto; lia.
        -- intros p e' Hp He'. apply (Hhi p); auto; lia.
      * apply IH; try lia; auto.
        intros p e' Hp He'.
        destruct (Nat.eq_dec p (first + Nat.div2 len)) as [->|Hne].
        -- rewrite En in He'; inversion He'; subst; auto.
        -- assert (idx e < idx e'); [|lia].
           apply (sorted_nth l Hs (first + Nat.div2 len) p); auto; lia.
Qed.

Definition or0 (o : option N) : N := match o with Some x => x | None => n0 end.

Lemma value_find v i : sorted (ents v) -> value v i = or0 (find_first (ents v) i).
Proof.
  intros Hs. unfold value.
  destruct (lower_bound_spec (ents v) i Hs (length (ents v)) 0 (length (ents v)))
    as (H1 & H2 & H3); try lia.
  - intros p e Hp He.
    assert (p < length (ents v))%nat by (apply nth_error_Some; congruence). lia.
  - set (r := lower_bound _ _ _ _ _) in *.
    destruct (nth_error (ents v) r) as [e|] eqn:En.
    + destruct (Z.eqb_spec (idx e) i) as [E|E].
      * apply nth_error_In in En. rewrite <- E. rewrite find_first_in; auto.
      * rewrite find_first_none; auto. intros e' Hin.
        apply In_nth_error in Hin as [p Hp].
        destruct (lt_eq_lt_dec p r) as [[L|L]|L].
        -- specialize (H2 p e' L Hp). lia.
        -- subst p. rewrite En in Hp; inversion Hp; subst; auto.
        -- specialize (H3 r e (le_n _) En).
           pose proof (sorted_nth _ Hs r p e e' L En Hp). lia.
    + rewrite find_first_none; auto. intros e' Hin.
      apply In_nth_error in Hin as [p Hp].
      apply nth_error_None in En.
      assert (p < length (ents v))%nat by (apply nth_error_Some; congruence).
      specialize (H2 p e' ltac:(lia) Hp). lia.
Qed.

(** ** Stable sort and compaction *)
Lemma insert_in (e : entry) l x : In x (insert e l) <-> x = e \/ In x l.
Proof.
  induction l as [|a r IH]; cbn.
  - intuition.
  - destruct (idx a <? idx e); cbn; rewrite ?IH; intuition.
Qed.

Lemma insert_sorted e l : wsorted l -> wsorted (insert e l).
Proof.
  induction 1 as [|a r Hr IH Hall]; cbn.
  - repeat constructor.
  - destruct (Z.ltb_spec (idx a) (idx e)) as [L|L].
    + constructor; auto. apply Forall_forall. intros x Hx.
      apply insert_in in Hx as [->|Hx]; unfold le_e; [lia|].
      rewrite Forall_forall in Hall; apply (Hall x Hx).
    + constructor.
      * constructor; auto.
      * constructor; [unfold le_e; lia|].
        eapply Forall_impl; [|exact Hall]. unfold le_e. intros; lia.
Qed.

Lemma stable_sort_sorted l : wsorted (stable_sort l).
Proof.
  induction l as [|e r IH].
  - constructor.
  - change (stable_sort (e :: r)) with (insert e (stable_sort r)).
    apply insert_sorted; auto.
Qed.

Lemma insert_find_last e l i : wsorted l ->
  find_last (insert e l) i = find_last (e :: l) i.
Proof.
  induction 1 as [|a r Hr IH Hall]; cbn; auto.
  destruct (Z.ltb_spec (idx a) (idx e)) as [L|L]; auto.
  cbn. rewrite IH. cbn.
  destruct (find_last r i); auto.
  destruct (Z.eqb_spec (idx e) i); destruct (Z.eqb_spec (idx a) i); auto; lia.
Qed.

Lemma stable_sort_find_last l i : find_last (stable_sort l) i = find_last l i.
Proof.
  induction l as [|e r IH]; auto.
  change (stable_sort (e :: r)) with (insert e (stable_sort r)).
  rewrite insert_find_last by apply stable_sort_sorted.
  cbn [find_last]. rewrite IH. auto.
Qed.

Lemma compact_in l e : In e (compact l) -> In e l /\ is0 (val e) = false.
Proof.
  induction l as [|a r IH]; cbn; [tauto|].
  assert (K : In e (if is0 (val a) then compact r else a :: compact r) ->
              (a = e \/ In e r) /\ is0 (val e) = false).
  { destruct (is0 (val a)) eqn:Z0; cbn.
    - intros H; apply IH in H; tauto.
    - intros [->|H]; auto. apply IH in H; tauto. }
  destruct r as [|e' r']; auto.
  destruct (idx a =? idx e'); auto.
  intros H; apply IH in H; tauto.
Qed.

Lemma compact_lb l (k : Z) : (forall e, In e l -> k < idx e) ->
  forall e, In e (compact l) -> k < idx e.
Proof. intros H e He. apply compact_in in He as [? _]. auto. Qed.

Lemma compact_sorted l : wsorted l -> sorted (compact l).
Proof.
  induction 1 as [|a r Hr IH Hall]; cbn; [constructor|].
  destruct r as [|e' r'].
  - cbn. destruct (is0 (val a)); repeat constructor.
  - destruct (Z.eqb_spec (idx a) (idx e')) as [E|E]; auto.
    destruct (is0 (val a)); auto.
    constructor; auto. apply Forall_forall.
    apply compact_lb.
    intros e He. inversion Hall as [|? ? H1 H2]; subst. unfold le_e in H1.
    inversion Hr as [|? ? H3 H4]; subst.
    destruct He as [<-|He]; [lia|].
    rewrite Forall_forall in H4. specialize (H4 e He). unfold le_e in H4. lia.
Qed.

Lemma compact_nonzero l : nonzero (compact l).
Proof. apply Forall_forall. intros e He. apply compact_in in He; tauto. Qed.

Lemma compact_find l i : wsorted l -> find_last (compact l) i = nz (find_last l i).
Proof.
  induction 1 as [|a r Hr IH Hall]; auto.
  assert (K : (forall e, In e r -> idx a < idx e) ->
    find_last (if is0 (val a) then compact r else a :: compact r) i =
    nz (find_last (a :: r) i)).
  { intros Hlt. cbn. destruct (Z.eqb_spec (idx a) i) as [E|E].
    - assert (F : find_last r i = None).
      { apply find_last_none. intros e He. specialize (Hlt e He). lia. }
      rewrite F in *. cbn in IH. cbn.
      destruct (is0 (val a)) eqn:Z0; cbn; rewrite ?IH, ?E, ?Z.eqb_refl; auto.
    - destruct (is0 (val a)) eqn:Z0; cbn; rewrite IH.
      + destruct (find_last r i); auto.
      + destruct (find_last r i); cbn.
        * destruct (is0 n); auto.
          destruct (Z.eqb_spec (idx a) i); auto; congruence.
        * destruct (Z.eqb_spec (idx a) i); auto; congruence. }
  cbn [compact].
  destruct r as [|e' r'].
  - apply K. cbn; tauto.
  - destruct (Z.eqb_spec (idx a) (idx e')) as [E|E].
    + rewrite IH. cbn. destruct (find_last r' i); auto.
      rewrite E. destruct (idx e' =? i); auto.
    + apply K. inversion Hall as [|? ? H1 H2]; subst. unfold le_e in H1.
      inversion Hr as [|? ? H3 H4]; subst. rewrite Forall_forall in H4.
      intros e [<-|He]; [lia|]. specialize (H4 e He). unfold le_e in H4. lia.
Qed.

(** ** Invariant: an unflagged vector is sorted (and has no zeros, see below). *)
Definition vinv (v : svec) : Prop := dirty v = false -> sorted (ents v).
Definition canon (v : svec) : Prop := dirty v = false -> nonzero (ents v).

Lemma last_index_spec v e : sorted (ents v) -> In e (ents v) -> idx e <= last_index v.
Proof.
  unfold last_index. intros Hs Hin.
  destruct (exists_last (l := ents v)) as (l' & a & E).
  { intros C; rewrite C in Hin; inversion Hin. }
  rewrite E in *. rewrite rev_app_distr. cbn.
  apply in_app_iff in Hin as [Hin|[<-|[]]]; [|lia].
  clear E. induction l' as [|b l' IH]; [inversion Hin|].
  cbn in Hs. inversion Hs as [|? ? H1 H2]; subst. destruct Hin as [<-|Hin].
  - rewrite Forall_forall in H2. specialize (H2 a). unfold lt_e in H2.
    assert (idx b < idx a) by (apply H2; apply in_app_iff; cbn; auto). lia.
  - auto.
Qed.

Lemma sorted_snoc l e : sorted l -> (forall x, In x l -> idx x < idx e) -> sorted (l ++ [e]).
Proof.
  induction 1 as [|a r Hr IH Hall]; cbn; intros H.
  - repeat constructor.
  - constructor; [apply IH; intros; apply H; auto|].
    apply Forall_app; split; auto.
    constructor; auto. apply H; auto.
Qed.

(** Abstract content of a vector: what a cleaned copy stores at each index. *)
Definition content (v : svec) (i : Z) : option N :=
  if dirty v then nz (find_last (ents v) i) else find_first (ents v) i.

Lemma CleanUp_ok v : vinv v -> dirty (CleanUp v) = false /\ sorted (ents (CleanUp v)) /\
  (forall i, find_first (ents (CleanUp v)) i = content v i).
Proof.
  intros Hi. unfold CleanUp, content. destruct (dirty v) eqn:D; cbn.
  - pose proof (compact_sorted _ (stable_sort_sorted (ents v))) as Hs.
    repeat split; auto. intros i.
    rewrite <- sorted_find by auto.
    rewrite compact_find by apply stable_sort_sorted.
    rewrite stable_sort_find_last. auto.
  - auto.
Qed.

Lemma CleanUp_nonzero v : canon v -> nonzero (ents (CleanUp v)).
Proof.
  intros Hc. unfold CleanUp. destruct (dirty v) eqn:D; cbn; auto.
  apply compact_nonzero.
Qed.

Lemma content_clean v i : vinv v -> value (CleanUp v) i = or0 (content v i).
Proof.
  intros Hi. destruct (CleanUp_ok v Hi) as (D & Hs & Hf).
  rewrite value_find by auto. rewrite Hf. auto.
Qed.

Lemma nonzero_find l i x : nonzero l -> find_first l i = Some x -> is0 x = false.
Proof.
  intros Hn Hf. apply find_first_some in Hf as (e & He & _ & <-).
  unfold nonzero in Hn. rewrite Forall_forall in Hn. auto.
Qed.

Lemma nonzero_find_last l i x : nonzero l -> find_last l i = Some x -> is0 x = false.
Proof.
  intros Hn. induction Hn as [|e r He Hr IH]; cbn; [discriminate|].
  destruct (find_last r i); auto.
  destruct (idx e =? i); intros H; inversion H; subst; auto.
Qed.

Lemma content_nonzero v i x : vinv v -> canon v -> content v i = Some x -> is0 x = false.
Proof.
  intros Hi Hc. unfold content. destruct (dirty v) eqn:D.
  - destruct (find_last (ents v) i) as [y|]; cbn; [|discriminate].
    destruct (is0 y) eqn:Z0; intros H; inversion H; subst; auto.
  - apply nonzero_find. auto.
Qed.

(** ** AddEntry *)
Lemma AddEntry_inv v i x : vinv v -> vinv (AddEntry v i x).
Proof.
  unfold vinv, AddEntry. intros Hi. destruct (dirty v) eqn:D; cbn; [discriminate|].
  destruct (Z.leb_spec i (last_index v)) as [L|L]; cbn; [discriminate|].
  destruct (is0 x); cbn; auto. intros _. apply sorted_snoc; auto.
  intros a Ha. pose proof (last_index_spec v a (Hi eq_refl) Ha). cbn. lia.
Qed.

Lemma AddEntry_canon v i x : canon v -> canon (AddEntry v i x).
Proof.
  unfold canon, AddEntry. intros Hi. destruct (dirty v) eqn:D; cbn; [discriminate|].
  destruct (Z.leb_spec i (last_index v)) as [L|L]; cbn; [discriminate|].
  destruct (is0 x) eqn:Z0; cbn; auto. intros _. apply Forall_app; split; [exact (Hi eq_refl)|repeat constructor; auto].
Qed.

Lemma AddEntry_content v i x j : vinv v -> canon v ->
  content (AddEntry v i x) j = if i =? j then nz (Some x) else content v j.
Proof.
  intros Hi Hc. unfold AddEntry, content. destruct (dirty v) eqn:D; cbn.
  - rewrite find_last_app. cbn. destruct (i =? j); auto.
  - specialize (Hi D). specialize (Hc D).
    destruct (Z.leb_spec i (last_index v)) as [L|L]; cbn.
    + rewrite find_last_app; cbn. destruct (i =? j); cbn; auto.
      rewrite sorted_find by auto.
      destruct (find_first (ents v) j) eqn:F; auto. cbn.
      rewrite (nonzero_find _ _ _ Hc F). auto.
    + assert (Hlt : forall a, In a (ents v) -> idx a < i).
      { intros a Ha. pose proof (last_index_spec v a Hi Ha). lia. }
      destruct (is0 x) eqn:Z0; cbn; try rewrite D; cbn.
      * destruct (Z.eqb_spec i j) as [E|E]; auto.
        apply find_first_none. intros a Ha. specialize (Hlt a Ha). lia.
      * rewrite <- sorted_find by (apply sorted_snoc; auto).
        rewrite find_last_app; cbn.
        destruct (Z.eqb_spec i j) as [E|E]; auto.
        rewrite sorted_find; auto.
Qed.

(** ** Element-wise maps *)
Lemma map_sorted (f : entry -> entry) l :
  (forall e, idx (f e) = idx e) -> sorted l -> sorted (map f l).
Proof.
  intros Hf. induction 1 as [|a r Hr IH Hall]; cbn; constructor; auto.
  apply Forall_map. eapply Forall_impl; [|exact Hall].
  unfold lt_e. intros b Hb. rewrite !Hf. auto.
Qed.

Lemma filter_sorted (f : entry -> bool) l : sorted l -> sorted (filter f l).
Proof.
  induction 1 as [|a r Hr IH Hall]; cbn; [constructor|].
  destruct (f a); auto. constructor; auto.
  apply Forall_forall. intros x Hx. apply filter_In in Hx as [Hx _].
  rewrite Forall_forall in Hall. auto.
Qed.

Lemma map_find (f : Z -> N -> N) l i :
  find_first (map (fun e => mkE (idx e) (f (idx e) (val e))) l) i =
  match find_first l i with Some x => Some (f i x) | None => None end.
Proof.
  induction l as [|e r IH]; cbn; auto.
  destruct (Z.eqb_spec (idx e) i) as [E|E]; auto. rewrite E. auto.
Qed.

Lemma drop_zeros_find l i : sorted l -> find_first (drop_zeros l) i = nz (find_first l i).
Proof.
  unfold drop_zeros.
  intros H. induction H as [|a r Hr IH Hall]; cbn; auto.
  destruct (is0 (val a)) eqn:Z0; cbn.
  - destruct (Z.eqb_spec (idx a) i) as [E|E]; cbn; auto.
    rewrite Z0. rewrite IH. rewrite find_first_none; auto.
    intros e He. rewrite Forall_forall in Hall. specialize (Hall e He).
    unfold lt_e in Hall. lia.
  - destruct (Z.eqb_spec (idx a) i) as [E|E]; cbn; auto. rewrite Z0; auto.
Qed.

Lemma drop_zeros_nonzero l : nonzero (drop_zeros l).
Proof.
  apply Forall_forall. intros e He. apply filter_In in He as [_ He].
  destruct (is0 (val e)); auto; discriminate.
Qed.

Lemma Transform_ok f v : vinv v -> dirty v = false ->
  sorted (ents (Transform f v)) /\ nonzero (ents (Transform f v)) /\
  forall i, find_first (ents (Transform f v)) i =
    match find_first (ents v) i with Some x => nz (Some (f i x)) | None => None end.
Proof.
  intros Hi D. specialize (Hi D). unfold Transform; cbn.
  assert (Hs : sorted (map (fun e => mkE (idx e) (f (idx e) (val e))) (ents v)))
    by (apply map_sorted; auto).
  repeat split.
  - apply filter_sorted; auto.
  - apply drop_zeros_nonzero.
  - intros i. rewrite drop_zeros_find by auto. rewrite map_find.
    destruct (find_first (ents v) i); auto.
Qed.

(** ** Merging *)
Lemma merge_nil_r l : merge (N:=N) l [] = l.
Proof. destruct l; auto. Qed.

Lemma merge_cons a r1 b r2 :
  merge (N:=N) (a :: r1) (b :: r2) =
  if idx b <? idx a then b :: merge (a :: r1) r2 else a :: merge r1 (b :: r2).
Proof. reflexivity. Qed.

Lemma merge_in (l1 l2 : list entry) x : In x (merge l1 l2) <-> In x l1 \/ In x l2.
Proof.
  revert l2. induction l1 as [|a r1 IH1]; intros l2.
  - cbn; tauto.
  - induction l2 as [|b r2 IH2].
    + rewrite merge_nil_r. cbn; tauto.
    + rewrite merge_cons. destruct (idx b <? idx a); cbn [In].
      * rewrite IH2. cbn; tauto.
      * rewrite IH1. cbn; tauto.
Qed.

Lemma merge_wsorted l1 l2 : sorted l1 -> sorted l2 -> wsorted (merge l1 l2).
Proof.
  assert (W : forall l, sorted l -> wsorted l).
  { induction 1 as [|? ? ? ? H]; constructor; auto.
    eapply Forall_impl; [|exact H]. unfold lt_e, le_e; intros; lia. }
  intros H1. revert l2. induction H1 as [|a r1 Hr1 IH1 Ha]; intros l2 H2.
  - cbn; auto.
  - induction H2 as [|b r2 Hr2 IH2 Hb].
    + rewrite merge_nil_r. apply W. constructor; auto.
    + rewrite merge_cons. rewrite Forall_forall in Ha, Hb.
      destruct (Z.ltb_spec (idx b) (idx a)) as [L|L].
      * constructor; auto. apply Forall_forall. intros x Hx.
        apply merge_in in Hx. unfold lt_e, le_e in *.
        destruct Hx as [[<-|Hx]|Hx]; [lia| |].
        -- specialize (Ha x Hx). lia.
        -- specialize (Hb x Hx). lia.
      * constructor.
        -- apply IH1. constructor; auto. apply Forall_forall; auto.
        -- apply Forall_forall. intros x Hx.
           apply merge_in in Hx. unfold lt_e, le_e in *.
           destruct Hx as [Hx|[<-|Hx]].
           ++ specialize (Ha x Hx). lia.
           ++ lia.
           ++ specialize (Hb x Hx). lia.
Qed.

(** Left-to-right sum of all entries of one index. *)
Definition addo (acc : option N) (x : N) : option N :=
  match acc with Some y => Some (nadd y x) | None => Some x end.
Fixpoint sum_at (i : Z) (acc : option N) (l : list entry) : option N :=
  match l with
  | [] => acc
  | e :: r => sum_at i (if idx e =? i then addo acc (val e) else acc) r
  end.

Lemma sum_at_skip l i acc : (forall e, In e l -> idx e <> i) -> sum_at i acc l = acc.
Proof.
  revert acc. induction l as [|e r IH]; cbn; intros acc H; auto.
  destruct (Z.eqb_spec (idx e) i) as [E|E]; [exfalso; apply (H e); auto|].
  apply IH. auto.
Qed.

Lemma sum_at_sorted l i acc : sorted l ->
  sum_at i acc l = match find_first l i with Some x => addo acc x | None => acc end.
Proof.
  intros H. revert acc. induction H as [|a r Hr IH Hall]; cbn; intros acc; auto.
  destruct (Z.eqb_spec (idx a) i) as [E|E].
  - apply sum_at_skip. intros e He. rewrite Forall_forall in Hall.
    specialize (Hall e He). unfold lt_e in Hall. lia.
  - apply IH.
Qed.

Lemma sum_at_merge i l1 l2 acc : sorted l1 -> sorted l2 ->
  sum_at i acc (merge l1 l2) = sum_at i (sum_at i acc l1) l2.
Proof.
  intros H1. revert l2 acc. induction H1 as [|a r1 Hr1 IH1 Ha]; intros l2 acc H2; auto.
  revert acc. induction H2 as [|b r2 Hr2 IH2 Hb]; intros acc.
  - rewrite merge_nil_r. auto.
  - rewrite merge_cons. rewrite Forall_forall in Ha, Hb. unfold lt_e in *.
    destruct (Z.ltb_spec (idx b) (idx a)) as [L|L].
    + cbn [sum_at]. rewrite IH2. cbn [sum_at].
      destruct (Z.eqb_spec (idx b) i) as [E|E]; auto.
      destruct (Z.eqb_spec (idx a) i) as [E'|E']; [lia|].
      rewrite (sum_at_skip r1), (sum_at_skip r1); auto.
      * intros e He. specialize (Ha e He). lia.
      * intros e He. specialize (Ha e He). lia.
    + cbn [sum_at]. rewrite IH1; auto. constructor; auto. apply Forall_forall; auto.
Qed.

Lemma drop_zeros_app (l1 l2 : list entry) : drop_zeros (l1 ++ l2) = drop_zeros l1 ++ drop_zeros l2.
Proof. unfold drop_zeros. apply filter_app. Qed.

Definition all_zero (l : list entry) := Forall (fun e => is0 (val e) = true) l.

Lemma drop_all_zero l : all_zero l -> drop_zeros l = [].
Proof. induction 1 as [|a r Ha Hr IH]; cbn; auto. rewrite Ha. auto. Qed.

Lemma sum_run_lb l k : forall cur zs, k < idx cur -> (forall e, In e l -> k < idx e) ->
  all_zero zs -> forall e, In e (drop_zeros (sum_run cur zs l)) -> k < idx e.
Proof.
  induction l as [|a r IH]; intros cur zs Hk Hl Hz e He.
  - change (In e (drop_zeros ([cur] ++ zs))) in He.
    rewrite drop_zeros_app, (drop_all_zero zs Hz), app_nil_r in He.
    apply filter_In in He as [[<-|[]] _]; auto.
  - cbn in He. destruct (idx a =? idx cur) eqn:E.
    + eapply IH; [| | |exact He]; auto.
      * intros; apply Hl; cbn; auto.
      * apply Forall_app; split; [auto|repeat constructor; auto].
    + change (In e (drop_zeros ([cur] ++ zs ++ sum_run a [] r))) in He.
      rewrite !drop_zeros_app, (drop_all_zero zs Hz) in He. cbn in He.
      apply in_app_iff in He as [He|He].
      * destruct (is0 (val cur)); cbn in He; [tauto|]. destruct He as [<-|[]]; auto.
      * eapply IH; [| | |exact He]; auto.
        -- apply Hl; cbn; auto.
        -- intros; apply Hl; cbn; auto.
        -- constructor.
Qed.

Lemma sum_run_sorted l : forall cur zs, wsorted (cur :: l) -> all_zero zs ->
  sorted (drop_zeros (sum_run cur zs l)).
Proof.
  induction l as [|a r IH]; intros cur zs Hw Hz.
  - change (sorted (drop_zeros ([cur] ++ zs))).
    rewrite drop_zeros_app, (drop_all_zero zs Hz), app_nil_r. cbn.
    destruct (is0 (val cur)); repeat constructor.
  - inversion Hw as [|? ? Hw1 Hw2]; subst. inversion Hw1 as [|? ? Hw3 Hw4]; subst.
    inversion Hw2 as [|? ? Hw5 Hw6]; subst. unfold le_e in *.
    cbn. destruct (Z.eqb_spec (idx a) (idx cur)) as [E|E].
    + apply IH.
      * constructor; auto.
      * apply Forall_app; split; [auto|repeat constructor; auto].
    + change (sorted (drop_zeros ([cur] ++ zs ++ sum_run a [] r))).
      rewrite !drop_zeros_app, (drop_all_zero zs Hz). cbn.
      destruct (is0 (val cur)); cbn; [apply IH; auto; constructor|].
      constructor; [apply IH; auto; constructor|].
      apply Forall_forall. unfold lt_e.
      apply sum_run_lb; [lia| |constructor].
      intros e He. rewrite Forall_forall in Hw4. specialize (Hw4 e He). lia.
Qed.

Lemma sum_run_find l i : forall cur zs, wsorted (cur :: l) -> all_zero zs ->
  find_first (drop_zeros (sum_run cur zs l)) i = nz (sum_at i None (cur :: l)).
Proof.
  assert (K : forall (cur : entry) zs rest,
     all_zero zs ->
     find_first (drop_zeros ([cur] ++ zs ++ rest)) i =
     if idx cur =? i then (if is0 (val cur) then find_first (drop_zeros rest) i else Some (val cur))
     else find_first (drop_zeros rest) i).
  { intros cur zs rest Hz. rewrite !drop_zeros_app, (drop_all_zero zs Hz). cbn.
    destruct (is0 (val cur)); cbn; destruct (idx cur =? i); auto. }
  induction l as [|a r IH]; intros cur zs Hw Hz.
  - cbn [sum_run]. rewrite <- (app_nil_r zs). change (cur :: zs ++ []) with ([cur] ++ zs ++ []).
    rewrite K by auto. cbn. destruct (idx cur =? i); cbn; auto.
  - inversion Hw as [|? ? Hw1 Hw2]; subst. inversion Hw1 as [|? ? Hw3 Hw4]; subst.
    inversion Hw2 as [|? ? Hw5 Hw6]; subst. unfold le_e in *.
    cbn [sum_run]. destruct (Z.eqb_spec (idx a) (idx cur)) as [E|E].
    + rewrite IH.
      * cbn. rewrite E. destruct (idx cur =? i) eqn:Ei; cbn; auto.
      * constructor; auto.
      * apply Forall_app; split; [auto|repeat constructor; auto].
    + change (cur :: zs ++ sum_run a [] r) with ([cur] ++ zs ++ sum_run a [] r).
      rewrite K by auto. rewrite IH by (auto; constructor).
      destruct (Z.eqb_spec (idx cur) i) as [Ei|Ei].
      * assert (S : forall acc, sum_at i acc (a :: r) = acc).
        { intros acc. apply sum_at_skip. intros e [<-|He]; [lia|].
          rewrite Forall_forall in Hw4. specialize (Hw4 e He). lia. }
        specialize (S (Some (val cur))) as S1. specialize (S None).
        rewrite S. cbn [sum_at] in S1 |- *. rewrite Ei, Z.eqb_refl.
        cbn [addo] in *. rewrite S1. cbn. destruct (is0 (val cur)); auto.
      * cbn [sum_at]. destruct (Z.eqb_spec (idx cur) i); [congruence|]. auto.
Qed.

Definition omap2 (f : N) (a b : option N) : option N :=
  match a, b with
  | Some x, Some y => nz (Some (nadd x (nmul y f)))
  | Some x, None => nz (Some x)
  | None, Some y => nz (Some (nmul y f))
  | None, None => None
  end.

Lemma scaled_find f l i : find_first (scaled f l) i =
  match find_first l i with Some x => Some (nmul x f) | None => None end.
Proof. apply (map_find (fun _ x => nmul x f)). Qed.

Lemma AddMultiple_ok v f w r : vinv v -> vinv w -> AddMultiple v f w = Ok r ->
  dirty r = false /\ sorted (ents r) /\ nonzero (ents r) /\
  forall i, find_first (ents r) i = omap2 f (find_first (ents v) i) (find_first (ents w) i).
Proof.
  unfold AddMultiple. intros Hv Hw.
  destruct (dirty v) eqn:Dv; cbn; [discriminate|].
  destruct (dirty w) eqn:Dw; cbn; [discriminate|].
  specialize (Hv Dv). specialize (Hw Dw).
  assert (Hsw : sorted (scaled f (ents w))) by (apply map_sorted; auto).
  pose proof (merge_wsorted _ _ Hv Hsw) as Hm.
  assert (Hsum : forall i, sum_at i None (merge (ents v) (scaled f (ents w))) =
    match find_first (ents v) i, find_first (ents w) i with
    | Some x, Some y => Some (nadd x (nmul y f))
    | Some x, None => Some x
    | None, Some y => Some (nmul y f)
    | None, None => None
    end).
  { intros i. rewrite sum_at_merge by auto.
    rewrite (sum_at_sorted (ents v)) by auto.
    rewrite (sum_at_sorted (scaled _ _)) by auto. rewrite scaled_find.
    destruct (find_first (ents v) i), (find_first (ents w) i); auto. }
  unfold sum_dups. destruct (merge (ents v) (scaled f (ents w))) as [|a l] eqn:M; cbn.
  - intros H; inversion H; subst; cbn. repeat split; auto; try constructor.
    intros i. specialize (Hsum i). cbn in Hsum.
    destruct (find_first (ents v) i), (find_first (ents w) i); try discriminate; auto.
  - destruct (idx a =? -1); [discriminate|]. cbn. intros H; inversion H; subst; cbn.
    repeat split; auto.
    + apply sum_run_sorted; auto. constructor.
    + apply drop_zeros_nonzero.
    + intros i. rewrite sum_run_find by (auto; constructor). rewrite Hsum.
      destruct (find_first (ents v) i), (find_first (ents w) i); auto.
Qed.

Definition nonneg (l : list entry) := Forall (fun e => 0 <= idx e) l.

Lemma AddMultiple_defined v f w : dirty v = false -> dirty w = false ->
  nonneg (ents v) -> nonneg (ents w) -> exists r, AddMultiple v f w = Ok r.
Proof.
  unfold AddMultiple. intros -> -> Hv Hw. cbn.
  unfold sum_dups. destruct (merge (ents v) (scaled f (ents w))) as [|a l] eqn:M; cbn; eauto.
  assert (Ha : In a (merge (ents v) (scaled f (ents w)))) by (rewrite M; cbn; auto).
  apply merge_in in Ha.
  assert (0 <= idx a).
  { unfold nonneg in *. rewrite Forall_forall in Hv, Hw. destruct Ha as [Ha|Ha]; auto.
    apply in_map_iff in Ha as (b & <- & Hb). cbn. auto. }
  destruct (Z.eqb_spec (idx a) (-1)); [lia|]. cbn. eauto.
Qed.

(** ** Self alias *)
Lemma update_length {A} (l : list A) n a : length (update l n a) = length l.
Proof. revert n; induction l; destruct n; cbn; auto. Qed.

Lemma transform_within_ub f : forall n k off buf,
  (0 < n)%nat -> (length buf < off + k + n)%nat ->
  transform_within (N:=N) n k off f buf = UB.
Proof.
  induction n as [|n IH]; intros k off buf Hn H; [lia|]. cbn [transform_within].
  destruct (nth_error buf k) eqn:E; auto.
  destruct (Nat.ltb_spec (off + k) (length buf)) as [L|L]; auto.
  apply IH; rewrite ?update_length; lia.
Qed.

Lemma AddMultipleSelf_ub v f : ents v <> [] -> AddMultipleSelf v f = UB.
Proof.
  intros H. unfold AddMultipleSelf. destruct (dirty v); auto.
  rewrite transform_within_ub; auto.
  - rewrite app_length. destruct (ents v); [congruence|]. cbn; lia.
  - rewrite app_length, repeat_length. destruct (ents v); [congruence|]. cbn; lia.
Qed.

(** ** Dot product *)
Definition dot_step (w : list entry) (acc : N) (e : entry) : N :=
  match find_first w (idx e) with Some y => nadd acc (nmul (val e) y) | None => acc end.

Lemma fold_dot_skip l (w : list entry) acc : (forall e, In e l -> find_first w (idx e) = None) ->
  fold_left (dot_step w) l acc = acc.
Proof.
  revert acc. induction l as [|e r IH]; cbn; intros acc H; auto.
  unfold dot_step at 2. rewrite (H e) by auto. apply IH. auto.
Qed.

Lemma fold_dot_ext l (w w' : list entry) acc :
  (forall e, In e l -> find_first w (idx e) = find_first w' (idx e)) ->
  fold_left (dot_step w) l acc = fold_left (dot_step w') l acc.
Proof.
  revert acc. induction l as [|e r IH]; cbn; intros acc H; auto.
  unfold dot_step at 2 4. rewrite (H e) by auto. apply IH. auto.
Qed.

Lemma dot_loop_spec l1 : sorted l1 -> forall l2 acc, sorted l2 ->
  dot_loop l1 l2 acc = fold_left (dot_step l2) l1 acc.
Proof.
  induction 1 as [|a r1 Hr1 IH1 Ha]; intros l2 acc H2; auto.
  revert acc. induction H2 as [|b r2 Hr2 IH2 Hb]; intros acc.
  - cbn. symmetry. apply (fold_dot_skip r1 [] acc). auto.
  - rewrite Forall_forall in Ha, Hb. unfold lt_e in *.
    cbn [dot_loop].
    destruct (Z.eqb_spec (idx a) (idx b)) as [E|E].
    + rewrite IH1 by auto. cbn [fold_left]. unfold dot_step at 3. cbn [find_first].
      rewrite E, Z.eqb_refl. apply fold_dot_ext. intros e He. cbn [find_first].
      specialize (Ha e He). destruct (Z.eqb_spec (idx b) (idx e)); auto; lia.
    + destruct (Z.ltb_spec (idx a) (idx b)) as [L|L].
      * rewrite IH1 by (constructor; auto; apply Forall_forall; auto).
        cbn [fold_left]. unfold dot_step at 3.
        rewrite find_first_none; auto.
        intros e [<-|He]; [lia|]. specialize (Hb e He). lia.
      * match goal with |- ?f r2 acc = _ => change (f r2 acc) with (dot_loop (a :: r1) r2 acc) end.
        rewrite IH2. apply fold_dot_ext. intros e He. cbn [find_first].
        assert (idx a <= idx e) by (destruct He as [<-|He]; [lia|specialize (Ha e He); lia]).
        destruct (Z.eqb_spec (idx b) (idx e)); auto; lia.
Qed.

End Facts.
