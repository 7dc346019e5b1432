(** Facts about checked list accesses and outcome folds. *)
From Coq Require Import List ZArith Lia Bool.
From Verif Require Import Outcome.
Import ListNotations.
Open Scope Z_scope.

Section Facts.
Context {A : Type}.
Implicit Types (l : list A).

Lemma at_ok l i a : at_ l i = Ok a <-> 0 <= i /\ nth_error l (Z.to_nat i) = Some a.
Proof.
  unfold at_. destruct (Z.ltb_spec i 0) as [L|L].
  - split; [discriminate|lia].
  - destruct (nth_error l (Z.to_nat i)); split.
    + intros H; inversion H; subst; auto.
    + intros [_ H]; inversion H; subst; auto.
    + discriminate.
    + intros [_ H]; discriminate.
Qed.

Lemma at_range l i : 0 <= i < Z.of_nat (length l) -> exists a, at_ l i = Ok a.
Proof.
  intros H. destruct (nth_error l (Z.to_nat i)) as [a|] eqn:E.
  - exists a. apply at_ok. split; [lia|auto].
  - apply nth_error_None in E. lia.
Qed.

Lemma at_in_range l i a : at_ l i = Ok a -> 0 <= i < Z.of_nat (length l).
Proof.
  intros H. apply at_ok in H as [H1 H2].
  assert (Z.to_nat i < length l)%nat by (apply nth_error_Some; congruence). lia.
Qed.

Lemma at_cases l i : (0 <= i < Z.of_nat (length l) /\ exists a, at_ l i = Ok a) \/
  (~ 0 <= i < Z.of_nat (length l) /\ at_ l i = UB).
Proof.
  destruct (Z_le_gt_dec 0 i), (Z_lt_ge_dec i (Z.of_nat (length l))).
  - left. split; [lia|]. apply at_range; lia.
  - right. split; [lia|]. unfold at_. destruct (Z.ltb_spec i 0); [lia|].
    destruct (nth_error l (Z.to_nat i)) eqn:E; auto.
    assert (Z.to_nat i < length l)%nat by (apply nth_error_Some; congruence). lia.
  - right. split; [lia|]. unfold at_. destruct (Z.ltb_spec i 0); [auto|lia].
  - right. split; [lia|]. unfold at_. destruct (Z.ltb_spec i 0); [auto|lia].
Qed.

Lemma at_In l i a : at_ l i = Ok a -> In a l.
Proof. intros H. apply at_ok in H as [_ H]. eapply nth_error_In; eauto. Qed.

Lemma In_at l a : In a l -> exists i, at_ l i = Ok a.
Proof.
  intros H. apply In_nth_error in H as [n H]. exists (Z.of_nat n). apply at_ok.
  rewrite Nat2Z.id. split; [lia|auto].
Qed.

Lemma update_length l n a : length (update l n a) = length l.
Proof. revert n; induction l; destruct n; cbn; auto. Qed.

Lemma nth_update_same l n a : (n < length l)%nat -> nth_error (update l n a) n = Some a.
Proof. revert n; induction l; destruct n; cbn; intros; auto; try lia. apply IHl; lia. Qed.

Lemma nth_update_other l n k a : n <> k -> nth_error (update l n a) k = nth_error l k.
Proof. revert n k; induction l; destruct n, k; cbn; intros; auto; try lia. Qed.

Lemma set_at_ok l i a l' : set_at l i a = Ok l' <->
  0 <= i < Z.of_nat (length l) /\ l' = update l (Z.to_nat i) a.
Proof.
  unfold set_at. destruct (Z.ltb_spec i 0) as [L|L].
  - split; [discriminate|lia].
  - destruct (Nat.ltb_spec (Z.to_nat i) (length l)) as [H|H]; split.
    + intros E; inversion E; subst. split; [lia|auto].
    + intros [_ ->]; auto.
    + discriminate.
    + lia.
Qed.

Lemma set_at_range l i a : 0 <= i < Z.of_nat (length l) ->
  exists l', set_at l i a = Ok l'.
Proof. intros H. eexists. apply set_at_ok. split; eauto. Qed.

Lemma set_at_length l i a l' : set_at l i a = Ok l' -> length l' = length l.
Proof. intros H. apply set_at_ok in H as [_ ->]. apply update_length. Qed.

Lemma at_set_at l i a l' k : set_at l i a = Ok l' ->
  at_ l' k = if k =? i then Ok a else at_ l k.
Proof.
  intros H. apply set_at_ok in H as [R ->].
  destruct (Z.eqb_spec k i) as [->|N].
  - apply at_ok. split; [lia|]. apply nth_update_same. lia.
  - unfold at_. destruct (Z.ltb_spec k 0); auto.
    rewrite nth_update_other; auto. lia.
Qed.

Lemma resize_length l n d : length (resize l n d) = n.
Proof.
  unfold resize. rewrite app_length, firstn_length, repeat_length. lia.
Qed.

Lemma nth_error_firstn n l k :
  nth_error (firstn n l) k = if (k <? n)%nat then nth_error l k else None.
Proof.
  revert n k. induction l as [|x l IH]; intros [|n] [|k]; cbn [firstn nth_error]; auto.
  - destruct (S k <? S n)%nat; auto.
  - rewrite IH. reflexivity.
Qed.

Lemma nth_error_repeat (d : A) n k :
  nth_error (repeat d n) k = if (k <? n)%nat then Some d else None.
Proof. revert k. induction n as [|n IH]; intros [|k]; cbn [repeat nth_error]; auto. rewrite IH. reflexivity. Qed.

Lemma at_resize l n d k :
  at_ (resize l n d) k =
  if (0 <=? k) && (k <? Z.of_nat n)
  then (if k <? Z.of_nat (length l) then at_ l k else Ok d) else UB.
Proof.
  unfold at_, resize.
  destruct (Z.ltb_spec k 0) as [L|L]; destruct (Z.leb_spec 0 k) as [L'|L']; try lia; cbn; auto.
  destruct (Z.ltb_spec k (Z.of_nat n)) as [H1|H1]; destruct (Z.ltb_spec k (Z.of_nat (length l))) as [H2|H2].
  - rewrite nth_error_app1 by (rewrite firstn_length; lia).
    rewrite nth_error_firstn. destruct (Nat.ltb_spec (Z.to_nat k) n); [auto|lia].
  - rewrite nth_error_app2 by (rewrite firstn_length; lia).
    rewrite nth_error_repeat, firstn_length.
    destruct (Nat.ltb_spec (Z.to_nat k - Nat.min n (length l)) (n - length l)); [auto|lia].
  - rewrite nth_error_app2 by (rewrite firstn_length; lia).
    rewrite nth_error_repeat, firstn_length.
    destruct (Nat.ltb_spec (Z.to_nat k - Nat.min n (length l)) (n - length l)); [lia|auto].
  - rewrite nth_error_app2 by (rewrite firstn_length; lia).
    rewrite nth_error_repeat, firstn_length.
    destruct (Nat.ltb_spec (Z.to_nat k - Nat.min n (length l)) (n - length l)); [lia|auto].
Qed.

Lemma at_repeat (d : A) n k :
  at_ (repeat d n) k = if (0 <=? k) && (k <? Z.of_nat n) then Ok d else UB.
Proof.
  unfold at_. destruct (Z.ltb_spec k 0), (Z.leb_spec 0 k); try lia; cbn; auto.
  rewrite nth_error_repeat.
  destruct (Nat.ltb_spec (Z.to_nat k) n), (Z.ltb_spec k (Z.of_nat n)); try lia; auto.
Qed.

Lemma at_map {B} (f : A -> B) l k :
  at_ (map f l) k = match at_ l k with Ok a => Ok (f a) | _ => UB end.
Proof.
  unfold at_. destruct (k <? 0); auto. rewrite nth_error_map.
  destruct (nth_error l (Z.to_nat k)); auto.
Qed.

End Facts.

Lemma foldM_app {S A} (f : S -> A -> outcome S) l1 l2 s :
  foldM f s (l1 ++ l2) = bind (foldM f s l1) (fun s' => foldM f s' l2).
Proof.
  revert s. induction l1 as [|a r IH]; intros s; cbn; auto.
  destruct (f s a); cbn; auto.
Qed.

Lemma bind_ok {A B} (x : outcome A) (f : A -> outcome B) b :
  bind x f = Ok b -> exists a, x = Ok a /\ f a = Ok b.
Proof. destruct x; cbn; intros; try discriminate; eauto. Qed.

(** Invariant rule for folds that always succeed. *)
Lemma foldM_ind {S A} (f : S -> A -> outcome S) (P : S -> list A -> Prop) l s :
  P s [] ->
  (forall pre a s', P s' pre -> In a l -> exists s'', f s' a = Ok s'' /\ P s'' (pre ++ [a])) ->
  exists s', foldM f s l = Ok s' /\ P s' l.
Proof.
  intros H0 Hs.
  assert (G : forall suf pre s1, P s1 pre -> (forall a, In a suf -> In a l) ->
     exists s', foldM f s1 suf = Ok s' /\ P s' (pre ++ suf)).
  { induction suf as [|a r IH]; intros pre s1 HP Hin; cbn.
    - exists s1. rewrite app_nil_r. auto.
    - destruct (Hs pre a s1 HP) as (s2 & E & HP2); [apply Hin; cbn; auto|].
      rewrite E. cbn. destruct (IH (pre ++ [a]) s2 HP2) as (s3 & E3 & HP3).
      + intros; apply Hin; cbn; auto.
      + exists s3. rewrite <- app_assoc in HP3. auto. }
  apply (G l [] s); auto.
Qed.
