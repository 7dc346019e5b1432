(** The invariant of the search tree. *)
From Coq Require Import List ZArith Lia Bool ZifyBool.
From Verif Require Import Outcome OutcomeFacts Double DoubleFacts MipTree TreeSpec.
Import ListNotations.
Open Scope Z_scope.

Notation nd t n := (at_ (nodes t) n).

Inductive free_chain (ns : list node_data) : Z -> list Z -> Prop :=
| fc_end : free_chain ns (-1) []
| fc_cons n d l : at_ ns n = Ok d -> free_chain ns (parent d) l -> free_chain ns n (n :: l).

Definition is_child (p : Z) (d : node_data) : bool := (0 <=? depth d) && (parent d =? p).
Definition is_active (d : node_data) : bool := 0 <=? depth d.
Definition cnt (f : node_data -> bool) (ns : list node_data) : Z := Z.of_nat (length (filter f ns)).
Definition b2z (b : bool) : Z := if b then 1 else 0.

Record tinv (t : tree) : Prop := {
  i_len : length (counts t) = length (nodes t);
  i_size : (2 <= length (nodes t))%nat;
  i_free : exists fl, free_chain (nodes t) (next_free t) fl /\ NoDup fl /\
      forall n d, nd t n = Ok d -> (In n fl <-> depth d < 0);
  i_default : forall n d, nd t n = Ok d -> depth d < 0 -> d = with_parent (parent d) node_default;
  i_parent : forall n d, nd t n = Ok d -> 0 <= depth d ->
      (n = 0 /\ parent d = -1 /\ depth d = 0) \/
      (n <> 0 /\ 0 <= parent d /\
       exists dp, nd t (parent d) = Ok dp /\ 0 <= depth dp /\ depth dp = depth d - 1);
  i_count : forall n d, nd t n = Ok d -> 0 <= depth d ->
      at_ (counts t) n = Ok (cnt (is_child n) (nodes t)) /\ cnt (is_child n) (nodes t) <= 2;
  i_root : forall d, nd t 0 = Ok d -> depth d < 0 -> next_free t = 0
}.

(** ** Counting *)
Lemma cnt_nonneg f ns : 0 <= cnt f ns.
Proof. unfold cnt. lia. Qed.

Lemma cnt_app f l1 l2 : cnt f (l1 ++ l2) = cnt f l1 + cnt f l2.
Proof. unfold cnt. rewrite filter_app, app_length. lia. Qed.

Lemma cnt_update_nat f l : forall n a old, nth_error l n = Some old ->
  cnt f (update l n a) = cnt f l - b2z (f old) + b2z (f a).
Proof.
  unfold cnt. induction l as [|x r IH]; intros [|n] a old H; cbn in H; try discriminate.
  - inversion H; subst. cbn [update filter]. destruct (f old), (f a); cbn [length b2z]; lia.
  - cbn [update filter]. specialize (IH n a old H). destruct (f x); cbn [length]; lia.
Qed.

Lemma cnt_set_at f l n a l' old : at_ l n = Ok old -> set_at l n a = Ok l' ->
  cnt f l' = cnt f l - b2z (f old) + b2z (f a).
Proof.
  intros H1 H2. apply set_at_ok in H2 as [R ->]. apply at_ok in H1 as [_ H1].
  apply cnt_update_nat; auto.
Qed.

Lemma cnt_pos f l n a : at_ l n = Ok a -> f a = true -> 1 <= cnt f l.
Proof.
  intros H1 H2. unfold cnt. apply at_In in H1.
  assert (In a (filter f l)) by (apply filter_In; auto).
  destruct (filter f l); cbn in *; [tauto|lia].
Qed.

Lemma cnt_le_len f l : cnt f l <= Z.of_nat (length l).
Proof. unfold cnt. induction l as [|x r IH]; cbn; [lia|]. destruct (f x); cbn; lia. Qed.

Lemma cnt_lt_len f l a : In a l -> f a = false -> cnt f l < Z.of_nat (length l).
Proof.
  unfold cnt. induction l as [|x r IH]; cbn; [tauto|]. intros [->|H] E.
  - rewrite E. pose proof (cnt_le_len f r). unfold cnt in *. lia.
  - specialize (IH H E). destruct (f x); cbn; lia.
Qed.

Lemma cnt_all f l : (forall a, In a l -> f a = true) -> cnt f l = Z.of_nat (length l).
Proof.
  unfold cnt. induction l as [|x r IH]; intros H; cbn; auto.
  rewrite (H x) by (cbn; auto). cbn [length]. rewrite !Nat2Z.inj_succ, IH; [lia|].
  intros; apply H; cbn; auto.
Qed.

(** ** Free list *)
Lemma free_chain_ext ns ns' f fl : free_chain ns f fl ->
  (forall m, In m fl -> at_ ns' m = at_ ns m) -> free_chain ns' f fl.
Proof.
  induction 1 as [|n d l H1 H2 IH]; intros He; [constructor|].
  econstructor; [rewrite He by (cbn; auto); eauto|]. apply IH. intros; apply He; cbn; auto.
Qed.

(** ** The getter *)
Lemma check_active_cases t n :
  (exists d, nd t n = Ok d /\ 0 <= depth d /\ check_active t n = Ok tt) \/
  (check_active t n = Abort /\ forall d, nd t n = Ok d -> depth d < 0).
Proof.
  unfold check_active.
  destruct (at_cases (nodes t) n) as [[R [d E]]|[R E]]; rewrite E; cbn [bind check].
  - replace (0 <=? n) with true by lia. replace (n <? Z.of_nat (length (nodes t))) with true by lia.
    cbn. destruct (Z.leb_spec 0 (depth d)).
    + left. exists d. auto.
    + right. split; auto. intros d' E'. inversion E'; subst; auto.
  - right. split; [|intros; discriminate].
    destruct (Z.leb_spec 0 n); cbn; auto.
    destruct (Z.ltb_spec n (Z.of_nat (length (nodes t)))); cbn; auto. lia.
Qed.

Lemma node_iff t n d : node t n = Ok d <-> nd t n = Ok d /\ 0 <= depth d.
Proof.
  unfold node. destruct (check_active_cases t n) as [(d' & E & L & C)|[C H]]; rewrite C; cbn.
  - rewrite E. split; [intros X; inversion X; subst; auto|tauto].
  - split; [discriminate|]. intros [E L]. apply H in E. lia.
Qed.

Lemma node_abort t n : (forall d, nd t n = Ok d -> depth d < 0) -> node t n = Abort.
Proof.
  intros H. unfold node. destruct (check_active_cases t n) as [(d' & E & L & C)|[C _]].
  - apply H in E. lia.
  - rewrite C. auto.
Qed.

Lemma node_cases t n : (exists d, node t n = Ok d) \/ node t n = Abort.
Proof.
  destruct (check_active_cases t n) as [(d & E & L & C)|[C H]].
  - left. exists d. apply node_iff; auto.
  - right. apply node_abort; auto.
Qed.

Lemma check_active_ok t n : check_active t n = Ok tt <-> active t n.
Proof.
  unfold active. destruct (check_active_cases t n) as [(d & E & L & C)|[C H]]; rewrite C.
  - split; auto. intros _. exists d. apply node_iff; auto.
  - split; [discriminate|]. intros [d Hd]. apply node_iff in Hd as [E L]. apply H in E. lia.
Qed.

(** Equal storage at one place gives equal getters there. *)
Lemma node_ext t t' n : nd t' n = nd t n -> node t' n = node t n.
Proof.
  intros E. destruct (node_cases t n) as [[d H]|H].
  - rewrite H. apply node_iff in H as [H1 H2]. apply node_iff. rewrite E. auto.
  - rewrite H. apply node_abort. rewrite E. intros d Hd.
    destruct (Z.ltb_spec (depth d) 0); auto.
    assert (node t n = Ok d) by (apply node_iff; auto). congruence.
Qed.

(** ** Initial tree *)
Lemma at_two {A} (a b : A) n x : at_ [a; b] n = Ok x -> (n = 0 /\ x = a) \/ (n = 1 /\ x = b).
Proof.
  intros H. apply at_ok in H as [H1 H2].
  destruct (Z.to_nat n) as [|[|k]] eqn:E; cbn in H2.
  - left. inversion H2; split; [lia|auto].
  - right. inversion H2; split; [lia|auto].
  - destruct k; discriminate.
Qed.

Lemma tinv_new : tinv tree_new.
Proof.
  constructor; cbn [tree_new nodes counts next_free closed].
  - auto.
  - cbn; lia.
  - exists [1]. split; [econstructor; [reflexivity|constructor]|]. split; [repeat constructor; auto|].
    intros n d H. apply at_two in H as [[-> ->]|[-> ->]]; cbn; lia.
  - intros n d H. apply at_two in H as [[-> ->]|[-> ->]]; cbn; auto; lia.
  - intros n d H. apply at_two in H as [[-> ->]|[-> ->]]; cbn; auto; lia.
  - intros n d H. apply at_two in H as [[-> ->]|[-> ->]]; cbn; [|lia].
    intros _. split; [reflexivity|]. vm_compute. discriminate.
  - intros d H. apply at_two in H as [[_ ->]|[H _]]; cbn; lia.
Qed.

(** ** Consequences *)
Lemma active_root t : tinv t -> forall k n d, nd t n = Ok d -> depth d = Z.of_nat k ->
  exists d0, nd t 0 = Ok d0 /\ 0 <= depth d0.
Proof.
  intros I k. induction k as [|k IH]; intros n d H E.
  - destruct (i_parent t I n d H) as [(-> & _ & _)|(_ & _ & dp & Hp & L & Ed)]; try lia.
    exists d. split; auto. lia.
  - destruct (i_parent t I n d H) as [(_ & _ & Z0)|(_ & _ & dp & Hp & L & Ed)]; try lia.
    apply (IH _ _ Hp). lia.
Qed.

Lemma active_root' t n d : tinv t -> nd t n = Ok d -> 0 <= depth d ->
  exists d0, nd t 0 = Ok d0 /\ 0 <= depth d0.
Proof.
  intros I H L. apply (active_root t I (Z.to_nat (depth d)) n d H). lia.
Qed.

(** ** Growing *)
Lemma resize_grow {A} (l : list A) d : resize l (S (length l)) d = l ++ [d].
Proof.
  unfold resize. rewrite firstn_all2 by lia.
  replace (S (length l) - length l)%nat with 1%nat by lia. auto.
Qed.

Lemma at_snoc {A} (l : list A) a n : at_ (l ++ [a]) n =
  if n =? Z.of_nat (length l) then Ok a else at_ l n.
Proof.
  unfold at_. destruct (Z.ltb_spec n 0); destruct (Z.eqb_spec n (Z.of_nat (length l))); auto; try lia.
  - subst. rewrite Nat2Z.id, nth_error_app2, Nat.sub_diag; auto.
  - destruct (Nat.lt_ge_cases (Z.to_nat n) (length l)).
    + rewrite nth_error_app1; auto.
    + rewrite (proj2 (nth_error_None l _)) by lia.
      rewrite (proj2 (nth_error_None (l ++ [a]) _)); auto. rewrite app_length; cbn; lia.
Qed.

Lemma tinv_grow t : tinv t -> tinv (grow t) /\ next_free (grow t) <> -1 /\
  (forall m, node (grow t) m = node t m) /\
  (forall m d, nd t m = Ok d -> nd (grow t) m = Ok d) /\
  (forall m k, at_ (counts t) m = Ok k -> at_ (counts (grow t)) m = Ok k) /\
  closed (grow t) = closed t /\
  (forall f, f node_default = false -> cnt f (nodes (grow t)) = cnt f (nodes t)) /\
  ((next_free t = -1 /\ (forall n d, nd t n = Ok d -> 0 <= depth d) /\
    length (nodes (grow t)) = S (length (nodes t))) \/
   (next_free t <> -1 /\ grow t = t)).
Proof.
  intros I. unfold grow. destruct (Z.eqb_spec (next_free t) (-1)) as [E|E].
  2:{ split; auto. repeat (split; auto). }
  destruct (i_free t I) as (fl & F1 & F2 & F3).
  assert (fl = []) as -> by (rewrite E in F1; inversion F1; subst; auto; apply at_in_range in H; lia).
  assert (ALL : forall n d, nd t n = Ok d -> 0 <= depth d).
  { intros n d H. destruct (Z.ltb_spec (depth d) 0) as [L|]; auto.
    apply (F3 n d H) in L. destruct L. }
  rewrite resize_grow.
  replace (S (length (nodes t))) with (S (length (counts t))) by (rewrite (i_len t I); auto).
  rewrite resize_grow, (i_len t I).
  set (sz := Z.of_nat (S (length (nodes t))) - 1).
  assert (Esz : sz = Z.of_nat (length (nodes t))) by (unfold sz; lia).
  rewrite Esz. clear sz Esz.
  assert (AT : forall n d, at_ (nodes t ++ [node_default]) n = Ok d ->
     (n = Z.of_nat (length (nodes t)) /\ d = node_default) \/
     (n <> Z.of_nat (length (nodes t)) /\ nd t n = Ok d)).
  { intros n d H. rewrite at_snoc in H. destruct (Z.eqb_spec n (Z.of_nat (length (nodes t)))); auto.
    inversion H; auto. }
  assert (AT2 : forall n d, nd t n = Ok d -> at_ (nodes t ++ [node_default]) n = Ok d).
  { intros n d H. rewrite at_snoc. pose proof (at_in_range _ _ _ H).
    destruct (Z.eqb_spec n (Z.of_nat (length (nodes t)))); auto; lia. }
  assert (CN : forall f, f node_default = false -> cnt f (nodes t ++ [node_default]) = cnt f (nodes t)).
  { intros f Hf. rewrite cnt_app. unfold cnt at 2. cbn. rewrite Hf. cbn. lia. }
  assert (CT : forall m k, at_ (counts t) m = Ok k -> at_ (counts t ++ [0]) m = Ok k).
  { intros n d H. rewrite at_snoc. pose proof (at_in_range _ _ _ H).
    destruct (Z.eqb_spec n (Z.of_nat (length (counts t)))); auto; lia. }
  split; [constructor|]; cbn [nodes counts next_free closed].
  - rewrite !app_length. rewrite (i_len t I). auto.
  - rewrite app_length. pose proof (i_size t I). lia.
  - exists [Z.of_nat (length (nodes t))]. split; [|split].
    + econstructor; [rewrite at_snoc, Z.eqb_refl; reflexivity|]. constructor.
    + repeat constructor; auto.
    + intros n d H. apply AT in H as [[-> ->]|[H1 H2]]; cbn.
      * split; auto. lia.
      * apply ALL in H2. split; [intros [?|[]]; lia|lia].
  - intros n d H. apply AT in H as [[-> ->]|[H1 H2]]; auto. intros. apply (i_default t I n); auto.
  - intros n d H. apply AT in H as [[-> ->]|[H1 H2]]; cbn; [lia|]. intros L.
    destruct (i_parent t I n d H2 L) as [?|(A & B & dp & C & D)]; auto.
    right. split; auto. split; auto. exists dp. auto.
  - intros n d H. apply AT in H as [[-> ->]|[H1 H2]]; [cbn; lia|]. intros L.
    rewrite CN by reflexivity. destruct (i_count t I n d H2 L) as [A B]. auto.
  - intros d H. pose proof (i_size t I).
    apply AT in H as [[H _]|[H1 H2]]; [lia|]. apply ALL in H2. lia.
  - split; [lia|]. split; [|repeat split; auto].
    + intros m. destruct (node_cases t m) as [[d H]|H]; rewrite H.
      * apply node_iff in H as [H1 H2]. apply node_iff. cbn. auto.
      * apply node_abort. cbn. intros d Hd. apply AT in Hd as [[-> ->]|[H1 H2]]; [cbn; lia|].
        destruct (Z.ltb_spec (depth d) 0); auto.
        assert (node t m = Ok d) by (apply node_iff; auto). congruence.
    + left. split; auto. split; auto. rewrite app_length. cbn. lia.
Qed.

(** ** Adding *)
Definition new_node (p k var : Z) (down : bool) (x : double) : node_data :=
  mkNode p k 0 0 var down x dminf [] [].

Lemma add_ok t p var down x dp : tinv t -> node t p = Ok dp ->
  cnt (is_child p) (nodes t) < 2 ->
  exists t' n, AddNode t p var down x = Ok (t', n) /\ tinv t' /\ 0 <= n /\
    node t n = Abort /\ node t' n = Ok (new_node p (depth dp + 1) var down x) /\
    (forall m, m <> n -> node t' m = node t m) /\
    (forall m, active t m -> cnt (is_child m) (nodes t') = cnt (is_child m) (nodes t) + b2z (m =? p)) /\
    cnt (is_child n) (nodes t') = 0 /\
    closed t' = closed t /\
    cnt is_active (nodes t') = cnt is_active (nodes t) + 1 /\
    ((length (nodes t') = length (nodes t) /\ exists m, 0 <= m < Z.of_nat (length (nodes t)) /\ node t m = Abort)
     \/ (length (nodes t') = S (length (nodes t)) /\
         forall m, 0 <= m < Z.of_nat (length (nodes t)) -> active t m)).
Proof.
  intros I0 HP HC. unfold AddNode.
  assert (AC : check_active t p = Ok tt) by (apply check_active_ok; exists dp; auto).
  rewrite AC. cbn [bind].
  destruct (tinv_grow t I0) as (I & NF & GN & GA & GC & GCL & GCNT & GL).
  assert (HP' : node (grow t) p = Ok dp) by (rewrite GN; auto).
  assert (HC' : cnt (is_child p) (nodes (grow t)) < 2) by (rewrite GCNT; auto).
  set (g := grow t) in *.
  destruct (i_free g I) as (fl & F1 & F2 & F3).
  assert (EX : exists n dn fl', fl = n :: fl' /\ next_free g = n /\ at_ (nodes g) n = Ok dn /\
     free_chain (nodes g) (parent dn) fl').
  { inversion F1; subst; [congruence|]. eauto 10. }
  destruct EX as (n & dn & fl' & -> & EN & En & Fc). rename fl' into fl.
  rewrite EN, En. cbn [bind].
  assert (Ln : depth dn < 0) by (apply (F3 n dn En); cbn; auto).
  replace (check (negb (0 <=? depth dn))) with (Ok tt) by (replace (0 <=? depth dn) with false by lia; auto).
  cbn [bind].
  pose proof (i_default g I n dn En Ln) as Edef.
  pose proof (at_in_range _ _ _ En) as Rn.
  destruct (set_at_range (nodes g) n (with_branch var down x (with_parent p dn)) Rn) as [ns1 S1].
  rewrite S1. cbn [bind].
  apply node_iff in HP' as [Ep Lp].
  assert (Npn : p <> n) by (intros ->; rewrite En in Ep; inversion Ep; subst; lia).
  rewrite (at_set_at _ _ _ _ p S1). destruct (Z.eqb_spec p n); [congruence|].
  rewrite Ep. cbn [bind]. rewrite (at_set_at _ _ _ _ n S1), Z.eqb_refl. cbn [bind].
  set (new := with_depth (depth dp + 1) (with_branch var down x (with_parent p dn))).
  assert (L1 : length ns1 = length (nodes g)) by (eapply set_at_length; eauto).
  destruct (set_at_range ns1 n new) as [ns2 S2]; [rewrite L1; auto|].
  rewrite S2. cbn [bind].
  assert (AT : forall m, at_ ns2 m = if m =? n then Ok new else at_ (nodes g) m).
  { intros m. rewrite (at_set_at _ _ _ _ m S2), (at_set_at _ _ _ _ m S1). destruct (m =? n); auto. }
  assert (L2 : length ns2 = length (nodes g)) by (erewrite set_at_length; eauto).
  assert (Enew : new = new_node p (depth dp + 1) var down x) by (unfold new; rewrite Edef; reflexivity).
  assert (CNT : forall f, cnt f ns2 = cnt f (nodes g) - b2z (f dn) + b2z (f new)).
  { intros f. rewrite (cnt_set_at f _ _ _ _ (with_branch var down x (with_parent p dn))
       (eq_trans (at_set_at _ _ _ _ n S1) ltac:(rewrite Z.eqb_refl; reflexivity)) S2).
    rewrite (cnt_set_at f _ _ _ _ dn En S1). lia. }
  destruct (i_count g I p dp Ep Lp) as [Cp Cp2].
  rewrite Cp. cbn [bind]. pose proof (cnt_nonneg (is_child p) (nodes g)) as C0.
  replace (check (0 <=? cnt (is_child p) (nodes g))) with (Ok tt) by (unfold check; replace (0 <=? _) with true by lia; auto).
  replace (check (cnt (is_child p) (nodes g) <=? 1)) with (Ok tt) by (unfold check; replace (_ <=? 1) with true by lia; auto).
  cbn [bind].
  pose proof (i_len g I) as LEN.
  destruct (set_at_range (counts g) p (cnt (is_child p) (nodes g) + 1)) as [cs1 S3].
  { rewrite LEN. eapply at_in_range; eauto. }
  rewrite S3. cbn [bind].
  assert (L3 : length cs1 = length (counts g)) by (eapply set_at_length; eauto).
  destruct (set_at_range cs1 n 0) as [cs2 S4]; [rewrite L3, LEN; auto|].
  rewrite S4. cbn [bind].
  assert (L4 : length cs2 = length (counts g)) by (erewrite set_at_length; eauto).
  assert (CT : forall m, at_ cs2 m = if m =? n then Ok 0 else if m =? p then Ok (cnt (is_child p) (nodes g) + 1) else at_ (counts g) m).
  { intros m. rewrite (at_set_at _ _ _ _ m S4), (at_set_at _ _ _ _ m S3). auto. }
  assert (Dn : forall f, (forall d, depth d < 0 -> f d = false) -> f dn = false) by auto.
  assert (CH : forall m, cnt (is_child m) ns2 = cnt (is_child m) (nodes g) + b2z (m =? p)).
  { intros m. rewrite CNT, Enew. unfold is_child at 2 3. cbn [depth parent new_node].
    replace (0 <=? depth dn) with false by lia. replace (0 <=? depth dp + 1) with true by lia.
    cbn [andb b2z]. rewrite Z.eqb_sym. destruct (m =? p); cbn; lia. }
  assert (NC : cnt (is_child n) (nodes g) = 0).
  { destruct (Z.eq_dec (cnt (is_child n) (nodes g)) 0) as [|Hne]; auto. exfalso.
    assert (EX : exists c, In c (nodes g) /\ is_child n c = true).
    { unfold cnt in Hne. destruct (filter (is_child n) (nodes g)) as [|c r] eqn:Ef; [cbn in Hne; lia|].
      exists c. apply filter_In. rewrite Ef. cbn; auto. }
    destruct EX as (c & Hc1 & Hc2). apply In_at in Hc1 as [i Hi].
    unfold is_child in Hc2. apply andb_true_iff in Hc2 as [Hd Hpn].
    destruct (i_parent g I i c Hi) as [(_ & P & _)|(_ & _ & dq & Q1 & Q2 & _)]; try lia.
    replace (parent c) with n in Q1 by lia. rewrite En in Q1. inversion Q1; subst. lia. }
  exists (mkTree ns2 cs2 (parent dn) (closed g)), n.
  split; [reflexivity|].
  split; [constructor; cbn [nodes counts next_free closed]|cbn [nodes counts next_free closed]].
  - lia.
  - rewrite L2. apply I.
  - exists fl. apply NoDup_cons_iff in F2 as [F2a F2b]. split; [|split; auto].
    + eapply free_chain_ext; [exact Fc|]. intros m Hm. rewrite AT.
      destruct (Z.eqb_spec m n) as [->|]; [tauto|auto].
    + intros m d Hm. rewrite AT in Hm. destruct (Z.eqb_spec m n) as [->|Hne].
      * inversion Hm; subst. rewrite Enew. cbn. split; [tauto|lia].
      * rewrite <- (F3 m d Hm). cbn. split; auto. intros [?|?]; auto; congruence.
  - intros m d Hm. rewrite AT in Hm. destruct (Z.eqb_spec m n) as [->|Hne].
    + inversion Hm; subst. rewrite Enew. cbn. lia.
    + apply (i_default g I m); auto.
  - intros m d Hm Ld. rewrite AT in Hm. destruct (Z.eqb_spec m n) as [->|Hne].
    + inversion Hm; subst d. rewrite Enew. cbn. right. split; [|split].
      * intros ->. destruct (active_root' g p dp I Ep Lp) as (d0 & E0 & L0). congruence || (rewrite En in E0; inversion E0; subst; lia).
      * apply at_in_range in Ep. lia.
      * exists dp. rewrite AT. destruct (Z.eqb_spec p n); [congruence|]. split; auto. lia.
    + destruct (i_parent g I m d Hm Ld) as [?|(A & B & dq & C & D)]; auto.
      right. split; auto. split; auto. exists dq. rewrite AT.
      destruct (Z.eqb_spec (parent d) n) as [Eq|]; [|auto].
      rewrite Eq, En in C. inversion C; subst. lia.
  - intros m d Hm Ld. rewrite CT, CH. rewrite AT in Hm. destruct (Z.eqb_spec m n) as [->|Hne].
    + rewrite NC. destruct (Z.eqb_spec n p); [congruence|]. cbn. split; auto. lia.
    + destruct (i_count g I m d Hm Ld) as [A B]. destruct (Z.eqb_spec m p) as [->|]; cbn.
      * split; auto. lia.
      * rewrite Z.add_0_r. auto.
  - intros d Hd Ld. rewrite AT in Hd. destruct (Z.eqb_spec 0 n) as [E0|].
    + inversion Hd; subst d. rewrite Enew in Ld. cbn in Ld. lia.
    + destruct (active_root' g p dp I Ep Lp) as (d0 & E0 & L0). rewrite E0 in Hd. inversion Hd; subst; lia.
  - split; [lia|]. split; [|split; [|split; [|split; [|split; [|split; [|split]]]]]].
    + rewrite <- GN. apply node_abort. intros d Hd. fold g in Hd. congruence || (rewrite En in Hd; inversion Hd; subst; auto).
    + apply node_iff. cbn. rewrite AT, Z.eqb_refl, Enew. cbn. split; auto. lia.
    + intros m Hm. rewrite <- GN. apply node_ext. cbn. rewrite AT.
      destruct (Z.eqb_spec m n); [congruence|auto].
    + intros m Hm. rewrite CH, GCNT by reflexivity. auto.
    + rewrite CH, NC. destruct (Z.eqb_spec n p); [congruence|]. auto.
    + auto.
    + rewrite CNT, GCNT by reflexivity. rewrite Enew. unfold is_active at 2 3. cbn [new_node depth].
      replace (0 <=? depth dn) with false by lia. replace (0 <=? depth dp + 1) with true by lia.
      cbn. lia.
    + rewrite L2. destruct GL as [(G1 & G2 & G3)|(G1 & G2)].
      * right. split; auto. intros m Hm. destruct (at_range _ _ Hm) as [d Hd].
        exists d. apply node_iff. split; eauto.
      * left. rewrite G2. split; auto. exists n. rewrite G2 in Rn. split; [lia|].
        rewrite <- GN. apply node_abort. fold g. intros d Hd. rewrite En in Hd. inversion Hd as [Q]. rewrite <- Q. auto.
Qed.

(** What an accepted addition implies. *)
Lemma add_accepted t p var down x t' n : tinv t -> AddNode t p var down x = Ok (t', n) ->
  exists dp, node t p = Ok dp /\ cnt (is_child p) (nodes t) < 2.
Proof.
  intros I H. pose proof H as H0. unfold AddNode in H.
  destruct (check_active_cases t p) as [(dp & E & L & C)|[C _]]; rewrite C in H; [|discriminate].
  exists dp. split; [apply node_iff; auto|].
  destruct (Z.ltb_spec (cnt (is_child p) (nodes t)) 2) as [|G]; auto. exfalso.
  destruct (tinv_grow t I) as (I' & _ & _ & GA & _ & _ & GC & _).
  cbn [bind] in H. set (g := grow t) in *.
  apply bind_ok in H as (? & _ & H). apply bind_ok in H as (? & _ & H).
  apply bind_ok in H as (? & _ & H). apply bind_ok in H as (? & _ & H).
  apply bind_ok in H as (? & _ & H). apply bind_ok in H as (? & _ & H).
  destruct (i_count g I' p dp (GA _ _ E) L) as [Cp _]. rewrite Cp in H. cbn [bind] in H.
  apply bind_ok in H as (? & _ & H). apply bind_ok in H as (? & K & H).
  unfold check in K. rewrite GC in K by reflexivity.
  destruct (Z.leb_spec (cnt (is_child p) (nodes t)) 1); [lia|discriminate].
Qed.

(** ** Setters *)
Lemma tinv_set t n d d' ns : tinv t -> nd t n = Ok d -> 0 <= depth d ->
  parent d' = parent d -> depth d' = depth d -> set_at (nodes t) n d' = Ok ns ->
  let t' := mkTree ns (counts t) (next_free t) (closed t) in
  tinv t' /\ node t' n = Ok d' /\ (forall m, m <> n -> node t' m = node t m) /\
  (forall p, cnt (is_child p) ns = cnt (is_child p) (nodes t)) /\
  cnt is_active ns = cnt is_active (nodes t) /\ length ns = length (nodes t).
Proof.
  intros I H L Ep Ed S t'.
  assert (AT : forall m, at_ ns m = if m =? n then Ok d' else nd t m) by (intros; eapply at_set_at; eauto).
  assert (LN : length ns = length (nodes t)) by (eapply set_at_length; eauto).
  assert (CH : forall p, cnt (is_child p) ns = cnt (is_child p) (nodes t)).
  { intros p. rewrite (cnt_set_at _ _ _ _ _ d H S). unfold is_child at 2 3. rewrite Ep, Ed. lia. }
  assert (INV : forall m dm, at_ ns m = Ok dm -> exists dm0, nd t m = Ok dm0 /\
     parent dm0 = parent dm /\ depth dm0 = depth dm /\ (depth dm < 0 -> dm = dm0)).
  { intros m dm Hm. rewrite AT in Hm. destruct (Z.eqb_spec m n) as [->|].
    - inversion Hm; subst. exists d. repeat split; auto. lia.
    - exists dm. auto. }
  split; [constructor; cbn [nodes counts next_free closed t']|].
  - rewrite LN; apply I.
  - rewrite LN; apply I.
  - destruct (i_free t I) as (fl & F1 & F2 & F3). exists fl. split; [|split; auto].
    + eapply free_chain_ext; [exact F1|]. intros m Hm. rewrite AT.
      destruct (Z.eqb_spec m n) as [->|]; auto. apply (F3 n d H) in Hm. lia.
    + intros m dm Hm. destruct (INV m dm Hm) as (d0 & H0 & _ & E0 & _). rewrite <- E0. auto.
  - intros m dm Hm Lm. destruct (INV m dm Hm) as (d0 & H0 & _ & E0 & X). rewrite (X Lm).
    apply (i_default t I m); auto. lia.
  - intros m dm Hm Lm. destruct (INV m dm Hm) as (d0 & H0 & P0 & E0 & X). rewrite <- P0, <- E0 in *.
    destruct (i_parent t I m d0 H0 Lm) as [?|(A & B & dq & C & D)]; auto.
    right. split; auto. split; auto. rewrite AT. destruct (Z.eqb_spec (parent d0) n) as [Eq|].
    + exists d'. rewrite Eq, H in C. inversion C; subst. rewrite Ed. auto.
    + exists dq; auto.
  - intros m dm Hm Lm. destruct (INV m dm Hm) as (d0 & H0 & P0 & E0 & X). rewrite CH.
    apply (i_count t I m d0 H0). lia.
  - intros dm Hm Lm. destruct (INV 0 dm Hm) as (d0 & H0 & P0 & E0 & X).
    apply (i_root t I d0 H0). lia.
  - split; [apply node_iff; cbn; rewrite AT, Z.eqb_refl; split; auto; lia|].
    split; [intros m Hm; apply node_ext; cbn; rewrite AT; destruct (Z.eqb_spec m n); [congruence|auto]|].
    split; auto. split; auto.
    rewrite (cnt_set_at _ _ _ _ _ d H S). unfold is_active at 2 3. rewrite Ed. lia.
Qed.

(** ** Closing *)
Lemma no_child t n m d : tinv t -> cnt (is_child n) (nodes t) = 0 -> nd t m = Ok d ->
  0 <= depth d -> parent d <> n.
Proof.
  intros I C H L E. assert (1 <= cnt (is_child n) (nodes t)); [|lia].
  apply (cnt_pos _ _ m d H). unfold is_child. lia.
Qed.

(** One round of the loop. *)
Definition dec_parent (cs : list Z) (p : Z) : outcome (list Z) :=
  if p =? -1 then Ok cs else do k <- at_ cs p ; set_at cs p (k - 1).

Lemma reclaim t n d : tinv t -> nd t n = Ok d -> 0 <= depth d ->
  cnt (is_child n) (nodes t) = 0 ->
  exists ns cs, set_at (nodes t) n (with_parent (next_free t) node_default) = Ok ns /\
    dec_parent (counts t) (parent d) = Ok cs /\
    let t' := mkTree ns cs n (closed t + 1) in
    tinv t' /\ node t' n = Abort /\ (forall m, m <> n -> node t' m = node t m) /\
    (forall p, cnt (is_child p) ns = cnt (is_child p) (nodes t) - b2z (p =? parent d)) /\
    cnt is_active ns = cnt is_active (nodes t) - 1 /\ length ns = length (nodes t) /\
    (parent d = -1 -> forall m, ~ active t' m) /\
    (parent d <> -1 -> exists dp, node t' (parent d) = Ok dp).
Proof.
  intros I H L C0. pose proof (at_in_range _ _ _ H) as R.
  destruct (set_at_range (nodes t) n (with_parent (next_free t) node_default) R) as [ns S1].
  pose proof (i_len t I) as LEN.
  assert (PD : parent d = -1 \/ (parent d <> -1 /\ parent d <> n /\ n <> 0 /\
     exists dp, nd t (parent d) = Ok dp /\ 0 <= depth dp /\ depth dp = depth d - 1)).
  { destruct (i_parent t I n d H L) as [(A & B & _)|(A & B & dp & C & D)]; auto.
    right. split; [lia|]. split; [|eauto]. intros E. rewrite E, H in C. inversion C; subst; lia. }
  assert (DP : exists cs, dec_parent (counts t) (parent d) = Ok cs /\ length cs = length (counts t) /\
    forall m, at_ cs m = match at_ (counts t) m with
       | Ok k => Ok (k - b2z (m =? parent d)) | o => o end).
  { unfold dec_parent. destruct (Z.eqb_spec (parent d) (-1)) as [E|E].
    - exists (counts t). split; auto. split; auto. intros m. destruct (at_ (counts t) m) eqn:Em; auto.
      apply at_in_range in Em. destruct (Z.eqb_spec m (parent d)); [lia|]. cbn. f_equal. lia.
    - destruct PD as [?|(_ & _ & _ & dp & Hp & Lp & _)]; [congruence|].
      destruct (i_count t I _ _ Hp Lp) as [A _]. rewrite A. cbn [bind].
      destruct (set_at_range (counts t) (parent d) (cnt (is_child (parent d)) (nodes t) - 1)) as [cs S].
      { apply at_in_range in A. auto. }
      exists cs. split; auto. split; [eapply set_at_length; eauto|].
      intros m. rewrite (at_set_at _ _ _ _ m S). destruct (Z.eqb_spec m (parent d)) as [->|].
      + rewrite A. reflexivity.
      + destruct (at_ (counts t) m); auto. cbn. f_equal. lia. }
  destruct DP as (cs & D1 & D2 & D3). exists ns, cs. split; auto. split; auto. intros t'.
  assert (AT : forall m, at_ ns m = if m =? n then Ok (with_parent (next_free t) node_default) else nd t m)
    by (intros; eapply at_set_at; eauto).
  assert (LN : length ns = length (nodes t)) by (eapply set_at_length; eauto).
  assert (CH : forall p, cnt (is_child p) ns = cnt (is_child p) (nodes t) - b2z (p =? parent d)).
  { intros p. rewrite (cnt_set_at _ _ _ _ _ d H S1). unfold is_child at 2 3. cbn.
    replace (0 <=? depth d) with true by lia. cbn [andb]. rewrite Z.eqb_sym. lia. }
  assert (NR : forall m dm, nd t m = Ok dm -> 0 <= depth dm -> parent dm <> n)
    by (intros; eapply no_child; eauto).
  assert (ROOT : parent d = -1 -> n = 0).
  { intros E. destruct (i_parent t I n d H L) as [?|(A & B & _)]; [tauto|lia]. }
  assert (NONE : parent d = -1 -> forall m dm, m <> n -> nd t m = Ok dm -> depth dm < 0).
  { intros E m dm Hm Hd. specialize (ROOT E). subst n.
    destruct (Z.ltb_spec (depth dm) 0) as [|Ld]; auto. exfalso.
    (* climb to a child of the root *)
    assert (G : forall k m dm, m <> 0 -> nd t m = Ok dm -> depth dm = Z.of_nat k ->
       exists c dc, nd t c = Ok dc /\ 0 <= depth dc /\ parent dc = 0).
    { induction k as [|k IH]; intros m1 dm1 Hm1 Hd1 Ek.
      - destruct (i_parent t I m1 dm1 Hd1) as [(A & _)|(_ & _ & dp & _ & X & Y)]; try lia.
      - destruct (i_parent t I m1 dm1 Hd1) as [(A & _)|(_ & _ & dp & X & Y & Z)]; try lia.
        destruct (Z.eq_dec (parent dm1) 0) as [E0|E0].
        + exists m1, dm1. split; auto. lia.
        + apply (IH _ _ E0 X). lia. }
    destruct (G (Z.to_nat (depth dm)) m dm Hm Hd) as (c & dc & X & Y & Z); [lia|].
    apply (NR c dc X Y Z). }
  split; [constructor; cbn [nodes counts next_free closed t']|].
  - lia.
  - rewrite LN. apply I.
  - destruct (i_free t I) as (fl & F1 & F2 & F3). exists (n :: fl).
    assert (NI : ~ In n fl) by (rewrite (F3 n d H); lia).
    split; [|split].
    + econstructor; [rewrite AT, Z.eqb_refl; reflexivity|]. cbn [parent with_parent].
      eapply free_chain_ext; [exact F1|]. intros m Hm. rewrite AT.
      destruct (Z.eqb_spec m n); [congruence|auto].
    + constructor; auto.
    + intros m dm Hm. rewrite AT in Hm. destruct (Z.eqb_spec m n) as [->|Hne].
      * inversion Hm; subst. cbn. split; [lia|auto].
      * rewrite <- (F3 m dm Hm). cbn. split; auto. intros [?|?]; auto; congruence.
  - intros m dm Hm Lm. rewrite AT in Hm. destruct (Z.eqb_spec m n) as [->|Hne].
    + inversion Hm; subst. reflexivity.
    + apply (i_default t I m); auto.
  - intros m dm Hm Lm. rewrite AT in Hm. destruct (Z.eqb_spec m n) as [->|Hne].
    + inversion Hm; subst. cbn in Lm. lia.
    + destruct (i_parent t I m dm Hm Lm) as [?|(A & B & dq & C & D)]; auto.
      right. split; auto. split; auto. exists dq. rewrite AT.
      destruct (Z.eqb_spec (parent dm) n) as [Eq|]; auto. exfalso. apply (NR m dm); auto.
  - intros m dm Hm Lm. rewrite AT in Hm. destruct (Z.eqb_spec m n) as [->|Hne].
    + inversion Hm; subst. cbn in Lm. lia.
    + destruct (i_count t I m dm Hm Lm) as [A B]. rewrite D3, A, CH. split; auto.
      destruct (m =? parent d); cbn; lia.
  - intros dm Hm Lm. rewrite AT in Hm. destruct (Z.eqb_spec 0 n) as [->|Hne]; auto.
    exfalso. destruct (active_root' t n d I H L) as (d0 & E0 & L0). rewrite E0 in Hm.
    inversion Hm; subst; lia.
  - split.
    { apply node_abort. cbn. intros dm Hm. rewrite AT, Z.eqb_refl in Hm. inversion Hm; subst. cbn. lia. }
    split.
    { intros m Hm. apply node_ext. cbn. rewrite AT. destruct (Z.eqb_spec m n); [congruence|auto]. }
    split; auto. split.
    { rewrite (cnt_set_at _ _ _ _ _ d H S1). unfold is_active at 2 3. cbn.
      replace (0 <=? depth d) with true by lia. cbn. lia. }
    split; auto. split.
    { intros E m [dm Hm]. apply node_iff in Hm as [Hm Lm]. cbn in Hm. rewrite AT in Hm.
      destruct (Z.eqb_spec m n) as [->|Hne].
      - inversion Hm; subst. cbn in Lm. lia.
      - apply (NONE E m dm Hne) in Hm. lia. }
    { intros E. destruct PD as [?|(_ & A & _ & dp & B & C & _)]; [congruence|].
      exists dp. apply node_iff. cbn. rewrite AT. destruct (Z.eqb_spec (parent d) n); [congruence|auto]. }
Qed.

Lemma count_getter t m : tinv t -> active t m ->
  num_open_children t m = Ok (cnt (is_child m) (nodes t)) /\ cnt (is_child m) (nodes t) <= 2.
Proof. intros I [d H]. apply node_iff in H as [H L]. apply (i_count t I m d H L). Qed.

Lemma parent_active t n d : tinv t -> node t n = Ok d -> parent d <> -1 ->
  exists dp, node t (parent d) = Ok dp /\ depth dp = depth d - 1.
Proof.
  intros I H E. apply node_iff in H as [H L].
  destruct (i_parent t I n d H L) as [?|(_ & _ & dp & A & B & C)]; [lia|].
  exists dp. split; auto. apply node_iff; auto.
Qed.

Lemma chain_transfer t t1 q dq : tinv t -> tinv t1 -> node t q = Ok dq ->
  (forall m, active t1 m -> node t1 m = node t m) ->
  (forall m, m <> q -> active t1 m -> num_open_children t1 m = num_open_children t m) ->
  forall m l, finished_chain t1 m l ->
  forall dm, node t1 m = Ok dm -> depth dm <= depth dq -> finished_chain t m l.
Proof.
  intros I I1 Hq HN HC m l F.
  assert (PQ : forall m d, node t1 m = Ok d -> depth d <= depth dq -> parent d <> -1 ->
     parent d <> q /\ exists dp, node t1 (parent d) = Ok dp /\ depth dp <= depth dq).
  { intros m0 d0 H0 D0 E0. destruct (parent_active t1 m0 d0 I1 H0 E0) as (dp & P1 & P2).
    split; [|exists dp; split; auto; lia]. intros EQ.
    rewrite (HN _ (ex_intro _ _ P1)), EQ, Hq in P1. inversion P1; subst. lia. }
  induction F as [m d H E|m d k H E K N|m d l H E K F IH]; intros dm Hm Dm;
    rewrite H in Hm; inversion Hm; subst dm; clear Hm;
    assert (Ht : node t m = Ok d) by (rewrite <- HN; [auto|exists d; auto]).
  - econstructor; eauto.
  - destruct (PQ m d H Dm E) as (P1 & dp & P2 & P3).
    eapply chain_stop; eauto. rewrite <- HC; auto. exists dp; auto.
  - destruct (PQ m d H Dm E) as (P1 & dp & P2 & P3).
    eapply chain_up; eauto. rewrite <- HC; auto. exists dp; auto.
Qed.

(** The whole loop, on a childless node. *)
Lemma close_loop_ok : forall fuel t n d, tinv t -> node t n = Ok d ->
  cnt (is_child n) (nodes t) = 0 -> cnt is_active (nodes t) < Z.of_nat fuel ->
  exists t' l, close_loop fuel t n = Ok t' /\ tinv t' /\ finished_chain t n l /\
    (forall m, In m l -> node t' m = Abort) /\
    (forall m, ~ In m l -> node t' m = node t m) /\
    NoDup l /\ (forall m, In m l -> active t m) /\
    closed t' = closed t + Z.of_nat (length l) /\
    cnt is_active (nodes t') = cnt is_active (nodes t) - Z.of_nat (length l) /\
    length (nodes t') = length (nodes t) /\
    (exists e, node t (last l 0) = Ok e /\
     forall m, ~ In m l -> cnt (is_child m) (nodes t') = cnt (is_child m) (nodes t) - b2z (m =? parent e)).
Proof.
  induction fuel as [|fuel IH]; intros t n d I Hn C0 Fu.
  { pose proof (cnt_nonneg is_active (nodes t)). lia. }
  apply node_iff in Hn as [H L]. cbn [close_loop].
  destruct (i_count t I n d H L) as [CT _]. rewrite CT, C0. cbn [bind].
  change (0 <? 0) with false. cbv iota. rewrite H. cbn [bind].
  destruct (reclaim t n d I H L C0) as (ns & cs & S1 & S2 & I' & NA & NO & CH & CA & LN & NONE & PA).
  rewrite S1. cbn [bind]. unfold dec_parent in S2. rewrite S2. cbn [bind].
  set (t1 := mkTree ns cs n (closed t + 1)) in *.
  assert (Hn : node t n = Ok d) by (apply node_iff; auto).
  assert (STOP : forall fuel', parent d = -1 \/ cnt (is_child (parent d)) ns <> 0 ->
    finished_chain t n [n] ->
    (if parent d =? -1 then Ok t1 else close_loop (S fuel') t1 (parent d)) = Ok t1).
  { intros fuel' HP _. destruct (Z.eqb_spec (parent d) (-1)) as [E|E]; auto.
    destruct HP as [?|HP]; [congruence|]. destruct (PA E) as [dp Hp].
    destruct (count_getter t1 (parent d) I') as [G _]; [exists dp; auto|].
    unfold num_open_children in G. cbn [close_loop]. rewrite G. cbn [bind t1 nodes].
    pose proof (cnt_nonneg (is_child (parent d)) ns). replace (0 <? _) with true by lia. auto. }
  assert (ONE : finished_chain t n [n] ->
    exists t' l, Ok t1 = Ok t' /\ tinv t' /\ finished_chain t n l /\
    (forall m, In m l -> node t' m = Abort) /\
    (forall m, ~ In m l -> node t' m = node t m) /\
    NoDup l /\ (forall m, In m l -> active t m) /\
    closed t' = closed t + Z.of_nat (length l) /\
    cnt is_active (nodes t') = cnt is_active (nodes t) - Z.of_nat (length l) /\
    length (nodes t') = length (nodes t) /\
    (exists e, node t (last l 0) = Ok e /\
     forall m, ~ In m l -> cnt (is_child m) (nodes t') = cnt (is_child m) (nodes t) - b2z (m =? parent e))).
  { intros F1. exists t1, [n]. split; auto. split; auto. split; auto.
    split; [intros m [->|[]]; auto|]. split; [intros m Hm; apply NO; cbn in Hm; intuition congruence|].
    split; [repeat constructor; auto|]. split; [intros m [<-|[]]; exists d; auto|].
    split; [reflexivity|]. split; [cbn [t1 nodes length]; lia|]. split; auto.
    exists d. cbn [last]. split; auto. }
  destruct (Z.eqb_spec (parent d) (-1)) as [E|E].
  { apply ONE. econstructor; eauto. }
  destruct (PA E) as [dp Hp].
  assert (Pn : parent d <> n) by (intros Eq; rewrite Eq, NA in Hp; discriminate).
  assert (Hp1 : node t (parent d) = Ok dp) by (rewrite <- NO; auto).
  destruct (count_getter t (parent d) I) as [CP CP2]; [exists dp; auto|].
  assert (CHp : cnt (is_child (parent d)) ns = cnt (is_child (parent d)) (nodes t) - 1)
    by (rewrite CH, Z.eqb_refl; auto).
  assert (FU : exists fuel', fuel = S fuel').
  { destruct fuel; [|eauto].
    assert (1 <= cnt is_active (nodes t)) by (eapply cnt_pos; [exact H|unfold is_active; lia]).
    assert (1 <= cnt is_active ns).
    { apply node_iff in Hp as [Hp Lp]. eapply cnt_pos; [exact Hp|unfold is_active; lia]. }
    lia. }
  destruct FU as [fuel' FU].
  destruct (Z.eq_dec (cnt (is_child (parent d)) ns) 0) as [Z0|Z0].
  2:{ assert (F1 : finished_chain t n [n]).
      { eapply chain_stop; [exact Hn|exact E|exact CP|]. lia. }
      rewrite FU. specialize (STOP fuel' (or_intror Z0) F1).
      destruct (Z.eqb_spec (parent d) (-1)); [congruence|]. rewrite STOP. auto. }
  destruct (IH t1 (parent d) dp I' Hp Z0) as
    (t' & l & Q1 & Q2 & Q3 & Q4 & Q5 & Q6 & Q7 & Q8 & Q9 & Q10 & e & Qe & Q11).
  { cbn [t1 nodes]. lia. }
  assert (NI : ~ In n l).
  { intros Hin. apply Q7 in Hin as [x Hx]. rewrite NA in Hx. discriminate. }
  assert (LNE : l <> []) by (inversion Q3; discriminate).
  assert (EN : forall m, active t1 m -> node t1 m = node t m).
  { intros m [x Hx]. apply NO. intros ->. rewrite NA in Hx. discriminate. }
  exists t', (n :: l). split; auto. split; auto. split.
  { apply chain_up with d; auto.
    - rewrite CP. f_equal. lia.
    - apply (chain_transfer t t1 (parent d) dp I I' Hp1 EN) with (dm := dp); auto; [|lia].
      intros m Hm Ha. destruct (count_getter t1 m I' Ha) as [G _].
      assert (Ha' : active t m) by (destruct Ha as [x Hx]; exists x; rewrite <- EN; [auto|exists x; auto]).
      destruct (count_getter t m I Ha') as [G' _]. rewrite G, G'. f_equal. cbn [t1 nodes].
      rewrite CH. destruct (Z.eqb_spec m (parent d)); [congruence|]. cbn. lia. }
  split; [intros m [<-|Hm]; auto; rewrite Q5; auto|].
  split; [intros m Hm; cbn in Hm; rewrite Q5 by tauto; apply NO; intuition congruence|].
  split; [constructor; auto|].
  split.
  { intros m [<-|Hm]; [exists d; auto|]. apply Q7 in Hm as [x Hx]. exists x. rewrite <- EN; [auto|exists x; auto]. }
  split; [rewrite Q8; cbn [t1 closed length]; lia|].
  split; [rewrite Q9; cbn [t1 nodes length]; lia|].
  split; [rewrite Q10; auto|].
  exists e. split.
  - destruct l as [|y l]; [congruence|]. change (last (n :: y :: l) 0) with (last (y :: l) 0).
    rewrite <- EN; [auto|exists e; auto].
  - intros m Hm. cbn in Hm. rewrite Q11 by tauto. cbn [t1 nodes]. rewrite CH.
    destruct (Z.eqb_spec m (parent d)) as [->|]; [|cbn; lia].
    exfalso. apply Hm. right. inversion Q3; subst; cbn; auto.
Qed.

Lemma close_two t n d : tinv t -> node t n = Ok d -> n <> 0 ->
  cnt (is_child n) (nodes t) = 2 -> CloseNode t n = Ok t.
Proof.
  intros I Hn N0 C2. unfold CloseNode.
  rewrite (proj2 (check_active_ok t n)) by (exists d; auto). cbn [bind].
  destruct (count_getter t n I) as [G _]; [exists d; auto|]. unfold num_open_children in G.
  rewrite G, C2. cbn [bind check Z.eqb Pos.eqb orb].
  assert (Hn' := Hn). apply node_iff in Hn as [H L]. rewrite H. cbn [bind].
  destruct (i_parent t I n d H L) as [(? & _)|(_ & Pp & dp & A & B & _)]; [congruence|].
  destruct (i_count t I _ _ A B) as [CP CP2]. rewrite CP. cbn [bind].
  pose proof (cnt_nonneg (is_child (parent d)) (nodes t)).
  unfold check. replace (0 <=? _) with true by lia. replace (_ <=? 2) with true by lia. cbn [bind].
  cbn [close_loop]. rewrite G, C2. cbn. auto.
Qed.

Lemma close_ok t n d : tinv t -> node t n = Ok d -> n <> 0 ->
  cnt (is_child n) (nodes t) = 0 ->
  exists t' l, CloseNode t n = Ok t' /\ tinv t' /\ finished_chain t n l /\
    (forall m, In m l -> node t' m = Abort) /\
    (forall m, ~ In m l -> node t' m = node t m) /\
    NoDup l /\ (forall m, In m l -> active t m) /\
    closed t' = closed t + Z.of_nat (length l) /\
    cnt is_active (nodes t') = cnt is_active (nodes t) - Z.of_nat (length l) /\
    length (nodes t') = length (nodes t) /\
    (exists e, node t (last l 0) = Ok e /\
     forall m, ~ In m l -> cnt (is_child m) (nodes t') = cnt (is_child m) (nodes t) - b2z (m =? parent e)).
Proof.
  intros I Hn N0 C0. unfold CloseNode.
  rewrite (proj2 (check_active_ok t n)) by (exists d; auto). cbn [bind].
  destruct (count_getter t n I) as [G _]; [exists d; auto|]. unfold num_open_children in G.
  rewrite G, C0. cbn [bind check Z.eqb orb].
  assert (Hn' := Hn). apply node_iff in Hn as [H L]. rewrite H. cbn [bind].
  destruct (i_parent t I n d H L) as [(? & _)|(_ & Pp & dp & A & B & _)]; [congruence|].
  destruct (i_count t I _ _ A B) as [CP CP2]. rewrite CP. cbn [bind].
  pose proof (cnt_nonneg (is_child (parent d)) (nodes t)).
  unfold check. replace (0 <=? _) with true by lia. replace (_ <=? 2) with true by lia. cbn [bind].
  apply (close_loop_ok _ t n d); auto.
  pose proof (cnt_le_len is_active (nodes t)). lia.
Qed.

Lemma close_root_ub t d : tinv t -> node t 0 = Ok d ->
  cnt (is_child 0) (nodes t) = 0 \/ cnt (is_child 0) (nodes t) = 2 -> CloseNode t 0 = UB.
Proof.
  intros I Hn C. unfold CloseNode.
  rewrite (proj2 (check_active_ok t 0)) by (exists d; auto). cbn [bind].
  destruct (count_getter t 0 I) as [G _]; [exists d; auto|]. unfold num_open_children in G.
  rewrite G. cbn [bind]. unfold check at 1. replace ((_ =? 0) || (_ =? 2)) with true by lia. cbn [bind].
  apply node_iff in Hn as [H L]. rewrite H. cbn [bind].
  destruct (i_parent t I 0 d H L) as [(_ & P & _)|(? & _)]; [|congruence].
  rewrite P. reflexivity.
Qed.

(** What an accepted close implies. *)
Lemma close_accepted t n t' : tinv t -> CloseNode t n = Ok t' ->
  exists d, node t n = Ok d /\ n <> 0 /\
   (cnt (is_child n) (nodes t) = 0 \/ cnt (is_child n) (nodes t) = 2).
Proof.
  intros I H. pose proof H as H0. unfold CloseNode in H.
  destruct (check_active_cases t n) as [(d & E & L & C)|[C _]]; rewrite C in H; [|discriminate].
  assert (Hd : node t n = Ok d) by (apply node_iff; auto).
  exists d. split; auto. cbn [bind] in H.
  destruct (count_getter t n I) as [G _]; [exists d; auto|]. unfold num_open_children in G.
  rewrite G in H. cbn [bind] in H. apply bind_ok in H as (? & K & H). unfold check in K.
  assert (CC : cnt (is_child n) (nodes t) = 0 \/ cnt (is_child n) (nodes t) = 2)
    by (destruct (_ || _) eqn:Q in K; [lia|discriminate]).
  split; auto. intros ->. rewrite (close_root_ub t d I Hd CC) in H0. discriminate.
Qed.

(** ** Histories *)
Lemma tinv_step t o t' : tinv t -> tstep t o = Ok t' -> tinv t'.
Proof.
  intros I H. destruct o as [p var down x|n|n x|n lo up]; cbn [tstep] in H.
  - apply bind_ok in H as ([t1 n] & H1 & H2). inversion H2; subst; clear H2. cbn.
    destruct (add_accepted _ _ _ _ _ _ _ I H1) as (dp & A & B).
    destruct (add_ok t p var down x dp I A B) as (t2 & n2 & E & I2 & _). rewrite E in H1.
    inversion H1; subst; auto.
  - destruct (close_accepted t n t' I H) as (d & A & B & [C|C]).
    + destruct (close_ok t n d I A B C) as (t2 & l & E & I2 & _). rewrite E in H. inversion H; subst; auto.
    + rewrite (close_two t n d I A B C) in H. inversion H; subst; auto.
  - unfold SetLp in H.
    destruct (check_active_cases t n) as [(d & E & L & C)|[C _]]; rewrite C in H; [|discriminate].
    cbn [bind] in H. apply bind_ok in H as (? & _ & H). apply bind_ok in H as (? & _ & H).
    rewrite E in H. cbn [bind] in H. apply bind_ok in H as (ns & S & H). inversion H; subst.
    apply (tinv_set t n d (with_lp x d) ns I E L eq_refl eq_refl S).
  - unfold SetImplied in H.
    destruct (check_active_cases t n) as [(d & E & L & C)|[C _]]; rewrite C in H; [|discriminate].
    cbn [bind] in H. apply bind_ok in H as (? & _ & H). apply bind_ok in H as (? & _ & H).
    rewrite E in H. cbn [bind] in H. apply bind_ok in H as (ns & S & H). inversion H; subst.
    apply (tinv_set t n d (with_implied lo up d) ns I E L eq_refl eq_refl S).
Qed.

Lemma tinv_run ops : forall t t', tinv t -> trun t ops = Ok t' -> tinv t'.
Proof.
  induction ops as [|o r IH]; intros t t' I H; cbn in H.
  - inversion H; subst; auto.
  - apply bind_ok in H as (t1 & H1 & H2). eapply IH; [|exact H2]. eapply tinv_step; eauto.
Qed.

Lemma reachable_tinv t : reachable t -> tinv t.
Proof. intros [ops H]. eapply tinv_run; [apply tinv_new|exact H]. Qed.
