(** Proofs of the tree properties, from the invariant in [TreeFacts]. *)
From Coq Require Import List ZArith Lia Bool ZifyBool.
From Verif Require Import Outcome OutcomeFacts Double DoubleFacts MipTree TreeSpec TreeFacts.
Import ListNotations.
Open Scope Z_scope.

(** ** Shape *)
Lemma index_list (f : node_data -> bool) ns : exists l, NoDup l /\
  (forall m, In m l <-> exists d, at_ ns m = Ok d /\ f d = true) /\
  cnt f ns = Z.of_nat (length l).
Proof.
  induction ns as [|a ns IH] using rev_ind.
  - exists []. split; [constructor|]. split; [|reflexivity].
    intros m. split; [intros []|]. intros (d & H & _). apply at_in_range in H. cbn in H. lia.
  - destruct IH as (l & N & M & C).
    assert (NI : ~ In (Z.of_nat (length ns)) l).
    { intros H. apply M in H as (d & H & _). apply at_in_range in H. lia. }
    rewrite cnt_app, C. unfold cnt. cbn [filter]. destruct (f a) eqn:E.
    + exists (Z.of_nat (length ns) :: l). split; [constructor; auto|]. split; [|cbn [length]; lia].
      intros m. cbn. rewrite M. rewrite at_snoc.
      destruct (Z.eqb_spec m (Z.of_nat (length ns))) as [->|Hne].
      * split; auto. intros _. exists a; auto.
      * split; [intros [?|?]; auto; congruence|auto].
    + exists l. split; auto. split; [|cbn [length]; lia].
      intros m. rewrite M, at_snoc.
      destruct (Z.eqb_spec m (Z.of_nat (length ns))) as [->|Hne]; [|tauto].
      split; intros (d & H & F).
      * apply at_in_range in H. lia.
      * inversion H; subst. congruence.
Qed.

Lemma children_list t n : exists l, children t n l /\
  cnt (is_child n) (nodes t) = Z.of_nat (length l).
Proof.
  destruct (index_list (is_child n) (nodes t)) as (l & N & M & C).
  exists l. split; auto. split; auto. intros m. rewrite M. unfold is_child.
  split; intros (d & H).
  - exists d. rewrite node_iff. destruct H. repeat split; auto; lia.
  - exists d. rewrite node_iff in H. destruct H as [[H1 H2] H3]. split; auto. lia.
Qed.

Lemma active_list_exists t : exists l, active_list t l /\
  cnt is_active (nodes t) = Z.of_nat (length l).
Proof.
  destruct (index_list is_active (nodes t)) as (l & N & M & C).
  exists l. split; auto. split; auto. intros m. rewrite M. unfold is_active, active.
  split; intros (d & H).
  - exists d. rewrite node_iff. destruct H. split; auto; lia.
  - exists d. rewrite node_iff in H. destruct H as [H1 H2]. split; auto. lia.
Qed.

Lemma active_list_length t l l' : active_list t l -> active_list t l' -> length l = length l'.
Proof.
  intros [N M] [N' M']. apply Nat.le_antisymm; apply NoDup_incl_length; auto;
    intros x Hx; [apply M', M|apply M, M']; auto.
Qed.

Lemma climb_root t : tinv t -> forall k n d, node t n = Ok d -> depth d = Z.of_nat k ->
  climbs t n k 0.
Proof.
  intros I k. induction k as [|k IH]; intros n d H E; apply node_iff in H as [H L].
  - destruct (i_parent t I n d H L) as [(A & _)|(_ & _ & dp & _ & B & C)]; [exact A|lia].
  - destruct (i_parent t I n d H L) as [(_ & _ & A)|(_ & _ & dp & A & B & C)]; [lia|].
    exists d. split; [apply node_iff; auto|]. apply (IH _ dp); [apply node_iff; auto|lia].
Qed.

Lemma well_formed t : reachable t -> forall n d, node t n = Ok d ->
  0 <= depth d /\ (n = 0 <-> parent d = -1) /\
  (parent d <> -1 -> exists p, node t (parent d) = Ok p /\ depth d = depth p + 1) /\
  climbs t n (Z.to_nat (depth d)) 0 /\
  exists l, children t n l /\ num_open_children t n = Ok (Z.of_nat (length l)) /\ (length l <= 2)%nat.
Proof.
  intros R n d H. apply reachable_tinv in R.
  assert (H' := H). apply node_iff in H' as [E L]. split; auto. split; [|split; [|split]].
  - destruct (i_parent t R n d E L) as [(A & B & _)|(A & B & _)]; lia.
  - intros Ep. destruct (parent_active t n d R H Ep) as (dp & A & B). exists dp. split; auto. lia.
  - apply (climb_root t R _ n d H). lia.
  - destruct (children_list t n) as (l & Cl & Cn). exists l. split; auto.
    destruct (count_getter t n R) as [G1 G2]; [exists d; auto|]. rewrite G1, Cn. split; auto. lia.
Qed.

(** ** Adding *)
Lemma reachable_step t o t' : reachable t -> tstep t o = Ok t' -> reachable t'.
Proof.
  intros [ops H] S. exists (ops ++ [o]). unfold trun in *. rewrite foldM_app, H. cbn. rewrite S. auto.
Qed.

Lemma add_spec t p var down x t' n : reachable t -> AddNode t p var down x = Ok (t', n) ->
  exists dp k, node t p = Ok dp /\ num_open_children t p = Ok k /\ k < 2 /\
    reachable t' /\ 0 <= n /\ ~ active t n /\
    node t' n = Ok (mkNode p (depth dp + 1) 0 0 var down x dminf [] []) /\
    num_open_children t' n = Ok 0 /\
    (forall m, m <> n -> node t' m = node t m) /\
    (forall m, active t m -> m <> p -> num_open_children t' m = num_open_children t m) /\
    num_open_children t' p = Ok (k + 1) /\
    num_closed_nodes t' = num_closed_nodes t /\
    num_added_nodes t' = num_added_nodes t +
      (if existsb (fun m => match node t (Z.of_nat m) with Ok _ => false | _ => true end)
            (seq 0 (Z.to_nat (num_added_nodes t + 1))) then 0 else 1).
Proof.
  intros R H. assert (R' : reachable t').
  { eapply reachable_step with (o := TAdd p var down x); eauto. cbn. rewrite H. auto. }
  assert (I := R). assert (I' := R'). apply reachable_tinv in I, I'.
  destruct (add_accepted _ _ _ _ _ _ _ I H) as (dp & A & B).
  destruct (add_ok t p var down x dp I A B) as (t2 & n2 & E & _ & N0 & NA & NN & NO & NC & NC0 & CL & CA & LEN).
  rewrite E in H. inversion H; subst t2 n2; clear H.
  assert (Ap : active t p) by (exists dp; auto).
  destruct (count_getter t p I Ap) as [G _].
  exists dp, (cnt (is_child p) (nodes t)). split; auto. split; auto. split; auto. split; auto. split; auto.
  split; [intros [e He]; congruence|]. split; auto.
  assert (ACT : forall m, active t m -> m <> n).
  { intros m [e He] ->. congruence. }
  assert (ACT' : forall m, active t m -> active t' m).
  { intros m Hm. pose proof (ACT m Hm). destruct Hm as [e He]. exists e. rewrite NO; auto. }
  split; [|split; [auto|split; [|split; [|split; [auto|]]]]].
  - destruct (count_getter t' n I') as [G' _]; [eexists; eauto|]. rewrite G', NC0. auto.
  - intros m Hm Hp. destruct (count_getter t m I Hm) as [G1 _].
    destruct (count_getter t' m I' (ACT' m Hm)) as [G2 _]. rewrite G1, G2, NC by auto.
    destruct (Z.eqb_spec m p); [congruence|]. cbn. f_equal. lia.
  - destruct (count_getter t' p I' (ACT' p Ap)) as [G2 _]. rewrite G2, NC, Z.eqb_refl by auto. auto.
  - unfold num_added_nodes. replace (Z.to_nat (Z.of_nat (length (nodes t)) - 1 + 1)) with (length (nodes t)) by lia.
    destruct LEN as [[L1 (m & Hm & Hn)]|[L1 Hall]].
    + replace (existsb _ _) with true; [lia|]. symmetry. apply existsb_exists.
      exists (Z.to_nat m). rewrite in_seq. split; [lia|]. rewrite Z2Nat.id by lia. rewrite Hn. auto.
    + replace (existsb _ _) with false; [lia|]. symmetry. apply not_true_iff_false.
      intros X. apply existsb_exists in X as (m & Hm & Y). apply in_seq in Hm.
      destruct (Hall (Z.of_nat m)) as [e He]; [lia|]. rewrite He in Y. discriminate.
Qed.

Lemma add_defined t p var down x : reachable t ->
  (forall k, active t p -> num_open_children t p = Ok k -> k < 2 ->
     exists r, AddNode t p var down x = Ok r) /\
  ((exists r, AddNode t p var down x = Ok r) \/ AddNode t p var down x = Abort).
Proof.
  intros R. apply reachable_tinv in R.
  assert (A1 : forall k, active t p -> num_open_children t p = Ok k -> k < 2 ->
     exists r, AddNode t p var down x = Ok r).
  { intros k [dp Hp] Hk L. destruct (count_getter t p R) as [G _]; [exists dp; auto|].
    rewrite G in Hk. inversion Hk; subst.
    destruct (add_ok t p var down x dp R Hp L) as (t' & n & E & _). eauto. }
  split; auto.
  destruct (node_cases t p) as [[dp Hp]|Hp].
  2:{ right. unfold AddNode. destruct (check_active_cases t p) as [(d & E & L & C)|[C _]].
      - assert (node t p = Ok d) by (apply node_iff; auto). congruence.
      - rewrite C. auto. }
  destruct (count_getter t p R) as [G G2]; [exists dp; auto|].
  destruct (Z.lt_ge_cases (cnt (is_child p) (nodes t)) 2) as [L|L].
  { left. apply (A1 _ (ex_intro _ _ Hp) G L). }
  right. unfold AddNode.
  rewrite (proj2 (check_active_ok t p)) by (exists dp; auto). cbn [bind].
  destruct (tinv_grow t R) as (I & NF & GN & GA & GC & GCL & GCNT & GL).
  set (g := grow t) in *.
  destruct (i_free g I) as (fl & F1 & F2 & F3).
  assert (EX : exists n dn fl', fl = n :: fl' /\ next_free g = n /\ at_ (nodes g) n = Ok dn).
  { inversion F1; subst; [congruence|]. eauto 10. }
  destruct EX as (n & dn & fl' & -> & EN & En). rewrite EN, En. cbn [bind].
  assert (Ln : depth dn < 0) by (apply (F3 n dn En); cbn; auto).
  unfold check. replace (0 <=? depth dn) with false by lia. cbn [bind negb].
  pose proof (at_in_range _ _ _ En) as Rn.
  destruct (set_at_range (nodes g) n (with_branch var down x (with_parent p dn)) Rn) as [ns1 S1].
  rewrite S1. cbn [bind].
  assert (Hp' := Hp). apply node_iff in Hp' as [Ep Lp].
  assert (Npn : p <> n) by (intros ->; apply GA in Ep; rewrite En in Ep; inversion Ep; subst; lia).
  rewrite (at_set_at _ _ _ _ p S1). destruct (Z.eqb_spec p n); [congruence|].
  rewrite (GA _ _ Ep). cbn [bind]. rewrite (at_set_at _ _ _ _ n S1), Z.eqb_refl. cbn [bind].
  assert (L1 : length ns1 = length (nodes g)) by (eapply set_at_length; eauto).
  match goal with |- bind (set_at ns1 n ?e) _ = _ => destruct (set_at_range ns1 n e) as [ns2 S2]; [rewrite L1; auto|] end.
  rewrite S2. cbn [bind]. unfold num_open_children in G. rewrite (GC _ _ G). cbn [bind].
  replace (0 <=? cnt (is_child p) (nodes t)) with true by lia. cbn [bind].
  replace (cnt (is_child p) (nodes t) <=? 1) with false by lia. auto.
Qed.

(** ** Closing *)
Lemma close_leaf t n d : reachable t -> node t n = Ok d -> n <> 0 ->
  num_open_children t n = Ok 0 ->
  exists t' l, CloseNode t n = Ok t' /\ reachable t' /\ finished_chain t n l /\
    (forall m, In m l -> ~ active t' m) /\
    (forall m, ~ In m l -> node t' m = node t m) /\
    num_closed_nodes t' = num_closed_nodes t + Z.of_nat (length l) /\
    NoDup l /\
    num_added_nodes t' = num_added_nodes t /\
    (forall m k, ~ In m l -> active t m -> num_open_children t m = Ok k ->
       num_open_children t' m =
       Ok (k - match node t (last l 0) with Ok e => if m =? parent e then 1 else 0 | _ => 0 end)).
Proof.
  intros R H N0 C0. assert (I := R). apply reachable_tinv in I.
  destruct (count_getter t n I) as [G _]; [exists d; auto|]. rewrite G in C0.
  assert (C0' : cnt (is_child n) (nodes t) = 0) by (inversion C0; auto).
  destruct (close_ok t n d I H N0 C0') as (t' & l & E & I' & F & A1 & A2 & ND & A3 & CL & CA & LN & e & He & A4).
  exists t', l. split; auto.
  assert (R' : reachable t') by (eapply reachable_step with (o := TClose n); eauto).
  split; auto. split; auto. split; [intros m Hm [x Hx]; rewrite A1 in Hx by auto; discriminate|].
  split; auto. split; auto. split; auto. split; [unfold num_added_nodes; lia|].
  intros m k Hm Ha Hk. destruct (count_getter t m I Ha) as [G1 _]. rewrite G1 in Hk. inversion Hk; subst k.
  destruct (count_getter t' m I') as [G2 _].
  { destruct Ha as [x Hx]. exists x. rewrite A2; auto. }
  rewrite G2, He, A4 by auto. auto.
Qed.

Lemma close_inner t n : reachable t -> active t n -> n <> 0 ->
  num_open_children t n = Ok 2 -> CloseNode t n = Ok t.
Proof.
  intros R [d H] N0 C. apply reachable_tinv in R.
  destruct (count_getter t n R) as [G _]; [exists d; auto|]. rewrite G in C. inversion C.
  apply (close_two t n d R H N0); auto.
Qed.

Lemma tree_empty t : reachable t -> (TreeIsEmpty t = true <-> forall n, ~ active t n).
Proof.
  intros R. apply reachable_tinv in R. unfold TreeIsEmpty. rewrite Z.eqb_eq.
  pose proof (i_size t R) as SZ. destruct (at_range (nodes t) 0) as [d Hd]; [lia|].
  split.
  - intros E n [dn Hn]. apply node_iff in Hn as [Hn Ln].
    destruct (active_root' t n dn R Hn Ln) as (d0 & E0 & L0).
    destruct (i_free t R) as (fl & F1 & F2 & F3). rewrite E in F1. inversion F1; subst.
    assert (In 0 (0 :: l)) by (cbn; auto). apply (F3 0 d0 E0) in H1. lia.
  - intros H. apply (i_root t R d Hd). destruct (Z.ltb_spec (depth d) 0); auto.
    exfalso. apply (H 0). exists d. apply node_iff; auto.
Qed.

Lemma close_defined t n k : reachable t -> active t n -> n <> 0 ->
  num_open_children t n = Ok k -> k = 0 \/ k = 2 -> exists t', CloseNode t n = Ok t'.
Proof.
  intros R [d H] N0 Hk [->| ->].
  - destruct (close_leaf t n d R H N0 Hk) as (t' & l & E & _). eauto.
  - exists t. apply close_inner; auto. exists d; auto.
Qed.

Lemma close_root t k : reachable t -> active t 0 ->
  num_open_children t 0 = Ok k -> k = 0 \/ k = 2 -> CloseNode t 0 = UB.
Proof.
  intros R [d H] Hk K. apply reachable_tinv in R.
  destruct (count_getter t 0 R) as [G _]; [exists d; auto|]. rewrite G in Hk. inversion Hk.
  apply (close_root_ub t d R H). lia.
Qed.

(** ** Paths *)
Lemma path_fun t n l l' : path t n l -> path t n l' -> l = l'.
Proof.
  intros P. revert l'. induction P as [n d H E|n d l H E P IH]; intros l' P'; inversion P'; subst;
    rewrite H in H0; inversion H0; subst; try congruence.
  f_equal. auto.
Qed.

Lemma path_exists t : tinv t -> forall k n d, node t n = Ok d -> depth d = Z.of_nat k ->
  exists ids l, path t n l /\ length ids = length l /\ NoDup ids /\
   forall m, In m ids -> exists dm, node t m = Ok dm /\ depth dm <= depth d.
Proof.
  intros I k. induction k as [|k IH]; intros n d H E; assert (H' := H); apply node_iff in H' as [H' L].
  - destruct (i_parent t I n d H' L) as [(_ & A & _)|(_ & _ & dp & _ & B & C)]; [|lia].
    exists [n], [d]. split; [constructor; auto|]. split; auto. split; [repeat constructor; auto|].
    intros m [<-|[]]. exists d. split; auto. lia.
  - destruct (i_parent t I n d H' L) as [(_ & _ & A)|(_ & P & dp & A & B & C)]; [lia|].
    destruct (IH (parent d) dp) as (ids & l & P1 & P2 & P3 & P4); [apply node_iff; auto|lia|].
    exists (n :: ids), (d :: l). split; [constructor; auto; lia|]. split; [cbn; auto|].
    split.
    + constructor; auto. intros Hin. apply P4 in Hin as (x & X1 & X2). rewrite H in X1. inversion X1; subst. lia.
    + intros m [<-|Hm]; [exists d; split; auto; lia|].
      apply P4 in Hm as (x & X1 & X2). exists x. split; auto. lia.
Qed.

Lemma path_bound t n l : tinv t -> path t n l -> (length l <= length (nodes t))%nat.
Proof.
  intros I P. assert (A : exists d, node t n = Ok d) by (inversion P; eauto).
  destruct A as [d Hd]. assert (H := Hd). apply node_iff in H as [H L].
  destruct (path_exists t I (Z.to_nat (depth d)) n d Hd) as (ids & l' & P1 & P2 & P3 & P4); [lia|].
  rewrite (path_fun t n l l' P P1), <- P2.
  rewrite <- (seq_length (length (nodes t)) 0).
  rewrite <- (map_length Z.of_nat).
  apply NoDup_incl_length; auto. intros m Hm. apply P4 in Hm as (x & X & _).
  apply node_iff in X as [X _]. apply at_in_range in X. apply in_map_iff.
  exists (Z.to_nat m). split; [lia|]. apply in_seq. lia.
Qed.

Lemma walk_path step t n l : path t n l -> forall fuel b, (length l < fuel)%nat ->
  walk fuel step t n b = foldM (fun b d => step d b) b l.
Proof.
  intros P. induction P as [n d H E|n d l H E P IH]; intros [|fuel] b Fu; cbn in Fu; try lia.
  - apply node_iff in H as [H L]. pose proof (at_in_range _ _ _ H). cbn [walk foldM].
    replace (n =? -1) with false by lia. rewrite H. cbn [bind].
    destruct (step d b); cbn [bind]; auto. rewrite E. destruct fuel; [lia|]. reflexivity.
  - apply node_iff in H as [H L]. pose proof (at_in_range _ _ _ H). cbn [walk foldM].
    replace (n =? -1) with false by lia. rewrite H. cbn [bind].
    destruct (step d b); cbn [bind]; auto. apply IH. lia.
Qed.

(** ** Bounds as folds over claims *)
Definition lclaims (d : node_data) : list (Z * double) :=
  implied_lower d ++
  (if negb (branch_down d) && (0 <=? branch_variable d)
   then [(branch_variable d, dceil (branch_value d))] else []).
Definition uclaims (d : node_data) : list (Z * double) :=
  implied_upper d ++
  (if branch_down d then [(branch_variable d, dfloor (branch_value d))] else []).

Definition apply_claims f (b : list double) (cs : list (Z * double)) :=
  foldM (fun b e => tighten f b (fst e) (snd e)) b cs.

Lemma lower_step_claims d b : lower_step d b = apply_claims dmax b (lclaims d).
Proof.
  unfold lower_step, lclaims, apply_claims. rewrite foldM_app. destruct (foldM _ b (implied_lower d)); auto.
  cbn [bind]. destruct (_ && _); auto. cbn. destruct (tighten _ _ _ _); auto.
Qed.
Lemma upper_step_claims d b : upper_step d b = apply_claims dmin b (uclaims d).
Proof.
  unfold upper_step, uclaims, apply_claims. rewrite foldM_app. destruct (foldM _ b (implied_upper d)); auto.
  cbn [bind]. destruct (branch_down d); auto. cbn. destruct (tighten _ _ _ _); auto.
Qed.

Lemma fold_claims f (g : node_data -> list (Z * double)) step l : forall b,
  (forall d b, step d b = apply_claims f b (g d)) ->
  foldM (fun b d => step d b) b l = apply_claims f b (flat_map g l).
Proof.
  intros b H. revert b. induction l as [|d l IH]; intros b; auto.
  cbn [foldM flat_map]. unfold apply_claims. rewrite foldM_app. rewrite H. unfold apply_claims.
  destruct (foldM _ b (g d)); auto. cbn [bind]. apply IH.
Qed.

Lemma lower_as_claims t n l root : reachable t -> path t n l ->
  RetrieveLower t n root = apply_claims dmax root (flat_map lclaims l).
Proof.
  intros R P. apply reachable_tinv in R. unfold RetrieveLower.
  rewrite (proj2 (check_active_ok t n)) by (inversion P; eexists; eauto). cbn [bind].
  rewrite (walk_path lower_step t n l P) by (pose proof (path_bound t n l R P); lia).
  apply fold_claims, lower_step_claims.
Qed.
Lemma upper_as_claims t n l root : reachable t -> path t n l ->
  RetrieveUpper t n root = apply_claims dmin root (flat_map uclaims l).
Proof.
  intros R P. apply reachable_tinv in R. unfold RetrieveUpper.
  rewrite (proj2 (check_active_ok t n)) by (inversion P; eexists; eauto). cbn [bind].
  rewrite (walk_path upper_step t n l P) by (pose proof (path_bound t n l R P); lia).
  apply fold_claims, upper_step_claims.
Qed.

Definition on_col (j : Z) (cs : list (Z * double)) : list double :=
  map snd (filter (fun e => fst e =? j) cs).

Lemma apply_claims_ok f cs : forall b,
  Forall (fun e => 0 <= fst e < Z.of_nat (length b)) cs ->
  exists b', apply_claims f b cs = Ok b' /\ length b' = length b /\
    forall j x, at_ b j = Ok x -> at_ b' j = Ok (fold_left f (on_col j cs) x).
Proof.
  unfold apply_claims. induction cs as [|[k v] cs IH]; intros b H.
  - exists b. auto.
  - inversion H as [|? ? H1 H2]; subst. cbn [fst snd] in *. cbn [foldM fst snd].
    unfold tighten at 1. destruct (at_range b k H1) as [y Hy]. rewrite Hy. cbn [bind].
    destruct (set_at_range b k (f y v) H1) as [b1 S]. rewrite S. cbn [bind].
    assert (L : length b1 = length b) by (eapply set_at_length; eauto).
    destruct (IH b1) as (b' & E & L' & A); [rewrite L; auto|].
    exists b'. split; auto. split; [congruence|]. intros j x Hj.
    unfold on_col. cbn [filter fst]. destruct (Z.eqb_spec k j) as [->|Hne].
    + cbn [map snd fold_left]. rewrite Hj in Hy. inversion Hy; subst. apply A.
      rewrite (at_set_at _ _ _ _ j S), Z.eqb_refl. auto.
    + apply A. rewrite (at_set_at _ _ _ _ j S). destruct (Z.eqb_spec j k); [congruence|auto].
Qed.

Lemma dmax_cases a b : dmax a b = a \/ dmax a b = b.
Proof. unfold dmax. destruct (dltb a b); auto. Qed.
Lemma dmin_cases a b : dmin a b = a \/ dmin a b = b.
Proof. unfold dmin. destruct (dltb b a); auto. Qed.

Lemma fold_max xs : forall x, is_nan x = false -> Forall (fun y => is_nan y = false) xs ->
  let r := fold_left dmax xs x in
  (r = x \/ In r xs) /\ is_nan r = false /\ dleb x r = true /\ forall y, In y xs -> dleb y r = true.
Proof.
  induction xs as [|y xs IH]; intros x Hx H; cbn [fold_left].
  - split; [auto|]. split; auto. split; [apply dleb_refl; auto|intros ? []].
  - inversion H; subst. assert (Nm : is_nan (dmax x y) = false) by (destruct (dmax_cases x y) as [->| ->]; auto).
    destruct (IH (dmax x y) Nm H3) as (A & B & C & D). split; [|split; [auto|split]].
    + destruct A as [A|A]; [|cbn; auto]. rewrite A. destruct (dmax_cases x y) as [->| ->]; cbn; auto.
    + eapply dleb_trans; [|exact C]. apply dmax_le_l; auto.
    + intros z [<-|Hz]; auto. eapply dleb_trans; [|exact C]. apply dmax_le_r; auto.
Qed.

Lemma fold_min xs : forall x, is_nan x = false -> Forall (fun y => is_nan y = false) xs ->
  let r := fold_left dmin xs x in
  (r = x \/ In r xs) /\ is_nan r = false /\ dleb r x = true /\ forall y, In y xs -> dleb r y = true.
Proof.
  induction xs as [|y xs IH]; intros x Hx H; cbn [fold_left].
  - split; [auto|]. split; auto. split; [apply dleb_refl; auto|intros ? []].
  - inversion H; subst. assert (Nm : is_nan (dmin x y) = false) by (destruct (dmin_cases x y) as [->| ->]; auto).
    destruct (IH (dmin x y) Nm H3) as (A & B & C & D). split; [|split; [auto|split]].
    + destruct A as [A|A]; [|cbn; auto]. rewrite A. destruct (dmin_cases x y) as [->| ->]; cbn; auto.
    + eapply dleb_trans; [exact C|]. apply dmin_le_l; auto.
    + intros z [<-|Hz]; auto. eapply dleb_trans; [exact C|]. apply dmin_le_r; auto.
Qed.

Lemma nan_floor x : is_nan (dfloor x) = is_nan x.
Proof.
  destruct x as [s|s| |s m e]; auto. unfold dfloor. destruct (0 <=? e); auto.
  unfold dint_. destruct (_ / _); auto.
Qed.
Lemma nan_opp x : is_nan (dopp x) = is_nan x.
Proof. destruct x; auto. Qed.
Lemma nan_ceil x : is_nan (dceil x) = is_nan x.
Proof. unfold dceil. rewrite nan_opp, nan_floor, nan_opp. auto. Qed.

(** claims of a well-formed path are in range and not NaN *)
Definition claims_ok (n : Z) (cs : list (Z * double)) : Prop :=
  Forall (fun e => 0 <= fst e < n /\ is_nan (snd e) = false) cs.

Lemma on_col_in j cs x : In x (on_col j cs) <-> In (j, x) cs.
Proof.
  unfold on_col. rewrite in_map_iff. split.
  - intros ([k y] & E & H). apply filter_In in H as [H K]. cbn in *. apply Z.eqb_eq in K. subst; auto.
  - intros H. exists (j, x). split; auto. apply filter_In. cbn. rewrite Z.eqb_refl. auto.
Qed.

Lemma on_col_nan n j cs : claims_ok n cs -> Forall (fun y => is_nan y = false) (on_col j cs).
Proof.
  intros H. apply Forall_forall. intros x Hx. apply on_col_in in Hx.
  unfold claims_ok in H. rewrite Forall_forall in H. apply (H (j, x)); auto.
Qed.

Lemma path_claims_ok n l : Forall (data_ok n) l ->
  claims_ok n (flat_map lclaims l) /\ claims_ok n (flat_map uclaims l).
Proof.
  unfold claims_ok. induction 1 as [|d l D H [IH1 IH2]]; [split; constructor|].
  destruct D as (D1 & D2 & D3 & D4 & D5). cbn [flat_map]. unfold lclaims at 1, uclaims at 1.
  split; apply Forall_app; split; auto; apply Forall_app; split; auto.
  - destruct (branch_down d) eqn:E1; cbn; [constructor|].
    destruct (Z.leb_spec 0 (branch_variable d)); [|constructor].
    repeat constructor; cbn; auto; try lia. rewrite nan_ceil. auto.
  - destruct (branch_down d) eqn:E1; [|constructor].
    repeat constructor; cbn; auto; try lia. rewrite nan_floor. auto.
Qed.

Lemma lclaims_spec l j x : 0 <= j -> (In (j, x) (flat_map lclaims l) <-> lower_claims l j x).
Proof.
  intros J. rewrite in_flat_map. unfold lower_claims, lclaims. split.
  - intros (d & H1 & H2). exists d. split; auto. apply in_app_or in H2 as [H2|H2]; auto.
    destruct (branch_down d); cbn in H2; [tauto|]. destruct (Z.leb_spec 0 (branch_variable d)); [|destruct H2].
    destruct H2 as [H2|[]]. inversion H2; subst. auto.
  - intros (d & H1 & H2). exists d. split; auto. apply in_or_app. destruct H2 as [H2|(H2 & H3 & H4)]; auto.
    right. rewrite H2. subst. replace (0 <=? branch_variable d) with true by lia. cbn. auto.
Qed.
Lemma uclaims_spec l j x : (In (j, x) (flat_map uclaims l) <-> upper_claims l j x).
Proof.
  rewrite in_flat_map. unfold upper_claims, uclaims. split.
  - intros (d & H1 & H2). exists d. split; auto. apply in_app_or in H2 as [H2|H2]; auto.
    destruct (branch_down d); cbn in H2; [|tauto].
    destruct H2 as [H2|[]]. inversion H2; subst. auto.
  - intros (d & H1 & H2). exists d. split; auto. apply in_or_app. destruct H2 as [H2|(H2 & H3 & H4)]; auto.
    right. rewrite H2. subst. cbn. auto.
Qed.

Lemma no_nans_at b j x : no_nans b -> at_ b j = Ok x -> is_nan x = false.
Proof. intros H E. apply at_In in E. unfold no_nans in H. rewrite Forall_forall in H. auto. Qed.

(** C14 *)
Lemma lower_bounds t n l root : reachable t -> path t n l ->
  Forall (data_ok (Z.of_nat (length root))) l -> no_nans root ->
  exists b, RetrieveLower t n root = Ok b /\ length b = length root /\
    forall j r, at_ root j = Ok r ->
      exists x, at_ b j = Ok x /\ largest r (lower_claims l j) x.
Proof.
  intros R P D N. rewrite (lower_as_claims t n l root R P).
  destruct (path_claims_ok _ _ D) as [C _].
  destruct (apply_claims_ok dmax (flat_map lclaims l) root) as (b & E & L & A).
  { eapply Forall_impl; [|exact C]. cbn. tauto. }
  exists b. split; auto. split; auto. intros j r Hr. eexists. split; [apply A; eauto|].
  destruct (fold_max (on_col j (flat_map lclaims l)) r (no_nans_at _ _ _ N Hr) (on_col_nan _ j _ C))
    as (F1 & F2 & F3 & F4).
  pose proof (at_in_range _ _ _ Hr) as J.
  split; [|split; auto].
  - destruct F1 as [F1|F1]; auto. right. apply on_col_in, lclaims_spec in F1; auto. lia.
  - intros y Hy. apply F4. apply on_col_in, lclaims_spec; auto. lia.
Qed.

Lemma upper_bounds t n l root : reachable t -> path t n l ->
  Forall (data_ok (Z.of_nat (length root))) l -> no_nans root ->
  exists b, RetrieveUpper t n root = Ok b /\ length b = length root /\
    forall j r, at_ root j = Ok r ->
      exists x, at_ b j = Ok x /\ smallest r (upper_claims l j) x.
Proof.
  intros R P D N. rewrite (upper_as_claims t n l root R P).
  destruct (path_claims_ok _ _ D) as [_ C].
  destruct (apply_claims_ok dmin (flat_map uclaims l) root) as (b & E & L & A).
  { eapply Forall_impl; [|exact C]. cbn. tauto. }
  exists b. split; auto. split; auto. intros j r Hr. eexists. split; [apply A; eauto|].
  destruct (fold_min (on_col j (flat_map uclaims l)) r (no_nans_at _ _ _ N Hr) (on_col_nan _ j _ C))
    as (F1 & F2 & F3 & F4).
  split; [|split; auto].
  - destruct F1 as [F1|F1]; auto. right. apply on_col_in, uclaims_spec in F1; auto.
  - intros y Hy. apply F4. apply on_col_in, uclaims_spec; auto.
Qed.

Lemma path_of_active t n : reachable t -> active t n -> exists l, path t n l.
Proof.
  intros R [d H]. apply reachable_tinv in R. assert (H' := H). apply node_iff in H' as [_ L].
  destruct (path_exists t R (Z.to_nat (depth d)) n d H) as (ids & l & P & _); [lia|]. eauto.
Qed.

(** C15 *)
Lemma bounds_monotone t c d ncols lo up : reachable t -> node t c = Ok d -> c <> 0 ->
  path_ok t c ncols -> Z.of_nat (length lo) = ncols -> Z.of_nat (length up) = ncols ->
  no_nans lo -> no_nans up ->
  exists lc uc lp up',
    RetrieveLower t c lo = Ok lc /\ RetrieveUpper t c up = Ok uc /\
    RetrieveLower t (parent d) lo = Ok lp /\ RetrieveUpper t (parent d) up = Ok up' /\
    (forall j r x y, at_ lo j = Ok r -> at_ lp j = Ok x -> at_ lc j = Ok y ->
        dleb r x = true /\ dleb x y = true) /\
    (forall j r x y, at_ up j = Ok r -> at_ up' j = Ok x -> at_ uc j = Ok y ->
        dleb x r = true /\ dleb y x = true).
Proof.
  intros R H C0 (l & P & D) L1 L2 N1 N2. subst ncols.
  assert (I := R). apply reachable_tinv in I.
  assert (PE : parent d <> -1).
  { assert (H' := H). apply node_iff in H' as [H1 H2].
    destruct (i_parent t I c d H1 H2) as [(? & _)|(_ & ? & _)]; [congruence|lia]. }
  inversion P as [? d' Hd' E'|? d' lp0 Hd' E' P']; subst; rewrite H in Hd'; inversion Hd'; subst d'; [congruence|].
  inversion D as [|? ? D1 D2]; subst.
  destruct (lower_bounds t c _ lo R P D N1) as (lc & A1 & A2 & A3).
  destruct (upper_bounds t c (d :: lp0) up R P) as (uc & B1 & B2 & B3); [rewrite L2; constructor; auto|auto|].
  destruct (lower_bounds t (parent d) lp0 lo R P') as (lp & A4 & A5 & A6); auto.
  destruct (upper_bounds t (parent d) lp0 up R P') as (up' & B4 & B5 & B6); auto.
  { rewrite L2; auto. }
  exists lc, uc, lp, up'. do 4 (split; auto). split.
  - intros j r x y Hr Hx Hy. destruct (A3 j r Hr) as (y' & Y1 & Y2 & Y3 & Y4).
    destruct (A6 j r Hr) as (x' & X1 & X2 & X3 & X4). rewrite Hx in X1. rewrite Hy in Y1.
    inversion X1; inversion Y1; subst x' y'. split; auto.
    destruct X2 as [->|(d' & Z1 & Z2)]; auto. apply Y4. exists d'. split; auto. cbn; auto.
  - intros j r x y Hr Hx Hy. destruct (B3 j r Hr) as (y' & Y1 & Y2 & Y3 & Y4).
    destruct (B6 j r Hr) as (x' & X1 & X2 & X3 & X4). rewrite Hx in X1. rewrite Hy in Y1.
    inversion X1; inversion Y1; subst x' y'. split; auto.
    destruct X2 as [->|(d' & Z1 & Z2)]; auto. apply Y4. exists d'. split; auto. cbn; auto.
Qed.

(** ** C16 *)
Lemma path_mono t t' n l : (forall m d, node t m = Ok d -> node t' m = Ok d) ->
  path t n l -> path t' n l.
Proof.
  intros H P. induction P as [n d A B|n d l A B P IH]; [apply path_root|apply path_up]; auto.
Qed.

Lemma valid_floor x : dvalid x = true -> dvalid (dfloor x) = true.
Proof.
  intros V. destruct (is_finite x) eqn:F; [apply dfloor_spec; auto|].
  destruct x; try discriminate; auto.
Qed.
Lemma valid_opp x : dvalid x = true -> dvalid (dopp x) = true.
Proof. destruct x; auto. Qed.
Lemma valid_ceil x : dvalid x = true -> dvalid (dceil x) = true.
Proof. intros V. unfold dceil. apply valid_opp, valid_floor, valid_opp, V. Qed.

Lemma claims_valid l : Forall data_valid l ->
  (forall j x, lower_claims l j x -> dvalid x = true) /\
  (forall j x, upper_claims l j x -> dvalid x = true).
Proof.
  intros H. rewrite Forall_forall in H. split; intros j x (d & Hd & C); apply H in Hd as (A & B & V).
  - destruct C as [C|(_ & _ & ->)]; [|apply valid_ceil; auto].
    rewrite Forall_forall in A. apply (A (j, x)); auto.
  - destruct C as [C|(_ & _ & ->)]; [|apply valid_floor; auto].
    rewrite Forall_forall in B. apply (B (j, x)); auto.
Qed.

Lemma smallest_int z r claims x : smallest r claims x -> dvalid r = true ->
  (forall y, claims y -> dvalid y = true) ->
  (int_le z x <-> int_le z r /\ forall y, claims y -> int_le z y).
Proof.
  intros (A & B & C) Vr Vc.
  assert (Vx : dvalid x = true) by (destruct A as [->|A]; auto).
  split.
  - intros H. split; [eapply int_le_mono with (x := x); eauto|].
    intros y Hy. eapply int_le_mono with (x := x); eauto.
  - intros [H1 H2]. destruct A as [->|A]; auto.
Qed.
Lemma largest_int z r claims x : largest r claims x -> dvalid r = true ->
  (forall y, claims y -> dvalid y = true) ->
  (int_ge z x <-> int_ge z r /\ forall y, claims y -> int_ge z y).
Proof.
  intros (A & B & C) Vr Vc.
  assert (Vx : dvalid x = true) by (destruct A as [->|A]; auto).
  split.
  - intros H. split; [eapply int_ge_mono with (x := x); eauto|].
    intros y Hy. eapply int_ge_mono with (x := x); eauto.
  - intros [H1 H2]. destruct A as [->|A]; auto.
Qed.

Lemma all_valid_at b j x : all_valid b -> at_ b j = Ok x -> dvalid x = true.
Proof. intros H E. apply at_In in E. unfold all_valid in H. rewrite Forall_forall in H. auto. Qed.

Lemma finite_not_nan v : is_finite v = true -> is_nan v = false.
Proof. destruct v; auto; discriminate. Qed.

Lemma lower_same t l d root bl bd n m :
  reachable t -> path t n l -> path t m (d :: l) ->
  RetrieveLower t n root = Ok bl -> RetrieveLower t m root = Ok bd ->
  Forall (data_ok (Z.of_nat (length root))) (d :: l) ->
  forall j, (forall x, ~ In (j, x) (lclaims d)) -> at_ bd j = at_ bl j.
Proof.
  intros R P P' E E' D j Hj. destruct (path_claims_ok _ _ D) as [C _].
  rewrite (lower_as_claims t n l root R P) in E. rewrite (lower_as_claims t m _ root R P') in E'.
  assert (C' : claims_ok (Z.of_nat (length root)) (flat_map lclaims l)).
  { inversion D; subst. apply (path_claims_ok _ _ H2). }
  destruct (apply_claims_ok dmax (flat_map lclaims l) root) as (b & A1 & A2 & A3).
  { eapply Forall_impl; [|exact C']. cbn. tauto. }
  destruct (apply_claims_ok dmax (flat_map lclaims (d :: l)) root) as (b' & B1 & B2 & B3).
  { eapply Forall_impl; [|exact C]. cbn. tauto. }
  rewrite A1 in E. rewrite B1 in E'. inversion E; inversion E'; subst b b'.
  destruct (at_cases root j) as [[J [r Hr]]|[J Hr]].
  - rewrite (A3 j r Hr), (B3 j r Hr). f_equal. f_equal.
    cbn [flat_map]. unfold on_col. rewrite filter_app, map_app.
    replace (filter (fun e => fst e =? j) (lclaims d)) with (@nil (Z * double)); auto.
    symmetry. destruct (filter (fun e => fst e =? j) (lclaims d)) as [|[k x] r'] eqn:F; auto.
    exfalso. assert (Q : In (k, x) (filter (fun e => fst e =? j) (lclaims d))) by (rewrite F; cbn; auto).
    apply filter_In in Q as [Q1 Q2]. cbn in Q2. apply Z.eqb_eq in Q2. subst. apply (Hj x); auto.
  - destruct (at_cases bl j) as [[? _]|[_ ->]]; [lia|].
    destruct (at_cases bd j) as [[? _]|[_ ->]]; [lia|]. auto.
Qed.

Lemma upper_same t l d root bl bd n m :
  reachable t -> path t n l -> path t m (d :: l) ->
  RetrieveUpper t n root = Ok bl -> RetrieveUpper t m root = Ok bd ->
  Forall (data_ok (Z.of_nat (length root))) (d :: l) ->
  forall j, (forall x, ~ In (j, x) (uclaims d)) -> at_ bd j = at_ bl j.
Proof.
  intros R P P' E E' D j Hj. destruct (path_claims_ok _ _ D) as [_ C].
  rewrite (upper_as_claims t n l root R P) in E. rewrite (upper_as_claims t m _ root R P') in E'.
  assert (C' : claims_ok (Z.of_nat (length root)) (flat_map uclaims l)).
  { inversion D; subst. apply (path_claims_ok _ _ H2). }
  destruct (apply_claims_ok dmin (flat_map uclaims l) root) as (b & A1 & A2 & A3).
  { eapply Forall_impl; [|exact C']. cbn. tauto. }
  destruct (apply_claims_ok dmin (flat_map uclaims (d :: l)) root) as (b' & B1 & B2 & B3).
  { eapply Forall_impl; [|exact C]. cbn. tauto. }
  rewrite A1 in E. rewrite B1 in E'. inversion E; inversion E'; subst b b'.
  destruct (at_cases root j) as [[J [r Hr]]|[J Hr]].
  - rewrite (A3 j r Hr), (B3 j r Hr). f_equal. f_equal.
    cbn [flat_map]. unfold on_col. rewrite filter_app, map_app.
    replace (filter (fun e => fst e =? j) (uclaims d)) with (@nil (Z * double)); auto.
    symmetry. destruct (filter (fun e => fst e =? j) (uclaims d)) as [|[k x] r'] eqn:F; auto.
    exfalso. assert (Q : In (k, x) (filter (fun e => fst e =? j) (uclaims d))) by (rewrite F; cbn; auto).
    apply filter_In in Q as [Q1 Q2]. cbn in Q2. apply Z.eqb_eq in Q2. subst. apply (Hj x); auto.
  - destruct (at_cases bl j) as [[? _]|[_ ->]]; [lia|].
    destruct (at_cases bd j) as [[? _]|[_ ->]]; [lia|]. auto.
Qed.

Lemma floor_below v : dvalid v = true -> is_finite v = true -> fractional v ->
  dltb (dfloor v) v = true /\ dltb v (dceil v) = true.
Proof.
  intros V F Fr. destruct (dfloor_spec v V F) as (V1 & F1 & E1).
  destruct (dceil_spec v V F) as (V2 & F2 & E2). pose proof zone_pos as ZP.
  rewrite !dltb_zval by auto. rewrite E1, E2.
  assert (NE : forall z, z * zone <> zval v).
  { intros z E. apply (Fr z). unfold int_eq. destruct v; try discriminate; cbn [int_ge int_le]; lia. }
  pose proof (NE (zval v / zone)). pose proof (NE (- (- zval v / zone))).
  pose proof (Z.mul_div_le (zval v) zone ZP). pose proof (Z.mul_div_le (- zval v) zone ZP).
  lia.
Qed.

Lemma branching t p c v t1 n1 t2 n2 l lo up :
  reachable t -> AddNode t p c true v = Ok (t1, n1) -> AddNode t1 p c false v = Ok (t2, n2) ->
  is_finite v = true -> dvalid v = true ->
  path t p l -> Forall (data_ok (Z.of_nat (length lo))) l -> Forall data_valid l ->
  length up = length lo -> 0 <= c < Z.of_nat (length lo) ->
  no_nans lo -> no_nans up -> all_valid lo -> all_valid up ->
  exists lp up' ld ud lu uu,
    RetrieveLower t2 p lo = Ok lp /\ RetrieveUpper t2 p up = Ok up' /\
    RetrieveLower t2 n1 lo = Ok ld /\ RetrieveUpper t2 n1 up = Ok ud /\
    RetrieveLower t2 n2 lo = Ok lu /\ RetrieveUpper t2 n2 up = Ok uu /\
    (forall j, j <> c -> at_ ld j = at_ lp j /\ at_ ud j = at_ up' j /\
                         at_ lu j = at_ lp j /\ at_ uu j = at_ up' j) /\
    exists a b a1 b1 a2 b2,
      at_ lp c = Ok a /\ at_ up' c = Ok b /\ at_ ld c = Ok a1 /\ at_ ud c = Ok b1 /\
      at_ lu c = Ok a2 /\ at_ uu c = Ok b2 /\
      (forall z, in_interval z a b <-> in_interval z a1 b1 \/ in_interval z a2 b2) /\
      (fractional v -> (forall z, ~ (in_interval z a1 b1 /\ in_interval z a2 b2)) /\
                       dltb b1 v = true /\ dltb v a2 = true) /\
      (forall z, int_eq z v -> in_interval z a b -> in_interval z a1 b1 /\ in_interval z a2 b2).
Proof.
  intros R A1 A2 F V P D DV LU C N1 N2 V1 V2.
  destruct (add_spec _ _ _ _ _ _ _ R A1) as (dp & k & Hp & _ & _ & R1 & _ & X1 & Y1 & _ & Z1 & _).
  destruct (add_spec _ _ _ _ _ _ _ R1 A2) as (dp' & k' & Hp' & _ & _ & R2 & _ & X2 & Y2 & _ & Z2 & _).
  assert (M1 : forall m d, node t m = Ok d -> node t1 m = Ok d).
  { intros m d Hm. rewrite Z1; auto. intros ->. apply X1. exists d; auto. }
  assert (M2 : forall m d, node t1 m = Ok d -> node t2 m = Ok d).
  { intros m d Hm. rewrite Z2; auto. intros ->. apply X2. exists d; auto. }
  assert (Edp : dp' = dp) by (apply M1 in Hp; congruence). subst dp'.
  assert (PP : path t2 p l) by (apply (path_mono t); auto).
  assert (Pne : p <> -1).
  { apply node_iff in Hp as [Hp _]. apply at_in_range in Hp. lia. }
  set (d1 := mkNode p (depth dp + 1) 0 0 c true v dminf [] []) in *.
  set (d2 := mkNode p (depth dp + 1) 0 0 c false v dminf [] []) in *.
  assert (P1 : path t2 n1 (d1 :: l)) by (apply path_up; auto).
  assert (P2 : path t2 n2 (d2 :: l)) by (apply path_up; auto).
  pose proof (finite_not_nan v F) as NV.
  assert (D1 : Forall (data_ok (Z.of_nat (length lo))) (d1 :: l)).
  { constructor; auto. repeat split; cbn; auto; try lia. }
  assert (D2 : Forall (data_ok (Z.of_nat (length lo))) (d2 :: l)).
  { constructor; auto. repeat split; cbn; auto; try lia. }
  destruct (lower_bounds t2 p l lo R2 PP D N1) as (lp & Elp & Llp & Hlp).
  destruct (lower_bounds t2 n1 _ lo R2 P1 D1 N1) as (ld & Eld & Lld & Hld).
  destruct (lower_bounds t2 n2 _ lo R2 P2 D2 N1) as (lu & Elu & Llu & Hlu).
  assert (D' := D). assert (D1' := D1). assert (D2' := D2). rewrite <- LU in D', D1', D2'.
  destruct (upper_bounds t2 p l up R2 PP D' N2) as (up' & Eup & Lup & Hup).
  destruct (upper_bounds t2 n1 _ up R2 P1 D1' N2) as (ud & Eud & Lud & Hud).
  destruct (upper_bounds t2 n2 _ up R2 P2 D2' N2) as (uu & Euu & Luu & Huu).
  exists lp, up', ld, ud, lu, uu. do 6 (split; auto). split.
  { intros j Hj. repeat split.
    - apply (lower_same t2 l d1 lo lp ld p n1); auto.
    - apply (upper_same t2 l d1 up up' ud p n1); auto. intros x. cbn. intros [E|[]]. congruence.
    - apply (lower_same t2 l d2 lo lp lu p n2); auto. intros x. unfold lclaims, d2.
      cbn [implied_lower branch_down negb andb branch_variable app].
      destruct (0 <=? c); cbn; [intros [E|[]]; congruence|intros []].
    - apply (upper_same t2 l d2 up up' uu p n2); auto. }
  destruct (at_range lo c C) as [rl Hrl]. destruct (at_range up c) as [ru Hru]; [rewrite LU; auto|].
  destruct (Hlp c rl Hrl) as (a & Ea & Sa). destruct (Hld c rl Hrl) as (a1 & Ea1 & Sa1).
  destruct (Hlu c rl Hrl) as (a2 & Ea2 & Sa2).
  destruct (Hup c ru Hru) as (b & Eb & Sb). destruct (Hud c ru Hru) as (b1 & Eb1 & Sb1).
  destruct (Huu c ru Hru) as (b2 & Eb2 & Sb2).
  exists a, b, a1, b1, a2, b2. do 6 (split; auto).
  assert (Vl : dvalid rl = true) by (apply (all_valid_at lo c); auto).
  assert (Vu : dvalid ru = true) by (apply (all_valid_at up c); auto).
  assert (DV1 : Forall data_valid (d1 :: l)) by (constructor; auto; repeat split; auto; constructor).
  assert (DV2 : Forall data_valid (d2 :: l)) by (constructor; auto; repeat split; auto; constructor).
  assert (IA : forall z, int_ge z a1 <-> int_ge z a).
  { intros z. rewrite (largest_int z _ _ _ Sa1 Vl (proj1 (claims_valid _ DV1) c)).
    rewrite (largest_int z _ _ _ Sa Vl (proj1 (claims_valid _ DV) c)).
    split; intros [H1 H2]; split; auto; intros y (d & Hd & Hc); apply H2.
    - exists d. cbn; auto.
    - destruct Hd as [<-|Hd]; [|exists d; auto]. cbn in Hc. destruct Hc as [[]|(? & _)]; discriminate. }
  assert (IB : forall z, int_le z b2 <-> int_le z b).
  { intros z. rewrite (smallest_int z _ _ _ Sb2 Vu (proj2 (claims_valid _ DV2) c)).
    rewrite (smallest_int z _ _ _ Sb Vu (proj2 (claims_valid _ DV) c)).
    split; intros [H1 H2]; split; auto; intros y (d & Hd & Hc); apply H2.
    - exists d. cbn; auto.
    - destruct Hd as [<-|Hd]; [|exists d; auto]. cbn in Hc. destruct Hc as [[]|(? & _)]; discriminate. }
  assert (IA2 : forall z, int_ge z a2 <-> int_ge z a /\ int_ge z v).
  { intros z. rewrite (largest_int z _ _ _ Sa2 Vl (proj1 (claims_valid _ DV2) c)).
    rewrite (largest_int z _ _ _ Sa Vl (proj1 (claims_valid _ DV) c)).
    rewrite <- (int_ge_ceil z v V F).
    split.
    - intros [H1 H2]. split; [split; auto|].
      + intros y (d & Hd & Hc). apply H2. exists d. cbn; auto.
      + apply H2. exists d2. cbn. auto.
    - intros [[H1 H2] H3]. split; auto. intros y (d & [<-|Hd] & Hc).
      + cbn in Hc. destruct Hc as [[]|(_ & _ & ->)]. auto.
      + apply H2. exists d; auto. }
  assert (IB1 : forall z, int_le z b1 <-> int_le z b /\ int_le z v).
  { intros z. rewrite (smallest_int z _ _ _ Sb1 Vu (proj2 (claims_valid _ DV1) c)).
    rewrite (smallest_int z _ _ _ Sb Vu (proj2 (claims_valid _ DV) c)).
    rewrite <- (int_le_floor z v V F).
    split.
    - intros [H1 H2]. split; [split; auto|].
      + intros y (d & Hd & Hc). apply H2. exists d. cbn; auto.
      + apply H2. exists d1. cbn. auto.
    - intros [[H1 H2] H3]. split; auto. intros y (d & [<-|Hd] & Hc).
      + cbn in Hc. destruct Hc as [[]|(_ & _ & ->)]. auto.
      + apply H2. exists d; auto. }
  unfold in_interval. split; [|split].
  - intros z. rewrite IA, IB, IA2, IB1. split; [|tauto]. intros [G1 G2].
    destruct (floor_ceil_cover z v V F) as [K|K]; [rewrite int_le_floor in K by auto|rewrite int_ge_ceil in K by auto]; tauto.
  - intros Fr. split; [|split].
    + intros z. rewrite IA, IB, IA2, IB1. intros [[_ [_ K1]] [[_ K2] _]]. apply (Fr z). split; auto.
    + destruct Sb1 as (_ & _ & S). eapply dle_lt_trans; [|apply floor_below; eauto].
      apply S. exists d1. cbn. auto.
    + destruct Sa2 as (_ & _ & S). eapply dlt_le_trans; [apply floor_below; eauto|].
      apply S. exists d2. cbn. auto.
  - intros z [K1 K2] [G1 G2]. rewrite IA, IB, IA2, IB1. tauto.
Qed.

(** ** C17 *)
Lemma count_adds_app a b : count_adds (a ++ b) = count_adds a + count_adds b.
Proof. induction a as [|o r IH]; auto. destruct o; cbn [app count_adds]; rewrite IH; lia. Qed.

Lemma counters ops : forall t, trun tree_new ops = Ok t -> exists l, active_list t l /\
  1 + count_adds ops = num_closed_nodes t + Z.of_nat (length l).
Proof.
  induction ops as [|o ops IH] using rev_ind; intros t H.
  - inversion H; subst. destruct (active_list_exists tree_new) as (l & A & B). exists l. split; [exact A|].
    rewrite <- B. reflexivity.
  - unfold trun in H. rewrite foldM_app in H. apply bind_ok in H as (t0 & H0 & H1).
    cbn [foldM] in H1. apply bind_ok in H1 as (t1 & H1 & E). inversion E; subst t1; clear E.
    destruct (IH t0 H0) as (l0 & A0 & B0).
    destruct (active_list_exists t0) as (l0' & A0' & C0). rewrite (active_list_length t0 l0 l0' A0 A0') in B0.
    assert (I : tinv t0) by (eapply tinv_run; [apply tinv_new|exact H0]).
    destruct (active_list_exists t) as (l & A & C). exists l. split; auto.
    rewrite count_adds_app. unfold num_closed_nodes in *. rewrite <- C. rewrite <- C0 in B0.
    destruct o as [p var down x|n|n x|n lo up]; cbn [tstep count_adds] in *.
    + apply bind_ok in H1 as ([t2 m] & H1 & H2). inversion H2; subst; clear H2. cbn [fst] in *.
      destruct (add_accepted _ _ _ _ _ _ _ I H1) as (dp & E1 & E2).
      destruct (add_ok t0 p var down x dp I E1 E2) as (t3 & n3 & E & _ & _ & _ & _ & _ & _ & _ & CL & CAC & _).
      rewrite E in H1. inversion H1; subst. lia.
    + destruct (close_accepted t0 n t I H1) as (d & E1 & E2 & [E3|E3]).
      * destruct (close_ok t0 n d I E1 E2 E3) as (t3 & l3 & E & _ & _ & _ & _ & _ & _ & CL & CAC & _).
        rewrite E in H1. inversion H1; subst. lia.
      * rewrite (close_two t0 n d I E1 E2 E3) in H1. inversion H1; subst. lia.
    + unfold SetLp in H1.
      destruct (check_active_cases t0 n) as [(d & E & L & Cc)|[Cc _]]; rewrite Cc in H1; [|discriminate].
      cbn [bind] in H1. apply bind_ok in H1 as (? & _ & H1). apply bind_ok in H1 as (? & _ & H1).
      rewrite E in H1. cbn [bind] in H1. apply bind_ok in H1 as (ns & S & H1). inversion H1; subst.
      destruct (tinv_set t0 n d (with_lp x d) ns I E L eq_refl eq_refl S) as (_ & _ & _ & _ & K & _).
      cbn [nodes closed]. lia.
    + unfold SetImplied in H1.
      destruct (check_active_cases t0 n) as [(d & E & L & Cc)|[Cc _]]; rewrite Cc in H1; [|discriminate].
      cbn [bind] in H1. apply bind_ok in H1 as (? & _ & H1). apply bind_ok in H1 as (? & _ & H1).
      rewrite E in H1. cbn [bind] in H1. apply bind_ok in H1 as (ns & S & H1). inversion H1; subst.
      destruct (tinv_set t0 n d (with_implied lo up d) ns I E L eq_refl eq_refl S) as (_ & _ & _ & _ & K & _).
      cbn [nodes closed]. lia.
Qed.

(** Storage never shrinks and grows only when every slot is in use. *)
Lemma step_size t o t' : tinv t -> tstep t o = Ok t' ->
  length (nodes t') = length (nodes t) \/
  (length (nodes t') = S (length (nodes t)) /\ cnt is_active (nodes t') = Z.of_nat (length (nodes t'))).
Proof.
  intros I H. destruct o as [p var down x|n|n x|n lo up]; cbn [tstep] in *.
  - apply bind_ok in H as ([t2 m] & H1 & H2). inversion H2; subst; clear H2. cbn [fst] in *.
    destruct (add_accepted _ _ _ _ _ _ _ I H1) as (dp & E1 & E2).
    destruct (add_ok t p var down x dp I E1 E2) as (t3 & n3 & E & _ & _ & _ & _ & _ & _ & _ & CL & CAC & LEN).
    rewrite E in H1. inversion H1; subst. destruct LEN as [[L _]|[L A]]; auto.
    right. split; auto. rewrite CAC, cnt_all; [lia|].
    intros d Hd. apply In_at in Hd as [i Hi]. destruct (A i (at_in_range _ _ _ Hi)) as [d' Hd'].
    apply node_iff in Hd' as [Q1 Q2]. rewrite Hi in Q1. inversion Q1; subst. unfold is_active. lia.
  - left. destruct (close_accepted t n t' I H) as (d & E1 & E2 & [E3|E3]).
    + destruct (close_ok t n d I E1 E2 E3) as (t3 & l3 & E & _ & _ & _ & _ & _ & _ & _ & _ & L & _).
      rewrite E in H. inversion H; subst. auto.
    + rewrite (close_two t n d I E1 E2 E3) in H. inversion H; subst. auto.
  - left. unfold SetLp in H.
    destruct (check_active_cases t n) as [(d & E & L & Cc)|[Cc _]]; rewrite Cc in H; [|discriminate].
    cbn [bind] in H. apply bind_ok in H as (? & _ & H). apply bind_ok in H as (? & _ & H).
    rewrite E in H. cbn [bind] in H. apply bind_ok in H as (ns & S & H). inversion H; subst.
    cbn. eapply set_at_length; eauto.
  - left. unfold SetImplied in H.
    destruct (check_active_cases t n) as [(d & E & L & Cc)|[Cc _]]; rewrite Cc in H; [|discriminate].
    cbn [bind] in H. apply bind_ok in H as (? & _ & H). apply bind_ok in H as (? & _ & H).
    rewrite E in H. cbn [bind] in H. apply bind_ok in H as (ns & S & H). inversion H; subst.
    cbn. eapply set_at_length; eauto.
Qed.

Lemma peak ops : forall t, trun tree_new ops = Ok t ->
  (forall ops1 ops2 t1 l1, ops = ops1 ++ ops2 -> trun tree_new ops1 = Ok t1 -> active_list t1 l1 ->
     Z.of_nat (length l1) <= num_added_nodes t + 1) /\
  (num_added_nodes t = 1 \/
   exists ops1 ops2 t1 l1, ops = ops1 ++ ops2 /\ trun tree_new ops1 = Ok t1 /\ active_list t1 l1 /\
     Z.of_nat (length l1) = num_added_nodes t + 1).
Proof.
  unfold num_added_nodes.
  assert (AL : forall t l, active_list t l -> Z.of_nat (length l) <= Z.of_nat (length (nodes t))).
  { intros t l A. destruct (active_list_exists t) as (l' & A' & C).
    rewrite (active_list_length t l l' A A'). rewrite <- C. apply cnt_le_len. }
  induction ops as [|o ops IH] using rev_ind; intros t H.
  - inversion H; subst. split; [|left; reflexivity].
    intros ops1 ops2 t1 l1 E H1 A. symmetry in E. apply app_eq_nil in E as [-> ->]. inversion H1; subst.
    apply AL in A. lia.
  - assert (Hfull := H). unfold trun in H. rewrite foldM_app in H. apply bind_ok in H as (t0 & H0 & H1).
    cbn [foldM] in H1. apply bind_ok in H1 as (t1 & H1 & E). inversion E; subst t1; clear E.
    assert (I : tinv t0) by (eapply tinv_run; [apply tinv_new|exact H0]).
    destruct (IH t0 H0) as [IH1 IH2].
    assert (G : (length (nodes t0) <= length (nodes t))%nat) by (destruct (step_size t0 o t I H1) as [->|[-> _]]; lia).
    split.
    + intros ops1 ops2 t1 l1 E HH A.
      destruct ops2 as [|y ops2] using rev_ind.
      * rewrite app_nil_r in E. subst. rewrite Hfull in HH. inversion HH; subst. apply AL in A. lia.
      * rewrite app_assoc in E. apply app_inj_tail in E as [E _].
        specialize (IH1 ops1 ops2 t1 l1 E HH A). lia.
    + destruct (step_size t0 o t I H1) as [L|[L C]].
      * rewrite L. destruct IH2 as [?|(ops1 & ops2 & t1 & l1 & E & HH & A & B)]; auto.
        right. exists ops1, (ops2 ++ [o]), t1, l1. rewrite E, app_assoc. auto.
      * right. destruct (active_list_exists t) as (l & A & C'). exists (ops ++ [o]), [], t, l.
        rewrite app_nil_r. split; auto. split; auto. split; auto. lia.
Qed.

(** ** Setters *)
Lemma set_lp_spec t n x d : reachable t -> node t n = Ok d -> num_open_children t n = Ok 0 ->
  exists t', SetLp t n x = Ok t' /\ reachable t' /\ node t' n = Ok (with_lp x d) /\
    (forall m, m <> n -> node t' m = node t m) /\
    (forall m, num_open_children t' m = num_open_children t m) /\
    TreeIsEmpty t' = TreeIsEmpty t /\ num_closed_nodes t' = num_closed_nodes t /\
    num_added_nodes t' = num_added_nodes t.
Proof.
  intros R H C. assert (I := R). apply reachable_tinv in I.
  assert (H' := H). apply node_iff in H' as [E L].
  destruct (set_at_range (nodes t) n (with_lp x d)) as [ns S]; [eapply at_in_range; eauto|].
  exists (mkTree ns (counts t) (next_free t) (closed t)).
  assert (EQ : SetLp t n x = Ok (mkTree ns (counts t) (next_free t) (closed t))).
  { unfold SetLp. rewrite (proj2 (check_active_ok t n)) by (exists d; auto). cbn [bind].
    unfold num_open_children in C. rewrite C. cbn [bind check Z.eqb]. rewrite E. cbn [bind]. rewrite S. auto. }
  split; auto. split; [eapply reachable_step with (o := TSetLp n x); eauto|].
  destruct (tinv_set t n d (with_lp x d) ns I E L eq_refl eq_refl S) as (_ & A1 & A2 & _ & _ & A3).
  repeat (split; auto). unfold num_added_nodes. cbn. lia.
Qed.

Lemma set_implied_spec t n lo up d : reachable t -> node t n = Ok d -> num_open_children t n = Ok 0 ->
  exists t', SetImplied t n lo up = Ok t' /\ reachable t' /\ node t' n = Ok (with_implied lo up d) /\
    (forall m, m <> n -> node t' m = node t m) /\
    (forall m, num_open_children t' m = num_open_children t m) /\
    TreeIsEmpty t' = TreeIsEmpty t /\ num_closed_nodes t' = num_closed_nodes t /\
    num_added_nodes t' = num_added_nodes t.
Proof.
  intros R H C. assert (I := R). apply reachable_tinv in I.
  assert (H' := H). apply node_iff in H' as [E L].
  destruct (set_at_range (nodes t) n (with_implied lo up d)) as [ns S]; [eapply at_in_range; eauto|].
  exists (mkTree ns (counts t) (next_free t) (closed t)).
  assert (EQ : SetImplied t n lo up = Ok (mkTree ns (counts t) (next_free t) (closed t))).
  { unfold SetImplied. rewrite (proj2 (check_active_ok t n)) by (exists d; auto). cbn [bind].
    unfold num_open_children in C. rewrite C. cbn [bind check Z.eqb]. rewrite E. cbn [bind]. rewrite S. auto. }
  split; auto. split; [eapply reachable_step with (o := TSetImplied n lo up); eauto|].
  destruct (tinv_set t n d (with_implied lo up d) ns I E L eq_refl eq_refl S) as (_ & A1 & A2 & _ & _ & A3).
  repeat (split; auto). unfold num_added_nodes. cbn. lia.
Qed.

(** The node's record with one part replaced, and the calls that are refused. *)
Lemma set_lp_record t n x d : reachable t -> node t n = Ok d -> num_open_children t n = Ok 0 ->
  exists t', SetLp t n x = Ok t' /\ reachable t' /\
    node t' n = Ok (mkNode (parent d) (depth d) (n_cuts_added d) (n_separation_rounds d) (branch_variable d)
      (branch_down d) (branch_value d) x (implied_lower d) (implied_upper d)) /\
    (forall m, m <> n -> node t' m = node t m) /\
    (forall m, num_open_children t' m = num_open_children t m) /\
    TreeIsEmpty t' = TreeIsEmpty t /\ num_closed_nodes t' = num_closed_nodes t /\
    num_added_nodes t' = num_added_nodes t.
Proof. exact (set_lp_spec t n x d). Qed.
Lemma set_implied_record t n lo up d : reachable t -> node t n = Ok d -> num_open_children t n = Ok 0 ->
  exists t', SetImplied t n lo up = Ok t' /\ reachable t' /\
    node t' n = Ok (mkNode (parent d) (depth d) (n_cuts_added d) (n_separation_rounds d) (branch_variable d)
      (branch_down d) (branch_value d) (lp_objective d) lo up) /\
    (forall m, m <> n -> node t' m = node t m) /\
    (forall m, num_open_children t' m = num_open_children t m) /\
    TreeIsEmpty t' = TreeIsEmpty t /\ num_closed_nodes t' = num_closed_nodes t /\
    num_added_nodes t' = num_added_nodes t.
Proof. exact (set_implied_spec t n lo up d). Qed.
Lemma set_refused t n : reachable t -> ~ (active t n /\ num_open_children t n = Ok 0) ->
  (forall x, SetLp t n x = Abort) /\ forall lo up, SetImplied t n lo up = Abort.
Proof.
  intros R H. apply reachable_tinv in R. unfold SetLp, SetImplied.
  destruct (check_active_cases t n) as [(d & E & L & C)|[C _]]; rewrite C; cbn [bind]; [|auto].
  assert (A : active t n) by (exists d; apply node_iff; auto).
  destruct (count_getter t n R A) as [G _]. unfold num_open_children in *. rewrite G in *. cbn [bind].
  destruct (cnt (is_child n) (nodes t) =? 0) eqn:K; cbn [check bind]; [|auto].
  exfalso. apply H. split; auto. f_equal. lia.
Qed.
