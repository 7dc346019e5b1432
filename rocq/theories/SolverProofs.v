(** Proofs about the branch-and-bound loop. *)
From Coq Require Import String List ZArith Bool QArith Permutation Sorted Lia ZifyBool.
From Verif Require Import Outcome OutcomeFacts Num Double DoubleFacts Rounding Problem MipData ProblemSpec
  MipDataProofs MipTree TreeSpec TreeFacts TreeProofs Branching BranchingProofs Solver SolverSpec.
Import ListNotations.
Open Scope Z_scope.

(** ** Trees whose nodes carry sensible data *)
Definition tree_ok (nc : Z) (t : tree) : Prop :=
  reachable t /\ forall n d, node t n = Ok d -> data_ok nc d /\ data_valid d /\
    implied_lower d = [] /\ implied_upper d = [] /\ is_finite (branch_value d) = true.

Lemma path_data nc t n l : tree_ok nc t -> path t n l -> Forall (data_ok nc) l /\ Forall data_valid l.
Proof.
  intros [_ H] P. induction P as [n d A B|n d l A B P [IH1 IH2]]; destruct (H _ _ A) as (? & ? & _); auto.
Qed.

Lemma tree_new_ok nc : 0 <= nc -> tree_ok nc tree_new.
Proof.
  intros N. split; [exists []; reflexivity|]. intros n d H. apply node_iff in H as [H D].
  apply at_two in H as [[-> ->]|[-> ->]]; [|cbn in D; lia].
  split; repeat split; cbn; auto; try lia; discriminate.
Qed.

(** The bounds of a node's box. *)
Definition boxed (t : tree) (lb ub : list double) (n : Z) (lo up : list double) : Prop :=
  RetrieveLower t n lb = Ok lo /\ RetrieveUpper t n ub = Ok up.

Lemma box_sub t t' n lb ub : reachable t -> reachable t' -> active t n ->
  (forall m d, node t m = Ok d -> node t' m = Ok d) ->
  RetrieveLower t' n lb = RetrieveLower t n lb /\ RetrieveUpper t' n ub = RetrieveUpper t n ub.
Proof.
  intros R R' A H. destruct (path_of_active t n R A) as [l P]. pose proof (path_mono t t' n l H P) as P'.
  rewrite (lower_as_claims t n l lb R P), (lower_as_claims t' n l lb R' P').
  rewrite (upper_as_claims t n l ub R P), (upper_as_claims t' n l ub R' P'). auto.
Qed.

Lemma walk_ext step t t' :
  (forall m, (exists d d', at_ (nodes t) m = Ok d /\ at_ (nodes t') m = Ok d' /\ parent d = parent d' /\
       forall b, step d b = step d' b) \/ at_ (nodes t) m = at_ (nodes t') m) ->
  forall fuel n b, walk fuel step t n b = walk fuel step t' n b.
Proof.
  intros H. induction fuel as [|f IH]; intros n b; auto. cbn [walk].
  destruct (n =? -1); auto. destruct (H n) as [(d & d' & A & B & C & D)|A].
  - rewrite A, B. cbn [bind]. rewrite D. destruct (step d' b); cbn [bind]; auto. rewrite C. auto.
  - rewrite A. destruct (at_ (nodes t') n) as [d| | | |]; cbn [bind]; auto.
    destruct (step d b); cbn [bind]; auto.
Qed.

Lemma box_setlp t t' n x m lb ub : SetLp t n x = Ok t' ->
  RetrieveLower t' m lb = RetrieveLower t m lb /\ RetrieveUpper t' m ub = RetrieveUpper t m ub.
Proof.
  unfold SetLp. intros H.
  apply bind_ok in H as (u & _ & H). apply bind_ok in H as (c & _ & H). apply bind_ok in H as (u' & _ & H).
  apply bind_ok in H as (d & D & H). apply bind_ok in H as (ns & S & H). injection H as <-.
  assert (L : length ns = length (nodes t)) by (eapply set_at_length; eauto).
  assert (X : forall k, at_ ns k = if k =? n then Ok (with_lp x d) else at_ (nodes t) k)
    by (intros k; apply (at_set_at _ _ _ _ k S)).
  assert (C : check_active (mkTree ns (counts t) (next_free t) (closed t)) m = check_active t m).
  { unfold check_active. cbn [nodes]. rewrite L, X. destruct (Z.eqb_spec m n) as [->|]; auto. rewrite D. auto. }
  unfold RetrieveLower, RetrieveUpper. rewrite C. cbn [nodes]. rewrite L.
  split; (destruct (check_active t m); auto); cbn [bind]; apply walk_ext; intros k; cbn [nodes]; rewrite X;
    (destruct (Z.eqb_spec k n) as [->|]; [left; exists (with_lp x d), d; repeat split; auto|right; auto]).
Qed.

(** ** The effect of the solver's tree calls on the open leaves *)
Definition leaf (t : tree) (n : Z) : Prop := active t n /\ num_open_children t n = Ok 0.

Lemma leaf_iff t n : reachable t ->
  (leaf t n <-> active t n /\ forall m d, node t m = Ok d -> parent d <> n).
Proof.
  intros R. split.
  - intros [A C]. split; auto. intros m d D P. destruct A as [dn A].
    destruct (well_formed t R n dn A) as (_ & _ & _ & _ & l & [_ CH] & Q & _). rewrite C in Q.
    injection Q as Q. destruct l; [|cbn in Q; lia]. apply (proj2 (CH m)). eauto.
  - intros [[dn A] H]. split; [eexists; eauto|].
    destruct (well_formed t R n dn A) as (_ & _ & _ & _ & l & [_ CH] & Q & _). rewrite Q.
    destruct l as [|m l]; auto. exfalso. destruct (proj1 (CH m)) as (d & D & P); [left; auto|].
    apply (H m d); auto.
Qed.

Lemma chain_leaf t n l m : finished_chain t n l -> leaf t m -> In m l -> m = n.
Proof.
  intros H [A C]. induction H as [n d N P|n d k N P Q K|n d l N P Q H IH]; intros I.
  - destruct I as [|[]]; auto.
  - destruct I as [|[]]; auto.
  - destruct I as [|I]; auto. specialize (IH I). subst m. rewrite C in Q. discriminate.
Qed.

(** Closing a leaf. *)
Lemma close_step nc t n : tree_ok nc t -> leaf t n -> n <> 0 ->
  exists t', CloseNode t n = Ok t' /\ tree_ok nc t' /\ ~ active t' n /\
    (forall m d, node t' m = Ok d -> node t m = Ok d) /\
    (forall m, leaf t m -> m <> n -> leaf t' m).
Proof.
  intros [R D] [[d A] C] N.
  destruct (close_leaf t n d R A N C) as (t' & l & E & R' & CH & G & S & _ & _ & _ & _).
  exists t'. split; auto.
  assert (SUB : forall m d, node t' m = Ok d -> node t m = Ok d).
  { intros m dm M. destruct (in_dec Z.eq_dec m l) as [I|I].
    - exfalso. apply (G m I). exists dm. auto.
    - rewrite <- (S m I). auto. }
  split; [split; auto|].
  { intros m dm M. apply (D m). auto. }
  split. { apply G. inversion CH; cbn; auto. }
  split; auto. intros m L M. assert (NI : ~ In m l).
  { intros I. apply M. apply (chain_leaf t n l); auto. }
  apply leaf_iff; auto. apply leaf_iff in L as [[dm L1] L2]; auto.
  split; [exists dm; rewrite (S m NI); auto|]. intros k dk K. apply (L2 k). auto.
Qed.

(** Storing the LP value. *)
Lemma setlp_step nc t n x : tree_ok nc t -> leaf t n ->
  exists t', SetLp t n x = Ok t' /\ tree_ok nc t' /\ (forall m, leaf t m -> leaf t' m) /\
    (forall m, active t m <-> active t' m).
Proof.
  intros [R D] [[d A] C]. destruct (set_lp_spec t n x d R A C) as (t' & E & R' & N1 & N2 & N3 & _ & _ & _).
  exists t'. split; auto.
  assert (AC : forall m, active t m <-> active t' m).
  { intros m. destruct (Z.eq_dec m n) as [->|M].
    - split; intros _; [exists (with_lp x d)|exists d]; auto.
    - unfold active. rewrite (N2 m M). tauto. }
  split; [split; auto|].
  { intros m dm M. destruct (Z.eq_dec m n) as [->|MN].
    - rewrite N1 in M. injection M as <-. exact (D n d A).
    - rewrite (N2 m MN) in M. apply (D m); auto. }
  split; auto. intros m [L1 L2]. split; [apply AC; auto|rewrite N3; auto].
Qed.

(** Adding both children. *)
Lemma add_step nc t n j v : tree_ok nc t -> leaf t n -> 0 <= j < nc -> finite_double v ->
  exists t1 a t2 b, AddNode t n j true v = Ok (t1, a) /\ AddNode t1 n j false v = Ok (t2, b) /\
    tree_ok nc t2 /\ a <> b /\ ~ active t a /\ ~ active t b /\ leaf t2 a /\ leaf t2 b /\
    (forall m, leaf t m -> m <> n -> leaf t2 m) /\
    (forall m d, node t m = Ok d -> node t2 m = Ok d).
Proof.
  intros [R D] [A C] J [VV FV].
  assert (NV := finite_not_nan v FV).
  destruct (proj1 (add_defined t n j true v R) 0 A C) as [[t1 a] E1]; [lia|].
  destruct (add_spec t n j true v t1 a R E1) as (dp & k & P1 & P2 & P3 & R1 & P4 & P5 & P6 & P7 & P8 & P9 & P10 & _).
  rewrite C in P2. injection P2 as <-.
  assert (A1 : active t1 n). { exists dp. rewrite P8; auto. intros ->. apply P5. exists dp; auto. }
  destruct (proj1 (add_defined t1 n j false v R1) 1 A1 P10) as [[t2 b] E2]; [lia|].
  destruct (add_spec t1 n j false v t2 b R1 E2) as (dp' & k' & Q1 & Q2 & Q3 & R2 & Q4 & Q5 & Q6 & Q7 & Q8 & Q9 & Q10 & _).
  exists t1, a, t2, b. split; auto. split; auto.
  assert (AB : a <> b). { intros ->. apply Q5. eexists; eauto. }
  assert (NBt : ~ active t b).
  { intros [db Hb]. apply Q5. exists db. rewrite P8; auto. }
  assert (SUB : forall m d, node t m = Ok d -> node t2 m = Ok d).
  { intros m d M. rewrite Q8, P8; auto; intros ->; [apply P5|apply NBt]; eexists; eauto. }
  assert (dok : forall pr dep lp dn, data_ok nc (mkNode pr dep 0 0 j dn v lp [] []) /\ data_valid (mkNode pr dep 0 0 j dn v lp [] []) /\
    [] = [] :> list (Z * double) /\ [] = [] :> list (Z * double) /\ is_finite v = true).
  { intros. split; repeat split; cbn; auto; lia. }
  split; [split; auto|].
  { intros m d M. destruct (Z.eq_dec m b) as [->|MB]; [rewrite Q6 in M; injection M as <-; apply dok|].
    rewrite Q8 in M by auto. destruct (Z.eq_dec m a) as [->|MA]; [rewrite P6 in M; injection M as <-; apply dok|].
    rewrite P8 in M by auto. apply (D m); auto. }
  split; auto. split; auto. split; auto.
  assert (an : a <> n). { intros ->. apply P5. eexists; eauto. }
  split. { split; [eexists; rewrite Q8; eauto|]. rewrite Q9; auto. eexists; eauto. }
  split. { split; [eexists; eauto|auto]. }
  split; auto. intros m [[dm L1] L2] MN.
  assert (ma : m <> a) by (intros ->; apply P5; eexists; eauto).
  assert (mb : m <> b) by (intros ->; apply NBt; eexists; eauto).
  assert (A1m : active t1 m) by (exists dm; rewrite P8; auto).
  split; [exists dm; auto|]. rewrite Q9, P9; auto. exists dm; auto.
Qed.

(** ** The bounds of a node's box exist *)
Lemma box_exists nc t n lb ub : tree_ok nc t -> active t n ->
  Z.of_nat (length lb) = nc -> Z.of_nat (length ub) = nc -> no_nans lb -> no_nans ub ->
  exists lo up, boxed t lb ub n lo up /\ length lo = length lb /\ length up = length ub.
Proof.
  intros T A L1 L2 N1 N2. destruct (path_of_active t n (proj1 T) A) as [l P].
  destruct (path_data nc t n l T P) as [D _].
  destruct (lower_bounds t n l lb (proj1 T) P) as (lo & E1 & F1 & _); [rewrite L1; auto|auto|].
  destruct (upper_bounds t n l ub (proj1 T) P) as (up & E2 & F2 & _); [rewrite L2; auto|auto|].
  exists lo, up. repeat split; auto.
Qed.

(** ** One round *)
Section Round.
Context {W : Type} (E : env W).

Lemma take_perm back q n r : take back q = Ok (n, r) -> Permutation q (n :: r).
Proof.
  unfold take. destruct back.
  - destruct (rev q) as [|a l] eqn:H; [discriminate|]. intros X. injection X as <- <-.
    rewrite <- (rev_involutive q), H. cbn [rev]. symmetry. apply Permutation_cons_append.
  - destruct q; [discriminate|]. intros X. injection X as <- <-. auto.
Qed.
Lemma take_defined back q : q <> [] -> exists n r, take back q = Ok (n, r).
Proof.
  intros H. unfold take. destruct back; [|destruct q; [congruence|eauto]].
  destruct (rev q) as [|a l] eqn:X; eauto. exfalso. apply H. rewrite <- (rev_involutive q), X. auto.
Qed.

Lemma check_ok_ok {A} (x : outcome A) a : check_ok x = Ok a -> x = Ok a.
Proof. destruct x; cbn; congruence. Qed.

(** What a round that goes through has done. *)
Inductive round_did (s : solver_state W) : verdict W -> Prop :=
| did_close n q w t bj k seen : take (backjump s) (queue s) = Ok (n, q) ->
    solve_node E (mip_tree s) n (world s) = Ok w -> is_optimal E w = false -> n <> 0 ->
    CloseNode (mip_tree s) n = Ok t ->
    round_did s (Continue (mkSS q bj k t (res s) (status s) w seen))
| did_add n q w t x bj seen : take (backjump s) (queue s) = Ok (n, q) ->
    solve_node E (mip_tree s) n (world s) = Ok w -> is_optimal E w = true ->
    SetLp (mip_tree s) n (objective_value E w) = Ok t -> primal_values E w = Ok x ->
    SolutionIsIntegral (order E) x (tolerance E) = Ok true -> n <> 0 ->
    round_did s (Continue (mkSS q bj 0 t (AddSolution (res s) (mkSol x (objective_value E w))) (status s) w seen))
| did_root n q w t x bj seen : take (backjump s) (queue s) = Ok (n, q) ->
    solve_node E (mip_tree s) n (world s) = Ok w -> is_optimal E w = true ->
    SetLp (mip_tree s) n (objective_value E w) = Ok t -> primal_values E w = Ok x ->
    SolutionIsIntegral (order E) x (tolerance E) = Ok true -> n = 0 ->
    round_did s (Break (mkSS q bj 0 t (AddSolution (res s) (mkSol x (objective_value E w))) (status s) w seen))
| did_branch n q w t x j uf v t1 a t2 b q' seen : take (backjump s) (queue s) = Ok (n, q) ->
    solve_node E (mip_tree s) n (world s) = Ok w -> is_optimal E w = true ->
    SetLp (mip_tree s) n (objective_value E w) = Ok t -> primal_values E w = Ok x ->
    SolutionIsIntegral (order E) x (tolerance E) = Ok false ->
    branch E w = Ok (j, uf) -> at_ x j = Ok v ->
    AddNode t n j true v = Ok (t1, a) -> AddNode t1 n j false v = Ok (t2, b) ->
    Permutation q' (a :: b :: q) ->
    round_did s (Continue (mkSS q' false 0 t2 (res s) (status s) w seen)).

Lemma round_cases s v : solver_round E s = Ok v -> round_did s v.
Proof.
  unfold solver_round. intros H. apply bind_ok in H as ([n q] & T & H).
  apply bind_ok in H as (w & S & H). destruct (is_optimal E w) eqn:O; cbn [negb] in H.
  - apply bind_ok in H as (t & SL & H). apply bind_ok in H as (x & P & H). apply check_ok_ok in P.
    apply bind_ok in H as (i & I & H). destruct i.
    + destruct (Z.eqb_spec n 0) as [N|N]; injection H as <-;
        [eapply did_root|eapply did_add]; eauto.
    + apply bind_ok in H as ([j uf] & B & H). apply check_ok_ok in B.
      apply bind_ok in H as (y & Y & H). apply bind_ok in H as ([t1 a] & A1 & H).
      apply bind_ok in H as ([t2 b] & A2 & H). injection H as <-. eapply did_branch; eauto.
      destruct uf.
      * rewrite perm_swap. apply perm_skip. symmetry. apply Permutation_cons_append.
      * apply perm_skip. symmetry. apply Permutation_cons_append.
  - destruct (Z.eqb_spec n 0); [discriminate|]. apply bind_ok in H as (t & C & H).
    destruct (_ <? _); injection H as <-; eapply did_close; eauto.
Qed.
End Round.

(** ** Rationals against doubles *)
Lemma q_above_int lo z : (q_above lo (inject_Z z) <-> int_ge z lo).
Proof.
  pose proof zone_pos. destruct lo; cbn [q_above int_ge]; try tauto;
    unfold qval, Qle, inject_Z; cbn [Qnum Qden]; rewrite Z2Pos.id by auto; lia.
Qed.
Lemma q_below_int hi z : (q_below (inject_Z z) hi <-> int_le z hi).
Proof.
  pose proof zone_pos. destruct hi; cbn [q_below int_le]; try tauto;
    unfold qval, Qle, inject_Z; cbn [Qnum Qden]; rewrite Z2Pos.id by auto; lia.
Qed.
Lemma q_above_eq lo a b : a == b -> q_above lo a -> q_above lo b.
Proof. intros E. destruct lo; cbn; auto; rewrite E; auto. Qed.
Lemma q_below_eq hi a b : a == b -> q_below a hi -> q_below b hi.
Proof. intros E. destruct hi; cbn; auto; rewrite E; auto. Qed.

Lemma qval_le x y : zval x <= zval y -> (qval x <= qval y)%Q.
Proof. intros H. unfold qval, Qle. cbn [Qnum Qden]. apply Z.mul_le_mono_nonneg_r; auto. lia. Qed.

Lemma q_above_mono x y q : dvalid x = true -> dvalid y = true -> dleb x y = true ->
  q_above y q -> q_above x q.
Proof.
  intros Vx Vy L H. pose proof (dleb_nan _ _ L) as [Nx Ny].
  destruct (is_finite x) eqn:Fx, (is_finite y) eqn:Fy.
  - assert (G : (qval x <= qval y)%Q) by (apply qval_le, dleb_zval; auto).
    destruct x; try discriminate; destruct y; try discriminate; cbn [q_above] in *; eapply Qle_trans; eauto.
  - destruct y as [| s | |]; try discriminate. cbn in H. subst. destruct x; discriminate.
  - destruct x as [| s | |]; try discriminate. destruct s; [reflexivity|].
    destruct y; discriminate.
  - destruct x as [| s | |]; try discriminate. destruct y as [| s' | |]; try discriminate.
    cbn in H. subst. destruct s; [reflexivity|discriminate].
Qed.

Lemma q_above_nan x q : q_above x q -> is_nan x = false.
Proof. destruct x; cbn; auto; tauto. Qed.

Lemma dltb_leb x y : dltb x y = true -> dleb x y = true.
Proof. unfold dltb, dleb, SFltb, SFleb. destruct (SFcompare x y) as [[]|]; auto. Qed.
Lemma not_dltb_leb x y : is_nan x = false -> is_nan y = false -> dltb x y = false -> dleb y x = true.
Proof. intros A B C. rewrite dltb_negb in C by auto. destruct (dleb y x); auto. Qed.

(** ** The incumbent *)
Definition best_ok (r : result) : Prop := is_nan (s_obj (best r)) = false /\ dvalid (s_obj (best r)) = true.

Lemma dltb_nan x y : dltb x y = true -> is_nan x = false /\ is_nan y = false.
Proof. intros H. apply dleb_nan, dltb_leb, H. Qed.

Lemma add_best r s q : best_ok r -> dvalid (s_obj s) = true ->
  best_ok (AddSolution r s) /\
  (q_above (s_obj (best r)) q \/ q_above (s_obj s) q -> q_above (s_obj (best (AddSolution r s))) q).
Proof.
  intros [N V] VS. unfold AddSolution. destruct (dltb (s_obj s) (s_obj (best r))) eqn:L; cbn [best].
  - split; [split; auto; apply (dltb_nan _ _ L)|]. intros [H|H]; auto.
    eapply q_above_mono; [exact VS|exact V|apply dltb_leb; auto|auto].
  - split; [split; auto|]. intros [H|H]; auto.
    eapply q_above_mono; [exact V|exact VS| |exact H]. apply not_dltb_leb; auto. apply (q_above_nan _ _ H).
Qed.

(** ** What the environment provides *)
Section Env.
Context {W : Type} (E : env W) (p : problem) (OK : env_ok E p).
Let lb := MipData.lower_bounds (data E).
Let ub := MipData.upper_bounds (data E).
Let nc := num_vars p.

Lemma env_ordered : integer_bounds_ordered p.
Proof.
  unfold integer_bounds_ordered. eapply Forall_impl; [|exact (eo_bounds _ _ OK)]. cbn. tauto.
Qed.
Lemma env_lists : lb = map v_lb (p_vars p) /\ ub = map v_ub (p_vars p) /\
  (forall j, In j (order E) <-> is_integer_var p j) /\ NoDup (order E).
Proof.
  destruct (faithful p (eo_problem _ _ OK) env_ordered) as (d & D & A).
  rewrite (eo_data _ _ OK) in D. injection D as <-.
  destruct A as (_ & _ & _ & A1 & A2 & _ & _ & _ & _ & _ & A3 & A4 & _).
  split; auto. split; auto. split.
  - pose proof (eo_order _ _ OK) as PO. intros j. rewrite <- A4. split; intros H.
    + exact (Permutation_in j PO H).
    + exact (Permutation_in j (Permutation_sym PO) H).
  - eapply Permutation_NoDup; [apply Permutation_sym, (eo_order _ _ OK)|auto].
Qed.
Lemma env_lengths : Z.of_nat (length lb) = nc /\ Z.of_nat (length ub) = nc.
Proof. destruct env_lists as (-> & -> & _). rewrite !map_length. auto. Qed.
Lemma env_nans : no_nans lb /\ no_nans ub /\ all_valid lb /\ all_valid ub.
Proof.
  destruct env_lists as (-> & -> & _). pose proof (eo_bounds _ _ OK) as H.
  unfold no_nans, all_valid. rewrite !Forall_map.
  repeat split; (eapply Forall_impl; [|exact H]); cbn; tauto.
Qed.
Lemma env_range j : In j (order E) -> 0 <= j < nc.
Proof.
  intros H. apply env_lists in H as (v & A & _). unfold nth_var in A.
  destruct (Z.ltb_spec j 0); [discriminate|]. split; auto. unfold nc, num_vars.
  assert (Z.to_nat j < length (p_vars p))%nat by (apply nth_error_Some; congruence). lia.
Qed.
Lemma env_at j v : nth_var p j = Some v -> at_ lb j = Ok (v_lb v) /\ at_ ub j = Ok (v_ub v).
Proof.
  destruct env_lists as (-> & -> & _). unfold nth_var. intros H. rewrite !at_map.
  destruct (Z.ltb_spec j 0); [discriminate|]. unfold at_. replace (j <? 0) with false by lia. rewrite H. auto.
Qed.

(** ** The invariant *)
Definition inv (s : solver_state W) : Prop :=
  tree_ok nc (mip_tree s) /\ NoDup (queue s) /\ (forall n, In n (queue s) -> leaf (mip_tree s) n) /\
  (In 0 (queue s) -> queue s = [0]).
Definition state_of (v : verdict W) : solver_state W := match v with Continue s | Break s => s end.

Lemma inv_start w : inv (solve_start w).
Proof.
  split; [apply tree_new_ok; unfold nc, num_vars; lia|]. split; [repeat constructor; auto|].
  split; auto. intros n [<-|[]]. split; [eexists|]; reflexivity.
Qed.

Lemma root_active nc' t n : tree_ok nc' t -> active t n -> active t 0.
Proof.
  intros [R _] [d H]. apply reachable_tinv in R. apply node_iff in H as [H L].
  destruct (active_root' t n d R H L) as (d0 & A & B). exists d0. apply node_iff. auto.
Qed.

Lemma inv_round s v : inv s -> branch_ok E -> round_did E s v -> inv (state_of v).
Proof.
  intros (T & ND & LF & RT) BO H.
  assert (TK : forall n q, take (backjump s) (queue s) = Ok (n, q) ->
    leaf (mip_tree s) n /\ NoDup q /\ ~ In n q /\ (forall m, In m q -> leaf (mip_tree s) m) /\
    (In 0 q -> n = 0)).
  { intros n q H0. apply take_perm in H0. assert (N2 : NoDup (n :: q)) by (eapply Permutation_NoDup; eauto).
    apply NoDup_cons_iff in N2 as [N2 N3].
    assert (IN : forall m, In m (n :: q) -> In m (queue s)) by (intros; eapply Permutation_in; [apply Permutation_sym|]; eauto).
    split; [apply LF, IN; cbn; auto|]. split; auto. split; auto. split; [intros; apply LF, IN; cbn; auto|].
    intros I0. assert (IN0 : In 0 (queue s)) by (apply IN; cbn; auto). specialize (RT IN0). rewrite RT in H0.
    apply Permutation_length_1_inv in H0. injection H0 as H0 _. auto. }
  inversion H as [n q w t bj k seen H1 H2 H3 H4 H5 Hv|n q w t x bj seen H1 H2 H3 H4 H5 H6 H7 Hv
    |n q w t x bj seen H1 H2 H3 H4 H5 H6 H7 Hv|n q w t x j uf v0 t1 a t2 b q' seen H1 H2 H3 H4 H5 H6 H7 H8 H9 H10 H11 Hv];
    subst v; cbn [state_of]; unfold inv; cbn [queue mip_tree]; destruct (TK _ _ H1) as (L & Nq & Nn & Lq & Z0).
  - destruct (close_step nc _ n T L H4) as (t' & C1 & C2 & C3 & C4 & C5). rewrite H5 in C1. injection C1 as <-.
    split; auto. split; auto. split; [intros m Hm; apply C5; auto; congruence|]. intros I; apply Z0 in I; congruence.
  - destruct (setlp_step nc _ n (objective_value E w) T L) as (t' & C1 & C2 & C3 & C4). rewrite H4 in C1. injection C1 as <-.
    split; auto. split; auto. split; auto. intros I; apply Z0 in I; congruence.
  - destruct (setlp_step nc _ n (objective_value E w) T L) as (t' & C1 & C2 & C3 & C4). rewrite H4 in C1. injection C1 as <-.
    split; auto. split; auto. split; auto. intros I. exfalso. apply Nn. rewrite H7. auto.
  - destruct (setlp_step nc _ n (objective_value E w) T L) as (t' & C1 & C2 & C3 & C4). rewrite H4 in C1. injection C1 as <-.
    destruct (BO w x H3 H5 H6 j uf H7) as (J & v1 & V1 & V2). rewrite H8 in V1. injection V1 as <-.
    destruct (add_step nc t n j v0 C2 (C3 n L) (env_range j J) V2) as (t1' & a' & t2' & b' & A1 & A2 & A3 & A4 & A5 & A6 & A7 & A8 & A9 & A10).
    rewrite H9 in A1. injection A1 as <- <-. rewrite H10 in A2. injection A2 as <- <-.
    assert (NQ : forall m, In m q -> m <> a /\ m <> b).
    { intros m Hm. destruct (Lq m Hm) as [Am _]. apply C4 in Am. split; intros ->; auto. }
    assert (R0 : active t 0) by (eapply root_active; [exact C2|apply C4, L]).
    split; auto. split; [|split].
    + eapply Permutation_NoDup; [apply Permutation_sym; eauto|]. constructor; [|constructor; auto].
      * intros [|I]; [congruence|]. apply NQ in I. tauto.
      * intros I. apply NQ in I. tauto.
    + intros m Hm. eapply Permutation_in in Hm; [|exact H11]. destruct Hm as [<-|[<-|Hm]]; auto.
      apply A9; auto. intros ->; auto.
    + intros I. eapply Permutation_in in I; [|exact H11]. exfalso. destruct I as [I|[I|I]].
      * subst a. auto.
      * subst b. auto.
      * pose proof (Z0 I). subst n. auto.
Qed.
Lemma path_fin t n l : tree_ok nc t -> path t n l ->
  Forall (fun d => implied_lower d = [] /\ implied_upper d = [] /\ finite_double (branch_value d)) l.
Proof.
  intros [_ H] P. induction P as [n d A B|n d l A B P IH]; destruct (H _ _ A) as (_ & (_ & _ & V) & H1 & H2 & H3);
    (constructor; [split; [auto|split; [auto|split; auto]]|auto]).
Qed.

Lemma box_valid t n lo up j : tree_ok nc t -> active t n -> boxed t lb ub n lo up -> In j (order E) ->
  exists a b, at_ lo j = Ok a /\ at_ up j = Ok b /\ dvalid a = true /\ dvalid b = true.
Proof.
  intros T A [B1 B2] J. apply env_lists in J as (v & J & _). destruct (env_at j v J) as [R R'].
  assert (I : In v (p_vars p)).
  { unfold nth_var in J. destruct (j <? 0); [discriminate|]. eapply nth_error_In; eauto. }
  pose proof (eo_bounds _ _ OK) as EB. rewrite Forall_forall in EB. destruct (EB v I) as (_ & _ & FR & FR').
  destruct (path_of_active t n (proj1 T) A) as [l P].
  destruct (path_data nc t n l T P) as [D1 D2]. destruct env_lengths as [L1 L2]. destruct env_nans as (N1 & N2 & _).
  pose proof (path_fin t n l T P) as PF. rewrite Forall_forall in PF.
  destruct (lower_bounds t n l lb (proj1 T) P) as (lo' & E1 & _ & E2); [rewrite L1; auto|auto|].
  destruct (upper_bounds t n l ub (proj1 T) P) as (up' & F1 & _ & F2); [rewrite L2; auto|auto|].
  rewrite B1 in E1. injection E1 as <-. rewrite B2 in F1. injection F1 as <-.
  destruct (E2 j _ R) as (x & X1 & X2 & _). destruct (F2 j _ R') as (y & Y1 & Y2 & _).
  exists x, y. split; auto. split; auto. split.
  - destruct X2 as [->|(d & I' & [X|(_ & _ & ->)])]; auto; destruct (PF d I') as (P1 & P2 & P3 & P4).
    + rewrite P1 in X. destruct X.
    + apply (dceil_spec _ P3 P4).
  - destruct Y2 as [->|(d & I' & [X|(_ & _ & ->)])]; auto; destruct (PF d I') as (P1 & P2 & P3 & P4).
    + rewrite P2 in X. destruct X.
    + apply (dfloor_spec _ P3 P4).
Qed.

(** ** C41 *)
Section Bound.
Variables (w0 : W) (bounds : W -> Z -> double * double) (rows : W -> point -> Prop).
Variable (unsettled : W -> Prop).
Hypothesis (BO : branch_ok E) (VO : forall w, dvalid (objective_value E w) = true)
  (LS : lp_honest E p w0 bounds rows unsettled).
(** No node was closed on the way whose LP is unsettled. *)
Hypothesis (SET : forall s n w, visits E w0 s -> takes s n -> solve_node E (mip_tree s) n (world s) = Ok w ->
  is_optimal E w = false -> ~ unsettled w).

Lemma set_bounds_loop lo up l : forall w w',
  foldM (fun w col => do a <- at_ lo col ; do b <- at_ up col ; check_ok (set_bounds E w col a b)) w l = Ok w' ->
  (forall x, rows w x -> rows w' x) /\ (forall k, ~ In k l -> bounds w' k = bounds w k) /\
  (forall j, In j l -> exists a b, at_ lo j = Ok a /\ at_ up j = Ok b /\ bounds w' j = (a, b)).
Proof.
  induction l as [|c l IH]; intros w w' H.
  - injection H as <-. repeat split; auto. intros j [].
  - cbn [foldM] in H. apply bind_ok in H as (w1 & H1 & H2).
    apply bind_ok in H1 as (a & A & H1). apply bind_ok in H1 as (b & B & H1). apply check_ok_ok in H1.
    destruct (lh_set _ _ _ _ _ _ LS _ _ _ _ _ H1) as (S1 & S2 & S3). destruct (IH _ _ H2) as (I1 & I2 & I3).
    split; [auto|]. split.
    + intros k K. cbn in K. rewrite I2 by tauto. apply S2. intros ->. tauto.
    + intros j [<-|J]; [|auto]. destruct (in_dec Z.eq_dec c l) as [J|J]; [auto|].
      exists a, b. rewrite (I2 c J). auto.
Qed.

Lemma solve_node_spec t n w w' : solve_node E t n w = Ok w' ->
  exists lo up, boxed t lb ub n lo up /\
  (forall j, In j (order E) -> exists a b, at_ lo j = Ok a /\ at_ up j = Ok b /\ bounds w' j = (a, b)) /\
  (forall x, feasible p x -> rows w x -> rows w' x) /\
  (no_wider p (bounds w') -> forall x, rows w' x -> in_lp_box p (bounds w') x ->
       is_optimal E w' = true /\ q_above (objective_value E w') (cost p x) \/
  is_optimal E w' = false /\ unsettled w').
Proof.
  unfold solve_node. intros H. apply bind_ok in H as (lo & Lo & H). apply bind_ok in H as (up & Up & H).
  apply bind_ok in H as (w1 & S & H). apply bind_ok in H as (w2 & D & H). apply check_ok_ok in D.
  exists lo, up. split; [split; auto|].
  destruct (set_bounds_loop _ _ _ _ _ S) as (B1 & _ & B3).
  destruct (lh_solve _ _ _ _ _ _ LS _ _ D) as (C1 & C2 & C3).
  destruct (is_optimal E w2) eqn:O.
  - apply check_ok_ok in H. destruct (lh_separate _ _ _ _ _ _ LS _ _ O H) as (D1 & D2 & D3).
    split; [|split; auto].
    intros j J. destruct (B3 j J) as (a & b & A & B & C). exists a, b. rewrite D1, C1. auto.
  - injection H as <-. split; [|split; auto].
    + intros j J. destruct (B3 j J) as (a & b & A & B & C). exists a, b. rewrite C1. auto.
    + rewrite O. auto.
Qed.

(** [x] lies in the box of node [n]. *)
Definition in_node (t : tree) (n : Z) (x : point) : Prop :=
  exists lo up, boxed t lb ub n lo up /\
    forall j, In j (order E) -> exists a b, at_ lo j = Ok a /\ at_ up j = Ok b /\ q_above a (x j) /\ q_below (x j) b.

Definition covered (s : solver_state W) : Prop :=
  best_ok (res s) /\
  forall x, feasible p x -> rows (world s) x /\
    (q_above (s_obj (best (res s))) (cost p x) \/ exists n, In n (queue s) /\ in_node (mip_tree s) n x).

Lemma feasible_at x j v : feasible p x -> nth_var p j = Some v -> v_int v = true ->
  exists z, x j == inject_Z z.
Proof. intros [H _] A B. destruct (H j v A) as (_ & _ & C). auto. Qed.

Lemma covered_start : covered (solve_start w0).
Proof.
  split; [split; reflexivity|]. intros x F. split; [apply (lh_start _ _ _ _ _ _ LS); auto|].
  right. exists 0. split; [left; auto|]. exists lb, ub. split; [split; reflexivity|].
  intros j J. apply env_lists in J as (v & A & B). destruct (env_at j v A) as [A1 A2].
  exists (v_lb v), (v_ub v). destruct F as [F _]. destruct (F j v A) as (F1 & F2 & _). auto.
Qed.

(** A node whose LP was solved: if it contains a feasible point, the LP was optimal and its
    value is a bound for that point. *)
Lemma box_no_wider t n lo up j v : tree_ok nc t -> active t n -> boxed t lb ub n lo up ->
  nth_var p j = Some v -> exists a b, at_ lo j = Ok a /\ at_ up j = Ok b /\
  dleb (v_lb v) a = true /\ dleb b (v_ub v) = true.
Proof.
  intros T A [B1 B2] J. destruct (env_at j v J) as [R R'].
  destruct (path_of_active t n (proj1 T) A) as [l P]. destruct (path_data nc t n l T P) as [D1 D2].
  destruct env_lengths as [L1 L2]. destruct env_nans as (N1 & N2 & _).
  destruct (lower_bounds t n l lb (proj1 T) P) as (lo' & C1 & _ & C3); [rewrite L1; auto|auto|].
  destruct (upper_bounds t n l ub (proj1 T) P) as (up' & C4 & _ & C6); [rewrite L2; auto|auto|].
  rewrite B1 in C1. injection C1 as <-. rewrite B2 in C4. injection C4 as <-.
  destruct (C3 j _ R) as (a & A1 & _ & A2 & _). destruct (C6 j _ R') as (b & A3 & _ & A4 & _).
  exists a, b. auto.
Qed.
Lemma node_bound t n w w' x : tree_ok nc t -> active t n -> solve_node E t n w = Ok w' -> feasible p x -> rows w x -> in_node t n x ->
  is_optimal E w' = true /\ q_above (objective_value E w') (cost p x) \/
  is_optimal E w' = false /\ unsettled w'.
Proof.
  intros T AC H F R (lo & up & [B1 B2] & IN). destruct (solve_node_spec _ _ _ _ H) as (lo' & up' & [C1 C2] & D1 & D2 & D3).
  rewrite B1 in C1. injection C1 as <-. rewrite B2 in C2. injection C2 as <-.
  apply D3; auto.
  { intros j v Jv Iv. assert (J : In j (order E)) by (apply env_lists; exists v; auto).
    destruct (D1 j J) as (a & b & A1 & A2 & A3).
    destruct (box_no_wider t n lo up j v T AC (conj B1 B2) Jv) as (a' & b' & A4 & A5 & A6 & A7).
    destruct (box_valid t n lo up j T AC (conj B1 B2) J) as (a2 & b2 & A8 & A9 & A10 & A11).
    rewrite A1 in A4, A8. injection A4 as <-. injection A8 as <-. rewrite A2 in A5, A9. injection A5 as <-. injection A9 as <-.
    rewrite A3. auto. }
  intros j J. apply env_lists in J. destruct (D1 j J) as (a & b & A1 & A2 & A3).
  destruct (IN j J) as (a' & b' & A4 & A5 & A6 & A7). rewrite A1 in A4. injection A4 as <-.
  rewrite A2 in A5. injection A5 as <-. rewrite A3. auto.
Qed.

Lemma in_node_sub t t' n x : reachable t -> reachable t' -> active t n ->
  (forall m d, node t m = Ok d -> node t' m = Ok d) -> (in_node t n x <-> in_node t' n x).
Proof.
  intros R R' A S. destruct (box_sub t t' n lb ub R R' A S) as [B1 B2].
  unfold in_node, boxed. rewrite B1, B2. tauto.
Qed.
Lemma in_node_setlp t t' n v m x : SetLp t n v = Ok t' -> (in_node t m x <-> in_node t' m x).
Proof.
  intros S. destruct (box_setlp t t' n v m lb ub S) as [B1 B2].
  unfold in_node, boxed. rewrite B1, B2. tauto.
Qed.

(** A feasible point in the box of [n] is in the box of a child. *)
Lemma in_child t n j v t1 a t2 b x : tree_ok nc t -> active t n -> In j (order E) -> finite_double v ->
  AddNode t n j true v = Ok (t1, a) -> AddNode t1 n j false v = Ok (t2, b) ->
  (forall m d, node t m = Ok d -> node t2 m = Ok d) -> reachable t2 ->
  feasible p x -> in_node t n x -> in_node t2 a x \/ in_node t2 b x.
Proof.
  intros T A J [VV FV] A1 A2 SUB R2 F IN.
  destruct (path_of_active t n (proj1 T) A) as [l P]. destruct (path_data nc t n l T P) as [D1 D2].
  destruct env_lengths as [L1 L2]. destruct env_nans as (N1 & N2 & N3 & N4).
  destruct (branching t n j v t1 a t2 b l lb ub (proj1 T) A1 A2 FV VV P) as
    (lp & up & ld & ud & lu & uu & B1 & B2 & B3 & B4 & B5 & B6 & OTH & a0 & b0 & a1 & b1 & a2 & b2 & C1 & C2 & C3 & C4 & C5 & C6 & COV & _);
    auto; try (rewrite L1; auto using env_range); try lia.
  apply (in_node_sub t t2 n x (proj1 T) R2 A SUB) in IN. destruct IN as (lo & up' & [E1 E2] & IN).
  rewrite B1 in E1. injection E1 as <-. rewrite B2 in E2. injection E2 as <-.
  destruct (proj1 (proj1 (proj2 (proj2 env_lists)) j) J) as (vj & Vj & Ij).
  destruct (feasible_at x j vj F Vj Ij) as [z Ez].
  destruct (IN j J) as (a' & b' & G1 & G2 & G3 & G4). rewrite C1 in G1. injection G1 as <-. rewrite C2 in G2. injection G2 as <-.
  apply (q_above_eq _ _ _ Ez), q_above_int in G3. apply (q_below_eq _ _ _ Ez), q_below_int in G4.
  assert (OJ : forall l' u', (forall k, k <> j -> at_ l' k = at_ lp k /\ at_ u' k = at_ up k) ->
     forall a'' b'', at_ l' j = Ok a'' -> at_ u' j = Ok b'' -> in_interval z a'' b'' ->
     forall k, In k (order E) -> exists c d, at_ l' k = Ok c /\ at_ u' k = Ok d /\ q_above c (x k) /\ q_below (x k) d).
  { intros l' u' O a'' b'' X1 X2 [X3 X4] k K. destruct (Z.eq_dec k j) as [->|KJ].
    - exists a'', b''. split; auto. split; auto. apply q_above_int in X3. apply q_below_int in X4.
      split; [eapply q_above_eq|eapply q_below_eq]; eauto; symmetry; auto.
    - destruct (O k KJ) as [-> ->]. auto. }
  destruct (proj1 (COV z) (conj G3 G4)) as [X|X]; [left; exists ld, ud|right; exists lu, uu]; (split; [split; auto|]).
  - apply (OJ ld ud) with (a'' := a1) (b'' := b1); auto. intros k K. destruct (OTH k K) as (O1 & O2 & _ & _). auto.
  - apply (OJ lu uu) with (a'' := a2) (b'' := b2); auto. intros k K. destruct (OTH k K) as (_ & _ & O1 & O2). auto.
Qed.

(** As [node_bound] for an optimal LP. *)
Lemma node_optimal t n w w' x : tree_ok nc t -> active t n -> solve_node E t n w = Ok w' -> feasible p x -> rows w x -> in_node t n x ->
  is_optimal E w' = true -> q_above (objective_value E w') (cost p x).
Proof. intros T A S F R I O. destruct (node_bound t n w w' x T A S F R I) as [[_ H]|[H _]]; [exact H|congruence]. Qed.

Lemma covered_round s v : visits E w0 s -> inv s -> covered s -> solver_round E s = Ok v -> covered (state_of v) /\
  (forall s', v = Break s' -> forall x, feasible p x -> q_above (s_obj (best (res s'))) (cost p x)).
Proof.
  intros VI I [BK CV] H. apply round_cases in H. pose proof (inv_round s v I BO H) as I'.
  destruct I as (T & ND & LF & RT).
  assert (TK : forall n q, take (backjump s) (queue s) = Ok (n, q) ->
    leaf (mip_tree s) n /\ (forall m, In m (queue s) <-> m = n \/ In m q) /\ (forall m, In m q -> leaf (mip_tree s) m)
    /\ ~ In n q /\ (n = 0 -> q = [])).
  { intros n q H0. apply take_perm in H0.
    assert (IN : forall m, In m (queue s) <-> m = n \/ In m q).
    { intros m. split; intros X.
      - eapply Permutation_in in X; [|exact H0]. destruct X; auto.
      - eapply Permutation_in; [apply Permutation_sym, H0|]. destruct X; cbn; auto. }
    assert (N2 : NoDup (n :: q)) by (eapply Permutation_NoDup; eauto). apply NoDup_cons_iff in N2 as [N2 N3].
    split; [apply LF, IN; auto|]. split; auto. split; [intros; apply LF, IN; auto|]. split; auto.
    intros ->. rewrite RT in H0 by (apply IN; auto). apply Permutation_length_1_inv in H0. injection H0. auto. }
  inversion H as [n q w t bj k seen H1 H2 H3 H4 H5 Hv|n q w t x bj seen H1 H2 H3 H4 H5 H6 H7 Hv
    |n q w t x bj seen H1 H2 H3 H4 H5 H6 H7 Hv|n q w t x j uf v0 t1 a t2 b q' seen H1 H2 H3 H4 H5 H6 H7 H8 H9 H10 H11 Hv];
    subst v; cbn [state_of] in *; destruct (TK _ _ H1) as (L & IQ & LQ & Nq & Q0);
    destruct (solve_node_spec _ _ _ _ H2) as (lo0 & up0 & _ & _ & RW & _).
  - split; [|discriminate]. split; auto. cbn [world res queue mip_tree]. intros x F. destruct (CV x F) as [R [C|(m & M & C)]].
    { split; auto. }
    split; auto. apply IQ in M as [->|M].
    + destruct (node_bound _ _ _ _ x T (proj1 L) H2 F R C) as [[O _]|[O U]]; [congruence|].
      destruct (SET s n w VI (ex_intro _ q H1) H2 O U).
    + right. exists m. split; auto.
      destruct (close_step nc _ n T L H4) as (t' & C1 & C2 & C3 & C4 & C5). rewrite H5 in C1. injection C1 as <-.
      assert (m <> n) by congruence. apply (in_node_sub t (mip_tree s)); auto; [apply C2|apply T|].
      apply C5; auto.
  - split; [|discriminate]. destruct (add_best (res s) (mkSol x (objective_value E w)) 0%Q BK (VO w)) as [BK' _].
    split; auto. cbn [world res queue mip_tree]. intros y F.
    destruct (add_best (res s) (mkSol x (objective_value E w)) (cost p y) BK (VO w)) as [_ AB].
    destruct (CV y F) as [R [C|(m & M & C)]]; (split; [auto|]).
    + left. auto.
    + apply IQ in M as [->|M].
      * left. apply AB. right. apply (node_optimal _ _ _ _ y T (proj1 L) H2 F R C H3).
      * right. exists m. split; auto. apply (in_node_setlp _ _ _ _ m y H4). auto.
  - assert (G : forall y, feasible p y -> q_above (s_obj (best (AddSolution (res s) (mkSol x (objective_value E w))))) (cost p y)).
    { intros y F. destruct (add_best (res s) (mkSol x (objective_value E w)) (cost p y) BK (VO w)) as [_ AB].
      destruct (CV y F) as [R [C|(m & M & C)]]; [auto|].
      apply IQ in M as [->|M]; [|rewrite Q0 in M by auto; destruct M].
      apply AB. right. apply (node_optimal _ _ _ _ y T (proj1 L) H2 F R C H3). }
    split; [|intros s' X; injection X as <-; auto].
    destruct (add_best (res s) (mkSol x (objective_value E w)) 0%Q BK (VO w)) as [BK' _].
    split; auto. cbn [world res queue mip_tree]. intros y F. split; [apply RW; auto; apply CV; auto|left; auto].
  - split; [|discriminate]. split; auto. cbn [world res queue mip_tree]. intros y F.
    destruct (CV y F) as [R [C|(m & M & C)]]; (split; [auto|]); auto. right.
    destruct (setlp_step nc _ n (objective_value E w) T L) as (t' & C1 & C2 & C3 & C4). rewrite H4 in C1. injection C1 as <-.
    destruct (BO w x H3 H5 H6 j uf H7) as (J & v1 & V1 & V2). rewrite H8 in V1. injection V1 as <-.
    destruct (add_step nc t n j v0 C2 (C3 n L) (env_range j J) V2) as (t1' & a' & t2' & b' & A1 & A2 & A3 & A4 & A5 & A6 & A7 & A8 & A9 & A10).
    rewrite H9 in A1. injection A1 as <- <-. rewrite H10 in A2. injection A2 as <- <-.
    apply IQ in M as [->|M].
    + apply (in_node_setlp _ _ _ _ n y H4) in C.
      destruct (in_child t n j v0 t1 a t2 b y C2 (proj1 (C3 n L)) J V2 H9 H10 A10 (proj1 A3) F C) as [X|X];
        [exists a|exists b]; (split; [eapply Permutation_in; [apply Permutation_sym, H11|cbn; auto]|auto]).
    + exists m. split; [eapply Permutation_in; [apply Permutation_sym, H11|cbn; auto]|].
      apply (in_node_setlp _ _ _ _ m y H4) in C. apply (in_node_sub t t2); auto; [apply C2|apply A3|apply C4, LQ, M].
Qed.

Lemma solve_loop_bound fuel : forall s s', visits E w0 s -> inv s -> covered s -> solve_loop E fuel s = Ok s' ->
  forall x, feasible p x -> q_above (s_obj (best (res s'))) (cost p x).
Proof.
  induction fuel as [|f IH]; intros s s' VI I C H x F; cbn [solve_loop] in H; destruct (queue s) as [|n q] eqn:Q; try discriminate.
  1,2: injection H as <-; cbn [finish res]; destruct (proj2 C x F) as [_ [D|(m & M & _)]]; auto; rewrite Q in M; destruct M.
  apply bind_ok in H as (v & R & H). destruct (covered_round s v VI I C R) as [C' G].
  assert (I' : inv (state_of v)) by (apply (inv_round s v I BO (round_cases E s v R))).
  destruct v as [s1|s1].
  - apply (IH s1 s'); auto. apply (visits_step E w0 s s1 VI); [rewrite Q; discriminate|exact R].
  - injection H as <-. apply (G s1 eq_refl x F).
Qed.

Lemma solve_bound fuel s : Solve E fuel w0 = Ok s ->
  forall x, feasible p x -> q_above (s_obj (best (res s))) (cost p x).
Proof. intros H. apply (solve_loop_bound fuel _ _ (visits_start E w0) (inv_start w0) covered_start H). Qed.
End Bound.

Lemma sound_honest w0 bounds rows : lp_sound E p w0 bounds rows -> lp_honest E p w0 bounds rows (fun _ => False).
Proof.
  intros [A B C D]. constructor; auto.
  - intros w w' H. destruct (C w w' H) as (C1 & C2 & C3). split; [exact C1|]. split; [exact C2|]. intros. left. auto.
  - intros w w' O H. destruct (D w w' O H) as (C1 & C2 & C3). split; [exact C1|]. split; [exact C2|]. intros. left. auto.
Qed.

(** ** Errors *)
Lemma bind_err {A B} (x : outcome A) (f : A -> outcome B) c : bind x f = Err c ->
  x = Err c \/ exists a, x = Ok a /\ f a = Err c.
Proof. destruct x; cbn; intros H; try discriminate; eauto. left. congruence. Qed.
Lemma check_ok_err {A} (x : outcome A) c : check_ok x <> Err c.
Proof. destruct x; cbn; congruence. Qed.
Lemma at_err {A} (l : list A) i c : at_ l i <> Err c.
Proof. unfold at_. destruct (_ <? _); [discriminate|]. destruct (nth_error _ _); discriminate. Qed.
Lemma all_of_err f l c : (forall i, f i <> Err c) -> all_of f l <> Err c.
Proof.
  intros H. induction l as [|i r IH]; cbn; [discriminate|]. intros X. apply bind_err in X as [X|(b & _ & X)].
  - apply (H i X).
  - destruct b; [auto|discriminate].
Qed.
Lemma integral_err o x tol c : SolutionIsIntegral o x tol <> Err c.
Proof.
  unfold SolutionIsIntegral. apply all_of_err. intros i X. apply bind_err in X as [X|(v & _ & X)]; [|discriminate].
  apply (at_err x i c X).
Qed.
Lemma foldM_err {S A} (f : S -> A -> outcome S) l c : (forall s a, f s a <> Err c) -> forall s, foldM f s l <> Err c.
Proof.
  intros H. induction l as [|a r IH]; intros s; cbn; [discriminate|]. intros X.
  apply bind_err in X as [X|(b & _ & X)]; [apply (H _ _ X)|apply (IH _ X)].
Qed.

Lemma solve_node_err t n w c : tree_ok nc t -> active t n -> solve_node E t n w <> Err c.
Proof.
  intros T A. destruct env_lengths as [L1 L2]. destruct env_nans as (N1 & N2 & _).
  destruct (box_exists nc t n lb ub T A L1 L2 N1 N2) as (lo & up & [B1 B2] & _).
  unfold solve_node. fold lb ub. rewrite B1, B2. cbn [bind]. intros H.
  apply bind_err in H as [H|(w1 & _ & H)].
  { revert H. apply foldM_err. intros s a X. apply bind_err in X as [X|(? & _ & X)]; [apply (at_err _ _ _ X)|].
    apply bind_err in X as [X|(? & _ & X)]; [apply (at_err _ _ _ X)|apply (check_ok_err _ _ X)]. }
  apply bind_err in H as [H|(w2 & _ & H)]; [apply (check_ok_err _ _ H)|].
  destruct (is_optimal E w2); [apply (check_ok_err _ _ H)|discriminate].
Qed.

Lemma round_err s c : inv s -> branch_ok E -> solver_round E s = Err c ->
  c = Internal /\ exists q w, take (backjump s) (queue s) = Ok (0, q) /\
    solve_node E (mip_tree s) 0 (world s) = Ok w /\ is_optimal E w = false.
Proof.
  intros (T & ND & LF & RT) BO. unfold solver_round. intros H.
  apply bind_err in H as [H|([n q] & TK & H)].
  { unfold take in H. destruct (backjump s); [destruct (rev _)|destruct (queue s)]; discriminate. }
  assert (L : leaf (mip_tree s) n).
  { apply LF. eapply Permutation_in; [apply Permutation_sym, (take_perm _ _ _ _ TK)|cbn; auto]. }
  apply bind_err in H as [H|(w & S & H)]; [destruct (solve_node_err _ _ _ _ T (proj1 L) H)|].
  destruct (is_optimal E w) eqn:O; cbn [negb] in H.
  - destruct (setlp_step nc _ n (objective_value E w) T L) as (t & SL & T' & LF' & _). rewrite SL in H. cbn [bind] in H.
    apply bind_err in H as [H|(x & PX & H)]; [destruct (check_ok_err _ _ H)|]. apply check_ok_ok in PX.
    apply bind_err in H as [H|(i & IX & H)]; [destruct (integral_err _ _ _ _ H)|].
    destruct i; [destruct (n =? 0); discriminate|].
    apply bind_err in H as [H|([j uf] & B & H)]; [destruct (check_ok_err _ _ H)|]. apply check_ok_ok in B.
    apply bind_err in H as [H|(y & Y & H)]; [destruct (at_err _ _ _ H)|].
    destruct (BO w x O PX IX j uf B) as (J & v1 & V1 & V2). rewrite Y in V1. injection V1 as <-.
    destruct (add_step nc t n j y T' (LF' n L) (env_range j J) V2) as (t1 & a & t2 & b & A1 & A2 & _).
    rewrite A1 in H. cbn [bind] in H. rewrite A2 in H. cbn [bind] in H. discriminate.
  - destruct (Z.eqb_spec n 0) as [->|N].
    + injection H as <-. split; auto. exists q, w. auto.
    + destruct (close_step nc _ n T L N) as (t & C & _). rewrite C in H. cbn [bind] in H.
      destruct (_ <? _); discriminate.
Qed.

Lemma round_no_root s s' : inv s -> branch_ok E -> solver_round E s = Ok (Continue s') -> ~ In 0 (queue s').
Proof.
  intros I BO H. pose proof H as H'. apply round_cases in H. pose proof (inv_round _ _ I BO H) as (T' & _ & LF' & RT').
  cbn [state_of] in *. intros Z0. specialize (RT' Z0).
  destruct I as (T & ND & LF & RT).
  inversion H as [n q w t bj k seen H1 H2 H3 H4 H5 Hv|n q w t x bj seen H1 H2 H3 H4 H5 H6 H7 Hv
    | |n q w t x j uf v0 t1 a t2 b q' seen H1 H2 H3 H4 H5 H6 H7 H8 H9 H10 H11 Hv];
    subst s'; cbn [queue] in *; apply take_perm in H1.
  1,2: rewrite RT in H1 by (eapply Permutation_in; [apply Permutation_sym, H1|cbn; auto]);
       apply Permutation_length_1_inv in H1; injection H1 as ? ?; congruence.
  rewrite RT' in H11. apply Permutation_length in H11. discriminate.
Qed.

Lemma loop_err fuel : forall s c, inv s -> branch_ok E -> ~ In 0 (queue s) -> solve_loop E fuel s <> Err c.
Proof.
  induction fuel as [|f IH]; intros s c I BO N H; cbn [solve_loop] in H; destruct (queue s) as [|n q] eqn:Q; try discriminate.
  rewrite <- Q in N. apply bind_err in H as [H|(v & R & H)].
  - destruct (round_err s c I BO H) as (_ & q' & w & TK & _). apply N.
    eapply Permutation_in; [apply Permutation_sym, (take_perm _ _ _ _ TK)|cbn; auto].
  - destruct v as [s1|s1]; [|discriminate].
    apply (IH s1 c); auto; [apply (inv_round s _ I BO (round_cases E s _ R))|apply (round_no_root s s1 I BO R)].
Qed.

Lemma solve_err w0 fuel c : branch_ok E -> Solve E fuel w0 = Err c ->
  c = Internal /\ exists w, solve_node E tree_new 0 w0 = Ok w /\ is_optimal E w = false.
Proof.
  intros BO H. unfold Solve in H. destruct fuel as [|f]; cbn [solve_loop solve_start queue] in H; [discriminate|].
  pose proof (inv_start w0) as I. fold (solve_start w0) in H. apply bind_err in H as [H|(v & R & H)].
  - destruct (round_err _ c I BO H) as (-> & q & w & _ & S & O). split; auto. exists w. auto.
  - destruct v as [s1|s1]; [|discriminate].
    destruct (loop_err f s1 c (inv_round _ _ I BO (round_cases E _ _ R)) BO (round_no_root _ s1 I BO R) H).
Qed.

Lemma solve_err_settled w0 bounds rows unsettled fuel c : branch_ok E -> lp_honest E p w0 bounds rows unsettled ->
  (forall s n w, visits E w0 s -> takes s n -> solve_node E (mip_tree s) n (world s) = Ok w ->
     is_optimal E w = false -> ~ unsettled w) ->
  Solve E fuel w0 = Err c -> forall x, ~ feasible p x.
Proof.
  intros BO LS SET H x F. destruct (solve_err w0 fuel c BO H) as (_ & w & S & O).
  destruct (covered_start w0 bounds rows unsettled LS) as [_ CV]. destruct (CV x F) as [R [D|(n & N & IN)]]; [cbn in D; discriminate D|].
  destruct N as [<-|[]]. destruct (inv_start w0) as (T & _ & LF & _).
  destruct (node_bound w0 bounds rows unsettled LS _ _ _ _ x T (proj1 (LF 0 (or_introl eq_refl))) S F R IN) as [[O' _]|[_ U]]; [congruence|].
  apply (SET (solve_start w0) 0 w (visits_start E w0)); auto. exists []. reflexivity.
Qed.
Lemma solve_err_infeasible w0 bounds rows fuel c : branch_ok E -> lp_sound E p w0 bounds rows ->
  Solve E fuel w0 = Err c -> forall x, ~ feasible p x.
Proof.
  intros BO LS. apply (solve_err_settled w0 bounds rows (fun _ => False) fuel c BO (sound_honest w0 bounds rows LS)). auto.
Qed.

(** ** C44 *)
Lemma foldM_total {S A} (f : S -> A -> outcome S) l : (forall s a, In a l -> exists s', f s a = Ok s') ->
  forall s, exists s', foldM f s l = Ok s'.
Proof.
  induction l as [|a r IH]; intros H s; cbn; eauto. destruct (H s a) as [s1 ->]; [cbn; auto|]. cbn. apply IH. cbn in H; auto.
Qed.

Lemma solve_node_total t n w : lp_total E p -> tree_ok nc t -> active t n -> exists w', solve_node E t n w = Ok w'.
Proof.
  intros LT T A. destruct env_lengths as [L1 L2]. destruct env_nans as (N1 & N2 & _).
  destruct (box_exists nc t n lb ub T A L1 L2 N1 N2) as (lo & up & [B1 B2] & M1 & M2).
  unfold solve_node. fold lb ub. rewrite B1, B2. cbn [bind].
  destruct (foldM_total (fun w col => do l <- at_ lo col ; do u <- at_ up col ; check_ok (set_bounds E w col l u)) (order E)) with (s := w) as [w1 S].
  { intros s j J. destruct (box_valid t n lo up j T A (conj B1 B2) J) as (a & b & -> & -> & VA & VB).
    cbn [bind]. apply env_lists in J. destruct (lt_set _ _ LT s j a b J VA VB) as [w' ->]. cbn. eauto. }
  unfold set_node_bounds. rewrite S. cbn [bind]. destruct (lt_solve _ _ LT w1) as [w2 ->]. cbn [check_ok bind].
  destruct (is_optimal E w2) eqn:O; eauto. destruct (lt_separate _ _ LT w2 O) as [w3 ->]. cbn. eauto.
Qed.

Lemma integral_total o x tol : (forall j, In j o -> 0 <= j < Z.of_nat (length x)) ->
  exists b, SolutionIsIntegral o x tol = Ok b.
Proof.
  intros H. apply all_of_ok. intros i I. destruct (at_range x i (H i I)) as [v ->]. cbn. eauto.
Qed.

Lemma round_total s : inv s -> branch_ok E -> lp_total E p -> queue s <> [] ->
  (exists v, solver_round E s = Ok v) \/ solver_round E s = Err Internal.
Proof.
  intros (T & ND & LF & RT) BO LT Q. unfold solver_round.
  destruct (take_defined (backjump s) (queue s) Q) as (n & q & TK). rewrite TK. cbn [bind].
  assert (L : leaf (mip_tree s) n).
  { apply LF. eapply Permutation_in; [apply Permutation_sym, (take_perm _ _ _ _ TK)|cbn; auto]. }
  destruct (solve_node_total (mip_tree s) n (world s) LT T (proj1 L)) as [w ->]. cbn [bind].
  destruct (is_optimal E w) eqn:O; cbn [negb].
  - left. destruct (setlp_step nc _ n (objective_value E w) T L) as (t & -> & T' & LF' & _). cbn [bind].
    destruct (lt_primal _ _ LT w O) as (x & PX & LX). rewrite PX. cbn [check_ok bind].
    destruct (integral_total (order E) x (tolerance E)) as [i IX].
    { intros j J. rewrite LX. apply env_range; auto. }
    rewrite IX. cbn [bind]. destruct i; [destruct (n =? 0); eauto|].
    destruct (lt_branch _ _ LT w x O PX IX) as (j & uf & B). rewrite B. cbn [check_ok bind].
    destruct (BO w x O PX IX j uf B) as (J & v & V1 & V2). rewrite V1. cbn [bind].
    destruct (add_step nc t n j v T' (LF' n L) (env_range j J) V2) as (t1 & a & t2 & b & A1 & A2 & _).
    rewrite A1. cbn [bind]. rewrite A2. cbn [bind]. eauto.
  - destruct (Z.eqb_spec n 0) as [->|N]; auto. left.
    destruct (close_step nc _ n T L N) as (t & -> & _). cbn [bind]. destruct (_ <? _); eauto.
Qed.

Lemma loop_total fuel : forall s, inv s -> branch_ok E -> lp_total E p ->
  (exists s', solve_loop E fuel s = Ok s') \/ solve_loop E fuel s = Err Internal \/ solve_loop E fuel s = Fuel.
Proof.
  induction fuel as [|f IH]; intros s I BO LT; cbn [solve_loop]; destruct (queue s) as [|n q] eqn:Q; eauto.
  destruct (round_total s I BO LT) as [[v R]|R]; [congruence| |]; rewrite R; cbn [bind]; auto.
  destruct v as [s1|s1]; eauto. apply IH; auto. apply (inv_round s _ I BO (round_cases E s _ R)).
Qed.

Lemma solve_total w0 fuel : branch_ok E -> lp_total E p ->
  (exists s', Solve E fuel w0 = Ok s') \/ Solve E fuel w0 = Err Internal \/ Solve E fuel w0 = Fuel.
Proof. intros. apply loop_total; auto. apply inv_start. Qed.

Lemma inv_visits w0 s : branch_ok E -> visits E w0 s -> inv s.
Proof.
  intros BO H. induction H as [|s s' H IH Q R]; [apply inv_start|].
  apply (inv_round s _ IH BO (round_cases E s _ R)).
Qed.
(** ** C42 *)
Section Points.
Variables (w0 : W) (bounds : W -> Z -> double * double).
Hypothesis (BO : branch_ok E) (LK : lp_keeps_bounds E bounds) (LI : lp_inside E p bounds).

Lemma keeps_loop lo up l : forall w w',
  foldM (fun w col => do a <- at_ lo col ; do b <- at_ up col ; check_ok (set_bounds E w col a b)) w l = Ok w' ->
  (forall k, ~ In k l -> bounds w' k = bounds w k) /\
  (forall j, In j l -> exists a b, at_ lo j = Ok a /\ at_ up j = Ok b /\ bounds w' j = (a, b)).
Proof.
  induction l as [|c l IH]; intros w w' H.
  - injection H as <-. repeat split; auto. intros j [].
  - cbn [foldM] in H. apply bind_ok in H as (w1 & H1 & H2).
    apply bind_ok in H1 as (a & A & H1). apply bind_ok in H1 as (b & B & H1). apply check_ok_ok in H1.
    destruct (lk_set _ _ LK _ _ _ _ _ H1) as (S1 & S2). destruct (IH _ _ H2) as (I2 & I3).
    split.
    + intros k K. cbn in K. rewrite I2 by tauto. apply S2. intros ->. tauto.
    + intros j [<-|J]; [|auto]. destruct (in_dec Z.eq_dec c l) as [J|J]; [auto|].
      exists a, b. rewrite (I2 c J). auto.
Qed.

Lemma solve_node_bounds t n w w' : solve_node E t n w = Ok w' ->
  exists lo up, boxed t lb ub n lo up /\
  (forall j, In j (order E) -> exists a b, at_ lo j = Ok a /\ at_ up j = Ok b /\ bounds w' j = (a, b)).
Proof.
  unfold solve_node. intros H. apply bind_ok in H as (lo & Lo & H). apply bind_ok in H as (up & Up & H).
  apply bind_ok in H as (w1 & S & H). apply bind_ok in H as (w2 & D & H). apply check_ok_ok in D.
  exists lo, up. split; [split; auto|]. destruct (keeps_loop _ _ _ _ _ S) as (_ & B3).
  intros j J. destruct (B3 j J) as (a & b & A & B & C). exists a, b. split; auto. split; auto.
  rewrite <- C, <- (lk_solve _ _ LK _ _ D).
  destruct (is_optimal E w2).
  - apply check_ok_ok in H. apply (lk_separate _ _ LK _ _ H).
  - injection H as <-. auto.
Qed.

(** The box of a node lies in the root box. *)
Lemma box_root t n lo up j r r' a b : tree_ok nc t -> active t n -> boxed t lb ub n lo up ->
  at_ lb j = Ok r -> at_ ub j = Ok r' -> at_ lo j = Ok a -> at_ up j = Ok b ->
  dleb r a = true /\ dleb b r' = true.
Proof.
  intros T A [B1 B2] R R' HA HB. destruct (path_of_active t n (proj1 T) A) as [l P].
  destruct (path_data nc t n l T P) as [D1 D2]. destruct env_lengths as [L1 L2]. destruct env_nans as (N1 & N2 & _).
  destruct (lower_bounds t n l lb (proj1 T) P) as (lo' & E1 & _ & E2); [rewrite L1; auto|auto|].
  destruct (upper_bounds t n l ub (proj1 T) P) as (up' & F1 & _ & F2); [rewrite L2; auto|auto|].
  rewrite B1 in E1. injection E1 as <-. rewrite B2 in F1. injection F1 as <-.
  destruct (E2 j r R) as (x & X1 & _ & X2 & _). destruct (F2 j r' R') as (y & Y1 & _ & Y2 & _).
  rewrite HA in X1. injection X1 as <-. rewrite HB in Y1. injection Y1 as <-. auto.
Qed.

Section Tol.
Hypothesis (VT : dvalid (tolerance E) = true) (FT : is_finite (tolerance E) = true).
Definition sol_fine (sol : solution) : Prop :=
  exists s n q w, visits E w0 s /\ take (backjump s) (queue s) = Ok (n, q) /\
    solve_node E (mip_tree s) n (world s) = Ok w /\ is_optimal E w = true /\
    primal_values E w = Ok (s_vals sol) /\ s_obj sol = objective_value E w /\
    forall j var, nth_var p j = Some var -> v_int var = true ->
      exists v, at_ (s_vals sol) j = Ok v /\ near_integer v (tolerance E) /\
        dleb (v_lb var) v = true /\ dleb v (v_ub var) = true.

Lemma new_sol_fine s n q w x : visits E w0 s -> take (backjump s) (queue s) = Ok (n, q) ->
  solve_node E (mip_tree s) n (world s) = Ok w -> is_optimal E w = true -> primal_values E w = Ok x ->
  SolutionIsIntegral (order E) x (tolerance E) = Ok true -> sol_fine (mkSol x (objective_value E w)).
Proof.
  intros V TK S O P I. exists s, n, q, w. repeat (split; [auto|]). cbn [s_vals].
  intros j var J JI. assert (JO : In j (order E)) by (apply env_lists; exists var; auto).
  destruct (LI w x O P) as (L1 & L2 & L3).
  pose proof (env_range j JO) as JR. destruct (at_range x j) as [v Hv]; [rewrite L1; auto|].
  destruct (L3 j v) as (F & G1 & G2); [exists var; auto|auto|].
  destruct (solution_is_integral (order E) x (tolerance E)) as (b & B1 & B2); auto.
  { apply Forall_forall. intros k K. rewrite L1. apply env_range; auto. }
  rewrite I in B1. injection B1 as <-. destruct (proj1 B2 eq_refl j v JO Hv) as [_ NI].
  exists v. split; auto. split; auto.
  destruct (solve_node_bounds _ _ _ _ S) as (lo & up & BX & BJ). destruct (BJ j JO) as (a & b & A1 & A2 & A3).
  rewrite A3 in G1, G2. cbn [fst snd] in *. destruct (env_at j var J) as [R1 R2].
  pose proof (inv_visits w0 s BO V) as (T & _ & LF & _).
  assert (A : active (mip_tree s) n).
  { apply LF. eapply Permutation_in; [apply Permutation_sym, (take_perm _ _ _ _ TK)|cbn; auto]. }
  destruct (box_root _ _ _ _ _ _ _ _ _ T A BX R1 R2 A1 A2) as [Q1 Q2].
  split; [apply (dleb_trans _ a v)|apply (dleb_trans _ b)]; auto.
Qed.

Lemma reported_add r s sol : reported (AddSolution r s) sol -> sol = s \/ reported r sol.
Proof.
  unfold reported, AddSolution. destruct (dltb _ _); cbn [best additional].
  - intros [->|H]; auto. destruct (negb _); auto. apply in_app_or in H as [H|[<-|[]]]; auto.
  - intros [->|H]; auto. apply in_app_or in H as [H|[<-|[]]]; auto.
Qed.

Lemma loop_sols fuel : forall s s', visits E w0 s ->
  (forall sol, reported (res s) sol -> sol = sol_default \/ sol_fine sol) ->
  solve_loop E fuel s = Ok s' ->
  forall sol, reported (res s') sol -> sol = sol_default \/ sol_fine sol.
Proof.
  induction fuel as [|f IH]; intros s s' V C H; cbn [solve_loop] in H; destruct (queue s) as [|n q] eqn:Q; try discriminate.
  1,2: injection H as <-; auto.
  apply bind_ok in H as (v & R & H). assert (R' := R). apply round_cases in R.
  assert (G : forall sol, reported (res (state_of v)) sol -> sol = sol_default \/ sol_fine sol).
  { inversion R; subst v; cbn [state_of res]; auto; intros sol M; apply reported_add in M as [->|M]; auto;
      right; eapply new_sol_fine; eauto. }
  destruct v as [s1|s1]; cbn [state_of] in G.
  - apply (IH s1 s'); auto. apply (visits_step E w0 s s1 V); auto. congruence.
  - injection H as <-. auto.
Qed.

Lemma solve_sols fuel s : Solve E fuel w0 = Ok s ->
  forall sol, reported (res s) sol -> sol = sol_default \/ sol_fine sol.
Proof.
  apply loop_sols; [apply visits_start|]. intros sol [->|[]]. auto.
Qed.

End Tol.

(** ** C43 *)
Section Terminates.
Hypothesis (BF : branch_fractional E) (BI : bounded_integers p).

Lemma int_finite j : In j (order E) -> exists r r', at_ lb j = Ok r /\ at_ ub j = Ok r' /\ finite_double r /\ finite_double r'.
Proof.
  intros J. apply env_lists in J as (v & A & B). destruct (env_at j v A) as [R1 R2]. exists (v_lb v), (v_ub v).
  unfold bounded_integers in BI. rewrite Forall_forall in BI.
  assert (I : In v (p_vars p)).
  { unfold nth_var in A. destruct (j <? 0); [discriminate|]. eapply nth_error_In; eauto. }
  destruct (BI v I B) as [F1 F2]. pose proof (eo_bounds _ _ OK) as EB. rewrite Forall_forall in EB.
  destruct (EB v I) as (_ & _ & V1 & V2). repeat split; auto.
Qed.

Lemma box_finite t n lo up j : tree_ok nc t -> active t n -> boxed t lb ub n lo up -> In j (order E) ->
  exists a b, at_ lo j = Ok a /\ at_ up j = Ok b /\ finite_double a /\ finite_double b.
Proof.
  intros T A [B1 B2] J. destruct (int_finite j J) as (r & r' & R & R' & FR & FR').
  destruct (path_of_active t n (proj1 T) A) as [l P].
  destruct (path_data nc t n l T P) as [D1 D2]. destruct env_lengths as [L1 L2]. destruct env_nans as (N1 & N2 & _).
  pose proof (path_fin t n l T P) as PF. rewrite Forall_forall in PF.
  destruct (lower_bounds t n l lb (proj1 T) P) as (lo' & E1 & _ & E2); [rewrite L1; auto|auto|].
  destruct (upper_bounds t n l ub (proj1 T) P) as (up' & F1 & _ & F2); [rewrite L2; auto|auto|].
  rewrite B1 in E1. injection E1 as <-. rewrite B2 in F1. injection F1 as <-.
  destruct (E2 j r R) as (x & X1 & X2 & _). destruct (F2 j r' R') as (y & Y1 & Y2 & _).
  exists x, y. split; auto. split; auto. split.
  - destruct X2 as [->|(d & I & [X|(_ & _ & ->)])]; auto; destruct (PF d I) as (P1 & P2 & P3 & P4).
    + rewrite P1 in X. destruct X.
    + destruct (dceil_spec _ P3 P4) as (Q1 & Q2 & _). split; auto.
  - destruct Y2 as [->|(d & I & [X|(_ & _ & ->)])]; auto; destruct (PF d I) as (P1 & P2 & P3 & P4).
    + rewrite P2 in X. destruct X.
    + destruct (dfloor_spec _ P3 P4) as (Q1 & Q2 & _). split; auto.
Qed.

Definition width (lo up : list double) (j : Z) : Z :=
  match at_ lo j, at_ up j with Ok a, Ok b => Z.max 0 (zval b - zval a + 1) | _, _ => 0 end.
Definition widths (lo up : list double) (l : list Z) : Z := fold_right Z.add 0 (map (width lo up) l).
Definition mu (t : tree) (n : Z) : Z :=
  match RetrieveLower t n lb, RetrieveUpper t n ub with Ok lo, Ok up => widths lo up (order E) | _, _ => 0 end.

Lemma width_nonneg lo up j : 0 <= width lo up j.
Proof. unfold width. destruct (at_ lo j), (at_ up j); lia. Qed.
Lemma widths_nonneg lo up l : 0 <= widths lo up l.
Proof. unfold widths. induction l as [|j l IH]; cbn; [lia|]. pose proof (width_nonneg lo up j). lia. Qed.
Lemma mu_nonneg t n : 0 <= mu t n.
Proof. unfold mu. destruct (RetrieveLower t n lb), (RetrieveUpper t n ub); try lia. apply widths_nonneg. Qed.

Lemma widths_lt lo up lo' up' l j : NoDup l -> In j l -> (forall k, k <> j -> at_ lo' k = at_ lo k /\ at_ up' k = at_ up k) ->
  width lo' up' j < width lo up j -> widths lo' up' l < widths lo up l.
Proof.
  unfold widths. intros N I O L. induction l as [|k l IH]; [destruct I|]. apply NoDup_cons_iff in N as [N1 N2].
  cbn [map fold_right]. destruct (Z.eq_dec k j) as [->|KJ].
  - assert (X : map (width lo' up') l = map (width lo up) l).
    { apply map_ext_in. intros i Hi. assert (i <> j) by congruence. unfold width. destruct (O i H) as [-> ->]. auto. }
    rewrite X. lia.
  - destruct I as [|I]; [congruence|]. specialize (IH N2 I).
    assert (X : width lo' up' k = width lo up k) by (unfold width; destruct (O k KJ) as [-> ->]; auto). lia.
Qed.

Lemma width_lt lo up lo' up' j a b a' b' : at_ lo j = Ok a -> at_ up j = Ok b -> at_ lo' j = Ok a' -> at_ up' j = Ok b' ->
  zval a <= zval b -> zval a <= zval a' -> zval b' <= zval b -> zval a < zval a' \/ zval b' < zval b ->
  width lo' up' j < width lo up j.
Proof. unfold width. intros -> -> -> ->. lia. Qed.

Lemma is_whole_fractional v : finite_double v -> ~ is_whole (zval v) -> fractional v.
Proof.
  intros [V F] N z [A B]. apply N. exists z. destruct v; try discriminate; cbn [int_ge int_le] in *; lia.
Qed.

Lemma children_smaller t n j v t1 a t2 b lo up a0 b0 : tree_ok nc t -> leaf t n -> In j (order E) -> finite_double v ->
  ~ is_whole (zval v) -> AddNode t n j true v = Ok (t1, a) -> AddNode t1 n j false v = Ok (t2, b) ->
  boxed t lb ub n lo up -> at_ lo j = Ok a0 -> at_ up j = Ok b0 -> dleb a0 v = true -> dleb v b0 = true ->
  mu t2 a < mu t n /\ mu t2 b < mu t n.
Proof.
  intros T L J FV NW A1 A2 BX LA UB LE1 LE2.
  destruct (add_step nc t n j v T L (env_range j J) FV) as (t1' & a' & t2' & b' & X1 & X2 & T2 & AB & NA & NB & LA2 & LB2 & _ & SUB).
  rewrite A1 in X1. injection X1 as <- <-. rewrite A2 in X2. injection X2 as <- <-.
  destruct L as [AC CN].
  destruct (path_of_active t n (proj1 T) AC) as [l P]. destruct (path_data nc t n l T P) as [D1 D2].
  destruct env_lengths as [L1 L2]. destruct env_nans as (N1 & N2 & N3 & N4).
  assert (FV' := FV). destruct FV' as [VV FF].
  destruct (branching t n j v t1 a t2 b l lb ub (proj1 T) A1 A2 FF VV P) as
    (lp & up' & ld & ud & lu & uu & B1 & B2 & B3 & B4 & B5 & B6 & OTH & p0 & q0 & p1 & q1 & p2 & q2 & C1 & C2 & C3 & C4 & C5 & C6 & _ & FR & _);
    auto; try (rewrite L1; auto using env_range); try lia.
  destruct (FR (is_whole_fractional v FV NW)) as (_ & LT1 & LT2).
  destruct (box_sub t t2 n lb ub (proj1 T) (proj1 T2) AC SUB) as [S1 S2]. destruct BX as [BX1 BX2].
  rewrite S1, BX1 in B1. injection B1 as <-. rewrite S2, BX2 in B2. injection B2 as <-.
  rewrite LA in C1. injection C1 as <-. rewrite UB in C2. injection C2 as <-.
  assert (PN : exists dn, node t n = Ok dn) by exact AC. destruct PN as [dn PN].
  destruct (add_spec t n j true v t1 a (proj1 T) A1) as (dp & _ & _ & _ & _ & R1 & _ & _ & NODEA & _).
  destruct (add_spec t1 n j false v t2 b R1 A2) as (dp' & _ & _ & _ & _ & _ & _ & _ & NODEB & _ & OB & _).
  assert (NODEA2 : node t2 a = Ok (mkNode n (depth dp + 1) 0 0 j true v dminf [] [])) by (rewrite OB; auto).
  assert (Z0 : active t 0) by (eapply root_active; eauto).
  assert (MONO : forall c d, node t2 c = Ok d -> parent d = n -> c <> 0 -> forall lc uc, boxed t2 lb ub c lc uc ->
     forall x y, at_ lc j = Ok x -> at_ uc j = Ok y -> dleb a0 x = true /\ dleb y b0 = true).
  { intros c d Hc Pc C0 lc uc [G1 G2] x y Hx Hy.
    assert (PO : path_ok t2 c nc).
    { destruct (path_of_active t2 c (proj1 T2)) as [lc' Pc']; [eexists; eauto|]. exists lc'. split; auto.
      apply (path_data nc t2 c lc' T2 Pc'). }
    destruct (bounds_monotone t2 c d nc lb ub (proj1 T2) Hc C0 PO L1 L2 N1 N2) as (lc1 & uc1 & lp1 & up1 & M1 & M2 & M3 & M4 & M5 & M6).
    rewrite Pc, S1, BX1 in M3. injection M3 as <-. rewrite Pc, S2, BX2 in M4. injection M4 as <-.
    rewrite G1 in M1. injection M1 as <-. rewrite G2 in M2. injection M2 as <-.
    destruct (at_range lb j) as [r Hr]; [rewrite L1; apply env_range; auto|].
    destruct (at_range ub j) as [r' Hr']; [rewrite L2; apply env_range; auto|].
    split; [apply (M5 j r a0 x Hr LA Hx)|apply (M6 j r' b0 y Hr' UB Hy)]. }
  assert (FIN0 : finite_double a0 /\ finite_double b0).
  { destruct (box_finite t n lo up j T AC (conj BX1 BX2) J) as (x & y & X & Y & F1 & F2).
    rewrite LA in X. injection X as <-. rewrite UB in Y. injection Y as <-. auto. }
  destruct FIN0 as [[V0 F0] [V0' F0']].
  apply dleb_zval in LE1; auto. apply dleb_zval in LE2; auto.
  assert (MN : mu t n = widths lo up (order E)) by (unfold mu; rewrite BX1, BX2; auto).
  destruct env_lists as (_ & _ & _ & NDO). rewrite MN. split.
  - unfold mu. rewrite B3, B4. apply (widths_lt lo up ld ud _ j); auto.
    { intros k K. destruct (OTH k K) as (O1 & O2 & _ & _). auto. }
    destruct (box_finite t2 a ld ud j T2 (proj1 LA2) (conj B3 B4) J) as (x & y & X & Y & [V1 F1] & [V2 F2]).
    destruct (MONO a _ NODEA2 eq_refl) with (lc := ld) (uc := ud) (x := x) (y := y) as [M1 M2]; auto; [intros ->; auto|split; auto|].
    rewrite C4 in Y. injection Y as <-. apply dltb_zval in LT1; auto. apply dleb_zval in M1; auto. apply dleb_zval in M2; auto.
    apply (width_lt lo up ld ud j a0 b0 x q1 LA UB X C4); clear - LE1 LE2 LT1 M1 M2; lia.
  - unfold mu. rewrite B5, B6. apply (widths_lt lo up lu uu _ j); auto.
    { intros k K. destruct (OTH k K) as (_ & _ & O1 & O2). auto. }
    destruct (box_finite t2 b lu uu j T2 (proj1 LB2) (conj B5 B6) J) as (x & y & X & Y & [V1 F1] & [V2 F2]).
    destruct (MONO b _ NODEB eq_refl) with (lc := lu) (uc := uu) (x := x) (y := y) as [M1 M2]; auto; [intros ->; auto|split; auto|].
    rewrite C5 in X. injection X as <-. apply dltb_zval in LT2; auto. apply dleb_zval in M1; auto. apply dleb_zval in M2; auto.
    apply (width_lt lo up lu uu j a0 b0 p2 y LA UB C5 Y); clear - LE1 LE2 LT2 M1 M2; lia.
Qed.

Definition weight (t : tree) (q : list Z) : Z := fold_right Z.add 0 (map (fun n => 3 ^ mu t n) q).
Lemma weight_perm t q q' : Permutation q q' -> weight t q = weight t q'.
Proof. unfold weight. induction 1; cbn; lia. Qed.
Lemma weight_ext t t' q : (forall n, In n q -> mu t' n = mu t n) -> weight t' q = weight t q.
Proof. intros H. unfold weight. f_equal. apply map_ext_in. intros n N. rewrite H; auto. Qed.
Lemma pow3_pos t n : 1 <= 3 ^ mu t n.
Proof. pose proof (mu_nonneg t n). assert (0 < 3 ^ mu t n) by (apply Z.pow_pos_nonneg; lia). lia. Qed.
Lemma weight_nonneg t q : 0 <= weight t q.
Proof. unfold weight. induction q as [|n q IH]; cbn; [lia|]. pose proof (pow3_pos t n). lia. Qed.

Lemma mu_sub t t' n : reachable t -> reachable t' -> active t n ->
  (forall m d, node t m = Ok d -> node t' m = Ok d) -> mu t' n = mu t n.
Proof. intros R R' A S. destruct (box_sub t t' n lb ub R R' A S) as [B1 B2]. unfold mu. rewrite B1, B2. auto. Qed.
Lemma mu_setlp t t' n v m : SetLp t n v = Ok t' -> mu t' m = mu t m.
Proof. intros S. destruct (box_setlp t t' n v m lb ub S) as [B1 B2]. unfold mu. rewrite B1, B2. auto. Qed.

Lemma weight_round s s' : inv s -> solver_round E s = Ok (Continue s') ->
  weight (mip_tree s') (queue s') < weight (mip_tree s) (queue s).
Proof.
  intros (T & ND & LF & RT) H. apply round_cases in H.
  assert (TK : forall n q, take (backjump s) (queue s) = Ok (n, q) ->
    leaf (mip_tree s) n /\ (forall m, In m q -> leaf (mip_tree s) m /\ m <> n) /\
    weight (mip_tree s) (queue s) = 3 ^ mu (mip_tree s) n + weight (mip_tree s) q).
  { intros n q H0. apply take_perm in H0.
    assert (IN : forall m, m = n \/ In m q -> In m (queue s)).
    { intros m X. eapply Permutation_in; [apply Permutation_sym, H0|]. destruct X; cbn; auto. }
    assert (N2 : NoDup (n :: q)) by (eapply Permutation_NoDup; eauto). apply NoDup_cons_iff in N2 as [N2 N3].
    split; [apply LF, IN; auto|]. split; [intros m M; split; [apply LF, IN; auto|congruence]|].
    rewrite (weight_perm _ _ _ H0). reflexivity. }
  inversion H as [n q w t bj k seen H1 H2 H3 H4 H5 Hv|n q w t x bj seen H1 H2 H3 H4 H5 H6 H7 Hv
    | |n q w t x j uf v0 t1 a t2 b q' seen H1 H2 H3 H4 H5 H6 H7 H8 H9 H10 H11 Hv];
    subst s'; cbn [mip_tree queue]; destruct (TK _ _ H1) as (L & LQ & WQ); rewrite WQ.
  - destruct (close_step nc _ n T L H4) as (t' & C1 & C2 & C3 & C4 & C5). rewrite H5 in C1. injection C1 as <-.
    pose proof (pow3_pos (mip_tree s) n). rewrite (weight_ext (mip_tree s) t q); [lia|].
    intros m M. destruct (LQ m M) as [M1 M2]. symmetry. apply (mu_sub t (mip_tree s)); auto; [apply C2|apply T|apply C5; auto].
  - pose proof (pow3_pos (mip_tree s) n). rewrite (weight_ext (mip_tree s) t q); [lia|]. intros m _. apply (mu_setlp _ _ _ _ _ H4).
  - destruct (setlp_step nc _ n (objective_value E w) T L) as (t' & C1 & C2 & C3 & C4). rewrite H4 in C1. injection C1 as <-.
    destruct (BF w x H3 H5 H6 j uf H7) as (J & v1 & V1 & V2 & V3). rewrite H8 in V1. injection V1 as <-.
    destruct (add_step nc t n j v0 C2 (C3 n L) (env_range j J) V2) as (t1' & a' & t2' & b' & A1 & A2 & A3 & A4 & A5 & A6 & A7 & A8 & A9 & A10).
    rewrite H9 in A1. injection A1 as <- <-. rewrite H10 in A2. injection A2 as <- <-.
    rewrite (weight_perm t2 _ _ H11). cbn [weight map fold_right]. change (fold_right Z.add 0 (map (fun n0 => 3 ^ mu t2 n0) q)) with (weight t2 q).
    rewrite (weight_ext (mip_tree s) t2 q).
    2: { intros m M. rewrite (mu_sub t t2 m (proj1 C2) (proj1 A3)); auto; [apply (mu_setlp _ _ _ _ _ H4)|apply C4, LQ, M]. }
    destruct (solve_node_bounds _ _ _ _ H2) as (lo & up & [BX1 BX2] & BJ). destruct (BJ j J) as (a0 & b0 & G1 & G2 & G3).
    destruct (LI w x H3 H5) as (_ & _ & L3). destruct (L3 j v0) as (_ & K1 & K2); [apply env_lists; auto|auto|].
    rewrite G3 in K1, K2. cbn [fst snd] in *.
    destruct (box_setlp _ _ _ _ n lb ub H4) as [Y1 Y2].
    assert (BX : boxed t lb ub n lo up) by (split; [rewrite Y1|rewrite Y2]; auto).
    destruct (children_smaller t n j v0 t1 a t2 b lo up a0 b0 C2 (C3 n L) J V2 V3 H9 H10 BX G1 G2 K1 K2) as [M1 M2].
    rewrite (mu_setlp _ _ _ _ _ H4) in M1, M2. pose proof (mu_nonneg t2 a). pose proof (mu_nonneg t2 b).
    assert (P1 : 3 ^ mu t2 a <= 3 ^ (mu (mip_tree s) n - 1)) by (apply Z.pow_le_mono_r; lia).
    assert (P2 : 3 ^ mu t2 b <= 3 ^ (mu (mip_tree s) n - 1)) by (apply Z.pow_le_mono_r; lia).
    assert (P3 : 3 ^ mu (mip_tree s) n = 3 * 3 ^ (mu (mip_tree s) n - 1)).
    { rewrite <- Z.pow_succ_r by lia. f_equal. lia. }
    assert (0 < 3 ^ (mu (mip_tree s) n - 1)) by (apply Z.pow_pos_nonneg; lia). lia.
Qed.

Lemma loop_fuel fuel : forall s, lp_total E p -> inv s -> weight (mip_tree s) (queue s) < Z.of_nat fuel ->
  (exists s', solve_loop E fuel s = Ok s') \/ solve_loop E fuel s = Err Internal.
Proof.
  induction fuel as [|f IH]; intros s LT I WT; cbn [solve_loop].
  - pose proof (weight_nonneg (mip_tree s) (queue s)). lia.
  - destruct (queue s) as [|n q] eqn:Q; [eauto|]. rewrite <- Q in *.
    destruct (round_total s I BO LT) as [[v R]|R]; [congruence| |]; rewrite R; cbn [bind]; auto.
    destruct v as [s1|s1]; [|eauto]. pose proof (weight_round s s1 I R).
    apply (IH s1); auto; [apply (inv_round s _ I BO (round_cases E s _ R))|lia].
Qed.

Lemma solve_terminates : lp_total E p -> exists fuel0, forall fuel, (fuel0 <= fuel)%nat ->
  (exists s, Solve E fuel w0 = Ok s) \/ Solve E fuel w0 = Err Internal.
Proof.
  intros LT. exists (S (Z.to_nat (weight tree_new [0]))). intros fuel F. apply loop_fuel; auto; [apply inv_start|].
  cbn [solve_start mip_tree queue]. lia.
Qed.

Lemma round_explored s s' : solver_round E s = Ok (Continue s') -> length (explored s') = S (length (explored s)).
Proof.
  unfold solver_round. intros H. apply bind_ok in H as ([n q] & _ & H). apply bind_ok in H as (w & _ & H).
  assert (L : length (explored s ++ [n]) = S (length (explored s))) by (rewrite app_length; cbn; lia).
  destruct (is_optimal E w); cbn [negb] in H.
  - apply bind_ok in H as (t & _ & H). apply bind_ok in H as (x & _ & H). apply bind_ok in H as (i & _ & H). destruct i.
    + destruct (n =? 0); [discriminate|]. injection H as <-. auto.
    + apply bind_ok in H as ([j u] & _ & H). apply bind_ok in H as (v & _ & H). apply bind_ok in H as ([t1 a] & _ & H).
      apply bind_ok in H as ([t2 b] & _ & H). injection H as <-. auto.
  - destruct (n =? 0); [discriminate|]. apply bind_ok in H as (t & _ & H).
    destruct (_ <? _); injection H as <-; auto.
Qed.

Lemma finitely_many : exists N, forall s, visits E w0 s -> (length (explored s) <= N)%nat.
Proof.
  exists (Z.to_nat (weight tree_new [0])). intros s V.
  enough (Z.of_nat (length (explored s)) + weight (mip_tree s) (queue s) <= weight tree_new [0]).
  { pose proof (weight_nonneg (mip_tree s) (queue s)). lia. }
  induction V as [|s s' V IH Q R]; [cbn [solve_start explored mip_tree queue length]; lia|].
  pose proof (weight_round s s' (inv_visits w0 s BO V) R). rewrite (round_explored s s' R). lia.
Qed.
End Terminates.
End Points.

(** ** Max-fractional branching meets the branching hypotheses *)
Lemma max_fractional_finite dir : max_fractional_env E dir ->
  (forall w x, is_optimal E w = true -> primal_values E w = Ok x ->
     Z.of_nat (length x) = num_vars p /\ Forall (fun v => dvalid v = true) x /\
     forall j v, is_integer_var p j -> at_ x j = Ok v -> finite_double v) ->
  branch_ok E /\ branch_fractional E /\
  forall w x, is_optimal E w = true -> primal_values E w = Ok x ->
    SolutionIsIntegral (order E) x (tolerance E) = Ok false -> exists j up, branch E w = Ok (j, up).
Proof.
  intros [MB (VT & FT & PT)] LI.
  assert (G : forall w x, is_optimal E w = true -> primal_values E w = Ok x ->
    SolutionIsIntegral (order E) x (tolerance E) = Ok false ->
    exists c b v, branch E w = Ok (c, b) /\ In c (order E) /\ at_ x c = Ok v /\ finite_double v /\ ~ near_integer v (tolerance E)).
  { intros w x O P I. destruct (LI w x O P) as (L1 & L2 & L3).
    destruct (solution_is_integral (order E) x (tolerance E)) as (b & B1 & B2); auto.
    { apply Forall_forall. intros k K. rewrite L1. apply env_range; auto. }
    rewrite I in B1. injection B1 as <-.
    assert (US : Forall (fun j => exists v, at_ x j = Ok v /\ finite_double v) (order E)).
    { apply Forall_forall. intros k K. pose proof (env_range k K). destruct (at_range x k) as [v Hv]; [rewrite L1; auto|].
      exists v. split; auto. apply (L3 k v); auto. apply env_lists; auto. }
    assert (EX : exists j, In j (order E) /\ exists v, at_ x j = Ok v /\ ~ near_integer v (tolerance E)).
    { destruct (existsb (fun i => match at_ x i with Ok v => negb (close_to_integer v (tolerance E)) | _ => false end) (order E)) eqn:X.
      - apply existsb_exists in X as (j & J & X). destruct (at_ x j) as [v| | | |] eqn:Hv; try discriminate.
        exists j. split; auto. exists v. split; auto. intros N. rewrite Forall_forall in US.
        destruct (US j J) as (v' & Hv' & FV). rewrite Hv in Hv'. injection Hv' as <-. destruct FV as [VV FV].
        rewrite (proj2 (close_iff v (tolerance E) VV VT FT) (conj FV N)) in X. discriminate.
      - exfalso. enough (false = true) by discriminate. apply B2. intros i v Hi Hv.
        rewrite Forall_forall in US. destruct (US i Hi) as (v' & Hv' & [VV FV]). rewrite Hv in Hv'. injection Hv' as <-.
        apply (close_iff v (tolerance E) VV VT FT). destruct (close_to_integer v (tolerance E)) eqn:C; auto.
        rewrite <- X. apply existsb_exists. exists i. rewrite Hv, C. auto. }
    destruct (max_fractional_spec (tolerance E) x VT FT PT dir (order E) US EX) as (b & up & v & M1 & M2 & M3 & M4 & _ & _).
    exists b, up, v. rewrite (MB w x P). split; [auto|]. split; [auto|]. split; [auto|].
    split; [|auto]. apply (L3 b v); auto. apply env_lists; auto. }
  split; [|split].
  - intros w x O P I j up B. destruct (G w x O P I) as (c & b & v & G1 & G2 & G3 & G4 & G5).
    rewrite B in G1. injection G1 as <- <-. eauto.
  - intros w x O P I j up B. destruct (G w x O P I) as (c & b & v & G1 & G2 & G3 & G4 & G5).
    rewrite B in G1. injection G1 as <- <-. split; auto. exists v. split; auto. split; auto.
    intros [k K]. apply G5. exists k. rewrite K, Z.sub_diag. cbn. auto.
  - intros w x O P I. destruct (G w x O P I) as (c & b & v & G1 & _). eauto.
Qed.

Lemma max_fractional_ok dir bounds : max_fractional_env E dir -> lp_inside E p bounds ->
  branch_ok E /\ branch_fractional E /\
  forall w x, is_optimal E w = true -> primal_values E w = Ok x ->
    SolutionIsIntegral (order E) x (tolerance E) = Ok false -> exists j up, branch E w = Ok (j, up).
Proof.
  intros MF LI. apply (max_fractional_finite dir MF). intros w x O P. destruct (LI w x O P) as (L1 & L2 & L3).
  split; [auto|]. split; [auto|]. intros j v J V. apply (L3 j v J V).
Qed.

(** ** C44: leaves of the tree are queued or were solved to integrality *)
Lemma setlp_leaves t n x t' m : tree_ok nc t -> leaf t n -> SetLp t n x = Ok t' -> leaf t' m -> leaf t m.
Proof.
  intros [R D] [[d A] C] S [[dm Am] Cm]. destruct (set_lp_spec t n x d R A C) as (t1 & E1 & R' & N1 & N2 & N3 & _).
  rewrite S in E1. injection E1 as <-.
  assert (Am' : active t m). { destruct (Z.eq_dec m n) as [->|M]; [exists d; auto|]. exists dm. rewrite <- N2; auto. }
  split; auto. rewrite <- N3; auto.
Qed.

Lemma add_leaves t p0 var down x t' n m : reachable t -> AddNode t p0 var down x = Ok (t', n) -> leaf t' m ->
  m = n \/ leaf t m /\ m <> p0.
Proof.
  intros R A [[dm Am] Cm]. destruct (add_spec t p0 var down x t' n R A) as (dp & k & P1 & P2 & P3 & R' & P4 & P5 & P6 & P7 & P8 & P9 & P10 & _).
  destruct (Z.eq_dec m n) as [|M]; auto. right. rewrite (P8 m M) in Am.
  assert (MP : m <> p0).
  { intros ->. rewrite P10 in Cm. injection Cm as Cm.
    destruct (well_formed t R p0 dp P1) as (_ & _ & _ & _ & lc & _ & Q & _). rewrite P2 in Q. injection Q as Q. lia. }
  split; auto. assert (AC : active t m) by (eexists; eauto). split; auto. rewrite <- (P9 m AC MP). auto.
Qed.

Lemma chain_last t n l : finished_chain t n l ->
  exists e, node t (last l 0) = Ok e /\
    (parent e = -1 \/ exists k, num_open_children t (parent e) = Ok k /\ k <> 1).
Proof.
  induction 1 as [n d N P|n d k N P Q K|n d l N P Q H IH]; [exists d; eauto|exists d; eauto|].
  destruct IH as (e & Ee & X). exists e. split; auto. destruct l; [inversion H|]. exact Ee.
Qed.

Lemma close_leaves t n t' m : tree_ok nc t -> leaf t n -> n <> 0 -> CloseNode t n = Ok t' -> leaf t' m -> leaf t m /\ m <> n.
Proof.
  intros [R D] [[d A] C] N CL [Am Cm].
  destruct (close_leaf t n d R A N C) as (t1 & l & E1 & R' & CH & G & S & _ & _ & _ & K).
  rewrite CL in E1. injection E1 as <-.
  assert (NI : ~ In m l) by (intros I; apply (G m I Am)).
  assert (Am' : active t m). { destruct Am as [dm Am]. exists dm. rewrite <- (S m NI). auto. }
  split.
  - split; auto. destruct (chain_last t n l CH) as (e & Ee & X).
    destruct Am' as [dm Hm]. destruct (well_formed t R m dm Hm) as (_ & _ & _ & _ & lc & _ & Q & _).
    rewrite (K m _ NI (ex_intro _ dm Hm) Q), Ee in Cm. injection Cm as Cm.
    destruct (Z.eqb_spec m (parent e)) as [->|NE].
    + destruct X as [X|(k & X & K1)].
      * rewrite X in Hm. apply node_iff in Hm as [Hm _]. apply at_in_range in Hm. lia.
      * rewrite Q in X. injection X as X. lia.
    + rewrite Q. f_equal. lia.
  - intros ->. apply NI. inversion CH; cbn; auto.
Qed.

Definition solved_integral (w0 : W) (m : Z) : Prop :=
  exists s q w x, visits E w0 s /\ take (backjump s) (queue s) = Ok (m, q) /\
    solve_node E (mip_tree s) m (world s) = Ok w /\ is_optimal E w = true /\ primal_values E w = Ok x /\
    SolutionIsIntegral (order E) x (tolerance E) = Ok true.

Lemma leaves_known w0 s : branch_ok E -> visits E w0 s -> forall m, leaf (mip_tree s) m ->
  In m (queue s) \/ solved_integral w0 m.
Proof.
  intros BO V. induction V as [|s s' V IH Q R]; intros m L.
  - left. cbn in L |- *. destruct L as [[d A] _]. destruct (Z.eq_dec m 0); auto. exfalso.
    assert (A' := A). apply node_iff in A' as [A' _]. apply at_in_range in A'. cbn in A'.
    assert (m = 1) by lia. subst m. discriminate A.
  - pose proof (inv_visits w0 s BO V) as (T & ND & LF & RT). apply round_cases in R.
    assert (TK : forall n q, take (backjump s) (queue s) = Ok (n, q) -> leaf (mip_tree s) n /\
      (forall k, In k (queue s) <-> k = n \/ In k q)).
    { intros n q H0. apply take_perm in H0. split.
      - apply LF. eapply Permutation_in; [apply Permutation_sym, H0|cbn; auto].
      - intros k. split; intros I.
        + apply (Permutation_in k H0) in I. destruct I; auto.
        + eapply Permutation_in; [apply Permutation_sym, H0|]. destruct I; cbn; auto. }
    inversion R as [n q w t bj k seen H1 H2 H3 H4 H5 Hv|n q w t x bj seen H1 H2 H3 H4 H5 H6 H7 Hv
      | |n q w t x j uf v0 t1 a t2 b q' seen H1 H2 H3 H4 H5 H6 H7 H8 H9 H10 H11 Hv];
      subst s'; cbn [mip_tree queue] in *; destruct (TK _ _ H1) as (LN & QN).
    + destruct (close_leaves _ n t m T LN H4 H5 L) as [L' MN]. destruct (IH m L') as [I|I]; auto.
      apply QN in I as [|I]; [congruence|auto].
    + pose proof (setlp_leaves (mip_tree s) n (objective_value E w) t m T LN H4 L) as L'.
      destruct (IH m L') as [I|I]; auto. apply QN in I as [->|I]; auto. right. exists s, q, w, x. auto 10.
    + destruct (setlp_step nc _ n (objective_value E w) T LN) as (t' & C1 & C2 & C3 & C4). rewrite H4 in C1. injection C1 as <-.
      destruct (add_spec t n j true v0 t1 a (proj1 C2) H9) as (_ & _ & _ & _ & _ & R1 & _).
      destruct (add_leaves t1 n j false v0 t2 b m R1 H10 L) as [->|[L1 M1]].
      { left. eapply Permutation_in; [apply Permutation_sym, H11|cbn; auto]. }
      destruct (add_leaves t n j true v0 t1 a m (proj1 C2) H9 L1) as [->|[L2 M2]].
      { left. eapply Permutation_in; [apply Permutation_sym, H11|cbn; auto]. }
      pose proof (setlp_leaves (mip_tree s) n _ t m T LN H4 L2) as L3.
      destruct (IH m L3) as [I|I]; auto. apply QN in I as [|I]; [congruence|].
      left. eapply Permutation_in; [apply Permutation_sym, H11|cbn; auto].
Qed.

(** ** C45 *)
Lemma cost_user x : (user_objective p x ==
  qval (p_offset p) + (if p_max p then -1 else 1) * cost p x)%Q.
Proof. unfold user_objective, cost. destruct (p_max p); ring. Qed.

(** ** C47: with a limit of at most 0 the search is depth first *)
Definition dep (t : tree) (n : Z) : Z := match node t n with Ok d => depth d | _ => 0 end.
Definition rising (t : tree) (q : list Z) : Prop := StronglySorted (fun a b => dep t a < dep t b) q.
Definition par (t : tree) (n : Z) : Z := match node t n with Ok d => parent d | _ => 0 end.
Definition dfs (s : solver_state W) : Prop :=
  if backjump s then rising (mip_tree s) (queue s)
  else exists a b q, queue s = a :: q ++ [b] /\ rising (mip_tree s) q /\
    par (mip_tree s) a = par (mip_tree s) b /\ dep (mip_tree s) a = dep (mip_tree s) b /\
    Forall (fun m => dep (mip_tree s) m < dep (mip_tree s) a) q.

Lemma rising_ext t t' q : (forall n, In n q -> dep t' n = dep t n) -> rising t q -> rising t' q.
Proof.
  unfold rising. intros H S. induction S as [|n q S IH F]; constructor.
  - apply IH. intros; apply H; cbn; auto.
  - rewrite Forall_forall in F |- *. intros m M. rewrite !H by (cbn; auto). auto.
Qed.
Lemma rising_snoc t q b : rising t q -> Forall (fun m => dep t m < dep t b) q -> rising t (q ++ [b]).
Proof.
  unfold rising. intros S. induction S as [|n q S IH F]; intros H; cbn [app]; [repeat constructor|].
  inversion H; subst. constructor; [auto|]. apply Forall_app. auto.
Qed.
Lemma rising_snoc_inv t q b : rising t (q ++ [b]) -> rising t q /\ Forall (fun m => dep t m < dep t b) q.
Proof.
  unfold rising. induction q as [|n q IH]; cbn [app]; intros H; [repeat constructor|].
  inversion H as [|? ? S F]; subst. destruct (IH S) as [I1 I2]. apply Forall_app in F as [F1 F2].
  inversion F2; subst. split; constructor; auto.
Qed.

Lemma take_back q n r : take true q = Ok (n, r) -> q = r ++ [n].
Proof.
  unfold take. destruct (rev q) as [|m l] eqn:Rq; [discriminate|]. intros H. injection H as <- <-.
  rewrite <- (rev_involutive q), Rq. cbn. auto.
Qed.
Lemma take_front q n r : take false q = Ok (n, r) -> q = n :: r.
Proof. unfold take. destruct q as [|m l]; [discriminate|]. intros H. injection H as <- <-. auto. Qed.

Lemma dfs_taken s n q : dfs s -> take (backjump s) (queue s) = Ok (n, q) ->
  rising (mip_tree s) q /\
  forall m, In m q -> dep (mip_tree s) m < dep (mip_tree s) n \/
    dep (mip_tree s) m = dep (mip_tree s) n /\ par (mip_tree s) m = par (mip_tree s) n.
Proof.
  unfold dfs. destruct (backjump s) eqn:B; intros D H.
  - apply take_back in H. rewrite H in D. apply rising_snoc_inv in D as [D1 D2]. split; auto.
    rewrite Forall_forall in D2. auto.
  - apply take_front in H. destruct D as (a & b & r & Q & D1 & D2 & D3 & D4). rewrite H in Q. injection Q as -> ->.
    split.
    + apply rising_snoc; auto. rewrite <- D3. auto.
    + intros m M. apply in_app_or in M as [M|[<-|[]]]; auto. rewrite Forall_forall in D4. auto.
Qed.

Lemma dfs_visits w0 s : branch_ok E -> backtrack_limit E <= 0 -> visits E w0 s -> dfs s /\ 0 <= infeasible_run s.
Proof.
  intros BO LIM V. induction V as [|s s' V [D RUN] Q R].
  - split; [repeat constructor|cbn; lia].
  - pose proof (inv_visits w0 s BO V) as (T & ND & LF & RT). pose proof (round_cases E _ _ R) as C.
    unfold solver_round in R. apply bind_ok in R as ([n q] & TK & R). apply bind_ok in R as (w & S & R).
    destruct (dfs_taken s n q D TK) as [RI DP]. pose proof (take_perm _ _ _ _ TK) as PM.
    assert (LN : leaf (mip_tree s) n) by (apply LF; eapply Permutation_in; [apply Permutation_sym, PM|cbn; auto]).
    assert (LQ : forall m, In m q -> leaf (mip_tree s) m /\ m <> n).
    { assert (N2 : NoDup (n :: q)) by (eapply Permutation_NoDup; eauto). apply NoDup_cons_iff in N2 as [N2 _].
      intros m M. split; [|congruence]. apply LF. eapply Permutation_in; [apply Permutation_sym, PM|cbn; auto]. }
    destruct (is_optimal E w) eqn:O; cbn [negb] in R.
    + apply bind_ok in R as (t & SL & R). apply bind_ok in R as (x & PV & R). apply bind_ok in R as (i & I & R).
      destruct LN as [[dn An] Cn].
      destruct (set_lp_spec _ n (objective_value E w) dn (proj1 T) An Cn) as (t' & E1 & R' & N1 & N2 & N3 & _).
      rewrite SL in E1. injection E1 as <-.
      assert (DT : forall m, dep t m = dep (mip_tree s) m).
      { intros m. unfold dep. destruct (Z.eq_dec m n) as [->|M]; [rewrite N1, An; auto|rewrite (N2 m M); auto]. }
      destruct i.
      * destruct (n =? 0); [discriminate|]. injection R as <-. split; [|cbn; lia]. unfold dfs. cbn [backjump mip_tree queue].
        apply (rising_ext (mip_tree s)); auto.
      * apply bind_ok in R as ([j uf] & BR & R). apply bind_ok in R as (v & AV & R).
        apply bind_ok in R as ([t1 a] & A1 & R). apply bind_ok in R as ([t2 b] & A2 & R). injection R as <-.
        split; [|cbn; lia]. unfold dfs. cbn [backjump mip_tree queue].
        destruct (add_spec t n j true v t1 a R' A1) as (dp & k & P1 & P2 & P3 & R1 & P4 & P5 & P6 & P7 & P8 & _).
        destruct (add_spec t1 n j false v t2 b R1 A2) as (dp' & k' & Q1 & Q2 & Q3 & R2 & Q4 & Q5 & Q6 & Q7 & Q8 & _).
        rewrite N1 in P1. injection P1 as <-. assert (NA : n <> a) by (intros ->; apply P5; eexists; eauto).
        rewrite (P8 n NA), N1 in Q1. injection Q1 as <-.
        assert (AB : a <> b) by (intros <-; apply Q5; eexists; eauto).
        assert (QE : forall m, In m q -> dep t2 m = dep (mip_tree s) m).
        { intros m M. destruct (LQ m M) as [[[dm Am] _] MN].
          assert (Ma : m <> a) by (intros ->; apply P5; exists dm; rewrite N2; auto).
          assert (Mb : m <> b) by (intros ->; apply Q5; exists dm; rewrite P8, N2; auto).
          unfold dep. rewrite Q8, P8, N2; auto. }
        assert (DA : node t2 a = Ok (mkNode n (depth (with_lp (objective_value E w) dn) + 1) 0 0 j true v dminf [] [])) by (rewrite Q8; auto).
        assert (LT : forall m, In m q -> dep t2 m < depth (with_lp (objective_value E w) dn) + 1).
        { intros m M. rewrite QE by auto. cbn [depth with_lp]. assert (Dn : dep (mip_tree s) n = depth dn) by (unfold dep; rewrite An; auto).
          destruct (DP m M); lia. }
        exists (if uf then b else a), (if uf then a else b), q. destruct uf; (split; [auto|]);
          (split; [apply (rising_ext (mip_tree s)); auto|]); unfold par, dep at 1 2; rewrite DA, Q6; cbn [parent depth];
          (split; [auto|split; [auto|]]); apply Forall_forall; intros m M; specialize (LT m M); unfold dep at 2; rewrite ?DA, ?Q6; cbn [depth]; auto.
    + destruct (Z.eqb_spec n 0) as [|N0]; [discriminate|]. apply bind_ok in R as (t & CL & R).
      destruct (close_step nc _ n T LN N0) as (t' & C1 & C2 & C3 & C4 & C5). rewrite CL in C1. injection C1 as <-.
      destruct (Z.ltb_spec (backtrack_limit E) (infeasible_run s + 1)); [|lia]. injection R as <-.
      split; [|cbn; lia]. unfold dfs. cbn [backjump mip_tree queue]. apply (rising_ext (mip_tree s)); auto.
      intros m M. destruct (LQ m M) as [L MN]. destruct (C5 m L MN) as [[d A] _]. unfold dep. rewrite A, (C4 m d A). auto.
Qed.

Lemma depth_first w0 s n q dn m dm : branch_ok E -> backtrack_limit E <= 0 -> visits E w0 s ->
  take (backjump s) (queue s) = Ok (n, q) -> node (mip_tree s) n = Ok dn -> In m q -> node (mip_tree s) m = Ok dm ->
  depth dm < depth dn \/ (depth dm = depth dn /\ parent dm = parent dn).
Proof.
  intros BO LIM V TK N M Hm. destruct (dfs_visits w0 s BO LIM V) as [D _]. destruct (dfs_taken s n q D TK) as [_ G].
  specialize (G m M). unfold dep, par in G. rewrite N, Hm in G. auto.
Qed.

(** ** The statements used by the property file *)
Lemma solve_settled w0 bounds rows unsettled : branch_ok E -> (forall w, dvalid (objective_value E w) = true) ->
  lp_honest E p w0 bounds rows unsettled ->
  (forall s n w, visits E w0 s -> takes s n -> solve_node E (mip_tree s) n (world s) = Ok w ->
     is_optimal E w = false -> ~ unsettled w) ->
  forall fuel s, Solve E fuel w0 = Ok s -> forall x, feasible p x ->
  q_above (s_obj (best (res s))) (cost p x) /\ best (res s) <> sol_default.
Proof.
  intros BO VO LS SET fuel s H x F. pose proof (solve_bound w0 bounds rows unsettled BO VO LS SET fuel s H x F) as Q.
  split; auto. intros D. rewrite D in Q. cbn in Q. discriminate Q.
Qed.
Lemma solve_optimum w0 bounds rows : branch_ok E -> (forall w, dvalid (objective_value E w) = true) ->
  lp_sound E p w0 bounds rows -> forall fuel s, Solve E fuel w0 = Ok s -> forall x, feasible p x ->
  q_above (s_obj (best (res s))) (cost p x) /\ best (res s) <> sol_default.
Proof.
  intros BO VO LS. apply (solve_settled w0 bounds rows (fun _ => False) BO VO (sound_honest w0 bounds rows LS)). auto.
Qed.

Lemma queue_ok w0 s : branch_ok E -> visits E w0 s -> NoDup (queue s) /\
  (forall n, In n (queue s) -> active (mip_tree s) n /\ num_open_children (mip_tree s) n = Ok 0) /\
  (forall m, active (mip_tree s) m -> num_open_children (mip_tree s) m = Ok 0 ->
     In m (queue s) \/
     exists s1 q w x, visits E w0 s1 /\ take (backjump s1) (queue s1) = Ok (m, q) /\
       solve_node E (mip_tree s1) m (world s1) = Ok w /\ is_optimal E w = true /\
       primal_values E w = Ok x /\ SolutionIsIntegral (order E) x (tolerance E) = Ok true).
Proof.
  intros BO V. destruct (inv_visits w0 s BO V) as (T & ND & LF & _). split; auto. split; [exact LF|].
  intros m A C. exact (leaves_known w0 s BO V m (conj A C)).
Qed.

Lemma loop_status fuel : forall s s', solve_loop E fuel s = Ok s' -> status s' = Some kOptimal.
Proof.
  induction fuel as [|f IH]; intros s s' H; cbn [solve_loop] in H; destruct (queue s) as [|n q]; try discriminate;
    [injection H as <-; reflexivity..|].
  apply bind_ok in H as ([s1|s1] & _ & H); [eauto|]. injection H as <-. reflexivity.
Qed.

Definition from_lp (sol : solution) : Prop := exists w, is_optimal E w = true /\
  primal_values E w = Ok (s_vals sol) /\ s_obj sol = objective_value E w.
Lemma loop_from fuel : forall s s',
  (forall sol, reported (res s) sol -> sol = sol_default \/ from_lp sol) -> solve_loop E fuel s = Ok s' ->
  forall sol, reported (res s') sol -> sol = sol_default \/ from_lp sol.
Proof.
  induction fuel as [|f IH]; intros s s' C H; cbn [solve_loop] in H; destruct (queue s) as [|n q] eqn:Q; try discriminate.
  1,2: injection H as <-; auto.
  apply bind_ok in H as (v & R & H). apply round_cases in R.
  assert (G : forall sol, reported (res (state_of v)) sol -> sol = sol_default \/ from_lp sol).
  { inversion R; subst v; cbn [state_of res]; auto; intros sol M; apply reported_add in M as [->|M]; auto;
      right; exists w; auto. }
  destruct v as [s1|s1]; cbn [state_of] in G; [apply (IH s1 s'); auto|]. injection H as <-. auto.
Qed.

Lemma status_partial w0 bounds rows : branch_ok E -> (forall w, dvalid (objective_value E w) = true) ->
  lp_sound E p w0 bounds rows -> lp_exact E p -> forall fuel s, Solve E fuel w0 = Ok s ->
  status s = Some kOptimal /\
  ((exists x, feasible p x) -> best (res s) <> sol_default) /\
  forall sol, reported (res s) sol -> sol <> sol_default ->
    (user_objective p (point_of (s_vals sol)) ==
     qval (p_offset p) + (if p_max p then -1 else 1) * qval (s_obj sol))%Q.
Proof.
  intros BO VO LS LE fuel s H. split; [exact (loop_status _ _ _ H)|]. split.
  - intros [x F]. apply (solve_optimum w0 bounds rows BO VO LS fuel s H x F).
  - intros sol R N. destruct (loop_from fuel (solve_start w0) s) with (sol := sol) as [|(w & O & P & V)]; auto; [|contradiction|].
    { intros sol' [->|[]]. auto. }
    rewrite cost_user, V, (LE w _ O P). reflexivity.
Qed.
End Env.

(** ** C46 *)
Lemma convenience_never {W} factories populate p fuel r :
  @SolveProblem W factories populate p fuel <> Ok r.
Proof.
  unfold SolveProblem. destruct (Create factories populate p) as [[E w]| | | |]; cbn [bind]; try discriminate.
  destruct (Solve E fuel w); discriminate.
Qed.

(** ** C47 *)
Lemma backtrack_rounds {W} (E : env W) s s' n : takes_infeasible E s n -> solver_round E s = Ok (Continue s') ->
  (backjump s' = true <-> backtrack_limit E <= infeasible_run s) /\
  infeasible_run s' = if backjump s' then 0 else infeasible_run s + 1.
Proof.
  intros [[q TK] (w & S & O)] R. unfold solver_round in R. rewrite TK in R. cbn [bind] in R. rewrite S in R. cbn [bind] in R.
  rewrite O in R. cbn [negb] in R. destruct (n =? 0); [discriminate|]. apply bind_ok in R as (t & _ & R).
  destruct (Z.ltb_spec (backtrack_limit E) (infeasible_run s + 1)); injection R as <-; cbn [backjump infeasible_run];
    (split; [|reflexivity]); split; intros; try discriminate; try reflexivity; lia.
Qed.
