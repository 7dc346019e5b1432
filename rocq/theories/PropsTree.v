(** Property theorems C10-C17, C92 (search tree).
    Specification vocabulary: [TreeSpec].  Model: [MipTree]. *)
From Coq Require Import List ZArith Bool Lia.
From Verif Require Import Outcome Double DoubleFacts MipTree TreeSpec TreeProofs.
Import ListNotations.
Open Scope Z_scope.

(** 5/2, a fractional branching value. *)
Definition two_and_half : double := ddiv (dint 5) (dint 2).

(** C10. Every node of every reachable tree: its parent is in the tree one level up, the
    root is reached in exactly [depth] steps, the open-children counter counts exactly the
    children in the tree, and there are at most two. *)
Theorem C10_well_formed : forall t, reachable t -> forall n d, node t n = Ok d ->
  0 <= depth d /\ (n = 0 <-> parent d = -1) /\
  (parent d <> -1 -> exists p, node t (parent d) = Ok p /\ depth d = depth p + 1) /\
  climbs t n (Z.to_nat (depth d)) 0 /\
  exists l, children t n l /\ num_open_children t n = Ok (Z.of_nat (length l)) /\
    (length l <= 2)%nat.
Proof. exact well_formed. Qed.
Print Assumptions C10_well_formed.

(** A tree whose history reuses a reclaimed index. *)
Definition ops_case : list top :=
  [TAdd 0 0 true two_and_half; TAdd 0 0 false two_and_half; TSetLp 1 (dint 7);
   TAdd 2 1 true two_and_half; TClose 3; TAdd 0 1 false (dint 4)].
Example C10_case : exists t, trun tree_new ops_case = Ok t /\ reachable t /\
  (exists d, node t 2 = Ok d /\ parent d = 0 /\ depth d = 1 /\ branch_variable d = 1) /\
  num_open_children t 0 = Ok 2 /\ num_closed_nodes t = 2 /\ node t 3 = Abort.
Proof.
  eexists. split; [vm_compute; reflexivity|]. split; [exists ops_case; vm_compute; reflexivity|].
  split; [eexists; split; [vm_compute; reflexivity|]; vm_compute; auto|].
  repeat split; vm_compute; reflexivity.
Qed.

(** C11. Adding a node returns an index that was not in the tree, stores there exactly the
    branching decision, and changes nothing else; storage grows only if no index was free. *)
Theorem C11_add : forall t p var down x t' n,
  reachable t -> AddNode t p var down x = Ok (t', n) ->
  exists dp k, node t p = Ok dp /\ num_open_children t p = Ok k /\ k < 2 /\
    reachable t' /\ 0 <= n /\ ~ active t n /\
    node t' n = Ok (mkNode p (depth dp + 1) 0 0 var down x dminf [] []) /\
    num_open_children t' n = Ok 0 /\
    (forall m, m <> n -> node t' m = node t m) /\
    (forall m, active t m -> m <> p -> num_open_children t' m = num_open_children t m) /\
    num_open_children t' p = Ok (k + 1) /\
    num_closed_nodes t' = num_closed_nodes t /\
    num_added_nodes t' = num_added_nodes t +
      (if existsb (fun m => match node t (Z.of_nat m) with Ok _ => false | _ => true end)
            (seq 0 (Z.to_nat (num_added_nodes t + 1))) then 0 else 1).
Proof. exact add_spec. Qed.
Print Assumptions C11_add.

(** C11, totality: the call succeeds on every node with fewer than two open children, and
    otherwise stops with a failed check, never with undefined behaviour. *)
Theorem C11_add_defined : forall t p var down x, reachable t ->
  (forall k, active t p -> num_open_children t p = Ok k -> k < 2 ->
     exists r, AddNode t p var down x = Ok r) /\
  ((exists r, AddNode t p var down x = Ok r) \/ AddNode t p var down x = Abort).
Proof. exact add_defined. Qed.
Print Assumptions C11_add_defined.

Example C11_case : exists t t' n, reachable t /\ AddNode t 1 3 true two_and_half = Ok (t', n) /\
  num_added_nodes t = 3 /\ n = 3 /\ num_added_nodes t' = 3.
Proof.
  eexists. eexists. eexists. split; [exists ops_case; vm_compute; reflexivity|].
  split; [vm_compute; reflexivity|]. repeat split.
Qed.

(** C12. Closing a leaf other than the root removes it and every ancestor this leaves
    without open children, and nothing else. *)
Theorem C12_close_leaf : forall t n d, reachable t -> node t n = Ok d -> n <> 0 ->
  num_open_children t n = Ok 0 ->
  exists t' l, CloseNode t n = Ok t' /\ reachable t' /\ finished_chain t n l /\
    (forall m, In m l -> ~ active t' m) /\
    (forall m, ~ In m l -> node t' m = node t m) /\
    num_closed_nodes t' = num_closed_nodes t + Z.of_nat (length l) /\
    NoDup l /\
    num_added_nodes t' = num_added_nodes t /\
    (forall m k, ~ In m l -> active t m -> num_open_children t m = Ok k ->
       num_open_children t' m =
       Ok (k - match node t (last l 0) with Ok e => if m =? parent e then 1 else 0 | _ => 0 end)).
Proof. exact close_leaf. Qed.
Print Assumptions C12_close_leaf.

Theorem C12_close_inner : forall t n, reachable t -> active t n -> n <> 0 ->
  num_open_children t n = Ok 2 -> CloseNode t n = Ok t.
Proof. exact close_inner. Qed.
Print Assumptions C12_close_inner.

Theorem C12_tree_empty : forall t, reachable t ->
  (TreeIsEmpty t = true <-> forall n, ~ active t n).
Proof. exact tree_empty. Qed.
Print Assumptions C12_tree_empty.

(** A chain 0 - 1 - 2 where closing 2 empties the tree. *)
Definition ops_chain : list top := [TAdd 0 0 true two_and_half; TAdd 1 4 false two_and_half].
Example C12_case : exists t t', trun tree_new ops_chain = Ok t /\
  num_open_children t 2 = Ok 0 /\ finished_chain t 2 [2; 1; 0] /\
  CloseNode t 2 = Ok t' /\ TreeIsEmpty t' = true /\ num_closed_nodes t' = 3.
Proof.
  eexists. eexists. split; [vm_compute; reflexivity|]. split; [vm_compute; reflexivity|].
  split; [|repeat split; vm_compute; reflexivity].
  eapply chain_up; [vm_compute; reflexivity|vm_compute; discriminate|vm_compute; reflexivity|].
  eapply chain_up; [vm_compute; reflexivity|vm_compute; discriminate|vm_compute; reflexivity|].
  eapply chain_root; vm_compute; reflexivity.
Qed.
Example C12_inner_case : exists t, trun tree_new
  [TAdd 0 0 true two_and_half; TAdd 1 1 true two_and_half; TAdd 1 1 false two_and_half] = Ok t /\
  num_open_children t 1 = Ok 2 /\ active t 1.
Proof. eexists. split; [vm_compute; reflexivity|]. split; [|eexists]; vm_compute; reflexivity. Qed.

(** C13, full statement: closing is defined for every active node with zero or two open
    children.  It holds for every node except the root (C13_close_partial), where it never
    holds: the counter of "parent -1" is read. *)
Theorem C13_close_partial : forall t n k, reachable t -> active t n -> n <> 0 ->
  num_open_children t n = Ok k -> k = 0 \/ k = 2 -> exists t', CloseNode t n = Ok t'.
Proof. exact close_defined. Qed.
Print Assumptions C13_close_partial.

Theorem C13_root_always_ub : forall t k, reachable t -> active t 0 ->
  num_open_children t 0 = Ok k -> k = 0 \/ k = 2 -> CloseNode t 0 = UB.
Proof. exact close_root. Qed.
Print Assumptions C13_root_always_ub.

Theorem C13_close_refuted : exists t n, reachable t /\ active t n /\
  num_open_children t n = Ok 0 /\ CloseNode t n = UB.
Proof.
  exists tree_new, 0. split; [exists []; reflexivity|]. split; [eexists; vm_compute; reflexivity|].
  split; vm_compute; reflexivity.
Qed.
Print Assumptions C13_close_refuted.
(** An inner node with two open children, then one of these children. *)
Example C13_case : exists t t' t'', trun tree_new
  [TAdd 0 0 true two_and_half; TAdd 1 1 true two_and_half; TAdd 1 1 false two_and_half] = Ok t /\
  active t 1 /\ num_open_children t 1 = Ok 2 /\ CloseNode t 1 = Ok t' /\
  active t 2 /\ num_open_children t 2 = Ok 0 /\ CloseNode t 2 = Ok t''.
Proof.
  do 3 eexists. split; [vm_compute; reflexivity|]. split; [eexists; vm_compute; reflexivity|].
  split; [vm_compute; reflexivity|]. split; [vm_compute; reflexivity|].
  split; [eexists; vm_compute; reflexivity|]. split; vm_compute; reflexivity.
Qed.

(** C14. The bounds retrieved for a node are, per column, the largest (smallest) of the
    root bound and all that the path to the root claims about that column. *)
Theorem C14_lower : forall t n l root, reachable t -> path t n l ->
  Forall (data_ok (Z.of_nat (length root))) l -> no_nans root ->
  exists b, RetrieveLower t n root = Ok b /\ length b = length root /\
    forall j r, at_ root j = Ok r ->
      exists x, at_ b j = Ok x /\ largest r (lower_claims l j) x.
Proof. exact lower_bounds. Qed.
Print Assumptions C14_lower.

Theorem C14_upper : forall t n l root, reachable t -> path t n l ->
  Forall (data_ok (Z.of_nat (length root))) l -> no_nans root ->
  exists b, RetrieveUpper t n root = Ok b /\ length b = length root /\
    forall j r, at_ root j = Ok r ->
      exists x, at_ b j = Ok x /\ smallest r (upper_claims l j) x.
Proof. exact upper_bounds. Qed.
Print Assumptions C14_upper.

Theorem C14_path_exists : forall t n, reachable t -> active t n -> exists l, path t n l.
Proof. exact path_of_active. Qed.
Print Assumptions C14_path_exists.

Definition ops_bounds : list top :=
  [TAdd 0 0 false two_and_half; TSetImplied 1 [(1, dint 3)] [(2, dint 6); (0, dint 8)];
   TAdd 1 2 true (ddiv (dint 9) (dint 2)); TAdd 2 0 false (dint 5)].
Definition tree_bounds : tree :=
  Eval vm_compute in match trun tree_new ops_bounds with Ok t => t | _ => tree_new end.
Definition path_bounds : list node_data :=
  Eval vm_compute in rev (nodes tree_bounds).
Lemma path_bounds_ok : (trun tree_new ops_bounds = Ok tree_bounds) /\
  path tree_bounds 3 path_bounds /\ Forall (data_ok 3) path_bounds /\
  Forall data_valid path_bounds.
Proof.
  split; [vm_compute; reflexivity|]. split; [|split].
  - eapply path_up; [reflexivity|discriminate|]. eapply path_up; [reflexivity|discriminate|].
    eapply path_up; [reflexivity|discriminate|]. eapply path_root; reflexivity.
  - unfold data_ok, path_bounds. repeat constructor; cbn; lia.
  - repeat constructor.
Qed.
Example C14_case : exists t l, trun tree_new ops_bounds = Ok t /\ path t 3 l /\
  Forall (data_ok 3) l /\ no_nans [dint 0; dint 0; dminf] /\
  RetrieveLower t 3 [dint 0; dint 0; dminf] = Ok [dint 5; dint 3; dminf] /\
  RetrieveUpper t 3 [dinf; dint 9; dint 9] = Ok [dint 8; dint 9; dint 4].
Proof.
  destruct path_bounds_ok as (A & B & C & _). exists tree_bounds, path_bounds.
  split; auto. split; auto. split; auto. split; [repeat constructor|].
  split; vm_compute; reflexivity.
Qed.

(** C15. A child's box lies inside its parent's, and that inside the root box. *)
Theorem C15_monotone : forall t c d ncols lo up,
  reachable t -> node t c = Ok d -> c <> 0 ->
  path_ok t c ncols -> Z.of_nat (length lo) = ncols -> Z.of_nat (length up) = ncols ->
  no_nans lo -> no_nans up ->
  exists lc uc lp up',
    RetrieveLower t c lo = Ok lc /\ RetrieveUpper t c up = Ok uc /\
    RetrieveLower t (parent d) lo = Ok lp /\ RetrieveUpper t (parent d) up = Ok up' /\
    (forall j r x y, at_ lo j = Ok r -> at_ lp j = Ok x -> at_ lc j = Ok y ->
        dleb r x = true /\ dleb x y = true) /\
    (forall j r x y, at_ up j = Ok r -> at_ up' j = Ok x -> at_ uc j = Ok y ->
        dleb x r = true /\ dleb y x = true).
Proof. exact bounds_monotone. Qed.
Print Assumptions C15_monotone.

Example C15_case : exists t d, trun tree_new ops_bounds = Ok t /\ node t 3 = Ok d /\
  parent d = 2 /\ path_ok t 3 3 /\ no_nans [dint 0; dint 0; dminf] /\
  RetrieveLower t 2 [dint 0; dint 0; dminf] = Ok [dint 3; dint 3; dminf] /\
  RetrieveLower t 3 [dint 0; dint 0; dminf] = Ok [dint 5; dint 3; dminf].
Proof.
  destruct path_bounds_ok as (A & B & C & _). exists tree_bounds. eexists.
  split; auto. split; [reflexivity|]. split; [reflexivity|].
  split; [exists path_bounds; auto|]. split; [repeat constructor|].
  split; vm_compute; reflexivity.
Qed.

(** C16. Adding a down-child and an up-child on column [c] at a finite value [v]: outside
    [c] both boxes equal the parent's; in [c] every integer of the parent's interval is in
    a child's interval and conversely; if [v] is fractional no integer is in both and [v]
    is strictly above the down-interval and strictly below the up-interval; if [v] is an
    integer of the parent's interval it is in both. *)
Theorem C16_branching : forall t p c v t1 n1 t2 n2 l lo up,
  reachable t -> AddNode t p c true v = Ok (t1, n1) -> AddNode t1 p c false v = Ok (t2, n2) ->
  is_finite v = true -> dvalid v = true ->
  path t p l -> Forall (data_ok (Z.of_nat (length lo))) l -> Forall data_valid l ->
  length up = length lo -> 0 <= c < Z.of_nat (length lo) ->
  no_nans lo -> no_nans up -> all_valid lo -> all_valid up ->
  exists lp up' ld ud lu uu,
    RetrieveLower t2 p lo = Ok lp /\ RetrieveUpper t2 p up = Ok up' /\
    RetrieveLower t2 n1 lo = Ok ld /\ RetrieveUpper t2 n1 up = Ok ud /\
    RetrieveLower t2 n2 lo = Ok lu /\ RetrieveUpper t2 n2 up = Ok uu /\
    (forall j, j <> c -> at_ ld j = at_ lp j /\ at_ ud j = at_ up' j /\
                         at_ lu j = at_ lp j /\ at_ uu j = at_ up' j) /\
    exists a b a1 b1 a2 b2,
      at_ lp c = Ok a /\ at_ up' c = Ok b /\ at_ ld c = Ok a1 /\ at_ ud c = Ok b1 /\
      at_ lu c = Ok a2 /\ at_ uu c = Ok b2 /\
      (forall z, in_interval z a b <-> in_interval z a1 b1 \/ in_interval z a2 b2) /\
      (fractional v -> (forall z, ~ (in_interval z a1 b1 /\ in_interval z a2 b2)) /\
                       dltb b1 v = true /\ dltb v a2 = true) /\
      (forall z, int_eq z v -> in_interval z a b -> in_interval z a1 b1 /\ in_interval z a2 b2).
Proof. exact branching. Qed.
Print Assumptions C16_branching.

Lemma half_fractional : fractional two_and_half.
Proof.
  intros z [A B]. unfold int_ge, int_le in A, B.
  change two_and_half with (S754_finite false 5629499534213120 (-51)) in A, B.
  change (zval (S754_finite false 5629499534213120 (-51)))
    with (5629499534213120 * 2 ^ (-51 + 1074)) in A, B.
  change zone with (2 ^ 1074) in A, B.
  replace (2 ^ 1074) with (2 ^ 51 * 2 ^ (-51 + 1074)) in A, B by (rewrite <- Z.pow_add_r; [reflexivity|lia|lia]).
  assert (P : 0 < 2 ^ (-51 + 1074)) by (apply Z.pow_pos_nonneg; lia).
  rewrite Z.mul_assoc in A, B.
  apply Z.mul_le_mono_pos_r in A; [|exact P]. apply Z.mul_le_mono_pos_r in B; [|exact P].
  change (2 ^ 51) with 2251799813685248 in A, B. lia.
Qed.
Example C16_case : exists t t1 t2, trun tree_new ops_bounds = Ok t /\
  AddNode t 3 1 true two_and_half = Ok (t1, 4) /\ AddNode t1 3 1 false two_and_half = Ok (t2, 5) /\
  is_finite two_and_half = true /\ dvalid two_and_half = true /\ fractional two_and_half /\
  exists l, path t 3 l /\ Forall (data_ok 3) l /\ Forall data_valid l.
Proof.
  destruct path_bounds_ok as (A & B & C & E). exists tree_bounds. eexists. eexists.
  split; auto. do 2 (split; [vm_compute; reflexivity|]).
  split; [reflexivity|]. split; [vm_compute; reflexivity|]. split; [apply half_fractional|].
  exists path_bounds. auto.
Qed.

(** C17, full statement: num_added_nodes is the number of nodes added after the root and
    num_closed_nodes the number of nodes closed.  Both are false.  A new tree reports one
    added node; reusing an index is not counted; a closed node with two open children is
    not counted when it is closed. *)
Theorem C17_added_refuted : exists ops t, trun tree_new ops = Ok t /\
  num_added_nodes t <> count_adds ops.
Proof. exists [], tree_new. split; [reflexivity|vm_compute; discriminate]. Qed.
Print Assumptions C17_added_refuted.

Theorem C17_added_reuse_refuted : exists ops t, trun tree_new ops = Ok t /\
  num_added_nodes t < count_adds ops.
Proof. exists ops_case. eexists. split; vm_compute; reflexivity. Qed.
Print Assumptions C17_added_reuse_refuted.

Theorem C17_closed_refuted : exists ops t, trun tree_new ops = Ok t /\
  num_closed_nodes t < count_closes ops.
Proof.
  exists [TAdd 0 0 true two_and_half; TAdd 1 1 true two_and_half; TAdd 1 1 false two_and_half;
          TClose 1]. eexists. split; vm_compute; reflexivity.
Qed.
Print Assumptions C17_closed_refuted.

(** What the counters do report.  num_closed_nodes is the number of nodes that have left
    the tree. *)
Theorem C17_counters_partial : forall ops t, trun tree_new ops = Ok t ->
  exists l, active_list t l /\ 1 + count_adds ops = num_closed_nodes t + Z.of_nat (length l).
Proof. exact counters. Qed.
Print Assumptions C17_counters_partial.

(** num_added_nodes + 1 is the larger of 2 and the largest number of nodes that were ever
    in the tree at once. *)
Theorem C17_added_partial : forall ops t, trun tree_new ops = Ok t ->
  (forall ops1 ops2 t1 l1, ops = ops1 ++ ops2 -> trun tree_new ops1 = Ok t1 -> active_list t1 l1 ->
     Z.of_nat (length l1) <= num_added_nodes t + 1) /\
  (num_added_nodes t = 1 \/
   exists ops1 ops2 t1 l1, ops = ops1 ++ ops2 /\ trun tree_new ops1 = Ok t1 /\ active_list t1 l1 /\
     Z.of_nat (length l1) = num_added_nodes t + 1).
Proof. exact peak. Qed.
Print Assumptions C17_added_partial.

Example C17_case : exists t, trun tree_new ops_case = Ok t /\ num_added_nodes t = 3 /\
  count_adds ops_case = 4 /\ num_closed_nodes t = 2 /\ active_list t [0; 1; 2].
Proof.
  eexists. split; [vm_compute; reflexivity|]. do 3 (split; [vm_compute; reflexivity|]).
  split; [repeat constructor; cbn; intuition discriminate|].
  intros m. split.
  - cbn. intros [<-|[<-|[<-|[]]]]; eexists; vm_compute; reflexivity.
  - intros [d H]. unfold node, check_active in H.
    destruct (0 <=? m) eqn:E; [|discriminate]. destruct (m <? 4) eqn:E2.
    + assert (C : m = 0 \/ m = 1 \/ m = 2 \/ m = 3) by lia.
      destruct C as [->|[->|[->| ->]]]; cbn; auto. vm_compute in H. discriminate.
    + cbn [check bind nodes length Z.of_nat Pos.of_succ_nat Pos.succ] in H.
      rewrite E2 in H. discriminate.
Qed.

(** C92. Recording the LP value or the implied bounds of a leaf replaces exactly that part of the
    node's record and leaves every other node and every count as it was. *)
Theorem C92_lp : forall t n x d, reachable t -> node t n = Ok d -> num_open_children t n = Ok 0 ->
  exists t', SetLp t n x = Ok t' /\ reachable t' /\
    node t' n = Ok (mkNode (parent d) (depth d) (n_cuts_added d) (n_separation_rounds d) (branch_variable d)
      (branch_down d) (branch_value d) x (implied_lower d) (implied_upper d)) /\
    (forall m, m <> n -> node t' m = node t m) /\
    (forall m, num_open_children t' m = num_open_children t m) /\
    TreeIsEmpty t' = TreeIsEmpty t /\ num_closed_nodes t' = num_closed_nodes t /\
    num_added_nodes t' = num_added_nodes t.
Proof. exact set_lp_record. Qed.
Print Assumptions C92_lp.

Theorem C92_implied : forall t n lo up d, reachable t -> node t n = Ok d -> num_open_children t n = Ok 0 ->
  exists t', SetImplied t n lo up = Ok t' /\ reachable t' /\
    node t' n = Ok (mkNode (parent d) (depth d) (n_cuts_added d) (n_separation_rounds d) (branch_variable d)
      (branch_down d) (branch_value d) (lp_objective d) lo up) /\
    (forall m, m <> n -> node t' m = node t m) /\
    (forall m, num_open_children t' m = num_open_children t m) /\
    TreeIsEmpty t' = TreeIsEmpty t /\ num_closed_nodes t' = num_closed_nodes t /\
    num_added_nodes t' = num_added_nodes t.
Proof. exact set_implied_record. Qed.
Print Assumptions C92_implied.

(** On any other node, or an index that is no node, a check fails. *)
Theorem C92_refused : forall t n, reachable t -> ~ (active t n /\ num_open_children t n = Ok 0) ->
  (forall x, SetLp t n x = Abort) /\ forall lo up, SetImplied t n lo up = Abort.
Proof. exact set_refused. Qed.
Print Assumptions C92_refused.

Example C92_case : exists t, reachable t /\ (exists d, node t 1 = Ok d /\ depth d = 1) /\
  num_open_children t 1 = Ok 0 /\ num_open_children t 0 = Ok 2 /\ ~ active t 3.
Proof.
  eexists. split; [exists ops_case; vm_compute; reflexivity|].
  split; [eexists; split; [vm_compute; reflexivity|reflexivity]|].
  split; [reflexivity|]. split; [reflexivity|]. intros [d H]. vm_compute in H. discriminate H.
Qed.
