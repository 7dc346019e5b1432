(** Specification vocabulary for the search tree.  Everything is said through the
    getters [node], [num_open_children], [num_closed_nodes], [num_added_nodes] and
    [TreeIsEmpty]. *)
From Coq Require Import List ZArith Bool.
From Verif Require Import Outcome Double DoubleFacts MipTree.
Import ListNotations.
Open Scope Z_scope.

(** A tree some history of accepted calls builds. *)
Definition reachable (t : tree) : Prop := exists ops, trun tree_new ops = Ok t.

(** Node [n] is in the tree. *)
Definition active (t : tree) (n : Z) : Prop := exists d, node t n = Ok d.

(** [l] lists the children of [p] that are in the tree, each once. *)
Definition children (t : tree) (p : Z) (l : list Z) : Prop :=
  NoDup l /\ forall m, In m l <-> exists d, node t m = Ok d /\ parent d = p.

(** [l] lists the nodes in the tree, each once. *)
Definition active_list (t : tree) (l : list Z) : Prop :=
  NoDup l /\ forall m, In m l <-> active t m.

(** Following [k] parents from [n] leads to [m]. *)
Fixpoint climbs (t : tree) (n : Z) (k : nat) (m : Z) : Prop :=
  match k with
  | O => n = m
  | S k => exists d, node t n = Ok d /\ climbs t (parent d) k m
  end.

(** The path from [n] to the root. *)
Inductive path (t : tree) : Z -> list node_data -> Prop :=
| path_root n d : node t n = Ok d -> parent d = -1 -> path t n [d]
| path_up n d l : node t n = Ok d -> parent d <> -1 -> path t (parent d) l -> path t n (d :: l).

(** [n] and the ancestors that closing [n] leaves without open children: a parent goes
    too exactly if the node below was its only open child. *)
Inductive finished_chain (t : tree) : Z -> list Z -> Prop :=
| chain_root n d : node t n = Ok d -> parent d = -1 -> finished_chain t n [n]
| chain_stop n d k : node t n = Ok d -> parent d <> -1 ->
    num_open_children t (parent d) = Ok k -> k <> 1 -> finished_chain t n [n]
| chain_up n d l : node t n = Ok d -> parent d <> -1 ->
    num_open_children t (parent d) = Ok 1 -> finished_chain t (parent d) l ->
    finished_chain t n (n :: l).

(** The bounds that the nodes of a path put on column [j]. *)
Definition lower_claims (l : list node_data) (j : Z) (x : double) : Prop :=
  exists d, In d l /\
    (In (j, x) (implied_lower d) \/
     (branch_down d = false /\ branch_variable d = j /\ x = dceil (branch_value d))).
Definition upper_claims (l : list node_data) (j : Z) (x : double) : Prop :=
  exists d, In d l /\
    (In (j, x) (implied_upper d) \/
     (branch_down d = true /\ branch_variable d = j /\ x = dfloor (branch_value d))).

(** [x] is the largest (smallest) of [root] and the claims. *)
Definition largest (root : double) (claims : double -> Prop) (x : double) : Prop :=
  (x = root \/ claims x) /\ dleb root x = true /\ forall y, claims y -> dleb y x = true.
Definition smallest (root : double) (claims : double -> Prop) (x : double) : Prop :=
  (x = root \/ claims x) /\ dleb x root = true /\ forall y, claims y -> dleb x y = true.

(** Inputs of the bound getters: no NaN, columns in range. *)
Definition no_nans (b : list double) : Prop := Forall (fun x => is_nan x = false) b.
Definition data_ok (ncols : Z) (d : node_data) : Prop :=
  Forall (fun e => 0 <= fst e < ncols /\ is_nan (snd e) = false) (implied_lower d) /\
  Forall (fun e => 0 <= fst e < ncols /\ is_nan (snd e) = false) (implied_upper d) /\
  is_nan (branch_value d) = false /\ branch_variable d < ncols /\
  (branch_down d = true -> 0 <= branch_variable d).
Definition path_ok (t : tree) (n : Z) (ncols : Z) : Prop :=
  exists l, path t n l /\ Forall (data_ok ncols) l.

(** Number of additions in a history, and the largest number of nodes ever in the tree
    at once. *)
Fixpoint count_adds (ops : list top) : Z :=
  match ops with
  | [] => 0
  | TAdd _ _ _ _ :: r => 1 + count_adds r
  | _ :: r => count_adds r
  end.
Fixpoint count_closes (ops : list top) : Z :=
  match ops with
  | [] => 0
  | TClose _ :: r => 1 + count_closes r
  | _ :: r => count_closes r
  end.

(** All doubles stored in a node are binary64 values (always true of C++ doubles; needed
    because [double] also contains non-canonical representations). *)
Definition data_valid (d : node_data) : Prop :=
  Forall (fun e => dvalid (snd e) = true) (implied_lower d) /\
  Forall (fun e => dvalid (snd e) = true) (implied_upper d) /\
  dvalid (branch_value d) = true.
Definition all_valid (b : list double) : Prop := Forall (fun x => dvalid x = true) b.

(** Integer [z] lies in the interval with double ends; [z] is the value of [x]. *)
Definition in_interval (z : Z) (lo hi : double) : Prop := int_ge z lo /\ int_le z hi.
Definition int_eq (z : Z) (x : double) : Prop := int_ge z x /\ int_le z x.
Definition fractional (x : double) : Prop := forall z, ~ int_eq z x.
