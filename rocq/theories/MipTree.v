(** Model of minimip/data_structures/mip_tree.{h,cc}. *)
From Coq Require Import List ZArith Lia Bool.
From Verif Require Import Outcome Double.
Import ListNotations.
Open Scope Z_scope.

(** struct NodeData (mip_tree.h:49-101), with its default member initialisers. *)
Record node_data := mkNode {
  parent : Z;
  depth : Z;
  n_cuts_added : Z;
  n_separation_rounds : Z;
  branch_variable : Z;
  branch_down : bool;
  branch_value : double;              (* branch_primal_value_in_parent_lp *)
  lp_objective : double;
  implied_lower : list (Z * double);  (* ColAndValue *)
  implied_upper : list (Z * double)
}.

(** NodeData() (mip_tree.h:54-100); kInvalidNode = kInvalidCol = -1, kFreeNodeDepth = -1. *)
Definition node_default : node_data := mkNode (-1) (-1) 0 0 (-1) false d0 dminf [] [].

(** Assignments to single members of a node. *)
Definition with_parent (p : Z) (d : node_data) : node_data :=
  mkNode p (depth d) (n_cuts_added d) (n_separation_rounds d) (branch_variable d)
    (branch_down d) (branch_value d) (lp_objective d) (implied_lower d) (implied_upper d).
Definition with_branch (var : Z) (down : bool) (x : double) (d : node_data) : node_data :=
  mkNode (parent d) (depth d) (n_cuts_added d) (n_separation_rounds d) var down x
    (lp_objective d) (implied_lower d) (implied_upper d).
Definition with_depth (k : Z) (d : node_data) : node_data :=
  mkNode (parent d) k (n_cuts_added d) (n_separation_rounds d) (branch_variable d)
    (branch_down d) (branch_value d) (lp_objective d) (implied_lower d) (implied_upper d).
Definition with_lp (x : double) (d : node_data) : node_data :=
  mkNode (parent d) (depth d) (n_cuts_added d) (n_separation_rounds d) (branch_variable d)
    (branch_down d) (branch_value d) x (implied_lower d) (implied_upper d).
Definition with_implied (lo up : list (Z * double)) (d : node_data) : node_data :=
  mkNode (parent d) (depth d) (n_cuts_added d) (n_separation_rounds d) (branch_variable d)
    (branch_down d) (branch_value d) (lp_objective d) lo up.

(** The members of class MipTree (mip_tree.h:201-217). *)
Record tree := mkTree { nodes : list node_data; counts : list Z; next_free : Z; closed : Z }.

(** MipTree() (mip_tree.cc:21-30). *)
Definition tree_new : tree := mkTree [with_depth 0 node_default; node_default] [0; 0] 1 0.

(** The three CHECKs that open every member function taking a node:
    n >= kRootNode, n < nodes_.size(), NodeIsActive(n) (e.g. mip_tree.cc:36-38 and
    NodeIsActive in mip_tree.h:193-198). *)
Definition check_active (t : tree) (n : Z) : outcome unit :=
  do _ <- check (0 <=? n) ;
  do _ <- check (n <? Z.of_nat (length (nodes t))) ;
  do d <- at_ (nodes t) n ;
  check (0 <=? depth d).

(** TreeIsEmpty (mip_tree.h:124-129). *)
Definition TreeIsEmpty (t : tree) : bool := next_free t =? 0.

(** node (mip_tree.h:136-141). *)
Definition node (t : tree) (n : Z) : outcome node_data :=
  do _ <- check_active t n ; at_ (nodes t) n.

(** num_closed_nodes, num_added_nodes, num_open_children (mip_tree.h:177-186). *)
Definition num_closed_nodes (t : tree) : Z := closed t.
Definition num_added_nodes (t : tree) : Z := Z.of_nat (length (nodes t)) - 1.
Definition num_open_children (t : tree) (n : Z) : outcome Z := at_ (counts t) n.

(** The growth step of AddNodeByBranchingFromParent (mip_tree.cc:40-44). *)
Definition grow (t : tree) : tree :=
  if next_free t =? -1 then
    let sz := S (length (nodes t)) in
    mkTree (resize (nodes t) sz node_default) (resize (counts t) sz 0)
      (Z.of_nat sz - 1) (closed t)
  else t.

(** AddNodeByBranchingFromParent (mip_tree.cc:32-60). *)
Definition AddNode (t : tree) (p : Z) (var : Z) (down : bool) (x : double)
  : outcome (tree * Z) :=
  do _ <- check_active t p ;
  let t := grow t in
  let n := next_free t in
  do dn <- at_ (nodes t) n ;
  let nf := parent dn in
  do _ <- check (negb (0 <=? depth dn)) ;
  do ns <- set_at (nodes t) n (with_branch var down x (with_parent p dn)) ;
  do dp <- at_ ns p ;
  do dn' <- at_ ns n ;
  do ns <- set_at ns n (with_depth (depth dp + 1) dn') ;
  do c <- at_ (counts t) p ;
  do _ <- check (0 <=? c) ;
  do _ <- check (c <=? 1) ;
  do cs <- set_at (counts t) p (c + 1) ;
  do cs <- set_at cs n 0 ;
  Ok (mkTree ns cs nf (closed t), n).

(** The loop of CloseNodeAndReclaimNodesUpToRootIfPossible (mip_tree.cc:76-97). *)
Fixpoint close_loop (fuel : nat) (t : tree) (n : Z) : outcome tree :=
  match fuel with
  | O => Fuel
  | S fuel =>
      do c <- at_ (counts t) n ;
      if 0 <? c then Ok t
      else
        do d <- at_ (nodes t) n ;
        let p := parent d in
        do ns <- set_at (nodes t) n (with_parent (next_free t) node_default) ;
        do cs <- (if p =? -1 then Ok (counts t)
                  else do k <- at_ (counts t) p ; set_at (counts t) p (k - 1)) ;
        let t' := mkTree ns cs n (closed t + 1) in
        if p =? -1 then Ok t' else close_loop fuel t' p
  end.

(** CloseNodeAndReclaimNodesUpToRootIfPossible (mip_tree.cc:62-98).  The loop gets one
    round per stored node; the theorems show this never runs out. *)
Definition CloseNode (t : tree) (n : Z) : outcome tree :=
  do _ <- check_active t n ;
  do c <- at_ (counts t) n ;
  do _ <- check ((c =? 0) || (c =? 2)) ;
  do d <- at_ (nodes t) n ;
  do k <- at_ (counts t) (parent d) ;
  do _ <- check (0 <=? k) ;
  do _ <- check (k <=? 2) ;
  close_loop (S (length (nodes t))) t n.

(** SetLpRelaxationDataInNode (mip_tree.cc:100-110). *)
Definition SetLp (t : tree) (n : Z) (x : double) : outcome tree :=
  do _ <- check_active t n ;
  do c <- at_ (counts t) n ;
  do _ <- check (c =? 0) ;
  do d <- at_ (nodes t) n ;
  do ns <- set_at (nodes t) n (with_lp x d) ;
  Ok (mkTree ns (counts t) (next_free t) (closed t)).

(** SetImpliedVariableBoundsInNode (mip_tree.cc:112-124). *)
Definition SetImplied (t : tree) (n : Z) (lo up : list (Z * double)) : outcome tree :=
  do _ <- check_active t n ;
  do c <- at_ (counts t) n ;
  do _ <- check (c =? 0) ;
  do d <- at_ (nodes t) n ;
  do ns <- set_at (nodes t) n (with_implied lo up d) ;
  Ok (mkTree ns (counts t) (next_free t) (closed t)).

(** One assignment [b[j] = f(b[j], x)] of the bound loops. *)
Definition tighten (f : double -> double -> double) (b : list double) (j : Z) (x : double)
  : outcome (list double) :=
  do y <- at_ b j ; set_at b j (f y x).

(** The body of the loop in RetrieveLowerBounds (mip_tree.cc:134-141). *)
Definition lower_step (d : node_data) (b : list double) : outcome (list double) :=
  do b <- foldM (fun b e => tighten dmax b (fst e) (snd e)) b (implied_lower d) ;
  if negb (branch_down d) && (0 <=? branch_variable d)
  then tighten dmax b (branch_variable d) (dceil (branch_value d)) else Ok b.

(** The body of the loop in RetrieveUpperBounds (mip_tree.cc:154-161). *)
Definition upper_step (d : node_data) (b : list double) : outcome (list double) :=
  do b <- foldM (fun b e => tighten dmin b (fst e) (snd e)) b (implied_upper d) ;
  if branch_down d
  then tighten dmin b (branch_variable d) (dfloor (branch_value d)) else Ok b.

(** The loop "for (; n != kInvalidNode; n = nodes_[n].parent)" (mip_tree.cc:133, 153). *)
Fixpoint walk (fuel : nat) (step : node_data -> list double -> outcome (list double))
  (t : tree) (n : Z) (b : list double) : outcome (list double) :=
  match fuel with
  | O => Fuel
  | S fuel =>
      if n =? -1 then Ok b
      else do d <- at_ (nodes t) n ; do b <- step d b ; walk fuel step t (parent d) b
  end.

(** RetrieveLowerBounds (mip_tree.cc:126-144). *)
Definition RetrieveLower (t : tree) (n : Z) (root : list double) : outcome (list double) :=
  do _ <- check_active t n ; walk (S (S (length (nodes t)))) lower_step t n root.

(** RetrieveUpperBounds (mip_tree.cc:146-164). *)
Definition RetrieveUpper (t : tree) (n : Z) (root : list double) : outcome (list double) :=
  do _ <- check_active t n ; walk (S (S (length (nodes t)))) upper_step t n root.

(** Calls, for histories. *)
Inductive top :=
| TAdd (p var : Z) (down : bool) (x : double)
| TClose (n : Z)
| TSetLp (n : Z) (x : double)
| TSetImplied (n : Z) (lo up : list (Z * double)).

Definition tstep (t : tree) (o : top) : outcome tree :=
  match o with
  | TAdd p var down x => do r <- AddNode t p var down x ; Ok (fst r)
  | TClose n => CloseNode t n
  | TSetLp n x => SetLp t n x
  | TSetImplied n lo up => SetImplied t n lo up
  end.

Definition trun (t : tree) (ops : list top) : outcome tree := foldM tstep t ops.
