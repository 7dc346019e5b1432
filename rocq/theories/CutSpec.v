(** Specification vocabulary for the cut registry, the selector and the runner. *)
From Coq Require Import String List ZArith Bool Permutation Sorted.
From Verif Require Import Outcome Num Double SparseVector VectorSpec MipData CutsData Selector Runner.
Import ListNotations.
Open Scope Z_scope.

(** *** Registry histories *)
(** Calls whose index argument names a stored cut. *)
Definition rcall_ok (g : registry) (o : rop) : Prop :=
  match o with
  | RActivate i | RRemove i => 0 <= i < num_cuts g
  | RAdd _ | REfficacy _ => True
  end.
Fixpoint rcalls_ok (g : registry) (ops : list rop) : Prop :=
  match ops with
  | [] => True
  | o :: r => rcall_ok g o /\ forall g', rstep g o = Ok g' -> rcalls_ok g' r
  end.
Definition reg_reachable (g : registry) : Prop :=
  exists ops, rcalls_ok reg_new ops /\ rrun reg_new ops = Ok g.

(** A cut without its position. *)
Definition body (c : cut) : cut := SetIndex c 0.
Definition bodies (g : registry) : list cut := map body (cuts g).

(** Every cut gets an identity when added: 0, 1, 2, ...  [ids] lists the identities of the
    stored cuts by position, [acts] those activated and not removed, in order. *)
Record areg := mkAreg { ids : list nat; acts : list nat; born : nat }.
Definition areg_new : areg := mkAreg [] [] 0.
Definition id_at (s : areg) (i : Z) : nat := nth (Z.to_nat i) (ids s) 0%nat.
Definition areg_step (s : areg) (o : rop) : areg :=
  match o with
  | RAdd _ => mkAreg (ids s ++ [born s]) (acts s) (S (born s))
  | RActivate i => mkAreg (ids s) (acts s ++ [id_at s i]) (born s)
  | RRemove i =>
      mkAreg (filter (fun k => negb (Nat.eqb k (id_at s i))) (ids s))
        (filter (fun k => negb (Nat.eqb k (id_at s i))) (acts s)) (born s)
  | REfficacy _ => s
  end.
Definition areg_run (s : areg) (ops : list rop) : areg := fold_left areg_step ops s.
(** No cut is activated while it is already active. *)
Fixpoint activated_once (s : areg) (ops : list rop) : Prop :=
  match ops with
  | [] => True
  | o :: r =>
      match o with RActivate i => ~ In (id_at s i) (acts s) | _ => True end /\
      activated_once (areg_step s o) r
  end.

(** *** Selection *)
(** What std::sort guarantees: a rearrangement and, if the scores are comparable, no cut
    before one with a greater score. *)
Definition has_score (c : cut) : Prop := exists s, score_ c = Some s /\ is_nan s = false.
Definition score_of (c : cut) : double := match score_ c with Some s => s | None => dnan end.
Definition not_below (a b : cut) : Prop := dltb (score_of a) (score_of b) = false.
Definition sorts (sort : list cut -> list cut) : Prop :=
  forall l, Permutation (sort l) l /\ (Forall has_score l -> StronglySorted not_below (sort l)).

(** A cut without its score. *)
Definition unscored (c : cut) : cut :=
  mkCut (row c) (right_hand_side c) (number_of_non_zeros c) (number_of_integer_variables c)
    (objective_parallelism c) (name c) (is_forced c) (is_active c) (efficacy c) (cut_index c) None.
(** [l] is [l'] with some elements left out, in any order. *)
Definition sub_multiset {A} (l l' : list A) : Prop := exists rest, Permutation (l ++ rest) l'.

(** Cosine of the angle of two rows, in binary64. *)
Definition cosine (a b : cut) : double :=
  ddiv (DotProduct (row a) (row b))
    (dmul (dsqrt (DotProduct (row a) (row a))) (dsqrt (DotProduct (row b) (row b)))).
Definition too_parallel (p : selector_params) (a b : cut) : Prop :=
  dltb (dsub d1 (minimum_orthogonality p))
    (if signed_orthogonality p then cosine a b else dabs (cosine a b)) = true.

(** The value of a row at a point: the sum, in index order, of the products over the common
    indices; how far the point is beyond the cut, in units of length. *)
Definition row_value (r x : svec num_double) : double :=
  sum_products r x (filter (holdsb x) (map idx (ents r))).
Definition distance (r : svec num_double) (rhs : double) (x : svec num_double) : double :=
  ddiv (dsub (row_value r x) rhs) (dsqrt (row_value r r)).
(** The score of the documentation: the three features, each with its weight; a weight that is
    not positive switches its feature off. *)
Definition weighted (w x : double) : double := if dltb d0 w then dmul w x else d0.
Definition weighted_score (p : selector_params) (c : cut) (support : double) : double :=
  dadd (dadd (weighted (efficacy_weight p) (efficacy c)) (weighted (integer_support_weight p) support))
    (weighted (objective_parallelism_weight p) (objective_parallelism c)).
(** The fraction of the non-zeros that belong to integer variables. *)
Definition integer_support (c : cut) : double :=
  ddiv (dint (number_of_integer_variables c)) (dint (number_of_non_zeros c)).
Definition clean_row (c : cut) : Prop := dirty (row c) = false /\ canonical (ents (row c)).

(** *** Separation *)
Definition cut_row (c : cut) : lp_call := AddRow (row c) dminf (right_hand_side c) (name c).
Definition round_calls (new : list cut) : list lp_call := map cut_row new ++ [SolveDual].
(** Position stored in a cut = its place in the list. *)
Definition in_step (cs : list cut) : Prop :=
  forall i c, nth_error cs i = Some c -> cut_index c = Some (Z.of_nat i).

(** A runner used for several nodes: before each call the LP and the inner state of
    generators and selector may have changed in any way. *)
Definition with_world {W} (s : runner_state W) (w : W) : runner_state W :=
  mkRS (num_cutrounds s) (num_of_cuts_added_since_last_run s) (reg s) (calls s) w.
Fixpoint separations {W} (sep : runner_state W -> outcome (runner_state W))
  (between : list (W -> W)) (s : runner_state W) : outcome (runner_state W) :=
  match between with
  | [] => Ok s
  | f :: r => do s' <- sep (with_world s (f (world s))) ; separations sep r s'
  end.
(** A runner as constructed. *)
Definition fresh_runner {W} (g : registry) (w : W) : runner_state W := mkRS 0 0 g [] w.
Definition num_rows_added (l : list lp_call) : Z :=
  Z.of_nat (length (filter (fun c => match c with AddRow _ _ _ _ => true | SolveDual => false end) l)).

(** The LP after the calls [l]. *)
Fixpoint replay {W} (addr : W -> svec num_double -> double -> double -> string -> outcome W)
  (solve : W -> outcome W) (w : W) (l : list lp_call) : outcome W :=
  match l with
  | [] => Ok w
  | AddRow r lhs rhs nm :: l => do w <- addr w r lhs rhs nm ; replay addr solve w l
  | SolveDual :: l => do w <- solve w ; replay addr solve w l
  end.
