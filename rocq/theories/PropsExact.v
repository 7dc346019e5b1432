(** Property C97: with whole numbers below 2^53 vector arithmetic and aggregation are exact. *)
From Coq Require Import String List ZArith Bool Lia Sorted.
From Verif Require Import Outcome Num Double SparseVector VectorSpec DoubleFacts Rounding ParallelSpec Aggregation GlopCases ExactVectors.
Import ListNotations.
Open Scope Z_scope.

(** C97. The dot product of integer vectors is their dot product. *)
Theorem C97_dot : forall n v w a b, holds_integers n v a -> holds_integers n w b ->
  dot n (fun i => Z.abs (a i)) (fun i => Z.abs (b i)) < 2 ^ 53 ->
  finite_double (DotProduct v w) /\ zval (DotProduct v w) = dot n a b * zone.
Proof. exact dot_whole. Qed.
Print Assumptions C97_dot.

(** C97. A multiple of an integer vector is added without error: cancelled entries are not stored
    ([holds_integers] asks for sorted entries that are not zero). *)
Theorem C97_add_multiple : forall n v w f a b k,
  holds_integers n v a -> holds_integers n w b -> dirty v = false -> dirty w = false ->
  finite_double f -> zval f = k * zone ->
  (forall i, (i < n)%nat -> Z.abs (k * b i) < 2 ^ 53 /\ Z.abs (a i + k * b i) < 2 ^ 53) ->
  exists r, AddMultiple v f w = Ok r /\ dirty r = false /\ holds_integers n r (fun i => a i + k * b i).
Proof. exact add_multiple_whole. Qed.
Print Assumptions C97_add_multiple.

(** C97. So is an integer vector scaled by an integer, including 0. *)
Theorem C97_scale : forall n v s a k, holds_integers n v a -> finite_double s -> zval s = k * zone ->
  (forall i, (i < n)%nat -> Z.abs (k * a i) < 2 ^ 53) ->
  holds_integers n (Scale v s) (fun i => k * a i) /\ dirty (Scale v s) = dirty v.
Proof. exact scale_whole. Qed.
Print Assumptions C97_scale.

(** C97. The aggregation of rows [A] with weights [k] and chosen sides [R] is the weighted sum, without
    rounding error; so every point that satisfies the chosen sides (at most the side for a positive weight,
    at least for a negative one) satisfies the aggregated row. *)
Theorem C97_aggregate : forall m n (V : view arith_double) (w : svec num_double) sides (g : agg arith_double)
    (k R : nat -> Z) (A : nat -> nat -> Z),
  holds_integers m w k -> AggregateByWeight (A := arith_double) V w sides = Ok g ->
  (forall r a, (r < m)%nat -> at_ (lp_rows V) (Z.of_nat r) = Ok a -> dirty a = false /\ holds_integers n a (A r)) ->
  (forall r (b : bool) y, (r < m)%nat -> k r <> 0 -> at_ sides (Z.of_nat r) = Ok b ->
     at_ (if b then lp_rhs V else lp_lhs V) (Z.of_nat r) = Ok y -> finite_double y /\ zval y = R r * zone) ->
  (forall j, (j < n)%nat -> dot m (fun r => Z.abs (k r)) (fun r => Z.abs (A r j)) < 2 ^ 53) ->
  dot m (fun r => Z.abs (k r)) (fun r => Z.abs (R r)) < 2 ^ 53 ->
  exists c d, holds_integers n (a_var g) c /\ finite_double (a_rhs g) /\ zval (a_rhs g) = d * zone /\
  (forall j, (j < n)%nat -> c j = dot m k (fun r => A r j)) /\ d = dot m k R /\
  forall x, (forall r, (r < m)%nat -> k r > 0 -> dot n (A r) x <= R r) ->
            (forall r, (r < m)%nat -> k r < 0 -> R r <= dot n (A r) x) -> dot n c x <= d.
Proof. exact aggregate_whole. Qed.
Print Assumptions C97_aggregate.

(** Three times 2 x0 + 3 x1 <= 7, less twice x0 - x1 >= 1: 4 x0 + 11 x1 <= 19. *)
Definition pair_of (x y : Z) : svec num_double := mkV [@mkE num_double 0 (dint x); @mkE num_double 1 (dint y)] false.
Definition of_two (x y : Z) (i : nat) : Z := match i with 0%nat => x | _ => y end.
Definition lpW : view arith_double :=
  @mkView arith_double [pair_of 2 3; pair_of 1 (-1)] [dminf; dint 1] [dint 7; dinf] [dminf; dminf] [dinf; dinf]
    (fun y => dleb dinf y) true true (Ok []) (Ok []) [0] (fun _ => Err Internal) [] [] d0.
Lemma pair_holds x y : is_finite (dint x) = true -> dvalid (dint x) = true -> is0 (dint x : num_double) = false -> zval (dint x) = x * zone ->
  is_finite (dint y) = true -> dvalid (dint y) = true -> is0 (dint y : num_double) = false -> zval (dint y) = y * zone ->
  holds_integers 2 (pair_of x y) (of_two x y).
Proof.
  intros. split; [split; [|repeat constructor; auto]|split].
  - repeat constructor.
  - repeat constructor; cbn; lia.
  - intros [|[|i]] Hi; [| |exfalso; lia]; (split; [split|]); assumption.
Qed.
Example C97_case : holds_integers 2 (pair_of 3 (-2)) (of_two 3 (-2)) /\
  (forall r a, (r < 2)%nat -> at_ (lp_rows lpW) (Z.of_nat r) = Ok a ->
     dirty a = false /\ holds_integers 2 a (fun j => of_two (of_two 2 3 j) (of_two 1 (-1) j) r)) /\
  (forall r (b : bool) y, (r < 2)%nat -> of_two 3 (-2) r <> 0 -> at_ [true; false] (Z.of_nat r) = Ok b ->
     at_ (if b then lp_rhs lpW else lp_lhs lpW) (Z.of_nat r) = Ok y -> finite_double y /\ zval y = of_two 7 1 r * zone) /\
  (exists g, AggregateByWeight lpW (pair_of 3 (-2)) [true; false] = Ok g /\ a_var g = pair_of 4 11 /\ a_rhs g = dint 19) /\
  AddMultiple (pair_of 2 3) (dint (-3)) (pair_of 1 1) = Ok (mkV [@mkE num_double 0 (dint (-1))] false) /\
  DotProduct (pair_of 2 3) (pair_of 5 (-1)) = dint 7 /\ Scale (pair_of 2 3) (dint (-2)) = pair_of (-4) (-6).
Proof.
  split; [apply pair_holds; reflexivity|]. split; [|split; [|split; [|split; [|split]]]].
  - intros [|[|r]] a Hr H; [| |exfalso; lia]; injection H as <-; (split; [reflexivity|]).
    + apply (pair_holds 2 3); reflexivity.
    + apply (pair_holds 1 (-1)); reflexivity.
  - intros [|[|r]] b y Hr _ H1 H2; [| |exfalso; lia]; injection H1 as <-; injection H2 as <-; (split; [split|]); reflexivity.
  - eexists. split; [|split]; reflexivity.
  - reflexivity.
  - reflexivity.
  - reflexivity.
Qed.
