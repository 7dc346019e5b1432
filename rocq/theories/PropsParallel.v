(** Property C93: the objective parallelism of a cut. *)
From Coq Require Import String List ZArith Bool Lia.
From Verif Require Import Num Double SparseVector VectorSpec DoubleFacts Rounding CutsData ParallelSpec ParallelProofs.
Import ListNotations.
Open Scope Z_scope.

Definition at0 (x : double) : svec num_double := mkV [@mkE num_double 0 x] false.
Definition c03 : double := S754_finite false 5404319552844595 (-54).
Definition c17 : double := S754_finite false 7656119366529843 (-52).

(** C93, full statement: the objective parallelism of a cut with a non-zero row is a number from 0
    to 1.  False: a row 0.3 x0 and an objective 1.7 x0 give a number above 1, and an objective
    without coefficients gives NaN. *)
Theorem C93_parallelism_refuted : exists row obj, row <> d0 /\ obj <> d0 /\
  (forall ints x rhs nm f,
     dltb d1 (objective_parallelism (CreateCut ints (at0 obj) x (at0 row) rhs nm f)) = true) /\
  (forall ints x rhs nm f,
     is_nan (objective_parallelism (CreateCut ints (mkV [] false) x (at0 row) rhs nm f)) = true).
Proof.
  exists c03, c17. split; [discriminate|]. split; [discriminate|].
  split; intros; vm_compute; reflexivity.
Qed.
Print Assumptions C93_parallelism_refuted.

(** C93, what does hold: for a row [a] and an objective [c] with integer coefficients that are not
    zero and not large, the parallelism is a number from 0 to 1; it is 0 exactly if they are
    orthogonal and 1 exactly if they are parallel; and it is |a.c| / sqrt (a.a c.c) up to a
    relative error of (2^52 + 1) / (2^52 - 1). *)
Theorem C93_parallelism_partial : forall n ints obj x r rhs nm f a c,
  holds_integers n r a -> holds_integers n obj c -> 0 < dot n a a -> 0 < dot n c c ->
  dot n a a * dot n c c <= 2 ^ 50 ->
  let p := objective_parallelism (CreateCut ints obj x r rhs nm f) in
  finite_double p /\ 0 <= zval p <= zone /\
  (zval p = 0 <-> dot n a c = 0) /\ (zval p = zone <-> parallel n a c) /\
  (2 ^ 52 - 1) ^ 2 * (dot n a a * dot n c c * zval p ^ 2) <= (2 ^ 52 + 1) ^ 2 * (dot n a c ^ 2 * zone ^ 2) /\
  (2 ^ 52 - 1) ^ 2 * (dot n a c ^ 2 * zone ^ 2) <= (2 ^ 52 + 1) ^ 2 * (dot n a a * dot n c c * zval p ^ 2).
Proof. exact parallelism_whole. Qed.
Print Assumptions C93_parallelism_partial.

Definition pair_of (x y : Z) : svec num_double := mkV [@mkE num_double 0 (dint x); @mkE num_double 1 (dint y)] false.
Definition as_pair (x y : Z) (i : nat) : Z := match i with 0%nat => x | _ => y end.
Example C93_case : holds_integers 2 (pair_of 3 4) (as_pair 3 4) /\ holds_integers 2 (pair_of 6 8) (as_pair 6 8) /\
  holds_integers 2 (pair_of 4 (-3)) (as_pair 4 (-3)) /\ dot 2 (as_pair 3 4) (as_pair 3 4) = 25 /\
  dot 2 (as_pair 6 8) (as_pair 6 8) = 100 /\ parallel 2 (as_pair 3 4) (as_pair 6 8) /\
  dot 2 (as_pair 3 4) (as_pair 4 (-3)) = 0 /\ ~ parallel 2 (as_pair 3 4) (as_pair 1 0) /\
  objective_parallelism (CreateCut [] (pair_of 6 8) (at0 d1) (pair_of 3 4) d1 "C" false) = d1 /\
  objective_parallelism (CreateCut [] (pair_of 4 (-3)) (at0 d1) (pair_of 3 4) d1 "C" false) = d0 /\
  objective_parallelism (CreateCut [] (at0 d1) (at0 d1) (pair_of 3 4) d1 "C" false) = ddiv (dint 3) (dint 5).
Proof.
  assert (H : forall x y, In x [3; 4; 6] -> In y [4; 8; -3] -> holds_integers 2 (pair_of x y) (as_pair x y)).
  { intros x y X Y. cbn in X, Y.
    destruct X as [<-|[<-|[<-|[]]]]; destruct Y as [<-|[<-|[<-|[]]]];
      (split; [split; [repeat (constructor; cbn [idx]; try lia)|repeat constructor]|]; split; [repeat (constructor; cbn [idx]; try lia)|];
       intros [|[|i]] L; [split; [split|]; vm_compute; reflexivity|split; [split|]; vm_compute; reflexivity|lia]). }
  split; [apply H; cbn; auto|]. split; [apply H; cbn; auto|]. split; [apply H; cbn; auto|].
  split; [reflexivity|]. split; [reflexivity|].
  split; [exists 2, 1; split; [left; discriminate|]; intros [|[|i]] L; [reflexivity|reflexivity|lia]|].
  split; [reflexivity|].
  split. { intros (p & q & N & K). pose proof (K 0%nat ltac:(lia)). pose proof (K 1%nat ltac:(lia)). cbn in *. lia. }
  split; [vm_compute; reflexivity|]. split; vm_compute; reflexivity.
Qed.
