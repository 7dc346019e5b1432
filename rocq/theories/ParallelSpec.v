(** Vocabulary for cut data with whole numbers: integer vectors with [n] columns. *)
From Coq Require Import List ZArith Bool.
From Verif Require Import Num Double SparseVector VectorSpec Rounding.
Import ListNotations.
Open Scope Z_scope.

(** The sparse vector [v] holds the integer vector [a] with [n] columns. *)
Definition holds_integers (n : nat) (v : svec num_double) (a : nat -> Z) : Prop :=
  canonical (ents v) /\ Forall (fun e => 0 <= idx e < Z.of_nat n) (ents v) /\
  forall i, (i < n)%nat -> finite_double (value v (Z.of_nat i)) /\ zval (value v (Z.of_nat i)) = a i * zone.

Definition dot (n : nat) (a b : nat -> Z) : Z :=
  fold_right Z.add 0 (map (fun i => a i * b i) (seq 0 n)).

(** On one line through the origin. *)
Definition parallel (n : nat) (a b : nat -> Z) : Prop :=
  exists p q, (p <> 0 \/ q <> 0) /\ forall i, (i < n)%nat -> p * a i = q * b i.
