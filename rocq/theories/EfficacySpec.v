(** Vocabulary for C96: vectors of binary fractions. *)
From Coq Require Import List ZArith.
From Verif Require Import Num Double SparseVector VectorSpec Rounding.
Open Scope Z_scope.

(** The sparse vector [v] holds [b] / 2^[s], a vector with [n] columns. *)
Definition holds_fractions (s : Z) (n : nat) (v : svec num_double) (b : nat -> Z) : Prop :=
  canonical (ents v) /\ Forall (fun e => 0 <= idx e < Z.of_nat n) (ents v) /\
  forall i, (i < n)%nat ->
    finite_double (value v (Z.of_nat i)) /\ 2 ^ s * zval (value v (Z.of_nat i)) = b i * zone.
