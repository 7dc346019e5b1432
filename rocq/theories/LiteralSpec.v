(** Vocabulary for C95: decimal numbers and the doubles nearest to them. *)
From Coq Require Import ZArith.
From Verif Require Import Double Rounding.
Open Scope Z_scope.

(** No double is nearer to the rational number [p]/[q] than [d]. *)
Definition nearest_double (d : double) (p q : Z) : Prop :=
  finite_double d /\
  forall y, finite_double y -> Z.abs (q * zval d - p * zone) <= Z.abs (q * zval y - p * zone).
