(** Operations on the value type of sparse vectors.  The C++ class
    (strong_sparse_vector.h:103) is fixed to [double]; the model is written over a
    record of operations so that it can be used with binary64 ([Double.num_double])
    and with exact rationals (cut-validity theorems, a stated simplification). *)
From Coq Require Import QArith.

Record Num := mkNum {
  num :> Type;
  n0 : num;                      (* 0.0 *)
  n1 : num;                      (* 1.0 *)
  nm1 : num;                     (* -1.0 *)
  is0 : num -> bool;             (* x == 0.0 *)
  nadd : num -> num -> num;
  nmul : num -> num -> num;
  ndiv : num -> num -> num;
  nopp : num -> num
}.
Arguments n0 {n}.
Arguments n1 {n}.
Arguments nm1 {n}.
Arguments is0 {n} _.
Arguments nadd {n} _ _.
Arguments nmul {n} _ _.
Arguments ndiv {n} _ _.
Arguments nopp {n} _.

(** The only laws the data structure needs: 0.0 == 0.0, and -x == 0.0 iff x == 0.0. *)
Definition num_ok (N : Num) : Prop :=
  is0 (@n0 N) = true /\ forall x : N, is0 (nopp x) = is0 x.

(** Exact rationals. *)
Definition num_Q : Num :=
  mkNum Q 0%Q 1%Q (-1)%Q (fun x => Qeq_bool x 0) Qplus Qmult Qdiv Qopp.
