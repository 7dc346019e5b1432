(** Specification vocabulary for problems, independent of how they are checked and stored. *)
From Coq Require Import String List ZArith Bool.
From Verif Require Import Outcome Num Double SparseVector VectorSpec SparseMatrix MatrixSpec
  Problem MipData.
Import ListNotations.
Open Scope Z_scope.

(** *** Well-formed problems *)
Definition variable_ok (v : variable) : Prop :=
  v_name v <> EmptyString /\ dltb (v_ub v) (v_lb v) = false.
Definition constraint_ok (last : Z) (c : constraint) : Prop :=
  c_name c <> EmptyString /\ Forall (fun i => 0 <= i <= last) (c_idx c) /\ NoDup (c_idx c) /\
  length (c_idx c) = length (c_coef c) /\ dltb (c_rhs c) (c_lhs c) = false.
(** Every variable and constraint is fine, with variable indices up to [last]. *)
Definition problem_ok_upto (last : Z) (p : problem) : Prop :=
  Forall variable_ok (p_vars p) /\ Forall (constraint_ok last) (p_cons p).
Definition num_vars (p : problem) : Z := Z.of_nat (length (p_vars p)).
Definition num_cons (p : problem) : Z := Z.of_nat (length (p_cons p)).
(** The indices that exist are 0 .. num_vars - 1. *)
Definition problem_ok (p : problem) : Prop := problem_ok_upto (num_vars p - 1) p.

(** No integer variable has a NaN bound. *)
Definition integer_bounds_ordered (p : problem) : Prop :=
  Forall (fun v => v_int v = true -> is_nan (v_lb v) = false /\ is_nan (v_ub v) = false) (p_vars p).

(** *** What the input says *)
Definition nth_var (p : problem) (j : Z) : option variable :=
  if j <? 0 then None else nth_error (p_vars p) (Z.to_nat j).
Definition nth_con (p : problem) (r : Z) : option constraint :=
  if r <? 0 then None else nth_error (p_cons p) (Z.to_nat r).
(** The coefficient listed for column [j], 0.0 if none is. *)
Definition coef_of (c : constraint) (j : Z) : double :=
  match find (fun q => fst q =? j) (combine (c_idx c) (c_coef c)) with
  | Some (_, x) => x
  | None => d0
  end.
Definition input_coef (p : problem) (j r : Z) : double :=
  match nth_con p r with Some c => coef_of c j | None => d0 end.
Definition is_integer_var (p : problem) (j : Z) : Prop :=
  exists v, nth_var p j = Some v /\ v_int v = true.

(** Unchanged, except that a negative zero reads as 0.0. *)
Definition no_neg0 (x : double) : double := drop0 (N := num_double) x.

(** *** Slacks, in units of 2^-1074 *)
Definition terms (c : constraint) : list (Z * double) := combine (c_idx c) (c_coef c).
Definition activity (c : constraint) (z : Z -> Z) : Z :=
  fold_right Z.add 0 (map (fun q => zval (snd q) * z (fst q)) (terms c)).
Definition is_whole (v : Z) : Prop := exists k, v = k * zone.
Definition finite_coefs (c : constraint) : Prop :=
  Forall (fun x => dvalid x = true /\ is_finite x = true) (c_coef c).

(** *** Integrality of a point *)
(** The distance from [x] to some integer is at most [tol]. *)
Definition near_integer (x tol : double) : Prop :=
  exists k, Z.abs (zval x - k * zone) <= zval tol.

(** *** Objective values, in units of 2^-1074: the point [z] has coordinate z j in column j,
    in any unit. *)
Definition linear (coef : Z -> double) (n : nat) (z : Z -> Z) : Z :=
  fold_right Z.add 0 (map (fun j => zval (coef (Z.of_nat j)) * z (Z.of_nat j)) (seq 0 n)).
Definition input_objective (p : problem) (j : Z) : double :=
  match nth_var p j with Some v => v_obj v | None => d0 end.
Definition finite_objective (p : problem) : Prop :=
  Forall (fun v => dvalid (v_obj v) = true /\ is_finite (v_obj v) = true) (p_vars p).
