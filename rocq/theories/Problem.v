(** Model of minimip/data_structures/problem.{h,cc}. *)
From Coq Require Import String List ZArith Bool.
From Verif Require Import Outcome Num Double.
Import ListNotations.
Open Scope Z_scope.

(** problem.h:53-59, MiniMipVariable. *)
Record variable := mkVar {
  v_name : string; v_obj : double; v_lb : double; v_ub : double; v_int : bool }.

(** problem.h:61-67, MiniMipConstraint. *)
Record constraint := mkCon {
  c_name : string; c_idx : list Z; c_coef : list double; c_lhs : double; c_rhs : double }.

(** problem.h:69-72, MiniMipSolutionHint. *)
Record hint := mkHint { h_idx : list Z; h_val : list double }.

(** problem.h:44-51, MiniMipProblem. *)
Record problem := mkProblem {
  p_name : string; p_vars : list variable; p_cons : list constraint; p_hints : list hint;
  p_max : bool; p_offset : double }.

(** The messages of FindErrorInMiniMipProblem (problem.cc:21-65), by kind. *)
Inductive problem_error :=
| NoVariableName
| VariableBounds (name : string)
| NoConstraintName
| NegativeIndex (con : string)
| NoSuchVariable (i : Z)
| RepeatedIndex (con : string)
| UnequalLengths (con : string)
| ConstraintSides (con : string).

Definition is_empty (s : string) : bool := match s with EmptyString => true | _ => false end.

(** The loop over the variables (problem.cc:22-32). *)
Fixpoint variable_error (l : list variable) : option problem_error :=
  match l with
  | [] => None
  | v :: r =>
      if is_empty (v_name v) then Some NoVariableName
      else if dltb (v_ub v) (v_lb v) then Some (VariableBounds (v_name v))
      else variable_error r
  end.

(** The loop over var_indices (problem.cc:38-52); [seen] is var_indices_set.  The
    comparison with variables.size() is ">" as in the source. *)
Fixpoint index_error (con : string) (nvars : Z) (seen l : list Z) : option problem_error :=
  match l with
  | [] => None
  | i :: r =>
      if i <? 0 then Some (NegativeIndex con)
      else if nvars <? i then Some (NoSuchVariable i)
      else if existsb (Z.eqb i) seen then Some (RepeatedIndex con)
      else index_error con nvars (i :: seen) r
  end.

(** One constraint (problem.cc:35-62). *)
Definition constraint_error_1 (nvars : Z) (c : constraint) : option problem_error :=
  if is_empty (c_name c) then Some NoConstraintName
  else match index_error (c_name c) nvars [] (c_idx c) with
  | Some e => Some e
  | None =>
      if negb (Nat.eqb (length (c_idx c)) (length (c_coef c))) then Some (UnequalLengths (c_name c))
      else if dltb (c_rhs c) (c_lhs c) then Some (ConstraintSides (c_name c))
      else None
  end.

(** The loop over the constraints (problem.cc:34-63). *)
Fixpoint constraint_error (nvars : Z) (l : list constraint) : option problem_error :=
  match l with
  | [] => None
  | c :: r => match constraint_error_1 nvars c with
              | Some e => Some e
              | None => constraint_error nvars r
              end
  end.

(** FindErrorInMiniMipProblem (problem.cc:21-65); [None] is the empty string. *)
Definition FindError (p : problem) : option problem_error :=
  match variable_error (p_vars p) with
  | Some e => Some e
  | None => constraint_error (Z.of_nat (length (p_vars p))) (p_cons p)
  end.

(** problem.h:81-90, MiniMipSolution. *)
Record solution := mkSol { s_vals : list double; s_obj : double }.
Definition sol_default : solution := mkSol [] dinf.

(** The members of MiniMipResult (problem.h:92-101) that AddSolution touches. *)
Record result := mkRes { best : solution; additional : list solution }.
Definition res_default : result := mkRes sol_default [].

(** MiniMipResult::AddSolution (problem.h:106-118). *)
Definition AddSolution (r : result) (s : solution) : result :=
  if dltb (s_obj s) (s_obj (best r)) then
    mkRes s (if negb (deqb (s_obj (best r)) dinf) then additional r ++ [best r] else additional r)
  else mkRes (best r) (additional r ++ [s]).

Definition AddSolutions (r : result) (l : list solution) : result := fold_left AddSolution l r.
