(** Model of minimip/branching_interface/{maxfractional,random}_branching.cc. *)
From Coq Require Import List ZArith Bool.
From Verif Require Import Outcome Num Double MipData.
Import ListNotations.
Open Scope Z_scope.

(** BranchingParameters.BranchingDirection (parameters.proto:107-111). *)
Inductive direction := Unspecified | Down | Up.

(** BranchingVariable (branching_interface.h:28-31): column and branching_up_first.  The
    column of a default-constructed one is 0 (StrongInt). *)
Definition branching_variable : Type := Z * bool.

(** The loop of MaxFractionalBranching::NextBranchingVariable (31-40).  [tol] is the
    integrality tolerance used by IsIntegerWithinTolerance (solver.h:100-102).  The
    unqualified abs is the double overload. *)
Fixpoint max_fractional_loop (tol : double) (x : list double) (order : list Z)
  (best : Z) (max_part : double) : outcome (Z * double) :=
  match order with
  | [] => Ok (best, max_part)
  | col :: r =>
      do v <- at_ x col ;
      if close_to_integer v tol then max_fractional_loop tol x r best max_part
      else
        let part := dabs (dsub v (dfloor v)) in
        if dltb max_part part then max_fractional_loop tol x r col part
        else max_fractional_loop tol x r best max_part
  end.

Definition dhalf : double := S754_finite false 4503599627370496 (-53).

(** MaxFractionalBranching::NextBranchingVariable (19-53).  [order] is the order in which
    the hash set of integer variables is iterated; [x] the LP's primal values
    (GetPrimalValues().value()). *)
Definition MaxFractional (dir : direction) (tol : double) (order : list Z) (x : list double)
  : outcome branching_variable :=
  match order with
  | [] => Err InvalidArgument
  | _ :: _ =>
      do (best, part) <- max_fractional_loop tol x order 0 d0 ;
      Ok (best, match dir with
                | Up => true
                | Down => false
                | Unspecified => dleb part dhalf
                end)
  end.

(** RandomBranching::NextBranchingVariable (21-39): [draw] is the number drawn from
    0 .. n-1, where n is the number of integer variables. *)
Definition RandomBranching (dir : direction) (draw : Z -> Z) (ints : list Z)
  : outcome branching_variable :=
  match ints with
  | [] => Err InvalidArgument
  | _ :: _ => Ok (draw (Z.of_nat (length ints)),
                  match dir with Up => true | _ => false end)
  end.
(** uniform_int_distribution(0, n - 1) *)
Definition is_draw (draw : Z -> Z) : Prop := forall n, 0 < n -> 0 <= draw n < n.
