(** Outcomes of C++ calls. *)
From Coq Require Import List ZArith Lia Bool.
Import ListNotations.

(** Status codes used by the sources (absl::StatusCode). *)
Inductive code := InvalidArgument | Internal | FailedPrecondition.

(** What a call can do.  [Abort] is a failed CHECK, LOG(FATAL), [.value()] on an
    error status, or an uncaught exception.  [UB] is undefined behaviour: an
    out-of-bounds access, a null dereference, an uninitialised read, an integer
    division by zero or a violated precondition of an STL algorithm.  [Fuel] only
    marks that a fuelled loop was cut short by the model; it is not an outcome of
    the code. *)
Inductive outcome (A : Type) : Type :=
| Ok (a : A)
| Err (c : code)
| Abort
| UB
| Fuel.
Arguments Ok {A} a.
Arguments Err {A} c.
Arguments Abort {A}.
Arguments UB {A}.
Arguments Fuel {A}.

Definition bind {A B} (x : outcome A) (f : A -> outcome B) : outcome B :=
  match x with
  | Ok a => f a
  | Err c => Err c
  | Abort => Abort
  | UB => UB
  | Fuel => Fuel
  end.

Declare Scope outcome_scope.
Delimit Scope outcome_scope with outcome.
Notation "'do' x <- e ; f" := (bind e (fun x => f))
  (at level 200, x pattern, e at level 100, f at level 200, right associativity)
  : outcome_scope.
Open Scope outcome_scope.

(** [CHECK(b)] *)
Definition check (b : bool) : outcome unit := if b then Ok tt else Abort.

(** Unchecked vector read [v[i]] (std::vector / absl::StrongVector operator[]). *)
Definition at_ {A} (l : list A) (i : Z) : outcome A :=
  if (i <? 0)%Z then UB
  else match nth_error l (Z.to_nat i) with Some a => Ok a | None => UB end.

(** List update at a position; no effect out of range. *)
Fixpoint update {A} (l : list A) (n : nat) (a : A) : list A :=
  match l, n with
  | [], _ => []
  | _ :: r, O => a :: r
  | x :: r, S n => x :: update r n a
  end.

(** Unchecked vector write [v[i] = a]. *)
Definition set_at {A} (l : list A) (i : Z) (a : A) : outcome (list A) :=
  if (i <? 0)%Z then UB
  else if (Z.to_nat i <? length l)%nat then Ok (update l (Z.to_nat i) a) else UB.

(** [v.resize(n, d)] *)
Definition resize {A} (l : list A) (n : nat) (d : A) : list A :=
  firstn n l ++ repeat d (n - length l).

(** Left-to-right loop over a list that may stop with a non-[Ok] outcome. *)
Fixpoint foldM {S A} (f : S -> A -> outcome S) (s : S) (l : list A) : outcome S :=
  match l with
  | [] => Ok s
  | a :: r => bind (f s a) (fun s' => foldM f s' r)
  end.
