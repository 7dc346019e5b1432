(** Specification of a matrix: dimensions and a function from (column, row) to value. *)
From Coq Require Import List ZArith Bool.
From Verif Require Import Outcome Num SparseVector VectorSpec SparseMatrix.
Import ListNotations.
Open Scope Z_scope.

Section Spec.
Context {N : Num}.

Record amat := mkA { a_nc : Z; a_nr : Z; a_val : Z -> Z -> N }.

Definition a_new (nc nr : nat) : amat := mkA (Z.of_nat nc) (Z.of_nat nr) (fun _ _ => n0).

(** What each call does to the abstract matrix; the getters do nothing. *)
Definition astep (a : amat) (o : mop N) : amat :=
  match o with
  | MSet c r x =>
      mkA (a_nc a) (a_nr a)
        (fun c' r' => if (c' =? c) && (r' =? r) then drop0 x else a_val a c' r')
  | MPopRow r data =>
      mkA (a_nc a) (a_nr a)
        (fun c' r' => if r' =? r then value (CleanUp data) c' else a_val a c' r')
  | MPopCol c data =>
      mkA (a_nc a) (a_nr a)
        (fun c' r' => if c' =? c then value (CleanUp data) r' else a_val a c' r')
  | MResize nc nr =>
      mkA (Z.of_nat nc) (Z.of_nat nr)
        (fun c' r' => if (c' <? Z.of_nat nc) && (r' <? Z.of_nat nr) &&
                         (c' <? a_nc a) && (r' <? a_nr a)
                      then a_val a c' r' else n0)
  | MClearOp => mkA 0 0 (fun _ _ => n0)
  | MRow _ | MCol _ | MGet _ _ => a
  end.

Definition areplay (a : amat) (ops : list (mop N)) : amat := fold_left astep ops a.

Definition in_cols (a : amat) (c : Z) : Prop := 0 <= c < a_nc a.
Definition in_rows (a : amat) (r : Z) : Prop := 0 <= r < a_nr a.

(** A vector passed by the caller: canonical unless flagged for cleaning. *)
Definition wf_vector (v : svec N) : Prop := dirty v = false -> canonical (ents v).

(** In-range arguments of one call. *)
Definition call_ok (a : amat) (o : mop N) : Prop :=
  match o with
  | MSet c r _ | MGet c r => in_cols a c /\ in_rows a r
  | MPopRow r data =>
      in_rows a r /\ wf_vector data /\
      Forall (fun e => in_cols a (idx e)) (ents (CleanUp data))
  | MPopCol c data =>
      in_cols a c /\ wf_vector data /\
      Forall (fun e => in_rows a (idx e)) (ents (CleanUp data))
  | MRow r => in_rows a r
  | MCol c => in_cols a c
  | MResize _ _ | MClearOp => True
  end.
Fixpoint calls_ok (a : amat) (ops : list (mop N)) : Prop :=
  match ops with
  | [] => True
  | o :: r => call_ok a o /\ calls_ok (astep a o) r
  end.

Definition read_call (o : mop N) : Prop :=
  match o with MRow _ | MCol _ | MGet _ _ => True | _ => False end.

(** What a caller can read from [m]: the dimensions and, for in-range (c, r), the
    three ways to read a coefficient all succeed with the value [x c r]. *)
Definition reads_as (m : smat N) (nc nr : Z) (x : Z -> Z -> N) : Prop :=
  num_cols m = nc /\ num_rows m = nr /\
  forall c r, 0 <= c < nc -> 0 <= r < nr ->
    (exists m', GetCoefficient m c r = Ok (x c r, m')) /\
    (exists v m', row m r = Ok (v, m') /\ value v c = x c r) /\
    (exists v m', col m c = Ok (v, m') /\ value v r = x c r).

End Spec.
Arguments amat N : clear implicits.
