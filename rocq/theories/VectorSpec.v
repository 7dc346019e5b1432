(** Specification vocabulary for sparse vectors: plain lists of writes and partial
    maps, independent of how the vector stores its entries. *)
From Coq Require Import List ZArith Bool Sorted.
From Verif Require Import Outcome Num SparseVector.
Import ListNotations.
Open Scope Z_scope.

Section Spec.
Context {N : Num}.

(** *** Writes only: the log of writes since the vector was last emptied. *)
Definition write_op (o : vop N) : Prop :=
  match o with VAdd _ _ | VClear | VClean | VAssign _ => True | _ => False end.

Definition log_step (log : list (Z * N)) (o : vop N) : list (Z * N) :=
  match o with
  | VAdd i x => log ++ [(i, x)]
  | VClear => []
  | VAssign l => map (fun e => (idx e, val e)) l
  | _ => log
  end.
Definition write_log (ops : list (vop N)) : list (Z * N) := fold_left log_step ops [].

(** The value last written for [i], 0.0 if there is none. *)
Definition last_written (log : list (Z * N)) (i : Z) : N :=
  match find (fun p => fst p =? i) (rev log) with
  | Some (_, x) => x
  | None => n0
  end.

(** Any value comparing equal to 0.0 reads as 0.0 once dropped. *)
Definition drop0 (x : N) : N := if is0 x then n0 else x.

(** *** Canonical entries: strictly increasing indices, no zero value. *)
Definition canonical (l : list (entry N)) : Prop :=
  StronglySorted (fun a b => idx a < idx b) l /\
  Forall (fun e => is0 (val e) = false) l.

Definition nonneg_indices (l : list (entry N)) : Prop := Forall (fun e => 0 <= idx e) l.

(** Index [i] is stored in [v]. *)
Definition holds (v : svec N) (i : Z) : Prop := exists e, In e (ents v) /\ idx e = i.
Definition holdsb (v : svec N) (i : Z) : bool := existsb (fun e => idx e =? i) (ents v).

(** *** All members: partial maps. *)
Definition pmap := Z -> option N.
Definition store (x : N) : option N := if is0 x then None else Some x.
Definition read (m : pmap) (i : Z) : N := match m i with Some x => x | None => n0 end.

(** Content of a vector given by its entries. *)
Definition entries_map (l : list (entry N)) : pmap :=
  fun i => match find (fun e => idx e =? i) (rev l) with
           | Some e => store (val e)
           | None => None
           end.

Definition map_step (m : pmap) (o : vop N) : pmap :=
  match o with
  | VAdd i x => fun j => if j =? i then store x else m j
  | VClear => fun _ => None
  | VClean => m
  | VAssign l => entries_map l
  | VTransform f => fun j => match m j with Some x => store (f j x) | None => None end
  | VNegate => fun j => option_map nopp (m j)
  | VScale s => fun j => if is0 s then None else option_map (fun x => nmul x s) (m j)
  | VUnscale s => fun j => option_map (fun x => ndiv x s) (m j)
  | VAddMul f w => fun j =>
      match m j, entries_map (ents w) j with
      | Some x, Some y => store (nadd x (nmul y f))
      | Some x, None => Some x
      | None, Some y => store (nmul y f)
      | None, None => None
      end
  end.
Definition replay (ops : list (vop N)) : pmap := fold_left map_step ops (fun _ => None).

(** No scaling in the history turns a stored value into zero (no underflow), and
    vectors passed as arguments are canonical. *)
Definition no_underflow_step (m : pmap) (o : vop N) : Prop :=
  match o with
  | VScale s => is0 s = false -> forall j x, m j = Some x -> is0 (nmul x s) = false
  | VUnscale s => forall j x, m j = Some x -> is0 (ndiv x s) = false
  | VAddMul f w => canonical (ents w)
  | _ => True
  end.
Fixpoint no_underflow (m : pmap) (ops : list (vop N)) : Prop :=
  match ops with
  | [] => True
  | o :: r => no_underflow_step m o /\ no_underflow (map_step m o) r
  end.

(** Left-to-right sum, starting from 0.0, of v[i]*w[i] over the given indices. *)
Definition sum_products (v w : svec N) (is : list Z) : N :=
  fold_left (fun acc i => nadd acc (nmul (value v i) (value w i))) is n0.

End Spec.
Arguments pmap N : clear implicits.
