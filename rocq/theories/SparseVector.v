(** Model of minimip/data_structures/strong_sparse_vector.h. *)
From Coq Require Import List ZArith Lia Bool.
From Verif Require Import Outcome Num.
Import ListNotations.
Open Scope Z_scope.

Section SparseVector.
Context {N : Num}.

(** strong_sparse_vector.h:91-100, struct SparseEntry. *)
Record entry := mkE { idx : Z; val : N }.

(** strong_sparse_vector.h:448-449, the two data members. *)
Record svec := mkV { ents : list entry; dirty : bool }.

(** Default constructor (117). *)
Definition vempty : svec := mkV [] false.

(** Index of the last entry or kInvalidSparseIndex = -1 (183-185, 260-264). *)
Definition last_index (v : svec) : Z :=
  match rev (ents v) with [] => -1 | e :: _ => idx e end.

(** first_index (266-270). *)
Definition first_index (v : svec) : Z :=
  match ents v with [] => -1 | e :: _ => idx e end.

(** AddEntry (180-197). *)
Definition AddEntry (v : svec) (i : Z) (x : N) : svec :=
  if dirty v then mkV (ents v ++ [mkE i x]) true
  else if i <=? last_index v then mkV (ents v ++ [mkE i x]) true
  else if is0 x then v
  else mkV (ents v ++ [mkE i x]) false.

(** std::lower_bound with comparator [a.index < i], the halving loop over
    [first, first+len).  [fuel] bounds the iterations; [len] iterations always
    suffice since [len] decreases.  Positions are within the list. *)
Fixpoint lower_bound (fuel : nat) (l : list entry) (first len : nat) (i : Z) : nat :=
  match fuel, len with
  | S fuel', S _ =>
      let half := Nat.div2 len in
      let mid := (first + half)%nat in
      match nth_error l mid with
      | Some e => if idx e <? i
                  then lower_bound fuel' l (S mid) (len - half - 1)%nat i
                  else lower_bound fuel' l first half i
      | None => first
      end
  | _, _ => first
  end.

(** value / operator[] (201-214). *)
Definition value (v : svec) (i : Z) : N :=
  match nth_error (ents v) (lower_bound (length (ents v)) (ents v) 0 (length (ents v)) i) with
  | Some e => if idx e =? i then val e else n0
  | None => n0
  end.

(** Clear (218-222). *)
Definition Clear (v : svec) : svec := mkV [] false.

(** std::stable_sort by index (229-233).  Inserting each element in front of the
    already sorted later ones, before any equal index, is stable. *)
Fixpoint insert (e : entry) (l : list entry) : list entry :=
  match l with
  | [] => [e]
  | x :: r => if idx x <? idx e then x :: insert e r else e :: x :: r
  end.
Definition stable_sort (l : list entry) : list entry := fold_right insert [] l.

(** The compaction loop (235-246): skip an entry followed by one of the same index,
    skip zeros, keep the rest.  Writes go to positions not after the one read. *)
Fixpoint compact (l : list entry) : list entry :=
  match l with
  | [] => []
  | e :: r =>
      let keep := if is0 (val e) then compact r else e :: compact r in
      match r with
      | e' :: _ => if idx e =? idx e' then compact r else keep
      | [] => keep
      end
  end.

(** CleanUpIfNeeded (226-248). *)
Definition CleanUp (v : svec) : svec :=
  if dirty v then mkV (compact (stable_sort (ents v))) false else v.

(** Constructor from entries (119-124). *)
Definition of_entries (l : list entry) : svec := CleanUp (mkV l true).

(** Constructor from dense values (126-134). *)
Fixpoint dense_entries (i : Z) (l : list N) : list entry :=
  match l with
  | [] => []
  | x :: r => if is0 x then dense_entries (i + 1) r
              else mkE i x :: dense_entries (i + 1) r
  end.
Definition of_dense (l : list N) : svec := mkV (dense_entries 0 l) false.

(** mutable_entries (147-155) followed by an arbitrary edit of the entries by the
    caller, who leaves [l] there. *)
Definition mutate (v : svec) (l : list entry) : svec := mkV l true.

(** IsClean (274-289). *)
Fixpoint strictly_sorted (l : list entry) : bool :=
  match l with
  | [] => true
  | e :: r => match r with
              | [] => true
              | e' :: _ => (idx e <? idx e') && strictly_sorted r
              end
  end.
Definition IsClean (v : svec) : bool :=
  strictly_sorted (ents v) &&
  forallb (fun e => negb (is0 (val e)) && (0 <=? idx e)) (ents v).

(** MayNeedCleaning (250-258). *)
Definition MayNeedCleaning (v : svec) : bool := dirty v.

(** std::remove_if of zero values + erase (297-301, 406-410). *)
Definition drop_zeros (l : list entry) : list entry :=
  filter (fun e => negb (is0 (val e))) l.

(** Transform (293-302). *)
Definition Transform (f : Z -> N -> N) (v : svec) : svec :=
  mkV (drop_zeros (map (fun e => mkE (idx e) (f (idx e) (val e))) (ents v))) (dirty v).

(** Unary operator- (304-309). *)
Definition Negate (v : svec) : svec :=
  mkV (map (fun e => mkE (idx e) (nopp (val e))) (ents v)) (dirty v).

(** operator*= (311-319): zeros produced by the multiplication are not removed. *)
Definition Scale (v : svec) (s : N) : svec :=
  if is0 s then mkV [] (dirty v)
  else mkV (map (fun e => mkE (idx e) (nmul (val e) s)) (ents v)) (dirty v).

(** operator/= (327-332); division by zero is only DCHECKed. *)
Definition Unscale (v : svec) (s : N) : svec :=
  mkV (map (fun e => mkE (idx e) (ndiv (val e) s)) (ents v)) (dirty v).

(** std::inplace_merge (387-390): stable, the first range wins ties. *)
Fixpoint merge (l1 : list entry) : list entry -> list entry :=
  match l1 with
  | [] => fun l2 => l2
  | a :: r1 =>
      fix merge_aux (l2 : list entry) : list entry :=
        match l2 with
        | [] => a :: r1
        | b :: r2 => if idx b <? idx a then b :: merge_aux r2 else a :: merge r1 l2
        end
  end.

(** The duplicate summation loop (392-404) once [value_at_current_unique_index]
    points to [cur]; [zs] are the entries of the same run already set to 0.0. *)
Fixpoint sum_run (cur : entry) (zs l : list entry) : list entry :=
  match l with
  | [] => cur :: zs
  | e :: r => if idx e =? idx cur
              then sum_run (mkE (idx cur) (nadd (val cur) (val e))) (zs ++ [mkE (idx e) n0]) r
              else cur :: zs ++ sum_run e [] r
  end.
(** The loop starts with current_unique_index = -1 and a null pointer, which is
    dereferenced if the very first index is -1. *)
Definition sum_dups (l : list entry) : outcome (list entry) :=
  match l with
  | [] => Ok []
  | e :: r => if idx e =? -1 then UB else Ok (sum_run e [] r)
  end.

Definition scaled (f : N) (l : list entry) : list entry :=
  map (fun e => mkE (idx e) (nmul (val e) f)) l.

(** AddMultipleOfVector (366-412) with [other] a different object.  On unsorted
    ranges (a vector in need of cleaning, only DCHECKed) std::inplace_merge has
    undefined behaviour. *)
Definition AddMultiple (v : svec) (f : N) (other : svec) : outcome svec :=
  if dirty v || dirty other then UB
  else do l <- sum_dups (merge (ents v) (scaled f (ents other))) ;
       Ok (mkV (drop_zeros l) (dirty v)).

(** std::transform inside one buffer: for k = 0, 1, ..., n-1 read position k, write
    position [off + k]; out-of-range accesses are undefined behaviour (380-386). *)
Fixpoint transform_within (n k off : nat) (f : N) (buf : list entry) : outcome (list entry) :=
  match n with
  | O => Ok buf
  | S n' =>
      match nth_error buf k with
      | None => UB
      | Some e =>
          if (off + k <? length buf)%nat
          then transform_within n' (S k) off f
                 (update buf (off + k) (mkE (idx e) (nmul (val e) f)))
          else UB
      end
  end.

(** AddMultipleOfVector with [other] aliasing [*this]: the resize (380) also resizes
    [other.entries_], so the transform runs over the whole resized range. *)
Definition AddMultipleSelf (v : svec) (f : N) : outcome svec :=
  if dirty v then UB
  else
    let n := length (ents v) in
    let buf := ents v ++ repeat (mkE (-1) n0) n in
    do buf' <- transform_within (length buf) 0 n f buf ;
    do l <- sum_dups (merge (firstn n buf') (skipn n buf')) ;
    Ok (mkV (drop_zeros l) (dirty v)).

(** operator+=, operator-= (340-362). *)
Definition PlusEq (v w : svec) : outcome svec := AddMultiple v n1 w.
Definition MinusEq (v w : svec) : outcome svec := AddMultiple v nm1 w.

(** DotProduct (414-435), the two-iterator loop. *)
Fixpoint dot_loop (l1 : list entry) : list entry -> N -> N :=
  match l1 with
  | [] => fun _ acc => acc
  | a :: r1 =>
      fix dot_aux (l2 : list entry) (acc : N) : N :=
        match l2 with
        | [] => acc
        | b :: r2 =>
            if idx a =? idx b then dot_loop r1 r2 (nadd acc (nmul (val a) (val b)))
            else if idx a <? idx b then dot_loop r1 l2 acc
            else dot_aux r2 acc
        end
  end.
Definition DotProduct (v w : svec) : N := dot_loop (ents v) (ents w) n0.

(** One call on a vector, for histories.  Members that DCHECK cleanliness and rely
    on it (Transform, operator-, *=, /=, AddMultipleOfVector) are undefined on a
    vector flagged for cleaning. *)
Inductive vop :=
| VAdd (i : Z) (x : N)
| VClear
| VClean
| VAssign (l : list entry)      (* constructor from entries, or mutable_entries edit *)
| VTransform (f : Z -> N -> N)
| VNegate
| VScale (s : N)
| VUnscale (s : N)
| VAddMul (f : N) (w : svec).

Definition vstep (v : svec) (o : vop) : outcome svec :=
  match o with
  | VAdd i x => Ok (AddEntry v i x)
  | VClear => Ok (Clear v)
  | VClean => Ok (CleanUp v)
  | VAssign l => Ok (mutate v l)
  | VTransform f => if dirty v then UB else Ok (Transform f v)
  | VNegate => if dirty v then UB else Ok (Negate v)
  | VScale s => if dirty v then UB else Ok (Scale v s)
  | VUnscale s => if dirty v then UB else Ok (Unscale v s)
  | VAddMul f w => AddMultiple v f w
  end.

Definition vrun (v : svec) (ops : list vop) : outcome svec := foldM vstep v ops.

End SparseVector.
Arguments entry N : clear implicits.
Arguments svec N : clear implicits.
Arguments vop N : clear implicits.
