(** Model of minimip/data_structures/cuts_data.{h,cc}. *)
From Coq Require Import String List ZArith Bool.
From Verif Require Import Outcome Num Double SparseVector MipData.
Import ListNotations.
Open Scope Z_scope.

(** CutData (cuts_data.h:31-156). *)
Record cut := mkCut {
  row : svec num_double;
  right_hand_side : double;
  number_of_non_zeros : Z;
  number_of_integer_variables : Z;
  objective_parallelism : double;
  name : string;
  is_forced : bool;
  is_active : bool;
  efficacy : double;
  cut_index : option Z;
  score_ : option double }.

(** score() (50-55) and index() (63-68); the exceptions are never caught. *)
Definition score (c : cut) : outcome double :=
  match score_ c with Some s => Ok s | None => Abort end.
Definition index (c : cut) : outcome Z :=
  match cut_index c with Some i => Ok i | None => Abort end.

(** SetEfficacy (39-42), SetScore (46-49), SetIndex (59-62). *)
Definition SetEfficacy (c : cut) (x : double) : cut :=
  mkCut (row c) (right_hand_side c) (number_of_non_zeros c) (number_of_integer_variables c)
    (objective_parallelism c) (name c) (is_forced c) (is_active c) x (cut_index c) (score_ c).
Definition SetScore (c : cut) (x : double) : cut :=
  mkCut (row c) (right_hand_side c) (number_of_non_zeros c) (number_of_integer_variables c)
    (objective_parallelism c) (name c) (is_forced c) (is_active c) (efficacy c) (cut_index c) (Some x).
Definition SetIndex (c : cut) (i : Z) : cut :=
  mkCut (row c) (right_hand_side c) (number_of_non_zeros c) (number_of_integer_variables c)
    (objective_parallelism c) (name c) (is_forced c) (is_active c) (efficacy c) (Some i) (score_ c).

(** ComputeEfficacy (cuts_data.cc:65-71). *)
Definition ComputeEfficacy (r : svec num_double) (rhs : double) (x : svec num_double) : double :=
  ddiv (dsub (DotProduct r x) rhs) (dsqrt (DotProduct r r)).

(** CreateCut (34-63) followed by the constructor (cuts_data.h:101-123), whose DCHECKs are
    not executed.  The unqualified abs is the double overload. *)
Definition CreateCut (ints : list Z) (obj : svec num_double) (x : svec num_double)
  (r : svec num_double) (rhs : double) (nm : string) (forced : bool) : cut :=
  mkCut r rhs (Z.of_nat (length (ents r)))
    (Z.of_nat (length (filter (fun e : entry num_double => existsb (Z.eqb (idx e)) ints) (ents r))))
    (ddiv (dabs (DotProduct r obj))
       (dsqrt (dmul (DotProduct r r) (DotProduct obj obj))))
    nm forced false (ComputeEfficacy r rhs x) None None.

(** CutRegistry (cuts_data.h:167-221). *)
Record registry := mkReg { cuts : list cut; active_cuts : list Z }.
Definition reg_new : registry := mkReg [] [].
Definition num_cuts (g : registry) : Z := Z.of_nat (length (cuts g)).

(** AddCut (79-84).  The moved-from optional<int> keeps its value. *)
Definition AddCut (g : registry) (c : cut) : registry * Z :=
  let c' := SetIndex c (num_cuts g) in
  (mkReg (cuts g ++ [c']) (active_cuts g), num_cuts g).

(** ActivateCut (87-92); the range is only DCHECKed. *)
Definition ActivateCut (g : registry) (i : Z) : registry :=
  mkReg (cuts g) (active_cuts g ++ [i]).

(** vector::erase at a position *)
Definition erase_at {A} (l : list A) (n : nat) : list A := firstn n l ++ skipn (S n) l.

(** std::find + erase of one element *)
Fixpoint erase_first (l : list Z) (i : Z) : list Z :=
  match l with
  | [] => []
  | a :: r => if a =? i then r else a :: erase_first r i
  end.

(** The loop over the cuts from position [k] on (110-113). *)
Fixpoint decrement_from (k : nat) (l : list cut) : outcome (list cut) :=
  match l with
  | [] => Ok []
  | c :: r =>
      match k with
      | O => do i <- index c ; do r' <- decrement_from O r ; Ok (SetIndex c (i - 1) :: r')
      | S k' => do r' <- decrement_from k' r ; Ok (c :: r')
      end
  end.

(** RemoveCut (94-121) with an argument outside the registry's own storage. *)
Definition RemoveCut (g : registry) (i : Z) : outcome registry :=
  if (i <? 0) || (num_cuts g <=? i) then UB
  else
    let act := erase_first (active_cuts g) i in
    do cs <- decrement_from (Z.to_nat i) (erase_at (cuts g) (Z.to_nat i)) ;
    Ok (mkReg cs (map (fun j => if i <? j then j - 1 else j) act)).

(** The last loop (116-120) when [cut_index] is a reference to slot [k] of the array it
    walks over: every comparison reads the slot again. *)
Fixpoint decrement_alias (n : nat) (pos k : nat) (l : list Z) : outcome (list Z) :=
  match n with
  | O => Ok l
  | S n' =>
      do i <- at_ l (Z.of_nat k) ;
      do j <- at_ l (Z.of_nat pos) ;
      decrement_alias n' (S pos) k (if i <? j then update l pos (j - 1) else l)
  end.

(** RemoveCut(active_cuts()[k]): the parameter is a const reference into
    active_cut_indices_.  After the erase it denotes the next element; if there is none,
    reading it is undefined. *)
Definition RemoveCutAlias (g : registry) (k : nat) : outcome registry :=
  do i <- at_ (active_cuts g) (Z.of_nat k) ;
  if (i <? 0) || (num_cuts g <=? i) then UB
  else
    let cs := erase_at (cuts g) (Z.to_nat i) in
    let act := erase_first (active_cuts g) i in
    do i' <- at_ act (Z.of_nat k) ;
    do cs' <- (if i' <? 0 then UB else decrement_from (Z.to_nat i') cs) ;
    do act' <- decrement_alias (length act) 0 k act ;
    Ok (mkReg cs' act').

(** GetCut (124-128). *)
Definition GetCut (g : registry) (i : Z) : outcome cut := at_ (cuts g) i.

(** UpdateCutEfficacy (130-136). *)
Definition UpdateCutEfficacy (g : registry) (x : svec num_double) : registry :=
  mkReg (map (fun c => SetEfficacy c (ComputeEfficacy (row c) (right_hand_side c) x)) (cuts g))
    (active_cuts g).

(** The calls that change a registry. *)
Inductive rop :=
| RAdd (c : cut)
| RActivate (i : Z)
| RRemove (i : Z)
| REfficacy (x : svec num_double).

Definition rstep (g : registry) (o : rop) : outcome registry :=
  match o with
  | RAdd c => Ok (fst (AddCut g c))
  | RActivate i => Ok (ActivateCut g i)
  | RRemove i => RemoveCut g i
  | REfficacy x => Ok (UpdateCutEfficacy g x)
  end.
Definition rrun (g : registry) (ops : list rop) : outcome registry := foldM rstep g ops.
