(** Model of minimip/data_structures/strong_sparse_matrix.{h,cc}. *)
From Coq Require Import List ZArith Lia Bool.
From Verif Require Import Outcome Num SparseVector.
Import ListNotations.
Open Scope Z_scope.

Section SparseMatrix.
Context {N : Num}.

(** strong_sparse_matrix.h:122-136 *)
Inductive consistency := UpToDate | RowsNeed | ColsNeed.

(** strong_sparse_matrix.h:175-180; the mutable caches are part of the state. *)
Record smat := mkM { cols : list (svec N); rows : list (svec N); cons : consistency }.

(** Constructors (.h:39-42). *)
Definition mat_new (nc nr : nat) : smat := mkM (repeat vempty nc) (repeat vempty nr) UpToDate.

(** num_cols, num_rows (.h:58-59). *)
Definition num_cols (m : smat) : Z := Z.of_nat (length (cols m)).
Definition num_rows (m : smat) : Z := Z.of_nat (length (rows m)).

(** rows_need_recomputation, cols_need_recomputation (.h:94-102). *)
Definition rows_need (m : smat) : bool := match cons m with RowsNeed => true | _ => false end.
Definition cols_need (m : smat) : bool := match cons m with ColsNeed => true | _ => false end.

(** The inner loop of PopulateFromTranspose (.h:157-161): append entry (i, value) to
    target[e.index] for every entry e; the index bounds are only DCHECKed. *)
Definition scatter (i : Z) (target : list (svec N)) (l : list (entry N)) : outcome (list (svec N)) :=
  foldM (fun tg e => do v <- at_ tg (idx e) ; set_at tg (idx e) (AddEntry v i (val e))) target l.

(** The outer loop (.h:155-162), from transpose index [i] on; returns the targets and
    the cleaned transposes. *)
Fixpoint transpose_loop (i : Z) (transpose : list (svec N)) (target : list (svec N))
  : outcome (list (svec N) * list (svec N)) :=
  match transpose with
  | [] => Ok (target, [])
  | t :: r =>
      let t' := CleanUp t in
      do tg <- scatter i target (ents t') ;
      do x <- transpose_loop (i + 1) r tg ;
      Ok (fst x, t' :: snd x)
  end.

(** PopulateFromTranspose (.h:144-166). *)
Definition from_transpose (target transpose : list (svec N))
  : outcome (list (svec N) * list (svec N)) :=
  transpose_loop 0 transpose (map Clear target).

(** RecomputeRowsFromColsIfNeeded (.cc:193-198). *)
Definition recompute_rows (m : smat) : outcome smat :=
  if rows_need m then
    do x <- from_transpose (rows m) (cols m) ; Ok (mkM (snd x) (fst x) UpToDate)
  else Ok m.

(** RecomputeColsFromRowsIfNeeded (.cc:200-205). *)
Definition recompute_cols (m : smat) : outcome smat :=
  if cols_need m then
    do x <- from_transpose (cols m) (rows m) ; Ok (mkM (fst x) (snd x) UpToDate)
  else Ok m.

(** row (.cc:31-37): the returned vector and the new state of the caches. *)
Definition row (m : smat) (r : Z) : outcome (svec N * smat) :=
  do m1 <- recompute_rows m ;
  do v <- at_ (rows m1) r ;
  do rs <- set_at (rows m1) r (CleanUp v) ;
  Ok (CleanUp v, mkM (cols m1) rs (cons m1)).

(** col (.cc:39-45). *)
Definition col (m : smat) (c : Z) : outcome (svec N * smat) :=
  do m1 <- recompute_cols m ;
  do v <- at_ (cols m1) c ;
  do cs <- set_at (cols m1) c (CleanUp v) ;
  Ok (CleanUp v, mkM cs (rows m1) (cons m1)).

(** GetCoefficient (.cc:47-72).  Reads of rows_ / cols_ happen only where the C++
    short-circuit evaluation performs them. *)
Definition GetCoefficient (m : smat) (c r : Z) : outcome (N * smat) :=
  let from_cols :=
    do v <- at_ (cols m) c ;
    do cs <- set_at (cols m) c (CleanUp v) ;
    Ok (value (CleanUp v) r, mkM cs (rows m) (cons m)) in
  let from_rows :=
    do v <- at_ (rows m) r ;
    do rs <- set_at (rows m) r (CleanUp v) ;
    Ok (value (CleanUp v) c, mkM (cols m) rs (cons m)) in
  let second :=
    if negb (cols_need m) then
      do v <- at_ (cols m) c ;
      if negb (MayNeedCleaning v) then Ok (value v r, m)
      else if negb (rows_need m) then from_rows else from_cols
    else if negb (rows_need m) then from_rows else from_cols in
  if negb (rows_need m) then
    do v <- at_ (rows m) r ;
    if negb (MayNeedCleaning v) then Ok (value v c, m) else second
  else second.

(** SetCoefficient (.cc:74-83). *)
Definition SetCoefficient (m : smat) (c r : Z) (x : N) : outcome smat :=
  do rv <- at_ (rows m) r ;
  do rs <- set_at (rows m) r (AddEntry rv c x) ;
  do cv <- at_ (cols m) c ;
  do cs <- set_at (cols m) c (AddEntry cv r x) ;
  Ok (mkM cs rs (cons m)).

(** PopulateCol (.cc:85-96); the range of the entries is only DCHECKed. *)
Definition PopulateCol (m : smat) (c : Z) (data : svec N) : outcome smat :=
  do m1 <- recompute_cols m ;
  do cs <- set_at (cols m1) c (CleanUp data) ;
  Ok (mkM cs (rows m1) RowsNeed).

(** PopulateRow (.cc:98-110). *)
Definition PopulateRow (m : smat) (r : Z) (data : svec N) : outcome smat :=
  do m1 <- recompute_rows m ;
  do rs <- set_at (rows m1) r (CleanUp data) ;
  Ok (mkM (cols m1) rs ColsNeed).

(** Clear (.h:87-92). *)
Definition MClear (m : smat) : smat := mkM [] [] UpToDate.

(** Resize (.cc:112-191).  Dimensions are naturals (a negative size would make
    vector::resize throw). *)
Definition Resize (m : smat) (nc nr : nat) : outcome smat :=
  if ((nc =? 0) && (nr =? 0))%nat then Ok (MClear m)
  else if (nr =? 0)%nat then
    Ok (mkM (map Clear (resize (cols m) nc vempty)) [] UpToDate)
  else if (nc =? 0)%nat then
    Ok (mkM [] (map Clear (resize (rows m) nr vempty)) UpToDate)
  else
    let m1 := if (length (rows m) <=? nr)%nat
              then mkM (cols m) (resize (rows m) nr vempty) (cons m) else m in
    let m2 := if (length (cols m1) <=? nc)%nat
              then mkM (resize (cols m1) nc vempty) (rows m1) (cons m1) else m1 in
    let rows_eq := (nr =? length (rows m2))%nat in
    let cols_eq := (nc =? length (cols m2))%nat in
    if rows_eq && cols_eq then Ok m2
    else if (nr <? length (rows m2))%nat && cols_eq then
      do m3 <- recompute_rows m2 ;
      Ok (mkM (cols m3) (resize (rows m3) nr vempty) ColsNeed)
    else if (nc <? length (cols m2))%nat && rows_eq then
      do m3 <- recompute_cols m2 ;
      Ok (mkM (resize (cols m3) nc vempty) (rows m3) RowsNeed)
    else if negb (cols_need m2) then
      do m3 <- recompute_rows (mkM (resize (cols m2) nc vempty) (rows m2) RowsNeed) ;
      Ok (mkM (cols m3) (resize (rows m3) nr vempty) ColsNeed)
    else
      do m3 <- recompute_cols (mkM (cols m2) (resize (rows m2) nr vempty) ColsNeed) ;
      Ok (mkM (resize (cols m3) nc vempty) (rows m3) RowsNeed).

(** Calls, for histories; the read-only getters are calls too. *)
Inductive mop :=
| MSet (c r : Z) (x : N)
| MPopRow (r : Z) (data : svec N)
| MPopCol (c : Z) (data : svec N)
| MResize (nc nr : nat)
| MClearOp
| MRow (r : Z)
| MCol (c : Z)
| MGet (c r : Z).

Definition mstep (m : smat) (o : mop) : outcome smat :=
  match o with
  | MSet c r x => SetCoefficient m c r x
  | MPopRow r data => PopulateRow m r data
  | MPopCol c data => PopulateCol m c data
  | MResize nc nr => Resize m nc nr
  | MClearOp => Ok (MClear m)
  | MRow r => do x <- row m r ; Ok (snd x)
  | MCol c => do x <- col m c ; Ok (snd x)
  | MGet c r => do x <- GetCoefficient m c r ; Ok (snd x)
  end.

Definition mrun (m : smat) (ops : list mop) : outcome smat := foldM mstep m ops.

End SparseMatrix.
Arguments smat N : clear implicits.
Arguments mop N : clear implicits.
