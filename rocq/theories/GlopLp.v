(** Model of minimip/lp_interface/lpi_glop.cc: the LP held by the interface, its edits and
    getters.

    glop::LinearProgram is not part of the repository.  It is modelled by the columns, rows
    and coefficient lists its header documents: a column keeps its coefficients as a list of
    (row, value) entries, SetCoefficient appends an entry, LookUpValue returns the last entry
    of a row.  Glop grows the LP on an out-of-range index in some of its setters; here an
    out-of-range index is undefined, as the interface only DCHECKs it. *)
From Coq Require Import String List ZArith Bool.
From Verif Require Import Outcome Num Double SparseVector SparseMatrix Problem MipData.
Import ListNotations.
Open Scope Z_scope.

Record gcol := mkGCol {
  g_lb : double; g_ub : double; g_obj : double; g_cname : string;
  g_entries : list (entry num_double) }.
Record grow := mkGRow { g_lhs : double; g_rhs : double; g_rname : string }.
Record glop_lp := mkLp { g_cols : list gcol; g_rows : list grow; g_max : bool }.

Definition lp_new : glop_lp := mkLp [] [] false.
Definition ncols (p : glop_lp) : Z := Z.of_nat (length (g_cols p)).
Definition nrows (p : glop_lp) : Z := Z.of_nat (length (g_rows p)).

(** *** glop::LinearProgram *)
Definition change {B} (l : list B) (i : Z) (f : B -> B) : outcome (list B) :=
  do x <- at_ l i ; set_at l i (f x).

(** CreateNewVariable: bounds [0, inf), cost 0, no coefficients.  CreateNewConstraint: sides 0. *)
Definition CreateNewVariable (p : glop_lp) : glop_lp :=
  mkLp (g_cols p ++ [mkGCol d0 dinf d0 EmptyString []]) (g_rows p) (g_max p).
Definition CreateNewConstraint (p : glop_lp) : glop_lp :=
  mkLp (g_cols p) (g_rows p ++ [mkGRow d0 d0 EmptyString]) (g_max p).

Definition on_col (p : glop_lp) (c : Z) (f : gcol -> gcol) : outcome glop_lp :=
  do cs <- change (g_cols p) c f ; Ok (mkLp cs (g_rows p) (g_max p)).
Definition on_row (p : glop_lp) (r : Z) (f : grow -> grow) : outcome glop_lp :=
  do rs <- change (g_rows p) r f ; Ok (mkLp (g_cols p) rs (g_max p)).

Definition SetVariableBounds (p : glop_lp) (c : Z) (lo hi : double) : outcome glop_lp :=
  on_col p c (fun g => mkGCol lo hi (g_obj g) (g_cname g) (g_entries g)).
Definition SetObjective (p : glop_lp) (c : Z) (x : double) : outcome glop_lp :=
  on_col p c (fun g => mkGCol (g_lb g) (g_ub g) x (g_cname g) (g_entries g)).
Definition SetVariableName (p : glop_lp) (c : Z) (s : string) : outcome glop_lp :=
  on_col p c (fun g => mkGCol (g_lb g) (g_ub g) (g_obj g) s (g_entries g)).
Definition SetConstraintBounds (p : glop_lp) (r : Z) (lo hi : double) : outcome glop_lp :=
  on_row p r (fun g => mkGRow lo hi (g_rname g)).
Definition SetConstraintName (p : glop_lp) (r : Z) (s : string) : outcome glop_lp :=
  on_row p r (fun g => mkGRow (g_lhs g) (g_rhs g) s).
Definition LpSetCoefficient (p : glop_lp) (r c : Z) (x : double) : outcome glop_lp :=
  do _ <- at_ (g_rows p) r ;
  on_col p c (fun g => mkGCol (g_lb g) (g_ub g) (g_obj g) (g_cname g)
                         (g_entries g ++ [mkE r (x : num_double)])).

(** The elements whose flag is false. *)
Fixpoint kept {B} (mask : list bool) (l : list B) : list B :=
  match mask, l with
  | b :: m, x :: r => if (b : bool) then kept m r else x :: kept m r
  | _, _ => []
  end.
(** The new index of each row, -1 for a deleted one; [k] is the next free index. *)
Fixpoint new_index (k : Z) (mask : list bool) : list Z :=
  match mask with
  | [] => []
  | b :: m => if (b : bool) then -1 :: new_index k m else k :: new_index (k + 1) m
  end.
(** SparseColumn::ApplyPartialRowPermutation: drop or renumber each entry. *)
Fixpoint renumber (perm : list Z) (l : list (entry num_double)) : outcome (list (entry num_double)) :=
  match l with
  | [] => Ok []
  | e :: r => do k <- at_ perm (idx e) ;
              do r' <- renumber perm r ;
              Ok (if k =? -1 then r' else mkE k (val e) :: r')
  end.
Fixpoint renumber_cols (perm : list Z) (l : list gcol) : outcome (list gcol) :=
  match l with
  | [] => Ok []
  | g :: r => do es <- renumber perm (g_entries g) ;
              do r' <- renumber_cols perm r ;
              Ok (mkGCol (g_lb g) (g_ub g) (g_obj g) (g_cname g) es :: r')
  end.
Definition lp_delete_cols (p : glop_lp) (mask : list bool) : glop_lp :=
  mkLp (kept mask (g_cols p)) (g_rows p) (g_max p).
Definition lp_delete_rows (p : glop_lp) (mask : list bool) : outcome glop_lp :=
  do cs <- renumber_cols (new_index 0 mask) (g_cols p) ;
  Ok (mkLp cs (kept mask (g_rows p)) (g_max p)).

(** *** The interface *)
(** The loop over the entries of an added column (203-209) or row (271-277). *)
Definition set_col_entries (p : glop_lp) (c : Z) (v : svec num_double) : outcome glop_lp :=
  foldM (fun p (e : entry num_double) => LpSetCoefficient p (idx e) c (val e)) p (ents v).
Definition set_row_entries (p : glop_lp) (r : Z) (v : svec num_double) : outcome glop_lp :=
  foldM (fun p (e : entry num_double) => LpSetCoefficient p r (idx e) (val e)) p (ents v).

(** AddColumn (185-213). *)
Definition AddColumn (p : glop_lp) (v : svec num_double) (lo hi obj : double) (s : string)
  : outcome glop_lp :=
  let c := ncols p in
  do p <- SetVariableBounds (CreateNewVariable p) c lo hi ;
  do p <- SetObjective p c obj ;
  do p <- SetVariableName p c s ;
  set_col_entries p c v.

(** AddRow (254-281). *)
Definition AddRow (p : glop_lp) (v : svec num_double) (lo hi : double) (s : string)
  : outcome glop_lp :=
  let r := nrows p in
  do p <- SetConstraintBounds (CreateNewConstraint p) r lo hi ;
  do p <- SetConstraintName p r s ;
  set_row_entries p r v.

(** AddRows (283-297); the lengths are only DCHECKed, reading past the end is undefined. *)
Fixpoint add_rows_loop (n : nat) (k : Z) (p : glop_lp) (vs : list (svec num_double))
  (los his : list double) (ss : list string) : outcome glop_lp :=
  match n with
  | O => Ok p
  | S n' =>
      do v <- at_ vs k ; do lo <- at_ los k ; do hi <- at_ his k ; do s <- at_ ss k ;
      do p <- AddRow p v lo hi s ;
      add_rows_loop n' (k + 1) p vs los his ss
  end.
Definition AddRows (p : glop_lp) vs los his ss : outcome glop_lp :=
  add_rows_loop (length vs) 0 p vs los his ss.

(** AddColumns (215-232), given the columns of the matrix. *)
Fixpoint add_columns_loop (n : nat) (k : Z) (p : glop_lp) (vs : list (svec num_double))
  (los his objs : list double) (ss : list string) : outcome glop_lp :=
  match n with
  | O => Ok p
  | S n' =>
      do v <- at_ vs k ; do lo <- at_ los k ; do hi <- at_ his k ; do obj <- at_ objs k ;
      do s <- at_ ss k ;
      do p <- AddColumn p v lo hi obj s ;
      add_columns_loop n' (k + 1) p vs los his objs ss
  end.
Definition AddColumns (p : glop_lp) vs los his objs ss : outcome glop_lp :=
  add_columns_loop (length vs) 0 p vs los his objs ss.

(** The loop that marks a range (244-247, 308-311). *)
Fixpoint mark (n : nat) (k : Z) (mask : list bool) : outcome (list bool) :=
  match n with
  | O => Ok mask
  | S n' => do m <- set_at mask k true ; mark n' (k + 1) m
  end.
Definition range_mask (size : nat) (first last : Z) : outcome (list bool) :=
  mark (Z.to_nat (last - first + 1)) first (repeat false size).

(** DeleteColumns (234-252). *)
Definition DeleteColumns (p : glop_lp) (first last : Z) : outcome glop_lp :=
  do mask <- range_mask (length (g_cols p)) first last ;
  Ok (lp_delete_cols p mask).

(** The mapping computed by DeleteRowSet (323-333), one flag per row. *)
Fixpoint mapping_loop (n : nat) (row next : Z) (mask : list bool) (m : list Z)
  : outcome (list Z) :=
  match n with
  | O => Ok m
  | S n' =>
      do b <- at_ mask row ;
      if (b : bool) then do m <- set_at m row (-1) ; mapping_loop n' (row + 1) next mask m
      else do m <- set_at m row next ; mapping_loop n' (row + 1) (next + 1) mask m
  end.
Definition row_mapping (p : glop_lp) (mask : list bool) : outcome (list Z) :=
  mapping_loop (length (g_rows p)) 0 0 mask (repeat 0 (length mask)).

(** Setters (379-430). *)
Definition SetColumnBounds (p : glop_lp) (c : Z) (lo hi : double) : outcome glop_lp :=
  SetVariableBounds p c lo hi.
Definition SetRowSides (p : glop_lp) (r : Z) (lo hi : double) : outcome glop_lp :=
  SetConstraintBounds p r lo hi.
Definition SetObjectiveSense (p : glop_lp) (b : bool) : glop_lp := mkLp (g_cols p) (g_rows p) b.
Definition SetObjectiveCoefficient (p : glop_lp) (c : Z) (x : double) : outcome glop_lp :=
  SetObjective p c x.

(** *** Getters (436-538).  CHECKed getters abort on a wrong index. *)
Definition GetNumberOfNonZeros (p : glop_lp) : Z :=
  fold_right (fun g n => Z.of_nat (length (g_entries g)) + n) 0 (g_cols p).

Definition collect (l : list (entry num_double)) : svec num_double :=
  fold_left (fun v e => AddEntry v (idx e) (val e)) l
    (CleanUp (mkV (repeat (mkE (-1) (n0 : num_double)) (length l)) true)).

(** 456-472 *)
Definition GetSparseColumn (p : glop_lp) (c : Z) : outcome (svec num_double) :=
  do g <- at_ (g_cols p) c ; Ok (collect (g_entries g)).

(** Row [r] of GetTransposeSparseMatrix(): column by column, the entries of that row. *)
Fixpoint transposed_row (c r : Z) (l : list gcol) : list (entry num_double) :=
  match l with
  | [] => []
  | g :: rest =>
      map (fun e => mkE c (val e)) (filter (fun e : entry num_double => idx e =? r) (g_entries g))
        ++ transposed_row (c + 1) r rest
  end.
(** 474-492 *)
Definition GetSparseRow (p : glop_lp) (r : Z) : outcome (svec num_double) :=
  do _ <- at_ (g_rows p) r ; Ok (collect (transposed_row 0 r (g_cols p))).

Definition checked {B} (l : list B) (i : Z) : outcome B :=
  do _ <- check ((0 <=? i) && (i <? Z.of_nat (length l))) ; at_ l i.
Definition GetObjectiveCoefficient (p : glop_lp) (c : Z) : outcome double :=
  do g <- checked (g_cols p) c ; Ok (g_obj g).
Definition GetLowerBound (p : glop_lp) (c : Z) : outcome double :=
  do g <- checked (g_cols p) c ; Ok (g_lb g).
Definition GetUpperBound (p : glop_lp) (c : Z) : outcome double :=
  do g <- checked (g_cols p) c ; Ok (g_ub g).
Definition GetLeftHandSide (p : glop_lp) (r : Z) : outcome double :=
  do g <- checked (g_rows p) r ; Ok (g_lhs g).
Definition GetRightHandSide (p : glop_lp) (r : Z) : outcome double :=
  do g <- checked (g_rows p) r ; Ok (g_rhs g).

(** SparseColumn::LookUpCoefficient: the last entry with that row, 0.0 if none. *)
Definition LookUp (l : list (entry num_double)) (r : Z) : double :=
  fold_left (fun (x : double) (e : entry num_double) => if idx e =? r then val e else x) l d0.
(** 529-538 *)
Definition GetMatrixCoefficient (p : glop_lp) (c r : Z) : outcome double :=
  do g <- checked (g_cols p) c ; do _ <- checked (g_rows p) r ; Ok (LookUp (g_entries g) r).

(** PopulateFromMipData (159-183).  Reading a column of the matrix may rebuild the matrix's
    column view; the cache is threaded through. *)
Fixpoint populate_rows (n : nat) (k : Z) (p : glop_lp) (d : mip_data) : outcome glop_lp :=
  match n with
  | O => Ok p
  | S n' =>
      do lo <- at_ (left_hand_sides d) k ; do hi <- at_ (right_hand_sides d) k ;
      do s <- at_ (constraint_names d) k ;
      do p <- AddRow p vempty lo hi s ;
      populate_rows n' (k + 1) p d
  end.
Fixpoint populate_cols (n : nat) (k : Z) (m : smat num_double) (p : glop_lp) (d : mip_data)
  : outcome glop_lp :=
  match n with
  | O => Ok p
  | S n' =>
      do vm <- col m k ;
      do lo <- at_ (lower_bounds d) k ; do hi <- at_ (upper_bounds d) k ;
      do s <- at_ (variable_names d) k ;
      do p <- AddColumn p (fst vm) lo hi (value (objective d) k) s ;
      populate_cols n' (k + 1) (snd vm) p d
  end.
Definition PopulateFromMipData (d : mip_data) : outcome glop_lp :=
  do p <- populate_rows (length (left_hand_sides d)) 0 lp_new d ;
  do p <- populate_cols (length (cols (matrix d))) 0 (matrix d) p d ;
  Ok (SetObjectiveSense p false).
