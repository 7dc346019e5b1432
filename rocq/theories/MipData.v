(** Model of minimip/data_structures/mip_data.{h,cc}. *)
From Coq Require Import String List ZArith Bool.
From Verif Require Import Outcome Num Double SparseVector SparseMatrix Problem.
Import ListNotations.
Open Scope Z_scope.

(** IsIntegralCoefficient (mip_data.cc:20-22). *)
Definition IsIntegralCoefficient (x : double) : bool := deqb x (dround x).

(** The data members (mip_data.h:109-125).  [integer_variables] is a hash set, kept as a
    list without duplicates; [variable_types] only distinguishes kInteger from
    kFractional, the other two values being never assigned. *)
Record mip_data := mkData {
  problem_name : string;
  was_maximization : bool;
  objective_offset : double;
  objective : svec num_double;
  hints : list hint;
  variable_names : list string;
  lower_bounds : list double;
  upper_bounds : list double;
  integer_variables : list Z;
  variable_is_integer : list bool;
  constraint_names : list string;
  left_hand_sides : list double;
  right_hand_sides : list double;
  is_integral_constraint : list bool;
  matrix : smat num_double }.

(** flat_hash_set::insert *)
Definition set_insert (l : list Z) (i : Z) : list Z :=
  if existsb (Z.eqb i) l then l else l ++ [i].

(** The loop over the variables (mip_data.cc:50-73), for the integer set, the CHECK and
    the objective; names, bounds and types are assigned position by position and modelled
    by [map] in [MipData] below. *)
Fixpoint load_vars (i : Z) (l : list variable) (ints : list Z) (obj : svec num_double)
  : outcome (list Z * svec num_double) :=
  match l with
  | [] => Ok (ints, obj)
  | v :: r =>
      do ints' <- (if v_int v
                   then do _ <- check (dleb (v_lb v) (v_ub v)) ; Ok (set_insert ints i)
                   else Ok ints) ;
      let obj' := if negb (deqb (v_obj v) d0) then AddEntry obj i (v_obj v : num_double) else obj in
      load_vars (i + 1) r ints' obj'
  end.

(** The loop that collects a constraint's entries (mip_data.cc:87-91); coefficients[k] is
    read for every k below var_indices.size(). *)
Fixpoint load_entries (k : Z) (is : list Z) (coefs : list double) (v : svec num_double)
  : outcome (svec num_double) :=
  match is with
  | [] => Ok v
  | i :: r => do x <- at_ coefs k ; load_entries (k + 1) r coefs (AddEntry v i (x : num_double))
  end.

(** The value stored in is_integral_constraint_ (mip_data.cc:92-97). *)
Definition row_is_integral (ints : list Z) (v : svec num_double) : bool :=
  forallb (fun e : entry num_double => IsIntegralCoefficient (val e) && existsb (Z.eqb (idx e)) ints) (ents v).

(** The loop over the constraints (mip_data.cc:81-99). *)
Fixpoint load_cons (r : Z) (l : list constraint) (ints : list Z) (flags : list bool)
  (m : smat num_double) : outcome (list bool * smat num_double) :=
  match l with
  | [] => Ok (flags, m)
  | c :: rest =>
      do v <- load_entries 0 (c_idx c) (c_coef c) vempty ;
      do m' <- PopulateRow m r v ;
      load_cons (r + 1) rest ints (flags ++ [row_is_integral ints v]) m'
  end.

(** The loop that inserts the integer variables again (mip_data.cc:103-107). *)
Fixpoint reinsert (i : Z) (types : list bool) (ints : list Z) : list Z :=
  match types with
  | [] => ints
  | b :: r => reinsert (i + 1) r (if b then set_insert ints i else ints)
  end.

(** MipData::MipData(const MiniMipProblem&) (mip_data.cc:31-112); the DCHECK of
    FindErrorInMiniMipProblem is not executed. *)
Definition MipData (p : problem) : outcome mip_data :=
  do x <- load_vars 0 (p_vars p) [] vempty ;
  let obj := CleanUp (snd x) in
  do y <- load_cons 0 (p_cons p) (fst x) [] (mat_new (length (p_vars p)) (length (p_cons p))) ;
  let types := map v_int (p_vars p) in
  Ok (mkData (p_name p) (p_max p)
        (if p_max p then dmul (p_offset p) dm1 else p_offset p)
        (if p_max p then Transform (fun _ v => nopp v) obj else obj)
        (p_hints p)
        (map v_name (p_vars p)) (map v_lb (p_vars p)) (map v_ub (p_vars p))
        (reinsert 0 types (fst x)) types
        (map c_name (p_cons p)) (map c_lhs (p_cons p)) (map c_rhs (p_cons p))
        (fst y) (snd y)).

(** std::all_of with unchecked reads. *)
Fixpoint all_of (f : Z -> outcome bool) (l : list Z) : outcome bool :=
  match l with
  | [] => Ok true
  | i :: r => do b <- f i ; if b then all_of f r else Ok false
  end.

(** The test of one column in SolutionIsIntegral (mip_data.cc:119-123). *)
Definition close_to_integer (x tol : double) : bool := dleb (dabs (dsub x (dround x))) tol.

(** SolutionIsIntegral (mip_data.cc:114-124); [order] is the order in which the hash set
    is iterated, some permutation of [integer_variables]. *)
Definition SolutionIsIntegral (order : list Z) (x : list double) (tol : double) : outcome bool :=
  all_of (fun i => do v <- at_ x i ; Ok (close_to_integer v tol)) order.
