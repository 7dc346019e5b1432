(** Model of minimip/lp_interface/lpi_soplex.cc: the interface object around SoPlex.

    soplex::SoPlex is not part of the repository.  The LP it holds is modelled, as its manual
    documents it, by the same lists of columns and rows as in GlopLp.v: addCol / addRow append,
    the remove functions keep the order of what is left, zero coefficients are not stored and
    names are not kept.  An out-of-range index is undefined (SoPlex asserts it, the interface
    DCHECKs it); SoPlex would create missing rows for a column entry out of range.  Everything
    else - basis, status, solution - is the opaque state of an [spx_engine], about which nothing
    is assumed here.  Memory exceptions thrown by the edit functions are not modelled. *)
From Coq Require Import String List ZArith Bool SpecFloat.
From Verif Require Import Outcome Num Double SparseVector SparseMatrix MipData GlopLp LpParams GlopIface.
Import ListNotations.
Open Scope Z_scope.

(** SPxSolver::Status, SPxBasis::SPxStatus, SPxSolver::VarStatus *)
Inductive spx_status := ST_ERROR | ST_NO_RATIOTESTER | ST_NO_PRICER | ST_NO_SOLVER | ST_NOT_INIT
  | ST_ABORT_CYCLING | ST_ABORT_TIME | ST_ABORT_ITER | ST_ABORT_VALUE | ST_SINGULAR
  | ST_NO_PROBLEM | ST_REGULAR | ST_RUNNING | ST_UNKNOWN | ST_OPTIMAL | ST_UNBOUNDED
  | ST_INFEASIBLE | ST_INForUNBD | ST_OPTIMAL_UNSCALED_VIOLATIONS.
Inductive spx_basis := BS_NO_PROBLEM | BS_SINGULAR | BS_REGULAR | BS_DUAL | BS_PRIMAL | BS_OPTIMAL
  | BS_UNBOUNDED | BS_INFEASIBLE.
Inductive spx_var := X_ON_UPPER | X_ON_LOWER | X_FIXED | X_ZERO | X_BASIC | X_UNDEFINED.

Local Notation ent := (entry num_double).

Record spx_engine := mkSpxEngine {
  X : Type;
  x_new : X;
  x_edit : X -> glop_lp -> X;                    (* after any edit; the new LP is given *)
  x_optimize : X -> spx_params -> bool -> glop_lp -> bool * X;
                                                 (* optimize(): whether it threw; the flag says
                                                    whether the dual simplex was selected *)
  x_status : X -> spx_status;                    (* status() *)
  x_basis : X -> spx_basis;                      (* basisStatus() *)
  x_iterations : X -> Z;                         (* numIterations() *)
  x_time : X -> double;                          (* solveTime() *)
  x_objective : X -> double;                     (* objValueReal() *)
  x_col : X -> Z -> spx_var;                     (* basisColStatus *)
  x_row : X -> Z -> spx_var;                     (* basisRowStatus *)
  x_get_basis : X -> option (list spx_var * list spx_var);  (* rows, columns; None: it threw *)
  x_set_basis : X -> list spx_var -> list spx_var -> bool * X;  (* rows, columns; whether it threw *)
  x_clear_basis : X -> bool * X;                 (* whether it threw *)
  x_order : list ent -> list ent;                (* the order in which a row or column vector
                                                    stores its entries *)
  x_binv_row : X -> Z -> option (list double * list Z * Z);
                                                 (* getBasisInverseRowReal: the two arrays after
                                                    the call, num_indices; None: false *)
  x_binv_times : X -> list double -> option (list double);  (* getBasisInverseTimesVecReal *)
  x_dot : list double -> list ent -> double;     (* Vector * SVector *)
  (* The values written by the getters of the solution; None: false, or it threw. *)
  x_primal : X -> option (Z -> double);          (* getPrimalReal *)
  x_dual : X -> option (Z -> double);            (* getDualReal *)
  x_slacks : X -> option (Z -> double);          (* getSlacksReal *)
  x_redcost : X -> option (Z -> double);         (* getRedCostReal *)
  x_ray : X -> option (Z -> double);             (* getPrimalRayReal *)
  x_farkas : X -> option (Z -> double);          (* getDualFarkasReal *)
  x_has_ray : X -> bool;                         (* hasPrimalRay *)
  x_has_farkas : X -> bool;                      (* hasDualFarkas *)
  x_basis_ind : X -> Z -> Z;                     (* getBasisInd *)
  x_eps_zero : double;                           (* EPSILON_ZERO *)
  x_rules : spx_rules
}.

(** The data members (lpi_soplex.h:246-256).  [s_dual] is the setting ALGORITHM.  The two saved
    arrays are lists of possibly uninitialised elements. *)
Record sstate (E : spx_engine) := mkS {
  s_lp : glop_lp;
  s_x : X E;
  s_params : spx_params;
  s_dual : bool;
  s_scratch : bool;              (* solve_from_scratch_ *)
  s_solved : bool;               (* is_solved_ *)
  s_cols : list (option spx_var);   (* col_basis_status_ *)
  s_rows : list (option spx_var) }. (* row_basis_status_ *)
Arguments mkS {E}. Arguments s_lp {E}. Arguments s_x {E}. Arguments s_params {E}.
Arguments s_dual {E}. Arguments s_scratch {E}. Arguments s_solved {E}.
Arguments s_cols {E}. Arguments s_rows {E}.

(** *** soplex::SoPlex as an LP *)
(** DSVector::add (called in a loop) drops zero values. *)
Definition dsvector (v : svec num_double) : list ent :=
  filter (fun e : ent => negb (is0 (val e))) (ents v).
(** addColReal(LPCol(obj, vector, upper, lower)), addRowReal(LPRow(lhs, vector, rhs)). *)
Definition addColReal (p : glop_lp) (obj : double) (es : list ent) (upper lower : double) : outcome glop_lp :=
  AddColumn p (mkV es false) lower upper obj EmptyString.
Definition addRowReal (p : glop_lp) (lhs : double) (es : list ent) (rhs : double) : outcome glop_lp :=
  AddRow p (mkV es false) lhs rhs EmptyString.
(** removeRowsReal(perm): removes row i iff perm[i] < 0; then perm[i] is the new index. *)
Fixpoint new_perm (n : nat) (k next : Z) (perm : list Z) : outcome (list Z) :=
  match n with
  | O => Ok perm
  | S n' => do x <- at_ perm k ;
            if x <? 0 then new_perm n' (k + 1) next perm
            else do perm <- set_at perm k next ; new_perm n' (k + 1) (next + 1) perm
  end.
Definition removeRowsReal (p : glop_lp) (perm : list Z) : outcome (glop_lp * list Z) :=
  do q <- new_perm (length (g_rows p)) 0 0 perm ;
  do p <- lp_delete_rows p (firstn (length (g_rows p)) (map (fun x => x <? 0) perm)) ;
  Ok (p, q).
(** removeRowRangeReal, removeColRangeReal *)
Definition removeRowRange (p : glop_lp) (first last : Z) : outcome glop_lp :=
  do mask <- range_mask (length (g_rows p)) first last ; lp_delete_rows p mask.
Definition removeColRange (p : glop_lp) (first last : Z) : outcome glop_lp :=
  do mask <- range_mask (length (g_cols p)) first last ; Ok (lp_delete_cols p mask).
(** changeUpperReal, changeLowerReal *)
Definition changeUpper (p : glop_lp) (c : Z) (x : double) : outcome glop_lp :=
  on_col p c (fun g => mkGCol (g_lb g) x (g_obj g) (g_cname g) (g_entries g)).
Definition changeLower (p : glop_lp) (c : Z) (x : double) : outcome glop_lp :=
  on_col p c (fun g => mkGCol x (g_ub g) (g_obj g) (g_cname g) (g_entries g)).

(** The loop of AddColumns (528-543). *)
Fixpoint spx_add_cols (n : nat) (k : Z) (p : glop_lp) (vs : list (svec num_double))
  (los his objs : list double) : outcome glop_lp :=
  match n with
  | O => Ok p
  | S n' =>
      do v <- at_ vs k ; do obj <- at_ objs k ; do lo <- at_ los k ; do hi <- at_ his k ;
      do p <- addColReal p obj (dsvector v) hi lo ;
      spx_add_cols n' (k + 1) p vs los his objs
  end.
(** The loop of AddRows (630-643). *)
Fixpoint spx_add_rows (n : nat) (k : Z) (p : glop_lp) (vs : list (svec num_double))
  (los his : list double) : outcome glop_lp :=
  match n with
  | O => Ok p
  | S n' =>
      do v <- at_ vs k ; do lo <- at_ los k ; do hi <- at_ his k ;
      do p <- addRowReal p lo (dsvector v) hi ;
      spx_add_rows n' (k + 1) p vs los his
  end.
(** PopulateFromMipData (410-456): the empty rows, the dense objective, the columns of the
    matrix (reading one may rebuild the matrix's column view). *)
Fixpoint spx_empty_rows (n : nat) (k : Z) (p : glop_lp) (d : mip_data) : outcome glop_lp :=
  match n with
  | O => Ok p
  | S n' =>
      do lo <- at_ (left_hand_sides d) k ; do hi <- at_ (right_hand_sides d) k ;
      do p <- addRowReal p lo [] hi ;
      spx_empty_rows n' (k + 1) p d
  end.
Definition dense_objective (d : mip_data) : outcome (list double) :=
  foldM (fun l (e : ent) => set_at l (idx e) (val e : double)) (repeat d0 (length (lower_bounds d)))
    (ents (objective d)).
Fixpoint matrix_columns (n : nat) (k : Z) (m : smat num_double) : outcome (list (svec num_double)) :=
  match n with
  | O => Ok []
  | S n' => do vm <- col m k ; do r <- matrix_columns n' (k + 1) (snd vm) ; Ok (fst vm :: r)
  end.
Definition spx_populate (d : mip_data) : outcome glop_lp :=
  do p <- spx_empty_rows (length (left_hand_sides d)) 0 lp_new d ;
  do objs <- dense_objective d ;
  do vs <- matrix_columns (length (cols (matrix d))) 0 (matrix d) ;
  spx_add_cols (length vs) 0 p vs (lower_bounds d) (upper_bounds d) objs.

Section Interface.
Context {E : spx_engine}.
Implicit Type s : sstate E.

(** InvalidateSolution (241-244) *)
Definition invalidated s : sstate E :=
  mkS (s_lp s) (s_x s) (s_params s) (s_dual s) (s_scratch s) false (s_cols s) (s_rows s).
Definition spx_with_x s (x : X E) : sstate E :=
  mkS (s_lp s) x (s_params s) (s_dual s) (s_scratch s) (s_solved s) (s_cols s) (s_rows s).
Definition with_params s (p : spx_params) : sstate E :=
  mkS (s_lp s) (s_x s) p (s_dual s) (s_scratch s) (s_solved s) (s_cols s) (s_rows s).
Definition with_algorithm s (dual : bool) : sstate E :=
  mkS (s_lp s) (s_x s) (s_params s) dual (s_scratch s) (s_solved s) (s_cols s) (s_rows s).
Definition with_saved s (cs rs : list (option spx_var)) : sstate E :=
  mkS (s_lp s) (s_x s) (s_params s) (s_dual s) (s_scratch s) (s_solved s) cs rs.
(** An edit of the LP held by SoPlex. *)
Definition spx_with_lp s (p : glop_lp) : sstate E :=
  mkS p (x_edit E (s_x s) p) (s_params s) (s_dual s) (s_scratch s) (s_solved s) (s_cols s) (s_rows s).

(** PreStrongBranchingBasisFreed (246-249), FreePreStrongBranchingBasis (251-255) *)
Definition freed s : bool :=
  match s_rows s, s_cols s with [], [] => true | _, _ => false end.
Definition free_saved s : sstate E := with_saved s [] [].

(** GetLpParameters, SetLpParameters (1664-1934), see LpParams.v.  The setters run at most
    twice: a rejected set is followed by a set of the old values. *)
Definition SpxGetLpParameters s : lp_params := from_spx (s_params s) (s_scratch s).
Definition SpxSetLpParameters s (p : lp_params) : outcome (sstate E * bool) :=
  do (q, ok) <- SoplexSetLpParameters 2 (x_rules E) (s_scratch s) (s_params s) p ;
  Ok (with_params s q, ok).
(** Constructor (50-64); [p0] are the settings of a new SoPlex object and [maximize] its objective
    sense, which the constructor leaves alone. *)
Definition spx_new (p0 : spx_params) (maximize : bool) : outcome (sstate E) :=
  do (s, ok) <- SpxSetLpParameters (mkS (mkLp [] [] maximize) (x_new E) p0 true false false [] [])
                  (default_params LP_SOPLEX) ;
  do _ <- check ok ;
  Ok s.

(** CheckConsistentBounds, CheckConsistentSides (80-106) *)
Definition CheckConsistentBounds s : bool :=
  forallb (fun g => negb (dltb (dadd (g_ub g) (x_eps_zero E)) (g_lb g))) (g_cols (s_lp s)).
Definition CheckConsistentSides s : bool :=
  forallb (fun g => negb (dltb (dadd (g_rhs g) (x_eps_zero E)) (g_lhs g))) (g_rows (s_lp s)).

Definition is_optimal_status (x : X E) : bool :=
  match x_status E x with ST_OPTIMAL => true | _ => false end.

(** LpSolve (108-149).  setRealParam(TIMELIMIT, ..) keeps the old value if it refuses. *)
Definition with_timelimit (p : spx_params) (t : double) : spx_params :=
  mkSpx (SCALER p) (SIMPLIFIER p) (PRICER p) (FEASTOL p) (OPTTOL p) (MIN_MARKOWITZ p)
    (FACTOR_UPDATE_MAX p) (OBJLIMIT_LOWER p) (OBJLIMIT_UPPER p) (TIMER p) t (ITERLIMIT p)
    (seed p) (debug_output p).
Definition with_iterlimit (p : spx_params) (n : Z) : spx_params :=
  mkSpx (SCALER p) (SIMPLIFIER p) (PRICER p) (FEASTOL p) (OPTTOL p) (MIN_MARKOWITZ p)
    (FACTOR_UPDATE_MAX p) (OBJLIMIT_LOWER p) (OBJLIMIT_UPPER p) (TIMER p) (TIMELIMIT p) n
    (seed p) (debug_output p).
Definition with_simplifier (p : spx_params) (b : bool) : spx_params :=
  mkSpx (SCALER p) b (PRICER p) (FEASTOL p) (OPTTOL p) (MIN_MARKOWITZ p)
    (FACTOR_UPDATE_MAX p) (OBJLIMIT_LOWER p) (OBJLIMIT_UPPER p) (TIMER p) (TIMELIMIT p) (ITERLIMIT p)
    (seed p) (debug_output p).
Definition put_timelimit (p : spx_params) (t : double) : spx_params :=
  with_timelimit p (put (ok_timelimit (x_rules E)) (TIMELIMIT p) t).
Definition put_iterlimit (p : spx_params) (n : Z) : spx_params :=
  with_iterlimit p (put (ok_iterlimit (x_rules E)) (ITERLIMIT p) n).
Definition LpSolve s : outcome (sstate E * spx_status) :=
  do _ <- check (CheckConsistentBounds s) ;
  do _ <- check (CheckConsistentSides s) ;
  let '(threw, x) := x_optimize E (s_x s) (s_params s) (s_dual s) (s_lp s) in
  do _ <- (if (threw : bool) then check (negb (is_optimal_status x)) else Ok tt) ;
  let s := spx_with_x s x in
  let p := s_params s in
  do _ <- check ((ITERLIMIT p <? 0) || (x_iterations E x <=? ITERLIMIT p)) ;
  let limit := TIMELIMIT p in
  let p := if dltb d0 (x_time E x) then put_timelimit p (dmax d0 (dsub limit (x_time E x))) else p in
  do _ <- check (ok_timelimit (x_rules E) limit) ;
  Ok (with_params s (put_timelimit p limit), x_status E x).

(** SoPlexSolve (151-207); the second component says whether the status is OK. *)
Definition SoPlexSolve s : outcome (sstate E * bool) :=
  let s := invalidated s in
  do _ <- check (freed s) ;
  let s := with_params s (with_simplifier (s_params s) false) in
  let '(threw, x) := if s_scratch s then x_clear_basis E (s_x s) else (false, s_x s) in
  let s := spx_with_x s x in
  if (threw : bool)
  then do _ <- check (negb (is_optimal_status x)) ; Ok (s, false)
  else
    do _ <- check (negb (s_scratch s) || match x_status E x with ST_NO_PROBLEM => true | _ => false end) ;
    do (s, st) <- LpSolve s ;
    let s := mkS (s_lp s) (s_x s) (s_params s) (s_dual s) (s_scratch s) true (s_cols s) (s_rows s) in
    Ok (s, match st with
           | ST_ABORT_TIME | ST_ABORT_ITER | ST_ABORT_VALUE | ST_SINGULAR | ST_REGULAR | ST_UNKNOWN
           | ST_OPTIMAL | ST_OPTIMAL_UNSCALED_VIOLATIONS | ST_UNBOUNDED | ST_INFEASIBLE => true
           | _ => false
           end).
(** SolveLpWithPrimalSimplex, SolveLpWithDualSimplex (956-970) *)
Definition SpxSolveLp (dual : bool) s : outcome (sstate E * bool) :=
  SoPlexSolve (with_algorithm s dual).

(** Reading [n] elements of a saved array: past its end or uninitialised is undefined. *)
Fixpoint saved_values (n : nat) (k : Z) (l : list (option spx_var)) : outcome (list spx_var) :=
  match n with
  | O => Ok []
  | S n' => do o <- at_ l k ;
            match o with
            | None => UB
            | Some v => do r <- saved_values n' (k + 1) l ; Ok (v :: r)
            end
  end.
(** setBasis(row_basis_status_, col_basis_status_): whether it threw. *)
Definition set_saved_basis s : outcome (sstate E * bool) :=
  do rs <- saved_values (length (g_rows (s_lp s))) 0 (s_rows s) ;
  do cs <- saved_values (length (g_cols (s_lp s))) 0 (s_cols s) ;
  let '(threw, x) := x_set_basis E (s_x s) rs cs in
  Ok (spx_with_x s x, threw).
(** SavePreStrongbranchingBasis (209-222).  reSize leaves new elements uninitialised; the
    arrays are empty at both call sites. *)
Definition fill (n : nat) (l : list spx_var) : list (option spx_var) :=
  map (fun k => nth_error l k) (seq 0 n).
Definition SavePreStrongbranchingBasis s : outcome (sstate E) :=
  let nr := length (g_rows (s_lp s)) in
  let nc := length (g_cols (s_lp s)) in
  match x_get_basis E (s_x s) with
  | Some (rs, cs) => Ok (with_saved s (fill nc cs) (fill nr rs))
  | None => do _ <- check (negb (is_optimal_status (s_x s))) ;
            Ok (with_saved s (repeat None nc) (repeat None nr))
  end.
(** RestorePreStrongbranchingBasis (224-239) *)
Definition RestorePreStrongbranchingBasis s : outcome (sstate E) :=
  do (s, threw) <- set_saved_basis s ;
  do _ <- (if (threw : bool) then check (negb (is_optimal_status (s_x s))) else Ok tt) ;
  Ok s.
(** StartStrongBranching, EndStrongBranching (972-991) *)
Definition SpxStartStrongBranching s : outcome (sstate E) :=
  do _ <- check (freed s) ; SavePreStrongbranchingBasis s.
Definition SpxEndStrongBranching s : outcome (sstate E) :=
  do _ <- check (negb (freed s)) ;
  do s <- RestorePreStrongbranchingBasis s ;
  Ok (free_saved s).

(** objective_limit() (lpi_soplex.h:227-233) *)
Definition objective_limit s : double :=
  if g_max (s_lp s) then OBJLIMIT_LOWER (s_params s) else OBJLIMIT_UPPER (s_params s).
(** The switch over the status (299-323, 354-377): bound and validity, [None] for an error. *)
Definition judge s : option (double * bool) :=
  match x_status E (s_x s) with
  | ST_OPTIMAL => Some (x_objective E (s_x s), true)
  | ST_ABORT_TIME | ST_ABORT_ITER | ST_ABORT_CYCLING | ST_OPTIMAL_UNSCALED_VIOLATIONS =>
      Some (x_objective E (s_x s), false)
  | ST_ABORT_VALUE | ST_INFEASIBLE => Some (objective_limit s, true)
  | _ => None
  end.
(** One turn of either do-while loop, whose condition is always false: optimize, judge, restore
    the basis.  An exception of optimize() is not caught. *)
Definition branch_solve s (limit : Z) : outcome (sstate E * option (double * bool) * Z) :=
  let s := with_params s (put_iterlimit (s_params s) limit) in
  let '(threw, x) := x_optimize E (s_x s) (s_params s) (s_dual s) (s_lp s) in
  do _ <- check (negb threw) ;
  let s := spx_with_x s x in
  let j := judge s in
  let n := x_iterations E x in
  do _ <- check (negb (freed s)) ;
  do s <- RestorePreStrongbranchingBasis s ;
  Ok (s, j, n).

(** SolveDownAndUpStrongBranch (262-404).  The two bounds of the result are not initialised:
    [r0] is what they hold.  [None] is the error status. *)
Definition SpxSolveDownAndUpStrongBranch (r0 : sb_result) s (c : Z) (v : double) (limit : Z)
  : outcome (sstate E * option sb_result) :=
  let old_iter_limit := ITERLIMIT (s_params s) in
  do g <- at_ (g_cols (s_lp s)) c ;
  let old_lb := g_lb g in
  let old_ub := g_ub g in
  let s := with_algorithm s true in
  let eps := FEASTOL (s_params s) in
  let new_ub := dceil (dsub (dsub v d1) eps) in
  do (s, down, n1) <-
    (if dleb (dsub old_lb half) new_ub
     then do p <- changeUpper (s_lp s) c new_ub ;
          do (s, j, n) <- branch_solve (spx_with_lp s p) limit ;
          do p <- changeUpper (s_lp s) c old_ub ;
          Ok (spx_with_lp s p, j, n)
     else Ok (s, Some (objective_limit s, true), 0)) ;
  let new_lb := dfloor (dsub (dadd v d1) eps) in
  do (s, up, n2) <-
    match down with
    | None => Ok (s, None, 0)
    | Some _ =>
        if dleb new_lb (dadd old_ub half)
        then do p <- changeLower (s_lp s) c new_lb ;
             do (s, j, n) <- branch_solve (spx_with_lp s p) limit ;
             do p <- changeLower (s_lp s) c old_lb ;
             Ok (spx_with_lp s p, j, n)
        else Ok (s, Some (objective_limit s, true), 0)
    end ;
  let s := with_params s (put_iterlimit (s_params s) old_iter_limit) in
  match down, up with
  | Some (d, dv), Some (u, uv) => Ok (s, Some (mkSB (Some d) (Some u) (Some dv) (Some uv) (Some (n1 + n2))))
  | _, _ => Ok (s, None)
  end.

(** *** Getters of the LP (843-950) *)
Definition SpxGetNumberOfNonZeros (p : glop_lp) : Z :=
  if nrows p <? ncols p
  then fold_right (fun r n => Z.of_nat (length (transposed_row 0 (Z.of_nat r) (g_cols p))) + n) 0
         (seq 0 (length (g_rows p)))
  else fold_right (fun g n => Z.of_nat (length (g_entries g)) + n) 0 (g_cols p).
Definition add_all (l : list ent) : svec num_double :=
  fold_left (fun v (e : ent) => AddEntry v (idx e) (val e)) l vempty.
Definition SpxGetSparseColumn (p : glop_lp) (c : Z) : outcome (svec num_double) :=
  do g <- at_ (g_cols p) c ; Ok (CleanUp (add_all (x_order E (g_entries g)))).
Definition SpxGetSparseRow (p : glop_lp) (r : Z) : outcome (svec num_double) :=
  do _ <- at_ (g_rows p) r ; Ok (add_all (x_order E (transposed_row 0 r (g_cols p)))).
Definition SpxGetObjectiveCoefficient (p : glop_lp) (c : Z) : outcome double :=
  do g <- at_ (g_cols p) c ; Ok (g_obj g).
Definition SpxGetLowerBound (p : glop_lp) (c : Z) : outcome double :=
  do g <- at_ (g_cols p) c ; Ok (g_lb g).
Definition SpxGetUpperBound (p : glop_lp) (c : Z) : outcome double :=
  do g <- at_ (g_cols p) c ; Ok (g_ub g).
Definition SpxGetLeftHandSide (p : glop_lp) (r : Z) : outcome double :=
  do g <- at_ (g_rows p) r ; Ok (g_lhs g).
Definition SpxGetRightHandSide (p : glop_lp) (r : Z) : outcome double :=
  do g <- at_ (g_rows p) r ; Ok (g_rhs g).
(** coefReal(row, col) looks the row up in the column vector. *)
Definition SpxGetMatrixCoefficient (p : glop_lp) (c r : Z) : outcome double :=
  do g <- at_ (g_cols p) c ; do _ <- at_ (g_rows p) r ;
  Ok (match find (fun e : ent => idx e =? r) (x_order E (g_entries g)) with
      | Some e => val e | None => d0 end).

(** *** Status (999-1125) *)
Definition SpxIsSolved s : bool := s_solved s.
Definition st_is (t : spx_status) s : bool :=
  match t, x_status E (s_x s) with
  | ST_UNBOUNDED, ST_UNBOUNDED | ST_INFEASIBLE, ST_INFEASIBLE | ST_OPTIMAL, ST_OPTIMAL
  | ST_ERROR, ST_ERROR | ST_SINGULAR, ST_SINGULAR | ST_ABORT_VALUE, ST_ABORT_VALUE
  | ST_ABORT_ITER, ST_ABORT_ITER | ST_ABORT_TIME, ST_ABORT_TIME
  | ST_OPTIMAL_UNSCALED_VIOLATIONS, ST_OPTIMAL_UNSCALED_VIOLATIONS => true
  | _, _ => false
  end.
Definition bs_is (t : spx_basis) s : bool :=
  match t, x_basis E (s_x s) with
  | BS_OPTIMAL, BS_OPTIMAL | BS_PRIMAL, BS_PRIMAL | BS_DUAL, BS_DUAL => true
  | _, _ => false
  end.
Definition SpxExistsPrimalRay s := st_is ST_UNBOUNDED s.
Definition SpxIsPrimalUnbounded s := st_is ST_UNBOUNDED s.
Definition SpxIsPrimalInfeasible s := st_is ST_INFEASIBLE s.
Definition SpxIsPrimalFeasible s := bs_is BS_OPTIMAL s || bs_is BS_PRIMAL s.
Definition SpxExistsDualRay s := st_is ST_INFEASIBLE s.
Definition SpxIsDualUnbounded s := st_is ST_INFEASIBLE s && bs_is BS_DUAL s.
Definition SpxIsDualInfeasible s := st_is ST_UNBOUNDED s.
Definition SpxIsDualFeasible s := bs_is BS_OPTIMAL s || bs_is BS_DUAL s.
Definition SpxIsOptimal s : outcome bool :=
  do _ <- check (Bool.eqb (bs_is BS_OPTIMAL s) (SpxIsPrimalFeasible s && SpxIsDualFeasible s)) ;
  Ok (st_is ST_OPTIMAL s).
Definition SpxIsStable s : bool :=
  if st_is ST_ERROR s || st_is ST_SINGULAR s then false
  else if st_is ST_OPTIMAL_UNSCALED_VIOLATIONS s then false else true.
Definition SpxObjectiveLimitIsExceeded s := st_is ST_ABORT_VALUE s.
Definition SpxIterationLimitIsExceeded s := st_is ST_ABORT_ITER s.
Definition SpxTimeLimitIsExceeded s := st_is ST_ABORT_TIME s.
Definition SpxGetNumIterations s : Z := x_iterations E (s_x s).
Definition SpxGetObjectiveValue s : double := x_objective E (s_x s).

(** *** Solution (1131-1290).  The vectors have one element per column or row; the getters fill all
    of them. *)
Definition spx_vector (n : nat) (o : option (Z -> double)) : outcome (list double) :=
  match o with
  | None => Err Internal
  | Some f => Ok (map (fun k => f (Z.of_nat k)) (seq 0 n))
  end.
Definition spx_n_cols s : nat := length (g_cols (s_lp s)).
Definition spx_n_rows s : nat := length (g_rows (s_lp s)).
Definition SpxGetPrimalValues s : outcome (list double) :=
  do o <- SpxIsOptimal s ; do _ <- check o ; spx_vector (spx_n_cols s) (x_primal E (s_x s)).
Definition SpxGetDualValues s : outcome (list double) :=
  do o <- SpxIsOptimal s ; do _ <- check o ; spx_vector (spx_n_rows s) (x_dual E (s_x s)).
Definition SpxGetRowActivities s : outcome (list double) := spx_vector (spx_n_rows s) (x_slacks E (s_x s)).
Definition SpxGetReducedCosts s : outcome (list double) := spx_vector (spx_n_cols s) (x_redcost E (s_x s)).
Definition SpxGetPrimalRay s : outcome (list double) :=
  do _ <- check (x_has_ray E (s_x s)) ; spx_vector (spx_n_cols s) (x_ray E (s_x s)).
Definition SpxGetDualRay s : outcome (list double) :=
  do _ <- check (x_has_farkas E (s_x s)) ; spx_vector (spx_n_rows s) (x_farkas E (s_x s)).

(** *** Basis (1302-1479) *)
(** GetBasisStatusForColumns: FIXED falls through to ON_LOWER; UNDEFINED calls std::abort. *)
Fixpoint spx_cols_loop (n : nat) (k : Z) s : outcome (list bstatus) :=
  match n with
  | O => Ok []
  | S n' =>
      do b <- match x_col E (s_x s) k with
              | X_BASIC => Ok kBasic
              | X_FIXED | X_ON_LOWER => Ok kAtLowerBound
              | X_ON_UPPER => Ok kAtUpperBound
              | X_ZERO => Ok kFree
              | X_UNDEFINED => Abort
              end ;
      do r <- spx_cols_loop n' (k + 1) s ; Ok (b :: r)
  end.
Definition SpxGetBasisStatusForColumns s : outcome (list bstatus) :=
  do _ <- check (freed s) ;
  do o <- SpxIsOptimal s ; do _ <- check o ;
  spx_cols_loop (length (g_cols (s_lp s))) 0 s.
(** GetBasisStatusForRows: no break after the FIXED case. *)
Fixpoint spx_rows_loop (n : nat) (k : Z) s : outcome (list bstatus) :=
  match n with
  | O => Ok []
  | S n' =>
      do b <- match x_row E (s_x s) k with
              | X_BASIC => Ok kBasic
              | X_FIXED | X_ON_LOWER => Ok kAtLowerBound
              | X_ON_UPPER => Ok kAtUpperBound
              | X_ZERO => Err Internal
              | X_UNDEFINED => Abort
              end ;
      do r <- spx_rows_loop n' (k + 1) s ; Ok (b :: r)
  end.
Definition SpxGetBasisStatusForRows s : outcome (list bstatus) :=
  do _ <- check (freed s) ;
  do o <- SpxIsOptimal s ; do _ <- check o ;
  spx_rows_loop (length (g_rows (s_lp s))) 0 s.

(** SetBasisStatusForColumnsAndRows (1389-1459).  The row loop stops at a kFree row. *)
Fixpoint set_rows_loop (n : nat) (k : Z) (l : list bstatus) (a : list (option spx_var))
  : outcome (list (option spx_var) * bool) :=
  match n with
  | O => Ok (a, true)
  | S n' =>
      do b <- at_ l k ;
      match b with
      | kFree => Ok (a, false)
      | kBasic => do a <- set_at a k (Some X_BASIC) ; set_rows_loop n' (k + 1) l a
      | kAtLowerBound => do a <- set_at a k (Some X_ON_LOWER) ; set_rows_loop n' (k + 1) l a
      | kAtUpperBound => do a <- set_at a k (Some X_ON_UPPER) ; set_rows_loop n' (k + 1) l a
      | kFixed => do a <- set_at a k (Some X_FIXED) ; set_rows_loop n' (k + 1) l a
      end
  end.
Fixpoint set_cols_loop (n : nat) (k : Z) (l : list bstatus) (a : list (option spx_var))
  : outcome (list (option spx_var)) :=
  match n with
  | O => Ok a
  | S n' =>
      do b <- at_ l k ;
      do a <- set_at a k (Some match b with
                               | kBasic => X_BASIC | kAtLowerBound => X_ON_LOWER
                               | kAtUpperBound => X_ON_UPPER | kFixed => X_FIXED | kFree => X_ZERO
                               end) ;
      set_cols_loop n' (k + 1) l a
  end.
Definition SpxSetBasis s (cs rs : list bstatus) : outcome (sstate E * bool) :=
  let nc := length (g_cols (s_lp s)) in
  let nr := length (g_rows (s_lp s)) in
  do _ <- check (freed s) ;
  let s := with_saved (invalidated s) (repeat None nc) (repeat None nr) in
  do (ra, ok) <- set_rows_loop nr 0 rs (s_rows s) ;
  let s := with_saved s (s_cols s) ra in
  if negb ok then Ok (s, false)
  else
    do ca <- set_cols_loop nc 0 cs (s_cols s) ;
    let s := with_saved s ca (s_rows s) in
    do (s, threw) <- set_saved_basis s ;
    if (threw : bool) then Ok (s, false) else Ok (free_saved s, true).

(** *** B^-1 (1490-1658) *)
Fixpoint dense_loop (n : nat) (k : Z) (dense : list double) (v : svec num_double) : outcome (svec num_double) :=
  match n with
  | O => Ok v
  | S n' => do x <- at_ dense k ;
            dense_loop n' (k + 1) dense (if deqb x d0 then v else AddEntry v k (x : num_double))
  end.
Fixpoint sparse_loop (n : nat) (k : Z) (dense : list double) (inds : list Z) (v : svec num_double)
  : outcome (svec num_double) :=
  match n with
  | O => Ok v
  | S n' => do i <- at_ inds k ; do x <- at_ dense i ;
            sparse_loop n' (k + 1) dense inds (AddEntry v i (x : num_double))
  end.
Definition SpxRowOfBInverted s (r : Z) : outcome (svec num_double) :=
  do _ <- check (freed s) ;
  match x_binv_row E (s_x s) r with
  | None => Err Internal
  | Some (dense, inds, n) =>
      do v <- (if n =? -1 then dense_loop (length (g_rows (s_lp s))) 0 dense vempty
               else sparse_loop (Z.to_nat n) 0 dense inds vempty) ;
      Ok (CleanUp v)
  end.
(** std::find: the position of the first match. *)
Fixpoint position (l : list Z) (c : Z) : option nat :=
  match l with
  | [] => None
  | x :: r => if x =? c then Some O else option_map S (position r c)
  end.
Fixpoint column_loop (n : nat) (row : Z) s (c : Z) (v : svec num_double) : outcome (svec num_double) :=
  match n with
  | O => Ok v
  | S n' =>
      match x_binv_row E (s_x s) row with
      | None => Err Internal
      | Some (dense, inds, m) =>
          do v <- (if m =? -1 then do x <- at_ dense c ; Ok (AddEntry v row (x : num_double))
                   else match position inds c with
                        | Some i => if Z.of_nat i <? m
                                    then do x <- at_ dense (Z.of_nat i) ; Ok (AddEntry v row (x : num_double))
                                    else Ok v
                        | None => Ok v
                        end) ;
          column_loop n' (row + 1) s c v
      end
  end.
Definition SpxColumnOfBInverted s (c : Z) : outcome (svec num_double) :=
  do _ <- check (freed s) ;
  do v <- column_loop (length (g_rows (s_lp s))) 0 s c vempty ;
  Ok (CleanUp v).
(** GetSparseRowOfBInvertedTimesA (1582-1617) *)
Fixpoint times_loop (k : Z) (l : list gcol) (eps : double) (dense : list double) (v : svec num_double) : svec num_double :=
  match l with
  | [] => v
  | g :: r =>
      let x := x_dot E dense (x_order E (g_entries g)) in
      times_loop (k + 1) r eps dense (if dltb eps (dabs x) then AddEntry v k (x : num_double) else v)
  end.
Definition SpxRowOfBInvertedTimesA s (r : Z) : outcome (svec num_double) :=
  do _ <- check (freed s) ;
  match x_binv_row E (s_x s) r with
  | None => Err Internal
  | Some (dense, _, _) => Ok (times_loop 0 (g_cols (s_lp s)) (FEASTOL (s_params s)) dense vempty)
  end.
(** GetSparseColumnOfBInvertedTimesA (1624-1658) *)
Fixpoint above_loop (n : nat) (k : Z) (eps : double) (dense : list double) (v : svec num_double)
  : outcome (svec num_double) :=
  match n with
  | O => Ok v
  | S n' => do x <- at_ dense k ;
            above_loop n' (k + 1) eps dense (if dltb eps (dabs x) then AddEntry v k (x : num_double) else v)
  end.
Definition SpxColumnOfBInvertedTimesA s (c : Z) : outcome (svec num_double) :=
  do _ <- check (freed s) ;
  do g <- at_ (g_cols (s_lp s)) c ;
  do column <- foldM (fun l (e : ent) => set_at l (idx e) (val e : double))
                 (repeat d0 (length (g_rows (s_lp s)))) (x_order E (g_entries g)) ;
  match x_binv_times E (s_x s) column with
  | None => Err Internal
  | Some b => above_loop (length (g_rows (s_lp s))) 0 (FEASTOL (s_params s)) b vempty
  end.

(** *** Files (1956-2000).  The path given to ReadLpFromFile is taken to be non-empty; [f] is the
    LP in the file, [None] if the file does not exist.  A file that exists but cannot be parsed is
    not modelled.  [written] is the result of writeFileReal, which does not throw here. *)
Definition SpxReadLpFromFile s (f : option glop_lp) : outcome (sstate E * bool) :=
  do _ <- check (freed s) ;
  match f with
  | None => Ok (s, false)
  | Some p => Ok (spx_with_lp s p, true)
  end.
Definition SpxWriteLpToFile s (path : string) (written : bool) : outcome string :=
  do _ <- check (negb (String.eqb path EmptyString)) ;
  if negb written then Err Internal else Ok path.

(** *** All the calls that can change the object *)
(** Edits: InvalidateSolution, CHECK(PreStrongBranchingBasisFreed()), the edit. *)
Definition spx_edited s (x : outcome glop_lp) : outcome (sstate E * reply) :=
  let s := invalidated s in
  do _ <- check (freed s) ;
  do p <- x ; Ok (spx_with_lp s p, ROk).
Definition spx_reply (x : sstate E * bool) : sstate E * reply :=
  (fst x, if snd x then ROk else RErr).

(** The values after int_deletion_status[i] *= -1 for i < num_rows (681-686); in range only. *)
Fixpoint negate_loop (n : nat) (k : Z) (l : list Z) : outcome (list Z) :=
  match n with
  | O => Ok l
  | S n' => do x <- at_ l k ; do l <- set_at l k (- x) ; negate_loop n' (k + 1) l
  end.
(** DeleteRowSet (670-703) *)
Fixpoint result_mapping (mask : list bool) (perm : list Z) : list Z :=
  match mask, perm with
  | b :: m, x :: p => (if (b : bool) then -1 else x) :: result_mapping m p
  | _, _ => []
  end.
Definition SpxDeleteRowSet s (mask : list bool) : outcome (sstate E * list Z) :=
  let s := invalidated s in
  do _ <- check (freed s) ;
  do perm <- negate_loop (length (g_rows (s_lp s))) 0 (map (fun b : bool => if b then 1 else 0) mask) ;
  do (p, perm) <- removeRowsReal (s_lp s) perm ;
  Ok (spx_with_lp s p, result_mapping mask perm).

Definition sstep s (c : call) : outcome (sstate E * reply) :=
  match c with
  | CPopulate d => spx_edited s (spx_populate d)
  | CAddColumn v lo hi obj n => spx_edited s (addColReal (s_lp s) obj (dsvector v) hi lo)
  | CAddColumns vs los his objs ns => spx_edited s (spx_add_cols (length vs) 0 (s_lp s) vs los his objs)
  | CDeleteColumns first last => spx_edited s (removeColRange (s_lp s) first last)
  | CAddRow v lo hi n =>   (* 580-606: no CHECK *)
      do p <- addRowReal (s_lp s) lo (dsvector v) hi ; Ok (spx_with_lp (invalidated s) p, ROk)
  | CAddRows vs los his ns => spx_edited s (spx_add_rows (length vs) 0 (s_lp s) vs los his)
  | CDeleteRows first last => spx_edited s (removeRowRange (s_lp s) first last)
  | CDeleteRowSet mask => do (s, m) <- SpxDeleteRowSet s mask ; Ok (s, RMap m)
  | CClear => spx_edited s (Ok (mkLp [] [] (g_max (s_lp s))))
  | CClearState =>   (* 718-731: no CHECK *)
      let '(threw, x) := x_clear_basis E (s_x s) in
      let s := spx_with_x (invalidated s) x in
      if (threw : bool) then do _ <- check (negb (is_optimal_status x)) ; Ok (s, RErr) else Ok (s, ROk)
  | CSetColumnBounds c lo hi =>
      let s := invalidated s in
      do _ <- check (freed s) ;
      do _ <- check ((0 <=? c) && (c <? ncols (s_lp s))) ;
      do p <- SetVariableBounds (s_lp s) c lo hi ; Ok (spx_with_lp s p, ROk)
  | CSetRowSides r lo hi => spx_edited s (SetConstraintBounds (s_lp s) r lo hi)
  | CSetObjectiveSense b => spx_edited s (Ok (SetObjectiveSense (s_lp s) b))
  | CSetObjectiveCoefficient c x => spx_edited s (SetObjective (s_lp s) c x)
  | CSolve dual => do x <- SpxSolveLp dual s ; Ok (spx_reply x)
  | CStartStrongBranching => do s <- SpxStartStrongBranching s ; Ok (s, ROk)
  | CEndStrongBranching => do s <- SpxEndStrongBranching s ; Ok (s, ROk)
  | CStrongBranch r0 c x limit =>
      do (s, r) <- SpxSolveDownAndUpStrongBranch r0 s c x limit ;
      Ok (s, match r with Some r => RBranch r | None => RErr end)
  | CSetBasis cs rs => do x <- SpxSetBasis s cs rs ; Ok (spx_reply x)
  | CSetLpParameters p => do x <- SpxSetLpParameters s p ; Ok (spx_reply x)
  | CRead f => do x <- SpxReadLpFromFile s f ; Ok (spx_reply x)
  | CWrite path written =>
      match SpxWriteLpToFile s path written with
      | Ok p => Ok (s, RPath p) | Err _ => Ok (s, RErr)
      | Abort => Abort | UB => UB | Fuel => Fuel
      end
  | CFlag _ => Ok (s, ROk)
  end.
Fixpoint srun s (l : list call) : outcome (sstate E * list reply) :=
  match l with
  | [] => Ok (s, [])
  | c :: r => do (s, x) <- sstep s c ; do (s, xs) <- srun s r ; Ok (s, x :: xs)
  end.
End Interface.
