(** Model of minimip/lp_interface/lpi_glop.cc: the interface object around Glop.

    glop::RevisedSimplex, LpScalingHelper and TimeLimit are not part of the repository: they
    are the operations of an [engine], about which nothing is assumed here. *)
From Coq Require Import String List ZArith Bool SpecFloat.
From Verif Require Import Outcome Num Double SparseVector GlopLp LpParams.
Import ListNotations.
Open Scope Z_scope.

(** glop::ProblemStatus *)
Inductive pstatus := OPTIMAL | PRIMAL_INFEASIBLE | DUAL_INFEASIBLE | INFEASIBLE_OR_UNBOUNDED
  | PRIMAL_UNBOUNDED | DUAL_UNBOUNDED | INIT | PRIMAL_FEASIBLE | DUAL_FEASIBLE | ABNORMAL
  | INVALID_PROBLEM | IMPRECISE.

(** glop::VariableStatus; glop::ConstraintStatus has the same five values. *)
Inductive vstatus := V_BASIC | V_FIXED_VALUE | V_AT_LOWER_BOUND | V_AT_UPPER_BOUND | V_FREE.

(** LpBasisStatus (lpi.h:43-49). *)
Inductive bstatus := kBasic | kAtLowerBound | kAtUpperBound | kFixed | kFree.

Record engine := mkEngine {
  W : Type;                                    (* RevisedSimplex *)
  SC : Type;                                   (* LpScalingHelper *)
  TL : Type;                                   (* TimeLimit *)
  w_new : W;
  w_params : W -> glop_params;                 (* GetParameters *)
  w_set_params : W -> glop_params -> W;        (* SetParameters *)
  w_solve : W -> TL -> glop_lp -> bool * TL * W;  (* Solve: status.ok(), time limit, solver *)
  w_status : W -> pstatus;                     (* GetProblemStatus *)
  w_iterations : W -> Z;                       (* GetNumberOfIterations *)
  w_objective : W -> double;                   (* GetObjectiveValue *)
  w_value : W -> Z -> double;                  (* GetVariableValue *)
  w_redcost : W -> Z -> double;                (* GetReducedCost *)
  w_dual : W -> Z -> double;                   (* GetDualValue *)
  w_vstatus : W -> Z -> vstatus;               (* GetVariableStatus *)
  w_cstatus : W -> Z -> vstatus;               (* GetConstraintStatus *)
  w_objlimit : W -> bool;                      (* objective_limit_reached *)
  w_state : W -> list vstatus;                 (* GetState().statuses *)
  w_load : W -> list vstatus -> W;             (* LoadStateForNextSolve *)
  w_clear : W -> W;                            (* ClearStateForNextSolve *)
  sc_new : SC;                                 (* an empty helper, also after Clear *)
  sc_scale : glop_lp -> glop_lp * SC;          (* Scale *)
  sc_factor : SC -> Z -> double;               (* VariableScalingFactor *)
  sc_unscale : SC -> Z -> double -> double;    (* UnscaleVariableValue *)
  tl_new : glop_params -> TL;                  (* TimeLimit::FromParameters *)
  tl_reached : TL -> bool;                     (* LimitReached *)
  lp_slacks : glop_lp -> glop_lp;              (* AddSlackVariablesWhereNecessary(false) *)
  lp_feasible : glop_lp -> list double -> double -> bool  (* SolutionIsLPFeasible *)
}.

(** The data members (lpi_glop.h:225-245); [usertime] is the process-wide flag
    FLAGS_time_limit_use_usertime, kept here for convenience. *)
Record gstate (E : engine) := mkG {
  lp : glop_lp;
  scaled_lp : glop_lp;
  solver : W E;
  scaler : SC E;
  scratch : bool;                (* solve_from_scratch_ *)
  modified : bool;               (* lp_modified_since_last_solve_ *)
  time_reached : bool;           (* lp_time_limit_was_reached_ *)
  iterations : Z;                (* num_iterations_of_last_solve_ *)
  usertime : bool }.
Arguments mkG {E}. Arguments lp {E}. Arguments scaled_lp {E}. Arguments solver {E}.
Arguments scaler {E}. Arguments scratch {E}. Arguments modified {E}.
Arguments time_reached {E}. Arguments iterations {E}. Arguments usertime {E}.

(** StrongBranchResult (lpi.h:243-260).  [None] marks a member that holds no value yet. *)
Record sb_result := mkSB {
  dual_bound_down : option double;
  dual_bound_up : option double;
  down_valid : option bool;
  up_valid : option bool;
  sb_iterations : option Z }.
Definition sb_uninitialised : sb_result := mkSB None None None None None.

Section Interface.
Context {E : engine}.
Implicit Type s : gstate E.

(** An edit of lp_ sets the modified flag (211, 250, 279, 363, 369, 390, 407, 415, 428). *)
Definition with_lp s (p : glop_lp) : gstate E :=
  mkG p (scaled_lp s) (solver s) (scaler s) (scratch s) true (time_reached s) (iterations s) (usertime s).
Definition with_solver s (w : W E) : gstate E :=
  mkG (lp s) (scaled_lp s) w (scaler s) (scratch s) (modified s) (time_reached s) (iterations s) (usertime s).
Definition with_modified s (b : bool) : gstate E :=
  mkG (lp s) (scaled_lp s) (solver s) (scaler s) (scratch s) b (time_reached s) (iterations s) (usertime s).

(** SetLpParameters (1248-1357); the second component says whether the status is OK.  The
    cases guarded by [BUG] messages are excluded by the test in front. *)
Definition SetLpParameters s (p : lp_params) : gstate E * bool :=
  if negb (LpParametersAreSupportedByGlop p) then (s, false)
  else (mkG (lp s) (scaled_lp s) (w_set_params E (solver s) (to_glop p)) (scaler s)
          (solve_from_scratch p) (modified s) (time_reached s) (iterations s)
          (usertime_flag p (usertime s)), true).
Definition GetLpParameters s : lp_params :=
  from_glop (w_params E (solver s)) (scratch s) (usertime s).

(** Constructor (139-153); [b] is the flag at that time.  solve_from_scratch_ has no
    initialiser but is set by SetLpParameters, whose argument is always supported. *)
Definition glop_new (b : bool) : gstate E :=
  fst (SetLpParameters (mkG lp_new lp_new (w_new E) (sc_new E) false true false 0 b)
         (default_params LP_GLOP)).

(** The loop that shifts the statuses of the kept rows, in place (352-357). *)
Fixpoint shift_loop (n : nat) (row new_size cols : Z) (mask : list bool) (st : list vstatus)
  : outcome (list vstatus * Z) :=
  match n with
  | O => Ok (st, new_size)
  | S n' =>
      do b <- at_ mask row ;
      if (b : bool) then shift_loop n' (row + 1) new_size cols mask st
      else do x <- at_ st (cols + row) ;
           do st <- set_at st new_size x ;
           shift_loop n' (row + 1) (new_size + 1) cols mask st
  end.

(** DeleteRowsAndUpdateCurrentBasis (339-364). *)
Definition DeleteRowsAndUpdateCurrentBasis s (mask : list bool) : outcome (gstate E) :=
  let st := w_state E (solver s) in
  do s <- (if Z.of_nat (length st) =? ncols (lp s) + nrows (lp s)
           then do x <- shift_loop (length (g_rows (lp s))) 0 (ncols (lp s)) (ncols (lp s)) mask st ;
                Ok (with_solver s (w_load E (solver s) (resize (fst x) (Z.to_nat (snd x)) V_FREE)))
           else Ok s) ;
  do p <- lp_delete_rows (lp s) mask ;
  Ok (with_lp s p).

(** GetPrimalValues (867-878). *)
Definition GetPrimalValues s : list double :=
  map (fun k => sc_unscale E (scaler s) (Z.of_nat k) (w_value E (solver s) (Z.of_nat k)))
    (seq 0 (length (g_cols (lp s)))).

(** SolveInternal (545-620); the second component says whether the status is OK.  [fuel]
    bounds the recursion, which the code enters with use_scaling switched off. *)
Fixpoint SolveInternal (fuel : nat) (recursive : bool) s (t : TL E) : outcome (gstate E * bool) :=
  match fuel with
  | O => Fuel
  | S fuel' =>
      (* 549-560 *)
      let s := if modified s
               then let p := lp_slacks E (lp s) in
                    let '(p, sc) := if use_scaling (w_params E (solver s))
                                    then sc_scale E p else (p, sc_new E) in
                    mkG (lp s) p (solver s) sc (scratch s) (modified s) (time_reached s) (iterations s) (usertime s)
               else s in
      (* 562-569 *)
      let s := if recursive then s
               else mkG (lp s) (scaled_lp s) (solver s) (scaler s) (scratch s) (modified s) false 0 (usertime s) in
      let s := if scratch s then with_solver s (w_clear E (solver s)) else s in
      (* 571-578 *)
      let '(ok, t, w) := w_solve E (solver s) t (scaled_lp s) in
      let s := with_solver s w in
      if negb ok then Ok (s, false)
      else
        (* 580-583 *)
        let s := mkG (lp s) (scaled_lp s) (solver s) (scaler s) (scratch s) (modified s)
                   (tl_reached E t) (iterations s + w_iterations E w) (usertime s) in
        let feasible := match w_status E w with PRIMAL_FEASIBLE | OPTIMAL => true | _ => false end in
        let g := w_params E w in
        if feasible && use_scaling g &&
           negb (lp_feasible E (lp s) (GetPrimalValues s) (primal_feasibility_tolerance g))
        then
          (* 603-614 *)
          let s := with_modified (with_solver s (w_set_params E w (with_scaling g false))) true in
          do (s, ok) <- SolveInternal fuel' true s t ;
          if negb ok then Ok (s, false)
          else Ok (with_modified (with_solver s (w_set_params E (solver s) (with_scaling g true))) false, true)
        else Ok (with_modified s false, true)
  end.

(** SolveLpWithPrimalSimplex, SolveLpWithDualSimplex (626-651). *)
Definition SolveLp (dual : bool) s : outcome (gstate E * bool) :=
  let g := w_params E (solver s) in
  let t := tl_new E g in
  SolveInternal 2 false (with_solver s (w_set_params E (solver s) (with_dual g dual))) t.

Definition IsDualBoundValid (p : pstatus) : bool :=
  match p with OPTIMAL | DUAL_FEASIBLE | DUAL_UNBOUNDED => true | _ => false end.

(** result.iterations += n: reads the member first. *)
Definition add_iterations (r : sb_result) (n : Z) : outcome sb_result :=
  match sb_iterations r with
  | None => UB
  | Some k => Ok (mkSB (dual_bound_down r) (dual_bound_up r) (down_valid r) (up_valid r) (Some (k + n)))
  end.
Definition half : double := S754_finite false 4503599627370496 (-53).

(** SolveDownAndUpStrongBranch (666-737).  [r0] is what the uninitialised result holds: with
    [sb_uninitialised] every read of it is undefined; any other value describes what a
    compiler makes of it in practice.  iteration_limit is not used (684). *)
Definition SolveDownAndUpStrongBranch (r0 : sb_result) s (c : Z) (x : double)
  : outcome (gstate E * sb_result) :=
  do g <- at_ (g_cols (scaled_lp s)) c ;
  let lower := g_lb g in
  let upper := g_ub g in
  let y := dmul x (sc_factor E (scaler s) c) in
  let params := with_dual (w_params E (solver s)) true in
  let w := w_set_params E (solver s) params in
  let eps := primal_feasibility_tolerance params in
  let t := tl_new E params in
  let cutoff := if g_max (lp s) then g_objective_lower_limit params else g_objective_upper_limit params in
  (* down branch, 696-712 *)
  let new_upper := dceil (dsub (dsub y d1) eps) in
  do (p, w, t, r) <-
    (if dleb (dsub lower half) new_upper
     then do p <- SetVariableBounds (scaled_lp s) c lower new_upper ;
          let '(ok, t, w) := w_solve E w t p in
          if (ok : bool)
          then do r <- add_iterations r0 (w_iterations E w) ;
               Ok (p, w, t, mkSB (Some (w_objective E w)) (dual_bound_up r)
                              (Some (IsDualBoundValid (w_status E w))) (up_valid r) (sb_iterations r))
          else Ok (p, w, t, mkSB (Some d0) (dual_bound_up r0) (Some false) (up_valid r0) (sb_iterations r0))
     else Ok (scaled_lp s, w, t,
              mkSB (Some cutoff) (dual_bound_up r0) (Some true) (up_valid r0) (sb_iterations r0))) ;
  (* up branch, 715-731 *)
  let new_lower := dfloor (dadd (dadd y d1) eps) in
  do (p, w, t, r) <-
    (if dleb new_lower (dadd upper half)
     then do p <- SetVariableBounds p c new_lower upper ;
          let '(ok, t, w) := w_solve E w t p in
          if (ok : bool)
          then do r <- add_iterations r (w_iterations E w) ;
               Ok (p, w, t, mkSB (dual_bound_down r) (Some (w_objective E w)) (down_valid r)
                              (Some (IsDualBoundValid (w_status E w))) (sb_iterations r))
          else Ok (p, w, t, mkSB (dual_bound_down r) (Some d0) (Some false) (up_valid r) (sb_iterations r))
     else Ok (p, w, t, mkSB (dual_bound_down r) (Some cutoff) (down_valid r) (Some true) (sb_iterations r))) ;
  (* 734 *)
  do p <- SetVariableBounds p c lower upper ;
  Ok (mkG (lp s) p w (scaler s) (scratch s) (modified s) (time_reached s) (iterations s) (usertime s), r).

(** *** Solution status (743-859) *)
Definition IsSolved s : bool := negb (modified s).
Definition is_status (p : pstatus) s : bool :=
  match w_status E (solver s), p with
  | OPTIMAL, OPTIMAL | PRIMAL_INFEASIBLE, PRIMAL_INFEASIBLE | DUAL_INFEASIBLE, DUAL_INFEASIBLE
  | INFEASIBLE_OR_UNBOUNDED, INFEASIBLE_OR_UNBOUNDED | PRIMAL_UNBOUNDED, PRIMAL_UNBOUNDED
  | DUAL_UNBOUNDED, DUAL_UNBOUNDED | INIT, INIT | PRIMAL_FEASIBLE, PRIMAL_FEASIBLE
  | DUAL_FEASIBLE, DUAL_FEASIBLE | ABNORMAL, ABNORMAL | INVALID_PROBLEM, INVALID_PROBLEM
  | IMPRECISE, IMPRECISE => true
  | _, _ => false
  end.
Definition ExistsPrimalRay s := is_status PRIMAL_UNBOUNDED s.
Definition HasPrimalRay s := is_status PRIMAL_UNBOUNDED s.
Definition IsPrimalUnbounded s := is_status PRIMAL_UNBOUNDED s.
Definition IsPrimalInfeasible s := is_status DUAL_UNBOUNDED s || is_status PRIMAL_INFEASIBLE s.
Definition IsPrimalFeasible s := is_status PRIMAL_FEASIBLE s || is_status OPTIMAL s.
Definition ExistsDualRay s := is_status DUAL_UNBOUNDED s.
Definition HasDualRay s := is_status DUAL_UNBOUNDED s.
Definition IsDualUnbounded s := is_status DUAL_UNBOUNDED s.
Definition IsDualInfeasible s := is_status PRIMAL_UNBOUNDED s || is_status DUAL_INFEASIBLE s.
Definition IsDualFeasible s := is_status DUAL_FEASIBLE s || is_status OPTIMAL s.
Definition IsOptimal s := is_status OPTIMAL s.
Definition ObjectiveLimitIsExceeded s : bool := w_objlimit E (solver s).
Definition TimeLimitIsExceeded s : bool := time_reached s.
Definition IterationLimitIsExceeded s : bool :=
  let m := max_number_of_iterations (w_params E (solver s)) in
  negb (m =? -1) && (m <=? iterations s).
Definition IsStable s : bool :=
  if (is_status PRIMAL_FEASIBLE s || is_status DUAL_FEASIBLE s) &&
     (negb (ObjectiveLimitIsExceeded s) && negb (IterationLimitIsExceeded s)) &&
     negb (TimeLimitIsExceeded s)
  then false
  else if is_status ABNORMAL s || is_status INVALID_PROBLEM s || is_status IMPRECISE s then false
  else true.
Definition GetNumIterations s : Z := iterations s.
Definition GetObjectiveValue s : double := w_objective E (solver s).

(** *** Basis (51-128, 953-998) *)
Definition ConvertGlopStatus (v : vstatus) (x : double) : bstatus :=
  match v with
  | V_BASIC => kBasic
  | V_AT_UPPER_BOUND => kAtUpperBound
  | V_AT_LOWER_BOUND => kAtLowerBound
  | V_FREE => kFree
  | V_FIXED_VALUE => if dltb d0 x then kAtLowerBound else kAtUpperBound
  end.
Definition ConvertMiniMIPVariableStatus (b : bstatus) : vstatus :=
  match b with
  | kBasic => V_BASIC
  | kAtUpperBound => V_AT_UPPER_BOUND
  | kAtLowerBound => V_AT_LOWER_BOUND
  | kFixed => V_FIXED_VALUE
  | kFree => V_FREE
  end.
Definition ConvertMiniMIPConstraintStatusToSlackStatus (b : bstatus) : vstatus :=
  match b with
  | kBasic => V_BASIC
  | kAtUpperBound => V_AT_LOWER_BOUND
  | kAtLowerBound => V_AT_UPPER_BOUND
  | kFixed => V_FIXED_VALUE
  | kFree => V_FREE
  end.
Definition GetBasisStatusForColumns s : list bstatus :=
  map (fun k => ConvertGlopStatus (w_vstatus E (solver s) (Z.of_nat k)) (w_redcost E (solver s) (Z.of_nat k)))
    (seq 0 (length (g_cols (lp s)))).
Definition GetBasisStatusForRows s : list bstatus :=
  map (fun k => ConvertGlopStatus (w_cstatus E (solver s) (Z.of_nat k)) (w_dual E (solver s) (Z.of_nat k)))
    (seq 0 (length (g_rows (lp s)))).

(** The two loops of SetBasisStatusForColumnsAndRows (987-994): [l[k]] for k < n. *)
Fixpoint convert_loop (f : bstatus -> vstatus) (n : nat) (k : Z) (l : list bstatus) : outcome (list vstatus) :=
  match n with
  | O => Ok []
  | S n' => do b <- at_ l k ; do r <- convert_loop f n' (k + 1) l ; Ok (f b :: r)
  end.
Definition SetBasisStatusForColumnsAndRows s (cs rs : list bstatus) : outcome (gstate E) :=
  do a <- convert_loop ConvertMiniMIPVariableStatus (length (g_cols (lp s))) 0 cs ;
  do b <- convert_loop ConvertMiniMIPConstraintStatusToSlackStatus (length (g_rows (lp s))) 0 rs ;
  Ok (with_solver s (w_load E (solver s) (a ++ b))).

(** *** Files (1377-1402) *)
(** ReadLpFromFile: [f] is the LP in the file, [None] if it cannot be read. *)
Definition ReadLpFromFile s (f : option glop_lp) : gstate E * bool :=
  match f with
  | None => (s, false)
  | Some p => (mkG p (scaled_lp s) (solver s) (scaler s) (scratch s) (modified s)
                 (time_reached s) (iterations s) (usertime s), true)
  end.
(** WriteLpToFile: [written] is WriteProtoToFile(...).ok(). *)
Definition WriteLpToFile s (path : string) (written : bool) : outcome string :=
  if written then Err Internal else Ok path.

(** *** All the calls that can change the object *)
Inductive call :=
| CPopulate (d : MipData.mip_data)
| CAddColumn (v : svec num_double) (lo hi obj : double) (name : string)
| CAddColumns (vs : list (svec num_double)) (los his objs : list double) (names : list string)
| CDeleteColumns (first last : Z)
| CAddRow (v : svec num_double) (lo hi : double) (name : string)
| CAddRows (vs : list (svec num_double)) (los his : list double) (names : list string)
| CDeleteRows (first last : Z)
| CDeleteRowSet (mask : list bool)
| CClear
| CClearState
| CSetColumnBounds (c : Z) (lo hi : double)
| CSetRowSides (r : Z) (lo hi : double)
| CSetObjectiveSense (b : bool)
| CSetObjectiveCoefficient (c : Z) (x : double)
| CSolve (dual : bool)
| CStartStrongBranching
| CEndStrongBranching
| CStrongBranch (r0 : sb_result) (c : Z) (x : double) (limit : Z)
| CSetBasis (cs rs : list bstatus)
| CSetLpParameters (p : lp_params)
| CRead (f : option glop_lp)
| CWrite (path : string) (written : bool)
| CFlag (b : bool).              (* another interface in the process sets the flag *)

Inductive reply := ROk | RErr | RMap (m : list Z) | RBranch (r : sb_result) | RPath (p : string).
Definition status (x : gstate E * bool) : gstate E * reply :=
  (fst x, if snd x then ROk else RErr).
Definition edited s (x : outcome glop_lp) : outcome (gstate E * reply) :=
  do p <- x ; Ok (with_lp s p, ROk).

Definition gstep s (c : call) : outcome (gstate E * reply) :=
  match c with
  | CPopulate d => edited s (PopulateFromMipData d)
  | CAddColumn v lo hi obj n => edited s (AddColumn (lp s) v lo hi obj n)
  | CAddColumns [] los his objs ns => Ok (s, ROk)
  | CAddColumns vs los his objs ns => edited s (AddColumns (lp s) vs los his objs ns)
  | CDeleteColumns first last => edited s (DeleteColumns (lp s) first last)
  | CAddRow v lo hi n => edited s (AddRow (lp s) v lo hi n)
  | CAddRows [] los his ns => Ok (s, ROk)
  | CAddRows vs los his ns => edited s (AddRows (lp s) vs los his ns)
  | CDeleteRows first last =>
      do mask <- range_mask (length (g_rows (lp s))) first last ;
      do s <- DeleteRowsAndUpdateCurrentBasis s mask ;
      Ok (s, ROk)
  | CDeleteRowSet mask =>
      do m <- row_mapping (lp s) mask ;
      do s <- DeleteRowsAndUpdateCurrentBasis s mask ;
      Ok (s, RMap m)
  | CClear => Ok (with_lp s lp_new, ROk)
  | CClearState => Ok (with_solver s (w_clear E (solver s)), ROk)
  | CSetColumnBounds c lo hi => edited s (SetColumnBounds (lp s) c lo hi)
  | CSetRowSides r lo hi => edited s (SetRowSides (lp s) r lo hi)
  | CSetObjectiveSense b => Ok (with_lp s (SetObjectiveSense (lp s) b), ROk)
  | CSetObjectiveCoefficient c x => edited s (SetObjectiveCoefficient (lp s) c x)
  | CSolve dual => do x <- SolveLp dual s ; Ok (status x)
  | CStartStrongBranching | CEndStrongBranching => Ok (s, ROk)
  | CStrongBranch r0 c x _ =>
      do (s, r) <- SolveDownAndUpStrongBranch r0 s c x ; Ok (s, RBranch r)
  | CSetBasis cs rs => do s <- SetBasisStatusForColumnsAndRows s cs rs ; Ok (s, ROk)
  | CSetLpParameters p => Ok (status (SetLpParameters s p))
  | CRead f => Ok (status (ReadLpFromFile s f))
  | CWrite path written =>
      match WriteLpToFile s path written with
      | Ok p => Ok (s, RPath p) | Err _ => Ok (s, RErr)
      | Abort => Abort | UB => UB | Fuel => Fuel
      end
  | CFlag b => Ok (mkG (lp s) (scaled_lp s) (solver s) (scaler s) (scratch s) (modified s)
                     (time_reached s) (iterations s) b, ROk)
  end.

(** A history, with the replies. *)
Fixpoint grun s (l : list call) : outcome (gstate E * list reply) :=
  match l with
  | [] => Ok (s, [])
  | c :: r => do (s, x) <- gstep s c ; do (s, xs) <- grun s r ; Ok (s, x :: xs)
  end.
End Interface.
