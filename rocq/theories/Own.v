(** The solver with the cut generator of the repository: TableauRoundingGenerator
    (aggregating_generator.{h,cc}) on the LP interface of the solver, in the runner of
    Solver::Create. *)
From Coq Require Import String List ZArith Bool.
From Verif Require Import Outcome Num Double SparseVector Problem MipData CutsData Selector Runner
  Aggregation LpParams GlopLp GlopIface GlopSolution SoplexIface SoplexSolution Branching Params Solver Whole.
Import ListNotations.
Open Scope Z_scope.

Section Own.
Context {E : engine} {X : spx_engine}.
Variable T : tableau E.
Variable G : Type.

(** What the generator reads through the SoPlex interface.  The row getter (lpi_soplex.cc:882-903)
    does not clean its vector.  IsInfinity is lpi_soplex.cc:1946-1950.  The CHECK of
    GetColumnsAndRowsInBasis is moved to the front; it fails during strong branching only, which
    the solver never starts. *)
Definition spx_view (d : mip_data) (tolerance : double) (s : sstate X) : outcome (view arith_double) :=
  do b <- SpxGetColumnsAndRowsInBasis s ;
  Ok (@mkView arith_double
    (map (fun k => add_all (x_order X (transposed_row 0 (Z.of_nat k) (g_cols (s_lp s)))))
       (seq 0 (length (g_rows (s_lp s)))))
    (map g_lhs (g_rows (s_lp s))) (map g_rhs (g_rows (s_lp s)))
    (map g_lb (g_cols (s_lp s))) (map g_ub (g_cols (s_lp s)))
    (fun x => dleb (spx_infty (x_rules X)) x) (SpxIsSolved s) (lpi_optimal (E := E) (SoplexLpi s))
    (SpxGetRowActivities s) (SpxGetPrimalValues s)
    (map col_of b) (SpxRowOfBInverted s)
    (integer_variables d) (is_integral_constraint d) tolerance).
Definition own_view (d : mip_data) (tolerance : double) (l : lpi E X) : outcome (view arith_double) :=
  match l with
  | GlopLpi s => Ok (glop_view T d tolerance s)
  | SoplexLpi s => spx_view d tolerance s
  end.

(** GenerateCuttingPlanes (aggregating_generator.cc:365-473) of a generator with the rounders and
    the limit [a]; it has no inner state. *)
Definition own_generator (d : mip_data) (tolerance : double) (a : list rounder * Z)
  : generator (E := E) (X := X) G :=
  fun y r l =>
    do V <- own_view d tolerance l ;
    do cs <- GenerateCuttingPlanes V (fst a) (snd a) (objective d) ;
    Ok (cs, y).

(** Solver::Create (solver.h:38-73); the context passed to the generators is the solver itself
    (solver.h:90-110). *)
Definition CreateOwn (p0 : spx_params) (maximize flag : bool) (sort : list cut -> list cut)
  (draw : whole (E := E) (X := X) G -> Z -> Z) (g : G) (order : list Z) (pb : problem) (user : params_msg)
  : outcome (env (whole (E := E) (X := X) G) * whole (E := E) (X := X) G) :=
  match FindError pb with
  | Some _ => Err InvalidArgument
  | None =>
      do d <- MipData pb ;
      do c <- Params.Create (E := E) (X := X) p0 maximize flag pb user ;
      CreateSolver G p0 maximize flag sort draw (own_generator d (cf_integrality c)) g order pb user
  end.
End Own.
