(** Model of minimip/lp_interface/lpi_glop.cc: the getters of the solution, of the basis and of
    the rows and columns of the basis inverse; and of what the tableau cut generator
    (aggregating_generator.cc) reads through them.

    RevisedSimplex, BasisFactorization and LpScalingHelper are not part of the repository: their
    answers are the operations of a [tableau], about which nothing is assumed here. *)
From Coq Require Import String List ZArith Bool.
From Verif Require Import Outcome Num Double SparseVector CutsData Aggregation MipData GlopLp LpParams
  GlopIface.
Import ListNotations.
Open Scope Z_scope.

(** glop::ScatteredRow and ScatteredColumn: the values, and the positions of the values that are not
    zero, which may be left empty. *)
Record scattered := mkSc { dense : list double; support : list Z }.

Record tableau (E : engine) := mkTab {
  b_col : W E -> Z -> Z;                                  (* GetBasis *)
  b_left : W E -> Z -> scattered;                         (* LeftSolveForUnitRow *)
  b_unscale_left : SC E -> Z -> scattered -> scattered;   (* UnscaleUnitRowLeftSolve *)
  b_right : W E -> Z -> scattered;                        (* RightSolveForProblemColumn *)
  b_unscale_right : SC E -> (Z -> Z) -> Z -> scattered -> scattered;  (* UnscaleColumnRightSolve *)
  b_product : list double -> list (entry num_double) -> double;       (* ScalarProduct *)
  b_activity : W E -> Z -> double;                        (* GetConstraintActivity *)
  b_primal_ray : W E -> list double;                      (* GetPrimalRay *)
  b_dual_ray : W E -> list double;                        (* GetDualRay *)
  b_unscale_dual : SC E -> Z -> double -> double;         (* UnscaleDualValue *)
  b_unscale_cost : SC E -> Z -> double -> double;         (* UnscaleReducedCost *)
  b_unscale_activity : SC E -> Z -> double -> double      (* UnscaleConstraintActivity *)
}.
Arguments b_col {E}. Arguments b_left {E}. Arguments b_unscale_left {E}. Arguments b_right {E}.
Arguments b_unscale_right {E}. Arguments b_product {E}. Arguments b_activity {E}.
Arguments b_primal_ray {E}. Arguments b_dual_ray {E}. Arguments b_unscale_dual {E}.
Arguments b_unscale_cost {E}. Arguments b_unscale_activity {E}.

(** ColOrRowIndex (mip_types.h:45-58): a column or a row. *)
Inductive col_or_row := Col (c : Z) | Row (r : Z).
(** col(): kInvalidCol = -1 for a row. *)
Definition col_of (x : col_or_row) : Z := match x with Col c => c | Row _ => -1 end.

Section Solution.
Context {E : engine}.
Variable T : tableau E.
Implicit Type s : gstate E.

Definition columns s : list nat := seq 0 (length (g_cols (lp s))).
Definition rows s : list nat := seq 0 (length (g_rows (lp s))).

(** GetDualValues (880-891), GetReducedCosts (893-904), GetRowActivities (906-917). *)
Definition GetDualValues s : list double :=
  map (fun k => b_unscale_dual T (scaler s) (Z.of_nat k) (w_dual E (solver s) (Z.of_nat k))) (rows s).
Definition GetReducedCosts s : list double :=
  map (fun k => b_unscale_cost T (scaler s) (Z.of_nat k) (w_redcost E (solver s) (Z.of_nat k))) (columns s).
Definition GetRowActivities s : list double :=
  map (fun k => b_unscale_activity T (scaler s) (Z.of_nat k) (b_activity T (solver s) (Z.of_nat k))) (rows s).

(** The loops of GetPrimalRay (919-932) and GetDualRay (934-947); reading past the end of Glop's
    vector is undefined. *)
Fixpoint ray_loop (f : Z -> double -> double) (ks : list nat) (l : list double) : outcome (list double) :=
  match ks with
  | [] => Ok []
  | k :: r =>
      do x <- at_ l (Z.of_nat k) ;
      do ys <- ray_loop f r l ;
      Ok (dopp (f (Z.of_nat k) x) :: ys)
  end.
Definition GetPrimalRay s : outcome (list double) :=
  ray_loop (sc_unscale E (scaler s)) (columns s) (b_primal_ray T (solver s)).
Definition GetDualRay s : outcome (list double) :=
  ray_loop (b_unscale_dual T (scaler s)) (rows s) (b_dual_ray T (solver s)).

(** GetColumnsAndRowsInBasis (1000-1015). *)
Definition GetColumnsAndRowsInBasis s : list col_or_row :=
  map (fun k => let c := b_col T (solver s) (Z.of_nat k) in
         if c <? ncols (lp s) then Col c else Row (c - ncols (lp s))) (rows s).

(** solver_.GetParameters().primal_feasibility_tolerance() *)
Definition feasibility s : double := primal_feasibility_tolerance (w_params E (solver s)).

(** LeftSolveForUnitRow and UnscaleUnitRowLeftSolve (1026-1029, 1063-1065, 1080-1083). *)
Definition inverse_row s (r : Z) : scattered :=
  b_unscale_left T (scaler s) (b_col T (solver s) r) (b_left T (solver s) r).
(** RightSolveForProblemColumn and UnscaleColumnRightSolve (1099-1103). *)
Definition inverse_column s (c : Z) : scattered :=
  b_unscale_right T (scaler s) (b_col T (solver s)) c (b_right T (solver s) c).

(** The loop over the non-zeros, in the order in which they are listed (1035-1041, 1110-1117). *)
Definition add_listed (x : scattered) : outcome (svec num_double) :=
  foldM (fun v i => do y <- at_ (dense x) i ; Ok (AddEntry v i (y : num_double))) vempty (support x).
(** A loop over all positions, with the value at each and the test for keeping it
    (1045-1051, 1062-1072, 1084-1091, 1120-1127). *)
Definition add_kept (keep : double -> bool) (value_at : Z -> outcome double) (ks : list nat)
  : outcome (svec num_double) :=
  foldM (fun v k => do y <- value_at (Z.of_nat k) ;
                    Ok (if keep y then AddEntry v (Z.of_nat k) (y : num_double) else v)) vempty ks.

(** GetSparseRowOfBInverted (1021-1055). *)
Definition GetSparseRowOfBInverted s (r : Z) : outcome (svec num_double) :=
  let x := inverse_row s r in
  match support x with
  | _ :: _ => add_listed x
  | [] => add_kept (fun y => dleb (feasibility s) (dabs y)) (at_ (dense x)) (rows s)
  end.

(** GetSparseColumnOfBInverted (1057-1074). *)
Definition GetSparseColumnOfBInverted s (c : Z) : outcome (svec num_double) :=
  add_kept (fun y => dleb (feasibility s) (dabs y)) (fun r => at_ (dense (inverse_row s r)) c) (rows s).

(** GetSparseRowOfBInvertedTimesA (1076-1093). *)
Definition GetSparseRowOfBInvertedTimesA s (r : Z) : outcome (svec num_double) :=
  let x := inverse_row s r in
  add_kept (fun y => dleb (feasibility s) (dabs y))
    (fun c => do g <- at_ (g_cols (lp s)) c ; Ok (b_product T (dense x) (g_entries g))) (columns s).

(** GetSparseColumnOfBInvertedTimesA (1095-1130): here the test is >, not >=. *)
Definition GetSparseColumnOfBInvertedTimesA s (c : Z) : outcome (svec num_double) :=
  let x := inverse_column s c in
  match support x with
  | _ :: _ => add_listed x
  | [] => add_kept (fun y => dltb (feasibility s) (dabs y)) (at_ (dense x)) (rows s)
  end.

(** What TableauRoundingGenerator::GenerateCuttingPlanes (aggregating_generator.cc:365-473) reads:
    the LP interface, the problem data [d] and the integrality tolerance.  IsInfinity is
    lpi_glop.cc:1368-1371. *)
Definition glop_view (d : mip_data) (tolerance : double) s : view arith_double :=
  @mkView arith_double
    (map (fun k => collect (transposed_row 0 (Z.of_nat k) (g_cols (lp s)))) (rows s))
    (map g_lhs (g_rows (lp s))) (map g_rhs (g_rows (lp s)))
    (map g_lb (g_cols (lp s))) (map g_ub (g_cols (lp s)))
    (fun x => deqb x dinf) (IsSolved s) (IsOptimal s)
    (Ok (GetRowActivities s)) (Ok (GetPrimalValues s))
    (map col_of (GetColumnsAndRowsInBasis s)) (GetSparseRowOfBInverted s)
    (integer_variables d) (is_integral_constraint d) tolerance.
End Solution.
