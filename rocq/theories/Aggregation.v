(** Model of minimip/cutting_interface/aggregating_generator.{h,cc}.

    The model is written over a record of arithmetic operations: [arith_double] gives the
    code as it runs, [arith_Q] the same code in exact arithmetic, which is what the
    validity theorems are about (a stated simplification). *)
From Coq Require Import String List ZArith QArith Qround Qabs Bool DecimalString.
From Verif Require Import Outcome Num Double SparseVector CutsData.
Import ListNotations.
Open Scope Z_scope.

(** The operators and cmath functions used by the generator. *)
Record Arith := mkArith {
  base :> Num;
  asub : base -> base -> base;
  aleb : base -> base -> bool;      (* x <= y *)
  altb : base -> base -> bool;      (* x < y *)
  aeqb : base -> base -> bool;      (* x == y *)
  afloor : base -> base;
  aceil : base -> base;
  around : base -> base;            (* std::round, halves away from zero *)
  aabs : base -> base;
  ahalf : base                      (* 0.5 *)
}.
Arguments asub {a} _ _.
Arguments aleb {a} _ _.
Arguments altb {a} _ _.
Arguments aeqb {a} _ _.
Arguments afloor {a} _.
Arguments aceil {a} _.
Arguments around {a} _.
Arguments aabs {a} _.
Arguments ahalf {a}.

Definition arith_double : Arith :=
  mkArith num_double dsub dleb dltb deqb dfloor dceil dround dabs (ddiv d1 (dint 2)).

Definition Qround_away (x : Q) : Q :=
  if Qle_bool 0 x then inject_Z (Qfloor (x + (1 # 2))) else inject_Z (Qceiling (x - (1 # 2))).
Definition arith_Q : Arith :=
  mkArith num_Q Qminus Qle_bool (fun x y => negb (Qle_bool y x)) Qeq_bool
    (fun x => inject_Z (Qfloor x)) (fun x => inject_Z (Qceiling x)) Qround_away Qabs (1 # 2)%Q.

Section Aggregation.
Context {A : Arith}.

(** What the generator reads from the solver context: the LP (rows, sides, bounds, the
    infinity test, the solution and the basis), the integer variables, the flags of
    MipData::is_integral_constraint and the integrality tolerance.  Accessors are lists;
    reading past the end is undefined behaviour (only DCHECKed in the LP interface). *)
Record view := mkView {
  lp_rows : list (svec A);          (* GetSparseRowCoefficients *)
  lp_lhs : list A;
  lp_rhs : list A;
  lp_lb : list A;
  lp_ub : list A;
  is_inf : A -> bool;               (* LpInterface::IsInfinity *)
  is_solved : bool;
  is_optimal : bool;
  activities : outcome (list A);    (* GetRowActivities *)
  primal : outcome (list A);        (* GetPrimalValues *)
  basis : list Z;                   (* GetColumnsAndRowsInBasis: the column or -1 *)
  binv_row : Z -> outcome (svec A); (* GetSparseRowOfBInverted *)
  ints : list Z;                    (* MipData::integer_variables *)
  integral_rows : list bool;        (* MipData::is_integral_constraint *)
  tol : A                           (* integrality_tolerance *)
}.
Variable V : view.

(** solver.h:100-102 *)
Definition near (x : A) : bool := aleb (aabs (asub x (around x))) (tol V).
(** solver.h:108-110 *)
Definition FloorTol (x : A) : A := if near x then around x else afloor x.

(** Fractionality (aggregating_generator.cc:27-30). *)
Definition Fractionality (x : A) : A := if near x then n0 else asub x (afloor x).

(** HasIntegralSlackVariable (33-37): the flags are indexed with the LP row. *)
Definition HasIntegralSlack (r : Z) : outcome bool := at_ (integral_rows V) r.

(** mip_data().integer_variables().contains *)
Definition is_int (c : Z) : bool := existsb (Z.eqb c) (ints V).

(** MIRRoundInteger (41-48), MIRRoundContinuous (52-55). *)
Definition MIRRoundInteger (c f0 : A) : A :=
  let fj := Fractionality c in
  if aleb fj f0 then FloorTol c
  else nadd (FloorTol c) (ndiv (asub fj f0) (asub n1 f0)).
Definition MIRRoundContinuous (c f0 : A) : A :=
  if aleb n0 c then n0 else ndiv c (asub n1 f0).

(** CGRoundInteger (59-79). *)
Definition CGRoundInteger (c k f0 : A) : A :=
  let fj := Fractionality c in
  let p := if aleb fj f0 then n0
           else aceil (ndiv (nmul k (asub fj f0)) (asub n1 f0)) in
  nadd (FloorTol c) (ndiv p (nadd k n1)).

(** AggregatedRow (aggregating_generator.h:70-86). *)
Record agg := mkAgg {
  a_var : svec A;
  a_slack : svec A;
  a_sign : svec A;
  a_side : svec A;
  a_rhs : A }.

(** AggregateByWeight (83-107), one row. *)
Definition agg_step (sides : list bool) (g : agg) (e : entry A) : outcome agg :=
  let r := idx e in
  let w := val e in
  do use_rhs <- at_ sides r ;
  do side <- at_ (if use_rhs then lp_rhs V else lp_lhs V) r ;
  let sign := if use_rhs then n1 else nm1 in
  do a <- at_ (lp_rows V) r ;
  do v <- AddMultiple (a_var g) w a ;
  Ok (mkAgg v (AddEntry (a_slack g) r (nmul sign w)) (AddEntry (a_sign g) r sign)
        (AddEntry (a_side g) r side) (nadd (a_rhs g) (nmul w side))).
Definition AggregateByWeight (weights : svec A) (sides : list bool) : outcome agg :=
  do g <- foldM (agg_step sides) (mkAgg vempty vempty vempty vempty n0) (ents weights) ;
  Ok (mkAgg (a_var g) (CleanUp (a_slack g)) (CleanUp (a_sign g)) (CleanUp (a_side g)) (a_rhs g)).

(** Transform (strong_sparse_vector.h:293-302) with a function object that changes
    captured state: entries are visited in order. *)
Fixpoint map_state {S} (f : Z -> A -> S -> outcome (A * S)) (l : list (entry A)) (s : S)
  : outcome (list (entry A) * S) :=
  match l with
  | [] => Ok ([], s)
  | e :: r =>
      do p <- f (idx e) (val e) s ;
      do q <- map_state f r (snd p) ;
      Ok (mkE (idx e) (fst p) :: fst q, snd q)
  end.
Definition TransformS {S} (f : Z -> A -> S -> outcome (A * S)) (v : svec A) (s : S)
  : outcome (svec A * S) :=
  if dirty v then UB
  else do q <- map_state f (ents v) s ; Ok (mkV (drop_zeros (fst q)) (dirty v), snd q).

(** The lambda of TransformToNonNegativeVariables (119-169); state: right-hand side and
    success flag. *)
Definition to_nonneg (c : Z) (x : A) (s : A * bool) : outcome (A * (A * bool)) :=
  do lb <- at_ (lp_lb V) c ;
  do ub <- at_ (lp_ub V) c ;
  if aleb n0 lb then Ok (x, s)
  else if negb (is_inf V (nopp lb)) then Ok (x, (asub (fst s) (nmul x lb), snd s))
  else if negb (is_inf V ub) then Ok (nopp x, (asub (fst s) (nmul x ub), snd s))
  else Ok (x, (fst s, false)).
Definition TransformToNonNegative (g : agg) : outcome (agg * bool) :=
  do q <- TransformS to_nonneg (a_var g) (a_rhs g, true) ;
  Ok (mkAgg (fst q) (a_slack g) (a_sign g) (a_side g) (fst (snd q)), snd (snd q)).

(** The lambda of TransformBackToOriginalVariables (179-212); LOG(DFATAL) only logs in a
    release build. *)
Definition from_nonneg (c : Z) (x : A) (s : A * bool) : outcome (A * (A * bool)) :=
  do lb <- at_ (lp_lb V) c ;
  do ub <- at_ (lp_ub V) c ;
  if aleb n0 lb then Ok (x, s)
  else if negb (is_inf V (nopp lb)) then Ok (x, (nadd (fst s) (nmul x lb), snd s))
  else if negb (is_inf V ub) then Ok (nopp x, (asub (fst s) (nmul x ub), snd s))
  else Ok (x, (fst s, false)).
Definition TransformBack (g : agg) : outcome (agg * bool) :=
  do q <- TransformS from_nonneg (a_var g) (a_rhs g, true) ;
  Ok (mkAgg (fst q) (a_slack g) (a_sign g) (a_side g) (fst (snd q)), snd (snd q)).

(** SubstituteSlackVariables (218-238).  The product [scalar * vector]
    (strong_sparse_vector.h:321-325, 454) scales a copy. *)
Definition subst_step (g : agg) (e : entry A) : outcome agg :=
  let r := idx e in
  let f := nmul (value (a_sign g) r) (val e) in
  do a <- at_ (lp_rows V) r ;
  do _ <- (if dirty a then UB else Ok tt) ;
  do v <- MinusEq (a_var g) (Scale a f) ;
  Ok (mkAgg v (a_slack g) (a_sign g) (a_side g)
        (asub (a_rhs g) (nmul f (value (a_side g) r)))).
Definition SubstituteSlack (g : agg) : outcome agg :=
  do g' <- foldM subst_step g (ents (a_slack g)) ;
  Ok (mkAgg (a_var g') vempty vempty vempty (a_rhs g')).

(** ChooseActiveSidesByBasis (243-276). *)
Definition choose_side (act lhs rhs : A) : bool :=
  if is_inf V rhs then false
  else if is_inf V (nopp lhs) then true
  else if aeqb lhs rhs then true
  else aleb ahalf (ndiv (asub act lhs) (asub rhs lhs)).
Fixpoint choose_sides (r : Z) (acts : list A) : outcome (list bool) :=
  match acts with
  | [] => Ok []
  | a :: l =>
      do rhs <- at_ (lp_rhs V) r ;
      do lhs <- at_ (lp_lhs V) r ;
      do q <- choose_sides (r + 1) l ;
      Ok (choose_side a lhs rhs :: q)
  end.

(** RemovesLPOptimum (279-283). *)
Definition RemovesLPOptimum (v : svec A) (rhs : A) (x : svec A) : bool := altb rhs (DotProduct v x).

(** MIRRounder::RoundAggregatedRow (287-307). *)
Definition MIRRound (g : agg) : outcome (option agg) :=
  let f0 := Fractionality (a_rhs g) in
  do v <- TransformS (fun c x (_ : unit) =>
            Ok (if is_int c then MIRRoundInteger x f0 else MIRRoundContinuous x f0, tt))
            (a_var g) tt ;
  do s <- TransformS (fun r x (_ : unit) =>
            do b <- HasIntegralSlack r ;
            Ok (if b then MIRRoundInteger x f0 else MIRRoundContinuous x f0, tt))
            (a_slack g) tt ;
  Ok (Some (mkAgg (fst v) (fst s) (a_sign g) (a_side g) (FloorTol (a_rhs g)))).

(** The two std::all_of scans (314-335); they stop at the first failure. *)
Fixpoint cg_slacks_ok (l : list (entry A)) : outcome bool :=
  match l with
  | [] => Ok true
  | e :: r =>
      do b <- HasIntegralSlack (idx e) ;
      if b && aleb n0 (val e) then cg_slacks_ok r else Ok false
  end.
Definition cg_vars_ok (l : list (entry A)) : bool :=
  forallb (fun e : entry A => negb (is_int (idx e)) || aleb n0 (val e)) l.

(** StrongCGRounder::RoundAggregatedRow (309-363). *)
Definition CGRound (g : agg) : outcome (option agg) :=
  do ok <- cg_slacks_ok (ents (a_slack g)) ;
  if negb ok then Ok None
  else if negb (cg_vars_ok (ents (a_var g))) then Ok None
  else
    let f0 := Fractionality (a_rhs g) in
    let k := asub (aceil (ndiv n1 f0)) n1 in
    do s <- TransformS (fun r x (_ : unit) =>
              do b <- HasIntegralSlack r ;
              Ok (if b then CGRoundInteger x k f0 else n0, tt)) (a_slack g) tt ;
    do v <- TransformS (fun c x (_ : unit) =>
              Ok (if is_int c then CGRoundInteger x k f0 else n0, tt)) (a_var g) tt ;
    Ok (Some (mkAgg (fst v) (fst s) (a_sign g) (a_side g) (FloorTol (a_rhs g)))).

(** The rounders of the generator, in the order of the constructor (124-136). *)
Inductive rounder := MIR | SCG.
Definition round_with (k : rounder) : agg -> outcome (option agg) :=
  match k with MIR => MIRRound | SCG => CGRound end.
Definition rounder_name (k : rounder) : string :=
  match k with MIR => "MIR"%string | SCG => "SCG"%string end.
Definition make_rounders (use_mir use_cg : bool) : list rounder :=
  (if use_mir then [MIR] else []) ++ (if use_cg then [SCG] else []).

(** The raw data of a cut: row, right-hand side, name. *)
Record raw_cut := mkRaw { c_row : svec A; c_rhs : A; c_name : string }.

(** The inner loop over the rounders (445-470); [n] is total_cuts. *)
Fixpoint round_loop (ks : list rounder) (g : agg) (x : svec A) (n : nat) (acc : list raw_cut)
  : outcome (list raw_cut) :=
  match ks with
  | [] => Ok acc
  | k :: r =>
      do o <- round_with k g ;
      match o with
      | None => round_loop r g x n acc
      | Some g1 =>
          do b <- TransformBack g1 ;
          if negb (snd b) then Err Internal
          else
            do g2 <- SubstituteSlack (fst b) ;
            if negb (RemovesLPOptimum (a_var g2) (a_rhs g2) x) then round_loop r g x n acc
            else round_loop r g x (S n)
                   (acc ++ [mkRaw (a_var g2) (a_rhs g2)
                              (rounder_name k ++ NilEmpty.string_of_uint (Nat.to_uint n))%string])
      end
  end.

(** One tableau row (403-470). *)
Definition row_weights (b : svec A) : svec A :=
  fold_left (fun v e => AddEntry v (idx e) (val e)) (ents b) vempty.
Definition tableau_row (ks : list rounder) (sides : list bool) (x : svec A) (r : Z)
  (acc : list raw_cut) : outcome (list raw_cut) :=
  do c <- at_ (basis V) r ;
  if c =? -1 then Ok acc
  else if negb (is_int c) then Ok acc
  else if near (value x c) then Ok acc
  else
    do b <- binv_row V r ;
    do g <- AggregateByWeight (row_weights b) sides ;
    do t <- TransformToNonNegative g ;
    if negb (snd t) then Ok acc
    else round_loop ks (fst t) x 0 acc.

(** size() < max_num_cuts: the int is converted to size_t. *)
Definition size_lt (n limit : Z) : bool := n <? (if limit <? 0 then limit + 2 ^ 64 else limit).

(** The loop over the tableau rows (400-471). *)
Fixpoint gen_loop (n : nat) (ks : list rounder) (sides : list bool) (x : svec A) (limit r : Z)
  (acc : list raw_cut) : outcome (list raw_cut) :=
  match n with
  | O => Ok acc
  | S n' =>
      if negb (size_lt (Z.of_nat (length acc)) limit) then Ok acc
      else do acc' <- tableau_row ks sides x r acc ;
           gen_loop n' ks sides x limit (r + 1) acc'
  end.

(** GenerateCuttingPlanes (365-473).  The reserve (399) of a negative size throws. *)
Definition Generate (ks : list rounder) (limit : Z) : outcome (list raw_cut) :=
  if negb (is_solved V) then Err FailedPrecondition
  else if negb (is_optimal V) then Err FailedPrecondition
  else
    do acts <- activities V ;
    do sides <- choose_sides 0 acts ;
    do xs <- primal V ;
    if limit <? 0 then Abort
    else gen_loop (length (lp_rows V)) ks sides (of_dense xs) limit 0 [].

End Aggregation.
Arguments view A : clear implicits.
Arguments agg A : clear implicits.
Arguments raw_cut A : clear implicits.

(** The returned CutData (466-469): CreateCut with the objective of MipData. *)
Definition GenerateCuttingPlanes (V : view arith_double) (ks : list rounder) (limit : Z)
  (obj : svec num_double) : outcome (list cut) :=
  do l <- Generate V ks limit ;
  do xs <- primal V ;
  Ok (map (fun c : raw_cut arith_double =>
             CreateCut (ints V) obj (of_dense xs) (c_row c) (c_rhs c) (c_name c) false) l).
