(** Model of minimip/cutting_interface/default_runner.{h,cc}. *)
From Coq Require Import String List ZArith Bool.
From Verif Require Import Outcome Num Double SparseVector MipData CutsData.
Import ListNotations.
Open Scope Z_scope.

(** DefaultRunnerParameters (parameters.proto), int32 fields. *)
Record runner_params := mkRunner {
  max_iterations : Z;
  max_num_cuts_per_node : Z;
  max_num_cuts_total : Z }.

(** Calls the runner makes on the LP that change it. *)
Inductive lp_call :=
| AddRow (r : svec num_double) (lhs rhs : double) (nm : string)
| SolveDual.

(** The members of the runner (cuts_runner.h:72-74), the registry of the context and the
    LP calls made so far.  [world] is everything the model leaves open: the LP and the
    inner state of generators and selector. *)
Record runner_state (W : Type) := mkRS {
  num_cutrounds : Z;
  num_of_cuts_added_since_last_run : Z;
  reg : registry;
  calls : list lp_call;
  world : W }.
Arguments mkRS {W} _ _ _ _ _.
Arguments num_cutrounds {W} _.
Arguments num_of_cuts_added_since_last_run {W} _.
Arguments reg {W} _.
Arguments calls {W} _.
Arguments world {W} _.

Section Run.
Variable W : Type.
(** The seven status predicates of lines 41-47, any of which stops the separation. *)
Variable lp_stops : W -> bool.
Variable lp_is_solved : W -> bool.
(** One call of GenerateCuttingPlanes per generator; the context is const to it. *)
Variable generators : list (registry -> W -> outcome (list cut * W)).
Variable select : registry -> W -> list cut -> outcome (list cut * W).
Variable add_row : W -> svec num_double -> double -> double -> string -> outcome W.
Variable solve_dual : W -> outcome W.
Variable p : runner_params.

(** size_t >= int32: the limit is converted to unsigned. *)
Definition size_ge (n limit : Z) : bool := (if limit <? 0 then limit + 2 ^ 64 else limit) <=? n.

(** MayRunOneMoreSeperationRound (default_runner.cc:22-72). *)
Definition MayRun (s : runner_state W) : bool :=
  if lp_stops (world s) then false
  else if negb (lp_is_solved (world s)) then false
  else if max_iterations p <=? num_cutrounds s then false
  else if max_num_cuts_per_node p <=? num_of_cuts_added_since_last_run s then false
  else if size_ge (Z.of_nat (length (active_cuts (reg s)))) (max_num_cuts_total p) then false
  else true.

(** Lines 97-100: register the selected cuts. *)
Fixpoint add_cuts (g : registry) (cs : list cut) : registry * list Z :=
  match cs with
  | [] => (g, [])
  | c :: r => let (g1, i) := AddCut g c in
              let (g2, is) := add_cuts g1 r in (g2, i :: is)
  end.

(** The loop over the generators (82-101). *)
Fixpoint run_generators (gs : list (registry -> W -> outcome (list cut * W)))
  (g : registry) (w : W) (new : list Z) : outcome (registry * W * list Z) :=
  match gs with
  | [] => Ok (g, w, new)
  | gen :: r =>
      do (cs, w1) <- gen g w ;
      match cs with
      | [] => run_generators r g w1 new
      | _ :: _ =>
          do (fs, w2) <- select g w1 cs ;
          let (g', is) := add_cuts g fs in
          run_generators r g' w2 (new ++ is)
      end
  end.

(** Lines 108-112: add the new cuts to the LP. *)
Fixpoint add_rows (g : registry) (is : list Z) (w : W) (log : list lp_call)
  : outcome (W * list lp_call) :=
  match is with
  | [] => Ok (w, log)
  | i :: r =>
      do c <- GetCut g i ;
      do w' <- add_row w (row c) dminf (right_hand_side c) (name c) ;
      add_rows g r w' (log ++ [AddRow (row c) dminf (right_hand_side c) (name c)])
  end.

(** SeparateCurrentLPSolution (74-118).  Each turn increases num_cutrounds_. *)
Fixpoint separate (fuel : nat) (s : runner_state W) : outcome (runner_state W) :=
  if MayRun s then
    match fuel with
    | O => Fuel
    | S fuel' =>
        do (g, w, new) <- run_generators generators (reg s) (world s) [] ;
        match new with
        | [] => Ok (mkRS (num_cutrounds s) (num_of_cuts_added_since_last_run s) g (calls s) w)
        | _ :: _ =>
            do (w1, log) <- add_rows g new w (calls s) ;
            do w2 <- solve_dual w1 ;
            separate fuel' (mkRS (num_cutrounds s + 1) (num_of_cuts_added_since_last_run s)
                              g (log ++ [SolveDual]) w2)
        end
    end
  else Ok s.

Definition Separate (s : runner_state W) : outcome (runner_state W) :=
  separate (Z.to_nat (max_iterations p - num_cutrounds s)) s.
End Run.
