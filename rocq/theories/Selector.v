(** Model of minimip/cutting_interface/hybrid_selector.cc. *)
From Coq Require Import String List ZArith Bool.
From Verif Require Import Outcome Num Double SparseVector MipData CutsData.
Import ListNotations.
Open Scope Z_scope.

(** HybridSelectorParameters (parameters.proto). *)
Record selector_params := mkSel {
  efficacy_weight : double;
  integer_support_weight : double;
  objective_parallelism_weight : double;
  minimum_orthogonality : double;
  signed_orthogonality : bool;
  score_threshold : double;
  max_num_cuts : Z }.

(** ComputeCutScore (hybrid_selector.cc:26-44); the int / int division is undefined for a
    zero divisor and truncates otherwise. *)
Definition ComputeCutScore (p : selector_params) (c : cut) : outcome double :=
  let e := if dltb d0 (efficacy_weight p) then dmul (efficacy_weight p) (efficacy c) else d0 in
  do s <- (if dltb d0 (integer_support_weight p)
           then if number_of_non_zeros c =? 0 then UB
                else Ok (dmul (integer_support_weight p)
                           (dint (Z.quot (number_of_integer_variables c) (number_of_non_zeros c))))
           else Ok d0) ;
  let o := if dltb d0 (objective_parallelism_weight p)
           then dmul (objective_parallelism_weight p) (objective_parallelism c) else d0 in
  Ok (dadd (dadd e s) o).

(** values() (strong_sparse_vector.h:168-177) and std::inner_product of it with itself. *)
Definition values (v : svec num_double) : list double := map (fun e : entry num_double => val e) (ents v).
Definition squared_norm (l : list double) : double :=
  fold_left (fun acc x => dadd acc (dmul x x)) l d0.

(** TwoCutsAreOrthogonal (46-70); true means insufficiently orthogonal. *)
Definition TwoCutsAreOrthogonal (ref c : cut) (min_orth : double) (signed : bool) : bool :=
  if is_forced c then false
  else
    let cos := ddiv (DotProduct (row ref) (row c))
                 (dmul (dsqrt (squared_norm (values (row ref))))
                       (dsqrt (squared_norm (values (row c))))) in
    if signed then dltb (dsub d1 min_orth) cos else dltb (dsub d1 min_orth) (dabs cos).

Section Select.
(** std::sort with comparator "greater score".  It is a function of its input whose result
    is described by the hypotheses of the theorems. *)
Variable sort : list cut -> list cut.

(** The selection loop (85-119) after the scores have been set; [selected] are the cuts
    pushed so far.  [selected.size() == max_num_cuts] compares size_t with int32: false
    for every non-positive limit once a cut was pushed. *)
Fixpoint select_loop (fuel : nat) (p : selector_params) (cs selected : list cut)
  : outcome (list cut) :=
  match cs with
  | [] => Ok selected
  | _ :: _ =>
      match fuel with
      | O => Fuel
      | S fuel' =>
          match sort cs with
          | [] => UB
          | ref :: rest =>
              do s <- score ref ;
              if dltb s (score_threshold p) then Ok selected
              else
                let selected' := selected ++ [ref] in
                if Z.of_nat (length selected') =? max_num_cuts p then Ok selected'
                else select_loop fuel' p
                       (filter (fun c => negb (TwoCutsAreOrthogonal ref c
                                  (minimum_orthogonality p) (signed_orthogonality p))) rest)
                       selected'
          end
      end
  end.

(** The scoring loop (78-80). *)
Fixpoint score_all (p : selector_params) (cs : list cut) : outcome (list cut) :=
  match cs with
  | [] => Ok []
  | c :: r => do s <- ComputeCutScore p c ; do r' <- score_all p r ; Ok (SetScore c s :: r')
  end.

(** SelectCuttingPlanes (74-122).  Each turn of the loop removes a cut, so as many turns as
    cuts suffice. *)
Definition SelectCuttingPlanes (p : selector_params) (cs : list cut) : outcome (list cut) :=
  do scored <- score_all p cs ;
  select_loop (length scored) p scored [].
End Select.
