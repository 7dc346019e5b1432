(** A basis inverse for the theorems about the getters of [GlopSolution]. *)
From Coq Require Import String List ZArith Bool Lia SpecFloat Sorted.
From Verif Require Import Outcome Num Double SparseVector VectorSpec LpParams GlopLp GlopIface GlopSpec
  OutcomeFacts SolverSpec GlopSolution TableauSpec GlopCases.
Import ListNotations.
Open Scope Z_scope.

(** Two columns and two rows, with the given rows of the inverse and columns of its product with
    the matrix; the basis is the second column and the first row. *)
Definition two_tableau (left right : Z -> scattered) (product : double) : tableau toy1 :=
  mkTab toy1
    (fun _ r => if r =? 0 then 1 else 2)
    (fun _ r => left r) (fun _ _ x => x) (fun _ c => right c) (fun _ _ _ x => x)
    (fun _ _ => product) (fun _ r => dint (7 + r)) (fun _ => [d1; dint (-2)]) (fun _ => [dint 3; d0])
    (fun _ _ x => x) (fun _ _ x => x) (fun _ _ x => x).
Definition two_state : gstate toy1 := after edits.
Definition tolerance2 : double := feasibility two_state.
Definition tiny : double := ddiv tolerance2 (dint 2).

(** [[1/2, -4], [0, 1]], stored densely; the second column has a small entry. *)
Definition dense_left (r : Z) : scattered :=
  if r =? 0 then mkSc [ddiv d1 (dint 2); dint (-4)] [] else mkSc [tiny; d1] [].
(** The same with the positions listed. *)
Definition listed_left (r : Z) : scattered :=
  if r =? 0 then mkSc [ddiv d1 (dint 2); dint (-4)] [0; 1] else mkSc [tiny; d1] [0; 1].
(** The positions of the first row in another order. *)
Definition other_left (r : Z) : scattered :=
  if r =? 0 then mkSc [ddiv d1 (dint 2); dint (-4)] [1; 0] else mkSc [tiny; d1] [1; 0].
Definition at_tolerance (c : Z) : scattered := mkSc [tolerance2; d1] [].

Definition T_dense := two_tableau dense_left at_tolerance tolerance2.
Definition T_listed := two_tableau listed_left at_tolerance tolerance2.
Definition T_other := two_tableau other_left at_tolerance tolerance2.

Lemma two_rows : nrows (lp two_state) = 2 /\ ncols (lp two_state) = 2.
Proof. split; vm_compute; reflexivity. Qed.
Lemma two_cases r : 0 <= r < 2 -> r = 0 \/ r = 1.
Proof. lia. Qed.
Lemma two_dense r : 0 <= r < 2 -> holds_all (inverse_row T_dense two_state r) 2 /\ support (inverse_row T_dense two_state r) = [].
Proof. intros H. destruct (two_cases r H) as [-> | ->]; split; cbn; unfold holds_all; cbn; lia || reflexivity. Qed.
Lemma two_listed r : 0 <= r < 2 -> holds_all (inverse_row T_listed two_state r) 2 /\ listed_in_order (inverse_row T_listed two_state r) 2.
Proof.
  intros H. destruct (two_cases r H) as [-> | ->]; (split; [unfold holds_all; cbn; lia|]);
    (split; [repeat constructor|repeat constructor; cbn; lia]).
Qed.
Lemma two_column c : holds_all (inverse_column T_dense two_state c) 2 /\ listed_in_order (inverse_column T_dense two_state c) 2.
Proof. split; [unfold holds_all; cbn; lia|]. split; constructor. Qed.
Lemma two_basis : proper_basis T_dense two_state.
Proof.
  destruct two_rows as [R C]. unfold proper_basis. rewrite R, C. split.
  - intros r H. destruct (two_cases r H) as [-> | ->]; cbn; lia.
  - intros r r' H H'. destruct (two_cases r H) as [-> | ->], (two_cases r' H') as [-> | ->]; cbn; lia.
Qed.
Definition got (o : outcome (svec num_double)) : svec num_double := match o with Ok v => v | _ => vempty end.
Lemma two_runs :
  GetSparseRowOfBInverted T_dense two_state 0 = Ok (mkV [mkE 0 (ddiv d1 (dint 2) : num_double); mkE 1 (dint (-4) : num_double)] false) /\
  GetSparseColumnOfBInverted T_dense two_state 1 = Ok (mkV [mkE 0 (dint (-4) : num_double); mkE 1 (d1 : num_double)] false).
Proof. calcs. Qed.
Lemma other_runs : let v := got (GetSparseRowOfBInverted T_other two_state 0) in
  GetSparseRowOfBInverted T_other two_state 0 = Ok v /\ dirty v = true /\ deqb (value v 0) (ddiv d1 (dint 2)) = false.
Proof. cbv zeta. calcs. Qed.
Lemma listed_runs : let v := got (GetSparseRowOfBInverted T_listed two_state 1) in
  let w := got (GetSparseColumnOfBInverted T_listed two_state 0) in
  GetSparseRowOfBInverted T_listed two_state 1 = Ok v /\ GetSparseColumnOfBInverted T_listed two_state 0 = Ok w /\
  deqb (value v 0) (value w 1) = false.
Proof. cbv zeta. calcs. Qed.
Definition second_column : gcol := match g_cols (lp two_state) with [_; g] => g | _ => mkGCol d0 d0 d0 "" [] end.
Lemma product_runs : let v := got (GetSparseRowOfBInvertedTimesA T_dense two_state 0) in
  let w := got (GetSparseColumnOfBInvertedTimesA T_dense two_state 1) in
  at_ (g_cols (lp two_state)) 1 = Ok second_column /\
  GetSparseRowOfBInvertedTimesA T_dense two_state 0 = Ok v /\ GetSparseColumnOfBInvertedTimesA T_dense two_state 1 = Ok w /\
  deqb (value v 1) (value w 0) = false.
Proof. cbv zeta. calcs. Qed.
Lemma ray_runs : GetDualValues T_dense two_state = [d0; d0] /\
  GetRowActivities T_dense two_state = [dint 7; dint 8] /\
  GetPrimalRay T_dense two_state = Ok [dm1; dint 2] /\ GetDualRay T_dense two_state = Ok [dint (-3); dopp d0].
Proof. calcs. Qed.
Lemma other_positions i y : at_ (dense (inverse_row T_other two_state 0)) i = Ok y ->
  is0 (y : num_double) = negb (existsb (Z.eqb i) (support (inverse_row T_other two_state 0))).
Proof.
  intros H. pose proof (at_in_range _ _ _ H) as R. cbn in R. assert (R' : i = 0 \/ i = 1) by lia.
  destruct R' as [-> | ->]; cbn in H; injection H as <-; calc.
Qed.
