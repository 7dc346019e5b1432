(** Property theorems C18-C24 (problems, their internal copy, solutions).
    Specification vocabulary: [ProblemSpec].  Models: [Problem], [MipData]. *)
From Coq Require Import String List ZArith Bool Lia Permutation.
From Verif Require Import Outcome Num Double DoubleFacts DoubleExact SparseVector SparseMatrix
  MatrixSpec Problem MipData ProblemSpec MipDataProofs.
Import ListNotations.
Open Scope Z_scope.
Open Scope string_scope.

Definition one_half : double := ddiv (dint 1) (dint 2).
Definition three_halves : double := ddiv (dint 3) (dint 2).

(** max 2x - 3y + 7.5 with x integer in [0, 4], y free; rows listed in unsorted order. *)
Definition small_problem (max : bool) : problem :=
  mkProblem "small"
    [mkVar "x" (dint 2) d0 (dint 4) true; mkVar "y" (dint (-3)) dminf dinf false;
     mkVar "z" d0 (dint (-1)) (dint 1) true]
    [mkCon "r0" [2; 0] [dint 5; three_halves] dminf (dint 9);
     mkCon "r1" [0; 2] [dint 4; dint (-6)] (dint 1) (dint 11);
     mkCon "r2" [1] [dint 8] (dint 1) (dint 1)] [] max three_halves.

Lemma small_problem_ok max : problem_ok (small_problem max).
Proof.
  split; repeat constructor; cbn; try discriminate; try lia; try (intros [H|H]; lia); try (intros []; lia); auto.
Qed.
Lemma small_problem_bounds max : integer_bounds_ordered (small_problem max).
Proof. repeat constructor; cbn; auto; discriminate. Qed.

(** Its internal copy. *)
Definition small_data : mip_data :=
  Eval vm_compute in match MipData (small_problem true) with
  | Ok d => d
  | _ => mkData "" true d0 vempty [] [] [] [] [] [] [] [] [] [] (mat_new 0 0)
  end.

(** C18, full statement: a problem is accepted iff it has none of the listed defects.
    It is false of the code: a constraint may name the index just past the last variable. *)
Theorem C18_rejects_refuted : exists p, FindError p = None /\ ~ problem_ok p /\
  exists c, In c (p_cons p) /\ In (num_vars p) (c_idx c).
Proof.
  exists (mkProblem "p" [mkVar "x" d1 d0 d1 true] [mkCon "r" [1] [d1] d0 d1] [] false d0).
  split; [reflexivity|]. split.
  - intros [_ H]. inversion H as [|? ? (_ & B & _) _]; subst. inversion B; subst. cbn in *. lia.
  - eexists. split; [left; reflexivity|]. left. reflexivity.
Qed.
Print Assumptions C18_rejects_refuted.

(** C18, what does hold: acceptance is exactly well-formedness with indices 0 .. num_vars
    instead of 0 .. num_vars - 1, so every other defect is rejected and every well-formed
    problem is accepted. Missing: rejection of the index num_vars. *)
Theorem C18_rejects_partial : forall p,
  (FindError p = None <-> problem_ok_upto (num_vars p) p) /\
  (problem_ok p -> FindError p = None) /\
  (FindError p = None -> Forall (fun c => ~ In (num_vars p) (c_idx c)) (p_cons p) -> problem_ok p).
Proof.
  exact (fun p => conj (find_error_iff p) (conj (ok_accepted p) (accepted_in_range p))).
Qed.
Print Assumptions C18_rejects_partial.

Example C18_case : problem_ok (small_problem true) /\ FindError (small_problem true) = None /\
  FindError (mkProblem "p" (p_vars (small_problem true)) [mkCon "r" [2; 0; 2] [d1; d1; d1] d0 d1] [] false d0)
    = Some (RepeatedIndex "r") /\
  FindError (mkProblem "p" (p_vars (small_problem true)) [mkCon "r" [2; 4] [d1; d1] d0 d1] [] false d0)
    = Some (NoSuchVariable 4) /\
  FindError (mkProblem "p" [mkVar "x" d1 d1 d0 true] [] [] false d0) = Some (VariableBounds "x").
Proof. split; [apply small_problem_ok|]. repeat split. Qed.

(** C19, full statement: every accepted problem can be loaded and its matrix read. False
    twice: with the index past the end the load succeeds but reading any column is
    undefined behaviour, and a NaN bound on an integer variable is accepted but aborts. *)
Theorem C19_loads_refuted :
  (exists p d, FindError p = None /\ MipData p = Ok d /\
     0 <= 0 < num_vars p /\ col (matrix d) 0 = UB) /\
  (exists p, FindError p = None /\ MipData p = Abort).
Proof.
  split.
  - set (p := mkProblem "p" [mkVar "x" d1 d0 d1 true] [mkCon "r" [1] [d1] d0 d1] [] false d0).
    exists p, ltac:(let d := eval vm_compute in (MipData p) in match d with Ok ?x => exact x end).
    split; [reflexivity|]. split; [vm_compute; reflexivity|]. split; [cbn; lia|].
    reflexivity.
  - exists (mkProblem "p" [mkVar "x" d1 dnan d1 true] [] [] false d0). split; reflexivity.
Qed.
Print Assumptions C19_loads_refuted.

(** C19, what does hold: a well-formed problem without NaN bounds on integer variables
    loads, and any sequence of in-range reads of its matrix succeeds and shows the input
    coefficients. Missing: the two cases above. *)
Theorem C19_loads_partial : forall p (reads : list (mop num_double)),
  problem_ok p -> integer_bounds_ordered p ->
  exists d, MipData p = Ok d /\
   (Forall read_call reads ->
    calls_ok (mkA (N := num_double) (num_vars p) (num_cons p) (fun _ _ => d0)) reads ->
    exists m, mrun (matrix d) reads = Ok m /\
      reads_as m (num_vars p) (num_cons p) (fun j r => no_neg0 (input_coef p j r))).
Proof. exact loaded_reads. Qed.
Print Assumptions C19_loads_partial.

Example C19_case : problem_ok (small_problem true) /\ integer_bounds_ordered (small_problem true) /\
  MipData (small_problem true) = Ok small_data /\
  exists m, mrun (matrix small_data) [MCol 0; MRow 1; MGet 2 1] = Ok m.
Proof.
  split; [apply small_problem_ok|]. split; [apply small_problem_bounds|].
  split; [vm_compute; reflexivity|]. eexists. reflexivity.
Qed.

(** C20. The internal copy has the input's names, bounds, types, sides and integer set, and
    its matrix shows the input coefficient at every position, 0.0 where none is listed,
    however the input orders the indices. *)
Theorem C20_faithful : forall p, problem_ok p -> integer_bounds_ordered p ->
  exists d, MipData p = Ok d /\
    problem_name d = p_name p /\ hints d = p_hints p /\
    variable_names d = map v_name (p_vars p) /\
    lower_bounds d = map v_lb (p_vars p) /\ upper_bounds d = map v_ub (p_vars p) /\
    variable_is_integer d = map v_int (p_vars p) /\
    constraint_names d = map c_name (p_cons p) /\
    left_hand_sides d = map c_lhs (p_cons p) /\ right_hand_sides d = map c_rhs (p_cons p) /\
    List.length (is_integral_constraint d) = List.length (p_cons p) /\
    NoDup (integer_variables d) /\ (forall j, In j (integer_variables d) <-> is_integer_var p j) /\
    reads_as (matrix d) (num_vars p) (num_cons p) (fun j r => no_neg0 (input_coef p j r)).
Proof. exact faithful. Qed.
Print Assumptions C20_faithful.

Example C20_case : problem_ok (small_problem false) /\ integer_bounds_ordered (small_problem false) /\
  input_coef (small_problem false) 2 0 = dint 5 /\ input_coef (small_problem false) 0 0 = three_halves /\
  input_coef (small_problem false) 1 0 = d0 /\ is_integer_var (small_problem false) 2.
Proof.
  split; [apply small_problem_ok|]. split; [apply small_problem_bounds|]. repeat split.
  exists (mkVar "z" d0 (dint (-1)) (dint 1) true). split; reflexivity.
Qed.

(** C21. The internal objective coefficient of every column is the input's, negated exactly
    if the input maximises (a zero reads as 0.0); so is the offset. *)
Theorem C21_objective : forall p d, problem_ok p -> integer_bounds_ordered p -> MipData p = Ok d ->
  was_maximization d = p_max p /\
  (dvalid (p_offset p) = true -> objective_offset d = if p_max p then dopp (p_offset p) else p_offset p) /\
  (forall j, value (objective d) j =
     let c := input_objective p j in
     if deqb c d0 then d0 else if p_max p then dopp c else c).
Proof. exact objective_of. Qed.
Print Assumptions C21_objective.

(** C21, values: at every point the exact internal objective is the input's, negated if the
    input maximises. *)
Theorem C21_objective_value : forall p d z, problem_ok p -> integer_bounds_ordered p ->
  MipData p = Ok d -> finite_objective p ->
  linear (value (objective d)) (List.length (p_vars p)) z =
  (if p_max p then -1 else 1) * linear (input_objective p) (List.length (p_vars p)) z.
Proof. exact objective_value. Qed.
Print Assumptions C21_objective_value.

Example C21_case : problem_ok (small_problem true) /\ integer_bounds_ordered (small_problem true) /\
  MipData (small_problem true) = Ok small_data /\ finite_objective (small_problem true) /\
  value (objective small_data) 1 = dint 3 /\ objective_offset small_data = dopp three_halves /\
  linear (value (objective small_data)) 3 (fun j => j + 1) = 4 * zone.
Proof.
  split; [apply small_problem_ok|]. split; [apply small_problem_bounds|].
  split; [vm_compute; reflexivity|]. split; [repeat constructor|]. repeat split; vm_compute; reflexivity.
Qed.

(** C22, full statement: a row marked integral has integral slacks. False: the mark ignores
    the sides. Here x <= 3/2 with x integer is marked, and no slack is ever integral. *)
Theorem C22_slack_refuted : exists p d r c, problem_ok p /\ integer_bounds_ordered p /\
  MipData p = Ok d /\ nth_con p r = Some c /\ at_ (is_integral_constraint d) r = Ok true /\
  finite_coefs c /\ is_finite (c_rhs c) = true /\
  forall z, ~ is_whole (zval (c_rhs c) - activity c z).
Proof.
  set (p := mkProblem "p" [mkVar "x" d1 d0 (dint 9) true] [mkCon "r" [0] [d1] d0 three_halves] [] false d0).
  assert (A : problem_ok p).
  { split; repeat constructor; cbn; try discriminate; try lia; auto. }
  assert (B : integer_bounds_ordered p) by (repeat constructor).
  exists p, ltac:(let d := eval vm_compute in (MipData p) in match d with Ok ?x => exact x end), 0,
    (mkCon "r" [0] [d1] d0 three_halves).
  assert (M : MipData p = Ok ltac:(let d := eval vm_compute in (MipData p) in match d with Ok ?x => exact x end))
    by (vm_compute; reflexivity).
  split; [exact A|]. split; [exact B|]. split; [exact M|]. split; [reflexivity|].
  split; [reflexivity|]. split; [repeat constructor|]. split; [reflexivity|].
  intros z. eapply (slack_not_whole p _ 0 _ z A B M); [reflexivity|reflexivity|repeat constructor|].
  intros [k K]. assert (E : 2 * zval three_halves = 3 * zone) by (vm_compute; reflexivity).
  cbn [c_rhs] in K. pose proof zone_pos. rewrite K in E.
  assert (2 * k = 3) by (apply (Z.mul_reg_r _ _ zone); lia). lia.
Qed.
Print Assumptions C22_slack_refuted.

(** C22, what does hold: a marked row has whole coefficients on integer variables only, and
    if the side is a whole number its slack is whole at every integer point. Missing: that
    a finite side of a marked row is whole. *)
Theorem C22_slack_partial : forall p d r c, problem_ok p -> integer_bounds_ordered p ->
  MipData p = Ok d -> nth_con p r = Some c -> at_ (is_integral_constraint d) r = Ok true ->
  Forall (fun q => deqb (snd q) d0 = true \/
            (IsIntegralCoefficient (snd q) = true /\ is_integer_var p (fst q))) (terms c) /\
  forall z, finite_coefs c ->
    (is_whole (zval (c_rhs c)) -> is_whole (zval (c_rhs c) - activity c z)) /\
    (is_whole (zval (c_lhs c)) -> is_whole (activity c z - zval (c_lhs c))).
Proof.
  exact (fun p d r c A B C D E => conj (flag_iff p d r c A B C D E)
           (fun z F => slack_whole p d r c z A B C D E F)).
Qed.
Print Assumptions C22_slack_partial.

(** C22: the coefficient test passes exactly the whole numbers. *)
Theorem C22_integral_coefficient : forall x, dvalid x = true -> is_finite x = true ->
  (IsIntegralCoefficient x = true <-> is_whole (zval x)).
Proof. exact integral_coefficient_iff. Qed.
Print Assumptions C22_integral_coefficient.

Example C22_case : exists c, MipData (small_problem true) = Ok small_data /\
  nth_con (small_problem true) 1 = Some c /\ at_ (is_integral_constraint small_data) 1 = Ok true /\
  at_ (is_integral_constraint small_data) 0 = Ok false /\ at_ (is_integral_constraint small_data) 2 = Ok false /\
  finite_coefs c /\ is_whole (zval (c_rhs c)) /\
  zval (c_rhs c) - activity c (fun j => j) = 23 * zone.
Proof.
  eexists. split; [vm_compute; reflexivity|]. split; [reflexivity|].
  repeat (split; [reflexivity|]). split; [repeat constructor|]. split; [exists 11|]; vm_compute; reflexivity.
Qed.

(** C23. After adding any non-empty sequence of solutions, the best one and the additional
    ones are together a rearrangement of everything added; all solutions added before the
    best one are strictly worse and none added after it is better. *)
Theorem C23_best : forall l, l <> [] ->
  Forall (fun s => is_nan (s_obj s) = false /\ dltb (s_obj s) dinf = true) l ->
  let r := AddSolutions res_default l in
  Permutation (best r :: additional r) l /\
  exists l1 l2, l = (l1 ++ best r :: l2)%list /\
    Forall (fun s => dltb (s_obj (best r)) (s_obj s) = true) l1 /\
    Forall (fun s => dleb (s_obj (best r)) (s_obj s) = true) l2.
Proof. exact add_solutions_spec. Qed.
Print Assumptions C23_best.

Example C23_case :
  let l := [mkSol [d0] (dint 5); mkSol [d1] (dint 3); mkSol [d0] (dint 4); mkSol [dm1] (dint 3)] in
  Forall (fun s => is_nan (s_obj s) = false /\ dltb (s_obj s) dinf = true) l /\
  best (AddSolutions res_default l) = mkSol [d1] (dint 3) /\
  additional (AddSolutions res_default l) = [mkSol [d0] (dint 5); mkSol [d0] (dint 4); mkSol [dm1] (dint 3)].
Proof. split; [repeat constructor|]. split; reflexivity. Qed.

(** C24. For every point with a value for each integer variable and every finite
    tolerance, the check is defined and true exactly if every integer variable's value is
    finite and within the tolerance of some integer. *)
Theorem C24_integral : forall order x tol, Forall (fun i => 0 <= i < Z.of_nat (List.length x)) order ->
  Forall (fun v => dvalid v = true) x -> dvalid tol = true -> is_finite tol = true ->
  exists b, SolutionIsIntegral order x tol = Ok b /\
    (b = true <-> forall i v, In i order -> at_ x i = Ok v -> is_finite v = true /\ near_integer v tol).
Proof. exact solution_is_integral. Qed.
Print Assumptions C24_integral.

(** C24: the iteration order of the set of integer variables does not matter. *)
Theorem C24_order : forall o1 o2 x tol, Permutation o1 o2 ->
  Forall (fun i => 0 <= i < Z.of_nat (List.length x)) o1 ->
  SolutionIsIntegral o1 x tol = SolutionIsIntegral o2 x tol.
Proof. exact solution_order. Qed.
Print Assumptions C24_order.

(** C24: with tolerance zero only integers are near an integer. *)
Theorem C24_zero_tolerance : forall x, near_integer x d0 <-> is_whole (zval x).
Proof. exact near_zero. Qed.
Print Assumptions C24_zero_tolerance.

Example C24_case :
  SolutionIsIntegral [2; 0] [dint 3; one_half; dsub (dint 2) (ddiv (dint 1) (dint 1000))] (ddiv (dint 1) (dint 100)) = Ok true /\
  SolutionIsIntegral [2; 1] [dint 3; one_half; dsub (dint 2) (ddiv (dint 1) (dint 1000))] (ddiv (dint 1) (dint 100)) = Ok false /\
  SolutionIsIntegral [0] [dinf] (dint 1) = Ok false.
Proof. repeat split; vm_compute; reflexivity. Qed.
