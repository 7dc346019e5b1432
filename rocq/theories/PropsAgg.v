(** Properties C34-C40: the rounding cut generator. *)
From Coq Require Import String List ZArith QArith Qround Qabs Bool Sorted Lia Lqa.
From Verif Require Import Outcome Num Double SparseVector VectorSpec SolverSpec CutsData Aggregation AggSpec
  AggProofs AggValid AggDefined AggNames AggCases.
Import ListNotations.
Open Scope Z_scope.

(** *** C34 *)
(** Aggregation.  The variable part is the weighted sum of the rows, the right-hand side the
    weighted sum of the chosen sides, a slack gets its weight with the sign of its side; at every
    point variables and slacks add up to the right-hand side. *)
Theorem C34_aggregation : forall V (w : svec arith_Q) sides g, clean_row w ->
  AggregateByWeight V w sides = Ok g ->
  forall x,
  (lin idQ (a_var g) x ==
     q_sum (map (fun e : entry arith_Q => (val e : Q) * row_value V x (idx e)) (ents w)) /\
   (a_rhs g : Q) ==
     q_sum (map (fun e : entry arith_Q => (val e : Q) * chosen_side V sides (idx e)) (ents w)) /\
   lin idQ (a_slack g) (slack idQ V sides x) ==
     q_sum (map (fun e : entry arith_Q =>
       (match at_ sides (idx e) with Ok true => 1 | _ => -1 end) * (val e : Q) *
       slack idQ V sides x (idx e)) (ents w)) /\
   lin idQ (a_var g) x + lin idQ (a_slack g) (slack idQ V sides x) == (a_rhs g : Q))%Q.
Proof. exact aggregation_ok. Qed.
Print Assumptions C34_aggregation.

(** Substituting the slacks back: whatever the coefficients of the slacks have become, the
    inequality is the same at every point, and no slack is left. *)
Theorem C34_substitution : forall V (w : svec arith_Q) sides g var slk rhs g', clean_row w ->
  AggregateByWeight V w sides = Ok g ->
  (forall e : entry arith_Q, In e (ents slk) -> holds w (idx e)) ->
  SubstituteSlack V (mkAgg var slk (a_sign g) (a_side g) rhs) = Ok g' ->
  ents (a_slack g') = [] /\
  forall x, (lin idQ (a_var g') x - (a_rhs g' : Q) ==
     lin idQ var x + lin idQ slk (slack idQ V sides x) - (rhs : Q))%Q.
Proof. exact substitution_ok. Qed.
Print Assumptions C34_substitution.

(** Half of 2x + 2y <= 3: x + y + s/2 = 3/2; replacing s gives 0 <= 0. *)
Example C34_case : clean_row (row_Q [T 0 (1 # 2)]) /\
  AggregateByWeight lpA (row_Q [T 0 (1 # 2)]) [true] = Ok aggA /\
  (lin idQ (a_var aggA) (pt [1; 7]%Q) == 8)%Q /\ ((a_rhs aggA : Q) == 3 # 2)%Q /\
  (lin idQ (a_slack aggA) (slack idQ lpA [true] (pt [1; 7]%Q)) == - (13 # 2))%Q /\
  SubstituteSlack lpA aggA = Ok subA /\ ents (a_slack subA) = [] /\
  (lin idQ (a_var subA) (pt [1; 7]%Q) - (a_rhs subA : Q) == 0)%Q.
Proof. split; [clean_tac|]. repeat split. Qed.

(** The side of each row: never an infinite one if the other is finite, otherwise the one nearer to
    the row's activity, the right-hand side when they are equally near. *)
Theorem C34_side : forall (V : view arith_Q) acts sides r (b : bool) (a lo hi : arith_Q),
  choose_sides V 0 acts = Ok sides -> at_ sides r = Ok b -> at_ acts r = Ok a ->
  at_ (lp_lhs V) r = Ok lo -> at_ (lp_rhs V) r = Ok hi ->
  (is_inf V hi = true -> b = false) /\
  (is_inf V hi = false -> is_inf V (- lo)%Q = true -> b = true) /\
  (is_inf V hi = false -> is_inf V (- lo)%Q = false -> ((lo : Q) < hi)%Q ->
     (b = true <-> ((hi : Q) - a <= a - lo)%Q)).
Proof. exact nearer_side. Qed.
Print Assumptions C34_side.

(** 0 <= x <= 3 at activities 1 and 2, x <= 3 and x >= 0. *)
Definition lpS : view arith_Q :=
  @mkView arith_Q [row_Q [T 0 1]; row_Q [T 0 1]; row_Q [T 0 1]; row_Q [T 0 1]]
    [0; 0; - big; 0]%Q [3; 3; 3; big]%Q [0]%Q [big]%Q inf_Q true true (Ok [1; 2; 1; 1]%Q) (Ok [1]%Q)
    [0; -1; -1; -1] (fun _ => Err Internal) [0] [true; true; true; true] 0%Q.
Example C34_side_case : choose_sides lpS 0 [1; 2; 1; 1]%Q = Ok [false; true; true; false].
Proof. reflexivity. Qed.

(** *** C35 *)
(** Shifting.  It gives up exactly if some variable of the row is unbounded on both sides;
    otherwise the row over the shifted variables is the same at every point. *)
Theorem C35_shift : forall V (g t : agg arith_Q) b, TransformToNonNegative V g = Ok (t, b) ->
  (b = false <-> exists e : entry arith_Q, In e (ents (a_var g)) /\ free_column V (idx e)) /\
  a_slack t = a_slack g /\ a_sign t = a_sign g /\ a_side t = a_side g /\
  (b = true -> forall x, (lin idQ (a_var t) (shifted V x) - (a_rhs t : Q) ==
                          lin idQ (a_var g) x - (a_rhs g : Q))%Q).
Proof. exact shift_ok. Qed.
Print Assumptions C35_shift.

(** The shifted variables are non-negative inside the bounds. *)
Theorem C35_nonnegative : forall V x, view_ok V -> in_box idQ V x ->
  forall j lo hi, at_ (lp_lb V) j = Ok lo -> at_ (lp_ub V) j = Ok hi -> ~ free_column V j ->
  (0 <= shifted V x j)%Q.
Proof. exact box_shifted. Qed.
Print Assumptions C35_nonnegative.

(** Shifting back turns any inequality over the shifted variables into the same one over the
    original variables. *)
Theorem C35_back : forall V (u t : agg arith_Q) b, TransformBack V u = Ok (t, b) ->
  (b = false <-> exists e : entry arith_Q, In e (ents (a_var u)) /\ free_column V (idx e)) /\
  a_slack t = a_slack u /\ a_sign t = a_sign u /\ a_side t = a_side u /\
  (b = true -> forall x, (lin idQ (a_var t) x - (a_rhs t : Q) ==
                          lin idQ (a_var u) (shifted V x) - (a_rhs u : Q))%Q).
Proof. exact back_ok. Qed.
Print Assumptions C35_back.

(** x with bounds -1/2 and 10: 4x = 5 becomes 4x' = 7 with x' = x + 1/2, and back; a variable
    without bounds stops the shift. *)
Example C35_case :
  TransformToNonNegative lpB aggB = Ok (shiftB, true) /\ ((a_rhs shiftB : Q) == 7)%Q /\
  (shifted lpB (pt [1%Q]) 0 == 3 # 2)%Q /\ TransformBack lpB shiftB = Ok (backB, true) /\
  ((a_rhs backB : Q) == 5)%Q /\
  match TransformToNonNegative lpB_free aggB with Ok (_, b) => b = false | _ => False end.
Proof. repeat split. Qed.

(** *** C36 and C37 *)
(** C36, full statement: every MIR cut holds at every mixed-integer point of the node's LP.
    False in exact arithmetic with zero tolerance and with the row flags that MipData computes
    (they ignore the sides): for x <= 3/2 with x integer the cut is 0 <= -1/2. *)
Theorem C36_mir_refuted : exists V cuts c x, view_ok V /\ computed_flags V /\ (tol V == 0)%Q /\
  Generate V [MIR] 10 = Ok cuts /\ In c cuts /\ node_point idQ V x /\
  ~ (lin idQ (c_row c) x <= (c_rhs c : Q))%Q /\ ents (c_row c) = [].
Proof.
  exists lpF, [mkcut [] (-1 # 2) "MIR0"], (mkcut [] (-1 # 2) "MIR0"), (pt [1%Q]).
  split; [exact lpF_ok|]. split; [exact lpF_flags|]. split; [reflexivity|]. split; [exact lpF_cuts|].
  split; [left; reflexivity|]. split; [exact lpF_point|]. split; [|reflexivity].
  intros H. vm_compute in H. apply H. reflexivity.
Qed.
Print Assumptions C36_mir_refuted.

(** The same in doubles, with the default tolerance: the cut row is empty, the side -0.5. *)
Example C36_double : Generate lpFd [MIR] 100 = Ok [cutFd] /\ ents (c_row cutFd) = [] /\
  c_rhs cutFd = d_half (-1).
Proof. split; [vm_cast_no_check (eq_refl (Ok [cutFd]))|]. split; reflexivity. Qed.

(** It also fails for a fractional bound of an integer variable (4x <= 5, x >= -1/2 gives
    x <= 1/2), and for coefficients below the tolerance (x - 1e-7 y <= 1/2 gives x <= 0). *)
Theorem C36_bound_refuted : exists V cuts c x, view_ok V /\ computed_flags V /\ (tol V == 0)%Q /\
  (forall r a hi e, at_ (lp_rows V) r = Ok a -> at_ (lp_rhs V) r = Ok hi -> In e (ents a) ->
     integer (val e) /\ integer hi) /\
  Generate V [MIR] 10 = Ok cuts /\ In c cuts /\ node_point idQ V x /\
  ~ (lin idQ (c_row c) x <= (c_rhs c : Q))%Q.
Proof.
  exists lpB, [mkcut [T 0 1] (1 # 2) "MIR0"], (mkcut [T 0 1] (1 # 2) "MIR0"), (pt [1%Q]).
  split; [exact lpB_ok|]. split; [exact lpB_flags|]. split; [reflexivity|]. split.
  { intros r a hi e Ha Hh He. apply at1 in Ha as [_ ->]. apply at1 in Hh as [_ ->].
    destruct He as [<-|[]]. split; [exists 4|exists 5]; reflexivity. }
  split; [exact lpB_cuts|]. split; [left; reflexivity|]. split; [exact lpB_point|].
  intros H. vm_compute in H. apply H. reflexivity.
Qed.
Print Assumptions C36_bound_refuted.

Theorem C36_tolerance_refuted : exists V cuts c x, view_ok V /\ computed_flags V /\
  (tol V == 1 # 1000000)%Q /\
  (forall j lo hi, at_ (lp_lb V) j = Ok lo -> at_ (lp_ub V) j = Ok hi -> integer lo /\ integer hi) /\
  Generate V [MIR] 10 = Ok cuts /\ In c cuts /\ node_point idQ V x /\
  ~ (lin idQ (c_row c) x <= (c_rhs c : Q))%Q.
Proof.
  exists lpT, [mkcut [T 0 1] 0 "MIR0"], (mkcut [T 0 1] 0 "MIR0"), (pt [1; 6000000]%Q).
  split; [exact lpT_ok|]. split; [exact lpT_flags|]. split; [reflexivity|]. split.
  { intros j lo hi H1 H2. split.
    - exists 0. apply at2 in H1 as [[_ ->]|[_ ->]]; reflexivity.
    - exists 100000000000000000000. apply at2 in H2 as [[_ ->]|[_ ->]]; reflexivity. }
  split; [exact lpT_cuts|]. split; [left; reflexivity|]. split; [exact lpT_point|].
  intros H. vm_compute in H. apply H. reflexivity.
Qed.
Print Assumptions C36_tolerance_refuted.

(** C37, full statement, is false for the same reason. *)
Theorem C37_scg_refuted : exists V cuts c x, view_ok V /\ computed_flags V /\ (tol V == 0)%Q /\
  Generate V [SCG] 10 = Ok cuts /\ In c cuts /\ node_point idQ V x /\
  ~ (lin idQ (c_row c) x <= (c_rhs c : Q))%Q.
Proof.
  exists lpF, [mkcut [] (-2 # 4) "SCG0"], (mkcut [] (-2 # 4) "SCG0"), (pt [1%Q]).
  split; [exact lpF_ok|]. split; [exact lpF_flags|]. split; [reflexivity|]. split; [exact lpF_scg|].
  split; [left; reflexivity|]. split; [exact lpF_point|].
  intros H. vm_compute in H. apply H. reflexivity.
Qed.
Print Assumptions C37_scg_refuted.

(** C36, what does hold: with no tolerance, integer bounds of integer variables, and integer
    sides of the rows flagged integral, every MIR cut holds at every mixed-integer point.
    Missing: the data excluded by [integral_data]; rounding errors of doubles. *)
Theorem C36_mir_partial : forall V limit cuts c x, view_ok V -> integral_data V ->
  Generate V [MIR] limit = Ok cuts -> In c cuts -> node_point idQ V x ->
  (lin idQ (c_row c) x <= (c_rhs c : Q))%Q.
Proof. exact mir_only_valid. Qed.
Print Assumptions C36_mir_partial.

(** C37, what does hold; any mix of rounders.  Missing, in addition to C36: right-hand sides that
    are integers, for which the code divides by zero. *)
Theorem C37_scg_partial : forall V ks limit cuts c x, view_ok V -> integral_data V ->
  (In SCG ks -> fractional_rows V) ->
  Generate V ks limit = Ok cuts -> In c cuts -> node_point idQ V x ->
  (lin idQ (c_row c) x <= (c_rhs c : Q))%Q.
Proof. exact generate_valid. Qed.
Print Assumptions C37_scg_partial.

(** 2x + 2y <= 3 gives x + y <= 1 from both rounders; (1, 0) satisfies it with equality. *)
Example C36_C37_case : view_ok lpA /\ integral_data lpA /\ fractional_rows lpA /\
  Generate lpA [MIR; SCG] 1 = Ok cutsA /\ length cutsA = 2%nat /\ node_point idQ lpA (pt [1; 0]%Q) /\
  forall c, In c cutsA -> lin idQ (c_row c) (pt [1; 0]%Q) == (c_rhs c : Q).
Proof.
  split; [exact lpA_ok|]. split; [exact lpA_data|]. split; [exact lpA_fractional|].
  split; [exact lpA_cuts|]. split; [reflexivity|]. split; [exact lpA_point|].
  intros c [<-|[<-|[]]]; reflexivity.
Qed.

(** Strong CG gives a row up exactly if a slack is not integral or has a negative coefficient, or
    an integer variable has a negative coefficient.  (The comment in the code speaks of continuous
    variables.) *)
Theorem C37_declines : forall (V : view arith_Q) (g : agg arith_Q),
  Forall (fun e : entry arith_Q => exists b, at_ (integral_rows V) (idx e) = Ok b) (ents (a_slack g)) ->
  (CGRound V g = Ok None <->
   (exists e : entry arith_Q, In e (ents (a_slack g)) /\
      (at_ (integral_rows V) (idx e) = Ok false \/ ((val e : Q) < 0)%Q)) \/
   (exists e : entry arith_Q, In e (ents (a_var g)) /\ In (idx e) (ints V) /\ ((val e : Q) < 0)%Q)).
Proof. exact cg_declines. Qed.
Print Assumptions C37_declines.

(** -x + 2z <= 1: no cut, although all data are integral and MIR finds one. *)
Example C37_declines_case : Generate lpG [SCG] 10 = Ok [] /\
  Generate lpG [MIR] 10 = Ok [mkcut [T 0 (-1); T 1 1] 0 "MIR0"].
Proof. split; vm_compute; reflexivity. Qed.

(** A value within the tolerance of an integer counts as that integer: its fractional part is 0
    and both roundings of such a coefficient give the integer. *)
Theorem C36_C37_snaps : forall (V : view arith_Q) (c : arith_Q) z, (tol V < 1 # 2)%Q ->
  (Qabs (c - inject_Z z) <= tol V)%Q ->
  (Fractionality V c == 0)%Q /\
  (forall f0 : arith_Q, (0 <= (f0 : Q))%Q -> (MIRRoundInteger V c f0 == inject_Z z)%Q) /\
  (forall k f0 : arith_Q, (0 <= (f0 : Q))%Q -> (CGRoundInteger V c k f0 == inject_Z z)%Q).
Proof. exact snaps. Qed.
Print Assumptions C36_C37_snaps.

(** 3 - 1e-7 with tolerance 1e-6. *)
Example C36_C37_snaps_case : (tol lpT < 1 # 2)%Q /\
  (Qabs ((29999999 # 10000000) - inject_Z 3) <= tol lpT)%Q.
Proof. split; [reflexivity|]. vm_compute. discriminate. Qed.

(** *** C38 *)
(** Full statement: false.  At a node with x >= 0 the row -x + 2z <= 1 gives -x + z <= 0, which
    cuts off x = -1, z = 0, a point of the root with x >= -3.  All data are integral. *)
Theorem C38_global_refuted : exists V lb0 ub0 cuts c x, view_ok V /\ computed_flags V /\
  integral_data V /\ tighter V lb0 ub0 /\
  Generate V [MIR] 10 = Ok cuts /\ In c cuts /\
  satisfies_rows idQ V x /\ in_root_box V lb0 ub0 x /\ integral_at (ints V) x /\
  ~ (lin idQ (c_row c) x <= (c_rhs c : Q))%Q.
Proof.
  exists lpG, [-3; 0]%Q, [5; 5]%Q, [mkcut [T 0 (-1); T 1 1] 0 "MIR0"], (mkcut [T 0 (-1); T 1 1] 0 "MIR0"), (pt [-1; 0]%Q).
  split; [exact lpG_ok|]. split; [exact lpG_flags|]. split; [exact lpG_data|]. split.
  { intros j lo hi H1 H2. apply at2 in H1. apply at2 in H2.
    destruct H1 as [[-> ->]|[-> ->]]; destruct H2 as [[H2 ->]|[H2 ->]]; try discriminate;
    eexists; eexists; repeat split; vm_compute; discriminate. }
  split; [exact lpG_cuts|]. split; [left; reflexivity|]. split.
  { intros r a lo hi Ha H1 H2. apply at1 in Ha as [_ ->]. apply at1 in H1 as [_ ->].
    apply at1 in H2 as [_ ->]. split; intros I; vm_compute in I |- *; discriminate. }
  split.
  { intros j lo hi H1 H2. apply at2 in H1. apply at2 in H2.
    destruct H1 as [[-> ->]|[-> ->]]; destruct H2 as [[H2 ->]|[H2 ->]]; try discriminate;
    split; intros I; vm_compute in I |- *; discriminate. }
  split.
  { intros j [<-|[<-|[]]]; [exists (-1)|exists 0]; reflexivity. }
  intros H. vm_compute in H. apply H. reflexivity.
Qed.
Print Assumptions C38_global_refuted.

(** What does hold: a cut is valid for the root if every variable is non-negative at the root or
    has its root bounds at the node.  Missing: variables that may be negative at the root and
    whose bounds were changed. *)
Theorem C38_global_partial : forall V lb0 ub0 ks limit cuts c x, view_ok V -> integral_data V ->
  (In SCG ks -> fractional_rows V) -> tighter V lb0 ub0 ->
  (forall j (lo : arith_Q), at_ lb0 j = Ok lo ->
     (0 <= (lo : Q))%Q \/ (at_ (lp_lb V) j = at_ lb0 j /\ at_ (lp_ub V) j = at_ ub0 j)) ->
  Generate V ks limit = Ok cuts -> In c cuts ->
  satisfies_rows idQ V x -> in_root_box V lb0 ub0 x -> integral_at (ints V) x ->
  (lin idQ (c_row c) x <= (c_rhs c : Q))%Q.
Proof. exact generate_global. Qed.
Print Assumptions C38_global_partial.

(** lpG with x >= 0 at the root as well, where only the upper bound 9 of x was changed. *)
Example C38_case : view_ok lpG /\ integral_data lpG /\ tighter lpG [0; 0]%Q [9; 5]%Q /\
  exists cuts, Generate lpG [MIR] 10 = Ok cuts /\ cuts <> [] /\
  in_root_box lpG [0; 0]%Q [9; 5]%Q (pt [9; 5]%Q) /\ ~ in_box idQ lpG (pt [9; 5]%Q) /\
  satisfies_rows idQ lpG (pt [9; 5]%Q).
Proof.
  split; [exact lpG_ok|]. split; [exact lpG_data|]. split.
  { intros j lo hi H1 H2. apply at2 in H1. apply at2 in H2.
    destruct H1 as [[-> ->]|[-> ->]]; destruct H2 as [[H2 ->]|[H2 ->]]; try discriminate;
    eexists; eexists; repeat split; vm_compute; discriminate. }
  eexists. split; [exact lpG_cuts|]. split; [discriminate|]. split.
  { intros j lo hi H1 H2. apply at2 in H1. apply at2 in H2.
    destruct H1 as [[-> ->]|[-> ->]]; destruct H2 as [[H2 ->]|[H2 ->]]; try discriminate;
    split; intros I; vm_compute in I |- *; discriminate. }
  split.
  { intros H. destruct (H 0 0%Q 5%Q eq_refl eq_refl) as [_ B]. specialize (B eq_refl).
    vm_compute in B. apply B. reflexivity. }
  intros r a lo hi Ha H1 H2. apply at1 in Ha as [_ ->]. apply at1 in H1 as [_ ->].
  apply at1 in H2 as [_ ->]. split; intros I; vm_compute in I |- *; discriminate.
Qed.

(** *** C39 *)
(** Full statement: false.  With one constraint of the problem and one cut row in the LP the
    generator reads the integrality flag of row 1 from a vector of length 1. *)
Theorem C39_cut_rows_refuted : exists (V : view arith_Q) rows cols, view_sized V rows cols /\
  Z.of_nat (length (integral_rows V)) = rows - 1 /\
  Generate V [MIR] 10 = UB /\ Generate V [SCG] 10 = UB.
Proof.
  exists lpC, 2, 2. split; [exact lpC_sized|]. split; [reflexivity|]. split; vm_compute; reflexivity.
Qed.
Print Assumptions C39_cut_rows_refuted.

(** What does hold, for doubles as well as in exact arithmetic: if there is a flag for every row
    the generator neither aborts nor misbehaves.  Missing: LPs with cut rows. *)
Theorem C39_cut_rows_partial : forall (A : Arith) (V : view A) rows cols, view_sized V rows cols ->
  Z.of_nat (length (integral_rows V)) = rows -> forall ks limit, 0 <= limit ->
  settled (Generate V ks limit).
Proof. exact @generate_defined. Qed.
Print Assumptions C39_cut_rows_partial.

Example C39_case : view_sized lpA 1 2 /\ Z.of_nat (length (integral_rows lpA)) = 1.
Proof. split; [exact lpA_sized|reflexivity]. Qed.

(** *** C40 *)
(** Every cut is violated by the LP point, and there is a basic integer variable whose value is
    farther than the tolerance from every integer. *)
Theorem C40_separates : forall V ks limit cuts, view_ok V -> Generate V ks limit = Ok cuts ->
  exists xs, primal V = Ok xs /\
  (forall c, In c cuts -> ((c_rhs c : Q) < lin idQ (c_row c) (dense_point xs))%Q) /\
  (forall c, In c cuts -> exists r j, at_ (basis V) r = Ok j /\ In j (ints V) /\
     forall z, ((tol V : Q) < Qabs (dense_point xs j - inject_Z z))%Q).
Proof. exact generate_separates. Qed.
Print Assumptions C40_separates.

(** In doubles: the activity of the LP point, as computed, is larger than the right-hand side. *)
Theorem C40_double : forall (V : view arith_double) ks limit cuts, Generate V ks limit = Ok cuts ->
  exists xs, primal V = Ok xs /\
  forall c, In c cuts -> dltb (c_rhs c) (DotProduct (N := num_double) (c_row c) (of_dense (N := num_double) xs)) = true.
Proof. exact generate_removes. Qed.
Print Assumptions C40_double.

(** The limit, full statement: false, both rounders run before it is looked at again. *)
Theorem C40_limit_refuted : exists V cuts, view_ok V /\ integral_data V /\
  Generate V [MIR; SCG] 1 = Ok cuts /\ length cuts = 2%nat.
Proof.
  exists lpA, cutsA. split; [exact lpA_ok|]. split; [exact lpA_data|]. split; [exact lpA_cuts|reflexivity].
Qed.
Print Assumptions C40_limit_refuted.

(** What does hold: the limit is exceeded by less than the number of rounders, and with limit 0
    there are no cuts unless there is more than one rounder; a negative limit aborts or fails. *)
Theorem C40_limit_partial : forall (A : Arith) (V : view A) ks limit cuts,
  Generate V ks limit = Ok cuts ->
  Z.of_nat (length cuts) <= Z.max 0 (limit - 1 + Z.of_nat (length ks)).
Proof. exact (fun A V ks limit cuts G => proj2 (generate_trace V ks limit cuts G)). Qed.
Print Assumptions C40_limit_partial.

Example C40_case : view_ok lpA /\ Generate lpA [MIR; SCG] 1 = Ok cutsA /\
  Generate lpA [MIR; SCG] 0 = Ok [] /\ Generate lpA [MIR; SCG] (-1) = Abort.
Proof.
  split; [exact lpA_ok|]. split; [exact lpA_cuts|]. split; vm_compute; reflexivity.
Qed.

(** What is returned: the cuts, in order, with their names, neither forced nor active, each with
    the efficacy at the LP point. *)
Theorem C40_returned : forall (V : view arith_double) ks limit obj cuts,
  GenerateCuttingPlanes V ks limit obj = Ok cuts ->
  exists raw xs, Generate V ks limit = Ok raw /\ primal V = Ok xs /\
  Forall2 (fun (c : raw_cut arith_double) d => row d = c_row c /\ right_hand_side d = c_rhs c /\
     name d = c_name c /\ is_forced d = false /\ is_active d = false /\
     efficacy d = ComputeEfficacy (c_row c) (c_rhs c) (of_dense (N := num_double) xs)) raw cuts.
Proof. exact generated_data. Qed.
Print Assumptions C40_returned.

Example C40_returned_case : match GenerateCuttingPlanes lpFd [MIR] 100 vempty with
  Ok [d] => is_forced d = false /\ name d = "MIR0"%string | _ => False end.
Proof. vm_compute. split; reflexivity. Qed.

(** The names: a cut is called after its rounder and the number of cuts the row has already given,
    so there are only three names, and they do not identify a cut. *)
Theorem C40_names : forall (A : Arith) (V : view A) mir scg limit cuts,
  Generate V (make_rounders mir scg) limit = Ok cuts ->
  forall c, In c cuts -> (mir = true /\ c_name c = "MIR0"%string) \/
    (scg = true /\ (c_name c = "SCG0"%string \/ (mir = true /\ c_name c = "SCG1"%string))).
Proof. intros A V. exact (generate_names V). Qed.
Print Assumptions C40_names.

Example C40_names_case : Generate lpA (make_rounders true true) 1 = Ok cutsA /\
  map (fun c : raw_cut arith_Q => c_name c) cutsA = ["MIR0"%string; "SCG1"%string] /\
  exists cuts, Generate lpB (make_rounders false true) 10 = Ok cuts /\
    map (fun c : raw_cut arith_Q => c_name c) cuts = ["SCG0"%string].
Proof.
  split; [exact lpA_cuts|]. split; [reflexivity|]. eexists. split; [exact lpB_scg|reflexivity].
Qed.
