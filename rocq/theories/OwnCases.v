(** A tableau for the engine of [WholeCases], and problems for the solver with its own generator. *)
From Coq Require Import String List ZArith Bool QArith Lia SpecFloat.
From Verif Require Import Outcome OutcomeFacts Num Double DoubleFacts Rounding SparseVector VectorSpec Aggregation
  Problem MipData ProblemSpec CutsData Selector Runner CutSpec CutProofs LpParams GlopLp GlopIface GlopSpec
  GlopProofs SoplexIface Branching Params ReaderSpec Solver SolverSpec SolverCases GlopCases SoplexCases
  Whole WholeSpec WholeTables SolverProofs WholeCases GlopSolution TableauSpec Own OwnSpec.
Import ListNotations.
Open Scope Z_scope.

(** *** The tableau: the variable is basic if its value is the limit of a row *)
Definition tight (w : lw) : option (nat * double) := tight_at (lw_lp w) (lw_x w).
Definition coefs_of (w : lw) : list double := coefs_at (lw_lp w).
Definition coef_of (w : lw) (r : Z) : double := coef_at (lw_lp w) r.
Definition inverse_at (w : lw) (r i : Z) : double := inverse_entry (lw_lp w) (lw_x w) r i.
Definition line_tableau ok : tableau (line ok) :=
  mkTab (line ok)
    (fun w r => match tight w with Some (k, _) => if r =? Z.of_nat k then 0 else 1 + r | None => 1 + r end)
    (fun w r => mkSc (map (fun i => inverse_at w r (Z.of_nat i)) (seq 0 (length (coefs_of w)))) [])
    (fun _ _ x => x) (fun _ _ => mkSc [] []) (fun _ _ _ x => x) (fun _ _ => d0)
    (fun w r => dmul (coef_of w r) (number (lw_x w)))
    (fun _ => []) (fun _ => []) (fun _ _ x => x) (fun _ _ x => x) (fun _ _ x => x).

Lemma place_some x l : forall k i a, place x k l = Some (i, a) ->
  (k <= i < k + length l)%nat /\ exists g, nth_error l (i - k) = Some (a, g).
Proof.
  induction l as [|[b g] l IH]; intros k i a H; cbn [place] in H; [discriminate H|]. cbn [fst snd length] in *.
  destruct (same _ _).
  - injection H as <- <-. split; [lia|]. rewrite Nat.sub_diag. exists g. reflexivity.
  - destruct (IH _ _ _ H) as [R [g' N]]. split; [lia|]. exists g'. replace (i - k)%nat with (S (i - S k)) by lia. exact N.
Qed.
Lemma combine_fst {A B} (la : list A) (lb : list B) n a b : nth_error (combine la lb) n = Some (a, b) -> nth_error la n = Some a.
Proof.
  revert la lb. induction n as [|n IH]; intros [|a0 la] [|b0 lb] H; try discriminate H; cbn [combine nth_error] in *.
  - congruence.
  - exact (IH _ _ H).
Qed.
Lemma coef_values a r : row_allowed a r = true -> a = d1 \/ a = four.
Proof. intros H. destruct (row_allowed_cases a r H) as [[-> _]|[-> _]]; auto. Qed.
Lemma ratio_exact a b : a = d1 \/ a = four -> b = d1 \/ b = four ->
  finite_double (ddiv a b) /\ finite_double (dopp (ddiv a b)) /\
  (qval (ddiv a b) * qval b == qval a)%Q /\ (qval (dopp (ddiv a b)) * qval b == - qval a)%Q.
Proof. intros [-> | ->] [-> | ->]; repeat split; vm_compute; reflexivity. Qed.

(** Sums with one or two terms. *)
Lemma sum_zero (f : Z -> Q) l : (forall k, In k l -> f k == 0)%Q -> (q_sum (map f l) == 0)%Q.
Proof.
  induction l as [|k l IH]; intros H; [reflexivity|]. cbn [map q_sum fold_right]. fold (q_sum (map f l)).
  rewrite (H k) by (left; reflexivity). rewrite IH; [reflexivity|]. intros i Hi. apply H. right. exact Hi.
Qed.
Lemma sum_one (f : Z -> Q) l i : NoDup l -> In i l -> (forall k, In k l -> k <> i -> f k == 0)%Q -> (q_sum (map f l) == f i)%Q.
Proof.
  induction 1 as [|k l N ND IH]; intros I H; [destruct I|]. cbn [map q_sum fold_right]. fold (q_sum (map f l)).
  destruct (Z.eq_dec k i) as [->|D].
  - rewrite sum_zero; [ring|]. intros j Hj. apply H; [right; exact Hj|]. intros ->. contradiction.
  - destruct I as [->|I]; [contradiction|]. rewrite (H k) by (auto; left; reflexivity). rewrite IH; [ring|exact I|].
    intros j Hj. apply H. right. exact Hj.
Qed.
Lemma sum_two (f : Z -> Q) l i j : NoDup l -> In i l -> In j l -> i <> j ->
  (forall k, In k l -> k <> i -> k <> j -> f k == 0)%Q -> (q_sum (map f l) == f i + f j)%Q.
Proof.
  induction 1 as [|k l N ND IH]; intros I J IJ H; [destruct I|]. cbn [map q_sum fold_right]. fold (q_sum (map f l)).
  destruct (Z.eq_dec k i) as [->|D].
  - rewrite (sum_one f l j ND); [ring|destruct J; [contradiction|assumption]|]. intros q Hq Dq. apply H; auto; [right; exact Hq|].
    intros ->. contradiction.
  - destruct I as [->|I]; [contradiction|]. destruct (Z.eq_dec k j) as [->|D'].
    + rewrite (sum_one f l i ND I); [ring|]. intros q Hq Dq. apply H; auto; [right; exact Hq|]. intros ->. contradiction.
    + destruct J as [->|J]; [contradiction|]. rewrite (H k) by (auto; left; reflexivity). rewrite IH; auto; [ring|].
      intros q Hq. apply H. right. exact Hq.
Qed.
Lemma upto_nodup n : NoDup (upto n).
Proof. unfold upto. apply FinFun.Injective_map_NoDup; [intros a b; apply Nat2Z.inj|apply seq_NoDup]. Qed.
Lemma upto_in n k : In k (upto n) <-> 0 <= k < Z.of_nat n.
Proof.
  unfold upto. rewrite in_map_iff. split.
  - intros (i & <- & H). apply in_seq in H. lia.
  - intros H. exists (Z.to_nat k). split; [lia|]. apply in_seq. lia.
Qed.

Lemma entry_of (f : nat -> double) n k : 0 <= k < Z.of_nat n -> entry_at (mkSc (map f (seq 0 n)) []) k = f (Z.to_nat k).
Proof.
  intros R. unfold entry_at, at_. cbn [dense]. destruct (Z.ltb_spec k 0); [lia|].
  rewrite (nth_error_nth' _ (f O)) by (rewrite map_length, seq_length; lia). rewrite map_nth, seq_nth by lia. reflexivity.
Qed.

Lemma line_tableau_exact ok : exact_tableau (line_tableau ok).
Proof.
  intros s w t t' q _ P S O. apply line_prepares in P. subst q. cbn in S.
  destruct (line_solve (table_of (lp s))) as [[x b]|] eqn:L; [|assert (SV : solver s = mkLW (lw_params w) ABNORMAL d0 None) by congruence; rewrite SV in O; discriminate O].
  destruct (line_some _ _ _ L) as (c & C & _ & _ & AL & _). pose proof (only_coefs _ _ C) as LC.
  assert (SV : exists st, solver s = mkLW (lw_params w) st x (Some (table_of (lp s)))) by (eexists; injection S as _ <-; reflexivity).
  destruct SV as [st SV]. clear S O.
  assert (CO : coefs_of (solver s) = t_coefs c) by (rewrite SV; unfold coefs_of, coefs_at; cbn [lw_lp]; rewrite C; reflexivity).
  assert (NR : nrows (lp s) = Z.of_nat (length (t_coefs c))).
  { rewrite LC. unfold nrows, table_of. cbn [t_rows]. rewrite map_length. reflexivity. }
  assert (AV : forall r, 0 <= r < nrows (lp s) -> coef_in c r = coef_of (solver s) r /\ (coef_in c r = d1 \/ coef_in c r = four)).
  { intros r R. rewrite NR in R. destruct (at_range (t_coefs c) r R) as [a Ha]. unfold coef_in, coef_of, coef_at. fold (coefs_of (solver s)). rewrite Ha, CO.
    unfold at_ in Ha. destruct (r <? 0); [discriminate Ha|]. destruct (nth_error (t_coefs c) (Z.to_nat r)) eqn:N; [|discriminate Ha].
    injection Ha as ->. split; [symmetry; apply nth_error_nth; exact N|].
    destruct (nth_error (t_rows (table_of (lp s))) (Z.to_nat r)) as [g|] eqn:NG.
    - rewrite Forall_forall in AL. apply (coef_values a g). apply (AL (a, g)). apply nth_error_In with (n := Z.to_nat r).
      unfold line_rows. clear -N NG. revert N NG. generalize (t_coefs c) (t_rows (table_of (lp s))).
      induction (Z.to_nat r) as [|n IH]; intros [|a0 la] [|g0 lg] N NG; try discriminate; cbn [combine nth_error] in *; [congruence|auto].
    - apply nth_error_None in NG. lia. }
  assert (TI : forall k a, tight (solver s) = Some (k, a) -> (k < length (t_coefs c))%nat /\ a = coef_in c (Z.of_nat k)).
  { intros k a H. rewrite SV in H. unfold tight, tight_at in H. cbn [lw_lp lw_x] in H. rewrite C in H. destruct (same _ _); [discriminate H|].
    destruct (place_some _ _ _ _ _ H) as [R [g N]]. rewrite Nat.sub_0_r in N. unfold line_rows in N. apply combine_fst in N.
    split; [apply nth_error_Some; rewrite N; discriminate|]. unfold coef_in, at_. destruct (Z.ltb_spec (Z.of_nat k) 0); [lia|].
    rewrite Nat2Z.id, N. reflexivity. }
  assert (NC : t_nc (table_of (lp s)) = 1) by (unfold t_nc; rewrite C; reflexivity).
  assert (NC' : ncols (lp s) = 1) by (rewrite <- NC; symmetry; apply table_nc).
  assert (B0 : forall k, basis_entry (table_of (lp s)) 0 k = qval (coef_in c k)) by (intros k; unfold basis_entry; rewrite C; reflexivity).
  assert (B1 : forall j k, 0 <= j -> basis_entry (table_of (lp s)) (1 + j) k = if j =? k then 1%Q else 0%Q).
  { intros j k J. unfold basis_entry. rewrite C. unfold at_. destruct (Z.ltb_spec (1 + j) 0); [lia|].
    replace (Z.to_nat (1 + j)) with (S (Z.to_nat j)) by lia. cbn [nth_error]. destruct (nth_error [] (Z.to_nat j)) eqn:N.
    - destruct (Z.to_nat j); discriminate N.
    - rewrite NC. replace (1 + j - 1) with j by lia. reflexivity. }
  split; [split|].
  - intros r R. cbn [line_tableau b_col]. rewrite NC'. destruct (tight (solver s)) as [[k a]|]; [|lia].
    destruct (r =? Z.of_nat k); lia.
  - intros r r' R R'. cbn [line_tableau b_col]. destruct (tight (solver s)) as [[k a]|]; [|lia].
    destruct (Z.eqb_spec r (Z.of_nat k)); destruct (Z.eqb_spec r' (Z.of_nat k)); lia.
  - intros r R. cbv zeta. unfold glop_row. cbn [line_tableau b_left b_unscale_left].
    rewrite CO. set (v := mkSc _ _).
    assert (EV : forall k, 0 <= k < nrows (lp s) -> entry_at v k = inverse_at (solver s) r k).
    { intros k K. unfold v. rewrite entry_of by lia. rewrite Z2Nat.id by lia. reflexivity. }
    assert (NK : length (t_rows (table_of (lp s))) = length (t_coefs c)) by lia.
    split; [|split; [|split; [split; constructor|split; [left; reflexivity|]]]].
    + unfold holds_all, v. cbn [dense]. rewrite map_length, seq_length. lia.
    + unfold v. cbn [dense]. rewrite Forall_map. apply Forall_forall. intros i Hi. apply in_seq in Hi. unfold inverse_at, inverse_entry, unit_at. fold (tight (solver s)) (coef_of (solver s) r).
      destruct (tight (solver s)) as [[k a]|] eqn:TT.
      * destruct (TI k a eq_refl) as [HK ->]. destruct (AV (Z.of_nat k)) as [_ VK]; [lia|]. destruct (AV r R) as [ER VR]. rewrite <- ER.
        destruct (Z.of_nat i =? Z.of_nat k).
        { destruct (r =? Z.of_nat i); [apply (ratio_exact d1 _ (or_introl eq_refl) VK)|apply (ratio_exact _ _ VR VK)]. }
        destruct (r =? Z.of_nat k); [split; reflexivity|]. destruct (_ =? _); split; reflexivity.
      * destruct (_ =? _); split; reflexivity.
    + intros j J. unfold row_times. rewrite NK.
      assert (IN : forall i, 0 <= i < nrows (lp s) -> In i (upto (length (t_coefs c)))) by (intros i I; apply upto_in; lia).
      assert (Q0 : (qval d0 == 0)%Q) by reflexivity. pose proof qval_d1 as Q1.
      destruct (tight (solver s)) as [[k a]|] eqn:TT.
      * destruct (TI k a eq_refl) as [HK AK]. assert (RK : 0 <= Z.of_nat k < nrows (lp s)) by lia.
        destruct (AV _ RK) as [_ VK]. destruct (AV r R) as [ER VR]. rewrite <- AK in VK.
        destruct (ratio_exact d1 a (or_introl eq_refl) VK) as (_ & _ & I1 & _).
        destruct (ratio_exact (coef_in c r) a VR VK) as (_ & _ & _ & I2).
        assert (EN : forall i, 0 <= i < nrows (lp s) -> entry_at v i =
          if i =? Z.of_nat k then if r =? i then ddiv d1 a else dopp (ddiv (coef_in c r) a)
          else if r =? Z.of_nat k then d0 else unit_at i r).
        { intros i I. rewrite EV by exact I. unfold inverse_at, inverse_entry. fold (tight (solver s)) (coef_of (solver s) r). rewrite TT, ER. reflexivity. }
        replace (b_col (line_tableau ok) (solver s) j) with (if j =? Z.of_nat k then 0 else 1 + j)
          by (cbn [line_tableau b_col]; rewrite TT; reflexivity).
        destruct (Z.eqb_spec r (Z.of_nat k)) as [RQ|RQ].
        { (* the row of the basic variable has one entry *)
          rewrite (sum_one _ _ (Z.of_nat k) (upto_nodup _) (IN _ RK)).
          - rewrite EN by exact RK. rewrite Z.eqb_refl. destruct (Z.eqb_spec r (Z.of_nat k)); [|contradiction].
            destruct (Z.eqb_spec j (Z.of_nat k)) as [JQ|JQ].
            + rewrite B0, <- AK, I1, Q1. destruct (Z.eqb_spec r j); [reflexivity|lia].
            + rewrite B1 by lia. destruct (Z.eqb_spec j (Z.of_nat k)); [contradiction|]. destruct (Z.eqb_spec r j); [lia|ring].
          - intros i Hi D. apply upto_in in Hi. rewrite EN by lia. destruct (Z.eqb_spec i (Z.of_nat k)); [contradiction|]. rewrite Q0. ring. }
        rewrite (sum_two _ _ (Z.of_nat k) r (upto_nodup _) (IN _ RK) (IN _ R)); [|auto|].
        { rewrite (EN _ RK), (EN _ R). rewrite Z.eqb_refl. unfold unit_at. rewrite Z.eqb_refl.
          destruct (Z.eqb_spec r (Z.of_nat k)); [contradiction|].
          destruct (Z.eqb_spec j (Z.of_nat k)) as [JQ|JQ].
          - rewrite !B0. rewrite <- AK, I2, Q1. destruct (Z.eqb_spec r j); [lia|ring].
          - rewrite !B1 by lia. destruct (Z.eqb_spec j (Z.of_nat k)); [contradiction|]. rewrite Q1.
            rewrite (Z.eqb_sym r j). destruct (j =? r); ring. }
        { intros i Hi D1 D2. apply upto_in in Hi. rewrite EN by lia. unfold unit_at. destruct (Z.eqb_spec i (Z.of_nat k)); [contradiction|].
          destruct (Z.eqb_spec i r); [contradiction|]. rewrite Q0. ring. }
      * assert (EN : forall i, 0 <= i < nrows (lp s) -> entry_at v i = unit_at i r).
        { intros i I. rewrite EV by exact I. unfold inverse_at, inverse_entry. fold (tight (solver s)) (coef_of (solver s) r). rewrite TT. reflexivity. }
        replace (b_col (line_tableau ok) (solver s) j) with (1 + j) by (cbn [line_tableau b_col]; rewrite TT; reflexivity).
        rewrite (sum_one _ _ r (upto_nodup _) (IN _ R)).
        { rewrite EN by exact R. unfold unit_at. rewrite Z.eqb_refl, B1 by lia. rewrite Q1, (Z.eqb_sym r j). destruct (j =? r); ring. }
        { intros i Hi D. apply upto_in in Hi. rewrite EN by lia. unfold unit_at. destruct (Z.eqb_spec i r); [contradiction|]. rewrite Q0. ring. }
Qed.

Lemma xline_tableau_exact ok : exact_spx_tableau (xline ok).
Proof.
  intros l x' ST A O. apply xline_answer in A as [(y & b & L & ->)|[_ ->]]; [|discriminate O]. destruct b; [clear O|discriminate O].
  set (w := mkLW (to_glop (default_params LP_GLOP)) OPTIMAL y (Some (table_of l))).
  set (s := mkG (E := line ok) l l w tt false false false 0 false).
  assert (W : w_solve (line ok) w tt l = (true, tt, w)) by (cbn; rewrite L; reflexivity).
  destruct (line_tableau_exact ok s w tt tt l ST (or_introl eq_refl) W eq_refl) as ([B1 B2] & R).
  destruct (line_some _ _ _ L) as (c & C & _).
  assert (NC : ncols l = 1) by (rewrite <- table_nc; unfold t_nc; rewrite C; reflexivity).
  set (o := Some (table_of l)) in *.
  assert (BI : forall r, x_basis_ind (xline ok) (mkLX ST_OPTIMAL y o) r =
    match tight_at o y with Some (k, _) => if r =? Z.of_nat k then 0 else - r - 1 | None => - r - 1 end) by reflexivity.
  assert (BC : forall r, b_col (line_tableau ok) w r =
    match tight_at o y with Some (k, _) => if r =? Z.of_nat k then 0 else 1 + r | None => 1 + r end) by reflexivity.
  assert (SB : forall r, 0 <= r -> spx_basic (xline ok) (mkLX ST_OPTIMAL y o) l r = b_col (line_tableau ok) w r).
  { intros r H. unfold spx_basic. rewrite BI, BC, NC. destruct (tight_at o y) as [[k a]|]; [destruct (r =? Z.of_nat k)|].
    - reflexivity.
    - destruct (Z.ltb_spec (- r - 1) 0); lia.
    - destruct (Z.ltb_spec (- r - 1) 0); lia. }
  split; [|split].
  - intros r H. rewrite BI, NC. destruct (tight_at o y) as [[k a]|]; [destruct (r =? Z.of_nat k)|]; lia.
  - intros r r' H H'. rewrite !BI. destruct (tight_at o y) as [[k a]|]; [|lia].
    destruct (Z.eqb_spec r (Z.of_nat k)), (Z.eqb_spec r' (Z.of_nat k)); lia.
  - intros r H. specialize (R r H). cbv zeta in R. destruct R as (R1 & R2 & _ & _ & R5).
    exists (inverse_row_at o y r). split; [reflexivity|]. split; [exact R1|]. split; [exact R2|].
    intros j J. rewrite (SB j) by lia. exact (R5 j J).
Qed.
Lemma line_basis_exact ok k : exact_basis (xline ok) (line_tableau ok) k.
Proof. destruct k; [apply line_tableau_exact|apply xline_tableau_exact]. Qed.

(** *** Maximise x in [lo, 10] with 4 x <= 5 and x integer *)
Definition p_four (lo : double) : problem :=
  mkProblem "f" [mkVar "x" d1 lo (dint 10) true] [mkCon "r" [0] [four] dminf five] [] true d0.
Definition p_half : problem := p_four (dopp half).
(** A request for one round of separation. *)
Definition one_round : params_msg :=
  mkPM None None None (Some (mkRunM [] [] (Some (mkLim (Some 1) None None None)))) [] [] None None.
Definition own_of (ok : bool) (p : problem) (u : params_msg) :=
  CreateOwn (X := xline ok) (line_tableau ok) unit spx_start false false (fun l => fold_right insert_cut' [] l)
    (fun _ _ => 0) tt [0] p u.
Lemma four_proper lo : is_nan lo = false -> dvalid lo = true -> dltb (dint 10) lo = false -> proper_problem (p_four lo).
Proof.
  intros H1 H2 H3. constructor.
  - split.
    + constructor; [|constructor]. split; [discriminate|exact H3].
    + constructor; [|constructor]. split; [discriminate|]. cbn [c_idx c_coef c_lhs c_rhs num_vars p_four p_vars length].
      split; [constructor; [cbn; lia|constructor]|]. split; [constructor; [intros []|constructor]|]. auto.
  - constructor; [|constructor]. cbn [v_lb v_ub]. auto.
  - repeat constructor.
  - repeat constructor.
  - repeat constructor.
Qed.
Lemma four_var lo j v : nth_var (p_four lo) j = Some v -> j = 0 /\ v = mkVar "x" d1 lo (dint 10) true.
Proof.
  unfold nth_var. destruct (Z.ltb_spec j 0) as [L|L]; [discriminate|]. destruct (Z.to_nat j) as [|n] eqn:N; [|destruct n; discriminate].
  intros H. injection H as <-. split; [lia|reflexivity].
Qed.
Lemma four_row x : (row_activity (mkCon "r" [0%Z] [four] dminf five) x == 4 * x 0%Z)%Q.
Proof.
  unfold row_activity, terms. cbn [c_idx c_coef combine map q_sum fold_right fst snd].
  assert (Q4 : (qval four == 4)%Q) by (apply (qval_dint 4); reflexivity). rewrite Q4. ring.
Qed.
Lemma four_cost lo x : (cost (p_four lo) x == - x 0%Z)%Q.
Proof.
  unfold cost. change (p_max (p_four lo)) with true. cbn [p_vars p_four length seq map q_sum fold_right].
  change (input_objective (p_four lo) (Z.of_nat 0)) with d1. change (Z.of_nat 0) with 0%Z. rewrite qval_d1. ring.
Qed.
Lemma four_bounded lo : bounded_relaxation (p_four lo).
Proof.
  exists (inject_Z (-10)). intros x [V _]. rewrite four_cost.
  destruct (V 0 (mkVar "x" d1 lo (dint 10) true) eq_refl) as [_ B]. cbn [v_ub] in B.
  assert (B' : (x 0%Z <= inject_Z 10)%Q) by (rewrite <- (qval_dint 10) by reflexivity; exact B).
  change (inject_Z (-10)) with (- inject_Z 10)%Q. apply Qopp_le_compat. exact B'.
Qed.
Lemma four_visits lo : visits_integers (p_four lo) [0].
Proof.
  split; [repeat constructor; intros []|]. intros j. split.
  - intros [<-|[]]. eexists. split; reflexivity.
  - intros (v & H & _). apply four_var in H as [-> _]. left. reflexivity.
Qed.
Lemma half_proper : proper_problem p_half.
Proof. apply four_proper; reflexivity. Qed.
Lemma half_integers : bounded_integers p_half.
Proof. repeat constructor. Qed.
Lemma half_feasible : feasible p_half (fun _ => inject_Z 1).
Proof.
  split.
  - intros j v H. apply four_var in H as [-> ->]. cbn [v_lb v_ub v_int].
    split; [vm_compute; discriminate|]. split; [vm_compute; discriminate|]. intros _. exists 1. reflexivity.
  - intros r c H. unfold nth_con in H. cbn [p_cons p_four p_half] in H. destruct (r <? 0); [discriminate|].
    destruct (Z.to_nat r) as [|k]; [|destruct k; discriminate]. injection H as <-. cbn [c_lhs c_rhs].
    split; [reflexivity|]. apply (q_below_eq _ (4 * inject_Z 1)%Q); [symmetry; apply four_row|].
    vm_compute. discriminate.
Qed.
Lemma round_plain : plain_request one_round.
Proof. constructor; try reflexivity. repeat split; try reflexivity. intros H. discriminate H. Qed.

(** The cut x <= 1/2 is added to the LP of [p_half]: x = 0 is reported although x = 1 is better. *)
Lemma own_run_half ok k : outcome_of (own_of ok p_half (asking k one_round)) 5 =
  Ok (mkSol [d0] (dopp d0), [0; 2; 1],
      [Runner.AddRow (vec [(0, 1)]) dminf half "MIR0"; SolveDual]).
Proof. destruct ok, k; calc. Qed.
(** With x >= 0 the cut is x <= 1 and the optimum is found. *)
Lemma own_run_zero ok k : outcome_of (own_of ok (p_four d0) (asking k params_empty)) 5 =
  Ok (mkSol [d1] dm1, [0], [Runner.AddRow (vec [(0, 1)]) dminf d1 "MIR0"; SolveDual]).
Proof. destruct ok, k; calc. Qed.
(** With the default parameters a run on [p_half] and on [p_w] ends in undefined behaviour. *)
Definition is_ok {A} (o : outcome A) : bool := match o with Ok _ => true | _ => false end.
Lemma own_made ok k : is_ok (own_of ok p_half (asking k params_empty)) = true /\
  is_ok (own_of ok p_w (asking k params_empty)) = true.
Proof. destruct ok, k; calcs. Qed.
Lemma own_undefined ok k fuel : outcome_of (own_of ok p_half (asking k params_empty)) (S fuel) = UB /\
  outcome_of (own_of ok p_w (asking k params_empty)) (S fuel) = UB.
Proof. destruct ok, k; calcs. Qed.
Lemma undefined {G E X} (x : outcome (env (whole (E := E) (X := X) G) * whole (E := E) (X := X) G)) : is_ok x = true ->
  (forall fuel, outcome_of x (S fuel) = UB) ->
  exists e w, x = Ok (e, w) /\ forall fuel, (1 <= fuel)%nat -> Solve e fuel w = UB.
Proof.
  destruct x as [[e w]| | | |]; try discriminate. intros _ H. exists e, w. split; [reflexivity|].
  intros [|fuel] F; [lia|]. specialize (H fuel). unfold outcome_of in H. cbn [bind] in H.
  destruct (Solve e (S fuel) w); try discriminate H. reflexivity.
Qed.
Lemma own_stops_half ok k : exists e w, own_of ok p_half (asking k params_empty) = Ok (e, w) /\
  forall fuel, (1 <= fuel)%nat -> Solve e fuel w = UB.
Proof.
  exact (undefined (own_of ok p_half (asking k params_empty)) (proj1 (own_made ok k))
    (fun fuel => proj1 (own_undefined ok k fuel))).
Qed.
Lemma own_stops_w ok k : exists e w, own_of ok p_w (asking k params_empty) = Ok (e, w) /\
  forall fuel, (1 <= fuel)%nat -> Solve e fuel w = UB.
Proof.
  exact (undefined (own_of ok p_w (asking k params_empty)) (proj2 (own_made ok k))
    (fun fuel => proj2 (own_undefined ok k fuel))).
Qed.
