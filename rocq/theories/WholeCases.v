(** A small LP engine and a small problem for the theorems about the solver as a whole. *)
From Coq Require Import String List ZArith Bool QArith Qabs Lia ZifyBool SpecFloat Sorted Permutation.
From Verif Require Import Outcome OutcomeFacts Num Double DoubleFacts Rounding SparseVector SparseVectorFacts VectorSpec
  Aggregation Problem MipData ProblemSpec MipDataProofs CutsData Selector Runner CutSpec CutProofs LpParams
  GlopLp GlopIface GlopSpec GlopProofs GlopMore SoplexIface SoplexSpec Branching Params ReaderSpec ReaderProofs
  MipTree TreeSpec Solver SolverSpec SolverProofs SolverCases GlopCases SoplexCases Whole WholeSpec WholeTables.
Import ListNotations.
Open Scope Z_scope.

(** *** LPs with one column of cost -1 and rows with the coefficient 1, or 4 x <= 5 *)
Definition same (a b : double) : bool :=
  match a, b with
  | S754_finite s m e, S754_finite s' m' e' => Bool.eqb s s' && Pos.eqb m m' && Z.eqb e e'
  | S754_infinity s, S754_infinity s' => Bool.eqb s s'
  | _, _ => false
  end.
Lemma same_eq a b : same a b = true -> a = b.
Proof.
  destruct a, b; try discriminate; cbn.
  - intros H. apply Bool.eqb_prop in H. congruence.
  - intros H. apply andb_prop in H as [H H3]. apply andb_prop in H as [H1 H2].
    apply Bool.eqb_prop in H1. apply Pos.eqb_eq in H2. apply Z.eqb_eq in H3. congruence.
Qed.

Definition four : double := dint 4.
Definition five : double := dint 5.
Definition five_quarters : double := ddiv five four.
Definition row_allowed (a : double) (r : trow) : bool :=
  same a d1 || (same a four && same (t_rhs r) five && same (t_lhs r) dminf).
Definition row_limit (a : double) (r : trow) : double := if same a d1 then t_rhs r else five_quarters.
Definition line_rows (c : tcol) (t : table) : list (double * trow) := combine (t_coefs c) (t_rows t).
(** The best value of x, if the LP is of this kind and has a finite upper limit; whether the LP is
    feasible. *)
Definition line_limit (c : tcol) (rows : list (double * trow)) : double :=
  fold_right (fun ar m => dmin (row_limit (fst ar) (snd ar)) m) (t_ub c) rows.
Definition line_solve (t : table) : option (double * bool) :=
  match t_cols t with
  | [c] =>
      let x := line_limit c (line_rows c t) in
      if same (t_obj c) dm1 && forallb (fun ar => row_allowed (fst ar) (snd ar)) (line_rows c t) && dvalid (t_lb c) &&
         forallb (fun r => dvalid (t_lhs r)) (t_rows t) && dvalid x && is_finite x && dleb x (t_ub c) &&
         forallb (fun ar => dleb x (row_limit (fst ar) (snd ar)) && dvalid (row_limit (fst ar) (snd ar))) (line_rows c t)
      then Some (x, dleb (t_lb c) x && forallb (fun r => dleb (t_lhs r) x) (t_rows t))
      else None
  | _ => None
  end.

Record lw := mkLW { lw_params : glop_params; lw_status : pstatus; lw_x : double; lw_lp : option table }.
Definition number (x : double) : double := if dvalid x && is_finite x then x else d0.
(** [ok] is Solve()'s status for all other LPs. *)
Definition line (ok : bool) : engine :=
  mkEngine lw unit unit
    (mkLW (to_glop (default_params LP_GLOP)) INIT d0 None)
    lw_params
    (fun w g => mkLW g (lw_status w) (lw_x w) (lw_lp w))
    (fun w t l => match line_solve (table_of l) with
       | Some (x, b) => (true, t, mkLW (lw_params w) (if b : bool then OPTIMAL else PRIMAL_INFEASIBLE) x (Some (table_of l)))
       | None => (ok, t, mkLW (lw_params w) ABNORMAL d0 None)
       end)
    lw_status
    (fun _ => 1)
    (fun w => dopp (number (lw_x w)))
    (fun w _ => number (lw_x w)) (fun _ _ => d0) (fun _ _ => d0)
    (fun _ _ => V_BASIC) (fun _ _ => V_BASIC) (fun _ => false)
    (fun _ => []) (fun w _ => w) (fun w => w)
    tt (fun p => (p, tt)) (fun _ _ => d1) (fun _ _ x => x)
    (fun _ => tt) (fun _ => false) (fun p => p) (fun _ _ _ => true).

Lemma line_laws ok : engine_laws (line ok).
Proof. split; auto. intros w t p. cbn. destruct (line_solve (table_of p)) as [[x b]|]; reflexivity. Qed.
Lemma line_prepares ok l q sc : prepares (line ok) l q sc -> q = l.
Proof. intros [H|H]; injection H as H _; exact H. Qed.
Lemma number_finite x : finite_double (number x).
Proof. unfold number. destruct (dvalid x && is_finite x) eqn:V; [|split; reflexivity]. apply andb_prop in V. exact V. Qed.
Lemma line_plain ok : plain_engine (line ok).
Proof.
  constructor; try reflexivity.
  - intros w. cbn. destruct (number_finite (lw_x w)) as [V _]. destruct (number (lw_x w)); exact V || reflexivity.
  - intros. apply number_finite.
Qed.
Lemma line_runs : engine_runs (line true).
Proof. intros w t q. cbn. destruct (line_solve (table_of q)) as [[x b]|]; reflexivity. Qed.

Lemma line_some t x b : line_solve t = Some (x, b) ->
  exists c, t_cols t = [c] /\ x = line_limit c (line_rows c t) /\ t_obj c = dm1 /\
    Forall (fun ar => row_allowed (fst ar) (snd ar) = true) (line_rows c t) /\
    dvalid (t_lb c) = true /\ Forall (fun r => dvalid (t_lhs r) = true) (t_rows t) /\ finite_double x /\
    dleb x (t_ub c) = true /\ b = dleb (t_lb c) x && forallb (fun r => dleb (t_lhs r) x) (t_rows t) /\
    Forall (fun ar => dleb x (row_limit (fst ar) (snd ar)) = true /\ dvalid (row_limit (fst ar) (snd ar)) = true) (line_rows c t).
Proof.
  unfold line_solve. destruct (t_cols t) as [|c [|]]; try discriminate. cbv zeta.
  destruct (_ && _) eqn:A; [|discriminate]. intros H. injection H as <- <-. exists c.
  repeat (apply andb_prop in A; destruct A as [A ?]).
  split; [reflexivity|]. split; [reflexivity|]. split; [apply same_eq; exact A|]. split; [|split; [assumption|split; [|split; [split; assumption|split; [assumption|split; [reflexivity|]]]]]].
  - rewrite forallb_forall in *. apply Forall_forall. auto.
  - rewrite forallb_forall in *. apply Forall_forall. auto.
  - rewrite forallb_forall in *. apply Forall_forall. intros ar I.
    match goal with H : forall x, In x (line_rows c t) -> _ && _ = true |- _ => exact (andb_prop _ _ (H ar I)) end.
Qed.
Lemma limit_in c rows : In (line_limit c rows) (t_ub c :: map (fun ar => row_limit (fst ar) (snd ar)) rows).
Proof.
  induction rows as [|r rows IH]; cbn [line_limit fold_right map]; [left; reflexivity|].
  unfold dmin. destruct (dltb _ _); [|right; left; reflexivity]. destruct IH as [IH|IH]; [left; exact IH|right; right; exact IH].
Qed.
Lemma row_allowed_cases a r : row_allowed a r = true ->
  (a = d1 /\ row_limit a r = t_rhs r) \/ (a = four /\ row_limit a r = five_quarters /\ t_rhs r = five /\ t_lhs r = dminf).
Proof.
  unfold row_allowed, row_limit. destruct (same a d1) eqn:S; [left; split; [apply same_eq; exact S|reflexivity]|].
  cbn [orb]. intros H. apply andb_prop in H as [H H3]. apply andb_prop in H as [H1 H2]. right.
  split; [apply same_eq; exact H1|]. split; [reflexivity|]. split; apply same_eq; assumption.
Qed.

Lemma answer_inside l x : line_solve (table_of l) = Some (x, true) ->
  finite_double x /\ forall k g, at_ (g_cols l) k = Ok g -> dleb (g_lb g) x = true /\ dleb x (g_ub g) = true.
Proof.
  intros L. destruct (line_some _ _ _ L) as (c & C & _ & _ & _ & _ & _ & F & U & B & _). split; [exact F|]. intros k g Hg.
  assert (G : t_lb c = g_lb g /\ t_ub c = g_ub g).
  { unfold table_of in C. cbn [t_cols] in C.
    destruct (g_cols l) as [|g0 [|]] eqn:GC; try discriminate C. injection C as <-.
    unfold at_ in *. destruct (k <? 0); [discriminate Hg|].
    destruct (Z.to_nat k) as [|n]; [|destruct n; discriminate Hg]. injection Hg as <-. auto. }
  destruct G as (G1 & G2). rewrite <- G1, <- G2. split; [|exact U]. symmetry in B. apply andb_prop in B. apply B.
Qed.
Lemma number_id x : finite_double x -> number x = x.
Proof. intros [V F]. unfold number. rewrite V, F. reflexivity. Qed.
Lemma line_inside ok : engine_inside (line ok).
Proof.
  intros l q sc w t t' w' _ P S O k g Hg. apply line_prepares in P. subst q. cbn in S.
  destruct (line_solve (table_of l)) as [[x b]|] eqn:L; injection S; intros; subst; [|discriminate O].
  destruct b; [|discriminate O]. destruct (answer_inside l x L) as [F I]. cbn. rewrite (number_id x F). exact (I k g Hg).
Qed.

Lemma between_leb lo hi q : dvalid lo = true -> finite_double hi -> q_above lo q -> q_below q hi -> dleb lo hi = true.
Proof.
  intros VL [VH FH] A B. assert (B' : (q <= qval hi)%Q) by (destruct hi; try discriminate FH; exact B).
  destruct (is_finite lo) eqn:FL.
  - apply dleb_zval; auto. assert (A' : (qval lo <= q)%Q) by (destruct lo; try discriminate FL; exact A).
    pose proof (Qle_trans _ _ _ A' B') as H. unfold qval, Qle in H. cbn [Qnum Qden] in H. pose proof zone_pos. nia.
  - destruct lo as [|s| |]; try discriminate FL; cbn in A; [subst s|contradiction]. destruct hi as [|[]| |[]]; try discriminate FH; reflexivity.
Qed.
Lemma qval_d1 : (qval d1 == 1)%Q.
Proof. apply (qval_dint 1). reflexivity. Qed.

(** The coefficients of the only column. *)
Lemma only_coefs l c : t_cols (table_of l) = [c] -> length (t_coefs c) = length (t_rows (table_of l)).
Proof.
  unfold table_of. cbn [t_cols t_rows]. destruct (g_cols l) as [|g0 [|]]; try discriminate. intros H. injection H as <-.
  cbn [t_coefs]. unfold upto. rewrite !map_length, seq_length. reflexivity.
Qed.
Lemma line_row l c r g : t_cols (table_of l) = [c] -> at_ (t_rows (table_of l)) r = Ok g ->
  exists a, at_ (t_coefs c) r = Ok a /\ In (a, g) (line_rows c (table_of l)) /\
    forall x, (row_sum (table_of l) r x == qval a * x 0%Z)%Q.
Proof.
  intros C H. pose proof (only_coefs l c C) as L. set (t := table_of l) in *.
  destruct (at_range (t_coefs c) r) as [a Ha]; [rewrite L; exact (at_in_range _ _ _ H)|].
  exists a. split; [exact Ha|]. split.
  - unfold line_rows. unfold at_ in H, Ha. destruct (r <? 0); [discriminate H|]. revert H Ha L.
    generalize (t_coefs c) (t_rows t). generalize (Z.to_nat r). clear.
    induction n as [|n IH]; intros [|a0 la] [|g0 lg] H Ha L; try discriminate; cbn [nth_error] in *.
    + injection H as ->. injection Ha as ->. left. reflexivity.
    + right. apply IH; auto.
  - intros x. unfold row_sum, numbered. rewrite C. change (q_sum [qval (coef_in c r) * x 0%Z] == qval a * x 0%Z)%Q.
    unfold coef_in. rewrite Ha. unfold q_sum. cbn [fold_right]. ring.
Qed.

Lemma answer_exact l y b x : line_solve (table_of l) = Some (y, b) ->
  rows_hold (table_of l) x -> cols_hold (table_of l) x ->
  b = true /\ finite_double y /\ q_above (dopp y) (table_cost (table_of l) x).
Proof.
  intros L R C.
  destruct (line_some _ _ _ L) as (c & HC & Y & OB & CO & V1 & V2 & F & U & B & _).
  destruct (C 0 c) as [C1 C2]; [rewrite HC; reflexivity|].
  assert (RS := fun r g => line_row l c r g HC).
  set (T := table_of l) in *. rewrite Forall_forall in CO.
  assert (LE : q_below (x 0) y).
  { rewrite Y. destruct (limit_in c (line_rows c T)) as [H|H]; [rewrite <- H; exact C2|].
    apply in_map_iff in H as ([a g] & EQ & H). cbn [fst snd] in EQ. specialize (CO _ H). cbn [fst snd] in CO.
    rewrite <- EQ. apply In_nth_error in H as [n H].
    assert (HN : at_ (t_rows T) (Z.of_nat n) = Ok g /\ at_ (t_coefs c) (Z.of_nat n) = Ok a).
    { unfold at_. destruct (Z.ltb_spec (Z.of_nat n) 0); [lia|]. rewrite Nat2Z.id. revert H. unfold line_rows. generalize (t_coefs c) (t_rows T). clear.
      induction n as [|n IH]; intros [|a0 la] [|g0 lg] H; try discriminate H; cbn [combine nth_error] in *.
      - injection H as -> ->. auto.
      - apply IH. exact H. }
    destruct HN as [HG HA]. destruct (RS _ _ HG) as (a' & HA' & _ & RX). rewrite HA in HA'. injection HA' as <-.
    destruct (R _ _ HG) as [_ RB]. apply (q_below_eq _ _ _ (RX x)) in RB.
    destruct (row_allowed_cases a g CO) as [[-> ->]|(-> & -> & E5 & _)].
    - apply (q_below_eq _ (qval d1 * x 0%Z)%Q); [rewrite qval_d1; ring|exact RB].
    - rewrite E5 in RB. assert (RB' : (qval four * x 0%Z <= qval five)%Q) by exact RB.
      assert (Q4 : (qval four == 4)%Q) by (apply (qval_dint 4); reflexivity).
      assert (Q5 : (qval five == 5)%Q) by (apply (qval_dint 5); reflexivity).
      assert (Q54 : (qval five_quarters == 5 # 4)%Q) by reflexivity. rewrite Q4, Q5 in RB'.
      assert (G : (x 0%Z <= qval five_quarters)%Q); [|exact G].
      rewrite Q54. apply (Qmult_lt_0_le_reg_r _ _ 4); [reflexivity|].
      setoid_replace ((5 # 4) * 4)%Q with 5%Q by reflexivity. rewrite (Qmult_comm (x 0%Z)). exact RB'. }
  assert (BT : b = true).
  { rewrite B. apply andb_true_intro. split; [exact (between_leb _ _ _ V1 F C1 LE)|].
    apply forallb_forall. intros g Hg. rewrite Forall_forall in V2. specialize (V2 g Hg). apply In_at in Hg as [r Hg].
    destruct (RS r g Hg) as (a & _ & IN & RX). specialize (CO _ IN). cbn [fst snd] in CO.
    destruct (row_allowed_cases a g CO) as [[-> _]|(_ & _ & _ & EL)].
    - apply (between_leb _ _ (x 0) V2 F); [|exact LE]. destruct (R r g Hg) as [RA _].
      apply (q_above_eq _ (row_sum T r x)); [|exact RA]. rewrite (RX x), qval_d1. ring.
    - rewrite EL. destruct y; try discriminate (proj2 F); destruct s; reflexivity. }
  split; [exact BT|]. split; [exact F|]. destruct F as [VF FF].
  assert (K : (table_cost T x == - x 0%Z)%Q).
  { unfold table_cost, numbered. rewrite HC. change (q_sum [qval (t_obj c) * x 0%Z] == - x 0%Z)%Q. rewrite OB.
    assert (M : (qval dm1 == -1)%Q) by (apply (qval_dint (-1)); reflexivity).
    unfold q_sum. cbn [fold_right]. rewrite M. ring. }
  apply (q_above_eq _ (- x 0%Z)%Q); [symmetry; exact K|].
  assert (LE' : (x 0%Z <= qval y)%Q) by (destruct y; try discriminate FF; exact LE).
  assert (H : (qval (dopp y) <= - x 0%Z)%Q) by (rewrite (qval_opp y (dopp y)); [apply Qopp_le_compat; exact LE'|apply (dopp_spec y VF FF)]).
  destruct y; try discriminate FF; exact H.
Qed.
Lemma line_exact : exact_engine (line false).
Proof.
  intros l q sc w t t' w' _ _ _ P _ _ S _ x R C. apply line_prepares in P. subst q. cbn in S.
  destruct (line_solve (table_of l)) as [[y b]|] eqn:L; [|discriminate S].
  destruct (answer_exact l y b x L R C) as (B & F & A). injection S as _ <-. rewrite B. split; [reflexivity|].
  cbn [w_objective line lw_x]. rewrite (number_id y F). exact A.
Qed.

Lemma leb_q a b : finite_double a -> dvalid b = true -> dleb a b = true -> q_below (qval a) b.
Proof.
  intros [VA FA] VB L. destruct (dleb_nan a b L) as [N1 N2]. destruct (is_finite b) eqn:FB.
  - assert (H : (qval a <= qval b)%Q) by (apply qval_le, dleb_zval; auto). destruct b; try discriminate FB; exact H.
  - destruct b as [|[]| |]; try discriminate FB; try discriminate N2; [|reflexivity].
    destruct a as [|[]| |[]]; try discriminate FA; discriminate L.
Qed.
Lemma leb_q_above a b : finite_double b -> dvalid a = true -> dleb a b = true -> q_above a (qval b).
Proof.
  intros [VB FB] VA L. destruct (dleb_nan a b L) as [N1 N2]. destruct (is_finite a) eqn:FA.
  - assert (H : (qval a <= qval b)%Q) by (apply qval_le, dleb_zval; auto). destruct a; try discriminate FA; exact H.
  - destruct a as [|[]| |]; try discriminate FA; try discriminate N1; [reflexivity|].
    destruct b as [|[]| |[]]; try discriminate FB; discriminate L.
Qed.
Lemma answer_accurate l y x : line_solve (table_of l) = Some (y, true) -> (forall k, x k = qval y) ->
  rows_within 0 (table_of l) x /\ finite_double (dopp y) /\ (Qabs (qval (dopp y) - table_cost (table_of l) x) <= 0)%Q.
Proof.
  intros L X.
  destruct (line_some _ _ _ L) as (c & HC & Y & OB & CO & V1 & V2 & F & U & B & RL).
  assert (RS := fun r g => line_row l c r g HC). set (T := table_of l) in *.
  rewrite Forall_forall in CO, V2, RL. symmetry in B. apply andb_prop in B as [_ B]. rewrite forallb_forall in B.
  split; [|split].
  - intros r g Hg. destruct (RS r g Hg) as (a & _ & IN & RX). specialize (CO _ IN). destruct (RL _ IN) as [R1 R2].
    cbn [fst snd] in CO, R1, R2. assert (IG := at_In _ _ _ Hg). specialize (B g IG). specialize (V2 g IG).
    destruct (row_allowed_cases a g CO) as [[-> E]|(-> & E & E5 & EL)]; rewrite E in R1, R2.
    + split.
      * apply (q_above_eq _ (qval y)); [rewrite (RX x), X, qval_d1; ring|]. apply leb_q_above; auto.
      * apply (q_below_eq _ (qval y)); [rewrite (RX x), X, qval_d1; ring|]. apply leb_q; auto.
    + split; [rewrite EL; reflexivity|]. rewrite E5. apply (q_below_eq _ (4 * qval y)%Q).
      * assert (Q4 : (qval four == 4)%Q) by (apply (qval_dint 4); reflexivity). rewrite (RX x), X, Q4. ring.
      * assert (H : q_below (qval y) five_quarters) by (apply leb_q; auto).
        assert (H1 : (qval y <= qval five_quarters)%Q) by exact H.
        assert (Q54 : (qval five_quarters == 5 # 4)%Q) by reflexivity. rewrite Q54 in H1.
        assert (Q5 : (qval five == 5)%Q) by (apply (qval_dint 5); reflexivity).
        assert (G : (4 * qval y <= qval five)%Q); [|exact G]. rewrite Q5.
        setoid_replace 5%Q with (4 * (5 # 4))%Q by reflexivity. apply Qmult_le_l; [reflexivity|exact H1].
  - destruct F as [VF FF]. destruct (dopp_spec y VF FF) as (A1 & A2 & _). split; assumption.
  - assert (K : (table_cost T x == - qval y)%Q).
    { unfold table_cost, numbered. rewrite HC. change (q_sum [qval (t_obj c) * x 0%Z] == - qval y)%Q. rewrite OB, X.
      assert (M : (qval dm1 == -1)%Q) by (apply (qval_dint (-1)); reflexivity).
      unfold q_sum. cbn [fold_right]. rewrite M. ring. }
    rewrite K. destruct F as [VF FF]. rewrite (qval_opp y (dopp y) (proj2 (proj2 (dopp_spec y VF FF)))).
    setoid_replace (- qval y - - qval y)%Q with 0%Q by ring. intros A. discriminate A.
Qed.
Lemma line_accurate ok : engine_accurate 0 (line ok).
Proof.
  intros l q sc w t t' w' _ P S O. apply line_prepares in P. subst q. cbn in S.
  destruct (line_solve (table_of l)) as [[y b]|] eqn:L; injection S; intros; subst; [|discriminate O].
  destruct b; [|discriminate O]. destruct (answer_inside l y L) as [F _].
  cbn [w_objective line lw_x]. rewrite (number_id y F). apply answer_accurate; [exact L|].
  intros k. unfold x. cbn. rewrite (number_id y F). reflexivity.
Qed.

(** *** The same LPs with SoPlex *)
(** The variable is basic if its value is the limit of a row.  The first row whose limit is [x],
    and its coefficient: *)
Fixpoint place (x : double) (k : nat) (l : list (double * trow)) : option (nat * double) :=
  match l with
  | [] => None
  | r :: l => if same (row_limit (fst r) (snd r)) x then Some (k, fst r) else place x (S k) l
  end.
Definition tight_at (o : option table) (x : double) : option (nat * double) :=
  match o with
  | Some t =>
      match t_cols t with
      | [c] => if same (t_ub c) x then None else place x 0 (line_rows c t)
      | _ => None
      end
  | None => None
  end.
Definition coefs_at (o : option table) : list double :=
  match o with Some t => match t_cols t with [c] => t_coefs c | _ => [] end | None => [] end.
Definition coef_at (o : option table) (r : Z) : double := nth (Z.to_nat r) (coefs_at o) d0.
Definition unit_at (k r : Z) : double := if k =? r then d1 else d0.
Definition inverse_entry (o : option table) (x : double) (r i : Z) : double :=
  match tight_at o x with
  | Some (k, a) =>
      if i =? Z.of_nat k then if r =? i then ddiv d1 a else dopp (ddiv (coef_at o r) a)
      else if r =? Z.of_nat k then d0 else unit_at i r
  | None => unit_at i r
  end.
Definition inverse_row_at (o : option table) (x : double) (r : Z) : list double :=
  map (fun i => inverse_entry o x r (Z.of_nat i)) (seq 0 (length (coefs_at o))).

(** [ok]: optimize() ends with the status of the time limit for all other LPs, and otherwise
    throws. *)
Record lx := mkLX { lx_status : spx_status; lx_x : double; lx_lp : option table }.
Definition xline (ok : bool) : spx_engine :=
  mkSpxEngine lx
    (mkLX ST_NO_PROBLEM d0 None)
    (fun x l => mkLX ST_NO_PROBLEM d0 None)
    (fun x q d l => match line_solve (table_of l) with
       | Some (y, b) => (false, mkLX (if b : bool then ST_OPTIMAL else ST_INFEASIBLE) y (Some (table_of l)))
       | None => (negb ok, mkLX (if ok then ST_ABORT_TIME else ST_ERROR) d0 None)
       end)
    lx_status
    (fun x => match lx_status x with ST_OPTIMAL => BS_OPTIMAL | _ => BS_REGULAR end)
    (fun _ => 1) (fun _ => d0) (fun x => dopp (number (lx_x x)))
    (fun _ _ => X_BASIC) (fun _ _ => X_BASIC)
    (fun _ => Some ([], [])) (fun x _ _ => (false, x)) (fun x => (false, x))
    (fun l => l)
    (fun x r => Some (inverse_row_at (lx_lp x) (lx_x x) r, [], -1)) (fun _ _ => None) (fun _ _ => d0)
    (fun x => Some (fun _ => number (lx_x x)))
    (fun _ => None) (fun x => Some (fun r => dmul (coef_at (lx_lp x) r) (number (lx_x x))))
    (fun _ => None) (fun _ => None) (fun _ => None)
    (fun _ => false) (fun x => match lx_status x with ST_INFEASIBLE => true | _ => false end)
    (fun x r => match tight_at (lx_lp x) (lx_x x) with
                | Some (k, _) => if r =? Z.of_nat k then 0 else - r - 1 | None => - r - 1 end)
    d0 rules1.
Lemma xline_answer ok l x' : spx_answer (xline ok) l x' ->
  (exists y b, line_solve (table_of l) = Some (y, b) /\
     x' = mkLX (if b then ST_OPTIMAL else ST_INFEASIBLE) y (Some (table_of l))) \/
  (ok = true /\ x' = mkLX ST_ABORT_TIME d0 None).
Proof.
  intros (x & g & _ & H). cbn in H. destruct (line_solve (table_of l)) as [[y b]|].
  - injection H as <-. left. exists y, b. auto.
  - destruct ok; [|discriminate H]. injection H as <-. right. auto.
Qed.
Lemma xline_plain ok : plain_spx (xline ok).
Proof.
  constructor.
  - intros x. cbn. destruct (number_finite (lx_x x)) as [V _]. destruct (number (lx_x x)); exact V || reflexivity.
  - intros x g l x' H. cbn in H. destruct (line_solve (table_of l)) as [[y b]|]; [discriminate H|].
    destruct ok; [discriminate H|]. injection H as <-. cbn. unfold spx_success. cbn. intuition discriminate.
  - intros l x' _ _ _. cbn. exists (fun _ => number (lx_x x')). split; [reflexivity|]. intros. apply number_finite.
Qed.
Lemma xline_runs : spx_runs (xline true).
Proof. intros x g l. cbn. destruct (line_solve (table_of l)) as [[y [|]]|]; cbn; unfold spx_success; cbn; intuition. Qed.
Lemma xline_keeps ok : keeps_entries (xline ok).
Proof. intros l. apply Permutation_refl. Qed.
Lemma xline_inside ok : spx_inside (xline ok).
Proof.
  intros l x' f _ A O P k g Hg. cbn in P. injection P as <-.
  apply xline_answer in A as [(y & b & L & ->)|[_ ->]]; [|discriminate O]. destruct b; [|discriminate O].
  destruct (answer_inside l y L) as [F I]. cbn [lx_x]. rewrite (number_id y F). exact (I k g Hg).
Qed.
Lemma xline_accurate ok : spx_accurate 0 (xline ok).
Proof.
  intros l x' f _ A O P. cbn in P. injection P as <-.
  apply xline_answer in A as [(y & b & L & ->)|[_ ->]]; [|discriminate O]. destruct b; [|discriminate O].
  destruct (answer_inside l y L) as [F _]. cbn [lx_x x_objective xline]. rewrite (number_id y F).
  apply answer_accurate; [exact L|]. reflexivity.
Qed.
Lemma xline_exact : exact_spx (xline false).
Proof.
  intros l x' _ _ _ A _ x R C. apply xline_answer in A as [(y & b & L & ->)|[E _]]; [|discriminate E].
  destruct (answer_exact l y b x L R C) as (-> & F & A). split; [reflexivity|]. cbn [x_objective xline lx_x].
  rewrite (number_id y F). exact A.
Qed.

(** Both. *)
Lemma lines_plain ok k : plain_lp (line ok) (xline ok) k.
Proof. destruct k; [split; [apply line_laws|apply line_plain]|apply xline_plain]. Qed.
Lemma lines_inside ok k : inside_lp (line ok) (xline ok) k.
Proof. destruct k; [apply line_inside|apply xline_inside]. Qed.
Lemma lines_accurate ok k : accurate_lp 0 (line ok) (xline ok) k.
Proof. destruct k; [apply line_accurate|apply xline_accurate]. Qed.
Lemma lines_exact k : exact_lp (line false) (xline false) k.
Proof. destruct k; [exact line_exact|exact xline_exact]. Qed.
Lemma lines_run k : runs_lp (line true) (xline true) k.
Proof. destruct k; [exact line_runs|exact xline_runs]. Qed.

(** *** Maximise x in [0, 3] with 1/2 <= x <= 5/2 and x integer *)
Definition five_halves : double := ddiv (dint 5) (dint 2).
Definition p_w : problem := toy_problem true d0 half five_halves.
Lemma p_w_proper : proper_problem p_w.
Proof.
  constructor.
  - split.
    + constructor; [|constructor]. split; [discriminate|reflexivity].
    + constructor; [|constructor]. split; [discriminate|]. cbn [c_idx c_coef c_lhs c_rhs num_vars toy_problem p_w p_vars length].
      split; [constructor; [cbn; lia|constructor]|]. split; [constructor; [intros []|constructor]|]. auto.
  - repeat constructor.
  - repeat constructor.
  - repeat constructor.
  - repeat constructor.
Qed.

Lemma p_w_var j v : nth_var p_w j = Some v -> j = 0 /\ v = mkVar "x" d1 d0 (dint 3) true.
Proof.
  unfold nth_var. destruct (Z.ltb_spec j 0) as [L|L]; [discriminate|]. destruct (Z.to_nat j) as [|n] eqn:N; [|destruct n; discriminate].
  intros H. injection H as <-. split; [lia|reflexivity].
Qed.
Lemma p_w_row x : (row_activity (mkCon "r" [0%Z] [d1] half five_halves) x == x 0%Z)%Q.
Proof.
  unfold row_activity, terms. cbn [c_idx c_coef combine map q_sum fold_right fst snd]. rewrite qval_d1. ring.
Qed.
Lemma p_w_cost x : (cost p_w x == - x 0%Z)%Q.
Proof.
  unfold cost. change (p_max p_w) with true. cbn [p_vars p_w toy_problem length seq map q_sum fold_right].
  change (input_objective p_w (Z.of_nat 0)) with d1. change (Z.of_nat 0) with 0%Z. rewrite qval_d1. ring.
Qed.
Lemma p_w_bounded : bounded_relaxation p_w.
Proof.
  exists (inject_Z (-3)). intros x [V _]. rewrite p_w_cost.
  destruct (V 0 (mkVar "x" d1 d0 (dint 3) true) eq_refl) as [_ B]. cbn [v_ub] in B.
  assert (B' : (x 0%Z <= inject_Z 3)%Q) by (rewrite <- (qval_dint 3) by reflexivity; exact B).
  change (inject_Z (-3)) with (- inject_Z 3)%Q. apply Qopp_le_compat. exact B'.
Qed.
Lemma p_w_integers : bounded_integers p_w.
Proof. repeat constructor. Qed.
Lemma p_w_visits : visits_integers p_w [0].
Proof.
  split; [repeat constructor; intros []|]. intros j. split.
  - intros [<-|[]]. eexists. split; reflexivity.
  - intros (v & H & _). apply p_w_var in H as [-> _]. left. reflexivity.
Qed.
Lemma p_w_feasible n : 1 <= n <= 2 -> feasible p_w (fun _ => inject_Z n).
Proof.
  intros R. assert (N : n = 1 \/ n = 2) by lia. split.
  - intros j v H. apply p_w_var in H as [-> ->]. cbn [v_lb v_ub v_int].
    split; [apply above_int; destruct N as [->| ->]; try lia; reflexivity|].
    split; [apply below_int; destruct N as [->| ->]; try lia; reflexivity|]. intros _. exists n. reflexivity.
  - intros r c H. unfold nth_con in H. cbn [p_cons p_w toy_problem] in H. destruct (r <? 0); [discriminate|].
    destruct (Z.to_nat r) as [|k]; [|destruct k; discriminate]. injection H as <-. cbn [c_lhs c_rhs].
    split.
    + apply (q_above_eq _ (inject_Z n)); [symmetry; apply p_w_row|]. apply above_int; destruct N as [->| ->]; try lia; reflexivity.
    + apply (q_below_eq _ (inject_Z n)); [symmetry; apply p_w_row|]. apply below_int; destruct N as [->| ->]; try lia; reflexivity.
Qed.

(** A generator that gives x <= 2 once, and the user's requests: the defaults, no cuts. *)
Definition cut_two : cut := mkCut (vec [(0, 1)]) (dint 2) 1 1 d1 "two" false true d1 None None.
Definition make_two {E : engine} {X : spx_engine} (a : list rounder * Z) : generator (E := E) (X := X) unit :=
  fun y r s => Ok (match cuts r with [] => [cut_two] | _ => [] end, y).
Definition without_cuts : params_msg :=
  mkPM None None None (Some (mkRunM [] [] (Some (mkLim (Some 0) None None None)))) [] [] None None.

Definition exact_integers : params_msg :=
  mkPM (Some d0) None None None [] [] None None.
Definition exact_without_cuts : params_msg :=
  mkPM (Some d0) None None (Some (mkRunM [] [] (Some (mkLim (Some 0) None None None)))) [] [] None None.
(** The same with SoPlex. *)
Definition ask_soplex : option lp_msg :=
  Some (mkLpM (Some LP_SOPLEX) None None None None None None None None None None None None None None None None).
Definition with_soplex (u : params_msg) : params_msg :=
  mkPM (pm_integrality u) (pm_numerical u) ask_soplex (pm_runner u) (pm_generators u) (pm_selectors u)
    (pm_backtrack u) (pm_branching u).
Lemma defaults_plain : plain_request params_empty.
Proof. constructor; try reflexivity. repeat split; try reflexivity. intros H. discriminate H. Qed.
Lemma without_plain : plain_request without_cuts.
Proof. constructor; try reflexivity. repeat split; try reflexivity. intros H. discriminate H. Qed.
Lemma exact_plain : plain_request exact_integers.
Proof. constructor; try reflexivity. repeat split; reflexivity. Qed.
Lemma exact_without_plain : plain_request exact_without_cuts.
Proof. constructor; try reflexivity. repeat split; reflexivity. Qed.
Lemma soplex_plain u : pm_lp u = None -> plain_request u -> plain_request (with_soplex u).
Proof.
  intros N [H1 H2 H3 H4 H5 H6]. constructor; try exact H5; try exact H6; reflexivity.
Qed.
Lemma defaults_supported : glop_supports (wanted_lp params_empty).
Proof. apply supported_iff. reflexivity. Qed.
Lemma two_proper : proper_cut p_w cut_two.
Proof.
  split; [|split; [repeat constructor|reflexivity]]. split; [reflexivity|]. split.
  - split; repeat constructor; cbn; try lia; try discriminate; try reflexivity.
  - repeat constructor; cbn; lia.
Qed.
Lemma two_valid : valid_cut p_w cut_two.
Proof.
  intros x [V C]. cbn [cut_two row right_hand_side vec ents map val idx fst snd q_sum fold_right].
  destruct (V 0 (mkVar "x" d1 d0 (dint 3) true) eq_refl) as (_ & _ & I). destruct (I eq_refl) as [z Hz].
  destruct (C 0 (mkCon "r" [0] [d1] half five_halves) eq_refl) as [_ B]. cbn [c_rhs] in B.
  apply (q_below_eq _ _ _ (p_w_row x)), (q_below_eq _ _ _ Hz) in B.
  apply (q_below_eq _ (inject_Z z)).
  - rewrite Hz. change (inject_Z z == qval d1 * inject_Z z + 0)%Q. rewrite qval_d1. ring.
  - assert (F : (qval five_halves == 5 # 2)%Q) by reflexivity.
    assert (B' : (inject_Z z <= 5 # 2)%Q) by (rewrite <- F; exact B).
    assert (Z2 : z <= 2). { unfold Qle, inject_Z in B'. cbn [Qnum Qden] in B'. lia. }
    assert (B2 : (inject_Z z <= qval (dint 2))%Q).
    { rewrite (qval_dint 2) by reflexivity. unfold Qle, inject_Z. cbn [Qnum Qden]. lia. }
    exact B2.
Qed.
Lemma two_generator E X a : valid_generator p_w (make_two (E := E) (X := X) a).
Proof.
  intros y r s cs y' _ _ H. injection H as <- _. destruct (cuts r); constructor; [split; [exact two_proper|exact two_valid]|constructor].
Qed.
Lemma two_total E X a : total_generator p_w (make_two (E := E) (X := X) a).
Proof.
  intros y r s _. eexists _, _. split; [reflexivity|]. destruct (cuts r); constructor; [split; [apply two_proper|discriminate]|constructor].
Qed.

(** The request [u] with the LP solver [k]. *)
Definition asking (k : solver_type) (u : params_msg) : params_msg :=
  match k with LP_GLOP => u | LP_SOPLEX => with_soplex u end.
Lemma asking_plain k u : pm_lp u = None -> plain_request u -> plain_request (asking k u).
Proof. intros N P. destruct k; [exact P|apply soplex_plain; assumption]. Qed.
Lemma asking_wanted k u : pm_lp u = None -> wanted_solver (asking k u) = k.
Proof. intros N. destruct k; [|reflexivity]. unfold wanted_solver, wanted_lp, asking. rewrite N. reflexivity. Qed.

Definition whole_of (ok : bool) (u : params_msg) :=
  CreateSolver (E := line ok) (X := xline ok) unit spx_start false false (fun l => fold_right insert_cut' [] l)
    (fun _ _ => 0) make_two tt [0] p_w u.
(** What a run gives: the best solution, the explored nodes, and the calls of the cut runner. *)
Definition outcome_of {G E X} (x : outcome (env (whole (E := E) (X := X) G) * whole (E := E) (X := X) G)) (fuel : nat) :=
  do (e, w) <- x ; do s <- Solve e fuel w ; Ok (best (res s), explored s, calls (world s)).
Lemma outcome_of_ok {G E X} (x : outcome (env (whole (E := E) (X := X) G) * whole (E := E) (X := X) G)) fuel b ns cs :
  outcome_of x fuel = Ok (b, ns, cs) -> exists e w s, x = Ok (e, w) /\ Solve e fuel w = Ok s /\
    best (res s) = b /\ explored s = ns /\ calls (world s) = cs.
Proof.
  unfold outcome_of. intros H. apply bind_ok in H as ([e w] & -> & H). apply bind_ok in H as (s & S & H).
  injection H as <- <- <-. exists e, w, s. auto.
Qed.
(** The answer is the same with both LP solvers. *)
Lemma run_with_cut ok k : outcome_of (whole_of ok (asking k params_empty)) 5 =
  Ok (mkSol [dint 2] (dint (-2)), [0], [Runner.AddRow (vec [(0, 1)]) dminf (dint 2) "two"; SolveDual]).
Proof. destruct ok, k; calc. Qed.
Lemma run_branching ok k : outcome_of (whole_of ok (asking k without_cuts)) 5 =
  Ok (mkSol [dint 2] (dint (-2)), [0; 2; 1], []).
Proof. destruct ok, k; calc. Qed.
Lemma run_exact ok k : outcome_of (whole_of ok (asking k exact_integers)) 5 =
  Ok (mkSol [dint 2] (dint (-2)), [0], [Runner.AddRow (vec [(0, 1)]) dminf (dint 2) "two"; SolveDual]).
Proof. destruct ok, k; calc. Qed.
Lemma run_exact_branching ok k : outcome_of (whole_of ok (asking k exact_without_cuts)) 5 =
  Ok (mkSol [dint 2] (dint (-2)), [0; 2; 1], []).
Proof. destruct ok, k; calc. Qed.
