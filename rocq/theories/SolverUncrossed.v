(** Termination of the branch-and-bound loop when the LP can be solved only while the bounds of
    the integer variables do not cross.  Needs whole bounds in the problem. *)
From Coq Require Import String List ZArith Bool QArith Permutation Sorted Lia ZifyBool.
From Verif Require Import Outcome OutcomeFacts Num Double DoubleFacts Rounding Problem MipData ProblemSpec
  MipDataProofs MipTree TreeSpec TreeFacts TreeProofs Branching BranchingProofs Solver SolverSpec SolverProofs.
Import ListNotations.
Open Scope Z_scope.

Section Uncrossed.
Context {W : Type} (E : env W) (p : problem) (OK : env_ok E p).
Let lb := MipData.lower_bounds (data E).
Let ub := MipData.upper_bounds (data E).
Let nc := num_vars p.
Variables (w0 : W) (bounds : W -> Z -> double * double).
Hypothesis (BO : branch_ok E) (LK : lp_keeps_bounds E bounds) (LI : lp_inside E p bounds).
Hypothesis (BF : branch_fractional E) (BI : bounded_integers p) (WB : whole_bounds p).
Hypothesis LU : lp_total_uncrossed E p bounds.

Lemma int_whole j r r' : In j (order E) -> at_ lb j = Ok r -> at_ ub j = Ok r' -> is_whole (zval r) /\ is_whole (zval r').
Proof.
  intros J R R'. apply (env_lists E p OK) in J as (v & A & B). destruct (env_at E p OK j v A) as [R1 R2].
  fold lb in R1. fold ub in R2. rewrite R in R1. injection R1 as ->. rewrite R' in R2. injection R2 as ->.
  unfold whole_bounds in WB. rewrite Forall_forall in WB. apply WB; auto.
  unfold nth_var in A. destruct (j <? 0); [discriminate|]. eapply nth_error_In; eauto.
Qed.

(** The bounds in the box of a node are whole. *)
Lemma box_whole t n lo up j a b : tree_ok nc t -> active t n -> boxed t lb ub n lo up -> In j (order E) ->
  at_ lo j = Ok a -> at_ up j = Ok b -> is_whole (zval a) /\ is_whole (zval b).
Proof.
  intros T A [B1 B2] J HA HB. destruct (int_finite E p OK BI j J) as (r & r' & R & R' & _). fold lb in R. fold ub in R'.
  destruct (int_whole j r r' J R R') as [W1 W2].
  destruct (path_of_active t n (proj1 T) A) as [l P].
  destruct (path_data nc t n l T P) as [D1 D2]. destruct (env_lengths E p OK) as [L1 L2]. destruct (env_nans E p OK) as (N1 & N2 & _).
  pose proof (path_fin p t n l T P) as PF. rewrite Forall_forall in PF.
  destruct (lower_bounds t n l lb (proj1 T) P) as (lo' & E1 & _ & E2); [unfold lb; rewrite L1; auto|auto|].
  destruct (upper_bounds t n l ub (proj1 T) P) as (up' & F1 & _ & F2); [unfold ub; rewrite L2; auto|auto|].
  rewrite B1 in E1. injection E1 as <-. rewrite B2 in F1. injection F1 as <-.
  destruct (E2 j r R) as (x & X1 & X2 & _). destruct (F2 j r' R') as (y & Y1 & Y2 & _).
  rewrite HA in X1. injection X1 as <-. rewrite HB in Y1. injection Y1 as <-. split.
  - destruct X2 as [->|(d & I & [X|(_ & _ & ->)])]; auto; destruct (PF d I) as (P1 & P2 & P3 & P4).
    + rewrite P1 in X. destruct X.
    + destruct (dceil_spec _ P3 P4) as (_ & _ & ->). eexists; reflexivity.
  - destruct Y2 as [->|(d & I & [X|(_ & _ & ->)])]; auto; destruct (PF d I) as (P1 & P2 & P3 & P4).
    + rewrite P2 in X. destruct X.
    + destruct (dfloor_spec _ P3 P4) as (_ & _ & ->). eexists; reflexivity.
Qed.

Definition ordered_box (t : tree) (n : Z) : Prop :=
  forall lo up, boxed t lb ub n lo up -> forall j a b, In j (order E) -> at_ lo j = Ok a -> at_ up j = Ok b -> dleb a b = true.

Lemma int_in z x : finite_double x -> (int_ge z x <-> zval x <= z * zone) /\ (int_le z x <-> z * zone <= zval x).
Proof. intros [V F]. destruct x; try discriminate; cbn [int_ge int_le]; lia. Qed.

Lemma children_ordered t n j v t1 a t2 b lo up a0 b0 : tree_ok nc t -> leaf t n -> In j (order E) -> finite_double v ->
  ~ is_whole (zval v) -> AddNode t n j true v = Ok (t1, a) -> AddNode t1 n j false v = Ok (t2, b) ->
  boxed t lb ub n lo up -> at_ lo j = Ok a0 -> at_ up j = Ok b0 -> dleb a0 v = true -> dleb v b0 = true ->
  ordered_box t n -> ordered_box t2 a /\ ordered_box t2 b.
Proof.
  intros T L J FV NW A1 A2 BX LA UB LE1 LE2 ORD.
  destruct (add_step nc t n j v T L (env_range E p OK j J) FV) as (t1' & a' & t2' & b' & X1 & X2 & T2 & AB & NA & NB & LA2 & LB2 & _ & SUB).
  rewrite A1 in X1. injection X1 as <- <-. rewrite A2 in X2. injection X2 as <- <-.
  destruct L as [AC CN].
  destruct (path_of_active t n (proj1 T) AC) as [l P]. destruct (path_data nc t n l T P) as [D1 D2].
  destruct (env_lengths E p OK) as [L1 L2]. destruct (env_nans E p OK) as (N1 & N2 & N3 & N4).
  fold lb in L1, N1, N3. fold ub in L2, N2, N4.
  assert (FV' := FV). destruct FV' as [VV FF].
  destruct (branching t n j v t1 a t2 b l lb ub (proj1 T) A1 A2 FF VV P) as
    (lp & up' & ld & ud & lu & uu & B1 & B2 & B3 & B4 & B5 & B6 & OTH & p0 & q0 & p1 & q1 & p2 & q2 & C1 & C2 & C3 & C4 & C5 & C6 & SPLIT & FR & _);
    auto; try (rewrite L1; auto using (env_range E p OK)); try lia.
  destruct (FR (is_whole_fractional p v FV NW)) as (_ & LT1 & LT2).
  destruct (box_sub t t2 n lb ub (proj1 T) (proj1 T2) AC SUB) as [S1 S2]. destruct BX as [BX1 BX2].
  rewrite S1, BX1 in B1. injection B1 as <-. rewrite S2, BX2 in B2. injection B2 as <-.
  rewrite LA in C1. injection C1 as <-. rewrite UB in C2. injection C2 as <-.
  destruct (box_finite E p OK BI t n lo up j T AC (conj BX1 BX2) J) as (x & y & X & Y & F1 & F2).
  rewrite LA in X. injection X as <-. rewrite UB in Y. injection Y as <-.
  destruct (box_whole t n lo up j a0 b0 T AC (conj BX1 BX2) J LA UB) as [[ka WA] [kb WB0]].
  destruct (box_finite E p OK BI t2 a ld ud j T2 (proj1 LA2) (conj B3 B4) J) as (x1 & y1 & X1 & Y1 & F3 & F4).
  rewrite C3 in X1. injection X1 as <-. rewrite C4 in Y1. injection Y1 as <-.
  destruct (box_finite E p OK BI t2 b lu uu j T2 (proj1 LB2) (conj B5 B6) J) as (x2 & y2 & X2 & Y2 & F5 & F6).
  rewrite C5 in X2. injection X2 as <-. rewrite C6 in Y2. injection Y2 as <-.
  assert (Zone : 0 < zone) by (vm_compute; reflexivity).
  apply dleb_zval in LE1; try apply F1; try apply FV. apply dleb_zval in LE2; try apply F2; try apply FV.
  apply dltb_zval in LT1; try apply F4; try apply FV. apply dltb_zval in LT2; try apply F5; try apply FV.
  set (z := zval v / zone).
  assert (ZL : z * zone <= zval v) by (unfold z; pose proof (Z.mul_div_le (zval v) zone Zone); lia).
  assert (ZH : zval v < (z + 1) * zone) by (unfold z; pose proof (Z.mul_succ_div_gt (zval v) zone Zone); lia).
  assert (ZS : z * zone < zval v).
  { destruct (Z.eq_dec (z * zone) (zval v)) as [Q|Q]; [|lia]. exfalso. apply NW. exists z. auto. }
  assert (KA : ka <= z) by nia. assert (KB : z + 1 <= kb) by nia.
  assert (Gin : forall i u w, finite_double u -> finite_double w ->
    (in_interval i u w <-> zval u <= i * zone /\ i * zone <= zval w)).
  { intros i u w Fu Fw. unfold in_interval. destruct (int_in i u Fu) as [G1 _]. destruct (int_in i w Fw) as [_ G2]. tauto. }
  assert (ODN : dleb p1 q1 = true).
  { assert (I : in_interval z a0 b0) by (apply Gin; auto; nia). apply SPLIT in I.
    apply dleb_zval; try apply F3; try apply F4. destruct I as [I|I]; apply Gin in I; auto; lia. }
  assert (OUP : dleb p2 q2 = true).
  { assert (I : in_interval (z + 1) a0 b0) by (apply Gin; auto; nia). apply SPLIT in I.
    apply dleb_zval; try apply F5; try apply F6. destruct I as [I|I]; apply Gin in I; auto; lia. }
  split; intros lo1 up1 [G1 G2] i x y Ji Hx Hy.
  - rewrite B3 in G1. injection G1 as <-. rewrite B4 in G2. injection G2 as <-.
    destruct (Z.eq_dec i j) as [->|N]; [congruence|]. destruct (OTH i N) as (O1 & O2 & _). rewrite O1 in Hx. rewrite O2 in Hy.
    apply (ORD lo up (conj BX1 BX2) i x y Ji Hx Hy).
  - rewrite B5 in G1. injection G1 as <-. rewrite B6 in G2. injection G2 as <-.
    destruct (Z.eq_dec i j) as [->|N]; [congruence|]. destruct (OTH i N) as (_ & _ & O1 & O2). rewrite O1 in Hx. rewrite O2 in Hy.
    apply (ORD lo up (conj BX1 BX2) i x y Ji Hx Hy).
Qed.

Definition ordered_queue (s : solver_state W) : Prop := forall n, In n (queue s) -> ordered_box (mip_tree s) n.

Lemma ordered_sub t t' n : reachable t -> reachable t' -> active t n ->
  (forall m d, node t m = Ok d -> node t' m = Ok d) -> ordered_box t n -> ordered_box t' n.
Proof.
  intros R R' A S O lo up [B1 B2]. destruct (box_sub t t' n lb ub R R' A S) as [E1 E2]. apply O.
  split; [rewrite <- E1|rewrite <- E2]; assumption.
Qed.
Lemma ordered_super t t' n : reachable t -> reachable t' -> active t n ->
  (forall m d, node t m = Ok d -> node t' m = Ok d) -> ordered_box t' n -> ordered_box t n.
Proof.
  intros R R' A S O lo up [B1 B2]. destruct (box_sub t t' n lb ub R R' A S) as [E1 E2]. apply O.
  split; [rewrite E1|rewrite E2]; assumption.
Qed.
Lemma ordered_setlp t t' n v m : SetLp t n v = Ok t' -> ordered_box t m -> ordered_box t' m.
Proof.
  intros S O lo up [B1 B2]. destruct (box_setlp t t' n v m lb ub S) as [E1 E2]. apply O.
  split; [rewrite <- E1|rewrite <- E2]; assumption.
Qed.

Lemma ordered_start : ordered_queue (solve_start w0).
Proof.
  intros n [<-|[]] lo up [B1 B2] j a b J HA HB. cbn [solve_start mip_tree] in B1, B2.
  assert (R1 : RetrieveLower tree_new 0 lb = Ok lb) by reflexivity.
  assert (R2 : RetrieveUpper tree_new 0 ub = Ok ub) by reflexivity.
  rewrite R1 in B1. injection B1 as <-. rewrite R2 in B2. injection B2 as <-.
  apply (env_lists E p OK) in J as (v & A & B). destruct (env_at E p OK j v A) as [Q1 Q2]. fold lb in Q1. fold ub in Q2.
  rewrite HA in Q1. injection Q1 as ->. rewrite HB in Q2. injection Q2 as ->.
  assert (I : In v (p_vars p)) by (unfold nth_var in A; destruct (j <? 0); [discriminate|]; eapply nth_error_In; eauto).
  destruct (eo_problem _ _ OK) as [PV _]. rewrite Forall_forall in PV. destruct (PV v I) as [_ LE].
  pose proof (eo_bounds _ _ OK) as EB. rewrite Forall_forall in EB. destruct (EB v I) as (N1 & N2 & _).
  apply not_dltb_leb; assumption.
Qed.

Lemma ordered_round s v : inv p s -> ordered_queue s -> solver_round E s = Ok v -> ordered_queue (state_of v).
Proof.
  intros (T & ND & LF & RT) OQ H. apply round_cases in H.
  assert (TK : forall n q, take (backjump s) (queue s) = Ok (n, q) ->
    leaf (mip_tree s) n /\ ordered_box (mip_tree s) n /\ (forall m, In m q -> leaf (mip_tree s) m /\ m <> n /\ ordered_box (mip_tree s) m)).
  { intros n q H0. apply take_perm in H0.
    assert (IN : forall m, m = n \/ In m q -> In m (queue s)).
    { intros m X. eapply Permutation_in; [apply Permutation_sym, H0|]. destruct X; cbn; auto. }
    assert (N2 : NoDup (n :: q)) by (eapply Permutation_NoDup; eauto). apply NoDup_cons_iff in N2 as [N2 N3].
    split; [apply LF, IN; auto|]. split; [apply OQ, IN; auto|].
    intros m M. split; [apply LF, IN; auto|]. split; [congruence|apply OQ, IN; auto]. }
  inversion H as [n q w t bj k seen H1 H2 H3 H4 H5 Hv|n q w t x bj seen H1 H2 H3 H4 H5 H6 H7 Hv
    |n q w t x bj seen H1 H2 H3 H4 H5 H6 H7 Hv|n q w t x j uf v0 t1 a t2 b q' seen H1 H2 H3 H4 H5 H6 H7 H8 H9 H10 H11 Hv];
    subst v; intros m M; cbn [state_of mip_tree queue] in *; destruct (TK _ _ H1) as (L & OB & LQ).
  - destruct (close_step nc _ n T L H4) as (t' & C1 & C2 & C3 & C4 & C5). rewrite H5 in C1. injection C1 as <-.
    destruct (LQ m M) as (M1 & M2 & M3). apply (ordered_super t (mip_tree s)); auto; [apply C2|apply T|apply C5; auto].
  - apply (ordered_setlp _ _ _ _ _ H4). apply LQ. exact M.
  - apply (ordered_setlp _ _ _ _ _ H4). apply LQ. exact M.
  - destruct (setlp_step nc _ n (objective_value E w) T L) as (t' & C1 & C2 & C3 & C4). rewrite H4 in C1. injection C1 as <-.
    destruct (BF w x H3 H5 H6 j uf H7) as (J & v1 & V1 & V2 & V3). rewrite H8 in V1. injection V1 as <-.
    destruct (add_step nc t n j v0 C2 (C3 n L) (env_range E p OK j J) V2) as (t1' & a' & t2' & b' & A1 & A2 & A3 & A4 & A5 & A6 & A7 & A8 & A9 & A10).
    rewrite H9 in A1. injection A1 as <- <-. rewrite H10 in A2. injection A2 as <- <-.
    destruct (solve_node_bounds E bounds LK _ _ _ _ H2) as (lo & up & [BX1 BX2] & BJ). destruct (BJ j J) as (a0 & b0 & G1 & G2 & G3).
    destruct (LI w x H3 H5) as (_ & _ & L3). destruct (L3 j v0) as (_ & K1 & K2); [apply (env_lists E p OK); auto|auto|].
    rewrite G3 in K1, K2. cbn [fst snd] in *.
    destruct (box_setlp _ _ _ _ n lb ub H4) as [Y1 Y2].
    assert (BX : boxed t lb ub n lo up) by (split; [rewrite Y1|rewrite Y2]; auto).
    destruct (children_ordered t n j v0 t1 a t2 b lo up a0 b0 C2 (C3 n L) J V2 V3 H9 H10 BX G1 G2 K1 K2
      (ordered_setlp _ _ _ _ _ H4 OB)) as [M1 M2].
    eapply Permutation_in in M; [|exact H11]. destruct M as [<-|[<-|M]]; auto.
    destruct (LQ m M) as (Q1 & Q2 & Q3).
    apply (ordered_sub t t2); [apply C2|apply A3|apply C4, Q1|exact A10|exact (ordered_setlp _ _ _ _ _ H4 Q3)].
Qed.

Lemma solve_node_total_uncrossed t n w : tree_ok nc t -> active t n -> ordered_box t n -> exists w', solve_node E t n w = Ok w'.
Proof.
  intros T A OB. destruct (env_lengths E p OK) as [L1 L2]. destruct (env_nans E p OK) as (N1 & N2 & _).
  destruct (box_exists nc t n lb ub T A L1 L2 N1 N2) as (lo & up & [B1 B2] & M1 & M2).
  unfold solve_node. fold lb ub. rewrite B1, B2. cbn [bind].
  destruct (foldM_total (fun w col => do l <- at_ lo col ; do u <- at_ up col ; check_ok (set_bounds E w col l u)) (order E)) with (s := w) as [w1 S].
  { intros s j J. destruct (box_valid E p OK t n lo up j T A (conj B1 B2) J) as (a & b & -> & -> & VA & VB).
    cbn [bind]. apply (env_lists E p OK) in J. destruct (lu_set _ _ _ LU s j a b J VA VB) as [w' ->]. cbn. eauto. }
  unfold set_node_bounds. rewrite S. cbn [bind].
  assert (U : uncrossed p (bounds w1)).
  { intros j J. apply (env_lists E p OK) in J. destruct (keeps_loop E bounds LK _ _ _ _ _ S) as (_ & B3).
    destruct (B3 j J) as (a & b & HA & HB & ->). cbn [fst snd].
    destruct (box_valid E p OK t n lo up j T A (conj B1 B2) J) as (a' & b' & HA' & HB' & VA & VB).
    rewrite HA in HA'. injection HA' as <-. rewrite HB in HB'. injection HB' as <-.
    split; [exact VA|]. split; [exact VB|]. exact (OB lo up (conj B1 B2) j a b J HA HB). }
  destruct (lu_solve _ _ _ LU w1 U) as [w2 D]. rewrite D. cbn [check_ok bind].
  destruct (is_optimal E w2) eqn:O; eauto.
  assert (U2 : uncrossed p (bounds w2)) by (intros j J; rewrite (lk_solve _ _ LK _ _ D); exact (U j J)).
  destruct (lu_separate _ _ _ LU w2 U2 O) as [w3 ->]. cbn. eauto.
Qed.

Lemma round_total_uncrossed s : inv p s -> ordered_queue s -> queue s <> [] ->
  (exists v, solver_round E s = Ok v) \/ solver_round E s = Err Internal.
Proof.
  intros (T & ND & LF & RT) OQ Q. unfold solver_round.
  destruct (take_defined (backjump s) (queue s) Q) as (n & q & TK). rewrite TK. cbn [bind].
  assert (IQ : In n (queue s)) by (eapply Permutation_in; [apply Permutation_sym, (take_perm _ _ _ _ TK)|cbn; auto]).
  assert (L : leaf (mip_tree s) n) by (apply LF; exact IQ).
  destruct (solve_node_total_uncrossed (mip_tree s) n (world s) T (proj1 L) (OQ n IQ)) as [w ->]. cbn [bind].
  destruct (is_optimal E w) eqn:O; cbn [negb].
  - left. destruct (setlp_step nc _ n (objective_value E w) T L) as (t & -> & T' & LF' & _). cbn [bind].
    destruct (lu_primal _ _ _ LU w O) as (x & PX & LX). rewrite PX. cbn [check_ok bind].
    destruct (integral_total (order E) x (tolerance E)) as [i IX].
    { intros j J. rewrite LX. apply (env_range E p OK); auto. }
    rewrite IX. cbn [bind]. destruct i; [destruct (n =? 0); eauto|].
    destruct (lu_branch _ _ _ LU w x O PX IX) as (j & uf & B). rewrite B. cbn [check_ok bind].
    destruct (BO w x O PX IX j uf B) as (J & v & V1 & V2). rewrite V1. cbn [bind].
    destruct (add_step nc t n j v T' (LF' n L) (env_range E p OK j J) V2) as (t1 & a & t2 & b & A1 & A2 & _).
    rewrite A1. cbn [bind]. rewrite A2. cbn [bind]. eauto.
  - destruct (Z.eqb_spec n 0) as [->|N]; auto. left.
    destruct (close_step nc _ n T L N) as (t & -> & _). cbn [bind]. destruct (_ <? _); eauto.
Qed.

Lemma loop_fuel_uncrossed fuel : forall s, inv p s -> ordered_queue s -> weight E (mip_tree s) (queue s) < Z.of_nat fuel ->
  (exists s', solve_loop E fuel s = Ok s') \/ solve_loop E fuel s = Err Internal.
Proof.
  induction fuel as [|f IH]; intros s I OQ WT; cbn [solve_loop].
  - pose proof (weight_nonneg E p (mip_tree s) (queue s)). lia.
  - destruct (queue s) as [|n q] eqn:Q; [eauto|]. rewrite <- Q in *.
    destruct (round_total_uncrossed s I OQ) as [[v R]|R]; [congruence| |]; rewrite R; cbn [bind]; auto.
    destruct v as [s1|s1]; [|eauto]. pose proof (weight_round E p OK bounds LK LI BF BI s s1 I R).
    apply (IH s1); auto; [apply (inv_round E p OK s _ I BO (round_cases E s _ R))|exact (ordered_round s _ I OQ R)|lia].
Qed.

Theorem solve_terminates_uncrossed : exists fuel0, forall fuel, (fuel0 <= fuel)%nat ->
  (exists s, Solve E fuel w0 = Ok s) \/ Solve E fuel w0 = Err Internal.
Proof.
  exists (S (Z.to_nat (weight E tree_new [0]))). intros fuel F.
  apply loop_fuel_uncrossed; [apply inv_start; exact OK|exact ordered_start|].
  cbn [solve_start mip_tree queue]. lia.
Qed.
End Uncrossed.
