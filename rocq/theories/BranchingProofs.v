(** Proofs about the branching rules. *)
From Coq Require Import List ZArith Bool Lia ZifyBool.
From Verif Require Import Outcome OutcomeFacts Num Double DoubleFacts DoubleExact Rounding MipData
  ProblemSpec MipDataProofs Branching.
Import ListNotations.
Open Scope Z_scope.

Lemma dabs_nonneg x : finite_double x -> 0 <= zval x -> dabs x = x \/ (zval x = 0 /\ dabs x = d0).
Proof.
  intros [V F] H. destruct x as [[]|s| |[] m e]; try discriminate; auto.
  exfalso. pose proof (bounded_spec m e V) as (E & _).
  assert (0 < Zpos m * 2 ^ (e + 1074)) by (apply zval_pos; lia). cbn [zval] in H. lia.
Qed.

(** The loop's value of the fractional part. *)
Lemma abs_frac x : finite_double x -> zval x mod zone <> 0 -> dabs (dsub x (dfloor x)) = frac x.
Proof.
  intros H NZ. fold (frac x). destruct (frac_range x H) as [F R].
  destruct (dabs_nonneg _ F) as [E|[E _]]; [lia|auto|]. exfalso.
  apply frac_pos in NZ; auto. rewrite dltb_zval in NZ by (try apply F; auto). change (zval d0) with 0 in NZ. lia.
Qed.

Lemma not_near_frac x tol : is_finite tol = true -> 0 <= zval tol ->
  ~ near_integer x tol -> zval x mod zone <> 0.
Proof.
  intros F T N M. apply N. pose proof zone_pos. exists (zval x / zone).
  rewrite (Z.div_mod (zval x) zone) at 1 by lia. rewrite M. lia.
Qed.

Section Loop.
Variables (tol : double) (x : list double).
Hypothesis VT : dvalid tol = true.
Hypothesis FT : is_finite tol = true.
Hypothesis PT : 0 <= zval tol.

Definition usable (j : Z) : Prop := exists v, at_ x j = Ok v /\ finite_double v.
Definition branchable (j : Z) : Prop := exists v, at_ x j = Ok v /\ ~ near_integer v tol.

Lemma loop_ok order : forall best part, Forall usable order -> finite_double part ->
  exists b p, max_fractional_loop tol x order best part = Ok (b, p) /\ finite_double p /\ zval part <= zval p /\
    ((b = best /\ p = part) \/ (In b order /\ exists v, at_ x b = Ok v /\ ~ near_integer v tol /\ p = frac v)) /\
    (forall j v, In j order -> at_ x j = Ok v -> ~ near_integer v tol -> zval (frac v) <= zval p).
Proof.
  induction order as [|c r IH]; intros best part U P; cbn [max_fractional_loop].
  - exists best, part. split; auto. split; auto. split; [lia|]. split; auto. intros j v [].
  - apply Forall_cons_iff in U as [(v & Ev & Fv) U]. rewrite Ev. cbn [bind].
    destruct (close_to_integer v tol) eqn:C.
    + apply close_iff in C as [_ C]; auto; try apply Fv.
      destruct (IH best part U P) as (b & p & E & F & L & W & M). exists b, p. split; auto. split; auto. split; auto.
      split; [destruct W as [W|(W1 & W)]; [auto|right; split; [right; auto|auto]]|].
      intros j w [<-|Hj] Ew N; [|eauto]. exfalso. apply N. congruence.
    + assert (NN : ~ near_integer v tol).
      { intros N. pose proof (proj2 (close_iff v tol (proj1 Fv) VT FT) (conj (proj2 Fv) N)). congruence. }
      pose proof (not_near_frac v tol FT PT NN) as NZ. rewrite abs_frac by auto.
      destruct (frac_range v Fv) as [FF _].
      destruct (dltb part (frac v)) eqn:LT.
      * apply dltb_zval in LT; [|apply P|apply FF|apply P|apply FF].
        destruct (IH c (frac v) U FF) as (b & p & E & F & L & W & M). exists b, p. split; auto. split; auto.
        split; [lia|]. split.
        -- right. destruct W as [[-> ->]|(W1 & W)]; [split; [left; auto|eauto]|split; [right; auto|auto]].
        -- intros j w [<-|Hj] Ew N; [|eauto]. assert (w = v) by congruence. subst w. lia.
      * assert (LE : zval (frac v) <= zval part).
        { destruct (Z.le_gt_cases (zval (frac v)) (zval part)) as [|G]; auto.
          apply dltb_zval in G; [|apply P|apply FF|apply P|apply FF]. congruence. }
        destruct (IH best part U P) as (b & p & E & F & L & W & M). exists b, p. split; auto. split; auto. split; auto.
        split; [destruct W as [W|(W1 & W)]; [auto|right; split; [right; auto|auto]]|].
        intros j w [<-|Hj] Ew N; [|eauto]. assert (w = v) by congruence. subst w. lia.
Qed.

Lemma max_fractional_spec dir order : Forall usable order -> (exists j, In j order /\ branchable j) ->
  exists b up v, MaxFractional dir tol order x = Ok (b, up) /\ In b order /\ at_ x b = Ok v /\
    ~ near_integer v tol /\
    (forall j w, In j order -> at_ x j = Ok w -> ~ near_integer w tol -> dleb (frac w) (frac v) = true) /\
    up = match dir with Up => true | Down => false | Unspecified => dleb (frac v) dhalf end.
Proof.
  intros U (j & Hj & w & Ew & Nw).
  destruct (loop_ok order 0 d0 U zero_double) as (b & p & E & F & L & W & M).
  assert (Uj : finite_double w).
  { rewrite Forall_forall in U. destruct (U j Hj) as (w' & E' & F'). congruence. }
  assert (PP : 0 < zval p).
  { specialize (M j w Hj Ew Nw). pose proof (not_near_frac w tol FT PT Nw) as NZ.
    apply frac_pos in NZ; auto. destruct (frac_range w Uj) as [FF _].
    rewrite dltb_zval in NZ by (try apply FF; auto). change (zval d0) with 0 in NZ. lia. }
  destruct W as [[_ ->]|(Hb & v & Ev & Nv & ->)]; [cbn in PP; lia|].
  exists b, (match dir with Up => true | Down => false | Unspecified => dleb (frac v) dhalf end), v.
  split.
  - unfold MaxFractional. destruct order as [|c r]; [destruct Hj|]. rewrite E. reflexivity.
  - split; auto. split; auto. split; auto. split; auto. intros k u Hk Eu Nu.
    rewrite Forall_forall in U. destruct (U k Hk) as (u' & E' & F'). assert (u' = u) by congruence. subst u'.
    destruct (frac_range u F') as [FF _]. apply dleb_zval; [apply FF|apply F|apply FF|apply F|]. eauto.
Qed.
End Loop.

(** The fractional part as computed lies in (0, 1] and is 0 exactly for integers. *)
Lemma frac_positive x : finite_double x -> (dltb d0 (frac x) = true <-> ~ is_whole (zval x)).
Proof.
  intros H. rewrite frac_pos by auto. pose proof zone_pos. unfold is_whole. split.
  - intros NZ [k K]. apply NZ. rewrite K. apply Z.mod_mul. lia.
  - intros N M. apply N. exists (zval x / zone). rewrite (Z.div_mod (zval x) zone) at 1 by lia. rewrite M. lia.
Qed.

Lemma random_spec dir draw ints b up : is_draw draw -> NoDup ints -> Forall (fun j => 0 <= j) ints ->
  (forall j k, In j ints -> 0 <= k < j -> In k ints) ->
  RandomBranching dir draw ints = Ok (b, up) -> In b ints.
Proof.
  intros D N P C H. destruct ints as [|i r] eqn:EI; [discriminate|]. rewrite <- EI in *. clear i r EI.
  assert (E : draw (Z.of_nat (length ints)) = b).
  { unfold RandomBranching in H. destruct ints; [discriminate|]. congruence. }
  assert (L : 0 < Z.of_nat (length ints)) by (destruct ints; [discriminate|cbn; lia]).
  specialize (D _ L). rewrite E in D. clear H E.
  (* if b is not in the set then all members are below b, too many of them *)
  destruct (in_dec Z.eq_dec b ints) as [|NI]; auto. exfalso.
  assert (B : forall j, In j ints -> 0 <= j < b).
  { intros j Hj. rewrite Forall_forall in P. specialize (P j Hj). split; auto.
    destruct (Z.lt_ge_cases j b); auto. exfalso. apply NI. destruct (Z.eq_dec j b); [congruence|]. apply (C j); auto. lia. }
  assert (LE : (length ints <= length (map Z.of_nat (seq 0 (Z.to_nat b))))%nat).
  { apply NoDup_incl_length; auto. intros j Hj. specialize (B j Hj). apply in_map_iff.
    exists (Z.to_nat j). split; [lia|]. apply in_seq. lia. }
  rewrite map_length, seq_length in LE. lia.
Qed.

(** For a non-negative value the computed fractional part is the exact one. *)
Lemma frac_exact x : finite_double x -> 0 <= zval x -> zval (frac x) = zval x mod zone.
Proof.
  intros H P. destruct (floor_double x H) as [[A1 A2] B]. pose proof zone_pos as ZP.
  assert (D : zval x - zval (dfloor x) = zval x mod zone) by (rewrite B, Z.mod_eq by lia; lia).
  rewrite <- D. destruct H as [V F].
  assert (X : exists t, 0 <= t <= 2045 /\ zval x mod zone < 2 ^ (53 + t) /\ (2 ^ t | zval x mod zone)).
  { destruct x as [s|s| |s m e]; try discriminate.
    - exists 0. cbn [zval]. rewrite Z.mod_0_l by lia. split; [lia|]. split; [reflexivity|]. exists 0; lia.
    - pose proof (bounded_spec m e V) as (E1 & E2 & _). exists (e + 1074). split; [lia|].
      assert (QP : 0 < 2 ^ (e + 1074)) by (apply Z.pow_pos_nonneg; lia).
      assert (DV : (2 ^ (e + 1074) | zval (S754_finite s m e))).
      { cbn [zval]. exists (if s then - Zpos m else Zpos m). reflexivity. }
      assert (ML : zval (S754_finite s m e) mod zone <= zval (S754_finite s m e)) by (apply Z.mod_le; lia).
      assert (UB' : zval (S754_finite s m e) < 2 ^ (53 + (e + 1074))).
      { rewrite Z.pow_add_r by lia. cbn [zval] in *. destruct s; nia. }
      split; [lia|]. destruct (Z.le_gt_cases e 0) as [L|L].
      + rewrite Z.mod_eq by lia. apply Z.divide_sub_r; auto. apply Z.divide_mul_l.
        rewrite zone_pow. exists (2 ^ (- e)). rewrite <- Z.pow_add_r by lia. f_equal. lia.
      + assert (Q : zval (S754_finite s m e) mod zone = 0).
        { apply Z.mod_divide; [lia|]. eapply Z.divide_trans; [|exact DV]. rewrite zone_pow.
          exists (2 ^ e). rewrite <- Z.pow_add_r by lia. f_equal. }
        rewrite Q. exists 0. lia. }
  destruct X as (t & T1 & T2 & T3). pose proof (Z.mod_pos_bound (zval x) zone ZP) as MB.
  destruct (dsub_exact x (dfloor x) t) as (_ & _ & E); auto; rewrite ?D; auto. lia.
Qed.

Lemma random_direction dir draw ints :
  (ints = [] -> RandomBranching dir draw ints = Err InvalidArgument) /\
  (ints <> [] -> exists b up, RandomBranching dir draw ints = Ok (b, up) /\ (up = true <-> dir = Up)).
Proof.
  split.
  - intros ->. auto.
  - intros H. destruct ints as [|i ints]; [congruence|]. do 2 eexists. split; [reflexivity|].
    destruct dir; split; congruence.
Qed.

(** How far the computed parts can misorder the exact ones. *)
Lemma frac_order v w a b : finite_double v -> finite_double w -> dleb (frac w) (frac v) = true ->
  finite_double a -> finite_double b -> zval a < zval b ->
  ~ (zval v mod zone <= zval a /\ zval b <= zval w mod zone).
Proof.
  intros Hv Hw L Ha Hb AB [A B]. pose proof zone_pos as ZP. destruct one_double as [O1 O2].
  pose proof (Z.mod_pos_bound (zval v) zone ZP). pose proof (Z.mod_pos_bound (zval w) zone ZP).
  destruct (rounds_between _ _ d0 a (frac_rounds v Hv) zero_double Ha) as [[V1 F1] R1]; [change (zval d0) with 0; lia|].
  destruct (rounds_between _ _ b d1 (frac_rounds w Hw) Hb O1) as [[V2 F2] R2]; [lia|].
  apply dleb_zval in L; auto. lia.
Qed.
Lemma max_fractional_exact tol x dir order b up v : dvalid tol = true -> is_finite tol = true -> 0 <= zval tol ->
  Forall (fun j => exists v, at_ x j = Ok v /\ finite_double v) order ->
  (exists j, In j order /\ exists v, at_ x j = Ok v /\ ~ near_integer v tol) ->
  MaxFractional dir tol order x = Ok (b, up) -> at_ x b = Ok v ->
  forall j w, In j order -> at_ x j = Ok w -> ~ near_integer w tol ->
  (0 <= zval v -> 0 <= zval w -> zval w mod zone <= zval v mod zone) /\
  forall y z, finite_double y -> finite_double z -> zval y < zval z ->
    ~ (zval v mod zone <= zval y /\ zval z <= zval w mod zone).
Proof.
  intros VT FT PT FA EX M Bv j w Hj Hw NW.
  destruct (max_fractional_spec tol x VT FT PT dir order FA EX) as (b' & up' & v' & M' & Ib & Bv' & _ & MX & _).
  rewrite M in M'. injection M' as E1 E2. subst b' up'. rewrite Bv in Bv'. injection Bv' as E3. subst v'.
  specialize (MX j w Hj Hw NW). rewrite Forall_forall in FA.
  destruct (FA b Ib) as (v0 & K & Hv). rewrite Bv in K. injection K as K. subst v0.
  destruct (FA j Hj) as (w0 & K & Hw'). rewrite Hw in K. injection K as K. subst w0.
  split.
  - intros P1 P2. rewrite <- (frac_exact v Hv P1), <- (frac_exact w Hw' P2).
    destruct (frac_range v Hv) as [[V1 F1] _]. destruct (frac_range w Hw') as [[V2 F2] _].
    apply dleb_zval in MX; auto.
  - intros y z Hy Hz YZ. exact (frac_order v w y z Hv Hw' MX Hy Hz YZ).
Qed.

(** The direction in terms of exact values. *)
Lemma half_exact v : finite_double v -> dleb (frac v) dhalf = true <-> 2 * zval (frac v) <= zone.
Proof.
  intros H. destruct (frac_range v H) as [[V F] _]. rewrite (dleb_zval (frac v) dhalf V eq_refl F eq_refl).
  assert (E : 2 * zval dhalf = zone) by (vm_compute; reflexivity).
  set (h := zval dhalf) in *. set (u := zone) in *. clearbody h u. lia.
Qed.
Lemma max_fractional_half tol x : dvalid tol = true -> is_finite tol = true -> 0 <= zval tol -> forall dir order,
  Forall (fun j => exists v, at_ x j = Ok v /\ finite_double v) order ->
  (exists j, In j order /\ exists v, at_ x j = Ok v /\ ~ near_integer v tol) ->
  exists b up v, MaxFractional dir tol order x = Ok (b, up) /\ In b order /\ at_ x b = Ok v /\
    ~ near_integer v tol /\
    (forall j w, In j order -> at_ x j = Ok w -> ~ near_integer w tol -> dleb (frac w) (frac v) = true) /\
    match dir with Up => up = true | Down => up = false | Unspecified => up = true <-> 2 * zval (frac v) <= zone end.
Proof.
  intros VT FT PT dir order FA EX.
  destruct (max_fractional_spec tol x VT FT PT dir order FA EX) as (b & up & v & M & Ib & Bv & N & MX & D).
  exists b, up, v. repeat split; auto. rewrite Forall_forall in FA. destruct (FA b Ib) as (v0 & K & Hv).
  rewrite Bv in K. injection K as K. subst v0 up. destruct dir; auto. exact (half_exact v Hv).
Qed.
