(** The small LPs behind the examples and counterexamples of PropsAgg. *)
From Coq Require Import String List ZArith QArith Qround Bool Sorted Lia Lqa.
From Verif Require Import Outcome OutcomeFacts Num Double SparseVector VectorSpec SolverSpec
  Aggregation AggSpec AggProofs AggValid AggDefined.
Import ListNotations.
Open Scope Z_scope.

(** 1e20 stands for infinity. *)
Definition big : Q := 100000000000000000000.
Definition inf_Q (y : arith_Q) : bool := Qle_bool big y.
Definition T (i : Z) (c : Q) : Z * Q := (i, c).
Arguments T i%Z_scope c%Q_scope.
Definition row_Q (l : list (Z * Q)) : svec arith_Q :=
  mkV (map (fun t => @mkE arith_Q (fst t) (snd t)) l) false.

(** A one-row LP: row, sides, bounds, optimum, activity, basic column, basis inverse. *)
Definition lp1 (a : list (Z * Q)) (lo hi : Q) (lb ub xs : list Q) (act : Q) (col : Z) (w : Q)
  (ints : list Z) (flag : bool) (t : Q) : view arith_Q :=
  @mkView arith_Q [row_Q a] [lo] [hi] lb ub inf_Q true true (Ok [act]) (Ok xs) [col]
    (fun r => if r =? 0 then Ok (row_Q [T 0 w]) else Err Internal) ints [flag] t.
Arguments lp1 a (lo hi)%Q_scope (lb ub xs)%list_scope act%Q_scope col%Z_scope w%Q_scope ints flag t%Q_scope.

(** 2x + 2y <= 3, x and y integer and non-negative; optimum x = 3/2. *)
Definition lpA : view arith_Q :=
  lp1 [T 0 2; T 1 2] (- big) 3 [0; 0]%Q [big; big] [3 # 2; 0]%Q 3 0 (1 # 2) [0; 1] true 0.
(** x <= 3/2, x integer. *)
Definition lpF : view arith_Q :=
  lp1 [T 0 1] (- big) (3 # 2) [0]%Q [big] [3 # 2]%Q (3 # 2) 0 1 [0] true 0.
(** 4x <= 5, x integer with lower bound -1/2. *)
Definition lpB : view arith_Q :=
  lp1 [T 0 4] (- big) 5 [-1 # 2]%Q [10]%Q [5 # 4]%Q 5 0 (1 # 4) [0] true 0.
(** x - 1e-7 y <= 1/2, x and y integer, tolerance 1e-6. *)
Definition lpT : view arith_Q :=
  lp1 [T 0 1; T 1 (-1 # 10000000)] (- big) (1 # 2) [0; 0]%Q [big; big] [1 # 2; 0]%Q (1 # 2) 0 1
    [0; 1] false (1 # 1000000).
(** -x + 2z <= 1 at a node with x >= 0. *)
Definition lpG : view arith_Q :=
  lp1 [T 0 (-1); T 1 2] (- big) 1 [0; 0]%Q [5; 5]%Q [0; 1 # 2]%Q 1 1 (1 # 2) [0; 1] true 0.
(** 2x + 2y <= 3 followed by the cut row 4x + y <= 5: one flag, two rows. *)
Definition lpC : view arith_Q :=
  @mkView arith_Q [row_Q [T 0 2; T 1 2]; row_Q [T 0 4; T 1 1]] [- big; - big]%Q [3; 5]%Q
    [0; 0]%Q [big; big] inf_Q true true (Ok [5 # 2; 5]%Q) (Ok [5 # 4; 0]%Q) [0; -1]
    (fun r => if r =? 0 then Ok (row_Q [T 1 (1 # 4)]) else Ok (row_Q [T 0 1; T 1 (-1 # 2)]))
    [0; 1] [true] 0%Q.

Lemma at1 {B} (a b : B) r : at_ [a] r = Ok b -> r = 0 /\ b = a.
Proof.
  intros H. apply at_ok in H as [H0 H]. destruct (Z.to_nat r) eqn:E; cbn in H.
  - injection H as <-. split; auto. lia.
  - destruct n; discriminate.
Qed.
Lemma at2 {B} (a a' b : B) r : at_ [a; a'] r = Ok b -> (r = 0 /\ b = a) \/ (r = 1 /\ b = a').
Proof.
  intros H. apply at_ok in H as [H0 H]. destruct (Z.to_nat r) as [|[|[|n]]] eqn:E; cbn in H; try discriminate.
  - injection H as <-. left. split; auto. lia.
  - injection H as <-. right. split; auto. lia.
Qed.

Lemma inf_pos y : inf_Q y = true -> (0 < y)%Q.
Proof. intros H. apply Qle_bool_iff in H. exact (Qlt_le_trans 0 big y eq_refl H). Qed.

Ltac clean_tac := split; [reflexivity|split; [split|]]; cbn; repeat (constructor; cbn; try lia).

(** One-row LPs with at most two columns are as the LP interface delivers them. *)
Lemma view_ok_lp1 a lo hi lb ub xs act col w ints flag t :
  clean_row (row_Q a) -> clean_row (row_Q [T 0 w]) -> inf_Q hi = false ->
  view_ok (lp1 a lo hi lb ub xs act col w ints flag t).
Proof.
  intros Ha Hw Hh. split.
  - intros r v H. apply at1 in H as [_ ->]. exact Ha.
  - intros r b H. cbn in H. destruct (r =? 0); [|discriminate]. injection H as <-. exact Hw.
  - exact inf_pos.
  - intros r b e l h H He H1 H2. right. apply at1 in H2 as [_ ->]. exact Hh.
Qed.

Lemma lpA_ok : view_ok lpA.
Proof. apply view_ok_lp1; [clean_tac|clean_tac|reflexivity]. Qed.
Lemma lpF_ok : view_ok lpF.
Proof. apply view_ok_lp1; [clean_tac|clean_tac|reflexivity]. Qed.
Lemma lpB_ok : view_ok lpB.
Proof. apply view_ok_lp1; [clean_tac|clean_tac|reflexivity]. Qed.
Lemma lpT_ok : view_ok lpT.
Proof. apply view_ok_lp1; [clean_tac|clean_tac|reflexivity]. Qed.
Lemma lpG_ok : view_ok lpG.
Proof. apply view_ok_lp1; [clean_tac|clean_tac|reflexivity]. Qed.

Lemma half_not_integer : ~ integer (3 # 2).
Proof. intros (z & H). unfold Qeq in H. cbn in H. lia. Qed.

Lemma lpA_data : integral_data lpA.
Proof.
  split.
  - reflexivity.
  - intros j lo hi Hj H1 H2. apply at2 in H1. apply at2 in H2.
    split; intros I.
    + exists 0. destruct H1 as [[_ ->]|[_ ->]]; reflexivity.
    + exfalso. destruct H2 as [[_ ->]|[_ ->]]; discriminate.
  - intros r a lo hi _ Ha H1 H2. apply at1 in Ha as [_ ->]. apply at1 in H1 as [_ ->]. apply at1 in H2 as [_ ->].
    split; [discriminate|]. split; [exists 3; reflexivity|].
    intros e [<-|[<-|[]]]; cbn; split; auto; exists 2; reflexivity.
Qed.

Definition rhsA : Q :=
  match activities lpA with Ok acts =>
  match choose_sides lpA 0 acts with Ok sides =>
  match binv_row lpA 0 with Ok b =>
  match AggregateByWeight lpA (row_weights b) sides with Ok g =>
  match TransformToNonNegative lpA g with Ok (t, true) => a_rhs t | _ => 0%Q
  end | _ => 0%Q end | _ => 0%Q end | _ => 0%Q end | _ => 0%Q end.

Lemma lpA_fractional : fractional_rows lpA.
Proof.
  intros r b acts sides g t H1 H2 H3 H4 H5.
  assert (R : r = 0). { cbn in H3. destruct (Z.eqb_spec r 0); [assumption|discriminate]. }
  subst r. pose proof (eq_refl rhsA) as F. unfold rhsA at 1 in F. rewrite H1, H2, H3, H4, H5 in F.
  rewrite F. exact half_not_integer.
Qed.

(** The cuts these LPs produce. *)
Definition cutsA : list (raw_cut arith_Q) :=
  Eval vm_compute in match Generate lpA [MIR; SCG] 1 with Ok l => l | _ => [] end.
Lemma lpA_cuts : Generate lpA [MIR; SCG] 1 = Ok cutsA.
Proof. vm_compute. reflexivity. Qed.

Definition mkcut (l : list (Z * Q)) (rhs : Q) (n : string) : raw_cut arith_Q := @mkRaw arith_Q (row_Q l) rhs n.
Lemma lpF_cuts : Generate lpF [MIR] 10 = Ok [mkcut [] (-1 # 2) "MIR0"].
Proof. vm_compute. reflexivity. Qed.
Lemma lpF_scg : Generate lpF [SCG] 10 = Ok [mkcut [] (-2 # 4) "SCG0"].
Proof. vm_compute. reflexivity. Qed.
Lemma lpB_cuts : Generate lpB [MIR] 10 = Ok [mkcut [T 0 1] (1 # 2) "MIR0"].
Proof. vm_compute. reflexivity. Qed.
Lemma lpB_scg : Generate lpB [SCG] 10 = Ok [mkcut [T 0 (2 # 2)] (2 # 4) "SCG0"].
Proof. vm_compute. reflexivity. Qed.
Lemma lpT_cuts : Generate lpT [MIR] 10 = Ok [mkcut [T 0 1] 0 "MIR0"].
Proof. vm_compute. reflexivity. Qed.
Lemma lpG_cuts : Generate lpG [MIR] 10 = Ok [mkcut [T 0 (-1); T 1 1] 0 "MIR0"].
Proof. vm_compute. reflexivity. Qed.

Lemma integer_by (y : Q) z : (y == inject_Z z)%Q -> integer y.
Proof. exists z. auto. Qed.

(** Mixed-integer points of these LPs. *)
Definition pt (l : list Q) : point := fun j => nth (Z.to_nat j) l 0%Q.

Ltac point_tac :=
  split; [|split];
  [ intros r a lo hi Ha H1 H2; apply at1 in Ha as [_ ->]; apply at1 in H1 as [_ ->];
    apply at1 in H2 as [_ ->]; split; intros I; vm_compute in I |- *; discriminate
  | | ].

Lemma lpF_point : node_point idQ lpF (pt [1%Q]).
Proof.
  point_tac.
  - intros j lo hi H1 H2. apply at1 in H1 as [-> ->]. apply at1 in H2 as [_ ->].
    split; intros I; vm_compute in I |- *; discriminate.
  - intros j [<-|[]]. exists 1. reflexivity.
Qed.
Lemma lpB_point : node_point idQ lpB (pt [1%Q]).
Proof.
  point_tac.
  - intros j lo hi H1 H2. apply at1 in H1 as [-> ->]. apply at1 in H2 as [_ ->].
    split; intros I; vm_compute in I |- *; discriminate.
  - intros j [<-|[]]. exists 1. reflexivity.
Qed.
Lemma lpT_point : node_point idQ lpT (pt [1; 6000000]%Q).
Proof.
  point_tac.
  - intros j lo hi H1 H2. apply at2 in H1. apply at2 in H2.
    destruct H1 as [[-> ->]|[-> ->]]; destruct H2 as [[H2 ->]|[H2 ->]]; try discriminate;
    split; intros I; vm_compute in I |- *; discriminate.
  - intros j [<-|[<-|[]]]; [exists 1|exists 6000000]; reflexivity.
Qed.
Lemma lpA_point : node_point idQ lpA (pt [1; 0]%Q).
Proof.
  point_tac.
  - intros j lo hi H1 H2. apply at2 in H1. apply at2 in H2.
    destruct H1 as [[-> ->]|[-> ->]]; destruct H2 as [[H2 ->]|[H2 ->]]; try discriminate;
    split; intros I; vm_compute in I |- *; discriminate.
  - intros j [<-|[<-|[]]]; [exists 1|exists 0]; reflexivity.
Qed.

(** Flags as MipData computes them. *)
Lemma flags_lp1 a lo hi lb ub xs act col w ints flag t :
  (flag = true <-> forall e, In e (ents (row_Q a)) -> In (idx e) ints /\ integer (val e)) ->
  computed_flags (lp1 a lo hi lb ub xs act col w ints flag t).
Proof.
  intros H r v Hr. apply at1 in Hr as [-> ->]. exists flag. split; [reflexivity|exact H].
Qed.
Lemma lpF_flags : computed_flags lpF.
Proof.
  apply flags_lp1. split; auto. intros _ e [<-|[]]. split; [left; auto|exists 1; reflexivity].
Qed.
Lemma lpB_flags : computed_flags lpB.
Proof.
  apply flags_lp1. split; auto. intros _ e [<-|[]]. split; [left; auto|exists 4; reflexivity].
Qed.
Lemma lpT_flags : computed_flags lpT.
Proof.
  apply flags_lp1. split; [discriminate|]. intros H.
  destruct (H (@mkE arith_Q 1 (-1 # 10000000)%Q)) as [_ (z & Hz)]; [right; left; reflexivity|].
  unfold Qeq in Hz. cbn in Hz. lia.
Qed.
Lemma lpG_flags : computed_flags lpG.
Proof.
  apply flags_lp1. split; auto. intros _ e [<-|[<-|[]]]; cbn.
  - split; auto. exists (-1). reflexivity.
  - split; auto. exists 2. reflexivity.
Qed.
Lemma lpG_data : integral_data lpG.
Proof.
  split.
  - reflexivity.
  - intros j lo hi Hj H1 H2. apply at2 in H1. apply at2 in H2. split; intros I.
    + exists 0. destruct H1 as [[_ ->]|[_ ->]]; reflexivity.
    + exists 5. destruct H2 as [[_ ->]|[_ ->]]; reflexivity.
  - intros r a lo hi _ Ha H1 H2. apply at1 in Ha as [_ ->]. apply at1 in H1 as [_ ->]. apply at1 in H2 as [_ ->].
    split; [discriminate|]. split; [exists 1; reflexivity|].
    intros e [<-|[<-|[]]]; cbn; split; auto; [exists (-1)|exists 2]; reflexivity.
Qed.

(** lpF in doubles: x <= 1.5, x integer. *)
Definition d_half (n : Z) : double := ddiv (dint n) (dint 2).
Definition lpFd : view arith_double :=
  @mkView arith_double [mkV [@mkE arith_double 0 d1] false] [dminf] [d_half 3] [d0] [dinf]
    (fun y => dleb dinf y) true true (Ok [d_half 3]) (Ok [d_half 3]) [0]
    (fun r => if r =? 0 then Ok (mkV [@mkE arith_double 0 d1] false) else Err Internal) [0] [true]
    (S754_finite false 4722366482869645 (-72)).

Lemma lpC_sized : view_sized lpC 2 2.
Proof.
  split; try reflexivity.
  - intros r a H. apply at2 in H as [[_ ->]|[_ ->]]; split; auto; repeat constructor; cbn; lia.
  - intros r b _ H. cbn in H. destruct (r =? 0); injection H as <-; split; auto; repeat constructor; cbn; lia.
  - intros r _. left. cbn. destruct (r =? 0); eauto.
  - left. eexists. split; reflexivity.
  - left. eexists. reflexivity.
Qed.
Lemma lpA_sized : view_sized lpA 1 2.
Proof.
  split; try reflexivity.
  - intros r a H. apply at1 in H as [_ ->]; split; auto; repeat constructor; cbn; lia.
  - intros r b _ H. cbn in H. destruct (r =? 0); [|discriminate]. injection H as <-; split; auto; repeat constructor; cbn; lia.
  - intros r _. cbn. destruct (r =? 0); eauto.
  - left. eexists. split; reflexivity.
  - left. eexists. reflexivity.
Qed.

(** Intermediate rows of lpA and lpB. *)
Definition no_agg : agg arith_Q := @mkAgg arith_Q (row_Q []) (row_Q []) (row_Q []) (row_Q []) 0%Q.
Definition fst_or {B} (o : outcome (agg arith_Q * B)) : agg arith_Q :=
  match o with Ok (g, _) => g | _ => no_agg end.
Definition aggA : agg arith_Q := Eval vm_compute in
  match AggregateByWeight lpA (row_Q [T 0 (1 # 2)]) [true] with Ok g => g | _ => no_agg end.
Definition subA : agg arith_Q := Eval vm_compute in
  match SubstituteSlack lpA aggA with Ok g => g | _ => no_agg end.
Definition aggB : agg arith_Q := @mkAgg arith_Q (row_Q [T 0 4]) (row_Q []) (row_Q []) (row_Q []) 5%Q.
Definition shiftB : agg arith_Q := Eval vm_compute in fst_or (TransformToNonNegative lpB aggB).
Definition backB : agg arith_Q := Eval vm_compute in fst_or (TransformBack lpB shiftB).
Definition lpB_free : view arith_Q :=
  lp1 [T 0 4] (- big) 5 [- big]%Q [big] [5 # 4]%Q 5 0 (1 # 4) [0] true 0.
Definition cutFd : raw_cut arith_double := Eval vm_compute in
  match Generate lpFd [MIR] 100 with Ok [c] => c | _ => @mkRaw arith_double vempty d0 "" end.
