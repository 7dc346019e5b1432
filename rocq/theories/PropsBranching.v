(** Property theorems C32, C33 (branching rules).  Model: [Branching]. *)
From Coq Require Import List ZArith Bool Lia.
From Verif Require Import Outcome Num Double DoubleFacts Rounding MipData ProblemSpec Branching BranchingProofs.
Import ListNotations.
Open Scope Z_scope.

(** C32. If some integer variable has a value that is not within the tolerance of an
    integer, the rule returns such an integer variable; its fractional part x - floor(x)
    (as a double) is maximal among them, and the direction is the configured one or, if
    unspecified, up exactly if that part is at most 0.5.  [order] is any order of the set. *)
Theorem C32_max_fractional : forall tol x dir order,
  dvalid tol = true -> is_finite tol = true -> 0 <= zval tol ->
  Forall (fun j => exists v, at_ x j = Ok v /\ finite_double v) order ->
  (exists j, In j order /\ exists v, at_ x j = Ok v /\ ~ near_integer v tol) ->
  exists b up v, MaxFractional dir tol order x = Ok (b, up) /\ In b order /\ at_ x b = Ok v /\
    ~ near_integer v tol /\
    (forall j w, In j order -> at_ x j = Ok w -> ~ near_integer w tol -> dleb (frac w) (frac v) = true) /\
    match dir with Up => up = true | Down => up = false | Unspecified => up = true <-> 2 * zval (frac v) <= zone end.
Proof. intros tol x dir order VT FT PT. exact (max_fractional_half tol x VT FT PT dir order). Qed.
Print Assumptions C32_max_fractional.

(** C32: the double called fractional part is positive exactly for non-integers and, for
    non-negative values, is exactly the distance to the integer below. *)
Theorem C32_fractional_part : forall x, finite_double x ->
  (dltb d0 (frac x) = true <-> ~ is_whole (zval x)) /\
  (0 <= zval x -> zval (frac x) = zval x mod zone).
Proof. intros x H. split; [exact (frac_positive x H)|exact (frac_exact x H)]. Qed.
Print Assumptions C32_fractional_part.

(** C32 for the exact fractional parts, in units of 1/[zone]: among non-negative values the exact
    part is maximal, and in general no two different doubles fit between the exact part of the
    variable returned and a larger one of another candidate. *)
Theorem C32_exact : forall tol x dir order b up v, dvalid tol = true -> is_finite tol = true -> 0 <= zval tol ->
  Forall (fun j => exists v, at_ x j = Ok v /\ finite_double v) order ->
  (exists j, In j order /\ exists v, at_ x j = Ok v /\ ~ near_integer v tol) ->
  MaxFractional dir tol order x = Ok (b, up) -> at_ x b = Ok v ->
  forall j w, In j order -> at_ x j = Ok w -> ~ near_integer w tol ->
  (0 <= zval v -> 0 <= zval w -> zval w mod zone <= zval v mod zone) /\
  forall y z, finite_double y -> finite_double z -> zval y < zval z ->
    ~ (zval v mod zone <= zval y /\ zval z <= zval w mod zone).
Proof. exact max_fractional_exact. Qed.
Print Assumptions C32_exact.

Definition tol6 : double := S754_finite false 4722366482869645 (-72).
Definition point_case : list double := [ddiv (dint 5) (dint 2); dint 3; ddiv (dint (-1)) (dint 4); ddiv (dint 7) (dint 8)].
Example C32_case : exists order, Permutation.Permutation order [0; 1; 2] /\
  MaxFractional Unspecified tol6 order point_case = Ok (2, false) /\
  MaxFractional Up tol6 [0; 1] point_case = Ok (0, true) /\
  (exists j, In j order /\ exists v, at_ point_case j = Ok v /\ ~ near_integer v tol6).
Proof.
  exists [1; 0; 2]. split; [apply Permutation.perm_swap|]. split; [vm_compute; reflexivity|]. split; [vm_compute; reflexivity|].
  exists 0. split; [right; left; reflexivity|]. eexists. split; [reflexivity|].
  intros N. pose proof (proj2 (MipDataProofs.close_iff (ddiv (dint 5) (dint 2)) tol6 eq_refl eq_refl eq_refl) (conj eq_refl N)) as C.
  vm_compute in C. discriminate C.
Qed.

(** C33, full statement: the variable returned is an integer variable with a fractional
    value. False: the number drawn is used as a column, so it can be a continuous variable,
    and the LP values are not looked at. *)
Theorem C33_random_refuted :
  (exists dir draw ints b up, is_draw draw /\ RandomBranching dir draw ints = Ok (b, up) /\ ~ In b ints) /\
  (exists dir draw ints b up x, is_draw draw /\ RandomBranching dir draw ints = Ok (b, up) /\
     at_ x b = Ok (dint 3) /\ exists j v, In j ints /\ at_ x j = Ok v /\ ~ is_whole (zval v)).
Proof.
  assert (D : is_draw (fun n => n - 1)) by (intros n; lia). split.
  - exists Unspecified, (fun n => n - 1), [1], 0, false. split; auto. split; auto. intros [|[]]; lia.
  - exists Unspecified, (fun n => n - 1), [0; 1], 1, false, [ddiv (dint 5) (dint 2); dint 3].
    split; auto. split; auto. split; auto. exists 0, (ddiv (dint 5) (dint 2)). split; [left; auto|]. split; auto.
    apply frac_positive; [split; reflexivity|]. reflexivity.
Qed.
Print Assumptions C33_random_refuted.

(** C33, what does hold: an integer variable is returned if the integer variables come
    first (columns 0 .. n-1). Missing: every other arrangement, and fractionality. *)
Theorem C33_random_partial : forall dir draw ints b up, is_draw draw ->
  NoDup ints -> Forall (fun j => 0 <= j) ints ->
  (forall j k, In j ints -> 0 <= k < j -> In k ints) ->
  RandomBranching dir draw ints = Ok (b, up) -> In b ints.
Proof. exact random_spec. Qed.
Print Assumptions C33_random_partial.

(** C33: it answers whenever there is an integer variable, and branches up exactly if that was
    asked for. *)
Theorem C33_direction : forall dir draw ints,
  (ints = [] -> RandomBranching dir draw ints = Err InvalidArgument) /\
  (ints <> [] -> exists b up, RandomBranching dir draw ints = Ok (b, up) /\ (up = true <-> dir = Up)).
Proof. exact random_direction. Qed.
Print Assumptions C33_direction.

Example C33_case : is_draw (fun n => n / 2) /\ RandomBranching Up (fun n => n / 2) [2; 0; 1] = Ok (1, true).
Proof. split; [|reflexivity]. intros n Hn. pose proof (Z.div_lt n 2). pose proof (Z.div_pos n 2). lia. Qed.
