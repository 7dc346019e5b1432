(** Property C96: the efficacy of a cut. *)
From Coq Require Import String List ZArith Bool Lia.
From Verif Require Import Num Double SparseVector VectorSpec DoubleFacts Rounding Outcome CutsData ParallelSpec EfficacySpec EfficacyProofs.
Import ListNotations.
Open Scope Z_scope.

Definition two (x y : double) : svec num_double := mkV [@mkE num_double 0 x; @mkE num_double 1 y] false.
Definition tiny : double := S754_finite false 4503599627370496 (-112).

(** C96, full statement: the efficacy of a cut is positive if the LP point violates the cut.
    False: x0 + x1 <= 1 at the point (1, 2^-60) has efficacy 0.  A row without coefficients gives
    NaN or an infinity. *)
Theorem C96_efficacy_refuted : exists x1, 2 ^ 60 * zval x1 = zone /\ finite_double x1 /\
  (forall ints obj nm f, efficacy (CreateCut ints obj (two d1 x1) (two d1 d1) d1 nm f) = d0) /\
  (forall ints obj x nm f, is_nan (efficacy (CreateCut ints obj x (mkV [] false) d0 nm f)) = true).
Proof.
  exists tiny. split; [vm_compute; reflexivity|]. split; [split; reflexivity|].
  split; intros; [vm_compute; reflexivity|].
  unfold CreateCut. cbn [efficacy]. destruct x as [l b]; reflexivity.
Qed.
Print Assumptions C96_efficacy_refuted.

(** C96, what does hold: for a row [a] with integer coefficients that are not zero and not large,
    and a point [b] / 2^[s] and a right-hand side [R] / 2^[s] with products and sums below 2^53,
    the efficacy is finite and has the sign of the violation a.b - R; and it is
    (a.b - R) / (2^s sqrt (a.a)), the signed distance of the point from the cut's hyperplane, up to a
    relative error of (2^52 + 1) / (2^52 - 1). *)
Theorem C96_efficacy_partial : forall s n ints obj x r rhs nm f a b R,
  0 <= s <= 40 -> holds_integers n r a -> holds_fractions s n x b ->
  finite_double rhs -> 2 ^ s * zval rhs = R * zone ->
  0 < dot n a a <= 2 ^ 50 -> dot n (fun i => Z.abs (a i)) (fun i => Z.abs (b i)) + Z.abs R < 2 ^ 53 ->
  let e := efficacy (CreateCut ints obj x r rhs nm f) in let N := dot n a b - R in
  finite_double e /\ Z.sgn (zval e) = Z.sgn N /\
  (2 ^ 52 - 1) ^ 2 * (dot n a a * (2 ^ s * zval e) ^ 2) <= (2 ^ 52 + 1) ^ 2 * (N ^ 2 * zone ^ 2) /\
  (2 ^ 52 - 1) ^ 2 * (N ^ 2 * zone ^ 2) <= (2 ^ 52 + 1) ^ 2 * (dot n a a * (2 ^ s * zval e) ^ 2).
Proof. exact efficacy_whole. Qed.
Print Assumptions C96_efficacy_partial.

(** C96. The same for every stored cut after the efficacies were updated for a new LP point. *)
Theorem C96_update_partial : forall s n g x i c0 a b R,
  GetCut g i = Ok c0 -> 0 <= s <= 40 -> holds_integers n (row c0) a -> holds_fractions s n x b ->
  finite_double (right_hand_side c0) -> 2 ^ s * zval (right_hand_side c0) = R * zone ->
  0 < dot n a a <= 2 ^ 50 -> dot n (fun i => Z.abs (a i)) (fun i => Z.abs (b i)) + Z.abs R < 2 ^ 53 ->
  exists c, GetCut (UpdateCutEfficacy g x) i = Ok c /\ row c = row c0 /\ right_hand_side c = right_hand_side c0 /\
  finite_double (efficacy c) /\ Z.sgn (zval (efficacy c)) = Z.sgn (dot n a b - R) /\
  (2 ^ 52 - 1) ^ 2 * (dot n a a * (2 ^ s * zval (efficacy c)) ^ 2) <= (2 ^ 52 + 1) ^ 2 * ((dot n a b - R) ^ 2 * zone ^ 2) /\
  (2 ^ 52 - 1) ^ 2 * ((dot n a b - R) ^ 2 * zone ^ 2) <= (2 ^ 52 + 1) ^ 2 * (dot n a a * (2 ^ s * zval (efficacy c)) ^ 2).
Proof. exact update_whole. Qed.
Print Assumptions C96_update_partial.

(** 3 x0 + 4 x1 <= 5 at the point (5/2, 5/4): 15/2 beyond 5, divided by 5; and at the origin. *)
Definition whole_row : svec num_double := two (dint 3) (dint 4).
Definition fractions : svec num_double := two (S754_finite false 5629499534213120 (-51)) (S754_finite false 5629499534213120 (-52)).
Definition of_two (x y : Z) (i : nat) : Z := match i with 0%nat => x | _ => y end.
Example C96_case : holds_integers 2 whole_row (of_two 3 4) /\ holds_fractions 2 2 fractions (of_two 10 5) /\
  holds_fractions 2 2 (mkV [] false) (of_two 0 0) /\
  2 ^ 2 * zval (dint 5) = 20 * zone /\ dot 2 (of_two 3 4) (of_two 10 5) - 20 = 30 /\
  efficacy (CreateCut [] whole_row fractions whole_row (dint 5) "C" false) = S754_finite false 6755399441055744 (-52) /\
  efficacy (CreateCut [] whole_row (mkV [] false) whole_row (dint 5) "C" false) = dint (-1).
Proof.
  split; [|split; [|split]].
  - split; [split; [repeat (constructor; cbn [idx]; try lia)|repeat constructor]|]. split; [repeat (constructor; cbn [idx]; try lia)|].
    intros [|[|i]] L; [split; [split|]; vm_compute; reflexivity|split; [split|]; vm_compute; reflexivity|lia].
  - split; [split; [repeat (constructor; cbn [idx]; try lia)|repeat constructor]|]. split; [repeat (constructor; cbn [idx]; try lia)|].
    intros [|[|i]] L; [split; [split|]; vm_compute; reflexivity|split; [split|]; vm_compute; reflexivity|lia].
  - split; [split; constructor|]. split; [constructor|].
    intros [|[|i]] L; [split; [split|]; vm_compute; reflexivity|split; [split|]; vm_compute; reflexivity|lia].
  - split; [vm_compute; reflexivity|]. split; [reflexivity|]. split; vm_compute; reflexivity.
Qed.
