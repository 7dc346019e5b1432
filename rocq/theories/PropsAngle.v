(** Property C98: cuts that say the same and cuts that are orthogonal. *)
From Coq Require Import String List ZArith Bool Lia Permutation Sorted SpecFloat.
From Verif Require Import Outcome Num Double SparseVector VectorSpec DoubleFacts Rounding CutsData Selector CutSpec
  CutProofs ParallelSpec AngleProofs.
Import ListNotations.
Open Scope Z_scope.

(** The cut x x0 + y x1 <= k, with efficacy [k]. *)
Definition line_cut (x y : double) (k : Z) : cut :=
  mkCut (mkV [@mkE num_double 0 x; @mkE num_double 1 y] false) (dint k) 2 1 d0 "L" false false (dint k) None None.
Definition half_sel (m : double) (signed : bool) : selector_params := mkSel d1 d0 d0 m signed d0 0.
Definition huge : double := S754_finite false 4503599627370496 548.
Definition a_half : double := S754_finite false 4503599627370496 (-53).

(** C98, full statement: of two cuts with the same row that are not forced at most one is selected
    if the required orthogonality is positive.  False: with the coefficients 2^600 and 2^600 the
    squared norm overflows, the cosine is NaN and both are selected although an orthogonality of
    1/2 is required; and with coefficients 1 and 3 and a required orthogonality of 2^-54 both are
    selected because 1 - 2^-54 is rounded to 1. *)
Definition tiny_orth : double := S754_finite false 4503599627370496 (-106).
Theorem C98_duplicates_refuted :
  (exists sort c, sorts sort /\ is_forced c = false /\ number_of_non_zeros c = 2 /\
     Forall (fun e : entry num_double => finite_double (val e)) (ents (row c)) /\
     exists r, SelectCuttingPlanes sort (half_sel a_half false) [c; c] = Ok r /\ List.length r = 2%nat) /\
  (exists sort c, sorts sort /\ is_forced c = false /\ 0 < zval tiny_orth /\
     holds_integers 2 (row c) (fun i => match i with O => 1 | _ => 3 end) /\
     exists r, SelectCuttingPlanes sort (half_sel tiny_orth false) [c; c] = Ok r /\ List.length r = 2%nat).
Proof.
  split.
  - exists (fun l => fold_right insert_cut' [] l), (line_cut huge huge 1). split; [exact insertion_sorts|].
    split; [reflexivity|]. split; [reflexivity|]. split; [repeat constructor; vm_compute; reflexivity|].
    eexists. split; [vm_compute; reflexivity|reflexivity].
  - exists (fun l => fold_right insert_cut' [] l), (line_cut d1 (dint 3) 1). split; [exact insertion_sorts|].
    split; [reflexivity|]. split; [apply Z.ltb_lt; vm_compute; reflexivity|]. split.
    + split; [split; [repeat (constructor; cbn [idx]; try lia)|repeat constructor]|]. split; [repeat (constructor; cbn [idx]; try lia)|].
      intros [|[|i]] L; [split; [split|]; vm_compute; reflexivity|split; [split|]; vm_compute; reflexivity|lia].
    + eexists. split; [vm_compute; reflexivity|reflexivity].
Qed.
Print Assumptions C98_duplicates_refuted.

(** C98, what does hold.  For rows [u] and [w] with integer coefficients that are not zero and not
    large, the cosine the selector compares is finite, has the sign of the scalar product and is
    u.w / sqrt (u.u w.w) up to a relative error of (2^50 + 1) / (2^50 - 1). *)
Theorem C98_cosine : forall n a b u w, holds_integers n (row a) u -> holds_integers n (row b) w ->
  0 < dot n u u -> 0 < dot n w w -> dot n u u * dot n w w <= 2 ^ 48 ->
  let c := cosine a b in
  finite_double c /\ Z.sgn (zval c) = Z.sgn (dot n u w) /\
  (2 ^ 50 - 1) ^ 2 * (dot n u u * dot n w w * zval c ^ 2) <= (2 ^ 50 + 1) ^ 2 * (dot n u w ^ 2 * zone ^ 2) /\
  (2 ^ 50 - 1) ^ 2 * (dot n u w ^ 2 * zone ^ 2) <= (2 ^ 50 + 1) ^ 2 * (dot n u u * dot n w w * zval c ^ 2).
Proof. exact cosine_whole. Qed.
Print Assumptions C98_cosine.

(** Of two selected cuts with proportional rows the later one is forced, if the required
    orthogonality is at least 2^-48; with signed orthogonality if the rows point the same way. *)
Theorem C98_duplicates_partial : forall n sort p cs r i j a b u w, sorts sort -> SelectCuttingPlanes sort p cs = Ok r ->
  (i < j)%nat -> nth_error r i = Some a -> nth_error r j = Some b ->
  holds_integers n (row a) u -> holds_integers n (row b) w ->
  0 < dot n u u -> 0 < dot n w w -> dot n u u * dot n w w <= 2 ^ 48 -> parallel n u w ->
  (signed_orthogonality p = true -> 0 < dot n u w) ->
  finite_double (minimum_orthogonality p) -> zone <= 2 ^ 48 * zval (minimum_orthogonality p) ->
  is_forced b = true.
Proof. exact select_proportional. Qed.
Print Assumptions C98_duplicates_partial.

(** A cut whose row is orthogonal to those of all the other cuts is never left out in favour of
    another one: it is selected if its score is not below the threshold and the limit is not
    reached, even if the required orthogonality is 1. *)
Theorem C98_orthogonal : forall n sort p cs r c s w, sorts sort -> SelectCuttingPlanes sort p cs = Ok r ->
  (forall c s, In c cs -> ComputeCutScore p c = Ok s -> is_nan s = false) ->
  Z.of_nat (List.length r) <> max_num_cuts p \/ max_num_cuts p <= 0 ->
  finite_double (minimum_orthogonality p) -> zval (minimum_orthogonality p) <= zone ->
  In c cs -> ComputeCutScore p c = Ok s -> dltb s (score_threshold p) = false ->
  holds_integers n (row c) w -> 0 < dot n w w ->
  (forall a, In a cs -> a = c \/ exists u, holds_integers n (row a) u /\ 0 < dot n u u /\
     dot n u u * dot n w w <= 2 ^ 48 /\ dot n u w = 0) ->
  In (SetScore c s) r.
Proof. exact select_keeps. Qed.
Print Assumptions C98_orthogonal.

(** (1, 3), (2, 6), (3, -1) and (-1, -3): of the first two only the one with the greater efficacy is
    selected, and the third in any case; (-1, -3) is left out with the absolute cosine and selected
    with the signed one, even if the required orthogonality is 1. *)
Definition whole_cut (x y k : Z) : cut := line_cut (dint x) (dint y) k.
Definition coeffs (x y : Z) (i : nat) : Z := match i with O => x | _ => y end.
Example C98_case :
  Forall (fun t => let '(x, y) := t in holds_integers 2 (row (whole_cut x y 1)) (coeffs x y)) [(1, 3); (2, 6); (3, -1); (-1, -3)] /\
  parallel 2 (coeffs 1 3) (coeffs 2 6) /\ dot 2 (coeffs 1 3) (coeffs 3 (-1)) = 0 /\ dot 2 (coeffs 1 3) (coeffs (-1) (-3)) = -10 /\
  (exists r, SelectCuttingPlanes (fun l => fold_right insert_cut' [] l) (half_sel a_half false)
     [whole_cut 1 3 4; whole_cut 2 6 5; whole_cut 3 (-1) 1; whole_cut (-1) (-3) 2] = Ok r /\
     map unscored r = [whole_cut 2 6 5; whole_cut 3 (-1) 1]) /\
  (exists r, SelectCuttingPlanes (fun l => fold_right insert_cut' [] l) (half_sel d1 true)
     [whole_cut 1 3 4; whole_cut 2 6 5; whole_cut 3 (-1) 1; whole_cut (-1) (-3) 2] = Ok r /\
     map unscored r = [whole_cut 2 6 5; whole_cut (-1) (-3) 2; whole_cut 3 (-1) 1]).
Proof.
  split.
  { repeat constructor; cbn [idx]; try lia;
      (destruct i as [|[|i]]; [vm_compute; reflexivity|vm_compute; reflexivity|lia]). }
  split; [exists 2, 1; split; [left; discriminate|]; intros [|[|i]] L; [reflexivity|reflexivity|lia]|].
  split; [reflexivity|]. split; [reflexivity|].
  split; eexists; (split; [vm_compute; reflexivity|reflexivity]).
Qed.
