(** Property theorems C01-C06 (sparse vectors of doubles).
    Specification vocabulary: [VectorSpec].  Model: [SparseVector]. *)
From Coq Require Import List ZArith Bool Sorted.
From Verif Require Import Outcome Num Double DoubleFacts SparseVector VectorSpec SparseVectorFacts VectorProofs.
Import ListNotations.
Open Scope Z_scope.

Notation dvec := (svec num_double).
Notation dentry := (entry num_double).
Notation dop := (vop num_double).
Notation E i x := (@mkE num_double i x).

(** C01. Any history of writes, clears, cleanings and in-place replacements runs to
    completion, and reading the cleaned vector returns the last value written. *)
Theorem C01_reads_last_write : forall ops : list dop,
  Forall write_op ops ->
  exists v, vrun vempty ops = Ok v /\
  forall i, value (CleanUp v) i = drop0 (last_written (write_log ops) i).
Proof. exact (write_history num_double_ok). Qed.
Print Assumptions C01_reads_last_write.

Example C01_case :
  let ops := [VAdd 3 (dint 5 : num_double); VAdd 1 (dint 2 : num_double); VClean;
              VAdd 3 (dint 7 : num_double); VAdd 9 (dint 1 : num_double);
              VAdd 1 (d0 : num_double)] : list dop in
  Forall write_op ops /\
  exists v, vrun vempty ops = Ok v /\ value (CleanUp v) 3 = dint 7 /\ value (CleanUp v) 1 = d0
            /\ value (CleanUp v) 9 = dint 1 /\ dirty v = true.
Proof. split; [repeat constructor|]. eexists. split; [reflexivity|]. vm_compute. auto. Qed.

(** C01, all members: the vector refines a partial map through histories that also use
    Transform, unary minus, *=, /= and AddMultipleOfVector, as long as no scaling
    underflows to zero. *)
Theorem C01_refines_map : forall (ops : list dop) v,
  no_underflow (fun _ => None) ops -> vrun vempty ops = Ok v ->
  forall i, value (CleanUp v) i = read (replay ops) i.
Proof. exact (fun ops v H1 H2 => proj1 (full_history num_double_ok ops v H1 H2)). Qed.
Print Assumptions C01_refines_map.

Example C01_refines_map_case :
  let w := mkV [E 2 (dint 3); E 5 (dint 4)] false in
  let ops := [VAdd 3 (dint 5 : num_double); VAdd 2 (dint 1 : num_double); VClean;
              VAddMul (dint (-1) : num_double) w; VNegate] : list dop in
  no_underflow (fun _ => None) ops /\
  exists v, vrun vempty ops = Ok v /\ value v 2 = dint 2 /\ value v 3 = dint (-5) /\ value v 5 = dint 4.
Proof.
  cbn [no_underflow no_underflow_step]. split.
  - repeat split; auto; repeat constructor.
  - eexists. split; [reflexivity|]. vm_compute. auto.
Qed.

(** C01, constructor from entries: the last value listed for an index wins; the result
    needs no cleaning. *)
Theorem C01_from_entries : forall l : list dentry,
  let v := of_entries l in
  MayNeedCleaning v = false /\ canonical (ents v) /\
  forall i, value v i = drop0 (last_written (map (fun e => (idx e, val e)) l) i).
Proof. exact (from_entries num_double_ok). Qed.
Print Assumptions C01_from_entries.

Example C01_from_entries_case :
  of_entries [E 5 (dint 1); E 2 (dint 8); E 5 (dint 3); E 4 (dint 6); E 4 d0]
  = mkV [E 2 (dint 8); E 5 (dint 3)] false.
Proof. reflexivity. Qed.

(** C01, constructor from dense values: position [k] reads as the [k]-th value. *)
Theorem C01_from_dense : forall l : list num_double,
  let v := of_dense l in
  MayNeedCleaning v = false /\ canonical (ents v) /\ nonneg_indices (ents v) /\
  (forall k x, nth_error l k = Some x -> value v (Z.of_nat k) = drop0 x) /\
  (forall i, i < 0 \/ Z.of_nat (length l) <= i -> value v i = d0).
Proof. exact from_dense. Qed.
Print Assumptions C01_from_dense.

Example C01_from_dense_case :
  of_dense ([d0; dint 3; d0; d0; dint 2; d0] : list num_double) = mkV [E 1 (dint 3); E 4 (dint 2)] false.
Proof. reflexivity. Qed.

(** C02 fails for operator*= and operator/=: an unflagged vector can hold a zero. *)
Theorem C02_canonical_refuted :
  exists (ops : list dop) v, vrun vempty ops = Ok v /\ MayNeedCleaning v = false /\
  ~ canonical (ents v).
Proof.
  exists [VAdd 0 (S754_finite false 1 (-1074) : num_double);
          VScale (ddiv d1 (dint 2) : num_double)].
  eexists. split; [reflexivity|]. split; [reflexivity|].
  intros [_ H]. apply Forall_inv in H. discriminate H.
Qed.
Print Assumptions C02_canonical_refuted.

(** C02, every history without underflowing scaling: an unflagged vector is canonical,
    and so is any cleaned one.  Missing for the full claim: scalings that underflow. *)
Theorem C02_canonical_partial : forall (ops : list dop) v,
  no_underflow (fun _ => None) ops -> vrun vempty ops = Ok v ->
  (MayNeedCleaning v = false -> canonical (ents v)) /\
  MayNeedCleaning (CleanUp v) = false /\ canonical (ents (CleanUp v)).
Proof. exact (canonical_history num_double_ok). Qed.
Print Assumptions C02_canonical_partial.

Definition ops2 : list dop :=
  [VAdd 3 (dint 5 : num_double); VAdd 1 (dint 2 : num_double); VClean;
   VAssign [E 4 (dint 1); E 2 (dint 9)]; VClean; VNegate].
Definition vec2 : dvec := Eval vm_compute in mkV [E 2 (dint (-9)); E 4 (dint (-1))] false.

Example C02_case :
  no_underflow (fun _ => None) ops2 /\ vrun vempty ops2 = Ok vec2 /\ MayNeedCleaning vec2 = false.
Proof. split; [cbn; tauto|]. split; reflexivity. Qed.

(** A scaling inside [no_underflow]: the hypothesis bounds what is stored at the time. *)
Example C02_scale_case :
  no_underflow (fun _ => None)
    [VAdd 3 (dint 5 : num_double); VScale (dint 3 : num_double)] /\
  vrun vempty [VAdd 3 (dint 5 : num_double); VScale (dint 3 : num_double)] =
    Ok (mkV [E 3 (dint 15)] false).
Proof.
  split; [|reflexivity]. cbn [no_underflow no_underflow_step map_step].
  split; [exact I|]. split; [|exact I]. intros _ j x.
  destruct (j =? 3); [|discriminate]. intros H.
  assert (x = dint 5 :> num_double) as ->; [|reflexivity].
  assert (S : store (dint 5 : num_double) = Some (dint 5)) by reflexivity.
  rewrite S in H. injection H as <-. reflexivity.
Qed.

(** C02, second half: canonical vectors that agree on every read are identical. *)
Theorem C02_canonical_unique : forall l1 l2 : list dentry,
  canonical l1 -> canonical l2 ->
  (forall i, value (mkV l1 false) i = value (mkV l2 false) i) -> l1 = l2.
Proof. exact (canonical_unique num_double_ok). Qed.
Print Assumptions C02_canonical_unique.

Example C02_unique_case : canonical [E 1 (dint 6); E 3 (dint 15)].
Proof. split; repeat constructor. Qed.

(** C02, the test members: IsClean says exactly that the entries are canonical with
    non-negative indices; first and last index are the extreme stored indices. *)
Theorem C02_is_clean : forall v : dvec,
  IsClean v = true <-> canonical (ents v) /\ nonneg_indices (ents v).
Proof. exact is_clean_spec. Qed.
Print Assumptions C02_is_clean.

Theorem C02_first_last : forall v : dvec, canonical (ents v) ->
  (ents v = [] -> first_index v = -1 /\ last_index v = -1) /\
  (ents v <> [] -> holds v (first_index v) /\ holds v (last_index v) /\
     forall i, holds v i -> first_index v <= i <= last_index v).
Proof. exact first_last_spec. Qed.
Print Assumptions C02_first_last.

Example C02_clean_case : IsClean (mkV [E 1 (dint 6); E 3 (dint 15)] false) = true /\
  IsClean (mkV [E 3 (dint 6); E 1 (dint 15)] false) = false /\
  IsClean (mkV [E 1 (dint 6); E 3 d0] false) = false.
Proof. repeat split; reflexivity. Qed.

(** C03. AddMultipleOfVector on clean vectors is defined and pointwise. *)
Theorem C03_add_multiple_pointwise : forall (v w : dvec) (f : num_double),
  MayNeedCleaning v = false -> MayNeedCleaning w = false ->
  canonical (ents v) -> canonical (ents w) ->
  nonneg_indices (ents v) -> nonneg_indices (ents w) ->
  exists r, AddMultiple v f w = Ok r /\
    MayNeedCleaning r = false /\ canonical (ents r) /\ nonneg_indices (ents r) /\
    forall i,
      (holds v i -> holds w i -> value r i = drop0 (dadd (value v i) (dmul (value w i) f) : num_double)) /\
      (~ holds v i -> holds w i -> value r i = drop0 (dmul (value w i) f : num_double)) /\
      (holds v i -> ~ holds w i -> value r i = value v i) /\
      (~ holds v i -> ~ holds w i -> value r i = d0 /\ ~ holds r i).
Proof. exact (fun v w f => AddMultiple_pointwise num_double_ok v f w). Qed.
Print Assumptions C03_add_multiple_pointwise.

(** C03: the call is undefined exactly if one of the vectors needs cleaning or the lowest index held
    by either is -1; it never fails in another way. *)
Theorem C03_undefined : forall (v w : dvec) (f : num_double), canonical (ents v) -> canonical (ents w) ->
  (AddMultiple v f w = UB <-> MayNeedCleaning v = true \/ MayNeedCleaning w = true \/
    ((holds v (-1) \/ holds w (-1)) /\ forall i, holds v i \/ holds w i -> -1 <= i)) /\
  (AddMultiple v f w = UB \/ exists r, AddMultiple v f w = Ok r).
Proof. exact add_multiple_undefined. Qed.
Print Assumptions C03_undefined.
Example C03_undefined_case :
  AddMultiple (mkV [E (-1) d1; E 4 d1] false) (d1 : num_double) (mkV [E 0 d1] false) = UB /\
  AddMultiple (mkV [E (-2) d1; E (-1) d1] false) (d1 : num_double) (mkV [E 0 d1] false) =
    Ok (mkV [E (-2) d1; E (-1) d1; E 0 d1] false).
Proof. split; reflexivity. Qed.

(** C03 for += and -=, at every index.  [dvalid] says that the entry is one of the
    binary64 values (the carrier also has unnormalised representations). *)
Theorem C03_plus_minus : forall v w : dvec,
  MayNeedCleaning v = false -> MayNeedCleaning w = false ->
  canonical (ents v) -> canonical (ents w) ->
  nonneg_indices (ents v) -> nonneg_indices (ents w) ->
  Forall (fun e : entry num_double => dvalid (val e) = true) (ents w) ->
  exists p m, PlusEq v w = Ok p /\ MinusEq v w = Ok m /\
    canonical (ents p) /\ canonical (ents m) /\
    forall i,
      (holds v i -> holds w i ->
         value p i = drop0 (dadd (value v i) (value w i) : num_double) /\
         value m i = drop0 (dadd (value v i) (dopp (value w i)) : num_double)) /\
      (~ holds v i -> holds w i -> value p i = value w i /\ value m i = dopp (value w i)) /\
      (holds v i -> ~ holds w i -> value p i = value v i /\ value m i = value v i) /\
      (~ holds v i -> ~ holds w i -> value p i = d0 /\ value m i = d0).
Proof. exact plus_minus_pointwise. Qed.
Print Assumptions C03_plus_minus.

Example C03_minus_case :
  MinusEq (mkV [E 0 (dint 1); E 2 (dint 3); E 4 (dint 5)] false)
          (mkV [E 1 (dint 7); E 2 (dint 4); E 4 (dint 5)] false)
  = Ok (mkV [E 0 (dint 1); E 1 (dint (-7)); E 2 (dint (-1))] false).
Proof. reflexivity. Qed.

Example C03_case :
  AddMultiple (mkV [E 0 (dint 1); E 2 (dint 3); E 4 (dint 5)] false) (dint 2 : num_double)
              (mkV [E 1 (dint 7); E 2 (dint 4); E 9 (dint 1)] false)
  = Ok (mkV [E 0 (dint 1); E 1 (dint 14); E 2 (dint 11); E 4 (dint 5); E 9 (dint 2)] false).
Proof. reflexivity. Qed.

Example C03_cancel :
  AddMultiple (mkV [E 0 (dint 1); E 2 (dint 4)] false) (dint (-1) : num_double)
              (mkV [E 2 (dint 4)] false)
  = Ok (mkV [E 0 (dint 1)] false).
Proof. reflexivity. Qed.

(** C04 fails: updating a non-empty vector with itself is undefined behaviour, while
    the same call with a copy is defined. *)
Theorem C04_self_alias_refuted :
  exists (v : dvec) (f : num_double), canonical (ents v) /\ nonneg_indices (ents v) /\
  MayNeedCleaning v = false /\
  AddMultipleSelf v f = UB /\ exists r, AddMultiple v f v = Ok r.
Proof.
  exists (mkV [E 0 (dint 1)] false), d1.
  split; [split; repeat constructor|]. split; [repeat constructor; discriminate|].
  split; [reflexivity|]. split; [reflexivity|]. eexists. reflexivity.
Qed.
Print Assumptions C04_self_alias_refuted.

(** C04, exact extent of the defect: every non-empty vector, every factor. *)
Theorem C04_self_alias_always_ub : forall (v : dvec) (f : num_double),
  ents v <> [] -> AddMultipleSelf v f = UB.
Proof. exact AddMultipleSelf_ub. Qed.
Print Assumptions C04_self_alias_always_ub.

(** C05. DotProduct sums, in increasing index order, over exactly the common indices,
    and is symmetric. *)
Theorem C05_dot_product : forall v w : dvec,
  canonical (ents v) -> canonical (ents w) ->
  DotProduct v w = sum_products v w (filter (holdsb w) (map idx (ents v))) /\
  DotProduct v w = DotProduct w v.
Proof.
  exact (fun v w Cv Cw => conj (DotProduct_spec v w Cv Cw) (DotProduct_sym v w dmul_comm Cv Cw)).
Qed.
Print Assumptions C05_dot_product.

Example C05_case :
  DotProduct (mkV [E 0 (dint 1); E 2 (dint 3); E 4 (dint 5)] false)
             (mkV [E 1 (dint 7); E 2 (dint 4); E 4 (dint 2); E 9 (dint 1)] false) = dint 22.
Proof. reflexivity. Qed.

(** C06. Transform, unary minus, *= and /=. *)
Theorem C06_transform : forall (f : Z -> num_double -> num_double) (v : dvec),
  MayNeedCleaning v = false -> canonical (ents v) ->
  let r := Transform f v in
  MayNeedCleaning r = false /\ canonical (ents r) /\
  (forall i, holds v i -> value r i = drop0 (f i (value v i))) /\
  (forall i, ~ holds v i -> value r i = d0) /\
  (forall i, holds r i <-> holds v i /\ is0 (f i (value v i)) = false).
Proof. exact transform_pointwise. Qed.
Print Assumptions C06_transform.

Theorem C06_negate_scale : forall v : dvec, canonical (ents v) ->
  (map idx (ents (Negate v)) = map idx (ents v) /\
   (forall i, holds v i -> value (Negate v) i = dopp (value v i)) /\
   (forall i, ~ holds v i -> value (Negate v) i = d0)) /\
  (forall s : num_double, deqb s d0 = false ->
   map idx (ents (Scale v s)) = map idx (ents v) /\
   (forall i, holds v i -> value (Scale v s) i = dmul (value v i) s) /\
   (forall i, ~ holds v i -> value (Scale v s) i = d0)) /\
  (forall s : num_double, deqb s d0 = true -> forall i, value (Scale v s) i = d0) /\
  (forall s : num_double,
   map idx (ents (Unscale v s)) = map idx (ents v) /\
   (forall i, holds v i -> value (Unscale v s) i = ddiv (value v i) s) /\
   (forall i, ~ holds v i -> value (Unscale v s) i = d0)).
Proof. exact negate_scale_pointwise. Qed.
Print Assumptions C06_negate_scale.

Example C06_case :
  let v := mkV [E 0 (dint 1); E 2 (dint 3); E 4 (dint 5)] false in
  ents (Scale v (dint 2 : num_double)) = [E 0 (dint 2); E 2 (dint 6); E 4 (dint 10)] /\
  ents (Transform (N:=num_double) (fun i x => if i =? 2 then d0 else dadd x (dint i)) v)
    = [E 0 (dint 1); E 4 (dint 9)].
Proof. split; reflexivity. Qed.
