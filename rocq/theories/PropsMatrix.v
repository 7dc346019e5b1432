(** Property theorems C07-C09 (sparse matrices of doubles).
    Specification vocabulary: [MatrixSpec].  Model: [SparseMatrix]. *)
From Coq Require Import List ZArith Bool Sorted Lia.
From Verif Require Import Outcome Num Double SparseVector VectorSpec SparseMatrix MatrixSpec
  MatrixFacts.
Import ListNotations.
Open Scope Z_scope.

Notation dmop := (mop num_double).
Notation D z := (dint z : num_double).
Notation E i x := (@mkE num_double i x).

(** C07. Every history of in-range calls, reads included, runs without touching memory
    out of bounds, and the three ways of reading a coefficient then agree with the
    abstract matrix that the writes build. *)
Theorem C07_views_agree : forall (nc nr : nat) (ops : list dmop),
  calls_ok (a_new nc nr) ops ->
  exists m, mrun (mat_new nc nr) ops = Ok m /\
    let a := areplay (a_new nc nr) ops in reads_as m (a_nc a) (a_nr a) (a_val a).
Proof. exact (@matrix_history num_double). Qed.
Print Assumptions C07_views_agree.

Example C07_case :
  let ops := [MSet 1 0 (D 4); MPopRow 1 (mkV [E 2 (dint 7); E 0 (dint 5)] true); MCol 0;
              MSet 0 1 (D 9); MPopCol 2 (mkV [E 0 (dint 3)] false); MRow 1; MSet 1 0 (D 0)]
             : list dmop in
  calls_ok (a_new 3 2) ops /\
  let a := areplay (a_new 3 2) ops in
  a_val a 0 1 = dint 9 /\ a_val a 2 1 = d0 /\ a_val a 2 0 = dint 3 /\ a_val a 1 0 = d0.
Proof.
  split; [|vm_compute; auto].
  unfold calls_ok, call_ok, astep, in_cols, in_rows, wf_vector, a_new, canonical; cbn [a_nc a_nr].
  repeat split; try lia; try (intro H; discriminate H); try (repeat constructor; fail);
    repeat (constructor; try (cbn; lia)); discriminate.
Qed.

(** C08. Inserting reads anywhere in a history changes neither its outcome nor anything
    that can be read afterwards. *)
Theorem C08_reads_pure : forall (nc nr : nat) (hist reads later : list dmop),
  calls_ok (a_new nc nr) (hist ++ reads) -> Forall read_call reads ->
  calls_ok (a_new nc nr) (hist ++ later) ->
  exists m1 m2 nc' nr' x,
    mrun (mat_new nc nr) (hist ++ later) = Ok m1 /\
    mrun (mat_new nc nr) (hist ++ reads ++ later) = Ok m2 /\
    reads_as m1 nc' nr' x /\ reads_as m2 nc' nr' x.
Proof. exact (@matrix_reads_pure num_double). Qed.
Print Assumptions C08_reads_pure.

Example C08_case :
  let hist := [MPopRow 0 (mkV [E 1 (dint 2)] false); MSet 0 0 (D 6)] : list dmop in
  let reads := [MCol 1; MGet 0 0; MRow 0] : list dmop in
  let later := [MSet 1 0 (D 8); MResize 1 1] : list dmop in
  calls_ok (a_new 2 1) (hist ++ reads) /\ Forall read_call reads /\
  calls_ok (a_new 2 1) (hist ++ later).
Proof.
  cbn [app]. unfold calls_ok, call_ok, astep, in_cols, in_rows, wf_vector, a_new, canonical;
  cbn [a_nc a_nr].
  repeat split; try lia; try (intro H; discriminate H); try (repeat constructor; fail);
    repeat (constructor; try (cbn; lia)).
Qed.

(** C09. From any reachable matrix Resize succeeds, keeps the overlapping block, and
    every other coefficient of the new matrix is zero. *)
Theorem C09_resize : forall (nc nr : nat) (hist : list dmop) (nc' nr' : nat),
  calls_ok (a_new nc nr) hist ->
  exists m m' x,
    mrun (mat_new nc nr) hist = Ok m /\ Resize m nc' nr' = Ok m' /\
    reads_as m (num_cols m) (num_rows m) x /\
    reads_as m' (Z.of_nat nc') (Z.of_nat nr')
      (fun c r => if (c <? num_cols m) && (r <? num_rows m) then x c r else d0).
Proof. exact (@matrix_resize num_double). Qed.
Print Assumptions C09_resize.

Example C09_case :
  let hist := [MSet 2 1 (D 4); MSet 0 0 (D 1); MResize 1 2; MResize 3 1] : list dmop in
  calls_ok (a_new 3 2) hist /\
  let a := areplay (a_new 3 2) hist in
  a_nc a = 3 /\ a_nr a = 1 /\ a_val a 0 0 = dint 1 /\ a_val a 2 0 = d0.
Proof.
  split; [|vm_compute; auto].
  unfold calls_ok, call_ok, astep, in_cols, in_rows; cbn [a_nc a_nr a_new]. repeat split; lia.
Qed.
