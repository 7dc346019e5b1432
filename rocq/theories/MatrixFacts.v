(** Proofs about the sparse matrix model. *)
From Coq Require Import List ZArith Lia Bool Sorted.
From Verif Require Import Outcome OutcomeFacts Num SparseVector SparseVectorFacts VectorSpec
  VectorProofs SparseMatrix MatrixSpec.
Import ListNotations.
Open Scope Z_scope.

Section Facts.
Context {N : Num}.
Implicit Types (v t : svec N) (l tg : list (svec N)) (m : smat N).

Definition good v := vinv v /\ canon v.

Lemma good_empty : good vempty.
Proof. split; intros _; constructor. Qed.

Lemma good_cleanup v : good v -> good (CleanUp v) /\ dirty (CleanUp v) = false /\
  (forall i, content (CleanUp v) i = content v i) /\
  (forall i, find_last (ents (CleanUp v)) i = content v i) /\
  (forall i, value (CleanUp v) i = or0 (content v i)).
Proof.
  intros [H1 H2]. destruct (CleanUp_ok v H1) as (D & S & F).
  pose proof (CleanUp_nonzero v H2) as Z.
  split; [split; intros _; auto|]. split; auto. split; [|split].
  - intros i. unfold content at 1. rewrite D. auto.
  - intros i. rewrite sorted_find; auto.
  - intros i. apply content_clean; auto.
Qed.

Lemma good_cleanup_idem v : good v -> dirty v = false -> CleanUp v = v.
Proof. unfold CleanUp. intros _ ->. auto. Qed.

Lemma value_good v i : good v -> dirty v = false -> value v i = or0 (content v i).
Proof.
  intros G D. rewrite <- (good_cleanup_idem v G D) at 1. apply good_cleanup; auto.
Qed.

Lemma good_add v i x : good v -> good (AddEntry v i x).
Proof. intros [H1 H2]. split; [apply AddEntry_inv; auto|apply AddEntry_canon; auto]. Qed.

Lemma add_content v i x j : good v ->
  content (AddEntry v i x) j = if j =? i then nz (Some x) else content v j.
Proof. intros [H1 H2]. rewrite AddEntry_content by auto. rewrite Z.eqb_sym. auto. Qed.

Lemma content_nz v i : good v -> nz (content v i) = content v i.
Proof.
  intros [H1 H2]. destruct (content v i) eqn:E; auto.
  cbn. rewrite (content_nonzero v i n H1 H2 E). auto.
Qed.

(** ** Transposition *)
Lemma scatter_ok i tg (es : list (entry N)) :
  (forall k v, at_ tg k = Ok v -> good v) ->
  Forall (fun e => 0 <= idx e < Z.of_nat (length tg)) es ->
  exists tg', scatter i tg es = Ok tg' /\ length tg' = length tg /\
    forall k v', at_ tg' k = Ok v' -> exists v, at_ tg k = Ok v /\ good v' /\
      forall j, content v' j =
        if j =? i then match find_last es k with Some x => nz (Some x) | None => content v i end
        else content v j.
Proof.
  intros Hg Hr. unfold scatter.
  set (P := fun (tg' : list (svec N)) (pre : list (entry N)) =>
     length tg' = length tg /\
     forall k v', at_ tg' k = Ok v' -> exists v, at_ tg k = Ok v /\ good v' /\
      forall j, content v' j =
        if j =? i then match find_last pre k with Some x => nz (Some x) | None => content v i end
        else content v j).
  apply (foldM_ind _ P); unfold P; clear P.
  - split; auto. intros k v' Hv. exists v'. split; auto. split; eauto.
    intros j. cbn. destruct (Z.eqb_spec j i); subst; auto.
  - intros pre e tg1 [HL HP] Hin.
    rewrite Forall_forall in Hr. specialize (Hr e Hin).
    destruct (at_range tg1 (idx e)) as [v1 E1]; [lia|].
    rewrite E1. cbn [bind].
    destruct (set_at_range tg1 (idx e) (AddEntry v1 i (val e))) as [tg2 E2]; [lia|].
    exists tg2. split; auto. split; [erewrite set_at_length; eauto|].
    intros k v' Hk. rewrite (at_set_at _ _ _ _ k E2) in Hk.
    destruct (Z.eqb_spec k (idx e)) as [->|Hne].
    + inversion Hk; subst; clear Hk.
      destruct (HP _ _ E1) as (v & Ev & G1 & C1). exists v. split; auto.
      split; [apply good_add; auto|]. intros j.
      rewrite add_content by auto. rewrite C1.
      rewrite find_last_app. cbn [find_last]. rewrite Z.eqb_refl.
      destruct (j =? i); auto.
    + destruct (HP _ _ Hk) as (v & Ev & G1 & C1). exists v. split; auto. split; auto.
      intros j. rewrite C1. rewrite find_last_app. cbn [find_last].
      destruct (Z.eqb_spec (idx e) k); [congruence|]. auto.
Qed.

Lemma transpose_loop_ok tr : forall i tg,
  (forall k v, at_ tg k = Ok v -> good v) ->
  (forall q t, at_ tr q = Ok t -> good t /\
     forall k, content t k <> None -> 0 <= k < Z.of_nat (length tg)) ->
  exists tg' tr', transpose_loop i tr tg = Ok (tg', tr') /\ length tg' = length tg /\
    tr' = map CleanUp tr /\
    forall k v', at_ tg' k = Ok v' -> exists v, at_ tg k = Ok v /\ good v' /\
      forall j, content v' j =
        match at_ tr (j - i) with
        | Ok t => match content t k with Some x => Some x | None => content v j end
        | _ => content v j
        end.
Proof.
  induction tr as [|t r IH]; intros i tg Hg Ht.
  - exists tg, []. cbn. repeat split; auto. intros k v' Hv. exists v'. repeat split; eauto.
    + apply (Hg _ _ Hv).
    + apply (Hg _ _ Hv).
    + intros j. unfold at_. destruct (j - i <? 0); auto. destruct (Z.to_nat (j - i)); auto.
  - cbn [transpose_loop].
    destruct (Ht 0 t eq_refl) as [Gt Rt].
    destruct (good_cleanup t Gt) as (Gc & Dc & Cc & Fc & Vc).
    destruct (scatter_ok i tg (ents (CleanUp t)) Hg) as (tg1 & E1 & L1 & H1).
    { apply Forall_forall. intros e He. apply Rt. rewrite <- Cc. unfold content. rewrite Dc.
      rewrite (find_first_in (ents (CleanUp t)) e); [discriminate| |auto].
      apply Gc; auto. }
    rewrite E1. cbn [bind].
    destruct (IH (i + 1) tg1) as (tg2 & tr2 & E2 & L2 & Er & H2).
    { intros k v Hv. destruct (H1 k v Hv) as (? & _ & G & _). auto. }
    { intros q t' Hq. rewrite L1. apply (Ht (q + 1)).
      apply at_ok in Hq as [Q1 Q2]. apply at_ok. split; [lia|].
      replace (Z.to_nat (q + 1)) with (S (Z.to_nat q)) by lia. auto. }
    rewrite E2. cbn [bind fst snd]. exists tg2, (CleanUp t :: tr2).
    split; auto. split; [congruence|]. split; [cbn; congruence|].
    intros k v' Hv'. destruct (H2 k v' Hv') as (v1 & Ev1 & G' & C').
    destruct (H1 k v1 Ev1) as (v & Ev & G1 & C1). exists v. split; auto. split; auto.
    intros j. rewrite C'. destruct (Z.eq_dec j i) as [->|Hne].
    + replace (i - (i + 1)) with (-1) by lia. replace (i - i) with 0 by lia.
      change (at_ r (-1)) with (@UB (svec N)). change (at_ (t :: r) 0) with (Ok t).
      cbv iota. rewrite C1, Z.eqb_refl, Fc.
      destruct (content t k) eqn:Ec; auto.
      rewrite <- Ec at 1. rewrite content_nz; auto.
    + assert (Ea : at_ (t :: r) (j - i) = at_ r (j - (i + 1))).
      { unfold at_. destruct (Z.ltb_spec (j - i) 0), (Z.ltb_spec (j - (i + 1)) 0); auto; try lia.
        replace (Z.to_nat (j - i)) with (S (Z.to_nat (j - (i + 1)))) by lia. auto. }
      rewrite Ea. rewrite C1.
      destruct (Z.eqb_spec j i); [congruence|]. auto.
Qed.

Lemma from_transpose_ok tg tr (h : Z -> Z -> option N) :
  (forall q t, at_ tr q = Ok t -> good t /\ forall k, content t k = h q k) ->
  (forall q k, h q k <> None -> 0 <= q < Z.of_nat (length tr) /\ 0 <= k < Z.of_nat (length tg)) ->
  exists tg' tr', from_transpose tg tr = Ok (tg', tr') /\ length tg' = length tg /\
    tr' = map CleanUp tr /\
    forall k v', at_ tg' k = Ok v' -> good v' /\ forall q, content v' q = h q k.
Proof.
  intros Ht Hh. unfold from_transpose.
  destruct (transpose_loop_ok tr 0 (map Clear tg)) as (tg' & tr' & E & L & Er & H).
  - intros k v Hv. rewrite at_map in Hv. destruct (at_ tg k); try discriminate.
    inversion Hv; subst. apply good_empty.
  - intros q t Hq. destruct (Ht q t Hq) as [G C]. split; auto.
    intros k Hk. rewrite map_length. rewrite C in Hk. apply Hh in Hk. lia.
  - rewrite map_length in L. exists tg', tr'. split; auto. split; auto. split; auto.
    intros k v' Hv'. destruct (H k v' Hv') as (v & Ev & G & C). split; auto.
    intros q. rewrite C. rewrite Z.sub_0_r.
    assert (content v q = None).
    { rewrite at_map in Ev. destruct (at_ tg k); try discriminate. inversion Ev; subst. auto. }
    destruct (at_cases tr q) as [[R [t Et]]|[R Et]]; rewrite Et.
    + destruct (Ht q t Et) as [_ Ct]. rewrite Ct. destruct (h q k); auto.
    + rewrite H0. destruct (h q k) eqn:Eh; auto. exfalso. apply R. apply (Hh q k). congruence.
Qed.

(** ** Matrix invariant *)
Definition minv m (g : Z -> Z -> option N) : Prop :=
  (forall c r, g c r <> None -> 0 <= c < num_cols m /\ 0 <= r < num_rows m) /\
  (rows_need m = false -> forall r v, at_ (rows m) r = Ok v ->
     good v /\ forall c, content v c = g c r) /\
  (cols_need m = false -> forall c v, at_ (cols m) c = Ok v ->
     good v /\ forall r, content v r = g c r).

Lemma need_cases m : rows_need m = false \/ cols_need m = false.
Proof. unfold rows_need, cols_need. destruct (cons m); auto. Qed.

Lemma cleanup_side l (f : Z -> Z -> option N) :
  (forall r v, at_ l r = Ok v -> good v /\ forall c, content v c = f r c) ->
  forall r v, at_ (map CleanUp l) r = Ok v -> good v /\ forall c, content v c = f r c.
Proof.
  intros H r v Hv. rewrite at_map in Hv. destruct (at_ l r) as [u| | | |] eqn:E; try discriminate.
  inversion Hv; subst. destruct (H r u E) as [G C].
  destruct (good_cleanup u G) as (G' & _ & C' & _). split; auto.
  intros c. rewrite C'. auto.
Qed.

Lemma recompute_rows_ok m g : minv m g ->
  exists m', recompute_rows m = Ok m' /\ minv m' g /\ rows_need m' = false /\
    num_cols m' = num_cols m /\ num_rows m' = num_rows m /\
    (rows_need m = true -> cols_need m' = false).
Proof.
  intros (Hs & Hr & Hc). unfold recompute_rows. destruct (rows_need m) eqn:E.
  - assert (Ec : cols_need m = false).
    { destruct (need_cases m); congruence. }
    destruct (from_transpose_ok (rows m) (cols m) g (Hc Ec)) as (tg' & tr' & E1 & L & Er & H).
    { intros q k Hq. apply Hs in Hq. unfold num_cols, num_rows in Hq. auto. }
    rewrite E1. cbn. eexists. split; [reflexivity|]. unfold num_cols, num_rows; cbn.
    rewrite L, Er, map_length.
    split; [|repeat split; auto].
    split; [|split]; unfold num_cols, num_rows; cbn.
    + intros c r Hg. apply Hs in Hg. unfold num_cols, num_rows in Hg.
      rewrite L, map_length. auto.
    + intros _ r v Hv. apply H. auto.
    + intros _. apply cleanup_side; auto.
  - exists m. split; auto. split; [split; [|split]; auto|]. repeat split; auto. discriminate.
Qed.

Lemma recompute_cols_ok m g : minv m g ->
  exists m', recompute_cols m = Ok m' /\ minv m' g /\ cols_need m' = false /\
    num_cols m' = num_cols m /\ num_rows m' = num_rows m /\
    (cols_need m = true -> rows_need m' = false).
Proof.
  intros (Hs & Hr & Hc). unfold recompute_cols. destruct (cols_need m) eqn:E.
  - assert (Ec : rows_need m = false).
    { destruct (need_cases m); congruence. }
    destruct (from_transpose_ok (cols m) (rows m) (fun r c => g c r) (Hr Ec)) as (tg' & tr' & E1 & L & Er & H).
    { intros q k Hq. apply Hs in Hq. unfold num_cols, num_rows in Hq. tauto. }
    rewrite E1. cbn. eexists. split; [reflexivity|]. unfold num_cols, num_rows; cbn.
    rewrite L, Er, map_length.
    split; [|repeat split; auto].
    split; [|split]; unfold num_cols, num_rows; cbn.
    + intros c r Hg. apply Hs in Hg. unfold num_cols, num_rows in Hg.
      rewrite L, map_length. auto.
    + intros _. apply (cleanup_side (rows m) (fun r c => g c r)); auto.
    + intros _ r v Hv. apply H. auto.
  - exists m. split; auto. split; [split; [|split]; auto|]. repeat split; auto. discriminate.
Qed.

Lemma set_side l k x l' (f : Z -> Z -> option N) : set_at l k x = Ok l' ->
  (forall r v, r <> k -> at_ l r = Ok v -> good v /\ forall c, content v c = f r c) ->
  (good x /\ forall c, content x c = f k c) ->
  forall r v, at_ l' r = Ok v -> good v /\ forall c, content v c = f r c.
Proof.
  intros E H Hx r v Hv. rewrite (at_set_at _ _ _ _ r E) in Hv.
  destruct (Z.eqb_spec r k) as [->|Hne]; [inversion Hv; subst; auto|eauto].
Qed.

(** Reading through rows. *)
Lemma row_ok m g r : minv m g -> 0 <= r < num_rows m ->
  exists v m', row m r = Ok (v, m') /\ minv m' g /\
    num_cols m' = num_cols m /\ num_rows m' = num_rows m /\
    (forall c, value v c = or0 (g c r)).
Proof.
  intros Hm Hr. unfold row.
  destruct (recompute_rows_ok m g Hm) as (m1 & E1 & (Hs & Hrs & Hcs) & N1 & C1 & R1 & _).
  rewrite E1. cbn [bind].
  destruct (at_range (rows m1) r) as [v Ev]; [unfold num_rows in *; lia|].
  rewrite Ev. cbn [bind].
  destruct (set_at_range (rows m1) r (CleanUp v)) as [rs Es]; [unfold num_rows in *; lia|].
  rewrite Es. cbn [bind].
  destruct (Hrs N1 _ _ Ev) as [G C].
  destruct (good_cleanup v G) as (G' & D' & C' & F' & V').
  exists (CleanUp v), (mkM (cols m1) rs (SparseMatrix.cons m1)).
  assert (L : length rs = length (rows m1)) by (eapply set_at_length; eauto).
  split; auto. unfold num_cols, num_rows in *; cbn. rewrite L.
  split; [|repeat split; auto].
  - split; [|split]; unfold num_cols, num_rows, rows_need, cols_need; cbn.
    + intros c r' Hg. rewrite L. apply Hs; auto.
    + intros _. apply (set_side (rows m1) r (CleanUp v) rs (fun r c => g c r) Es).
      * intros r' v' _ Hv'. apply (Hrs N1); auto.
      * split; auto. intros c. rewrite C'. auto.
    + intros H. apply Hcs. auto.
  - intros c. rewrite V', C. auto.
Qed.

Lemma col_ok m g c : minv m g -> 0 <= c < num_cols m ->
  exists v m', col m c = Ok (v, m') /\ minv m' g /\
    num_cols m' = num_cols m /\ num_rows m' = num_rows m /\
    (forall r, value v r = or0 (g c r)).
Proof.
  intros Hm Hr. unfold col.
  destruct (recompute_cols_ok m g Hm) as (m1 & E1 & (Hs & Hrs & Hcs) & N1 & C1 & R1 & _).
  rewrite E1. cbn [bind].
  destruct (at_range (cols m1) c) as [v Ev]; [unfold num_cols in *; lia|].
  rewrite Ev. cbn [bind].
  destruct (set_at_range (cols m1) c (CleanUp v)) as [rs Es]; [unfold num_cols in *; lia|].
  rewrite Es. cbn [bind].
  destruct (Hcs N1 _ _ Ev) as [G C].
  destruct (good_cleanup v G) as (G' & D' & C' & F' & V').
  exists (CleanUp v), (mkM rs (rows m1) (SparseMatrix.cons m1)).
  assert (L : length rs = length (cols m1)) by (eapply set_at_length; eauto).
  split; auto. unfold num_cols, num_rows in *; cbn. rewrite L.
  split; [|repeat split; auto].
  - split; [|split]; unfold num_cols, num_rows, rows_need, cols_need; cbn.
    + intros c' r' Hg. rewrite L. apply Hs; auto.
    + intros H. apply Hrs. auto.
    + intros _. apply (set_side (cols m1) c (CleanUp v) rs g Es).
      * intros r' v' _ Hv'. apply (Hcs N1); auto.
      * split; auto. intros r'. rewrite C'. auto.
  - intros r. rewrite V', C. auto.
Qed.

Lemma get_ok m g c r : minv m g -> 0 <= c < num_cols m -> 0 <= r < num_rows m ->
  exists m', GetCoefficient m c r = Ok (or0 (g c r), m') /\ minv m' g /\
    num_cols m' = num_cols m /\ num_rows m' = num_rows m.
Proof.
  intros (Hs & Hrs & Hcs) Hc Hr. unfold GetCoefficient.
  destruct (at_range (rows m) r) as [rv Erv]; [unfold num_rows in *; lia|].
  destruct (at_range (cols m) c) as [cv Ecv]; [unfold num_cols in *; lia|].
  destruct (set_at_range (rows m) r (CleanUp rv)) as [rs Es]; [unfold num_rows in *; lia|].
  destruct (set_at_range (cols m) c (CleanUp cv)) as [cs Ec]; [unfold num_cols in *; lia|].
  assert (Lr : length rs = length (rows m)) by (eapply set_at_length; eauto).
  assert (Lc : length cs = length (cols m)) by (eapply set_at_length; eauto).
  assert (FR : rows_need m = false ->
    exists m', (do v <- at_ (rows m) r; do rs <- set_at (rows m) r (CleanUp v);
      Ok (value (CleanUp v) c, mkM (cols m) rs (SparseMatrix.cons m))) = Ok (or0 (g c r), m') /\
      minv m' g /\ num_cols m' = num_cols m /\ num_rows m' = num_rows m).
  { intros Nr. rewrite Erv. cbn [bind]. rewrite Es. cbn [bind].
    destruct (Hrs Nr _ _ Erv) as [G C]. destruct (good_cleanup rv G) as (G' & _ & C' & _ & V').
    eexists. split; [rewrite V', C; reflexivity|].
    unfold num_cols, num_rows in *; cbn. rewrite Lr. split; [|auto].
    split; [|split]; unfold num_cols, num_rows, rows_need, cols_need; cbn.
    - intros c' r' Hg. rewrite Lr. apply Hs; auto.
    - intros _. apply (set_side (rows m) r (CleanUp rv) rs (fun r c => g c r) Es).
      + intros r' v' _ Hv'. apply (Hrs Nr); auto.
      + split; auto. intros c'. rewrite C'. auto.
    - exact Hcs. }
  assert (FC : cols_need m = false ->
    exists m', (do v <- at_ (cols m) c; do cs <- set_at (cols m) c (CleanUp v);
      Ok (value (CleanUp v) r, mkM cs (rows m) (SparseMatrix.cons m))) = Ok (or0 (g c r), m') /\
      minv m' g /\ num_cols m' = num_cols m /\ num_rows m' = num_rows m).
  { intros Nr. rewrite Ecv. cbn [bind]. rewrite Ec. cbn [bind].
    destruct (Hcs Nr _ _ Ecv) as [G C]. destruct (good_cleanup cv G) as (G' & _ & C' & _ & V').
    eexists. split; [rewrite V', C; reflexivity|].
    unfold num_cols, num_rows in *; cbn. rewrite Lc. split; [|auto].
    split; [|split]; unfold num_cols, num_rows, rows_need, cols_need; cbn.
    - intros c' r' Hg. rewrite Lc. apply Hs; auto.
    - exact Hrs.
    - intros _. apply (set_side (cols m) c (CleanUp cv) cs g Ec).
      + intros r' v' _ Hv'. apply (Hcs Nr); auto.
      + split; auto. intros c'. rewrite C'. auto. }
  assert (Same : minv m g) by (split; auto).
  rewrite Erv in *. rewrite Ecv in *.
  destruct (rows_need m) eqn:Nr; cbn [negb].
  - assert (Nc : cols_need m = false) by (destruct (need_cases m); congruence).
    rewrite Nc in *. cbn [negb bind]. unfold MayNeedCleaning. destruct (dirty cv) eqn:D; cbn [negb].
    + apply FC; auto.
    + destruct (Hcs eq_refl _ _ Ecv) as [G C]. exists m. rewrite value_good, C by auto. auto.
  - cbn [bind]. unfold MayNeedCleaning. destruct (dirty rv) eqn:D; cbn [negb].
    + destruct (cols_need m) eqn:Nc; cbn [negb bind].
      * apply FR; auto.
      * destruct (dirty cv) eqn:D2; cbn [negb]; [apply FR; auto|].
        destruct (Hcs eq_refl _ _ Ecv) as [G C]. exists m. rewrite value_good, C by auto. auto.
    + destruct (Hrs eq_refl _ _ Erv) as [G C]. exists m. rewrite value_good, C by auto. auto.
Qed.

Lemma set_ok m g c r x : minv m g -> 0 <= c < num_cols m -> 0 <= r < num_rows m ->
  exists m', SetCoefficient m c r x = Ok m' /\
    minv m' (fun c' r' => if (c' =? c) && (r' =? r) then nz (Some x) else g c' r') /\
    num_cols m' = num_cols m /\ num_rows m' = num_rows m.
Proof.
  intros (Hs & Hrs & Hcs) Hc Hr. unfold SetCoefficient.
  destruct (at_range (rows m) r) as [rv Erv]; [unfold num_rows in *; lia|].
  destruct (at_range (cols m) c) as [cv Ecv]; [unfold num_cols in *; lia|].
  rewrite Erv. cbn [bind].
  destruct (set_at_range (rows m) r (AddEntry rv c x)) as [rs Es]; [unfold num_rows in *; lia|].
  rewrite Es. cbn [bind]. rewrite Ecv. cbn [bind].
  destruct (set_at_range (cols m) c (AddEntry cv r x)) as [cs Ec]; [unfold num_cols in *; lia|].
  rewrite Ec. cbn [bind].
  assert (Lr : length rs = length (rows m)) by (eapply set_at_length; eauto).
  assert (Lc : length cs = length (cols m)) by (eapply set_at_length; eauto).
  eexists. split; [reflexivity|]. unfold num_cols, num_rows in *; cbn. rewrite Lr, Lc.
  split; [|auto].
  split; [|split]; unfold num_cols, num_rows, rows_need, cols_need; cbn; rewrite ?Lr, ?Lc.
  - intros c' r'. destruct (Z.eqb_spec c' c), (Z.eqb_spec r' r); cbn [andb]; subst; auto.
  - intros Nr. apply (set_side (rows m) r (AddEntry rv c x) rs
      (fun r' c' => if (c' =? c) && (r' =? r) then nz (Some x) else g c' r') Es).
    + intros r' v' Hne Hv'. destruct (Hrs Nr r' v' Hv') as [G C]. split; auto.
      intros c'. rewrite C. destruct (Z.eqb_spec r' r); [congruence|].
      rewrite andb_false_r. auto.
    + destruct (Hrs Nr r rv Erv) as [G C]. split; [apply good_add; auto|].
      intros c'. rewrite add_content by auto. rewrite Z.eqb_refl, andb_true_r, C. auto.
  - intros Nr. apply (set_side (cols m) c (AddEntry cv r x) cs
      (fun c' r' => if (c' =? c) && (r' =? r) then nz (Some x) else g c' r') Ec).
    + intros c' v' Hne Hv'. destruct (Hcs Nr c' v' Hv') as [G C]. split; auto.
      intros r'. rewrite C. destruct (Z.eqb_spec c' c); [congruence|]. auto.
    + destruct (Hcs Nr c cv Ecv) as [G C]. split; [apply good_add; auto|].
      intros r'. rewrite add_content by auto. rewrite Z.eqb_refl, C. auto.
Qed.

Lemma pop_row_ok m g r data : minv m g -> 0 <= r < num_rows m -> good data ->
  (forall c, content data c <> None -> 0 <= c < num_cols m) ->
  exists m', PopulateRow m r data = Ok m' /\
    minv m' (fun c' r' => if r' =? r then content data c' else g c' r') /\
    num_cols m' = num_cols m /\ num_rows m' = num_rows m.
Proof.
  intros Hm Hr Gd Hd. unfold PopulateRow.
  destruct (recompute_rows_ok m g Hm) as (m1 & E1 & (Hs & Hrs & Hcs) & N1 & C1 & R1 & _).
  rewrite E1. cbn [bind].
  destruct (set_at_range (rows m1) r (CleanUp data)) as [rs Es]; [unfold num_rows in *; lia|].
  rewrite Es. cbn [bind].
  assert (Lr : length rs = length (rows m1)) by (eapply set_at_length; eauto).
  destruct (good_cleanup data Gd) as (G' & _ & C' & _ & V').
  eexists. split; [reflexivity|]. unfold num_cols, num_rows in *; cbn. rewrite Lr.
  split; [|auto].
  split; [|split]; unfold num_cols, num_rows, rows_need, cols_need; cbn; rewrite ?Lr.
  - intros c' r'. destruct (Z.eqb_spec r' r); subst; auto.
    intros H. apply Hd in H. lia.
  - intros _. apply (set_side (rows m1) r (CleanUp data) rs
      (fun r' c' => if r' =? r then content data c' else g c' r') Es).
    + intros r' v' Hne Hv'. destruct (Z.eqb_spec r' r); [congruence|]. apply (Hrs N1); auto.
    + rewrite Z.eqb_refl. auto.
  - discriminate.
Qed.

Lemma pop_col_ok m g c data : minv m g -> 0 <= c < num_cols m -> good data ->
  (forall r, content data r <> None -> 0 <= r < num_rows m) ->
  exists m', PopulateCol m c data = Ok m' /\
    minv m' (fun c' r' => if c' =? c then content data r' else g c' r') /\
    num_cols m' = num_cols m /\ num_rows m' = num_rows m.
Proof.
  intros Hm Hr Gd Hd. unfold PopulateCol.
  destruct (recompute_cols_ok m g Hm) as (m1 & E1 & (Hs & Hrs & Hcs) & N1 & C1 & R1 & _).
  rewrite E1. cbn [bind].
  destruct (set_at_range (cols m1) c (CleanUp data)) as [rs Es]; [unfold num_cols in *; lia|].
  rewrite Es. cbn [bind].
  assert (Lr : length rs = length (cols m1)) by (eapply set_at_length; eauto).
  destruct (good_cleanup data Gd) as (G' & _ & C' & _ & V').
  eexists. split; [reflexivity|]. unfold num_cols, num_rows in *; cbn. rewrite Lr.
  split; [|auto].
  split; [|split]; unfold num_cols, num_rows, rows_need, cols_need; cbn; rewrite ?Lr.
  - intros c' r'. destruct (Z.eqb_spec c' c); subst; auto.
    intros H. apply Hd in H. lia.
  - discriminate.
  - intros _. apply (set_side (cols m1) c (CleanUp data) rs
      (fun c' r' => if c' =? c then content data r' else g c' r') Es).
    + intros r' v' Hne Hv'. destruct (Z.eqb_spec r' c); [congruence|]. apply (Hcs N1); auto.
    + rewrite Z.eqb_refl. auto.
Qed.

(** ** Resize *)
Definition cut (g : Z -> Z -> option N) (nc nr : Z) : Z -> Z -> option N :=
  fun c r => if (c <? nc) && (r <? nr) then g c r else None.

Lemma resize_side l n (f : Z -> Z -> option N) :
  (forall r v, at_ l r = Ok v -> good v /\ forall c, content v c = f r c) ->
  (forall r c, f r c <> None -> r < Z.of_nat (length l)) ->
  forall r v, at_ (resize l n vempty) r = Ok v ->
    r < Z.of_nat n /\ good v /\ forall c, content v c = f r c.
Proof.
  intros H Hf r v Hv. rewrite at_resize in Hv.
  destruct (Z.leb_spec 0 r), (Z.ltb_spec r (Z.of_nat n)); cbn in Hv; try discriminate.
  split; auto.
  destruct (Z.ltb_spec r (Z.of_nat (length l))); auto.
  inversion Hv; subst. split; [apply good_empty|].
  intros c. change (content vempty c) with (@None N).
  destruct (f r c) eqn:E; auto. assert (r < Z.of_nat (length l)) by (apply (Hf r c); congruence). lia.
Qed.

Lemma minv_ext m g g' : (forall c r, g c r = g' c r) -> minv m g -> minv m g'.
Proof.
  intros E (H1 & H2 & H3). split; [|split].
  - intros c r. rewrite <- E. auto.
  - intros Nr r v Hv. destruct (H2 Nr r v Hv) as [G C]. split; auto. intros c. rewrite C; auto.
  - intros Nc c v Hv. destruct (H3 Nc c v Hv) as [G C]. split; auto. intros r. rewrite C; auto.
Qed.

Lemma minv_grow_rows m g nr : minv m g -> (length (rows m) <= nr)%nat ->
  minv (mkM (cols m) (resize (rows m) nr vempty) (SparseMatrix.cons m)) g.
Proof.
  intros (Hs & Hr & Hc) L. split; [|split]; unfold num_cols, num_rows, rows_need, cols_need in *; cbn.
  - intros c r Hg. rewrite resize_length. specialize (Hs c r Hg). lia.
  - intros Nr r v Hv.
    destruct (resize_side (rows m) nr (fun r c => g c r) (Hr Nr)
      (fun r c Hg => proj2 (proj2 (Hs c r Hg))) r v Hv) as (_ & A & B). auto.
  - exact Hc.
Qed.

Lemma minv_grow_cols m g nc : minv m g -> (length (cols m) <= nc)%nat ->
  minv (mkM (resize (cols m) nc vempty) (rows m) (SparseMatrix.cons m)) g.
Proof.
  intros (Hs & Hr & Hc) L. split; [|split]; unfold num_cols, num_rows, rows_need, cols_need in *; cbn.
  - intros c r Hg. rewrite resize_length. specialize (Hs c r Hg). lia.
  - exact Hr.
  - intros Nr r v Hv.
    destruct (resize_side (cols m) nc g (Hc Nr)
      (fun r c Hg => proj2 (proj1 (Hs r c Hg))) r v Hv) as (_ & A & B). auto.
Qed.

Lemma cut_some g nc nr c r : cut g nc nr c r <> None -> c < nc /\ r < nr /\ g c r <> None.
Proof.
  unfold cut. destruct (Z.ltb_spec c nc), (Z.ltb_spec r nr); cbn; intros; auto; congruence.
Qed.

(** Keep only the first [nr] rows; columns become stale. *)
Lemma minv_cut_rows m g nr : minv m g -> rows_need m = false -> (nr <= length (rows m))%nat ->
  minv (mkM (cols m) (resize (rows m) nr vempty) ColsNeed) (cut g (num_cols m) (Z.of_nat nr)).
Proof.
  intros (Hs & Hr & Hc) Nr L. split; [|split]; unfold num_cols, num_rows, rows_need, cols_need in *; cbn.
  - intros c r Hg. apply cut_some in Hg as (A & B & C). rewrite resize_length.
    specialize (Hs c r C). lia.
  - intros _ r v Hv.
    destruct (resize_side (rows m) nr (fun r c => g c r) (Hr Nr)
      (fun r c Hg => proj2 (proj2 (Hs c r Hg))) r v Hv) as (Lt & A & B). split; auto.
    intros c. rewrite B. unfold cut.
    destruct (g c r) eqn:E; [|destruct (_ && _); auto].
    assert (Hg : g c r <> None) by congruence. apply Hs in Hg.
    destruct (Z.ltb_spec c (Z.of_nat (length (cols m)))); [|lia].
    destruct (Z.ltb_spec r (Z.of_nat nr)); [auto|lia].
  - discriminate.
Qed.

Lemma minv_cut_cols m g nc : minv m g -> cols_need m = false -> (nc <= length (cols m))%nat ->
  minv (mkM (resize (cols m) nc vempty) (rows m) RowsNeed) (cut g (Z.of_nat nc) (num_rows m)).
Proof.
  intros (Hs & Hr & Hc) Nr L. split; [|split]; unfold num_cols, num_rows, rows_need, cols_need in *; cbn.
  - intros c r Hg. apply cut_some in Hg as (A & B & C). rewrite resize_length.
    specialize (Hs c r C). lia.
  - discriminate.
  - intros _ r v Hv.
    destruct (resize_side (cols m) nc g (Hc Nr)
      (fun r c Hg => proj2 (proj1 (Hs r c Hg))) r v Hv) as (Lt & A & B). split; auto.
    intros c. rewrite B. unfold cut.
    destruct (g r c) eqn:E; [|destruct (_ && _); auto].
    assert (Hg : g r c <> None) by congruence. apply Hs in Hg.
    destruct (Z.ltb_spec r (Z.of_nat nc)); [|lia].
    destruct (Z.ltb_spec c (Z.of_nat (length (rows m)))); [auto|lia].
Qed.

Lemma clear_side l : forall r v, at_ (map Clear l) r = Ok v ->
  good v /\ forall c, content v c = None.
Proof.
  intros r v Hv. rewrite at_map in Hv. destruct (at_ l r); try discriminate.
  inversion Hv; subst. split; [apply good_empty|auto].
Qed.

Lemma resize_ok m g nc nr : minv m g ->
  exists m', Resize m nc nr = Ok m' /\
    minv m' (cut g (Z.of_nat nc) (Z.of_nat nr)) /\
    num_cols m' = Z.of_nat nc /\ num_rows m' = Z.of_nat nr.
Proof.
  intros Hm. unfold Resize.
  assert (CN : forall x y c r, (x <= 0 \/ y <= 0) -> minv m g -> cut g x y c r = None).
  { intros x y c r Hxy (Hs & _). destruct (cut g x y c r) eqn:E; auto.
    assert (C : cut g x y c r <> None) by congruence. apply cut_some in C as (A & B & C).
    apply Hs in C. lia. }
  destruct (Nat.eqb_spec nc 0) as [->|Nc0]; destruct (Nat.eqb_spec nr 0) as [->|Nr0]; cbn [andb].
  - eexists. split; [reflexivity|]. split; [|auto].
    split; [|split]; cbn.
    + intros c r H. exfalso. apply H. apply CN; auto; lia.
    + intros _ r v Hv. unfold at_ in Hv. destruct (r <? 0); try discriminate. destruct (Z.to_nat r); discriminate.
    + intros _ r v Hv. unfold at_ in Hv. destruct (r <? 0); try discriminate. destruct (Z.to_nat r); discriminate.
  - eexists. split; [reflexivity|].
    unfold num_cols, num_rows; cbn. rewrite map_length, resize_length. split; [|auto].
    split; [|split]; cbn.
    + intros c r H. exfalso. apply H. apply CN; auto; lia.
    + intros _ r v Hv. apply clear_side in Hv as [G C]. split; auto. intros c. rewrite C.
      symmetry. apply CN; auto; lia.
    + intros _ r v Hv. unfold at_ in Hv. destruct (r <? 0); try discriminate. destruct (Z.to_nat r); discriminate.
  - eexists. split; [reflexivity|].
    unfold num_cols, num_rows; cbn. rewrite map_length, resize_length. split; [|auto].
    split; [|split]; cbn.
    + intros c r H. exfalso. apply H. apply CN; auto; lia.
    + intros _ r v Hv. unfold at_ in Hv. destruct (r <? 0); try discriminate. destruct (Z.to_nat r); discriminate.
    + intros _ r v Hv. apply clear_side in Hv as [G C]. split; auto. intros c. rewrite C.
      symmetry. apply CN; auto; lia.
  - set (m1 := if (length (rows m) <=? nr)%nat
              then mkM (cols m) (resize (rows m) nr vempty) (SparseMatrix.cons m) else m).
    assert (M1 : minv m1 g /\ (nr <= length (rows m1))%nat /\ length (cols m1) = length (cols m)
      /\ (length (rows m1) = nr \/ m1 = m)).
    { unfold m1. destruct (Nat.leb_spec (length (rows m)) nr); cbn.
      - rewrite resize_length. split; [apply minv_grow_rows; auto|]. auto.
      - split; auto. split; [lia|]. auto. }
    destruct M1 as (Hm1 & Lr1 & Lc1 & _).
    set (m2 := if (length (cols m1) <=? nc)%nat
              then mkM (resize (cols m1) nc vempty) (rows m1) (SparseMatrix.cons m1) else m1).
    assert (M2 : minv m2 g /\ (nc <= length (cols m2))%nat /\ (nr <= length (rows m2))%nat).
    { unfold m2. destruct (Nat.leb_spec (length (cols m1)) nc); cbn.
      - rewrite resize_length. split; [apply minv_grow_cols; auto|]. auto.
      - split; auto. split; auto. lia. }
    destruct M2 as (Hm2 & Lc2 & Lr2). clearbody m2. clear Hm1 Lr1 Lc1 m1 CN.
    assert (CE : forall x y, minv m2 g -> num_cols m2 <= x -> num_rows m2 <= y ->
       forall c r, g c r = cut g x y c r).
    { intros x y (Hs & _) Hx Hy c r. unfold cut.
      destruct (g c r) eqn:E; [|destruct (_ && _); auto].
      assert (Hg : g c r <> None) by congruence. apply Hs in Hg.
      destruct (Z.ltb_spec c x); [|lia]. destruct (Z.ltb_spec r y); [auto|lia]. }
    unfold num_cols, num_rows in *.
    destruct (Nat.eqb_spec nr (length (rows m2))) as [Er|Er];
    destruct (Nat.eqb_spec nc (length (cols m2))) as [Ec|Ec]; cbn [andb].
    + exists m2. split; auto. split; [|lia].
      eapply minv_ext; [|exact Hm2]. apply CE; auto; lia.
    + (* delete columns *)
      rewrite andb_false_r, andb_true_r.
      destruct (Nat.ltb_spec nc (length (cols m2))); [|lia].
      destruct (recompute_cols_ok m2 g Hm2) as (m3 & E3 & Hm3 & N3 & C3 & R3 & _).
      rewrite E3. cbn [bind]. eexists. split; [reflexivity|]. cbn. rewrite resize_length.
      unfold num_cols, num_rows in *. split; [|lia].
      replace (Z.of_nat nr) with (num_rows m3) by (unfold num_rows; lia).
      apply minv_cut_cols; auto. lia.
    + (* delete rows *)
      rewrite andb_true_r.
      destruct (Nat.ltb_spec nr (length (rows m2))); [|lia].
      destruct (recompute_rows_ok m2 g Hm2) as (m3 & E3 & Hm3 & N3 & C3 & R3 & _).
      rewrite E3. cbn [bind]. eexists. split; [reflexivity|]. cbn. rewrite resize_length.
      unfold num_cols, num_rows in *. split; [|lia].
      replace (Z.of_nat nc) with (num_cols m3) by (unfold num_cols; lia).
      apply minv_cut_rows; auto. lia.
    + (* both *)
      rewrite !andb_false_r. cbn [andb].
      assert (CC : forall x y x' y' c r,
         cut (cut g x y) x' y' c r = cut g (Z.min x x') (Z.min y y') c r).
      { intros x y x' y' c r. unfold cut.
        destruct (Z.ltb_spec c x), (Z.ltb_spec r y), (Z.ltb_spec c x'), (Z.ltb_spec r y'),
          (Z.ltb_spec c (Z.min x x')), (Z.ltb_spec r (Z.min y y')); cbn; auto; lia. }
      destruct (cols_need m2) eqn:Nc; cbn [negb].
      * assert (Nr : rows_need m2 = false) by (destruct (need_cases m2); congruence).
        destruct (recompute_cols_ok _ _ (minv_cut_rows m2 g nr Hm2 Nr Lr2))
          as (m3 & E3 & Hm3 & N3 & C3 & R3 & _).
        rewrite E3. cbn [bind]. eexists. split; [reflexivity|]. cbn.
        unfold num_cols, num_rows in *. cbn in C3, R3. rewrite resize_length in *.
        split; [|lia].
        eapply minv_ext; [|apply (minv_cut_cols m3 _ nc Hm3 N3); lia].
        intros c r. rewrite CC. unfold num_cols, num_rows. rewrite R3. f_equal; lia.
      * destruct (recompute_rows_ok _ _ (minv_cut_cols m2 g nc Hm2 Nc Lc2))
          as (m3 & E3 & Hm3 & N3 & C3 & R3 & _).
        rewrite E3. cbn [bind]. eexists. split; [reflexivity|]. cbn.
        unfold num_cols, num_rows in *. cbn in C3, R3. rewrite resize_length in *.
        split; [|lia].
        eapply minv_ext; [|apply (minv_cut_rows m3 _ nr Hm3 N3); lia].
        intros c r. rewrite CC. unfold num_cols, num_rows. rewrite C3. f_equal; lia.
Qed.

(** ** Refinement *)
Definition mrel m (a : amat N) : Prop :=
  num_cols m = a_nc a /\ num_rows m = a_nr a /\
  exists g, minv m g /\ forall c r, in_cols a c -> in_rows a r -> or0 (g c r) = a_val a c r.

Lemma wf_good v : wf_vector v -> good v.
Proof. intros H. split; intros D; apply (H D). Qed.

Lemma or0_nz (x : N) : or0 (nz (Some x)) = drop0 x.
Proof. unfold or0, nz, drop0. destruct (is0 x); auto. Qed.

Lemma content_in_range v (P : Z -> Prop) : good v ->
  Forall (fun e => P (idx e)) (ents (CleanUp v)) -> forall i, content v i <> None -> P i.
Proof.
  intros G H i Hi. destruct (good_cleanup v G) as (G' & D & C & _).
  rewrite <- C in Hi. unfold content in Hi. rewrite D in Hi.
  destruct (find_first (ents (CleanUp v)) i) eqn:E; [|tauto].
  apply find_first_some in E as (e & He & <- & _). rewrite Forall_forall in H. auto.
Qed.

Lemma mrel_step m a o : mrel m a -> call_ok a o ->
  exists m', mstep m o = Ok m' /\ mrel m' (astep a o).
Proof.
  intros (Ec & Er & g & Hg & Hv) Hc.
  destruct o as [c r x|r data|c data|nc nr| |r|c|c r]; cbn [mstep call_ok] in *.
  - destruct Hc as [H1 H2]. unfold in_cols, in_rows in *.
    destruct (set_ok m g c r x Hg) as (m' & E & Hm' & C & R); try lia.
    exists m'. split; auto. split; [cbn; lia|]. split; [cbn; lia|].
    eexists. split; [exact Hm'|]. cbn. intros c' r' H3 H4.
    destruct ((c' =? c) && (r' =? r)); auto. apply or0_nz.
  - destruct Hc as (H1 & H2 & H3). apply wf_good in H2.
    pose proof (content_in_range data _ H2 H3) as H4. unfold in_cols, in_rows in *.
    destruct (pop_row_ok m g r data Hg) as (m' & E & Hm' & C & R); try lia; auto.
    { intros c Hc. apply H4 in Hc. lia. }
    exists m'. split; auto. split; [cbn; lia|]. split; [cbn; lia|].
    eexists. split; [exact Hm'|]. cbn. intros c' r' H5 H6.
    destruct (r' =? r); auto. rewrite (proj2 (proj2 (proj2 (proj2 (good_cleanup data H2))))). auto.
  - destruct Hc as (H1 & H2 & H3). apply wf_good in H2.
    pose proof (content_in_range data _ H2 H3) as H4. unfold in_cols, in_rows in *.
    destruct (pop_col_ok m g c data Hg) as (m' & E & Hm' & C & R); try lia; auto.
    { intros r Hr. apply H4 in Hr. lia. }
    exists m'. split; auto. split; [cbn; lia|]. split; [cbn; lia|].
    eexists. split; [exact Hm'|]. cbn. intros c' r' H5 H6.
    destruct (c' =? c); auto. rewrite (proj2 (proj2 (proj2 (proj2 (good_cleanup data H2))))). auto.
  - destruct (resize_ok m g nc nr Hg) as (m' & E & Hm' & C & R).
    exists m'. split; auto. split; [cbn; lia|]. split; [cbn; lia|].
    eexists. split; [exact Hm'|]. cbn. unfold cut, in_cols, in_rows in *; cbn.
    intros c' r' H5 H6.
    destruct (Z.ltb_spec c' (Z.of_nat nc)), (Z.ltb_spec r' (Z.of_nat nr)); try lia; cbn.
    destruct (Z.ltb_spec c' (a_nc a)), (Z.ltb_spec r' (a_nr a)); cbn.
    + apply Hv; lia.
    + destruct (g c' r') eqn:Eg; auto. exfalso. destruct Hg as (Hs & _).
      specialize (Hs c' r'). rewrite Eg in Hs. assert (Some n <> None) by discriminate.
      apply Hs in H3. lia.
    + destruct (g c' r') eqn:Eg; auto. exfalso. destruct Hg as (Hs & _).
      specialize (Hs c' r'). rewrite Eg in Hs. assert (Some n <> None) by discriminate.
      apply Hs in H3. lia.
    + destruct (g c' r') eqn:Eg; auto. exfalso. destruct Hg as (Hs & _).
      specialize (Hs c' r'). rewrite Eg in Hs. assert (Some n <> None) by discriminate.
      apply Hs in H3. lia.
  - eexists. split; [reflexivity|]. split; [reflexivity|]. split; [reflexivity|].
    exists (fun _ _ => None). split.
    + split; [|split]; cbn.
      * intros; congruence.
      * intros _ r v Hr. unfold at_ in Hr. destruct (r <? 0); try discriminate. destruct (Z.to_nat r); discriminate.
      * intros _ r v Hr. unfold at_ in Hr. destruct (r <? 0); try discriminate. destruct (Z.to_nat r); discriminate.
    + auto.
  - unfold in_rows in Hc. destruct (row_ok m g r Hg) as (v & m' & E & Hm' & C & R & _); [lia|].
    rewrite E. cbn. exists m'. split; auto. split; [lia|]. split; [lia|]. exists g; auto.
  - unfold in_cols in Hc. destruct (col_ok m g c Hg) as (v & m' & E & Hm' & C & R & _); [lia|].
    rewrite E. cbn. exists m'. split; auto. split; [lia|]. split; [lia|]. exists g; auto.
  - unfold in_rows, in_cols in Hc. destruct (get_ok m g c r Hg) as (m' & E & Hm' & C & R); try lia.
    rewrite E. cbn. exists m'. split; auto. split; [lia|]. split; [lia|]. exists g; auto.
Qed.

Lemma mrel_run ops : forall m a, mrel m a -> calls_ok a ops ->
  exists m', mrun m ops = Ok m' /\ mrel m' (areplay a ops).
Proof.
  induction ops as [|o r IH]; intros m a Hr Hc.
  - exists m. auto.
  - destruct Hc as [H1 H2]. destruct (mrel_step m a o Hr H1) as (m1 & E1 & R1).
    destruct (IH m1 _ R1 H2) as (m2 & E2 & R2). exists m2. split; auto.
    unfold mrun. cbn. rewrite E1. exact E2.
Qed.

Lemma mrel_new nc nr : mrel (mat_new nc nr) (a_new nc nr).
Proof.
  split; [|split]; try (unfold num_cols, num_rows; cbn; rewrite repeat_length; auto; fail).
  exists (fun _ _ => None). split; [|auto].
  split; [|split]; cbn.
  - intros; congruence.
  - intros _ r v Hv. rewrite at_repeat in Hv. destruct (_ && _); try discriminate.
    inversion Hv; subst. split; [apply good_empty|auto].
  - intros _ r v Hv. rewrite at_repeat in Hv. destruct (_ && _); try discriminate.
    inversion Hv; subst. split; [apply good_empty|auto].
Qed.

Lemma mrel_reads m a : mrel m a -> reads_as m (a_nc a) (a_nr a) (a_val a).
Proof.
  intros (Ec & Er & g & Hg & Hv). split; auto. split; auto.
  intros c r Hc Hr. rewrite <- Ec in Hc. rewrite <- Er in Hr.
  assert (V : or0 (g c r) = a_val a c r) by (apply Hv; unfold in_cols, in_rows; lia).
  split; [|split].
  - destruct (get_ok m g c r Hg Hc Hr) as (m' & E & _). exists m'. rewrite E, V. auto.
  - destruct (row_ok m g r Hg Hr) as (v & m' & E & _ & _ & _ & Hval). exists v, m'.
    rewrite Hval, V. auto.
  - destruct (col_ok m g c Hg Hc) as (v & m' & E & _ & _ & _ & Hval). exists v, m'.
    rewrite Hval, V. auto.
Qed.

(** ** Statements behind C07-C09 *)
Lemma matrix_history nc nr ops : calls_ok (a_new nc nr) ops ->
  exists m, mrun (mat_new nc nr) ops = Ok m /\
    let a := areplay (a_new nc nr) ops in reads_as m (a_nc a) (a_nr a) (a_val a).
Proof.
  intros H. destruct (mrel_run ops _ _ (mrel_new nc nr) H) as (m & E & R).
  exists m. split; auto. apply mrel_reads; auto.
Qed.

Lemma areplay_reads rs : Forall read_call rs -> forall a : amat N, areplay a rs = a.
Proof.
  induction 1 as [|o r Ho Hr IH]; intros a; cbn; auto.
  destruct o; cbn in Ho; try tauto; apply IH.
Qed.

Lemma calls_ok_app ops1 ops2 : forall a : amat N,
  calls_ok a (ops1 ++ ops2) <-> calls_ok a ops1 /\ calls_ok (areplay a ops1) ops2.
Proof.
  induction ops1 as [|o r IH]; intros a; cbn; [tauto|]. rewrite IH. cbn. tauto.
Qed.

Lemma areplay_app ops1 ops2 (a : amat N) : areplay a (ops1 ++ ops2) = areplay (areplay a ops1) ops2.
Proof. unfold areplay. apply fold_left_app. Qed.

Lemma matrix_reads_pure nc nr hist reads later :
  calls_ok (a_new nc nr) (hist ++ reads) -> Forall read_call reads ->
  calls_ok (a_new nc nr) (hist ++ later) ->
  exists m1 m2 nc' nr' x,
    mrun (mat_new nc nr) (hist ++ later) = Ok m1 /\
    mrun (mat_new nc nr) (hist ++ reads ++ later) = Ok m2 /\
    reads_as m1 nc' nr' x /\ reads_as m2 nc' nr' x.
Proof.
  intros H1 H2 H3.
  destruct (matrix_history nc nr (hist ++ later) H3) as (m1 & E1 & R1).
  assert (H4 : calls_ok (a_new nc nr) (hist ++ reads ++ later)).
  { apply calls_ok_app in H1 as [A B]. apply calls_ok_app in H3 as [_ C].
    apply calls_ok_app. split; auto. apply calls_ok_app. split; auto.
    rewrite (areplay_reads reads H2). auto. }
  destruct (matrix_history nc nr _ H4) as (m2 & E2 & R2).
  assert (EQ : areplay (a_new nc nr) (hist ++ reads ++ later) = areplay (a_new nc nr) (hist ++ later)).
  { rewrite !areplay_app. rewrite (areplay_reads reads H2). auto. }
  rewrite EQ in R2.
  do 5 eexists. split; [exact E1|]. split; [exact E2|]. split; [exact R1|exact R2].
Qed.

Lemma matrix_resize nc nr hist nc' nr' :
  calls_ok (a_new nc nr) hist ->
  exists m m' x,
    mrun (mat_new nc nr) hist = Ok m /\ Resize m nc' nr' = Ok m' /\
    reads_as m (num_cols m) (num_rows m) x /\
    reads_as m' (Z.of_nat nc') (Z.of_nat nr')
      (fun c r => if (c <? num_cols m) && (r <? num_rows m) then x c r else n0).
Proof.
  intros H. destruct (mrel_run hist _ _ (mrel_new nc nr) H) as (m & E & R).
  set (a := areplay (a_new nc nr) hist) in *.
  destruct (mrel_step m a (MResize nc' nr') R I) as (m' & E' & R').
  exists m, m', (a_val a). split; auto. split; auto.
  pose proof (mrel_reads _ _ R) as Q. pose proof (mrel_reads _ _ R') as Q'.
  destruct R as (Ec & Er & _). rewrite Ec, Er. split; auto.
  destruct Q' as (A & B & C). cbn in A, B, C. split; auto. split; auto.
  intros c r Hc Hr. specialize (C c r Hc Hr).
  destruct (Z.ltb_spec c (Z.of_nat nc')), (Z.ltb_spec r (Z.of_nat nr')); try lia.
  cbn [andb] in C. exact C.
Qed.

End Facts.
