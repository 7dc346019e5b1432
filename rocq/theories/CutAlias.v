(** Removing a cut by a reference into the list of active cuts. *)
From Coq Require Import String List ZArith Bool Lia ZifyBool.
From Verif Require Import Outcome OutcomeFacts Num Double SparseVector CutsData CutSpec CutProofs.
Import ListNotations.
Open Scope Z_scope.

Lemma decrement_nth l : forall k, (forall c, In c l -> exists i, cut_index c = Some i) ->
  exists l', decrement_from k l = Ok l' /\ forall p c i, nth_error l p = Some c -> cut_index c = Some i ->
    nth_error l' p = Some (if Nat.ltb p k then c else SetIndex c (i - 1)).
Proof.
  induction l as [|c l IH]; intros k H; cbn [decrement_from].
  - exists []. split; auto. intros [|p]; discriminate.
  - assert (H' : forall c, In c l -> exists i, cut_index c = Some i) by (intros d Hd; apply H; right; exact Hd).
    destruct k as [|k].
    + destruct (H c (or_introl eq_refl)) as (i0 & E0). destruct (IH 0%nat H') as (l' & E & P).
      unfold index. rewrite E0. cbn [bind]. rewrite E. cbn [bind]. eexists. split; [reflexivity|].
      intros [|p] d i Hp Hi; cbn [nth_error] in *; [injection Hp as <-; rewrite E0 in Hi; injection Hi as <-; reflexivity|].
      apply (P p d i Hp Hi).
    + destruct (IH k H') as (l' & E & P). rewrite E. cbn [bind]. eexists. split; [reflexivity|].
      intros [|p] d i Hp Hi; cbn [nth_error] in *; [exact Hp|].
      rewrite (P p d i Hp Hi). reflexivity.
Qed.

Lemma update_nth (l : list Z) : forall p a q, nth_error (update l p a) q =
  if Nat.eqb q p then match nth_error l q with Some _ => Some a | None => None end else nth_error l q.
Proof.
  induction l as [|x l IH]; intros [|p] a [|q]; cbn [update nth_error Nat.eqb]; auto.
  destruct (Nat.eqb q p); auto.
Qed.

Lemma decrement_alias_ok i' k : forall n pos l, (pos + n = length l)%nat -> nth_error l k = Some i' ->
  exists l', decrement_alias n pos k l = Ok l' /\ length l' = length l /\
    forall q j, nth_error l q = Some j -> nth_error l' q = Some (if Nat.ltb q pos then j else if i' <? j then j - 1 else j).
Proof.
  induction n as [|n IH]; intros pos l HL Hk; cbn [decrement_alias].
  - exists l. split; [reflexivity|]. split; [reflexivity|]. intros q j Hq.
    assert (q < length l)%nat by (apply nth_error_Some; congruence). destruct (Nat.ltb_spec q pos); [auto|lia].
  - rewrite (proj2 (at_ok l (Z.of_nat k) i')) by (rewrite Nat2Z.id; split; [lia|exact Hk]). cbn [bind].
    destruct (nth_error l pos) as [j0|] eqn:N; [|apply nth_error_None in N; lia].
    rewrite (proj2 (at_ok l (Z.of_nat pos) j0)) by (rewrite Nat2Z.id; split; [lia|exact N]). cbn [bind].
    set (l1 := if i' <? j0 then update l pos (j0 - 1) else l).
    assert (L1 : length l1 = length l) by (unfold l1; destruct (i' <? j0); [apply update_length|reflexivity]).
    assert (K1 : nth_error l1 k = Some i').
    { unfold l1. destruct (Z.ltb_spec i' j0); [|exact Hk]. rewrite update_nth. destruct (Nat.eqb_spec k pos) as [->|]; [|exact Hk].
      rewrite N in Hk. injection Hk as ->. lia. }
    destruct (IH (S pos) l1 ltac:(lia) K1) as (l' & E & L' & P). exists l'. split; [exact E|]. split; [lia|].
    intros q j Hq. destruct (Nat.eqb_spec q pos) as [->|NE].
    + rewrite N in Hq. injection Hq as ->.
      assert (Hq1 : nth_error l1 pos = Some (if i' <? j then j - 1 else j)).
      { unfold l1. destruct (i' <? j); [rewrite update_nth, Nat.eqb_refl, N; reflexivity|exact N]. }
      rewrite (P pos _ Hq1). rewrite (proj2 (Nat.ltb_lt pos (S pos))) by lia.
      rewrite (proj2 (Nat.ltb_ge pos pos)) by lia. reflexivity.
    + assert (Hq1 : nth_error l1 q = Some j).
      { unfold l1. destruct (i' <? j0); [rewrite update_nth; destruct (Nat.eqb_spec q pos); [contradiction|exact Hq]|exact Hq]. }
      rewrite (P q j Hq1). destruct (Nat.ltb_spec q (S pos)), (Nat.ltb_spec q pos); auto; lia.
Qed.

Lemma erase_first_nodup l : forall k i, NoDup l -> nth_error l k = Some i -> erase_first l i = firstn k l ++ skipn (S k) l.
Proof.
  induction l as [|a r IH]; intros [|k] i ND H; try discriminate; cbn [erase_first].
  - injection H as ->. rewrite Z.eqb_refl. reflexivity.
  - inversion ND as [|x y N1 N2]; subst. cbn [nth_error] in H.
    destruct (Z.eqb_spec a i) as [->|]; [apply nth_error_In in H; contradiction|].
    change (skipn (S (S k)) (a :: r)) with (skipn (S k) r). cbn [firstn app]. f_equal. apply IH; auto.
Qed.

Lemma alias_wrong g k i i' : reg_reachable g -> NoDup (active_cuts g) ->
  nth_error (active_cuts g) k = Some i -> nth_error (active_cuts g) (S k) = Some i' ->
  0 <= i < num_cuts g -> 0 <= i' < num_cuts g ->
  exists g', RemoveCutAlias g k = Ok g' /\
  active_cuts g' = map (fun j => if i' <? j then j - 1 else j) (firstn k (active_cuts g) ++ skipn (S k) (active_cuts g)) /\
  num_cuts g' = num_cuts g - 1 /\
  exists c, GetCut g' (Z.min i i') = Ok c /\ index c = Ok (if i <? i' then i + 1 else i' - 1).
Proof.
  intros R ND Hi Hi' B B'. pose proof (reachable_in_step g R) as IS.
  assert (NE : i <> i').
  { intros ->. assert (X : k = S k); [|lia]. eapply (proj1 (NoDup_nth_error (active_cuts g)) ND); [apply nth_error_Some; congruence|congruence]. }
  unfold RemoveCutAlias. rewrite (proj2 (at_ok _ (Z.of_nat k) i)) by (rewrite Nat2Z.id; split; [lia|exact Hi]). cbn [bind].
  destruct (Z.ltb_spec i 0); [lia|]. destruct (Z.leb_spec (num_cuts g) i); [lia|]. cbn [orb]. cbv zeta.
  rewrite (erase_first_nodup _ k i ND Hi).
  change (firstn k (active_cuts g) ++ skipn (S k) (active_cuts g)) with (erase_at (active_cuts g) k).
  assert (EK : nth_error (erase_at (active_cuts g) k) k = Some i').
  { rewrite erase_at_nth. rewrite (proj2 (Nat.ltb_ge k k)) by lia. exact Hi'. }
  rewrite (proj2 (at_ok _ (Z.of_nat k) i')) by (rewrite Nat2Z.id; split; [lia|exact EK]). cbn [bind].
  destruct (Z.ltb_spec i' 0); [lia|].
  destruct (decrement_nth (erase_at (cuts g) (Z.to_nat i)) (Z.to_nat i')) as (cs & EC & P).
  { intros c Hc. apply In_nth_error in Hc as (p & Hp). rewrite erase_at_nth in Hp. rewrite (IS _ _ Hp). eauto. }
  rewrite EC. cbn [bind].
  destruct (decrement_alias_ok i' k (length (erase_at (active_cuts g) k)) 0 (erase_at (active_cuts g) k) eq_refl EK) as (act & EA & LA & PA).
  rewrite EA. cbn [bind]. eexists. split; [reflexivity|]. cbn [active_cuts cuts]. split; [|split].
  - apply nth_ext with (d := 0) (d' := 0); [rewrite map_length; exact LA|]. intros q Hq.
    destruct (nth_error (erase_at (active_cuts g) k) q) as [j|] eqn:N; [|apply nth_error_None in N; lia].
    rewrite (nth_error_nth act q 0 (PA q j N)). cbn [Nat.ltb Nat.leb].
    erewrite (nth_error_nth (map _ _) q 0); [|rewrite nth_error_map, N; reflexivity]. reflexivity.
  - unfold num_cuts in *. cbn [cuts].
    assert (LL : forall k l l', decrement_from k l = Ok l' -> length l' = length l).
    { clear. intros k l. revert k. induction l as [|c l IH]; intros k l' H; cbn [decrement_from] in H; [injection H as <-; reflexivity|].
      destruct k as [|k].
      - apply bind_ok in H as (i & _ & H). apply bind_ok in H as (r & E & H). injection H as <-. cbn. f_equal. eauto.
      - apply bind_ok in H as (r & E & H). injection H as <-. cbn. f_equal. eauto. }
    rewrite (LL _ _ _ EC). unfold erase_at. rewrite app_length, firstn_length, skipn_length. lia.
  - assert (LN : forall p, (p < length (cuts g))%nat -> exists c, nth_error (cuts g) p = Some c).
    { intros p Hp. destruct (nth_error (cuts g) p) eqn:N; [eauto|apply nth_error_None in N; lia]. }
    unfold num_cuts in *. destruct (Z.ltb_spec i i').
    + rewrite Z.min_l by lia. destruct (LN (S (Z.to_nat i))) as (c & Nc); [lia|].
      exists c. split.
      * unfold GetCut. apply at_ok. split; [lia|]. cbn [cuts].
        rewrite (P (Z.to_nat i) c (Z.of_nat (S (Z.to_nat i)))); [|rewrite erase_at_nth, (proj2 (Nat.ltb_ge _ _)) by lia; exact Nc|apply IS; exact Nc].
        rewrite (proj2 (Nat.ltb_lt _ _)) by lia. reflexivity.
      * unfold index. rewrite (IS _ _ Nc). f_equal. lia.
    + rewrite Z.min_r by lia. destruct (LN (Z.to_nat i')) as (c & Nc); [lia|].
      exists (SetIndex c (Z.of_nat (Z.to_nat i') - 1)). split.
      * unfold GetCut. apply at_ok. split; [lia|]. cbn [cuts].
        rewrite (P (Z.to_nat i') c (Z.of_nat (Z.to_nat i'))); [|rewrite erase_at_nth, (proj2 (Nat.ltb_lt _ _)) by lia; exact Nc|apply IS; exact Nc].
        rewrite (proj2 (Nat.ltb_ge _ _)) by lia. reflexivity.
      * cbn. f_equal. lia.
Qed.

Lemma unset_spec ints obj x r rhs nm f g :
  let c := CreateCut ints obj x r rhs nm f in
  index c = Abort /\ score c = Abort /\
  forall c0 g' i, AddCut g c0 = (g', i) -> exists c1, GetCut g' i = Ok c1 /\ index c1 = Ok i /\ score c1 = score c0.
Proof.
  split; [reflexivity|]. split; [reflexivity|]. intros c0 g' i H.
  apply add_cut_spec in H as (_ & _ & _ & H & _). exists (SetIndex c0 i). split; [exact H|]. split; reflexivity.
Qed.
