(** Proofs about the cut registry, selector and runner. *)
From Coq Require Import String List ZArith Bool Lia Permutation Sorted ZifyBool.
From Verif Require Import Outcome OutcomeFacts Num Double DoubleFacts SparseVector SparseVectorFacts
  VectorSpec VectorProofs MipData CutsData Selector Runner CutSpec.
Import ListNotations.
Open Scope Z_scope.

(** ** Registry *)
Lemma erase_at_nth {A} (l : list A) n : forall i,
  nth_error (erase_at l n) i = nth_error l (if Nat.ltb i n then i else S i).
Proof.
  assert (NN : forall k, nth_error (@nil A) k = None) by (intros [|k]; auto).
  unfold erase_at. revert n. induction l as [|a l IH]; intros [|n] i.
  - cbn [firstn skipn app]. rewrite !NN. auto.
  - cbn [firstn skipn app]. rewrite !NN. auto.
  - cbn [firstn skipn app]. destruct i; auto.
  - change (skipn (S (S n)) (a :: l)) with (skipn (S n) l). cbn [firstn app]. destruct i; auto.
    change (Nat.ltb (S i) (S n)) with (Nat.ltb i n). cbn [nth_error]. rewrite IH.
    destruct (Nat.ltb i n); auto.
Qed.
Lemma erase_at_map {A B} (f : A -> B) l n : erase_at (map f l) n = map f (erase_at l n).
Proof. unfold erase_at. rewrite map_app, firstn_map, skipn_map. auto. Qed.

Lemma decrement_ok l : forall k p, (forall i c, nth_error l i = Some c ->
    cut_index c = Some (Z.of_nat (p + (if Nat.ltb i k then i else S i)))) ->
  exists l', decrement_from k l = Ok l' /\ map body l' = map body l /\
    (forall i c, nth_error l' i = Some c -> cut_index c = Some (Z.of_nat (p + i))).
Proof.
  induction l as [|c l IH]; intros k p H; cbn [decrement_from].
  - exists []. split; auto. split; auto. intros [|]; discriminate.
  - destruct k as [|k].
    + pose proof (H 0%nat c eq_refl) as H0. cbn in H0. unfold index. rewrite H0. cbn [bind].
      destruct (IH 0%nat (S p)) as (l' & E & B & I).
      { intros i c' Hi. specialize (H (S i) c' Hi). cbn in *. rewrite H. do 2 f_equal. lia. }
      rewrite E. cbn [bind]. eexists. split; [reflexivity|]. split; [cbn; rewrite B; auto|].
      intros [|i] c' Hi; cbn in Hi.
      * injection Hi as <-. cbn. f_equal. lia.
      * rewrite (I i c' Hi). do 2 f_equal. lia.
    + destruct (IH k (S p)) as (l' & E & B & I).
      { intros i c' Hi. specialize (H (S i) c' Hi). change (Nat.ltb (S i) (S k)) with (Nat.ltb i k) in H.
        rewrite H. do 2 f_equal. destruct (Nat.ltb i k); lia. }
      rewrite E. cbn [bind]. eexists. split; [reflexivity|]. split; [cbn; rewrite B; auto|].
      intros [|i] c' Hi; cbn in Hi.
      * injection Hi as <-. rewrite (H 0%nat c eq_refl). do 2 f_equal.
      * rewrite (I i c' Hi). do 2 f_equal. lia.
Qed.

Lemma nth_snoc {A} (l : list A) a i x : nth_error (l ++ [a]) i = Some x ->
  nth_error l i = Some x \/ (i = length l /\ x = a).
Proof.
  intros H. destruct (Nat.lt_ge_cases i (length l)).
  - rewrite nth_error_app1 in H; auto.
  - rewrite nth_error_app2 in H; auto. right. destruct (i - length l)%nat as [|n] eqn:E.
    + cbn in H. injection H as <-. split; auto. lia.
    + cbn in H. destruct n; discriminate.
Qed.

Lemma rstep_in_step g o : in_step (cuts g) -> rcall_ok g o ->
  exists g', rstep g o = Ok g' /\ in_step (cuts g').
Proof.
  intros H C. destruct o as [c|i|i|x]; cbn [rstep].
  - eexists. split; [reflexivity|]. intros i c' Hi. cbn in Hi. apply nth_snoc in Hi as [Hi|[-> ->]]; auto.
  - eexists. split; [reflexivity|]. exact H.
  - cbn in C. unfold RemoveCut. destruct (Z.ltb_spec i 0); [lia|]. destruct (Z.leb_spec (num_cuts g) i); [lia|].
    cbn [orb].
    destruct (decrement_ok (erase_at (cuts g) (Z.to_nat i)) (Z.to_nat i) 0) as (l & E & B & I).
    { intros j c Hj. rewrite erase_at_nth in Hj. rewrite (H _ _ Hj). auto. }
    rewrite E. cbn [bind]. eexists. split; [reflexivity|]. exact I.
  - eexists. split; [reflexivity|]. intros i c Hi. cbn in Hi. rewrite nth_error_map in Hi.
    destruct (nth_error (cuts g) i) as [c0|] eqn:E; [|discriminate]. injection Hi as <-. apply (H i c0 E).
Qed.

Lemma rrun_in_step ops : forall g, in_step (cuts g) -> rcalls_ok g ops ->
  exists g', rrun g ops = Ok g' /\ in_step (cuts g').
Proof.
  induction ops as [|o r IH]; intros g H C; cbn.
  - eauto.
  - destruct C as [C1 C2]. destruct (rstep_in_step g o H C1) as (g1 & E & H1). rewrite E. cbn [bind].
    apply IH; auto.
Qed.

Lemma new_in_step : in_step (cuts reg_new).
Proof. intros [|i] c H; discriminate. Qed.

Lemma reachable_in_step g : reg_reachable g -> in_step (cuts g).
Proof.
  intros (ops & C & E). destruct (rrun_in_step ops _ new_in_step C) as (g' & E' & H). rewrite E in E'; injection E' as <-; auto.
Qed.

Lemma registry_defined ops : rcalls_ok reg_new ops -> exists g, rrun reg_new ops = Ok g.
Proof. intros C. destruct (rrun_in_step ops _ new_in_step C) as (g' & E' & H). eauto. Qed.

Lemma registry_index g i c : reg_reachable g -> GetCut g i = Ok c -> index c = Ok i.
Proof.
  intros R H. apply reachable_in_step in R. unfold GetCut in H. apply at_ok in H as [H0 H].
  unfold index. rewrite (R _ _ H). f_equal. lia.
Qed.

Lemma add_cut_spec g c g' i : AddCut g c = (g', i) ->
  i = num_cuts g /\ num_cuts g' = num_cuts g + 1 /\ bodies g' = bodies g ++ [body c] /\
  GetCut g' i = Ok (SetIndex c i) /\ (forall j, j <> i -> GetCut g' j = GetCut g j) /\
  active_cuts g' = active_cuts g.
Proof.
  unfold AddCut. intros H. injection H as <- <-. unfold num_cuts, GetCut, bodies. cbn [cuts active_cuts].
  split; auto. split; [rewrite app_length; cbn; lia|]. split; [rewrite map_app; auto|].
  split; [|split; auto].
  - unfold at_. destruct (Z.ltb_spec (Z.of_nat (length (cuts g))) 0); [lia|].
    rewrite Nat2Z.id, nth_error_app2, Nat.sub_diag by lia. auto.
  - intros j Hj. unfold at_. destruct (Z.ltb_spec j 0); auto.
    destruct (Nat.lt_ge_cases (Z.to_nat j) (length (cuts g))).
    + rewrite nth_error_app1; auto.
    + rewrite nth_error_app2 by auto. destruct (Z.to_nat j - length (cuts g))%nat eqn:E; [lia|].
      cbn. rewrite (proj2 (nth_error_None (cuts g) (Z.to_nat j))) by auto. destruct n; auto.
Qed.

Lemma remove_cut_spec g i : reg_reachable g -> 0 <= i < num_cuts g ->
  exists g', RemoveCut g i = Ok g' /\ bodies g' = erase_at (bodies g) (Z.to_nat i) /\
    num_cuts g' = num_cuts g - 1.
Proof.
  intros R C. apply reachable_in_step in R. unfold RemoveCut.
  destruct (Z.ltb_spec i 0); [lia|]. destruct (Z.leb_spec (num_cuts g) i); [lia|]. cbn [orb].
  destruct (decrement_ok (erase_at (cuts g) (Z.to_nat i)) (Z.to_nat i) 0) as (l & E & B & I).
  { intros j c Hj. rewrite erase_at_nth in Hj. rewrite (R _ _ Hj). auto. }
  rewrite E. cbn [bind]. eexists. split; [reflexivity|]. unfold bodies. cbn [cuts].
  split; [rewrite B, erase_at_map; auto|]. unfold num_cuts in *. cbn [cuts].
  rewrite <- (map_length body l), B, map_length. unfold erase_at.
  rewrite app_length, firstn_length, skipn_length. lia.
Qed.

Lemma update_efficacy_spec g x :
  let g' := UpdateCutEfficacy g x in
  active_cuts g' = active_cuts g /\ num_cuts g' = num_cuts g /\
  forall i c, GetCut g i = Ok c ->
    GetCut g' i = Ok (SetEfficacy c (ComputeEfficacy (row c) (right_hand_side c) x)).
Proof.
  cbn. split; auto. split; [unfold num_cuts; cbn; rewrite map_length; auto|].
  intros i c H. unfold GetCut in *. unfold UpdateCutEfficacy. cbn [cuts]. rewrite at_map, H. auto.
Qed.

(** ** Active list *)
Definition pos_rel (g : registry) (s : areg) : Prop :=
  length (cuts g) = length (ids s) /\ NoDup (ids s) /\ (forall k, In k (ids s) -> (k < born s)%nat) /\
  NoDup (acts s) /\ (forall k, In k (acts s) -> In k (ids s)) /\
  Forall (fun j => 0 <= j) (active_cuts g) /\
  map (fun j => nth_error (ids s) (Z.to_nat j)) (active_cuts g) = map Some (acts s).

Lemma nodup_nth_inj {A} (l : list A) i j x : NoDup l -> nth_error l i = Some x -> nth_error l j = Some x -> i = j.
Proof.
  intros H Hi Hj. eapply (proj1 (NoDup_nth_error l)); eauto.
  - apply nth_error_Some. congruence.
  - congruence.
Qed.

Lemma filter_id_erase (l : list nat) n k : NoDup l -> nth_error l n = Some k ->
  filter (fun m => negb (Nat.eqb m k)) l = erase_at l n.
Proof.
  unfold erase_at. revert n. induction l as [|a l IH]; intros [|n] ND H; try discriminate.
  - cbn in H. injection H as ->. cbn. rewrite Nat.eqb_refl. cbn.
    inversion ND as [|? ? N1 N2]; subst. clear - N1. induction l as [|b l IH]; auto. cbn.
    destruct (Nat.eqb_spec b k) as [->|]; [exfalso; apply N1; cbn; auto|]. cbn. rewrite IH; auto.
    intros H; apply N1; cbn; auto.
  - inversion ND as [|? ? N1 N2]; subst. cbn in H. cbn.
    destruct (Nat.eqb_spec a k) as [->|]; [apply nth_error_In in H; tauto|]. cbn. f_equal. apply IH; auto.
Qed.

Lemma shift_back n j : 0 <= j -> Z.to_nat j <> n ->
  (let j' := Z.to_nat (if Z.of_nat n <? j then j - 1 else j) in if Nat.ltb j' n then j' else S j') = Z.to_nat j.
Proof.
  intros. cbv zeta. destruct (Z.ltb_spec (Z.of_nat n) j).
  - destruct (Nat.ltb_spec (Z.to_nat (j - 1)) n); lia.
  - destruct (Nat.ltb_spec (Z.to_nat j) n); lia.
Qed.

Lemma active_erase (ids0 : list nat) n k : NoDup ids0 -> nth_error ids0 n = Some k ->
  forall act a, NoDup a -> Forall (fun j => 0 <= j) act ->
  map (fun j => nth_error ids0 (Z.to_nat j)) act = map Some a ->
  map (fun j => nth_error (erase_at ids0 n) (Z.to_nat j))
    (map (fun j => if Z.of_nat n <? j then j - 1 else j) (erase_first act (Z.of_nat n)))
  = map Some (filter (fun m => negb (Nat.eqb m k)) a) /\
  Forall (fun j => 0 <= j) (map (fun j => if Z.of_nat n <? j then j - 1 else j) (erase_first act (Z.of_nat n))).
Proof.
  intros ND Hk. 
  assert (K : forall act a, ~ In k a -> Forall (fun j => 0 <= j) act ->
     map (fun j => nth_error ids0 (Z.to_nat j)) act = map Some a ->
     map (fun j => nth_error (erase_at ids0 n) (Z.to_nat j))
       (map (fun j => if Z.of_nat n <? j then j - 1 else j) act) = map Some a /\
     Forall (fun j => 0 <= j) (map (fun j => if Z.of_nat n <? j then j - 1 else j) act) /\
     filter (fun m => negb (Nat.eqb m k)) a = a).
  { induction act as [|j act IH]; intros [|m a] NI F E; try discriminate; cbn; auto.
    cbn in E. injection E as E1 E2. apply Forall_cons_iff in F as [F1 F2].
    assert (NI1 : m <> k) by (intros ->; apply NI; cbn; auto).
    destruct (IH a) as (A & B & C); auto; [intros H; apply NI; cbn; auto|].
    assert (Z.to_nat j <> n) by (intros Q; rewrite Q in E1; congruence).
    split; [|split].
    - f_equal; auto. rewrite erase_at_nth. rewrite <- E1. f_equal. apply shift_back; auto.
    - constructor; auto. destruct (Z.ltb_spec (Z.of_nat n) j); lia.
    - destruct (Nat.eqb_spec m k); [congruence|]. cbn. rewrite C. auto. }
  induction act as [|j act IH]; intros [|m a] NA F E; try discriminate; cbn; auto.
  cbn in E. injection E as E1 E2. apply Forall_cons_iff in F as [F1 F2].
  inversion NA as [|? ? NA1 NA2]; subst.
  destruct (Z.eqb_spec j (Z.of_nat n)) as [->|Nj].
  - rewrite Nat2Z.id in E1. assert (m = k) by congruence. subst m. rewrite Nat.eqb_refl. cbn.
    destruct (K act a) as (A & B & C); auto. rewrite C. auto.
  - assert (Z.to_nat j <> n) by lia.
    assert (m <> k) by (intros ->; assert (Z.to_nat j = n) by exact (nodup_nth_inj _ _ _ _ ND E1 Hk); lia).
    destruct (Nat.eqb_spec m k); [congruence|]. cbn.
    destruct (IH a) as (A & B); auto. split.
    + f_equal; auto. rewrite erase_at_nth. rewrite <- E1. f_equal. apply shift_back; auto.
    + constructor; auto. destruct (Z.ltb_spec (Z.of_nat n) j); lia.
Qed.

Lemma pos_rel_step g s o g' : in_step (cuts g) -> pos_rel g s -> rcall_ok g o -> rstep g o = Ok g' ->
  match o with RActivate i => ~ In (id_at s i) (acts s) | _ => True end ->
  pos_rel g' (areg_step s o).
Proof.
  intros IS (L & N1 & B & N2 & I & F & M) C E O. destruct o as [c|i|i|x]; cbn [rstep areg_step] in *.
  - injection E as <-. unfold pos_rel. cbn [cuts active_cuts ids acts born].
    split; [rewrite !app_length; cbn; lia|]. split.
    { apply (Permutation_NoDup (Permutation_cons_append (ids s) (born s))). constructor; auto.
      intros H. apply B in H. lia. }
    split; [intros k; rewrite in_app_iff; cbn; intros [H|[<-|[]]]; [apply B in H|]; lia|].
    split; auto. split; [intros k H; apply in_app_iff; auto|]. split; auto.
    rewrite <- M. apply map_ext_in. intros j Hj. 
    assert (exists k, nth_error (ids s) (Z.to_nat j) = Some k) as [k Hk].
    { assert (In (nth_error (ids s) (Z.to_nat j)) (map Some (acts s))) as H.
      { rewrite <- M. apply in_map_iff. eauto. }
      apply in_map_iff in H as (k & Hk & _). eauto. }
    rewrite nth_error_app1; auto. apply nth_error_Some. congruence.
  - injection E as <-. cbn in C. unfold pos_rel. cbn [cuts active_cuts ids acts born ActivateCut].
    unfold num_cuts in C. rewrite L in C.
    assert (K : nth_error (ids s) (Z.to_nat i) = Some (id_at s i)).
    { unfold id_at. apply nth_error_nth'. lia. }
    split; auto. split; auto. split; auto. split.
    { apply (Permutation_NoDup (Permutation_cons_append (acts s) (id_at s i))). constructor; auto. }
    split; [intros k; rewrite in_app_iff; cbn; intros [H|[<-|[]]]; auto; eapply nth_error_In; eauto|].
    split; [apply Forall_app; split; auto; constructor; auto; lia|].
    rewrite !map_app, M. cbn. rewrite K. auto.
  - cbn in C. unfold RemoveCut in E. destruct (Z.ltb_spec i 0); [lia|]. destruct (Z.leb_spec (num_cuts g) i); [lia|].
    cbn [orb] in E.
    destruct (decrement_ok (erase_at (cuts g) (Z.to_nat i)) (Z.to_nat i) 0) as (l & E' & B' & I').
    { intros j c Hj. rewrite erase_at_nth in Hj. rewrite (IS _ _ Hj). auto. }
    rewrite E' in E. cbn [bind] in E. injection E as <-. unfold pos_rel. cbn [cuts active_cuts ids acts born].
    unfold num_cuts in C. rewrite L in C.
    assert (K : nth_error (ids s) (Z.to_nat i) = Some (id_at s i)).
    { unfold id_at. apply nth_error_nth'. lia. }
    rewrite (filter_id_erase _ _ _ N1 K).
    split.
    { rewrite <- (map_length body l), B', map_length. unfold erase_at. rewrite !app_length, !firstn_length, !skipn_length, L. auto. }
    split; [rewrite <- (filter_id_erase _ _ _ N1 K); apply NoDup_filter; auto|].
    split; [intros k; rewrite <- (filter_id_erase _ _ _ N1 K), filter_In; intros [H1 _]; auto|].
    split; [apply NoDup_filter; auto|].
    split; [intros k; rewrite <- (filter_id_erase _ _ _ N1 K), !filter_In; intros [H1 H2]; auto|].
    destruct (active_erase (ids s) (Z.to_nat i) (id_at s i) N1 K (active_cuts g) (acts s)) as [A1 A2]; auto.
    rewrite Z2Nat.id in A1, A2 by lia. auto.
  - injection E as <-. unfold pos_rel. cbn [cuts active_cuts UpdateCutEfficacy]. rewrite map_length.
    repeat (split; auto).
Qed.

Lemma pos_rel_run ops : forall g s g', in_step (cuts g) -> pos_rel g s -> rcalls_ok g ops ->
  activated_once s ops -> rrun g ops = Ok g' -> pos_rel g' (areg_run s ops).
Proof.
  induction ops as [|o r IH]; intros g s g' IS P C O E; cbn in E.
  - injection E as <-. auto.
  - destruct C as [C1 C2]. destruct O as [O1 O2]. destruct (rstep_in_step g o IS C1) as (g1 & E1 & H1).
    rewrite E1 in E. cbn [bind] in E. cbn [areg_run fold_left]. apply (IH g1 (areg_step s o) g'); auto.
    eapply (pos_rel_step g s o g1); eauto.
Qed.

Lemma active_list ops g : rcalls_ok reg_new ops -> activated_once areg_new ops ->
  rrun reg_new ops = Ok g ->
  let s := areg_run areg_new ops in
  length (cuts g) = length (ids s) /\ NoDup (active_cuts g) /\
  Forall (fun j => 0 <= j < num_cuts g) (active_cuts g) /\
  map (id_at s) (active_cuts g) = acts s.
Proof.
  intros C O E. cbv zeta. assert (P : pos_rel reg_new areg_new).
  { repeat split; cbn; auto; try constructor; intros k []. }
  pose proof (pos_rel_run ops _ _ _ new_in_step P C O E) as (L & N1 & B & N2 & I & F & M).
  set (s := areg_run areg_new ops) in *. split; auto.
  assert (X : forall j, In j (active_cuts g) -> 0 <= j /\ exists k, nth_error (ids s) (Z.to_nat j) = Some k).
  { intros j Hj. rewrite Forall_forall in F. split; auto.
    assert (In (nth_error (ids s) (Z.to_nat j)) (map Some (acts s))) as H.
    { rewrite <- M. apply in_map_iff. eauto. }
    apply in_map_iff in H as (k & Hk & _). eauto. }
  split.
  { apply NoDup_map_inv with (f := fun j => nth_error (ids s) (Z.to_nat j)). rewrite M.
    apply FinFun.Injective_map_NoDup; auto. intros a b Q; congruence. }
  split.
  { apply Forall_forall. intros j Hj. destruct (X j Hj) as [X1 [k X2]]. unfold num_cuts. rewrite L.
    assert (Z.to_nat j < length (ids s))%nat by (apply nth_error_Some; congruence). lia. }
  clear - M X. revert M X. generalize (acts s). induction (active_cuts g) as [|j l IH]; intros [|k a] M X; try discriminate; auto.
  cbn in *. injection M as M1 M2. f_equal.
  - unfold id_at. apply nth_error_nth with (d := 0%nat) in M1. auto.
  - apply IH; auto.
Qed.

(** ** Selection *)
Lemma score_all_ok p cs : forall r, score_all p cs = Ok r ->
  Forall2 (fun c d => exists s, ComputeCutScore p c = Ok s /\ d = SetScore c s) cs r.
Proof.
  induction cs as [|c cs IH]; cbn [score_all]; intros r H.
  - injection H as <-. constructor.
  - apply bind_ok in H as (s & E & H). apply bind_ok in H as (r' & E' & H). injection H as <-.
    constructor; eauto.
Qed.

Section Select.
Variable sort : list cut -> list cut.
Hypothesis sort_ok : sorts sort.
Variable p : selector_params.

Lemma filter_perm {A} (f : A -> bool) l : Permutation (filter f l ++ filter (fun x => negb (f x)) l) l.
Proof.
  induction l as [|a l IH]; cbn; auto. destruct (f a); cbn.
  - apply perm_skip; auto.
  - apply Permutation_trans with (a :: filter f l ++ filter (fun x => negb (f x)) l).
    + apply Permutation_sym, Permutation_middle.
    + apply perm_skip; auto.
Qed.

Lemma filter_shorter {A} (f : A -> bool) l : (length (filter f l) <= length l)%nat.
Proof. induction l as [|a l IH]; cbn; auto. destruct (f a); cbn; lia. Qed.

Definition keep (ref c : cut) : bool :=
  negb (TwoCutsAreOrthogonal ref c (minimum_orthogonality p) (signed_orthogonality p)).

(** The loop as a derivation. *)
Inductive picks : list cut -> list cut -> list cut -> Prop :=
| picks_none selected : picks [] selected selected
| picks_low cs selected ref rest :
    sort cs = ref :: rest -> dltb (score_of ref) (score_threshold p) = true ->
    picks cs selected selected
| picks_full cs selected ref rest :
    sort cs = ref :: rest -> dltb (score_of ref) (score_threshold p) = false ->
    Z.of_nat (length (selected ++ [ref])) = max_num_cuts p ->
    picks cs selected (selected ++ [ref])
| picks_more cs selected ref rest r :
    sort cs = ref :: rest -> dltb (score_of ref) (score_threshold p) = false ->
    Z.of_nat (length (selected ++ [ref])) <> max_num_cuts p ->
    picks (filter (keep ref) rest) (selected ++ [ref]) r -> picks cs selected r.

Lemma loop_picks fuel : forall cs selected, (length cs <= fuel)%nat ->
  Forall (fun c => score_ c <> None) cs ->
  exists r, select_loop sort fuel p cs selected = Ok r /\ picks cs selected r.
Proof.
  induction fuel as [|fuel IH]; intros cs selected L F.
  - destruct cs; [|cbn in L; lia]. cbn. eexists. split; [reflexivity|constructor].
  - cbn [select_loop]. destruct cs as [|c cs0]; [eexists; split; [reflexivity|constructor]|].
    set (cs := c :: cs0) in *. destruct (sort_ok cs) as [P _].
    destruct (sort cs) as [|ref rest] eqn:E; [apply Permutation_nil in P; discriminate|].
    assert (F' : Forall (fun c => score_ c <> None) (ref :: rest)) by (eapply Permutation_Forall; [apply Permutation_sym|]; eauto).
    apply Forall_cons_iff in F' as [F1 F2]. unfold score. destruct (score_ ref) as [s|] eqn:S; [|congruence]. cbn [bind].
    assert (SO : score_of ref = s) by (unfold score_of; rewrite S; auto).
    destruct (dltb s (score_threshold p)) eqn:T.
    + eexists. split; [reflexivity|]. eapply picks_low; eauto. congruence.
    + destruct (Z.eqb_spec (Z.of_nat (length (selected ++ [ref]))) (max_num_cuts p)) as [Q|Q].
      * eexists. split; [reflexivity|]. eapply picks_full; eauto. congruence.
      * change (filter (fun c1 => negb (TwoCutsAreOrthogonal ref c1 (minimum_orthogonality p) (signed_orthogonality p))) rest)
          with (filter (keep ref) rest).
        destruct (IH (filter (keep ref) rest) (selected ++ [ref])) as (r & E2 & P2).
        { apply Permutation_length in P. cbn in P, L. pose proof (filter_shorter (keep ref) rest). lia. }
        { rewrite Forall_forall in *. intros x Hx. apply filter_In in Hx as [Hx _]. auto. }
        exists r. split; auto. eapply picks_more; eauto. congruence.
Qed.

Lemma picks_prefix cs selected r : picks cs selected r -> exists t, r = selected ++ t /\ sub_multiset t cs.
Proof.
  induction 1 as [sel|cs sel ref rest E T|cs sel ref rest E T Q|cs sel ref rest r E T Q H (t & -> & rs & P)].
  - exists []. rewrite app_nil_r. split; auto. exists []. auto.
  - exists []. rewrite app_nil_r. split; auto. exists cs. auto.
  - exists [ref]. split; auto. exists rest. destruct (sort_ok cs) as [P _]. rewrite E in P. auto.
  - exists (ref :: t). rewrite <- app_assoc. split; auto. destruct (sort_ok cs) as [P' _]. rewrite E in P'.
    exists (rs ++ filter (fun c => negb (keep ref c)) rest).
    apply Permutation_trans with (ref :: rest); auto. cbn. apply perm_skip.
    rewrite app_assoc. apply Permutation_trans with (filter (keep ref) rest ++ filter (fun c => negb (keep ref c)) rest).
    + apply Permutation_app_tail; auto.
    + apply filter_perm.
Qed.

Lemma sorted_hd cs ref rest c : sort cs = ref :: rest -> Forall has_score cs -> In c cs ->
  dltb (score_of ref) (score_of c) = false.
Proof.
  intros E F Hc. destruct (sort_ok cs) as [P S]. specialize (S F). rewrite E in *.
  apply (Permutation_in c (Permutation_sym P)) in Hc. destruct Hc as [<-|Hc]; [apply dltb_irrefl|].
  apply StronglySorted_inv in S as [_ S]. rewrite Forall_forall in S. apply S; auto.
Qed.

Lemma scored_total (a b : cut) : has_score a -> has_score b ->
  (dltb (score_of a) (score_of b) = false <-> dleb (score_of b) (score_of a) = true).
Proof.
  intros (s & A & NA) (t & B & NB). unfold score_of. rewrite A, B. rewrite dltb_negb by auto.
  destruct (dleb t s); split; auto; discriminate.
Qed.

(** Everything about the picked cuts. *)
Lemma picks_facts cs selected r : picks cs selected r ->
  (0 < max_num_cuts p -> Z.of_nat (length selected) < max_num_cuts p -> Z.of_nat (length r) <= max_num_cuts p) /\
  exists t, r = selected ++ t /\
   Forall (fun c => dltb (score_of c) (score_threshold p) = false) t /\
   ForallOrdPairs (fun a b => keep a b = true) t /\
   (Forall has_score cs -> StronglySorted not_below t) /\
   (Forall has_score cs -> Z.of_nat (length r) <> max_num_cuts p \/ max_num_cuts p <= 0 ->
      forall c, In c cs -> dltb (score_of c) (score_threshold p) = false ->
      In c t \/ exists a, In a t /\ keep a c = false).
Proof.
  induction 1 as [sel|cs sel ref rest E T|cs sel ref rest E T Q|cs sel ref rest r E T Q H (LL & t & -> & A & B & C & D)].
  - split; [lia|]. exists []. rewrite app_nil_r. split; auto. split; auto. split; [constructor|]. split; [constructor|]. intros _ _ c [].
  - split; [lia|]. exists []. rewrite app_nil_r. split; auto. split; auto. split; [constructor|]. split; [constructor|].
    intros F _ c Hc Hs. exfalso. pose proof (sorted_hd cs ref rest c E F Hc) as S.
    assert (HR : has_score ref).
    { rewrite Forall_forall in F. apply F. destruct (sort_ok cs) as [P _]. rewrite E in P.
      eapply Permutation_in; [exact P|]. cbn; auto. }
    assert (HC : has_score c) by (rewrite Forall_forall in F; auto).
    apply scored_total in S; auto. pose proof (dle_lt_trans _ _ _ S T). congruence.
  - split; [lia|]. exists [ref]. split; auto. split; [constructor; auto|]. split; [repeat constructor|].
    split; [repeat constructor|]. intros F [X|X] c Hc Hs; [congruence|]. exfalso.
    rewrite app_length in Q. cbn in Q. lia.
  - split.
    { intros P1 P2. apply LL; auto. rewrite app_length in *. cbn in *. lia. }
    exists (ref :: t). rewrite <- app_assoc. split; auto. split; [constructor; auto|].
    assert (SUB : forall x, In x t -> In x (filter (keep ref) rest)).
    { intros x Hx. apply picks_prefix in H as (t' & E1 & rs & P). apply app_inv_head in E1. subst t'.
      eapply Permutation_in; [exact P|]. apply in_app_iff; auto. }
    destruct (sort_ok cs) as [P S]. rewrite E in P.
    assert (FR : Forall has_score cs -> Forall has_score (ref :: rest)) by (intros F; eapply Permutation_Forall; [apply Permutation_sym|]; eauto).
    assert (FF : Forall has_score cs -> Forall has_score (filter (keep ref) rest)).
    { intros F. apply FR in F. apply Forall_cons_iff in F as [_ F]. rewrite Forall_forall in *. intros x Hx.
      apply filter_In in Hx as [Hx _]. auto. }
    split.
    { constructor; auto. apply Forall_forall. intros x Hx. apply SUB in Hx. apply filter_In in Hx. tauto. }
    split.
    { intros F. constructor; auto. apply Forall_forall. intros x Hx. apply SUB in Hx. apply filter_In in Hx as [Hx _].
      unfold not_below. eapply sorted_hd; eauto. eapply Permutation_in; [exact P|]. cbn; auto. }
    intros F X c Hc Hs. apply (Permutation_in c (Permutation_sym P)) in Hc. destruct Hc as [<-|Hc]; [left; cbn; auto|].
    destruct (keep ref c) eqn:K.
    + destruct (D (FF F)) with (c := c) as [G|(a & G1 & G2)]; auto.
      { rewrite app_length in X. cbn in X. rewrite !app_length in *. cbn in *.
        lia. }
      { apply filter_In; auto. }
      { left; cbn; auto. } { right. exists a. cbn; auto. }
    + right. exists ref. cbn; auto.
Qed.
End Select.

Lemma dot_self (l : list (entry num_double)) : forall acc, dot_loop l l acc =
  fold_left (fun acc (e : entry num_double) => dadd acc (dmul (val e) (val e))) l acc.
Proof.
  induction l as [|e l IH]; intros acc; cbn [dot_loop fold_left]; auto.
  rewrite Z.eqb_refl, IH. reflexivity.
Qed.

Lemma squared_norm_dot v : squared_norm (values v) = DotProduct v v.
Proof.
  unfold squared_norm, values, DotProduct. rewrite dot_self. change (n0 : num_double) with d0.
  generalize d0. induction (ents v) as [|e l IH]; intros acc; cbn; auto.
Qed.

Lemma keep_false p a b : keep p a b = false <-> is_forced b = false /\ too_parallel p a b.
Proof.
  unfold keep, TwoCutsAreOrthogonal, too_parallel, cosine. rewrite !squared_norm_dot.
  destruct (is_forced b); cbn [negb]; [split; [discriminate|intros [? _]; discriminate]|].
  destruct (signed_orthogonality p); rewrite negb_false_iff; tauto.
Qed.
Lemma keep_true p a b : keep p a b = true <-> is_forced b = true \/ ~ too_parallel p a b.
Proof.
  destruct (keep p a b) eqn:K.
  - split; auto. intros _. destruct (is_forced b) eqn:F; auto. right. intros H.
    assert (keep p a b = false) by (apply keep_false; auto). congruence.
  - apply keep_false in K as [F T]. split; [discriminate|]. intros [?|?]; [congruence|tauto].
Qed.

Lemma Forall2_In_r {A B} (R : A -> B -> Prop) l l' y : Forall2 R l l' -> In y l' -> exists x, In x l /\ R x y.
Proof. induction 1; cbn; [tauto|]. intros [<-|H1]; eauto. destruct IHForall2 as (z & ? & ?); eauto. Qed.
Lemma Forall2_In_l {A B} (R : A -> B -> Prop) l l' x : Forall2 R l l' -> In x l -> exists y, In y l' /\ R x y.
Proof. induction 1; cbn; [tauto|]. intros [<-|H1]; eauto. destruct IHForall2 as (z & ? & ?); eauto. Qed.

Lemma select_total sort p cs : sorts sort -> Forall (fun c => number_of_non_zeros c <> 0) cs ->
  exists r, SelectCuttingPlanes sort p cs = Ok r.
Proof.
  intros S F. unfold SelectCuttingPlanes.
  assert (exists sc, score_all p cs = Ok sc) as [sc E].
  { induction cs as [|c cs IH]; cbn [score_all]; eauto. apply Forall_cons_iff in F as [F1 F2].
    destruct (IH F2) as [sc ->]. unfold ComputeCutScore. destruct (dltb d0 (integer_support_weight p)); cbn [bind]; eauto.
    destruct (Z.eqb_spec (number_of_non_zeros c) 0); [congruence|]. cbn [bind]. eauto. }
  rewrite E. cbn [bind]. destruct (loop_picks sort S p (length sc) sc []) as (r & E2 & _); eauto.
  apply score_all_ok in E. rewrite Forall_forall. intros d Hd. destruct (Forall2_In_r _ _ _ _ E Hd) as (c & _ & s & _ & ->).
  cbn. discriminate.
Qed.

(** The input of the loop. *)
Lemma select_inv sort p cs r : sorts sort -> SelectCuttingPlanes sort p cs = Ok r ->
  exists sc, Forall2 (fun c d => exists s, ComputeCutScore p c = Ok s /\ d = SetScore c s) cs sc /\
    picks sort p sc [] r.
Proof.
  intros S H. unfold SelectCuttingPlanes in H. apply bind_ok in H as (sc & E & H).
  apply score_all_ok in E. exists sc. split; auto.
  destruct (loop_picks sort S p (length sc) sc []) as (r' & E2 & P2); auto; [|congruence].
  rewrite Forall_forall. intros d Hd. destruct (Forall2_In_r _ _ _ _ E Hd) as (c & _ & s & _ & ->). cbn. discriminate.
Qed.

Lemma unscored_set c s : unscored (SetScore c s) = unscored c.
Proof. destruct c; reflexivity. Qed.

Lemma select_subset sort p cs r : sorts sort -> SelectCuttingPlanes sort p cs = Ok r ->
  sub_multiset (map unscored r) (map unscored cs) /\
  Forall (fun c => exists s, score_ c = Some s /\ ComputeCutScore p (unscored c) = Ok s /\
            dltb s (score_threshold p) = false) r /\
  (0 < max_num_cuts p -> Z.of_nat (length r) <= max_num_cuts p) /\
  ((forall c s, In c cs -> ComputeCutScore p c = Ok s -> is_nan s = false) ->
     StronglySorted (fun a b => dleb (score_of b) (score_of a) = true) r).
Proof.
  intros S H. destruct (select_inv sort p cs r S H) as (sc & F2 & P).
  destruct (picks_facts sort S p sc [] r P) as (L & t & E & A & B & C & D). cbn in E. subst t.
  destruct (picks_prefix sort S p sc [] r P) as (t & E & rs & Q). cbn in E. subst t.
  assert (U : map unscored sc = map unscored cs).
  { clear - F2. induction F2 as [|c d cs sc (s & _ & ->) F IH]; cbn; auto. rewrite unscored_set, IH. auto. }
  assert (RS : forall c, In c r -> In c sc) by (intros c Hc; eapply Permutation_in; [exact Q|]; apply in_app_iff; auto).
  split.
  { exists (map unscored rs). rewrite <- U, <- map_app. apply Permutation_map; auto. }
  split.
  { rewrite Forall_forall in *. intros d Hd. specialize (A d Hd). apply RS in Hd.
    destruct (Forall2_In_r _ _ _ _ F2 Hd) as (c & _ & s & Hs & ->). exists s. cbn in A. split; [reflexivity|].
    split; [rewrite <- Hs; destruct c; reflexivity|exact A]. }
  split; [intros M; apply L; auto|].
  intros NN. assert (HS : Forall has_score sc).
  { rewrite Forall_forall. intros d Hd. destruct (Forall2_In_r _ _ _ _ F2 Hd) as (c & Hc & s & Hs & ->).
    exists s. cbn. split; eauto. }
  specialize (C HS). clear - C HS RS. rewrite Forall_forall in HS.
  induction C as [|a l C IH F]; constructor; auto.
  - apply IH. intros; apply RS; cbn; auto.
  - rewrite Forall_forall in *. intros b Hb. apply scored_total; [apply HS, RS; cbn; auto|apply HS, RS; cbn; auto|]. apply F; auto.
Qed.

Lemma pairs_nth {A} (R : A -> A -> Prop) l : ForallOrdPairs R l ->
  forall i j a b, (i < j)%nat -> nth_error l i = Some a -> nth_error l j = Some b -> R a b.
Proof.
  induction 1 as [|x l F H IH]; intros i j a b L Hi Hj.
  - destruct i; discriminate.
  - destruct j; [lia|]. cbn in Hj. destruct i; cbn in Hi.
    + injection Hi as <-. rewrite Forall_forall in F. apply F. eapply nth_error_In; eauto.
    + apply (IH i j a b); auto. lia.
Qed.

Lemma select_orthogonal sort p cs r : sorts sort -> SelectCuttingPlanes sort p cs = Ok r ->
  forall i j a b, (i < j)%nat -> nth_error r i = Some a -> nth_error r j = Some b ->
    is_forced b = true \/ ~ too_parallel p a b.
Proof.
  intros S H i j a b L Hi Hj. destruct (select_inv sort p cs r S H) as (sc & F2 & P).
  destruct (picks_facts sort S p sc [] r P) as (_ & t & E & A & B & C & D). cbn in E. subst t.
  apply keep_true. exact (pairs_nth _ _ B i j a b L Hi Hj).
Qed.

Lemma too_parallel_set p a b s t : too_parallel p (SetScore a s) (SetScore b t) = too_parallel p a b.
Proof. reflexivity. Qed.

Lemma select_maximal sort p cs r : sorts sort -> SelectCuttingPlanes sort p cs = Ok r ->
  (forall c s, In c cs -> ComputeCutScore p c = Ok s -> is_nan s = false) ->
  Z.of_nat (length r) <> max_num_cuts p \/ max_num_cuts p <= 0 ->
  forall c s, In c cs -> ComputeCutScore p c = Ok s -> dltb s (score_threshold p) = false ->
  In (SetScore c s) r \/ (is_forced c = false /\ exists a, In a r /\ too_parallel p a c).
Proof.
  intros S H NN X c s Hc Hs T. destruct (select_inv sort p cs r S H) as (sc & F2 & P).
  destruct (picks_facts sort S p sc [] r P) as (_ & t & E & A & B & C & D). cbn in E. subst t.
  assert (HS : Forall has_score sc).
  { rewrite Forall_forall. intros d Hd. destruct (Forall2_In_r _ _ _ _ F2 Hd) as (c' & Hc' & s' & Hs' & ->).
    exists s'. cbn. split; eauto. }
  destruct (Forall2_In_l _ _ _ _ F2 Hc) as (d & Hd & s' & Hs' & ->).
  rewrite Hs in Hs'. injection Hs' as <-.
  destruct (D HS X _ Hd T) as [G|(a & G1 & G2)]; auto. right. apply keep_false in G2 as [G2 G3]. split; auto.
  exists a. split; auto.
Qed.

(** ** Separation *)
Section Run.
Variable W : Type.
Variable lp_stops lp_is_solved : W -> bool.
Variable generators : list (registry -> W -> outcome (list cut * W)).
Variable select : registry -> W -> list cut -> outcome (list cut * W).
Variable add_row : W -> svec num_double -> double -> double -> string -> outcome W.
Variable solve_dual : W -> outcome W.
Variable p : runner_params.

Lemma add_cuts_ok cs : forall g g' is, add_cuts g cs = (g', is) ->
  exists new, cuts g' = cuts g ++ new /\ active_cuts g' = active_cuts g /\
    length new = length cs /\ map body new = map body cs /\
    is = map Z.of_nat (seq (length (cuts g)) (length new)) /\
    (in_step (cuts g) -> in_step (cuts g')).
Proof.
  induction cs as [|c cs IH]; intros g g' is H; cbn [add_cuts] in H.
  - injection H as <- <-. exists []. rewrite app_nil_r. repeat split; auto.
  - destruct (AddCut g c) as [g1 i] eqn:E. destruct (add_cuts g1 cs) as [g2 is2] eqn:E2.
    injection H as <- <-. unfold AddCut in E. injection E as <- <-.
    destruct (IH _ _ _ E2) as (new & A & B & L & C & D & F). cbn [cuts active_cuts] in *.
    exists (SetIndex c (num_cuts g) :: new). rewrite A, <- app_assoc. split; auto. split; auto.
    split; [cbn; lia|]. split; [cbn; rewrite C; auto|]. split.
    + rewrite D, app_length. cbn. unfold num_cuts. do 3 f_equal. lia.
    + intros I. rewrite <- (app_assoc (cuts g) [_] new) in A. rewrite app_assoc in A. rewrite app_assoc in *.
      rewrite <- A. apply F. intros j c' Hj. apply nth_snoc in Hj as [Hj|[-> ->]]; auto.
Qed.

Lemma run_generators_ok gs : forall g w new g' w' new',
  run_generators W select gs g w new = Ok (g', w', new') ->
  exists fresh, cuts g' = cuts g ++ fresh /\ active_cuts g' = active_cuts g /\
    new' = new ++ map Z.of_nat (seq (length (cuts g)) (length fresh)) /\
    (in_step (cuts g) -> in_step (cuts g')).
Proof.
  induction gs as [|gen gs IH]; intros g w new g' w' new' H; cbn [run_generators] in H.
  - injection H as <- <- <-. exists []. cbn. rewrite !app_nil_r. auto.
  - apply bind_ok in H as ([cs w1] & E & H). destruct cs as [|c cs].
    + eapply IH; eauto.
    + apply bind_ok in H as ([fs w2] & E2 & H). destruct (add_cuts g fs) as [g1 is] eqn:E3.
      destruct (add_cuts_ok _ _ _ _ E3) as (n1 & A1 & B1 & L1 & C1 & D1 & F1).
      destruct (IH _ _ _ _ _ _ H) as (n2 & A2 & B2 & D2 & F2).
      exists (n1 ++ n2). split; [rewrite A2, A1, <- app_assoc; auto|]. split; [congruence|]. split; [|auto].
      rewrite D2, D1, A1, !app_length, <- app_assoc. f_equal. rewrite <- map_app, <- seq_app. auto.
Qed.

Lemma add_rows_ok g : forall is w log w' log', add_rows W add_row g is w log = Ok (w', log') ->
  forall l1 l2, cuts g = l1 ++ l2 -> is = map Z.of_nat (seq (length l1) (length l2)) ->
  log' = log ++ map cut_row l2.
Proof.
  induction is as [|i is IH]; intros w log w' log' H l1 l2 E Q; cbn [add_rows] in H.
  - destruct l2; [|discriminate]. injection H as <- <-. cbn. rewrite app_nil_r. auto.
  - destruct l2 as [|c l2]; [discriminate|]. cbn in Q. injection Q as -> Q.
    apply bind_ok in H as (c' & E1 & H). apply bind_ok in H as (w1 & E2 & H).
    unfold GetCut in E1. apply at_ok in E1 as [_ E1]. rewrite Nat2Z.id, E, nth_error_app2, Nat.sub_diag in E1 by lia.
    cbn in E1. injection E1 as <-.
    rewrite (IH _ _ _ _ H (l1 ++ [c]) l2).
    + rewrite <- app_assoc. auto.
    + rewrite <- app_assoc. auto.
    + rewrite app_length. cbn. rewrite Q. do 2 f_equal. lia.
Qed.

Notation separate' := (separate W lp_stops lp_is_solved generators select add_row solve_dual p).
Notation Separate' := (Separate W lp_stops lp_is_solved generators select add_row solve_dual p).

Lemma separate_ok fuel : forall s s', separate' fuel s = Ok s' ->
  exists rounds, Forall (fun l => l <> []) rounds /\
    num_cutrounds s' = num_cutrounds s + Z.of_nat (length rounds) /\
    (rounds <> [] -> num_cutrounds s' <= max_iterations p) /\
    num_of_cuts_added_since_last_run s' = num_of_cuts_added_since_last_run s /\
    cuts (reg s') = cuts (reg s) ++ concat rounds /\
    active_cuts (reg s') = active_cuts (reg s) /\
    calls s' = calls s ++ concat (map round_calls rounds) /\
    (in_step (cuts (reg s)) -> in_step (cuts (reg s'))).
Proof.
  assert (Z0 : forall s : runner_state W, exists rounds, Forall (fun l => l <> []) rounds /\
    num_cutrounds s = num_cutrounds s + Z.of_nat (length rounds) /\
    (rounds <> [] -> num_cutrounds s <= max_iterations p) /\
    num_of_cuts_added_since_last_run s = num_of_cuts_added_since_last_run s /\
    cuts (reg s) = cuts (reg s) ++ concat rounds /\
    active_cuts (reg s) = active_cuts (reg s) /\
    calls s = calls s ++ concat (map round_calls rounds) /\
    (in_step (cuts (reg s)) -> in_step (cuts (reg s)))).
  { intros s. exists []. cbn. rewrite !app_nil_r. repeat split; auto; try lia; try congruence. }
  induction fuel as [|fuel IH]; intros s s' H; cbn [separate] in H.
  - destruct (MayRun _ _ _ _ _) eqn:M; [discriminate|]. injection H as <-. apply Z0.
  - destruct (MayRun _ _ _ _ _) eqn:M; [|injection H as <-; apply Z0].
    apply bind_ok in H as ([[g w] new] & E & H).
    destruct (run_generators_ok _ _ _ _ _ _ _ E) as (fresh & A & B & C & D). cbn [app] in C.
    destruct new as [|i new].
    + injection H as <-. destruct fresh; [|discriminate]. rewrite app_nil_r in A.
      exists []. cbn. rewrite !app_nil_r, B, A. repeat split; auto; try lia; try congruence.
    + apply bind_ok in H as ([w1 log] & E1 & H). apply bind_ok in H as (w2 & E2 & H).
      pose proof (add_rows_ok _ _ _ _ _ _ E1 _ _ A C) as L. apply IH in H.
      destruct H as (rounds & F1 & F2 & F3 & F4 & F5 & F6 & F7 & F8). cbn [num_cutrounds num_of_cuts_added_since_last_run reg calls] in *.
      exists (fresh :: rounds). split; [constructor; auto; intros ->; discriminate|].
      split; [cbn [length]; lia|]. split.
      { intros _. destruct rounds as [|r0 rounds]; [|apply F3; discriminate].
        cbn in F2. unfold MayRun in M. destruct (lp_stops (world s)), (lp_is_solved (world s)); cbn [negb] in M; try discriminate.
        destruct (Z.leb_spec (max_iterations p) (num_cutrounds s)); [discriminate|]. lia. }
      split; auto. split; [rewrite F5, A, <- app_assoc; auto|]. split; [congruence|]. split; auto.
      rewrite F7, L. cbn [map concat]. unfold round_calls at 2. rewrite <- !app_assoc. auto.
Qed.

Lemma separate_fuel fuel : forall s, max_iterations p - num_cutrounds s <= Z.of_nat fuel ->
  (forall g w, In g generators -> forall r, g r w <> Fuel) -> (forall r w c, select r w c <> Fuel) ->
  (forall w a b c d, add_row w a b c d <> Fuel) -> (forall w, solve_dual w <> Fuel) ->
  separate' fuel s <> Fuel.
Proof.
  intros s L HG HS HA HD. revert s L.
  assert (G : forall gs, incl gs generators -> forall g w new, run_generators W select gs g w new <> Fuel).
  { induction gs as [|gen gs IH]; intros I g w new; cbn [run_generators]; [discriminate|].
    specialize (HG gen w (I _ (or_introl eq_refl)) g).
    destruct (gen g w) as [[cs w1]| | | |]; cbn [bind]; try discriminate; [|congruence].
    destruct cs as [|c cs]; [apply IH; intros x Hx; apply I; cbn; auto|].
    specialize (HS g w1 (c :: cs)). destruct (select g w1 (c :: cs)) as [[fs w2]| | | |]; cbn [bind]; try discriminate; [|congruence].
    destruct (add_cuts g fs). apply IH. intros x Hx; apply I; cbn; auto. }
  assert (R : forall g is w log, add_rows W add_row g is w log <> Fuel).
  { intros g. induction is as [|i is IH]; intros w log; cbn [add_rows]; [discriminate|].
    unfold GetCut. destruct (at_cases (cuts g) i) as [[_ [c Ec]]|[_ Ec]]; rewrite Ec; cbn [bind]; [|discriminate].
    specialize (HA w (row c) dminf (right_hand_side c) (name c)).
    destruct (add_row _ _ _ _ _); cbn [bind]; try discriminate; [apply IH|congruence]. }
  induction fuel as [|fuel IH]; intros s L; cbn [separate].
  - destruct (MayRun _ _ _ _ _) eqn:M; [|discriminate]. exfalso. unfold MayRun in M.
    destruct (lp_stops (world s)), (lp_is_solved (world s)); cbn [negb] in M; try discriminate.
    destruct (Z.leb_spec (max_iterations p) (num_cutrounds s)); [discriminate|]. cbn in L. lia.
  - destruct (MayRun _ _ _ _ _); [|discriminate].
    specialize (G generators (fun x H => H) (reg s) (world s) []).
    destruct (run_generators _ _ _ _ _ _) as [[[g w] new]| | | |]; cbn [bind]; try discriminate; [|congruence].
    destruct new as [|i new]; [discriminate|].
    specialize (R g (i :: new) w (calls s)). destruct (add_rows _ _ _ _ _ _) as [[w1 log]| | | |]; cbn [bind]; try discriminate; [|congruence].
    specialize (HD w1). destruct (solve_dual w1) as [w2| | | |]; cbn [bind]; try discriminate; [|congruence].
    apply IH. cbn [num_cutrounds]. lia.
Qed.

Lemma separations_ok between : forall s s', separations Separate' between s = Ok s' ->
  num_cutrounds s <= Z.max 0 (max_iterations p) ->
  exists rounds, Forall (fun l => l <> []) rounds /\
    num_cutrounds s' = num_cutrounds s + Z.of_nat (length rounds) /\
    num_cutrounds s' <= Z.max 0 (max_iterations p) /\
    cuts (reg s') = cuts (reg s) ++ concat rounds /\
    active_cuts (reg s') = active_cuts (reg s) /\
    calls s' = calls s ++ concat (map round_calls rounds) /\
    (in_step (cuts (reg s)) -> in_step (cuts (reg s'))).
Proof.
  induction between as [|f r IH]; intros s s' H L; cbn [separations] in H.
  - injection H as <-. exists []. cbn. rewrite !app_nil_r. repeat split; auto; lia.
  - apply bind_ok in H as (s1 & E & H). unfold Separate in E. apply separate_ok in E.
    destruct E as (r1 & A1 & A2 & A3 & A4 & A5 & A6 & A7 & A8).
    cbn [with_world num_cutrounds num_of_cuts_added_since_last_run reg calls] in *.
    apply IH in H as (r2 & B1 & B2 & B3 & B5 & B6 & B7 & B8).
    + exists (r1 ++ r2). split; [apply Forall_app; auto|]. split; [rewrite app_length; lia|]. split; auto.
      split; [rewrite B5, A5, concat_app, app_assoc; auto|]. split; [congruence|].
      split; [rewrite B7, A7, map_app, concat_app, app_assoc; auto|]. auto.
    + destruct r1; [cbn in A2; lia|]. assert (num_cutrounds s1 <= max_iterations p) by (apply A3; discriminate). lia.
Qed.
End Run.

Lemma runner_lifetime W stops solved gens sel addr solve p between g (w : W) s' :
  separations (Separate W stops solved gens sel addr solve p) between (fresh_runner g w) = Ok s' ->
  exists rounds, Forall (fun l => l <> []) rounds /\
    Z.of_nat (length rounds) <= Z.max 0 (max_iterations p) /\
    cuts (reg s') = cuts g ++ concat rounds /\
    active_cuts (reg s') = active_cuts g /\
    calls s' = concat (map round_calls rounds) /\
    (in_step (cuts g) -> in_step (cuts (reg s'))).
Proof.
  intros H. apply separations_ok in H as (r & A & B & C & D & E & F & G); [|cbn; lia].
  cbn in *. exists r. repeat split; auto. lia.
Qed.

Lemma runner_no_fuel W stops solved gens sel addr solve p (s : runner_state W) :
  (forall g w, In g gens -> forall r, g r w <> Fuel) -> (forall r w c, sel r w c <> Fuel) ->
  (forall w a b c d, addr w a b c d <> Fuel) -> (forall w, solve w <> Fuel) ->
  Separate W stops solved gens sel addr solve p s <> Fuel.
Proof. intros. unfold Separate. apply separate_fuel; auto. lia. Qed.

Lemma limits_ignored W stops solved gens sel addr solve p p' :
  max_iterations p = max_iterations p' ->
  0 < max_num_cuts_per_node p -> 0 < max_num_cuts_per_node p' ->
  0 < max_num_cuts_total p -> 0 < max_num_cuts_total p' ->
  forall between g (w : W), active_cuts g = [] ->
  separations (Separate W stops solved gens sel addr solve p) between (fresh_runner g w) =
  separations (Separate W stops solved gens sel addr solve p') between (fresh_runner g w).
Proof.
  intros HI P1 P2 P3 P4 between g w HA.
  assert (M : forall s : runner_state W, num_of_cuts_added_since_last_run s = 0 -> active_cuts (reg s) = [] ->
    MayRun W stops solved p s = MayRun W stops solved p' s).
  { intros s A B. unfold MayRun. rewrite A, B, HI. unfold size_ge. cbn [length Z.of_nat].
    destruct (Z.leb_spec (max_num_cuts_per_node p) 0); [lia|]. destruct (Z.leb_spec (max_num_cuts_per_node p') 0); [lia|].
    destruct (Z.ltb_spec (max_num_cuts_total p) 0); [lia|]. destruct (Z.ltb_spec (max_num_cuts_total p') 0); [lia|].
    destruct (Z.leb_spec (max_num_cuts_total p) 0); [lia|]. destruct (Z.leb_spec (max_num_cuts_total p') 0); [lia|]. auto. }
  assert (S : forall fuel (s : runner_state W), num_of_cuts_added_since_last_run s = 0 -> active_cuts (reg s) = [] ->
    separate W stops solved gens sel addr solve p fuel s = separate W stops solved gens sel addr solve p' fuel s).
  { induction fuel as [|fuel IH]; intros s A B; cbn [separate]; rewrite (M s A B); auto.
    destruct (MayRun W stops solved p' s); auto.
    destruct (run_generators _ _ _ _ _ _) as [[[g1 w1] new]| | | |] eqn:E; cbn [bind]; auto.
    destruct (run_generators_ok _ _ _ _ _ _ _ _ _ E) as (fresh & _ & B' & _).
    destruct new; auto. destruct (add_rows _ _ _ _ _ _) as [[w2 log]| | | |]; cbn [bind]; auto.
    destruct (solve w2); cbn [bind]; auto. apply IH; cbn; auto. congruence. }
  generalize (eq_refl : num_of_cuts_added_since_last_run (fresh_runner g w) = 0).
  generalize (HA : active_cuts (reg (fresh_runner g w)) = []). generalize (fresh_runner g w).
  induction between as [|f r IH]; intros s B A; cbn [separations]; auto.
  unfold Separate at 1 3. rewrite HI. rewrite S by auto.
  destruct (separate _ _ _ _ _ _ _ _ _ _) as [s1| | | |] eqn:E; cbn [bind]; auto.
  apply separate_ok in E as (_ & _ & _ & _ & A4 & _ & A6 & _). apply IH; cbn in *; congruence.
Qed.

Lemma limits_zero W stops solved gens sel addr solve p between g (w : W) s' :
  max_num_cuts_per_node p <= 0 \/ max_num_cuts_total p = 0 ->
  separations (Separate W stops solved gens sel addr solve p) between (fresh_runner g w) = Ok s' ->
  calls s' = [] /\ reg s' = g.
Proof.
  intros Z0. 
  assert (S : forall fuel (s : runner_state W), num_of_cuts_added_since_last_run s = 0 ->
    separate W stops solved gens sel addr solve p fuel s = Ok s).
  { intros fuel s A. assert (M : MayRun W stops solved p s = false).
    { unfold MayRun. rewrite A. destruct (stops (world s)), (solved (world s)), (max_iterations p <=? num_cutrounds s); auto. cbn [negb].
      destruct (Z.leb_spec (max_num_cuts_per_node p) 0); auto. destruct Z0 as [Z0|Z0]; [lia|].
      rewrite Z0. unfold size_ge. cbn. destruct (Z.leb_spec 0 (Z.of_nat (length (active_cuts (reg s))))); auto. lia. }
    destruct fuel; cbn [separate]; rewrite M; auto. }
  assert (X : forall (s : runner_state W), num_of_cuts_added_since_last_run s = 0 ->
    separations (Separate W stops solved gens sel addr solve p) between s = Ok s' -> calls s' = calls s /\ reg s' = reg s).
  { induction between as [|f r IH]; intros s A; cbn [separations].
    - intros H. injection H as <-. auto.
    - unfold Separate at 1. rewrite S by auto. cbn [bind]. intros H. apply IH in H; auto. }
  intros H. apply X in H; auto.
Qed.

(** A sort exists. *)
Fixpoint insert_cut' (c : cut) (l : list cut) : list cut :=
  match l with
  | [] => [c]
  | d :: r => if dltb (score_of c) (score_of d) then d :: insert_cut' c r else c :: d :: r
  end.
Lemma insert_cut_perm c l : Permutation (insert_cut' c l) (c :: l).
Proof.
  induction l as [|d l IH]; cbn; auto. destruct (dltb _ _); auto.
  apply Permutation_trans with (d :: c :: l); [apply perm_skip; auto|apply perm_swap].
Qed.
Lemma insertion_sorts : sorts (fun l => fold_right insert_cut' [] l).
Proof.
  intros l. split.
  - induction l as [|c l IH]; cbn; auto. eapply Permutation_trans; [apply insert_cut_perm|]. apply perm_skip; auto.
  - intros F. induction F as [|c l HC F IH]; cbn; [constructor|].
    assert (FS : Forall has_score (fold_right insert_cut' [] l)).
    { clear - F. induction F as [|c l HC F IH]; cbn; auto.
      eapply Permutation_Forall; [apply Permutation_sym, insert_cut_perm|]. constructor; auto. }
    induction IH as [|d r S IHS D]; cbn; [repeat constructor|]. apply Forall_cons_iff in FS as [HD FS].
    destruct (dltb (score_of c) (score_of d)) eqn:E.
    + constructor; auto. eapply Permutation_Forall; [apply Permutation_sym, insert_cut_perm|].
      constructor; auto. unfold not_below. apply scored_total; auto. apply dltb_le; auto.
    + constructor; [constructor; auto|]. constructor; [exact E|].
      rewrite Forall_forall in *. intros x Hx. apply scored_total; auto. apply scored_total in E; auto.
      specialize (D x Hx). apply scored_total in D; auto. eapply dleb_trans; eauto.
Qed.

(** ** Efficacy and score *)
Lemma efficacy_formula r rhs x : canonical (ents r) -> canonical (ents x) ->
  ComputeEfficacy r rhs x = distance r rhs x.
Proof.
  intros Hr Hx. unfold ComputeEfficacy, distance, row_value.
  rewrite (DotProduct_spec r x) by auto. rewrite (DotProduct_spec r r) by auto. auto.
Qed.

Lemma score_formula p c : 0 <= number_of_integer_variables c <= number_of_non_zeros c ->
  number_of_non_zeros c <> 0 ->
  ComputeCutScore p c = Ok (weighted_score p c
    (if number_of_integer_variables c =? number_of_non_zeros c then d1 else d0)).
Proof.
  intros H N. unfold ComputeCutScore, weighted_score, weighted.
  destruct (Z.eqb_spec (number_of_non_zeros c) 0); [lia|].
  replace (Z.quot (number_of_integer_variables c) (number_of_non_zeros c))
    with (if number_of_integer_variables c =? number_of_non_zeros c then 1 else 0).
  - destruct (dltb d0 (integer_support_weight p)); cbn [bind]; auto.
    destruct (_ =? _); auto.
  - destruct (Z.eqb_spec (number_of_integer_variables c) (number_of_non_zeros c)) as [->|].
    + rewrite Z.quot_same; auto.
    + rewrite Z.quot_small; auto. lia.
Qed.

Lemma created_support ints obj x r rhs nm f :
  let c := CreateCut ints obj x r rhs nm f in
  0 <= number_of_integer_variables c <= number_of_non_zeros c /\
  number_of_non_zeros c = Z.of_nat (length (ents r)).
Proof.
  cbn. split; auto. split; [lia|]. apply inj_le. induction (ents r) as [|e l IH]; cbn; [lia|].
  destruct (existsb (Z.eqb (idx e)) ints); cbn; lia.
Qed.

Lemma count_all ints (l : list (entry num_double)) :
  (forall e, In e l -> In (idx e) ints) ->
  length (filter (fun e => existsb (Z.eqb (idx e)) ints) l) = length l.
Proof.
  induction l as [|e l IH]; intros H; [reflexivity|]. cbn [filter].
  assert (X : existsb (Z.eqb (idx e)) ints = true).
  { apply existsb_exists. exists (idx e). split; [apply H; left; reflexivity|apply Z.eqb_refl]. }
  rewrite X. cbn [length]. f_equal. apply IH. intros y Y. apply H. right. exact Y.
Qed.
Lemma count_less ints (l : list (entry num_double)) :
  (exists e, In e l /\ ~ In (idx e) ints) ->
  (length (filter (fun e => existsb (Z.eqb (idx e)) ints) l) < length l)%nat.
Proof.
  induction l as [|e l IH]; intros (y & Y & N); [destruct Y|]. cbn [filter]. destruct Y as [->|Y].
  - assert (X : existsb (Z.eqb (idx y)) ints = false).
    { destruct (existsb _ ints) eqn:X; auto. apply existsb_exists in X as (z & Z1 & Z2).
      apply Z.eqb_eq in Z2. subst z. contradiction. }
    rewrite X. cbn [length]. assert (L : forall k : list (entry num_double), (length (filter (fun e => existsb (Z.eqb (idx e)) ints) k) <= length k)%nat).
    { clear. induction k as [|z k IK]; cbn [filter]; [apply le_n|]. destruct (existsb (Z.eqb (idx z)) ints); cbn [length]; lia. }
    specialize (L l). lia.
  - specialize (IH (ex_intro _ y (conj Y N))). destruct (existsb _ ints); cbn [length]; lia.
Qed.
Lemma created_score p ints obj x r rhs nm f :
  let c := CreateCut ints obj x r rhs nm f in ents r <> [] ->
  number_of_non_zeros c = Z.of_nat (length (ents r)) /\
  exists s, ComputeCutScore p c = Ok (weighted_score p c s) /\
    ((forall e, In e (ents r) -> In (idx e) ints) -> s = d1) /\
    ((exists e, In e (ents r) /\ ~ In (idx e) ints) -> s = d0).
Proof.
  intros c H. destruct (created_support ints obj x r rhs nm f) as [A B]. fold c in A, B.
  split; [exact B|].
  exists (if number_of_integer_variables c =? number_of_non_zeros c then d1 else d0).
  split; [apply score_formula; [exact A|]; rewrite B; destruct (ents r); [congruence|cbn; lia]|].
  rewrite B. change (number_of_integer_variables c) with
    (Z.of_nat (length (filter (fun e : entry num_double => existsb (Z.eqb (idx e)) ints) (ents r)))).
  split; intros K.
  - rewrite (count_all ints (ents r) K), Z.eqb_refl. reflexivity.
  - pose proof (count_less ints (ents r) K) as L. destruct (Z.eqb_spec
      (Z.of_nat (length (filter (fun e : entry num_double => existsb (Z.eqb (idx e)) ints) (ents r)))) (Z.of_nat (length (ents r)))); [lia|reflexivity].
Qed.

Lemma erase_first_length l i : In i l -> S (length (erase_first l i)) = length l.
Proof.
  induction l as [|a r IH]; intros H; [destruct H|]. cbn [erase_first]. destruct (Z.eqb_spec a i) as [->|N]; [reflexivity|].
  cbn [length]. destruct H as [->|H]; [congruence|]. rewrite IH by exact H. reflexivity.
Qed.
Lemma at_lookup (l : list Z) k : (k < length l)%nat -> exists i, In i l /\ at_ l (Z.of_nat k) = Ok i.
Proof.
  intros H. unfold at_. destruct (Z.ltb_spec (Z.of_nat k) 0); [lia|]. rewrite Nat2Z.id.
  destruct (nth_error l k) as [i|] eqn:N; [exists i; split; [apply (nth_error_In l k N)|reflexivity]|].
  apply nth_error_None in N. lia.
Qed.
Lemma remove_last_alias g k : S k = length (active_cuts g) -> RemoveCutAlias g k = UB.
Proof.
  intros H. unfold RemoveCutAlias. destruct (at_lookup (active_cuts g) k ltac:(lia)) as (i & I & E).
  rewrite E. cbn [bind]. destruct (_ || _); [reflexivity|]. cbv zeta.
  pose proof (erase_first_length (active_cuts g) i I) as L.
  assert (X : at_ (erase_first (active_cuts g) i) (Z.of_nat k) = UB).
  { unfold at_. destruct (Z.ltb_spec (Z.of_nat k) 0); [lia|]. rewrite Nat2Z.id.
    destruct (nth_error (erase_first (active_cuts g) i) k) eqn:N; [|reflexivity].
    assert (NN : nth_error (erase_first (active_cuts g) i) k <> None) by congruence. apply nth_error_Some in NN. lia. }
  rewrite X. reflexivity.
Qed.

Lemma empty_cut_ub sort p cs c : In c cs -> number_of_non_zeros c = 0 ->
  dltb d0 (integer_support_weight p) = true -> SelectCuttingPlanes sort p cs = UB.
Proof.
  intros H N W. unfold SelectCuttingPlanes.
  assert (X : score_all p cs = UB); [|rewrite X; auto].
  induction cs as [|d cs IH]; [destruct H|]. cbn [score_all].
  assert (Y : forall d0, exists s, ComputeCutScore p d0 = Ok s \/ ComputeCutScore p d0 = UB).
  { intros d'. unfold ComputeCutScore. rewrite W. destruct (_ =? 0); cbn [bind]; [exists Double.d0; auto|eauto]. }
  destruct (Y d) as [s [E|E]]; rewrite E; cbn [bind]; auto.
  destruct H as [->|H].
  - unfold ComputeCutScore in E. rewrite W, N in E. discriminate.
  - rewrite IH by auto. auto.
Qed.

Lemma separate_guard {W} stops solved gens sel addr solve p (s s' : runner_state W) :
  Separate W stops solved gens sel addr solve p s = Ok s' ->
  stops (world s) = true \/ solved (world s) = false -> s' = s.
Proof.
  unfold Separate. intros H G.
  assert (M : MayRun W stops solved p s = false).
  { unfold MayRun. destruct G as [G|G]; rewrite G; auto. destruct (stops (world s)); auto. }
  destruct (Z.to_nat (max_iterations p - num_cutrounds s)); cbn [separate] in H; rewrite M in H;
    injection H as <-; auto.
Qed.

Lemma cut_row_body l l' : map body l = map body l' -> map cut_row l = map cut_row l'.
Proof.
  revert l'. induction l as [|c l IH]; intros [|c' l'] H; try discriminate; auto. cbn in *.
  injection H as H1 H. f_equal; auto. change (cut_row c) with (cut_row (body c)).
  change (cut_row c') with (cut_row (body c')). unfold body. unfold SetIndex. unfold cut_row. cbn. congruence.
Qed.

Lemma separate_progress {W} stops solved gen rest sel addr solve p (s s' : runner_state W) cs w1 fs w2 :
  Separate W stops solved (gen :: rest) sel addr solve p s = Ok s' ->
  stops (world s) = false -> solved (world s) = true ->
  num_cutrounds s < max_iterations p -> num_of_cuts_added_since_last_run s < max_num_cuts_per_node p ->
  Z.of_nat (length (active_cuts (reg s))) < max_num_cuts_total p ->
  gen (reg s) (world s) = Ok (cs, w1) -> cs <> [] ->
  sel (reg s) w1 cs = Ok (fs, w2) -> fs <> [] ->
  exists more, calls s' = calls s ++ map cut_row fs ++ more /\ In SolveDual more.
Proof.
  unfold Separate. intros H A B C D F G N S M.
  assert (R : MayRun W stops solved p s = true).
  { unfold MayRun, size_ge. rewrite A, B. cbn [negb].
    replace (max_iterations p <=? num_cutrounds s) with false by lia.
    replace (max_num_cuts_per_node p <=? num_of_cuts_added_since_last_run s) with false by lia.
    replace (max_num_cuts_total p <? 0) with false by lia.
    replace (max_num_cuts_total p <=? _) with false by lia. auto. }
  destruct (Z.to_nat (max_iterations p - num_cutrounds s)) as [|fuel] eqn:Ef; [lia|].
  cbn [separate run_generators] in H. rewrite R, G in H. cbn [bind] in H.
  destruct cs as [|c cs]; [congruence|]. rewrite S in H. cbn [bind] in H.
  destruct (add_cuts (reg s) fs) as [g1 is] eqn:E1. cbn [app] in H.
  destruct (add_cuts_ok _ _ _ _ E1) as (n1 & A1 & B1 & L1 & C1 & D1 & _).
  apply bind_ok in H as ([[g' w'] new'] & E2 & H).
  destruct (run_generators_ok W sel rest _ _ _ _ _ _ E2) as (n2 & A2 & B2 & D2 & _).
  destruct n1 as [|x n1]; [destruct fs; [congruence|discriminate L1]|].
  destruct new' as [|i new']; [rewrite D1 in D2; discriminate D2|].
  apply bind_ok in H as ([w3 log] & E3 & H). apply bind_ok in H as (w4 & E4 & H).
  pose proof (add_rows_ok W addr g' _ _ _ _ _ E3 (cuts (reg s)) ((x :: n1) ++ n2)) as H'.
  assert (H2 : log = calls s ++ map cut_row ((x :: n1) ++ n2)); [apply H'|clear H'; rename H2 into H'].
  3:{ apply separate_ok in H as (rounds & _ & _ & _ & _ & _ & _ & K & _). cbn [calls] in K.
    exists (map cut_row n2 ++ [SolveDual] ++ concat (map round_calls rounds)).
    rewrite K, H', map_app, (cut_row_body _ _ C1), <- !app_assoc. split; auto.
    apply in_or_app. right. left. auto. }
  - rewrite A2, A1, <- app_assoc. auto.
  - rewrite D2, D1, A1, !app_length, <- map_app, <- seq_app. auto.
Qed.

Lemma replay_app {W} addr solve l1 : forall l2 (w w1 : W), replay addr solve w l1 = Ok w1 ->
  replay addr solve w (l1 ++ l2) = replay addr solve w1 l2.
Proof.
  induction l1 as [|[r lhs rhs nm|] l1 IH]; intros l2 w w1 H; cbn [replay app] in *.
  - injection H as ->. auto.
  - apply bind_ok in H as (w2 & E1 & H). rewrite E1. cbn [bind]. auto.
  - apply bind_ok in H as (w2 & E1 & H). rewrite E1. cbn [bind]. auto.
Qed.

Lemma separate_replay {W} stops solved (gens : list (registry -> W -> outcome (list cut * W))) sel addr solve p :
  (forall g r w cs w', In g gens -> g r w = Ok (cs, w') -> w' = w) ->
  (forall r w cs fs w', sel r w cs = Ok (fs, w') -> w' = w) ->
  forall fuel s s', separate W stops solved gens sel addr solve p fuel s = Ok s' ->
  exists l, calls s' = calls s ++ l /\ replay addr solve (world s) l = Ok (world s').
Proof.
  intros Hg Hs.
  assert (G : forall gs g w new g' w' new', (forall x, In x gs -> In x gens) ->
    run_generators W sel gs g w new = Ok (g', w', new') -> w' = w).
  { induction gs as [|x gs IH]; intros g w new g' w' new' I H; cbn [run_generators] in H.
    - injection H as _ <- _. auto.
    - apply bind_ok in H as ([cs w1] & E1 & H). apply Hg in E1; [|apply I; left; auto]. subst w1.
      assert (I' : forall y, In y gs -> In y gens) by (intros; apply I; right; auto).
      destruct cs as [|c cs]; [apply IH in H; auto|].
      apply bind_ok in H as ([fs w2] & E2 & H). apply Hs in E2. subst w2.
      destruct (add_cuts g fs) as [g1 is]. apply IH in H; auto. }
  assert (R : forall g is w log w' log', add_rows W addr g is w log = Ok (w', log') ->
    exists l, log' = log ++ l /\ replay addr solve w l = Ok w').
  { induction is as [|i is IH]; intros w log w' log' H; cbn [add_rows] in H.
    - injection H as <- <-. exists []. rewrite app_nil_r. auto.
    - apply bind_ok in H as (c & _ & H). apply bind_ok in H as (w1 & E1 & H).
      apply IH in H as (l & -> & H). exists (cut_row c :: l). rewrite <- app_assoc. split; auto.
      cbn [replay cut_row]. rewrite E1. auto. }
  induction fuel as [|fuel IH]; intros s s' H; cbn [separate] in H.
  - destruct (MayRun _ _ _ _ s); [discriminate|]. injection H as <-. exists []. rewrite app_nil_r. auto.
  - destruct (MayRun _ _ _ _ s); [|injection H as <-; exists []; rewrite app_nil_r; auto].
    apply bind_ok in H as ([[g w] new] & E1 & H). apply G in E1; auto. subst w.
    destruct new as [|i new]; [injection H as <-; exists []; cbn; rewrite app_nil_r; auto|].
    apply bind_ok in H as ([w1 log] & E2 & H). apply bind_ok in H as (w2 & E3 & H).
    apply R in E2 as (l1 & -> & E2). apply IH in H as (l2 & H & E4). cbn [calls world] in *.
    exists (l1 ++ SolveDual :: l2). rewrite H, <- !app_assoc. split; auto.
    rewrite (replay_app _ _ _ _ _ _ E2). cbn [replay]. rewrite E3. auto.
Qed.
