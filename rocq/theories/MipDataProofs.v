(** Proofs about problems and MipData. *)
From Coq Require Import String List ZArith Bool Lia Permutation ZifyBool.
From Verif Require Import Outcome OutcomeFacts Num Double DoubleFacts DoubleExact SparseVector
  SparseVectorFacts VectorSpec VectorProofs SparseMatrix MatrixSpec MatrixFacts Problem MipData
  ProblemSpec.
Import ListNotations.
Open Scope Z_scope.

(** ** C18 *)
Lemma is_empty_iff s : is_empty s = false <-> s <> EmptyString.
Proof. destruct s; cbn; split; congruence. Qed.

Lemma variable_error_iff l : variable_error l = None <-> Forall variable_ok l.
Proof.
  induction l as [|v r IH]; cbn [variable_error].
  - split; auto.
  - rewrite Forall_cons_iff, <- IH. unfold variable_ok. rewrite <- is_empty_iff.
    destruct (is_empty (v_name v)); [split; [discriminate|intros [[? _] _]; discriminate]|].
    destruct (dltb (v_ub v) (v_lb v)); [split; [discriminate|intros [[_ ?] _]; discriminate]|].
    tauto.
Qed.

Lemma existsb_In i l : existsb (Z.eqb i) l = true <-> In i l.
Proof.
  rewrite existsb_exists. split.
  - intros (x & Hx & E). apply Z.eqb_eq in E. subst; auto.
  - intros H. exists i. split; auto. apply Z.eqb_refl.
Qed.
Lemma existsb_not_In i l : existsb (Z.eqb i) l = false <-> ~ In i l.
Proof. rewrite <- existsb_In. destruct (existsb (Z.eqb i) l); split; congruence. Qed.

Lemma index_error_iff con n l : forall seen, index_error con n seen l = None <->
  Forall (fun i => 0 <= i <= n) l /\ NoDup l /\ forall i, In i l -> ~ In i seen.
Proof.
  induction l as [|i r IH]; intros seen; cbn [index_error].
  - split; auto. intros _. repeat split; auto; constructor.
  - rewrite Forall_cons_iff, NoDup_cons_iff.
    destruct (Z.ltb_spec i 0); [split; [discriminate|lia]|].
    destruct (Z.ltb_spec n i); [split; [discriminate|lia]|].
    destruct (existsb (Z.eqb i) seen) eqn:E.
    + apply existsb_In in E. split; [discriminate|]. intros (_ & _ & A). exfalso. apply (A i); cbn; auto.
    + apply existsb_not_In in E. rewrite IH. cbn [In]. split.
      * intros (A & B & C). split; [split; [lia|auto]|]. split; [split; auto|].
        -- intros Hi. apply (C i Hi). auto.
        -- intros j [<-|Hj]; auto. intros Hs. apply (C j Hj). auto.
      * intros ([_ A] & [B C] & D). split; auto. split; auto. intros j Hj [<-|Hs]; auto.
        apply (D j); auto.
Qed.

Lemma constraint_error_1_iff n c : constraint_error_1 n c = None <-> constraint_ok n c.
Proof.
  unfold constraint_error_1, constraint_ok. rewrite <- is_empty_iff.
  destruct (is_empty (c_name c)); [split; [discriminate|intros [? _]; discriminate]|].
  destruct (index_error (c_name c) n [] (c_idx c)) eqn:E.
  - split; [discriminate|]. intros (_ & A & B & _).
    assert (X : index_error (c_name c) n [] (c_idx c) = None) by (apply index_error_iff; auto).
    congruence.
  - apply index_error_iff in E as (A & B & _).
    destruct (Nat.eqb_spec (length (c_idx c)) (length (c_coef c))) as [L|L]; cbn [negb].
    + destruct (dltb (c_rhs c) (c_lhs c)); [split; [discriminate|intros (_ & _ & _ & _ & ?); discriminate]|].
      split; auto.
    + split; [discriminate|]. intros (_ & _ & _ & ? & _). congruence.
Qed.

Lemma constraint_error_iff n l : constraint_error n l = None <-> Forall (constraint_ok n) l.
Proof.
  induction l as [|c r IH]; cbn [constraint_error].
  - split; auto.
  - rewrite Forall_cons_iff, <- IH, <- constraint_error_1_iff.
    destruct (constraint_error_1 n c); [split; [discriminate|intros [? _]; discriminate]|tauto].
Qed.

Lemma find_error_iff p : FindError p = None <-> problem_ok_upto (num_vars p) p.
Proof.
  unfold FindError, problem_ok_upto. rewrite <- variable_error_iff, <- constraint_error_iff.
  fold (num_vars p). destruct (variable_error (p_vars p)); [split; [discriminate|intros [? _]; discriminate]|tauto].
Qed.

Lemma constraint_ok_mono a b c : a <= b -> constraint_ok a c -> constraint_ok b c.
Proof.
  intros H (A & B & C & D & E). repeat split; auto.
  eapply Forall_impl; [|exact B]. cbn. lia.
Qed.

Lemma ok_accepted p : problem_ok p -> FindError p = None.
Proof.
  intros [A B]. apply find_error_iff. split; auto. eapply Forall_impl; [|exact B].
  intros c. apply constraint_ok_mono. lia.
Qed.

Lemma accepted_in_range p : FindError p = None ->
  Forall (fun c => ~ In (num_vars p) (c_idx c)) (p_cons p) -> problem_ok p.
Proof.
  intros H G. apply find_error_iff in H as [A B]. split; auto.
  rewrite Forall_forall in *. intros c Hc. destruct (B c Hc) as (C & D & E).
  split; auto. split; auto. specialize (G c Hc). rewrite Forall_forall in *.
  intros i Hi. specialize (D i Hi). assert (i <> num_vars p) by (intros ->; auto). lia.
Qed.

(** ** Loading *)
Definition dsvec := svec num_double.
Definition onz (x : double) : option num_double := nz (N := num_double) (Some x).

Lemma add_ents_inv {N : Num} (v : svec N) i (x : N) e : In e (ents (AddEntry v i x)) -> In e (ents v) \/ e = mkE i x.
Proof.
  unfold AddEntry. destruct (dirty v); [|destruct (i <=? last_index v); [|destruct (is0 x)]]; cbn [ents]; auto;
  rewrite in_app_iff; cbn; intuition.
Qed.
Lemma add_ents_old {N : Num} (v : svec N) i (x : N) e : In e (ents v) -> In e (ents (AddEntry v i x)).
Proof.
  unfold AddEntry. destruct (dirty v); [|destruct (i <=? last_index v); [|destruct (is0 x)]]; cbn [ents]; auto;
  rewrite in_app_iff; cbn; intuition.
Qed.
Lemma add_ents_new {N : Num} (v : svec N) i (x : N) : is0 x = false -> In (mkE i x) (ents (AddEntry v i x)).
Proof.
  intros H. unfold AddEntry. rewrite H. destruct (dirty v); [|destruct (i <=? last_index v)]; cbn [ents];
  rewrite in_app_iff; cbn; intuition.
Qed.

Lemma load_entries_ok l : forall k coefs (v : dsvec), 0 <= k ->
  Z.of_nat (length coefs) = k + Z.of_nat (length l) ->
  good v -> NoDup l -> (forall i, In i l -> content v i = None) ->
  exists v', load_entries k l coefs v = Ok v' /\ good v' /\
    (forall j, content v' j =
       match find (fun q => fst q =? j) (combine l (skipn (Z.to_nat k) coefs)) with
       | Some (_, x) => onz x | None => content v j end) /\
    (forall e, In e (ents v') -> In e (ents v) \/ In (idx e, val e) (combine l (skipn (Z.to_nat k) coefs))) /\
    (forall i x, In (i, x) (combine l (skipn (Z.to_nat k) coefs)) -> deqb x d0 = false -> In (mkE i (x : num_double)) (ents v')) /\
    (forall e, In e (ents v) -> In e (ents v')).
Proof.
  induction l as [|i r IH]; intros k coefs v Hk Hlen G ND HN.
  - exists v. cbn. repeat split; auto; try apply G; tauto.
  - cbn [load_entries length] in *. destruct (at_range coefs k) as [x Hx]; [lia|]. rewrite Hx. cbn [bind].
    apply NoDup_cons_iff in ND as [Ni ND].
    assert (SK : skipn (Z.to_nat k) coefs = x :: skipn (Z.to_nat (k + 1)) coefs).
    { apply at_ok in Hx as [_ Hx]. replace (Z.to_nat (k + 1)) with (S (Z.to_nat k)) by lia.
      clear - Hx. revert coefs Hx. induction (Z.to_nat k) as [|n IHn]; intros [|a coefs] Hx; cbn in *; try discriminate.
      - inversion Hx; auto.
      - apply IHn; auto. }
    rewrite SK. cbn [combine find fst].
    destruct (IH (k + 1) coefs (AddEntry v i (x : num_double))) as (v' & E & G' & C & I1 & I2 & I3); try lia; auto.
    { apply good_add; auto. }
    { intros j Hj. rewrite add_content by auto. destruct (Z.eqb_spec j i) as [->|]; [tauto|]. apply HN. cbn; auto. }
    pose proof (add_ents_inv v i (x : num_double)) as AE.
    pose proof (add_ents_old v i (x : num_double)) as AI.
    pose proof (add_ents_new v i (x : num_double)) as AX.
    exists v'. split; auto. split; auto. split; [|split; [|split]].
    + intros j. rewrite C. destruct (Z.eqb_spec i j) as [->|Nj].
      * destruct (find _ (combine r _)) as [[j' y]|] eqn:F.
        -- apply find_some in F as [F1 F2]. cbn in F2. apply Z.eqb_eq in F2. subst.
           apply in_combine_l in F1. tauto.
        -- rewrite add_content by auto. rewrite Z.eqb_refl. auto.
      * destruct (find _ (combine r _)) as [[j' y]|]; auto.
        rewrite add_content by auto. destruct (Z.eqb_spec j i); [congruence|auto].
    + intros e He. destruct (I1 e He) as [H|H]; [|cbn; auto].
      apply AE in H as [H|H]; auto. subst. cbn. auto.
    + intros j y [H|H] Hz.
      * inversion H; subst. apply I3, AX; auto.
      * apply I2; auto.
    + intros e He. apply I3, AI; auto.
Qed.

Lemma insert_In {N : Num} (a : entry N) l (e : entry N) : In e (insert a l) -> e = a \/ In e l.
Proof. intros H. apply insert_in in H. auto. Qed.
Lemma cleanup_In {N : Num} (v : svec N) e : In e (ents (CleanUp v)) -> In e (ents v).
Proof.
  unfold CleanUp. destruct (dirty v); auto. cbn [ents]. intros H. apply compact_in in H as [H _].
  revert H. generalize (ents v). induction l as [|a r IH]; cbn; auto.
  intros H. apply insert_In in H as [->|H]; auto.
Qed.

Definition vnth {A} (l : list A) (k : Z) : option A := if k <? 0 then None else nth_error l (Z.to_nat k).

Lemma vnth_cons {A} (a : A) l k : vnth (a :: l) k = if k =? 0 then Some a else vnth l (k - 1).
Proof.
  unfold vnth. destruct (Z.ltb_spec k 0).
  - destruct (Z.eqb_spec k 0); [lia|]. destruct (Z.ltb_spec (k - 1) 0); [auto|lia].
  - destruct (Z.eqb_spec k 0) as [->|]; auto. destruct (Z.ltb_spec (k - 1) 0); [lia|].
    replace (Z.to_nat k) with (S (Z.to_nat (k - 1))) by lia. auto.
Qed.
Lemma vnth_some {A} (l : list A) k a : vnth l k = Some a -> 0 <= k < Z.of_nat (length l) /\ In a l.
Proof.
  unfold vnth. destruct (Z.ltb_spec k 0); [discriminate|]. intros E. split.
  - assert (Z.to_nat k < length l)%nat by (apply nth_error_Some; congruence). lia.
  - eapply nth_error_In; eauto.
Qed.

Definition coef_at (c : option constraint) (j : Z) (d : double) : double :=
  match c with Some c => no_neg0 (coef_of c j) | None => d end.

Lemma or0_find (l : list (Z * double)) j :
  or0 (N := num_double) (match find (fun q => fst q =? j) l with Some (_, x) => onz x | None => None end)
  = no_neg0 (match find (fun q => fst q =? j) l with Some (_, x) => x | None => d0 end).
Proof. destruct (find _ l) as [[i x]|]; [apply or0_nz|reflexivity]. Qed.

Lemma load_cons_ok nv l : forall r ints flags (m : smat num_double) a,
  mrel m a -> a_nc a = nv -> 0 <= r -> r + Z.of_nat (length l) <= a_nr a ->
  Forall (constraint_ok (nv - 1)) l ->
  exists flags' m' a', load_cons r l ints flags m = Ok (flags ++ flags', m') /\ mrel m' a' /\
    a_nc a' = nv /\ a_nr a' = a_nr a /\ length flags' = length l /\
    (forall c q, a_val a' c q = coef_at (vnth l (q - r)) c (a_val a c q)) /\
    (forall q con, vnth l q = Some con -> exists v,
       vnth flags' q = Some (row_is_integral ints v) /\
       forall i x, In (i, x) (terms con) -> deqb x d0 = false -> In (mkE i (x : num_double)) (ents v)).
Proof.
  induction l as [|c l IH]; intros r ints flags m a R HC Hr HL HF.
  - exists [], m, a. rewrite app_nil_r. cbn. repeat split; auto; try apply R.
    + intros c q. unfold vnth. destruct (q - r <? 0); auto. destruct (Z.to_nat (q - r)); auto.
    + intros q con H. unfold vnth in H. destruct (q <? 0); try discriminate. destruct (Z.to_nat q); discriminate.
  - apply Forall_cons_iff in HF as [(_ & HI & HN & HLen & _) HF]. cbn [load_cons length] in *.
    destruct (load_entries_ok (c_idx c) 0 (c_coef c) vempty) as (v & E & G & C & I1 & I2 & _); try lia; auto.
    { apply good_empty. }
    change (skipn (Z.to_nat 0) (c_coef c)) with (c_coef c) in *.
    rewrite E. cbn [bind].
    destruct (mrel_step m a (MPopRow r v) R) as (m1 & E1 & R1).
    { cbn. split; [unfold in_rows; lia|]. split; [intros D; split; [apply G; auto|apply G; auto]|].
      apply Forall_forall. intros e He. apply cleanup_In in He. apply I1 in He as [[]|He].
      apply in_combine_l in He. rewrite Forall_forall in HI. apply HI in He. unfold in_cols. lia. }
    cbn [mstep] in E1. rewrite E1. cbn [bind].
    destruct (IH (r + 1) ints (flags ++ [row_is_integral ints v]) m1 _ R1) as (fl & m2 & a2 & E2 & R2 & NC & NR & LF & V & FL);
      cbn [astep a_nc a_nr] in *; auto; try lia.
    exists (row_is_integral ints v :: fl), m2, a2. rewrite <- app_assoc in E2. cbn [app] in E2.
    split; auto. split; auto. split; auto. split; auto. split; [cbn; lia|]. split.
    + intros j q. rewrite V. cbn [astep a_val]. rewrite vnth_cons.
      replace (q - (r + 1)) with (q - r - 1) by lia.
      destruct (Z.eqb_spec q r) as [->|Nq].
      * rewrite Z.sub_diag. cbn [Z.eqb]. replace (vnth l (0 - 1)) with (@None constraint) by reflexivity.
        cbn [coef_at]. rewrite (proj2 (proj2 (proj2 (proj2 (good_cleanup v G))))).
        rewrite C. unfold coef_of. apply or0_find.
      * destruct (Z.eqb_spec (q - r) 0); [lia|]. auto.
    + intros q con Hq. rewrite vnth_cons in Hq. rewrite vnth_cons. destruct (q =? 0).
      * injection Hq as <-. exists v. split; auto.
      * apply FL; auto.
Qed.

Lemma load_vars_ok l : forall i ints (obj : dsvec),
  good obj -> (forall j, i <= j -> content obj j = None) -> (forall j, In j ints -> 0 <= j < i) -> NoDup ints ->
  0 <= i ->
  Forall (fun v => v_int v = true -> dleb (v_lb v) (v_ub v) = true) l ->
  exists ints' obj', load_vars i l ints obj = Ok (ints', obj') /\ good obj' /\ NoDup ints' /\
    (forall j, In j ints' <-> In j ints \/ exists v, vnth l (j - i) = Some v /\ v_int v = true) /\
    (forall j, content obj' j = match vnth l (j - i) with Some v => onz (v_obj v) | None => content obj j end).
Proof.
  induction l as [|v l IH]; intros i ints obj G HN HI ND Hi HF.
  - exists ints, obj. cbn. split; auto. split; auto. split; auto.
    assert (A : forall j, vnth (@nil variable) j = None) by (intros j; unfold vnth; destruct (j <? 0); auto; destruct (Z.to_nat j); auto).
    split.
    + intros j. rewrite A. split; auto. intros [?|(? & ? & _)]; auto; discriminate.
    + intros j. rewrite A. auto.
  - apply Forall_cons_iff in HF as [HV HF]. cbn [load_vars].
    set (obj' := if negb (deqb (v_obj v) d0) then AddEntry obj i (v_obj v : num_double) else obj).
    assert (G' : good obj') by (unfold obj'; destruct (negb _); auto; apply good_add; auto).
    assert (C' : forall j, content obj' j = if j =? i then onz (v_obj v) else content obj j).
    { intros j. unfold obj', onz, nz. change (is0 (v_obj v : num_double)) with (deqb (v_obj v) d0).
      destruct (deqb (v_obj v) d0) eqn:Z0; cbn [negb].
      - destruct (Z.eqb_spec j i) as [->|]; auto. apply HN. lia.
      - rewrite add_content by auto. cbn [nz]. change (is0 (v_obj v : num_double)) with (deqb (v_obj v) d0). rewrite Z0. auto. }
    set (ints1 := if v_int v then set_insert ints i else ints).
    assert (X : (if v_int v then do _ <- check (dleb (v_lb v) (v_ub v)); Ok (set_insert ints i) else Ok ints) = Ok ints1).
    { unfold ints1. destruct (v_int v); auto. rewrite HV by auto. auto. }
    rewrite X. cbn [bind].
    assert (NI : ~ In i ints) by (intros H; apply HI in H; lia).
    assert (I1 : forall j, In j ints1 <-> In j ints \/ (j = i /\ v_int v = true)).
    { intros j. unfold ints1. destruct (v_int v).
      - unfold set_insert. rewrite (proj2 (existsb_not_In i ints)) by auto. rewrite in_app_iff. cbn. intuition.
      - intuition discriminate. }
    assert (N1 : NoDup ints1).
    { unfold ints1. destruct (v_int v); auto. unfold set_insert.
      rewrite (proj2 (existsb_not_In i ints)) by auto. apply NoDup_app_remove_r with (l' := nil) || idtac.
      apply (Permutation_NoDup (Permutation_cons_append ints i)). constructor; auto. }
    destruct (IH (i + 1) ints1 obj') as (ints' & o' & E & G2 & N2 & I2 & C2); auto; try lia.
    { intros j Hj. rewrite C'. destruct (Z.eqb_spec j i); [lia|]. apply HN. lia. }
    { intros j Hj. apply I1 in Hj as [Hj|[-> _]]; [apply HI in Hj|]; lia. }
    exists ints', o'. split; auto. split; auto. split; auto. split.
    + intros j. rewrite I2, I1, vnth_cons. replace (j - (i + 1)) with (j - i - 1) by lia.
      destruct (Z.eqb_spec (j - i) 0) as [Q|Q].
      * assert (j = i) by lia. subst j. rewrite Z.sub_diag. split.
        -- intros [[H|[_ H]]|(w & H & _)]; auto; [right; exists v; auto|discriminate].
        -- intros [H|(w & H & H2)]; auto. inversion H; subst. auto.
      * split.
        -- intros [[H|[H _]]|H]; auto. lia.
        -- intros [H|H]; auto.
    + intros j. rewrite C2, C', vnth_cons. replace (j - (i + 1)) with (j - i - 1) by lia.
      destruct (Z.eqb_spec (j - i) 0) as [Q|Q].
      * assert (j = i) by lia. subst j. rewrite Z.sub_diag, Z.eqb_refl. reflexivity.
      * destruct (Z.eqb_spec j i); [lia|]. auto.
Qed.

Lemma reinsert_ok types : forall i ints, (forall j, vnth types (j - i) = Some true -> In j ints) ->
  reinsert i types ints = ints.
Proof.
  induction types as [|b r IH]; intros i ints H; cbn [reinsert]; auto.
  assert (Q : (if b then set_insert ints i else ints) = ints).
  { destruct b; auto. unfold set_insert. rewrite (proj2 (existsb_In i ints)); auto.
    apply H. rewrite vnth_cons, Z.sub_diag. auto. }
  rewrite Q. apply IH. intros j Hj. apply H. rewrite vnth_cons.
  replace (j - i - 1) with (j - (i + 1)) by lia.
  destruct (Z.eqb_spec (j - i) 0) as [E|E]; auto.
  apply vnth_some in Hj. lia.
Qed.

Lemma vnth_map {A B} (f : A -> B) l k : vnth (map f l) k = option_map f (vnth l k).
Proof. unfold vnth. destruct (k <? 0); auto. apply nth_error_map. Qed.

Lemma ordered_le v : variable_ok v ->
  (v_int v = true -> is_nan (v_lb v) = false /\ is_nan (v_ub v) = false) ->
  v_int v = true -> dleb (v_lb v) (v_ub v) = true.
Proof.
  intros [_ H] N I. destruct (N I) as [A B]. rewrite dltb_negb in H by auto.
  destruct (dleb (v_lb v) (v_ub v)); auto; discriminate.
Qed.

(** Everything about a loaded problem. *)
Lemma loaded p : problem_ok p -> integer_bounds_ordered p ->
  exists d, MipData p = Ok d /\
    problem_name d = p_name p /\ was_maximization d = p_max p /\ hints d = p_hints p /\
    variable_names d = map v_name (p_vars p) /\
    lower_bounds d = map v_lb (p_vars p) /\ upper_bounds d = map v_ub (p_vars p) /\
    variable_is_integer d = map v_int (p_vars p) /\
    constraint_names d = map c_name (p_cons p) /\
    left_hand_sides d = map c_lhs (p_cons p) /\ right_hand_sides d = map c_rhs (p_cons p) /\
    NoDup (integer_variables d) /\ (forall j, In j (integer_variables d) <-> is_integer_var p j) /\
    (exists a, mrel (matrix d) a /\ a_nc a = num_vars p /\ a_nr a = num_cons p /\
       forall j r, 0 <= r < num_cons p -> a_val a j r = no_neg0 (input_coef p j r)) /\
    length (is_integral_constraint d) = length (p_cons p) /\
    (forall r c, nth_con p r = Some c -> exists v,
       vnth (is_integral_constraint d) r = Some (row_is_integral (integer_variables d) v) /\
       forall i x, In (i, x) (terms c) -> deqb x d0 = false -> In (mkE i (x : num_double)) (ents v)) /\
    objective_offset d = (if p_max p then dmul (p_offset p) dm1 else p_offset p) /\
    (forall j, value (objective d) j =
       match nth_var p j with
       | Some v => if deqb (v_obj v) d0 then d0 else if p_max p then dopp (v_obj v) else v_obj v
       | None => d0
       end).
Proof.
  intros [PV PC] IB. unfold MipData.
  destruct (load_vars_ok (p_vars p) 0 [] vempty) as (ints & obj & E & G & ND & IN & CO).
  { apply good_empty. } { reflexivity. } { intros j []. } { constructor. } { lia. }
  { unfold integer_bounds_ordered in IB. rewrite Forall_forall in *. intros v Hv. apply ordered_le; auto. }
  rewrite E. cbn [bind fst snd].
  destruct (load_cons_ok (num_vars p) (p_cons p) 0 ints [] _ _ (mrel_new (length (p_vars p)) (length (p_cons p))))
    as (fl & m & a & E2 & R & NC & NR & LF & V & FL); auto; try (cbn; lia).
  rewrite E2. cbn [bind fst snd app].
  assert (RI : reinsert 0 (map v_int (p_vars p)) ints = ints).
  { apply reinsert_ok. intros j Hj. apply IN. right. rewrite vnth_map in Hj.
    destruct (vnth (p_vars p) (j - 0)) as [v|]; [|discriminate]. exists v. inversion Hj; auto. }
  eexists. split; [reflexivity|]. cbn [problem_name was_maximization hints variable_names lower_bounds
    upper_bounds variable_is_integer constraint_names left_hand_sides right_hand_sides integer_variables
    matrix is_integral_constraint objective_offset objective].
  rewrite RI. do 10 (split; [reflexivity|]). split; auto. split; [|split; [|split; [|split; [|split]]]]; auto.
  - intros j. rewrite IN. rewrite Z.sub_0_r. unfold is_integer_var, nth_var. fold (vnth (p_vars p) j).
    split; auto. intros [[]|H]; auto.
  - exists a. split; auto. split; auto. split; [rewrite NR; reflexivity|].
    intros j r Hr. rewrite V, Z.sub_0_r. unfold input_coef, nth_con. fold (vnth (p_cons p) r).
    destruct (vnth (p_cons p) r) eqn:Q; auto.
  - intros j.
    destruct (good_cleanup obj G) as (G1 & D1 & C1 & _ & V1).
    assert (VV : value (CleanUp obj) j = or0 (N := num_double) (match nth_var p j with Some v => onz (v_obj v) | None => None end)).
    { rewrite V1, CO, Z.sub_0_r. reflexivity. }
    destruct (p_max p).
    + destruct (Transform_ok (fun _ v => nopp (v : num_double)) (CleanUp obj) (proj1 G1) D1) as (S & Z & F).
      rewrite value_find by (exact S). rewrite F.
      assert (FF : find_first (ents (CleanUp obj)) j = content (CleanUp obj) j) by (unfold content; rewrite D1; auto).
      rewrite FF, C1, CO, Z.sub_0_r. unfold nth_var. fold (vnth (p_vars p) j).
      destruct (vnth (p_vars p) j) as [v|]; [|reflexivity]. unfold onz, nz.
      change (is0 (v_obj v : num_double)) with (deqb (v_obj v) d0).
      destruct (deqb (v_obj v) d0) eqn:Z0; [reflexivity|].
      assert (Z1 : is0 (nopp (v_obj v : num_double)) = false) by (rewrite (proj2 num_double_ok); auto).
      rewrite Z1. reflexivity.
    + rewrite VV. unfold nth_var. fold (vnth (p_vars p) j).
      destruct (vnth (p_vars p) j) as [v|]; [|reflexivity]. unfold onz, nz.
      change (is0 (v_obj v : num_double)) with (deqb (v_obj v) d0).
      destruct (deqb (v_obj v) d0); reflexivity.
Qed.

(** ** C19, C20: any reads afterwards *)
Lemma loaded_reads p (reads : list (mop num_double)) : problem_ok p -> integer_bounds_ordered p ->
  exists d, MipData p = Ok d /\
   (Forall read_call reads -> calls_ok (mkA (N := num_double) (num_vars p) (num_cons p) (fun _ _ => d0)) reads ->
    exists m, mrun (matrix d) reads = Ok m /\
      reads_as m (num_vars p) (num_cons p) (fun j r => no_neg0 (input_coef p j r))).
Proof.
  intros H1 H2. destruct (loaded p H1 H2) as (d & E & _ & _ & _ & _ & _ & _ & _ & _ & _ & _ & _ & _ & (a & R & NC & NR & V) & _).
  exists d. split; auto. intros RD CK.
  assert (CK' : calls_ok a reads).
  { revert CK RD. generalize (fun _ _ : Z => d0 : num_double). intros f CK RD.
    clear - CK RD NC NR. revert CK. induction RD as [|o r Ho Hr IH]; cbn; auto.
    intros [A B]. destruct o; cbn in Ho; try tauto; cbn [astep] in *; split; auto;
      unfold call_ok, in_cols, in_rows in *; cbn [a_nc a_nr] in *; rewrite ?NC, ?NR; auto. }
  destruct (mrel_run reads _ _ R CK') as (m & E2 & R2). exists m. split; auto.
  rewrite areplay_reads in R2 by auto. apply mrel_reads in R2. rewrite NC, NR in R2.
  destruct R2 as (A & B & C). split; auto. split; auto. intros c r Hc Hr.
  rewrite <- V by auto. apply C; auto.
Qed.

(** ** C22 *)
Lemma integral_value x : dvalid x = true -> is_finite x = true -> IsIntegralCoefficient x = true ->
  is_whole (zval x).
Proof.
  intros V F H. destruct (dround_spec x V F) as (k & (V2 & F2 & E2) & _).
  unfold IsIntegralCoefficient in H. apply deqb_zval in H; auto. exists k. congruence.
Qed.

Lemma activity_whole p d r c z : problem_ok p -> integer_bounds_ordered p -> MipData p = Ok d ->
  nth_con p r = Some c -> at_ (is_integral_constraint d) r = Ok true -> finite_coefs c ->
  is_whole (activity c z).
Proof.
  intros H1 H2 HD HC HI HF.
  destruct (loaded p H1 H2) as (d' & E & _ & _ & _ & _ & _ & _ & _ & _ & _ & _ & _ & _ & _ & _ & FL & _).
  rewrite HD in E. inversion E; subst d'. destruct (FL r c HC) as (v & Hv & Hin).
  assert (T : row_is_integral (integer_variables d) v = true).
  { apply at_ok in HI as [R HI]. unfold vnth in Hv. destruct (Z.ltb_spec r 0); [lia|]. congruence. }
  unfold row_is_integral in T. rewrite forallb_forall in T.
  assert (K : forall q, In q (terms c) -> is_whole (zval (snd q) * z (fst q))).
  { intros [i x] Hq. cbn [fst snd].
    assert (FX : dvalid x = true /\ is_finite x = true).
    { unfold finite_coefs in HF. rewrite Forall_forall in HF. apply HF. eapply in_combine_r; eauto. }
    destruct (deqb x d0) eqn:Z0.
    - apply deqb_zval in Z0; try apply FX; auto. rewrite Z0. exists 0. cbn. lia.
    - specialize (Hin i x Hq Z0). apply T in Hin. apply andb_prop in Hin as [Hin _]. cbn in Hin.
      destruct (integral_value x (proj1 FX) (proj2 FX) Hin) as [k Hk]. exists (k * z i). rewrite Hk. ring. }
  clear FL Hin. unfold activity. induction (terms c) as [|q l IH]; cbn [map fold_right].
  - exists 0. lia.
  - destruct (K q) as [k1 E1]; [cbn; auto|]. destruct IH as [k2 E2]; [intros; apply K; cbn; auto|].
    exists (k1 + k2). rewrite E1, E2. ring.
Qed.

(** ** C23 *)
Lemma add_solutions_spec l : l <> [] ->
  Forall (fun s => is_nan (s_obj s) = false /\ dltb (s_obj s) dinf = true) l ->
  let r := AddSolutions res_default l in
  Permutation (best r :: additional r) l /\
  exists l1 l2, l = l1 ++ best r :: l2 /\
    Forall (fun s => dltb (s_obj (best r)) (s_obj s) = true) l1 /\
    Forall (fun s => dleb (s_obj (best r)) (s_obj s) = true) l2.
Proof.
  induction l as [|s l IH] using rev_ind; [congruence|]. intros _ HF.
  apply Forall_app in HF as [HF HS]. apply Forall_cons_iff in HS as [[HN HL] _].
  unfold AddSolutions. rewrite fold_left_app. cbn [fold_left]. fold (AddSolutions res_default l).
  destruct l as [|s0 l'].
  - cbn [AddSolutions fold_left]. unfold AddSolution. cbn [best res_default sol_default s_obj additional].
    rewrite HL. change (deqb dinf dinf) with true. cbn [negb best additional].
    split; auto. exists [], []. auto.
  - destruct IH as (P & l1 & l2 & E & A & B); auto; [discriminate|].
    set (r := AddSolutions res_default (s0 :: l')) in *.
    assert (NB : is_nan (s_obj (best r)) = false /\ dltb (s_obj (best r)) dinf = true).
    { rewrite Forall_forall in HF. apply HF. rewrite E. apply in_app_iff. cbn; auto. }
    unfold AddSolution. destruct (dltb (s_obj s) (s_obj (best r))) eqn:C.
    + assert (NI : deqb (s_obj (best r)) dinf = false).
      { destruct NB as [_ NB]. revert NB. destruct (s_obj (best r)) as [|[]| |]; cbn; try discriminate; auto. }
      rewrite NI. cbn [negb best additional]. split.
      * apply Permutation_trans with (s :: s0 :: l').
        { apply perm_skip. apply Permutation_trans with (best r :: additional r); auto.
          apply Permutation_sym, Permutation_cons_append. }
        apply Permutation_cons_append.
      * exists (s0 :: l'), []. split; auto. split; auto. rewrite E. apply Forall_app. split.
        -- eapply Forall_impl; [|exact A]. cbn. intros x Hx. eapply dltb_trans; eauto.
        -- constructor; auto. eapply Forall_impl; [|exact B]. cbn. intros x Hx. eapply dlt_le_trans; eauto.
    + cbn [best additional]. split.
      * apply Permutation_trans with ((best r :: additional r) ++ [s]); auto.
        apply Permutation_app_tail. auto.
      * exists l1, (l2 ++ [s]). split; [rewrite E, <- app_assoc; auto|]. split; auto.
        apply Forall_app. split; auto. constructor; auto.
        rewrite dltb_negb in C by first [apply NB | auto].
        destruct (dleb (s_obj (best r)) (s_obj s)); auto; discriminate.
Qed.

(** ** C24 *)
Lemma dabs_spec x v : worth x v -> worth (dabs x) (Z.abs v).
Proof.
  intros (V & F & E). destruct x as [s|s| |s m e]; try discriminate; cbn in E |- *.
  - subst. split; [|split]; auto.
  - split; [exact V|]. split; auto. subst v. cbn [zval dabs SFabs].
    assert (0 <= 2 ^ (e + 1074)) by (apply Z.pow_nonneg; lia). destruct s; nia.
Qed.

Lemma round_distance x : dvalid x = true -> is_finite x = true ->
  exists v, worth (dabs (dsub x (dround x))) v /\ (exists k, v = Z.abs (zval x - k * zone)) /\
    forall k, v <= Z.abs (zval x - k * zone).
Proof.
  intros V F. pose proof zone_pos as ZP.
  destruct (dround_spec x V F) as (k & (V2 & F2 & E2) & D).
  exists (Z.abs (zval x - k * zone)).
  assert (M : forall k', Z.abs (zval x - k * zone) <= Z.abs (zval x - k' * zone)) 
    by (intros k'; destruct (Z.eq_dec k k') as [->|NE]; [lia|];
        assert (zone <= Z.abs ((k - k') * zone)) by (rewrite Z.abs_mul, (Z.abs_eq zone) by lia; nia);
        assert ((k - k') * zone = k * zone - k' * zone) by ring; lia).
  split; [|split; [exists k; auto|exact M]].
  apply dabs_spec. rewrite <- E2 in *.
  destruct x as [s|s| |s m e]; try discriminate.
  - destruct s; vm_compute; auto.
  - pose proof (bounded_spec m e V) as (B1 & B2 & B3).
    apply dsub_exact with (t := e + 1074); auto; try lia.
    + specialize (M 0). rewrite Z.mul_0_l, Z.sub_0_r in M. eapply Z.le_lt_trans; [exact M|].
      cbn [zval]. rewrite (Z.pow_add_r 2 53 (e + 1074)) by lia.
      assert (0 < 2 ^ (e + 1074)) by (apply Z.pow_pos_nonneg; lia). destruct s; nia.
    + destruct (Z.leb_spec 0 e) as [G|G].
      * replace (zval (S754_finite s m e) - zval (dround (S754_finite s m e))) with 0; [apply Z.divide_0_r|].
        cbn [dround]. destruct (Z.leb_spec 0 e); lia.
      * apply Z.divide_sub_r.
        -- cbn [zval]. exists (if s then - Z.pos m else Z.pos m). auto.
        -- rewrite E2. exists (k * 2 ^ (- e)). rewrite zone_pow, <- Z.mul_assoc, <- Z.pow_add_r by lia.
           do 2 f_equal. lia.
Qed.

Lemma close_iff x tol : dvalid x = true -> dvalid tol = true -> is_finite tol = true ->
  (close_to_integer x tol = true <-> is_finite x = true /\ near_integer x tol).
Proof.
  intros V VT FT. unfold close_to_integer. destruct (is_finite x) eqn:F.
  - destruct (round_distance x V F) as (v & (A & B & C) & [k K] & M).
    rewrite dleb_zval by auto. rewrite C. split.
    + intros H. split; auto. exists k. lia.
    + intros [_ [k' H]]. specialize (M k'). lia.
  - split; [|intros [? _]; discriminate]. destruct x as [|[]| |]; try discriminate; cbn; destruct tol; discriminate.
Qed.

Lemma all_of_true f l : all_of f l = Ok true <-> forall i, In i l -> f i = Ok true.
Proof.
  induction l as [|i r IH]; cbn [all_of].
  - split; auto. intros _ i [].
  - destruct (f i) as [b| | | |] eqn:E; cbn [bind]; try (split; [discriminate|intros H; specialize (H i); cbn in H; rewrite E in H; intuition discriminate]).
    destruct b.
    + rewrite IH. split; [intros H j [<-|Hj]; auto|intros H j Hj; apply H; cbn; auto].
    + split; [discriminate|]. intros H. specialize (H i). rewrite E in H. discriminate H. cbn; auto.
Qed.
Lemma all_of_ok f l : (forall i, In i l -> exists b, f i = Ok b) -> exists b, all_of f l = Ok b.
Proof.
  induction l as [|i r IH]; cbn [all_of]; intros H; eauto.
  destruct (H i) as [b E]; [cbn; auto|]. rewrite E. cbn [bind]. destruct b; eauto. apply IH. intros; apply H; cbn; auto.
Qed.

Lemma solution_is_integral order x tol : Forall (fun i => 0 <= i < Z.of_nat (length x)) order ->
  Forall (fun v => dvalid v = true) x -> dvalid tol = true -> is_finite tol = true ->
  exists b, SolutionIsIntegral order x tol = Ok b /\
    (b = true <-> forall i v, In i order -> at_ x i = Ok v -> is_finite v = true /\ near_integer v tol).
Proof.
  intros HR HV VT FT. unfold SolutionIsIntegral. rewrite Forall_forall in HR, HV.
  destruct (all_of_ok (fun i => do v <- at_ x i; Ok (close_to_integer v tol)) order) as [b E].
  { intros i Hi. destruct (at_range x i (HR i Hi)) as [v ->]. cbn. eauto. }
  exists b. split; auto. 
  assert (Q : b = true <-> all_of (fun i => do v <- at_ x i; Ok (close_to_integer v tol)) order = Ok true)
    by (rewrite E; split; congruence).
  rewrite Q, all_of_true. split.
  - intros H i v Hi Hv. specialize (H i Hi). rewrite Hv in H. cbn in H. inversion H as [H1]. rewrite H1.
    apply close_iff in H1; auto. apply HV. eapply at_In; eauto.
  - intros H i Hi. destruct (at_range x i (HR i Hi)) as [v Hv]. rewrite Hv. cbn. f_equal.
    apply close_iff; auto; [apply HV; eapply at_In; eauto|]. eapply H; eauto.
Qed.

Lemma solution_order o1 o2 x tol : Permutation o1 o2 ->
  Forall (fun i => 0 <= i < Z.of_nat (length x)) o1 ->
  SolutionIsIntegral o1 x tol = SolutionIsIntegral o2 x tol.
Proof.
  intros P HR. assert (HR2 : Forall (fun i => 0 <= i < Z.of_nat (length x)) o2) by (eapply Permutation_Forall; eauto).
  unfold SolutionIsIntegral. set (f := fun i => do v <- at_ x i; Ok (close_to_integer v tol)).
  assert (T : forall o, Forall (fun i => 0 <= i < Z.of_nat (length x)) o -> exists b, all_of f o = Ok b).
  { intros o Ho. apply all_of_ok. rewrite Forall_forall in Ho. intros i Hi. unfold f.
    destruct (at_range x i (Ho i Hi)) as [v ->]. cbn. eauto. }
  destruct (T o1 HR) as [b1 E1]. destruct (T o2 HR2) as [b2 E2]. rewrite E1, E2. f_equal.
  apply eq_true_iff_eq.
  assert (A : forall o b, all_of f o = Ok b -> (b = true <-> forall i, In i o -> f i = Ok true)).
  { intros o b E. rewrite <- all_of_true, E. split; congruence. }
  rewrite (A _ _ E1), (A _ _ E2). split; intros H i Hi; apply H; [eapply Permutation_in; [apply Permutation_sym|]|eapply Permutation_in]; eauto.
Qed.

(** ** C20, C21 in the form of the property theorems *)
Lemma faithful p : problem_ok p -> integer_bounds_ordered p ->
  exists d, MipData p = Ok d /\
    problem_name d = p_name p /\ hints d = p_hints p /\
    variable_names d = map v_name (p_vars p) /\
    lower_bounds d = map v_lb (p_vars p) /\ upper_bounds d = map v_ub (p_vars p) /\
    variable_is_integer d = map v_int (p_vars p) /\
    constraint_names d = map c_name (p_cons p) /\
    left_hand_sides d = map c_lhs (p_cons p) /\ right_hand_sides d = map c_rhs (p_cons p) /\
    length (is_integral_constraint d) = length (p_cons p) /\
    NoDup (integer_variables d) /\ (forall j, In j (integer_variables d) <-> is_integer_var p j) /\
    reads_as (matrix d) (num_vars p) (num_cons p) (fun j r => no_neg0 (input_coef p j r)).
Proof.
  intros H1 H2. destruct (loaded p H1 H2) as (d & E & A1 & A2 & A3 & A4 & A5 & A6 & A7 & A8 & A9 & A10 & A11 & A12 & (a & R & NC & NR & V) & A13 & _).
  exists d. do 13 (split; [assumption|]).
  apply mrel_reads in R. rewrite NC, NR in R. destruct R as (B & C & D). split; auto. split; auto.
  intros c r Hc Hr. rewrite <- V by auto. apply D; auto.
Qed.

Lemma objective_of p d : problem_ok p -> integer_bounds_ordered p -> MipData p = Ok d ->
  was_maximization d = p_max p /\
  (dvalid (p_offset p) = true -> objective_offset d = if p_max p then dopp (p_offset p) else p_offset p) /\
  (forall j, value (objective d) j =
     let c := input_objective p j in
     if deqb c d0 then d0 else if p_max p then dopp c else c).
Proof.
  intros H1 H2 HD.
  destruct (loaded p H1 H2) as (d' & E & _ & A2 & _ & _ & _ & _ & _ & _ & _ & _ & _ & _ & _ & _ & _ & O & V).
  rewrite HD in E. injection E as <-. split; auto. split.
  - intros HV. rewrite O. destruct (p_max p); auto. apply dmul_m1; auto.
  - intros j. rewrite V. unfold input_objective. destruct (nth_var p j); auto.
Qed.

Lemma objective_value p d z : problem_ok p -> integer_bounds_ordered p -> MipData p = Ok d ->
  finite_objective p ->
  linear (value (objective d)) (length (p_vars p)) z =
  (if p_max p then -1 else 1) * linear (input_objective p) (length (p_vars p)) z.
Proof.
  intros H1 H2 HD HF. destruct (objective_of p d H1 H2 HD) as (_ & _ & V).
  assert (K : forall j, zval (value (objective d) j : double) = (if p_max p then -1 else 1) * zval (input_objective p j)).
  { intros j. rewrite V. cbv zeta.
    assert (FV : dvalid (input_objective p j) = true /\ is_finite (input_objective p j) = true).
    { unfold input_objective. destruct (nth_var p j) eqn:Q; [|auto]. unfold finite_objective in HF.
      rewrite Forall_forall in HF. apply HF. unfold nth_var in Q. destruct (j <? 0); [discriminate|].
      eapply nth_error_In; eauto. }
    destruct FV as [FV FF]. destruct (deqb (input_objective p j) d0) eqn:Z0.
    - apply deqb_zval in Z0; auto. rewrite Z0. cbn. lia.
    - destruct (p_max p); [|lia]. destruct (dopp_spec _ FV FF) as (_ & _ & Q). rewrite Q. lia. }
  unfold linear. induction (seq 0 (length (p_vars p))) as [|j l IH]; cbn [map fold_right]; [lia|].
  rewrite IH, K. ring.
Qed.

(** ** C22 in the form of the property theorem *)
Lemma slack_whole p d r c z : problem_ok p -> integer_bounds_ordered p -> MipData p = Ok d ->
  nth_con p r = Some c -> at_ (is_integral_constraint d) r = Ok true -> finite_coefs c ->
  (is_whole (zval (c_rhs c)) -> is_whole (zval (c_rhs c) - activity c z)) /\
  (is_whole (zval (c_lhs c)) -> is_whole (activity c z - zval (c_lhs c))).
Proof.
  intros H1 H2 H3 H4 H5 H6. destruct (activity_whole p d r c z H1 H2 H3 H4 H5 H6) as [k K].
  split; intros [m M]; [exists (m - k)|exists (k - m)]; rewrite K, M; ring.
Qed.

Lemma slack_not_whole p d r c z : problem_ok p -> integer_bounds_ordered p -> MipData p = Ok d ->
  nth_con p r = Some c -> at_ (is_integral_constraint d) r = Ok true -> finite_coefs c ->
  ~ is_whole (zval (c_rhs c)) -> ~ is_whole (zval (c_rhs c) - activity c z).
Proof.
  intros H1 H2 H3 H4 H5 H6 H7 [m M]. destruct (activity_whole p d r c z H1 H2 H3 H4 H5 H6) as [k K].
  apply H7. exists (m + k). lia.
Qed.

(** The coefficient test: exactly the whole finite numbers and the infinities pass. *)
Lemma integral_coefficient_iff x : dvalid x = true -> is_finite x = true ->
  (IsIntegralCoefficient x = true <-> is_whole (zval x)).
Proof.
  intros V F. split; [apply integral_value; auto|]. intros [k K].
  destruct (dround_spec x V F) as (k' & (V2 & F2 & E2) & D). pose proof zone_pos as ZP.
  unfold IsIntegralCoefficient. apply deqb_zval; auto. rewrite E2, K in *.
  assert (k = k') by nia. subst; auto.
Qed.

Lemma flag_iff p d r c : problem_ok p -> integer_bounds_ordered p -> MipData p = Ok d ->
  nth_con p r = Some c -> at_ (is_integral_constraint d) r = Ok true ->
  Forall (fun q => deqb (snd q) d0 = true \/ (IsIntegralCoefficient (snd q) = true /\ is_integer_var p (fst q))) (terms c).
Proof.
  intros H1 H2 HD HC HI.
  destruct (loaded p H1 H2) as (d' & E & _ & _ & _ & _ & _ & _ & _ & _ & _ & _ & _ & IV & _ & _ & FL & _).
  rewrite HD in E. injection E as <-. destruct (FL r c HC) as (v & Hv & Hin).
  assert (T : row_is_integral (integer_variables d) v = true).
  { apply at_ok in HI as [R HI]. unfold vnth in Hv. destruct (Z.ltb_spec r 0); [lia|]. congruence. }
  unfold row_is_integral in T. rewrite forallb_forall in T.
  apply Forall_forall. intros [i x] Hq. cbn [fst snd]. destruct (deqb x d0) eqn:Z0; auto. right.
  specialize (T _ (Hin i x Hq Z0)). apply andb_prop in T as [T1 T2]. cbn in T1, T2.
  split; auto. apply IV. apply existsb_In; auto.
Qed.

Lemma near_zero x : near_integer x d0 <-> is_whole (zval x).
Proof.
  unfold near_integer, is_whole. change (zval d0) with 0. split; intros [k K]; exists k; lia.
Qed.
