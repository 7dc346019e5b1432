(** LPs as tables over the rationals: adding rows, setting bounds, and the table of a problem. *)
From Coq Require Import String List ZArith Bool QArith Lia ZifyBool Permutation Sorted SpecFloat.
From Verif Require Import Outcome OutcomeFacts Num Double DoubleFacts Rounding SparseVector SparseVectorFacts VectorSpec SparseMatrix MatrixSpec MatrixFacts
  Aggregation Problem MipData ProblemSpec MipDataProofs CutsData Selector Runner CutSpec CutProofs LpParams
  GlopLp GlopIface GlopSpec GlopProofs GlopMore MipTree TreeSpec Solver SolverSpec SolverProofs Whole WholeSpec.
Import ListNotations.
Open Scope Z_scope.

(** ** Sums *)
Lemma q_sum_cons a l : q_sum (a :: l) = (a + q_sum l)%Q.
Proof. reflexivity. Qed.
Lemma q_sum_app l l' : (q_sum (l ++ l') == q_sum l + q_sum l')%Q.
Proof.
  induction l as [|a l IH]; cbn [app]; rewrite ?q_sum_cons, ?IH; [change (q_sum []) with 0%Q|]; ring.
Qed.
Lemma q_sum_perm l l' : Permutation l l' -> (q_sum l == q_sum l')%Q.
Proof.
  induction 1; rewrite ?q_sum_cons; [reflexivity| |ring|].
  - rewrite IHPermutation. reflexivity.
  - etransitivity; eauto.
Qed.
Lemma q_sum_ext {B} (f g : B -> Q) l : (forall a, In a l -> (f a == g a)%Q) -> (q_sum (map f l) == q_sum (map g l))%Q.
Proof.
  induction l as [|a l IH]; intros H; [reflexivity|]. cbn [map]. rewrite !q_sum_cons.
  rewrite (H a) by (left; auto). rewrite IH; [reflexivity|]. intros b Hb. apply H. right. auto.
Qed.
Lemma q_sum_zero {B} (f : B -> Q) l : (forall a, In a l -> (f a == 0)%Q) -> (q_sum (map f l) == 0)%Q.
Proof.
  induction l as [|a l IH]; intros H; [reflexivity|]. cbn [map]. rewrite q_sum_cons, (H a), IH; [ring| |left; auto].
  intros b Hb. apply H. right. auto.
Qed.
Lemma split_off {B} (K : list B) : forall D, NoDup K -> incl K D -> exists rest, Permutation D (K ++ rest).
Proof.
  induction K as [|k K IH]; intros D N I; [exists D; auto|].
  inversion N as [|? ? N1 N2]; subst.
  destruct (in_split k D) as (D1 & D2 & ->); [apply I; left; auto|].
  destruct (IH (D1 ++ D2) N2) as [rest P].
  { intros j J. assert (X : In j (D1 ++ k :: D2)) by (apply I; right; auto).
    apply in_app_or in X as [X|[X|X]]; apply in_or_app; auto. subst. tauto. }
  exists rest. etransitivity; [symmetry; apply Permutation_middle|]. cbn. constructor. auto.
Qed.
(** A sum over 0..n-1 of terms that vanish outside [K]. *)
Lemma sum_support (f : Z -> Q) n K : NoDup K -> (forall k, In k K -> 0 <= k < Z.of_nat n) ->
  (forall j, ~ In j K -> (f j == 0)%Q) ->
  (q_sum (map f (upto n)) == q_sum (map f K))%Q.
Proof.
  intros N R Z0. destruct (split_off K (upto n) N) as [rest P].
  { intros k Hk. apply In_upto. auto. }
  rewrite (q_sum_perm _ _ (Permutation_map f P)), map_app, q_sum_app.
  rewrite (q_sum_zero f rest); [ring|]. intros j Hj. apply Z0.
  assert (ND : NoDup (K ++ rest)).
  { eapply Permutation_NoDup; [exact P|]. unfold upto. apply FinFun.Injective_map_NoDup; [intros a b; lia|apply seq_NoDup]. }
  intros HK. clear - ND Hj HK. induction K as [|k K IH]; [destruct HK|]. inversion ND; subst.
  destruct HK as [->|HK]; [apply H1; apply in_or_app; auto|auto].
Qed.

Lemma numbered_sum {B} (f : Z * B -> Q) (l : list B) (h : Z -> Q) :
  (forall j b, at_ l j = Ok b -> (f (j, b) == h j)%Q) ->
  (q_sum (map f (numbered l)) == q_sum (map h (upto (length l))))%Q.
Proof.
  intros H. unfold numbered.
  assert (X : forall (l' : list B) (k : Z), (forall j b, at_ l' j = Ok b -> (f ((k + j)%Z, b) == h (k + j)%Z)%Q) ->
    (q_sum (map f (combine (zfrom k (length l')) l')) == q_sum (map h (zfrom k (length l'))))%Q).
  { induction l' as [|b l' IH]; intros k H'; [reflexivity|].
    cbn [length]. rewrite zfrom_S. cbn [combine map]. rewrite !q_sum_cons, IH.
    - specialize (H' 0 b eq_refl). rewrite Z.add_0_r in H'. rewrite H'. reflexivity.
    - intros j c Hj. replace (k + 1 + j) with (k + (j + 1)) by lia. apply H'. rewrite at_cons; auto.
      apply at_in_range in Hj. lia. }
  rewrite upto_zfrom. apply X. intros j b Hj. exact (H j b Hj).
Qed.
Lemma numbered_ext {B C} (f : Z * B -> Q) (g : Z * C -> Q) (l : list B) (l' : list C) : length l = length l' ->
  (forall j b c, at_ l j = Ok b -> at_ l' j = Ok c -> (f (j, b) == g (j, c))%Q) ->
  (q_sum (map f (numbered l)) == q_sum (map g (numbered l')))%Q.
Proof.
  intros L H. rewrite (numbered_sum f l (fun j => match at_ l j with Ok b => f (j, b) | _ => 0%Q end)).
  - rewrite (numbered_sum g l' (fun j => match at_ l j with Ok b => f (j, b) | _ => 0%Q end)).
    + rewrite L. reflexivity.
    + intros j c Hc. destruct (at_range l j) as [b Hb]; [apply at_in_range in Hc; lia|]. rewrite Hb. symmetry. eauto.
  - intros j b Hb. rewrite Hb. reflexivity.
Qed.

Lemma qval_zero x : zval x = 0 -> (qval x == 0)%Q.
Proof. intros H. unfold qval. rewrite H. reflexivity. Qed.
Lemma qval_opp x y : zval y = - zval x -> (qval y == - qval x)%Q.
Proof. intros H. unfold qval, Qopp, Qeq. cbn [Qnum Qden]. rewrite H. reflexivity. Qed.
Lemma qval_d0 : (qval d0 == 0)%Q.
Proof. apply qval_zero. reflexivity. Qed.

(** ** Adding a row *)
Definition full (t : table) : Prop := Forall (fun g => length (t_coefs g) = length (t_rows t)) (t_cols t).
Lemma full_table l : full (table_of l).
Proof. apply table_full. Qed.

Definition entries_sum (v : svec num_double) (x : point) : Q :=
  q_sum (map (fun e : entry num_double => qval (val e) * x (idx e))%Q (ents v)).

Lemma add_row_cols t v lo hi n : length (t_cols (GlopSpec.add_row t v lo hi n)) = length (t_cols t).
Proof. unfold GlopSpec.add_row. cbn [t_cols]. rewrite map_length, combine_length, upto_length. lia. Qed.
Lemma at_add_row_col t v lo hi n j : at_ (t_cols (GlopSpec.add_row t v lo hi n)) j =
  match at_ (t_cols t) j with Ok g => Ok (map_coefs (fun l => l ++ [coef (ents v) j]) g) | _ => UB end.
Proof.
  unfold GlopSpec.add_row. cbn [t_cols]. rewrite at_map, at_combine.
  destruct (at_ (t_cols t) j) as [g| | | |] eqn:Hj; try (destruct (at_ (upto _) j); reflexivity).
  rewrite at_upto by (apply at_in_range in Hj; auto). reflexivity.
Qed.
Lemma full_add_row t v lo hi n : full t -> full (GlopSpec.add_row t v lo hi n).
Proof.
  intros F. apply Forall_forall. intros g Hg. apply In_at in Hg as [j Hj]. rewrite at_add_row_col in Hj.
  destruct (at_ (t_cols t) j) as [g0| | | |] eqn:H0; try discriminate Hj. injection Hj as <-.
  unfold full in F. rewrite Forall_forall in F. specialize (F g0 (at_In _ _ _ H0)).
  unfold GlopSpec.add_row, map_coefs. cbn [t_coefs t_rows]. rewrite !app_length. cbn. lia.
Qed.

Lemma coef_in_old g r c : 0 <= r < Z.of_nat (length (t_coefs g)) ->
  coef_in (map_coefs (fun l => l ++ [c]) g) r = coef_in g r.
Proof.
  intros R. unfold coef_in, map_coefs. cbn [t_coefs]. rewrite at_app.
  replace (r <? Z.of_nat (length (t_coefs g))) with true by lia. reflexivity.
Qed.
Lemma coef_in_new g c : coef_in (map_coefs (fun l => l ++ [c]) g) (Z.of_nat (length (t_coefs g))) = c.
Proof.
  unfold coef_in, map_coefs. cbn [t_coefs]. rewrite (at_mid (t_coefs g) c []) by auto. reflexivity.
Qed.

Lemma row_sum_old t v lo hi n r x : full t -> 0 <= r < t_nr t ->
  (row_sum (GlopSpec.add_row t v lo hi n) r x == row_sum t r x)%Q.
Proof.
  intros F R. unfold row_sum. apply numbered_ext; [apply add_row_cols|].
  intros j b c Hb Hc. rewrite at_add_row_col, Hc in Hb. injection Hb as <-. cbn [fst snd].
  unfold full in F. rewrite Forall_forall in F. specialize (F c (at_In _ _ _ Hc)).
  rewrite coef_in_old; [reflexivity|]. unfold t_nr in R. lia.
Qed.

Lemma sorted_nodup (l : list ent) : StronglySorted (fun a b => idx a < idx b) l -> NoDup (map (fun e : ent => idx e) l).
Proof.
  induction 1 as [|e l S IH F]; cbn [map]; constructor; auto.
  intros H. apply in_map_iff in H as (e' & E1 & E2). rewrite Forall_forall in F. specialize (F e' E2). lia.
Qed.
Lemma coef_entry (l : list ent) (e : ent) : canonical l -> In e l -> coef l (idx e) = val e.
Proof.
  intros C I. rewrite coef_find by auto. rewrite (find_first_in l e); auto. apply C.
Qed.

Lemma row_sum_new t v lo hi n x : full t -> clean_vector (t_nc t) v ->
  (row_sum (GlopSpec.add_row t v lo hi n) (t_nr t) x == entries_sum v x)%Q.
Proof.
  intros F (_ & C & R). unfold row_sum.
  rewrite (numbered_sum _ _ (fun j => qval (coef (ents v) j) * x j)%Q).
  - rewrite add_row_cols. unfold entries_sum.
    rewrite (sum_support _ _ (map (fun e : ent => idx e) (ents v))).
    + rewrite map_map. apply q_sum_ext. intros e He. rewrite coef_entry by auto. reflexivity.
    + apply sorted_nodup. apply C.
    + intros k Hk. apply in_map_iff in Hk as (e & <- & He). rewrite Forall_forall in R. apply R. auto.
    + intros j Hj. rewrite coef_none.
      * rewrite qval_d0. ring.
      * intros e He Ee. apply Hj. apply in_map_iff. eauto.
  - intros j b Hb. rewrite at_add_row_col in Hb. destruct (at_ (t_cols t) j) as [g| | | |] eqn:Hg; try discriminate Hb.
    injection Hb as <-. cbn [fst snd]. unfold full in F. rewrite Forall_forall in F. specialize (F g (at_In _ _ _ Hg)).
    unfold t_nr. rewrite <- F, coef_in_new. reflexivity.
Qed.

Lemma rows_hold_add t v lo hi n x : full t -> clean_vector (t_nc t) v ->
  (rows_hold (GlopSpec.add_row t v lo hi n) x <->
   rows_hold t x /\ q_above lo (entries_sum v x) /\ q_below (entries_sum v x) hi).
Proof.
  intros F C. split.
  - intros H. split.
    + intros r g Hg. assert (R := at_in_range _ _ _ Hg).
      destruct (H r g) as [A B].
      { unfold GlopSpec.add_row. cbn [t_rows]. rewrite at_app. replace (r <? Z.of_nat (length (t_rows t))) with true by lia. auto. }
      pose proof (row_sum_old t v lo hi n r x F R) as E.
      split; [eapply q_above_eq|eapply q_below_eq]; eauto.
    + destruct (H (t_nr t) (mkTR lo hi n)) as [A B].
      { unfold GlopSpec.add_row, t_nr. cbn [t_rows]. rewrite (at_mid (t_rows t) _ []) by auto. auto. }
      pose proof (row_sum_new t v lo hi n x F C) as E. cbn [t_lhs t_rhs] in A, B.
      split; [eapply q_above_eq|eapply q_below_eq]; eauto.
  - intros (H & A & B) r g Hg. unfold GlopSpec.add_row in Hg. cbn [t_rows] in Hg. rewrite at_app in Hg.
    destruct (Z.ltb_spec r (Z.of_nat (length (t_rows t)))) as [R|R].
    + assert (R' := at_in_range _ _ _ Hg). pose proof (row_sum_old t v lo hi n r x F R') as E.
      destruct (H r g Hg). split; [eapply q_above_eq|eapply q_below_eq]; eauto; symmetry; auto.
    + assert (X := at_in_range _ _ _ Hg). cbn [length] in X. replace r with (t_nr t) in * by (unfold t_nr; lia).
      unfold t_nr in Hg. rewrite Z.sub_diag in Hg. cbn in Hg. injection Hg as <-. cbn [t_lhs t_rhs].
      pose proof (row_sum_new t v lo hi n x F C) as E.
      split; [eapply q_above_eq|eapply q_below_eq]; eauto; symmetry; auto.
Qed.
Lemma rows_within_add eps t v lo hi n x : full t ->
  rows_within eps (GlopSpec.add_row t v lo hi n) x -> rows_within eps t x.
Proof.
  intros F H r g Hg. assert (R := at_in_range _ _ _ Hg).
  destruct (H r g) as [A B].
  { unfold GlopSpec.add_row. cbn [t_rows]. rewrite at_app. replace (r <? Z.of_nat (length (t_rows t))) with true by lia. auto. }
  pose proof (row_sum_old t v lo hi n r x F R) as E.
  split; [apply (q_above_eq _ (row_sum (GlopSpec.add_row t v lo hi n) r x + eps)%Q)|
          apply (q_below_eq _ (row_sum (GlopSpec.add_row t v lo hi n) r x - eps)%Q)]; auto; rewrite E; reflexivity.
Qed.
Lemma table_cost_add t v lo hi n x : (table_cost (GlopSpec.add_row t v lo hi n) x == table_cost t x)%Q.
Proof.
  unfold table_cost. apply numbered_ext; [apply add_row_cols|].
  intros j b c Hb Hc. rewrite at_add_row_col, Hc in Hb. injection Hb as <-. reflexivity.
Qed.
(** [proper_table] but for the column bounds. *)
Definition tame (t : table) : Prop :=
  Forall (fun g => finite_double (t_obj g) /\ Forall finite_double (t_coefs g)) (t_cols t) /\
  Forall (fun g => is_nan (t_lhs g) = false /\ is_nan (t_rhs g) = false) (t_rows t).
Lemma tame_add t v lo hi n : tame t ->
  Forall (fun e : entry num_double => finite_double (val e)) (ents v) -> canonical (ents v) ->
  is_nan lo = false -> is_nan hi = false -> tame (GlopSpec.add_row t v lo hi n).
Proof.
  intros [P1 P2] FV C N1 N2. split.
  - apply Forall_forall. intros g Hg. apply In_at in Hg as [j Hj]. rewrite at_add_row_col in Hj.
    destruct (at_ (t_cols t) j) as [g0| | | |] eqn:H0; try discriminate Hj. injection Hj as <-.
    rewrite Forall_forall in P1. destruct (P1 g0 (at_In _ _ _ H0)) as (A & B). unfold map_coefs. cbn [t_obj t_coefs t_lb t_ub].
    split; [exact A|]. apply Forall_app. split; auto. constructor; auto.
    rewrite coef_find by auto. destruct (find_first (ents v) j) as [y|] eqn:Ff.
    + apply find_first_some in Ff. destruct Ff as (e & E1 & E2 & E3). rewrite Forall_forall in FV. cbn [or0]. rewrite <- E3. auto.
    + split; reflexivity.
  - unfold GlopSpec.add_row. cbn [t_rows]. apply Forall_app. split; auto.
Qed.

(** ** Setting column bounds *)
Definition with_bounds (t : table) (c : Z) (lo hi : double) : table := table_step t (CSetColumnBounds c lo hi).
Lemma at_with_bounds t c lo hi j : at_ (t_cols (with_bounds t c lo hi)) j =
  match at_ (t_cols t) j with
  | Ok g => Ok (if j =? c then mkTC lo hi (t_obj g) (t_name g) (t_coefs g) else g) | _ => UB end.
Proof. unfold with_bounds. cbn [table_step t_cols]. rewrite at_change_at. destruct (at_ (t_cols t) j); reflexivity. Qed.
Lemma with_bounds_length t c lo hi : length (t_cols (with_bounds t c lo hi)) = length (t_cols t).
Proof. apply change_at_length. Qed.
Lemma row_sum_bounds t c lo hi r x : (row_sum (with_bounds t c lo hi) r x == row_sum t r x)%Q.
Proof.
  unfold row_sum. apply numbered_ext; [apply with_bounds_length|]. intros j b g Hb Hg.
  rewrite at_with_bounds, Hg in Hb. injection Hb as <-. destruct (j =? c); reflexivity.
Qed.
Lemma table_cost_bounds t c lo hi x : (table_cost (with_bounds t c lo hi) x == table_cost t x)%Q.
Proof.
  unfold table_cost. apply numbered_ext; [apply with_bounds_length|]. intros j b g Hb Hg.
  rewrite at_with_bounds, Hg in Hb. injection Hb as <-. destruct (j =? c); reflexivity.
Qed.
Lemma rows_hold_bounds t c lo hi x : rows_hold (with_bounds t c lo hi) x <-> rows_hold t x.
Proof.
  assert (X : forall t1 t2, t_rows t1 = t_rows t2 -> (forall r, (row_sum t1 r x == row_sum t2 r x)%Q) ->
    rows_hold t1 x -> rows_hold t2 x).
  { intros t1 t2 R E H r g Hg. rewrite <- R in Hg. destruct (H r g Hg).
    split; [eapply q_above_eq|eapply q_below_eq]; eauto. }
  split; apply X; auto; intros r; rewrite row_sum_bounds; reflexivity.
Qed.
Lemma rows_within_bounds eps t c lo hi x : rows_within eps (with_bounds t c lo hi) x -> rows_within eps t x.
Proof.
  intros H r g Hg. destruct (H r g Hg) as [A B].
  split; [apply (q_above_eq _ (row_sum (with_bounds t c lo hi) r x + eps)%Q)|
          apply (q_below_eq _ (row_sum (with_bounds t c lo hi) r x - eps)%Q)]; auto; rewrite row_sum_bounds; reflexivity.
Qed.
Lemma rows_within_zero t x : rows_within 0 t x <-> rows_hold t x.
Proof.
  assert (P : forall q, (q + 0 == q)%Q) by (intros; ring). assert (M : forall q, (q - 0 == q)%Q) by (intros; ring).
  split; intros H r g Hg; destruct (H r g Hg) as [A B].
  - split; [exact (q_above_eq _ _ _ (P _) A)|exact (q_below_eq _ _ _ (M _) B)].
  - split; [apply (q_above_eq _ (row_sum t r x))|apply (q_below_eq _ (row_sum t r x))]; auto; symmetry; auto.
Qed.
Lemma tame_bounds t c lo hi : tame t -> tame (with_bounds t c lo hi).
Proof.
  intros [P1 P2]. split; auto. apply Forall_forall. intros g Hg. apply In_at in Hg as [j Hj].
  rewrite at_with_bounds in Hj. destruct (at_ (t_cols t) j) as [g0| | | |] eqn:H0; try discriminate Hj. injection Hj as <-.
  rewrite Forall_forall in P1. destruct (P1 g0 (at_In _ _ _ H0)) as (A & B). destruct (j =? c); cbn; auto.
Qed.

(** ** The table of a problem *)
Lemma nth_var_at p j v : nth_var p j = Some v <-> at_ (p_vars p) j = Ok v.
Proof.
  unfold nth_var, at_. destruct (j <? 0); [split; intros H; discriminate H|].
  destruct (nth_error (p_vars p) (Z.to_nat j)); split; intros H; try discriminate H; congruence.
Qed.
Lemma nth_con_at p j v : nth_con p j = Some v <-> at_ (p_cons p) j = Ok v.
Proof.
  unfold nth_con, at_. destruct (j <? 0); [split; intros H; discriminate H|].
  destruct (nth_error (p_cons p) (Z.to_nat j)); split; intros H; try discriminate H; congruence.
Qed.
Lemma loaded_table p d l : problem_ok p -> integer_bounds_ordered p -> MipData p = Ok d ->
  PopulateFromMipData d = Ok l -> wf l /\ table_of l = problem_table p.
Proof.
  intros H1 H2 D PL.
  destruct (loaded p H1 H2) as (d' & E & A1 & A2 & A3 & A4 & A5 & A6 & A7 & A8 & A9 & A10 & A11 & A12 & (a & R & NC & NR & V) & A13 & _ & _ & OB).
  rewrite D in E. injection E as <-.
  destruct (populate_ok d a) as (l' & El & W & T); rewrite ?A4, ?A5, ?A6, ?A8, ?A9, ?A10, ?map_length; auto.
  rewrite PL in El. injection El as <-. split; auto. rewrite T.
  destruct R as (Ec & Er & g & Hg & Hv).
  apply table_ext; auto; unfold data_table, problem_table; cbn [t_cols t_rows].
  - rewrite A5, A6, A4, A9, !map_length. apply at_ext.
    { rewrite !map_length, !combine_length, !upto_length, !map_length. lia. }
    intros k Hk. rewrite map_length, !combine_length, upto_length, !map_length in Hk.
    rewrite !at_map, !at_combine, !at_map, at_upto by lia.
    destruct (at_ (p_vars p) k) as [v| | | |] eqn:Ev; auto. f_equal. rewrite OB.
    rewrite (proj2 (nth_var_at p k v) Ev). f_equal. apply map_ext_in. intros r Hr. apply In_upto in Hr.
    unfold matrix_coef. unfold num_vars, num_cons in *.
    destruct (get_ok (matrix d) g k r Hg) as (m' & Em & _); [lia|lia|]. rewrite Em.
    rewrite Hv by (unfold in_cols, in_rows; lia). apply V. lia.
  - rewrite A8, A9, A10. apply at_ext.
    { rewrite !map_length, !combine_length, !map_length. lia. }
    intros k Hk. rewrite map_length, !combine_length, !map_length in Hk.
    rewrite !at_map, !at_combine, !at_map. destruct (at_ (p_cons p) k); auto.
Qed.

Definition table_obj (p : problem) (v : variable) : double :=
  if deqb (v_obj v) d0 then d0 else if p_max p then dopp (v_obj v) else v_obj v.
Lemma at_problem_cols p j : at_ (t_cols (problem_table p)) j =
  match at_ (p_vars p) j with
  | Ok v => Ok (mkTC (v_lb v) (v_ub v) (table_obj p v) (v_name v)
                  (map (fun r => no_neg0 (input_coef p j r)) (upto (length (p_cons p)))))
  | _ => UB end.
Proof.
  unfold problem_table. cbn [t_cols]. rewrite at_map, at_combine.
  destruct (at_ (p_vars p) j) as [v| | | |] eqn:H; try (destruct (at_ (upto _) j); reflexivity).
  rewrite at_upto by (apply at_in_range in H; auto). reflexivity.
Qed.
Lemma problem_cols_length p : length (t_cols (problem_table p)) = length (p_vars p).
Proof. unfold problem_table. cbn [t_cols]. rewrite map_length, combine_length, upto_length. lia. Qed.

Lemma qval_no_neg0 x : (qval (no_neg0 x) == qval x)%Q.
Proof.
  unfold no_neg0, drop0. destruct (is0 (n := num_double) x) eqn:Z0; [|reflexivity].
  destruct x as [[]|[]| |[]]; try discriminate Z0; reflexivity.
Qed.
Lemma no_neg0_finite x : finite_double x -> finite_double (no_neg0 x).
Proof. unfold no_neg0, drop0. destruct (is0 (n := num_double) x); auto. split; reflexivity. Qed.
Lemma coef_of_in c i x : NoDup (c_idx c) -> In (i, x) (terms c) -> coef_of c i = x.
Proof.
  unfold coef_of, terms. generalize (c_coef c). generalize (c_idx c).
  induction l as [|k l IH]; intros [|y l'] N H; try destruct H. cbn [combine find fst snd].
  - injection H as -> ->. rewrite Z.eqb_refl. reflexivity.
  - inversion N; subst. cbn [combine find fst]. destruct (Z.eqb_spec k i) as [->|D].
    + exfalso. apply H2. eapply in_combine_l; eauto.
    + apply IH; auto.
Qed.
Lemma coef_of_out c i : ~ In i (c_idx c) -> coef_of c i = d0.
Proof.
  unfold coef_of. generalize (c_coef c). generalize (c_idx c).
  induction l as [|k l IH]; intros [|y l'] N; cbn [combine find fst]; auto.
  destruct (Z.eqb_spec k i) as [->|D]; [destruct N; left; auto|]. apply IH. intros H. apply N. right. auto.
Qed.

Section Problem.
Context (p : problem) (PP : proper_problem p).

Lemma con_ok r c : nth_con p r = Some c -> constraint_ok (num_vars p - 1) c.
Proof.
  intros H. apply nth_con_at in H. destruct (pp_ok p PP) as [_ C]. rewrite Forall_forall in C. apply C. eapply at_In; eauto.
Qed.
Lemma problem_row_sum r c x : nth_con p r = Some c -> (row_sum (problem_table p) r x == row_activity c x)%Q.
Proof.
  intros H. destruct (con_ok r c H) as (_ & R & N & L & _). unfold row_sum.
  rewrite (numbered_sum _ _ (fun j => qval (coef_of c j) * x j)%Q).
  - rewrite problem_cols_length, (sum_support _ _ (c_idx c)); auto.
    + unfold row_activity. rewrite <- (map_map fst (fun j => qval (coef_of c j) * x j)%Q (terms c)) || idtac.
      replace (c_idx c) with (map fst (terms c)) at 1.
      * rewrite map_map. apply q_sum_ext. intros [i y] Hi. cbn [fst snd]. rewrite (coef_of_in c i y) by auto. reflexivity.
      * unfold terms. rewrite map_fst_combine || idtac. clear - L. revert L. generalize (c_coef c).
        induction (c_idx c) as [|k l IH]; intros [|y l'] L; cbn in *; try discriminate L; auto. f_equal. auto.
    + intros k Hk. rewrite Forall_forall in R. specialize (R k Hk). unfold num_vars in R. lia.
    + intros j Hj. rewrite coef_of_out by auto. rewrite qval_d0. ring.
  - intros j b Hb. rewrite at_problem_cols in Hb. destruct (at_ (p_vars p) j) as [v| | | |]; try discriminate Hb.
    injection Hb as <-. cbn [fst snd]. unfold coef_in. cbn [t_coefs]. rewrite at_map, at_upto.
    + unfold input_coef. rewrite H, qval_no_neg0. reflexivity.
    + apply nth_con_at, at_in_range in H. auto.
Qed.
Lemma problem_rows_hold x : rows_hold (problem_table p) x <->
  forall r c, nth_con p r = Some c -> q_above (c_lhs c) (row_activity c x) /\ q_below (row_activity c x) (c_rhs c).
Proof.
  split.
  - intros H r c Hc. destruct (H r (mkTR (c_lhs c) (c_rhs c) (c_name c))) as [A B].
    { unfold problem_table. cbn [t_rows]. rewrite at_map, (proj1 (nth_con_at p r c) Hc). reflexivity. }
    pose proof (problem_row_sum r c x Hc) as E. split; [eapply q_above_eq|eapply q_below_eq]; eauto.
  - intros H r g Hg. unfold problem_table in Hg. cbn [t_rows] in Hg. rewrite at_map in Hg.
    destruct (at_ (p_cons p) r) as [c| | | |] eqn:Hc; try discriminate Hg. injection Hg as <-. cbn [t_lhs t_rhs].
    apply nth_con_at in Hc. destruct (H r c Hc). pose proof (problem_row_sum r c x Hc) as E.
    split; [eapply q_above_eq|eapply q_below_eq]; eauto; symmetry; auto.
Qed.

Lemma problem_rows_within eps x : rows_within eps (problem_table p) x ->
  forall r c, nth_con p r = Some c ->
  q_above (c_lhs c) (row_activity c x + eps)%Q /\ q_below (row_activity c x - eps)%Q (c_rhs c).
Proof.
  intros H r c Hc. destruct (H r (mkTR (c_lhs c) (c_rhs c) (c_name c))) as [A B].
  { unfold problem_table. cbn [t_rows]. rewrite at_map, (proj1 (nth_con_at p r c) Hc). reflexivity. }
  pose proof (problem_row_sum r c x Hc) as E. cbn [t_lhs t_rhs] in A, B.
  split; [apply (q_above_eq _ (row_sum (problem_table p) r x + eps)%Q)|
          apply (q_below_eq _ (row_sum (problem_table p) r x - eps)%Q)]; auto; rewrite E; reflexivity.
Qed.
Lemma var_obj j v : nth_var p j = Some v -> finite_double (v_obj v).
Proof.
  intros H. apply nth_var_at, at_In in H. pose proof (pp_objective p PP) as F. unfold finite_objective in F.
  rewrite Forall_forall in F. exact (F v H).
Qed.
Lemma table_obj_val v : finite_double (v_obj v) ->
  (qval (table_obj p v) == (if p_max p then -1 else 1) * qval (v_obj v))%Q /\ finite_double (table_obj p v).
Proof.
  intros [V F]. unfold table_obj. destruct (deqb (v_obj v) d0) eqn:Z0.
  - apply deqb_zval in Z0; auto. split; [|split; reflexivity]. rewrite qval_d0, (qval_zero (v_obj v)) by exact Z0. destruct (p_max p); ring.
  - destruct (p_max p).
    + destruct (dopp_spec (v_obj v) V F) as (V2 & F2 & E2). split; [|split; auto].
      rewrite (qval_opp _ _ E2). ring.
    + split; [|split; auto]. ring.
Qed.
Lemma problem_cost x : (table_cost (problem_table p) x == cost p x)%Q.
Proof.
  unfold table_cost. rewrite (numbered_sum _ _ (fun j => (if p_max p then -1 else 1) * (qval (input_objective p j) * x j))%Q).
  - rewrite problem_cols_length. unfold cost, upto. rewrite map_map.
    generalize (seq 0 (length (p_vars p))). intros l. induction l as [|k l IH]; cbn [map]; rewrite ?q_sum_cons.
    + change (q_sum []) with 0%Q. ring.
    + rewrite IH. ring.
  - intros j b Hb. rewrite at_problem_cols in Hb. destruct (at_ (p_vars p) j) as [v| | | |] eqn:Hv; try discriminate Hb.
    injection Hb as <-. cbn [fst snd t_obj]. apply nth_var_at in Hv.
    destruct (table_obj_val v (var_obj j v Hv)) as [E _]. rewrite E. unfold input_objective. rewrite Hv. ring.
Qed.

Lemma problem_bounds_ok j v : nth_var p j = Some v ->
  is_nan (v_lb v) = false /\ is_nan (v_ub v) = false /\ dvalid (v_lb v) = true /\ dvalid (v_ub v) = true.
Proof.
  intros H. apply nth_var_at, at_In in H. pose proof (pp_bounds p PP) as F. rewrite Forall_forall in F. exact (F v H).
Qed.
Lemma problem_bounds_ordered : integer_bounds_ordered p.
Proof. unfold integer_bounds_ordered. eapply Forall_impl; [|exact (pp_bounds p PP)]. cbn. tauto. Qed.

Lemma problem_tame : tame (problem_table p).
Proof.
  split.
  - apply Forall_forall. intros g Hg. apply In_at in Hg as [j Hj]. rewrite at_problem_cols in Hj.
    destruct (at_ (p_vars p) j) as [v| | | |] eqn:Hv; try discriminate Hj. injection Hj as <-. cbn [t_obj t_coefs t_lb t_ub].
    apply nth_var_at in Hv. split; [apply table_obj_val, (var_obj j v Hv)|].
    apply Forall_forall. intros y Hy. apply in_map_iff in Hy as (r & <- & Hr). unfold input_coef.
    assert (X : finite_double (match nth_con p r with Some c => coef_of c j | None => d0 end)).
    { destruct (nth_con p r) as [c|] eqn:Hc; [|split; reflexivity]. apply nth_con_at, at_In in Hc.
      pose proof (pp_coefs p PP) as F. rewrite Forall_forall in F. specialize (F c Hc). unfold finite_coefs in F.
      rewrite Forall_forall in F. unfold coef_of. destruct (find _ _) as [[i y]|] eqn:Ff; [|split; reflexivity].
      apply find_some in Ff as [Ff _]. apply F. eapply in_combine_r; eauto. }
    apply no_neg0_finite. exact X.
  - unfold problem_table. cbn [t_rows]. apply Forall_map. eapply Forall_impl; [|exact (pp_sides p PP)]. cbn. tauto.
Qed.
End Problem.
