(** Proofs about reading models and about parameters. *)
From Coq Require Import String Ascii List ZArith Bool Lia.
From Verif Require Import Outcome OutcomeFacts Num Double Aggregation LpParams Selector Runner Branching
  Problem ProblemSpec MipDataProofs Reader Params GlopIface GlopSpec GlopMore SoplexIface SoplexSpec
  SoplexMore ReaderSpec.
Import ListNotations.
Open Scope Z_scope.

(** *** Model conversion *)
Lemma said_get {B} (x : option B) d : said x d (get x d).
Proof. destruct x; split; cbn; intros; congruence. Qed.
Lemma said_unique {B} (x : option B) d v : said x d v -> v = get x d.
Proof. intros [H1 H2]. destruct x; [apply H1|apply H2]; reflexivity. Qed.

Definition converted (m : mp_model) : problem :=
  mkProblem (get (m_name m) EmptyString) (map read_variable (m_vars m))
    (map read_constraint (m_cons m))
    (match m_hint m with Some h => [mkHint (mh_idx h) (mh_val h)] | None => [] end)
    (get (m_max m) false) (get (m_offset m) d0).
Lemma converted_same m : same_model m (converted m).
Proof.
  split; try apply said_get.
  - cbn [converted p_vars]. induction (m_vars m); constructor; auto. split; apply said_get.
  - cbn [converted p_cons]. induction (m_cons m); constructor; auto. split; try apply said_get; reflexivity.
  - intros h H. unfold converted. rewrite H. reflexivity.
  - intros H. unfold converted. rewrite H. reflexivity.
Qed.
Lemma same_var_unique a v : same_variable a v -> v = read_variable a.
Proof.
  intros [A B C D F]. destruct v; cbn in *. unfold read_variable.
  rewrite (said_unique _ _ _ A), (said_unique _ _ _ B), (said_unique _ _ _ C), (said_unique _ _ _ D),
    (said_unique _ _ _ F). reflexivity.
Qed.
Lemma same_con_unique a c : same_constraint a c -> c = read_constraint a.
Proof.
  intros [A B C D F]. destruct c; cbn in *. subst. unfold read_constraint.
  rewrite (said_unique _ _ _ A), (said_unique _ _ _ D), (said_unique _ _ _ F). reflexivity.
Qed.
Lemma Forall2_map {A B} (R : A -> B -> Prop) (f : A -> B) :
  (forall a b, R a b -> b = f a) -> forall l l', Forall2 R l l' -> l' = map f l.
Proof. intros H l l' F. induction F; cbn; [reflexivity|]. rewrite (H _ _ H0), <- IHF. reflexivity. Qed.
Lemma same_unique m p : same_model m p -> p = converted m.
Proof.
  intros [A B C D F G1 G2]. destruct p; cbn in *. unfold converted.
  rewrite (said_unique _ _ _ A), (said_unique _ _ _ B), (said_unique _ _ _ C).
  rewrite (Forall2_map _ _ same_var_unique _ _ D), (Forall2_map _ _ same_con_unique _ _ F).
  destruct (m_hint m) as [h|]; [rewrite (G1 h eq_refl)|rewrite (G2 eq_refl)]; reflexivity.
Qed.

Lemma convert_cases m : (~ supported_model m -> MPModelProtoToMiniMipProblem m = Err InvalidArgument) /\
  (supported_model m -> MPModelProtoToMiniMipProblem m =
     match FindError (converted m) with Some _ => Err InvalidArgument | None => Ok (converted m) end).
Proof.
  unfold MPModelProtoToMiniMipProblem, supported_model.
  destruct (Nat.eqb_spec (m_general m) 0) as [E1|E1]; cbn [negb].
  2:{ split; [reflexivity|]. intros (A & _). contradiction. }
  destruct (m_quadratic m).
  { split; [reflexivity|]. intros (_ & A & _). discriminate A. }
  destruct (Nat.eqb_spec (m_annotations m) 0) as [E2|E2]; cbn [negb].
  2:{ split; [reflexivity|]. intros (_ & _ & A). contradiction. }
  split; [|reflexivity]. intros N. exfalso. apply N. repeat split; assumption.
Qed.
Lemma supported_dec m : supported_model m \/ ~ supported_model m.
Proof.
  unfold supported_model. destruct (Nat.eq_dec (m_general m) 0); [|tauto].
  destruct (m_quadratic m); [right; intuition discriminate|].
  destruct (Nat.eq_dec (m_annotations m) 0); tauto.
Qed.

Lemma convert_unsupported m : ~ supported_model m -> MPModelProtoToMiniMipProblem m = Err InvalidArgument.
Proof. exact (proj1 (convert_cases m)). Qed.
Lemma convert_faithful m p : MPModelProtoToMiniMipProblem m = Ok p -> supported_model m /\ same_model m p.
Proof.
  intros H. destruct (supported_dec m) as [S|S].
  - split; [exact S|]. rewrite (proj2 (convert_cases m) S) in H.
    destruct (FindError (converted m)); [discriminate H|]. injection H as <-. apply converted_same.
  - rewrite (convert_unsupported m S) in H. discriminate H.
Qed.
Lemma convert_decides m p : supported_model m -> same_model m p ->
  (problem_ok p -> MPModelProtoToMiniMipProblem m = Ok p) /\
  (MPModelProtoToMiniMipProblem m = Ok p <-> problem_ok_upto (num_vars p) p) /\
  (~ problem_ok_upto (num_vars p) p -> MPModelProtoToMiniMipProblem m = Err InvalidArgument).
Proof.
  intros S M. rewrite (proj2 (convert_cases m) S), <- (same_unique m p M). split; [|split].
  - intros G. rewrite (ok_accepted p G). reflexivity.
  - rewrite <- find_error_iff. destruct (FindError p); split; congruence.
  - intros N. destruct (FindError p) eqn:F; [reflexivity|]. exfalso. apply N. apply find_error_iff. exact F.
Qed.

(** *** Paths *)
Lemma prefix_app pat s : String.prefix pat s = true <-> exists r, s = (pat ++ r)%string.
Proof.
  revert s. induction pat as [|a p IH]; intros s.
  - split; [intros _; exists s; reflexivity|]. intros _. destruct s; reflexivity.
  - destruct s as [|b s].
    + split; [discriminate|]. intros (r & H). discriminate H.
    + cbn [String.prefix]. destruct (ascii_dec a b) as [<-|N].
      * rewrite IH. split; intros (r & H); exists r; cbn in *; congruence.
      * split; [discriminate|]. intros (r & H). cbn in H. congruence.
Qed.
Lemma length_app a b : String.length (a ++ b) = (String.length a + String.length b)%nat.
Proof. induction a; cbn; auto. Qed.
Lemma rfind_spec pat s : forall pos, match rfind pat s pos with
  | Some k => exists a b, s = (a ++ pat ++ b)%string /\ k = pos + slength a
  | None => forall a b, s <> (a ++ pat ++ b)%string end.
Proof.
  unfold slength. induction s as [|c r IH]; intros pos; cbn [rfind].
  - destruct (String.prefix pat "") eqn:P.
    + apply prefix_app in P as (b & H). exists EmptyString, b. split; [exact H|]. cbn. lia.
    + intros a b H. destruct a; [|discriminate H].
      assert (String.prefix pat "" = true) by (apply prefix_app; exists b; exact H). congruence.
  - specialize (IH (pos + 1)). destruct (rfind pat r (pos + 1)) as [k|].
    + destruct IH as (a & b & -> & ->). exists (String c a), b. split; [reflexivity|]. cbn [String.length]. lia.
    + destruct (String.prefix pat (String c r)) eqn:P.
      * apply prefix_app in P as (b & H). exists EmptyString, b. split; [exact H|]. cbn. lia.
      * intros a b H. destruct a as [|c' a].
        -- assert (String.prefix pat (String c r) = true) by (apply prefix_app; exists b; exact H). congruence.
        -- cbn in H. injection H as _ H. exact (IH a b H).
Qed.
(** The last occurrence is at least as far as any. *)
Lemma rfind_last pat s a b : forall pos, s = (a ++ pat ++ b)%string ->
  exists k, rfind pat s pos = Some k /\ pos + slength a <= k.
Proof.
  unfold slength. revert s. induction a as [|c a IH]; intros s pos H.
  - cbn in H. cbn [String.length]. subst s.
    assert (P : String.prefix pat (pat ++ b) = true) by (apply prefix_app; exists b; reflexivity).
    destruct (pat ++ b)%string as [|c r] eqn:E; cbn [rfind].
    + rewrite P. exists pos. split; [reflexivity|lia].
    + pose proof (rfind_spec pat r (pos + 1)) as S. unfold slength in S.
      destruct (rfind pat r (pos + 1)) as [k|].
      * destruct S as (a' & b' & _ & ->). exists (pos + 1 + Z.of_nat (String.length a')). split; [reflexivity|lia].
      * rewrite P. exists pos. split; [reflexivity|lia].
  - cbn in H. subst s. cbn [rfind String.length].
    destruct (IH (a ++ pat ++ b)%string (pos + 1) eq_refl) as (k & -> & L). exists k. split; [reflexivity|lia].
Qed.

Lemma app_empty_r s : (s ++ "")%string = s.
Proof. induction s; cbn; congruence. Qed.

Lemma wrong_format path : slength path < 2 ^ 63 ->
  (is_wrong_format path = false <-> ends_with ".mps" path \/
     (slength path = 3)).
Proof.
  intros B. unfold is_wrong_format, size_sub. rewrite negb_false_iff, Z.eqb_eq.
  assert (L0 : 0 <= slength path) by (unfold slength; lia).
  pose proof (rfind_spec dot_mps path 0) as S. unfold get. destruct (rfind dot_mps path 0) as [k|] eqn:R.
  - destruct S as (a & b & H & K). unfold slength in *.
    assert (Len : Z.of_nat (String.length path) = Z.of_nat (String.length a) + 4 + Z.of_nat (String.length b)).
    { rewrite H, length_app, length_app. cbn [dot_mps String.length]. lia. }
    rewrite Z.mod_small by lia. split.
    + intros E. left. exists a. assert (Eb : String.length b = O) by lia.
      destruct b; [|discriminate Eb]. rewrite app_empty_r in H. exact H.
    + intros [(r & E)|E]; [|lia].
      destruct (rfind_last dot_mps path r "" 0) as (k' & R' & L).
      { rewrite app_empty_r. exact E. }
      rewrite R in R'. injection R' as <-. unfold slength in L.
      assert (Len' : Z.of_nat (String.length path) = Z.of_nat (String.length r) + 4).
      { rewrite E, length_app. cbn [String.length]. lia. }
      lia.
  - unfold npos. destruct (Z.lt_ge_cases (slength path) 4) as [L|L].
    + replace ((slength path - 4) mod 2 ^ 64) with (slength path - 4 + 2 ^ 64).
      * split; [intros E; right; lia|]. intros [(r & E)|E]; [|lia].
        exfalso. apply (S r ""%string). rewrite app_empty_r. exact E.
      * symmetry. rewrite <- (Z.mod_add _ 1) by lia. rewrite Z.mod_small; lia.
    + rewrite Z.mod_small by lia. split; [lia|]. intros [(r & E)|E]; [|lia].
      exfalso. apply (S r ""%string). rewrite app_empty_r. exact E.
Qed.

Lemma read_converts good parse path p : ReadMipProblemFromMPSFile good parse path = Parsed (Ok p) ->
  exists m, parse path = Ok m /\ supported_model m /\ same_model m p.
Proof.
  unfold ReadMipProblemFromMPSFile. destruct (negb (good path)); [intros H; discriminate H|].
  destruct (is_wrong_format path); [intros H; discriminate H|]. intros H.
  destruct (parse path) as [m| | | |] eqn:P; try discriminate H. exists m.
  split; [reflexivity|]. apply convert_faithful. injection H as H. exact H.
Qed.
Lemma read_reaches good parse path m : slength path < 2 ^ 63 -> good path = true -> ends_with ".mps" path ->
  parse path = Ok m -> ReadMipProblemFromMPSFile good parse path = Parsed (MPModelProtoToMiniMipProblem m).
Proof.
  intros B G D P. unfold ReadMipProblemFromMPSFile. rewrite G. cbn [negb].
  rewrite (proj2 (wrong_format path B) (or_introl D)). rewrite P. reflexivity.
Qed.
Lemma string_converts parse data m : parse data = Ok m ->
  ReadMipProblemFromString parse data = MPModelProtoToMiniMipProblem m.
Proof. intros P. unfold ReadMipProblemFromString. rewrite P. reflexivity. Qed.

Lemma read_file_cases good parse path : slength path < 2 ^ 63 ->
  (ReadMipProblemFromMPSFile good parse path = FileNotFound <-> good path = false) /\
  (ReadMipProblemFromMPSFile good parse path = WrongFormat <->
     good path = true /\ ~ ends_with ".mps" path /\ slength path <> 3).
Proof.
  intros B. pose proof (wrong_format path B) as W. unfold ReadMipProblemFromMPSFile.
  destruct (good path); cbn [negb].
  - destruct (is_wrong_format path).
    + split; [split; discriminate|]. split; [|reflexivity]. intros _. split; [reflexivity|].
      split; intros E; [assert (true = false) by (apply W; left; exact E)|
        assert (true = false) by (apply W; right; exact E)]; discriminate.
    + split; [split; discriminate|]. split; [discriminate|]. intros (_ & N & M).
      destruct (proj1 W eq_refl); contradiction.
  - split; [split; reflexivity|]. split; [discriminate|]. intros (A & _). discriminate A.
Qed.

(** *** Parameters *)
Lemma get_over {B} (x : option B) d : get (over None x) d = setting x d.
Proof. destruct x; reflexivity. Qed.
Lemma get_setting {B} (x : option B) d : get x d = setting x d.
Proof. destruct x; reflexivity. Qed.

Lemma merged_lp u : lp_params_of (get (pm_lp (UserCustomizedParameters u)) lp_empty) = wanted_lp u.
Proof.
  unfold UserCustomizedParameters, MergeFrom, wanted_lp. cbn [pm_lp DefaultMiniMipParameters over_msg].
  destruct (pm_lp u) as [m|]; [|reflexivity]. cbn [get within]. unfold lp_params_of, merge_lp.
  cbn [lm_solver lm_scratch lm_scaling lm_presolve lm_pricing lm_feasibility lm_optimality lm_markowitz
    lm_refactorization lm_lower lm_upper lm_timing lm_time lm_iterations lm_threads lm_seed lm_output lp_empty].
  rewrite !get_over. reflexivity.
Qed.

Lemma usable_app l l' : usable_generators (l ++ l') = usable_generators l ++ usable_generators l'.
Proof.
  induction l as [|m r IH]; cbn; [reflexivity|]. destruct (CreateCutGenerator m); cbn; rewrite ?IH; reflexivity.
Qed.
Lemma rounders_ask a b : (In MIR (make_rounders a b) <-> a = true) /\ (In SCG (make_rounders a b) <-> b = true) /\
  NoDup (make_rounders a b).
Proof.
  destruct a, b; cbn; (split; [|split]); try (split; intros H; try discriminate H; try reflexivity;
    repeat (destruct H as [H|H]; try discriminate H); try contradiction; auto).
  all: repeat constructor; cbn; intros H; repeat (destruct H as [H|H]; try discriminate H); auto.
Qed.
Lemma usable_ask l : Forall2 asks_for (filter configurable l) (usable_generators l).
Proof.
  induction l as [|m r IH]; [constructor|]. cbn [filter usable_generators]. unfold configurable, CreateCutGenerator.
  destruct (gm_tableau m) as [t|] eqn:E; [|exact IH]. constructor; [|exact IH].
  exists t. split; [exact E|]. cbn [fst snd]. split; [apply get_setting|].
  exact (rounders_ask (get (t_mir t) true) (get (t_scg t) true)).
Qed.

Lemma merged_runner u : exists lim, get (pm_runner (UserCustomizedParameters u)) (mkRunM [] [] None) =
  mkRunM (DefaultCutGeneratorParameters :: user_generators u) (DefaultCutSelectorParameters :: user_selectors u) (Some lim) /\
  limits_of lim = wanted_limits u.
Proof.
  unfold UserCustomizedParameters, MergeFrom, wanted_limits, user_generators, user_selectors.
  cbn [pm_runner DefaultMiniMipParameters over_msg]. destruct (pm_runner u) as [r|].
  - cbn [get merge_runner]. unfold merge_runner. cbn [rm_generators rm_selectors rm_default DefaultCutRunnerParameters over_msg within app].
    destruct (rm_default r) as [l|].
    + eexists. split; [reflexivity|]. unfold limits_of, merge_limits. cbn [l_iterations l_node l_total limits_empty].
      rewrite !get_over. reflexivity.
    + eexists. split; reflexivity.
  - eexists. split; reflexivity.
Qed.
Lemma merged_rule u : CreateBranchingRule (get (pm_branching (UserCustomizedParameters u)) (mkBrM None None)) =
  Ok (wanted_rule u, wanted_direction u).
Proof.
  unfold UserCustomizedParameters, MergeFrom, wanted_rule, wanted_direction.
  cbn [pm_branching DefaultMiniMipParameters over_msg]. destruct (pm_branching u) as [b|]; [|reflexivity].
  cbn [get within]. unfold CreateBranchingRule, merge_branching. cbn [bm_rule bm_direction DefaultBranchingParameters].
  destruct (bm_rule b) as [[s|]|]; cbn [over_msg merge_rule]; rewrite get_over; reflexivity.
Qed.

Section Create.
Context {E : engine} {X : spx_engine}.
Hypothesis LW : engine_laws E.
Hypothesis SR : sane_rules (x_rules X).
Variable p0 : spx_params.
Variable mx : bool.

Lemma lp_created flag p s0 : spx_new (E := X) p0 mx = Ok s0 ->
  (lp_supported X p -> exists l, CreateLpSolver (E := E) (X := X) p0 mx flag p = Ok l /\ lp_as_wanted p l) /\
  (~ lp_supported X p -> CreateLpSolver (E := E) (X := X) p0 mx flag p = Err InvalidArgument).
Proof.
  intros N. unfold lp_supported, CreateLpSolver, lp_as_wanted. destruct (lp_solver_type p).
  - pose proof (accepts (glop_new (E := E) flag) p) as A.
    destruct (SetLpParameters (glop_new flag) p) as [s ok] eqn:S. cbn [snd] in A. split.
    + intros G. apply A in G. subst ok. exists (GlopLpi s). split; [reflexivity|]. exists s. split; [reflexivity|].
      exact (get_set LW (glop_new flag) p s S).
    + intros G. destruct ok; [|reflexivity]. exfalso. apply G. apply A. reflexivity.
  - rewrite N. cbn [bind]. assert (Re : reached s0) by (exists p0, mx, s0, [], []; split; [exact N|reflexivity]).
    destruct (spx_set_get s0 p SR Re) as (s' & ok & -> & A & G & _). cbn [bind]. split.
    + intros K. apply A in K. rewrite K in *. exists (SoplexLpi s'). split; [reflexivity|]. exists s'.
      split; [reflexivity|]. apply G. reflexivity.
    + intros K. destruct ok; [|reflexivity]. exfalso. apply K. apply A. reflexivity.
Qed.

Lemma created flag pb u s0 : spx_new (E := X) p0 mx = Ok s0 ->
  (FindError pb = None -> lp_supported X (wanted_lp u) ->
     exists c, Create (E := E) (X := X) p0 mx flag pb u = Ok c /\ as_wanted u c) /\
  (FindError pb <> None \/ ~ lp_supported X (wanted_lp u) ->
     Create (E := E) (X := X) p0 mx flag pb u = Err InvalidArgument).
Proof.
  intros N. destruct (lp_created flag (wanted_lp u) s0 N) as [Y Z]. split.
  - intros F S. unfold Create. rewrite F, merged_lp. destruct (Y S) as (l & -> & W). cbn [bind].
    destruct (merged_runner u) as (lim & -> & Lim). unfold CreateCutRunner. cbn [rm_default].
    unfold DefaultRunner. cbn [rm_selectors rm_generators].
    replace (at_ (DefaultCutSelectorParameters :: user_selectors u) 0) with (Ok DefaultCutSelectorParameters) by reflexivity.
    cbn [bind CreateCutSelector sm_hybrid DefaultCutSelectorParameters]. rewrite merged_rule. cbn [bind].
    eexists. split; [reflexivity|]. unfold as_wanted.
    cbn [cf_lpi cf_runner cf_rule cf_integrality cf_numerical cf_backtrack rc_limits rc_generators rc_selector].
    split; [exact W|]. split; [exact Lim|]. split; [reflexivity|].
    unfold UserCustomizedParameters, MergeFrom. cbn [pm_integrality pm_numerical pm_backtrack DefaultMiniMipParameters].
    rewrite !get_over. split; [reflexivity|]. split; [reflexivity|]. split; [reflexivity|]. split.
    + exists (usable_generators (user_generators u)). split; [reflexivity|]. apply usable_ask.
    + reflexivity.
  - intros B. unfold Create. destruct (FindError pb) eqn:F; [reflexivity|]. destruct B as [B|B]; [congruence|].
    rewrite merged_lp, (Z B). reflexivity.
Qed.

(** The lists of generators and selectors of the outer message are never looked at. *)
Lemma lists_ignored flag pb u gs ss : Create (E := E) (X := X) p0 mx flag pb u =
  Create (E := E) (X := X) p0 mx flag pb
    (mkPM (pm_integrality u) (pm_numerical u) (pm_lp u) (pm_runner u) gs ss (pm_backtrack u) (pm_branching u)).
Proof. reflexivity. Qed.
(** Nor is any selector in the cut runner's list. *)
Lemma selectors_ignored flag pb u r ss s0 : spx_new (E := X) p0 mx = Ok s0 -> pm_runner u = Some r ->
  Create (E := E) (X := X) p0 mx flag pb u =
  Create (E := E) (X := X) p0 mx flag pb
    (mkPM (pm_integrality u) (pm_numerical u) (pm_lp u) (Some (mkRunM (rm_generators r) ss (rm_default r)))
       (pm_generators u) (pm_selectors u) (pm_backtrack u) (pm_branching u)).
Proof.
  intros N R. unfold Create, UserCustomizedParameters, MergeFrom.
  cbn [pm_integrality pm_numerical pm_lp pm_runner pm_backtrack pm_branching]. rewrite R.
  destruct (FindError pb); [reflexivity|].
  destruct (CreateLpSolver p0 mx flag _); [|reflexivity..]. cbn [bind].
  cbn [over_msg DefaultMiniMipParameters pm_runner get]. unfold merge_runner.
  cbn [rm_generators rm_selectors rm_default DefaultCutRunnerParameters]. unfold CreateCutRunner.
  cbn [rm_default]. destruct (over_msg merge_limits _ _); reflexivity.
Qed.
End Create.

(** *** The factories *)
Lemma generators_skipped l : (length (usable_generators l) <= length l)%nat.
Proof.
  induction l as [|m l IH]; cbn [usable_generators length]; [lia|].
  destruct (CreateCutGenerator m); cbn [length]; lia.
Qed.

Lemma factories (g : generator_msg) (s : selector_msg) (r : runner_msg) (b : branching_msg) :
  (gm_tableau g = None -> CreateCutGenerator g = Err InvalidArgument) /\
  (forall t, gm_tableau g = Some t -> exists ks, CreateCutGenerator g = Ok (ks, get (gm_max g) 100) /\
     (In MIR ks <-> t_mir t <> Some false) /\ (In SCG ks <-> t_scg t <> Some false) /\ NoDup ks) /\
  (sm_hybrid s = None -> CreateCutSelector s = Err InvalidArgument) /\
  (forall h, sm_hybrid s = Some h -> CreateCutSelector s = Ok (wanted_selector h)) /\
  (rm_default r = None -> CreateCutRunner r = Err InvalidArgument) /\
  (rm_default r <> None -> rm_selectors r = [] -> CreateCutRunner r = UB) /\
  (forall ss, rm_default r <> None -> rm_selectors r = s :: ss -> sm_hybrid s = None -> CreateCutRunner r = Abort) /\
  (forall ss h, rm_default r <> None -> rm_selectors r = s :: ss -> sm_hybrid s = Some h ->
     exists c, CreateCutRunner r = Ok c /\ rc_selector c = wanted_selector h /\
       (length (rc_generators c) <= length (rm_generators r))%nat) /\
  (bm_rule b = None -> CreateBranchingRule b = Err InvalidArgument) /\
  (bm_rule b <> None -> exists x, CreateBranchingRule b = Ok x).
Proof.
  split. { intros E. unfold CreateCutGenerator. rewrite E. reflexivity. }
  split. { intros t E. unfold CreateCutGenerator. rewrite E. eexists. split; [reflexivity|].
    destruct (t_mir t) as [[|]|], (t_scg t) as [[|]|]; cbn;
      (split; [|split]; [split; intuition congruence|split; intuition congruence|repeat constructor; cbn; intuition congruence]). }
  split. { intros E. unfold CreateCutSelector. rewrite E. reflexivity. }
  split. { intros h E. unfold CreateCutSelector. rewrite E. reflexivity. }
  split. { intros E. unfold CreateCutRunner. rewrite E. reflexivity. }
  split. { intros N E. unfold CreateCutRunner. destruct (rm_default r); [|congruence]. unfold DefaultRunner. rewrite E. reflexivity. }
  split. { intros ss N E H. unfold CreateCutRunner. destruct (rm_default r); [|congruence]. unfold DefaultRunner. rewrite E.
    cbn. unfold CreateCutSelector. rewrite H. reflexivity. }
  split. { intros ss h N E H. unfold CreateCutRunner. destruct (rm_default r); [|congruence]. unfold DefaultRunner. rewrite E.
    cbn. unfold CreateCutSelector. rewrite H. cbn. eexists. split; [reflexivity|]. split; [reflexivity|]. apply generators_skipped. }
  unfold CreateBranchingRule. split; [intros ->; reflexivity|].
  destruct (bm_rule b) as [[sd|]|]; intros N; [eexists; reflexivity|eexists; reflexivity|congruence].
Qed.
