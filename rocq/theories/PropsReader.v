(** Properties C58-C60: reading models, file names, parameters. *)
From Coq Require Import String List ZArith Bool Lia.
From Verif Require Import Outcome Num Double Aggregation LpParams Selector Runner Branching Problem
  ProblemSpec Reader Params GlopIface GlopSpec GlopCases SoplexIface SoplexSpec SoplexCases ReaderSpec
  ReaderProofs.
Import ListNotations.
Open Scope Z_scope.

(** *** C58 *)
(** Models with general constraints, a quadratic objective or annotations are rejected. *)
Theorem C58_unsupported : forall m, ~ supported_model m ->
  MPModelProtoToMiniMipProblem m = Err InvalidArgument.
Proof. exact convert_unsupported. Qed.
Print Assumptions C58_unsupported.

(** What is returned is the same model, in the same order, unset fields at their defaults. *)
Theorem C58_faithful : forall m p, MPModelProtoToMiniMipProblem m = Ok p ->
  supported_model m /\ same_model m p.
Proof. exact convert_faithful. Qed.
Print Assumptions C58_faithful.

Definition x_var : mp_variable := mkMPVar (Some "x"%string) (Some d1) (Some d0) None (Some true) (Some 3).
Definition y_var : mp_variable := mkMPVar (Some "y"%string) None None None None None.
Definition row_con (l : list Z) : mp_constraint :=
  mkMPCon (Some "r"%string) l (map (fun _ => d1) l) None (Some d1) (Some true).
Definition two_vars (l : list Z) (hint : option mp_hint) : mp_model :=
  mkMP None (Some true) None [x_var; y_var] [row_con l] 0 false hint 0.

(** An error for every invalid problem: false, an index one past the last variable is accepted. *)
Theorem C58_invalid_refuted : exists m p, supported_model m /\ same_model m p /\ ~ problem_ok p /\
  MPModelProtoToMiniMipProblem m = Ok p.
Proof.
  exists (two_vars [0; 2] None), (converted (two_vars [0; 2] None)).
  split; [repeat split|]. split; [apply converted_same|]. split; [|reflexivity].
  intros [_ H]. inversion H as [|? ? (_ & B & _) _]; subst. inversion B as [|? ? _ B']; subst.
  inversion B'; subst. cbn in *. lia.
Qed.
Print Assumptions C58_invalid_refuted.

(** A supported model is converted exactly if the problem is fine with that index allowed, and
    otherwise refused; in particular every well-formed model is converted. *)
Theorem C58_partial : forall m p, supported_model m -> same_model m p ->
  (problem_ok p -> MPModelProtoToMiniMipProblem m = Ok p) /\
  (MPModelProtoToMiniMipProblem m = Ok p <-> problem_ok_upto (num_vars p) p) /\
  (~ problem_ok_upto (num_vars p) p -> MPModelProtoToMiniMipProblem m = Err InvalidArgument).
Proof. exact convert_decides. Qed.
Print Assumptions C58_partial.

(** The same for files with a proper name and for strings, whatever the parser returns. *)
Theorem C58_files : forall good parse path m, slength path < 2 ^ 63 -> good path = true ->
  ends_with ".mps" path -> parse path = Ok m ->
  ReadMipProblemFromMPSFile good parse path = Parsed (MPModelProtoToMiniMipProblem m).
Proof. exact read_reaches. Qed.
Print Assumptions C58_files.
Theorem C58_files_only : forall good parse path p,
  ReadMipProblemFromMPSFile good parse path = Parsed (Ok p) ->
  exists m, parse path = Ok m /\ supported_model m /\ same_model m p.
Proof. exact read_converts. Qed.
Print Assumptions C58_files_only.
Theorem C58_strings : forall parse data m, parse data = Ok m ->
  ReadMipProblemFromString parse data = MPModelProtoToMiniMipProblem m.
Proof. exact string_converts. Qed.
Print Assumptions C58_strings.

(** max x with 0 <= x integer, y free, x + y <= 1, and a hint for a variable that does not exist. *)
Example C58_case : supported_model (two_vars [0; 1] (Some (mkMPHint [7] [d1]))) /\
  MPModelProtoToMiniMipProblem (two_vars [0; 1] (Some (mkMPHint [7] [d1]))) =
  Ok (mkProblem "" [mkVar "x" d1 d0 dinf true; mkVar "y" d0 dminf dinf false]
        [mkCon "r" [0; 1] [d1; d1] dminf d1] [mkHint [7] [d1]] true d0) /\
  ~ supported_model (mkMP None None None [] [] 1 false None 0) /\
  MPModelProtoToMiniMipProblem (two_vars [0; 0] None) = Err InvalidArgument.
Proof.
  split; [repeat split|]. split; [reflexivity|]. split; [|reflexivity]. intros (A & _). discriminate A.
Qed.

Example C58_files_case : let parse path := if String.eqb path "m.mps" then Ok (two_vars [0; 1] None) else Err Internal in
  ends_with ".mps" "m.mps" /\ slength "m.mps" < 2 ^ 63 /\
  ReadMipProblemFromMPSFile (fun _ => true) parse "m.mps" = Parsed (Ok (converted (two_vars [0; 1] None))).
Proof. split; [exists "m"%string; reflexivity|]. split; reflexivity. Qed.

(** *** C59 *)
(** False: every readable file with a name of three characters passes. *)
Theorem C59_short_refuted : exists good parse path, good path = true /\ ~ ends_with ".mps" path /\
  ReadMipProblemFromMPSFile good parse path <> WrongFormat.
Proof.
  exists (fun _ => true), (fun _ => Err Internal), "a.c"%string. split; [reflexivity|]. split.
  - intros (r & H). apply (f_equal String.length) in H. rewrite length_app in H. cbn in H. lia.
  - vm_compute. discriminate.
Qed.
Print Assumptions C59_short_refuted.

(** Otherwise exactly the readable paths that do not end in .mps are refused as wrong format.
    (No string is as long as 2^63.) *)
Theorem C59_partial : forall good parse path, slength path < 2 ^ 63 ->
  (ReadMipProblemFromMPSFile good parse path = FileNotFound <-> good path = false) /\
  (ReadMipProblemFromMPSFile good parse path = WrongFormat <->
     good path = true /\ ~ ends_with ".mps" path /\ slength path <> 3).
Proof. exact read_file_cases. Qed.
Print Assumptions C59_partial.

Example C59_case : is_wrong_format "dir.mps/model.mps" = false /\ is_wrong_format "model.mps.gz" = true /\
  is_wrong_format ".mps" = false /\ is_wrong_format "" = true /\ is_wrong_format "ab" = true /\
  is_wrong_format "abc" = false /\ is_wrong_format "abcd" = true.
Proof. repeat split. Qed.

(** *** C60 *)
Definition only_mir : generator_msg := mkGen (Some 5) (Some (mkTab None (Some false))).
Definition switched_off : generator_msg := mkGen (Some 0) (Some tableau_empty).
Definition greedy : hybrid_msg := mkHyb None None None None None None None None (Some 3).
Definition with_runner (g : list generator_msg) (s : list selector_msg) : params_msg :=
  mkPM None None None (Some (mkRunM g s None)) [] [] None None.
Definition config_of (pb : problem) (u : params_msg) : outcome (config toy1 tx1) :=
  Create (E := toy1) (X := tx1) spx_start false false pb u.
Definition no_problem : problem := mkProblem "" [] [] [] false d0.

(** False for generators: the user's one runs beside the default one, and one that is switched
    off leaves the default one on. *)
Theorem C60_generator_refuted : exists u c, config_of no_problem u = Ok c /\
  user_generators u = [only_mir] /\ rc_generators (cf_runner c) = [([MIR; SCG], 100); ([MIR], 5)].
Proof.
  exists (with_runner [only_mir] []).
  assert (H : match config_of no_problem (with_runner [only_mir] []) with
              | Ok c => rc_generators (cf_runner c) = [([MIR; SCG], 100); ([MIR], 5)] | _ => False end) by reflexivity.
  destruct (config_of no_problem (with_runner [only_mir] [])) as [c| | | |]; try contradiction H.
  exists c. split; [reflexivity|]. split; [reflexivity|exact H].
Qed.
Print Assumptions C60_generator_refuted.
Theorem C60_off_refuted : exists u c, config_of no_problem u = Ok c /\
  user_generators u = [switched_off] /\ In ([MIR; SCG], 100) (rc_generators (cf_runner c)).
Proof.
  exists (with_runner [switched_off] []).
  assert (H : match config_of no_problem (with_runner [switched_off] []) with
              | Ok c => rc_generators (cf_runner c) = [([MIR; SCG], 100); ([MIR; SCG], 0)] | _ => False end) by reflexivity.
  destruct (config_of no_problem (with_runner [switched_off] [])) as [c| | | |]; try contradiction H.
  exists c. split; [reflexivity|]. split; [reflexivity|]. rewrite H. left. reflexivity.
Qed.
Print Assumptions C60_off_refuted.

(** False for the selector: the user's one is never used. *)
Theorem C60_selector_refuted : exists u c, config_of no_problem u = Ok c /\
  user_selectors u = [mkSelM (Some greedy)] /\ Selector.max_num_cuts (wanted_selector greedy) = 3 /\
  Selector.max_num_cuts (rc_selector (cf_runner c)) = -1.
Proof.
  exists (with_runner [] [mkSelM (Some greedy)]).
  assert (H : match config_of no_problem (with_runner [] [mkSelM (Some greedy)]) with
              | Ok c => Selector.max_num_cuts (rc_selector (cf_runner c)) = -1 | _ => False end) by reflexivity.
  destruct (config_of no_problem (with_runner [] [mkSelM (Some greedy)])) as [c| | | |]; try contradiction H.
  exists c. split; [reflexivity|]. split; [reflexivity|]. split; [reflexivity|exact H].
Qed.
Print Assumptions C60_selector_refuted.

(** No selector message has any effect, and neither have the lists cut_generators and
    cut_selectors of the outer message. *)
Theorem C60_selectors_ignored : forall E X p0 mx flag pb u r ss s0, spx_new (E := X) p0 mx = Ok s0 ->
  pm_runner u = Some r ->
  Create (E := E) (X := X) p0 mx flag pb u =
  Create (E := E) (X := X) p0 mx flag pb
    (mkPM (pm_integrality u) (pm_numerical u) (pm_lp u) (Some (mkRunM (rm_generators r) ss (rm_default r)))
       (pm_generators u) (pm_selectors u) (pm_backtrack u) (pm_branching u)).
Proof. intros E X. exact selectors_ignored. Qed.
Print Assumptions C60_selectors_ignored.
Theorem C60_lists_ignored : forall E X p0 mx flag pb u gs ss, Create (E := E) (X := X) p0 mx flag pb u =
  Create (E := E) (X := X) p0 mx flag pb
    (mkPM (pm_integrality u) (pm_numerical u) (pm_lp u) (pm_runner u) gs ss (pm_backtrack u) (pm_branching u)).
Proof. intros E X. exact lists_ignored. Qed.
Print Assumptions C60_lists_ignored.

(** Everything else is as requested, and unset fields keep their defaults: LP solver and its
    parameters, runner limits, branching rule and direction, tolerances, backtrack limit.  A solver
    is created exactly if the problem is accepted and the LP parameters are supported; otherwise
    the answer is an error. *)
Theorem C60_partial : forall E X, engine_laws E -> sane_rules (x_rules X) ->
  forall p0 mx flag pb u s0, spx_new (E := X) p0 mx = Ok s0 ->
  (FindError pb = None -> lp_supported X (wanted_lp u) ->
     exists c, Create (E := E) (X := X) p0 mx flag pb u = Ok c /\ as_wanted u c) /\
  (FindError pb <> None \/ ~ lp_supported X (wanted_lp u) ->
     Create (E := E) (X := X) p0 mx flag pb u = Err InvalidArgument).
Proof. intros E X L S p0 mx. exact (created L S p0 mx). Qed.
Print Assumptions C60_partial.

(** Random branching upwards with SoPlex and an iteration limit; and SoPlex with an unsupported
    scaling. *)
Definition user_soplex (sc : scaling) : params_msg :=
  mkPM None None (Some (mkLpM (Some LP_SOPLEX) None (Some sc) None None None None None None None None None
    None (Some 7) None None None)) None [] [] (Some 0) (Some (mkBrM (Some (RandomRule None)) (Some Up))).
Example C60_case : engine_laws toy1 /\ sane_rules (x_rules tx1) /\
  spx_new (E := tx1) spx_start false = Ok fresh /\
  match config_of no_problem (user_soplex SCALING_OFF) with
  | Ok c => cf_rule c = (UseRandom, Up) /\ cf_backtrack c = 0 /\
      match cf_lpi c with SoplexLpi s => iteration_limit (SpxGetLpParameters s) = 7 | _ => False end
  | _ => False
  end /\
  config_of no_problem (user_soplex SCALING_LINEAR_PROGRAM) = Err InvalidArgument.
Proof.
  split; [exact (toy_laws _ _ _ _)|]. split; [repeat constructor|]. split; [apply fresh_ok|].
  split; [repeat split|reflexivity].
Qed.

(** The factories by themselves.  A message without a kind is an error, and one with a kind is
    never one; but a runner message with a limits part and a selector without kind aborts, and one
    without selectors reads beyond the end of the list. *)
Theorem C60_factories : forall (g : generator_msg) (s : selector_msg) (r : runner_msg) (b : branching_msg),
  (gm_tableau g = None -> CreateCutGenerator g = Err InvalidArgument) /\
  (forall t, gm_tableau g = Some t -> exists ks, CreateCutGenerator g = Ok (ks, get (gm_max g) 100) /\
     (In MIR ks <-> t_mir t <> Some false) /\ (In SCG ks <-> t_scg t <> Some false) /\ NoDup ks) /\
  (sm_hybrid s = None -> CreateCutSelector s = Err InvalidArgument) /\
  (forall h, sm_hybrid s = Some h -> CreateCutSelector s = Ok (wanted_selector h)) /\
  (rm_default r = None -> CreateCutRunner r = Err InvalidArgument) /\
  (rm_default r <> None -> rm_selectors r = [] -> CreateCutRunner r = UB) /\
  (forall ss, rm_default r <> None -> rm_selectors r = s :: ss -> sm_hybrid s = None -> CreateCutRunner r = Abort) /\
  (forall ss h, rm_default r <> None -> rm_selectors r = s :: ss -> sm_hybrid s = Some h ->
     exists c, CreateCutRunner r = Ok c /\ rc_selector c = wanted_selector h /\
       (length (rc_generators c) <= length (rm_generators r))%nat) /\
  (bm_rule b = None -> CreateBranchingRule b = Err InvalidArgument) /\
  (bm_rule b <> None -> exists x, CreateBranchingRule b = Ok x).
Proof. exact factories. Qed.
Print Assumptions C60_factories.

Example C60_factories_case : CreateCutSelector (mkSelM None) = Err InvalidArgument /\
  CreateCutRunner (mkRunM [only_mir; mkGen None None] [mkSelM (Some greedy)] None) = Err InvalidArgument /\
  CreateCutRunner (mkRunM [only_mir] [mkSelM None] (Some limits_empty)) = Abort /\
  match CreateCutRunner (mkRunM [only_mir; mkGen None None] [mkSelM (Some greedy)] (Some limits_empty)) with
  | Ok c => rc_generators c = [([MIR], 5)] /\ Selector.max_num_cuts (rc_selector c) = 3
  | _ => False
  end.
Proof. split; [reflexivity|]. split; [reflexivity|]. split; [reflexivity|]. split; reflexivity. Qed.
