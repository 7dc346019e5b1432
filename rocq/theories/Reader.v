(** Model of minimip/utils/reader.cc.

    operations_research::MPModelProto is not part of the repository.  It is modelled by the fields
    of linear_solver.proto; an optional field is an [option] and its getter returns the proto's
    default when unset.  branching_priority of a variable and is_lazy of a constraint are kept so
    that it is visible that they are dropped.  General constraints, annotations and the quadratic
    objective are only counted or tested for presence, as in the code. *)
From Coq Require Import String Ascii List ZArith Bool.
From Verif Require Import Outcome Num Double Problem.
Import ListNotations.
Open Scope Z_scope.

Definition get {B} (x : option B) (d : B) : B := match x with Some v => v | None => d end.

Record mp_variable := mkMPVar {
  mv_name : option string;
  mv_obj : option double;             (* default 0 *)
  mv_lb : option double;              (* default -inf *)
  mv_ub : option double;              (* default inf *)
  mv_int : option bool;               (* default false *)
  mv_priority : option Z }.
Record mp_constraint := mkMPCon {
  mc_name : option string;
  mc_idx : list Z;
  mc_coef : list double;
  mc_lb : option double;              (* default -inf *)
  mc_ub : option double;              (* default inf *)
  mc_lazy : option bool }.
Record mp_hint := mkMPHint { mh_idx : list Z; mh_val : list double }.
Record mp_model := mkMP {
  m_name : option string;
  m_max : option bool;                (* default false *)
  m_offset : option double;           (* default 0 *)
  m_vars : list mp_variable;
  m_cons : list mp_constraint;
  m_general : nat;                    (* general_constraint_size() *)
  m_quadratic : bool;                 (* has_quadratic_objective() *)
  m_hint : option mp_hint;
  m_annotations : nat }.              (* annotation_size() *)

(** The loop bodies (46-53, 55-65). *)
Definition read_variable (v : mp_variable) : variable :=
  mkVar (get (mv_name v) EmptyString) (get (mv_obj v) d0) (get (mv_lb v) dminf)
    (get (mv_ub v) dinf) (get (mv_int v) false).
Definition read_constraint (c : mp_constraint) : constraint :=
  mkCon (get (mc_name c) EmptyString) (mc_idx c) (mc_coef c) (get (mc_lb c) dminf)
    (get (mc_ub c) dinf).

(** MPModelProtoToMiniMipProblem (22-81). *)
Definition MPModelProtoToMiniMipProblem (m : mp_model) : outcome problem :=
  if negb (Nat.eqb (m_general m) 0) then Err InvalidArgument
  else if m_quadratic m then Err InvalidArgument
  else if negb (Nat.eqb (m_annotations m) 0) then Err InvalidArgument
  else
    let p := mkProblem (get (m_name m) EmptyString) (map read_variable (m_vars m))
               (map read_constraint (m_cons m))
               (match m_hint m with Some h => [mkHint (mh_idx h) (mh_val h)] | None => [] end)
               (get (m_max m) false) (get (m_offset m) d0) in
    match FindError p with
    | Some _ => Err InvalidArgument
    | None => Ok p
    end.

(** std::string::npos, and arithmetic on size_t. *)
Definition npos : Z := 2 ^ 64 - 1.
Definition size_sub (a b : Z) : Z := (a - b) mod 2 ^ 64.
Definition slength (s : string) : Z := Z.of_nat (String.length s).

(** std::string::rfind(pattern): the largest position at which the pattern starts. *)
Fixpoint rfind (pat s : string) (pos : Z) : option Z :=
  match s with
  | EmptyString => if String.prefix pat s then Some pos else None
  | String _ r =>
      match rfind pat r (pos + 1) with
      | Some k => Some k
      | None => if String.prefix pat s then Some pos else None
      end
  end.
Definition dot_mps : string := ".mps".

(** The test of 92. *)
Definition is_wrong_format (path : string) : bool :=
  negb (get (rfind dot_mps path 0) npos =? size_sub (slength path) 4).

(** ReadMipProblemFromMPSFile (83-101).  The first two cases are InvalidArgument errors of
    their own.  [good] says whether the path can be opened; [parse] is ortools'
    MpsFileToMPModelProto. *)
Inductive reading := FileNotFound | WrongFormat | Parsed (r : outcome problem).
Definition ReadMipProblemFromMPSFile (good : string -> bool) (parse : string -> outcome mp_model)
  (path : string) : reading :=
  if negb (good path) then FileNotFound
  else if is_wrong_format path then WrongFormat
  else Parsed (do m <- parse path ; MPModelProtoToMiniMipProblem m).

(** ReadMipProblemFromString (103-113); [parse] is ortools' MpsDataToMPModelProto. *)
Definition ReadMipProblemFromString (parse : string -> outcome mp_model) (data : string)
  : outcome problem :=
  do m <- parse data ; MPModelProtoToMiniMipProblem m.
