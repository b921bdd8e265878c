(** Model of the parameter helpers of include/arc_utilities/ros_helpers.hpp. *)
From Coq Require Import String Ascii.
From Verif Require Import Base PrintModel.
Open Scope string_scope.

(** rosconsole: the level and the text of a line of the logger "params". *)
Inductive level := Debug | Info | Warn | Fatal.
Definition log := list (level * string).
Fixpoint spaces (n : nat) : string := match n with O => "" | S n => String " " (spaces n) end.
(** ros_helpers.hpp 10: PARAM_NAME_WIDTH; std::left << std::setw(PARAM_NAME_WIDTH) << name. *)
Definition param_name_width : nat := 50.
Definition padded (name : string) : string := name ++ spaces (param_name_width - String.length name).

Section Params.
Variables X T : Type.                (* values of the parameter server; the type asked for *)
Variable server : string -> option X.  (* by resolved name *)
Variable conv : X -> option T.         (* roscpp's conversion of a value to T; None when the types do not go together *)
Variable junk : X -> T -> T.           (* what getParam leaves in its argument when the conversion fails, e.g. part of a vector *)
Variable show : T -> string.           (* std::ostream << *)
Variable ns : string.                  (* nh.getNamespace() *)

(** ros::NodeHandle::resolveName, for names without '~': global names stay, others are put into the namespace. *)
Definition resolve (name : string) : string :=
  match name with
  | String "/" _ => name
  | _ => if String.eqb ns "/" then ns ++ name else ns ++ "/" ++ name
  end.
(** ros::NodeHandle::getParam: whether it succeeded, and the argument after it. *)
Definition getParam (name : string) (val : T) : bool * T :=
  match server (resolve name) with
  | Some x => match conv x with Some v => (true, v) | None => (false, junk x val) end
  | None => (false, val)
  end.

Definition retrieving (name : string) (v : T) : string := "Retrieving " ++ padded name ++ " as " ++ show v.
Definition defaulting (name : string) (v : T) : string := "Defaulting " ++ padded name ++ " to " ++ show v.
(** 83-84: the namespace and the name as they are. *)
Definition cannot_find (name calling_fn : string) : string := "Cannot find " ++ ns ++ "/" ++ name ++ " on parameter server for " ++ calling_fn.
(** 100-101 *)
Definition required_msg (name calling_fn : string) : string := cannot_find name calling_fn ++ ": Value must be on paramter sever".
Definition no_default (name : string) : string := "No default value for " ++ name ++ ": Value must be on paramter sever".

(** 18-30 and 32-44: GetParam; 46-58 and 60-72: GetParamDebugLog.  [init] is the value of the uninitialized local. *)
Definition get_param_at (found missing : level) (init : T) (name : string) (default_val : T) : outcome T * log :=
  let (ok, param_val) := getParam name init in
  if ok then (Ok param_val, [(found, retrieving name param_val)])
  else let param_val := default_val in (Ok param_val, [(missing, defaulting name param_val)]).
Definition get_param := get_param_at Info Warn.
Definition get_param_debug_log := get_param_at Debug Debug.
(** 74-87: GetParamOptional. *)
Definition get_param_optional (init : T) (name calling_fn : string) : outcome (option T) * log :=
  let (ok, param_val) := getParam name init in
  if ok then (Ok (Some param_val), [(Info, retrieving name param_val)]) else (Ok None, [(Debug, cannot_find name calling_fn)]).
(** 89-105: GetParamRequired; 107-123: GetParamRequiredDebugLog. *)
Definition get_param_required_at (found : level) (init : T) (name calling_fn : string) : outcome T * log :=
  let (ok, param_val) := getParam name init in
  if ok then (Ok param_val, [(Debug, no_default name); (found, retrieving name param_val)])
  else (Throw InvalidArgument, [(Debug, no_default name); (Fatal, required_msg name calling_fn)]).
Definition get_param_required := get_param_required_at Info.
Definition get_param_required_debug_log := get_param_required_at Debug.
End Params.

Section Vectors.
Variables X T : Type.
Variable server : string -> option X.
Variable conv : X -> option (list T).
Variable junk : X -> list T -> list T.
Variable ns : string.
Notation getv name := (getParam X (list T) server conv junk ns name []).
Definition vector_of (v : list T) : string := "vector of length " ++ decimal (Z.of_nat (length v)).
(** 125-138: GetVector; there is no blank before "as" in the first text. *)
Definition get_vector (name : string) (default_val : list T) : outcome (list T) * log :=
  let (ok, vec) := getv name in
  if ok then (Ok vec, [(Info, "Retrieving " ++ padded name ++ "as " ++ vector_of vec)])
  else (Ok default_val, [(Warn, "Defaulting " ++ padded name ++ " as " ++ vector_of default_val)]).
(** 140-153: GetVectorOptional. *)
Definition get_vector_optional (name calling_fn : string) : outcome (option (list T)) * log :=
  let (ok, vec) := getv name in
  if ok then (Ok (Some vec), [(Info, "Retrieving " ++ padded name ++ " as " ++ vector_of vec)]) else (Ok None, [(Debug, cannot_find ns name calling_fn)]).
(** 155-171: GetVectorRequired; 173-189: GetVectorRequiredDebugLog. *)
Definition get_vector_required_at (found : level) (name calling_fn : string) : outcome (list T) * log :=
  let (ok, vec) := getv name in
  if ok then (Ok vec, [(Debug, no_default name); (found, "Retrieving " ++ padded name ++ " as " ++ vector_of vec)])
  else (Throw InvalidArgument, [(Debug, no_default name); (Fatal, required_msg ns name calling_fn)]).
Definition get_vector_required := get_vector_required_at Info.
Definition get_vector_required_debug_log := get_vector_required_at Debug.
End Vectors.

(** 12-16: Spin: while ros::ok() the queue is served.  [oks] are the answers of ros::ok(), [serve] handles what is in the queue. *)
Fixpoint spin {S} (serve : S -> S) (oks : list bool) (s : S) : outcome S :=
  match oks with
  | [] => NoFuel
  | false :: _ => Ok s
  | true :: oks => spin serve oks (serve s)
  end.
