(** C150: the parameter helpers of ros_helpers.hpp. *)
From Coq Require Import String Ascii.
From Verif Require Import Base PrintModel ParamModel.
Open Scope string_scope.

(** The value a user expects: the parameter is on the server and can be read as the type asked for. *)
Definition has_value {X T} (server : string -> option X) (conv : X -> option T) (key : string) (v : T) : Prop :=
  exists x, server key = Some x /\ conv x = Some v.
Definition has_none {X T} (server : string -> option X) (conv : X -> option T) (key : string) : Prop := forall v : T, ~ has_value server conv key v.
(** The name of a parameter [name] of a node handle in the namespace [ns] (not the root): a relative name lies in the namespace. *)
Definition relative (name : string) : Prop := forall rest, name <> String "/" rest.
(** [s] occurs in [t]. *)
Definition occurs (s t : string) : Prop := exists a b, t = a ++ s ++ b.
Definition quiet (l : log) : Prop := forall e, In e l -> fst e = Debug.

(** The key of a parameter on the server: a global name is its own key, a relative one lies in the namespace, one slash after it. *)
Theorem C150_names : forall ns name,
  (forall rest, name = "/" ++ rest -> resolve ns name = name) /\
  (relative name -> resolve "/" name = "/" ++ name) /\
  (relative name -> ns <> "/" -> resolve ns name = ns ++ "/" ++ name).
Proof.
  intros ns name. split; [intros rest ->; reflexivity|]. assert (A : forall n, relative name -> resolve n name = if String.eqb n "/" then n ++ name else n ++ "/" ++ name).
  { intros n R. destruct name as [|c name]; [reflexivity|]. destruct (Ascii.ascii_dec c "/") as [->|N]; [destruct (R name eq_refl)|].
    destruct c as [[] [] [] [] [] [] [] []]; reflexivity || (destruct (N eq_refl)). }
  split; intros R; [|intros N]; rewrite A by auto; [reflexivity|]. destruct (String.eqb_spec ns "/"); [contradiction|reflexivity].
Qed.
Print Assumptions C150_names.

Section P.
Variables X T : Type.
Variable server : string -> option X.
Variable conv : X -> option T.
Variable junk : X -> T -> T.
Variable show : T -> string.
Variable ns : string.
Notation key name := (resolve ns name).
Notation value_at name := (has_value server conv (key name)).
Notation nothing_at name := (has_none (T := T) server conv (key name)).

Lemma getParam_cases name init :
  (exists v, value_at name v /\ getParam X T server conv junk ns name init = (true, v)) \/
  (nothing_at name /\ exists w, getParam X T server conv junk ns name init = (false, w)).
Proof.
  unfold getParam, has_none, has_value. destruct (server (key name)) as [x|]; [destruct (conv x) as [v|] eqn:C|].
  - left. exists v. eauto.
  - right. split; [intros v (y & E & C'); congruence|eauto].
  - right. split; [intros v (y & E & C'); congruence|eauto].
Qed.
Lemma value_unique name v w : value_at name v -> value_at name w -> v = w.
Proof. intros (x & E & C) (y & E' & C'). congruence. Qed.

(** GetParam: the value on the server, and otherwise exactly the default, whatever the uninitialized local held and getParam left in it. *)
Theorem C150_get_param : forall init name default_val,
  (forall v, value_at name v ->
     get_param X T server conv junk show ns init name default_val = (Ok v, [(Info, "Retrieving " ++ padded name ++ " as " ++ show v)]) /\
     get_param_debug_log X T server conv junk show ns init name default_val = (Ok v, [(Debug, "Retrieving " ++ padded name ++ " as " ++ show v)])) /\
  (nothing_at name ->
     get_param X T server conv junk show ns init name default_val = (Ok default_val, [(Warn, "Defaulting " ++ padded name ++ " to " ++ show default_val)]) /\
     get_param_debug_log X T server conv junk show ns init name default_val = (Ok default_val, [(Debug, "Defaulting " ++ padded name ++ " to " ++ show default_val)])).
Proof.
  intros init name d. unfold get_param, get_param_debug_log, get_param_at. destruct (getParam_cases name init) as [(v & H & ->)|(H & w & ->)]; split.
  - intros v' H'. rewrite (value_unique _ _ _ H' H). auto.
  - intros N. destruct (N v H).
  - intros v' H'. destruct (H v' H').
  - auto.
Qed.
(** GetParamOptional: the value, or nothing. *)
Theorem C150_optional : forall init name fn,
  (forall v, value_at name v -> fst (get_param_optional X T server conv junk show ns init name fn) = Ok (Some v)) /\
  (nothing_at name -> fst (get_param_optional X T server conv junk show ns init name fn) = Ok None /\ quiet (snd (get_param_optional X T server conv junk show ns init name fn))).
Proof.
  intros init name fn. unfold get_param_optional. destruct (getParam_cases name init) as [(v & H & ->)|(H & w & ->)]; split.
  - intros v' H'. rewrite (value_unique _ _ _ H' H). auto.
  - intros N. destruct (N v H).
  - intros v' H'. destruct (H v' H').
  - intros _. split; auto. intros e [ <- |[]]. auto.
Qed.
(** GetParamRequired: the value, or std::invalid_argument and a fatal line; the other version differs in the level of the first case only. *)
Theorem C150_required : forall init name fn,
  (forall v, value_at name v ->
     fst (get_param_required X T server conv junk show ns init name fn) = Ok v /\ fst (get_param_required_debug_log X T server conv junk show ns init name fn) = Ok v /\
     quiet (snd (get_param_required_debug_log X T server conv junk show ns init name fn))) /\
  (nothing_at name ->
     fst (get_param_required X T server conv junk show ns init name fn) = Throw InvalidArgument /\
     get_param_required_debug_log X T server conv junk show ns init name fn = get_param_required X T server conv junk show ns init name fn /\
     exists l msg, snd (get_param_required X T server conv junk show ns init name fn) = (l ++ [(Fatal, msg)])%list /\ quiet l /\ occurs name msg /\ occurs fn msg).
Proof.
  intros init name fn. unfold get_param_required, get_param_required_debug_log, get_param_required_at. destruct (getParam_cases name init) as [(v & H & ->)|(H & w & ->)]; split.
  - intros v' H'. rewrite (value_unique _ _ _ H' H). split; auto. split; auto. cbn. intros e [ <- |[ <- |[]]]; auto.
  - intros N. destruct (N v H).
  - intros v' H'. destruct (H v' H').
  - intros _. split; auto. split; auto. exists [(Debug, no_default name)], (required_msg ns name fn). split; auto. split; [intros e [ <- |[]]; auto|].
    assert (A : forall a b c, (a ++ b) ++ c = a ++ b ++ c) by (induction a; cbn; intros; f_equal; auto).
    split.
    + exists ("Cannot find " ++ ns ++ "/"), (" on parameter server for " ++ fn ++ ": Value must be on paramter sever"). unfold required_msg, cannot_find. rewrite !A. reflexivity.
    + exists ("Cannot find " ++ ns ++ "/" ++ name ++ " on parameter server for "), ": Value must be on paramter sever". unfold required_msg, cannot_find. rewrite !A. reflexivity.
Qed.
(** The message of the exception names the parameter that was looked up, for relative names outside the root namespace. *)
Theorem C150_message_partial : forall name fn, ns <> "/" -> relative name -> occurs (resolve ns name) (required_msg ns name fn).
Proof.
  intros name fn N R. unfold resolve. assert (A : forall a b c, (a ++ b) ++ c = a ++ b ++ c) by (induction a; cbn; intros; f_equal; auto).
  assert (Q : String.eqb ns "/" = false) by (apply String.eqb_neq; auto). rewrite Q.
  assert (E : match name with String "/" _ => name | _ => ns ++ "/" ++ name end = ns ++ "/" ++ name).
  { destruct name as [|c rest]; auto. destruct c as [[] [] [] [] [] [] [] []]; auto. exfalso. apply (R rest). reflexivity. }
  rewrite E. exists "Cannot find ", (" on parameter server for " ++ fn ++ ": Value must be on paramter sever"). unfold required_msg, cannot_find. rewrite !A. reflexivity.
Qed.
End P.

(** The versions for vectors. *)
Theorem C150_vectors : forall X T (server : string -> option X) (conv : X -> option (list T)) junk ns name fn d,
  (forall v, has_value server conv (resolve ns name) v ->
     fst (get_vector X T server conv junk ns name d) = Ok v /\ fst (get_vector_optional X T server conv junk ns name fn) = Ok (Some v) /\
     fst (get_vector_required X T server conv junk ns name fn) = Ok v /\ fst (get_vector_required_debug_log X T server conv junk ns name fn) = Ok v /\
     quiet (snd (get_vector_required_debug_log X T server conv junk ns name fn))) /\
  (has_none (T := list T) server conv (resolve ns name) ->
     fst (get_vector X T server conv junk ns name d) = Ok d /\ fst (get_vector_optional X T server conv junk ns name fn) = Ok None /\
     fst (get_vector_required X T server conv junk ns name fn) = Throw InvalidArgument /\ get_vector_required_debug_log X T server conv junk ns name fn = get_vector_required X T server conv junk ns name fn /\
     (exists l msg, snd (get_vector_required X T server conv junk ns name fn) = (l ++ [(Fatal, msg)])%list /\ quiet l /\ occurs name msg /\ occurs fn msg) /\
     exists msg, snd (get_vector X T server conv junk ns name d) = [(Warn, msg)] /\ occurs name msg).
Proof.
  intros. unfold get_vector, get_vector_optional, get_vector_required, get_vector_required_debug_log, get_vector_required_at.
  destruct (getParam_cases X (list T) server conv junk ns name []) as [(v & H & ->)|(H & w & ->)]; split.
  - intros v' H'. rewrite (value_unique _ _ _ _ _ _ _ _ H' H). repeat (split; auto). cbn. intros e [ <- |[ <- |[]]]; auto.
  - intros N. destruct (N v H).
  - intros v' H'. destruct (H v' H').
  - intros _. split; auto. split; auto. split; auto. split; auto. assert (A : forall a b c, (a ++ b) ++ c = a ++ b ++ c) by (induction a; cbn; intros; f_equal; auto). split.
    + exists [(Debug, no_default name)], (required_msg ns name fn). split; auto. split; [intros e [ <- |[]]; auto|]. split.
      * exists ("Cannot find " ++ ns ++ "/"), (" on parameter server for " ++ fn ++ ": Value must be on paramter sever"). unfold required_msg, cannot_find. rewrite !A. reflexivity.
      * exists ("Cannot find " ++ ns ++ "/" ++ name ++ " on parameter server for "), ": Value must be on paramter sever". unfold required_msg, cannot_find. rewrite !A. reflexivity.
    + eexists. split; [reflexivity|]. exists "Defaulting ", (spaces (param_name_width - String.length name) ++ " as " ++ vector_of T d). unfold padded. rewrite !A. reflexivity.
Qed.
(** What is logged when the parameter is there: a line at the level info (debug in the versions with DebugLog), with the value, or the number of elements of the vector. *)
Theorem C150_lines : forall X T (server : string -> option X) junk ns name fn,
  (forall (conv : X -> option T) junk' show init v, has_value server conv (resolve ns name) v ->
     let line := "Retrieving " ++ padded name ++ " as " ++ show v in
     snd (get_param_optional X T server conv junk' show ns init name fn) = [(Info, line)] /\
     snd (get_param_required X T server conv junk' show ns init name fn) = [(Debug, "No default value for " ++ name ++ ": Value must be on paramter sever"); (Info, line)] /\
     snd (get_param_required_debug_log X T server conv junk' show ns init name fn) = [(Debug, "No default value for " ++ name ++ ": Value must be on paramter sever"); (Debug, line)]) /\
  (forall (conv : X -> option (list T)) d v, has_value server conv (resolve ns name) v ->
     let line := "Retrieving " ++ padded name ++ " as vector of length " ++ decimal (Z.of_nat (length v)) in
     snd (get_vector X T server conv junk ns name d) = [(Info, "Retrieving " ++ padded name ++ "as vector of length " ++ decimal (Z.of_nat (length v)))] /\
     snd (get_vector_optional X T server conv junk ns name fn) = [(Info, line)] /\
     snd (get_vector_required X T server conv junk ns name fn) = [(Debug, "No default value for " ++ name ++ ": Value must be on paramter sever"); (Info, line)] /\
     snd (get_vector_required_debug_log X T server conv junk ns name fn) = [(Debug, "No default value for " ++ name ++ ": Value must be on paramter sever"); (Debug, line)]) /\
  (forall (conv : X -> option (list T)) d, has_none (T := list T) server conv (resolve ns name) ->
     snd (get_vector X T server conv junk ns name d) = [(Warn, "Defaulting " ++ padded name ++ " as vector of length " ++ decimal (Z.of_nat (length d)))]).
Proof.
  intros X T server junk ns name fn. split; [|split].
  - intros conv junk' show init v H. unfold get_param_optional, get_param_required, get_param_required_debug_log, get_param_required_at.
    destruct (getParam_cases X T server conv junk' ns name init) as [(v' & H' & ->)|(N & _)]; [|destruct (N v H)]. rewrite (value_unique _ _ _ _ _ _ _ _ H H'). split; [|split]; reflexivity.
  - intros conv d v H. unfold get_vector, get_vector_optional, get_vector_required, get_vector_required_debug_log, get_vector_required_at.
    destruct (getParam_cases X (list T) server conv junk ns name []) as [(v' & H' & ->)|(N & _)]; [|destruct (N v H)]. rewrite (value_unique _ _ _ _ _ _ _ _ H H'). split; [|split; [|split]]; reflexivity.
  - intros conv d N. unfold get_vector. destruct (getParam_cases X (list T) server conv junk ns name []) as [(v' & H' & _)|(_ & w & ->)]; [destruct (N v' H')|]. reflexivity.
Qed.
Print Assumptions C150_lines.
(** The loop of Spin serves the queue once for every positive answer of ros::ok(). *)
Fixpoint times {S} (n : nat) (f : S -> S) (s : S) : S := match n with O => s | Datatypes.S n => times n f (f s) end.
Theorem C150_spin : forall S (serve : S -> S) n rest s, spin serve (repeat true n ++ false :: rest) s = Ok (times n serve s).
Proof. intros S serve n rest. induction n as [|n IH]; intros s; cbn; auto. Qed.
Print Assumptions C150_get_param.
Print Assumptions C150_optional.
Print Assumptions C150_required.
Print Assumptions C150_message_partial.
Print Assumptions C150_vectors.
Print Assumptions C150_spin.

(** ** A server with whole numbers and texts *)
Inductive xml := XInt (z : Z) | XString (s : string).
Definition as_int (x : xml) : option Z := match x with XInt z => Some z | XString _ => None end.
Definition srv (k : string) : option xml := if k =? "/arm/speed" then Some (XInt 7) else if k =? "/speed" then Some (XString "fast") else None.
Definition get (ns name : string) := get_param xml Z srv as_int (fun _ v => v) decimal ns (-99)%Z name 3%Z.
Example C150_example : get "/arm" "speed" = (Ok 7%Z, [(Info, "Retrieving speed                                              as 7")]) /\
  get "/arm" "/arm/speed" = (Ok 7%Z, [(Info, "Retrieving /arm/speed                                         as 7")]) /\
  get "/leg" "speed" = (Ok 3%Z, [(Warn, "Defaulting speed                                              to 3")]).
Proof. split; [|split]; reflexivity. Qed.
(** A parameter of another type counts as missing: it is there, the default is used, and the required version says that it cannot be found. *)
Theorem C150_wrong_type_refuted : exists ns name, srv (resolve ns name) <> None /\ fst (get ns name) = Ok 3%Z /\
  get_param_required xml Z srv as_int (fun _ v => v) decimal ns (-99)%Z name "main" =
    (Throw InvalidArgument, [(Debug, "No default value for speed: Value must be on paramter sever"); (Fatal, "Cannot find //speed on parameter server for main: Value must be on paramter sever")]).
Proof. exists "/", "speed". split; [discriminate|]. split; reflexivity. Qed.
(** The message does not name the parameter that was looked up when the name is global. *)
Fixpoint occursb (s t : string) : bool := prefix s t || match t with EmptyString => false | String _ t => occursb s t end.
Lemma occursb_spec s t : occurs s t -> occursb s t = true.
Proof.
  intros (a & b & ->). induction a as [|c a IH]; cbn [append].
  - assert (P : prefix s (s ++ b) = true) by (induction s as [|c s IH]; cbn; [destruct b; auto|destruct (Ascii.ascii_dec c c); [auto|congruence]]). destruct (s ++ b); cbn [occursb]; rewrite P; auto.
  - cbn [occursb]. rewrite IH. apply Bool.orb_true_r.
Qed.
Theorem C150_message_refuted : exists ns name fn, resolve ns name = "/speed" /\ required_msg ns name fn = "Cannot find /arm//speed on parameter server for main: Value must be on paramter sever".
Proof. exists "/arm", "/speed", "main". split; reflexivity. Qed.
Theorem C150_root_message_refuted : exists name fn, resolve "/" name = "/a/b" /\ ~ occurs (" " ++ resolve "/" name ++ " ") (required_msg "/" name fn).
Proof. exists "a/b", "main". split; [reflexivity|]. intros O. apply occursb_spec in O. discriminate. Qed.
(** The line of GetVector runs together for names of 50 characters or more. *)
Theorem C150_line_refuted : forall X T (server : string -> option X) (conv : X -> option (list T)) junk ns name d v, has_value server conv (resolve ns name) v -> 50 <= String.length name ->
  snd (get_vector X T server conv junk ns name d) = [(Info, "Retrieving " ++ name ++ "as " ++ vector_of T v)].
Proof.
  intros until v. intros H L. unfold get_vector. destruct (getParam_cases X (list T) server conv junk ns name []) as [(v' & H' & ->)|(N & _)]; [|destruct (N v H)].
  rewrite (value_unique _ _ _ _ _ _ _ _ H H'). unfold padded, param_name_width. replace (50 - String.length name) with 0 by lia. cbn [snd spaces].
  assert (A : forall a, a ++ "" = a) by (induction a; cbn; f_equal; auto). rewrite A. reflexivity.
Qed.
Definition long_name : string := "controllers/left_arm/joints/wrist/limits/velocities".
Example C150_line_example : exists server v, has_value server (fun x => match as_int x with Some z => Some [z] | None => None end) (resolve "/" long_name) v /\ 50 <= String.length long_name /\
  snd (get_vector xml Z server (fun x => match as_int x with Some z => Some [z] | None => None end) (fun _ v => v) "/" long_name []) =
    [(Info, "Retrieving controllers/left_arm/joints/wrist/limits/velocitiesas vector of length 1")].
Proof. exists (fun _ => Some (XInt 7)), [7%Z]. split; [exists (XInt 7); split; reflexivity|]. split; [cbn; lia|reflexivity]. Qed.
Print Assumptions C150_wrong_type_refuted.
Print Assumptions C150_message_refuted.
Print Assumptions C150_root_message_refuted.
Print Assumptions C150_line_refuted.
