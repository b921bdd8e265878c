(** Model of src/arc_utilities/ros_helpers.py, xbox.py and ros_init.py.  What polling finds is given by the number of the poll, starting with 0. *)
From Coq Require Import Ascii String Reals.
From Verif Require Import PyBase.
Open Scope nat_scope.

(** ** ros_helpers.py *)
Section Wait.
  (** What func gives at each poll, whether ROS is shut down then, the time then in nanoseconds, and the time at the start. *)
  Variable func : nat -> py bool.
  Variable down : nat -> bool.
  Variable now : nat -> Z.
  Variable start_t : Z.
  Variable warn_after : option Z.
  Definition late (i : nat) : bool := match warn_after with Some s => (s * 1000000000 <? now i - start_t)%Z | None => false end.
  (** 19-25; [fuel] bounds the number of polls.  The result: the polls with a warning (which logwarn_throttle may then suppress), and the number of
      calls of func. *)
  Fixpoint wait_loop (fuel i : nat) : list nat * py nat :=
    match fuel with
    | O => ([], NoEnd)
    | S f =>
        match func i with
        | Raise e => ([], Raise e)
        | NoEnd => ([], NoEnd)
        | Ret true => ([], Ret (S i))
        | Ret false =>
            if down i then ([], Ret (S i))
            else let (ws, r) := wait_loop f (S i) in ((if late i then [i] else []) ++ ws, r)
        end
    end.
  (** 10-25: wait_for. *)
  Definition wait_for (fuel : nat) : list nat * py nat := wait_loop fuel 0.
End Wait.

(** 40-57: joy_to_xbox.  The fields of the result; assigning a sequence to names needs as many values as names. *)
Inductive field := Btn (z : Z) | Axis (x : R).
Record joy := mkJoy { buttons : list Z; axes : list R }.
Fixpoint unpack {A} (wrap : A -> field) (names : list string) (vals : list A) : py (list (string * field)) :=
  match names, vals with
  | [], [] => Ret []
  | n :: ns, v :: vs => let? r := unpack wrap ns vs in Ret ((n, wrap v) :: r)
  | _, _ => Raise ValueError
  end.
Definition common_buttons : list string :=
  ["A"; "B"; "X"; "Y"; "LB"; "RB"; "back"; "start"; "power"; "stick_button_left"; "stick_button_right"]%string.
Definition axis_names : list string := ["LH"; "LV"; "LT"; "RH"; "RV"; "RT"; "DH"; "DV"]%string.
Definition joy_to_xbox (j : joy) (xpad : bool) : py (list (string * field)) :=
  let? b := unpack Btn (if xpad then common_buttons ++ ["DL"; "DR"; "DU"; "DD"]%string else common_buttons) (buttons j) in
  let? a := unpack Axis axis_names (axes j) in
  Ret (b ++ a).

(** 65-74: get_connected_publisher; [conns] gives the number of connections at each of the five polls.  True: the publisher is returned. *)
Definition get_connected (num_subs : nat) (conns : nat -> nat) : py unit :=
  if existsb (fun i => conns i =? num_subs) (seq 0 5) then Ret tt else Raise PyRuntimeError.
(** 77-85: _get_subscribers, given the resolved topic and the subscribers that the master knows. *)
Definition get_subscribers (state : list (string * list string)) (topic : string) : list string :=
  flat_map (fun sub => if (fst sub =? topic)%string then snd sub else []) state.
(** rosgraph.names.script_resolve_name (79): the namespace ends with a slash; [caller] is the name made up for the script, rostopic_PID. *)
Definition script_resolve (ns caller name : string) : string :=
  match name with
  | EmptyString => ns
  | String c rest => if Ascii.eqb c "/" then name else if Ascii.eqb c "~" then (caller ++ "/" ++ rest)%string else (ns ++ name)%string
  end.
(** rospy.names.resolve_name, which rospy.Publisher (66) uses: with the name of the node and the remappings of the command line. *)
Definition rospy_resolve (ns node : string) (mappings : list (string * string)) (name : string) : string :=
  match name with
  | EmptyString => ns
  | _ =>
      let r := script_resolve ns node name in
      match find (fun m => (fst m =? r)%string) mappings with Some m => snd m | None => r end
  end.
(** 88-100: try_to_connect; [conns i p] is the number of connections of publisher [p] at poll [i]; the sixth poll is that of line 95.  The result:
    the publishers named in the warning, if there is one. *)
Definition try_to_connect (conns : nat -> nat -> nat) (publishers : list nat) (raise_on_fail : bool) : py (list nat) :=
  if existsb (fun i => forallb (fun p => 0 <? conns i p) publishers) (seq 0 5) then Ret []
  else
    let unconnected := filter (fun p => conns 5 p =? 0) publishers in
    if 0 <? length unconnected then if raise_on_fail then Raise PyRuntimeError else Ret unconnected else Ret [].

(** ** xbox.py.  A message that the listener gives; None is given at shutdown. *)
Open Scope R_scope.
(** 10-13: deadzone.  The double nearest to 0.05 is taken to be 1/20. *)
Definition deadzone (x : R) : R := if Rlt_dec (Rabs x) (1 / 20) then 0 else x.
(** 27-31: get_buttons_state. *)
Definition get_buttons_state (m : option joy) (xpad : bool) : py (list (string * field)) :=
  match m with None => Raise AttributeError | Some j => joy_to_xbox j xpad end.
(** 33-39: get_button; names other than those of fields: the attributes that every object has are not modelled. *)
Definition get_button (m : option joy) (xpad : bool) (button : string) : py field :=
  let? x := get_buttons_state m xpad in
  match find (fun f => (fst f =? button)%string) x with Some f => Ret (snd f) | None => Raise AttributeError end.
Definition is_zero (f : field) : bool := match f with Btn z => (z =? 0)%Z | Axis x => if Req_EM_T x 0 then true else false end.
(** 41-52: wait_for_button; [msgs i] is what the listener gives at poll [i]. *)
Definition wait_for_button (msgs : nat -> option joy) (down : nat -> bool) (now : nat -> Z) (start_t : Z) (xpad : bool) (button : string) (fuel : nat) :
  list nat * py nat :=
  wait_for (fun i => let? v := get_button (msgs i) xpad button in Ret (negb (is_zero v))) down now start_t (Some 10%Z) fuel.
(** 54-55: x_clicked. *)
Definition x_clicked (ev_type code : string) (state : Z) : bool := ((ev_type =? "Key")%string && (code =? "BTN_NORTH")%string && (state =? 0)%Z)%bool.
(** 57-70: get_axis_normalized. *)
Definition index (l : list R) (i : nat) : py R := match nth_error l i with Some x => Ret x | None => Raise IndexError end.
Definition get_axis_normalized (m : option joy) (axis : nat) : py R :=
  match axis with
  | 0%nat => match m with Some j => let? x := index (axes j) 0 in Ret (deadzone (- x)) | None => Raise AttributeError end
  | 1%nat | 2%nat | 4%nat | 5%nat => match m with Some j => let? x := index (axes j) axis in Ret (deadzone x) | None => Raise AttributeError end
  | _ => Raise NotImplementedError
  end.
(** 72-84: get_3d_delta; each of the three values is read from a message of its own. *)
Definition get_3d_delta (m0 m1 m2 : option joy) : py (R * R * R) :=
  let? x := get_axis_normalized m0 0 in
  let? y := get_axis_normalized m1 1 in
  let? z := get_axis_normalized m2 4 in
  Ret (x, y, z).
Close Scope R_scope.

(** ** ros_init.py *)
Inductive ev := CppInit (name : string) | PyInit (name : string) | Body | PyShutdown | CppShutdown.
(** 21-22: rospy_and_cpp_init, given what the two calls do. *)
Definition rospy_and_cpp_init (name : string) (cpp py_ : py unit) : list ev * py unit :=
  match cpp with
  | Ret _ => ([CppInit ("cpp_" ++ name); PyInit name], py_)
  | r => ([CppInit ("cpp_" ++ name)], r)
  end.
(** 28-29: shutdown; both calls are taken to return. *)
Definition shutdown : list ev := [PyShutdown; CppShutdown].
(** 32-40, 63-70: with_ros: what happens when the wrapped function is called and gives [r]. *)
Definition with_ros {A} (name : string) (cpp py_ : py unit) (r : py A) : list ev * py A :=
  let (l, i) := rospy_and_cpp_init name cpp py_ in
  match i with
  | Raise e => (l, Raise e)
  | NoEnd => (l, NoEnd)
  | Ret _ => match r with NoEnd => (l ++ [Body], NoEnd) | _ => (l ++ [Body] ++ shutdown, r) end
  end.
