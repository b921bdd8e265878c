(** Model of src/arc_utilities/tf2wrapper.py and reliable_tf.py over the real numbers.  Names of frames are numbers, as are times.  The buffer of tf2 is
    given by what it answers at each poll.  transform_to_frame (tf2wrapper.py 144-168), which only passes its arguments on, logging and the times of
    sending are left out. *)
From Coq Require Import Reals List Bool ZArith.
From Verif Require Import PyBase MathModel GeoModel PyTfModel.
Import ListNotations.

(** ** tf2wrapper.py *)
Inductive tf2_exn := LookupException | ConnectivityException | ExtrapolationException | InvalidArgumentException.
Inductive looked_up := Found (t : xform) | Tf2 (e : tf2_exn).
(** How get_transform_msg ends. *)
Inductive msg_result := MFound (t : xform) | MTf2 (e : tf2_exn) | MInterrupt | MNoEnd.
Section Get.
  Context (quaternion_matrix : quat -> M3).
  (** What can_transform, is_shutdown and lookup_transform give, by the number of the poll. *)
  Variable can down : nat -> bool.
  Variable look : nat -> looked_up.
  (** 59-74: get_transform_msg; [fuel] bounds the number of polls. *)
  Fixpoint get_msg_loop (fuel i : nat) : msg_result :=
    match fuel with
    | O => MNoEnd
    | S f =>
        if can i then match look i with Found t => MFound t | Tf2 e => MTf2 e end
        else if down i then MInterrupt
        else get_msg_loop f (S i)
    end.
  Definition get_transform_msg (fuel : nat) : msg_result := get_msg_loop fuel 0.
  (** 26-57: get_transform; exceptions of tf2 that are not named in line 53 come through (OtherError). *)
  Definition get_transform (fuel : nat) : py (option iso) :=
    match get_transform_msg fuel with
    | MFound t => Ret (Some (to_mat quaternion_matrix t))
    | MTf2 LookupException | MTf2 ConnectivityException | MTf2 ExtrapolationException => Ret None
    | MTf2 InvalidArgumentException => Raise OtherError
    | MInterrupt => Raise KeyboardInterrupt
    | MNoEnd => NoEnd
    end.
End Get.

(** The rotation of a message is a new object, or the orientation of a pose of the caller: the object with this number (102). *)
Inductive rotation_ref := RNew (q : quat) | RPose (id : nat).
Record stamped := mkStamped { stamp : Z; parent : nat; child : nat; translation : V3; rotation : rotation_ref }.
(** The quaternion objects of the caller, and what is on the wire. *)
Definition heap := nat -> quat.
Record wire := mkWire { w_stamp : Z; w_parent : nat; w_child : nat; w_xform : xform }.
Definition on_wire (h : heap) (t : stamped) : wire :=
  mkWire (stamp t) (parent t) (child t) (mkX (translation t) match rotation t with RNew q => q | RPose i => h i end).
Inductive published := Tf (w : wire) | TfStatic (ws : list wire).

(** What can be sent: a translation and a quaternion (110-142), a matrix (76-89), a pose whose orientation is object [id] (91-108). *)
Inductive content := CQuat (t : V3) (q : quat) | CMatrix (m : iso) | CPose (position : V3) (id : nat).
Section Send.
  Context (quaternion_from_matrix : M3 -> quat).
  Definition make (c : content) (time : Z) (par chi : nat) : stamped :=
    match c with
    | CQuat t q => mkStamped time par chi t (RNew q)
    | CMatrix m => let x := from_mat quaternion_from_matrix m in mkStamped time par chi (x_trans x) (RNew (x_rot x))
    | CPose p i => mkStamped time par chi p (RPose i)
    end.
  (** [time] is None or the argument, [now] the clock; the first component is static_tfs. *)
  Definition send (static_tfs : list stamped) (h : heap) (c : content) (par chi : nat) (is_static : bool) (time : option Z) (now : Z) : list stamped * published :=
    let t := make c (match time with Some z => z | None => now end) par chi in
    if is_static then (static_tfs ++ [t], TfStatic (map (on_wire h) (static_tfs ++ [t]))) else (static_tfs, Tf (on_wire h t)).

  (** What a program does with several wrappers of one process (numbered) and its own quaternion objects; rospy keeps one latched message for the
      topic of static transforms for the whole process, the last one. *)
  Inductive act := ASend (wrapper : nat) (c : content) (par chi : nat) (is_static : bool) (time : option Z) (now : Z) | AChange (id : nat) (q : quat).
  Record process := mkP { statics : nat -> list stamped; objects : heap; latched : list wire; sent : list published }.
  Definition do_act (p : process) (a : act) : process :=
    match a with
    | ASend k c par chi s time now =>
        let (l, o) := send (statics p k) (objects p) c par chi s time now in
        mkP (fun j => if (j =? k)%nat then l else statics p j) (objects p) (match o with TfStatic ws => ws | Tf _ => latched p end) (o :: sent p)
    | AChange i q => mkP (statics p) (fun j => if (j =? i)%nat then q else objects p j) (latched p) (sent p)
    end.
  Definition run (acts : list act) (p : process) : process := fold_left do_act acts p.
  Definition begin (h : heap) : process := mkP (fun _ => []) h [] [].
End Send.

(** ** reliable_tf.py *)
(** numpy.allclose with its default tolerances. *)
Definition close (a b : R) : bool := Rleb (Rabs (a - b)) (/ 10 ^ 8 + / 10 ^ 5 * Rabs b).
Fixpoint allclose (a b : list R) : bool := match a, b with [], [] => true | x :: a', y :: b' => close x y && allclose a' b' | _, _ => false end.
Definition vec (v : V3) : list R := [vx v; vy v; vz v].
Definition entries (m : iso) : list R :=
  let r := irot m in let t := itrans m in
  [m00 r; m01 r; m02 r; vx t; m10 r; m11 r; m12 r; vy t; m20 r; m21 r; m22 r; vz t; 0; 0; 0; 1]%R.
Definition quat_list (q : quat) : list R := [qx q; qy q; qz q; qw q].
Section Reliable.
  Context (quaternion_matrix : quat -> M3) (quaternion_from_matrix : M3 -> quat).
  (** 64-65, 73-74, 83-89: is_close_func of what is sent, [h] being the objects at that time; without a transform numpy raises TypeError.
      ros_numpy.numpify of a pose is its matrix. *)
  Definition is_close (h : heap) (c : content) (received : option iso) : py bool :=
    match received with
    | None => Raise TypeError
    | Some m =>
        Ret match c with
            | CMatrix t => allclose (entries t) (entries m)
            | CPose p i => allclose (entries (to_mat quaternion_matrix (mkX p (h i)))) (entries m)
            | CQuat t q =>
                let r := quaternion_from_matrix (irot m) in
                allclose (vec t) (vec (itrans m)) && (allclose (quat_list q) (quat_list r) || allclose (quat_list q) (map Ropp (quat_list r)))
            end
    end.
  (** 106-109; what get_transform gives at each turn; [fuel] bounds the turns. *)
  Fixpoint wait_close (fuel : nat) (h : heap) (c : content) (received : nat -> py (option iso)) (i : nat) : py unit :=
    match fuel with
    | O => NoEnd
    | S f => let? r := received i in let? b := is_close h c r in if b then Ret tt else wait_close f h c received (S i)
    end.

  (** Threads that send, by number, with their frames and content; managed_tfs as pairs of key and number of the thread. *)
  Definition key := (nat * nat)%type.
  Definition key_eqb (a b : key) : bool := (fst a =? fst b)%nat && (snd a =? snd b)%nat.
  Record reliable := mkR { managed : list (key * nat); running : list (nat * (key * content)); next_id : nat }.
  (** 48-51. *)
  Definition new_reliable : reliable := mkR [] [] 0.
  (** 111-116: stop_send; join returns when the thread has seen the event. *)
  Definition stop_send (s : reliable) (k : key) : reliable :=
    match find (fun e => key_eqb (fst e) k) (managed s) with
    | Some (_, t) => mkR (filter (fun e => negb (key_eqb (fst e) k)) (managed s)) (filter (fun e => negb (fst e =? t)%nat) (running s)) (next_id s)
    | None => s
    end.
  (** 56-58: close, also 53-54: __del__. *)
  Definition close_all (s : reliable) : reliable := fold_left stop_send (map fst (managed s)) s.
  (** 93-109: start_send. *)
  Definition start_send (s : reliable) (k : key) (c : content) (fuel : nat) (h : heap) (received : nat -> py (option iso)) : reliable * py unit :=
    let s1 := stop_send s k in
    let t := next_id s1 in
    (mkR (managed s1 ++ [(k, t)]) (running s1 ++ [(t, (k, c))]) (S t), wait_close fuel h c received 0).

  (** A program using the object, going on after exceptions. *)
  Inductive call := KStart (k : key) (c : content) (fuel : nat) (h : heap) (received : nat -> py (option iso)) | KStop (k : key) | KClose.
  Definition do_call (s : reliable) (x : call) : reliable :=
    match x with KStart k c fuel h r => fst (start_send s k c fuel h r) | KStop k => stop_send s k | KClose => close_all s end.
  Definition run_calls (l : list call) : reliable := fold_left do_call l new_reliable.
End Reliable.
