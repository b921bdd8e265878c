(** Model of listener.hpp: the node's other end publishes, the spinner's one thread runs the callback, and any number of threads call get and
    waitForNew, in any order.  Each step of the model is one that no other thread can see half done (the mutex, or a single call of ROS). *)
From Verif Require Import Base.

Section Listener.
Context {M : Type} (meqb : M -> M -> bool).
Inductive event :=
| Publish (m : M)      (* a message arrives at the subscriber *)
| Take (m : M)         (* the spinner takes it from the queue *)
| Store (m : M)        (* the callback's critical section *)
| StartSpinner | StopSpinner | Shutdown
| Get (t : nat)        (* get() called by thread t *)
| Clear (t : nat)      (* waitForNew() called by thread t, up to the end of its first critical section *)
| CheckOk (t : nat)    (* the condition of the loop *)
| Poll (t : nat).      (* the get() in the loop *)
(** A thread is somewhere in waitForNew, or elsewhere. *)
Inductive place := Elsewhere | AtCheck | AtPoll.
Inductive result := Got (m : option M) | Returned (m : M) | Threw (e : exn).
Record state := mkState {
  queue : option M;      (* the subscriber's queue of length one *)
  flight : option M;     (* taken and not yet stored *)
  msg_ : option M;
  running : bool;
  ros_ok : bool;
  place_of : nat -> place }.
(** listener.hpp:25-33: the constructor. *)
Definition construct (autostart : bool) (ok : bool) : state := mkState None None None autostart ok (fun _ => Elsewhere).
Definition go (s : state) (t : nat) (p : place) : state := mkState (queue s) (flight s) (msg_ s) (running s) (ros_ok s) (fun u => if (u =? t)%nat then p else place_of s u).
Definition set_msg (s : state) (m : option M) : state := mkState (queue s) (flight s) m (running s) (ros_ok s) (place_of s).
(** [None]: the event cannot happen now. *)
Definition step (s : state) (e : event) : option (state * option (nat * result)) :=
  match e with
  | Publish m => Some (mkState (Some m) (flight s) (msg_ s) (running s) (ros_ok s) (place_of s), None)   (* SubscribeOptions with a queue of 1: the older one is dropped *)
  | Take m =>
      match queue s, flight s, running s with
      | Some q, None, true => if meqb q m then Some (mkState None (Some m) (msg_ s) true (ros_ok s) (place_of s), None) else None
      | _, _, _ => None
      end
  | Store m =>                                                             (* 19-22 callback *)
      match flight s with
      | Some q => if meqb q m then Some (mkState (queue s) None (Some m) (running s) (ros_ok s) (place_of s), None) else None
      | None => None
      end
  | StartSpinner => Some (mkState (queue s) (flight s) (msg_ s) true (ros_ok s) (place_of s), None)     (* 35 start *)
  | StopSpinner =>                                                         (* 37 stop: waits for the callback *)
      match flight s with None => Some (mkState (queue s) None (msg_ s) false (ros_ok s) (place_of s), None) | Some _ => None end
  | Shutdown => Some (mkState (queue s) (flight s) (msg_ s) (running s) false (place_of s), None)
  | Get t => match place_of s t with Elsewhere => Some (s, Some (t, Got (msg_ s))) | _ => None end       (* 39-42 get *)
  | Clear t => match place_of s t with Elsewhere => Some (go (set_msg s None) t AtCheck, None) | _ => None end   (* 44-49 waitForNew *)
  | CheckOk t =>                                                           (* 51 while, 58 throw *)
      match place_of s t with
      | AtCheck => if ros_ok s then Some (go s t AtPoll, None) else Some (go s t Elsewhere, Some (t, Threw RuntimeError))
      | _ => None
      end
  | Poll t =>                                                              (* 52-56 *)
      match place_of s t with
      | AtPoll => match msg_ s with Some m => Some (go s t Elsewhere, Some (t, Returned m)) | None => Some (go s t AtCheck, None) end
      | _ => None
      end
  end.
(** A run of the system; the results of the calls, in order. *)
Fixpoint run (s : state) (es : list event) : option (state * list (nat * result)) :=
  match es with
  | [] => Some (s, [])
  | e :: es => match step s e with
               | None => None
               | Some (s, r) => match run s es with
                                | None => None
                                | Some (s, rs) => Some (s, match r with Some r => r :: rs | None => rs end)
                                end
               end
  end.
End Listener.
Arguments event : clear implicits. Arguments result : clear implicits. Arguments state : clear implicits.
