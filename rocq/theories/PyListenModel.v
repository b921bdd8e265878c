(** Model of src/arc_utilities/listener.py: the thread that makes the listener and calls get, and the threads in which rospy calls the callback, one for
    each connection.  Steps of different threads are interleaved in all ways; one step is one access to the data, the lock or the callback's field.
    What get gives is a copy, so that messages are values; the message given to the custom callback is not a copy, and the callback may change it.
    The custom callback ends without an exception. *)
From Verif Require Import PyBase.
Open Scope nat_scope.

Section Listener.
  Context {M : Type}.
  (** What the custom callback does: None for no callback; how it changes the message it gets, and whether it calls get of its own listener. *)
  Variable callback : option (M -> M).
  Variable reenter : bool.

  (** The field custom_callback before and after line 29. *)
  Inductive field := FUnset | FSet.
  Inductive owner := OMain | OThread (t : nat).
  (** The thread that uses the listener: lines 28-29; 46; 48; 49; returned. *)
  Inductive main_at := MInit | MWait (block : bool) | MLock (block : bool) | MRead (block : bool) | MDone (block : bool) (v : option M).
  (** A thread of rospy: nothing to do; a message has come (33); the lock is held (34); the message is stored (35); in the custom callback (36); in get
      called from there, waiting for the lock. *)
  Inductive thread_at := TIdle | TWant (m : M) | THave (m : M) | TStored (m : M) | TIn (m : M) | TGet (m : M).
  Record state := mkS {
    data : option M; lock : option owner; custom : field; main : main_at; thread : nat -> thread_at; shutdown : bool;
    stored : list M;   (* messages stored so far, latest first *)
    called : list M;   (* messages given to the custom callback, latest first *)
    failed : list M    (* messages whose callback ended with an AttributeError *)
  }.
  Definition set_thread (f : nat -> thread_at) (t : nat) (x : thread_at) : nat -> thread_at := fun u => if u =? t then x else f u.

  (** 24-28: the state when the subscriber has just been made; [first] is the argument wait_for_data. *)
  Definition start : state := mkS None None FUnset MInit (fun _ => TIdle) false [] [] [].
  Variable first : bool.
  Inductive step : state -> state -> Prop :=
  | s_shutdown d l c m th sd st ca fa : step (mkS d l c m th sd st ca fa) (mkS d l c m th true st ca fa)
  (* 29-30 *)
  | s_init d l c th sd st ca fa : step (mkS d l c MInit th sd st ca fa) (mkS d l FSet (MWait first) th sd st ca fa)
  (* 46: wait_for ends when there is data, or not to wait, or ROS shuts down *)
  | s_wait d l c b th sd st ca fa : b = false \/ d <> None \/ sd = true -> step (mkS d l c (MWait b) th sd st ca fa) (mkS d l c (MLock b) th sd st ca fa)
  (* 48 *)
  | s_main_lock d c b th sd st ca fa : step (mkS d None c (MLock b) th sd st ca fa) (mkS d (Some OMain) c (MRead b) th sd st ca fa)
  (* 49 *)
  | s_read d l c b th sd st ca fa : step (mkS d l c (MRead b) th sd st ca fa) (mkS d None c (MDone b d) th sd st ca fa)
  (* the user calls get again *)
  | s_again d l c b v b' th sd st ca fa : step (mkS d l c (MDone b v) th sd st ca fa) (mkS d l c (MWait b') th sd st ca fa)
  (* 32: a message comes *)
  | s_deliver d l c m th sd st ca fa t x : th t = TIdle -> step (mkS d l c m th sd st ca fa) (mkS d l c m (set_thread th t (TWant x)) sd st ca fa)
  (* 33 *)
  | s_lock d c m th sd st ca fa t x : th t = TWant x -> step (mkS d None c m th sd st ca fa) (mkS d (Some (OThread t)) c m (set_thread th t (THave x)) sd st ca fa)
  (* 34 *)
  | s_store d l c m th sd st ca fa t x : th t = THave x -> step (mkS d l c m th sd st ca fa) (mkS (Some x) l c m (set_thread th t (TStored x)) sd (x :: st) ca fa)
  (* 35: the field does not exist yet *)
  | s_fail d l m th sd st ca fa t x : th t = TStored x -> step (mkS d l FUnset m th sd st ca fa) (mkS d None FUnset m (set_thread th t TIdle) sd st ca (x :: fa))
  (* 35: no callback *)
  | s_none d l m th sd st ca fa t x : th t = TStored x -> callback = None -> step (mkS d l FSet m th sd st ca fa) (mkS d None FSet m (set_thread th t TIdle) sd st ca fa)
  (* 36 *)
  | s_call d l m th sd st ca fa t x g : th t = TStored x -> callback = Some g -> step (mkS d l FSet m th sd st ca fa) (mkS d l FSet m (set_thread th t (TIn x)) sd st (x :: ca) fa)
  | s_return d l c m th sd st ca fa t x g : th t = TIn x -> callback = Some g -> reenter = false ->
      step (mkS d l c m th sd st ca fa) (mkS (Some (g x)) None c m (set_thread th t TIdle) sd st ca fa)
  | s_reenter d l c m th sd st ca fa t x : th t = TIn x -> reenter = true -> step (mkS d l c m th sd st ca fa) (mkS d l c m (set_thread th t (TGet x)) sd st ca fa)
  (* 48 within the callback; after it the callback returns *)
  | s_get d c m th sd st ca fa t x g : th t = TGet x -> callback = Some g -> step (mkS d None c m th sd st ca fa) (mkS (Some (g x)) None c m (set_thread th t TIdle) sd st ca fa).
  Inductive reach : state -> state -> Prop :=
  | r_refl s : reach s s
  | r_step s1 s2 s3 : reach s1 s2 -> step s2 s3 -> reach s1 s3.
End Listener.
Arguments mkS {M}. Arguments data {M}. Arguments lock {M}. Arguments custom {M}. Arguments main {M}. Arguments thread {M}. Arguments shutdown {M}.
Arguments stored {M}. Arguments called {M}. Arguments failed {M}. Arguments start {M}. Arguments main_at : clear implicits. Arguments thread_at : clear implicits.
