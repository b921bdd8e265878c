(** Model of src/arc_utilities/catches.py and conditional_try.py: the alarm of the process, and functions by how long they take.  Time is in seconds;
    what happens takes no time but where a duration says so.  An alarm due in the very moment in which the work ends comes too late to stop it here;
    in reality that is undetermined.  The message printed on a timeout is left out. *)
From Verif Require Import PyBase.
Open Scope nat_scope.

(** The handler of SIGALRM: the caller's, or _handle_timeout. *)
Inductive handler_of := HCaller | HTimeout.
Record world := mkW { time : nat; alarm : option nat; handler : handler_of }.
(** signal.alarm: an earlier alarm is forgotten, and 0 seconds is none. *)
Definition set_alarm (w : world) (seconds : nat) : world := mkW (time w) (if seconds =? 0 then None else Some (time w + seconds)) (handler w).

(** What functions return: items, the pairs that catch_timeout gives. *)
Inductive val := VItem (z : Z) | VPair (result : option val) (timed_out : bool).
(** Functions: work for a number of seconds, set an alarm of one's own, call catch_timeout, end. *)
Inductive prog :=
| Done (r : py val)
| Work (d : nat) (k : prog)
| Alarm (seconds : nat) (k : prog)
| Catch (seconds : nat) (func : prog) (k : val -> prog).

(** 9-20: catch_timeout is the case of Catch.  An alarm with the caller's handler ends the work with OtherError here. *)
Fixpoint run (p : prog) (w : world) : world * py val :=
  match p with
  | Done r => (w, r)
  | Work d k =>
      match alarm w with
      | Some due =>
          if due <? time w + d
          then (mkW (Nat.max (time w) due) None (handler w), Raise match handler w with HTimeout => TimeoutError | HCaller => OtherError end)
          else run k (mkW (time w + d) (alarm w) (handler w))
      | None => run k (mkW (time w + d) None (handler w))
      end
  | Alarm seconds k => run k (set_alarm w seconds)
  | Catch seconds func k =>
      let w1 := set_alarm (mkW (time w) (alarm w) HTimeout) seconds in
      let (w2, r) := run func w1 in
      let w3 := set_alarm w2 0 in
      match r with
      | Ret v => run (k (VPair (Some v) false)) w3
      | Raise TimeoutError => run (k (VPair None true)) w3
      | Raise e => (w3, Raise e)
      | NoEnd => (w3, NoEnd)
      end
  end.
Definition catch_timeout (seconds : nat) (func : prog) (w : world) : world * py val := run (Catch seconds func (fun v => Done (Ret v))) w.

(** A running generator: how long each next item takes, and how long it takes to find that there is none. *)
Record gen := mkGen { items : list (nat * Z); last : nat }.
(** After an exception a generator has no more items. *)
Definition exhausted : gen := mkGen [] 0.
Definition next (g : gen) : prog * gen :=
  match items g with
  | (d, v) :: r => (Work d (Done (Ret (VItem v))), mkGen r (last g))
  | [] => (Work (last g) (Done (Raise StopIteration)), exhausted)
  end.
(** What the user of the generator sees: an item, a call of on_timeout. *)
Inductive event := EYield (z : Z) | ETimeout.

Section Loops.
  (** How long the user takes for an item. *)
  Variable pause : Z -> nat.
  Definition wait (w : world) (v : Z) : world := mkW (time w + pause v) (alarm w) (handler w).

  (** 23-43: retry_on_timeout; [attempt k] is what the k-th call of gen gives; [fuel] bounds the calls of next. *)
  Fixpoint retry (fuel seconds : nat) (attempt : nat -> gen) (k : nat) (it : gen) (w : world) : list event * world * py unit :=
    match fuel with
    | O => ([], w, NoEnd)
    | S f =>
        let (p, it') := next it in
        let (w', r) := catch_timeout seconds p w in
        match r with
        | Ret (VPair (Some (VItem v)) false) => let '(es, w2, e) := retry f seconds attempt k it' (wait w' v) in (EYield v :: es, w2, e)
        | Ret (VPair _ _) => let '(es, w2, e) := retry f seconds attempt (S k) (attempt (S k)) w' in (ETimeout :: es, w2, e)
        | Ret (VItem _) => ([], w', NoEnd)
        | Raise StopIteration => ([], w', Ret tt)
        | Raise e => ([], w', Raise e)
        | NoEnd => ([], w', NoEnd)
        end
    end.
  Definition retry_on_timeout (fuel seconds : nat) (attempt : nat -> gen) (w : world) := retry fuel seconds attempt 0 (attempt 0) w.
  (** 46-59: skip_on_timeout. *)
  Fixpoint skip_on_timeout (fuel seconds : nat) (it : gen) (w : world) : list event * world * py unit :=
    match fuel with
    | O => ([], w, NoEnd)
    | S f =>
        let (p, it') := next it in
        let (w', r) := catch_timeout seconds p w in
        match r with
        | Ret (VPair (Some (VItem v)) false) => let '(es, w2, e) := skip_on_timeout f seconds it' (wait w' v) in (EYield v :: es, w2, e)
        | Ret (VPair _ _) => skip_on_timeout f seconds exhausted w'
        | Ret (VItem _) => ([], w', NoEnd)
        | Raise StopIteration => ([], w', Ret tt)
        | Raise e => ([], w', Raise e)
        | NoEnd => ([], w', NoEnd)
        end
    end.
End Loops.

(** conditional_try.py 4-14: [result] is what calling the function does.  KeyboardInterrupt is not an Exception. *)
Definition conditional_try {A} (should_catch : bool) (result : py A) (value_on_exception : A) : py A :=
  if should_catch then match result with Raise KeyboardInterrupt => result | Raise _ => Ret value_on_exception | _ => result end else result.
