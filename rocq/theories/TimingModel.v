(** Model of include/arc_utilities/timing.hpp and src/arc_utilities/timing.cpp. *)
From Verif Require Import Base Assoc.

(** timing.hpp 75-93: Stopwatch; the state is the start time.  One clock reading per call, an integer number of ticks;
    the conversion of the tick difference to seconds is left to the caller. *)
Inductive control := RESET | READ.
Definition stopwatch_call (start : Z) (c : control) (now : Z) : Z * Z :=
  let start := match c with RESET => now | READ => start end in (start, (now - start)%Z).

Section Profiler.
Variable K : Type.                       (* std::string *)
Variable eqb : K -> K -> bool.
Variable D : Type.                       (* double *)
Variable dzero : D.
Variable dadd : D -> D -> D.
Variable ddiv : D -> nat -> D.           (* division by a count *)
Variable dltb : D -> D -> bool.
Variable secs : Z -> D.                  (* std::chrono::duration<double>(...).count() *)

(** timing.hpp 139-143: the members; std::map as association lists.  The preallocated vectors' capacities are not
    modelled. *)
Record profiler := { timed : list (K * list (D * D)); data : list (K * list D); timers : list (K * Z); buffer : list (list D) }.
Definition initial : profiler := {| timed := []; data := []; timers := []; buffer := [] |}.

Definition has {T} (k : K) (m : list (K * T)) : bool := match a_find eqb k m with Some _ => true | None => false end.
(** std::map::operator[] on vectors: an absent key is inserted with an empty vector. *)
Definition at_ {T} (k : K) (m : list (K * list T)) : list T * list (K * list T) :=
  match a_find eqb k m with Some v => (v, m) | None => ([], a_set eqb k [] m) end.
Definition set_data (m : profiler) (d : list (K * list D)) : profiler := {| timed := timed m; data := d; timers := timers m; buffer := buffer m |}.

(** timing.cpp 25-33: reset_and_preallocate. *)
Definition reset_and_preallocate (m : profiler) (num_names : nat) : profiler :=
  {| timed := []; data := []; timers := timers m; buffer := firstn num_names (buffer m) ++ repeat [] (num_names - length (buffer m)) |}.
(** 55-61: startTimer; a new stopwatch is reset at once, so only the second of its two clock readings counts. *)
Definition start_timer (m : profiler) (k : K) (now : Z) : profiler :=
  let start := match a_find eqb k (timers m) with Some s => s | None => now end in
  {| timed := timed m; data := data m; timers := a_set eqb k (fst (stopwatch_call start RESET now)) (timers m); buffer := buffer m |}.
(** 35-41: reset. *)
Definition reset (m : profiler) (k : K) (now : Z) : profiler :=
  if has k (data m) then start_timer (set_data m (a_set eqb k [] (data m))) k now else m.
(** 43-53: addData. *)
Definition add_data (m : profiler) (k : K) (datum : D) : profiler :=
  let m :=
    if has k (data m) then m
    else match rev (buffer m) with
    | [] => set_data m (a_set eqb k [] (data m))
    | b :: rest => {| timed := timed m; data := a_set eqb k b (data m); timers := timers m; buffer := rev rest |}
    end in
  let (v, d) := at_ k (data m) in set_data m (a_set eqb k (v ++ [datum]) d).
(** 68-77: record. *)
Definition record_ (m : profiler) (k : K) (now : Z) : profiler * outcome D :=
  match a_find eqb k (timers m) with
  | None => (m, Throw LogicError)
  | Some s =>
      let (s, t) := stopwatch_call s READ now in
      (add_data {| timed := timed m; data := data m; timers := a_set eqb k s (timers m); buffer := buffer m |} k (secs t), Ok (secs t))
  end.
(** 79-92: recordDouble. *)
Definition record_double (m : profiler) (k : K) (datum : D) (now : Z) : profiler * outcome D :=
  let time_elapsed := match a_find eqb k (timers m) with Some s => secs (snd (stopwatch_call s READ now)) | None => dzero end in
  let t := if has k (timed m) then timed m else a_set eqb k [] (timed m) in
  let (v, t) := at_ k t in
  ({| timed := a_set eqb k (v ++ [(time_elapsed, datum)]) t; data := data m; timers := timers m; buffer := buffer m |}, Ok time_elapsed).
(** 94-97: getData. *)
Definition get_data (m : profiler) (k : K) : profiler * list D := let (v, d) := at_ k (data m) in (set_data m d, v).

(** std::min_element and std::max_element: the first least and the first greatest element; dereferencing the end of an
    empty range is undefined. *)
Definition min_element (l : list D) : outcome D :=
  match l with [] => UB | x :: l => Ok (fold_left (fun b y => if dltb y b then y else b) l x) end.
Definition max_element (l : list D) : outcome D :=
  match l with [] => UB | x :: l => Ok (fold_left (fun b y => if dltb b y then y else b) l x) end.
(** 99-127: printSingleSummary: what is printed, [None] for "never called". *)
Record summary := { s_total : D; s_count : nat; s_min : D; s_max : D; s_avg : D }.
Definition print_single (m : profiler) (k : K) : profiler * outcome (option summary) :=
  if negb (has k (data m)) then (m, Ok None)
  else
    let (m, d) := get_data m k in
    let n := length d in
    let sum := fold_left dadd d dzero in
    (m, let! mn := min_element d in let! mx := max_element d in
        Ok (Some {| s_total := sum; s_count := n; s_min := mn; s_max := mx; s_avg := ddiv sum n |})).
(** 176-191: getAllNames; std::sort as any rearrangement [sort]. *)
Definition all_names (sort : list K -> list K) (m : profiler) : list K := sort (map fst (data m) ++ map fst (timed m)).
(** 284-340: writeAll: the lines written (name, time or datum, value). *)
Definition write_name (m : profiler) (limit : nat) (k : K) : list (K * D * option D) :=
  (match a_find eqb k (data m) with Some d => if (length d <? limit)%nat then map (fun v => (k, v, None)) d else [] | None => [] end) ++
  (match a_find eqb k (timed m) with Some d => if (length d <? limit)%nat then map (fun v => (k, fst v, Some (snd v))) d else [] | None => [] end).
Definition write_all (sort : list K -> list K) (m : profiler) (limit : nat) : outcome (list (K * D * option D)) :=
  match all_names sort m with [] => UB | names => Ok (flat_map (write_name m limit) names) end.

(** One call of the public interface at clock reading [now], with what it returns. *)
Inductive op := ResetAll (num_names : nat) | Reset (k : K) | AddData (k : K) (d : D) | StartTimer (k : K) | Record_ (k : K) | RecordDouble (k : K) (d : D) | GetData (k : K) | PrintSingle (k : K).
Inductive reply := RNone | RTime (d : D) | RData (l : list D) | RSummary (s : option summary).
Definition step (m : profiler) (o : op) (now : Z) : profiler * outcome reply :=
  match o with
  | ResetAll n => (reset_and_preallocate m n, Ok RNone)
  | Reset k => (reset m k now, Ok RNone)
  | AddData k d => (add_data m k d, Ok RNone)
  | StartTimer k => (start_timer m k now, Ok RNone)
  | Record_ k => let (m, r) := record_ m k now in (m, let! t := r in Ok (RTime t))
  | RecordDouble k d => let (m, r) := record_double m k d now in (m, let! t := r in Ok (RTime t))
  | GetData k => let (m, r) := get_data m k in (m, Ok (RData r))
  | PrintSingle k => let (m, r) := print_single m k in (m, let! s := r in Ok (RSummary s))
  end.
(** A history of calls, most recent first; a call that throws leaves the program running. *)
Fixpoint run (h : list (op * Z)) : profiler :=
  match h with [] => initial | (o, now) :: h => fst (step (run h) o now) end.
End Profiler.
