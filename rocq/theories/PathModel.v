(** Model of include/arc_utilities/path_utils.hpp. *)
From Coq Require Import Reals.
From Flocq Require Import Core.Raux.
From Verif Require Import Base HelpersModel.
Open Scope nat_scope.

(** ** ShortcutSmoothPath *)
(** What the generator yields in one iteration, given the current size of the path: the base index (34), and (36-40)
    the offset (int64_t)(size * fraction); [None] when that product does not fit int64_t, which is undefined. *)
Record draw := mkDraw { d_base : nat -> nat; d_offset : nat -> option Z }.

Definition int64_fits (z : Z) : bool := (- 2 ^ 63 <=? z)%Z && (z <? 2 ^ 63)%Z.

Section Shortcut.
Context {V : Type}.
Variable dbg : bool.
Variable valid : V -> V -> bool.      (* edge_validity_check_fn *)

(** path_utils.hpp 23-67.  [iters] and [failed] count down what is left of max_iterations and max_failed_iterations (the
    code counts up to them); one element of [draws] is used per iteration.  Also returned: the pairs that
    were checked, in order. *)
Fixpoint shortcut (draws : list draw) (iters failed : nat) (path : list V) : outcome (list V * list (V * V)) :=
  if (0 <? iters) && (0 <? failed) && (2 <? length path) then
    match draws with
    | [] => NoFuel
    | d :: draws =>
      let base := Z.of_nat (d_base d (length path)) in
      match d_offset d (length path) with
      | None => UB
      | Some off =>
        if int64_fits (base + off) then
          let! safe := clamp_value Z.ltb Z.leb dbg (base + off)%Z 0%Z (Z.of_nat (length path) - 1)%Z in
          let s := Z.to_nat (Z.min base safe) in
          let e := Z.to_nat (Z.max base safe) in
          if e <=? s + 1 then shortcut draws (iters - 1) failed path
          else
            match nth_error path s, nth_error path e with
            | Some x, Some y =>
              if valid x y then
                let! (p, checks) := shortcut draws (iters - 1) failed (firstn (s + 1) path ++ skipn e path) in Ok (p, (x, y) :: checks)
              else let! (p, checks) := shortcut draws (iters - 1) (failed - 1) path in Ok (p, (x, y) :: checks)
            | _, _ => UB
            end
        else UB
      end
    end
  else Ok (path, []).
End Shortcut.

(** ** ResamplePath, over the real numbers *)
Section Resample.
Context {V : Type}.
Variable dist : V -> V -> R.
Variable interp : V -> V -> R -> V.

(** 112-114: the number of segments: (uint32_t)ceil(distance / resolution).  A resolution of 0 gives an infinite or NaN
    quotient, and a value outside uint32_t cannot be converted: both undefined. *)
Definition num_segments (resolution d : R) : outcome nat :=
  if Req_EM_T resolution 0 then UB
  else let n := Zceil (d / resolution) in if (0 <=? n)%Z && (n <? 2 ^ 32)%Z then Ok (Z.to_nat n) else UB.
(** 116-130: the states added for one pair of waypoints. *)
Definition segment_states (x y : V) (n : nat) : list V :=
  match n with
  | 0 => []
  | 1 => [y]
  | _ => map (fun k => interp x y (INR k / INR n)) (seq 1 n)
  end.
(** 106-131: the loop over the waypoints [x :: rest]. *)
Fixpoint resample_loop (resolution : R) (x : V) (rest : list V) : outcome (list V) :=
  match rest with
  | [] => Ok []
  | y :: rest =>
    let! n := num_segments resolution (dist x y) in
    let! more := resample_loop resolution y rest in
    Ok (segment_states x y n ++ more)
  end.
(** 84-133: ResamplePathPartial. *)
Definition resample_partial (path : list V) (s e : nat) (resolution : R) : outcome (list V) :=
  if (e <=? s) || (length path <? e) then Throw InvalidArgument
  else
    match firstn (e - s) (skipn s path) with
    | [] => UB
    | [x] => Ok [x]
    | x :: rest => let! more := resample_loop resolution x rest in Ok (x :: more)
    end.
(** 137-142: ResamplePath. *)
Definition resample (path : list V) (resolution : R) : outcome (list V) := resample_partial path 0 (length path) resolution.
End Resample.

(** ** UpsamplePath *)
Section Upsample.
Context {V : Type}.
Context {T : Type}.                        (* double *)
Variable ltb : T -> T -> bool.             (* operator< *)
Variable dist : V -> V -> T.
Variable part : T -> nat -> T.             (* length / count *)
Context {Rt : Type}.
Variable ratio : nat -> nat -> Rt.         (* (double)i * (1.0 / (double)n) *)
Variable interp : V -> V -> Rt -> V.
Variable dflt : V.                         (* Configuration() *)
Variable dbg : bool.

(** operator< of std::pair<double, size_t>. *)
Definition pair_lt (p q : T * nat) : bool := ltb (fst p) (fst q) || (negb (ltb (fst q) (fst p)) && (snd p <? snd q)).
(** 184: the priority queue, as the list of its elements: top() is the greatest (197), which the order determines as
    long as no length is NaN; pop() removes it (198). *)
Fixpoint q_top (q : list (T * nat)) : option (T * nat) :=
  match q with
  | [] => None
  | p :: q => match q_top q with None => Some p | Some r => if pair_lt p r then Some r else Some p end
  end.
Fixpoint q_pop (q : list (T * nat)) : list (T * nat) :=
  match q with
  | [] => []
  | p :: q' => match q_top q' with None => [] | Some r => if pair_lt p r then p :: q_pop q' else q' end
  end.

(** 186-190: the segment lengths. *)
Fixpoint seg_lengths (pts : list V) : list T :=
  match pts with
  | x :: ((y :: _) as rest) => dist x y :: seg_lengths rest
  | _ => []
  end.
(** 195-206: splitting the largest segment, [k] times. *)
Fixpoint split_loop (k : nat) (lengths : list T) (q : list (T * nat)) (counts : list nat) : outcome (list nat) :=
  match k with
  | 0 => Ok counts
  | S k =>
    match q_top q with
    | None => UB
    | Some (_, i) =>
      match nth_error counts i, nth_error lengths i with
      | Some c, Some l => split_loop k lengths ((part l (c + 1), i) :: q_pop q) (upd counts i (c + 1))
      | _, _ => UB
      end
    end
  end.
(** 211-220: writing the points of the segments, from position [at_]. *)
Fixpoint write_all (out : list V) (at_ : nat) (vs : list V) : outcome (list V * nat) :=
  match vs with
  | [] => Ok (out, at_)
  | v :: vs => if at_ <? length out then write_all (upd out at_ v) (at_ + 1) vs else UB
  end.
Fixpoint write_segments (out : list V) (at_ : nat) (pts : list V) (counts : list nat) : outcome (list V * nat) :=
  match counts, pts with
  | [], _ => Ok (out, at_)
  | c :: counts, x :: ((y :: _) as rest) =>
    let! (out, at_) := write_all out at_ (map (fun i => interp x y (ratio i c)) (seq 0 c)) in
    write_segments out at_ rest counts
  | _, _ => UB
  end.
(** 160-228: UpsamplePathPartial.  Indices are ssize_t; path.size() is compared unsigned (166), so a negative end fails
    that assertion too. *)
Definition upsample_partial (path : list V) (s e n : Z) : outcome (list V) :=
  cassert dbg (s <? e)%Z (cassert dbg ((0 <=? e)%Z && (e <=? Z.of_nat (length path))%Z) (
  if (e - s =? n)%Z then Ok path
  else if (n <? e - s)%Z then Ok path
  else
    let segments := (e - s - 1)%Z in
    cassert dbg (0 <? segments)%Z (
    if (segments <? 0)%Z then Throw LengthError          (* std::vector of a negative size *)
    else if (s <? 0)%Z || (Z.of_nat (length path) <? e)%Z then UB    (* path[ind] *)
    else
      let pts := firstn (Z.to_nat (e - s)) (skipn (Z.to_nat s) path) in
      let lengths := seg_lengths pts in
      let! counts := split_loop (Z.to_nat (n - (e - s))) lengths (combine lengths (seq 0 (length lengths))) (repeat 1 (length lengths)) in
      let! (out, at_) := write_segments (repeat dflt (Z.to_nat n)) 0 pts counts in
      cassert dbg (at_ =? Z.to_nat n - 1) (
      match nth_error path (Z.to_nat (e - 1)) with
      | Some x => Ok (upd out (Z.to_nat n - 1) x)
      | None => UB
      end)))).
(** 232-237: UpsamplePath. *)
Definition upsample (path : list V) (n : Z) : outcome (list V) := upsample_partial path 0 (Z.of_nat (length path)) n.
End Upsample.
