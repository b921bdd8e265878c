(** Model of include/arc_utilities/simple_hierarchical_clustering.hpp.  Distances are costs (Cost.v).  An index that
    may be -1 is an [option nat], None being -1. *)
From Verif Require Import Base Cost.

(** 21 CLUSTER_STRATEGY *)
Inductive strategy := SingleLink | CompleteLink.
(** std::pair<bool, int64_t>: is it a cluster, and the index of the point or cluster. *)
Definition element := (bool * option nat)%type.

Section M.
Context {C : cost}.
Variable dm : nat -> nat -> C.        (* the distance matrix *)
Variable strat : strategy.

(** std::max and std::min as defined by the standard. *)
Definition dmax (a b : C) : C := if cltb a b then b else a.
Definition dmin (a b : C) : C := if cltb b a then b else a.

(** 78-86, 161-174: the linkage distance given all pairwise distances. *)
Definition link_of (ds : list C) : C :=
  match strat with CompleteLink => fold_left dmax ds czero | SingleLink => fold_left dmin ds cinf end.

(** [if (d < best) { best = d; best_index = a; }] *)
Definition keep_min {A} (acc : C * A) (x : C * A) : C * A := if cltb (fst x) (fst acc) then x else acc.

(** datapoint_mask[i] == 0 *)
Definition free (mask : list bool) (i : nat) : bool := negb (nth i mask true).
Definition nonempty {A} (l : list A) : bool := match l with [] => false | _ => true end.
Definition cluster_at (clusters : list (list nat)) (c : nat) : list nat := nth c clusters [].

Section Pair.
Variable mask : list bool.
Variable clusters : list (list nat).

(** 58-70: closest other unclustered point *)
Definition point_point (i : nat) : C * option nat :=
  fold_left (fun acc j => if negb (i =? j) && free mask j then keep_min acc (dm i j, Some j) else acc)
    (seq 0 (length mask)) (cinf, None).
(** 72-93: closest cluster *)
Definition point_cluster (i : nat) : C * option nat :=
  fold_left (fun acc c => if nonempty (cluster_at clusters c)
                          then keep_min acc (link_of (map (dm i) (cluster_at clusters c)), Some c) else acc)
    (seq 0 (length clusters)) (cinf, None).

(** 54-128: one iteration of the loop over points; the accumulator is min_distance and min_element_pair (serial) or
    the entries of the executing thread (parallel). *)
Definition acc1 := (C * (option nat * element))%type.
Definition acc1_init : acc1 := (cinf, (None, (false, None))).
Definition point_step (acc : acc1) (i : nat) : acc1 :=
  if free mask i then
    let pp := point_point i in
    let pc := point_cluster i in
    let acc := keep_min acc (fst pp, (Some i, (false, snd pp))) in
    keep_min acc (fst pc, (Some i, (true, snd pc)))
  else acc.

(** 150-195: one iteration of the outer loop over clusters. *)
Definition acc2 := (C * (option nat * option nat))%type.
Definition acc2_init : acc2 := (cinf, (None, None)).
Definition cluster_step (acc : acc2) (fc : nat) : acc2 :=
  if nonempty (cluster_at clusters fc) then
    fold_left (fun acc sc =>
        if negb (fc =? sc) && nonempty (cluster_at clusters sc) then
          keep_min acc (link_of (flat_map (fun x => map (dm x) (cluster_at clusters sc)) (cluster_at clusters fc)),
                        (Some fc, Some sc))
        else acc)
      (seq 0 (length clusters)) acc
  else acc.

(** 208-227 *)
Definition pick (a : acc1) (b : acc2) : C * (element * element) :=
  if cltb (fst a) (fst b) then (fst a, ((false, fst (snd a)), snd (snd a)))
  else (fst b, ((true, fst (snd b)), (true, snd (snd b)))).

(** 38-228 GetClosestPair, serial build. *)
Definition closest_serial : C * (element * element) :=
  pick (fold_left point_step (seq 0 (length mask)) acc1_init)
       (fold_left cluster_step (seq 0 (length clusters)) acc2_init).
(** 38-228 GetClosestPair, parallel build: s1 and s2 list, for each thread, the iterations it executes of the two
    parallel loops; each thread only touches its own entries, which are then combined in thread order (132-139,
    199-206). *)
Definition closest_parallel (s1 s2 : list (list nat)) : C * (element * element) :=
  pick (fold_left keep_min (map (fun is => fold_left point_step is acc1_init) s1) acc1_init)
       (fold_left keep_min (map (fun is => fold_left cluster_step is acc2_init) s2) acc2_init).
End Pair.

Definition is_some {A} (o : option A) : bool := match o with Some _ => true | None => false end.
Definition state := (list bool * list (list nat))%type.

(** 263-314: merging the two closest elements.  Index -1, or an index out of range, used as a subscript is undefined
    behaviour; so is inserting a vector into itself. *)
Definition merge (dbg : bool) (s : state) (e1 e2 : element) : outcome state :=
  let '(mask, clusters) := s in
  match e1, e2 with
  | (false, a), (false, b) =>
      cassert dbg (is_some a) (cassert dbg (is_some b)
        (match a, b with
         | Some i, Some j =>
             if (i <? length mask) && (j <? length mask)
             then Ok (upd (upd mask i true) j true, clusters ++ [[i; j]]) else UB
         | _, _ => UB
         end))
  | (true, a), (true, b) =>
      cassert dbg (is_some a) (cassert dbg (is_some b)
        (match a, b with
         | Some i, Some j =>
             match nth_error clusters i, nth_error clusters j with
             | Some ci, Some cj => if i =? j then UB else Ok (mask, upd (upd clusters i (ci ++ cj)) j [])
             | _, _ => UB
             end
         | _, _ => UB
         end))
  | (b1, x1), (b2, x2) =>
      let '(c, x) := if b1 : bool then (x1, x2) else (x2, x1) in
      cassert dbg (is_some c) (cassert dbg (is_some x)
        (match c, x with
         | Some c, Some x =>
             match nth_error clusters c with
             | Some cl => if x <? length mask then Ok (upd mask x true, upd clusters c (cl ++ [x])) else UB
             | None => UB
             end
         | _, _ => UB
         end))
  end.

(** 252-318: the main loop.  [closest it] is GetClosestPair in iteration it; [maxd] is max_cluster_distance. *)
Fixpoint loop (dbg : bool) (closest : nat -> list bool -> list (list nat) -> C * (element * element)) (maxd : C)
    (fuel it : nat) (s : state) : outcome (state * C) :=
  match fuel with
  | O => NoFuel
  | S f =>
      let '(d, (e1, e2)) := closest it (fst s) (snd s) in
      if cgeb maxd d then let! s' := merge dbg s e1 e2 in loop dbg closest maxd f (S it) s'
      else Ok (s, d)
  end.

(** 319-339: the clusters of data items. *)
Definition items {D} (data : list D) (is : list nat) : list D :=
  flat_map (fun i => match nth_error data i with Some x => [x] | None => [] end) is.
Definition extract {D} (data : list D) (s : state) : list (list D) :=
  map (items data) (filter nonempty (snd s)) ++
  map (fun i => items data [i]) (filter (free (fst s)) (seq 0 (length (fst s)))).

(** 245-341 Cluster, for a distance matrix of the right size (248-249).  The fuel is never exhausted (C34). *)
Definition cluster {D} (dbg : bool) (closest : nat -> list bool -> list (list nat) -> C * (element * element)) (maxd : C)
    (data : list D) : outcome (list (list D) * C) :=
  let! r := loop dbg closest maxd (S (length data)) 0 (repeat false (length data), []) in
  Ok (extract data (fst r), snd r).
End M.
