(** Model of include/arc_utilities/simple_kmeans_clustering.hpp.  Distances are costs (Cost.v); distance_fn and
    average_fn are arguments, and average_fn is a total function, also of the empty cluster it may be called with.
    A label is a nat; None stands for (uint32_t)-1, which is no label because num_clusters < 2^32 - 1 (126).
    The random draws are a sequence [draw]. *)
From Verif Require Import Base Cost.

Section K.
Context {C : cost} {D : Type}.
Variable dbg : bool.
Variable dist : D -> D -> C.           (* distance_fn(center, item) *)

Notation label := (option nat).

(** 24-39 GetClosestCluster *)
Definition closest_step (x : D) (acc : C * label) (p : nat * D) : C * label :=
  let d := dist (snd p) x in if cltb d (fst acc) then (d, Some (fst p)) else acc.
Definition enumerate {A} (l : list A) : list (nat * A) := combine (seq 0 (length l)) l.
Definition get_closest (centers : list D) (x : D) : outcome label :=
  let best := snd (fold_left (closest_step x) (enumerate centers) (cinf, None)) in
  cassert dbg (match best with Some _ => true | None => false end) (Ok best).

(** 42-53 PerformSingleClusteringIteration *)
Fixpoint label_all (centers : list D) (data : list D) : outcome (list label) :=
  match data with
  | [] => Ok []
  | x :: data' => let! l := get_closest centers x in let! ls := label_all centers data' in Ok (l :: ls)
  end.

(** 61-66, 85-94: push every item on the list of its label; a label out of range is undefined behaviour. *)
Fixpoint distribute {A} (acc : list (list A)) (data : list A) (labels : list label) : outcome (list (list A)) :=
  match data, labels with
  | [], _ => Ok acc
  | x :: data', Some l :: labels' =>
      match nth_error acc l with
      | Some c => distribute (upd acc l (c ++ [x])) data' labels'
      | None => UB
      end
  | _ :: _, _ => UB
  end.
(** 56-74 ComputeClusterCenters; 77-104 ComputeClusterCentersWeighted is the same with A = item and weight. *)
Definition compute_centers {A} (avg : list A -> D) (data : list A) (labels : list label) (k : nat) : outcome (list D) :=
  cassert dbg (length data =? length labels)
    (let! cs := distribute (repeat [] k) data labels in Ok (map avg cs)).

(** 106-116 CheckForConvergence (both vectors have data.size() elements) *)
Fixpoint converged (a b : list label) : bool :=
  match a, b with
  | x :: a', y :: b' =>
      match x, y with
      | Some i, Some j => i =? j
      | None, None => true
      | _, _ => false
      end && converged a' b'
  | _, _ => true
  end.

(** The items given to the averaging function: the data themselves, or the data with their weights. *)
Context {A : Type} (item : A -> D) (avg : list A -> D).

(** 134-143, 239-248: the loop *)
Fixpoint kmeans_loop (fuel : nat) (data : list A) (k : nat) (labels : list label) : outcome (list label * list D) :=
  match fuel with
  | O => NoFuel
  | S f =>
      let! centers := compute_centers avg data labels k in
      let! labels' := label_all centers (map item data) in
      if converged labels labels' then Ok (labels', centers) else kmeans_loop f data k labels'
  end.
(** 120-146 Cluster, 226-251 ClusterWeighted with given initial centers *)
Definition kmeans (fuel : nat) (data : list A) (centers : list D) : outcome (list label * list D) :=
  let! labels := label_all centers (map item data) in kmeans_loop fuel data (length centers) labels.

(** 186-190, 207-211: std::map of the indices drawn, in increasing order. *)
Fixpoint insert (i : nat) (l : list nat) : list nat :=
  match l with
  | [] => [i]
  | j :: l' => if i <? j then i :: l else if j <? i then j :: insert i l' else l
  end.
Fixpoint select (fuel : nat) (draw : nat -> nat) (t : nat) (m : nat) (chosen : list nat) : outcome (list nat) :=
  if length chosen <? m then
    match fuel with O => NoFuel | S f => select f draw (S t) m (insert (draw t) chosen) end
  else Ok chosen.
Definition pick_items {B} (data : list B) (is : list nat) : list B :=
  flat_map (fun i => match nth_error data i with Some x => [x] | None => [] end) is.

(** 149-223 Cluster, 254-335 ClusterWeighted: choose initial centers at random, then run.  [subset data is] is the
    random subset with what the averaging function sees of it; [tenth n] is (size_t)ceil((double)n * 0.1).  The
    preliminary clustering (202) makes its own draws [draw2]. *)
Definition kmeans_simple (fuel : nat) (draw : nat -> nat) (data : list A) (k : nat) : outcome (list label) :=
  cassert dbg (0 <? length data) (cassert dbg (0 <? k)
    (if k =? 1 then Ok (repeat (Some 0) (length data))
     else let! is := select fuel draw 0 k [] in
          let! r := kmeans fuel data (pick_items (map item data) is) in Ok (fst r))).
Definition kmeans_random (fuel : nat) (draw draw2 : nat -> nat) (tenth : nat -> nat) (subset : list A -> list nat -> list A)
    (data : list A) (k : nat) (prelim : bool) : outcome (list label) :=
  if prelim && (k * 5 <=? tenth (length data)) && negb (k =? 1) then
    cassert dbg (0 <? length data) (cassert dbg (0 <? k)
      (let! is := select fuel draw 0 (tenth (length data)) [] in
       let sub := subset data is in
       let! ls := kmeans_simple fuel draw2 sub k in
       let! centers := compute_centers avg sub ls k in
       let! r := kmeans fuel data centers in Ok (fst r)))
  else kmeans_simple fuel draw data k.
End K.

(** 184-199: the unweighted random subset. *)
Definition subset_plain {D} (data : list D) (is : list nat) : list D := pick_items data is.
(** 293-315: the weighted one: the items drawn, but the weights of the whole data set, read from the start (312, 315). *)
Definition subset_weighted {D W} (data : list (D * W)) (is : list nat) : list (D * W) :=
  combine (pick_items (map fst data) is) (map snd data).
