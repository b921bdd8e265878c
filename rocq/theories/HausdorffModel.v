(** Model of include/arc_utilities/simple_hausdorff_distance.hpp. *)
From Verif Require Import Base Cost.

Section Hausdorff.
Context {C : cost} {A B : Type}.
Variable dist : A -> B -> C.

(** simple_hausdorff_distance.hpp 54-61: the smallest distance from one item. *)
Definition min_distance (x : A) (second : list B) : C :=
  fold_left (fun m y => if cltb (dist x y) m then dist x y else m) second cinf.
(** 71-73 and 78-80: keep the larger value. *)
Definition keep_max (stored v : C) : C := if cltb stored v then v else stored.
(** 43-82: ComputeDistance.  [schedule] lists, for each OpenMP thread, the iterations of the loop it executes, in order;
    each thread only touches its own storage, so interleavings of threads do not matter.  Iterations past the end of
    [first] do not happen.  Without OpenMP there is one thread. *)
Definition hausdorff (schedule : list (list nat)) (first : list A) (second : list B) : C :=
  let per_thread := map (fun iterations => fold_left keep_max
    (flat_map (fun idx => match nth_error first idx with Some x => [min_distance x second] | None => [] end) iterations) czero) schedule in
  fold_left keep_max per_thread czero.
End Hausdorff.
