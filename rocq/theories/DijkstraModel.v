(** Model of SimpleDijkstrasAlgorithm::PerformDijkstrasAlgorithm, include/arc_utilities/dijkstras.hpp:30-90.
    Weights and distances are costs [C] (double in the code); the priority queue [Q] is any implementation.
    Loops with a data-dependent number of rounds take fuel. *)
From Verif Require Import Base Cost GraphModel.

(** dijkstras.hpp:16-22 CompareIndexFn: of two queue entries the one with the smaller cost comes out first. *)
Definition entry_before {C : cost} (x y : Z * C) : bool := cltb (snd x) (snd y).

Section Dijkstra.
Context {V : Type} {C : cost} (Q : pqueue (Z * C)).
Implicit Types (g : graph V C).

(** The local variables of the loop.  [d_work] are the distances stored in the nodes of working_copy
    (the only part of working_copy that changes), [d_dist] is [distances], [d_prev] is [previous_index_map],
    [d_expl] is [explored] (> 0). *)
Record dstate := mkD { d_work : list C; d_dist : list C; d_prev : list Z; d_expl : list bool; d_queue : list (Z * C) }.

(** dijkstras.hpp:60-84, the loop over the in edges of the popped node; [getNode] throws when out of range. *)
Fixpoint relax_edges (n : nat) (top : Z) (top_dist : C) (es : list (edge C)) (s : dstate) : outcome dstate :=
  match es with
  | [] => Ok s
  | e :: es' =>
      let nb := e_from e in
      let new_d := cadd top_dist (e_weight e) in
      if ((0 <=? nb) && (nb <? Z.of_nat n))%Z then
        match nth_error (d_work s) (Z.to_nat nb), nth_error (d_expl s) (Z.to_nat nb) with
        | Some stored, Some expl =>
            if cltb new_d stored then
              let queue' := if expl then d_queue s else pq_push Q (nb, new_d) (d_queue s) in
              relax_edges n top top_dist es'
                (mkD (upd (d_work s) (Z.to_nat nb) new_d) (upd (d_dist s) (Z.to_nat nb) new_d)
                     (upd (d_prev s) (Z.to_nat nb) top) (d_expl s) queue')
            else relax_edges n top top_dist es' s
        | _, _ => UB
        end
      else Throw OutOfRange
  end.

(** dijkstras.hpp:48-88, the main loop. *)
Fixpoint dijkstra_loop (fuel : nat) g (s : dstate) : outcome dstate :=
  match pq_pop Q (d_queue s) with
  | None => Ok s
  | Some ((top, top_dist), queue') =>
      match fuel with
      | O => NoFuel
      | S fuel' =>
          let s := mkD (d_work s) (d_dist s) (d_prev s) (d_expl s) queue' in
          match nth_error (d_expl s) (Z.to_nat top) with
          | Some true => dijkstra_loop fuel' g s
          | Some false =>
              let s := mkD (d_work s) (d_dist s) (d_prev s) (upd (d_expl s) (Z.to_nat top) true) (d_queue s) in
              let! n := get_node g top in
              let! s := relax_edges (length g) top top_dist (n_in n) s in
              dijkstra_loop fuel' g s
          | None => UB
          end
      end
  end.

(** Rounds needed: one per initial queue entry and one per edge. *)
Definition in_degree_sum g : nat := list_sum (map (fun n => length (n_in n)) g).

(** dijkstras.hpp:30-90; the result is working_copy with its new distances, the previous indices, the distances. *)
Definition dijkstra g (start : Z) : outcome (graph V C * (list Z * list C)) :=
  if ((start <? 0) || (gsize g <=? start))%Z then Throw InvalidArgument
  else
    let n := length g in
    let infs := repeat (cinf : C) n in
    let queue0 := fold_left (fun q i => pq_push Q (Z.of_nat i, cinf) q) (seq 0 n) [] in
    let s0 := mkD (upd infs (Z.to_nat start) czero) (upd infs (Z.to_nat start) czero)
                  (upd (repeat (-1)%Z n) (Z.to_nat start) start) (repeat false n)
                  (pq_push Q (start, czero) queue0) in
    let! s := dijkstra_loop (n + 1 + in_degree_sum g) g s0 in
    Ok (map (fun nd => mkNode (n_value (fst nd)) (snd nd) (n_in (fst nd)) (n_out (fst nd))) (combine g (d_work s)),
        (d_prev s, d_dist s)).

End Dijkstra.
