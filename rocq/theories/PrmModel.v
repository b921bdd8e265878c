(** Model of SimpleGeometricPrmPlanner, include/arc_utilities/simple_prm_planner.hpp.  Distances and weights are
    costs (Cost.v, double in the code); [dist] and [edge_ok] are the user's distance_fn and edge_validity_check_fn,
    pure functions.  A build with ENABLE_PARALLEL_ROADMAP is described by the schedule of the nearest-neighbour
    search; the other parallel loop (60-83) writes one slot per iteration and reads nothing that is written, so its
    result does not depend on the schedule and it is modelled in order. *)
From Verif Require Import Base Cost GraphModel KnnModel DijkstraModel AstarModel WalkModel.

(** 19 NNDistanceDirection *)
Inductive direction := RoadmapToNew | NewToRoadmap.

(** Run [f] on every element, in order. *)
Fixpoint mapM {A B} (f : A -> outcome B) (l : list A) : outcome (list B) :=
  match l with [] => Ok [] | x :: l' => let! y := f x in let! ys := mapM f l' in Ok (y :: ys) end.

Section Prm.
Context {V : Type} {C : cost}.
Variable dbg : bool.
Variable isinf : C -> bool.
Variable dist : V -> V -> C.
Variable edge_ok : V -> V -> bool.
Implicit Types (g : graph V C).

(** 28-37 *)
Definition graph_distance (dir : direction) (state : V) (n : node V C) : C :=
  match dir with RoadmapToNew => dist (n_value n) state | NewToRoadmap => dist state (n_value n) end.

(** 39-45: serial, or parallel with a schedule. *)
Definition neighbors (sched : option (list (list nat))) (dir : direction) g (state : V) (K : nat) : list (Z * C) :=
  match sched with
  | None => knn_serial (graph_distance dir state) g K
  | Some s => knn_parallel isinf (graph_distance dir state) s g K
  end.

(** "d == 0.0" (50), for doubles the same as d >= 0.0 and not 0.0 < d. *)
Definition is_zero (d : C) : bool := cgeb d czero && negb (cltb czero d).

(** 62-83, one iteration; None is the pair (-1.0, -1.0).  Without assertions the last branch (76-77) leaves the
    pair value-initialized to (0.0, 0.0).  getNode throws for index -1. *)
Definition neighbor_distances (dir : direction) g (state : V) (symmetric : bool) (nb : Z * C) : outcome (option (C * C)) :=
  let! n := get_node g (fst nb) in
  if edge_ok (n_value n) state then
    if symmetric then Ok (Some (snd nb, snd nb))
    else
      let reverse := dist state (n_value n) in
      match dir with
      | RoadmapToNew => Ok (Some (snd nb, reverse))
      | NewToRoadmap => if dbg then AssertFail else Ok (Some (czero, czero))
      end
  else Ok None.

(** 85-94 *)
Fixpoint connect g (new : Z) (l : list ((Z * C) * option (C * C))) : graph V C * outcome unit :=
  match l with
  | [] => (g, Ok tt)
  | (nb, Some (d1, d2)) :: l' =>
      if cgeb d1 czero && cgeb d2 czero then
        match add_edge g (fst nb) new d1 with
        | (g1, Ok _) =>
            match add_edge g1 new (fst nb) d2 with
            | (g2, Ok _) => connect g2 new l'
            | (g2, Throw x) => (g2, Throw x)
            | (g2, _) => (g2, UB)
            end
        | (g1, Throw x) => (g1, Throw x)
        | (g1, _) => (g1, UB)
        end
      else connect g new l'
  | (_, None) :: l' => connect g new l'
  end.

(** 22-96 AddNodeToRoadmap: the roadmap after the call and its outcome. *)
Definition add_node_to_roadmap sched (dir : direction) g (state : V) (K : nat) (symmetric duplicates : bool)
  : graph V C * outcome Z :=
  let nbs := neighbors sched dir g state K in
  match (if duplicates then None else find (fun nb => is_zero (snd nb)) nbs) with
  | Some nb => (g, Ok (fst nb))
  | None =>
      let g1 := g ++ [fresh_node cinf state] in
      let new := (gsize g1 - 1)%Z in
      match mapM (neighbor_distances dir g1 state symmetric) nbs with
      | Ok ds =>
          match connect g1 new (combine nbs ds) with
          | (g2, Ok _) => (g2, Ok new)
          | (g2, Throw x) => (g2, Throw x)
          | (g2, _) => (g2, UB)
          end
      | Throw x => (g1, Throw x)
      | AssertFail => (g1, AssertFail)
      | _ => (g1, UB)
      end
  end.

(** 112-126 ExtendRoadMap, 129-139 BuildRoadMap from the empty graph: the states sampled until the termination check
    succeeds, each with the schedule of its search for every number of nodes.  An exception ends the loop. *)
Fixpoint extend_roadmap g (samples : list ((nat -> option (list (list nat))) * V)) (state_ok : V -> bool) (K : nat)
  (symmetric duplicates : bool) : graph V C * outcome unit :=
  match samples with
  | [] => (g, Ok tt)
  | (sched, v) :: samples' =>
      if state_ok v then
        match add_node_to_roadmap (sched (length g)) RoadmapToNew g v K symmetric duplicates with
        | (g', Ok _) => extend_roadmap g' samples' state_ok K symmetric duplicates
        | (g', Throw x) => (g', Throw x)
        | (g', AssertFail) => (g', AssertFail)
        | (g', _) => (g', UB)
        end
      else extend_roadmap g samples' state_ok K symmetric duplicates
  end.

(** 142-175 UpdateRoadMapEdges.  The threads only write edge weights; a write is one assignment of a weight to the
    out edge or in edge number [k] of node [i]. *)
Inductive write := WOut (i k : nat) (w : C) | WIn (i k : nat) (w : C).
Definition set_weight (w : C) (e : edge C) : edge C := mkEdge (e_from e) (e_to e) w (e_valid e).
Definition upd_edge (l : list (edge C)) (k : nat) (w : C) : list (edge C) :=
  match nth_error l k with Some e => upd l k (set_weight w e) | None => l end.
Definition apply_write g (a : write) : graph V C :=
  match a with
  | WOut i k w => match nth_error g i with
      | Some n => upd g i (mkNode (n_value n) (n_dist n) (n_in n) (upd_edge (n_out n) k w)) | None => g end
  | WIn i k w => match nth_error g i with
      | Some n => upd g i (mkNode (n_value n) (n_dist n) (upd_edge (n_in n) k w) (n_out n)) | None => g end
  end.
(** 159-163 *)
Definition updated_weight (a b : V) : C := if edge_ok a b then dist a b else cinf.
(** The writes of one iteration of the outer loop (151-174) in order; nothing they read is written by the loop.
    getNode throws when the other node does not exist. *)
Definition edge_writes g (i : nat) (n : node V C) (ke : nat * edge C) : outcome (list write) :=
  let! m := get_node g (e_to (snd ke)) in
  let w := updated_weight (n_value n) (n_value m) in
  Ok (WOut i (fst ke) w ::
      flat_map (fun p => if (e_from (snd p) =? Z.of_nat i)%Z then [WIn (Z.to_nat (e_to (snd ke))) (fst p) w] else [])
               (combine (seq 0 (length (n_in m))) (n_in m))).
Definition node_writes g (p : nat * node V C) : outcome (list write) :=
  let! l := mapM (edge_writes g (fst p) (snd p)) (combine (seq 0 (length (n_out (snd p)))) (n_out (snd p))) in
  Ok (concat l).
(** The writes of every iteration. *)
Definition all_writes g : outcome (list (list write)) := mapM (node_writes g) (combine (seq 0 (length g)) g).
(** Serial run. *)
Definition update_roadmap g : outcome (graph V C) :=
  if check_graph_linkage g then let! ws := all_writes g in Ok (fold_left apply_write (concat ws) g)
  else Throw InvalidArgument.

(** 202-209: the nearest of the start nodes; index -1 and infinity if none is below infinity.  An index outside
    the table is undefined behaviour. *)
Fixpoint best_start (starts : list Z) (distances : list C) (best : Z * C) : outcome (Z * C) :=
  match starts with
  | [] => Ok best
  | s :: starts' =>
      match (if (s <? 0)%Z then None else nth_error distances (Z.to_nat s)) with
      | Some d => best_start starts' distances (if cltb d (snd best) then (s, d) else best)
      | None => UB
      end
  end.
(** 216-227: follow the previous indices to the goal. *)
Fixpoint follow (fuel : nat) (prev : list Z) (goal cur : Z) : outcome (list Z) :=
  if (cur <? 0)%Z then Ok []
  else if (cur =? goal)%Z then Ok [cur]
  else match fuel with
       | O => NoFuel
       | S f => match nth_error prev (Z.to_nat cur) with
                | Some p => let! r := follow f prev goal p in Ok (cur :: r)
                | None => UB
                end
       end.
(** 99-109 ExtractSolutionPath *)
Definition extract_path g (path : list Z) : outcome (list V) :=
  mapM (fun i => let! n := get_node g i in Ok (n_value n)) path.

(** 185-190: add the start nodes; each call has its own schedule. *)
Fixpoint add_starts (scheds : list (nat -> option (list (list nat)))) g (starts : list V) (K : nat) (symmetric duplicates : bool)
  : graph V C * outcome (list Z) :=
  match starts with
  | [] => (g, Ok [])
  | s :: starts' =>
      match add_node_to_roadmap (hd (fun _ => None) scheds (length g)) NewToRoadmap g s K symmetric duplicates with
      | (g1, Ok i) =>
          match add_starts (tl scheds) g1 starts' K symmetric duplicates with
          | (g2, Ok is) => (g2, Ok (i :: is))
          | r => r
          end
      | (g1, Throw x) => (g1, Throw x)
      | (g1, AssertFail) => (g1, AssertFail)
      | (g1, _) => (g1, UB)
      end
  end.

(** 178-231 QueryPathAndAddNodesMultiStartSingleGoal; 342-350 QueryPathMultiStartSingleGoal is the same on a copy. *)
Definition query_multi_start (Q : pqueue (Z * C)) (fuel : nat) scheds sched_goal g (starts : list V) (goal : V) (K : nat)
    (symmetric duplicates : bool) : graph V C * outcome (list V * C) :=
  match add_starts scheds g starts K symmetric duplicates with
  | (g1, Ok is) =>
      match add_node_to_roadmap (sched_goal (length g1)) RoadmapToNew g1 goal K symmetric duplicates with
      | (g2, Ok gi) =>
          (g2,
           let! sol := dijkstra Q g2 gi in
           let! best := best_start is (snd (snd sol)) ((-1)%Z, cinf) in
           if isinf (snd best) then Ok ([], cinf)
           else match nth_error (fst (snd sol)) (Z.to_nat (fst best)) with
                | None => UB
                | Some p =>
                    let! rest := follow fuel (fst (snd sol)) gi p in
                    let! path := extract_path g2 (fst best :: rest) in
                    Ok (path, snd best)
                end)
      | (g2, Throw x) => (g2, Throw x)
      | (g2, AssertFail) => (g2, AssertFail)
      | (g2, _) => (g2, UB)
      end
  | (g1, Throw x) => (g1, Throw x)
  | (g1, AssertFail) => (g1, AssertFail)
  | (g1, _) => (g1, UB)
  end.

(** 240-247, 272-278, 295-300: add the start and the goal. *)
Definition add_start_goal sched1 sched2 g (start goal : V) (K : nat) (symmetric duplicates : bool) : graph V C * outcome (Z * Z) :=
  match add_node_to_roadmap (sched1 (length g)) NewToRoadmap g start K symmetric duplicates with
  | (g1, Ok si) =>
      match add_node_to_roadmap (sched2 (length g1)) RoadmapToNew g1 goal K symmetric duplicates with
      | (g2, Ok gi) => (g2, Ok (si, gi))
      | (g2, Throw x) => (g2, Throw x)
      | (g2, AssertFail) => (g2, AssertFail)
      | (g2, _) => (g2, UB)
      end
  | (g1, Throw x) => (g1, Throw x)
  | (g1, AssertFail) => (g1, AssertFail)
  | (g1, _) => (g1, UB)
  end.
(** 234-262 QueryPathAndAddNodesSingleStartSingleGoal, 353-363 on a copy *)
Definition query_single (Q : pqueue (elem C)) (fuel : nat) sched1 sched2 g (start goal : V) (K : nat)
    (symmetric duplicates limit : bool) : graph V C * outcome (list V * C) :=
  let r := add_start_goal sched1 sched2 g start goal K symmetric duplicates in
  (fst r,
   let! ends := snd r in
   let! res := astar Q fuel (fst r) (fst ends) (snd ends) dist limit in
   let! path := extract_path (fst r) (fst res) in Ok (path, snd res)).
(** 265-287 LazyQueryPathAndAddNodesSingleStartSingleGoal, 366-376 on a copy *)
Definition query_lazy (Q : pqueue (elem C)) (fuel : nat) sched1 sched2 g (start goal : V) (K : nat)
    (symmetric duplicates limit : bool) : graph V C * outcome (list V * C) :=
  let r := add_start_goal sched1 sched2 g start goal K symmetric duplicates in
  (fst r,
   let! ends := snd r in
   let! res := lazy_astar_values Q fuel (fst r) (fst ends) (snd ends) edge_ok dist dist limit in
   let! path := extract_path (fst r) (fst res) in Ok (path, snd res)).
(** 290-308 QueryPathAndAddNodesSingleStartSingleGoalRandomWalk; the total distance is C-valued: the sum of the
    distances of consecutive states (math_helpers.hpp:237-244). *)
Fixpoint total_distance_from (acc : C) (p : list V) : C :=
  match p with a :: (b :: _) as p' => total_distance_from (cadd acc (dist a b)) p' | _ => acc end.
Definition query_walk (draws : list nat) sched1 sched2 g (start goal : V) (K : nat) (symmetric : bool)
  : graph V C * outcome (list V * C) :=
  let r := add_start_goal sched1 sched2 g start goal K symmetric false in
  (fst r,
   let! ends := snd r in
   let! w := random_walk (fst r) (fst ends) (snd ends) draws in
   let! path := extract_path (fst r) w in Ok (path, total_distance_from czero path)).

(** 313-339 QueryPathMultiStartMultiGoal: every goal on its own copy; the best of the solutions. *)
Definition better_solution (best : C * option (list V * C)) (sol : list V * C) : C * option (list V * C) :=
  if cltb (snd sol) (fst best) then (snd sol, Some sol) else best.
Definition query_multi_goal (Q : pqueue (Z * C)) (fuel : nat) g (starts : list V)
    (goals : list (list (nat -> option (list (list nat))) * (nat -> option (list (list nat))) * V)) (K : nat) (symmetric duplicates : bool) : outcome (list V * C) :=
  let! sols := mapM (fun p => snd (query_multi_start Q fuel (fst (fst p)) (snd (fst p)) g starts (snd p) K symmetric duplicates)) goals in
  match fold_left better_solution sols (cinf, None) with
  | (d, Some sol) => if cltb d cinf then Ok sol else Ok ([], cinf)
  | (_, None) => Ok ([], cinf)
  end.
End Prm.
Arguments write : clear implicits.
