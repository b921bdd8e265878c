(** Model of the A* searches: SimpleGraphAstar in include/arc_utilities/dijkstras.hpp:149-276 and
    GenericAstarSearch, ExtractAstarResult in include/arc_utilities/arc_helpers.hpp:660-819.
    Costs are any [C] (double in the code); the priority queue [Q] is any implementation; the user's callbacks
    are pure functions.  Loops with a data-dependent number of rounds take fuel. *)
From Verif Require Import Base Cost GraphModel.

(** std::unordered_map<int64_t, T> as an association list: find, assignment through operator[], erase. *)
Section Map.
Context {T : Type}.
Fixpoint m_find (k : Z) (m : list (Z * T)) : option T :=
  match m with [] => None | (k', v) :: m' => if (k' =? k)%Z then Some v else m_find k m' end.
Definition m_erase (k : Z) (m : list (Z * T)) : list (Z * T) := filter (fun kv => negb (fst kv =? k)%Z) m.
Definition m_set (k : Z) (v : T) (m : list (Z * T)) : list (Z * T) := (k, v) :: m_erase k m.
End Map.

Section Astar.
Context {C : cost}.

(** arc_helpers.hpp:668-688 AstarPQueueElement. *)
Record elem := mkElem { q_id : Z; q_back : Z; q_cost : C; q_value : C }.

(** arc_helpers.hpp:690-695 CompareAstarPQueueElementFn: the smaller value comes out first. *)
Definition elem_before (x y : elem) : bool := cltb (q_value x) (q_value y).

Definition explored_map := list (Z * (Z * C)).

(** "explored.count(id) && cost >= explored[id].second" (dijkstras.hpp:203, 222; arc_helpers.hpp:770-773,
    792-796). *)
Definition explored_better (ex : explored_map) (id : Z) (c : C) : bool :=
  match m_find id ex with Some (_, c') => cgeb c c' | None => false end.

(** "limit && members.count(id) && cost >= members[id]" (dijkstras.hpp:226-229; arc_helpers.hpp:798-803). *)
Definition member_better (limit : bool) (mem : list (Z * C)) (id : Z) (c : C) : bool :=
  if limit then match m_find id mem with Some c' => cgeb c c' | None => false end else false.

Variable Q : pqueue elem.

(** The loop over the children (dijkstras.hpp:211-233; arc_helpers.hpp:784-812).  [cs] lists the children
    whose edge passed the validity check, with the cost of the edge; [h] is heuristic_function, which may throw. *)
Fixpoint push_children (limit : bool) (h : Z -> outcome C) (ex : explored_map) (mem : list (Z * C))
  (nid : Z) (nc : C) (cs : list (Z * C)) (q : list elem) : outcome (list elem) :=
  match cs with
  | [] => Ok q
  | (child, w) :: cs' =>
      let cc := cadd nc w in
      if explored_better ex child cc then push_children limit h ex mem nid nc cs' q
      else if member_better limit mem child cc then push_children limit h ex mem nid nc cs' q
      else
        let! hv := h child in
        push_children limit h ex mem nid nc cs' (pq_push Q (mkElem child nid cc (cadd cc hv)) q)
  end.

(** dijkstras.hpp:187-235, the search loop of PerformLazyAstar; returns [explored]. *)
Fixpoint lazy_loop (fuel : nat) (limit : bool) (children : Z -> outcome (list (Z * C))) (h : Z -> outcome C)
  (goal : Z) (ex : explored_map) (mem : list (Z * C)) (q : list elem) : outcome explored_map :=
  match pq_pop Q q with
  | None => Ok ex
  | Some (n, q') =>
      match fuel with
      | O => NoFuel
      | S fuel' =>
          if (q_id n =? goal)%Z then Ok (m_set (q_id n) (q_back n, q_cost n) ex)
          else
            let mem := if limit then m_erase (q_id n) mem else mem in
            if explored_better ex (q_id n) (q_cost n) then lazy_loop fuel' limit children h goal ex mem q'
            else
              let ex := m_set (q_id n) (q_back n, q_cost n) ex in
              let! cs := children (q_id n) in
              let! q'' := push_children limit h ex mem (q_id n) (q_cost n) cs q' in
              lazy_loop fuel' limit children h goal ex mem q''
      end
  end.

(** arc_helpers.hpp:759-815, the search loop of GenericAstarSearch: the explored check comes before the goal
    check. *)
Fixpoint generic_loop (fuel : nat) (limit : bool) (children : Z -> outcome (list (Z * C))) (h : Z -> outcome C)
  (goal : Z) (ex : explored_map) (mem : list (Z * C)) (q : list elem) : outcome explored_map :=
  match pq_pop Q q with
  | None => Ok ex
  | Some (n, q') =>
      match fuel with
      | O => NoFuel
      | S fuel' =>
          let mem := if limit then m_erase (q_id n) mem else mem in
          if negb (explored_better ex (q_id n) (q_cost n)) then
            let ex := m_set (q_id n) (q_back n, q_cost n) ex in
            if (q_id n =? goal)%Z then Ok ex
            else
              let! cs := children (q_id n) in
              let! q'' := push_children limit h ex mem (q_id n) (q_cost n) cs q' in
              generic_loop fuel' limit children h goal ex mem q''
          else generic_loop fuel' limit children h goal ex mem q'
      end
  end.

(** arc_helpers.hpp:715-727, the back-pointer loop of ExtractAstarResult: the indices pushed after the goal, in
    that order.  More rounds than the map has entries would mean a cycle, in which the code never stops. *)
Fixpoint extract_loop (fuel : nat) (ex : explored_map) (start : Z) (back : Z) : outcome (list Z) :=
  if (back <? 0)%Z then Ok []
  else if (back =? start)%Z then Ok [back]
  else match m_find back ex with
       | None => Throw OutOfRange
       | Some (back', _) =>
           match fuel with
           | O => NoFuel
           | S fuel' => let! r := extract_loop fuel' ex start back' in Ok (back :: r)
           end
       end.

(** arc_helpers.hpp:701-732 ExtractAstarResult. *)
Definition extract_result (ex : explored_map) (start goal : Z) : outcome (list Z * C) :=
  match m_find goal ex with
  | None => Ok ([], cinf)
  | Some (back, c) =>
      let! r := extract_loop (length ex) ex start back in
      Ok (rev (goal :: r), c)
  end.

(** dijkstras.hpp:149-238 PerformLazyAstar on a graph; [valid] and [dist] are the callbacks applied to the graph,
    [hfn] is the callback on node values. *)
Definition graph_children {V} (g : graph V C) (valid : edge C -> bool) (dist : edge C -> C) (i : Z)
  : outcome (list (Z * C)) :=
  let! n := get_node g i in
  Ok (map (fun e => (e_to e, dist e)) (filter valid (n_out n))).

Definition graph_heuristic {V} (g : graph V C) (hfn : V -> V -> C) (goal i : Z) : outcome C :=
  let! n := get_node g i in
  let! m := get_node g goal in
  Ok (hfn (n_value n) (n_value m)).

Definition lazy_astar {V} (fuel : nat) (g : graph V C) (start goal : Z) (valid : edge C -> bool)
  (dist : edge C -> C) (hfn : V -> V -> C) (limit : bool) : outcome (list Z * C) :=
  if ((start <? 0) || (gsize g <=? start))%Z then Throw InvalidArgument
  else if ((goal <? 0) || (gsize g <=? goal))%Z then Throw InvalidArgument
  else if (start =? goal)%Z then Throw InvalidArgument
  else
    let h := graph_heuristic g hfn goal in
    let! h0 := h start in
    let q := pq_push Q (mkElem start (-1) czero h0) [] in
    let mem := if limit then m_set start czero [] else [] in
    let! ex := lazy_loop fuel limit (graph_children g valid dist) h goal [] mem q in
    extract_result ex start goal.

(** dijkstras.hpp:240-256, the overload whose callbacks take node values. *)
Definition edge_values {V} (g : graph V C) (f : V -> V -> C) (e : edge C) : C :=
  match get_node g (e_from e), get_node g (e_to e) with
  | Ok a, Ok b => f (n_value a) (n_value b)
  | _, _ => cinf
  end.
Definition edge_valuesb {V} (g : graph V C) (f : V -> V -> bool) (e : edge C) : bool :=
  match get_node g (e_from e), get_node g (e_to e) with
  | Ok a, Ok b => f (n_value a) (n_value b)
  | _, _ => false
  end.
(** (An edge to a missing node makes getNode throw; here such an edge counts as invalid.  Consistently linked
    graphs have none.) *)
Definition lazy_astar_values {V} (fuel : nat) (g : graph V C) (start goal : Z) (valid : V -> V -> bool)
  (dist hfn : V -> V -> C) (limit : bool) : outcome (list Z * C) :=
  lazy_astar fuel g start goal (edge_valuesb g valid) (edge_values g dist) hfn limit.

(** dijkstras.hpp:258-276 PerformAstar: edges not marked invalid, of weight below infinity. *)
Definition usable_edge (e : edge C) : bool :=
  match e_valid e with INVALID => false | _ => cltb (e_weight e) cinf end.
Definition astar {V} (fuel : nat) (g : graph V C) (start goal : Z) (hfn : V -> V -> C) (limit : bool)
  : outcome (list Z * C) :=
  lazy_astar fuel g start goal usable_edge (@e_weight C) hfn limit.

(** arc_helpers.hpp:734-819 GenericAstarSearch; all callbacks return normally. *)
Definition generic_astar (fuel : nat) (start goal : Z) (gen : Z -> list Z) (valid : Z -> Z -> bool)
  (dist hfn : Z -> Z -> C) (limit : bool) : outcome (list Z * C) :=
  if (start =? goal)%Z then Throw InvalidArgument
  else
    let h i := Ok (hfn i goal) in
    let children i := Ok (map (fun j => (j, dist i j)) (filter (valid i) (gen i))) in
    let q := pq_push Q (mkElem start (-1) czero (hfn start goal)) [] in
    let mem := if limit then m_set start czero [] else [] in
    let! ex := generic_loop fuel limit children h goal [] mem q in
    extract_result ex start goal.
End Astar.
Arguments elem C : clear implicits.
Arguments explored_map C : clear implicits.
