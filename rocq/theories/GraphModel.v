(** Model of include/arc_utilities/graph.hpp.

    [V] is the node value type, [W] the type of weights and distances (double in the code; the graph class
    only stores and compares them).  Node indices are int64_t and modelled as [Z].  A vector never holds 2^63
    elements, so a negative index converted to size_t is larger than every vector size. *)
From Verif Require Import Base SerModel.
From Coq Require Import Strings.Byte.

(** graph.hpp:15 EDGE_VALIDITY *)
Inductive validity := VALID | INVALID | UNKNOWN.

(** graph.hpp:20-25 GraphEdge *)
Record edge (W : Type) := mkEdge { e_from : Z; e_to : Z; e_weight : W; e_valid : validity }.
Arguments mkEdge {W}. Arguments e_from {W}. Arguments e_to {W}. Arguments e_weight {W}. Arguments e_valid {W}.

(** graph.hpp:116-122 GraphNode *)
Record node (V W : Type) := mkNode { n_value : V; n_dist : W; n_in : list (edge W); n_out : list (edge W) }.
Arguments mkNode {V W}. Arguments n_value {V W}. Arguments n_dist {V W}. Arguments n_in {V W}. Arguments n_out {V W}.

(** graph.hpp:267-270 Graph *)
Definition graph (V W : Type) := list (node V W).

Section Graph.
Context {V W : Type}.
Implicit Types (g : graph V W) (n : node V W) (e : edge W).

(** [(int64_t)nodes_.size()] *)
Definition gsize g : Z := Z.of_nat (length g).

(** graph.hpp:365 indexInRange *)
Definition in_range g (i : Z) : bool := ((0 <=? i) && (i <? gsize g))%Z.

(** graph.hpp:464-466 getNode: [nodes_.at((size_t)index)], which throws when out of range. *)
Definition get_node g (i : Z) : outcome (node V W) :=
  if in_range g i then
    match nth_error g (Z.to_nat i) with Some n => Ok n | None => Throw OutOfRange end
  else Throw OutOfRange.

(** Assignment through the reference returned by getNode. *)
Definition set_node g (i : Z) n : graph V W := upd g (Z.to_nat i) n.

(** graph.hpp:218-220 addInEdge, addOutEdge *)
Definition add_in_edge n e : node V W := mkNode (n_value n) (n_dist n) (n_in n ++ [e]) (n_out n).
Definition add_out_edge n e : node V W := mkNode (n_value n) (n_dist n) (n_in n) (n_out n ++ [e]).

(** graph.hpp:233-249 getEdgeTo: the first out edge with that destination. *)
Definition get_edge_to n (other : Z) : outcome (edge W) :=
  match find (fun e => (e_to e =? other)%Z) (n_out n) with
  | Some e => Ok e
  | None => Throw InvalidArgument
  end.

(** graph.hpp:145 GraphNode(value): infinite distance, no edges. *)
Definition fresh_node (inf : W) (v : V) : node V W := mkNode v inf [] [].

(** Calls that change the graph return the new graph together with the outcome of the call, so that the state
    after an exception is visible. *)

(** graph.hpp:468-473 addNode *)
Definition add_node g n : graph V W * outcome Z := (g ++ [n], Ok (gsize (g ++ [n]) - 1)%Z).

(** graph.hpp:475-486 addEdgeBetweenNodes.  [from_node] and [to_node] are references to two different
    elements. *)
Definition add_edge g (from to : Z) (w : W) : graph V W * outcome (edge W) :=
  match get_node g from with
  | Ok from_node =>
      match get_node g to with
      | Ok _ =>
          if (from =? to)%Z then (g, Throw InvalidArgument)
          else
            let new_edge := mkEdge from to w UNKNOWN in
            let g1 := set_node g from (add_out_edge from_node new_edge) in
            match get_node g1 to with
            | Ok to_node =>
                let g2 := set_node g1 to (add_in_edge to_node new_edge) in
                (g2, let! n := get_node g2 from in get_edge_to n to)
            | _ => (g1, UB)
            end
      | Throw x => (g, Throw x)
      | _ => (g, UB)
      end
  | Throw x => (g, Throw x)
  | _ => (g, UB)
  end.

(** graph.hpp:488-494 addEdgesBetweenNodes.  The references stay valid and are copied at the end. *)
Definition add_edges g (first second : Z) (w : W) : graph V W * outcome (edge W * edge W) :=
  match add_edge g first second w with
  | (g1, Ok _) =>
      match add_edge g1 second first w with
      | (g2, Ok e2) => (g2, let! n := get_node g2 first in let! e1 := get_edge_to n second in Ok (e1, e2))
      | (g2, Throw x) => (g2, Throw x)
      | (g2, _) => (g2, UB)
      end
  | (g1, Throw x) => (g1, Throw x)
  | (g1, _) => (g1, UB)
  end.

(** graph.hpp:385-458 CheckGraphLinkage *)
Definition check_in_edge g (idx : Z) e : bool :=
  let from_index := e_from e in
  let to_index := e_to e in
  if ((from_index <? 0) || (gsize g <=? from_index))%Z then false
  else if negb (to_index =? idx)%Z then false
  else if (from_index =? to_index)%Z then false
  else match nth_error g (Z.to_nat from_index) with
       | Some from_node => existsb (fun o => (e_to o =? idx)%Z) (n_out from_node)
       | None => false
       end.
Definition check_out_edge g (idx : Z) e : bool :=
  let from_index := e_from e in
  let to_index := e_to e in
  if negb (from_index =? idx)%Z then false
  else if ((to_index <? 0) || (gsize g <=? to_index))%Z then false
  else if (from_index =? to_index)%Z then false
  else match nth_error g (Z.to_nat to_index) with
       | Some to_node => existsb (fun o => (e_from o =? idx)%Z) (n_in to_node)
       | None => false
       end.
Fixpoint check_nodes g (idx : nat) (rest : list (node V W)) : bool :=
  match rest with
  | [] => true
  | n :: rest' =>
      if forallb (check_in_edge g (Z.of_nat idx)) (n_in n) then
        if forallb (check_out_edge g (Z.of_nat idx)) (n_out n) then check_nodes g (S idx) rest'
        else false
      else false
  end.
Definition check_graph_linkage g : bool := check_nodes g 0 g.

(** graph.hpp:315-321 Graph(nodes) *)
Definition graph_of_nodes (nodes : list (node V W)) : outcome (graph V W) :=
  if check_graph_linkage nodes then Ok nodes else Throw InvalidArgument.

(** graph.hpp:272-297 markConnectedComponentUndirected.  [components] is indexed with int64_t and not checked:
    an edge to a node that does not exist is undefined behaviour.  [num_marked] counts as the code does. *)
Fixpoint mark_edges (es : list (edge W)) (id : nat) (comps : list nat) (queue : list Z) (num : nat)
  : outcome (list nat * list Z * nat) :=
  match es with
  | [] => Ok (comps, queue, num)
  | e :: es' =>
      let nb := e_to e in
      if ((0 <=? nb) && (nb <? Z.of_nat (length comps)))%Z then
        match nth_error comps (Z.to_nat nb) with
        | Some O => mark_edges es' id (upd comps (Z.to_nat nb) id) (queue ++ [nb]) (S num)
        | Some _ => mark_edges es' id comps queue num
        | None => UB
        end
      else UB
  end.
Fixpoint mark_loop (fuel : nat) g (id : nat) (comps : list nat) (queue : list Z) (num : nat)
  : outcome (list nat * nat) :=
  match queue with
  | [] => Ok (comps, num)
  | next :: queue' =>
      match fuel with
      | O => NoFuel
      | S fuel' =>
          match nth_error g (Z.to_nat next) with
          | Some n =>
              let! r := mark_edges (n_out n) id comps queue' num in
              let '(comps', queue'', num') := r in
              mark_loop fuel' g id comps' queue'' num'
          | None => UB
          end
      end
  end.
Definition mark_component fuel g (start : Z) (comps : list nat) (id : nat) : outcome (list nat * nat) :=
  mark_loop fuel g id comps [start] 1.

(** graph.hpp:500-514 getConnectedComponentsUndirected; component ids (uint32_t) are natural numbers here, so
    the model is right up to 2^32 - 1 components. *)
Fixpoint components_loop (fuel : nat) g (todo : list nat) (comps : list nat) (count total : nat)
  : outcome (list nat * nat) :=
  match todo with
  | [] => Ok (comps, count)
  | idx :: todo' =>
      if total <? length g then
        match nth_error comps idx with
        | Some O =>
            let! r := mark_component fuel g (Z.of_nat idx) comps (S count) in
            components_loop fuel g todo' (fst r) (S count) (total + snd r)
        | Some _ => components_loop fuel g todo' comps count total
        | None => UB
        end
      else Ok (comps, count)
  end.
Definition connected_components g : outcome (list nat * nat) :=
  components_loop (S (length g)) g (seq 0 (length g)) (repeat 0 (length g)) 0 0.

End Graph.

(** ** Serialization (graph.hpp:41-75, 150-195, 327-351) *)
Section GraphSer.
Variables (dbg host_le : bool) (maxr : N).
Context {V : Type}.
(** Weights and distances are carried as their 64-bit patterns, as the memcpy does. *)
Notation W := N.

(** EDGE_VALIDITY is an unscoped enum stored as a 4-byte unsigned int (0, 1, 2). *)
Definition validity_code (v : validity) : N := match v with VALID => 0 | INVALID => 1 | UNKNOWN => 2 end.
Definition validity_of (x : N) : validity := match x with 0%N => VALID | 1%N => INVALID | _ => UNKNOWN end.
Definition validity_pod : pod validity :=
  {| pod_size := 4; pod_rep := fun v => mem_of host_le 4 (validity_code v);
     pod_abs := fun l => validity_of (of_mem host_le l) |}.
Definition i64_pod : pod Z := sint_pod host_le 8.
Definition f64_pod : pod N := uint_pod host_le 8.

(** graph.hpp:41-51 GraphEdge::serializeSelf *)
Definition ser_edge : serializer (edge W) :=
  fun e buf =>
    let! r1 := ser_pod i64_pod (e_from e) buf in
    let! r2 := ser_pod i64_pod (e_to e) (fst r1) in
    let! r3 := ser_pod f64_pod (e_weight e) (fst r2) in
    let! r4 := ser_pod validity_pod (e_valid e) (fst r3) in
    Ok (fst r4, length (fst r4) - length buf).

(** graph.hpp:53-75 GraphEdge::deserializeSelf *)
Definition de_edge : deserializer (edge W) :=
  fun buf cur =>
    let! r1 := de_pod dbg i64_pod buf cur in
    let! r2 := de_pod dbg i64_pod buf (cur + snd r1) in
    let! r3 := de_pod dbg f64_pod buf (cur + snd r1 + snd r2) in
    let! r4 := de_pod dbg validity_pod buf (cur + snd r1 + snd r2 + snd r3) in
    Ok (mkEdge (fst r1) (fst r2) (fst r3) (fst r4), cur + snd r1 + snd r2 + snd r3 + snd r4 - cur).

(** graph.hpp:150-167 GraphNode::serializeSelf *)
Definition ser_node (ser_value : serializer V) : serializer (node V W) :=
  fun n buf =>
    let! r1 := ser_value (n_value n) buf in
    let! r2 := ser_pod f64_pod (n_dist n) (fst r1) in
    let! r3 := ser_vector (ser_u64 host_le) ser_edge (n_in n) (fst r2) in
    let! r4 := ser_vector (ser_u64 host_le) ser_edge (n_out n) (fst r3) in
    Ok (fst r4, length (fst r4) - length buf).

(** graph.hpp:169-195 GraphNode::deserializeSelf *)
Definition de_node (de_value : deserializer V) : deserializer (node V W) :=
  fun buf cur =>
    let! r1 := de_value buf cur in
    let! r2 := de_pod dbg f64_pod buf (cur + snd r1) in
    let! r3 := de_vector dbg maxr (de_u64 dbg host_le) de_edge buf (cur + snd r1 + snd r2) in
    let! r4 := de_vector dbg maxr (de_u64 dbg host_le) de_edge buf (cur + snd r1 + snd r2 + snd r3) in
    Ok (mkNode (fst r1) (fst r2) (fst r3) (fst r4), cur + snd r1 + snd r2 + snd r3 + snd r4 - cur).

(** graph.hpp:327-338 Graph::serializeSelf *)
Definition ser_graph (ser_value : serializer V) : serializer (graph V W) :=
  fun g buf =>
    let! r := ser_vector (ser_u64 host_le) (ser_node ser_value) g buf in
    Ok (fst r, length (fst r) - length buf).

(** graph.hpp:340-351 Graph::deserializeSelf (no linkage check) *)
Definition de_graph (de_value : deserializer V) : deserializer (graph V W) :=
  fun buf cur => de_vector dbg maxr (de_u64 dbg host_le) (de_node de_value) buf cur.
End GraphSer.
