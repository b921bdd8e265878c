(** Model of include/arc_utilities/simple_rrt_planner.hpp: planner states, the linkage check, path extraction and the
    single-tree and bidirectional planners. *)
From Verif Require Import Base SerModel.

(** simple_rrt_planner.hpp 18-53: SimpleRRTPlannerState. *)
Record pstate (V : Type) := mkP { p_value : V; p_children : list Z; p_parent : Z; p_init : bool }.
Arguments mkP {V} _ _ _ _.
Arguments p_value {V} _.
Arguments p_children {V} _.
Arguments p_parent {V} _.
Arguments p_init {V} _.

Section Rrt.
Context {V : Type}.
Notation tree := (list (pstate V)).

(** 51-53: SimpleRRTPlannerState(value); 46-49: SimpleRRTPlannerState(value, parent). *)
Definition root_state (v : V) : pstate V := mkP v [] (-1)%Z true.
Definition child_state (v : V) (parent : Z) : pstate V := mkP v [] parent true.

(** 115-122: AddChildIndex; 124-132: RemoveChildIndex. *)
Definition add_child (s : pstate V) (c : Z) : pstate V :=
  if existsb (Z.eqb c) (p_children s) then s else mkP (p_value s) (p_children s ++ [c]) (p_parent s) (p_init s).
Definition remove_child (s : pstate V) (c : Z) : pstate V :=
  mkP (p_value s) (filter (fun x => negb (x =? c)%Z) (p_children s)) (p_parent s) (p_init s).

(** 619-686: CheckTreeLinkage, the body of the loop over the nodes (the parent part 628-654, then the children 655-683),
    and the loop.  The messages printed are left out. *)
Definition tsize (nodes : tree) : Z := Z.of_nat (length nodes).
Definition check_parent (nodes : tree) (i : Z) (s : pstate V) : bool :=
  let p := p_parent s in
  if (0 <=? p)%Z && (p <? tsize nodes)%Z then
    negb (p =? i)%Z &&
    match nth_error nodes (Z.to_nat p) with
    | Some ps => p_init ps && existsb (Z.eqb i) (p_children ps)
    | None => false
    end
  else negb (p <? -1)%Z.
Definition check_child (nodes : tree) (i : Z) (c : Z) : bool :=
  (0 <? c)%Z && (c <? tsize nodes)%Z && negb (c =? i)%Z &&
  match nth_error nodes (Z.to_nat c) with
  | Some cs => p_init cs && (p_parent cs =? i)%Z
  | None => false
  end.
Definition check_node (nodes : tree) (i : Z) (s : pstate V) : bool :=
  p_init s && check_parent nodes i s && forallb (check_child nodes i) (p_children s).
Fixpoint check_from (nodes : tree) (i : Z) (rest : tree) : bool :=
  match rest with [] => true | s :: rest => check_node nodes i s && check_from nodes (i + 1)%Z rest end.
Definition check_tree_linkage (nodes : tree) : bool := check_from nodes 0%Z nodes.

(** 703-719: ExtractSolutionPath: nodes[goal] (unchecked), then the parents through nodes.at() while the parent index is
    not negative; the collected values are reversed.  [fuel] bounds the number of parents followed. *)
Fixpoint follow_parents (fuel : nat) (nodes : tree) (parent : Z) (path : list V) : outcome (list V) :=
  if (parent <? 0)%Z then Ok path else
  match fuel with
  | O => NoFuel
  | S fuel =>
    match nth_error nodes (Z.to_nat parent) with
    | Some s => follow_parents fuel nodes (p_parent s) (path ++ [p_value s])
    | None => Throw OutOfRange
    end
  end.
Definition extract_solution_path (fuel : nat) (nodes : tree) (goal : Z) : outcome (list V) :=
  if (goal <? 0)%Z then UB else
  match nth_error nodes (Z.to_nat goal) with
  | Some s => let! path := follow_parents fuel nodes (p_parent s) [p_value s] in Ok (rev path)
  | None => UB
  end.
(** 690-699: ExtractSolutionPaths. *)
Fixpoint extract_solution_paths (fuel : nat) (nodes : tree) (goals : list Z) : outcome (list (list V)) :=
  match goals with
  | [] => Ok []
  | g :: goals => let! p := extract_solution_path fuel nodes g in let! ps := extract_solution_paths fuel nodes goals in Ok (p :: ps)
  end.

(** 558-594 (and 927-973): the propagated states, in order, become nodes whose parent is the nearest neighbour or, for a
    relative index [rel >= 0], the [rel]-th propagated state; [visit] is what follows for each new node (index and
    value).  [idx] is the position in the list.  nodes[parent] is unchecked. *)
Fixpoint add_states {A} (visit : Z -> V -> A -> A) (nodes : tree) (nearest : Z) (idx : nat) (prop : list (V * Z)) (acc : A) : outcome (tree * A) :=
  match prop with
  | [] => Ok (nodes, acc)
  | (v, rel) :: prop =>
    if (0 <=? rel)%Z && (Z.of_nat idx <=? rel)%Z then Throw InvalidArgument else
    let parent := if (0 <=? rel)%Z then (tsize nodes + (rel - Z.of_nat idx))%Z else nearest in
    let nodes := nodes ++ [child_state v parent] in
    let new := (tsize nodes - 1)%Z in
    if (parent <? 0)%Z then UB else
    match nth_error nodes (Z.to_nat parent) with
    | None => UB
    | Some ps => add_states visit (upd nodes (Z.to_nat parent) (add_child ps new)) nearest (S idx) prop (visit new v acc)
    end
  end.

(** One pass of the planning loop: what sampling_fn, nearest_neighbor_fn and forward_propagation_fn do in it. *)
Record round := mkRound { r_target : V; r_nearest : tree -> V -> Z; r_prop : V -> V -> list (V * Z) }.
Record stats := mkStats { s_total : N; s_good : N; s_failed : N; s_swaps : N; s_states : N; s_solutions : N }.
Definition count_sample (ok : bool) (s : stats) : stats :=
  mkStats (s_total s + 1) (s_good s + if ok then 1 else 0) (s_failed s + if ok then 0 else 1) (s_swaps s) (s_states s) (s_solutions s).

(** 504-614: PlanMultiPath.  As written this overload does not compile (the template parameters are T and Allocator but
    the body uses StateType, SampleType and an undeclared [nodes]); it is read with [nodes] = [tree] and one state type.
    The loop runs once per element of [rounds] (termination_check_fn ends it).  [single] is the variant used by Plan
    (266-303 and 326-363): the termination check also answers true once a goal was found.  The callbacks are the empty
    ones Plan passes.  Planning time is left out. *)
Section Single.
Variable goal_reached : V -> bool.
Definition visit_goal (i : Z) (v : V) (goals : list Z) : list Z := if goal_reached v then goals ++ [i] else goals.
Fixpoint initial_goals (i : Z) (rest : tree) (goals : list Z) : list Z :=
  match rest with [] => goals | s :: rest => initial_goals (i + 1)%Z rest (visit_goal i (p_value s) goals) end.
Fixpoint plan_loop (single : bool) (rounds : list round) (nodes : tree) (goals : list Z) (st : stats) : outcome (tree * list Z * stats) :=
  match rounds with
  | [] => Ok (nodes, goals, st)
  | r :: rounds =>
    if single && match goals with [] => false | _ => true end then Ok (nodes, goals, st) else
    let nearest := r_nearest r nodes (r_target r) in
    if (nearest <? 0)%Z then Ok (nodes, goals, st) else
    match nth_error nodes (Z.to_nat nearest) with
    | None => Throw OutOfRange
    | Some ns =>
      match r_prop r (p_value ns) (r_target r) with
      | [] => plan_loop single rounds nodes goals (count_sample false st)
      | prop => let! (nodes, goals) := add_states visit_goal nodes nearest 0 prop goals in
                plan_loop single rounds nodes goals (count_sample true st)
      end
    end
  end.
Definition no_stats : stats := mkStats 0 0 0 0 0 0.
Definition plan_multi_path (single : bool) (fuel : nat) (rounds : list round) (nodes : tree) : outcome (tree * list (list V) * stats) :=
  match nodes with
  | [] => Throw InvalidArgument
  | _ =>
    if negb (check_tree_linkage nodes) then Throw InvalidArgument else
    let! (nodes, goals, st) := plan_loop single rounds nodes (initial_goals 0 nodes []) no_stats in
    if negb (check_tree_linkage nodes) then Throw RuntimeError else
    let! paths := extract_solution_paths fuel nodes goals in
    Ok (nodes, paths, mkStats (s_total st) (s_good st) (s_failed st) 0 (N.of_nat (length nodes)) (N.of_nat (length paths)))
  end.
(** 266-303 (with 422-440): Plan from one start state; the first path, or the empty path. *)
Definition plan (fuel : nat) (rounds : list round) (start : V) : outcome (list V * stats) :=
  let! (_, paths, st) := plan_multi_path true fuel rounds [root_state start] in
  Ok (match paths with p :: _ => p | [] => [] end, st).
End Single.

(** 845-1014: the bidirectional PlanMultiPath (which uses an undefined macro, [unlikely], read as arc_unlikely).  A round:
    the draw of a node of the other tree, given its size ([Some]), or none, when the state is sampled; the user functions;
    and whether the trees are switched afterwards. *)
Record biround := mkBi { b_draw : option (Z -> Z); b_round : round; b_switch : bool }.
Section Bi.
Variable connected : V -> V -> bool.
(** 958-972: the new node is tested against the drawn node, in this order whichever tree is active. *)
Definition visit_bridge (start_active : bool) (draw : option Z) (target : V) (i : Z) (v : V) (bridges : list (Z * Z)) : list (Z * Z) :=
  match draw with
  | None => bridges
  | Some d => if connected v target then bridges ++ [if start_active then (i, d) else (d, i)] else bridges
  end.
(** 885-896: the pairs of the given trees. *)
Fixpoint bridges_of (i : Z) (u : V) (j : Z) (goal_tree : tree) : list (Z * Z) :=
  match goal_tree with [] => [] | t :: rest => (if connected u (p_value t) then [(i, j)] else []) ++ bridges_of i u (j + 1)%Z rest end.
Fixpoint initial_bridges (i : Z) (start_tree goal_tree : tree) : list (Z * Z) :=
  match start_tree with [] => [] | s :: rest => bridges_of i (p_value s) 0 goal_tree ++ initial_bridges (i + 1)%Z rest goal_tree end.
Fixpoint bi_loop (single : bool) (rounds : list biround) (start_active : bool) (start_tree goal_tree : tree) (bridges : list (Z * Z)) (st : stats)
    : outcome (tree * tree * list (Z * Z) * stats) :=
  match rounds with
  | [] => Ok (start_tree, goal_tree, bridges, st)
  | b :: rounds =>
    if single && match bridges with [] => false | _ => true end then Ok (start_tree, goal_tree, bridges, st) else
    let active := if start_active then start_tree else goal_tree in
    let other := if start_active then goal_tree else start_tree in
    let r := b_round b in
    let draw := option_map (fun f => f (tsize other)) (b_draw b) in
    let! target := match draw with
                   | None => Ok (r_target r)
                   | Some d => if (d <? 0)%Z then Throw OutOfRange else
                               match nth_error other (Z.to_nat d) with Some s => Ok (p_value s) | None => Throw OutOfRange end
                   end in
    let nearest := r_nearest r active target in
    if (nearest <? 0)%Z then Ok (start_tree, goal_tree, bridges, st) else
    match nth_error active (Z.to_nat nearest) with
    | None => Throw OutOfRange
    | Some ns =>
      let prop := r_prop r (p_value ns) target in
      let! (active, bridges) := add_states (visit_bridge start_active draw target) active nearest 0 prop bridges in
      let st := count_sample (match prop with [] => false | _ => true end) st in
      let st := mkStats (s_total st) (s_good st) (s_failed st) (s_swaps st + if b_switch b then 1 else 0) (s_states st) (s_solutions st) in
      bi_loop single rounds (xorb start_active (b_switch b)) (if start_active then active else start_tree) (if start_active then goal_tree else active) bridges st
    end
  end.
(** 991-1006 *)
Fixpoint bridge_paths (fuel : nat) (start_tree goal_tree : tree) (bridges : list (Z * Z)) : outcome (list (list V)) :=
  match bridges with
  | [] => Ok []
  | (i, j) :: bridges =>
    let! sp := extract_solution_path fuel start_tree i in
    let! gp := extract_solution_path fuel goal_tree j in
    let! ps := bridge_paths fuel start_tree goal_tree bridges in
    Ok ((sp ++ rev gp) :: ps)
  end.
Definition bi_plan_multi_path (single : bool) (fuel : nat) (rounds : list biround) (start_tree goal_tree : tree) : outcome (tree * tree * list (list V) * stats) :=
  match start_tree, goal_tree with
  | [], _ => Throw InvalidArgument
  | _, [] => Throw InvalidArgument
  | _, _ =>
    if negb (check_tree_linkage start_tree) then Throw InvalidArgument else
    if negb (check_tree_linkage goal_tree) then Throw InvalidArgument else
    let! (start_tree, goal_tree, bridges, st) := bi_loop single rounds true start_tree goal_tree (initial_bridges 0 start_tree goal_tree) no_stats in
    if negb (check_tree_linkage start_tree) then Throw RuntimeError else
    if negb (check_tree_linkage goal_tree) then Throw RuntimeError else
    let! paths := bridge_paths fuel start_tree goal_tree bridges in
    Ok (start_tree, goal_tree, paths, mkStats (s_total st) (s_good st) (s_failed st) (s_swaps st) (N.of_nat (length start_tree + length goal_tree)) (N.of_nat (length paths)))
  end.
(** 727-775: Plan. *)
Definition bi_plan (fuel : nat) (rounds : list biround) (start goal : V) : outcome (list V * stats) :=
  let! (_, _, paths, st) := bi_plan_multi_path true fuel rounds [root_state start] [root_state goal] in
  Ok (match paths with p :: _ => p | [] => [] end, st).
End Bi.
End Rrt.
Arguments round : clear implicits.
Arguments biround : clear implicits.

(** 55-70: SerializeSelf: the flag, the parent, the children, the value.  The sizes and signed numbers use the codecs of
    serialization.hpp (SerModel); the value codec is the user's. *)
Section Ser.
Variables (dbg host_le : bool).
Context {V : Type}.
Definition ser_state (ser_v : serializer V) : serializer (pstate V) := fun s buf =>
  let! (b1, _) := ser_pod (uint_pod host_le 1) (if p_init s then 1 else 0)%N buf in
  let! (b2, _) := ser_pod (sint_pod host_le 8) (p_parent s) b1 in
  let! (b3, _) := ser_vector (ser_u64 host_le) (ser_pod (sint_pod host_le 8)) (p_children s) b2 in
  let! (b4, _) := ser_v (p_value s) b3 in
  Ok (b4, length b4 - length buf).
(** 72-99: DeserializeSelf. *)
Definition de_state (max_reserve : N) (de_v : deserializer V) : deserializer (pstate V) := fun buf cur =>
  let! (i, n1) := de_pod dbg (uint_pod host_le 1) buf cur in
  let! (p, n2) := de_pod dbg (sint_pod host_le 8) buf (cur + n1) in
  let! (cs, n3) := de_vector dbg max_reserve (de_u64 dbg host_le) (de_pod dbg (sint_pod host_le 8)) buf (cur + n1 + n2) in
  let! (v, n4) := de_v buf (cur + n1 + n2 + n3) in
  Ok (mkP v cs p (negb (i =? 0)%N), n1 + n2 + n3 + n4).
End Ser.
