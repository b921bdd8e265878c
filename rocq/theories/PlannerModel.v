(** Model of SimpleAStarPlanner, include/arc_utilities/simple_astar_planner.hpp.
    States are any type [S] whose == is [eqb]; std::unordered_set/map are lists, as their iteration order is not
    observed.  Costs are any [C]; the priority queue is any implementation; the callbacks are pure functions.
    The statistics map is reduced to "nodes explored"; the planning time is not modelled. *)
From Verif Require Import Base Cost CostFloat Assoc.
From Flocq Require Import IEEE754.Bits IEEE754.Binary.

Section Planner.
Context {S : Type} {C : cost}.
Variable eqb : S -> S -> bool.
Variables (neigh : S -> list S) (dist : S -> S -> C) (h : S -> C) (goal : S -> bool).

(** simple_astar_planner.hpp:34-46 AStarComparator; [approx] is EigenHelpers::IsApprox(., ., 1e-10) on the
    expected distances.  [planner_before x y] is operator()(y, x): [x] must come out before [y]. *)
Definition planner_before (approx : C -> C -> bool) (x y : S * C) : bool :=
  if approx (snd y) (snd x) then cltb (h (fst x)) (h (fst y)) else cltb (snd x) (snd y).

Variable Q : pqueue (S * C).
(** Whether assertions are compiled in. *)
Variable dbg : bool.

(** simple_astar_planner.hpp:106-109: frontier, explored (latest first), cost_to_come, backpointers. *)
Record pstate := mkP { p_front : list (S * C); p_expl : list S; p_cost : list (S * C); p_back : list (S * S) }.

(** simple_astar_planner.hpp:146-175, one round of the loop over the neighbours of [cur].
    "a <= b" is written [cgeb b a]. *)
Definition relax (cur : S) (curc : C) (st : pstate) (y : S) : outcome pstate :=
  if a_mem eqb y (p_expl st) then Ok st
  else
    let oc := a_find eqb y (p_cost st) in
    let ob := a_find eqb y (p_back st) in
    cassert dbg (match oc, ob with None, Some _ => false | _, _ => true end)
    (cassert dbg (match ob, oc with None, Some _ => false | _, _ => true end)
     (let nc := cadd curc (dist cur y) in
      if match oc with Some c => cgeb nc c | None => false end then Ok st
      else Ok (mkP (pq_push Q (y, cadd nc (h y)) (p_front st)) (p_expl st)
                   (a_set eqb y nc (p_cost st)) (a_set eqb y cur (p_back st))))).

Fixpoint relax_all (cur : S) (curc : C) (st : pstate) (ys : list S) : outcome pstate :=
  match ys with
  | [] => Ok st
  | y :: ys' => let! st' := relax cur curc st y in relax_all cur curc st' ys'
  end.

(** simple_astar_planner.hpp:51-63 ExtractPathBasic, before the reversal.  More rounds than there are back
    pointers would mean a cycle, in which the code never stops. *)
Fixpoint extract_basic (fuel : nat) (back : list (S * S)) (last : S) : outcome (list S) :=
  match a_find eqb last back with
  | None => Ok [last]
  | Some p =>
      match fuel with
      | O => NoFuel
      | Datatypes.S fuel' => let! r := extract_basic fuel' back p in Ok (last :: r)
      end
  end.

(** simple_astar_planner.hpp:114-180, the search loop; the path and the number of explored states.  The code
    tests the goal first, then whether the state was explored. *)
Fixpoint plan_loop (fuel : nat) (st : pstate) : outcome (list S * nat) :=
  match pq_pop Q (p_front st) with
  | None => Ok ([], length (p_expl st))
  | Some ((cur, _), q') =>
      match fuel with
      | O => NoFuel
      | Datatypes.S fuel' =>
          if goal cur then
            let! r := extract_basic (length (p_back st)) (p_back st) cur in
            Ok (rev r, length (p_expl st))
          else if a_mem eqb cur (p_expl st) then
            plan_loop fuel' (mkP q' (p_expl st) (p_cost st) (p_back st))
          else
            match a_find eqb cur (p_cost st) with
            | None => Throw OutOfRange
            | Some curc =>
                let! st' := relax_all cur curc (mkP q' (cur :: p_expl st) (p_cost st) (p_back st)) (neigh cur) in
                plan_loop fuel' st'
            end
      end
  end.

(** simple_astar_planner.hpp:66-186 Plan. *)
Definition plan_init (start : S) : pstate :=
  mkP (pq_push Q (start, h start) []) [] (a_set eqb start czero []) [].
Definition plan (fuel : nat) (start : S) : outcome (list S * nat) := plan_loop fuel (plan_init start).
End Planner.
Arguments pstate S C : clear implicits.

(** math_helpers.hpp:16-20 CloseEnough(double, double, double) and 35-39 IsApprox, on IEEE doubles with
    round-to-nearest; std::min(x, y) is (y < x) ? y : x. *)
Definition b64_leb (x y : binary64) : bool := match b64_compare x y with Some Lt | Some Eq => true | _ => false end.
Definition b64_ltb (x y : binary64) : bool := match b64_compare x y with Some Lt => true | _ => false end.
Definition b64_close (p1 p2 threshold : binary64) : bool :=
  b64_leb (b64_abs (b64_minus BinarySingleNaN.mode_NE p2 p1)) (b64_abs threshold).
Definition b64_isapprox (precision p1 p2 : binary64) : bool :=
  let a1 := b64_abs p1 in let a2 := b64_abs p2 in
  let smallest := if b64_ltb a2 a1 then a2 else a1 in
  b64_close p1 p2 (b64_mult BinarySingleNaN.mode_NE precision smallest).
(** The literal 1e-10 of simple_astar_planner.hpp:37, nearest double. *)
Definition tol : binary64 := d64 0x3ddb7cdfd9d7bdbb.
