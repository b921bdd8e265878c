(** Model of GraphRandomWalk, include/arc_utilities/dijkstras.hpp:280-315. *)
From Verif Require Import Base GraphModel.

(** path.erase(std::find(path.begin(), path.end(), x), path.end()) (dijkstras.hpp:306-307). *)
Fixpoint erase_from (x : Z) (path : list Z) : list Z :=
  match path with [] => [] | y :: p => if (y =? x)%Z then [] else y :: erase_from x p end.

(** dijkstras.hpp:294-311, the loop.  [draws] supplies the random numbers: the distribution over [0, n - 1]
    yields [d mod n] for the next element [d], so every possible sequence of draws is some list.  Running out of
    draws is [NoFuel].  A node without out edges asks for a distribution over [0, -1], whose precondition
    fails. *)
Fixpoint walk {V W} (g : graph V W) (goal : Z) (draws : list nat) (path : list Z) : outcome (list Z) :=
  let cur := last path 0%Z in
  if (cur =? goal)%Z then Ok path
  else
    let! n := get_node g cur in
    match n_out n with
    | [] => UB
    | _ :: _ =>
        match draws with
        | [] => NoFuel
        | d :: ds =>
            match nth_error (n_out n) (d mod length (n_out n)) with
            | None => Throw OutOfRange
            | Some e => walk g goal ds (erase_from (e_to e) path ++ [e_to e])
            end
        end
    end.

(** dijkstras.hpp:288-314 PerformRandomWalk. *)
Definition random_walk {V W} (g : graph V W) (start goal : Z) (draws : list nat) : outcome (list Z) :=
  walk g goal draws [start].
