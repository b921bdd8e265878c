(** Shortest paths, independently of the algorithm. *)
From Verif Require Import Base Cost GraphModel GraphSpec.

Section Spec.
Context {V : Type} {C : cost} (g : graph V C).

(** [walk v s c]: there is a walk from node [v] to node [s] along edges of the graph; [c] is its cost, added up
    from the [s] end. *)
Inductive walk (s : Z) : Z -> C -> Prop :=
| walk_here : walk s s czero
| walk_edge v n e c : has_node g v n -> In e (n_out n) -> walk s (e_to e) c -> walk s v (cadd c (e_weight e)).

(** [chain prev v s k c]: following [prev] from [v] leads to [s] in [k] steps, each along an edge of the graph,
    and the costs of the edges add up to [c]. *)
Inductive chain (prev : list Z) (s : Z) : Z -> nat -> C -> Prop :=
| chain_here : chain prev s s 0 czero
| chain_edge v n e k c : v <> s -> has_node g v n -> In e (n_out n) -> nth_error prev (Z.to_nat v) = Some (e_to e) ->
    chain prev s (e_to e) k c -> chain prev s v (S k) (cadd c (e_weight e)).

(** All weights satisfy [ok]. *)
Definition weights_ok (ok : C -> Prop) : Prop :=
  forall i n e, has_node g i n -> In e (n_out n) \/ In e (n_in n) -> ok (e_weight e).
End Spec.
