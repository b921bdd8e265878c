(** Routes and their costs, independently of the algorithm. *)
From Verif Require Import Base Cost GraphModel GraphSpec.

Section Spec.
Context {S : Type} {C : cost}.

(** [step u x w]: one can move from [u] to [x] at cost [w]. *)
Variable step : S -> S -> C -> Prop.

(** A route from [u] to [v]: the nodes visited, both ends included, and the costs of its steps. *)
Inductive route : S -> S -> list S -> list C -> Prop :=
| route_nil u : route u u [u] []
| route_cons u x v w p ws : step u x w -> route x v p ws -> route u v (u :: p) (w :: ws).
End Spec.

(** The cost of a route, added up from its start as the code does. *)
Definition total {C : cost} (ws : list C) : C := fold_left cadd ws czero.

(** Moves in a graph along its valid edges, with the cost given by [dist]. *)
Definition gstep {V} {C : cost} (g : graph V C) (valid : edge C -> bool) (dist : edge C -> C) (u x : Z) (w : C) : Prop :=
  exists n e, has_node g u n /\ In e (n_out n) /\ valid e = true /\ e_to e = x /\ dist e = w.

(** [run] settles on the result [r]: with enough fuel it returns [r] (the code terminates). *)
Definition returns {A} (run : nat -> outcome A) (r : A) : Prop := exists f0, forall fuel, f0 <= fuel -> run fuel = Ok r.
