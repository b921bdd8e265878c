(** Specification vocabulary for graphs. *)
From Verif Require Import Base GraphModel.

Section Spec.
Context {V W : Type}.
Implicit Types (g : graph V W).

(** Node [i] exists and is [n]. *)
Definition has_node g (i : Z) (n : node V W) : Prop := (0 <= i)%Z /\ nth_error g (Z.to_nat i) = Some n.
Definition is_index g (i : Z) : Prop := (0 <= i < Z.of_nat (length g))%Z.

(** The edges stored at [i] as going to [j], and those stored at [j] as coming from [i], in storage order. *)
Definition outs_to (n : node V W) (j : Z) := filter (fun e => (e_to e =? j)%Z) (n_out n).
Definition ins_from (n : node V W) (i : Z) := filter (fun e => (e_from e =? i)%Z) (n_in n).

(** Consistent linkage: each node's out edges start there, its in edges end there, both lead to other existing
    nodes, and for every pair of nodes the two records of the edges between them agree edge by edge (weights,
    validity, multiplicity, order). *)
Definition well_linked g : Prop :=
  (forall i n e, has_node g i n -> In e (n_out n) -> e_from e = i /\ is_index g (e_to e) /\ e_to e <> i) /\
  (forall j n e, has_node g j n -> In e (n_in n) -> e_to e = j /\ is_index g (e_from e) /\ e_from e <> j) /\
  (forall i j ni nj, has_node g i ni -> has_node g j nj -> outs_to ni j = ins_from nj i).

(** Linkage by endpoints only: what the library's check is meant to decide. *)
Definition endpoint_linked g : Prop :=
  (forall i n e, has_node g i n -> In e (n_out n) ->
     e_from e = i /\ e_to e <> i /\
     exists m e', has_node g (e_to e) m /\ In e' (n_in m) /\ e_from e' = i /\ e_to e' = e_to e) /\
  (forall j n e, has_node g j n -> In e (n_in n) ->
     e_to e = j /\ e_from e <> j /\
     exists m e', has_node g (e_from e) m /\ In e' (n_out m) /\ e_from e' = e_from e /\ e_to e' = j).

(** The public calls that build a graph. *)
Inductive op := AddValue (v : V) | AddEdge (i j : Z) (w : W) | AddEdges (i j : Z) (w : W).
End Spec.
Arguments op : clear implicits.

(** ** Connectivity *)
Section Conn.
Context {V W : Type}.
Variable g : graph V W.

(** Node [i] stores an out edge to [j]. *)
Definition adj (i j : nat) : Prop :=
  exists n e, nth_error g i = Some n /\ In e (n_out n) /\ e_to e = Z.of_nat j.

(** A walk of any length from [i] to [j]. *)
Inductive connected : nat -> nat -> Prop :=
| conn_refl i : connected i i
| conn_step i j k : adj i j -> connected j k -> connected i k.

(** Every edge also exists in the other direction, as addEdgesBetweenNodes makes them. *)
Definition undirected : Prop := forall i j, adj i j -> adj j i.

(** No edge leads outside the graph. *)
Definition edges_in_range : Prop :=
  forall i n e, nth_error g i = Some n -> In e (n_out n) -> is_index g (e_to e).
End Conn.
