(** Properties C08-C11: graphs. *)
From Verif Require Import Base SerModel SerSpec SerProofs GraphModel GraphSpec GraphProofs GraphSerProofs GraphCompProofs.
From Coq Require Import Strings.Byte.

(** ** C08 *)
Section Run.
Context {V W : Type} (inf : W).

(** Run one call; calls that throw are caught by the caller. *)
Definition run_op (g : graph V W) (o : op V W) : graph V W * bool :=
  match o with
  | AddValue v => let '(g', r) := add_node g (fresh_node inf v) in (g', match r with Ok _ => true | _ => false end)
  | AddEdge i j w => let '(g', r) := add_edge g i j w in (g', match r with Ok _ => true | _ => false end)
  | AddEdges i j w => let '(g', r) := add_edges g i j w in (g', match r with Ok _ => true | _ => false end)
  end.
Definition run_ops (g : graph V W) (os : list (op V W)) : graph V W :=
  fold_left (fun g o => fst (run_op g o)) os g.
End Run.

Lemma run_op_linked {V W} (inf : W) (g : graph V W) o : well_linked g -> well_linked (fst (run_op inf g o)).
Proof.
  intros H. destruct o as [v|i j w|i j w]; cbn [run_op].
  - cbn. apply add_fresh_linked, H.
  - pose proof (add_edge_linked g i j w H). destruct (add_edge g i j w). exact H0.
  - pose proof (add_edges_linked g i j w H). destruct (add_edges g i j w). exact H0.
Qed.

(** After any history of building calls from the empty graph the linkage is consistent. *)
Theorem C08_linkage_invariant :
  forall (V W : Type) (inf : W) (os : list (op V W)), well_linked (run_ops inf [] os).
Proof.
  intros V W inf os.
  assert (G : forall g, well_linked g -> well_linked (run_ops inf g os)).
  { unfold run_ops. induction os as [|o os IH]; intros g H; cbn [fold_left]; auto. apply IH, run_op_linked, H. }
  apply G. repeat split; intros; destruct H as [_ H]; destruct (Z.to_nat _); discriminate.
Qed.
Print Assumptions C08_linkage_invariant.

(** addNode returns the index under which the new node is found; the nodes before keep theirs. *)
Theorem C08_add_node_effect :
  forall (V W : Type) (g : graph V W) n, exists g' i, add_node g n = (g', Ok i) /\ has_node g' i n /\ ~ is_index g i /\
    length g' = S (length g) /\ forall k m, has_node g k m -> has_node g' k m.
Proof.
  intros V W g n. exists (g ++ [n]), (Z.of_nat (length g)). unfold add_node. split; [f_equal; f_equal; unfold gsize; rewrite app_length; cbn [length]; lia|].
  split; [split; [lia|]; rewrite Nat2Z.id, nth_error_app2, Nat.sub_diag by lia; reflexivity|]. split; [unfold is_index, gsize; lia|].
  split; [rewrite app_length; cbn [length]; lia|]. intros k m (A & B). split; [exact A|]. rewrite nth_error_app1; [exact B|]. apply nth_error_Some. rewrite B. discriminate.
Qed.
Print Assumptions C08_add_node_effect.

(** addEdgeBetweenNodes works exactly when both indices are valid and different; then the new edge, with the
    given weight, is appended to both records and nothing else changes; otherwise it throws and the graph is
    unchanged.  The same for addEdgesBetweenNodes, both ways. *)
Theorem C08_add_edge_effect :
  forall (V W : Type) (g : graph V W) (f t : Z) (w : W),
  let e := mkEdge f t w UNKNOWN in
  is_index g f /\ is_index g t /\ f <> t /\
  (exists g' r, add_edge g f t w = (g', Ok r) /\ length g' = length g /\
     forall k n, has_node g k n ->
       has_node g' k (mkNode (n_value n) (n_dist n)
                        (if (k =? t)%Z then n_in n ++ [e] else n_in n)
                        (if (k =? f)%Z then n_out n ++ [e] else n_out n)))
  \/ ~ (is_index g f /\ is_index g t /\ f <> t) /\ exists x, add_edge g f t w = (g, Throw x).
Proof.
  intros V W g f t w e. destruct (add_edge_cases g f t) as [(A & B & C)|N].
  - left. repeat split; auto; try apply A; try apply B.
    destruct (add_edge_ok g f t w A B C) as (g' & r & E & G & L & _).
    exists g', r. repeat split; auto; [apply H|]. rewrite G. destruct H as [P Q]. rewrite Q. cbn.
    unfold with_edge. rewrite Z2Nat.id by auto. reflexivity.
  - right. split; auto. apply add_edge_throws, N.
Qed.
Print Assumptions C08_add_edge_effect.

Theorem C08_add_edges_effect :
  forall (V W : Type) (g : graph V W) (i j : Z) (w : W),
  is_index g i /\ is_index g j /\ i <> j /\
  (exists g' r, add_edges g i j w = (g', Ok r) /\ length g' = length g /\
     forall k n, has_node g k n ->
       has_node g' k (mkNode (n_value n) (n_dist n)
          (n_in n ++ (if (k =? j)%Z then [mkEdge i j w UNKNOWN] else []) ++ (if (k =? i)%Z then [mkEdge j i w UNKNOWN] else []))
          (n_out n ++ (if (k =? i)%Z then [mkEdge i j w UNKNOWN] else []) ++ (if (k =? j)%Z then [mkEdge j i w UNKNOWN] else []))))
  \/ ~ (is_index g i /\ is_index g j /\ i <> j) /\ exists x, add_edges g i j w = (g, Throw x).
Proof.
  intros V W g i j w. destruct (add_edge_cases g i j) as [(A & B & C)|N].
  - left. repeat split; auto; try apply A; try apply B.
    destruct (add_edges_ok g i j w A B C) as (g' & e1 & e2 & E & L & g1 & G1 & G2).
    exists g', (e1, e2). repeat split; auto; [apply H|]. rewrite G2, G1. destruct H as [P Q]. rewrite Q. cbn.
    unfold with_edge. cbn [n_value n_dist n_in n_out]. rewrite Z2Nat.id by auto. f_equal.
    destruct (Z.eqb_spec k i), (Z.eqb_spec k j); rewrite <- ?app_assoc, ?app_nil_r; try reflexivity; lia.
  - right. split; auto. apply add_edges_throws, N.
Qed.
Print Assumptions C08_add_edges_effect.

(** A history with successful and throwing calls. *)
Definition example_ops : list (op nat N) :=
  [AddValue 10; AddEdge 0 0 5%N; AddValue 11; AddValue 12; AddEdges 0 1 7%N; AddEdge 1 2 3%N; AddEdge 2 9 1%N;
   AddEdge (-1) 0 1%N; AddEdge 0 1 9%N].
Example C08_example :
  map (fun n => (map (fun e => (e_from e, e_to e, e_weight e)) (n_in n),
                 map (fun e => (e_from e, e_to e, e_weight e)) (n_out n))) (run_ops 99%N [] example_ops)
  = [([(1, 0, 7%N)], [(0, 1, 7%N); (0, 1, 9%N)]);
     ([(0, 1, 7%N); (0, 1, 9%N)], [(1, 0, 7%N); (1, 2, 3%N)]);
     ([(1, 2, 3%N)], [])]%Z.
Proof. vm_compute. reflexivity. Qed.

(** ** C09 *)
Theorem C09_linkage_check_decides :
  forall (V W : Type) (g : graph V W), check_graph_linkage g = true <-> endpoint_linked g.
Proof. intros V W g. apply check_linkage_iff. Qed.
Print Assumptions C09_linkage_check_decides.

Theorem C09_built_graphs_pass :
  forall (V W : Type) (inf : W) (os : list (op V W)),
  check_graph_linkage (run_ops inf [] os) = true /\
  graph_of_nodes (run_ops inf [] os) = Ok (run_ops inf [] os).
Proof.
  intros V W inf os.
  assert (H : check_graph_linkage (run_ops inf [] os) = true).
  { apply check_linkage_iff, well_linked_endpoint, C08_linkage_invariant. }
  split; auto. unfold graph_of_nodes. rewrite H. reflexivity.
Qed.
Print Assumptions C09_built_graphs_pass.

(** The check looks at endpoints only: the two records of an edge may carry different weights. *)
Theorem C09_check_ignores_weights_refuted :
  exists g : graph nat N, check_graph_linkage g = true /\ ~ well_linked g.
Proof.
  exists [mkNode 0 0%N [] [mkEdge 0 1 5%N VALID]; mkNode 0 0%N [mkEdge 0 1 6%N VALID] []].
  split; [reflexivity|]. intros (_ & _ & M).
  specialize (M 0%Z 1%Z _ _ (conj (Z.le_refl 0) eq_refl) (conj Z.le_0_1 eq_refl)).
  vm_compute in M. discriminate.
Qed.
Print Assumptions C09_check_ignores_weights_refuted.

Example C09_rejects_one_sided :
  check_graph_linkage [mkNode 0 0%N [] [mkEdge 0 1 5%N VALID]; mkNode 0 0%N [] []] = false.
Proof. reflexivity. Qed.

(** ** C10 *)

(** Indices and vector sizes in the range of their C++ types, weights as 64-bit patterns. *)
Definition graph_fits {V} (maxr : N) (okv : V -> Prop) (g : graph V N) : Prop :=
  Forall (node_ok maxr okv) g /\ size_ok maxr g.

Theorem C10_graph_round_trip :
  forall (dbg host_le : bool) (maxr : N) (V : Type) (okv : V -> Prop) sv dv,
  round_trips okv sv dv ->
  forall g : graph V N, graph_fits maxr okv g ->
  exists bytes,
    (forall buf, ser_graph host_le sv g buf = Ok (buf ++ bytes, length bytes)) /\
    (forall pre post, de_graph dbg host_le maxr dv (pre ++ bytes ++ post) (length pre) = Ok (g, length bytes)).
Proof.
  intros dbg le maxr V okv sv dv R g F.
  destruct (graph_round_trips dbg le maxr okv sv dv R g F) as (b & _ & S & D). eauto.
Qed.
Print Assumptions C10_graph_round_trip.

Example C10_example :
  graph_fits 100%N u64_ok (map (fun n => mkNode (N.of_nat (n_value n)) (n_dist n) (n_in n) (n_out n))
                             (run_ops 99%N [] example_ops)) /\
  round_trips u64_ok (ser_u64 true) (de_u64 true true).
Proof.
  split; [|apply u64_round_trips].
  match goal with |- graph_fits _ _ ?g => let g' := eval vm_compute in g in change g with g' end.
  unfold graph_fits, node_ok, edge_ok, size_ok, i64_ok, u64_ok.
  repeat (apply conj || apply Forall_cons || apply Forall_nil || reflexivity || discriminate).
Qed.

(** Reading back a serialized API-built graph gives a graph that passes the linkage check. *)
Theorem C09_deserialized_graphs_pass :
  forall (dbg host_le : bool) (maxr : N) (V : Type) (okv : V -> Prop) sv dv (inf : N) (os : list (op V N)),
  round_trips okv sv dv ->
  let g := run_ops inf [] os in graph_fits maxr okv g ->
  exists bytes, (forall buf, ser_graph host_le sv g buf = Ok (buf ++ bytes, length bytes)) /\
  forall pre post, exists g', de_graph dbg host_le maxr dv (pre ++ bytes ++ post) (length pre) = Ok (g', length bytes) /\
                              check_graph_linkage g' = true.
Proof.
  intros dbg le maxr V okv sv dv inf os R g F.
  destruct (C10_graph_round_trip dbg le maxr V okv sv dv R g F) as (b & S & D).
  exists b. split; auto. intros pre post. exists g. split; auto. apply C09_built_graphs_pass.
Qed.
Print Assumptions C09_deserialized_graphs_pass.

(** But deserialization itself does not check linkage: bytes can describe an inconsistent graph. *)
Theorem C09_deserialize_unchecked_refuted :
  exists (bytes : list byte) (g : graph N N),
    de_graph true true 100 (de_u64 true true) bytes 0 = Ok (g, length bytes) /\ check_graph_linkage g = false.
Proof.
  set (g := [mkNode 0%N 0%N [] [mkEdge 0 7 5%N VALID]] : graph N N).
  exists (match ser_graph true (ser_u64 true) g [] with Ok (b, _) => b | _ => [] end), g.
  vm_compute. auto.
Qed.
Print Assumptions C09_deserialize_unchecked_refuted.

(** ** C11 *)

(** Unit-weight undirected graph on [n] nodes with the given edges, built through the API. *)
Definition ugraph (n : nat) (es : list (Z * Z)) : graph unit N :=
  run_ops 0%N [] (repeat (AddValue tt) n ++ map (fun e => AddEdges (fst e) (snd e) 1%N) es).

(** Six pairs: every node has a neighbour, there are six components, but the library reports four, gives the
    last four nodes the id 0, and so puts the unconnected nodes 8 and 10 together. *)
Theorem C11_components_refuted :
  exists g ids, g = ugraph 12 [(0, 1); (2, 3); (4, 5); (6, 7); (8, 9); (10, 11)]%Z /\
    connected_components g = Ok (ids, 4) /\ ids = [1; 1; 2; 2; 3; 3; 4; 4; 0; 0; 0; 0] /\
    nth_error ids 8 = nth_error ids 10 /\ ~ connected g 8 10.
Proof.
  eexists; eexists. split; [reflexivity|]. split; [vm_compute; reflexivity|].
  split; [reflexivity|]. split; [reflexivity|]. intros C.
  set (g := ugraph 12 _) in *.
  assert (P : forall i j, connected g i j -> i = 8 \/ i = 9 -> j = 8 \/ j = 9).
  { intros i j H. induction H as [|i j k (n & e & N & I & T) H IH]; auto. intros Q. apply IH.
    assert (X : forallb (fun e => (e_to e =? 8) || (e_to e =? 9))%Z (n_out n) = true).
    { destruct Q as [-> | ->]; vm_compute in N; injection N as <-; reflexivity. }
    rewrite forallb_forall in X. specialize (X e I). lia. }
  specialize (P 8 10 C). lia.
Qed.
Print Assumptions C11_components_refuted.

(** A single isolated node is counted as a component but keeps the id 0; several isolated nodes share it. *)
Theorem C11_isolated_refuted :
  exists g ids, g = ugraph 3 [] /\ connected_components g = Ok (ids, 3) /\ ids = [0; 0; 0] /\ ~ connected g 0 1.
Proof.
  eexists; eexists. split; [reflexivity|]. split; [vm_compute; reflexivity|]. split; [reflexivity|].
  intros C. inversion C as [|i j k (n & e & N & I & T) H]; subst.
  vm_compute in N. injection N as <-. destruct I.
Qed.
Print Assumptions C11_isolated_refuted.

(** What does hold on every undirected graph: the call returns; connected nodes get the same id; nodes with
    the same non-zero id are connected; ids do not exceed the count.  Missing compared to C11: nodes left with
    id 0 may be unconnected, and the count may be too small or count isolated nodes that have no id. *)
Theorem C11_components_partial :
  forall (V W : Type) (g : graph V W), edges_in_range g -> undirected g ->
  exists ids count, connected_components g = Ok (ids, count) /\ length ids = length g /\
    (forall i j, i < length g -> connected g i j -> nth_error ids i = nth_error ids j) /\
    (forall i j c, nth_error ids i = Some (S c) -> nth_error ids j = Some (S c) -> connected g i j) /\
    (forall i c, nth_error ids i = Some c -> c <= count).
Proof.
  intros V W g R U. destruct (connected_components_spec g R U) as (ids & count & E & (L & T2 & T3 & T4)).
  exists ids, count. repeat split; auto.
  - intros i j _ C. induction C as [|i j k A C IH]; auto. rewrite (T3 i j A). exact IH.
Qed.
Print Assumptions C11_components_partial.

(** A connected graph with at least two nodes is labelled correctly. *)
Theorem C11_connected_graph :
  forall (V W : Type) (g : graph V W), edges_in_range g -> undirected g ->
  2 <= length g -> (forall k, k < length g -> connected g 0 k) ->
  connected_components g = Ok (repeat 1 (length g), 1).
Proof. intros V W g R U. exact (connected_graph_one_component g R U). Qed.
Print Assumptions C11_connected_graph.

(** Graphs made with addNode and addEdgesBetweenNodes meet the hypotheses. *)
Lemma adj_snoc {V W} (g : graph V W) m i j : n_out m = [] -> adj (g ++ [m]) i j <-> adj g i j.
Proof.
  intros M. split; intros (n & e & N & I & T).
  - destruct (Nat.lt_ge_cases i (length g)) as [L|L].
    + rewrite nth_error_app1 in N by auto. exists n, e. auto.
    + rewrite nth_error_app2 in N by auto. destruct (i - length g) as [|k]; cbn in N; [|destruct k; discriminate].
      injection N as <-. rewrite M in I. destruct I.
  - exists n, e. repeat split; auto. rewrite nth_error_app1; auto. apply nth_error_Some. congruence.
Qed.

Lemma adj_with_edge {V W} (g g' : graph V W) f t e : is_index g f -> e_to e = t -> graph_with_edge g f t e g' ->
  forall i j, adj g' i j <-> adj g i j \/ Z.of_nat i = f /\ Z.of_nat j = t.
Proof.
  intros F T G i j. split.
  - intros (n & x & N & I & X). rewrite G in N. destruct (nth_error g i) as [n0|] eqn:E; [|discriminate].
    cbn in N. injection N as <-. cbn in I. destruct (Z.eqb_spec (Z.of_nat i) f).
    + apply in_app_or in I. destruct I as [I|[<-|[]]]; [left; exists n0, x; auto|right; split; auto; congruence].
    + left. exists n0, x. auto.
  - intros [(n & x & N & I & X)|[A B]].
    + eexists; exists x. split; [rewrite G, N; reflexivity|]. split; auto. cbn.
      destruct (Z.of_nat i =? f)%Z; auto. apply in_or_app. auto.
    + destruct (nth_error g i) as [n0|] eqn:E.
      * eexists; exists e. split; [rewrite G, E; reflexivity|]. split; [|congruence]. cbn.
        destruct (Z.eqb_spec (Z.of_nat i) f); [|lia]. apply in_or_app. right. left. auto.
      * apply nth_error_None in E. unfold is_index in F. lia.
Qed.

Theorem C11_api_graphs_undirected :
  forall (V W : Type) (inf : W) (os : list (op V W)),
  Forall (fun o => match o with AddEdge _ _ _ => False | _ => True end) os ->
  edges_in_range (run_ops inf [] os) /\ undirected (run_ops inf [] os).
Proof.
  intros V W inf os F. split.
  - intros i n e N I. pose proof (C08_linkage_invariant V W inf os) as (O & _).
    apply (O (Z.of_nat i) n e); auto. split; [lia|]. rewrite Nat2Z.id. exact N.
  - assert (G : forall g, undirected g -> undirected (run_ops inf g os)).
    { unfold run_ops. induction F as [|o os HO F IH]; intros g H; cbn [fold_left]; auto. apply IH.
      destruct o as [v|i j w|i j w]; [|destruct HO|]; cbn [run_op].
      - cbn. intros i j. rewrite !adj_snoc by reflexivity. apply H.
      - destruct (add_edge_cases g i j) as [(A & B & C)|N].
        + destruct (add_edges_ok g i j w A B C) as (g' & e1 & e2 & -> & L & g1 & G1 & G2). cbn [fst].
          pose proof (graph_with_edge_length _ _ _ _ _ G1) as L1.
          assert (B1 : is_index g1 j) by (unfold is_index in *; rewrite L1; auto).
          intros a b. rewrite !(adj_with_edge g1 g' j i (mkEdge j i w UNKNOWN) B1 eq_refl G2),
            !(adj_with_edge g g1 i j (mkEdge i j w UNKNOWN) A eq_refl G1).
          specialize (H a b). tauto.
        + destruct (add_edges_throws g i j w N) as [x ->]. exact H. }
    apply G. intros i j (n & e & N & _). destruct i; discriminate.
Qed.
Print Assumptions C11_api_graphs_undirected.

Example C11_example :
  connected_components (ugraph 5 [(0, 1); (1, 2); (3, 4)]%Z) = Ok ([1; 1; 1; 2; 2], 2).
Proof. vm_compute. reflexivity. Qed.
