(** Properties of the PRM planner: C37-C39, C67. *)
From Verif Require Import Base Cost CostFloat GraphModel GraphSpec GraphProofs GraphProps KnnModel KnnProps
  DijkstraModel DijkstraSpec DijkstraProofs DijkstraProps AstarModel AstarSpec AstarProps WalkModel WalkProps PrmModel PrmProofs.
From Coq Require Import Permutation.
Local Notation walk := DijkstraSpec.walk.

(** ** C37 *)
Section P.
Context {V : Type} {C : cost} {ok : C -> Prop}.
Variable L : cost_laws C ok.
Variable dbg : bool.
Variable isinf : C -> bool.
Hypothesis Hinf : forall d, ok d -> isinf d = negb (cltb d cinf).
Variable dist : V -> V -> C.
Variable edge_ok : V -> V -> bool.
Hypothesis Hdist : forall a b, ok (dist a b).
Implicit Types (g : graph V C).

Lemma new_edges_nodup g dir symmetric state nbs : NoDup (map fst nbs) -> (forall i, In i (map fst nbs) -> is_index g i) ->
  NoDup (new_edges dist edge_ok g dir symmetric state nbs).
Proof.
  induction nbs as [|nb nbs IH]; intros N R; cbn [map] in *; [constructor|]. inversion N as [|? ? N1 N2]; subst.
  assert (IHN : NoDup (new_edges dist edge_ok g dir symmetric state nbs)) by (apply IH; auto; intros; apply R; right; auto).
  unfold new_edges in *. cbn [flat_map]. destruct (nth_error g (Z.to_nat (fst nb))) as [n|]; auto.
  destruct (edge_ok (n_value n) state); auto.
  assert (X : forall e, In e (new_edges dist edge_ok g dir symmetric state nbs) -> e_from e <> fst nb /\ e_to e <> fst nb).
  { intros e I. apply new_edges_in in I. destruct I as (i & m & I & _ & _ & H).
    assert (i <> fst nb) by (intros ->; contradiction).
    assert (gsize g <> fst nb) by (specialize (R (fst nb) ltac:(left; auto)); unfold is_index, gsize in *; lia).
    destruct H as [ -> | -> ]; cbn; auto. }
  assert (gsize g <> fst nb) by (specialize (R (fst nb) ltac:(left; auto)); unfold is_index, gsize in *; lia).
  cbn [app]. constructor; [|constructor]; auto.
  - intros [E|I]; [apply (f_equal e_from) in E; cbn in E; auto|]. apply X in I. cbn in I. tauto.
  - intros I. apply X in I. cbn in I. tauto.
Qed.

(** AddNodeToRoadmap returns a node at distance zero and leaves the roadmap alone, or adds exactly one node holding
    the state, leaves all nodes and edges there were, and adds exactly: for each of at most K nearest nodes from
    which the edge to the state is valid, one edge in each direction. *)
Theorem C37_add_node : forall sched dir g state K symmetric duplicates,
  well_linked g -> search_fits dist sched dir g state -> symmetric = true \/ dir = RoadmapToNew ->
  exists nbs, nearest (graph_distance dist dir state) g nbs /\ length nbs <= K /\
  ((duplicates = false /\ exists i n, has_node g i n /\ is_zero (graph_distance dist dir state n) = true /\
     add_node_to_roadmap dbg isinf dist edge_ok sched dir g state K symmetric duplicates = (g, Ok i)) \/
   ((duplicates = true \/ forall nb, In nb nbs -> is_zero (snd nb) = false) /\ exists g' es,
     add_node_to_roadmap dbg isinf dist edge_ok sched dir g state K symmetric duplicates = (g', Ok (gsize g)) /\
     well_linked g' /\ with_edges (g ++ [mkNode state cinf [] []]) es g' /\ NoDup es /\
     forall e, In e es <-> exists i n, In i (map fst nbs) /\ has_node g i n /\ edge_ok (n_value n) state = true /\
       (e = mkEdge i (gsize g) (if symmetric then graph_distance dist dir state n else dist (n_value n) state) UNKNOWN \/
        e = mkEdge (gsize g) i (if symmetric then graph_distance dist dir state n else dist state (n_value n)) UNKNOWN))).
Proof.
  intros sched dir g state K symmetric duplicates WL F SD. exists (neighbors isinf dist sched dir g state K).
  destruct (neighbors_nearest L isinf Hinf dist edge_ok Hdist sched dir g state K F) as [NN LK]. split; auto. split; auto.
  destruct (add_node_spec L dbg isinf Hinf dist edge_ok Hdist sched dir g state K symmetric duplicates F SD)
    as [(D & i & n & H1 & _ & H2 & E)|(D & g' & E & G & W)]; [left; split; auto; exists i, n; auto|right].
  split; auto. exists g', (new_edges dist edge_ok g dir symmetric state (neighbors isinf dist sched dir g state K)).
  assert (R : forall i, In i (map fst (neighbors isinf dist sched dir g state K)) -> is_index g i).
  { intros i I. apply in_map_iff in I. destruct I as (nb & <- & I). destruct NN as (_ & N2 & _). destruct (N2 nb I) as (j & n & N & ->).
    assert (j < length g) by (apply nth_error_Some; congruence). unfold is_index. cbn. lia. }
  split; auto. split; auto. split; [exact G|]. split; [apply new_edges_nodup; auto; apply NN|].
  intros e. rewrite new_edges_in. unfold weight_to_new, weight_from_new. split; intros (i & n & H1 & H2 & H3); exists i, n; split; auto.
  - split; auto. split; auto. apply R in H1. apply H1.
  - split; auto. apply H2.
Qed.

(** The invariant of roadmaps built by sampling. *)
Definition built (state_ok : V -> bool) (symmetric : bool) g : Prop :=
  well_linked g /\ (forall i n, has_node g i n -> state_ok (n_value n) = true) /\
  (forall i j n m e, has_node g i n -> In e (n_out n) -> e_to e = j -> has_node g j m ->
     (edge_ok (n_value n) (n_value m) = true \/ edge_ok (n_value m) (n_value n) = true) /\
     (e_weight e = dist (n_value n) (n_value m) \/ (symmetric = true /\ e_weight e = dist (n_value m) (n_value n)))).

Lemma with_edges_node g es g' i n' : with_edges g es g' -> has_node g' i n' -> exists n, has_node g i n /\ n_value n' = n_value n /\
  n_out n' = n_out n ++ filter (fun e => (e_from e =? i)%Z) es.
Proof.
  intros W [P N]. rewrite W in N. destruct (nth_error g (Z.to_nat i)) as [n|] eqn:E; [|discriminate]. injection N as <-.
  exists n. cbn. rewrite Z2Nat.id by auto. split; [split; auto|auto].
Qed.

Lemma built_add state_ok sched g v K symmetric duplicates : built state_ok symmetric g -> state_ok v = true ->
  search_fits dist sched RoadmapToNew g v ->
  exists g' i, add_node_to_roadmap dbg isinf dist edge_ok sched RoadmapToNew g v K symmetric duplicates = (g', Ok i) /\ built state_ok symmetric g' /\
    (g' = g \/ map n_value g' = map n_value g ++ [v]).
Proof.
  intros (WL & VS & ED) Sv F.
  destruct (C37_add_node sched RoadmapToNew g v K symmetric duplicates WL F (or_intror eq_refl)) as (nbs & NN & _ & [(_ & i & n & _ & _ & E)|(_ & g' & es & E & WL' & WE & _ & IN)]).
  - exists g, i. split; auto. split; [split; auto|auto].
  - exists g', (gsize g). split; auto.
    assert (VAL : map n_value g' = map n_value g ++ [v]).
    { apply nth_error_ext. intros k. rewrite nth_error_map, (WE k), <- (map_app n_value g [mkNode v cinf [] []] : _ = map n_value g ++ [v]), nth_error_map.
      destruct (nth_error (g ++ [mkNode v cinf [] []]) k); reflexivity. }
    split; [|auto]. split; auto. split.
    + intros i n H. destruct (with_edges_node _ _ _ _ _ WE H) as (n0 & H0 & -> & _). apply has_node_snoc in H0. destruct H0 as [H0|[_ ->]]; eauto.
    + intros i j n' m' e Hn I Ht Hm. destruct (with_edges_node _ _ _ _ _ WE Hn) as (n & Hn0 & Vn & On). destruct (with_edges_node _ _ _ _ _ WE Hm) as (m & Hm0 & Vm & _).
      rewrite Vn, Vm. rewrite On in I. apply in_app_iff in I. destruct I as [I|I].
      * apply has_node_snoc in Hn0. destruct Hn0 as [Hn0|[_ ->]]; [|destruct I].
        apply has_node_snoc in Hm0. destruct Hm0 as [Hm0|[Ej _]]; [eapply ED; eauto|].
        exfalso. destruct WL as (WO & _). destruct (WO i n e Hn0 I) as (_ & IX & _). unfold is_index, gsize in *. lia.
      * apply filter_In in I. destruct I as [I Ef]. apply Z.eqb_eq in Ef. apply IN in I. destruct I as (q & nq & _ & Hq & Vq & [ -> | -> ]); cbn in Ef, Ht |- *; subst i j.
        -- assert (has_node (g ++ [mkNode v cinf [] []]) q nq).
           { destruct Hq as [Hq1 Hq2]. split; auto. rewrite nth_error_app1; auto. apply nth_error_Some. congruence. }
           assert (nq = n) by (destruct H, Hn0; congruence). subst nq.
           apply has_node_snoc in Hm0. destruct Hm0 as [[H1 H2]|[_ ->]].
           ++ exfalso. assert (Z.to_nat (gsize g) < length g) by (apply nth_error_Some; congruence). unfold gsize in *. lia.
           ++ cbn. split; auto. destruct symmetric; auto.
        -- assert (has_node (g ++ [mkNode v cinf [] []]) q nq).
           { destruct Hq as [Hq1 Hq2]. split; auto. rewrite nth_error_app1; auto. apply nth_error_Some. congruence. }
           assert (nq = m) by (destruct H, Hm0; congruence). subst nq.
           apply has_node_snoc in Hn0. destruct Hn0 as [[H1 H2]|[_ ->]].
           ++ exfalso. assert (Z.to_nat (gsize g) < length g) by (apply nth_error_Some; congruence). unfold gsize in *. lia.
           ++ cbn. split; auto. destruct symmetric; auto.
Qed.

(** BuildRoadMap: whatever is sampled, with finite distances (or the parallel search), every node is a valid state,
    every edge was found valid in one direction, its weight is the distance, and the linkage is consistent. *)
Theorem C37_build_roadmap : forall samples state_ok K symmetric duplicates,
  (forall sched v n, In (sched, v) samples -> match sched n with
     | None => forall a, cltb (dist a v) cinf = true
     | Some s => schedule_of n s end) ->
  exists g, extend_roadmap dbg isinf dist edge_ok [] samples state_ok K symmetric duplicates = (g, Ok tt) /\ built state_ok symmetric g /\
    (forall v, In v (map n_value g) -> In v (map snd samples)) /\
    (duplicates = true -> map n_value g = filter state_ok (map snd samples)).
Proof.
  intros samples state_ok K symmetric duplicates H.
  assert (G : forall g, built state_ok symmetric g -> exists g', extend_roadmap dbg isinf dist edge_ok g samples state_ok K symmetric duplicates = (g', Ok tt) /\
    built state_ok symmetric g' /\ (forall v, In v (map n_value g') -> In v (map n_value g) \/ In v (map snd samples)) /\
    (duplicates = true -> map n_value g' = map n_value g ++ filter state_ok (map snd samples))).
  { induction samples as [|[sched v] samples IH]; intros g B; cbn [extend_roadmap map snd filter].
    - exists g. split; auto. split; auto. split; auto. rewrite app_nil_r. auto.
    - specialize (IH ltac:(intros; eapply H; right; eauto)).
      destruct (state_ok v) eqn:Sv.
      + pose proof (H sched v (length g) ltac:(left; auto)) as Hs.
        assert (SF : search_fits dist (sched (length g)) RoadmapToNew g v).
        { unfold search_fits. destruct (sched (length g)); auto. intros n _. apply Hs. }
        destruct (built_add state_ok (sched (length g)) g v K symmetric duplicates B Sv SF) as (g1 & i & E & B1 & V1). rewrite E.
        destruct (IH g1 B1) as (g' & E' & B' & V' & D'). exists g'. split; auto. split; auto. split.
        * intros u U. destruct (V' u U) as [U1|U1]; [|right; right; auto]. destruct V1 as [-> |V1]; auto.
          rewrite V1 in U1. apply in_app_iff in U1. destruct U1 as [U1|[<-|[]]]; auto. right. left. auto.
        * intros ->. rewrite (D' eq_refl). destruct V1 as [-> |V1]; [|rewrite V1, <- app_assoc; reflexivity].
          exfalso. destruct B as (WL & _).
          destruct (C37_add_node (sched (length g)) RoadmapToNew g v K symmetric true WL SF (or_intror eq_refl)) as (nbs & _ & _ & [(X & _)|(_ & g2 & es & E2 & _ & WE & _)]); [discriminate|].
          rewrite E in E2. injection E2 as <- _.
          apply with_edges_length in WE. rewrite app_length in WE. cbn in WE. lia.
      + destruct (IH g B) as (g' & E' & B' & V' & D'). exists g'. split; auto. split; auto. split; auto.
        intros u U. destruct (V' u U); auto. right. right. auto. }
  destruct (G []) as (g & E & B & V' & D').
  - split; [|split].
    + repeat split; intros; destruct H0 as [_ X]; destruct (Z.to_nat _); discriminate.
    + intros i n [_ X]. destruct (Z.to_nat i); discriminate.
    + intros i j n m e [_ X]. destruct (Z.to_nat i); discriminate.
  - exists g. split; auto. split; auto. split; auto. intros v I. destruct (V' v I) as [[]|]; auto.
Qed.
End P.
Print Assumptions C37_add_node.
Print Assumptions C37_build_roadmap.

(** The hypotheses are met: three states on a line, the serial and the two-thread search. *)
Definition ldist (a b : N) : ninf := Some (if (a <? b)%N then (b - a)%N else (a - b)%N).
Definition lvalid (a b : N) : bool := negb ((a =? 5) && (b =? 7) || (a =? 7) && (b =? 5))%N.
Definition ninf_isinf (d : ninf) : bool := match d with None => true | Some _ => false end.
Definition one_thread (n : nat) : option (list (list nat)) := Some [rev (seq 0 n)].
Example C37_example : exists g, extend_roadmap true ninf_isinf ldist lvalid [] [(fun _ => None, 5%N); (one_thread, 9%N); (one_thread, 7%N); (fun _ => None, 9%N)]
    (fun v => (v <? 100)%N) 2 true false = (g, Ok tt) /\
  map n_value g = [5; 9; 7]%N /\ map (fun n => map (fun e => (e_to e, e_weight e)) (n_out n)) g =
    [[(1%Z, Some 4%N)]; [(0%Z, Some 4%N); (2%Z, Some 2%N)]; [(1%Z, Some 2%N)]].
Proof. eexists. vm_compute. auto. Qed.
Example C37_hypotheses : (forall d : ninf, True -> ninf_isinf d = negb (cltb d cinf)) /\ (forall a b, cltb (ldist a b) cinf = true) /\
  (forall n, match one_thread n with None => False | Some s => schedule_of n s end).
Proof.
  split; [intros [|]; reflexivity|]. split; [reflexivity|]. intros n. unfold one_thread, schedule_of. cbn [concat]. rewrite app_nil_r.
  apply Permutation_sym, Permutation_rev.
Qed.

(** C37 is false when the distance is not symmetric and the new state is a query start: an assertion fails, or,
    without assertions, the edges get weight zero whatever the distance. *)
Definition adist (a b : N) : ninf := Some (if (a <? b)%N then (b - a)%N else 2 * (a - b))%N.
Theorem C37_asymmetric_start_refuted : exists g : graph N ninf, well_linked g /\ search_fits adist None NewToRoadmap g 1%N /\
  snd (add_node_to_roadmap true ninf_isinf adist (fun _ _ => true) None NewToRoadmap g 1%N 1 false false) = AssertFail /\
  exists g' n, add_node_to_roadmap false ninf_isinf adist (fun _ _ => true) None NewToRoadmap g 1%N 1 false false = (g', Ok 1%Z) /\
    nth_error g' 1 = Some n /\ map (@e_weight _) (n_out n) = [Some 0%N] /\ adist 1 7 = Some 6%N /\ n_value (hd n g') = 7%N.
Proof.
  exists (run_ops (None : ninf) [] [AddValue 7%N]). split; [apply C08_linkage_invariant|]. split; [intros n [<-|[]]; reflexivity|].
  split; [reflexivity|]. eexists. eexists. split; [vm_compute; reflexivity|]. repeat split.
Qed.
Print Assumptions C37_asymmetric_start_refuted.

(** C37 is false with infinite distances and the serial search: the call throws and leaves an unconnected node behind. *)
Theorem C37_infinite_distance_refuted : exists (g g' : graph N ninf) (dist : N -> N -> ninf), well_linked g /\
  add_node_to_roadmap true ninf_isinf dist (fun _ _ => true) None RoadmapToNew g 5%N 1 true false = (g', Throw OutOfRange) /\
  length g' = S (length g).
Proof.
  exists (run_ops (None : ninf) [] [AddValue 1%N; AddValue 2%N]). eexists. exists (fun a b => if (a =? b)%N then Some 0%N else None).
  split; [apply C08_linkage_invariant|]. split; [vm_compute; reflexivity|]. reflexivity.
Qed.
Print Assumptions C37_infinite_distance_refuted.

(** C67: a directed edge is stored only if the validity check accepted it in that direction.  False: the reverse edge
    is never checked. *)
Theorem C67_reverse_edge_refuted : exists (g g' : graph N ninf) (edge_ok : N -> N -> bool) n m e, well_linked g /\ search_fits ldist None RoadmapToNew g 5%N /\
  add_node_to_roadmap true ninf_isinf ldist edge_ok None RoadmapToNew g 5%N 1 false false = (g', Ok 1%Z) /\
  has_node g' 1 n /\ In e (n_out n) /\ has_node g' (e_to e) m /\ edge_ok (n_value n) (n_value m) = false.
Proof.
  exists (run_ops (None : ninf) [] [AddValue 1%N]). eexists. exists (fun a b => (a <? b)%N). eexists. eexists. eexists.
  split; [apply C08_linkage_invariant|]. split; [intros n [<-|[]]; reflexivity|]. split; [vm_compute; reflexivity|].
  split; [split; [lia|reflexivity]|]. split; [left; reflexivity|]. split; [split; [cbn; lia|reflexivity]|]. reflexivity.
Qed.
Print Assumptions C67_reverse_edge_refuted.
(** It does hold when the validity check and the distance are symmetric: then every edge was accepted in its own
    direction and weighs its own distance. *)
Theorem C67_edges_checked_partial : (* missing: validity checks that depend on the direction *)
  forall (V : Type) (C : cost) (dist : V -> V -> C) (edge_ok : V -> V -> bool) state_ok symmetric (g : graph V C),
  (forall a b, edge_ok a b = edge_ok b a) -> (symmetric = true -> forall a b, dist a b = dist b a) -> built dist edge_ok state_ok symmetric g ->
  forall i j n m e, has_node g i n -> In e (n_out n) -> e_to e = j -> has_node g j m ->
  edge_ok (n_value n) (n_value m) = true /\ e_weight e = dist (n_value n) (n_value m).
Proof.
  intros V C dist edge_ok state_ok symmetric g Se Sd (_ & _ & B) i j n m e H1 H2 H3 H4. destruct (B i j n m e H1 H2 H3 H4) as [[X|X] Y]; (split; [rewrite ?X; auto; rewrite Se; auto|]);
  destruct Y as [Y|[S Y]]; auto; rewrite (Sd S); auto.
Qed.
Print Assumptions C67_edges_checked_partial.

(** ** C38: UpdateRoadMapEdges gives every edge, at both its ends, the distance if it is valid and infinity if not, and
    changes nothing else, in whatever order the threads' writes happen. *)
Theorem C38_update_edges : forall (V : Type) (C : cost) (dist : V -> V -> C) (edge_ok : V -> V -> bool) (g : graph V C),
  endpoint_linked g ->
  update_roadmap dist edge_ok g = Ok (reweighed dist edge_ok g) /\
  exists writes_per_node, all_writes dist edge_ok g = Ok writes_per_node /\
    forall ws, Permutation ws (concat writes_per_node) -> fold_left apply_write ws g = reweighed dist edge_ok g.
Proof.
  intros V C dist edge_ok g EL. pose proof (all_writes_ok dist edge_ok g (endpoint_range g EL)) as AW. split.
  - unfold update_roadmap. rewrite (proj2 (check_linkage_iff g) EL), AW. cbn [obind]. rewrite (fold_writes dist edge_ok g _ EL); auto.
  - eexists. split; [exact AW|]. intros ws P. apply fold_writes; auto.
Qed.
Print Assumptions C38_update_edges.
Theorem C38_bad_linkage_throws : forall (V : Type) (C : cost) (dist : V -> V -> C) (edge_ok : V -> V -> bool) (g : graph V C),
  ~ endpoint_linked g -> update_roadmap dist edge_ok g = Throw InvalidArgument.
Proof.
  intros V C dist edge_ok g H. unfold update_roadmap. destruct (check_graph_linkage g) eqn:E; auto. apply check_linkage_iff in E. contradiction.
Qed.
Print Assumptions C38_bad_linkage_throws.
(** What [reweighed] says, edge by edge; and the two records of an edge still agree. *)
Theorem C38_edges : forall (V : Type) (C : cost) (dist : V -> V -> C) (edge_ok : V -> V -> bool) (g : graph V C),
  well_linked g ->
  well_linked (reweighed dist edge_ok g) /\ length (reweighed dist edge_ok g) = length g /\
  forall i n, has_node g i n -> exists n', has_node (reweighed dist edge_ok g) i n' /\ n_value n' = n_value n /\ n_dist n' = n_dist n /\
    length (n_out n') = length (n_out n) /\ length (n_in n') = length (n_in n) /\
    (forall k e, nth_error (n_out n) k = Some e -> exists m, has_node g (e_to e) m /\
       nth_error (n_out n') k = Some (mkEdge (e_from e) (e_to e) (if edge_ok (n_value n) (n_value m) then dist (n_value n) (n_value m) else cinf) (e_valid e))) /\
    (forall k e, nth_error (n_in n) k = Some e -> exists m, has_node g (e_from e) m /\
       nth_error (n_in n') k = Some (mkEdge (e_from e) (e_to e) (if edge_ok (n_value m) (n_value n) then dist (n_value m) (n_value n) else cinf) (e_valid e))).
Proof.
  intros V C dist edge_ok g WL. split; [apply reweighed_linked; auto|]. split; [unfold reweighed; apply map_length|].
  intros i n [P N]. eexists. split; [split; [auto|unfold reweighed; rewrite nth_error_map, N; reflexivity]|]. cbn [n_value n_dist n_out n_in].
  split; auto. split; auto. split; [apply map_length|]. split; [apply map_length|]. destruct WL as (WO & WI & _). split.
  - intros k e E. destruct (WO i n e (conj P N) (nth_error_In _ _ E)) as (F & IX & _). destruct (get_node_total g _ IX) as (m & M & M').
    exists m. split; [apply get_node_ok; auto|]. rewrite nth_error_map, E. cbn. unfold reweigh. rewrite F, N, M'. reflexivity.
  - intros k e E. destruct (WI i n e (conj P N) (nth_error_In _ _ E)) as (F & IX & _). destruct (get_node_total g _ IX) as (m & M & M').
    exists m. split; [apply get_node_ok; auto|]. rewrite nth_error_map, E. cbn. unfold reweigh. rewrite F, N, M'. reflexivity.
Qed.
Print Assumptions C38_edges.
Example C38_example : exists g', update_roadmap ldist (fun a b => (a <? b)%N)
    (run_ops (None : ninf) [] [AddValue 3%N; AddValue 7%N; AddEdges 0 1 (Some 0%N : ninf); AddEdge 0 1 (Some 9%N : ninf)]) = Ok g' /\
  map (fun n => map (@e_weight _) (n_out n)) g' = [[Some 4%N; Some 4%N]; [None]] /\ map (fun n => map (@e_weight _) (n_in n)) g' = [[None]; [Some 4%N; Some 4%N]].
Proof. eexists. vm_compute. auto. Qed.

(** ** C39 *)
Section Q.
Context {V : Type} {C : cost} {ok : C -> Prop}.
Variable L : cost_laws C ok.
Variable dbg : bool.
Variable isinf : C -> bool.
Hypothesis Hinf : forall d, ok d -> isinf d = negb (cltb d cinf).
Variable dist : V -> V -> C.
Variable edge_ok : V -> V -> bool.
Hypothesis Hdist : forall a b, ok (dist a b).
Implicit Types (g : graph V C).

(** Schedules that make sense for every number of nodes; the serial search needs finite distances. *)
Definition sched_ok (sched : nat -> option (list (list nat))) : Prop :=
  forall n, match sched n with None => forall a b, cltb (dist a b) cinf = true | Some s => schedule_of n s end.

(** [g'] is [g] with nodes and validated connections added: the old nodes keep their states, and an edge of [g'] is an
    edge of [g] or connects two states whose connection the validity check accepted in one direction. *)
Definition grown g g' : Prop :=
  (forall i n, has_node g i n -> exists n', has_node g' i n' /\ n_value n' = n_value n) /\
  (forall i n' e m', has_node g' i n' -> In e (n_out n') -> has_node g' (e_to e) m' ->
     (exists n, has_node g i n /\ In e (n_out n)) \/
     edge_ok (n_value n') (n_value m') = true \/ edge_ok (n_value m') (n_value n') = true).
(** The roadmaps queries run on. *)
Definition roadmap g : Prop := well_linked g /\ weights_ok g ok.
(** A node for the state: holding it, or, unless duplicates are wanted, at distance zero. *)
Definition stands_for (dir : direction) (duplicates : bool) (state : V) (n : node V C) : Prop :=
  n_value n = state \/ (duplicates = false /\ is_zero (graph_distance dist dir state n) = true).

Lemma grown_refl g : grown g g.
Proof. split; eauto. Qed.
Lemma has_node_fun g i n m : has_node g i n -> has_node g i m -> n = m.
Proof. intros [_ A] [_ B]. congruence. Qed.
Lemma grown_trans g1 g2 g3 : well_linked g2 -> grown g1 g2 -> grown g2 g3 -> grown g1 g3.
Proof.
  intros WL [A1 A2] [B1 B2]. split.
  - intros i n H. destruct (A1 i n H) as (n' & H' & E'). destruct (B1 i n' H') as (n'' & H'' & E''). exists n''. split; auto. congruence.
  - intros i n' e m' Hn I Hm. destruct (B2 i n' e m' Hn I Hm) as [(n & H & J)|X]; auto.
    destruct WL as (WO & _). destruct (WO i n e H J) as (_ & IX & _). destruct (get_node_total g2 _ IX) as (m & M & _). apply get_node_ok in M.
    destruct (A2 i n e m H J M) as [|X]; auto. right. destruct (B1 i n H) as (n1 & H1 & E1). destruct (B1 _ _ M) as (m1 & M1 & F1).
    replace n' with n1 by (eapply has_node_fun; eauto). replace m' with m1 by (eapply has_node_fun; eauto). rewrite E1, F1. auto.
Qed.

Lemma add_grown sched dir g state K duplicates : roadmap g -> sched_ok sched ->
  exists g' i n, add_node_to_roadmap dbg isinf dist edge_ok (sched (length g)) dir g state K true duplicates = (g', Ok i) /\
    roadmap g' /\ grown g g' /\ has_node g' i n /\ stands_for dir duplicates state n.
Proof.
  intros [WL WO] SO.
  assert (SF : search_fits dist (sched (length g)) dir g state).
  { specialize (SO (length g)). unfold search_fits. destruct (sched (length g)); auto. intros n _. destruct dir; apply SO. }
  destruct (C37_add_node L dbg isinf Hinf dist edge_ok Hdist (sched (length g)) dir g state K true duplicates WL SF (or_introl eq_refl))
    as (nbs & NN & _ & [(D & i & n & Hn & Z0 & E)|(_ & g' & es & E & WL' & WE & _ & IN)]).
  - exists g, i, n. split; auto. split; [split; auto|]. split; [apply grown_refl|]. split; auto. right. auto.
  - assert (OLD : forall i n, has_node g i n -> has_node (g ++ [mkNode state cinf [] []]) i n).
    { intros i n [A B]. split; auto. rewrite nth_error_app1; auto. apply nth_error_Some. congruence. }
    assert (NEW : nth_error (g ++ [mkNode state cinf [] []]) (length g) = Some (mkNode state cinf [] [])).
    { rewrite nth_error_app2 by lia. rewrite Nat.sub_diag. reflexivity. }
    assert (NODE : forall i n, has_node (g ++ [mkNode state cinf [] []]) i n -> exists n', has_node g' i n' /\ n_value n' = n_value n).
    { intros i n [A B]. eexists. split; [split; [auto|rewrite (WE (Z.to_nat i)), B; reflexivity]|]. reflexivity. }
    assert (HNEW : has_node (g ++ [mkNode state cinf [] []]) (gsize g) (mkNode state cinf [] [])) by (split; [unfold gsize; lia|unfold gsize; rewrite Nat2Z.id; auto]).
    assert (WES : forall e, In e es -> ok (e_weight e)).
    { intros e I. apply IN in I. destruct I as (i & n & _ & _ & _ & [ -> | -> ]); cbn; destruct dir; cbn; auto. }
    destruct (NODE _ _ HNEW) as (nn & HNN & VN). exists g', (gsize g), nn. split; auto. split; [split; auto|split; [|split; auto; left; auto]].
    + intros i n' e Hn I. destruct Hn as [Hn1 Hn2]. rewrite (WE (Z.to_nat i)) in Hn2. destruct (nth_error (g ++ [mkNode state cinf [] []]) (Z.to_nat i)) as [n|] eqn:E0; [|discriminate].
      injection Hn2 as <-. cbn in I. assert (H0 : has_node (g ++ [mkNode state cinf [] []]) i n) by (split; auto). apply has_node_snoc in H0.
      destruct I as [I|I]; apply in_app_iff in I; destruct I as [I|I]; try (apply filter_In in I; apply WES; apply I).
      * destruct H0 as [H0|[_ ->]]; [|destruct I]. apply (WO i n e H0); auto.
      * destruct H0 as [H0|[_ ->]]; [|destruct I]. apply (WO i n e H0); auto.
    + split.
      * intros i n H. apply NODE, OLD, H.
      * intros i n' e m' Hn I Hm. destruct (with_edges_node _ _ _ _ _ WE Hn) as (n & Hn0 & Vn & On). rewrite On in I. apply in_app_iff in I. destruct I as [I|I].
        { apply has_node_snoc in Hn0. destruct Hn0 as [Hn0|[_ ->]]; [eauto|destruct I]. }
        right. apply filter_In in I. destruct I as [I F]. apply Z.eqb_eq in F. apply IN in I. destruct I as (q & nq & _ & Hq & Vq & X).
        destruct (with_edges_node _ _ _ _ _ WE Hm) as (m & Hm0 & Vm & _). rewrite Vn, Vm.
        destruct X as [ -> | -> ]; cbn in F, Hm, Hm0; subst i.
        -- rewrite <- (has_node_fun _ _ _ _ (OLD _ _ Hq) Hn0), <- (has_node_fun _ _ _ _ HNEW Hm0). auto.
        -- rewrite <- (has_node_fun _ _ _ _ (OLD _ _ Hq) Hm0), <- (has_node_fun _ _ _ _ HNEW Hn0). auto.
Qed.

(** The states at the given indices. *)
Definition states_at g (path : list Z) (vs : list V) : Prop := Forall2 (fun i v => exists n, has_node g i n /\ n_value n = v) path vs.
Lemma extract_ok g path : (forall i, In i path -> is_index g i) -> exists vs, extract_path g path = Ok vs /\ states_at g path vs.
Proof.
  induction path as [|i path IH]; intros H.
  - exists []. split; constructor.
  - destruct (IH ltac:(intros; apply H; right; auto)) as (vs & E & F). destruct (get_node_total g i (H i ltac:(left; auto))) as (n & G & _).
    exists (n_value n :: vs). unfold extract_path in *. cbn [mapM]. rewrite G. cbn [obind]. rewrite E. split; auto. constructor; auto.
    exists n. split; auto. apply get_node_ok; auto.
Qed.

Lemma ends_added sched1 sched2 g start goal K duplicates : roadmap g -> sched_ok sched1 -> sched_ok sched2 ->
  exists g' si gi ns ng, add_start_goal dbg isinf dist edge_ok sched1 sched2 g start goal K true duplicates = (g', Ok (si, gi)) /\
    roadmap g' /\ grown g g' /\ has_node g' si ns /\ has_node g' gi ng /\
    stands_for NewToRoadmap duplicates start ns /\ stands_for RoadmapToNew duplicates goal ng.
Proof.
  intros R S1 S2. destruct (add_grown sched1 NewToRoadmap g start K duplicates R S1) as (g1 & si & n1 & E1 & R1 & G1 & H1 & F1).
  destruct (add_grown sched2 RoadmapToNew g1 goal K duplicates R1 S2) as (g2 & gi & ng & E2 & R2 & G2 & H2 & F2).
  destruct (proj1 G2 _ _ H1) as (ns & Hs & Vs). exists g2, si, gi, ns, ng. unfold add_start_goal. rewrite E1, E2. split; auto. split; auto.
  split; [eapply grown_trans; eauto; apply R1|]. split; auto. split; auto. split; auto.
  unfold stands_for in *. rewrite Vs. destruct F1 as [F1|[D F1]]; auto. right. split; auto. cbn in *. rewrite Vs. auto.
Qed.

Lemma linked_range g : well_linked g -> edges_in_range g.
Proof. intros (WO & _) i n e N I. apply (WO (Z.of_nat i) n e); auto. split; [lia|rewrite Nat2Z.id; auto]. Qed.
Lemma route_index (step : Z -> Z -> C -> Prop) g u v p ws : (forall a b w, step a b w -> is_index g a) -> is_index g v ->
  route step u v p ws -> forall i, In i p -> is_index g i.
Proof. intros S Hv R. induction R as [u|u x v w p ws A R IH]; intros i [<-|I]; auto; try destruct I. eapply S; eauto. Qed.

(** QueryPathAndAddNodesSingleStartSingleGoal: the roadmap grows by validated connections only; the result is a route
    over edges of the roadmap from the start's node to the goal's node, without repetition, costing no more than
    reported, or the empty path and infinity if there is none. *)
Theorem C39_single_partial : (* missing: start and goal falling on the same node, where the query throws *)
  forall (Q : pqueue (elem C)) sched1 sched2 g start goal K duplicates limit,
  pq_sane Q -> roadmap g -> sched_ok sched1 -> sched_ok sched2 ->
  exists g' si gi ns ng, roadmap g' /\ grown g g' /\ has_node g' si ns /\ has_node g' gi ng /\
    stands_for NewToRoadmap duplicates start ns /\ stands_for RoadmapToNew duplicates goal ng /\
    (forall fuel, fst (query_single dbg isinf dist edge_ok Q fuel sched1 sched2 g start goal K true duplicates limit) = g') /\
    (si = gi -> forall fuel, snd (query_single dbg isinf dist edge_ok Q fuel sched1 sched2 g start goal K true duplicates limit) = Throw InvalidArgument) /\
    (si <> gi -> exists path cost vs,
       returns (fun fuel => snd (query_single dbg isinf dist edge_ok Q fuel sched1 sched2 g start goal K true duplicates limit)) (vs, cost) /\
       states_at g' path vs /\ good_result (usable_step g') si gi (path, cost)).
Proof.
  intros Q sched1 sched2 g start goal K duplicates limit QS R S1 S2.
  destruct (ends_added sched1 sched2 g start goal K duplicates R S1 S2) as (g' & si & gi & ns & ng & E & R' & G & Hs & Hg & Fs & Fg).
  exists g', si, gi, ns, ng. unfold query_single. rewrite E. cbn [fst snd obind]. split; auto. split; auto. split; auto. split; auto. split; auto. split; auto. split; auto. split.
  - intros <- fuel. unfold astar. rewrite C14_bad_indices_throw; auto. intros (_ & _ & X). auto.
  - intros NE. destruct R' as [WL' WO'].
    destruct (C14_astar_sound_complete V C ok Q g' si gi dist limit L QS (linked_range g' WL')) as ([path cst] & (f0 & RT) & GR); auto;
      [intros i n e A B _; apply (WO' i n e A); auto|eapply has_node_index; eauto|eapply has_node_index; eauto|].
    assert (IX : forall i, In i path -> is_index g' i).
    { destruct GR as [(ws & RR & _)|[X _]]; cbn [fst] in *; [|injection X as -> _; intros i []].
      eapply route_index; [| |exact RR]; [intros a b w (n & e & A & _); eapply has_node_index; eauto|eapply has_node_index; eauto]. }
    destruct (extract_ok g' path IX) as (vs & EX & SA). exists path, cst, vs. split; [|split; auto].
    exists f0. intros fuel Hf. rewrite (RT fuel Hf). cbn [obind fst snd]. rewrite EX. reflexivity.
Qed.

(** LazyQuery…: every step of the result was accepted by the validity check during the query. *)
Definition checked_step g (u x : Z) (w : C) : Prop :=
  exists n m e, has_node g u n /\ In e (n_out n) /\ e_to e = x /\ has_node g x m /\
    edge_ok (n_value n) (n_value m) = true /\ w = dist (n_value n) (n_value m).
Theorem C39_lazy_partial : (* missing: start and goal falling on the same node, where the query throws *)
  forall (Q : pqueue (elem C)) sched1 sched2 g start goal K duplicates limit,
  pq_sane Q -> roadmap g -> sched_ok sched1 -> sched_ok sched2 ->
  exists g' si gi ns ng, roadmap g' /\ grown g g' /\ has_node g' si ns /\ has_node g' gi ng /\
    stands_for NewToRoadmap duplicates start ns /\ stands_for RoadmapToNew duplicates goal ng /\
    (forall fuel, fst (query_lazy dbg isinf dist edge_ok Q fuel sched1 sched2 g start goal K true duplicates limit) = g') /\
    (si = gi -> forall fuel, snd (query_lazy dbg isinf dist edge_ok Q fuel sched1 sched2 g start goal K true duplicates limit) = Throw InvalidArgument) /\
    (si <> gi -> exists path cost vs,
       returns (fun fuel => snd (query_lazy dbg isinf dist edge_ok Q fuel sched1 sched2 g start goal K true duplicates limit)) (vs, cost) /\
       states_at g' path vs /\ good_result (checked_step g') si gi (path, cost)).
Proof.
  intros Q sched1 sched2 g start goal K duplicates limit QS R S1 S2.
  destruct (ends_added sched1 sched2 g start goal K duplicates R S1 S2) as (g' & si & gi & ns & ng & E & R' & G & Hs & Hg & Fs & Fg).
  exists g', si, gi, ns, ng. unfold query_lazy. rewrite E. cbn [fst snd obind]. split; auto. split; auto. split; auto. split; auto. split; auto. split; auto. split; auto. split.
  - intros <- fuel. unfold lazy_astar_values. rewrite C14_bad_indices_throw; auto. intros (_ & _ & X). auto.
  - intros NE. destruct R' as [WL' WO']. unfold lazy_astar_values.
    destruct (C14_lazy_astar_sound_complete V C ok Q g' si gi (edge_valuesb g' edge_ok) (edge_values g' dist) dist limit L QS (linked_range g' WL')) as ([path cst] & (f0 & RT) & GR); auto.
    { intros i n e A B _. unfold edge_values. destruct (get_node g' (e_from e)), (get_node g' (e_to e)); auto; apply (cl_inf _ _ L). }
    { eapply has_node_index; eauto. } { eapply has_node_index; eauto. }
    assert (ST : forall u x w, gstep g' (edge_valuesb g' edge_ok) (edge_values g' dist) u x w <-> checked_step g' u x w).
    { intros u x w. unfold gstep, checked_step, edge_valuesb, edge_values. destruct WL' as (WLO & _). split.
      - intros (n & e & A & B & D & <- & <-). destruct (WLO u n e A B) as (F & IX & _). rewrite F in *.
        rewrite (proj2 (get_node_ok g' u n) A) in *. destruct (get_node_total g' _ IX) as (m & M & _). rewrite M in *.
        exists n, m, e. split; auto. split; auto. split; auto. split; [apply get_node_ok; auto|auto].
      - intros (n & m & e & A & B & <- & D & F & ->). exists n, e. split; auto. split; auto. destruct (WLO u n e A B) as (F' & _). rewrite F'.
        rewrite (proj2 (get_node_ok g' u n) A), (proj2 (get_node_ok g' _ m) D). auto. }
    assert (GR' : good_result (checked_step g') si gi (path, cst)).
    { destruct GR as [(ws & A & B & D)|[A B]].
      - left. exists ws. split; auto. revert A. apply route_mono. apply ST.
      - right. split; auto. intros p ws X. apply (B p ws). revert X. apply route_mono. apply ST. }
    assert (IX : forall i, In i path -> is_index g' i).
    { destruct GR' as [(ws & RR & _)|[X _]]; cbn [fst] in *; [|injection X as -> _; intros i []].
      eapply route_index; [| |exact RR]; [intros a b w (n & m & e & A & _); eapply has_node_index; eauto|eapply has_node_index; eauto]. }
    destruct (extract_ok g' path IX) as (vs & EX & SA). exists path, cst, vs. split; [|split; auto].
    exists f0. intros fuel Hf. rewrite (RT fuel Hf). cbn [obind fst snd]. rewrite EX. reflexivity.
Qed.

(** The random walk query: whenever it ends, the result is a loop-free walk over edges from start to goal. *)
(** The length of a list of states: the distances of neighbours, added up in order. *)
Definition path_length (vs : list V) : C := fold_left (fun acc ab => cadd acc (dist (fst ab) (snd ab))) (combine vs (tl vs)) czero.
Theorem C39_random_walk : forall draws sched1 sched2 g start goal K, roadmap g -> sched_ok sched1 -> sched_ok sched2 ->
  exists g' si gi ns ng, roadmap g' /\ grown g g' /\ has_node g' si ns /\ has_node g' gi ng /\
    stands_for NewToRoadmap false start ns /\ stands_for RoadmapToNew false goal ng /\
    fst (query_walk dbg isinf dist edge_ok draws sched1 sched2 g start goal K true) = g' /\
    forall vs cost, snd (query_walk dbg isinf dist edge_ok draws sched1 sched2 g start goal K true) = Ok (vs, cost) ->
    exists path, states_at g' path vs /\ walk_in g' si gi path /\ NoDup path /\ cost = path_length vs.
Proof.
  intros draws sched1 sched2 g start goal K R S1 S2.
  destruct (ends_added sched1 sched2 g start goal K false R S1 S2) as (g' & si & gi & ns & ng & E & R' & G & Hs & Hg & Fs & Fg).
  exists g', si, gi, ns, ng. unfold query_walk. rewrite E. cbn [fst snd obind]. split; auto. split; auto. split; auto. split; auto. split; auto. split; auto. split; auto.
  intros vs cst H. apply obind_ok in H. destruct H as (path & W & H). apply obind_ok in H. destruct H as (vs' & EX & H). injection H as -> <-.
  apply C19_walk_loop_free in W. destruct W as [W ND]. exists path.
  assert (TD : forall l acc, total_distance_from dist acc l = fold_left (fun acc ab => cadd acc (dist (fst ab) (snd ab))) (combine l (tl l)) acc).
  { clear. intros l. induction l as [|a [|b l] IH]; intros acc; try reflexivity. cbn [total_distance_from tl combine fold_left fst snd]. apply IH. }
  enough (X : states_at g' path vs) by (split; auto; split; auto; split; auto; apply TD).
  assert (IX : forall i, In i path -> is_index g' i).
  { clear -W R' Hg. apply has_node_index in Hg. induction W as [u|u x v n e p A B D W IH]; intros i [<-|I]; auto; try destruct I. eapply has_node_index; eauto. }
  destruct (extract_ok g' path IX) as (vs'' & EX' & SA). congruence.
Qed.

(** ** Several starts *)
(** A walk to [s] with the nodes visited, the cost added up from the [s] end. *)
Inductive wpath g (s : Z) : Z -> list Z -> C -> Prop :=
| wp_here : wpath g s s [s] czero
| wp_step v n e p c : has_node g v n -> In e (n_out n) -> wpath g s (e_to e) p c -> wpath g s v (v :: p) (cadd c (e_weight e)).

Lemma follow_chain g prev s : is_index g s -> forall v k c, chain g prev s v k c -> forall fuel, k <= fuel ->
  exists p, follow fuel prev s v = Ok p /\ wpath g s v p c /\ (forall i, In i p -> is_index g i).
Proof.
  intros S v k c H. induction H as [|v n e k c NE Hn I P H IH]; intros fuel Hf.
  - exists [s]. destruct fuel; cbn [follow]; rewrite Z.eqb_refl; (destruct (Z.ltb_spec s 0); [destruct S; lia|]);
      (split; auto; split; [constructor|intros i [<-|[]]; auto]).
  - destruct fuel as [|fuel]; [lia|]. destruct (IH fuel ltac:(lia)) as (p & F & W & IX). exists (v :: p). cbn [follow].
    destruct (Z.ltb_spec v 0); [destruct Hn; lia|]. destruct (Z.eqb_spec v s); [contradiction|]. rewrite P, F. cbn [obind].
    split; auto. split; [econstructor; eauto|]. intros i [<-|J]; auto. eapply has_node_index; eauto.
Qed.

Lemma best_start_spec g distances : length distances = length g -> (forall i d, nth_error distances i = Some d -> ok d) ->
  forall starts best, (forall s, In s starts -> is_index g s) -> ok (snd best) ->
  exists b, best_start starts distances best = Ok b /\ ok (snd b) /\ cltb (snd best) (snd b) = false /\
    (forall s d, In s starts -> nth_error distances (Z.to_nat s) = Some d -> cltb d (snd b) = false) /\
    (b = best \/ (In (fst b) starts /\ nth_error distances (Z.to_nat (fst b)) = Some (snd b) /\ cltb (snd b) (snd best) = true)).
Proof.
  intros Ln OD. induction starts as [|s starts IH]; intros best IX OB; cbn [best_start].
  - exists best. split; auto. split; auto. split; [apply (cl_irrefl _ _ L); auto|]. split; auto. intros s d [].
  - destruct (IX s ltac:(left; auto)) as [S1 S2]. destruct (Z.ltb_spec s 0); [lia|].
    destruct (nth_error distances (Z.to_nat s)) as [d|] eqn:E; [|apply nth_error_None in E; lia].
    assert (Od : ok d) by (eapply OD; eauto).
    destruct (IH (if cltb d (snd best) then (s, d) else best)) as (b & B1 & B2 & B3 & B4 & B5).
    { intros; apply IX; right; auto. } { destruct (cltb d (snd best)); auto. }
    exists b. split; auto. split; auto. destruct (cltb d (snd best)) eqn:CD; cbn [fst snd] in *.
    + split; [apply (cle_trans L (snd b) d (snd best)); auto; apply (clt_le L); auto|]. split.
      * intros s' d' [<-|I] E'; eauto. rewrite E in E'. injection E' as <-. exact B3.
      * right. destruct B5 as [->|(I & N & Lt)]; cbn; [auto|]. split; auto. split; auto. apply (cl_trans _ _ L (snd b) d (snd best)); auto.
    + split; auto. split.
      * intros s' d' [<-|I] E'; eauto. rewrite E in E'. injection E' as <-. apply (cle_trans L (snd b) (snd best) d); auto.
      * destruct B5 as [->|(I & N & Lt)]; auto. right. split; auto. right. auto.
Qed.

Lemma starts_added scheds : (forall s, In s scheds -> sched_ok s) -> forall starts g K duplicates, length starts <= length scheds -> roadmap g ->
  exists g' is, add_starts dbg isinf dist edge_ok scheds g starts K true duplicates = (g', Ok is) /\ roadmap g' /\ grown g g' /\
    Forall2 (fun i s => exists n, has_node g' i n /\ stands_for NewToRoadmap duplicates s n) is starts.
Proof.
  induction scheds as [|sc scheds IH]; intros Hs starts g K duplicates Ls R.
  - destruct starts; [|cbn in Ls; lia]. exists g, []. split; auto. split; auto. split; [apply grown_refl|constructor].
  - destruct starts as [|s starts]; [exists g, []; split; auto; split; auto; split; [apply grown_refl|constructor]|].
    cbn [add_starts hd tl].
    destruct (add_grown sc NewToRoadmap g s K duplicates R) as (g1 & i & n & E1 & R1 & G1 & H1 & F1); [apply Hs; left; auto|]. rewrite E1.
    destruct (IH ltac:(intros; apply Hs; right; auto) starts g1 K duplicates ltac:(cbn in Ls; lia) R1) as (g2 & is & E2 & R2 & G2 & F2). rewrite E2.
    exists g2, (i :: is). split; auto. split; auto. split; [eapply grown_trans; eauto; apply R1|]. constructor; auto.
    destruct (proj1 G2 _ _ H1) as (n' & H' & V'). exists n'. split; auto. unfold stands_for in *. cbn in *. rewrite V'. auto.
Qed.

(** QueryPathAndAddNodesMultiStartSingleGoal: the result is a cheapest walk over edges of the (grown) roadmap from the
    node of some start to the goal's node, with its exact cost; or the empty path and infinity when no start has a walk
    of finite cost.  When the best start falls on the goal's node, that state appears twice. *)
Theorem C39_multi_start_partial : (* missing: the path when a start falls on the goal's node (refuted below) *)
  forall (Q : pqueue (Z * C)) scheds sched_goal g starts goal K duplicates,
  pq_sane Q -> pq_ordered Q entry_before (fun x => ok (snd x)) -> roadmap g ->
  (forall s, In s scheds -> sched_ok s) -> sched_ok sched_goal -> length starts <= length scheds ->
  exists g' is gi ng, roadmap g' /\ grown g g' /\ has_node g' gi ng /\ stands_for RoadmapToNew duplicates goal ng /\
    Forall2 (fun i s => exists n, has_node g' i n /\ stands_for NewToRoadmap duplicates s n) is starts /\
    forall fuel, length g' <= fuel ->
    exists r, query_multi_start dbg isinf dist edge_ok Q fuel scheds sched_goal g starts goal K true duplicates = (g', Ok r) /\
     ((r = ([], cinf) /\ forall i c, In i is -> walk g' gi i c -> cltb c cinf = false) \/
      (exists i path, In i is /\ wpath g' gi i path (snd r) /\ cltb (snd r) cinf = true /\
         (forall j c, In j is -> walk g' gi j c -> cltb c (snd r) = false) /\
         ((i <> gi /\ states_at g' path (fst r)) \/ (i = gi /\ fst r = [n_value ng; n_value ng])))).
Proof.
  intros Q scheds sched_goal g starts goal K duplicates QS QO R SS SG LS.
  destruct (starts_added scheds SS starts g K duplicates LS R) as (g1 & is & E1 & R1 & G1 & F1).
  destruct (add_grown sched_goal RoadmapToNew g1 goal K duplicates R1 SG) as (g2 & gi & ng & E2 & R2 & G2 & H2 & F2).
  exists g2, is, gi, ng. split; auto. split; [eapply grown_trans; eauto; apply R1|]. split; auto. split; auto. split.
  { clear -F1 G2. induction F1 as [|i s is0 st (n & Hn & Fn) F IH]; constructor; auto. destruct (proj1 G2 _ _ Hn) as (n' & H' & V'). exists n'. split; auto. unfold stands_for in *. cbn in *. rewrite V'. auto. }
  intros fuel Hf. unfold query_multi_start. rewrite E1, E2.
  destruct R2 as [WL WO].
  assert (GI : is_index g2 gi) by (eapply has_node_index; eauto).
  destruct (dijkstra_correct L Q g2 gi QS QO WL WO GI) as (g3 & prev & dists & ED & _ & LP & LD & _ & HD). rewrite ED. cbn [obind fst snd].
  assert (IXS : forall i, In i is -> is_index g2 i).
  { intros i I. clear -I F1 G2. induction F1 as [|x s is' st (n & Hn & _) F IH]; [destruct I|]. destruct I as [<-|I]; auto.
    destruct (proj1 G2 _ _ Hn) as (n' & H' & _). eapply has_node_index; eauto. }
  assert (TOT : forall v, is_index g2 v -> exists d p, nth_error dists (Z.to_nat v) = Some d /\ nth_error prev (Z.to_nat v) = Some p).
  { intros v [V1 V2]. destruct (nth_error dists (Z.to_nat v)) as [d|] eqn:Ed; [|apply nth_error_None in Ed; lia].
    destruct (nth_error prev (Z.to_nat v)) as [p|] eqn:Ep; [|apply nth_error_None in Ep; lia]. eauto. }
  assert (CHOK : forall v k c, chain g2 prev gi v k c -> ok c).
  { intros v k c H. induction H; [apply (cl_zero _ _ L)|]. apply (cl_add _ _ L); auto. eapply WO; eauto. }
  assert (OD : forall i d, nth_error dists i = Some d -> ok d).
  { intros i d Ed. assert (Li : i < length dists) by (apply nth_error_Some; congruence).
    assert (IX : is_index g2 (Z.of_nat i)) by (unfold is_index; lia).
    destruct (TOT _ IX) as (d' & p & Ed' & Ep). rewrite Nat2Z.id in Ed', Ep. rewrite Ed in Ed'. injection Ed' as <-.
    destruct (HD (Z.of_nat i) d p IX) as (_ & [[-> _]|(k & _ & X)] & _); rewrite ?Nat2Z.id; auto; [apply (cl_inf _ _ L)|eapply CHOK; eauto]. }
  destruct (best_start_spec g2 dists LD OD is ((-1)%Z, cinf) IXS (cl_inf _ _ L)) as (b & EB & OB & _ & BM & BC). rewrite EB. cbn [obind].
  assert (MIN : forall j c, In j is -> walk g2 gi j c -> cltb c (snd b) = false).
  { intros j c J W. assert (IX := IXS j J). destruct (TOT j IX) as (d & p & Ed & Ep).
    destruct (HD j d p IX Ed Ep) as (_ & _ & _ & M). specialize (M c W). specialize (BM j d J Ed).
    apply (cle_trans L (snd b) d c); auto; [eapply OD; eauto|].
    clear -W WO L. induction W; [apply (cl_zero _ _ L)|]. apply (cl_add _ _ L); auto. eapply WO; eauto. }
  rewrite Hinf by auto. destruct BC as [->|(BI & BN & BL)].
  - cbn [snd] in *. rewrite (cl_irrefl _ _ L) by apply (cl_inf _ _ L). cbn [negb]. eexists. split; [reflexivity|]. left. split; auto.
  - cbn [snd] in BL. rewrite BL. cbn [negb]. assert (IX := IXS _ BI). destruct (TOT _ IX) as (d & p & Ed & Ep).
    rewrite BN in Ed. injection Ed as <-. rewrite Ep. destruct (HD _ _ _ IX BN Ep) as (HS & HC & _ & _).
    destruct HC as [[X _]|(k & Lk & CH)]; [rewrite X in BL; rewrite (cl_irrefl _ _ L) in BL by apply (cl_inf _ _ L); discriminate|].
    destruct (Z.eq_dec (fst b) gi) as [EQ|NE].
    + destruct (HS EQ) as [Z0 ->].
      assert (FO : follow fuel prev gi gi = Ok [gi]).
      { destruct fuel; cbn [follow]; rewrite Z.eqb_refl; (destruct (Z.ltb_spec gi 0); [destruct GI; lia|auto]). }
      rewrite FO. cbn [obind]. unfold extract_path. cbn [mapM]. rewrite EQ, (proj2 (get_node_ok g2 gi ng) H2). cbn [obind].
      eexists. split; [reflexivity|]. right. exists gi, [gi]. cbn [fst snd]. split; [rewrite <- EQ; auto|]. split; [rewrite Z0; constructor|]. split; auto.
    + destruct (follow_chain g2 prev gi GI _ _ _ CH (S fuel) ltac:(lia)) as (path & F & W & IXP).
      cbn [follow] in F. destruct (Z.ltb_spec (fst b) 0); [destruct IX; lia|]. destruct (Z.eqb_spec (fst b) gi); [contradiction|]. rewrite Ep in F.
      apply obind_ok in F. destruct F as (rest & F & X). injection X as X. rewrite F. cbn [obind]. rewrite X.
      destruct (extract_ok g2 path IXP) as (vs & EX & SA). rewrite EX. cbn [obind]. eexists. split; [reflexivity|]. right.
      exists (fst b), path. cbn [fst snd]. split; [auto|]. split; [auto|]. split; [auto|]. split; [auto|]. left. auto.
Qed.

(** QueryPathMultiStartMultiGoal: of the solutions for the goals, each searched for on its own copy of the roadmap, a
    cheapest one is returned; the empty path and infinity if no goal can be reached at finite cost. *)
Theorem C39_multi_goal : forall (Q : pqueue (Z * C)) fuel g starts goals K symmetric duplicates sols,
  Forall2 (fun p sol => snd (query_multi_start dbg isinf dist edge_ok Q fuel (fst (fst p)) (snd (fst p)) g starts (snd p) K symmetric duplicates) = Ok sol /\
                        ok (snd sol)) goals sols ->
  exists r, query_multi_goal dbg isinf dist edge_ok Q fuel g starts goals K symmetric duplicates = Ok r /\
    ((In r sols /\ cltb (snd r) cinf = true /\ forall s, In s sols -> cltb (snd s) (snd r) = false) \/
     (r = ([], cinf) /\ forall s, In s sols -> cltb (snd s) cinf = false)).
Proof.
  intros Q fuel g starts goals K symmetric duplicates sols H. unfold query_multi_goal.
  match goal with |- context [mapM ?f goals] => assert (MM : mapM f goals = Ok sols) end.
  { clear -H. induction H as [|p s ps ss [A B] H IH]; auto. cbn [mapM]. rewrite A. cbn [obind]. rewrite IH. reflexivity. }
  rewrite MM. cbn [obind].
  assert (OK : forall s, In s sols -> ok (snd s)). { clear -H. induction H as [|p s ps ss [A B] H IH]; intros x []; subst; auto. }
  assert (X : forall (sols : list (list V * C)) d o, (forall s, In s sols -> ok (snd s)) -> ok d -> cltb cinf d = false ->
            (forall s, o = Some s -> snd s = d /\ cltb d cinf = true) -> (o = None -> d = cinf) ->
            exists d' o', fold_left better_solution sols (d, o) = (d', o') /\ ok d' /\ cltb d d' = false /\
              (forall s, In s sols -> cltb (snd s) d' = false) /\ (forall s, o' = Some s -> (In s sols \/ o = Some s) /\ snd s = d' /\ cltb d' cinf = true) /\
              (o' = None -> d' = cinf)).
  { clear sols H MM OK. induction sols as [|s sols IH]; intros d o OK Od Di So Do; cbn [fold_left].
    - exists d, o. split; auto. split; auto. split; [apply (cl_irrefl _ _ L); auto|]. split; [intros s []|]. split; [|auto]. intros s ->. split; [auto|apply So; auto].
    - assert (Os : ok (snd s)) by (apply OK; left; auto). unfold better_solution at 2. cbn [fst]. destruct (cltb (snd s) d) eqn:E.
      + destruct (IH (snd s) (Some s)) as (d' & o' & A1 & A2 & A3 & A4 & A5 & A6); auto; [intros; apply OK; right; auto| | |discriminate|].
        * apply (cle_trans L (snd s) d cinf); auto; [apply (cl_inf _ _ L)|apply (clt_le L); auto].
        * intros s' X. injection X as <-. split; auto. apply (clt_le_trans L (snd s) d cinf); auto; apply (cl_inf _ _ L).
        * exists d', o'. split; auto. split; auto. split; [apply (cle_trans L d' (snd s) d); auto; apply (clt_le L); auto|]. split; [intros s' [<-|I]; auto|].
          split; auto. intros s' Hs. destruct (A5 s' Hs) as [[I|I] B]; (split; [|exact B]); left; [right; auto|injection I as <-; left; auto].
      + destruct (IH d o) as (d' & o' & A1 & A2 & A3 & A4 & A5 & A6); auto; [intros; apply OK; right; auto|].
        exists d', o'. split; auto. split; auto. split; auto. split; [intros s' [<-|I]; auto; apply (cle_trans L d' d (snd s)); auto|].
        split; auto. intros s' Hs. destruct (A5 s' Hs) as [[I|I] B]; (split; [|exact B]); auto. left. right. auto. }
  destruct (X sols cinf None OK (cl_inf _ _ L)) as (d & o & E & Od & _ & M & So & No); auto; [apply (cl_irrefl _ _ L), (cl_inf _ _ L)|discriminate|].
  rewrite E. destruct o as [s|].
  - destruct (So s eq_refl) as [[I|I] [D F]]; [|discriminate]. rewrite F. exists s. split; auto. left. rewrite D. auto.
  - exists ([], cinf). split; auto. right. split; auto. rewrite (No eq_refl) in M. auto.
Qed.
End Q.
Print Assumptions C39_multi_goal.
Print Assumptions C39_single_partial.
Print Assumptions C39_lazy_partial.
Print Assumptions C39_random_walk.
Print Assumptions C39_multi_start_partial.

(** A line 0 - 3 - 6 - 9 whose connections are valid up to distance 3: hypotheses and results on a roadmap built from it. *)
Definition near (a b : N) : bool := (a - b <=? 3)%N && (b - a <=? 3)%N.
Definition line : graph N ninf := fst (extend_roadmap true ninf_isinf ldist near [] [(one_thread, 3%N); (one_thread, 6%N); (fun _ => None, 9%N)] (fun _ => true) 3 true false).
Definition unused (n : nat) : option (list (list nat)) := None.
Example C39_hypotheses : map (@n_value _ _) line = [3; 6; 9]%N /\ roadmap (ok := fun _ => True) line /\ sched_ok ldist one_thread /\ sched_ok ldist unused.
Proof.
  split; [reflexivity|]. split.
  - split; [|intros i n e _ _; exact I]. 
    destruct (C37_build_roadmap ninf_laws true ninf_isinf (proj1 C37_hypotheses) ldist near (fun _ _ => I)
                [(one_thread, 3%N); (one_thread, 6%N); (fun _ => None, 9%N)] (fun _ => true) 3 true false) as (g & E & (WL & _) & _).
    + intros sched v n [X|[X|[X|[]]]]; injection X as <- <-; try apply C37_hypotheses. reflexivity.
    + unfold line. rewrite E. exact WL.
  - split; intros n; [apply C37_hypotheses|intros a b; reflexivity].
Qed.
Example C39_example :
  snd (query_multi_start true ninf_isinf ldist near (list_queue entry_before) 20 [one_thread; unused] unused line [0; 2]%N 8%N 5 true false) = Ok ([2; 3; 6; 8]%N, Some 6%N) /\
  snd (query_multi_start true ninf_isinf ldist near (list_queue entry_before) 20 [one_thread; unused] unused line [20; 30]%N 8%N 5 true false) = Ok ([], None) /\
  query_multi_goal true ninf_isinf ldist near (list_queue entry_before) 20 line [0; 2]%N [([one_thread; unused], unused, 50%N); ([unused; unused], one_thread, 7%N)] 5 true false
    = Ok ([2; 3; 6; 7]%N, Some 5%N) /\
  snd (query_single true ninf_isinf ldist near (list_queue elem_before) 200 one_thread unused line 0%N 8%N 5 true false true) = Ok ([0; 3; 6; 8]%N, Some 8%N) /\
  snd (query_lazy true ninf_isinf ldist near (list_queue elem_before) 200 one_thread unused line 0%N 8%N 5 true false true) = Ok ([0; 3; 6; 8]%N, Some 8%N).
Proof. vm_compute. repeat split. Qed.

(** A start that coincides with the goal: the multi-start query returns that state twice although no edge joins it to
    itself, and the A* queries throw, instead of returning the one-state path of cost zero. *)
Theorem C39_start_is_goal_refuted : exists g : graph N ninf, roadmap (ok := fun _ => True) g /\
  snd (query_multi_start true ninf_isinf ldist near (list_queue entry_before) 20 [one_thread] one_thread g [6%N] 6%N 5 true false) = Ok ([6; 6]%N, Some 0%N) /\
  snd (query_single true ninf_isinf ldist near (list_queue elem_before) 200 one_thread one_thread g 6%N 6%N 5 true false true) = Throw InvalidArgument /\
  snd (query_lazy true ninf_isinf ldist near (list_queue elem_before) 200 one_thread one_thread g 6%N 6%N 5 true false true) = Throw InvalidArgument.
Proof. exists line. split; [apply C39_hypotheses|]. vm_compute. auto. Qed.
Print Assumptions C39_start_is_goal_refuted.
