(** Properties C14-C16: A* on graphs; C61: GenericAstarSearch. *)
From Verif Require Import Base Cost CostFloat GraphModel GraphSpec GraphProofs AstarModel AstarSpec AstarProofs GraphProps.

(** A sound and complete search result for moves [step]: a route without repetitions whose true cost does not
    exceed the reported one, or the empty path and infinity when there is no route. *)
Definition good_result {C : cost} (step : Z -> Z -> C -> Prop) (start goal : Z) (r : list Z * C) : Prop :=
  (exists ws, route step start goal (fst r) ws /\ NoDup (fst r) /\ cltb (snd r) (total ws) = false) \/
  (r = ([], cinf) /\ forall path ws, ~ route step start goal path ws).

(** The costs of valid edges are lawful (for doubles: not NaN, not negative). *)
Definition costs_ok {V} {C : cost} (g : graph V C) (valid : edge C -> bool) (dist : edge C -> C) (ok : C -> Prop) : Prop :=
  forall i n e, has_node g i n -> In e (n_out n) -> valid e = true -> ok (dist e).

Section Graph.
Context {V : Type} {C : cost}.
Variable g : graph V C.
Definition all_nodes : list Z := map Z.of_nat (seq 0 (length g)).
Lemma all_nodes_in u : In u all_nodes <-> is_index g u.
Proof.
  unfold all_nodes, is_index. rewrite in_map_iff. split.
  - intros (x & <- & I). apply in_seq in I. lia.
  - intros H. exists (Z.to_nat u). rewrite in_seq. lia.
Qed.

Variables (valid : edge C -> bool) (dist : edge C -> C).
Lemma step_iff u x w : step (graph_children g valid dist) all_nodes u x w <-> gstep g valid dist u x w.
Proof.
  unfold step, gstep, graph_children. split.
  - intros (I & cs & E & J). destruct (get_node g u) as [n| | | |] eqn:G; try discriminate. injection E as <-.
    apply in_map_iff in J. destruct J as (e & [= <- <-] & J). apply filter_In in J. apply get_node_ok in G.
    exists n, e. tauto.
  - intros (n & e & H & I & VA & <- & <-). split; [apply all_nodes_in; eapply has_node_index; eauto|].
    apply get_node_ok in H. rewrite H. eexists. split; [reflexivity|]. apply in_map_iff. exists e. split; auto.
    apply filter_In. auto.
Qed.
Lemma route_mono {S} (s1 s2 : S -> S -> C -> Prop) : (forall u x w, s1 u x w -> s2 u x w) ->
  forall u v p ws, route s1 u v p ws -> route s2 u v p ws.
Proof. intros H u v p ws R. induction R; econstructor; eauto. Qed.
Lemma route_iff u v p ws : route (step (graph_children g valid dist) all_nodes) u v p ws <-> route (gstep g valid dist) u v p ws.
Proof. split; apply route_mono; intros; apply step_iff; auto. Qed.

Context {ok : C -> Prop}.
Hypothesis ER : edges_in_range g.
Hypothesis CO : costs_ok g valid dist ok.
Lemma g_closed u : In u all_nodes -> exists cs, graph_children g valid dist u = Ok cs /\ forall x w, In (x, w) cs -> In x all_nodes /\ ok w.
Proof.
  intros I. apply all_nodes_in in I. destruct (get_node_total g u I) as (n & G & N).
  unfold graph_children. rewrite G. eexists. split; [reflexivity|]. intros x w J.
  apply in_map_iff in J. destruct J as (e & [= <- <-] & J). apply filter_In in J. split.
  - apply all_nodes_in. eapply ER; eauto. apply J.
  - eapply CO; [split; [apply I|exact N]|apply J|apply J].
Qed.
Lemma g_htot (hfn : V -> V -> C) goal : is_index g goal -> forall u, In u all_nodes -> exists hv, graph_heuristic g hfn goal u = Ok hv.
Proof.
  intros G u I. apply all_nodes_in in I. unfold graph_heuristic.
  destruct (get_node_total g u I) as (n & -> & _). destruct (get_node_total g goal G) as (m & -> & _). cbn. eauto.
Qed.

Lemma lazy_astar_unfold Q fuel start goal hfn limit h0 :
  is_index g start -> is_index g goal -> start <> goal -> graph_heuristic g hfn goal start = Ok h0 ->
  lazy_astar Q fuel g start goal valid dist hfn limit =
  obind (lazy_loop Q fuel limit (graph_children g valid dist) (graph_heuristic g hfn goal) goal []
           (mem0 start limit) (q0 Q start h0)) (fun ex => extract_result ex start goal).
Proof.
  intros [S1 S2] [G1 G2] N H. unfold lazy_astar, gsize.
  destruct (Z.ltb_spec start 0); [lia|]. destruct (Z.leb_spec (Z.of_nat (length g)) start); [lia|].
  destruct (Z.ltb_spec goal 0); [lia|]. destruct (Z.leb_spec (Z.of_nat (length g)) goal); [lia|].
  destruct (Z.eqb_spec start goal); [contradiction|]. cbn [orb]. rewrite H. reflexivity.
Qed.
End Graph.

Lemma nodes_nonneg {V} {C : cost} (g : graph V C) u : In u (all_nodes g) -> (0 <= u)%Z.
Proof. intros I. apply all_nodes_in in I. apply I. Qed.

(** ** C14 *)
Theorem C14_lazy_astar_sound_complete :
  forall (V : Type) (C : cost) (ok : C -> Prop) (Q : pqueue (elem C)) (g : graph V C) (start goal : Z)
         (valid : edge C -> bool) (dist : edge C -> C) (hfn : V -> V -> C) (limit : bool),
  cost_laws C ok -> pq_sane Q -> edges_in_range g -> costs_ok g valid dist ok ->
  is_index g start -> is_index g goal -> start <> goal ->
  exists r, returns (fun fuel => lazy_astar Q fuel g start goal valid dist hfn limit) r /\
            good_result (gstep g valid dist) start goal r.
Proof.
  intros V C ok Q g start goal valid dist hfn limit L QS ER CO HS HG NE.
  pose proof (g_closed g valid dist ER CO) as CL. pose proof (g_htot g hfn goal HG) as HT.
  assert (SN : In start (all_nodes g)) by (apply all_nodes_in; auto).
  destruct (HT start SN) as [h0 H0].
  destruct (search_ends L Q QS (graph_children g valid dist) (graph_heuristic g hfn goal) (all_nodes g) start goal SN NE CL HT limit h0 H0)
    as (f0 & ex & FIN & RUN).
  destruct (final_result L Q _ _ _ _ _ SN NE CL HT (nodes_nonneg g) ex FIN) as [(path & c & ws & E & R & ND & LE & _)|(E & NR)].
  - exists (path, c). split.
    + exists f0. intros fuel LEF. rewrite (lazy_astar_unfold g valid dist Q fuel start goal hfn limit h0) by auto. rewrite RUN by auto. exact E.
    + left. exists ws. cbn [fst snd]. split; [apply route_iff; auto|]. auto.
  - exists ([], cinf). split.
    + exists f0. intros fuel LEF. rewrite (lazy_astar_unfold g valid dist Q fuel start goal hfn limit h0) by auto. rewrite RUN by auto. exact E.
    + right. split; auto. intros path ws R. apply (NR path ws). apply route_iff. auto.
Qed.
Print Assumptions C14_lazy_astar_sound_complete.

(** PerformAstar: the moves are along edges not marked invalid, of weight below infinity. *)
Definition usable_step {V} {C : cost} (g : graph V C) (u x : Z) (w : C) : Prop :=
  exists n e, has_node g u n /\ In e (n_out n) /\ e_valid e <> INVALID /\ cltb (e_weight e) cinf = true /\
              e_to e = x /\ e_weight e = w.

Theorem C14_astar_sound_complete :
  forall (V : Type) (C : cost) (ok : C -> Prop) (Q : pqueue (elem C)) (g : graph V C) (start goal : Z)
         (hfn : V -> V -> C) (limit : bool),
  cost_laws C ok -> pq_sane Q -> edges_in_range g ->
  (forall i n e, has_node g i n -> In e (n_out n) -> e_valid e <> INVALID -> ok (e_weight e)) ->
  is_index g start -> is_index g goal -> start <> goal ->
  exists r, returns (fun fuel => astar Q fuel g start goal hfn limit) r /\ good_result (usable_step g) start goal r.
Proof.
  intros V C ok Q g start goal hfn limit L QS ER WO HS HG NE.
  assert (UE : forall e : edge C, usable_edge e = true <-> e_valid e <> INVALID /\ cltb (e_weight e) cinf = true).
  { intros e. unfold usable_edge. destruct (e_valid e); split; intros H; try discriminate; try tauto; try (split; [discriminate|auto]);
    try apply H. }
  assert (EQ : forall u x w, gstep g usable_edge (@e_weight C) u x w <-> usable_step g u x w).
  { intros u x w. unfold gstep, usable_step. split.
    - intros (n & e & A & B & D & E & F). apply UE in D. exists n, e. tauto.
    - intros (n & e & A & B & D & D' & E & F). exists n, e. rewrite UE. tauto. }
  destruct (C14_lazy_astar_sound_complete V C ok Q g start goal usable_edge (@e_weight C) hfn limit L QS ER) as (r & R & G); auto.
  { intros i n e A B D. apply UE in D. apply (WO i n e); tauto. }
  exists r. split; [exact R|]. destruct G as [(ws & A & B & D)|[A B]].
  - left. exists ws. split; auto. revert A. apply route_mono. apply EQ.
  - right. split; auto. intros path ws X. apply (B path ws). revert X. apply route_mono. apply EQ.
Qed.
Print Assumptions C14_astar_sound_complete.

(** With doubles, any non-negative weights and any heuristic whatsoever (also NaN or inadmissible). *)
Theorem C14_astar_sound_complete_double :
  forall (V : Type) (Q : pqueue (elem b64_cost)) (g : graph V b64_cost) (start goal : Z)
         (hfn : V -> V -> b64_cost) (limit : bool),
  pq_sane Q -> edges_in_range g ->
  (forall i n e, has_node g i n -> In e (n_out n) -> e_valid e <> INVALID -> b64_ok (e_weight e)) ->
  is_index g start -> is_index g goal -> start <> goal ->
  exists r, returns (fun fuel => astar Q fuel g start goal hfn limit) r /\ good_result (usable_step g) start goal r.
Proof. intros V Q g start goal hfn limit. apply (C14_astar_sound_complete V b64_cost b64_ok Q g start goal hfn limit b64_laws). Qed.
Print Assumptions C14_astar_sound_complete_double.

(** Unusable indices are reported. *)
Theorem C14_bad_indices_throw :
  forall (V : Type) (C : cost) (Q : pqueue (elem C)) (g : graph V C) (start goal : Z)
         (valid : edge C -> bool) (dist : edge C -> C) (hfn : V -> V -> C) (limit : bool) (fuel : nat),
  ~ (is_index g start /\ is_index g goal /\ start <> goal) ->
  lazy_astar Q fuel g start goal valid dist hfn limit = Throw InvalidArgument.
Proof.
  intros V C Q g start goal valid dist hfn limit fuel H. unfold lazy_astar, gsize. unfold is_index in H.
  destruct (Z.ltb_spec start 0); [reflexivity|]. destruct (Z.leb_spec (Z.of_nat (length g)) start); [reflexivity|].
  destruct (Z.ltb_spec goal 0); [reflexivity|]. destruct (Z.leb_spec (Z.of_nat (length g)) goal); [reflexivity|].
  destruct (Z.eqb_spec start goal); [reflexivity|]. exfalso. apply H. lia.
Qed.
Print Assumptions C14_bad_indices_throw.

(** ** C15: exact arithmetic, a queue that delivers an entry of least value, an admissible heuristic. *)
Theorem C15_astar_optimal :
  forall (V : Type) (C : cost) (ok : C -> Prop) (Q : pqueue (elem C)) (g : graph V C) (start goal : Z) (ngoal : node V C)
         (valid : edge C -> bool) (dist : edge C -> C) (hfn : V -> V -> C) (limit : bool),
  cost_laws C ok -> exact_laws C ok ->
  pq_sane Q -> pq_ordered Q elem_before (fun e => ok (q_value e)) ->
  edges_in_range g -> costs_ok g valid dist ok ->
  is_index g start -> has_node g goal ngoal -> start <> goal ->
  (forall i n, has_node g i n -> ok (hfn (n_value n) (n_value ngoal))) ->
  (forall i n path ws, has_node g i n -> route (gstep g valid dist) i goal path ws ->
     cltb (total ws) (hfn (n_value n) (n_value ngoal)) = false) ->
  (exists path ws, route (gstep g valid dist) start goal path ws) ->
  exists path ws, returns (fun fuel => lazy_astar Q fuel g start goal valid dist hfn limit) (path, total ws) /\
    route (gstep g valid dist) start goal path ws /\
    (forall path' ws', route (gstep g valid dist) start goal path' ws' -> cltb (total ws') (total ws) = false).
Proof.
  intros V C ok Q g start goal ngoal valid dist hfn limit L X QS QO ER CO HS HGN NE HOK ADM (rp & rws & RR).
  pose proof (has_node_index _ _ _ HGN) as HG.
  pose proof (g_closed g valid dist ER CO) as CL. pose proof (g_htot g hfn goal HG) as HT.
  assert (SN : In start (all_nodes g)) by (apply all_nodes_in; auto).
  destruct (HT start SN) as [h0 H0].
  destruct (search_ends L Q QS (graph_children g valid dist) (graph_heuristic g hfn goal) (all_nodes g) start goal SN NE CL HT limit h0 H0)
    as (f0 & ex & FIN & RUN).
  assert (HV : forall u hv, In u (all_nodes g) -> graph_heuristic g hfn goal u = Ok hv ->
            exists n, has_node g u n /\ hv = hfn (n_value n) (n_value ngoal)).
  { intros u hv I E. apply all_nodes_in in I. destruct (get_node_total g u I) as (n & Gn & Nn).
    unfold graph_heuristic in E. apply get_node_ok in HGN. rewrite Gn, HGN in E. injection E as <-.
    exists n. split; auto. split; [apply I|auto]. }
  destruct (final_result L Q _ _ _ _ _ SN NE CL HT (nodes_nonneg g) ex FIN)
    as [(path & c & ws & E & R & ND & LE & OC & OT & ex' & q & n & q' & HJ & PO & IN & EG & QC)|(E & NR)].
  2:{ elim (NR rp rws). apply route_iff. auto. }
  assert (OPT : forall path ws, route (step (graph_children g valid dist) (all_nodes g)) start goal path ws -> cle c (total ws)).
  { rewrite <- QC. eapply (goal_popped_optimal L Q QS _ _ (all_nodes g) start goal SN CL X QO); eauto.
    - intros u hv I EH. destruct (HV u hv I EH) as (nu & A & ->). eapply HOK; eauto.
    - intros u hv p w I EH RT. destruct (HV u hv I EH) as (nu & A & ->).
      apply (ADM u nu p w A). apply route_iff. auto. }
  assert (c = total ws) as ->.
  { apply (ex_antisym _ _ X); auto. apply (OPT path ws R). }
  exists path, ws. split; [|split].
  - exists f0. intros fuel LEF. rewrite (lazy_astar_unfold g valid dist Q fuel start goal hfn limit h0) by auto. rewrite RUN by auto. exact E.
  - apply route_iff. auto.
  - intros path' ws' R'. apply (OPT path' ws'). apply route_iff. auto.
Qed.
Print Assumptions C15_astar_optimal.

(** ** C16: not only the cost: the whole run is the same, for every graph, heuristic and queue. *)
Theorem C16_duplicate_limiting_irrelevant :
  forall (V : Type) (C : cost) (Q : pqueue (elem C)) (g : graph V C) (start goal : Z)
         (valid : edge C -> bool) (dist : edge C -> C) (hfn : V -> V -> C) (fuel : nat),
  pq_sane Q ->
  lazy_astar Q fuel g start goal valid dist hfn true = lazy_astar Q fuel g start goal valid dist hfn false.
Proof.
  intros V C Q g start goal valid dist hfn fuel QS. unfold lazy_astar.
  destruct ((start <? 0) || (gsize g <=? start))%Z; auto. destruct ((goal <? 0) || (gsize g <=? goal))%Z; auto.
  destruct (start =? goal)%Z; auto. destruct (graph_heuristic g hfn goal start) as [h0| | | |]; auto. cbn [obind].
  pose proof (search_limit Q QS (graph_children g valid dist) (graph_heuristic g hfn goal) start goal true fuel h0) as X.
  unfold mem0, q0 in X. rewrite X. reflexivity.
Qed.
Print Assumptions C16_duplicate_limiting_irrelevant.

(** ** C61: GenericAstarSearch *)

(** Moves: generated children whose edge is valid. *)
Definition gen_step {C : cost} (gen : Z -> list Z) (valid : Z -> Z -> bool) (dist : Z -> Z -> C) (u x : Z) (w : C) : Prop :=
  In x (gen u) /\ valid u x = true /\ w = dist u x.

(** [NS] is a finite set of non-negative ids containing the start that the moves do not leave. *)
Definition finite_space {C : cost} (ok : C -> Prop) (gen : Z -> list Z) (valid : Z -> Z -> bool) (dist : Z -> Z -> C)
  (start : Z) (NS : list Z) : Prop :=
  In start NS /\ forall u, In u NS -> (0 <= u)%Z /\ forall x w, gen_step gen valid dist u x w -> In x NS /\ ok w.

Section Generic.
Context {C : cost}.
Variables (gen : Z -> list Z) (valid : Z -> Z -> bool) (dist : Z -> Z -> C).
Definition gen_children (i : Z) : outcome (list (Z * C)) := Ok (map (fun j => (j, dist i j)) (filter (valid i) (gen i))).

Lemma gen_step_iff NS u x w : step gen_children NS u x w <-> In u NS /\ gen_step gen valid dist u x w.
Proof.
  unfold step, gen_step, gen_children. split.
  - intros (I & cs & [= <-] & J). apply in_map_iff in J. destruct J as (y & [= <- <-] & J). apply filter_In in J. tauto.
  - intros (I & A & B & ->). split; auto. eexists. split; [reflexivity|]. apply in_map_iff. exists x. rewrite filter_In. auto.
Qed.
Context {ok : C -> Prop}.
Lemma gen_closed start NS : finite_space ok gen valid dist start NS ->
  forall u, In u NS -> exists cs, gen_children u = Ok cs /\ forall x w, In (x, w) cs -> In x NS /\ ok w.
Proof.
  intros [_ F] u I. eexists. split; [reflexivity|]. intros x w J. apply (proj2 (F u I)).
  apply in_map_iff in J. destruct J as (y & [= <- <-] & J). apply filter_In in J. repeat split; apply J.
Qed.
Lemma gen_route start NS v p ws : finite_space ok gen valid dist start NS ->
  (route (step gen_children NS) start v p ws <-> route (gen_step gen valid dist) start v p ws).
Proof.
  intros [SN F]. split.
  - apply route_mono. intros u x w H. apply gen_step_iff in H. apply H.
  - intros R. revert SN. induction R as [u|u x v w p ws S0 R IH]; intros UN; [constructor|].
    eapply route_cons; [apply gen_step_iff; split; eauto|]. apply IH. apply (proj2 (F u UN) x w S0).
Qed.
End Generic.
Lemma generic_astar_unfold {C : cost} gen valid dist (hfn : Z -> Z -> C) Q fuel start goal limit : start <> goal ->
  generic_astar Q fuel start goal gen valid dist hfn limit =
  obind (lazy_loop Q fuel limit (gen_children gen valid dist) (fun i => Ok (hfn i goal)) goal []
           (mem0 start limit) (q0 Q start (hfn start goal))) (fun ex => extract_result ex start goal).
Proof.
  intros NE. unfold generic_astar. destruct (Z.eqb_spec start goal); [contradiction|].
  rewrite generic_loop_same by reflexivity. reflexivity.
Qed.

Theorem C61_generic_astar_sound_complete :
  forall (C : cost) (ok : C -> Prop) (Q : pqueue (elem C)) (start goal : Z) (gen : Z -> list Z)
         (valid : Z -> Z -> bool) (dist hfn : Z -> Z -> C) (limit : bool) (NS : list Z),
  cost_laws C ok -> pq_sane Q -> finite_space ok gen valid dist start NS -> start <> goal ->
  exists r, returns (fun fuel => generic_astar Q fuel start goal gen valid dist hfn limit) r /\
            good_result (gen_step gen valid dist) start goal r.
Proof.
  intros C ok Q start goal gen valid dist hfn limit NS L QS F NE.
  pose proof (gen_closed gen valid dist start NS F) as CL.
  assert (HT : forall u, In u NS -> exists hv, (fun i => Ok (hfn i goal)) u = Ok hv) by (intros; eauto).
  assert (SN : In start NS) by apply F.
  assert (NP : forall u, In u NS -> (0 <= u)%Z) by (intros u I; apply (proj2 F u I)).
  destruct (search_ends L Q QS (gen_children gen valid dist) (fun i => Ok (hfn i goal)) NS start goal SN NE CL HT limit _ eq_refl)
    as (f0 & ex & FIN & RUN).
  destruct (final_result L Q _ _ _ _ _ SN NE CL HT NP ex FIN) as [(path & c & ws & E & R & ND & LE & _)|(E & NR)].
  - exists (path, c). split.
    + exists f0. intros fuel LEF. rewrite generic_astar_unfold by auto. rewrite RUN by auto. exact E.
    + left. exists ws. cbn [fst snd]. split; [apply (gen_route (ok:=ok) gen valid dist start NS); auto|]. auto.
  - exists ([], cinf). split.
    + exists f0. intros fuel LEF. rewrite generic_astar_unfold by auto. rewrite RUN by auto. exact E.
    + right. split; auto. intros path ws R. apply (NR path ws). apply (gen_route (ok:=ok) gen valid dist start NS); auto.
Qed.
Print Assumptions C61_generic_astar_sound_complete.

Theorem C61_generic_astar_optimal :
  forall (C : cost) (ok : C -> Prop) (Q : pqueue (elem C)) (start goal : Z) (gen : Z -> list Z)
         (valid : Z -> Z -> bool) (dist hfn : Z -> Z -> C) (limit : bool) (NS : list Z),
  cost_laws C ok -> exact_laws C ok ->
  pq_sane Q -> pq_ordered Q elem_before (fun e => ok (q_value e)) ->
  finite_space ok gen valid dist start NS -> start <> goal ->
  (forall u, In u NS -> ok (hfn u goal)) ->
  (forall u path ws, In u NS -> route (gen_step gen valid dist) u goal path ws -> cltb (total ws) (hfn u goal) = false) ->
  (exists path ws, route (gen_step gen valid dist) start goal path ws) ->
  exists path ws, returns (fun fuel => generic_astar Q fuel start goal gen valid dist hfn limit) (path, total ws) /\
    route (gen_step gen valid dist) start goal path ws /\
    (forall path' ws', route (gen_step gen valid dist) start goal path' ws' -> cltb (total ws') (total ws) = false).
Proof.
  intros C ok Q start goal gen valid dist hfn limit NS L X QS QO F NE HOK ADM (rp & rws & RR).
  pose proof (gen_closed gen valid dist start NS F) as CL.
  assert (HT : forall u, In u NS -> exists hv, (fun i => Ok (hfn i goal)) u = Ok hv) by (intros; eauto).
  assert (SN : In start NS) by apply F.
  assert (NP : forall u, In u NS -> (0 <= u)%Z) by (intros u I; apply (proj2 F u I)).
  destruct (search_ends L Q QS (gen_children gen valid dist) (fun i => Ok (hfn i goal)) NS start goal SN NE CL HT limit _ eq_refl)
    as (f0 & ex & FIN & RUN).
  destruct (final_result L Q _ _ _ _ _ SN NE CL HT NP ex FIN)
    as [(path & c & ws & E & R & ND & LE & OC & OT & ex' & q & n & q' & HJ & PO & IN & EG & QC)|(E & NR)].
  2:{ elim (NR rp rws). apply (gen_route (ok:=ok) gen valid dist start NS); auto. }
  assert (OPT : forall path ws, route (step (gen_children gen valid dist) NS) start goal path ws -> cle c (total ws)).
  { rewrite <- QC. eapply (goal_popped_optimal L Q QS _ _ NS start goal SN CL X QO); eauto.
    - intros u hv I [= <-]. auto.
    - intros u hv p w I [= <-] RT. apply (ADM u p w I). revert RT. apply route_mono.
      intros a b d H. apply gen_step_iff in H. apply H. }
  assert (c = total ws) as ->.
  { apply (ex_antisym _ _ X); auto. apply (OPT path ws R). }
  exists path, ws. split; [|split].
  - exists f0. intros fuel LEF. rewrite generic_astar_unfold by auto. rewrite RUN by auto. exact E.
  - apply (gen_route (ok:=ok) gen valid dist start NS); auto.
  - intros path' ws' R'. apply (OPT path' ws'). apply (gen_route (ok:=ok) gen valid dist start NS); auto.
Qed.
Print Assumptions C61_generic_astar_optimal.

Theorem C61_duplicate_limiting_irrelevant :
  forall (C : cost) (Q : pqueue (elem C)) (start goal : Z) (gen : Z -> list Z)
         (valid : Z -> Z -> bool) (dist hfn : Z -> Z -> C) (fuel : nat),
  pq_sane Q ->
  generic_astar Q fuel start goal gen valid dist hfn true = generic_astar Q fuel start goal gen valid dist hfn false.
Proof.
  intros C Q start goal gen valid dist hfn fuel QS. destruct (Z.eq_dec start goal) as [->|NE].
  - unfold generic_astar. rewrite Z.eqb_refl. reflexivity.
  - rewrite !generic_astar_unfold by auto. rewrite (search_limit Q QS _ _ start goal true). reflexivity.
Qed.
Print Assumptions C61_duplicate_limiting_irrelevant.

(** Ids are int64_t without restriction in the interface, but a negative id on the path is taken for the end of
    the path: the search 1 -> -5 -> 2 reports the path (2) without its start. *)
Theorem C61_negative_ids_refuted :
  exists (gen : Z -> list Z) (valid : Z -> Z -> bool) (dist hfn : Z -> Z -> ninf),
    (exists ws, route (gen_step gen valid dist) 1%Z 2%Z [1; -5; 2]%Z ws) /\
    exists c, returns (fun fuel => generic_astar (list_queue elem_before) fuel 1 2 gen valid dist hfn false) ([2]%Z, c).
Proof.
  exists (fun i => if (i =? 1)%Z then [-5]%Z else if (i =? -5)%Z then [2]%Z else []), (fun _ _ => true),
    (fun _ _ => Some 1%N : ninf), (fun _ _ => Some 0%N : ninf).
  split.
  - eexists. repeat (eapply route_cons; [repeat split; left; reflexivity|]). constructor.
  - exists (Some 2%N). exists 3. intros fuel LE. destruct fuel as [|[|[|fuel]]]; try lia. vm_compute. reflexivity.
Qed.
Print Assumptions C61_negative_ids_refuted.

(** ** Concrete cases *)
Lemma elem_queue_ok {C : cost} {ok : C -> Prop} : cost_laws C ok ->
  pq_sane (list_queue (@elem_before C)) /\ pq_ordered (list_queue (@elem_before C)) elem_before (fun x => ok (q_value x)).
Proof.
  intros L. split; [apply list_queue_sane|]. apply list_queue_ordered; unfold elem_before; intros.
  - apply (cl_irrefl _ _ L); auto.
  - apply (cl_trans _ _ L (q_value a) (q_value b) (q_value c)); auto.
  - apply (cl_negtrans _ _ L (q_value a) (q_value b) (q_value c)); auto.
Qed.

(** A graph on which the heuristic (admissible, not consistent) makes the search expand node 2 twice: node
    values are the heuristic estimates. *)
Definition astar_graph : graph N ninf :=
  run_ops (None : ninf) [] [AddValue 5%N; AddValue 4%N; AddValue 0%N; AddValue 0%N;
    AddEdge 0 1 (Some 1%N : ninf); AddEdge 1 2 (Some 1%N : ninf); AddEdge 0 2 (Some 3%N : ninf);
    AddEdge 2 3 (Some 3%N : ninf); AddEdge 0 3 (Some 9%N : ninf)].
Definition astar_h (a b : N) : ninf := Some a.

Example C14_C15_example :
  edges_in_range astar_graph /\ costs_ok astar_graph (fun _ => true) (@e_weight ninf) (fun _ => True) /\
  (exists path ws, route (gstep astar_graph (fun _ => true) (@e_weight ninf)) 0%Z 3%Z path ws) /\
  lazy_astar (list_queue elem_before) 20 astar_graph 0 3 (fun _ => true) (@e_weight ninf) astar_h true
    = Ok ([0; 1; 2; 3]%Z, Some 5%N).
Proof.
  split; [|split; [|split]].
  - intros i n e H I. assert (HN : has_node astar_graph (Z.of_nat i) n) by (split; [lia|rewrite Nat2Z.id; auto]).
    apply (proj1 (C08_linkage_invariant N ninf None _) (Z.of_nat i) n e HN I).
  - intros i n e H I. exact (fun _ => Logic.I).
  - exists [0; 3]%Z, ([Some 9%N] : list ninf).
    apply (route_cons (gstep astar_graph (fun _ => true) (@e_weight ninf)) 0%Z 3%Z 3%Z (Some 9%N : ninf) [3]%Z []); [|constructor].
    eexists _, (mkEdge 0 3 (Some 9%N : ninf) UNKNOWN). split; [split; [lia|reflexivity]|]. repeat split. cbn. auto.
  - vm_compute. reflexivity.
Qed.

(** The heuristic of the example never overestimates. *)
Example C15_example_admissible :
  forall i n path ws, has_node astar_graph i n -> route (gstep astar_graph (fun _ => true) (@e_weight ninf)) i 3%Z path ws ->
  cltb (total ws) (astar_h (n_value n) 0%N) = false.
Proof.
  assert (ST : forall u x w, gstep astar_graph (fun _ => true) (@e_weight ninf) u x w ->
            In (u, x, w) [(0, 1, Some 1%N); (0, 2, Some 3%N); (0, 3, Some 9%N); (1, 2, Some 1%N); (2, 3, Some 3%N)]%Z).
  { intros u x w (n & e & [H1 H2] & I & _ & <- & <-). assert (Z.to_nat u < length astar_graph) by (apply nth_error_Some; congruence).
    change (length astar_graph) with 4 in H. assert (U : u = Z.of_nat (Z.to_nat u)) by lia. rewrite U. clear U H1.
    destruct (Z.to_nat u) as [|[|[|[|k]]]]; [| | | |lia]; injection H2 as <-; cbn in I;
      repeat (destruct I as [<-|I]; [cbn; auto 10|]); destruct I. }
  assert (ADD : forall ws a, fold_left cadd ws (a : ninf) = cadd a (total ws)).
  { assert (forall ws a, fold_left cadd ws (a : ninf) = cadd a (total ws)) as Y.
    { unfold total. induction ws as [|w ws IH]; intros a; cbn [fold_left].
      - symmetry. apply (ex_zero_r _ _ ninf_exact). exact I.
      - rewrite IH, (IH (cadd czero w)). rewrite (ex_zero_l _ _ ninf_exact) by exact I. apply (ex_assoc _ _ ninf_exact); exact I. }
    exact Y. }
  assert (G : forall i j path ws, route (gstep astar_graph (fun _ => true) (@e_weight ninf)) i j path ws -> j = 3%Z ->
            cltb (total ws) (match i with 0%Z => Some 5%N | 1%Z => Some 4%N | 2%Z => Some 3%N | _ => Some 0%N end : ninf) = false).
  { intros i j path ws R E. induction R as [u|u x v w p ws S0 R IH].
    - subst u. reflexivity.
    - specialize (IH E). apply ST in S0. unfold total. cbn [fold_left]. rewrite ADD, (ex_zero_l _ _ ninf_exact) by exact I.
      assert (NL : forall a b : N, cltb (Some a : ninf) (Some b : ninf) = false <-> (b <= a)%N) by (intros; apply N.ltb_ge).
      revert IH. generalize (total ws). intros t IH. destruct S0 as [S0|[S0|[S0|[S0|[S0|[]]]]]]; injection S0 as <- <- <-;
      (destruct t as [t|]; [|reflexivity]); apply NL in IH; apply NL; lia. }
  intros i n path ws [H1 H2] R. pose proof (G _ _ _ _ R eq_refl) as X.
  assert (Z.to_nat i < length astar_graph) by (apply nth_error_Some; congruence).
  change (length astar_graph) with 4 in H. assert (U : i = Z.of_nat (Z.to_nat i)) by lia. rewrite U in X. clear U H1 R.
  destruct (Z.to_nat i) as [|[|[|[|k]]]]; [| | | |lia]; injection H2 as <-; try exact X.
  destruct (total ws) as [t|]; [|reflexivity]. apply N.ltb_ge. apply N.le_0_l.
Qed.

Example C61_example :
  finite_space (fun _ => True) (fun i => if (i <? 9)%Z then [i + 1; i + 2]%Z else []) (fun _ j => negb (j =? 4)%Z)
    (fun _ _ => Some 1%N : ninf) 0 [0; 1; 2; 3; 4; 5; 6; 7; 8; 9; 10]%Z /\
  generic_astar (list_queue elem_before) 100 0 6 (fun i => if (i <? 9)%Z then [i + 1; i + 2]%Z else [])
    (fun _ j => negb (j =? 4)%Z) (fun _ _ => Some 1%N : ninf) (fun _ _ => Some 0%N) false
    = Ok ([0; 1; 3; 5; 6]%Z, Some 4%N).
Proof.
  split; [|vm_compute; reflexivity]. split; [left; auto|]. intros u I.
  assert (U : (0 <= u <= 10)%Z) by (cbn in I; lia). split; [lia|]. intros x w (J & _). split; auto.
  destruct (Z.ltb_spec u 9); [|destruct J]. cbn in J. cbn. lia.
Qed.
