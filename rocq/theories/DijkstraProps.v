(** Properties C12 and C13: Dijkstra's algorithm. *)
From Verif Require Import Base Cost CostFloat GraphModel GraphSpec DijkstraModel DijkstraSpec DijkstraProofs GraphProps.
From Flocq Require Import IEEE754.Bits.

(** What a distance table must be: each entry is the cost of some walk to the start, or infinity, and no walk
    costs less. *)
Definition shortest {V} {C : cost} (g : graph V C) (start : Z) (dist : list C) : Prop :=
  length dist = length g /\
  forall v d, is_index g v -> nth_error dist (Z.to_nat v) = Some d ->
    (walk g start v d \/ d = cinf) /\ (forall c, walk g start v c -> cltb c d = false).

(** ** C12: for every lawful cost arithmetic, every queue that delivers a cheapest entry (whatever it does with
    ties), every consistently linked graph with lawful weights and every start node. *)
Theorem C12_dijkstra_shortest :
  forall (V : Type) (C : cost) (ok : C -> Prop) (Q : pqueue (Z * C)) (g : graph V C) (start : Z),
  cost_laws C ok ->
  pq_sane Q -> pq_ordered Q entry_before (fun x => ok (snd x)) ->
  well_linked g -> weights_ok g ok -> is_index g start ->
  exists g' prev dist, dijkstra Q g start = Ok (g', (prev, dist)) /\ shortest g start dist.
Proof.
  intros V C ok Q g start L QS QO WL WO S.
  destruct (dijkstra_correct L Q g start QS QO WL WO S) as (g' & prev & dist & E & _ & LP & LD & _ & H).
  exists g', prev, dist. split; [exact E|]. split; [exact LD|]. intros v d Hv Dv.
  destruct (nth_error prev (Z.to_nat v)) as [p|] eqn:P.
  - destruct (H v d p Hv Dv P) as (_ & [[X _]|(k & _ & X)] & _ & Y); split; auto.
    left. apply (chain_walk g prev start v k d X).
  - apply nth_error_None in P. assert (Z.to_nat v < length dist) by (apply nth_error_Some; congruence). lia.
Qed.
Print Assumptions C12_dijkstra_shortest.

(** Exact arithmetic (natural numbers with infinity). *)
Theorem C12_dijkstra_shortest_exact :
  forall (V : Type) (Q : pqueue (Z * ninf)) (g : graph V ninf) (start : Z),
  pq_sane Q -> pq_ordered Q entry_before (fun _ => True) -> well_linked g -> is_index g start ->
  exists g' prev dist, dijkstra Q g start = Ok (g', (prev, dist)) /\ shortest g start dist.
Proof.
  intros V Q g start QS QO WL S. apply (C12_dijkstra_shortest V ninf (fun _ => True)); auto.
  - apply ninf_laws. - intros ? ? ? ? ?. exact I.
Qed.
Print Assumptions C12_dijkstra_shortest_exact.

(** IEEE double precision with round-to-nearest, as the code computes; weights may be any non-negative double,
    including subnormals and infinity. *)
Theorem C12_dijkstra_shortest_double :
  forall (V : Type) (Q : pqueue (Z * b64_cost)) (g : graph V b64_cost) (start : Z),
  pq_sane Q -> pq_ordered Q entry_before (fun x => b64_ok (snd x)) ->
  well_linked g -> weights_ok g b64_ok -> is_index g start ->
  exists g' prev dist, dijkstra Q g start = Ok (g', (prev, dist)) /\ shortest g start dist.
Proof. intros V Q g start. apply (C12_dijkstra_shortest V b64_cost b64_ok Q g start b64_laws). Qed.
Print Assumptions C12_dijkstra_shortest_double.

(** A start index outside the graph is reported, whatever the graph. *)
Theorem C12_bad_start_throws :
  forall (V : Type) (C : cost) (Q : pqueue (Z * C)) (g : graph V C) (start : Z),
  ~ is_index g start -> dijkstra Q g start = Throw InvalidArgument.
Proof.
  intros V C Q g start H. unfold dijkstra, gsize. unfold is_index in H.
  destruct (Z.ltb_spec start 0); [reflexivity|].
  destruct (Z.leb_spec (Z.of_nat (length g)) start); [reflexivity|]. exfalso. apply H. lia.
Qed.
Print Assumptions C12_bad_start_throws.

(** ** C13 *)
Theorem C13_back_pointers :
  forall (V : Type) (C : cost) (ok : C -> Prop) (Q : pqueue (Z * C)) (g : graph V C) (start : Z),
  cost_laws C ok ->
  pq_sane Q -> pq_ordered Q entry_before (fun x => ok (snd x)) ->
  well_linked g -> weights_ok g ok -> is_index g start ->
  exists g' prev dist, dijkstra Q g start = Ok (g', (prev, dist)) /\
    length prev = length g /\ length dist = length g /\
    (* the start *)
    nth_error prev (Z.to_nat start) = Some start /\ nth_error dist (Z.to_nat start) = Some czero /\
    (* every other node: a finite distance and a chain of edges adding up to it exactly, in fewer steps than
       there are nodes; or infinity and -1 *)
    (forall v d p, is_index g v -> nth_error dist (Z.to_nat v) = Some d -> nth_error prev (Z.to_nat v) = Some p ->
       (cltb d cinf = true /\ exists k, k < length g /\ chain g prev start v k d) \/ (d = cinf /\ p = (-1)%Z)) /\
    (* nodes without a walk to the start report infinity and -1 *)
    (forall v, is_index g v -> (forall c, ~ walk g start v c) ->
       nth_error dist (Z.to_nat v) = Some cinf /\ nth_error prev (Z.to_nat v) = Some (-1)%Z) /\
    (* the returned graph is the given one with the distances written into its nodes *)
    length g' = length g /\
    (forall i n, nth_error g i = Some n -> exists d, nth_error dist i = Some d /\
       nth_error g' i = Some (mkNode (n_value n) d (n_in n) (n_out n))).
Proof.
  intros V C ok Q g start L QS QO WL WO S.
  destruct (dijkstra_correct L Q g start QS QO WL WO S) as (g' & prev & dist & E & LG & LP & LD & NG & H).
  assert (TOT : forall v, is_index g v -> exists d p, nth_error dist (Z.to_nat v) = Some d /\ nth_error prev (Z.to_nat v) = Some p).
  { intros v [V1 V2]. destruct (lt_some dist (Z.to_nat v)) as [d Hd]; [lia|]. destruct (lt_some prev (Z.to_nat v)) as [p Hp]; [lia|]. eauto. }
  assert (ST : nth_error prev (Z.to_nat start) = Some start /\ nth_error dist (Z.to_nat start) = Some czero).
  { destruct (TOT start S) as (d & p & Hd & Hp). destruct (proj1 (H start d p S Hd Hp) eq_refl) as [-> ->]. auto. }
  assert (CH : forall v d p, is_index g v -> nth_error dist (Z.to_nat v) = Some d -> nth_error prev (Z.to_nat v) = Some p ->
       (cltb d cinf = true /\ exists k, k < length g /\ chain g prev start v k d) \/ (d = cinf /\ p = (-1)%Z)).
  { intros v d p Hv Hd Hp. destruct (H v d p Hv Hd Hp) as (_ & A & B & _).
    destruct B as [B|B]; auto. destruct A as [A|A]; auto. }
  exists g', prev, dist. repeat match goal with |- _ /\ _ => split end; auto; try apply ST.
  intros v Hv NW. destruct (TOT v Hv) as (d & p & Hd & Hp).
  destruct (CH v d p Hv Hd Hp) as [(_ & k & _ & X)|[-> ->]]; auto.
  elim (NW d). apply (chain_walk g prev start v k d X).
Qed.
Print Assumptions C13_back_pointers.

(** ** Concrete cases *)

(** The reference queue satisfies the queue hypotheses for every lawful cost. *)
Lemma list_queue_ok {C : cost} {ok : C -> Prop} : cost_laws C ok ->
  pq_sane (list_queue (@entry_before C)) /\ pq_ordered (list_queue (@entry_before C)) entry_before (fun x => ok (snd x)).
Proof.
  intros L. split; [apply list_queue_sane|]. apply list_queue_ordered; unfold entry_before; intros.
  - apply (cl_irrefl _ _ L); auto.
  - apply (cl_trans _ _ L (snd a) (snd b) (snd c)); auto.
  - apply (cl_negtrans _ _ L (snd a) (snd b) (snd c)); auto.
Qed.

(** Four nodes, a cheaper detour, a node that cannot reach the start. *)
Definition ex_graph : graph nat ninf :=
  run_ops (None : ninf) [] [AddValue 0; AddValue 1; AddValue 2; AddValue 3; AddEdges 0 1 (Some 10%N : ninf);
    AddEdges 0 2 (Some 3%N : ninf); AddEdges 2 1 (Some 4%N : ninf); AddEdge 0 3 (Some 1%N : ninf)].

Example C12_C13_example_hypotheses :
  cost_laws ninf (fun _ => True) /\ pq_sane (list_queue (@entry_before ninf)) /\
  pq_ordered (list_queue (@entry_before ninf)) entry_before (fun _ => True) /\
  well_linked ex_graph /\ weights_ok ex_graph (fun _ => True) /\ is_index ex_graph 0.
Proof.
  split; [apply ninf_laws|]. split; [apply (list_queue_ok ninf_laws)|]. split; [apply (list_queue_ok ninf_laws)|].
  split; [apply C08_linkage_invariant|]. split; [intros ? ? ? ? ?; exact I|]. vm_compute. split; congruence.
Qed.

Example C12_example_run :
  match dijkstra (list_queue (@entry_before ninf)) ex_graph 0 with
  | Ok (g, (prev, dist)) => prev = [0; 2; 0; -1]%Z /\ dist = [Some 0; Some 7; Some 3; None]%N /\ map n_dist g = dist
  | _ => False
  end.
Proof. vm_compute. auto. Qed.

(** Doubles: the path through node 1 costs 0.1 + 0.2 = 0.30000000000000004 (0x3FD3333333333334), which is not
    less than the direct edge of weight 0.3 (0x3FD3333333333333). *)
Definition ex_graph_double : graph nat b64_cost :=
  run_ops (b64_inf : b64_cost) [] [AddValue 0; AddValue 1; AddValue 2;
    AddEdges 0 1 (d64 0x3FB999999999999A : b64_cost); AddEdges 1 2 (d64 0x3FC999999999999A : b64_cost);
    AddEdge 2 0 (d64 0x3FD3333333333333 : b64_cost)].

Definition b64_okb (x : binary64) : bool :=
  match x with
  | Binary.B754_zero _ _ _ => true
  | Binary.B754_infinity _ _ s => negb s
  | Binary.B754_nan _ _ _ _ _ => false
  | Binary.B754_finite _ _ s _ _ _ => negb s
  end.
Lemma b64_okb_ok x : b64_okb x = true -> b64_ok x.
Proof. destruct x as [s|s|s pl Hp|s m ex Hb]; cbn; try destruct s; auto; discriminate. Qed.
Lemma weights_okb (g : graph nat b64_cost) :
  forallb (fun n => forallb (fun e => b64_okb (e_weight e)) (n_out n ++ n_in n)) g = true -> weights_ok g b64_ok.
Proof.
  intros H i n e [_ Hn] IE. apply nth_error_In in Hn. rewrite forallb_forall in H. specialize (H n Hn).
  rewrite forallb_forall in H. specialize (H e). rewrite in_app_iff in H. specialize (H IE).
  exact (b64_okb_ok _ H).
Qed.

Example C12_example_double :
  (well_linked ex_graph_double /\ weights_ok ex_graph_double b64_ok /\ is_index ex_graph_double 0) /\
  match dijkstra (list_queue (@entry_before b64_cost)) ex_graph_double 0 with
  | Ok (_, (prev, dist)) =>
      prev = [0; 0; 0]%Z /\ map bits_of_b64 dist = [0; 0x3FB999999999999A; 0x3FD3333333333333]%Z /\
      bits_of_b64 (@cadd b64_cost (d64 0x3FB999999999999A) (d64 0x3FC999999999999A)) = 0x3FD3333333333334%Z
  | _ => False
  end.
Proof.
  split.
  - split; [apply C08_linkage_invariant|]. split; [|vm_compute; split; congruence].
    apply weights_okb. vm_compute. reflexivity.
  - vm_compute. auto.
Qed.
