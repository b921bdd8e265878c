(** C40, C41, C68-C70: RRT trees, the planners and the codec of planner states. *)
From Verif Require Import Base SerModel SerSpec SerProofs RrtModel RrtProofs.

(** ** C40 *)
(** The trees the check should accept. *)
Definition linked_tree {V} (nodes : list (pstate V)) : Prop :=
  forall i s, node_at nodes i s -> p_init s = true /\
    (p_parent s = (-1)%Z \/ (p_parent s <> i /\ exists ps, node_at nodes (p_parent s) ps /\ In i (p_children ps))) /\
    (forall c, In c (p_children s) -> c <> i /\ exists cs, node_at nodes c cs /\ p_parent cs = i).
Definition rooted_tree {V} (nodes : list (pstate V)) : Prop := forall i, in_tree nodes i -> exists p, ancestry nodes i p.

(** What acceptance does guarantee: like [linked_tree], but a parent index may also lie past the end. *)
Theorem C40_check_partial : (* missing: parents past the end and cycles are accepted, see the refutations *)
  forall V (nodes : list (pstate V)), check_tree_linkage nodes = true <->
  forall i s, node_at nodes i s -> p_init s = true /\
    (p_parent s = (-1)%Z \/ (tsize nodes <= p_parent s)%Z \/ (p_parent s <> i /\ exists ps, node_at nodes (p_parent s) ps /\ In i (p_children ps))) /\
    (forall c, In c (p_children s) -> c <> 0%Z /\ c <> i /\ exists cs, node_at nodes c cs /\ p_parent cs = i).
Proof.
  intros V nodes. rewrite check_iff. split.
  - intros H i s N. specialize (H i s N). apply check_node_iff in H. destruct H as (A & B & D). split; auto. split.
    + destruct B as [B|[B|(B1 & B2 & ps & B3 & B4 & B5)]]; auto. right. right. eauto.
    + intros c I. destruct (D c I) as (R & NE & cs & CN & _ & CP). split; [lia|]. split; [auto|]. eauto.
  - intros H i s N. apply check_node_iff. destruct (H i s N) as (A & B & D). split; auto. split.
    + destruct B as [B|[B|(B1 & ps & B2 & B3)]]; unfold parent_ok; auto. right. right. split; [apply in_tree_node; eauto|]. split; auto.
      exists ps. split; auto. split; auto. apply (H _ _ B2).
    + intros c I. destruct (D c I) as (NZ & NE & cs & CN & CP). assert (X : in_tree nodes c) by (apply in_tree_node; eauto). unfold in_tree in X.
      split; [lia|]. split; auto. exists cs. split; auto. split; auto. apply (H _ _ CN).
Qed.
Print Assumptions C40_check_partial.
(** A linked tree in which node 0 is nobody's child is accepted. *)
Theorem C40_accepts_linked : forall V (nodes : list (pstate V)), linked_tree nodes ->
  (forall s, node_at nodes 0%Z s -> p_parent s = (-1)%Z) -> check_tree_linkage nodes = true.
Proof.
  intros V nodes H R. apply C40_check_partial. intros i s N. destruct (H i s N) as (A & B & D). split; auto. split; [tauto|].
  intros c I. destruct (D c I) as (NE & cs & CN & CP). split; eauto. intros ->. specialize (R cs CN). destruct N. lia.
Qed.
Print Assumptions C40_accepts_linked.
Example C40_example : let t := [mkP 10%N [1; 2]%Z (-1) true; mkP 11%N [] 0 true; mkP 12%N [3]%Z 0 true; mkP 13%N [] 2 true] in
  linked_tree t /\ rooted_tree t /\ check_tree_linkage t = true.
Proof.
  intros t. assert (G : grown_ok t).
  { intros i s N. assert (X : in_tree t i) by (apply in_tree_node; eauto). unfold in_tree, tsize in X. cbn [length t] in X. destruct N as [_ N].
    assert (E : (i = 0 \/ i = 1 \/ i = 2 \/ i = 3)%Z) by lia.
    assert (AT : forall j q, (0 <= j)%Z -> nth_error t (Z.to_nat j) = Some q -> node_at t j q) by (split; auto).
    destruct E as [ -> | [ -> | [ -> | -> ] ] ]; cbn in N; injection N as <-; cbn; (split; [auto|]); (split; [lia|]); split; try congruence.
    - intros c [<-|[<-|[]]]; eexists; (split; [apply AT; [lia|reflexivity]|reflexivity]).
    - intros _. eexists. split; [apply AT; [lia|reflexivity]|cbn; auto].
    - intros c [].
    - intros _. eexists. split; [apply AT; [lia|reflexivity]|cbn; auto].
    - intros c [<-|[]]; eexists; (split; [apply AT; [lia|reflexivity]|reflexivity]).
    - intros _. eexists. split; [apply AT; [lia|reflexivity]|cbn; auto].
    - intros c []. }
  split; [|split; [|reflexivity]].
  - intros i s N. destruct (G i s N) as (A & B & D & E). split; auto. split.
    + destruct (Z.eq_dec (p_parent s) (-1)); auto. right. split; [lia|auto].
    + intros c I. destruct (E c I) as (cs & CN & CP). split; eauto. destruct (G c cs CN) as (_ & Q & _). lia.
  - intros i Hi. destruct (grown_ancestry t G i Hi) as (p & A & _). eauto.
Qed.

(** C40 is false: a parent index past the end is accepted and makes extraction throw. *)
Theorem C40_parent_past_end_refuted : exists nodes : list (pstate N), check_tree_linkage nodes = true /\
  forall fuel, extract_solution_path (S fuel) nodes 1 = Throw OutOfRange.
Proof. exists [root_state 0%N; mkP 1%N [] 7 true]. split; [reflexivity|]. intros fuel. reflexivity. Qed.
Print Assumptions C40_parent_past_end_refuted.
(** C40 is false: two nodes that are each other's parent are accepted and make extraction run for ever. *)
Theorem C40_cycle_refuted : exists nodes : list (pstate N), check_tree_linkage nodes = true /\
  forall fuel, extract_solution_path fuel nodes 1 = NoFuel.
Proof.
  exists [root_state 0%N; mkP 1%N [2]%Z 2 true; mkP 2%N [1]%Z 1 true]. split; [reflexivity|].
  assert (X : forall fuel acc, follow_parents fuel [root_state 0%N; mkP 1%N [2]%Z 2 true; mkP 2%N [1]%Z 1 true] 1 acc = NoFuel /\
                     follow_parents fuel [root_state 0%N; mkP 1%N [2]%Z 2 true; mkP 2%N [1]%Z 1 true] 2 acc = NoFuel).
  { induction fuel as [|fuel IH]; intros acc; [split; reflexivity|]. cbn. split; apply IH. }
  intros fuel. match goal with |- extract_solution_path _ ?t _ = _ => change (obind (follow_parents fuel t 2 [1%N]) (fun path => Ok (rev path)) = NoFuel) end.
  rewrite (proj2 (X fuel _)). reflexivity.
Qed.
Print Assumptions C40_cycle_refuted.
(** Conversely a linked, rooted tree whose root is not the first node is rejected. *)
Theorem C40_root_elsewhere_refuted : exists nodes : list (pstate N), linked_tree nodes /\ rooted_tree nodes /\ check_tree_linkage nodes = false.
Proof.
  set (t := [mkP 1%N [] 1 true; mkP 0%N [0]%Z (-1) true]). exists t.
  assert (AT : forall j q, (0 <= j)%Z -> nth_error t (Z.to_nat j) = Some q -> node_at t j q) by (split; auto).
  split; [|split; [|reflexivity]].
  - intros i s N. assert (X : in_tree t i) by (apply in_tree_node; eauto). unfold in_tree, tsize in X. cbn [length t] in X. destruct N as [_ N].
    assert (E : (i = 0 \/ i = 1)%Z) by lia. destruct E as [ -> | -> ]; cbn in N; injection N as <-; cbn; (split; [auto|]).
    + split; [right; split; [lia|]; eexists; split; [apply AT; [lia|reflexivity]|cbn; auto]|intros c []].
    + split; [auto|]. intros c [<-|[]]. split; [lia|]. eexists. split; [apply AT; [lia|reflexivity]|reflexivity].
  - intros i Hi. unfold in_tree, tsize in Hi. cbn [length t] in Hi. assert (E : (i = 0 \/ i = 1)%Z) by lia.
    assert (R : ancestry t 1 [0%N]) by (apply (an_root t 1 (mkP 0%N [0]%Z (-1) true)); auto; apply AT; [lia|reflexivity]).
    destruct E as [ -> | -> ]; [|eauto]. exists ([0%N] ++ [1%N]). apply (an_child t 0 (mkP 1%N [] 1 true)); auto. apply AT; [lia|reflexivity].
Qed.
Print Assumptions C40_root_elsewhere_refuted.

(** AddChildIndex and RemoveChildIndex: afterwards the child is listed (once, if it was not before) or not at all, and nothing else changes. *)
Theorem C40_children : forall V (s : pstate V) c,
  (let s' := add_child s c in p_value s' = p_value s /\ p_parent s' = p_parent s /\ p_init s' = p_init s /\
     (In c (p_children s) -> p_children s' = p_children s) /\ (~ In c (p_children s) -> p_children s' = p_children s ++ [c])) /\
  (let s' := remove_child s c in p_value s' = p_value s /\ p_parent s' = p_parent s /\ p_init s' = p_init s /\ ~ In c (p_children s') /\
     (~ In c (p_children s) -> p_children s' = p_children s) /\
     (forall l1 l2, p_children s = l1 ++ c :: l2 -> NoDup (p_children s) -> p_children s' = l1 ++ l2)).
Proof.
  assert (KEEP : forall c l, ~ In c l -> filter (fun x => negb (x =? c)%Z) l = l).
  { induction l as [|x l IH]; intros H; [reflexivity|]. cbn [filter]. destruct (Z.eqb_spec x c) as [->|N]; [exfalso; apply H; left; reflexivity|]. cbn [negb]. rewrite IH; [reflexivity|]. intros X. apply H. right. exact X. }
  intros V s c. split; cbv zeta.
  - unfold add_child. destruct (existsb (Z.eqb c) (p_children s)) eqn:E.
    + repeat (split; [reflexivity|]). intros N. exfalso. apply N. apply existsb_exists in E. destruct E as (x & I & Q). apply Z.eqb_eq in Q. subst. exact I.
    + cbn. repeat (split; [reflexivity|]). split; [|reflexivity]. intros I. exfalso. assert (existsb (Z.eqb c) (p_children s) = true) by (apply existsb_exists; exists c; split; [exact I|apply Z.eqb_refl]). congruence.
  - unfold remove_child. cbn. repeat (split; [reflexivity|]). split; [|split].
    + intros I. apply filter_In in I. destruct I as [_ I]. rewrite Z.eqb_refl in I. discriminate.
    + apply KEEP.
    + intros l1 l2 E N. rewrite E in *. rewrite filter_app. cbn [filter]. rewrite Z.eqb_refl. cbn [negb]. apply NoDup_remove_2 in N. rewrite !KEEP; [reflexivity| |]; intros X; apply N, in_or_app; auto.
Qed.
Print Assumptions C40_children.
Example children_case : p_children (remove_child (mkP 5%N [1; 2; 3]%Z 0%Z true) 2%Z) = [1; 3]%Z /\ p_children (add_child (mkP 5%N [1]%Z 0%Z true) 4%Z) = [1; 4]%Z.
Proof. split; reflexivity. Qed.

(** ** C41 *)
(** Whenever node [i] has a finite line of ancestors, extraction returns it, root first; and it returns nothing else. *)
Theorem C41_extract : forall V (nodes : list (pstate V)) i p, ancestry nodes i p ->
  forall fuel, length p <= fuel -> extract_solution_path fuel nodes i = Ok p.
Proof. intros V nodes i p H fuel. apply extract_ancestry. auto. Qed.
Print Assumptions C41_extract.
Theorem C41_extract_only : forall V (nodes : list (pstate V)) fuel i p, check_tree_linkage nodes = true ->
  extract_solution_path fuel nodes i = Ok p -> ancestry nodes i p.
Proof.
  intros V nodes fuel i p C. apply extract_ok. intros j s N. apply check_iff with (1 := C) in N. apply check_node_iff in N.
  destruct N as (_ & [E|[E|(E & _)]] & _); unfold tsize, in_tree in *; lia.
Qed.
Print Assumptions C41_extract_only.
(** [ancestry] is a path from a root to the node in which consecutive values belong to a parent and its child. *)
Theorem C41_ancestry_is_path : forall V (nodes : list (pstate V)) i p, ancestry nodes i p ->
  exists is, length is = length p /\ last is 0%Z = i /\
    (forall k j v, nth_error is k = Some j -> nth_error p k = Some v -> exists s, node_at nodes j s /\ p_value s = v /\
       match k with 0 => p_parent s = (-1)%Z | S k' => nth_error is k' = Some (p_parent s) end).
Proof.
  intros V nodes i p H. induction H as [i s N E|i s p N H (is & L & LA & IH)].
  - exists [i]. split; auto. split; auto. intros [|[|k]] j v A B; cbn in A, B; try discriminate. injection A as <-. injection B as <-. eauto.
  - exists (is ++ [i]). rewrite !app_length, last_last. cbn [length]. split; [lia|]. split; auto. intros k j v A B.
    destruct (Nat.lt_ge_cases k (length is)) as [K|K].
    + rewrite nth_error_app1 in A, B by lia. destruct (IH k j v A B) as (t & T1 & T2 & T3). exists t. split; auto. split; auto.
      destruct k; auto. rewrite nth_error_app1 by lia. auto.
    + rewrite nth_error_app2 in A, B by lia. destruct (k - length is) as [|[|d]] eqn:D; cbn in A; try discriminate. injection A as <-.
      replace (k - length p) with 0 in B by lia. cbn in B. injection B as <-. exists s. split; auto. split; auto.
      destruct k as [|k]; [destruct is; [cbn in L; destruct p; [|discriminate]|cbn in *; lia]|].
      * inversion H. destruct p; discriminate.
      * rewrite nth_error_app1 by lia. rewrite <- LA. clear -K D. assert (K' : length is = S k) by lia.
        destruct (exists_last (l := is)) as (is' & x & ->); [intros ->; discriminate|]. rewrite last_last. rewrite app_length in K'. cbn in K'.
        rewrite nth_error_app2 by lia. replace (k - length is') with 0 by lia. reflexivity.
Qed.
Print Assumptions C41_ancestry_is_path.
Example C41_example :
  extract_solution_path 5 [mkP 10%N [1; 2]%Z (-1) true; mkP 11%N [] 0 true; mkP 12%N [3]%Z 0 true; mkP 13%N [] 2 true] 3 = Ok [10; 12; 13]%N.
Proof. reflexivity. Qed.

(** ** C68: the single-tree planner *)
(** [v] extends the tree from [u] in one of the rounds: forward propagation from the nearest neighbour's value [w] and
    some target gave [v], with [u] = [w] or [u] an earlier state of the same propagation. *)
Definition extends {V} (rounds : list (round V)) (u v : V) : Prop :=
  exists r w t k rel, In r rounds /\ nth_error (r_prop r w t) k = Some (v, rel) /\
    (((rel < 0)%Z /\ u = w) \/ ((0 <= rel < Z.of_nat k)%Z /\ exists x, nth_error (r_prop r w t) (Z.to_nat rel) = Some (u, x))).
(** The user functions keep to their contracts: the nearest neighbour is an index of the tree (or negative), and a
    propagated state names only earlier ones as parent. *)
Definition good_round {V} (r : round V) : Prop :=
  (forall nodes t, nodes <> [] -> (r_nearest r nodes t < tsize nodes)%Z) /\
  (forall u t k v rel, nth_error (r_prop r u t) k = Some (v, rel) -> (rel < Z.of_nat k)%Z).

Section Single.
Context {V : Type}.
Variable goal_reached : V -> bool.
Notation tree := (list (pstate V)).
Implicit Types nodes : tree.

(** The indices whose value reaches the goal. *)
Definition goal_nodes nodes : list Z :=
  map Z.of_nat (filter (fun i => match nth_error nodes i with Some s => goal_reached (p_value s) | None => false end) (seq 0 (length nodes))).
(** [nodes'] keeps the nodes of [nodes]; each further node extends the tree. *)
Definition grown_from (rounds : list (round V)) nodes nodes' : Prop :=
  (forall i s, node_at nodes i s -> exists s', node_at nodes' i s' /\ p_value s' = p_value s /\ p_parent s' = p_parent s) /\
  (forall i s', node_at nodes' i s' -> in_tree nodes i \/ exists ps, node_at nodes' (p_parent s') ps /\ extends rounds (p_value ps) (p_value s')).

Lemma node_values nodes i s : node_at nodes i s -> nth_error (values nodes) (Z.to_nat i) = Some (p_value s) /\ nth_error (parents nodes) (Z.to_nat i) = Some (p_parent s).
Proof. intros [_ N]. unfold values, parents. rewrite !nth_error_map, N. auto. Qed.
Lemma values_node nodes i v p : (0 <= i)%Z -> nth_error (values nodes) (Z.to_nat i) = Some v -> nth_error (parents nodes) (Z.to_nat i) = Some p ->
  exists s, node_at nodes i s /\ p_value s = v /\ p_parent s = p.
Proof.
  unfold values, parents, node_at. rewrite !nth_error_map. destruct (nth_error nodes (Z.to_nat i)) as [s|]; cbn; intros P A B; [|discriminate].
  injection A as <-. injection B as <-. eauto.
Qed.
Lemma size_values nodes : tsize nodes = Z.of_nat (length (values nodes)).
Proof. unfold values. rewrite map_length. reflexivity. Qed.

Lemma batch_grown rounds r w t nodes nodes' nearest prop : In r rounds -> prop = r_prop r w t ->
  nth_error (values nodes) (Z.to_nat nearest) = Some w -> (0 <= nearest < tsize nodes)%Z ->
  values nodes' = values nodes ++ map fst prop -> parents nodes' = parents nodes ++ map (fun p => parent_in (tsize nodes - Z.of_nat 0) nearest (snd p)) prop ->
  (forall k v rel, nth_error prop k = Some (v, rel) -> (rel < Z.of_nat (0 + k))%Z) ->
  grown_from rounds nodes nodes'.
Proof.
  intros Ir -> Hw Hn HV HP HR. rewrite Z.sub_0_r in HP.
  assert (LV : length (values nodes) = length nodes) by apply map_length. assert (LP : length (parents nodes) = length nodes) by apply map_length.
  assert (NV : forall i, i < length nodes -> nth_error (values nodes') i = nth_error (values nodes) i) by (intros; rewrite HV, nth_error_app1; auto; lia).
  assert (NP : forall i, i < length nodes -> nth_error (parents nodes') i = nth_error (parents nodes) i) by (intros; rewrite HP, nth_error_app1; auto; lia).
  assert (TOT : forall j, (0 <= j < tsize nodes')%Z -> exists ps, node_at nodes' j ps) by (intros; apply in_tree_node; auto).
  split.
  - intros i s N. destruct (node_values nodes i s N) as [A B]. assert (Z.to_nat i < length nodes) by (apply nth_error_Some; destruct N; congruence).
    rewrite <- NV in A by auto. rewrite <- NP in B by auto. destruct N as [N _]. destruct (values_node nodes' i _ _ N A B) as (s' & S1 & S2 & S3). eauto.
  - intros i s' N. destruct (Z.lt_ge_cases i (tsize nodes)) as [L|L]; [left; destruct N; unfold in_tree; lia|]. right.
    destruct (node_values nodes' i s' N) as [A B]. destruct N as [N _]. unfold tsize in L.
    rewrite HV, nth_error_app2, nth_error_map, LV in A by lia. rewrite HP, nth_error_app2, nth_error_map, LP in B by lia.
    set (k := Z.to_nat i - length nodes) in *. destruct (nth_error (r_prop r w t) k) as [[v rel]|] eqn:E; [|discriminate]. cbn in A, B. injection A as A. injection B as B.
    assert (SZ : tsize nodes' = (tsize nodes + Z.of_nat (length (r_prop r w t)))%Z) by (rewrite !size_values, HV, app_length, map_length; lia).
    specialize (HR k v rel E). cbn [plus] in HR. assert (Lk : k < length (r_prop r w t)) by (apply nth_error_Some; congruence).
    unfold parent_in in B. destruct (Z.leb_spec 0 rel) as [R|R].
    + destruct (TOT (p_parent s')) as (ps & PS); [unfold tsize in *; lia|]. exists ps. split; auto. destruct (node_values nodes' _ _ PS) as [X _].
      rewrite HV, nth_error_app2, nth_error_map, LV in X by (unfold tsize in *; lia).
      replace (Z.to_nat (p_parent s') - length nodes) with (Z.to_nat rel) in X by (unfold tsize in *; lia).
      destruct (nth_error (r_prop r w t) (Z.to_nat rel)) as [[v' x]|] eqn:E2; [|discriminate]. cbn in X. injection X as X.
      exists r, w, t, k, rel. split; auto. split; [congruence|]. right. split; [lia|]. exists x. rewrite E2. congruence.
    + destruct (TOT (p_parent s')) as (ps & PS); [unfold tsize in *; lia|]. exists ps. split; auto. destruct (node_values nodes' _ _ PS) as [X _].
      rewrite NV in X by (unfold tsize in *; lia). rewrite <- B, Hw in X. injection X as X.
      exists r, w, t, k, rel. split; auto. split; [congruence|]. left. split; auto.
Qed.
Lemma extends_incl (rounds rounds' : list (round V)) u v : (forall r, In r rounds -> In r rounds') -> extends rounds u v -> extends rounds' u v.
Proof. intros H (r & w & t & k & rel & I & X). exists r, w, t, k, rel. auto. Qed.
Lemma grown_from_refl rounds nodes : grown_from rounds nodes nodes.
Proof. split; [eauto|]. intros i s N. left. apply in_tree_node. eauto. Qed.
Lemma grown_from_trans rounds n1 n2 n3 : grown_from rounds n1 n2 -> grown_from rounds n2 n3 -> grown_from rounds n1 n3.
Proof.
  intros [A1 A2] [B1 B2]. split.
  - intros i s N. destruct (A1 i s N) as (s' & N' & X & Y). destruct (B1 i s' N') as (s'' & N'' & X' & Y'). exists s''. split; auto. split; congruence.
  - intros i s N. destruct (B2 i s N) as [I|]; auto. apply in_tree_node in I. destruct I as (s2 & N2). destruct (A2 i s2 N2) as [|(ps & PN & E)]; auto. right.
    destruct (B1 i s2 N2) as (s' & N' & X & Y). replace s' with s in * by (eapply node_at_fun; eauto).
    destruct (B1 _ _ PN) as (ps' & PN' & PX & _). exists ps'. rewrite Y, X, PX. auto.
Qed.

Definition goal_values (b : Z) (vs : list V) : list Z := map (fun p => fst p) (filter (fun p => goal_reached (snd p)) (combine (map (fun k => (b + Z.of_nat k)%Z) (seq 0 (length vs))) vs)).
Lemma goal_values_cons b v vs : goal_values b (v :: vs) = (if goal_reached v then [b] else []) ++ goal_values (b + 1) vs.
Proof.
  unfold goal_values. cbn [length seq map combine filter snd]. rewrite Z.add_0_r. rewrite <- seq_shift, map_map.
  rewrite (map_ext _ (fun k => (b + 1 + Z.of_nat k)%Z)) by lia. destruct (goal_reached v); reflexivity.
Qed.
Lemma visit_goal_fold vs : forall b acc, visit_all (visit_goal goal_reached) b vs acc = acc ++ goal_values b vs.
Proof.
  unfold visit_all. induction vs as [|v vs IH]; intros b acc; cbn [fold_left fst snd].
  - unfold goal_values. cbn. rewrite app_nil_r. reflexivity.
  - rewrite IH, goal_values_cons. unfold visit_goal. destruct (goal_reached v); rewrite ?app_nil_l, <- ?app_assoc; reflexivity.
Qed.
Lemma initial_goals_fold rest : forall i acc, initial_goals goal_reached i rest acc = acc ++ goal_values i (values rest).
Proof.
  induction rest as [|s rest IH]; intros i acc; cbn [initial_goals values map].
  - unfold goal_values. cbn. rewrite app_nil_r. reflexivity.
  - rewrite IH, goal_values_cons. unfold visit_goal. fold (values rest). destruct (goal_reached (p_value s)); rewrite ?app_nil_l, <- ?app_assoc; reflexivity.
Qed.
Lemma goal_values_app vs ws : forall b, goal_values b (vs ++ ws) = goal_values b vs ++ goal_values (b + Z.of_nat (length vs)) ws.
Proof.
  induction vs as [|v vs IH]; intros b; cbn [app length].
  - rewrite Z.add_0_r. reflexivity.
  - rewrite !goal_values_cons, IH, <- app_assoc. do 3 f_equal. lia.
Qed.
Lemma goal_nodes_values nodes : goal_nodes nodes = goal_values 0 (values nodes).
Proof.
  enough (X : forall b, map (fun k => (b + Z.of_nat k)%Z) (filter (fun i => match nth_error nodes i with Some s => goal_reached (p_value s) | None => false end) (seq 0 (length nodes))) = goal_values b (values nodes)).
  { rewrite <- X. unfold goal_nodes. apply map_ext. lia. }
  induction nodes as [|s nodes IH]; intros b; [reflexivity|]. cbn [values map length seq filter nth_error]. rewrite goal_values_cons. fold (values nodes). rewrite <- IH, <- seq_shift.
  assert (Y : forall l, map (fun k => (b + Z.of_nat k)%Z) (filter (fun i => match nth_error (s :: nodes) i with Some s => goal_reached (p_value s) | None => false end) (map S l)) =
    map (fun k => (b + 1 + Z.of_nat k)%Z) (filter (fun i => match nth_error nodes i with Some s => goal_reached (p_value s) | None => false end) l)).
  { induction l as [|x l IHl]; [reflexivity|]. cbn [map filter nth_error]. destruct (nth_error nodes x) as [q|]; [destruct (goal_reached (p_value q))|]; cbn [map]; rewrite IHl; auto. f_equal. lia. }
  destruct (goal_reached (p_value s)); cbn [map app]; rewrite Y; auto. f_equal. lia.
Qed.
Lemma goal_nodes_in nodes i : In i (goal_nodes nodes) <-> exists s, node_at nodes i s /\ goal_reached (p_value s) = true.
Proof.
  unfold goal_nodes. rewrite in_map_iff. split.
  - intros (k & <- & I). apply filter_In in I. destruct I as [_ I]. destruct (nth_error nodes k) as [s|] eqn:E; [|discriminate]. exists s. split; auto. split; [lia|rewrite Nat2Z.id; auto].
  - intros (s & [P N] & G). exists (Z.to_nat i). split; [lia|]. apply filter_In. rewrite N. split; auto. apply in_seq. split; [lia|]. apply nth_error_Some. congruence.
Qed.

Lemma plan_loop_spec single all rounds : forall nodes goals st, (forall r, In r rounds -> In r all) -> grown_ok nodes -> nodes <> [] -> goals = goal_nodes nodes ->
  match plan_loop goal_reached single rounds nodes goals st with
  | Ok (nodes', goals', st') => grown_ok nodes' /\ grown_from all nodes nodes' /\ goals' = goal_nodes nodes' /\
      (s_total st' = s_good st' + s_failed st' <-> s_total st = s_good st + s_failed st)%N
  | Throw e => (e = InvalidArgument \/ e = OutOfRange) /\ ~ (forall r, In r rounds -> good_round r)
  | _ => False
  end.
Proof.
  induction rounds as [|r rounds IH]; intros nodes goals st Hall W NE HG; cbn [plan_loop].
  - split; auto. split; [apply grown_from_refl|]. split; auto. tauto.
  - destruct (single && match goals with [] => false | _ => true end). { split; auto. split; [apply grown_from_refl|]. split; auto. tauto. }
    set (nearest := r_nearest r nodes (r_target r)). destruct (Z.ltb_spec nearest 0). { split; auto. split; [apply grown_from_refl|]. split; auto. tauto. }
    destruct (nth_error nodes (Z.to_nat nearest)) as [ns|] eqn:N.
    2:{ split; auto. intros G. destruct (G r ltac:(left; auto)) as [G1 _]. specialize (G1 nodes (r_target r) NE). fold nearest in G1. apply nth_error_None in N. unfold tsize in G1. lia. }
    assert (Hn : (0 <= nearest < tsize nodes)%Z). { apply in_tree_node. exists ns. split; auto. }
    destruct (r_prop r (p_value ns) (r_target r)) as [|p0 prop0] eqn:EP.
    + specialize (IH nodes goals (count_sample false st) ltac:(intros; apply Hall; right; auto) W NE HG). destruct plan_loop as [[[n' g'] s']| | | |]; auto.
      * destruct IH as (A & B & D & E). split; auto. split; auto. split; auto. rewrite E. unfold count_sample. cbn. lia.
      * destruct IH as [A B]. split; auto. intros G. apply B. intros; apply G; right; auto.
    + rewrite <- EP. set (prop := r_prop r (p_value ns) (r_target r)). fold prop in EP.
      assert (SP := add_states_spec (visit_goal goal_reached) nearest prop nodes 0 goals W Hn ltac:(lia)).
      destruct add_states as [[nodes1 goals1]|[]| | |]; try contradiction; cbn [obind].
      * destruct SP as (W1 & V1 & P1 & G1 & R1).
        assert (GF : grown_from all nodes nodes1).
        { eapply (batch_grown all r (p_value ns) (r_target r)); eauto; [apply Hall; left; auto|]. unfold values. rewrite nth_error_map, N. reflexivity. }
        assert (NE1 : nodes1 <> []). { intros ->. apply (f_equal (@length V)) in V1. rewrite app_length in V1. unfold values in V1. rewrite !map_length in V1. destruct nodes; [contradiction|cbn in V1; lia]. }
        specialize (IH nodes1 goals1 (count_sample true st) ltac:(intros; apply Hall; right; auto) W1 NE1).
        assert (HG1 : goals1 = goal_nodes nodes1).
        { rewrite G1, visit_goal_fold, HG, !goal_nodes_values, V1, goal_values_app. do 2 f_equal. rewrite size_values. reflexivity. }
        specialize (IH HG1). destruct plan_loop as [[[n' g'] s']| | | |]; auto.
        -- destruct IH as (A & B & D & E). split; auto. split; [eapply grown_from_trans; eauto|]. split; auto. rewrite E. unfold count_sample. cbn. lia.
        -- destruct IH as [A B]. split; auto. intros G. apply B. intros; apply G; right; auto.
      * split; auto. intros G. destruct (G r ltac:(left; auto)) as [_ G2]. destruct SP as (k & v & rel & E & P & Q). specialize (G2 _ _ k v rel E). cbn in Q. lia.
Qed.

(** Every path the planner returns runs over the tree from a root to a node that reaches the goal, one path for every
    such node, and every node added extends its parent by forward propagation; it only fails by an exception when a
    user function breaks its contract, and never reports a corrupted tree. *)
Theorem C68_plan : forall single rounds nodes, grown_ok nodes -> nodes <> [] ->
  (exists e, (forall fuel, plan_multi_path goal_reached single fuel rounds nodes = Throw e) /\ (e = InvalidArgument \/ e = OutOfRange) /\
             ~ (forall r, In r rounds -> good_round r)) \/
  exists nodes' paths st, (forall fuel, length nodes' <= fuel -> plan_multi_path goal_reached single fuel rounds nodes = Ok (nodes', paths, st)) /\
    grown_ok nodes' /\ grown_from rounds nodes nodes' /\ check_tree_linkage nodes' = true /\
    Forall2 (ancestry nodes') (goal_nodes nodes') paths /\
    (s_total st = s_good st + s_failed st)%N /\ s_states st = N.of_nat (length nodes') /\ s_solutions st = N.of_nat (length paths).
Proof.
  intros single rounds nodes W NE. unfold plan_multi_path. rewrite (grown_check nodes W). cbn [negb].
  assert (HG : initial_goals goal_reached 0 nodes [] = goal_nodes nodes) by (rewrite initial_goals_fold, goal_nodes_values; reflexivity).
  assert (LS := plan_loop_spec single rounds rounds nodes _ no_stats (fun r H => H) W NE HG).
  destruct nodes as [|n0 nodes0]; [contradiction|]. set (nodes := n0 :: nodes0) in *.
  destruct plan_loop as [[[n' g'] s']|e| | |]; try contradiction; cbn [obind].
  - right. destruct LS as (W' & GF & GN & ST). rewrite (grown_check n' W'). cbn [negb].
    assert (EX : exists paths, (forall fuel, length n' <= fuel -> extract_solution_paths fuel n' g' = Ok paths) /\ Forall2 (ancestry n') g' paths).
    { assert (IX : forall i, In i g' -> in_tree n' i). { intros i I. rewrite GN in I. apply goal_nodes_in in I. destruct I as (s & N & _). apply in_tree_node. eauto. }
      clear -IX W'. induction g' as [|i g' IH]; [exists []; split; [reflexivity|constructor]|].
      destruct (grown_ancestry n' W' i (IX i ltac:(left; auto))) as (p & A & L). destruct (IH ltac:(intros; apply IX; right; auto)) as (ps & E & F).
      exists (p :: ps). split; [|constructor; auto]. intros fuel Hf. cbn [extract_solution_paths]. rewrite (extract_ancestry _ _ _ A) by lia. cbn [obind]. rewrite E by auto. reflexivity. }
    destruct EX as (paths & E & F). exists n', paths. eexists. split; [intros fuel Hf; rewrite E by auto; reflexivity|]. split; auto. split; auto. split; [apply grown_check; auto|]. split; [rewrite <- GN; auto|]. cbn.
    split; auto. apply ST. reflexivity.
  - left. exists e. split; auto.
Qed.
End Single.
Print Assumptions C68_plan.

(** The counters: a successful sample is one whose propagation gave states, so when no propagation gives more than [K]
    states the tree has grown by at least one and at most [K] states per successful sample. *)
Lemma add_states_length {V A} (visit : Z -> V -> A -> A) nearest prop : forall nodes idx acc,
  match add_states visit nodes nearest idx prop acc with Ok (nodes', _) => length nodes' = length nodes + length prop | _ => True end.
Proof.
  induction prop as [|[v rel] prop IH]; intros nodes idx acc; cbn [add_states]; [cbn; lia|].
  destruct (_ && _); auto. destruct (_ <? 0)%Z; auto. destruct (nth_error _ _) as [ps|]; auto.
  match goal with |- context [add_states visit ?n nearest ?i prop ?a] => specialize (IH n i a); destruct (add_states visit n nearest i prop a) as [[n' a']| | | |]; auto end.
  rewrite upd_length, app_length in IH. cbn [length] in *. lia.
Qed.
Theorem C68_sample_counts : forall V (goal_reached : V -> bool) single fuel (rounds : list (round V)) nodes nodes' paths st K,
  (forall r u t, In r rounds -> length (r_prop r u t) <= K) ->
  plan_multi_path goal_reached single fuel rounds nodes = Ok (nodes', paths, st) ->
  (length nodes + N.to_nat (s_good st) <= length nodes' <= length nodes + K * N.to_nat (s_good st))%nat /\
  (s_total st = s_good st + s_failed st)%N /\ (s_total st <= N.of_nat (length rounds))%N /\ s_swaps st = 0%N /\
  s_states st = N.of_nat (length nodes') /\ s_solutions st = N.of_nat (length paths).
Proof.
  intros V goal_reached single fuel rounds nodes nodes' paths st K HK H. unfold plan_multi_path in H.
  assert (LC : forall rounds nodes goals s0, (forall r u t, In r rounds -> length (r_prop r u t) <= K) ->
    match plan_loop goal_reached single rounds nodes goals s0 with
    | Ok (nodes', _, s') => exists d f : nat,
        s_good s' = (s_good s0 + N.of_nat d)%N /\ s_failed s' = (s_failed s0 + N.of_nat f)%N /\ s_total s' = (s_total s0 + N.of_nat (d + f))%N /\
        d + f <= length rounds /\ length nodes + d <= length nodes' <= length nodes + K * d
    | _ => True
    end).
  { clear. intros rounds; induction rounds as [|r rounds IH]; intros nodes goals s0 HK; cbn [plan_loop].
    - exists 0, 0. cbn. lia.
    - destruct (single && _); [exists 0, 0; cbn; lia|]. destruct (_ <? 0)%Z; [exists 0, 0; cbn; lia|].
      destruct (nth_error _ _) as [ns|]; auto. specialize (HK r (p_value ns) (r_target r)) as HP. specialize (HP (or_introl eq_refl)).
      assert (HK' : forall r u t, In r rounds -> length (r_prop r u t) <= K) by (intros; apply HK; right; auto).
      destruct (r_prop r (p_value ns) (r_target r)) as [|p0 prop] eqn:EP.
      + specialize (IH nodes goals (count_sample false s0) HK'). destruct plan_loop as [[[n' g'] s']| | | |]; auto.
        destruct IH as (d & f & A1 & A2 & A3 & A4 & A5). unfold count_sample in *. cbn [s_total s_good s_failed length] in *.
        exists d, (f + 1). repeat split; lia.
      + match goal with |- context [add_states ?v ?a ?n 0 (p0 :: prop) goals] => assert (AL := add_states_length v n (p0 :: prop) a 0 goals); destruct (add_states v a n 0 (p0 :: prop) goals) as [[n1 g1]| | | |]; cbn [obind]; auto end.
        specialize (IH n1 g1 (count_sample true s0) HK'). destruct plan_loop as [[[n' g'] s']| | | |]; auto.
        destruct IH as (d & f & A1 & A2 & A3 & A4 & A5). unfold count_sample in *. cbn [s_total s_good s_failed length] in *.
        exists (d + 1), f. repeat split; lia. }
  destruct nodes as [|n0 nodes0]; [discriminate|]. set (nodes := n0 :: nodes0) in *. destruct (negb _); [discriminate|].
  specialize (LC rounds nodes (initial_goals goal_reached 0 nodes []) no_stats HK).
  destruct plan_loop as [[[n1 g1] t1]| | | |]; cbn [obind] in H; try discriminate.
  destruct (negb _); [discriminate|]. destruct extract_solution_paths as [ps| | | |]; cbn [obind] in H; try discriminate. injection H as <- <- <-.
  destruct LC as (d & f & A1 & A2 & A3 & A4 & A5). cbn [s_total s_good s_failed s_swaps s_states s_solutions no_stats] in *.
  rewrite A1, A2, A3. replace (N.to_nat (0 + N.of_nat d)) with d by lia. repeat split; try lia.
Qed.
Print Assumptions C68_sample_counts.

Definition consecutive {V} (R : V -> V -> Prop) (p : list V) : Prop := forall k u v, nth_error p k = Some u -> nth_error p (S k) = Some v -> R u v.
Lemma consecutive_snoc {V} (R : V -> V -> Prop) p u v : consecutive R p -> (exists q, p = q ++ [u]) -> R u v -> consecutive R (p ++ [v]).
Proof.
  intros C (q & ->) H k x y A B. destruct (Nat.lt_ge_cases (S k) (length (q ++ [u]))) as [L|L].
  - rewrite nth_error_app1 in A, B by lia. eapply C; eauto.
  - rewrite nth_error_app2 in B by lia. destruct (S k - length (q ++ [u])) as [|[|d]] eqn:D; cbn in B; try discriminate. injection B as <-.
    rewrite app_length in D, L. cbn [length] in D, L. rewrite nth_error_app1 in A by (rewrite app_length; cbn [length]; lia). rewrite nth_error_app2 in A by lia.
    replace (k - length q) with 0 in A by lia. cbn in A. injection A as <-. auto.
Qed.
(** In a tree grown from one start state every line of ancestors is a path from it by extensions. *)
Lemma grown_path {V} (rounds : list (round V)) start nodes i p : grown_from rounds [root_state start] nodes -> ancestry nodes i p ->
  (exists q, p = start :: q) /\ (forall s, node_at nodes i s -> exists q, p = q ++ [p_value s]) /\ consecutive (extends rounds) p.
Proof.
  intros [G1 G2] A. induction A as [i s N E|i s p N A IH].
  - destruct (G2 i s N) as [I|(ps & [PN _] & _)]; [|lia].
    assert (i = 0%Z) by (unfold in_tree, tsize in I; cbn in I; lia). subst i. destruct (G1 0%Z (root_state start)) as (s' & N' & Vs & _); [split; [lia|reflexivity]|].
    assert (s' = s) by (eapply node_at_fun; eauto). subst s'. cbn in Vs. rewrite Vs. split; [exists []; auto|]. split; [intros s' N2; assert (s' = s) by (eapply node_at_fun; eauto); subst s'; exists []; cbn; congruence|].
    intros [|[|k]] u v X Y; discriminate.
  - destruct IH as ((q & ->) & L & C). split; [exists (q ++ [p_value s]); auto|]. split.
    + intros s' N'. assert (s' = s) by (eapply node_at_fun; eauto). subst s'. eauto.
    + destruct (G2 i s N) as [I|(ps & PN & E)].
      * assert (i = 0%Z) by (unfold in_tree, tsize in I; cbn in I; lia). subst i. destruct (G1 0%Z (root_state start)) as (s' & N' & _ & P); [split; [lia|reflexivity]|].
        assert (s' = s) by (eapply node_at_fun; eauto). subst s'. apply ancestry_nonneg in A. cbn in P. lia.
      * apply (consecutive_snoc _ _ (p_value ps)); auto.
Qed.

(** Plan: with functions that keep to their contracts the result is empty, or a path from the start state, step by step
    by forward propagation, to a state that reaches the goal. *)
Theorem C68_plan_single : forall V goal_reached (rounds : list (round V)) start, (forall r, In r rounds -> good_round r) ->
  exists path st n, (forall fuel, n <= fuel -> plan goal_reached fuel rounds start = Ok (path, st)) /\
    (s_total st = s_good st + s_failed st)%N /\
    ((path = [] /\ s_solutions st = 0%N) \/
     (s_solutions st <> 0%N /\ consecutive (extends rounds) path /\ (exists q, path = start :: q) /\ exists q g, path = q ++ [g] /\ goal_reached g = true)).
Proof.
  intros V goal_reached rounds start GR.
  destruct (C68_plan goal_reached true rounds [root_state start] (root_grown start)) as [(e & _ & _ & X)|(nodes & paths & st & E & W & GF & _ & F & ST & _ & SO)]; [discriminate|contradiction|].
  unfold plan. exists (match paths with p :: _ => p | [] => [] end), st, (length nodes). split; [intros fuel Hf; rewrite E by auto; reflexivity|]. split; auto.
  assert (GN := goal_nodes_in goal_reached nodes). destruct (goal_nodes goal_reached nodes) as [|i is]; inversion F as [|? p ? ps A F']; subst; [left; auto|]. right. split; [rewrite SO; cbn; lia|].
  destruct (grown_path rounds start nodes i p GF A) as (H1 & H2 & H3). split; auto. split; auto.
  destruct (proj1 (GN i) ltac:(left; auto)) as (s & N & G). destruct (H2 s N) as (q & ->). eauto.
Qed.
Print Assumptions C68_plan_single.

(** A walk on the integers: propagation goes two steps towards the target, the second step's parent being the first. *)
Definition toward (u t : Z) : list (Z * Z) := if (u <? t)%Z then [(u + 1, -1); (u + 2, 0)]%Z else [].
Definition last_node (nodes : list (pstate Z)) (_ : Z) : Z := (tsize nodes - 1)%Z.
Example C68_example : let r t := mkRound t last_node toward in
  (forall t, good_round (r t)) /\ plan (fun v => v =? 5)%Z 10 [r 9; r 1; r 9; r 9; r 9]%Z 0%Z = Ok ([0; 1; 2; 3; 4; 5]%Z, mkStats 4 3 1 0 7 1).
Proof.
  intros r. split; [|reflexivity]. intros t. unfold r. split; cbn [r_nearest r_prop].
  - intros nodes t' _. unfold last_node. lia.
  - intros u t' k v rel E. unfold toward in E. destruct (u <? t')%Z; [|destruct k; discriminate].
    destruct k as [|[|[|k]]]; cbn in E; try discriminate; injection E as <- <-; lia.
Qed.

(** ** C69: the bidirectional planner *)
Section Bi.
Context {V : Type}.
Variable connected : V -> V -> bool.
Notation tree := (list (pstate V)).
Definition brounds (rounds : list (biround V)) : list (round V) := map b_round rounds.
(** A bridge joins a node of the start tree to a node of the goal tree; the connection was accepted, in one order of
    its arguments or the other. *)
Definition bridge_ok (start_tree goal_tree : tree) (b : Z * Z) : Prop :=
  exists s g, node_at start_tree (fst b) s /\ node_at goal_tree (snd b) g /\
    (connected (p_value s) (p_value g) = true \/ connected (p_value g) (p_value s) = true).
(** The user functions keep to their contracts, and a node drawn from a tree is one of its nodes (which the
    distribution used guarantees). *)
Definition good_biround (b : biround V) : Prop :=
  good_round (b_round b) /\ forall draw n, b_draw b = Some draw -> (0 < n)%Z -> (0 <= draw n < n)%Z.

Lemma bridge_ok_grown rounds st gt st' gt' b : grown_from rounds st st' -> grown_from rounds gt gt' -> bridge_ok st gt b -> bridge_ok st' gt' b.
Proof.
  intros [A _] [B _] (s & g & S1 & G1 & C). destruct (A _ _ S1) as (s' & S2 & VS & _). destruct (B _ _ G1) as (g' & G2 & VG & _).
  exists s', g'. rewrite VS, VG. auto.
Qed.
Lemma bridges_of_spec i u gt : forall j b, In b (bridges_of connected i u j gt) -> fst b = i /\ exists k g, nth_error gt k = Some g /\ snd b = (j + Z.of_nat k)%Z /\ connected u (p_value g) = true.
Proof.
  induction gt as [|t gt IH]; intros j b I; cbn [bridges_of] in I; [destruct I|]. apply in_app_iff in I. destruct I as [I|I].
  - destruct (connected u (p_value t)) eqn:E; [|destruct I]. destruct I as [<-|[]]. split; auto. exists 0, t. split; auto. split; auto. cbn. lia.
  - destruct (IH _ _ I) as (A & k & g & N & B & C). split; auto. exists (S k), g. split; auto. split; auto. lia.
Qed.
Lemma initial_bridges_ok st gt : Forall (bridge_ok st gt) (initial_bridges connected 0 st gt).
Proof.
  assert (X : forall rest i, (forall k s, nth_error rest k = Some s -> node_at st (i + Z.of_nat k) s) -> Forall (bridge_ok st gt) (initial_bridges connected i rest gt)).
  { induction rest as [|s rest IH]; intros i H; cbn [initial_bridges]; [constructor|]. apply Forall_app. split.
    - apply Forall_forall. intros b I. destruct (bridges_of_spec _ _ _ _ _ I) as (A & k & g & N & B & C). specialize (H 0 s eq_refl). rewrite Z.add_0_r in H.
      exists s, g. rewrite A. split; auto. split; auto. split; [lia|]. rewrite B. replace (Z.to_nat (0 + Z.of_nat k)) with k by lia. auto.
    - apply IH. intros k s' N. replace (i + 1 + Z.of_nat k)%Z with (i + Z.of_nat (S k))%Z by lia. apply H. auto. }
  apply X. intros k s N. split; [lia|]. replace (Z.to_nat (0 + Z.of_nat k)) with k by lia. auto.
Qed.

Lemma visit_bridge_fold active draw target vs : forall base acc b, In b (visit_all (visit_bridge connected active draw target) base vs acc) ->
  In b acc \/ exists d k v, draw = Some d /\ nth_error vs k = Some v /\ connected v target = true /\ b = if active then ((base + Z.of_nat k)%Z, d) else (d, (base + Z.of_nat k)%Z).
Proof.
  unfold visit_all. induction vs as [|v vs IH]; intros base acc b I; cbn [fold_left fst snd] in I; auto.
  apply IH in I. destruct I as [I|(d & k & w & D & N & C & B)].
  - unfold visit_bridge in I. destruct draw as [d|]; auto. destruct (connected v target) eqn:C; auto. apply in_app_iff in I. destruct I as [I|[<-|[]]]; auto.
    right. exists d, 0, v. split; auto. split; auto. split; auto. rewrite Z.add_0_r. reflexivity.
  - right. exists d, (S k), w. split; auto. split; auto. split; auto. rewrite B. replace (base + 1 + Z.of_nat k)%Z with (base + Z.of_nat (S k))%Z by lia. reflexivity.
Qed.

Lemma bi_loop_spec single all rounds : forall active st gt bridges stt, (forall r, In r rounds -> In r all) ->
  grown_ok st -> grown_ok gt -> st <> [] -> gt <> [] -> Forall (bridge_ok st gt) bridges ->
  match bi_loop connected single rounds active st gt bridges stt with
  | Ok (st', gt', bridges', stt') => grown_ok st' /\ grown_ok gt' /\ grown_from (brounds all) st st' /\ grown_from (brounds all) gt gt' /\ Forall (bridge_ok st' gt') bridges' /\
      (s_total stt' = s_good stt' + s_failed stt' <-> s_total stt = s_good stt + s_failed stt)%N
  | Throw e => (e = InvalidArgument \/ e = OutOfRange) /\ ~ (forall r, In r rounds -> good_biround r)
  | _ => False
  end.
Proof.
  induction rounds as [|b rounds IH]; intros active st gt bridges stt Hall Ws Wg Ns Ng BO; cbn [bi_loop].
  - split; auto. split; auto. split; [apply grown_from_refl|]. split; [apply grown_from_refl|]. split; auto. tauto.
  - destruct (single && match bridges with [] => false | _ => true end). { split; auto. split; auto. split; [apply grown_from_refl|]. split; [apply grown_from_refl|]. split; auto. tauto. }
    set (act := if active then st else gt). set (other := if active then gt else st).
    assert (Wa : grown_ok act) by (unfold act; destruct active; auto). assert (Na : act <> []) by (unfold act; destruct active; auto).
    set (draw := option_map _ (b_draw b)). set (target := match draw with None => Ok (r_target (b_round b)) | Some d => _ end).
    assert (No : (0 < tsize other)%Z) by (unfold other, tsize; destruct active; [destruct gt|destruct st]; cbn; try contradiction; lia).
    assert (TG : (exists t, target = Ok t /\ forall d, draw = Some d -> exists q, node_at other d q /\ p_value q = t) \/ (target = Throw OutOfRange /\ ~ good_biround b)).
    { unfold target, draw. destruct (b_draw b) as [f|] eqn:EB; cbn [option_map]; [|left; eexists; split; [reflexivity|discriminate]]. set (d := f (tsize other)).
      assert (GD : good_biround b -> (0 <= d < tsize other)%Z) by (intros [_ X]; apply X; auto).
      destruct (Z.ltb_spec d 0); [right; split; auto; intros X; apply GD in X; lia|].
      destruct (nth_error other (Z.to_nat d)) as [q|] eqn:E; [left|right; split; auto; intros X; apply GD in X; apply nth_error_None in E; unfold tsize in X; lia]. eexists. split; [reflexivity|]. intros d' X. injection X as <-. exists q. split; auto. split; auto. }
    destruct TG as [(t & -> & TD)|[-> TD]]; cbn [obind]; [|split; auto; intros G; apply TD, G; left; auto].
    set (nearest := r_nearest (b_round b) act t). destruct (Z.ltb_spec nearest 0). { split; auto. split; auto. split; [apply grown_from_refl|]. split; [apply grown_from_refl|]. split; auto. tauto. }
    destruct (nth_error act (Z.to_nat nearest)) as [ns|] eqn:N.
    2:{ split; auto. intros G. destruct (G b ltac:(left; auto)) as [[G1 _] _]. specialize (G1 act t Na). fold nearest in G1. apply nth_error_None in N. unfold tsize in G1. lia. }
    assert (Hn : (0 <= nearest < tsize act)%Z). { apply in_tree_node. exists ns. split; auto. }
    set (prop := r_prop (b_round b) (p_value ns) t).
    assert (SP := add_states_spec (visit_bridge connected active draw t) nearest prop act 0 bridges Wa Hn ltac:(lia)).
    destruct add_states as [[act1 br1]|[]| | |]; try contradiction; cbn [obind].
    2:{ split; auto. intros G. destruct (G b ltac:(left; auto)) as [[_ G2] _]. destruct SP as (k & v & rel & E & P & Q). specialize (G2 _ _ k v rel E). cbn in Q. lia. }
    destruct SP as (W1 & V1 & P1 & B1 & R1).
    assert (GF : grown_from (brounds all) act act1).
    { eapply (batch_grown (fun _ => true) _ (b_round b) (p_value ns) t); eauto; [apply in_map, Hall; left; auto|]. unfold values. rewrite nth_error_map, N. reflexivity. }
    assert (NE1 : act1 <> []). { intros ->. apply (f_equal (@length V)) in V1. rewrite app_length in V1. unfold values in V1. rewrite !map_length in V1. destruct act; [contradiction|cbn in V1; lia]. }
    set (st1 := if active then act1 else st). set (gt1 := if active then gt else act1).
    assert (GS : grown_from (brounds all) st st1) by (unfold st1, act in *; destruct active; auto; apply grown_from_refl).
    assert (GG : grown_from (brounds all) gt gt1) by (unfold gt1, act in *; destruct active; auto; apply grown_from_refl).
    assert (BO1 : Forall (bridge_ok st1 gt1) br1).
    { apply Forall_forall. intros x I. rewrite B1 in I. apply visit_bridge_fold in I. destruct I as [I|(d & k & v & D & NK & C & ->)].
      - rewrite Forall_forall in BO. eapply bridge_ok_grown; eauto.
      - destruct (TD d D) as (q & Q1 & Q2).
        assert (NN : exists w, node_at act1 (tsize act + Z.of_nat k) w /\ p_value w = v).
        { assert (X : nth_error (values act1) (Z.to_nat (tsize act + Z.of_nat k)) = Some v).
          { rewrite V1, nth_error_app2 by (rewrite size_values; lia). rewrite size_values. replace (Z.to_nat _ - _) with k by lia. auto. }
          unfold values in X. rewrite nth_error_map in X. destruct (nth_error act1 _) as [w|] eqn:EW; [|discriminate]. injection X as X. exists w. split; auto. split; [unfold tsize; lia|auto]. }
        destruct NN as (w & W2 & W3). unfold bridge_ok, st1, gt1, other in *. destruct active; cbn [fst snd].
        + exists w, q. rewrite W3, Q2. auto.
        + exists q, w. rewrite W3, Q2. auto. }
    set (stt1 := mkStats _ _ _ _ _ _).
    assert (Ws1 : grown_ok st1) by (unfold st1; destruct active; auto). assert (Wg1 : grown_ok gt1) by (unfold gt1; destruct active; auto).
    assert (Ns1 : st1 <> []) by (unfold st1; destruct active; auto). assert (Ng1 : gt1 <> []) by (unfold gt1; destruct active; auto).
    specialize (IH (xorb active (b_switch b)) st1 gt1 br1 stt1 ltac:(intros; apply Hall; right; auto) Ws1 Wg1 Ns1 Ng1 BO1).
    destruct bi_loop as [[[[st' gt'] br'] stt']|e| | |]; auto.
    + destruct IH as (A1 & A2 & A3 & A4 & A5 & A6). split; auto. split; auto. split; [eapply grown_from_trans; eauto|]. split; [eapply grown_from_trans; eauto|]. split; auto.
      rewrite A6. unfold stt1, count_sample. cbn. destruct prop; cbn; lia.
    + destruct IH as [A B]. split; auto. intros G. apply B. intros; apply G; right; auto.
Qed.

(** Each returned path joins a path of the start tree, from its root, to a reversed path of the goal tree, at a pair of
    states the connection test accepted.  Exceptions come only from broken contracts. *)
Theorem C69_bi_plan_partial : (* missing: the order of the connection test's arguments, refuted below *)
  forall single rounds st gt, grown_ok st -> grown_ok gt -> st <> [] -> gt <> [] ->
  (exists e, (forall fuel, bi_plan_multi_path connected single fuel rounds st gt = Throw e) /\ (e = InvalidArgument \/ e = OutOfRange) /\
             ~ (forall r, In r rounds -> good_biround r)) \/
  exists st' gt' paths stt, (forall fuel, length st' <= fuel -> length gt' <= fuel -> bi_plan_multi_path connected single fuel rounds st gt = Ok (st', gt', paths, stt)) /\
    grown_ok st' /\ grown_ok gt' /\ grown_from (brounds rounds) st st' /\ grown_from (brounds rounds) gt gt' /\
    (s_total stt = s_good stt + s_failed stt)%N /\
    Forall (fun p => exists i j sp gp s g, p = sp ++ rev gp /\ ancestry st' i sp /\ ancestry gt' j gp /\ node_at st' i s /\ node_at gt' j g /\
      (connected (p_value s) (p_value g) = true \/ connected (p_value g) (p_value s) = true)) paths.
Proof.
  intros single rounds st gt Ws Wg Ns Ng. unfold bi_plan_multi_path. rewrite (grown_check st Ws), (grown_check gt Wg). cbn [negb].
  assert (LS := bi_loop_spec single rounds rounds true st gt _ no_stats (fun r H => H) Ws Wg Ns Ng (initial_bridges_ok st gt)).
  destruct st as [|s0 st0]; [contradiction|]. destruct gt as [|g0 gt0]; [contradiction|]. set (st := s0 :: st0) in *. set (gt := g0 :: gt0) in *.
  destruct bi_loop as [[[[st' gt'] br'] stt']|e| | |]; try contradiction; cbn [obind].
  - right. destruct LS as (W1 & W2 & G1 & G2 & BO & ST). rewrite (grown_check st' W1), (grown_check gt' W2). cbn [negb].
    assert (EX : exists paths, (forall fuel, length st' <= fuel -> length gt' <= fuel -> bridge_paths fuel st' gt' br' = Ok paths) /\
      Forall (fun p => exists i j sp gp s g, p = sp ++ rev gp /\ ancestry st' i sp /\ ancestry gt' j gp /\ node_at st' i s /\ node_at gt' j g /\
      (connected (p_value s) (p_value g) = true \/ connected (p_value g) (p_value s) = true)) paths).
    { clear -BO W1 W2. induction BO as [|[i j] br (s & g & S1 & G1 & C) BO IH]; [exists []; split; [reflexivity|constructor]|]. cbn [fst snd] in *.
      destruct (grown_ancestry st' W1 i ltac:(apply in_tree_node; eauto)) as (sp & SA & SL). destruct (grown_ancestry gt' W2 j ltac:(apply in_tree_node; eauto)) as (gp & GA & GL).
      destruct IH as (ps & E & F). exists ((sp ++ rev gp) :: ps). split.
      - intros fuel H1 H2. cbn [bridge_paths]. rewrite (extract_ancestry _ _ _ SA) by lia. cbn [obind]. rewrite (extract_ancestry _ _ _ GA) by lia. cbn [obind]. rewrite E by auto. reflexivity.
      - constructor; auto. exists i, j, sp, gp, s, g. auto 7. }
    destruct EX as (paths & E & F). exists st', gt', paths. eexists. split; [intros fuel H1 H2; rewrite E by auto; reflexivity|]. split; auto. split; auto. split; auto. split; auto. split; auto.
    cbn. apply ST. reflexivity.
  - left. exists e. split; auto.
Qed.

(** Plan from a start and a goal state: a non-empty result runs from the start to the goal; each step extends one of the
    trees, forwards up to the bridge and backwards from it. *)
Theorem C69_bi_plan_single_partial : (* missing: the order of the connection test's arguments, refuted below *)
  forall rounds start goal, (forall r, In r rounds -> good_biround r) ->
  exists path stt n, (forall fuel, n <= fuel -> bi_plan connected fuel rounds start goal = Ok (path, stt)) /\
    (path = [] \/ exists sp gp u v, path = sp ++ rev gp /\ consecutive (extends (brounds rounds)) sp /\ consecutive (extends (brounds rounds)) gp /\
       (exists q, sp = start :: q) /\ (exists q, gp = goal :: q) /\ (exists q, sp = q ++ [u]) /\ (exists q, gp = q ++ [v]) /\
       (connected u v = true \/ connected v u = true)).
Proof.
  intros rounds start goal GR.
  destruct (C69_bi_plan_partial true rounds [root_state start] [root_state goal] (root_grown start) (root_grown goal)) as [(e & _ & _ & X)|(st & gt & paths & stt & E & W1 & W2 & G1 & G2 & _ & F)];
    [discriminate|discriminate|contradiction|].
  unfold bi_plan. exists (match paths with p :: _ => p | [] => [] end), stt, (length st + length gt). split; [intros fuel Hf; rewrite E by lia; reflexivity|].
  destruct F as [|p ps (i & j & sp & gp & s & g & -> & A & B & Ns & Ng & C) F]; [left; auto|]. right.
  destruct (grown_path _ start st i sp G1 A) as (A1 & A2 & A3). destruct (grown_path _ goal gt j gp G2 B) as (B1 & B2 & B3).
  exists sp, gp, (p_value s), (p_value g). split; auto. split; auto. split; auto. split; auto.
Qed.
End Bi.
Print Assumptions C69_bi_plan_partial.
Print Assumptions C69_bi_plan_single_partial.

(** The counters of the bidirectional planner mean the same, and the swaps never outnumber the samples. *)
Theorem C69_sample_counts : forall V (connected : V -> V -> bool) single fuel (rounds : list (biround V)) st gt st' gt' paths stt K,
  (forall b u t, In b rounds -> length (r_prop (b_round b) u t) <= K) ->
  bi_plan_multi_path connected single fuel rounds st gt = Ok (st', gt', paths, stt) ->
  (length st + length gt + N.to_nat (s_good stt) <= length st' + length gt' <= length st + length gt + K * N.to_nat (s_good stt))%nat /\
  (s_total stt = s_good stt + s_failed stt)%N /\ (s_swaps stt <= s_total stt)%N /\ (s_total stt <= N.of_nat (length rounds))%N /\
  s_states stt = N.of_nat (length st' + length gt') /\ s_solutions stt = N.of_nat (length paths).
Proof.
  intros V connected single fuel rounds st gt st' gt' paths stt K HK H. unfold bi_plan_multi_path in H.
  assert (LC : forall rounds active st gt br s0, (forall b u t, In b rounds -> length (r_prop (b_round b) u t) <= K) ->
    match bi_loop connected single rounds active st gt br s0 with
    | Ok (st', gt', _, s') => exists d f w : nat,
        s_good s' = (s_good s0 + N.of_nat d)%N /\ s_failed s' = (s_failed s0 + N.of_nat f)%N /\ s_total s' = (s_total s0 + N.of_nat (d + f))%N /\
        s_swaps s' = (s_swaps s0 + N.of_nat w)%N /\ w <= d + f /\ d + f <= length rounds /\
        length st + length gt + d <= length st' + length gt' <= length st + length gt + K * d
    | _ => True
    end).
  { clear. intros rounds; induction rounds as [|b rounds IH]; intros active st gt br s0 HK; cbn [bi_loop].
    - exists 0, 0, 0. cbn. lia.
    - destruct (single && _); [exists 0, 0, 0; cbn; lia|].
      destruct (match option_map _ (b_draw b) with None => _ | Some d => _ end) as [t| | | |]; cbn [obind]; auto.
      destruct (_ <? 0)%Z; [exists 0, 0, 0; cbn; lia|].
      destruct (nth_error _ _) as [ns|]; auto.
      specialize (HK b (p_value ns) t) as HP. specialize (HP (or_introl eq_refl)).
      set (prop := r_prop (b_round b) (p_value ns) t) in *.
      match goal with |- context [add_states ?v ?a ?n 0 prop br] => assert (AL := add_states_length v n prop a 0 br); destruct (add_states v a n 0 prop br) as [[act1 br1]| | | |]; cbn [obind]; auto end.
      match goal with |- context [bi_loop connected single rounds ?a ?x ?y br1 ?s] =>
        specialize (IH a x y br1 s ltac:(intros; apply HK; right; auto)); destruct (bi_loop connected single rounds a x y br1 s) as [[[[st' gt'] br'] s']| | | |]; auto end.
      destruct IH as (d & f & w & A1 & A2 & A3 & A4 & A5 & A6 & A7). unfold count_sample in *. cbn [s_total s_good s_failed s_swaps length] in *.
      exists (d + match prop with [] => 0 | _ => 1 end), (f + match prop with [] => 1 | _ => 0 end), (w + if b_switch b then 1 else 0).
      destruct prop as [|p0 prop0]; cbn [length] in *; destruct active, (b_switch b); repeat split; try lia. }
  destruct st as [|n0 st0]; [discriminate|]. destruct gt as [|m0 gt0]; [discriminate|].
  set (st := n0 :: st0) in *. set (gt := m0 :: gt0) in *. do 2 (destruct (negb _); [discriminate|]).
  specialize (LC rounds true st gt (initial_bridges connected 0 st gt) no_stats HK).
  destruct bi_loop as [[[[s1 g1] br1] t1]| | | |]; cbn [obind] in H; try discriminate.
  do 2 (destruct (negb _); [discriminate|]). destruct bridge_paths as [ps| | | |]; cbn [obind] in H; try discriminate. injection H as <- <- <- <-.
  destruct LC as (d & f & w & A1 & A2 & A3 & A4 & A5 & A6 & A7). cbn [s_total s_good s_failed s_swaps s_states s_solutions no_stats] in *.
  rewrite A1, A2, A3, A4. replace (N.to_nat (0 + N.of_nat d)) with d by lia. repeat split; try lia.
Qed.
Print Assumptions C69_sample_counts.

(** Both trees grow: the goal tree reaches back from 6 to 4 ("toward" run downwards). *)
Definition away (u t : Z) : list (Z * Z) := if (t <? u)%Z then [(u - 1, -1)]%Z else toward u t.
Definition first_of (n : Z) : Z := 0%Z.
Definition bi_rounds : list (biround Z) :=
  let r := mkRound 9%Z last_node away in [mkBi None r true; mkBi (Some first_of) r true; mkBi (Some first_of) r true; mkBi (Some (fun n => n - 1)%Z) r false]%Z.
Example C69_example : Forall good_biround bi_rounds /\
  bi_plan (fun u v => v =? u + 1)%Z 20 bi_rounds 0%Z 4%Z = Ok ([0; 1; 2; 3; 4]%Z, mkStats 3 3 0 3 7 1).
Proof.
  split; [|reflexivity].
  assert (G : good_round (mkRound 9%Z last_node away)).
  { split; cbn [r_nearest r_prop].
    - intros nodes t' _. unfold last_node. lia.
    - intros u t' k v rel E. unfold away, toward in E. destruct (t' <? u)%Z; [|destruct (u <? t')%Z].
      + destruct k as [|[|k]]; cbn in E; try discriminate; injection E as <- <-; lia.
      + destruct k as [|[|[|k]]]; cbn in E; try discriminate; injection E as <- <-; lia.
      + destruct k; discriminate. }
  unfold bi_rounds. repeat (apply Forall_cons; [split; [exact G|]; cbn [b_draw]; try discriminate; intros f n E P; injection E as <-; unfold first_of; lia|]). apply Forall_nil.
Qed.
(** The connection test is called as (start side, goal side) at first and while the start tree is active, but as
    (goal side, start side) while the goal tree is active: with a directed connection test a path is returned whose
    bridge was never accepted in the direction it is travelled. *)
Theorem C69_bridge_direction_refuted : exists (connected : Z -> Z -> bool) rounds start goal path stt, Forall good_biround rounds /\
  (forall fuel, 5 <= fuel -> bi_plan connected fuel rounds start goal = Ok (path, stt)) /\ path = [0; 9; 10]%Z /\ connected 0%Z 9%Z = false.
Proof.
  exists (fun u v => (u =? 9) && (v =? 0))%Z.
  set (r := mkRound 0%Z last_node (fun u t => if (t <? u)%Z then [(u - 1, -1)]%Z else [])).
  exists [mkBi None r true; mkBi (Some first_of) r true]. exists 0%Z, 10%Z. eexists. eexists. split.
  - assert (G : good_round r).
    { split; cbn [r r_nearest r_prop].
      - intros nodes t' _. unfold last_node. lia.
      - intros u t' k v rel E. destruct (t' <? u)%Z; [|destruct k; discriminate]. destruct k as [|[|k]]; cbn in E; try discriminate; injection E as <- <-; lia. }
    constructor; [split; [exact G|discriminate]|]. constructor; [|constructor]. split; [exact G|]. intros f n E P. injection E as <-. unfold first_of. lia.
  - split; [|split; reflexivity]. intros fuel Hf. do 5 (destruct fuel as [|fuel]; [lia|]). reflexivity.
Qed.
Print Assumptions C69_bridge_direction_refuted.

(** ** C70: planner states as bytes *)
Theorem C70_state_round_trip : forall (dbg host_le : bool) (maxr : N) V (okV : V -> Prop) sv dv, round_trips okV sv dv ->
  round_trips (fun s : pstate V => (- 2 ^ 63 <= p_parent s < 2 ^ 63)%Z /\ Forall (fun c => (- 2 ^ 63 <= c < 2 ^ 63)%Z) (p_children s) /\
                                   (N.of_nat (length (p_children s)) < 2 ^ 64)%N /\ (N.of_nat (length (p_children s)) <= maxr)%N /\ okV (p_value s))
    (ser_state host_le sv) (de_state dbg host_le maxr dv).
Proof.
  intros dbg le maxr V okV sv dv RV s (HP & HC & HL & HM & HV).
  destruct (pod_round_trips _ (uint_pod le 1) dbg (uint_pod_faithful le 1 ltac:(discriminate)) (if p_init s then 1 else 0)%N) as (b1 & N1 & S1 & D1); [destruct (p_init s); reflexivity|].
  destruct (pod_round_trips _ (sint_pod le 8) dbg (sint_pod_faithful le 8 ltac:(discriminate)) (p_parent s) HP) as (b2 & N2 & S2 & D2).
  destruct (vector_round_trips _ _ _ (pod_round_trips _ (sint_pod le 8) dbg (sint_pod_faithful le 8 ltac:(discriminate))) dbg maxr _ _ (u64_round_trips dbg le) (p_children s)) as (b3 & N3 & S3 & D3); [split; auto|].
  destruct (RV _ HV) as (b4 & N4 & S4 & D4).
  exists (b1 ++ b2 ++ b3 ++ b4). split; [destruct b1; [contradiction|discriminate]|]. split.
  - intros buf. unfold ser_state. rewrite S1. cbn [obind]. rewrite S2. cbn [obind]. rewrite S3. cbn [obind]. rewrite S4. cbn [obind].
    rewrite <- !app_assoc. do 2 f_equal. rewrite app_sub_length. reflexivity.
  - intros pre post. unfold de_state. rewrite <- !app_assoc. rewrite D1. cbn [obind].
    specialize (D2 (pre ++ b1) (b3 ++ b4 ++ post)). rewrite app_length, <- app_assoc in D2. rewrite D2. cbn [obind].
    specialize (D3 (pre ++ b1 ++ b2) (b4 ++ post)). rewrite !app_length, <- !app_assoc, Nat.add_assoc in D3. rewrite D3. cbn [obind].
    specialize (D4 (pre ++ b1 ++ b2 ++ b3) post). rewrite !app_length, <- !app_assoc, !Nat.add_assoc in D4. rewrite D4. cbn [obind].
    rewrite !app_length. rewrite !Nat.add_assoc. destruct s as [v cs p []]; reflexivity.
Qed.
Print Assumptions C70_state_round_trip.
Example C70_example :
  match ser_state true (ser_u64 true) (mkP 7%N [3; 4]%Z (-1) true) [] with
  | Ok (buf, n) => n = 41 /\ de_state true true 100 (de_u64 true true) buf 0 = Ok (mkP 7%N [3; 4]%Z (-1)%Z true, 41)
  | _ => False
  end.
Proof. vm_compute. auto. Qed.
