(** Property C19: random walks. *)
From Verif Require Import Base GraphModel GraphSpec GraphProofs GraphProps WalkModel.

(** A walk from [u] to [v] along edges of [g], with the nodes visited. *)
Inductive walk_in {V W} (g : graph V W) : Z -> Z -> list Z -> Prop :=
| wi_one u : walk_in g u u [u]
| wi_cons u x v n e p : has_node g u n -> In e (n_out n) -> e_to e = x -> walk_in g x v p -> walk_in g u v (u :: p).

Section Proofs.
Context {V W : Type}.
Variable g : graph V W.

Lemma walk_in_snoc u v p : walk_in g u v p -> forall n e x, has_node g v n -> In e (n_out n) -> e_to e = x -> walk_in g u x (p ++ [x]).
Proof.
  intros H. induction H as [u|u x v n e p A B D R IH]; intros n' e' x' A' B' D'; cbn.
  - eapply wi_cons; eauto. constructor.
  - eapply wi_cons; eauto.
Qed.
Lemma walk_in_last u v p : walk_in g u v p -> forall d, last p d = v.
Proof.
  intros H. induction H as [u|u x v n e p A B D R IH]; intros d; auto.
  cbn [last]. destruct p; [inversion R|]. apply IH.
Qed.
Lemma erase_notin x p : ~ In x p -> erase_from x p = p.
Proof.
  induction p as [|y p IH]; cbn; auto. intros N. destruct (Z.eqb_spec y x); [subst; tauto|]. rewrite IH; tauto.
Qed.
Lemma erase_incl x p z : In z (erase_from x p) -> In z p /\ z <> x.
Proof. induction p as [|y p IH]; cbn; [tauto|]. destruct (Z.eqb_spec y x); cbn; [tauto|]. intros [<-|I]; tauto. Qed.
Lemma erase_nodup x p : NoDup p -> NoDup (erase_from x p ++ [x]).
Proof.
  intros N. assert (NoDup (erase_from x p)).
  { induction N as [|y p NI N IH]; cbn; [constructor|]. destruct (y =? x)%Z; constructor; auto. intros I. apply erase_incl in I. tauto. }
  apply NoDup_Add with (a := x) (l := erase_from x p).
  - rewrite <- (app_nil_r (erase_from x p)) at 1. apply Add_app.
  - split; auto. intros I. apply erase_incl in I. tauto.
Qed.
Lemma erase_walk u v p x : walk_in g u v p -> In x p -> walk_in g u x (erase_from x p ++ [x]).
Proof.
  intros H. induction H as [u|u y v n e p A B D R IH]; intros I; cbn.
  - destruct I as [<-|[]]. rewrite Z.eqb_refl. constructor.
  - destruct (Z.eqb_spec u x) as [->|N]; [constructor|]. destruct I as [|I]; [contradiction|]. cbn. eapply wi_cons; eauto.
Qed.

Lemma walk_good goal : forall ds path start u, walk_in g start u path -> NoDup path ->
  forall r, walk g goal ds path = Ok r -> walk_in g start goal r /\ NoDup r.
Proof.
  induction ds as [|d ds IH]; intros path start u R ND r H; cbn [walk] in H; rewrite (walk_in_last _ _ _ R) in H;
    (destruct (Z.eqb_spec u goal) as [->|N]; [injection H as <-; auto|]);
    apply obind_ok in H; destruct H as (n & GN & H); destruct (n_out n) as [|e0 es] eqn:EO; try discriminate.
  rewrite <- EO in H. destruct (nth_error (n_out n) (d mod length (n_out n))) as [e|] eqn:NE; [|discriminate].
  apply nth_error_In in NE. apply get_node_ok in GN. eapply IH; [| |exact H]; [|apply erase_nodup; auto].
  destruct (in_dec Z.eq_dec (e_to e) path) as [I|NI]; [eapply erase_walk; eauto|].
  rewrite erase_notin by auto. eapply walk_in_snoc; eauto.
Qed.

Lemma walk_in_index start u p : edges_in_range g -> is_index g start -> walk_in g start u p -> is_index g u.
Proof.
  intros ER I H. induction H as [u|u x v n e p A B D R IH]; auto. apply IH. subst x. destruct A as [A1 A2].
  apply (ER _ _ _ A2 B).
Qed.
Lemma walk_in_trans u v p : walk_in g u v p -> forall x q, walk_in g v x q -> exists r, walk_in g u x r.
Proof.
  intros H. induction H as [u|u x v n e p A B D R IH]; intros z q Z; eauto.
  destruct (IH z q Z) as [r X]. exists (u :: r). eapply wi_cons; eauto.
Qed.
End Proofs.

(** For every sequence of random draws on which the walk ends, its result is a walk along edges of the graph from
    the start to the goal that visits no node twice. *)
Theorem C19_walk_loop_free :
  forall (V W : Type) (g : graph V W) (start goal : Z) (draws : list nat) (path : list Z),
  random_walk g start goal draws = Ok path -> walk_in g start goal path /\ NoDup path.
Proof.
  intros V W g start goal draws path H. eapply walk_good; [constructor| |exact H]. constructor; [intros []|constructor].
Qed.
Print Assumptions C19_walk_loop_free.

(** Nothing can go wrong on the way, for any draws, unless a node other than the goal without out edges can be
    reached: the walk has then ended, or wants more draws. *)
Theorem C19_walk_safe :
  forall (V W : Type) (g : graph V W) (start goal : Z) (draws : list nat),
  edges_in_range g -> is_index g start ->
  (forall u p n, walk_in g start u p -> u <> goal -> has_node g u n -> n_out n <> []) ->
  (exists path, random_walk g start goal draws = Ok path) \/ random_walk g start goal draws = NoFuel.
Proof.
  intros V W g start goal draws ER IS DE. unfold random_walk.
  assert (G : forall ds path u, walk_in g start u path -> (exists r, walk g goal ds path = Ok r) \/ walk g goal ds path = NoFuel).
  { induction ds as [|d ds IH]; intros path u R; cbn [walk]; rewrite (walk_in_last _ _ _ _ R);
    (destruct (Z.eqb_spec u goal) as [->|N]; [eauto|]);
    destruct (get_node_total g u (walk_in_index g _ _ _ ER IS R)) as (n & -> & NN); cbn [obind];
    (assert (HN : has_node g u n) by (split; [apply (walk_in_index g _ _ _ ER IS R)|auto]));
    pose proof (DE u path n R N HN) as NE; destruct (n_out n) as [|e0 es] eqn:EO; try congruence; auto.
    rewrite <- EO. destruct (nth_error (n_out n) (d mod length (n_out n))) as [e|] eqn:NX.
    2:{ apply nth_error_None in NX. pose proof (Nat.mod_upper_bound d (length (n_out n))). rewrite EO in *. cbn [length] in *. lia. }
    apply nth_error_In in NX. apply (IH _ (e_to e)). 
    destruct (in_dec Z.eq_dec (e_to e) path) as [I|NI]; [eapply erase_walk; eauto|].
    rewrite erase_notin by auto. eapply walk_in_snoc; eauto. }
  apply (G draws [start] start). constructor.
Qed.
Print Assumptions C19_walk_safe.

(** And it can always still end: if the goal can be reached from every node that can be reached, then any draws
    made so far can be continued so that the walk ends. *)
Theorem C19_walk_can_end :
  forall (V W : Type) (g : graph V W) (start goal : Z) (draws : list nat),
  edges_in_range g -> is_index g start ->
  (forall u p, walk_in g start u p -> exists q, walk_in g u goal q) ->
  exists more path, random_walk g start goal (draws ++ more) = Ok path.
Proof.
  intros V W g start goal draws ER IS CO. unfold random_walk.
  assert (FIN : forall u v q, walk_in g u v q -> v = goal -> forall path, walk_in g start u path ->
            exists more r, walk g goal more path = Ok r).
  { intros u v q R. induction R as [u|u x v n e p A B D R IH]; intros -> path RP.
    - exists [], path. cbn [walk]. rewrite (walk_in_last _ _ _ _ RP), Z.eqb_refl. reflexivity.
    - destruct (Z.eq_dec u goal) as [->|N].
      { exists [], path. cbn [walk]. rewrite (walk_in_last _ _ _ _ RP), Z.eqb_refl. reflexivity. }
      assert (RX : walk_in g start x (erase_from x path ++ [x])).
      { destruct (in_dec Z.eq_dec x path) as [I|NI]; [eapply erase_walk; eauto|].
        rewrite erase_notin by auto. eapply walk_in_snoc; eauto. }
      destruct (IH eq_refl _ RX) as (more & r & H). apply In_nth_error in B. destruct B as [k NK].
      exists (k :: more), r. cbn [walk]. rewrite (walk_in_last _ _ _ _ RP). destruct (Z.eqb_spec u goal); [contradiction|].
      apply get_node_ok in A. rewrite A. cbn [obind].
      assert (LK : k < length (n_out n)) by (apply nth_error_Some; congruence).
      rewrite Nat.mod_small by auto. rewrite NK, D. destruct (n_out n) eqn:EO; [cbn in LK; lia|exact H]. }
  assert (G : forall ds path u, walk_in g start u path -> exists more r, walk g goal (ds ++ more) path = Ok r).
  { induction ds as [|d ds IH]; intros path u RP.
    - destruct (CO u path RP) as [q R]. eapply FIN; eauto.
    - destruct (Z.eq_dec u goal) as [->|N].
      { exists [], path. cbn [app walk]. rewrite (walk_in_last _ _ _ _ RP), Z.eqb_refl. reflexivity. }
      destruct (get_node_total g u (walk_in_index g _ _ _ ER IS RP)) as (n & GN & NN).
      assert (HN : has_node g u n) by (apply get_node_ok; auto).
      assert (NE : n_out n <> []).
      { destruct (CO u path RP) as [q R]. inversion R as [|u' x' v' n' e' p' A B D R']; subst; [congruence|].
        destruct A as [_ A]. rewrite NN in A. injection A as <-. intros EO. rewrite EO in B. destruct B. }
      destruct (nth_error (n_out n) (d mod length (n_out n))) as [e|] eqn:NX.
      2:{ apply nth_error_None in NX. pose proof (Nat.mod_upper_bound d (length (n_out n))). destruct (n_out n); [congruence|cbn [length] in *; lia]. }
      pose proof (nth_error_In _ _ NX) as B.
      destruct (IH (erase_from (e_to e) path ++ [e_to e]) (e_to e)) as (more & r & H).
      { destruct (in_dec Z.eq_dec (e_to e) path) as [I|NI]; [eapply erase_walk; eauto|].
        rewrite erase_notin by auto. eapply walk_in_snoc; eauto. }
      exists more, r. cbn [app walk]. rewrite (walk_in_last _ _ _ _ RP). destruct (Z.eqb_spec u goal); [contradiction|].
      rewrite GN. cbn [obind]. rewrite NX. destruct (n_out n); [congruence|exact H]. }
  apply (G draws [start] start). constructor.
Qed.
Print Assumptions C19_walk_can_end.

(** A node without out edges other than the goal: undefined behaviour (an empty range for the random draw). *)
Theorem C19_dead_end_refuted :
  exists (g : graph unit N) (start goal : Z) (draws : list nat),
    is_index g start /\ is_index g goal /\ (exists p, walk_in g start goal p) /\ random_walk g start goal draws = UB.
Proof.
  exists (run_ops 0%N [] [AddValue tt; AddValue tt; AddValue tt; AddEdge 0 1 1%N; AddEdge 0 2 1%N]), 0%Z, 2%Z, [0].
  split; [split; [lia|reflexivity]|]. split; [split; [lia|reflexivity]|]. split; [|vm_compute; reflexivity].
  exists [0; 2]%Z. apply wi_cons with (e := mkEdge 0 2 1%N UNKNOWN) (x := 2%Z) (n := mkNode tt 0%N [] [mkEdge 0 1 1%N UNKNOWN; mkEdge 0 2 1%N UNKNOWN]);
    [split; [lia|reflexivity]|cbn; auto|reflexivity|constructor].
Qed.
Print Assumptions C19_dead_end_refuted.

Definition walk_graph : graph unit N :=
  run_ops 0%N [] [AddValue tt; AddValue tt; AddValue tt; AddValue tt; AddEdges 0 1 1%N; AddEdges 1 2 1%N; AddEdges 2 0 1%N; AddEdges 2 3 1%N].
Example C19_example_hypotheses :
  edges_in_range walk_graph /\ is_index walk_graph 0 /\
  (forall u p, walk_in walk_graph 0 u p -> exists q, walk_in walk_graph u 3 q) /\
  (forall u p n, walk_in walk_graph 0 u p -> u <> 3%Z -> has_node walk_graph u n -> n_out n <> []).
Proof.
  assert (ER : edges_in_range walk_graph).
  { intros i n e H I. assert (HN : has_node walk_graph (Z.of_nat i) n) by (split; [lia|rewrite Nat2Z.id; auto]).
    apply (proj1 (C08_linkage_invariant unit N 0%N _) (Z.of_nat i) n e HN I). }
  assert (IS : is_index walk_graph 0) by (split; [lia|reflexivity]).
  split; auto. split; auto.
  assert (W3 : walk_in walk_graph 3 3 [3]%Z) by constructor.
  assert (W2 : walk_in walk_graph 2 3 [2; 3]%Z).
  { eapply (wi_cons _ 2%Z 3%Z 3%Z _ (mkEdge 2 3 1%N UNKNOWN)); [split; [lia|reflexivity]|cbn; auto 10|reflexivity|exact W3]. }
  assert (W1 : walk_in walk_graph 1 3 [1; 2; 3]%Z).
  { eapply (wi_cons _ 1%Z 2%Z 3%Z _ (mkEdge 1 2 1%N UNKNOWN)); [split; [lia|reflexivity]|cbn; auto 10|reflexivity|exact W2]. }
  assert (W0 : walk_in walk_graph 0 3 [0; 2; 3]%Z).
  { eapply (wi_cons _ 0%Z 2%Z 3%Z _ (mkEdge 0 2 1%N UNKNOWN)); [split; [lia|reflexivity]|cbn; auto 10|reflexivity|exact W2]. }
  split.
  - intros u p R. destruct (walk_in_index walk_graph 0%Z u p ER IS R) as [A B]. change (length walk_graph) with 4 in B.
    assert (u = 0 \/ u = 1 \/ u = 2 \/ u = 3)%Z as [->|[->|[->| ->]]] by lia; eauto.
  - intros u p n R _ [H1 H2] EO. destruct (walk_in_index walk_graph 0%Z u p ER IS R) as [A B]. change (length walk_graph) with 4 in B.
    assert (u = 0 \/ u = 1 \/ u = 2 \/ u = 3)%Z as [->|[->|[->| ->]]] by lia; injection H2 as <-; discriminate.
Qed.
(** Walk 0 1 2 0 2 1 2 3 with its loops cut. *)
Example C19_example : random_walk walk_graph 0 3 [0; 1; 1; 1; 0; 1; 2] = Ok [0; 2; 3]%Z.
Proof. vm_compute. reflexivity. Qed.
