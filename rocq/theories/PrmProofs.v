(** Proofs about roadmap building and updating. *)
From Verif Require Import Base Cost GraphModel GraphSpec GraphProofs KnnModel KnnProps PrmModel.
From Coq Require Import Permutation.

Lemma mapM_ok {A B} (f : A -> outcome B) (h : A -> B) l : (forall x, In x l -> f x = Ok (h x)) -> mapM f l = Ok (map h l).
Proof.
  induction l as [|x l IH]; intros H; cbn [mapM map]; auto. rewrite (H x) by (left; auto). cbn [obind].
  rewrite IH by (intros; apply H; right; auto). reflexivity.
Qed.
Lemma mapM_inv {A B} (f : A -> outcome B) l : forall r, mapM f l = Ok r ->
  length r = length l /\ forall i x, nth_error l i = Some x -> exists y, nth_error r i = Some y /\ f x = Ok y.
Proof.
  induction l as [|x l IH]; intros r H; cbn [mapM] in H.
  - injection H as <-. split; auto. intros [|i]; discriminate.
  - apply obind_ok in H. destruct H as (y & E & H). apply obind_ok in H. destruct H as (ys & E2 & H). injection H as <-.
    destruct (IH _ E2) as [I1 I2]. split; [cbn; auto|]. intros [|i] z Z; cbn in Z |- *; [injection Z as <-; eauto|apply I2; auto].
Qed.

(** The graph [g] with the edges [es] added, each recorded at both its ends in the order given. *)
Definition with_edges {V W} (g : graph V W) (es : list (edge W)) (g' : graph V W) : Prop :=
  forall k, nth_error g' k = option_map (fun n => mkNode (n_value n) (n_dist n)
    (n_in n ++ filter (fun e => (e_to e =? Z.of_nat k)%Z) es) (n_out n ++ filter (fun e => (e_from e =? Z.of_nat k)%Z) es)) (nth_error g k).

Section G.
Context {V W : Type}.
Implicit Types (g : graph V W).

Lemma with_edges_nil g : with_edges g [] g.
Proof. intros k. destruct (nth_error g k) as [n|]; cbn; auto. rewrite !app_nil_r. destruct n; reflexivity. Qed.
Lemma with_edges_app g g1 g2 es1 es2 : with_edges g es1 g1 -> with_edges g1 es2 g2 -> with_edges g (es1 ++ es2) g2.
Proof.
  intros H1 H2 k. rewrite H2, H1. destruct (nth_error g k) as [n|]; cbn; auto. rewrite !filter_app, !app_assoc. reflexivity.
Qed.
Lemma with_edges_one g f t w g' : graph_with_edge g f t (mkEdge f t w UNKNOWN) g' -> with_edges g [mkEdge f t w UNKNOWN] g'.
Proof.
  intros H k. rewrite H. destruct (nth_error g k) as [n|]; cbn; auto. unfold with_edge. rewrite (Z.eqb_sym t), (Z.eqb_sym f).
  destruct (Z.of_nat k =? t)%Z, (Z.of_nat k =? f)%Z; rewrite ?app_nil_r; reflexivity.
Qed.
Lemma with_edges_length g es g' : with_edges g es g' -> length g' = length g.
Proof.
  intros H. apply Nat.le_antisymm; apply Nat.nlt_ge; intros L.
  - destruct (nth_error g' (length g)) eqn:E; [|apply nth_error_None in E; lia].
    specialize (H (length g)). rewrite E, (proj2 (nth_error_None g (length g))) in H; [discriminate|auto].
  - destruct (nth_error g (length g')) eqn:E; [|apply nth_error_None in E; lia].
    specialize (H (length g')). rewrite E, (proj2 (nth_error_None g' (length g'))) in H; [discriminate|auto].
Qed.
End G.

Section P.
Context {V : Type} {C : cost} {ok : C -> Prop}.
Variable L : cost_laws C ok.
Variable dbg : bool.
Variable isinf : C -> bool.
Hypothesis Hinf : forall d, ok d -> isinf d = negb (cltb d cinf).
Variable dist : V -> V -> C.
Variable edge_ok : V -> V -> bool.
Hypothesis Hdist : forall a b, ok (dist a b).
Implicit Types (g : graph V C).

Definition conn_edges (new : Z) (l : list ((Z * C) * option (C * C))) : list (edge C) :=
  flat_map (fun p => match snd p with
    | Some (d1, d2) => if cgeb d1 czero && cgeb d2 czero then [mkEdge (fst (fst p)) new d1 UNKNOWN; mkEdge new (fst (fst p)) d2 UNKNOWN] else []
    | None => [] end) l.

Lemma connect_ok new : forall l g, is_index g new -> (forall p, In p l -> is_index g (fst (fst p)) /\ fst (fst p) <> new) ->
  exists g', connect g new l = (g', Ok tt) /\ with_edges g (conn_edges new l) g' /\ (well_linked g -> well_linked g').
Proof.
  induction l as [|[[i d] o] l IH]; intros g Hn Hl; cbn [connect].
  - exists g. split; auto. split; [apply with_edges_nil|auto].
  - destruct (Hl _ ltac:(left; reflexivity)) as [Hi Ne]. cbn [fst] in *.
    assert (Hl' : forall p, In p l -> is_index g (fst (fst p)) /\ fst (fst p) <> new) by (intros; apply Hl; right; auto).
    unfold conn_edges. cbn [flat_map snd fst]. fold (conn_edges new l).
    destruct o as [[d1 d2]|]; [|apply IH; auto].
    destruct (cgeb d1 czero && cgeb d2 czero); [|apply IH; auto].
    destruct (add_edge_ok g i new d1 Hi Hn Ne) as (g1 & e1 & E1 & G1 & L1 & _). rewrite E1.
    assert (IX : forall x, is_index g x -> is_index g1 x) by (unfold is_index; rewrite L1; auto).
    destruct (add_edge_ok g1 new i d2 (IX _ Hn) (IX _ Hi) (not_eq_sym Ne)) as (g2 & e2 & E2 & G2 & L2 & _). rewrite E2.
    assert (IX2 : forall x, is_index g x -> is_index g2 x) by (unfold is_index; rewrite L2, L1; auto).
    destruct (IH g2 (IX2 _ Hn)) as (g' & E & G & WL).
    { intros p P. destruct (Hl' p P). split; auto. }
    exists g'. split; auto. split.
    + change (with_edges g ([mkEdge i new d1 UNKNOWN] ++ [mkEdge new i d2 UNKNOWN] ++ conn_edges new l) g').
      eapply with_edges_app; [apply with_edges_one; exact G1|]. eapply with_edges_app; [apply with_edges_one; exact G2|exact G].
    + intros WG. apply WL. pose proof (add_edge_linked g1 new i d2) as X2. rewrite E2 in X2. apply X2.
      pose proof (add_edge_linked g i new d1 WG) as X1. rewrite E1 in X1. exact X1.
Qed.

(** What the nearest-neighbour search needs: finite distances for the serial one, a proper schedule for the parallel one. *)
Definition search_fits (sched : option (list (list nat))) dir g (state : V) : Prop :=
  match sched with
  | None => forall n, In n g -> cltb (graph_distance dist dir state n) cinf = true
  | Some s => schedule_of (length g) s
  end.

Lemma neighbors_nearest sched dir g state K : search_fits sched dir g state ->
  nearest (graph_distance dist dir state) g (neighbors isinf dist sched dir g state K) /\
  length (neighbors isinf dist sched dir g state K) <= K.
Proof.
  intros F. assert (O : forall n, In n g -> ok (graph_distance dist dir state n)) by (intros n _; destruct dir; cbn; auto).
  destruct sched as [s|]; cbn [search_fits neighbors] in *.
  - destruct (C25_parallel L isinf Hinf (graph_distance dist dir state) s g K O F) as [A B]. split; auto. rewrite A. lia.
  - destruct (C25_serial L (graph_distance dist dir state) g K) as [A B]; [intros x I; auto|]. split; auto. rewrite A. lia.
Qed.

(** Weights of the two edges between a neighbour and the new state. *)
Definition weight_to_new (dir : direction) (symmetric : bool) (state : V) (n : node V C) : C :=
  if symmetric then graph_distance dist dir state n else dist (n_value n) state.
Definition weight_from_new (dir : direction) (symmetric : bool) (state : V) (n : node V C) : C :=
  if symmetric then graph_distance dist dir state n else dist state (n_value n).

(** The edges that connect the new state: a pair for each neighbour whose edge to the new state is valid. *)
Definition new_edges g dir symmetric (state : V) (nbs : list (Z * C)) : list (edge C) :=
  flat_map (fun nb => match nth_error g (Z.to_nat (fst nb)) with
    | Some n => if edge_ok (n_value n) state
                then [mkEdge (fst nb) (gsize g) (weight_to_new dir symmetric state n) UNKNOWN;
                      mkEdge (gsize g) (fst nb) (weight_from_new dir symmetric state n) UNKNOWN] else []
    | None => [] end) nbs.

Lemma add_node_spec sched dir g state K symmetric duplicates :
  search_fits sched dir g state -> symmetric = true \/ dir = RoadmapToNew ->
  let nbs := neighbors isinf dist sched dir g state K in
  (duplicates = false /\ exists i n, has_node g i n /\ In i (map fst nbs) /\ is_zero (graph_distance dist dir state n) = true /\
     add_node_to_roadmap dbg isinf dist edge_ok sched dir g state K symmetric duplicates = (g, Ok i)) \/
  ((duplicates = true \/ forall nb, In nb nbs -> is_zero (snd nb) = false) /\ exists g',
     add_node_to_roadmap dbg isinf dist edge_ok sched dir g state K symmetric duplicates = (g', Ok (gsize g)) /\
     with_edges (g ++ [fresh_node cinf state]) (new_edges g dir symmetric state nbs) g' /\ (well_linked g -> well_linked g')).
Proof.
  intros F SD. cbv zeta. destruct (neighbors_nearest sched dir g state K F) as [[_ [N2 _]] _].
  unfold add_node_to_roadmap. set (nbs := neighbors isinf dist sched dir g state K) in *.
  destruct (if duplicates then None else find (fun nb => is_zero (snd nb)) nbs) as [nb|] eqn:FD.
  - left. destruct duplicates; [discriminate|]. apply find_some in FD. destruct FD as [I Z0]. split; auto.
    destruct (N2 nb I) as (i & n & E & ->). cbn [fst snd] in *. exists (Z.of_nat i), n. split; [split; [lia|rewrite Nat2Z.id; auto]|].
    split; [apply in_map_iff; exists (Z.of_nat i, graph_distance dist dir state n); auto|]. auto.
  - right. split.
    { destruct duplicates; auto. right. intros nb I. destruct (is_zero (snd nb)) eqn:E; auto.
      pose proof (find_none _ _ FD nb I) as X. cbn in X. congruence. }
    set (g1 := g ++ [fresh_node cinf state]).
    assert (GN : (gsize g1 - 1)%Z = gsize g) by (unfold gsize, g1; rewrite app_length; cbn; lia). rewrite GN.
    set (h := fun nb : Z * C => match nth_error g (Z.to_nat (fst nb)) with
      | Some n => if edge_ok (n_value n) state then Some (weight_to_new dir symmetric state n, weight_from_new dir symmetric state n) else None
      | None => None end).
    assert (IXn : forall nb, In nb nbs -> exists i n, nb = (Z.of_nat i, graph_distance dist dir state n) /\ nth_error g i = Some n /\ get_node g1 (fst nb) = Ok n).
    { intros nb I. destruct (N2 nb I) as (i & n & E & ->). exists i, n. split; auto. split; auto. apply get_node_ok. cbn [fst]. split; [lia|].
      rewrite Nat2Z.id. unfold g1. rewrite nth_error_app1; auto. apply nth_error_Some. congruence. }
    rewrite (mapM_ok _ h).
    2:{ intros nb I. destruct (IXn nb I) as (i & n & -> & E & G). unfold neighbor_distances, h. rewrite G. cbn [obind fst snd].
        rewrite Nat2Z.id, E. destruct (edge_ok (n_value n) state); auto. unfold weight_to_new, weight_from_new. destruct symmetric; auto.
        destruct SD as [SD|SD]; [discriminate|]. subst dir. reflexivity. }
    destruct (connect_ok (gsize g) (combine nbs (map h nbs)) g1) as (g' & E & G & WL).
    + unfold is_index, g1, gsize. rewrite app_length. cbn. lia.
    + intros [nb o] I. apply in_combine_l in I. cbn [fst]. destruct (IXn nb I) as (i & n & -> & E & _). cbn [fst].
      assert (i < length g) by (apply nth_error_Some; congruence). unfold is_index, g1, gsize. rewrite app_length. cbn. lia.
    + exists g'. rewrite E. split; auto. split.
      * assert (X : conn_edges (gsize g) (combine nbs (map h nbs)) = new_edges g dir symmetric state nbs).
        { assert (OKG : forall a, ok a -> cgeb a czero = true).
          { intros a A. rewrite (cl_geb _ _ L) by (auto; apply (cl_zero _ _ L)). rewrite (cl_zero_min _ _ L); auto. }
          clear -OKG Hdist. unfold conn_edges, new_edges. induction nbs as [|nb l IH]; cbn [combine map flat_map]; auto.
          rewrite IH. f_equal. cbn [fst snd]. unfold h. destruct (nth_error g (Z.to_nat (fst nb))) as [n|]; auto.
          destruct (edge_ok (n_value n) state); auto. rewrite !OKG; auto; unfold weight_to_new, weight_from_new; destruct symmetric, dir; cbn; auto. }
        rewrite <- X. exact G.
      * intros WG. apply WL. apply add_fresh_linked. exact WG.
Qed.

Lemma new_edges_in g dir symmetric state nbs e :
  In e (new_edges g dir symmetric state nbs) <->
  exists i n, In i (map fst nbs) /\ nth_error g (Z.to_nat i) = Some n /\ edge_ok (n_value n) state = true /\
    (e = mkEdge i (gsize g) (weight_to_new dir symmetric state n) UNKNOWN \/ e = mkEdge (gsize g) i (weight_from_new dir symmetric state n) UNKNOWN).
Proof.
  unfold new_edges. rewrite in_flat_map. split.
  - intros (nb & I & H). destruct (nth_error g (Z.to_nat (fst nb))) as [n|] eqn:E; [|destruct H].
    destruct (edge_ok (n_value n) state) eqn:V'; [|destruct H]. exists (fst nb), n. split; [apply in_map; auto|]. split; auto. split; auto.
    destruct H as [H|[H|[]]]; auto.
  - intros (i & n & I & E & V' & H). apply in_map_iff in I. destruct I as (nb & <- & I). exists nb. split; auto.
    rewrite E, V'. cbn. destruct H as [ -> | -> ]; auto.
Qed.
End P.

(** ** UpdateRoadMapEdges *)
Section U.
Context {V : Type} {C : cost}.
Variable dist : V -> V -> C.
Variable edge_ok : V -> V -> bool.
Implicit Types (g : graph V C).

(** The edge with its weight recomputed from the states at its ends. *)
Definition reweigh g (e : edge C) : edge C :=
  match nth_error g (Z.to_nat (e_from e)), nth_error g (Z.to_nat (e_to e)) with
  | Some a, Some b => mkEdge (e_from e) (e_to e) (if edge_ok (n_value a) (n_value b) then dist (n_value a) (n_value b) else cinf) (e_valid e)
  | _, _ => e
  end.
Definition reweighed g : graph V C :=
  map (fun n => mkNode (n_value n) (n_dist n) (map (reweigh g) (n_in n)) (map (reweigh g) (n_out n))) g.

Definition edge_at g (out : bool) (i k : nat) : option (edge C) :=
  match nth_error g i with Some n => nth_error (if out then n_out n else n_in n) k | None => None end.
Definition frame g : list (V * C) := map (fun n => (n_value n, n_dist n)) g.

Lemma graph_ext g1 g2 : frame g1 = frame g2 -> (forall o i k, edge_at g1 o i k = edge_at g2 o i k) -> g1 = g2.
Proof.
  intros F E. apply nth_error_ext. intros i.
  assert (X : nth_error (frame g1) i = nth_error (frame g2) i) by congruence. unfold frame in X. rewrite !nth_error_map in X.
  destruct (nth_error g1 i) as [n1|] eqn:N1, (nth_error g2 i) as [n2|] eqn:N2; cbn in X; try discriminate; auto.
  f_equal. injection X as X1 X2. destruct n1 as [v1 d1 in1 out1], n2 as [v2 d2 in2 out2]. cbn in *. subst. f_equal.
  - apply nth_error_ext. intros k. specialize (E false i k). unfold edge_at in E. rewrite N1, N2 in E. exact E.
  - apply nth_error_ext. intros k. specialize (E true i k). unfold edge_at in E. rewrite N1, N2 in E. exact E.
Qed.

Definition loc (a : write C) : bool * nat * nat * C := match a with WOut i k w => (true, i, k, w) | WIn i k w => (false, i, k, w) end.

Lemma upd_edge_nth (l : list (edge C)) k w j : nth_error (upd_edge l k w) j = if k =? j then option_map (set_weight w) (nth_error l j) else nth_error l j.
Proof.
  unfold upd_edge. destruct (nth_error l k) as [e|] eqn:E.
  - rewrite nth_error_upd. destruct (Nat.eqb_spec k j) as [->|]; auto. rewrite E.
    destruct (Nat.ltb_spec j (length l)); auto. apply nth_error_None in H. congruence.
  - destruct (Nat.eqb_spec k j) as [->|]; auto. rewrite E. reflexivity.
Qed.

Lemma apply_frame a g : frame (apply_write g a) = frame g.
Proof.
  unfold frame. apply nth_error_ext. intros j. rewrite !nth_error_map.
  destruct a as [i k w|i k w]; cbn [apply_write]; destruct (nth_error g i) as [n|] eqn:E; auto;
    rewrite nth_error_upd; destruct (Nat.eqb_spec i j) as [->|]; auto; rewrite E;
    (destruct (Nat.ltb_spec j (length g)) as [|H]; [reflexivity|apply nth_error_None in H; congruence]).
Qed.
Lemma apply_edge a g o i k : edge_at (apply_write g a) o i k =
  let '(o', i', k', w) := loc a in if Bool.eqb o' o && (i' =? i) && (k' =? k) then option_map (set_weight w) (edge_at g o i k) else edge_at g o i k.
Proof.
  unfold edge_at. destruct a as [i' k' w|i' k' w]; cbn [apply_write loc];
    (destruct (nth_error g i') as [n|] eqn:E; [rewrite nth_error_upd|]; destruct (Nat.eqb_spec i' i) as [->|];
     rewrite ?andb_false_r, ?andb_true_r; cbn [andb]; auto; rewrite E;
     [destruct (Nat.ltb_spec i (length g)) as [|H]; [|apply nth_error_None in H; congruence];
      destruct o; cbn [Bool.eqb andb n_in n_out]; auto; rewrite upd_edge_nth; auto
     |destruct (Bool.eqb _ o && _); auto]).
Qed.
Lemma fold_frame ws : forall g, frame (fold_left apply_write ws g) = frame g.
Proof. induction ws as [|a ws IH]; intros g; cbn; auto. rewrite IH. apply apply_frame. Qed.
Lemma fold_edge ws o i k w : forall g, (forall a w', In a ws -> loc a = (o, i, k, w') -> w' = w) ->
  edge_at (fold_left apply_write ws g) o i k = edge_at g o i k /\ (forall a w', In a ws -> loc a <> (o, i, k, w')) \/
  edge_at (fold_left apply_write ws g) o i k = option_map (set_weight w) (edge_at g o i k).
Proof.
  induction ws as [|a ws IH]; intros g H; cbn [fold_left].
  - left. split; auto.
  - destruct (IH (apply_write g a)) as [[E1 E2]|E]; [intros; eapply H; eauto; right; auto| |].
    + rewrite E1, apply_edge. destruct (loc a) as [[[o' i'] k'] w'] eqn:La.
      destruct (Bool.eqb o' o && (i' =? i) && (k' =? k)) eqn:B.
      * right. apply andb_true_iff in B. destruct B as [B B3]. apply andb_true_iff in B. destruct B as [B1 B2].
        apply eqb_prop in B1. apply Nat.eqb_eq in B2, B3. subst. rewrite (H a w') by (auto; left; auto). reflexivity.
      * left. split; auto. intros b w'' [<-|I]; [|eauto]. intros X. rewrite La in X. injection X as -> -> -> ->.
        rewrite Bool.eqb_reflx, !Nat.eqb_refl in B. discriminate.
    + right. rewrite E, apply_edge. destruct (loc a) as [[[o' i'] k'] w'] eqn:La.
      destruct (Bool.eqb o' o && (i' =? i) && (k' =? k)) eqn:B; auto.
      apply andb_true_iff in B. destruct B as [B B3]. apply andb_true_iff in B. destruct B as [B1 B2].
      apply eqb_prop in B1. apply Nat.eqb_eq in B2, B3. subst. rewrite (H a w') by (auto; left; auto).
      destruct (edge_at g o i k); reflexivity.
Qed.

Lemma in_enum {A} (l : list A) k x : In (k, x) (combine (seq 0 (length l)) l) <-> nth_error l k = Some x.
Proof.
  assert (G : forall s, In (k, x) (combine (seq s (length l)) l) <-> s <= k /\ nth_error l (k - s) = Some x).
  { induction l as [|y l IH]; intros s; cbn [length seq combine In].
    - split; [tauto|]. intros [_ H]. destruct (k - s); discriminate.
    - rewrite IH. split.
      + intros [E|[H1 H2]]; [injection E as -> ->; rewrite Nat.sub_diag; auto|]. split; [lia|].
        replace (k - s) with (S (k - S s)) by lia. exact H2.
      + intros [H1 H2]. destruct (Nat.eq_dec k s) as [->|]; [rewrite Nat.sub_diag in H2; cbn in H2; left; congruence|].
        right. split; [lia|]. replace (k - s) with (S (k - S s)) in H2 by lia. exact H2. }
  rewrite (G 0), Nat.sub_0_r. split; [tauto|]. split; [lia|auto].
Qed.

(** All writes, when every out edge leads to a node. *)
Definition e_writes g (i : nat) (n : node V C) (ke : nat * edge C) : list (write C) :=
  match nth_error g (Z.to_nat (e_to (snd ke))) with
  | Some m => let w := updated_weight dist edge_ok (n_value n) (n_value m) in
      WOut i (fst ke) w ::
      flat_map (fun p => if (e_from (snd p) =? Z.of_nat i)%Z then [WIn (Z.to_nat (e_to (snd ke))) (fst p) w] else [])
               (combine (seq 0 (length (n_in m))) (n_in m))
  | None => [] end.
Definition n_writes g (p : nat * node V C) : list (write C) :=
  concat (map (e_writes g (fst p) (snd p)) (combine (seq 0 (length (n_out (snd p)))) (n_out (snd p)))).

Lemma all_writes_ok g : edges_in_range g -> all_writes dist edge_ok g = Ok (map (n_writes g) (combine (seq 0 (length g)) g)).
Proof.
  intros ER. apply mapM_ok. intros [i n] I. apply in_enum in I. unfold node_writes, n_writes. cbn [fst snd].
  rewrite (mapM_ok _ (e_writes g i n)); [reflexivity|]. intros [k e] J. apply in_enum in J.
  pose proof (ER i n e I ltac:(eapply nth_error_In; eauto)) as IX. unfold edge_writes, e_writes. cbn [fst snd].
  destruct (get_node_total g _ IX) as (m & -> & ->). reflexivity.
Qed.

Lemma writes_in g a : In a (concat (map (n_writes g) (combine (seq 0 (length g)) g))) <->
  exists i n k e m, nth_error g i = Some n /\ nth_error (n_out n) k = Some e /\ nth_error g (Z.to_nat (e_to e)) = Some m /\
    let w := updated_weight dist edge_ok (n_value n) (n_value m) in
    (a = WOut i k w \/ exists k' e', nth_error (n_in m) k' = Some e' /\ e_from e' = Z.of_nat i /\ a = WIn (Z.to_nat (e_to e)) k' w).
Proof.
  rewrite <- flat_map_concat_map, in_flat_map. split.
  - intros ([i n] & I & A). apply in_enum in I. unfold n_writes in A. cbn [fst snd] in A. rewrite <- flat_map_concat_map, in_flat_map in A.
    destruct A as ([k e] & J & A). apply in_enum in J. unfold e_writes in A. cbn [fst snd] in A.
    destruct (nth_error g (Z.to_nat (e_to e))) as [m|] eqn:M; [|destruct A]. exists i, n, k, e, m. split; auto. split; auto. split; auto.
    cbv zeta in *. destruct A as [<-|A]; auto. right. apply in_flat_map in A. destruct A as ([k' e'] & K & A). apply in_enum in K. cbn [fst snd] in A.
    destruct (Z.eqb_spec (e_from e') (Z.of_nat i)); [|destruct A]. destruct A as [<-|[]]. eauto.
  - intros (i & n & k & e & m & I & J & M & A). exists (i, n). split; [apply in_enum; auto|]. unfold n_writes. cbn [fst snd].
    rewrite <- flat_map_concat_map, in_flat_map. exists (k, e). split; [apply in_enum; auto|]. unfold e_writes. cbn [fst snd]. rewrite M.
    cbv zeta in *. destruct A as [->|(k' & e' & K & F & ->)]; [left; auto|right]. apply in_flat_map. exists (k', e'). split; [apply in_enum; auto|].
    cbn [fst snd]. rewrite F, Z.eqb_refl. left. auto.
Qed.

Lemma endpoint_range g : endpoint_linked g -> edges_in_range g.
Proof.
  intros [EO _] i n e N I. destruct (EO (Z.of_nat i) n e) as (_ & _ & m & _ & M & _); [split; [lia|rewrite Nat2Z.id; auto]|auto|].
  eapply has_node_index; eauto.
Qed.

Lemma fold_writes g ws : endpoint_linked g -> Permutation ws (concat (map (n_writes g) (combine (seq 0 (length g)) g))) ->
  fold_left apply_write ws g = reweighed g.
Proof.
  intros [EO EI] P.
  assert (IN : forall a, In a ws <-> In a (concat (map (n_writes g) (combine (seq 0 (length g)) g)))).
  { intros a. split; apply Permutation_in; auto. apply Permutation_sym; auto. }
  apply graph_ext.
  - rewrite fold_frame. unfold frame, reweighed. rewrite map_map. reflexivity.
  - intros o i k. unfold reweighed, edge_at at 2. rewrite nth_error_map.
    destruct (nth_error g i) as [n|] eqn:N; cbn [option_map].
    2:{ assert (edge_at g o i k = None) by (unfold edge_at; rewrite N; auto). destruct (fold_edge ws o i k cinf g) as [[E _]|E]; [| |]; try (rewrite E, H; reflexivity).
        intros a w' A La. apply IN, writes_in in A. destruct A as (i1 & n1 & k1 & e1 & m1 & A1 & A2 & A3 & [ -> |(k2 & e2 & A4 & A5 & ->)]);
          cbn in La; injection La as <- <- <- <-; congruence. }
    assert (HN : has_node g (Z.of_nat i) n) by (split; [lia|rewrite Nat2Z.id; auto]).
    assert (R : nth_error (if o then n_out (mkNode (n_value n) (n_dist n) (map (reweigh g) (n_in n)) (map (reweigh g) (n_out n)))
                            else n_in (mkNode (n_value n) (n_dist n) (map (reweigh g) (n_in n)) (map (reweigh g) (n_out n)))) k =
                 option_map (reweigh g) (edge_at g o i k)).
    { unfold edge_at. rewrite N. destruct o; cbn [n_out n_in]; apply nth_error_map. }
    rewrite R. destruct (edge_at g o i k) as [e|] eqn:Eg.
    2:{ destruct (fold_edge ws o i k cinf g) as [[E _]|E]; try (rewrite E, Eg; reflexivity).
        intros a w' A La. exfalso. apply IN, writes_in in A. destruct A as (i1 & n1 & k1 & e1 & m1 & A1 & A2 & A3 & [ -> |(k2 & e2 & A4 & A5 & ->)]);
          cbn in La; injection La as <- <- <- _; unfold edge_at in Eg; rewrite ?A1, ?A3 in Eg; congruence. }
    unfold edge_at in Eg. rewrite N in Eg. destruct o.
    + (* out edge *)
      destruct (EO _ _ e HN ltac:(eapply nth_error_In; eauto)) as (F & _ & m & e' & M & _). 
      assert (W : reweigh g e = set_weight (updated_weight dist edge_ok (n_value n) (n_value m)) e).
      { unfold reweigh, set_weight, updated_weight. rewrite F, Nat2Z.id, N, (proj2 M). reflexivity. }
      destruct (fold_edge ws true i k (updated_weight dist edge_ok (n_value n) (n_value m)) g) as [[_ E]|E].
      * intros a w' A La. apply IN, writes_in in A. destruct A as (i1 & n1 & k1 & e1 & m1 & A1 & A2 & A3 & [ -> |(k2 & e2 & A4 & A5 & ->)]); cbn in La; [|discriminate].
        injection La as <- <- <-. destruct M as [_ M]. replace n1 with n in * by congruence. replace e1 with e in * by congruence. congruence.
      * exfalso. apply (E (WOut i k (updated_weight dist edge_ok (n_value n) (n_value m))) (updated_weight dist edge_ok (n_value n) (n_value m))); auto.
        apply IN, writes_in. exists i, n, k, e, m. split; auto. split; auto. split; [apply M|]. left. auto.
      * rewrite E. unfold edge_at. rewrite N, Eg. cbn. congruence.
    + destruct (EI _ _ e HN ltac:(eapply nth_error_In; eauto)) as (F & _ & m & e' & M & I' & F' & T'). 
      assert (W : reweigh g e = set_weight (updated_weight dist edge_ok (n_value m) (n_value n)) e).
      { unfold reweigh, set_weight, updated_weight. rewrite F, Nat2Z.id, N, (proj2 M). reflexivity. }
      destruct (fold_edge ws false i k (updated_weight dist edge_ok (n_value m) (n_value n)) g) as [[_ E]|E].
      * intros a w' A La. apply IN, writes_in in A. destruct A as (i1 & n1 & k1 & e1 & m1 & A1 & A2 & A3 & [ -> |(k2 & e2 & A4 & A5 & ->)]); cbn in La; [discriminate|].
        injection La as <- <- <-. destruct M as [_ M]. rewrite A3 in N. injection N as <-. rewrite A4 in Eg. injection Eg as <-.
        rewrite A5, Nat2Z.id in M. congruence.
      * exfalso. apply In_nth_error in I'. destruct I' as (k1 & I').
        apply (E (WIn i k (updated_weight dist edge_ok (n_value m) (n_value n))) (updated_weight dist edge_ok (n_value m) (n_value n))); auto.
        apply IN, writes_in. exists (Z.to_nat (e_from e)), m, k1, e', n. split; [apply M|]. split; auto. rewrite T', Nat2Z.id. split; auto.
        right. exists k, e. split; auto. split; auto. rewrite Z2Nat.id by apply M. auto.
      * rewrite E. unfold edge_at. rewrite N, Eg. cbn. congruence.
Qed.

Lemma reweigh_ends g e : e_from (reweigh g e) = e_from e /\ e_to (reweigh g e) = e_to e.
Proof. unfold reweigh. destruct (nth_error g (Z.to_nat (e_from e))), (nth_error g (Z.to_nat (e_to e))); auto. Qed.
Lemma filter_reweigh (f f' : edge C -> bool) g l : (forall e, f (reweigh g e) = f' e) -> filter f (map (reweigh g) l) = map (reweigh g) (filter f' l).
Proof. intros H. induction l as [|e l IH]; cbn; auto. rewrite H, IH. destruct (f' e); auto. Qed.
Lemma reweighed_node g i n' : has_node (reweighed g) i n' -> exists n, has_node g i n /\
  n' = mkNode (n_value n) (n_dist n) (map (reweigh g) (n_in n)) (map (reweigh g) (n_out n)).
Proof.
  intros [P N]. unfold reweighed in N. rewrite nth_error_map in N. destruct (nth_error g (Z.to_nat i)) as [n|] eqn:E; [|discriminate].
  injection N as <-. exists n. split; [split; auto|auto].
Qed.
Lemma reweighed_linked g : well_linked g -> well_linked (reweighed g).
Proof.
  intros (WO & WI & WM).
  assert (IX : forall i, is_index (reweighed g) i <-> is_index g i) by (intros i; unfold is_index, reweighed; rewrite map_length; tauto).
  split; [|split].
  - intros i n e H I. apply reweighed_node in H. destruct H as (m & M & ->). cbn in I. apply in_map_iff in I. destruct I as (e0 & <- & I).
    destruct (reweigh_ends g e0) as [-> ->]. rewrite IX. apply (WO i m); auto.
  - intros i n e H I. apply reweighed_node in H. destruct H as (m & M & ->). cbn in I. apply in_map_iff in I. destruct I as (e0 & <- & I).
    destruct (reweigh_ends g e0) as [-> ->]. rewrite IX. apply (WI i m); auto.
  - intros i j ni nj Hi Hj. apply reweighed_node in Hi. destruct Hi as (mi & Mi & ->). apply reweighed_node in Hj. destruct Hj as (mj & Mj & ->).
    unfold outs_to, ins_from. cbn [n_out n_in].
    rewrite (filter_reweigh _ (fun e => (e_to e =? j)%Z)) by (intros e; destruct (reweigh_ends g e) as [_ ->]; auto).
    rewrite (filter_reweigh _ (fun e => (e_from e =? i)%Z)) by (intros e; destruct (reweigh_ends g e) as [-> _]; auto).
    f_equal. apply WM; auto.
Qed.
End U.
