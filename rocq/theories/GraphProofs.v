(** Proofs about the graph model. *)
From Verif Require Import Base SerModel SerSpec SerProofs GraphModel GraphSpec.
From Coq Require Import Strings.Byte.

Section P.
Context {V W : Type}.
Implicit Types (g : graph V W).

Lemma in_range_iff g i : in_range g i = true <-> is_index g i.
Proof. unfold in_range, is_index, gsize. lia. Qed.

Lemma get_node_ok g i n : get_node g i = Ok n <-> has_node g i n.
Proof.
  unfold get_node, has_node. destruct (in_range g i) eqn:R.
  - apply in_range_iff in R. destruct R as [R1 R2].
    destruct (nth_error g (Z.to_nat i)) eqn:E.
    + split; intros H; [injection H as ->; auto | destruct H as [_ H]; congruence].
    + apply nth_error_None in E. lia.
  - split; [discriminate|]. intros [H1 H2]. exfalso.
    assert (Z.to_nat i < length g) by (apply nth_error_Some; congruence).
    assert (in_range g i = true) by (apply in_range_iff; unfold is_index; lia). congruence.
Qed.

Lemma get_node_total g i : is_index g i -> exists n, get_node g i = Ok n /\ nth_error g (Z.to_nat i) = Some n.
Proof.
  intros [H1 H2]. destruct (nth_error g (Z.to_nat i)) eqn:E.
  - exists n. split; auto. apply get_node_ok. split; auto.
  - apply nth_error_None in E. lia.
Qed.

Lemma get_node_fail g i : ~ is_index g i -> get_node g i = Throw OutOfRange.
Proof.
  intros H. unfold get_node. destruct (in_range g i) eqn:R; auto. apply in_range_iff in R. tauto.
Qed.

Lemma has_node_index g i n : has_node g i n -> is_index g i.
Proof.
  intros [H1 H2]. assert (Z.to_nat i < length g) by (apply nth_error_Some; congruence).
  unfold is_index. lia.
Qed.

(** ** addEdgeBetweenNodes *)

(** The effect of adding [e] from [f] to [t], node by node. *)
Definition with_edge (f t : Z) (e : edge W) (k : nat) (n : node V W) : node V W :=
  mkNode (n_value n) (n_dist n)
    (if (Z.of_nat k =? t)%Z then n_in n ++ [e] else n_in n)
    (if (Z.of_nat k =? f)%Z then n_out n ++ [e] else n_out n).

Definition graph_with_edge g f t e g' : Prop :=
  forall k, nth_error g' k = option_map (with_edge f t e k) (nth_error g k).

Lemma node_eta (n : node V W) : n = mkNode (n_value n) (n_dist n) (n_in n) (n_out n).
Proof. destruct n; reflexivity. Qed.

Lemma add_edge_ok g f t w :
  is_index g f -> is_index g t -> f <> t ->
  let e := mkEdge f t w UNKNOWN in
  exists g' e', add_edge g f t w = (g', Ok e') /\ graph_with_edge g f t e g' /\ length g' = length g /\
    exists nf, nth_error g (Z.to_nat f) = Some nf /\
               find (fun x => (e_to x =? t)%Z) (n_out nf ++ [e]) = Some e'.
Proof.
  intros Hf Ht Hne e. unfold add_edge.
  destruct (get_node_total g f Hf) as (nf & Gf & Nf).
  destruct (get_node_total g t Ht) as (nt & Gt & Nt).
  rewrite Gf, Gt. destruct (Z.eqb_spec f t) as [|_]; [contradiction|]. fold e.
  set (g1 := set_node g f (add_out_edge nf e)).
  assert (L1 : length g1 = length g) by apply upd_length.
  assert (N1 : nth_error g1 (Z.to_nat t) = Some nt).
  { unfold g1, set_node. rewrite upd_other; auto. unfold is_index in *. lia. }
  assert (G1 : get_node g1 t = Ok nt).
  { apply get_node_ok. split; auto. unfold is_index in *. lia. }
  rewrite G1.
  set (g2 := set_node g1 t (add_in_edge nt e)).
  assert (WE : graph_with_edge g f t e g2).
  { intros k. unfold g2, g1, set_node. rewrite !nth_error_upd, upd_length.
    unfold with_edge. unfold is_index in *.
    destruct (Nat.eqb_spec (Z.to_nat t) k) as [<-|K1].
    - rewrite Nt. cbn [option_map].
      destruct (Nat.ltb_spec (Z.to_nat t) (length g)); [|lia].
      destruct (Z.eqb_spec (Z.of_nat (Z.to_nat t)) t); [|lia].
      destruct (Z.eqb_spec (Z.of_nat (Z.to_nat t)) f); [lia|]. reflexivity.
    - destruct (Nat.eqb_spec (Z.to_nat f) k) as [<-|K2].
      + rewrite Nf. cbn [option_map].
        destruct (Nat.ltb_spec (Z.to_nat f) (length g)); [|lia].
        destruct (Z.eqb_spec (Z.of_nat (Z.to_nat f)) t); [lia|].
        destruct (Z.eqb_spec (Z.of_nat (Z.to_nat f)) f); [|lia]. reflexivity.
      + destruct (nth_error g k) as [n|] eqn:E; cbn [option_map]; auto.
        destruct (Z.eqb_spec (Z.of_nat k) t); [lia|].
        destruct (Z.eqb_spec (Z.of_nat k) f); [lia|]. rewrite <- node_eta. reflexivity. }
  assert (L2 : length g2 = length g) by (unfold g2, set_node; rewrite upd_length; exact L1).
  assert (G2 : get_node g2 f = Ok (add_out_edge nf e)).
  { apply get_node_ok. split; [unfold is_index in *; lia|].
    unfold g2, g1, set_node. rewrite upd_other by (unfold is_index in *; lia).
    apply upd_same. unfold is_index in *. lia. }
  rewrite G2. cbn [obind]. unfold get_edge_to, add_out_edge. cbn [n_out].
  destruct (find _ (n_out nf ++ [e])) as [e'|] eqn:F.
  - exists g2, e'. repeat split; auto. exists nf. auto.
  - exfalso. apply find_none with (x := e) in F; [|apply in_or_app; right; left; reflexivity].
    cbn in F. lia.
Qed.

Lemma add_edge_throws g f t w :
  ~ (is_index g f /\ is_index g t /\ f <> t) ->
  exists x, add_edge g f t w = (g, Throw x).
Proof.
  intros H. unfold add_edge.
  destruct (in_range g f) eqn:Rf.
  2:{ rewrite get_node_fail by (rewrite <- in_range_iff; congruence). eauto. }
  apply in_range_iff in Rf. destruct (get_node_total g f Rf) as (nf & -> & _).
  destruct (in_range g t) eqn:Rt.
  2:{ rewrite get_node_fail by (rewrite <- in_range_iff; congruence). eauto. }
  apply in_range_iff in Rt. destruct (get_node_total g t Rt) as (nt & -> & _).
  destruct (Z.eqb_spec f t); [eauto|]. tauto.
Qed.

Lemma add_edge_cases g f t :
  is_index g f /\ is_index g t /\ f <> t \/ ~ (is_index g f /\ is_index g t /\ f <> t).
Proof.
  destruct (in_range g f) eqn:A; [apply in_range_iff in A|right; rewrite <- in_range_iff; intros (X & _); congruence].
  destruct (in_range g t) eqn:B; [apply in_range_iff in B|right; rewrite <- in_range_iff, <- in_range_iff; intros (_ & X & _); congruence].
  destruct (Z.eq_dec f t); [right|left]; tauto.
Qed.

Lemma graph_with_edge_length g f t e g' : graph_with_edge g f t e g' -> length g' = length g.
Proof.
  intros H. destruct (Nat.lt_trichotomy (length g') (length g)) as [L|[L|L]]; auto; exfalso.
  - specialize (H (length g')).
    rewrite (proj2 (nth_error_None g' (length g')) (Nat.le_refl _)) in H.
    destruct (nth_error g (length g')) eqn:E; [discriminate|]. apply nth_error_None in E. lia.
  - specialize (H (length g)).
    rewrite (proj2 (nth_error_None g (length g)) (Nat.le_refl _)) in H. cbn in H.
    apply nth_error_None in H. lia.
Qed.

Lemma with_edge_linked g f t w g' :
  well_linked g -> is_index g f -> is_index g t -> f <> t ->
  graph_with_edge g f t (mkEdge f t w UNKNOWN) g' -> well_linked g'.
Proof.
  intros (WO & WI & WM) Hf Ht Hne G. pose proof (graph_with_edge_length _ _ _ _ _ G) as L.
  assert (IX : forall i, is_index g i -> is_index g' i) by (unfold is_index; rewrite L; auto).
  assert (HN : forall i n, has_node g' i n ->
             exists n0, has_node g i n0 /\ n = with_edge f t (mkEdge f t w UNKNOWN) (Z.to_nat i) n0).
  { intros i n [P N]. rewrite G in N. destruct (nth_error g (Z.to_nat i)) as [n0|] eqn:E; [|discriminate].
    injection N as <-. exists n0. repeat split; auto. }
  repeat split.
  - destruct (HN i n H) as (n0 & N0 & ->). unfold with_edge in H0. cbn [n_out] in H0.
    destruct (Z.eqb_spec (Z.of_nat (Z.to_nat i)) f).
    + apply in_app_or in H0. destruct H0 as [H0|[<-|[]]]; [apply (WO i n0 e N0 H0)|]. destruct N0; cbn. lia.
    + apply (WO i n0 e N0 H0).
  - destruct (HN i n H) as (n0 & N0 & ->). unfold with_edge in H0. cbn [n_out] in H0.
    assert (is_index g (e_to e)) as Q.
    { destruct (Z.eqb_spec (Z.of_nat (Z.to_nat i)) f).
      - apply in_app_or in H0. destruct H0 as [H0|[<-|[]]]; [apply (WO i n0 e N0 H0)|]. exact Ht.
      - apply (WO i n0 e N0 H0). }
    apply IX in Q. apply Q.
  - destruct (HN i n H) as (n0 & N0 & ->). unfold with_edge in H0. cbn [n_out] in H0.
    assert (is_index g (e_to e)) as Q.
    { destruct (Z.eqb_spec (Z.of_nat (Z.to_nat i)) f).
      - apply in_app_or in H0. destruct H0 as [H0|[<-|[]]]; [apply (WO i n0 e N0 H0)|]. exact Ht.
      - apply (WO i n0 e N0 H0). }
    apply IX in Q. apply Q.
  - destruct (HN i n H) as (n0 & N0 & ->). unfold with_edge in H0. cbn [n_out] in H0.
    destruct (Z.eqb_spec (Z.of_nat (Z.to_nat i)) f).
    + apply in_app_or in H0. destruct H0 as [H0|[<-|[]]]; [apply (WO i n0 e N0 H0)|]. destruct N0; cbn. lia.
    + apply (WO i n0 e N0 H0).
  - destruct (HN j n H) as (n0 & N0 & ->). unfold with_edge in H0. cbn [n_in] in H0.
    destruct (Z.eqb_spec (Z.of_nat (Z.to_nat j)) t).
    + apply in_app_or in H0. destruct H0 as [H0|[<-|[]]]; [apply (WI j n0 e N0 H0)|]. destruct N0; cbn. lia.
    + apply (WI j n0 e N0 H0).
  - destruct (HN j n H) as (n0 & N0 & ->). unfold with_edge in H0. cbn [n_in] in H0.
    assert (is_index g (e_from e)) as Q.
    { destruct (Z.eqb_spec (Z.of_nat (Z.to_nat j)) t).
      - apply in_app_or in H0. destruct H0 as [H0|[<-|[]]]; [apply (WI j n0 e N0 H0)|]. exact Hf.
      - apply (WI j n0 e N0 H0). }
    apply IX in Q. apply Q.
  - destruct (HN j n H) as (n0 & N0 & ->). unfold with_edge in H0. cbn [n_in] in H0.
    assert (is_index g (e_from e)) as Q.
    { destruct (Z.eqb_spec (Z.of_nat (Z.to_nat j)) t).
      - apply in_app_or in H0. destruct H0 as [H0|[<-|[]]]; [apply (WI j n0 e N0 H0)|]. exact Hf.
      - apply (WI j n0 e N0 H0). }
    apply IX in Q. apply Q.
  - destruct (HN j n H) as (n0 & N0 & ->). unfold with_edge in H0. cbn [n_in] in H0.
    destruct (Z.eqb_spec (Z.of_nat (Z.to_nat j)) t).
    + apply in_app_or in H0. destruct H0 as [H0|[<-|[]]]; [apply (WI j n0 e N0 H0)|]. destruct N0; cbn. lia.
    + apply (WI j n0 e N0 H0).
  - intros i j ni nj Hi Hj.
    destruct (HN i ni Hi) as (ni0 & Ni & ->). destruct (HN j nj Hj) as (nj0 & Nj & ->).
    specialize (WM i j ni0 nj0 Ni Nj). unfold outs_to, ins_from, with_edge in *. cbn [n_out n_in].
    destruct Ni as [Pi Ni], Nj as [Pj Nj]. rewrite !Z2Nat.id by auto.
    destruct (Z.eqb_spec i f), (Z.eqb_spec j t); rewrite ?filter_app; cbn [filter e_to e_from];
      rewrite WM; destruct (Z.eqb_spec t j); try lia; destruct (Z.eqb_spec f i); try lia;
      rewrite ?app_nil_r; auto.
Qed.

Lemma add_edge_linked g f t w : well_linked g -> well_linked (fst (add_edge g f t w)).
Proof.
  intros H. destruct (add_edge_cases g f t) as [(A & B & C)|N].
  - destruct (add_edge_ok g f t w A B C) as (g' & e' & -> & G & _). cbn [fst]. apply (with_edge_linked g f t w); auto.
  - destruct (add_edge_throws g f t w N) as [x ->]. exact H.
Qed.

Lemma add_edges_ok g i j w :
  is_index g i -> is_index g j -> i <> j ->
  exists g' e1 e2, add_edges g i j w = (g', Ok (e1, e2)) /\ length g' = length g /\
    (exists g1, graph_with_edge g i j (mkEdge i j w UNKNOWN) g1 /\ graph_with_edge g1 j i (mkEdge j i w UNKNOWN) g').
Proof.
  intros Hi Hj Hne. unfold add_edges.
  destruct (add_edge_ok g i j w Hi Hj Hne) as (g1 & e1 & -> & G1 & L1 & nf & Nf & F1).
  assert (Hi1 : is_index g1 i) by (unfold is_index in *; rewrite L1; auto).
  assert (Hj1 : is_index g1 j) by (unfold is_index in *; rewrite L1; auto).
  destruct (add_edge_ok g1 j i w Hj1 Hi1 (not_eq_sym Hne)) as (g2 & e2 & -> & G2 & L2 & _).
  assert (Hi2 : is_index g2 i) by (unfold is_index in *; rewrite L2; auto).
  destruct (get_node_total g2 i Hi2) as (n2 & -> & N2). cbn [obind].
  assert (O : n_out n2 = n_out nf ++ [mkEdge i j w UNKNOWN]).
  { rewrite G2, G1, Nf in N2. cbn in N2. injection N2 as <-. cbn.
    destruct Hi. rewrite Z2Nat.id by auto. rewrite Z.eqb_refl. destruct (Z.eqb_spec i j); [lia|]. reflexivity. }
  unfold get_edge_to. rewrite O, F1. cbn [obind]. exists g2, e1, e2. repeat split; auto. lia.
  exists g1. auto.
Qed.

Lemma add_edges_throws g i j w :
  ~ (is_index g i /\ is_index g j /\ i <> j) -> exists x, add_edges g i j w = (g, Throw x).
Proof.
  intros H. unfold add_edges. destruct (add_edge_throws g i j w H) as [x ->]. eauto.
Qed.

Lemma add_edges_linked g i j w : well_linked g -> well_linked (fst (add_edges g i j w)).
Proof.
  intros H. destruct (add_edge_cases g i j) as [(A & B & C)|N].
  - destruct (add_edges_ok g i j w A B C) as (g' & e1 & e2 & -> & L & g1 & G1 & G2). cbn [fst].
    pose proof (graph_with_edge_length _ _ _ _ _ G1) as L1.
    apply (with_edge_linked g1 j i w); auto.
    + apply (with_edge_linked g i j w); auto.
    + unfold is_index in *. rewrite L1. auto.
    + unfold is_index in *. rewrite L1. auto.
  - destruct (add_edges_throws g i j w N) as [x ->]. exact H.
Qed.

Lemma has_node_snoc g m i n : has_node (g ++ [m]) i n -> has_node g i n \/ i = gsize g /\ n = m.
Proof.
  intros [P N]. destruct (Nat.lt_ge_cases (Z.to_nat i) (length g)) as [L|L].
  - rewrite nth_error_app1 in N by auto. left. split; auto.
  - rewrite nth_error_app2 in N by auto. right.
    destruct (Z.to_nat i - length g) as [|k] eqn:E.
    + cbn in N. unfold gsize. split; [lia|congruence].
    + cbn in N. destruct k; discriminate.
Qed.

Lemma add_fresh_linked g inf v : well_linked g -> well_linked (g ++ [fresh_node inf v]).
Proof.
  intros (WO & WI & WM).
  assert (IX : forall i, is_index g i -> is_index (g ++ [fresh_node inf v]) i).
  { unfold is_index. intros i. rewrite app_length. cbn. lia. }
  repeat split.
  - destruct (has_node_snoc _ _ _ _ H) as [N|[-> ->]]; [apply (WO i n e N H0)|destruct H0].
  - destruct (has_node_snoc _ _ _ _ H) as [N|[-> ->]]; [|destruct H0].
    apply (IX (e_to e)). apply (WO i n e N H0).
  - destruct (has_node_snoc _ _ _ _ H) as [N|[-> ->]]; [|destruct H0].
    apply (IX (e_to e)). apply (WO i n e N H0).
  - destruct (has_node_snoc _ _ _ _ H) as [N|[-> ->]]; [apply (WO i n e N H0)|destruct H0].
  - destruct (has_node_snoc _ _ _ _ H) as [N|[-> ->]]; [apply (WI j n e N H0)|destruct H0].
  - destruct (has_node_snoc _ _ _ _ H) as [N|[-> ->]]; [|destruct H0].
    apply (IX (e_from e)). apply (WI j n e N H0).
  - destruct (has_node_snoc _ _ _ _ H) as [N|[-> ->]]; [|destruct H0].
    apply (IX (e_from e)). apply (WI j n e N H0).
  - destruct (has_node_snoc _ _ _ _ H) as [N|[-> ->]]; [apply (WI j n e N H0)|destruct H0].
  - intros i j ni nj Hi Hj.
    destruct (has_node_snoc _ _ _ _ Hi) as [Ni|[-> ->]]; destruct (has_node_snoc _ _ _ _ Hj) as [Nj|[-> ->]].
    + apply (WM i j ni nj Ni Nj).
    + unfold outs_to, ins_from. cbn [fresh_node n_in filter].
      assert (forall l, (forall e, In e l -> In e (n_out ni)) -> filter (fun e => (e_to e =? gsize g)%Z) l = []) as Q.
      { induction l as [|e l IH]; intros S; cbn [filter]; auto.
        destruct (WO i ni e Ni (S e (or_introl eq_refl))) as (_ & [_ B] & _).
        destruct (Z.eqb_spec (e_to e) (gsize g)) as [X|]; [unfold gsize in X; lia|].
        apply IH. intros; apply S; right; auto. }
      apply Q. auto.
    + unfold outs_to, ins_from. cbn [fresh_node n_out filter]. symmetry.
      assert (forall l, (forall e, In e l -> In e (n_in nj)) -> filter (fun e => (e_from e =? gsize g)%Z) l = []) as Q.
      { induction l as [|e l IH]; intros S; cbn [filter]; auto.
        destruct (WI j nj e Nj (S e (or_introl eq_refl))) as (_ & [_ B] & _).
        destruct (Z.eqb_spec (e_from e) (gsize g)) as [X|]; [unfold gsize in X; lia|].
        apply IH. intros; apply S; right; auto. }
      apply Q. auto.
    + reflexivity.
Qed.

(** ** CheckGraphLinkage *)

Lemma check_nodes_spec g : forall rest idx,
  check_nodes g idx rest = true <->
  forall k n, nth_error rest k = Some n ->
    forallb (check_in_edge g (Z.of_nat (idx + k))) (n_in n) = true /\
    forallb (check_out_edge g (Z.of_nat (idx + k))) (n_out n) = true.
Proof.
  induction rest as [|n rest IH]; intros idx; cbn [check_nodes].
  - split; auto. intros _ k n H. destruct k; discriminate.
  - destruct (forallb (check_in_edge g (Z.of_nat idx)) (n_in n)) eqn:A.
    + destruct (forallb (check_out_edge g (Z.of_nat idx)) (n_out n)) eqn:B.
      * rewrite IH. split.
        -- intros H [|k] m E; cbn in E.
           ++ injection E as <-. rewrite Nat.add_0_r. auto.
           ++ specialize (H k m E). rewrite Nat.add_succ_comm in H. exact H.
        -- intros H k m E. specialize (H (S k) m E). rewrite Nat.add_succ_comm. exact H.
      * split; [discriminate|]. intros H. specialize (H 0 n eq_refl). rewrite Nat.add_0_r in H.
        destruct H. congruence.
    + split; [discriminate|]. intros H. specialize (H 0 n eq_refl). rewrite Nat.add_0_r in H.
      destruct H. congruence.
Qed.

Lemma check_in_edge_spec g idx e :
  check_in_edge g idx e = true <->
  e_to e = idx /\ e_from e <> e_to e /\ exists m o, has_node g (e_from e) m /\ In o (n_out m) /\ e_to o = idx.
Proof.
  unfold check_in_edge, has_node, gsize.
  destruct (Z.ltb_spec (e_from e) 0); cbn [orb].
  { split; [discriminate|]. intros (_ & _ & m & o & (P & _) & _). lia. }
  destruct (Z.leb_spec (Z.of_nat (length g)) (e_from e)).
  { split; [discriminate|]. intros (_ & _ & m & o & (_ & P) & _).
    assert (Z.to_nat (e_from e) < length g) by (apply nth_error_Some; congruence). lia. }
  destruct (Z.eqb_spec (e_to e) idx); cbn [negb].
  2:{ split; [discriminate|]. intros (? & _). congruence. }
  destruct (Z.eqb_spec (e_from e) (e_to e)).
  { split; [discriminate|]. intros (_ & ? & _). congruence. }
  destruct (nth_error g (Z.to_nat (e_from e))) as [m|] eqn:E.
  - rewrite existsb_exists. split.
    + intros (o & I & Q). repeat split; auto. exists m, o. repeat split; auto. lia.
    + intros (_ & _ & m' & o & (_ & Q) & I & R). injection Q as <-. exists o. split; auto. lia.
  - split; [discriminate|]. intros (_ & _ & m & o & (_ & P) & _). discriminate.
Qed.

Lemma check_out_edge_spec g idx e :
  check_out_edge g idx e = true <->
  e_from e = idx /\ e_from e <> e_to e /\ exists m o, has_node g (e_to e) m /\ In o (n_in m) /\ e_from o = idx.
Proof.
  unfold check_out_edge, has_node, gsize.
  destruct (Z.eqb_spec (e_from e) idx); cbn [negb].
  2:{ split; [discriminate|]. intros (? & _). congruence. }
  destruct (Z.ltb_spec (e_to e) 0); cbn [orb].
  { split; [discriminate|]. intros (_ & _ & m & o & (P & _) & _). lia. }
  destruct (Z.leb_spec (Z.of_nat (length g)) (e_to e)).
  { split; [discriminate|]. intros (_ & _ & m & o & (_ & P) & _).
    assert (Z.to_nat (e_to e) < length g) by (apply nth_error_Some; congruence). lia. }
  destruct (Z.eqb_spec (e_from e) (e_to e)).
  { split; [discriminate|]. intros (_ & ? & _). congruence. }
  destruct (nth_error g (Z.to_nat (e_to e))) as [m|] eqn:E.
  - rewrite existsb_exists. split.
    + intros (o & I & Q). repeat split; auto. exists m, o. repeat split; auto. lia.
    + intros (_ & _ & m' & o & (_ & Q) & I & R). injection Q as <-. exists o. split; auto. lia.
  - split; [discriminate|]. intros (_ & _ & m & o & (_ & P) & _). discriminate.
Qed.

Lemma check_linkage_iff g : check_graph_linkage g = true <-> endpoint_linked g.
Proof.
  unfold check_graph_linkage. rewrite check_nodes_spec. cbn [Nat.add]. split.
  - intros H.
    assert (HI : forall j n e, has_node g j n -> In e (n_in n) -> check_in_edge g j e = true).
    { intros j n e [P N] I. destruct (H _ _ N) as [A _]. rewrite forallb_forall in A.
      specialize (A e I). rewrite Z2Nat.id in A by auto. exact A. }
    assert (HO : forall j n e, has_node g j n -> In e (n_out n) -> check_out_edge g j e = true).
    { intros j n e [P N] I. destruct (H _ _ N) as [_ A]. rewrite forallb_forall in A.
      specialize (A e I). rewrite Z2Nat.id in A by auto. exact A. }
    split.
    + intros i n e N I. pose proof (proj1 (check_out_edge_spec _ _ _) (HO i n e N I)) as (A & B & m & o & M & O & F).
      repeat split; auto; [congruence|].
      exists m, o. repeat split; auto; [apply M|apply M|].
      pose proof (proj1 (check_in_edge_spec _ _ _) (HI _ m o M O)) as (A' & _). exact A'.
    + intros j n e N I. pose proof (proj1 (check_in_edge_spec _ _ _) (HI j n e N I)) as (A & B & m & o & M & O & F).
      repeat split; auto; [congruence|].
      exists m, o. repeat split; auto; [apply M|apply M|].
      pose proof (proj1 (check_out_edge_spec _ _ _) (HO _ m o M O)) as (A' & _). exact A'.
  - intros [HO HI] k n N.
    assert (HN : has_node g (Z.of_nat k) n) by (split; [lia|]; rewrite Nat2Z.id; exact N).
    split; apply forallb_forall; intros e I.
    + apply check_in_edge_spec. destruct (HI _ n e HN I) as (A & B & m & o & M & O & F & T).
      repeat split; auto; [congruence|]. exists m, o. auto.
    + apply check_out_edge_spec. destruct (HO _ n e HN I) as (A & B & m & o & M & O & F & T).
      repeat split; auto; [congruence|]. exists m, o. auto.
Qed.

Lemma well_linked_endpoint g : well_linked g -> endpoint_linked g.
Proof.
  intros (WO & WI & WM). split.
  - intros i n e N I. destruct (WO i n e N I) as (A & B & C). repeat split; auto.
    destruct (get_node_total g _ B) as (m & M & _). apply get_node_ok in M.
    exists m, e. repeat split; auto; [apply M|apply M|].
    pose proof (WM i (e_to e) n m N M) as Q.
    assert (In e (outs_to n (e_to e))) as R by (apply filter_In; split; auto; lia).
    rewrite Q in R. apply filter_In in R. apply R.
  - intros j n e N I. destruct (WI j n e N I) as (A & B & C). repeat split; auto.
    destruct (get_node_total g _ B) as (m & M & _). apply get_node_ok in M.
    exists m, e. repeat split; auto; [apply M|apply M|].
    pose proof (WM (e_from e) j m n M N) as Q.
    assert (In e (ins_from n (e_from e))) as R by (apply filter_In; split; auto; lia).
    rewrite <- Q in R. apply filter_In in R. apply R.
Qed.

End P.
