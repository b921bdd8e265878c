(** Proofs about the RRT model. *)
From Verif Require Import Base RrtModel.

Section P.
Context {V : Type}.
Notation tree := (list (pstate V)).
Implicit Types nodes : tree.

Definition node_at nodes (i : Z) (s : pstate V) : Prop := (0 <= i)%Z /\ nth_error nodes (Z.to_nat i) = Some s.
Definition in_tree nodes (i : Z) : Prop := (0 <= i < tsize nodes)%Z.

Lemma in_tree_node nodes i : in_tree nodes i <-> exists s, node_at nodes i s.
Proof.
  unfold in_tree, node_at, tsize. split.
  - intros H. destruct (nth_error nodes (Z.to_nat i)) as [s|] eqn:E; [exists s; split; [lia|auto]|]. apply nth_error_None in E. lia.
  - intros (s & H & E). assert (Z.to_nat i < length nodes) by (apply nth_error_Some; congruence). lia.
Qed.
Lemma node_at_fun nodes i s t : node_at nodes i s -> node_at nodes i t -> s = t.
Proof. intros [_ A] [_ B]. congruence. Qed.

Lemma check_from_iff nodes rest : forall i, (0 <= i)%Z -> check_from nodes i rest = true <->
  forall k s, nth_error rest k = Some s -> check_node nodes (i + Z.of_nat k) s = true.
Proof.
  induction rest as [|s rest IH]; intros i Hi; cbn [check_from].
  - split; auto. intros _ [|k]; discriminate.
  - rewrite andb_true_iff, IH by lia. split.
    + intros [A B] [|k] t E; cbn in E; [injection E as <-; rewrite Z.add_0_r; auto|].
      replace (i + Z.of_nat (S k))%Z with (i + 1 + Z.of_nat k)%Z by lia. auto.
    + intros H. split; [specialize (H 0 s eq_refl); rewrite Z.add_0_r in H; auto|].
      intros k t E. replace (i + 1 + Z.of_nat k)%Z with (i + Z.of_nat (S k))%Z by lia. apply H. auto.
Qed.
Lemma check_iff nodes : check_tree_linkage nodes = true <-> forall i s, node_at nodes i s -> check_node nodes i s = true.
Proof.
  unfold check_tree_linkage. rewrite check_from_iff by lia. split.
  - intros H i s [P E]. specialize (H _ _ E). replace (0 + Z.of_nat (Z.to_nat i))%Z with i in H by lia. auto.
  - intros H k s E. apply H. split; [lia|]. replace (Z.to_nat (0 + Z.of_nat k)) with k by lia. auto.
Qed.
Lemma existsb_in i l : existsb (Z.eqb i) l = true <-> In i l.
Proof.
  rewrite existsb_exists. split.
  - intros (x & I & E). apply Z.eqb_eq in E. subst. auto.
  - intros I. exists i. split; auto. apply Z.eqb_refl.
Qed.

(** What the check says about one node. *)
Definition parent_ok nodes i (s : pstate V) : Prop :=
  p_parent s = (-1)%Z \/ (tsize nodes <= p_parent s)%Z \/
  (in_tree nodes (p_parent s) /\ p_parent s <> i /\ exists ps, node_at nodes (p_parent s) ps /\ p_init ps = true /\ In i (p_children ps)).
Definition child_ok nodes i c : Prop :=
  (0 < c < tsize nodes)%Z /\ c <> i /\ exists cs, node_at nodes c cs /\ p_init cs = true /\ p_parent cs = i.
Lemma check_parent_iff nodes i s : check_parent nodes i s = true <-> parent_ok nodes i s.
Proof.
  unfold check_parent, parent_ok, in_tree. destruct (Z.leb_spec 0 (p_parent s)); cbn [andb].
  2:{ rewrite negb_true_iff, Z.ltb_ge. assert (0 <= tsize nodes)%Z by (unfold tsize; lia). split; [left; lia|]. intros [|[|[]]]; lia. }
  destruct (Z.ltb_spec (p_parent s) (tsize nodes)).
  - rewrite andb_true_iff, negb_true_iff, Z.eqb_neq. split.
    + intros [A B]. right. right. split; [lia|]. split; auto. destruct (nth_error nodes _) as [ps|] eqn:E; [|discriminate].
      apply andb_true_iff in B. exists ps. split; [split; auto|]. rewrite <- existsb_in. tauto.
    + intros [A|[A|(A & B & ps & [_ E] & D & F)]]; try lia. split; auto. rewrite E, andb_true_iff, existsb_in. auto.
  - rewrite negb_true_iff, Z.ltb_ge. split; [right; left; lia|lia].
Qed.
Lemma check_child_iff nodes i c : check_child nodes i c = true <-> child_ok nodes i c.
Proof.
  unfold check_child, child_ok. rewrite !andb_true_iff, negb_true_iff, Z.eqb_neq, !Z.ltb_lt. split.
  - intros [[[A B] D] E]. split; auto. split; auto. destruct (nth_error nodes _) as [cs|] eqn:N; [|discriminate].
    apply andb_true_iff in E. exists cs. split; [split; [lia|auto]|]. rewrite Z.eqb_eq in E. auto.
  - intros (A & B & cs & [_ N] & D & E). rewrite N, D. split; [tauto|]. cbn. apply Z.eqb_eq. auto.
Qed.
Lemma check_node_iff nodes i s : check_node nodes i s = true <-> p_init s = true /\ parent_ok nodes i s /\ forall c, In c (p_children s) -> child_ok nodes i c.
Proof.
  unfold check_node. rewrite !andb_true_iff, forallb_forall, check_parent_iff. split.
  - intros [[A B] D]. split; auto. split; auto. intros c I. apply check_child_iff; auto.
  - intros (A & B & D). split; auto. intros c I. apply check_child_iff; auto.
Qed.

(** ** Extraction *)
(** The values from the root to node [i]. *)
Inductive ancestry nodes : Z -> list V -> Prop :=
| an_root i s : node_at nodes i s -> p_parent s = (-1)%Z -> ancestry nodes i [p_value s]
| an_child i s p : node_at nodes i s -> ancestry nodes (p_parent s) p -> ancestry nodes i (p ++ [p_value s]).

Lemma ancestry_nonneg nodes i p : ancestry nodes i p -> (0 <= i)%Z.
Proof. destruct 1 as [i s [H _] _|i s p [H _] _]; auto. Qed.
Lemma ancestry_fun nodes i p : ancestry nodes i p -> forall q, ancestry nodes i q -> p = q.
Proof.
  induction 1 as [i s A B|i s p A B IH]; intros q Q; inversion Q as [? t D E|? t p' D E]; subst; assert (s = t) by (eapply node_at_fun; eauto); subst t; auto.
  - apply ancestry_nonneg in E. lia.
  - apply ancestry_nonneg in B. lia.
  - f_equal. auto.
Qed.
Lemma follow_ancestry nodes i p : ancestry nodes i p -> forall fuel acc, length p <= fuel -> follow_parents fuel nodes i acc = Ok (acc ++ rev p).
Proof.
  induction 1 as [i s [A N] B|i s p [A N] B IH]; intros fuel acc Hf.
  - destruct fuel as [|fuel]; [cbn in Hf; lia|]. cbn [follow_parents]. destruct (Z.ltb_spec i 0); [lia|]. rewrite N, B. destruct fuel; reflexivity.
  - rewrite app_length in Hf. cbn in Hf. destruct fuel as [|fuel]; [lia|]. cbn [follow_parents]. destruct (Z.ltb_spec i 0); [lia|]. rewrite N, IH by lia.
    rewrite rev_app_distr, <- app_assoc. reflexivity.
Qed.
Lemma extract_ancestry nodes i p : ancestry nodes i p -> forall fuel, length p <= fuel -> extract_solution_path fuel nodes i = Ok p.
Proof.
  intros H fuel Hf. unfold extract_solution_path. assert (P := ancestry_nonneg _ _ _ H). destruct (Z.ltb_spec i 0); [lia|].
  inversion H as [? s [A N] B|? s q [A N] B]; subst; rewrite N.
  - rewrite B. destruct fuel; reflexivity.
  - rewrite app_length in Hf. cbn in Hf. rewrite (follow_ancestry _ _ _ B) by lia. cbn [obind app rev]. rewrite rev_involutive. reflexivity.
Qed.
Lemma follow_ok nodes : forall fuel i acc r, (-1 <= i)%Z -> follow_parents fuel nodes i acc = Ok r -> (forall j s, node_at nodes j s -> (-1 <= p_parent s)%Z) ->
  (i = (-1)%Z /\ r = acc) \/ exists p, ancestry nodes i p /\ r = acc ++ rev p.
Proof.
  induction fuel as [|fuel IH]; intros i acc r Hi H W; cbn [follow_parents] in H; destruct (Z.ltb_spec i 0); try discriminate.
  - left. injection H as <-. split; auto. lia.
  - left. injection H as <-. split; auto. lia.
  - right. destruct (nth_error nodes (Z.to_nat i)) as [s|] eqn:N; [|discriminate].
    assert (Hn : node_at nodes i s) by (split; auto).
    destruct (IH _ _ _ (W _ _ Hn) H W) as [[E ->]|(p & A & ->)].
    + exists [p_value s]. split; [constructor; auto|reflexivity].
    + exists (p ++ [p_value s]). split; [constructor; auto|]. rewrite rev_app_distr, <- app_assoc. reflexivity.
Qed.
Lemma extract_ok nodes fuel i r : (forall j s, node_at nodes j s -> (-1 <= p_parent s)%Z) -> extract_solution_path fuel nodes i = Ok r -> ancestry nodes i r.
Proof.
  intros W H. unfold extract_solution_path in H. destruct (Z.ltb_spec i 0); [discriminate|]. destruct (nth_error nodes (Z.to_nat i)) as [s|] eqn:N; [|discriminate].
  assert (Hn : node_at nodes i s) by (split; auto). apply obind_ok in H. destruct H as (q & F & E). injection E as <-.
  destruct (follow_ok _ _ _ _ _ (W _ _ Hn) F W) as [[E ->]|(p & A & ->)].
  - cbn. constructor; auto.
  - cbn [app rev]. rewrite rev_involutive. constructor; auto.
Qed.

(** ** Trees that grow: parents come before their children *)
Definition grown_ok nodes : Prop :=
  forall i s, node_at nodes i s -> p_init s = true /\ (-1 <= p_parent s < i)%Z /\
    (p_parent s <> (-1)%Z -> exists ps, node_at nodes (p_parent s) ps /\ In i (p_children ps)) /\
    (forall c, In c (p_children s) -> exists cs, node_at nodes c cs /\ p_parent cs = i).

Lemma grown_check nodes : grown_ok nodes -> check_tree_linkage nodes = true.
Proof.
  intros W. apply check_iff. intros i s H. apply check_node_iff. destruct (W i s H) as (A & B & D & E). split; auto. split.
  - unfold parent_ok. destruct (Z.eq_dec (p_parent s) (-1)) as [P|P]; [auto|]. right. right. destruct (D P) as (ps & N & I).
    split; [apply in_tree_node; eauto|]. split; [lia|]. exists ps. split; auto. split; auto. apply (W _ _ N).
  - intros c I. destruct (E c I) as (cs & N & Q). destruct (W c cs N) as (A' & B' & _). destruct H as [H0 _].
    split; [assert (X : in_tree nodes c) by (apply in_tree_node; eauto); unfold in_tree in X; lia|]. split; [lia|]. exists cs. auto.
Qed.
Lemma grown_ancestry nodes : grown_ok nodes -> forall i, in_tree nodes i -> exists p, ancestry nodes i p /\ length p <= length nodes.
Proof.
  intros W. assert (X : forall n i, (i < Z.of_nat n)%Z -> in_tree nodes i -> exists p, ancestry nodes i p /\ (Z.of_nat (length p) <= i + 1)%Z).
  { induction n as [|n IH]; intros i Li Hi; [unfold in_tree in Hi; lia|]. destruct (proj1 (in_tree_node _ _) Hi) as (s & N).
    destruct (W i s N) as (_ & B & D & _). destruct (Z.eq_dec (p_parent s) (-1)) as [P|P].
    - exists [p_value s]. split; [constructor; auto|]. destruct N. cbn. lia.
    - destruct (IH (p_parent s)) as (p & A & L); [lia|unfold in_tree in *; lia|]. exists (p ++ [p_value s]). split; [constructor; auto|]. rewrite app_length. cbn. lia. }
  intros i Hi. destruct (X (S (Z.to_nat i)) i) as (p & A & L); auto; [lia|]. exists p. split; auto. unfold in_tree, tsize in Hi. lia.
Qed.
Lemma root_grown (v : V) : grown_ok [root_state v].
Proof.
  intros i s [P N]. assert (i = 0)%Z. { assert (Z.to_nat i < length [root_state v]) by (apply nth_error_Some; congruence). cbn in H. lia. } subst i.
  cbn in N. injection N as <-. cbn. split; auto. split; [lia|]. split; [congruence|intros c []].
Qed.

Definition values nodes : list V := map p_value nodes.
Definition parents nodes : list Z := map p_parent nodes.
Definition one_more nodes (v : V) (parent : Z) (ps : pstate V) : tree :=
  upd (nodes ++ [child_state v parent]) (Z.to_nat parent) (add_child ps (tsize nodes)).

Lemma map_upd {B} (f : pstate V -> B) nodes i s t : nth_error nodes i = Some s -> f t = f s -> map f (upd nodes i t) = map f nodes.
Proof. revert i; induction nodes as [|x nodes IH]; intros [|i] N E; cbn in *; try discriminate; [injection N as ->; congruence|]. rewrite (IH i); auto. Qed.
Lemma add_child_value (s : pstate V) c : p_value (add_child s c) = p_value s.
Proof. unfold add_child. destruct existsb; auto. Qed.
Lemma add_child_parent (s : pstate V) c : p_parent (add_child s c) = p_parent s.
Proof. unfold add_child. destruct existsb; auto. Qed.
Lemma add_child_init (s : pstate V) c : p_init (add_child s c) = p_init s.
Proof. unfold add_child. destruct existsb; auto. Qed.
Lemma add_child_in (s : pstate V) c x : In x (p_children (add_child s c)) <-> In x (p_children s) \/ x = c.
Proof.
  unfold add_child. destruct (existsb (Z.eqb c) (p_children s)) eqn:E.
  - apply existsb_in in E. split; auto. intros [| ->]; auto.
  - cbn. rewrite in_app_iff. cbn. intuition.
Qed.

Lemma one_more_spec nodes v parent ps : grown_ok nodes -> node_at nodes parent ps ->
  grown_ok (one_more nodes v parent ps) /\ values (one_more nodes v parent ps) = values nodes ++ [v] /\ parents (one_more nodes v parent ps) = parents nodes ++ [parent].
Proof.
  intros W [P N]. assert (Lp : Z.to_nat parent < length nodes) by (apply nth_error_Some; congruence).
  assert (N' : nth_error (nodes ++ [child_state v parent]) (Z.to_nat parent) = Some ps) by (rewrite nth_error_app1; auto).
  split; [|unfold values, parents, one_more; split; erewrite map_upd by (try exact N'; rewrite ?add_child_value, ?add_child_parent; reflexivity); rewrite map_app; reflexivity].
  assert (AT : forall i s, node_at (one_more nodes v parent ps) i s <->
            (i = parent /\ s = add_child ps (tsize nodes)) \/ (i <> parent /\ node_at nodes i s) \/ (i = tsize nodes /\ s = child_state v parent)).
  { intros i s. unfold node_at, one_more. rewrite nth_error_upd, app_length. cbn [length]. destruct (Nat.eqb_spec (Z.to_nat parent) (Z.to_nat i)) as [E|E].
    - destruct (Nat.ltb_spec (Z.to_nat parent) (length nodes + 1)); [|lia]. split.
      + intros [Q X]. injection X as <-. left. split; auto. lia.
      + intros [[-> ->]|[(Q & Q2 & _)|[Q _]]]; [auto|lia|unfold tsize in Q; lia].
    - destruct (Nat.lt_ge_cases (Z.to_nat i) (length nodes)).
      + rewrite nth_error_app1 by auto. split; [intros [Q X]; right; left; split; auto; intros ->; auto|].
        intros [[-> _]|[(_ & Q)|[Q _]]]; [contradiction|auto|unfold tsize in Q; lia].
      + rewrite nth_error_app2 by auto. split.
        * intros [Q X]. right. right. destruct (Z.to_nat i - length nodes) as [|[|d]] eqn:D; cbn in X; try discriminate. injection X as <-. unfold tsize. split; auto. lia.
        * intros [[-> _]|[(_ & Q & X)|[Q ->]]]; [contradiction|apply nth_error_None in H; congruence|]. subst i. unfold tsize. split; [lia|].
          rewrite Nat2Z.id, Nat.sub_diag. reflexivity. }
  assert (OLD : forall i s, node_at nodes i s -> exists s', node_at (one_more nodes v parent ps) i s' /\ p_parent s' = p_parent s /\ (forall c, In c (p_children s) -> In c (p_children s'))).
  { intros i s H. destruct (Z.eq_dec i parent) as [->|E].
    - replace s with ps in * by (eapply node_at_fun; eauto; split; auto). exists (add_child ps (tsize nodes)). split; [apply AT; auto|]. rewrite add_child_parent. split; auto. intros c I. apply add_child_in. auto.
    - exists s. split; [apply AT; auto|auto]. }
  intros i s H. apply AT in H. destruct H as [[-> ->]|[[E H]|[-> ->]]].
  - destruct (W parent ps ltac:(split; auto)) as (A & B & D & F). rewrite add_child_init, add_child_parent. split; auto. split; auto. split.
    + intros Q. destruct (D Q) as (qs & QN & QI). destruct (OLD _ _ QN) as (qs' & QN' & _ & QC). exists qs'. auto.
    + intros c I. apply add_child_in in I. destruct I as [I| ->].
      * destruct (F c I) as (cs & CN & CP). destruct (OLD _ _ CN) as (cs' & CN' & CP' & _). exists cs'. split; auto. congruence.
      * exists (child_state v parent). split; auto. apply AT. auto.
  - destruct (W i s H) as (A & B & D & F). split; auto. split; auto. split.
    + intros Q. destruct (D Q) as (qs & QN & QI). destruct (OLD _ _ QN) as (qs' & QN' & _ & QC). exists qs'. auto.
    + intros c I. destruct (F c I) as (cs & CN & CP). destruct (OLD _ _ CN) as (cs' & CN' & CP' & _). exists cs'. split; auto. congruence.
  - cbn. split; auto. split; [unfold tsize; lia|]. split.
    + intros _. exists (add_child ps (tsize nodes)). split; [apply AT; auto|]. apply add_child_in. auto.
    + intros c [].
Qed.

(** ** Adding a batch *)
Definition parent_in (base nearest : Z) (rel : Z) : Z := if (0 <=? rel)%Z then (base + rel)%Z else nearest.
Definition visit_all {A} (visit : Z -> V -> A -> A) (base : Z) (vs : list V) (acc : A) : A :=
  fst (fold_left (fun a v => (visit (snd a) v (fst a), (snd a + 1)%Z)) vs (acc, base)).

Lemma add_states_spec {A} (visit : Z -> V -> A -> A) nearest prop : forall nodes idx acc,
  grown_ok nodes -> (0 <= nearest < tsize nodes)%Z -> idx <= length nodes ->
  match add_states visit nodes nearest idx prop acc with
  | Ok (nodes', acc') => grown_ok nodes' /\ values nodes' = values nodes ++ map fst prop /\
      parents nodes' = parents nodes ++ map (fun p => parent_in (tsize nodes - Z.of_nat idx) nearest (snd p)) prop /\
      acc' = visit_all visit (tsize nodes) (map fst prop) acc /\
      (forall k v rel, nth_error prop k = Some (v, rel) -> (rel < Z.of_nat (idx + k))%Z)
  | Throw InvalidArgument => exists k v rel, nth_error prop k = Some (v, rel) /\ (0 <= rel)%Z /\ (Z.of_nat (idx + k) <= rel)%Z
  | _ => False
  end.
Proof.
  induction prop as [|[v rel] prop IH]; intros nodes idx acc W Hn Hi; cbn [add_states].
  - cbn [map]. rewrite !app_nil_r. split; auto. split; auto. split; auto. split; [reflexivity|]. intros [|k]; discriminate.
  - destruct ((0 <=? rel)%Z && (Z.of_nat idx <=? rel)%Z) eqn:G.
    { exists 0, v, rel. split; auto. lia. }
    set (parent := if (0 <=? rel)%Z then _ else nearest).
    assert (Hp : (0 <= parent < tsize nodes)%Z). { unfold parent. destruct (Z.leb_spec 0 rel); auto. unfold tsize in *. lia. }
    destruct (Z.ltb_spec parent 0); [lia|]. destruct (proj1 (in_tree_node nodes parent) Hp) as (ps & HP).
    rewrite nth_error_app1 by (apply nth_error_Some; destruct HP; congruence). destruct HP as [HP0 HP1]. rewrite HP1.
    assert (SZ : (tsize (nodes ++ [child_state v parent]) - 1)%Z = tsize nodes) by (unfold tsize; rewrite app_length; cbn; lia). rewrite SZ.
    destruct (one_more_spec nodes v parent ps W ltac:(split; auto)) as (W1 & V1 & P1). fold (one_more nodes v parent ps).
    assert (S1 : tsize (one_more nodes v parent ps) = (tsize nodes + 1)%Z).
    { unfold tsize. assert (X : length (values (one_more nodes v parent ps)) = length (values nodes ++ [v])) by congruence.
      unfold values in X. rewrite app_length, !map_length in X. cbn in X. lia. }
    specialize (IH (one_more nodes v parent ps) (S idx) (visit (tsize nodes) v acc) W1). rewrite S1 in IH.
    specialize (IH ltac:(lia) ltac:(unfold tsize in *; lia)).
    destruct (add_states visit (one_more nodes v parent ps) nearest (S idx) prop (visit (tsize nodes) v acc)) as [[nodes' acc']|[]| | |]; auto.
    + destruct IH as (A1 & A2 & A3 & A4 & A5). split; auto. split; [rewrite A2, V1, <- app_assoc; reflexivity|]. split.
      * rewrite A3, P1, <- app_assoc. f_equal. cbn [map app snd]. f_equal.
        -- unfold parent, parent_in. destruct (0 <=? rel)%Z; lia.
        -- apply map_ext. intros x. f_equal. lia.
      * split; auto. intros [|k] v' rel' E; cbn in E; [injection E as <- <-; lia|]. specialize (A5 k v' rel' E). lia.
    + destruct IH as (k & v' & rel' & E & B1 & B2). exists (S k), v', rel'. split; auto. lia.
Qed.
End P.
