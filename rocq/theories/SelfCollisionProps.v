(** C59: allowed self-collisions. *)
From Verif Require Import Base SelfCollisionModel.

Lemma insert_spec n : forall allowed m, (forall i j, m i j = 0 \/ m i j = 1)%Z ->
  (exists i j, In (i, j) allowed /\ (n <= i \/ n <= j)) /\ insert_allowed n m allowed = Throw InvalidArgument \/
  (forall i j, In (i, j) allowed -> i < n /\ j < n) /\ exists m', insert_allowed n m allowed = Ok m' /\
    forall i j, (0 < m' i j)%Z <-> (0 < m i j)%Z \/ In (i, j) allowed \/ In (j, i) allowed.
Proof.
  induction allowed as [|[a b] allowed IH]; intros m M; cbn [insert_allowed].
  - right. split; [intros i j []|]. exists m. split; auto. intros i j. cbn. tauto.
  - destruct (Nat.leb_spec n a), (Nat.leb_spec n b); cbn [orb]; try (left; split; auto; exists a, b; split; [left; auto|lia]).
    destruct (IH (mset (mset m a b 1) b a 1)) as [[(i & j & I & H') R]|[R (m' & E & S)]].
    + intros i j. unfold mset. destruct (_ && _); auto. destruct (_ && _); auto.
    + left. split; auto. exists i, j. split; auto. right. auto.
    + right. split; [intros i j [I|I]; [injection I as <- <-; auto|auto]|]. exists m'. split; auto. intros i j. rewrite S. unfold mset.
      assert (X : forall c d, Nat.eqb i c && Nat.eqb j d = true <-> i = c /\ j = d) by (intros; rewrite andb_true_iff, !Nat.eqb_eq; tauto).
      pose proof (X a b) as X1. pose proof (X b a) as X2. cbn [In].
      assert (Y1 : (a, b) = (i, j) <-> i = a /\ j = b) by (split; [intros [= -> ->]; auto|intros [-> ->]; auto]).
      assert (Y2 : (a, b) = (j, i) <-> i = b /\ j = a) by (split; [intros [= -> ->]; auto|intros [-> ->]; auto]). rewrite Y1, Y2, <- X1, <- X2.
      destruct (Nat.eqb i b && Nat.eqb j a), (Nat.eqb i a && Nat.eqb j b); intuition (try lia; try discriminate).
Qed.

(** C59: exactly the listed pairs, in either order, and equal indices; out-of-range queries throw. *)
Theorem C59_collision_map : forall N (name_eqb : N -> N -> bool) link_names geometry_names allowed r,
  make_robot name_eqb link_names geometry_names allowed = Ok r ->
  forall i j,
    (i < length link_names /\ j < length link_names ->
      exists b, collision_allowed r i j = Ok b /\ (b = true <-> i = j \/ In (i, j) allowed \/ In (j, i) allowed)) /\
    (~ (i < length link_names /\ j < length link_names) -> collision_allowed r i j = Throw InvalidArgument) /\
    collision_allowed r i j = collision_allowed r j i.
Proof.
  intros N name_eqb ln gn allowed r H. unfold make_robot in H. destruct (length ln =? length gn); [|discriminate]. destruct (names_match name_eqb ln gn); [|discriminate].
  destruct (insert_spec (length ln) allowed identity) as [[_ T]|[_ (m & Em & S)]]; [intros i j; unfold identity; destruct (Nat.eqb i j); auto|unfold generate_map in H; rewrite T in H; discriminate|].
  unfold generate_map in H. rewrite Em in H. cbn [obind] in H. injection H as <-.
  assert (K : forall i j, i < length ln /\ j < length ln -> exists b, collision_allowed {| links := ln; geometries := gn; collision_map := m |} i j = Ok b /\ (b = true <-> i = j \/ In (i, j) allowed \/ In (j, i) allowed)).
  { intros i j [Hi Hj]. unfold collision_allowed. cbn [links collision_map]. destruct (Nat.ltb_spec i (length ln)); [|lia]. destruct (Nat.ltb_spec j (length ln)); [|lia]. cbn [andb].
    destruct (Nat.eqb_spec i j) as [ -> |NE]; [exists true; split; auto; tauto|]. assert (Z0 : (0 < identity i j)%Z <-> False) by (unfold identity; destruct (Nat.eqb_spec i j); [contradiction|lia]).
    specialize (S i j). rewrite Z0 in S. destruct (Z.ltb_spec 0 (m i j)); [exists true|exists false]; (split; auto; split; intros; try discriminate; auto; try lia; tauto || (exfalso; lia || intuition lia)). }
  assert (T : forall i j, ~ (i < length ln /\ j < length ln) -> collision_allowed {| links := ln; geometries := gn; collision_map := m |} i j = Throw InvalidArgument).
  { intros i j H. unfold collision_allowed. cbn [links]. destruct (Nat.ltb_spec i (length ln)), (Nat.ltb_spec j (length ln)); cbn; auto. tauto. }
  intros i j. split; [apply K|]. split; [apply T|]. destruct (Nat.ltb_spec i (length ln)), (Nat.ltb_spec j (length ln)); [|rewrite !T by lia; auto..].
  destruct (K i j) as (b & E1 & B1); auto. destruct (K j i) as (b' & E2 & B2); auto. rewrite E1, E2. f_equal.
  destruct b, b'; auto; [symmetry; apply B2|apply B1]; [assert (true = true) as X by auto; apply B1 in X|assert (true = true) as X by auto; apply B2 in X]; destruct X as [X|[X|X]]; auto.
Qed.
Print Assumptions C59_collision_map.
(** The robot is made exactly when names match pairwise and the listed indices are links. *)
Theorem C59_construct : forall N (name_eqb : N -> N -> bool) link_names geometry_names allowed, (forall a b, reflect (a = b) (name_eqb a b)) ->
  (link_names = geometry_names /\ (forall i j, In (i, j) allowed -> i < length link_names /\ j < length link_names) /\ exists r, make_robot name_eqb link_names geometry_names allowed = Ok r) \/
  (~ (link_names = geometry_names /\ (forall i j, In (i, j) allowed -> i < length link_names /\ j < length link_names)) /\ make_robot name_eqb link_names geometry_names allowed = Throw InvalidArgument).
Proof.
  intros N name_eqb ln gn allowed E. assert (NM : forall a b, length a = length b -> names_match name_eqb a b = true <-> a = b).
  { induction a as [|x a IH]; intros [|y b] L; cbn in *; try lia; [tauto|]. destruct (E x y) as [ -> |NE]; [rewrite IH by lia; split; congruence|split; [discriminate|congruence]]. }
  unfold make_robot. destruct (Nat.eqb_spec (length ln) (length gn)) as [L|L]; [|right; split; auto; intros [-> _]; contradiction].
  specialize (NM ln gn L). destruct (names_match name_eqb ln gn); [|right; split; auto; intros [H _]; apply NM in H; discriminate].
  destruct (insert_spec (length ln) allowed identity) as [[(i & j & I & O) T]|[R (m & Em & S)]]; [intros i j; unfold identity; destruct (Nat.eqb i j); auto|right; unfold generate_map; rewrite T; split; auto; intros [_ H]; apply H in I; lia|].
  left. unfold generate_map. rewrite Em. cbn [obind]. split; [apply NM; auto|]. split; auto. eauto.
Qed.
Print Assumptions C59_construct.
Example C59_example : exists r, make_robot Nat.eqb [7; 8; 9] [7; 8; 9] [(0, 2)] = Ok r /\ collision_allowed r 2 0 = Ok true /\ collision_allowed r 0 1 = Ok false /\ collision_allowed r 1 1 = Ok true /\ collision_allowed r 1 3 = Throw InvalidArgument.
Proof. eexists. repeat split; reflexivity. Qed.
