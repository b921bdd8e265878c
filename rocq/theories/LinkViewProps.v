(** C162: the links of a robot as its accessors show them, and the robots with geometry. *)
From Coq Require Import String Reals Lra Lia.
From Verif Require Import Base GeoModel GeoAlg RotModel TotpVec SelfCollisionModel SelfCollisionProps SeModel LinkModel LinkProps LinkTreeProps LinkKinProps LinkViewModel.
From Verif Require LinkJacProps.
Open Scope nat_scope.

(** A robot in use: SetPosition that returned or threw, UpdateBaseTransform that returned, Clone, any number of times. *)
Inductive used {G} : geometry_robot G -> geometry_robot G -> Prop :=
| used_start g : used g g
| used_position g g' cfg : used g g' -> used g (with_robot g' (snd (set_position (g_robot g') cfg)))
| used_base g g' base r : used g g' -> update_base (g_robot g') base = Ok r -> used g (with_robot g' r)
| used_clone g g' : used g g' -> used g (clone g').

(** ** The names stay *)
Lemma place_children_names js : forall links links', place_children links js = Ok links' -> map rl_name links' = map rl_name links.
Proof.
  induction js as [|j js IH]; intros links links' E; cbn [place_children] in E; [injection E as <-; reflexivity|].
  destruct (place_child links j) as [l2| | | |] eqn:P; cbn [obind] in E; try discriminate. rewrite (IH _ _ E). clear IH E. unfold place_child in P.
  destruct (zget links (rj_parent j)) as [p|]; [|discriminate]. destruct (zget links (rj_child j)) as [c|] eqn:C; [|discriminate].
  destruct (rl_place p); [discriminate| |destruct (motion j)]; injection P as <-; apply names_upd; exact C.
Qed.
Lemma update_names base links js links' : update_transforms base links js = Ok links' -> map rl_name links' = map rl_name links.
Proof. unfold update_transforms. destruct links as [|l rest]; [discriminate|]. intros E. rewrite (place_children_names _ _ _ E). reflexivity. Qed.
Lemma set_position_names r cfg : link_names (snd (set_position r cfg)) = link_names r.
Proof.
  unfold set_position, link_names. destruct (length cfg =? r_num r)%nat; [|reflexivity]. destruct (set_joints (r_joints r) cfg) as [[o js] c]. cbn [r_base r_links]. destruct o; try reflexivity.
  destruct (update_transforms (r_base r) (r_links r) js) as [links| | | |] eqn:U; try reflexivity. cbn [snd r_links]. apply update_names in U. exact U.
Qed.
Lemma update_base_names r base r' : update_base r base = Ok r' -> link_names r' = link_names r.
Proof. unfold update_base, link_names. destruct (update_transforms _ _ _) as [links| | | |] eqn:U; cbn [obind]; intros E; try discriminate. injection E as <-. apply update_names in U. exact U. Qed.
Lemma used_kept {G} (g g' : geometry_robot G) : used g g' -> link_names (g_robot g') = link_names (g_robot g) /\ g_geometries g' = g_geometries g /\ g_map g' = g_map g.
Proof.
  induction 1 as [g|g g' cfg U IH|g g' base r U IH E|g g' U IH]; [auto|..]; destruct IH as (I1 & I2 & I3); unfold with_robot, clone; cbn [g_robot g_geometries g_map]; (split; [|auto]).
  - rewrite set_position_names. exact I1.
  - rewrite (update_base_names _ _ _ E). exact I1.
  - exact I1.
Qed.
Lemma make_robot_names base links joints initial weights r : LinkModel.make_robot base links joints initial weights = Ok r -> link_names r = map rl_name links /\ NoDup (map rl_name links).
Proof.
  unfold LinkModel.make_robot. destruct (sanity_check links joints) as [[sk b]| | | |] eqn:S; cbn [obind fst snd]; try discriminate. destruct b; [|discriminate]. destruct (active_from 0 joints) as [num active].
  destruct (negb _); [discriminate|]. intros E. split.
  - pose proof (set_position_names (mkR [] base (iinv base) links joints sk active (map Rabs weights) num) initial) as N. destruct (set_position _ initial) as [[u| | | |] r2]; try discriminate. injection E as <-. exact N.
  - unfold sanity_check in S. destruct (negb (length links =? _)%nat); [discriminate|]. destruct (unique_names [] (map rl_name links)) eqn:U; [|discriminate]. apply unique_names_spec in U. exact (proj1 U).
Qed.

(** ** The views *)
Lemma find_none links n : ~ In n (map rl_name links) -> find_link links n = Throw InvalidArgument.
Proof. induction links as [|l links IH]; intros H; [reflexivity|]. cbn [find_link map] in *. destruct (String.eqb_spec (rl_name l) n) as [E|_]; [exfalso; apply H; left; exact E|]. apply IH. intros I. apply H. right. exact I. Qed.
Lemma map_spec links : forall m, NoDup (map rl_name links) -> let f := fold_left (fun m l => fun n => if String.eqb n (rl_name l) then Some (rl_place l) else m n) links m in
  (forall i l, nth_error links i = Some l -> f (rl_name l) = Some (rl_place l)) /\ (forall n, ~ In n (map rl_name links) -> f n = m n).
Proof.
  induction links as [|x links IH]; intros m ND f.
  - split; [intros i l E; destruct i; discriminate|reflexivity].
  - cbn [map] in ND. inversion ND as [|? ? N1 N2]; subst. specialize (IH (fun n => if String.eqb n (rl_name x) then Some (rl_place x) else m n) N2). cbn zeta in IH. destruct IH as [A B]. split.
    + intros [|i] l E; cbn in E; [injection E as ->|exact (A i l E)]. unfold f. cbn [fold_left]. rewrite B by exact N1. rewrite String.eqb_refl. reflexivity.
    + intros n H. unfold f. cbn [fold_left]. rewrite B by (intros I; apply H; right; exact I). destruct (String.eqb_spec n (rl_name x)) as [E|_]; [exfalso; apply H; left; auto|reflexivity].
Qed.
(** Names, transforms and geometries are lists side by side, in the order the links were given; the transform beside a name is the one looked up by that
    name, alone or in the map; other names are refused.  All of this after any use. *)
Theorem C162_views : forall G base links joints initial weights (geometries : list (string * G)) allowed g0 g,
  make_geometry_robot base links joints initial weights geometries allowed = Ok g0 -> used g0 g ->
  let r := g_robot g in
  link_names r = map rl_name links /\ length (link_transforms r) = length links /\
  link_geometries g = geometries /\ map fst geometries = map rl_name links /\
  (forall i n p, nth_error (link_names r) i = Some n -> nth_error (link_transforms r) i = Some p -> link_transform r n = Ok p /\ link_transforms_map r n = Some p) /\
  (forall n, ~ In n (link_names r) -> link_transform r n = Throw InvalidArgument /\ link_transforms_map r n = None).
Proof.
  intros G base links joints initial weights geoms allowed g0 g M U r. destruct (used_kept _ _ U) as (K1 & K2 & K3). clear U. fold r in K1.
  unfold make_geometry_robot in M. destruct (LinkModel.make_robot base links joints initial weights) as [r0| | | |] eqn:MR; cbn [obind] in M; try discriminate. apply make_robot_names in MR as [N0 ND].
  destruct (Nat.eqb_spec (length links) (length geoms)) as [L|]; [|discriminate]. destruct (names_match _ _ _) eqn:NM; [|discriminate]. destruct (generate_map _ allowed) as [m| | | |]; cbn [obind] in M; try discriminate. injection M as <-.
  cbn [g_robot g_geometries g_map] in *. rewrite N0 in K1. unfold link_names in K1.
  assert (LEN : length (r_links r) = length links) by (rewrite <- (map_length rl_name (r_links r)), K1; apply map_length).
  split; [exact K1|]. split; [unfold link_transforms; rewrite map_length; exact LEN|]. split; [exact K2|]. split.
  { assert (Q : forall a b : list string, length a = length b -> names_match String.eqb a b = true -> b = a).
    { induction a as [|x a IH]; intros [|y b] LE H; cbn in LE, H; try discriminate; [reflexivity|]. destruct (String.eqb_spec x y) as [->|]; [|discriminate]. rewrite (IH b) by (auto; lia). reflexivity. }
    apply Q; [rewrite !map_length; exact L|exact NM]. }
  rewrite <- K1 in ND. unfold link_transform, link_transforms_map, link_names, link_transforms.
  destruct (map_spec (r_links r) (fun _ => None) ND) as [A B]. split.
  - intros i n p EN EP. rewrite nth_error_map in EN, EP. destruct (nth_error (r_links r) i) as [l|] eqn:E; [|discriminate]. cbn in EN, EP. injection EN as <-. injection EP as <-.
    split; [exact (proj1 (LinkJacProps.find_link_nth _ _ _ ND E))|exact (A i l E)].
  - intros n H. split; [apply find_none; exact H|exact (B n H)].
Qed.
(** The self-collisions allowed are those given, both ways, and those of a link with itself; an index that is not of a link is refused. *)
Theorem C162_allowed : forall G base links joints initial weights (geometries : list (string * G)) allowed g0 g,
  make_geometry_robot base links joints initial weights geometries allowed = Ok g0 -> used g0 g -> forall i j,
  (i < length links /\ j < length links -> exists b, self_collision_allowed g i j = Ok b /\ (b = true <-> i = j \/ In (i, j) allowed \/ In (j, i) allowed)) /\
  (~ (i < length links /\ j < length links) -> self_collision_allowed g i j = Throw InvalidArgument).
Proof.
  intros G base links joints initial weights geoms allowed g0 g M U i j. destruct (used_kept _ _ U) as (K1 & K2 & K3). clear U.
  unfold make_geometry_robot in M. destruct (LinkModel.make_robot base links joints initial weights) as [r0| | | |] eqn:MR; cbn [obind] in M; try discriminate. apply make_robot_names in MR as [N0 ND].
  destruct (Nat.eqb_spec (length links) (length geoms)) as [L|]; [|discriminate]. destruct (names_match _ _ _) eqn:NM; [|discriminate]. destruct (generate_map _ allowed) as [m| | | |] eqn:GM; cbn [obind] in M; try discriminate. injection M as <-.
  cbn [g_robot g_geometries g_map] in *. assert (L0 : length (r_links r0) = length links) by (rewrite <- (map_length rl_name (r_links r0)); fold (link_names r0); rewrite N0; apply map_length).
  assert (LEN : length (r_links (g_robot g)) = length links) by (rewrite <- (map_length rl_name (r_links (g_robot g))); fold (link_names (g_robot g)); rewrite K1, N0; apply map_length).
  assert (MK : SelfCollisionModel.make_robot String.eqb (map rl_name links) (map rl_name links) allowed = Ok {| SelfCollisionModel.links := map rl_name links; geometries := map rl_name links; collision_map := m |}).
  { unfold SelfCollisionModel.make_robot. rewrite Nat.eqb_refl. replace (names_match String.eqb (map rl_name links) (map rl_name links)) with true.
    - rewrite map_length, <- L0, GM. reflexivity.
    - generalize (map rl_name links). intros a. induction a as [|x a IH]; [reflexivity|]. cbn. rewrite String.eqb_refl. exact IH. }
  destruct (C59_collision_map _ _ _ _ _ _ MK i j) as (P1 & P2 & _). rewrite map_length in P1, P2.
  assert (SAME : self_collision_allowed g i j = collision_allowed {| SelfCollisionModel.links := map rl_name links; geometries := map rl_name links; collision_map := m |} i j).
  { unfold self_collision_allowed, collision_allowed. cbn [SelfCollisionModel.links collision_map]. rewrite LEN, map_length, K3. destruct (_ && _)%bool; [|reflexivity]. destruct (i =? j); [reflexivity|]. destruct (0 <? m i j)%Z; reflexivity. }
  rewrite SAME. split; [exact P1|exact P2].
Qed.
(** Which robots with geometry are refused: those without the geometry of each link under its name, in order. *)
Theorem C162_refused : forall G base links joints initial weights (geometries : list (string * G)) allowed r,
  LinkModel.make_robot base links joints initial weights = Ok r ->
  (map fst geometries = map rl_name links /\ (forall i j, In (i, j) allowed -> i < length links /\ j < length links) /\ exists g, make_geometry_robot base links joints initial weights geometries allowed = Ok g) \/
  (~ (map fst geometries = map rl_name links /\ (forall i j, In (i, j) allowed -> i < length links /\ j < length links)) /\
    make_geometry_robot base links joints initial weights geometries allowed = Throw InvalidArgument).
Proof.
  intros G base links joints initial weights geoms allowed r MR. unfold make_geometry_robot. rewrite MR. cbn [obind]. apply make_robot_names in MR as [N0 _].
  assert (L0 : length (r_links r) = length (map rl_name links)) by (rewrite <- N0; unfold link_names; rewrite map_length; reflexivity).
  destruct (C59_construct string String.eqb (map rl_name links) (map fst geoms) allowed String.eqb_spec) as [(E & A & (x & H))|(N & H)]; unfold SelfCollisionModel.make_robot in H; rewrite !map_length in *.
  - left. split; [auto|]. split; [exact A|]. destruct (_ =? _)%nat; [|discriminate]. destruct (names_match _ _ _); [|discriminate]. rewrite L0. destruct (generate_map _ allowed); try discriminate. cbn [obind]. eexists. reflexivity.
  - right. split; [intros [E A]; apply N; auto|]. destruct (_ =? _)%nat; [|reflexivity]. destruct (names_match _ _ _); [|reflexivity]. rewrite L0. destruct (generate_map _ allowed); try discriminate. cbn [obind] in *. injection H as ->. reflexivity.
Qed.
(** The robots of one link: one geometry, under the name of the link, after any moves, which move the robot as one without geometry; every self-collision is allowed, even of links that are not there. *)
Theorem C162_rigid_bodies : forall G (geometry : G) wp wr name,
  (forall c moves, let g := fold_left se2_geometry_move moves (make_se2_geometry c wp wr name geometry) in
     g2_geometries g = [(name, geometry)] /\ se2_link_names (g2_robot g) = [name] /\ g2_robot g = fold_left se2_set_position moves (se2_make c wp wr name) /\ forall i j, se2_collision_allowed g i j = Ok true) /\
  (forall c moves, let g := fold_left se3_geometry_move moves (make_se3_geometry c wp wr name geometry) in
     g3_geometries g = [(name, geometry)] /\ se3_link_names (g3_robot g) = [name] /\ g3_robot g = fold_left se3_set_position moves (se3_make c wp wr name) /\ forall i j, se3_collision_allowed g i j = Ok true).
Proof.
  intros G geometry wp wr name. split; intros c moves; cbn zeta.
  - assert (K : forall moves (g : se2_geometry G), g2_geometries (fold_left se2_geometry_move moves g) = g2_geometries g /\ s2_name (g2_robot (fold_left se2_geometry_move moves g)) = s2_name (g2_robot g) /\ g2_robot (fold_left se2_geometry_move moves g) = fold_left se2_set_position moves (g2_robot g)).
    { induction moves0 as [|m ms IH]; intros g; [auto|]. cbn [fold_left]. destruct (IH (se2_geometry_move g m)) as (-> & -> & ->). auto. }
    destruct (K moves (make_se2_geometry c wp wr name geometry)) as (-> & E & E'). unfold se2_link_names. rewrite E. split; [reflexivity|]. split; [reflexivity|]. split; [exact E'|reflexivity].
  - assert (K : forall moves (g : se3_geometry G), g3_geometries (fold_left se3_geometry_move moves g) = g3_geometries g /\ s3_name (g3_robot (fold_left se3_geometry_move moves g)) = s3_name (g3_robot g) /\ g3_robot (fold_left se3_geometry_move moves g) = fold_left se3_set_position moves (g3_robot g)).
    { induction moves0 as [|m ms IH]; intros g; [auto|]. cbn [fold_left]. destruct (IH (se3_geometry_move g m)) as (-> & -> & ->). auto. }
    destruct (K moves (make_se3_geometry c wp wr name geometry)) as (-> & E & E'). unfold se3_link_names. rewrite E. split; [reflexivity|]. split; [reflexivity|]. split; [exact E'|reflexivity].
Qed.
(** A clone has its own position: moving it leaves the original, a value here; but its points are those of the original, for every link. *)
Theorem C162_clone_shares : forall h (g : geometry_robot point_sphere) i points h', write_points h (clone g) i points = Some h' ->
  points_of h' g i = Some points /\ points_of h' (clone g) i = Some points.
Proof.
  intros h g i points h' W. unfold write_points, points_of, clone, link_geometries in *. cbn [g_geometries] in *. destruct (nth_error (g_geometries g) i) as [ng|]; [|discriminate]. cbn [option_map] in *. injection W as <-. rewrite Nat.eqb_refl. auto.
Qed.
(** So a clone is not independent of the robot it was made from. *)
Theorem C162_clone_refuted : exists h (g : geometry_robot point_sphere) i points h', write_points h (clone g) i points = Some h' /\ points_of h' g i <> points_of h g i.
Proof.
  exists (fun _ => []), (mkGR _ (mkR [] iid iid [mkRL Unset "a"]%string [] [] [] [] 0) [("a", mkPS true 3)]%string identity), 0, [[1; 2; 3; 4]%R]. eexists. split; [reflexivity|]. cbn. discriminate.
Qed.

Print Assumptions C162_views. Print Assumptions C162_allowed. Print Assumptions C162_refused. Print Assumptions C162_rigid_bodies. Print Assumptions C162_clone_shares. Print Assumptions C162_clone_refuted.
(** A robot of two links with a sliding joint, moved, with its geometry. *)
Example view_case : exists links joints initial g0 g p, make_geometry_robot iid links joints initial [1%R] [("base", mkPS false 7); ("tool", mkPS true 8)]%string [] = Ok g0 /\ used g0 g /\
  g_robot g <> g_robot g0 /\ link_names (g_robot g) = ["base"; "tool"]%string /\ link_transform (g_robot g) "tool" = Ok p /\ self_collision_allowed g 0 1 = Ok false.
Proof.
  pose (m := mkJ (Fin (-1), Fin 2) (Fin 0) PRISMATIC). pose (links := [mkRL Unset "base"; mkRL Unset "tool"]%string). pose (joints := [mkRJ iid (mkV 0 0 1) 0 1 m "slide"]%string).
  assert (R : in_range (length links) joints) by (intros j [<-|[]]; cbn; lia).
  assert (A : acceptable links joints).
  { split; [repeat constructor; cbn; intuition discriminate|]. split; [repeat constructor; cbn; intuition discriminate|]. split; [repeat (constructor; [exact axis_z|]); constructor|]. split; [reflexivity|].
    intros i I. cbn in I. assert (i = 0 \/ i = 1)%Z as [->| ->] by lia; [constructor|]. apply (reach_next joints 0%Z (mkRJ iid (mkV 0 0 1) 0 1 m "slide"%string)); [left; reflexivity|constructor]. }
  assert (RM : regular m). { split; [exists (Fin (-1), Fin 2), (Fin 0)|split; discriminate]. unfold make_joint, set_value, enforce_limits, is_continuous. cbn. rewrite (proj2 (Rltb_false 2 (-1))), (proj2 (Rltb_false 0 (-1))), (proj2 (Rltb_false 2 0)) by lra. reflexivity. }
  destruct (accepted links joints R A) as [sk S].
  destruct (C118_constructor iid links joints [m] [0%R] [1%R] sk R S) as (r & MR & W & B & _); try reflexivity.
  { intros [|k] j K; [injection K as <-; left; reflexivity|destruct k; discriminate]. } { repeat constructor; apply RM. } { repeat constructor. }
  destruct (C118_base r (mkI mid (mkV 1 0 0)) W) as (r2 & U & W2 & B2 & _).
  set (geoms := [("base", mkPS false 7); ("tool", mkPS true 8)]%string).
  destruct (C162_refused _ iid links joints [m] [1%R] geoms [] r MR) as [(_ & _ & (g0 & MG))|(N & _)]; [|exfalso; apply N; split; [reflexivity|intros i j []]].
  assert (G0 : g_robot g0 = r). { pose proof MG as X. unfold make_geometry_robot in X. rewrite MR in X. cbn [obind] in X. destruct (_ =? _); [|discriminate]. destruct (names_match _ _ _); [|discriminate]. destruct (generate_map _ _); try discriminate. injection X as <-. reflexivity. }
  assert (US : used g0 (with_robot g0 r2)) by (apply used_base with (mkI mid (mkV 1 0 0)); [constructor|rewrite G0; exact U]).
  destruct (C162_views _ _ _ _ _ _ _ _ _ _ MG US) as (V1 & V2 & _ & _ & V5 & _). destruct (C162_allowed _ _ _ _ _ _ _ _ _ _ MG US 0 1) as [AL _]. destruct AL as (b & AL & IFF); [cbn; lia|].
  destruct (nth_error (link_transforms (g_robot (with_robot g0 r2))) 1) as [p|] eqn:P; [|apply nth_error_None in P; rewrite V2 in P; cbn in P; lia].
  exists links, joints, [m], g0, (with_robot g0 r2), p. split; [exact MG|]. split; [exact US|]. split.
  - cbn [with_robot g_robot]. rewrite G0. intros ->. rewrite B in B2. apply (f_equal (fun t => vx (itrans t))) in B2. cbn in B2. lra.
  - split; [exact V1|]. split; [apply (V5 1); [rewrite V1; reflexivity|exact P]|]. rewrite AL. f_equal. destruct b; [|reflexivity]. destruct (proj1 IFF eq_refl) as [X|[[]|[]]]. discriminate.
Qed.
(** Links that share a name, which no constructor accepts, would be told apart by neither: the first is found by name, the last by the map. *)
Example duplicate_case : find_link [mkRL Bad "a"; mkRL Unset "a"]%string "a" = Ok Bad /\
  link_transforms_map (mkR [] iid iid [mkRL Bad "a"; mkRL Unset "a"]%string [] [] [] [] 0) "a" = Some Unset.
Proof. split; reflexivity. Qed.
