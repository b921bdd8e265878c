(** Properties of the joints and configurations of simple_linked_robot_model.hpp: C115, C119. *)
From Coq Require Import String Reals Lra.
From Verif Require Import Base MathModel TotpVec MathProps GeoModel RotModel LinkModel.
Open Scope R_scope.

Ltac inv H := inversion H; subst; clear H.
Lemma enforce_limits_ok j v r : enforce_limits j v = Ok r -> eltb (snd (j_limits j)) (fst (j_limits j)) = false -> in_limits (mkJ (j_limits j) r (j_type j)) r = true.
Proof.
  unfold enforce_limits, in_limits, is_continuous. cbn [j_type j_limits]. destruct v as [x| | |]; try discriminate. destruct (j_type j =? CONTINUOUS)%N; [reflexivity|]. destruct (j_limits j) as [lo hi]. cbn [fst snd].
  assert (I : forall e, eltb e e = false) by (intros [y| | |]; cbn; try reflexivity; apply Rltb_false; lra).
  destruct (eltb (Fin x) lo) eqn:L; [|destruct (eltb hi (Fin x)) eqn:U]; intros E N; inv E; rewrite ?I, ?N, ?L, ?U; reflexivity.
Qed.
Lemma make_joint_cases limits v t j : make_joint limits v t = Ok j ->
  (t = CONTINUOUS /\ exists x, v = Fin x /\ j = mkJ (MInf, PInf) (Fin (enforce PI x)) t) \/
  (t <> CONTINUOUS /\ eltb (snd limits) (fst limits) = false /\ exists x, v = Fin x /\
     j = mkJ limits (if eltb (Fin x) (fst limits) then fst limits else if eltb (snd limits) (Fin x) then snd limits else Fin x) t).
Proof.
  unfold make_joint. destruct (N.eqb_spec t CONTINUOUS) as [E|E].
  - intros H. left. split; [exact E|]. unfold set_value, enforce_limits, is_continuous in H. destruct v as [x| | |]; try discriminate. cbn in H. rewrite E in H. cbn in H. inv H. exists x. split; reflexivity.
  - destruct (eltb (snd limits) (fst limits)) eqn:L; [discriminate|]. intros H. right. split; [exact E|]. split; [reflexivity|]. unfold set_value, enforce_limits, is_continuous in H. destruct v as [x| | |]; try discriminate.
    cbn [j_type j_limits] in H. apply N.eqb_neq in E. rewrite E in H. exists x. split; [reflexivity|]. destruct (eltb (Fin x) (fst limits)); [inv H; reflexivity|]. destruct (eltb (snd limits) (Fin x)); inv H; reflexivity.
Qed.

(** ** C115 *)
(** A joint that could be made has its value within its limits; it cannot be made from crossed limits or a value that is not finite. *)
Theorem C115_within_limits : forall limits v t,
  (forall j, make_joint limits v t = Ok j -> in_limits j (j_value j) = true /\ j_type j = t /\ (t <> CONTINUOUS -> j_limits j = limits)) /\
  ((exists j, make_joint limits v t = Ok j) <-> (exists x, v = Fin x) /\ (t = CONTINUOUS \/ eltb (snd limits) (fst limits) = false)).
Proof.
  intros limits v t. split.
  - intros j H. pose proof H as K. apply make_joint_cases in K. destruct K as [(C & x & -> & ->)|(C & L & x & -> & ->)].
    + split; [|split; [reflexivity | intros X; contradiction]]. unfold in_limits, is_continuous. cbn [j_type]. rewrite C. reflexivity.
    + split; [|split; reflexivity]. apply (enforce_limits_ok (mkJ limits NaN t) (Fin x) _); [|exact L]. unfold enforce_limits, is_continuous. cbn [j_type j_limits j_value]. apply N.eqb_neq in C. rewrite C. repeat destruct (eltb _ _); reflexivity.
  - split.
    + intros (j & H). apply make_joint_cases in H. destruct H as [(C & x & -> & _)|(C & L & x & -> & _)]; split; eauto.
    + intros [(x & ->) H]. unfold make_joint. destruct (N.eqb_spec t CONTINUOUS) as [E|E].
      * unfold set_value, enforce_limits, is_continuous. cbn [j_type]. subst t. cbn. eauto.
      * destruct H as [H| ->]; [contradiction|]. unfold set_value, enforce_limits. cbn. repeat match goal with |- context [if ?c then _ else _] => destruct c end; cbn; eauto.
Qed.
Print Assumptions C115_within_limits.
(** With finite limits the value is the nearest value within them; for a continuous joint it is the same angle. *)
Theorem C115_nearest : forall lo hi x t j, make_joint (Fin lo, Fin hi) (Fin x) t = Ok j ->
  exists y, j_value j = Fin y /\
    (t <> CONTINUOUS -> lo <= y <= hi /\ forall z, lo <= z <= hi -> Rabs (y - x) <= Rabs (z - x)) /\
    (t = CONTINUOUS -> same_angle PI x y /\ - PI < y <= PI).
Proof.
  intros lo hi x t j H. apply make_joint_cases in H. destruct H as [(C & x' & E & ->)|(C & L & x' & E & ->)]; inv E.
  - eexists. split; [reflexivity|]. split; [intros X; contradiction X; reflexivity|]. intros _. destruct (C48_enforce PI x' PI_RGT_0) as (CA & CB & _). split; [exact CA | exact CB].
  - cbn [fst snd eltb] in *. apply Rltb_false in L. assert (A : forall a b : R, Rabs (a - b) = Rmax (a - b) (b - a)) by (intros a b; unfold Rabs, Rmax; destruct (Rcase_abs _), (Rle_dec _ _); lra).
    cbn [j_value]. destruct (Rltb x' lo) eqn:B1; [|destruct (Rltb hi x') eqn:B2]; (eexists; split; [reflexivity|]; split; [intros _|intros X; contradiction]).
    + apply Rltb_spec in B1. split; [lra|]. intros z Z. rewrite !Rabs_right by lra. lra.
    + apply Rltb_spec in B2. split; [lra|]. intros z Z. rewrite !Rabs_left1 by lra. lra.
    + apply Rltb_false in B1. apply Rltb_false in B2. split; [lra|]. intros z Z. replace (x' - x') with 0 by ring. rewrite Rabs_R0. apply Rabs_pos.
Qed.
Print Assumptions C115_nearest.
(** Setting a value keeps type and limits; setting the value a joint has changes nothing; copying with the value makes the same joint. *)
Theorem C115_set_value : forall limits v t j, make_joint limits v t = Ok j ->
  (forall v' j', set_value j v' = Ok j' -> j_limits j' = j_limits j /\ j_type j' = j_type j /\ in_limits j' (j_value j') = true) /\
  (forall x, j_value j = Fin x -> set_value j (Fin x) = Ok j /\ copy_with j (Fin x) = Ok j).
Proof.
  intros limits v t j H. split.
  - intros v' j' S. unfold set_value in S. apply obind_ok in S. destruct S as (r & E & S). inv S. cbn. split; [reflexivity|]. split; [reflexivity|]. apply (enforce_limits_ok j v' r E). apply make_joint_cases in H.
    destruct H as [(C & x & -> & ->)|(C & L & x & -> & ->)]; [reflexivity | exact L].
  - intros y Y. pose proof (C115_within_limits limits v t) as [W _]. destruct (W j H) as (I & _ & _). unfold in_limits in I. rewrite Y in I. apply make_joint_cases in H.
    destruct H as [(C & x & -> & ->)|(C & L & x & -> & ->)]; cbn [j_value j_limits j_type] in *.
    + inv Y. destruct (enforce_spec PI PI_RGT_0 x) as [_ B]. unfold set_value, copy_with, make_joint, set_value, enforce_limits, is_continuous. cbn. rewrite (enforce_id PI PI_RGT_0 _ B). split; reflexivity.
    + unfold is_continuous in I. cbn [j_type] in I. pose proof C as C'. apply N.eqb_neq in C'. rewrite C' in I. destruct (eltb (Fin y) (fst limits)) eqn:B1; [discriminate|]. destruct (eltb (snd limits) (Fin y)) eqn:B2; [discriminate|].
      unfold set_value, copy_with, make_joint, set_value, enforce_limits, is_continuous. cbn [j_type j_limits j_value]. rewrite C', L, B1, B2, Y. cbn [obind]. split; reflexivity.
Qed.
Print Assumptions C115_set_value.
(** A value within limits need not be finite: both limits infinite is accepted and puts the joint at infinity. *)
Theorem C115_finite_refuted : exists limits x t j, make_joint limits (Fin x) t = Ok j /\ j_value j = PInf /\ set_value j (j_value j) = Throw InvalidArgument.
Proof. exists (PInf, PInf), 0, PRISMATIC, (mkJ (PInf, PInf) PInf PRISMATIC). vm_compute. repeat split. Qed.
Print Assumptions C115_finite_refuted.
Example joint_case : exists j, make_joint (Fin (-1), Fin 2) (Fin 5) REVOLUTE = Ok j /\ j_value j = Fin 2.
Proof.
  unfold make_joint. cbn [N.eqb CONTINUOUS REVOLUTE Pos.eqb]. cbn [fst snd eltb]. rewrite (proj2 (Rltb_false 2 (-1))) by lra. unfold set_value, enforce_limits, is_continuous. cbn [j_type j_limits fst snd eltb N.eqb CONTINUOUS REVOLUTE Pos.eqb].
  rewrite (proj2 (Rltb_false 5 (-1))), (proj2 (Rltb_spec 2 5)) by lra. eexists. split; reflexivity.
Qed.

Lemma shortest_unique a b d d' : shortest PI a b d -> shortest PI a b d' -> d = d'.
Proof. intros [(e & E1 & E2) M] [(e' & E1' & E2') M']. specialize (M e' E1'). specialize (M' e E1). lra. Qed.
Lemma shortest_zero a b d : shortest PI a b d -> (d = 0 <-> same_angle PI a b).
Proof.
  intros [(e & E1 & E2) M]. split.
  - intros ->. assert (e = 0) by (destruct (Req_EM_T e 0) as [Z|Z]; [exact Z|]; pose proof (Rabs_pos_lt e Z); lra). subst e. rewrite Rplus_0_r in E1. exact E1.
  - intros S. specialize (M 0). rewrite Rplus_0_r, Rabs_R0 in M. specialize (M S). pose proof (Rabs_pos e). lra.
Qed.
(** The distance of two values of a joint: of a continuous joint the angle between them, else the difference. *)
Definition jd (j : joint_model) (x y : R) : R := if is_continuous j then revolute_distance PI x y else Rabs (y - x).
Theorem C115_distance : forall j x y, exists d, j_distance j (Fin x) (Fin y) = Fin d /\ j_distance j (Fin y) (Fin x) = Fin d /\ 0 <= d /\
  (is_continuous j = true -> shortest PI x y d /\ (d = 0 <-> same_angle PI x y)) /\ (is_continuous j = false -> d = Rabs (y - x)).
Proof.
  intros j x y. unfold j_distance, j_signed. destruct (is_continuous j).
  - cbn. exists (revolute_distance PI x y). destruct (C49_distance PI x y PI_RGT_0) as [S E]. split; [reflexivity|]. split; [rewrite E; reflexivity|]. split; [apply Rabs_pos|]. split; [|discriminate]. intros _. split; [exact S|]. apply shortest_zero, S.
  - cbn. exists (Rabs (y - x)). split; [reflexivity|]. split; [rewrite Rabs_minus_sym; reflexivity|]. split; [apply Rabs_pos|]. split; [discriminate | reflexivity].
Qed.
Print Assumptions C115_distance.

(** ** C119 *)
Lemma jd_nonneg j x y : 0 <= jd j x y. Proof. unfold jd. destruct (is_continuous j); apply Rabs_pos. Qed.
Lemma jd_sym j x y : jd j x y = jd j y x.
Proof. unfold jd. destruct (is_continuous j); [apply (C49_distance PI x y PI_RGT_0) | apply Rabs_minus_sym]. Qed.
Lemma jd_triangle j x y z : jd j x z <= jd j x y + jd j y z.
Proof.
  unfold jd. destruct (is_continuous j).
  - destruct (C49_distance PI x y PI_RGT_0) as [[(e1 & A1 & <-) _] _]. destruct (C49_distance PI y z PI_RGT_0) as [[(e2 & A2 & <-) _] _]. destruct (C49_distance PI x z PI_RGT_0) as [[_ M] _].
    apply Rle_trans with (Rabs (e1 + e2)); [|apply Rabs_triang]. apply M. apply (same_trans PI) with (y + e2); [|exact A2]. replace (x + (e1 + e2)) with (x + e1 + e2) by ring. apply same_shift. exact A1.
  - replace (z - x) with ((y - x) + (z - y)) by ring. apply Rabs_triang.
Qed.
(** The values of two joints are the same position: the same angle for a continuous joint, the same number else. *)
Definition same_position (j : joint_model) (x y : R) : Prop := if is_continuous j then same_angle PI x y else x = y.
Lemma jd_zero j x y : jd j x y = 0 <-> same_position j x y.
Proof.
  unfold jd, same_position. destruct (is_continuous j); [apply shortest_zero, (C49_distance PI x y PI_RGT_0)|]. split; [|intros ->; rewrite Rminus_diag_eq, Rabs_R0; reflexivity].
  intros H. destruct (Req_EM_T (y - x) 0) as [Z|Z]; [lra|]. apply Rabs_pos_lt in Z. lra.
Qed.
Fixpoint wsum (ws : list R) (c : list joint_model) (xs ys : list R) : R :=
  match ws, c, xs, ys with w :: ws, j :: c, x :: xs, y :: ys => (w * jd j x y) * (w * jd j x y) + wsum ws c xs ys | _, _, _, _ => 0 end.
(** The configuration [c] has the finite values [xs]. *)
Definition values (c : list joint_model) (xs : list R) : Prop := Forall2 (fun j x => j_value j = Fin x) c xs.
Lemma signed_jd j x y : exists s, j_signed j (Fin x) (Fin y) = Fin s /\ Rabs s = jd j x y.
Proof. unfold j_signed, jd, revolute_distance. destruct (is_continuous j); cbn; eauto. Qed.
Lemma distance_value : forall ws c1 c2 xs ys, same_types c1 c2 = true -> values c1 xs -> values c2 ys -> length ws = length c1 ->
  exists ds, raw_distances c1 c2 = Ok ds /\ sum_squares (map (fun c => lift1 (fun d => d * snd c) (fst c)) (combine ds ws)) = Fin (wsum ws c1 xs ys).
Proof.
  intros ws c1. revert ws. induction c1 as [|a c1 IH]; intros ws c2 xs ys T V1 V2 L.
  - destruct c2; [|discriminate]. destruct ws; [|discriminate]. inv V1. inv V2. exists []. split; reflexivity.
  - destruct c2 as [|b c2]; [discriminate|]. destruct ws as [|w ws]; [discriminate|]. inv V1. inv V2. cbn in T. apply andb_prop in T. destruct T as [T1 T]. injection L as L.
    destruct (IH ws c2 l' l'0 T H3 H5 L) as (ds & E1 & E2). cbn [raw_distances]. unfold signed_to. rewrite T1, H1, H2, E1. destruct (signed_jd a y y0) as (s & S1 & S2). rewrite S1. cbn [obind]. exists (Fin s :: ds). split; [reflexivity|].
    cbn [combine map fst snd lift1 wsum]. unfold sum_squares in *. cbn [fold_right]. rewrite E2. cbn [lift2]. f_equal. f_equal. rewrite <- S2. transitivity (w * w * (s * s)); [ring|]. rewrite <- (Rabs_right (s * s)) by (apply Rle_ge; apply Rle_0_sqr). rewrite Rabs_mult. ring.
Qed.
Lemma wsum_nonneg : forall ws c xs ys, 0 <= wsum ws c xs ys.
Proof. induction ws as [|w ws IH]; intros [|j c] [|x xs] [|y ys]; cbn; try lra. specialize (IH c xs ys). pose proof (Rle_0_sqr (w * jd j x y)) as Q. unfold Rsqr in Q. lra. Qed.
Lemma jd_type a b x y : is_same_type a b = true -> jd a x y = jd b x y.
Proof. unfold is_same_type, jd, is_continuous. intros E. apply N.eqb_eq in E. rewrite E. reflexivity. Qed.
Lemma wsum_types : forall ws a b xs ys, same_types a b = true -> wsum ws a xs ys = wsum ws b xs ys.
Proof. induction ws as [|w ws IH]; intros [|i a] [|j b] xs ys T; try discriminate; try reflexivity. cbn in T. apply andb_prop in T. destruct T as [T1 T]. cbn. destruct xs, ys; try reflexivity. rewrite (jd_type i j) by exact T1. rewrite (IH a b) by exact T. reflexivity. Qed.
Lemma wsum_sym : forall ws c xs ys, wsum ws c xs ys = wsum ws c ys xs.
Proof. induction ws as [|w ws IH]; intros [|j c] [|x xs] [|y ys]; cbn; try reflexivity. rewrite (jd_sym j x y), (IH c xs ys). reflexivity. Qed.
Lemma two_d a b s t u : 0 <= a -> 0 <= b -> 0 <= s -> 0 <= t -> 0 <= u -> u <= s + t -> sqrt ((a + b) * (a + b) + u * u) <= sqrt (a * a + s * s) + sqrt (b * b + t * t).
Proof.
  intros A B S T U H. assert (P : 0 <= a * a + s * s) by nra. assert (Q : 0 <= b * b + t * t) by nra. apply Rsqr_incr_0_var; [|pose proof (sqrt_pos (a * a + s * s)); pose proof (sqrt_pos (b * b + t * t)); lra].
  unfold Rsqr. rewrite sqrt_sqrt by nra. pose proof (sqrt_sqrt _ P) as E1. pose proof (sqrt_sqrt _ Q) as E2. set (m := sqrt (a * a + s * s)) in *. set (n := sqrt (b * b + t * t)) in *. assert (M : 0 <= m) by apply sqrt_pos. assert (N : 0 <= n) by apply sqrt_pos.
  assert (C : a * b + s * t <= m * n). { apply Rsqr_incr_0_var; [|nra]. unfold Rsqr. replace (m * n * (m * n)) with ((m * m) * (n * n)) by ring. rewrite E1, E2. pose proof (Rle_0_sqr (a * t - b * s)) as K. unfold Rsqr in K. nra. }
  assert (UU : u * u <= (s + t) * (s + t)) by (apply Rmult_le_compat; lra). nra.
Qed.
Lemma wsum_triangle : forall ws c xs ys zs, length xs = length c -> length ys = length c -> length zs = length c -> sqrt (wsum ws c xs zs) <= sqrt (wsum ws c xs ys) + sqrt (wsum ws c ys zs).
Proof.
  induction ws as [|w ws IH]; intros c xs ys zs LX LY LZ; [cbn; rewrite sqrt_0; lra|]. destruct c as [|j c]; [cbn; rewrite sqrt_0; lra|]. destruct xs as [|x xs]; [discriminate|]. destruct ys as [|y ys]; [discriminate|]. destruct zs as [|z zs]; [discriminate|]. cbn [wsum].
  injection LX as LX. injection LY as LY. injection LZ as LZ. specialize (IH c xs ys zs LX LY LZ).
  rewrite <- (sqrt_sqrt (wsum ws c xs zs) (wsum_nonneg _ _ _ _)), <- (sqrt_sqrt (wsum ws c xs ys) (wsum_nonneg _ _ _ _)), <- (sqrt_sqrt (wsum ws c ys zs) (wsum_nonneg _ _ _ _)).
  set (u := sqrt (wsum ws c xs zs)) in *. set (s := sqrt (wsum ws c xs ys)) in *. set (t := sqrt (wsum ws c ys zs)) in *.
  assert (D : forall p q : R, (w * p) * (w * p) = (Rabs w * p) * (Rabs w * p)) by (intros p _; transitivity (Rabs (w * w) * (p * p)); [rewrite Rabs_right by (apply Rle_ge, Rle_0_sqr); ring | rewrite Rabs_mult; ring]).
  rewrite !(D _ 0). pose proof (Rabs_pos w) as W. pose proof (jd_nonneg j x y). pose proof (jd_nonneg j y z). pose proof (jd_nonneg j x z). pose proof (jd_triangle j x y z).
  apply Rle_trans with (sqrt ((Rabs w * jd j x y + Rabs w * jd j y z) * (Rabs w * jd j x y + Rabs w * jd j y z) + u * u)).
  - apply sqrt_le_1_alt. apply Rplus_le_compat_r. apply Rmult_le_compat; try (apply Rmult_le_pos; assumption); rewrite <- Rmult_plus_distr_l; apply Rmult_le_compat_l; assumption.
  - apply two_d; try apply sqrt_pos; try (apply Rmult_le_pos; assumption); assumption.
Qed.
(** The positions of the joints that count are the same. *)
Fixpoint same_positions (ws : list R) (c : list joint_model) (xs ys : list R) : Prop :=
  match ws, c, xs, ys with w :: ws, j :: c, x :: xs, y :: ys => (w = 0 \/ same_position j x y) /\ same_positions ws c xs ys | _, _, _, _ => True end.
Lemma wsum_zero : forall ws c xs ys, wsum ws c xs ys = 0 <-> same_positions ws c xs ys.
Proof.
  induction ws as [|w ws IH]; intros [|j c] [|x xs] [|y ys]; cbn; try (split; [trivial | reflexivity]). rewrite <- IH, <- jd_zero. pose proof (wsum_nonneg ws c xs ys) as W. pose proof (Rle_0_sqr (w * jd j x y)) as Q. unfold Rsqr in Q. split.
  - intros E. assert (Z : w * jd j x y * (w * jd j x y) = 0) by lra. split; [|lra]. apply Rmult_integral in Z. apply Rmult_integral. tauto.
  - intros [E ->]. assert (Z : w * jd j x y = 0) by (destruct E as [-> | ->]; ring). rewrite Z. ring.
Qed.
Lemma f2_length {A B} (P : A -> B -> Prop) l l' : Forall2 P l l' -> length l = length l'.
Proof. induction 1; cbn; congruence. Qed.
Lemma types_length : forall a b, same_types a b = true -> length a = length b.
Proof. induction a as [|i a IH]; intros [|j b] T; try discriminate; [reflexivity|]. cbn in T. apply andb_prop in T. cbn. f_equal. apply IH. tauto. Qed.
Lemma types_sym : forall a b, same_types a b = true -> same_types b a = true.
Proof. induction a as [|i a IH]; intros [|j b] T; try discriminate; [reflexivity|]. cbn in *. apply andb_prop in T. destruct T as [T1 T]. unfold is_same_type in *. rewrite N.eqb_sym, T1. apply IH. exact T. Qed.
Lemma types_trans : forall a b c, same_types a b = true -> same_types b c = true -> same_types a c = true.
Proof. induction a as [|i a IH]; intros [|j b] [|k c] T U; try discriminate; [reflexivity|]. cbn in *. apply andb_prop in T. apply andb_prop in U. destruct T as [T1 T]. destruct U as [U1 U]. unfold is_same_type in *. apply N.eqb_eq in T1. apply N.eqb_eq in U1. rewrite T1, U1, N.eqb_refl. apply (IH b c); assumption. Qed.
Lemma config_distance_value r c1 c2 xs ys : same_types c1 c2 = true -> values c1 xs -> values c2 ys -> length c1 = r_num r -> length (r_weights r) = r_num r ->
  configuration_distance r c1 c2 = Ok (Fin (sqrt (wsum (r_weights r) c1 xs ys))).
Proof.
  intros T V1 V2 L W. unfold configuration_distance, signed_distances. rewrite <- (types_length c1 c2 T), L, Nat.eqb_refl. cbn [andb]. destruct (distance_value (r_weights r) c1 c2 xs ys T V1 V2 ltac:(lia)) as (ds & E1 & E2). rewrite E1. cbn [obind]. rewrite E2. reflexivity.
Qed.
(** C119: the distance of configurations of the robot's types is a metric, up to positions that count as the same. *)
Theorem C119_metric : forall r c1 c2 c3 xs ys zs, same_types c1 c2 = true -> same_types c2 c3 = true -> values c1 xs -> values c2 ys -> values c3 zs ->
  length c1 = r_num r -> length (r_weights r) = r_num r ->
  exists d12 d23 d13, configuration_distance r c1 c2 = Ok (Fin d12) /\ configuration_distance r c2 c1 = Ok (Fin d12) /\
    configuration_distance r c2 c3 = Ok (Fin d23) /\ configuration_distance r c1 c3 = Ok (Fin d13) /\
    0 <= d12 /\ d13 <= d12 + d23 /\ (d12 = 0 <-> same_positions (r_weights r) c1 xs ys).
Proof.
  intros r c1 c2 c3 xs ys zs T12 T23 V1 V2 V3 L W. pose proof (types_length _ _ T12) as L12. pose proof (types_length _ _ T23) as L23. pose proof (types_trans _ _ _ T12 T23) as T13.
  pose proof (f2_length _ _ _ V1) as LX. pose proof (f2_length _ _ _ V2) as LY. pose proof (f2_length _ _ _ V3) as LZ.
  exists (sqrt (wsum (r_weights r) c1 xs ys)), (sqrt (wsum (r_weights r) c1 ys zs)), (sqrt (wsum (r_weights r) c1 xs zs)).
  split; [apply config_distance_value; assumption|]. split; [rewrite (wsum_sym _ c1 xs ys), (wsum_types _ c1 c2) by exact T12; apply config_distance_value; try assumption; [apply types_sym; exact T12 | lia]|].
  split; [rewrite (wsum_types _ c1 c2) by exact T12; apply config_distance_value; try assumption; lia|]. split; [apply config_distance_value; assumption|]. split; [apply sqrt_pos|]. split; [apply wsum_triangle; lia|].
  rewrite <- wsum_zero. split; [apply sqrt_eq_0, wsum_nonneg | intros ->; apply sqrt_0].
Qed.
Print Assumptions C119_metric.
(** A joint made by the constructor. *)
Definition made (j : joint_model) : Prop := exists limits v, make_joint limits v (j_type j) = Ok j.
Lemma clamp_unit r : unit_interval r = Rmax 0 (Rmin 1 r) /\ 0 <= Rmax 0 (Rmin 1 r) <= 1.
Proof. unfold unit_interval. split; cases; unfold Rmin, Rmax; repeat (destruct (Rle_dec _ _)); lra. Qed.
Lemma same_angle_jd a x y d : is_continuous a = true -> Rabs d <= PI -> same_angle PI (x + d) y -> jd a x y = Rabs d.
Proof. intros C B S. unfold jd. rewrite C. apply (shortest_unique x y); [apply (C49_distance PI x y PI_RGT_0) | apply shortest_intro; [exact PI_RGT_0 | exact B | exact S]]. Qed.
Lemma interpolate_joint a x y ratio : made a -> j_value a = Fin x -> in_limits a (Fin y) = true -> let t := Rmax 0 (Rmin 1 ratio) in
  exists j z, copy_with a (if is_continuous a then Fin (interpolate_revolute PI x y ratio) else Fin (interpolate x y ratio)) = Ok j /\ j_value j = Fin z /\ is_same_type a j = true /\ j_limits j = j_limits a /\
    jd a x z = t * jd a x y /\ jd a z y = (1 - t) * jd a x y.
Proof.
  intros (limits & v & M) V I t. destruct (clamp_unit ratio) as [U B]. fold t in U, B. destruct (is_continuous a) eqn:C.
  - unfold copy_with, make_joint. pose proof C as C'. unfold is_continuous in C'. rewrite C'. unfold set_value, enforce_limits, is_continuous. cbn [j_type j_limits]. rewrite C'. cbn [obind]. eexists. eexists. split; [reflexivity|]. split; [reflexivity|]. split; [unfold is_same_type; cbn; apply N.eqb_refl|].
    split. { apply make_joint_cases in M. destruct M as [(E & w & _ & ->)|(E & _)]; [reflexivity|]. apply N.eqb_eq in C'. contradiction. }
    destruct (C50_interpolate PI x y ratio PI_RGT_0) as (_ & (e & S1 & S2 & S3) & _). fold t in S3. set (i := interpolate_revolute PI x y ratio) in *. destruct (enforce_spec PI PI_RGT_0 i) as [SE _]. set (z := enforce PI i) in *.
    assert (D : jd a x y = Rabs e) by (unfold jd; rewrite C; apply (shortest_unique x y); [apply (C49_distance PI x y PI_RGT_0) | exact S2]).
    assert (EB : Rabs e <= PI). { destruct (signed_magnitude PI PI_RGT_0 x y) as (f & F1 & F2 & _). destruct S2 as [_ S2]. specialize (S2 f F1). lra. }
    assert (Z : same_angle PI (x + t * e) z) by (apply (same_trans PI) with i; assumption). rewrite D. split.
    + rewrite (same_angle_jd a x z (t * e) C); [rewrite Rabs_mult, (Rabs_right t) by lra; reflexivity | | exact Z]. rewrite Rabs_mult, (Rabs_right t) by lra. pose proof (Rabs_pos e). assert (t * Rabs e <= 1 * Rabs e) by (apply Rmult_le_compat_r; lra). lra.
    + rewrite (same_angle_jd a z y ((1 - t) * e) C); [rewrite Rabs_mult, (Rabs_right (1 - t)) by lra; reflexivity | |].
      * rewrite Rabs_mult, (Rabs_right (1 - t)) by lra. pose proof (Rabs_pos e). assert ((1 - t) * Rabs e <= 1 * Rabs e) by (apply Rmult_le_compat_r; lra). lra.
      * apply (same_trans PI) with (x + t * e + (1 - t) * e); [apply same_shift, (same_sym PI), Z|]. replace (x + t * e + (1 - t) * e) with (x + e) by ring. exact S1.
  - assert (IX : in_limits a (Fin x) = true) by (rewrite <- V; apply (C115_within_limits limits v (j_type a)); exact M). unfold in_limits in I, IX. rewrite C in I, IX.
    destruct (eltb (Fin y) (fst (j_limits a))) eqn:Y1; [discriminate|]. destruct (eltb (snd (j_limits a)) (Fin y)) eqn:Y2; [discriminate|]. destruct (eltb (Fin x) (fst (j_limits a))) eqn:X1; [discriminate|]. destruct (eltb (snd (j_limits a)) (Fin x)) eqn:X2; [discriminate|].
    assert (L : eltb (snd (j_limits a)) (fst (j_limits a)) = false). { apply make_joint_cases in M. destruct M as [(E & w & _ & ->)|(E & L & w & _ & Q)]; [reflexivity|]. rewrite Q. exact L. }
    set (z := interpolate x y ratio). assert (Ez : z = x + t * (y - x)) by (unfold z, interpolate; rewrite U; ring).
    assert (BT : Rmin x y <= z <= Rmax x y). { rewrite Ez. unfold Rmin, Rmax. destruct (Rle_dec x y); assert (0 <= t * Rabs (y - x) <= Rabs (y - x)) by (pose proof (Rabs_pos (y - x)); nra); [rewrite (Rabs_right (y - x)) in * by lra | rewrite (Rabs_left (y - x)) in * by lra]; lra. }
    assert (Z1 : eltb (Fin z) (fst (j_limits a)) = false). { destruct (fst (j_limits a)) as [l| | |]; cbn in *; try assumption. apply Rltb_false in X1. apply Rltb_false in Y1. apply Rltb_false. unfold Rmin in BT. destruct (Rle_dec x y); lra. }
    assert (Z2 : eltb (snd (j_limits a)) (Fin z) = false). { destruct (snd (j_limits a)) as [l| | |]; cbn in *; try assumption. apply Rltb_false in X2. apply Rltb_false in Y2. apply Rltb_false. unfold Rmax in BT. destruct (Rle_dec x y); lra. }
    unfold copy_with, make_joint. pose proof C as C'. unfold is_continuous in C'. rewrite C', L. unfold set_value, enforce_limits, is_continuous. cbn [j_type j_limits]. rewrite C', Z1, Z2. cbn [obind]. eexists. exists z. split; [reflexivity|]. split; [reflexivity|]. split; [unfold is_same_type; cbn; apply N.eqb_refl|]. split; [reflexivity|].
    unfold jd. rewrite C, Ez. split.
    + replace (x + t * (y - x) - x) with (t * (y - x)) by ring. rewrite Rabs_mult, (Rabs_right t) by lra. reflexivity.
    + replace (y - (x + t * (y - x))) with ((1 - t) * (y - x)) by ring. rewrite Rabs_mult, (Rabs_right (1 - t)) by lra. reflexivity.
Qed.
(** C119: interpolation gives a configuration at the given share of the distance, on a shortest way, within the limits of the first. *)
Theorem C119_interpolate : forall c1 c2 xs ys ratio, Forall made c1 -> same_types c1 c2 = true -> values c1 xs -> values c2 ys ->
  Forall2 (fun j y => in_limits j (Fin y) = true) c1 ys -> let t := Rmax 0 (Rmin 1 ratio) in
  exists c zs, interpolate_configs c1 c2 ratio = Ok c /\ values c zs /\ same_types c1 c = true /\ map j_limits c = map j_limits c1 /\
    forall r, length c1 = r_num r -> length (r_weights r) = r_num r ->
      exists d, configuration_distance r c1 c2 = Ok (Fin d) /\ configuration_distance r c1 c = Ok (Fin (t * d)) /\ configuration_distance r c c2 = Ok (Fin ((1 - t) * d)).
Proof.
  intros c1 c2 xs ys ratio M T V1 V2 I t. destruct (clamp_unit ratio) as [U B]. fold t in U, B.
  assert (K : exists c zs, interpolate_joints c1 c2 ratio = Ok c /\ values c zs /\ same_types c1 c = true /\ map j_limits c = map j_limits c1 /\
    forall ws, wsum ws c1 xs zs = t * t * wsum ws c1 xs ys /\ wsum ws c1 zs ys = (1 - t) * (1 - t) * wsum ws c1 xs ys).
  { clear U. revert c2 xs ys T V1 V2 I. induction M as [|a c1 MA M IH]; intros c2 xs ys T V1 V2 I.
    - destruct c2; [|discriminate]. inv V1. inv V2. exists [], []. split; [reflexivity|]. split; [constructor|]. split; [reflexivity|]. split; [reflexivity|]. intros [|w ws]; cbn; split; ring.
    - destruct c2 as [|b c2]; [discriminate|]. cbn in T. apply andb_prop in T. destruct T as [T1 T]. inversion V1 as [|? x ? xs' Ax V1']; subst. inversion V2 as [|? y ? ys' By V2']; subst. inversion I as [|? ? ? ? Iy I']; subst.
      destruct (IH c2 xs' ys' T V1' V2' I') as (c & zs & E & VC & TC & LC & W). destruct (interpolate_joint a x y ratio MA Ax Iy) as (j & z & EJ & VJ & TJ & LJ & D1 & D2). fold t in D1, D2.
      exists (j :: c), (z :: zs). cbn [interpolate_joints]. rewrite T1, Ax, By. cbn [lift2].
      assert (F : (if is_continuous a then Fin (interpolate_revolute PI x y ratio) else Fin (interpolate x y ratio)) = (if is_continuous a then Fin (interpolate_revolute PI x y ratio) else Fin (interpolate x y ratio))) by reflexivity.
      rewrite EJ, E. cbn [obind]. split; [reflexivity|]. split; [constructor; assumption|]. split; [cbn; rewrite TJ; exact TC|]. split; [cbn; rewrite LJ, LC; reflexivity|].
      intros [|w ws]; [cbn; split; ring|]. cbn [wsum]. destruct (W ws) as [W1 W2]. rewrite W1, W2, D1, D2. split; ring. }
  destruct K as (c & zs & E & VC & TC & LC & W). exists c, zs. split; [unfold interpolate_configs; rewrite (types_length _ _ T), Nat.eqb_refl; exact E|]. split; [exact VC|]. split; [exact TC|]. split; [exact LC|]. intros r L LW.
  destruct (W (r_weights r)) as [W1 W2]. exists (sqrt (wsum (r_weights r) c1 xs ys)). split; [apply config_distance_value; assumption|].
  assert (SQ : forall k w, 0 <= k -> 0 <= w -> sqrt (k * k * w) = k * sqrt w) by (intros k w K0 W0; rewrite sqrt_mult_alt by nra; rewrite sqrt_square by exact K0; reflexivity). pose proof (wsum_nonneg (r_weights r) c1 xs ys) as NN. split.
  - rewrite (config_distance_value r c1 c xs zs TC V1 VC L LW), W1, SQ by lra. reflexivity.
  - rewrite (config_distance_value r c c2 zs ys); [|apply (types_trans c c1 c2); [apply types_sym; exact TC | exact T] | exact VC | exact V2 | rewrite <- (types_length _ _ TC); exact L | exact LW].
    rewrite <- (wsum_types _ c1 c) by exact TC. rewrite W2, SQ by lra. reflexivity.
Qed.
Print Assumptions C119_interpolate.
(** The average of configurations is the average of each joint's values; but for continuous joints it takes angles for plain numbers: two positions
    0.2 apart average to one nearly a half turn from both. *)
Theorem C119_average_refuted : exists a b m x y, made a /\ made b /\ is_continuous a = true /\ j_value a = Fin x /\ j_value b = Fin y /\
  average_configs true [[a]; [b]] = Ok [m] /\ j_value m = Fin 0 /\ jd a x y = 1 / 5 /\ 29 / 10 < jd a x 0 /\ 29 / 10 < jd a y 0.
Proof.
  pose (J := fun x => mkJ (MInf, PInf) (Fin x) CONTINUOUS). pose (h := PI - 1 / 10). assert (P : 3 < PI) by (pose proof PI2_3_2; lra).
  assert (E : forall x, - PI < x < PI -> enforce PI x = x) by (intros x X; apply enforce_id; [exact PI_RGT_0 | lra]).
  assert (M : forall x, - PI < x < PI -> made (J x)). { intros x X. exists (Fin 0, Fin 0), (Fin x). unfold make_joint, set_value, enforce_limits, is_continuous. cbn. rewrite (E x X). reflexivity. }
  exists (J h), (J (- h)), (J 0), h, (- h). split; [apply M; unfold h; lra|]. split; [apply M; unfold h; lra|]. split; [reflexivity|]. split; [reflexivity|]. split; [reflexivity|]. split.
  - unfold average_configs. cbn [forallb same_types J is_same_type j_type andb]. cbn [N.eqb CONTINUOUS Pos.eqb andb]. cbn [average_joints map nth j_value J finite_values]. pose proof (C52_mean true [h; - h] ltac:(discriminate)) as A. rewrite A. cbn [obind]. unfold copy_with, make_joint. cbn [J j_type j_limits N.eqb CONTINUOUS Pos.eqb].
    unfold set_value, enforce_limits, is_continuous. cbn [j_type j_limits N.eqb CONTINUOUS Pos.eqb]. replace (Rsum [h; - h] / INR (length [h; - h])) with 0 by (unfold Rsum; cbn; field). rewrite E by lra. reflexivity.
  - split; [reflexivity|]. split; [rewrite (same_angle_jd (J h) h (- h) (1 / 5)); [rewrite Rabs_right by lra; lra | reflexivity | rewrite Rabs_right by lra; lra | unfold h; exists (-1)%Z; lra]|].
    split; [rewrite (same_angle_jd (J h) h 0 (- h)); [rewrite Rabs_left by (unfold h; lra); unfold h; lra | reflexivity | rewrite Rabs_left by (unfold h; lra); unfold h; lra | exists 0%Z; lra] | rewrite (same_angle_jd (J h) (- h) 0 h); [rewrite Rabs_right by (unfold h; lra); unfold h; lra | reflexivity | rewrite Rabs_right by (unfold h; lra); unfold h; lra | exists 0%Z; lra]].
Qed.
Print Assumptions C119_average_refuted.
(** A configuration of two joints that meets the hypotheses above. *)
Example config_case : let J := mkJ (MInf, PInf) (Fin 1) CONTINUOUS in let K := mkJ (Fin (-1), Fin 2) (Fin 1) PRISMATIC in
  Forall made [J; K] /\ same_types [J; K] [J; K] = true /\ values [J; K] [1; 1] /\ Forall2 (fun j y => in_limits j (Fin y) = true) [J; K] [1; 1].
Proof.
  cbv zeta. split; [|split; [reflexivity | split; [repeat constructor|]]].
  - constructor; [|constructor; [|constructor]].
    + exists (Fin 0, Fin 0), (Fin 1). unfold make_joint, set_value, enforce_limits, is_continuous. cbn. rewrite enforce_id; [reflexivity | exact PI_RGT_0 | pose proof PI2_3_2; lra].
    + exists (Fin (-1), Fin 2), (Fin 1). unfold make_joint, set_value, enforce_limits, is_continuous. cbn. rewrite (proj2 (Rltb_false 2 (-1))), (proj2 (Rltb_false 1 (-1))), (proj2 (Rltb_false 2 1)) by lra. reflexivity.
  - constructor; [reflexivity|]. constructor; [|constructor]. unfold in_limits, is_continuous. cbn. rewrite (proj2 (Rltb_false 1 (-1))), (proj2 (Rltb_false 2 1)) by lra. reflexivity.
Qed.

(** C119: the distances joint by joint, and the exception for different numbers of joints. *)
Theorem C119_unweighted : forall c1 c2, (length c1 <> length c2 -> unweighted_distances c1 c2 = Throw InvalidArgument) /\
  (forall ds, unweighted_distances c1 c2 = Ok ds -> length c2 = length c1 /\ length ds = length c1 /\
     forall i a b, nth_error c1 i = Some a -> nth_error c2 i = Some b -> exists d, nth_error ds i = Some d /\ signed_to a b = Ok d).
Proof.
  intros c1 c2. unfold unweighted_distances. split.
  - intros N. apply Nat.eqb_neq in N. rewrite N. reflexivity.
  - intros ds E. destruct (Nat.eqb_spec (length c1) (length c2)) as [L|L]; [|discriminate]. split; [auto|]. revert c2 L ds E. induction c1 as [|x c1 IH]; intros [|y c2] L ds E; try discriminate.
    + injection E as <-. split; [reflexivity|]. intros [|i]; discriminate.
    + cbn [raw_distances] in E. destruct (signed_to x y) as [d| | | |] eqn:S; try discriminate. cbn [obind] in E. destruct (raw_distances c1 c2) as [r| | | |] eqn:R; try discriminate. injection E as <-.
      injection L as L. destruct (IH c2 L r R) as (A & B). split; [cbn; auto|]. intros [|i] a b A1 B1; cbn in A1, B1 |- *; [injection A1 as <-; injection B1 as <-; eauto|eauto].
Qed.
Print Assumptions C119_unweighted.
