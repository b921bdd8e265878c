(** C58, C60: appending trajectories, converting vectors. *)
From Coq Require Import Sorted.
From Verif Require Import Base TrajectoryModel.
Open Scope Z_scope.

Section P.
Context {N : Type} (name_eqb : N -> N -> bool).
Hypothesis E : forall a b, reflect (a = b) (name_eqb a b).
Variable no_frame : N.
Context {P : Type}.
Variable lo hi : Z.
Notation trajectory := (trajectory N P).
Notation append := (append N name_eqb no_frame P lo hi).
Notation names := (joint_names N P).
Notation pts := (points N P).

(** ** Specification *)
(** The time of the last point; 0 without points. *)
Definition end_time (l : list (Z * P)) : Z := last (map fst l) 0.
Definition shifted (d : Z) (l : list (Z * P)) : list (Z * P) := map (fun p => (d + fst p, snd p)) l.
Definition ordered (l : list (Z * P)) : Prop := StronglySorted Z.le (map fst l).

Lemma names_equal_same l : names_equal N name_eqb l l = Ok true.
Proof. induction l; cbn; auto. destruct (E a a); auto. congruence. Qed.
Lemma names_differ : forall n1 n2, length n1 = length n2 -> n1 <> n2 -> names_equal N name_eqb n1 n2 = Ok false.
Proof. induction n1 as [|a n1 IH]; intros [|b n2] L D; cbn in *; try lia; [congruence|]. destruct (E a b) as [ -> |NE]; auto. apply IH; [lia|congruence]. Qed.
Lemma add_points_ok d : forall p2 p1, Forall (fun p => lo <= d + fst p <= hi) p2 -> add_points P lo hi d p1 p2 = (p1 ++ shifted d p2, Ok tt).
Proof.
  induction p2 as [|[t x] p2 IH]; intros p1 F; cbn [add_points shifted map]; [rewrite app_nil_r; auto|]. inversion F as [|? ? F1 F2]. subst. cbn [fst] in F1.
  unfold dadd. destruct (Z.leb_spec lo (d + t)); [|lia]. destruct (Z.leb_spec (d + t) hi); [|lia]. cbn [andb]. rewrite IH by auto. rewrite <- app_assoc. reflexivity.
Qed.
Lemma last_rev (l : list (Z * P)) : match rev l with (t, _) :: _ => t | [] => 0 end = end_time l.
Proof.
  destruct l as [|a l] using rev_ind; [reflexivity|]. rewrite rev_app_distr. unfold end_time. rewrite map_app. cbn [map]. rewrite last_last. destruct a; reflexivity.
Qed.
(** C58 (partial): with equal joint names, or none in the first trajectory, and durations in range. *)
Theorem C58_append_partial : forall t1 t2 : trajectory, (names t1 = [] \/ names t1 = names t2) -> Forall (fun p => lo <= end_time (pts t1) + fst p <= hi) (pts t2) ->
  exists t, append t1 t2 = (t, Ok tt) /\ names t = names t2 /\ pts t = pts t1 ++ shifted (end_time (pts t1)) (pts t2) /\
    frame_id N P t = (if name_eqb (frame_id N P t1) no_frame then frame_id N P t2 else frame_id N P t1).
Proof.
  intros t1 t2 HN HF. unfold TrajectoryModel.append. cbn zeta. cbn [points joint_names frame_id]. rewrite last_rev, add_points_ok by auto.
  destruct (names t1) as [|n l] eqn:EN; [eexists; split; [reflexivity|auto]|]. destruct HN as [?|HN]; [discriminate|]. rewrite <- HN, names_equal_same. eexists. split; [reflexivity|auto].
Qed.
(** If both were ordered in time, the second not starting before 0, so is the result. *)
Theorem C58_ordered : forall t1 t2 t : trajectory, append t1 t2 = (t, Ok tt) -> ordered (pts t1) -> ordered (pts t2) -> (forall p, In p (pts t2) -> 0 <= fst p) -> ordered (pts t).
Proof.
  intros t1 t2 t H O1 O2 NN. assert (PT : pts t = pts t1 ++ shifted (end_time (pts t1)) (pts t2)).
  { assert (GO : forall d p2 p1 p r, add_points P lo hi d p1 p2 = (p, r) -> r = Ok tt -> p = p1 ++ shifted d p2).
    { intros d. induction p2 as [|[s x] p2 IH]; intros p1 p r A R; cbn [add_points] in A; [injection A as <- _; cbn; rewrite app_nil_r; auto|].
      unfold dadd in A. destruct ((lo <=? d + s) && (d + s <=? hi)); [|injection A as _ <-; discriminate]. apply IH in A; auto. rewrite A, <- app_assoc. reflexivity. }
    unfold TrajectoryModel.append in H. cbn zeta in H. cbn [points joint_names frame_id] in H. rewrite last_rev in H. destruct (add_points P lo hi (end_time (pts t1)) (pts t1) (pts t2)) as [p r] eqn:A.
    destruct (names t1); [injection H as <- R; cbn [points]; eapply GO; eauto|]. destruct (names_equal _ _ _ _) as [[]|x| | |]; try discriminate; injection H as <- R; cbn [points]; eapply GO; eauto. }
  rewrite PT. unfold ordered. rewrite map_app. clear H PT t.
  assert (MX : forall l : list Z, StronglySorted Z.le l -> forall x, In x l -> x <= last l 0).
  { induction l as [|a l IH]; intros S x I; [destruct I|]. inversion S as [|? ? S' F]. subst. destruct l as [|b l]; [destruct I as [ <- |[]]; cbn; lia|].
    change (last (a :: b :: l) 0) with (last (b :: l) 0). destruct I as [ <- |I]; [|apply IH; auto]. transitivity b; [inversion F; auto|apply IH; auto; left; auto]. }
  assert (AP : forall a b : list Z, StronglySorted Z.le a -> StronglySorted Z.le b -> (forall x y, In x a -> In y b -> x <= y) -> StronglySorted Z.le (a ++ b)).
  { induction a as [|x a IH]; intros b Sa Sb H; auto. inversion Sa as [|? ? Sa' F]. subst. cbn. constructor; [apply IH; auto; intros; apply H; auto; right; auto|].
    apply Forall_app. split; auto. apply Forall_forall. intros y I. apply H; auto. left. auto. }
  apply AP; auto.
  - unfold shifted. rewrite map_map. cbn [fst]. unfold ordered in O2. rewrite <- (map_map fst (fun z => end_time (pts t1) + z)). induction O2 as [|x l S IH F]; cbn; constructor; auto.
    apply Forall_map. eapply Forall_impl; [|exact F]. cbn. intros; lia.
  - intros x y I J. apply (MX _ O1) in I. unfold shifted in J. rewrite map_map in J. apply in_map_iff in J. destruct J as (q & <- & J). cbn [fst]. specialize (NN q J). unfold end_time. lia.
Qed.
(** Different names of the same number: rejected, nothing changed. *)
Theorem C58_names_differ : forall t1 t2 : trajectory, names t1 <> [] -> length (names t1) = length (names t2) -> names t1 <> names t2 -> append t1 t2 = (t1, Throw RuntimeError).
Proof. intros t1 t2 NE L D. unfold TrajectoryModel.append. rewrite names_differ by auto. destruct (names t1); [congruence|auto]. Qed.
(** Whatever the outcome, the points of the first trajectory stay, followed by some of the second one's, shifted. *)
Theorem C58_points_kept : forall t1 t2 : trajectory, exists n, pts (fst (append t1 t2)) = pts t1 ++ shifted (end_time (pts t1)) (firstn n (pts t2)).
Proof.
  intros t1 t2.
  assert (GO : forall d p2 p1, exists n, fst (add_points P lo hi d p1 p2) = p1 ++ shifted d (firstn n p2)).
  { intros d. induction p2 as [|[s x] p2 IH]; intros p1; cbn [add_points]; [exists 0%nat; cbn; rewrite app_nil_r; auto|].
    unfold dadd. destruct ((lo <=? d + s) && (d + s <=? hi)); [|exists 0%nat; cbn; rewrite app_nil_r; auto].
    destruct (IH (p1 ++ [(d + s, x)])) as (n & ->). exists (S n). rewrite <- app_assoc. reflexivity. }
  destruct (GO (end_time (pts t1)) (pts t2) (pts t1)) as (n & H).
  unfold TrajectoryModel.append. cbn zeta. cbn [points joint_names frame_id]. rewrite last_rev.
  destruct (add_points P lo hi (end_time (pts t1)) (pts t1) (pts t2)) as [p r]. cbn [fst] in H.
  assert (NIL : pts t1 = pts t1 ++ shifted (end_time (pts t1)) (firstn 0 (pts t2))) by (cbn; rewrite app_nil_r; auto).
  destruct (names t1); [exists n; auto|]. destruct (names_equal _ _ _ _) as [[]|x| | |]; eauto.
Qed.
End P.
Print Assumptions C58_append_partial.
Print Assumptions C58_points_kept.
Print Assumptions C58_ordered.
Print Assumptions C58_names_differ.
Notation tr n p := (Build_trajectory nat Z n 0%nat p).
Notation nappend := (append nat Nat.eqb 0%nat Z (-1000) 1000).
Example C58_example : nappend (tr [1; 2]%nat [(0, 5); (3, 6)]) (tr [1; 2]%nat [(1, 7); (4, 8)]) = (tr [1; 2]%nat [(0, 5); (3, 6); (4, 7); (7, 8)], Ok tt).
Proof. reflexivity. Qed.
(** C58 is false: names that only start the same are accepted, fewer names in the second trajectory are read beyond their
    end, appending a trajectory to itself is undefined, and a duration out of range leaves a part of the points added. *)
Theorem C58_prefix_refuted : exists t1 t2 t, nappend t1 t2 = (t, Ok tt) /\ joint_names nat Z t1 <> [] /\ joint_names nat Z t1 <> joint_names nat Z t2.
Proof. exists (tr [1]%nat []), (tr [1; 2]%nat [(1, 7)]). eexists. split; [reflexivity|]. split; discriminate. Qed.
Print Assumptions C58_prefix_refuted.
Theorem C58_fewer_names_refuted : exists t1 t2, snd (nappend t1 t2) = UB.
Proof. exists (tr [1; 2]%nat []), (tr [1]%nat []). reflexivity. Qed.
Print Assumptions C58_fewer_names_refuted.
Theorem C58_self_refuted : exists t, snd (append_self nat Nat.eqb 0%nat Z (-1000) 1000 t) = UB.
Proof. exists (tr [1]%nat [(0, 5)]). reflexivity. Qed.
Print Assumptions C58_self_refuted.
Theorem C58_changed_refuted : exists t1 t2 t, nappend t1 t2 = (t, Throw RuntimeError) /\ t <> t1.
Proof. exists (tr [] [(0, 5)]), (tr [1]%nat [(1, 7); (2000, 8)]). eexists. split; [reflexivity|]. discriminate. Qed.
Print Assumptions C58_changed_refuted.

(** C60 (partial): only the empty vector is converted correctly. *)
Theorem C60_empty_partial : forall A, @convert_to A [] = Ok [].
Proof. reflexivity. Qed.
Print Assumptions C60_empty_partial.
(** C60 is false for every vector with an element: memory beyond it is read. *)
Theorem C60_refuted : forall A (vec : list A), vec <> [] -> convert_to vec = UB.
Proof.
  intros A vec H. unfold convert_to, read_range. destruct (Nat.leb_spec (length vec * sizeof_double) (length vec)); auto. destruct vec; [congruence|]. unfold sizeof_double in *. cbn [length] in *. lia.
Qed.
Print Assumptions C60_refuted.
Example C60_witness : convert_to [1; 2] = UB.
Proof. reflexivity. Qed.
