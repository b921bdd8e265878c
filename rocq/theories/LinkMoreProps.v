(** More about simple_linked_robot_model.hpp: the names of the joints (C118), averages (C119), the translation part of the Jacobian (C120). *)
From Coq Require Import String Reals Lra Lia.
From Coquelicot Require Import Coquelicot.
From Verif Require Import Base MathModel TotpVec MathProps GeoModel GeoAlg GeoProps RotModel RotProps LinkModel LinkProps LinkTreeProps LinkKinProps LinkJacProps.
Open Scope R_scope.

(** GetActiveJointNames gives the name of each joint that is not fixed at the index its value has in a configuration. *)
Theorem C118_active_names : forall r, wf r -> exists names, active_names r = Ok names /\ length names = length (r_config r) /\
  (forall k j a, nth_error (r_joints r) k = Some j -> is_fixed (rj_model j) = false -> zget (r_active r) (Z.of_nat k) = Some a ->
     nth_error names (Z.to_nat a) = Some (rj_name j) /\ nth_error (r_config r) (Z.to_nat a) = Some (rj_model j)).
Proof.
  intros r W. destruct W as [_ _ _ WA _ _ _ WC]. pose proof (active_num (r_joints r) 0) as NUM. rewrite WA in NUM. cbn [fst Nat.add] in NUM.
  exists (map rj_name (filter movable (r_joints r))). split; [unfold active_names; change (fun j => negb (is_fixed (rj_model j))) with movable; rewrite map_length, <- NUM, Nat.eqb_refl; reflexivity|].
  split; [rewrite WC, !map_length; reflexivity|]. intros k j a K F A.
  pose proof (active_nth (r_joints r) 0 k j K) as N. rewrite WA in N. cbn [snd Nat.add] in N. unfold zget in A. destruct (Z.ltb_spec (Z.of_nat k) 0); [lia|]. rewrite Nat2Z.id, N in A.
  assert (M : movable j = true) by (unfold movable; rewrite F; reflexivity). rewrite M in A. injection A as <-. rewrite Nat2Z.id, WC, !nth_error_map.
  assert (E : nth_error (filter movable (r_joints r)) (length (filter movable (firstn k (r_joints r)))) = Some j).
  { clear - K M. revert k K. induction (r_joints r) as [|x l IH]; intros k K; [destruct k; discriminate|]. destruct k as [|k]; cbn in K |- *; [injection K as ->; rewrite M; reflexivity|].
    destruct (movable x); cbn; apply IH; exact K. }
  rewrite E. split; reflexivity.
Qed.
Print Assumptions C118_active_names.

(** The average of configurations of the same joints: each joint of the first configuration is set to the mean of that joint's values, as
    SetValue does.  (Missing for C119: on a continuous joint the mean of the numbers is not a mean of the angles, see C119_average_refuted.) *)
Definition column_of (k : nat) (xss : list (list R)) : list R := map (fun xs => nth k xs 0) xss.
Lemma copy_set a v : made a -> copy_with a v = set_value a v.
Proof.
  intros (limits & w & M). apply make_joint_cases in M. unfold copy_with, make_joint, set_value, enforce_limits, is_continuous. destruct M as [(C & x & _ & E)|(C & L & x & _ & E)].
  - rewrite E. cbn [j_type j_limits]. rewrite C. reflexivity.
  - pose proof C as C'. apply N.eqb_neq in C'. rewrite E. cbn [j_type j_limits]. rewrite C', L. reflexivity.
Qed.
Lemma finite_column k cs xss : Forall2 values cs xss -> (forall c, In c cs -> (k < length c)%nat) -> finite_values (map (fun c => j_value (nth k c default_joint)) cs) = Some (column_of k xss).
Proof.
  induction 1 as [|c xs cs xss V F IH]; intros L; [reflexivity|]. cbn [map column_of finite_values]. assert (E : j_value (nth k c default_joint) = Fin (nth k xs 0)).
  { assert (K : (k < length c)%nat) by (apply L; left; reflexivity). clear - V K. revert k K. induction V as [|j x c xs E V IH]; intros k K; [cbn in K; lia|]. destruct k as [|k]; [exact E|]. cbn. apply IH. cbn in K. lia. }
  rewrite E, IH by (intros; apply L; right; assumption). reflexivity.
Qed.
Lemma average_joints_spec dbg cs xss : Forall2 values cs xss -> cs <> [] -> forall rep k, Forall made rep -> (forall c, In c cs -> length c = (k + length rep)%nat) ->
  Forall (fun j => fst (j_limits j) <> PInf /\ snd (j_limits j) <> MInf) rep ->
  exists c, average_joints dbg rep k cs = Ok c /\ length c = length rep /\
    forall i j, nth_error rep i = Some j -> exists m, nth_error c i = Some m /\ set_value j (Fin (Rsum (column_of (k + i) xss) / INR (length cs))) = Ok m.
Proof.
  intros V NE. induction rep as [|j rep IH]; intros k M L R; cbn [average_joints].
  - exists []. split; [reflexivity|]. split; [reflexivity|]. intros [|i] j E; discriminate.
  - inv M. inv R. rewrite (finite_column k cs xss V) by (intros c I; rewrite (L c I); cbn; lia).
    assert (LX : length cs = length xss) by (clear - V; induction V; cbn; congruence).
    rewrite C52_mean by (destruct xss; [destruct cs; [congruence|discriminate]|discriminate]). cbn [obind]. rewrite copy_set by assumption.
    assert (HS : exists m, set_value j (Fin (Rsum (column_of k xss) / INR (length cs))) = Ok m).
    { unfold set_value, enforce_limits. destruct (is_continuous j); [eexists; reflexivity|]. destruct (eltb _ _); [eexists; reflexivity|]. destruct (eltb _ _); eexists; reflexivity. }
    destruct HS as [m HS]. replace (length (column_of k xss)) with (length cs) by (unfold column_of; rewrite map_length; exact LX). rewrite HS. cbn [obind].
    destruct (IH (k + 1)%nat) as (c & E & LC & P); [assumption | intros c I; rewrite (L c I); cbn; lia | assumption |]. replace (S k) with (k + 1)%nat by lia. rewrite E. cbn [obind].
    exists (m :: c). split; [reflexivity|]. split; [cbn; congruence|]. intros [|i] j' EI; cbn in EI |- *.
    + injection EI as <-. exists m. rewrite Nat.add_0_r. auto.
    + destruct (P i j' EI) as (m' & Q1 & Q2). exists m'. split; [exact Q1|]. replace (k + S i)%nat with (k + 1 + i)%nat by lia. exact Q2.
Qed.
Theorem C119_average_partial : forall dbg rep cs xss, Forall2 values (rep :: cs) xss -> Forall (fun c => same_types rep c = true) cs -> Forall regular rep ->
  exists c, average_configs dbg (rep :: cs) = Ok c /\ length c = length rep /\
    forall i j, nth_error rep i = Some j ->
      exists m, nth_error c i = Some m /\ set_value j (Fin (Rsum (map (fun xs => nth i xs 0) xss) / INR (length (rep :: cs)))) = Ok m.
Proof.
  intros dbg rep cs xss V T R. unfold average_configs.
  assert (RR : same_types rep rep = true) by (clear; induction rep as [|j rep IH]; [reflexivity|]; cbn; unfold is_same_type; rewrite N.eqb_refl; exact IH).
  assert (A : forallb (same_types rep) (rep :: cs) = true) by (cbn; rewrite RR; apply forallb_forall; rewrite Forall_forall in T; exact T). rewrite A.
  destruct (average_joints_spec dbg (rep :: cs) xss V ltac:(discriminate) rep 0) as (c & E & L & P).
  - eapply Forall_impl; [|exact R]. intros j H. apply H.
  - rewrite forallb_forall in A. intros c I. symmetry. apply types_length. apply A. exact I.
  - eapply Forall_impl; [|exact R]. intros j H. apply H.
  - exists c. auto.
Qed.
Print Assumptions C119_average_partial.
(** Configurations of other joints are refused; no configurations have the empty average. *)
Theorem C119_average_refused : forall dbg rep cs c, In c cs -> (length c <> length rep \/ exists i a b, nth_error rep i = Some a /\ nth_error c i = Some b /\ j_type a <> j_type b) ->
  average_configs dbg (rep :: cs) = Throw InvalidArgument /\ average_configs dbg [] = Ok [].
Proof.
  intros dbg rep cs c I D. split; [|reflexivity]. unfold average_configs. enough (F : forallb (same_types rep) (rep :: cs) = false) by (rewrite F; reflexivity).
  assert (S : same_types rep c = false).
  { destruct (same_types rep c) eqn:S; [|reflexivity]. exfalso. destruct D as [D|(i & a & b & EA & EB & N)]; [apply D; symmetry; apply types_length; exact S|].
    clear I. revert c i S EA EB. induction rep as [|x rep IH]; intros [|y c] [|i] S EA EB; try discriminate; cbn in *; apply andb_prop in S; destruct S as [S1 S2].
    - injection EA as ->. injection EB as ->. apply N.eqb_eq in S1. contradiction.
    - apply (IH c i); assumption. }
  apply not_true_iff_false. rewrite forallb_forall. intros H. specialize (H c (or_intror I)). congruence.
Qed.
Print Assumptions C119_average_refused.

(** ComputeLinkPointTranslationJacobian: its column for a revolute joint is the derivative of the point. *)
Theorem C120_translation : forall r i l p k j a, wf r -> Forall plain (r_joints r) -> rigid (r_base r) -> zget (r_links r) i = Some l ->
  nth_error (r_joints r) k = Some j -> is_revolute (rj_model j) = true -> zget (r_active r) (Z.of_nat k) = Some a ->
  exists cols x0 T, translation_jacobian r (rl_name l) p 1 = Ok cols /\ j_value (rj_model j) = Fin x0 /\ (forall x, pose (r_base r) (turned (r_joints r) k x) i (T x)) /\
    vderiv (fun x => iapp (T x) p) x0 (cols (Z.to_nat a)).
Proof.
  intros r i l p k j a W PL RB E K RV A. destruct (C120_revolute r i l p k j a W PL RB E K RV A) as (cols & x0 & T & EJ & VJ & P & _ & D & _).
  exists (fun i => fst (cols i)), x0, T. unfold translation_jacobian. rewrite EJ. auto.
Qed.
Print Assumptions C120_translation.
(** A link that is not there is refused by both. *)
Theorem C120_unknown_link : forall r name p w, ~ In name (map rl_name (r_links r)) -> jacobian r name p w = Throw InvalidArgument /\ translation_jacobian r name p w = Throw InvalidArgument.
Proof.
  intros r name p w N. assert (E : link_transform r name = Throw InvalidArgument).
  { unfold link_transform. induction (r_links r) as [|l ls IH]; [reflexivity|]. cbn in N |- *. destruct (String.eqb_spec name (rl_name l)) as [->|D]; [exfalso; apply N; left; reflexivity|].
    try (destruct (String.eqb_spec (rl_name l) name) as [Q|D']; [exfalso; apply D; symmetry; exact Q|]). apply IH. intros H. apply N. right. exact H. }
  unfold translation_jacobian, jacobian. rewrite E. split; reflexivity.
Qed.
Print Assumptions C120_unknown_link.

(** Two configurations of a prismatic joint that meet the hypotheses of C119_average_partial. *)
Example average_case : let J := fun x => mkJ (Fin (-1), Fin 2) (Fin x) PRISMATIC in
  Forall2 values [[J 0]; [J 1]] [[0]; [1]] /\ Forall (fun c => same_types [J 0] c = true) [[J 1]] /\ Forall regular [J 0].
Proof.
  cbv zeta. split; [repeat constructor|]. split; [repeat constructor|]. constructor; [|constructor]. split; [|split; discriminate].
  exists (Fin (-1), Fin 2), (Fin 0). unfold make_joint, set_value, enforce_limits, is_continuous. cbn. rewrite (proj2 (Rltb_false 2 (-1))), (proj2 (Rltb_false 0 (-1))), (proj2 (Rltb_false 2 0)) by lra. reflexivity.
Qed.
