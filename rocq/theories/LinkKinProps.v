(** Forward kinematics and the position of simple_linked_robot_model.hpp: C117, C118. *)
From Coq Require Import String Reals Lra Lia.
From Verif Require Import Base MathModel TotpVec MathProps GeoModel GeoAlg GeoProps RotModel RotProps LinkModel LinkProps LinkTreeProps.
Open Scope R_scope.

(** ** Specification *)
Definition at_place (links : list rlink) (i : Z) (t : iso) : Prop := exists l, zget links i = Some l /\ rl_place l = At t.
(** The root is at the base, and each child is where its joint puts it from where its parent is. *)
Definition posed (base : iso) (links : list rlink) (joints : list rjoint) : Prop :=
  at_place links 0 base /\
  forall j, In j joints -> exists t m, motion j = At m /\ at_place links (rj_parent j) t /\ at_place links (rj_child j) (imul (imul t (rj_transform j)) m).
(** The joint that leads to a link comes before the joints that lead on from it. *)
Definition parent_first (joints : list rjoint) : Prop := forall k j, nth_error joints k = Some j ->
  rj_parent j = 0%Z \/ exists k' j', (k' < k)%nat /\ nth_error joints k' = Some j' /\ rj_child j' = rj_parent j.

(** ** Forward kinematics *)
Lemma qmat_rodrigues u x : unit u -> qmat (qaxis x u) = rodrigues u x.
Proof.
  intros U. destruct (half x) as [HC HS]. pose proof (trig (x / 2)) as T. unfold unit, vdot in U. unfold rodrigues. rewrite HC, HS. unfold qaxis. set (s := sin (x / 2)) in *. set (c := cos (x / 2)) in *. destruct u as [a b d]. cbn in U.
  assert (E : 1 - (c * c - s * s) = 2 * (s * s)) by lra. rewrite E. apply M3_eq; unfold qmat; unf; ring.
Qed.
(** C117: what a joint does: turn about its axis, slide along it, or nothing. *)
Theorem C117_motion : forall j, unit (rj_axis j) ->
  (forall x, is_revolute (rj_model j) = true -> j_value (rj_model j) = Fin x -> motion j = At (mkI (rodrigues (rj_axis j) x) vzero)) /\
  (forall x, is_prismatic (rj_model j) = true -> j_value (rj_model j) = Fin x -> motion j = At (mkI mid (vscale x (rj_axis j)))) /\
  (is_fixed (rj_model j) = true -> motion j = At iid).
Proof.
  intros j U. unfold motion, motion_at. split; [|split].
  - intros x R V. rewrite R, V, qmat_rodrigues by exact U. reflexivity.
  - intros x P V. assert (R : is_revolute (rj_model j) = false) by (unfold is_revolute, is_prismatic in *; apply N.eqb_eq in P; rewrite P; reflexivity). rewrite R, P, V. reflexivity.
  - intros F. assert (R : is_revolute (rj_model j) = false /\ is_prismatic (rj_model j) = false) by (unfold is_revolute, is_prismatic, is_fixed in *; apply N.eqb_eq in F; rewrite F; split; reflexivity). destruct R as [-> ->]. reflexivity.
Qed.
Print Assumptions C117_motion.
Lemma at_place_unique links i t t' : at_place links i t -> at_place links i t' -> t = t'.
Proof. intros (l & E & P) (l' & E' & P'). congruence. Qed.
Lemma at_place_upd links c l t i s : zget links c = Some l -> at_place (upd links (Z.to_nat c) (with_place l (At t))) i s <-> if (i =? c)%Z then s = t else at_place links i s.
Proof.
  intros E. destruct (proj2 (zget_lt links c) (ex_intro _ l E)) as [C1 C2]. unfold at_place. rewrite zget_upd by assumption. destruct (i =? c)%Z; [|reflexivity]. split; [intros (x & X & P); injection X as <-; cbn in P; congruence | intros ->; eexists; split; reflexivity].
Qed.
Lemma names_upd links c l p : zget links c = Some l -> map rl_name (upd links (Z.to_nat c) (with_place l p)) = map rl_name links.
Proof.
  intros E. apply nth_error_ext. intros k. rewrite !nth_error_map, nth_error_upd. unfold zget in E. destruct (c <? 0)%Z; [discriminate|]. destruct (Nat.eqb_spec (Z.to_nat c) k) as [<-|N]; [|reflexivity]. rewrite E. destruct (Nat.ltb_spec (Z.to_nat c) (length links)) as [L|L]; [reflexivity|]. apply nth_error_None in L. congruence.
Qed.
Lemma place_children_posed base todo : forall done links, in_range (length links) (done ++ todo) -> NoDup (map rj_child (done ++ todo)) -> ~ In 0%Z (map rj_child (done ++ todo)) -> parent_first (done ++ todo) -> Forall (fun j => exists m, motion j = At m) todo -> posed base links done ->
  exists links', place_children links todo = Ok links' /\ map rl_name links' = map rl_name links /\ posed base links' (done ++ todo).
Proof.
  induction todo as [|j todo IH]; intros done links R ND N0 PF M P; cbn [place_children].
  - exists links. rewrite app_nil_r. auto.
  - inversion M as [|? ? [m MJ] M']; subst. destruct P as [P0 P]. assert (IJ : In j (done ++ j :: todo)) by (apply in_or_app; right; left; reflexivity). destruct (R j IJ) as [RP RC].
    destruct (proj1 (zget_lt links (rj_parent j)) RP) as [p EP]. destruct (proj1 (zget_lt links (rj_child j)) RC) as [c EC].
    assert (BEF : forall k x, nth_error done k = Some x -> rj_parent x = 0%Z \/ exists y, In y done /\ rj_child y = rj_parent x).
    { intros k x K. assert (LK : (k < length done)%nat) by (apply nth_error_Some; rewrite K; discriminate). destruct (PF k x) as [Z|(k' & j' & L & K' & C)]; [rewrite nth_error_app1 by exact LK; exact K | left; exact Z|]. right. exists j'. split; [|exact C]. rewrite nth_error_app1 in K' by lia. apply nth_error_In with k'. exact K'. }
    assert (PARJ : rj_parent j = 0%Z \/ exists y, In y done /\ rj_child y = rj_parent j).
    { destruct (PF (length done) j) as [Z|(k' & j' & L & K' & C)]; [rewrite nth_error_app2, Nat.sub_diag by lia; reflexivity | left; exact Z|]. right. exists j'. split; [|exact C]. rewrite nth_error_app1 in K' by lia. apply nth_error_In with k'. exact K'. }
    assert (CD : forall y, In y done -> rj_child y <> rj_child j).
    { intros y IY E. rewrite map_app in ND. cbn [map] in ND. apply NoDup_remove_2 in ND. apply ND. apply in_or_app. left. rewrite <- E. apply in_map. exact IY. }
    assert (C0 : rj_child j <> 0%Z) by (intros E; apply N0; rewrite <- E; apply in_map; exact IJ).
    assert (NP : rj_parent j <> rj_child j) by (destruct PARJ as [-> |(y & IY & <-)]; [congruence | apply CD; exact IY]).
    assert (AT : exists t, at_place links (rj_parent j) t).
    { destruct PARJ as [-> |(y & IY & <-)]; [exists base; exact P0|]. destruct (P y IY) as (t & my & _ & _ & A). eexists. exact A. }
    destruct AT as (t & l & EL & AL). unfold place_child. rewrite EP, EC. rewrite EP in EL. injection EL as <-. rewrite AL, MJ. cbn [obind].
    set (links1 := upd links (Z.to_nat (rj_child j)) _). assert (L1 : length links1 = length links) by apply upd_length.
    destruct (IH (done ++ [j]) links1) as (links' & E' & NM & P'); try (rewrite <- app_assoc; cbn [app]; try rewrite L1; assumption); try exact M'.
    + split; [apply at_place_upd; [exact EC|]; destruct (Z.eqb_spec 0 (rj_child j)); [congruence | exact P0]|].
      assert (KEEP : forall i s, i <> rj_child j -> at_place links i s -> at_place links1 i s) by (intros i s NI A; apply at_place_upd; [exact EC|]; destruct (Z.eqb_spec i (rj_child j)); [contradiction | exact A]).
      intros x IX. apply in_app_or in IX. destruct IX as [IX|[<-|[]]].
      * destruct (P x IX) as (tx & mx & MX & AX & BX). exists tx, mx. split; [exact MX|]. split; [apply KEEP; [|exact AX] | apply KEEP; [apply CD; exact IX | exact BX]].
        apply In_nth_error in IX. destruct IX as [k K]. destruct (BEF k x K) as [-> |(y & IY & <-)]; [congruence | apply CD; exact IY].
      * exists t, m. split; [exact MJ|]. split; [apply KEEP; [exact NP|]; exists p; auto|]. apply at_place_upd; [exact EC|]. rewrite Z.eqb_refl. reflexivity.
    + exists links'. split; [exact E'|]. split; [rewrite NM; apply names_upd; exact EC|]. rewrite <- app_assoc in P'. exact P'.
Qed.
Lemma sanity_nonempty links joints sk : sanity_check links joints = Ok (sk, true) -> links <> [].
Proof. intros E ->. discriminate. Qed.
(** C117: for a tree whose joints are listed parent first, UpdateTransforms puts every link where the joints say. *)
Theorem C117_forward : forall base links joints, links <> [] -> in_range (length links) joints -> NoDup (map rj_child joints) -> ~ In 0%Z (map rj_child joints) -> parent_first joints ->
  Forall (fun j => exists m, motion j = At m) joints ->
  exists links', update_transforms base links joints = Ok links' /\ map rl_name links' = map rl_name links /\ posed base links' joints.
Proof.
  intros base links joints NE R ND N0 PF M. destruct links as [|l rest]; [contradiction|]. cbn [update_transforms].
  destruct (place_children_posed base joints [] (with_place l (At base) :: rest)) as (links' & E & NM & P); try assumption.
  - split; [eexists; split; reflexivity | intros j []].
  - exists links'. split; [exact E|]. split; [exact NM | exact P].
Qed.
Print Assumptions C117_forward.
(** Every link is then at a rotation and a translation. *)
Theorem C117_rigid : forall base links joints i, posed base links joints -> rigid base -> (forall j, In j joints -> rigid (rj_transform j) /\ unit (rj_axis j)) -> reach joints 0 i -> exists t, at_place links i t /\ rigid t.
Proof.
  intros base links joints i [P0 P] B RG H. induction H as [|j I H (t & A & RT)]; [exists base; split; assumption|].
  destruct (P j I) as (t' & m & M & A' & C). pose proof (at_place_unique _ _ _ _ A A'). subst t'. eexists. split; [exact C|]. destruct (RG j I) as [RJ UJ]. apply rigid_mul; [apply rigid_mul; assumption|].
  unfold motion in M. destruct (is_revolute (rj_model j) || is_prismatic (rj_model j)) eqn:K; [|injection M as <-; unfold rigid, rotation; split; [mring | unf; ring]]. destruct (j_value (rj_model j)) as [x| | |]; try discriminate. injection M as <-. unfold motion_at. destruct (is_revolute (rj_model j)).
  - unfold rigid. cbn [irot]. rewrite qmat_rodrigues by exact UJ. apply rod_rotation. exact UJ.
  - destruct (is_prismatic (rj_model j)); unfold rigid, rotation; split; cbn [irot]; first [mring | unf; ring].
Qed.
Print Assumptions C117_rigid.
(** Changing the base moves every link with it. *)
Theorem C117_base : forall base base' links links' joints i, posed base links joints -> posed base' links' joints -> rigid base -> reach joints 0 i ->
  exists t, at_place links i t /\ at_place links' i (imul (imul base' (iinv base)) t).
Proof.
  intros base base' links links' joints i [P0 P] [P0' P'] B H. induction H as [|j I H (t & A & A')].
  - exists base. split; [exact P0|]. rewrite imul_assoc, iinv_l, imul_1_r by exact B. exact P0'.
  - destruct (P j I) as (t1 & m & M & A1 & C). destruct (P' j I) as (t2 & m' & M' & A2 & C'). pose proof (at_place_unique _ _ _ _ A A1). pose proof (at_place_unique _ _ _ _ A' A2). subst t1 t2. assert (m' = m) by congruence. subst m'. eexists. split; [exact C|].
    rewrite !imul_assoc in *. exact C'.
Qed.
Print Assumptions C117_base.

(** ** A robot in order *)
Definition movable (j : rjoint) : bool := negb (is_fixed (rj_model j)).
(** A joint made by the constructor with limits a finite value can meet. *)
Definition regular (j : joint_model) : Prop := made j /\ fst (j_limits j) <> PInf /\ snd (j_limits j) <> MInf.
(** The parts of a robot agree: the links stand where the base and the joints put them, and GetPosition tells the values of the joints that are not fixed. *)
Record wf (r : robot) : Prop := {
  wf_range : in_range (length (r_links r)) (r_joints r);
  wf_tree : sanity_check (r_links r) (r_joints r) = Ok (r_skeleton r, true);
  wf_order : parent_first (r_joints r);
  wf_active : active_from 0 (r_joints r) = (r_num r, r_active r);
  wf_weights : length (r_weights r) = r_num r;
  wf_joints : Forall (fun j => regular (rj_model j)) (r_joints r);
  wf_posed : posed (r_base r) (r_links r) (r_joints r);
  wf_config : r_config r = map rj_model (filter movable (r_joints r)) }.
Lemma regular_value j : regular j -> exists x, j_value j = Fin x.
Proof.
  intros ((limits & v & M) & L & H). apply make_joint_cases in M. destruct M as [(_ & x & _ & E)|(_ & _ & x & _ & E)]; rewrite E in *; [eexists; reflexivity|]. cbn [j_value j_limits] in *.
  destruct (eltb (Fin x) (fst limits)) eqn:B1; [destruct (fst limits) as [y| | |]; cbn in B1; try discriminate; [exists y; reflexivity | contradiction]|].
  destruct (eltb (snd limits) (Fin x)) eqn:B2; [destruct (snd limits) as [y| | |]; cbn in B2; try discriminate; [exists y; reflexivity | contradiction] | exists x; reflexivity].
Qed.
Lemma regular_set j x : regular j -> exists m, set_value j (Fin x) = Ok m /\ regular m /\ j_limits m = j_limits j /\ j_type m = j_type j.
Proof.
  intros ((limits & v & M) & L & H).
  assert (S : exists m, set_value j (Fin x) = Ok m /\ j_limits m = j_limits j /\ j_type m = j_type j).
  { unfold set_value, enforce_limits. destruct (is_continuous j); [|destruct (eltb _ _); [|destruct (eltb _ _)]]; cbn [obind]; eexists; split; try reflexivity; split; reflexivity. }
  destruct S as (m & S & SL & ST). exists m. split; [exact S|]. split; [|auto]. split; [|rewrite SL; split; assumption].
  apply make_joint_cases in M. destruct M as [(C & y & _ & E)|(C & NL & y & _ & E)].
  - exists limits, (Fin x). rewrite ST, C. unfold make_joint. cbn [N.eqb CONTINUOUS Pos.eqb]. rewrite E in S. rewrite C in S. exact S.
  - exists limits, (Fin x). rewrite ST. unfold make_joint. rewrite (proj2 (N.eqb_neq _ _) C), NL. assert (Q : j_limits j = limits) by (rewrite E; reflexivity). rewrite <- Q. unfold set_value, enforce_limits, is_continuous in *. cbn [j_limits j_type]. exact S.
Qed.
Lemma regular_motion j : regular (rj_model j) -> exists m, motion j = At m.
Proof. intros H. destruct (regular_value _ H) as [x V]. unfold motion. rewrite V. destruct (_ || _); eexists; reflexivity. Qed.
Lemma active_num joints : forall n, fst (active_from n joints) = (n + length (filter movable joints))%nat.
Proof.
  induction joints as [|j joints IH]; intros n; cbn [active_from filter]; [cbn; lia|]. unfold movable at 1. destruct (is_fixed (rj_model j)); cbn [negb].
  - specialize (IH n). destruct (active_from n joints); exact IH.
  - specialize (IH (S n)). destruct (active_from (S n) joints). cbn [fst length] in *. lia.
Qed.
Definition same_frame (a b : rjoint) : Prop := rj_transform a = rj_transform b /\ rj_axis a = rj_axis b /\ rj_parent a = rj_parent b /\ rj_child a = rj_child b /\ rj_name a = rj_name b.
Lemma set_joints_ok joints : forall cfg xs, Forall (fun j => regular (rj_model j)) joints -> values cfg xs -> length cfg = length (filter movable joints) ->
  exists js c, set_joints joints cfg = (Ok tt, js, c) /\ c = map rj_model (filter movable js) /\ Forall (fun j => regular (rj_model j)) js /\
    Forall2 (fun a b => same_frame a b /\ j_limits (rj_model a) = j_limits (rj_model b) /\ j_type (rj_model a) = j_type (rj_model b) /\ (movable a = false -> a = b)) joints js /\
    Forall2 (fun p m => set_value (fst p) (Fin (snd p)) = Ok m) (combine (map rj_model (filter movable joints)) xs) c.
Proof.
  induction joints as [|j joints IH]; intros cfg xs R V L; cbn [set_joints filter] in *.
  - exists [], []. repeat split; constructor.
  - inversion R as [|? ? RJ R']; subst. unfold movable in *. fold movable in *. change (fun j0 : rjoint => negb (is_fixed (rj_model j0))) with movable in *. destruct (is_fixed (rj_model j)) eqn:F; cbn [negb] in *.
    + destruct (IH cfg xs R' V L) as (js & c & E & C & RR & FF & SS). exists (j :: js), c. rewrite E. split; [reflexivity|]. cbn [filter]. unfold movable at 1. rewrite F. cbn [negb]. split; [exact C|]. split; [constructor; assumption|]. split; [|exact SS]. constructor; [|exact FF]. repeat split; reflexivity.
    + destruct cfg as [|n cfg]; [discriminate|]. inversion V as [|? x ? xs' NV V']; subst. rewrite NV. destruct (regular_set _ x RJ) as (m & S & RM & SL & ST). rewrite S. cbn [length] in L. injection L as L.
      destruct (IH cfg xs' R' V' L) as (js & c & E & C & RR & FF & SS). rewrite E. exists (with_model j m :: js), (m :: c). split; [reflexivity|]. cbn [filter]. assert (FM : is_fixed m = false) by (unfold is_fixed in *; rewrite ST; exact F). unfold movable at 1. cbn [with_model rj_model]. rewrite FM. cbn [negb map rj_model]. split; [rewrite C; reflexivity|]. split; [constructor; assumption|]. split; [|constructor; assumption].
      constructor; [|exact FF]. cbn [rj_model]. split; [repeat split|]. split; [symmetry; exact SL|]. split; [symmetry; exact ST|]. unfold movable. rewrite F. discriminate.
Qed.
Lemma add_edges_same a b : Forall2 same_frame a b -> forall sk k, add_edges sk k a = add_edges sk k b.
Proof.
  induction 1 as [|x y a b (T & A & P & C & N) _ IH]; intros sk k; [reflexivity|]. cbn [add_edges]. unfold axis_ok, add_edge. rewrite A, P, C. destruct (negb _); [|reflexivity]. destruct (zget sk (rj_child y)); [|reflexivity]. destruct (zget _ (rj_parent y)); [|reflexivity]. cbn [obind]. apply IH.
Qed.
Lemma sanity_same links links' a b : map rl_name links = map rl_name links' -> Forall2 same_frame a b -> sanity_check links a = sanity_check links' b.
Proof.
  intros NM F. unfold sanity_check. assert (L : length links = length links') by (rewrite <- (map_length rl_name links), NM; apply map_length). assert (LJ : length a = length b) by (clear NM L; induction F; cbn; congruence).
  assert (NJ : map rj_name a = map rj_name b) by (clear NM L LJ; induction F as [|x y a b (_ & _ & _ & _ & N)]; cbn; congruence). rewrite L, LJ, NM, NJ, (add_edges_same a b F). reflexivity.
Qed.
Lemma frames_nth a b k y : Forall2 same_frame a b -> nth_error b k = Some y -> exists x, nth_error a k = Some x /\ same_frame x y.
Proof. intros F. revert k. induction F as [|x0 y0 a b S _ IH]; intros [|k] E; cbn in *; try discriminate; [injection E as <-; exists x0; auto | apply IH; exact E]. Qed.
Lemma frames_sym a b : Forall2 same_frame a b -> Forall2 same_frame b a.
Proof. induction 1 as [|x y a b (T & A & P & C & N) _ IH]; constructor; [repeat split; symmetry; assumption | exact IH]. Qed.
Lemma range_same n a b : Forall2 same_frame a b -> in_range n a -> in_range n b.
Proof. intros F R y I. apply In_nth_error in I. destruct I as [k K]. destruct (frames_nth a b k y F K) as (x & X & (_ & _ & P & C & _)). rewrite <- P, <- C. apply R. apply nth_error_In with k. exact X. Qed.
Lemma order_same a b : Forall2 same_frame a b -> parent_first a -> parent_first b.
Proof.
  intros F PF k y K. destruct (frames_nth a b k y F K) as (x & X & (_ & _ & P & C & _)). destruct (PF k x X) as [Z|(k' & x' & L & X' & C')]; [left; congruence|]. right. destruct (frames_nth b a k' x' (frames_sym _ _ F) X') as (y' & Y' & (_ & _ & _ & CC & _)). exists k', y'. split; [exact L|]. split; [exact Y'|]. congruence.
Qed.
Lemma active_same a b : Forall2 (fun x y => j_type (rj_model x) = j_type (rj_model y)) a b -> forall n, active_from n a = active_from n b.
Proof. induction 1 as [|x y a b T _ IH]; intros n; [reflexivity|]. cbn [active_from]. unfold is_fixed. rewrite T, !IH. reflexivity. Qed.
Lemma f2_weaken {A B} (P Q : A -> B -> Prop) l m : Forall2 P l m -> (forall x y, P x y -> Q x y) -> Forall2 Q l m.
Proof. intros F H. induction F; constructor; auto. Qed.
(** Updating the transforms of an accepted robot whose joints are listed parent first. *)
Lemma update_accepted base links joints sk : in_range (length links) joints -> sanity_check links joints = Ok (sk, true) -> parent_first joints -> Forall (fun j => regular (rj_model j)) joints ->
  exists links', update_transforms base links joints = Ok links' /\ map rl_name links' = map rl_name links /\ posed base links' joints.
Proof.
  intros R S PF RG. destruct (C116_skeleton links joints sk R S) as (_ & ND & N0 & _ & _). apply C117_forward; try assumption; [exact (sanity_nonempty _ _ _ S)|]. rewrite Forall_forall in *. intros j I. apply regular_motion, RG, I.
Qed.
(** C118: SetPosition with a position of the right size and finite values works; each joint takes its value as SetValue does; nothing else changes. *)
Theorem C118_set_position : forall r cfg xs, wf r -> length cfg = r_num r -> values cfg xs ->
  exists r', set_position r cfg = (Ok tt, r') /\ wf r' /\
    Forall2 (fun p m => set_value (fst p) (Fin (snd p)) = Ok m) (combine (r_config r) xs) (r_config r') /\
    Forall2 (fun a b => same_frame a b /\ j_limits (rj_model a) = j_limits (rj_model b) /\ j_type (rj_model a) = j_type (rj_model b) /\ (movable a = false -> a = b)) (r_joints r) (r_joints r') /\
    map rl_name (r_links r') = map rl_name (r_links r) /\ r_base r' = r_base r /\ r_inverse r' = r_inverse r /\ r_skeleton r' = r_skeleton r /\ r_active r' = r_active r /\ r_weights r' = r_weights r /\ r_num r' = r_num r.
Proof.
  intros r cfg xs [WR WT WO WA WW WJ WP WC] L V. unfold set_position. rewrite L, Nat.eqb_refl.
  assert (NUM : r_num r = length (filter movable (r_joints r))) by (pose proof (active_num (r_joints r) 0) as H; rewrite WA in H; exact H).
  destruct (set_joints_ok (r_joints r) cfg xs WJ V ltac:(congruence)) as (js & c & E & C & RR & FF & SS). rewrite E. cbn [r_base r_links].
  assert (FS : Forall2 same_frame (r_joints r) js) by (apply f2_weaken with (1 := FF); tauto).
  assert (ST : sanity_check (r_links r) js = Ok (r_skeleton r, true)) by (rewrite <- (sanity_same (r_links r) (r_links r) (r_joints r) js eq_refl FS); exact WT).
  destruct (update_accepted (r_base r) (r_links r) js (r_skeleton r) (range_same _ _ _ FS WR) ST (order_same _ _ FS WO) RR) as (links & U & NM & P). rewrite U.
  assert (LL : length links = length (r_links r)) by (rewrite <- (map_length rl_name links), NM; apply map_length).
  eexists. split; [reflexivity|]. split.
  - constructor; cbn.
    + rewrite LL. apply range_same with (r_joints r); assumption.
    + rewrite (sanity_same links (r_links r) js js NM); [exact ST|]. clear. induction js; constructor; [repeat split | assumption].
    + apply order_same with (r_joints r); assumption.
    + rewrite <- WA. symmetry. apply active_same. apply f2_weaken with (1 := FF). tauto.
    + exact WW.
    + exact RR.
    + exact P.
    + exact C.
  - cbn. split; [rewrite WC; exact SS|]. split; [exact FF|]. repeat split. exact NM.
Qed.
Print Assumptions C118_set_position.
(** A position of another size is refused and nothing changes. *)
Theorem C118_wrong_size : forall r cfg, length cfg <> r_num r -> set_position r cfg = (Throw InvalidArgument, r).
Proof. intros r cfg N. unfold set_position. destruct (Nat.eqb_spec (length cfg) (r_num r)); [contradiction | reflexivity]. Qed.
Print Assumptions C118_wrong_size.
(** A robot that the constructor makes is in order, and stays so when the base is changed. *)
Theorem C118_constructor : forall base links joints initial xs weights sk, in_range (length links) joints -> sanity_check links joints = Ok (sk, true) -> parent_first joints -> Forall (fun j => regular (rj_model j)) joints ->
  length weights = length (filter movable joints) -> length initial = length (filter movable joints) -> values initial xs ->
  exists r, make_robot base links joints initial weights = Ok r /\ wf r /\ r_base r = base /\ r_inverse r = iinv base /\ r_weights r = map Rabs weights.
Proof.
  intros base links joints initial xs weights sk R S PF RG LW LI V. unfold make_robot. rewrite S. cbn [obind snd fst]. pose proof (active_num joints 0) as NUM. destruct (active_from 0 joints) as [num active] eqn:A. cbn [fst] in NUM. cbn in NUM. rewrite LW, <- NUM, Nat.eqb_refl. cbn [negb].
  unfold set_position. cbn [r_num r_joints]. rewrite LI, <- NUM, Nat.eqb_refl.
  destruct (set_joints_ok joints initial xs RG V LI) as (js & c & E & C & RR & FF & SS). rewrite E. cbn [r_base r_links r_inverse r_skeleton r_active r_weights].
  assert (FS : Forall2 same_frame joints js) by (apply f2_weaken with (1 := FF); tauto).
  assert (ST : sanity_check links js = Ok (sk, true)) by (rewrite <- (sanity_same links links joints js eq_refl FS); exact S).
  destruct (update_accepted base links js sk (range_same _ _ _ FS R) ST (order_same _ _ FS PF) RR) as (links1 & U & NM & P). rewrite U.
  assert (LL : length links1 = length links) by (rewrite <- (map_length rl_name links1), NM; apply map_length).
  eexists. split; [reflexivity|]. split; [|cbn; auto]. constructor; cbn.
  - rewrite LL. apply range_same with joints; assumption.
  - rewrite (sanity_same links1 links js js NM); [exact ST|]. clear. induction js; constructor; [repeat split | assumption].
  - apply order_same with joints; assumption.
  - rewrite <- A. symmetry. apply active_same. apply f2_weaken with (1 := FF). tauto.
  - rewrite map_length, LW. congruence.
  - exact RR.
  - exact P.
  - exact C.
Qed.
Print Assumptions C118_constructor.
Theorem C118_base : forall r base, wf r -> exists r', update_base r base = Ok r' /\ wf r' /\ r_base r' = base /\ r_config r' = r_config r /\ r_joints r' = r_joints r.
Proof.
  intros r base [WR WT WO WA WW WJ WP WC]. unfold update_base. destruct (update_accepted base (r_links r) (r_joints r) (r_skeleton r) WR WT WO WJ) as (links & U & NM & P). rewrite U. cbn [obind]. eexists. split; [reflexivity|]. split; [|cbn; auto].
  assert (LL : length links = length (r_links r)) by (rewrite <- (map_length rl_name links), NM; apply map_length). constructor; cbn; try assumption; [rewrite LL; exact WR|]. rewrite (sanity_same links (r_links r) (r_joints r) (r_joints r) NM); [exact WT|]. clear. induction (r_joints r); constructor; [repeat split | assumption].
Qed.
Print Assumptions C118_base.
Lemma set_joints_same joints : Forall (fun j => regular (rj_model j)) joints -> set_joints joints (map rj_model (filter movable joints)) = (Ok tt, joints, map rj_model (filter movable joints)).
Proof.
  induction 1 as [|j joints RJ R IH]; [reflexivity|]. cbn [set_joints filter]. replace (movable j) with (negb (is_fixed (rj_model j))) by reflexivity. destruct (is_fixed (rj_model j)); cbn [negb map]; [rewrite IH; reflexivity|].
  destruct (regular_value _ RJ) as [x V]. destruct RJ as [(limits & v & M) _]. rewrite V. rewrite (proj1 (proj2 (C115_set_value _ _ _ _ M) x V)). rewrite IH. destruct j; reflexivity.
Qed.
Lemma posed_same base links links' joints i : posed base links joints -> posed base links' joints -> reach joints 0 i -> exists t, at_place links i t /\ at_place links' i t.
Proof.
  intros [P0 P] [P0' P'] H. induction H as [|j I H (t & A & A')]; [exists base; auto|]. destruct (P j I) as (t1 & m & M & A1 & C). destruct (P' j I) as (t2 & m' & M' & A2 & C'). pose proof (at_place_unique _ _ _ _ A A1). pose proof (at_place_unique _ _ _ _ A' A2). subst t1 t2. assert (m' = m) by congruence. subst m'. eexists. split; [exact C | exact C'].
Qed.
(** Setting the position a robot has changes nothing at all. *)
Theorem C118_same_position : forall r, wf r -> set_position r (r_config r) = (Ok tt, r).
Proof.
  intros r [WR WT WO WA WW WJ WP WC]. unfold set_position. assert (NUM : r_num r = length (filter movable (r_joints r))) by (pose proof (active_num (r_joints r) 0) as H; rewrite WA in H; exact H).
  rewrite WC, map_length, <- NUM, Nat.eqb_refl, (set_joints_same _ WJ). cbn [r_base r_links]. destruct (update_accepted (r_base r) (r_links r) (r_joints r) (r_skeleton r) WR WT WO WJ) as (links & U & NM & P). rewrite U. rewrite <- WC.
  enough (links = r_links r) as -> by (destruct r; reflexivity).
  destruct (C116_check _ _ WR) as (sk & b & E & IFF). rewrite WT in E. injection E as <- <-. destruct (proj1 IFF eq_refl) as (_ & _ & _ & _ & ALL).
  assert (LL : length links = length (r_links r)) by (rewrite <- (map_length rl_name links), NM; apply map_length).
  apply nth_error_ext. intros k. destruct (Nat.lt_ge_cases k (length (r_links r))) as [K|K]; [|rewrite (proj2 (nth_error_None links k)), (proj2 (nth_error_None (r_links r) k)) by lia; reflexivity].
  destruct (posed_same _ _ _ _ (Z.of_nat k) P WP (ALL (Z.of_nat k) ltac:(lia))) as (t & (l & E & A) & (l' & E' & A')). unfold zget in E, E'. destruct (Z.ltb_spec (Z.of_nat k) 0); [lia|]. rewrite Nat2Z.id in E, E'. rewrite E, E'. f_equal.
  assert (NN : nth_error (map rl_name links) k = nth_error (map rl_name (r_links r)) k) by (rewrite NM; reflexivity). rewrite !nth_error_map, E, E' in NN. cbn in NN. destruct l, l'. cbn in *. congruence.
Qed.
Print Assumptions C118_same_position.

(** ** What does not hold *)
Lemma axis_z : Rabs (vnorm (mkV 0 0 1) - 1) <= epsilon.
Proof. unfold vnorm, vdot; cbn; replace (0 * 0 + 0 * 0 + 1 * 1) with 1 by ring; rewrite sqrt_1, Rminus_diag_eq, Rabs_R0 by reflexivity; unfold epsilon; apply Rlt_le, Rinv_0_lt_compat, pow_lt; lra. Qed.
Lemma accepted links joints : in_range (length links) joints -> acceptable links joints -> exists sk, sanity_check links joints = Ok (sk, true).
Proof. intros R A. destruct (C116_check links joints R) as (sk & b & E & IFF). exists sk. rewrite E. rewrite (proj2 IFF A). reflexivity. Qed.
Lemma default_regular : regular default_joint.
Proof.
  split; [exists (Fin 0, Fin 0), (Fin 0)|split; discriminate]. unfold make_joint, set_value, enforce_limits, is_continuous. cbn. rewrite !(proj2 (Rltb_false 0 0)) by lra. reflexivity.
Qed.
(** An acceptable robot whose joints are not listed parent first passes the check, and its constructor then reads a transform nobody wrote. *)
Theorem C117_order_refuted : exists links joints, acceptable links joints /\ in_range (length links) joints /\ Forall (fun j => regular (rj_model j)) joints /\ make_robot iid links joints [] [] = UB.
Proof.
  pose (J := fun p c n => mkRJ iid (mkV 0 0 1) p c default_joint n). pose (links := [mkRL Unset "a"; mkRL Unset "b"; mkRL Unset "c"]). pose (joints := [J 1%Z 2%Z "k"%string; J 0%Z 1%Z "j"%string]). exists links, joints.
  assert (R : in_range (length links) joints) by (intros j [<-|[<-|[]]]; cbn; lia).
  assert (R1 : reach joints 0 1) by (apply (reach_next joints 0%Z (J 0%Z 1%Z "j"%string)); [right; left; reflexivity | constructor]).
  assert (A : acceptable links joints).
  { split; [repeat constructor; cbn; intuition discriminate|]. split; [repeat constructor; cbn; intuition discriminate|]. split; [repeat (constructor; [exact axis_z|]); constructor|]. split; [reflexivity|].
    intros i I. cbn in I. assert (i = 0 \/ i = 1 \/ i = 2)%Z as [->|[->| ->]] by lia; [constructor | exact R1 | apply (reach_next joints 0%Z (J 1%Z 2%Z "k"%string)); [left; reflexivity | exact R1]]. }
  split; [exact A|]. split; [exact R|]. split; [repeat constructor; apply default_regular|]. destruct (accepted links joints R A) as [sk S]. unfold make_robot. rewrite S. reflexivity.
Qed.
Print Assumptions C117_order_refuted.
(** UpdateBaseTransform leaves the inverse of the base transform as it was. *)
Theorem C117_inverse_refuted : exists r base r', wf r /\ r_inverse r = iinv (r_base r) /\ update_base r base = Ok r' /\ r_base r' = base /\ rigid base /\ r_inverse r' <> iinv (r_base r').
Proof.
  pose (links := [mkRL Unset "a"]). assert (R : in_range (length links) []) by (intros j []).
  assert (A : acceptable links []). { split; [repeat constructor; intros []|]. split; [constructor|]. split; [constructor|]. split; [reflexivity|]. intros i I. cbn in I. assert (i = 0)%Z as -> by lia. constructor. }
  destruct (accepted links [] R A) as [sk S]. destruct (C118_constructor iid links [] [] [] [] sk R S) as (r & E & W & B & I & _); [intros [|k] j K; discriminate | constructor | reflexivity | reflexivity | constructor |].
  pose (base := mkI mid (mkV 1 0 0)). destruct (C118_base r base W) as (r' & U & W' & B' & C' & J'). exists r, base, r'. split; [exact W|]. split; [rewrite B; exact I|]. split; [exact U|]. split; [exact B'|]. split; [unfold rigid, rotation, base; cbn [irot]; split; [mring | unf; ring]|].
  unfold update_base in U. apply obind_ok in U. destruct U as (links' & _ & U). injection U as <-. cbn [r_inverse r_base]. rewrite I. intros H. apply (f_equal (fun a => vx (itrans a))) in H. unfold base in H. cbn in H. lra.
Qed.
Print Assumptions C117_inverse_refuted.
(** When a value is not finite, as a joint read from a buffer can have, SetPosition throws half way: the position is cut short, and the links are not
    where the joints are. *)
Theorem C118_exception_refuted : exists r cfg r', wf r /\ length cfg = r_num r /\ set_position r cfg = (Throw InvalidArgument, r') /\ length (r_config r') <> r_num r' /\ ~ posed (r_base r') (r_links r') (r_joints r').
Proof.
  pose (m := mkJ (Fin (-1), Fin 2) (Fin 0) PRISMATIC). pose (J := fun p c n => mkRJ iid (mkV 0 0 1) p c m n). pose (L := fun n => mkRL (At iid) n). pose (links := [L "a"; L "b"; L "c"]%string). pose (joints := [J 0%Z 1%Z "j"%string; J 1%Z 2%Z "k"%string]).
  assert (R : in_range (length links) joints) by (intros j [<-|[<-|[]]]; cbn; lia).
  assert (R1 : reach joints 0 1) by (apply (reach_next joints 0%Z (J 0%Z 1%Z "j"%string)); [left; reflexivity | constructor]).
  assert (A : acceptable links joints).
  { split; [repeat constructor; cbn; intuition discriminate|]. split; [repeat constructor; cbn; intuition discriminate|]. split; [repeat (constructor; [exact axis_z|]); constructor|]. split; [reflexivity|].
    intros i I. cbn in I. assert (i = 0 \/ i = 1 \/ i = 2)%Z as [->|[->| ->]] by lia; [constructor | exact R1 | apply (reach_next joints 0%Z (J 1%Z 2%Z "k"%string)); [right; left; reflexivity | exact R1]]. }
  assert (RM : regular m). { split; [exists (Fin (-1), Fin 2), (Fin 0)|split; discriminate]. unfold make_joint, set_value, enforce_limits, is_continuous. cbn. rewrite (proj2 (Rltb_false 2 (-1))), (proj2 (Rltb_false 0 (-1))), (proj2 (Rltb_false 2 0)) by lra. reflexivity. }
  assert (ID : imul (imul iid iid) (mkI mid (vscale 0 (mkV 0 0 1))) = iid) by (apply iso_eq; cbn; [mring | vring]).
  destruct (accepted links joints R A) as [sk S]. pose (r := mkR [m; m] iid iid links joints sk [0%Z; 1%Z] [1; 1] 2).
  assert (W : wf r).
  { constructor; cbn [r r_links r_joints r_skeleton r_num r_active r_weights r_base r_config]; try assumption; try reflexivity.
    - intros [|[|k]] j K; cbn in K; [injection K as <-; left; reflexivity | injection K as <-; right; exists 0%nat, (J 0%Z 1%Z "j"%string); split; [lia | split; reflexivity] | destruct k; discriminate].
    - repeat constructor; exact RM || apply RM.
    - split; [exists (L "a"%string); split; reflexivity|]. intros j [<-|[<-|[]]]; exists iid, (mkI mid (vscale 0 (mkV 0 0 1))); (split; [reflexivity|]); unfold J; cbn [rj_transform rj_parent rj_child]; rewrite ID; [split; [exists (L "a"%string) | exists (L "b"%string)] | split; [exists (L "b"%string) | exists (L "c"%string)]]; split; reflexivity. }
  exists r, [mkJ (Fin (-1), Fin 2) (Fin 1) PRISMATIC; mkJ (Fin (-1), Fin 2) NaN PRISMATIC].
  assert (SV : set_value m (Fin 1) = Ok (mkJ (Fin (-1), Fin 2) (Fin 1) PRISMATIC)) by (unfold set_value, enforce_limits, is_continuous; cbn; rewrite (proj2 (Rltb_false 1 (-1))), (proj2 (Rltb_false 2 1)) by lra; reflexivity).
  eexists. split; [exact W|]. split; [reflexivity|]. split; [|].
  - unfold set_position. cbn [length r r_num Nat.eqb r_joints joints set_joints J rj_model]. replace (is_fixed m) with false by reflexivity. cbn [j_value]. rewrite SV. cbn [set_value enforce_limits obind]. reflexivity.
  - split; [cbn; discriminate|]. cbn [r_base r_links r_joints r]. intros [_ P]. destruct (P _ (or_introl eq_refl)) as (t & mo & M & (l1 & E1 & A1) & (l2 & E2 & A2)). cbn in E1, E2. injection E1 as <-. injection E2 as <-. cbn in A1, A2. assert (T : t = iid) by congruence. subst t. cbn in M. injection M as <-. apply (f_equal (fun p => match p with At a => vz (itrans a) | _ => 0 end)) in A2. cbn in A2. lra.
Qed.
Print Assumptions C118_exception_refuted.
