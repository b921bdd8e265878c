(** The fast forward kinematics of four arms (C130). *)
From Coq Require Import String Reals Lra Lia Psatz DecimalString.
From Verif Require Import Base MathModel GeoModel RotModel GeoAlg GeoProps RotProps RotDistProps SeProps LinkModel LinkProps LinkTreeProps LinkKinProps FkFastModel.
Open Scope R_scope.

Definition arms : list arm := [ur_10; iiwa_7; iiwa_14; abb].

(** ** The chain in general *)
Definition step_at (s : kstep) (v : R) : iso := match s with Turn t q a => turn_transform t q a v | Fixed t q => fixed_transform t q end.
Definition turns (s : kstep) : bool := match s with Turn _ _ _ => true | Fixed _ _ => false end.
Definition offset (s : kstep) : V3 := match s with Turn t _ _ | Fixed t _ => t end.
Definition n_turns (steps : list kstep) : nat := length (filter turns steps).
Lemma chain_total steps : forall base conf, (n_turns steps <= length conf)%nat -> exists ts, chain base steps conf = Ok ts /\ length ts = S (length steps) /\ nth_error ts 0 = Some base.
Proof.
  induction steps as [|[t q a|t q] steps IH]; intros base conf L; cbn in L |- *.
  - exists [base]. auto.
  - destruct conf as [|v conf]; [cbn in L; lia|]. destruct (IH (imul base (turn_transform t q a v)) conf) as (ts & -> & LT & _); [cbn in L; unfold n_turns; lia|]. exists (base :: ts). cbn. auto.
  - destruct (IH (imul base (fixed_transform t q)) conf) as (ts & -> & LT & _); [unfold n_turns; lia|]. exists (base :: ts). cbn. auto.
Qed.
Lemma chain_short steps : forall base conf, (length conf < n_turns steps)%nat -> chain base steps conf = UB.
Proof.
  induction steps as [|[t q a|t q] steps IH]; intros base conf L; cbn in L |- *; [lia| |].
  - destruct conf as [|v conf]; [reflexivity|]. rewrite IH; [reflexivity|]. cbn in L. unfold n_turns. lia.
  - rewrite IH; [reflexivity|]. exact L.
Qed.
Lemma chain_prefix steps : forall base c1 c2 n, firstn n c1 = firstn n c2 -> (n_turns steps <= n)%nat -> chain base steps c1 = chain base steps c2.
Proof.
  induction steps as [|[t q a|t q] steps IH]; intros base c1 c2 n E L; cbn in L |- *; [reflexivity| |].
  - destruct n; [lia|]. destruct c1, c2; cbn in E; try discriminate; [reflexivity|]. injection E as -> E. rewrite (IH _ c1 c2 n E); [reflexivity|]. unfold n_turns. lia.
  - rewrite (IH _ c1 c2 n E L). reflexivity.
Qed.
Lemma chain_base steps : forall b base conf ts, chain base steps conf = Ok ts -> chain (imul b base) steps conf = Ok (map (imul b) ts).
Proof.
  induction steps as [|[t q a|t q] steps IH]; intros b base conf ts E; cbn in E |- *.
  - injection E as <-. reflexivity.
  - destruct conf as [|v conf]; [discriminate|]. rewrite imul_assoc. destruct (chain (imul base (turn_transform t q a v)) steps conf) as [r| | | |] eqn:C; try discriminate. injection E as <-. rewrite (IH b _ _ _ C). reflexivity.
  - rewrite imul_assoc. destruct (chain (imul base (fixed_transform t q)) steps conf) as [r| | | |] eqn:C; try discriminate. injection E as <-. rewrite (IH b _ _ _ C). reflexivity.
Qed.
Definition joint_before (steps : list kstep) (i : nat) : nat := n_turns (firstn i steps).
(** The i-th link only needs the joints before it. *)
Lemma chain_local steps : forall base c1 c2 ts1 ts2 i, chain base steps c1 = Ok ts1 -> chain base steps c2 = Ok ts2 -> firstn (joint_before steps i) c1 = firstn (joint_before steps i) c2 -> nth_error ts1 i = nth_error ts2 i.
Proof.
  induction steps as [|[t q a|t q] steps IH]; intros base c1 c2 ts1 ts2 i E1 E2 F; cbn in E1, E2.
  - congruence.
  - destruct c1 as [|v1 c1]; [discriminate|]. destruct c2 as [|v2 c2]; [discriminate|]. destruct (chain (imul base (turn_transform t q a v1)) steps c1) as [r1| | | |] eqn:C1; try discriminate. destruct (chain (imul base (turn_transform t q a v2)) steps c2) as [r2| | | |] eqn:C2; try discriminate. injection E1 as <-. injection E2 as <-. destruct i as [|i]; [reflexivity|]. cbn in F |- *. injection F as -> F. exact (IH _ _ _ _ _ i C1 C2 F).
  - destruct (chain (imul base (fixed_transform t q)) steps c1) as [r1| | | |] eqn:C1; try discriminate. destruct (chain (imul base (fixed_transform t q)) steps c2) as [r2| | | |] eqn:C2; try discriminate. injection E1 as <-. injection E2 as <-. destruct i as [|i]; [reflexivity|]. cbn in F |- *. exact (IH _ _ _ _ _ i C1 C2 F).
Qed.
(** Consecutive links: the step in between. *)
Lemma chain_steps steps : forall base conf ts i t u s, chain base steps conf = Ok ts -> nth_error ts i = Some t -> nth_error ts (S i) = Some u -> nth_error steps i = Some s -> exists v, u = imul t (step_at s v) /\ (turns s = true -> nth_error conf (joint_before steps i) = Some v).
Proof.
  induction steps as [|[t0 q a|t0 q] steps IH]; intros base conf ts i t u s E T U S; cbn in E; [destruct i; discriminate| |].
  - destruct conf as [|v conf]; [discriminate|]. destruct (chain (imul base (turn_transform t0 q a v)) steps conf) as [r| | | |] eqn:C; try discriminate. injection E as <-. destruct i as [|i].
    + cbn in T, U, S. injection T as <-. injection S as <-. exists v. split; [|reflexivity]. destruct steps as [|s1 steps]; cbn in C; [injection C as <-; cbn in U; injection U as <-; reflexivity|]. assert (exists r', r = imul base (turn_transform t0 q a v) :: r') as [r' ->].
      { destruct s1; [destruct conf; [discriminate|]|]; match type of C with obind ?o _ = _ => destruct o; try discriminate end; injection C as <-; eexists; reflexivity. } cbn in U. injection U as <-. reflexivity.
    + cbn in T, S. change (nth_error r (Datatypes.S i) = Some u) in U. destruct (IH _ _ _ i t u s C T U S) as (w & W & N). exists w. split; [exact W|]. exact N.
  - destruct (chain (imul base (fixed_transform t0 q)) steps conf) as [r| | | |] eqn:C; try discriminate. injection E as <-. destruct i as [|i].
    + cbn in T, U, S. injection T as <-. injection S as <-. exists 0. split; [|discriminate]. destruct steps as [|s1 steps]; cbn in C; [injection C as <-; cbn in U; injection U as <-; reflexivity|]. assert (exists r', r = imul base (fixed_transform t0 q) :: r') as [r' ->].
      { destruct s1; [destruct conf; [discriminate|]|]; match type of C with obind ?o _ = _ => destruct o; try discriminate end; injection C as <-; eexists; reflexivity. } cbn in U. injection U as <-. reflexivity.
    + cbn in T, S. change (nth_error r (Datatypes.S i) = Some u) in U. destruct (IH _ _ _ i t u s C T U S) as (w & W & N). exists w. split; [exact W|]. exact N.
Qed.
Definition proper (s : kstep) : Prop := match s with Turn _ q a => qdot q q = 1 /\ unit a | Fixed _ q => qdot q q = 1 end.

Lemma step_rigid s v : proper s -> rigid (step_at s v).
Proof.
  destruct s as [t q a|t q]; cbn [proper step_at]; [intros [Q U]|intros Q]; unfold turn_transform, fixed_transform, rigid; cbn [irot imul]; [apply rot_mul; [apply qmat_rot; exact Q|]; rewrite qmat_rodrigues by exact U; apply rod_rotation; exact U | apply qmat_rot; exact Q].
Qed.
Lemma step_offset s v : itrans (step_at s v) = offset s.
Proof. destruct s as [t q a|t q]; [|reflexivity]. cbn [step_at offset]. unfold turn_transform. cbn [itrans imul irot]. vring. Qed.
Lemma nth_chain_prev steps base conf ts i t : chain base steps conf = Ok ts -> nth_error ts (S i) = Some t -> exists t0 s, nth_error ts i = Some t0 /\ nth_error steps i = Some s.
Proof.
  intros C T. assert (L : length ts = S (length steps)). { destruct (Nat.le_gt_cases (n_turns steps) (length conf)) as [LE|GT]; [destruct (chain_total steps base conf LE) as (ts' & E & LT & _); congruence | rewrite chain_short in C by exact GT; discriminate]. }
  assert (LT : (S i < length ts)%nat) by (apply nth_error_Some; rewrite T; discriminate). destruct (nth_error ts i) as [t0|] eqn:E0; [|apply nth_error_None in E0; lia]. destruct (nth_error steps i) as [s|] eqn:ES; [|apply nth_error_None in ES; lia]. eauto.
Qed.
Lemma Forall_firstn_nth {A} (P : A -> Prop) l n i a : Forall P (firstn n l) -> (i < n)%nat -> nth_error l i = Some a -> P a.
Proof. revert n i; induction l as [|x l IH]; intros [|n] [|i] H L E; cbn in *; try discriminate; try lia; inversion H; subst; [congruence|]. apply (IH n i); [assumption|lia|assumption]. Qed.
Lemma chain_first steps base conf ts : chain base steps conf = Ok ts -> nth_error ts 0 = Some base.
Proof.
  destruct steps as [|[t q a|t q] steps]; cbn; [intros [= <-]; reflexivity| |].
  - destruct conf; [discriminate|]. destruct (chain _ steps conf); try discriminate. intros [= <-]. reflexivity.
  - destruct (chain _ steps conf); try discriminate. intros [= <-]. reflexivity.
Qed.
Lemma chain_rigid steps base conf ts : chain base steps conf = Ok ts -> rigid base -> forall i t, Forall proper (firstn i steps) -> nth_error ts i = Some t -> rigid t.
Proof.
  intros C B. induction i as [|i IH]; intros t P T; [rewrite (chain_first _ _ _ _ C) in T; injection T as <-; exact B|].
  destruct (nth_chain_prev _ _ _ _ _ _ C T) as (t0 & s & T0 & S). destruct (chain_steps _ _ _ _ _ _ _ _ C T0 T S) as (v & -> & _). apply rigid_mul; [apply IH; [|exact T0] | apply step_rigid; apply (Forall_firstn_nth proper steps (Datatypes.S i) i); [exact P|lia|exact S]].
  clear - P. revert i P; induction steps as [|x l IHl]; intros [|i] P; try constructor; inversion P; subst; [assumption|]. apply IHl. assumption.
Qed.

(** ** C130: sizes *)
Lemma arms_ok r : In r arms -> n_turns (arm_steps r) = arm_active r /\ length (arm_joints r) = arm_active r /\ length (arm_links r) = S (length (arm_steps r)) /\ NoDup (arm_links r) /\ NoDup (arm_joints r).
Proof.
  intros I. repeat (destruct I as [<-|I]; [split; [reflexivity|]; split; [reflexivity|]; split; [reflexivity|]; split; cbn [arm_links arm_joints ur_10 iiwa_7 iiwa_14 abb iiwa_links iiwa_joints]; repeat (constructor; [cbn; intuition discriminate|]); constructor|]). contradiction.
Qed.
(** One transform for each link with as many values as joints; otherwise the assert stops.  Without asserts, values too many are ignored and too few are read out of range. *)
Theorem C130_sizes : forall r conf base, In r arms ->
  (length conf = arm_active r -> exists ts, (forall dbg, link_transforms dbg r conf base = Ok ts) /\ length ts = length (arm_links r) /\ nth_error ts 0 = Some base) /\
  (length conf <> arm_active r -> link_transforms true r conf base = AssertFail) /\
  ((length conf < arm_active r)%nat -> link_transforms false r conf base = UB) /\
  ((arm_active r < length conf)%nat -> link_transforms false r conf base = link_transforms true r (firstn (arm_active r) conf) base).
Proof.
  intros r conf base I. destruct (arms_ok r I) as (N & _ & LL & _). unfold link_transforms, cassert. split; [|split; [|split]].
  - intros L. destruct (chain_total (arm_steps r) base conf ltac:(lia)) as (ts & E & LT & F). exists ts. split; [intros dbg; rewrite L, Nat.eqb_refl; cbn; rewrite Bool.andb_false_r; exact E|]. split; [congruence|exact F].
  - intros L. apply Nat.eqb_neq in L. rewrite L. reflexivity.
  - intros L. cbn. apply chain_short. lia.
  - intros L. rewrite firstn_length_le, Nat.eqb_refl by lia. cbn. apply (chain_prefix _ _ _ _ (arm_active r)); [|lia]. rewrite firstn_firstn, Nat.min_id. reflexivity.
Qed.
Print Assumptions C130_sizes.
Lemma run_chain dbg r conf base ts : link_transforms dbg r conf base = Ok ts -> chain base (arm_steps r) conf = Ok ts.
Proof. unfold link_transforms, cassert. destruct (dbg && negb (length conf =? arm_active r)%nat); [discriminate|auto]. Qed.

(** Moving the base moves all links with it, and a link depends on the joints before it only. *)
Theorem C130_base : forall dbg r conf base ts, link_transforms dbg r conf iid = Ok ts -> link_transforms dbg r conf base = Ok (map (imul base) ts).
Proof.
  intros dbg r conf base ts. unfold link_transforms, cassert. destruct (dbg && negb (length conf =? arm_active r)%nat); [discriminate|]. intros E. apply (chain_base _ base) in E. rewrite imul_1_r in E. exact E.
Qed.
Theorem C130_joints_before : forall dbg r c1 c2 base ts1 ts2 i, In r arms -> link_transforms dbg r c1 base = Ok ts1 -> link_transforms dbg r c2 base = Ok ts2 -> firstn i c1 = firstn i c2 -> nth_error ts1 i = nth_error ts2 i.
Proof.
  intros dbg r c1 c2 base ts1 ts2 i I E1 E2 F. apply run_chain in E1, E2. apply (chain_local _ _ _ _ _ _ i E1 E2). assert (LE : (joint_before (arm_steps r) i <= i)%nat).
  { unfold joint_before, n_turns. transitivity (length (firstn i (arm_steps r))); [|apply firstn_le_length]. generalize (firstn i (arm_steps r)). induction l as [|[] l IH]; cbn; lia. }
  rewrite <- (Nat.min_l _ _ LE), <- !firstn_firstn, F. reflexivity.
Qed.
Print Assumptions C130_base. Print Assumptions C130_joints_before.

(** ** C130: rigid motions *)
Lemma urdf_unit a b c : qdot (quat_urdf_rpy a b c) (quat_urdf_rpy a b c) = 1. Proof. apply C101_quaternions. Qed.
Lemma qone_unit : qdot qone qone = 1. Proof. unfold qone. unf. ring. Qed.
Lemma arms_proper r : In r arms -> Forall proper (firstn (arm_active r) (arm_steps r)) /\ (forall i s, nth_error (arm_steps r) i = Some s -> turns s = true -> joint_before (arm_steps r) i = i) /\ (r <> abb -> Forall proper (arm_steps r)).
Proof.
  destruct axes_unit as (X & Y & Z). intros I.
  assert (J : forall i s, nth_error (arm_steps r) i = Some s -> turns s = true -> joint_before (arm_steps r) i = i) by (repeat (destruct I as [<-|I]; [intros i s E T; do 8 (destruct i as [|i]; [first [reflexivity | discriminate E | injection E as <-; discriminate T]|]); destruct i; discriminate E|]); contradiction).
  repeat (destruct I as [<-|I]; [split; [|split; [exact J|intros NA; try (exfalso; apply NA; reflexivity)]]; cbn [arm_steps arm_active firstn ur_10 iiwa_7 iiwa_14 abb]; repeat (constructor; [cbn [proper]; split; [first [apply urdf_unit|apply qone_unit] | first [exact X|exact Y|exact Z]]|]); constructor|]). contradiction.
Qed.
(** All links are at rotations and translations (the tool of the ABB arm aside). *)
Theorem C130_rigid : forall dbg r conf base ts i t, In r arms -> rigid base -> link_transforms dbg r conf base = Ok ts -> nth_error ts i = Some t -> (i <= arm_active r)%nat -> rigid t.
Proof.
  intros dbg r conf base ts i t I B E T L. apply run_chain in E. destruct (arms_proper r I) as (P & _). apply (chain_rigid _ _ _ _ E B i); [|exact T].
  rewrite <- (Nat.min_l i (arm_active r)) by exact L. rewrite <- firstn_firstn. clear - P. revert P. generalize (firstn (arm_active r) (arm_steps r)). intros l. revert i. induction l as [|x l IH]; intros [|i] P; cbn; try constructor; inversion P; auto.
Qed.
Print Assumptions C130_rigid.
(** The fixed tool of the ABB arm is turned by a quaternion of rounded numbers: its matrix is not quite a rotation. *)
Theorem C130_tool_refuted : exists conf ts t, link_transforms true abb conf iid = Ok ts /\ nth_error ts 7 = Some t /\ ~ rigid t /\ let m := mmul (irot t) (mtrans (irot t)) in Rabs (m00 m - 1) < 1 / 10 ^ 15.
Proof.
  destruct (C130_sizes abb [0; 0; 0; 0; 0; 0] iid ltac:(right; right; right; left; reflexivity)) as (H & _). destruct (H eq_refl) as (ts & E & L & _). specialize (E true). exists [0; 0; 0; 0; 0; 0], ts. destruct (nth_error ts 7) as [t|] eqn:T; [|apply nth_error_None in T; rewrite L in T; cbn in T; lia]. exists t. split; [exact E|]. split; [reflexivity|].
  assert (Z : forall p a, (a = ux \/ a = uy \/ a = uz) -> turn_transform p qone a 0 = mkI mid p).
  { intros p a A. unfold turn_transform. assert (Q : qmat (qaxis 0 a) = mid) by (destruct A as [->|[->| ->]]; rewrite ?qmat_x, ?qmat_y, ?qmat_z; unfold rot_x, rot_y, rot_z; rewrite cos_0, sin_0; apply M3_eq; cbn; ring). rewrite Q. apply iso_eq; cbn [irot itrans imul]; [unfold qone, qmat; mring | unfold qone, qmat; vring]. }
  assert (R : irot t = qmat (mkQ root_half 0 root_half 0)).
  { apply run_chain in E. cbn [arm_steps abb chain] in E. rewrite !Z in E by tauto. cbn [obind] in E. injection E as <-. cbn [nth_error] in T. injection T as <-. cbn [irot imul fixed_transform iid]. rewrite !mmul_1_l. reflexivity. }
  unfold rigid, rotation. rewrite R. split.
  - intros [O _]. apply (f_equal m00) in O. unfold qmat, root_half in O. unf. lra.
  - cbv zeta. apply Rabs_def1; unfold qmat, root_half; unf; lra.
Qed.
Print Assumptions C130_tool_refuted.
(** The distance between the origins of consecutive links never changes: the length of the offset between them. *)
Theorem C130_lengths : forall dbg r conf base ts i t u s, In r arms -> rigid base -> link_transforms dbg r conf base = Ok ts -> nth_error ts i = Some t -> nth_error ts (S i) = Some u -> nth_error (arm_steps r) i = Some s ->
  vdistance (itrans t) (itrans u) = vnorm (offset s).
Proof.
  intros dbg r conf base ts i t u s I B E T U S. pose proof (run_chain _ _ _ _ _ E) as C. destruct (chain_steps _ _ _ _ _ _ _ _ C T U S) as (v & -> & _). assert (RT : rigid t).
  { apply (C130_rigid dbg r conf base ts i t I B E T). assert (LS : (length (arm_steps r) <= Datatypes.S (arm_active r))%nat) by (repeat (destruct I as [<-|I]; [cbn; lia|]); contradiction). assert (i < length (arm_steps r))%nat by (apply nth_error_Some; rewrite S; discriminate). lia. }
  unfold vdistance. change (sqrt (vdot ?x ?x)) with (vnorm x). replace (vsub (itrans (imul t (step_at s v))) (itrans t)) with (mapp (irot t) (offset s)) by (cbn [itrans imul]; rewrite step_offset; vring). apply rot_norm. exact RT.
Qed.
Print Assumptions C130_lengths.

(** The turn by an angle about the line through a point along a direction. *)
Definition turn_about (point direction : V3) (angle : R) (p : V3) : V3 := vadd point (mapp (rodrigues direction angle) (vsub p point)).
Definition moved (point direction : V3) (angle : R) (t : iso) : iso := mkI (mmul (rodrigues direction angle) (irot t)) (turn_about point direction angle (itrans t)).
Lemma rod_conj m w t : rotation m -> mmul m (rodrigues w t) = mmul (rodrigues (mapp m w) t) m.
Proof.
  intros R. pose proof (rot_skew m w R) as S. pose proof (rot_left m R) as L. assert (K : mmul m (skew w) = mmul (skew (mapp m w)) m) by (rewrite <- S, !mmul_assoc, L, mmul_1_r; reflexivity).
  assert (K2 : mmul m (mmul (skew w) (skew w)) = mmul (mmul (skew (mapp m w)) (skew (mapp m w))) m) by (rewrite <- mmul_assoc, K, mmul_assoc, K, mmul_assoc; reflexivity).
  unfold rodrigues. replace (mmul m (madd (madd mid (mscale (skew w) (sin t))) (mscale (mmul (skew w) (skew w)) (1 - cos t)))) with (madd (madd m (mscale (mmul m (skew w)) (sin t))) (mscale (mmul m (mmul (skew w) (skew w))) (1 - cos t))) by mring. rewrite K, K2. mring.
Qed.
Lemma chain_turn steps : forall good base c1 x x' c2 ts ts', steps = good ++ skipn (length good) steps -> Forall proper good -> n_turns (skipn (length good) steps) = 0%nat -> rigid base -> (length c1 < n_turns steps)%nat ->
  chain base steps (c1 ++ x :: c2) = Ok ts -> chain base steps (c1 ++ x' :: c2) = Ok ts' ->
  exists i t q a T, nth_error steps i = Some (Turn t q a) /\ joint_before steps i = length c1 /\ nth_error ts (S i) = Some T /\ ts' = firstn (S i) ts ++ map (moved (itrans T) (mapp (irot T) a) (x' - x)) (skipn (S i) ts).
Proof.
  induction steps as [|s steps IH]; intros good base c1 x x' c2 ts ts' G P Z B L E E'; [cbn in L; lia|]. destruct good as [|g good]; [cbn [length skipn] in Z; rewrite Z in L; lia|]. cbn [app length skipn] in G, Z. injection G as <- G. inversion P as [|? ? PS PG]; subst. destruct s as [t q a|t q].
  - destruct c1 as [|y c1].
    + cbn [app chain] in E, E'. destruct (chain (imul base (turn_transform t q a x)) steps c2) as [r| | | |] eqn:C; try discriminate. injection E as <-. destruct (chain (imul base (turn_transform t q a x')) steps c2) as [r'| | | |] eqn:C'; try discriminate. injection E' as <-.
      exists 0%nat, t, q, a, (imul base (turn_transform t q a x)). split; [reflexivity|]. split; [reflexivity|]. split; [cbn; apply (chain_first _ _ _ _ C)|]. cbn [firstn skipn app]. f_equal. set (T := imul base (turn_transform t q a x)) in *.
      cbn [proper] in PS. destruct PS as [Q U]. assert (RT : rotation (irot T)) by (apply (rigid_mul base); [exact B | apply (step_rigid (Turn t q a) x); split; assumption]).
      set (d := x' - x). set (M := mkI (rodrigues (mapp (irot T) a) d) (vsub (itrans T) (mapp (rodrigues (mapp (irot T) a) d) (itrans T)))).
      assert (MT : imul M T = imul base (turn_transform t q a x')).
      { assert (TT : imul base (turn_transform t q a x') = imul T (mkI (rodrigues a d) vzero)).
        { unfold T, turn_transform. rewrite !imul_assoc. f_equal. f_equal. rewrite !qmat_rodrigues by exact U. apply iso_eq; cbn [irot itrans imul]; [rewrite rod_add by exact U; f_equal; unfold d; ring | vring]. }
        rewrite TT. apply iso_eq; cbn [irot itrans imul M]; [symmetry; apply rod_conj; exact RT | vring]. }
      rewrite <- MT in C'. rewrite (chain_base steps M _ _ _ C) in C'. injection C' as <-. apply map_ext. intros u. apply iso_eq; cbn [irot itrans imul M moved]; [reflexivity|]. unfold turn_about. vring.
    + cbn [app chain] in E, E'. destruct (chain (imul base (turn_transform t q a y)) steps (c1 ++ x :: c2)) as [r| | | |] eqn:C; try discriminate. injection E as <-. destruct (chain (imul base (turn_transform t q a y)) steps (c1 ++ x' :: c2)) as [r'| | | |] eqn:C'; try discriminate. injection E' as <-.
      assert (RB : rigid (imul base (turn_transform t q a y))) by (apply rigid_mul; [exact B | apply (step_rigid (Turn t q a) y PS)]). cbn in L. destruct (IH good _ c1 x x' c2 r r' G PG Z RB ltac:(unfold n_turns; lia) C C') as (i & t1 & q1 & a1 & T & N & J & NT & R). exists (S i), t1, q1, a1, T. split; [exact N|]. split; [cbn; unfold joint_before, n_turns in J; rewrite J; reflexivity|]. split; [exact NT|]. cbn [firstn skipn app]. f_equal. exact R.
  - cbn [chain] in E, E'. destruct (chain (imul base (fixed_transform t q)) steps (c1 ++ x :: c2)) as [r| | | |] eqn:C; try discriminate. injection E as <-. destruct (chain (imul base (fixed_transform t q)) steps (c1 ++ x' :: c2)) as [r'| | | |] eqn:C'; try discriminate. injection E' as <-.
    assert (RB : rigid (imul base (fixed_transform t q))) by (apply rigid_mul; [exact B | apply (step_rigid (Fixed t q) 0 PS)]). destruct (IH good _ c1 x x' c2 r r' G PG Z RB L C C') as (i & t1 & q1 & a1 & T & N & J & NT & R). exists (S i), t1, q1, a1, T. split; [exact N|]. split; [exact J|]. split; [exact NT|]. cbn [firstn skipn app]. f_equal. exact R.
Qed.
(** Changing joint k turns every later link about that joint's axis through its origin, by the difference, and no other link. *)
Theorem C130_turn : forall dbg r c1 x x' c2 base ts ts', In r arms -> rigid base -> (length c1 < arm_active r)%nat -> link_transforms dbg r (c1 ++ x :: c2) base = Ok ts -> link_transforms dbg r (c1 ++ x' :: c2) base = Ok ts' ->
  exists t q a T, let k := length c1 in nth_error (arm_steps r) k = Some (Turn t q a) /\ nth_error ts (S k) = Some T /\
    firstn (S k) ts' = firstn (S k) ts /\ skipn (S k) ts' = map (moved (itrans T) (mapp (irot T) a) (x' - x)) (skipn (S k) ts).
Proof.
  intros dbg r c1 x x' c2 base ts ts' I B L E E'. apply run_chain in E, E'. destruct (arms_ok r I) as (N & _). destruct (arms_proper r I) as (P & J & _). set (good := firstn (arm_active r) (arm_steps r)) in *.
  assert (LG : length good = arm_active r) by (unfold good; repeat (destruct I as [<-|I]; [reflexivity|]); contradiction).
  assert (Z : n_turns (skipn (length good) (arm_steps r)) = 0%nat) by (rewrite LG; repeat (destruct I as [<-|I]; [reflexivity|]); contradiction).
  destruct (chain_turn (arm_steps r) good base c1 x x' c2 ts ts') as (i & t & q & a & T & NI & JB & NT & R); try assumption; [rewrite LG; symmetry; apply firstn_skipn | lia |].
  rewrite (J i _ NI eq_refl) in JB. subst i. exists t, q, a, T. cbv zeta. split; [exact NI|]. split; [exact NT|]. assert (LF : length (firstn (S (length c1)) ts) = S (length c1)) by (apply firstn_length_le; apply Nat.lt_le_incl; apply nth_error_Some; rewrite NT; discriminate).
  rewrite R. split; [rewrite firstn_app, LF, Nat.sub_diag, firstn_firstn, Nat.min_id; cbn [firstn]; apply app_nil_r | rewrite skipn_app, LF, Nat.sub_diag, skipn_all2 by lia; reflexivity].
Qed.
Print Assumptions C130_turn.
(** A full turn of a joint changes nothing. *)
Theorem C130_full_turn : forall dbg r c1 x c2 base ts, In r arms -> rigid base -> (length c1 < arm_active r)%nat -> link_transforms dbg r (c1 ++ x :: c2) base = Ok ts -> link_transforms dbg r (c1 ++ (x + 2 * PI) :: c2) base = Ok ts.
Proof.
  intros dbg r c1 x c2 base ts I B L E. assert (E' : exists ts', link_transforms dbg r (c1 ++ (x + 2 * PI) :: c2) base = Ok ts').
  { unfold link_transforms, cassert in *. assert (LL : length (c1 ++ (x + 2 * PI) :: c2) = length (c1 ++ x :: c2)) by (rewrite !app_length; reflexivity). rewrite LL. destruct (dbg && negb (length (c1 ++ x :: c2) =? arm_active r)%nat); [discriminate|].
    destruct (Nat.le_gt_cases (n_turns (arm_steps r)) (length (c1 ++ x :: c2))) as [LE|GT]; [rewrite <- LL in LE; destruct (chain_total (arm_steps r) base _ LE) as (ts' & E' & _); eauto | rewrite chain_short in E by exact GT; discriminate]. }
  destruct E' as (ts' & E'). rewrite E'. f_equal. destruct (C130_turn dbg r c1 x (x + 2 * PI) c2 base ts ts' I B L E E') as (t & q & a & T & _ & NT & F & SK). cbv zeta in *. rewrite <- (firstn_skipn (S (length c1)) ts'), <- (firstn_skipn (S (length c1)) ts), F, SK. f_equal. rewrite <- (map_id (skipn (Datatypes.S (length c1)) ts)) at 2. apply map_ext. intros u.
  assert (R : rodrigues (mapp (irot T) a) (x + 2 * PI - x) = mid) by (unfold rodrigues; replace (x + 2 * PI - x) with (2 * PI) by ring; rewrite sin_2PI, cos_2PI; mring). unfold moved, turn_about. rewrite R. apply iso_eq; cbn [irot itrans]; [apply mmul_1_l | vring].
Qed.
Print Assumptions C130_full_turn.
(** No link is farther from the base than the offsets are long. *)
Definition reach_of (r : arm) (i : nat) : R := fold_right (fun s acc => vnorm (offset s) + acc) 0 (firstn i (arm_steps r)).
Theorem C130_reach : forall dbg r conf base ts i t, In r arms -> rigid base -> link_transforms dbg r conf base = Ok ts -> nth_error ts i = Some t -> vdistance (itrans base) (itrans t) <= reach_of r i.
Proof.
  intros dbg r conf base ts i t I B E. revert t. induction i as [|i IH]; intros t T.
  - rewrite (chain_first _ _ _ _ (run_chain _ _ _ _ _ E)) in T. injection T as <-. unfold vdistance, reach_of. cbn [firstn fold_right]. replace (vsub (itrans base) (itrans base)) with vzero by vring. unf. replace (0 * 0 + 0 * 0 + 0 * 0) with 0 by ring. rewrite sqrt_0. lra.
  - destruct (nth_chain_prev _ _ _ _ _ _ (run_chain _ _ _ _ _ E) T) as (t0 & s & T0 & S). pose proof (C130_lengths _ _ _ _ _ _ _ _ _ I B E T0 T S) as LN. specialize (IH t0 T0). assert (RE : reach_of r (Datatypes.S i) = reach_of r i + vnorm (offset s)).
    { unfold reach_of. assert (F : firstn (Datatypes.S i) (arm_steps r) = firstn i (arm_steps r) ++ [s]). { clear - S. revert S. generalize (arm_steps r). induction i as [|i IH]; intros [|x l] S; try discriminate; [cbn in *; congruence|]. cbn [firstn app]. f_equal. apply IH. exact S. }
      rewrite F, fold_right_app. cbn [fold_right]. clear. induction (firstn i (arm_steps r)) as [|x l IH]; cbn [fold_right]; [ring|rewrite IH; ring]. }
    rewrite RE, <- LN. apply Rle_trans with (vdistance (itrans base) (itrans t0) + vdistance (itrans t0) (itrans t)); [|lra]. unfold vdistance. change (sqrt (vdot ?x ?x)) with (vnorm x). replace (vsub (itrans t) (itrans base)) with (vadd (vsub (itrans t0) (itrans base)) (vsub (itrans t) (itrans t0))) by vring. apply vnorm_triangle.
Qed.
Print Assumptions C130_reach.

(** ** C130: the home positions, all joints at zero *)
Lemma home_step p a b c ax : (ax = ux \/ ax = uy \/ ax = uz) -> turn_transform p (quat_urdf_rpy a b c) ax 0 = mkI (mmul (mmul (rot_z c) (rot_y b)) (rot_x a)) p.
Proof.
  intros A. unfold turn_transform. assert (Q : qmat (qaxis 0 ax) = mid) by (destruct A as [->|[->| ->]]; rewrite ?qmat_x, ?qmat_y, ?qmat_z; unfold rot_x, rot_y, rot_z; rewrite cos_0, sin_0; apply M3_eq; cbn; ring). rewrite Q. destruct (C101_quaternions a b c) as (_ & _ & _ & ->). apply iso_eq; cbn [irot itrans imul]; [apply mmul_1_r|vring].
Qed.
Lemma home_one p ax : (ax = ux \/ ax = uy \/ ax = uz) -> turn_transform p qone ax 0 = mkI mid p.
Proof.
  intros A. unfold turn_transform. assert (Q : qmat (qaxis 0 ax) = mid) by (destruct A as [->|[->| ->]]; rewrite ?qmat_x, ?qmat_y, ?qmat_z; unfold rot_x, rot_y, rot_z; rewrite cos_0, sin_0; apply M3_eq; cbn; ring). rewrite Q. apply iso_eq; cbn [irot itrans imul]; [unfold qone, qmat; mring | unfold qone, qmat; vring].
Qed.
Definition home (r : arm) : outcome (list V3 * M3) :=
  let! ts := link_transforms true r (repeat 0 (arm_active r)) iid in Ok (map itrans ts, irot (last ts iid)).
Lemma chain_cons base t q a steps v conf : chain base (Turn t q a :: steps) (v :: conf) = obind (chain (imul base (turn_transform t q a v)) steps conf) (fun rest => Ok (base :: rest)).
Proof. reflexivity. Qed.
Lemma chain_fixed base t q steps conf : chain base (Fixed t q :: steps) conf = obind (chain (imul base (fixed_transform t q)) steps conf) (fun rest => Ok (base :: rest)).
Proof. reflexivity. Qed.
Ltac go m p := rewrite chain_cons; first [rewrite home_step by tauto | rewrite home_one by tauto];
  match goal with |- context [chain (imul ?a ?b) _ _] => replace (imul a b) with (mkI m p) by
    (symmetry; unfold rot_x, rot_y, rot_z; rewrite ?cos_neg, ?sin_neg, ?cos_PI2, ?sin_PI2, ?cos_PI, ?sin_PI, ?cos_0, ?sin_0; apply iso_eq; [apply M3_eq; unf; lra | apply V3_eq; unf; lra]) end.
Theorem C130_home :
  home ur_10 = Ok ([mkV 0 0 0; mkV 0 0 0.1273; mkV 0 0.220941 0.1273; mkV 0.612 0.049041 0.1273; mkV 1.1843 0.049041 0.1273; mkV 1.1843 0.163941 0.1273; mkV 1.1843 0.163941 0.0116], mkM (-1) 0 0 0 1 0 0 0 (-1)) /\
  home iiwa_7 = Ok ([mkV 0 0 0; mkV 0 0 0.15; mkV 0 0 0.34; mkV 0 0 0.55; mkV 0 0 0.74; mkV 0 0 0.95; mkV 0 (-0.0607) 1.14; mkV 0 0 1.221], mid) /\
  home iiwa_14 = Ok ([mkV 0 0 0; mkV 0 0 0.1575; mkV 0 0 0.36; mkV 0 0 0.5645; mkV 0 0 0.78; mkV 0 0 0.9645; mkV 0 0 1.18; mkV 0 0 1.261], mid) /\
  home abb = Ok ([mkV 0 0 0; mkV 0 0 0.1245; mkV 0.15 (-0.1395) 0.4865; mkV 0.15 (-0.1115) 1.1865; mkV 0.464 (-0.0045) 1.1865; mkV 0.75 (-0.0045) 1.1865; mkV 0.75 (-0.0045) 1.1865; mkV 0.815 (-0.0045) 1.1865],
    qmat (mkQ root_half 0 root_half 0)).
Proof.
  split; [|split; [|split]]; unfold home, link_transforms; cbn [arm_active arm_steps ur_10 iiwa_7 iiwa_14 abb repeat length Nat.eqb cassert]; change (cassert true true ?k) with k.
  - go mid (mkV 0 0 0.1273). go (mkM 0 0 1 0 1 0 (-1) 0 0) (mkV 0 0.220941 0.1273). go (mkM 0 0 1 0 1 0 (-1) 0 0) (mkV 0.612 0.049041 0.1273). go (mkM (-1) 0 0 0 1 0 0 0 (-1)) (mkV 1.1843 0.049041 0.1273). go (mkM (-1) 0 0 0 1 0 0 0 (-1)) (mkV 1.1843 0.163941 0.1273). go (mkM (-1) 0 0 0 1 0 0 0 (-1)) (mkV 1.1843 0.163941 0.0116). reflexivity.
  - go mid (mkV 0 0 0.15). go (mkM (-1) 0 0 0 0 1 0 1 0) (mkV 0 0 0.34). go mid (mkV 0 0 0.55). go (mkM 1 0 0 0 0 (-1) 0 1 0) (mkV 0 0 0.74). go (mkM (-1) 0 0 0 (-1) 0 0 0 1) (mkV 0 0 0.95). go (mkM (-1) 0 0 0 0 1 0 1 0) (mkV 0 (-0.0607) 1.14). go mid (mkV 0 0 1.221). reflexivity.
  - go mid (mkV 0 0 0.1575). go (mkM (-1) 0 0 0 0 1 0 1 0) (mkV 0 0 0.36). go mid (mkV 0 0 0.5645). go (mkM 1 0 0 0 0 (-1) 0 1 0) (mkV 0 0 0.78). go (mkM (-1) 0 0 0 (-1) 0 0 0 1) (mkV 0 0 0.9645). go (mkM (-1) 0 0 0 0 1 0 1 0) (mkV 0 0 1.18). go mid (mkV 0 0 1.261). reflexivity.
  - go mid (mkV 0 0 0.1245). go mid (mkV 0.15 (-0.1395) 0.4865). go mid (mkV 0.15 (-0.1115) 1.1865). go mid (mkV 0.464 (-0.0045) 1.1865). go mid (mkV 0.75 (-0.0045) 1.1865). go mid (mkV 0.75 (-0.0045) 1.1865). rewrite chain_fixed.
    match goal with |- context [chain (imul ?a ?b) _ _] => replace (imul a b) with (mkI (qmat (mkQ root_half 0 root_half 0)) (mkV 0.815 (-0.0045) 1.1865)) by (symmetry; unfold fixed_transform; apply iso_eq; cbn [irot itrans imul]; [apply mmul_1_l | apply V3_eq; unf; lra]) end. reflexivity.
Qed.
Print Assumptions C130_home.

(** ** C130: the axes of the joints in the frame of the base, all joints at zero (C130_turn: the links behind a joint turn about its axis) *)
Definition axes_at (r : arm) (ts : list iso) : list V3 :=
  map (fun p => match snd p with Turn _ _ a => mapp (irot (fst p)) a | Fixed _ _ => vzero end) (firstn (arm_active r) (combine (tl ts) (arm_steps r))).
Definition home_axes (r : arm) : outcome (list V3) := let! ts := link_transforms true r (repeat 0 (arm_active r)) iid in Ok (axes_at r ts).
Theorem C130_home_axes :
  let x := mkV 1 0 0 in let y := mkV 0 1 0 in let z := mkV 0 0 1 in let down := mkV 0 0 (-1) in let right := mkV 0 (-1) 0 in
  home_axes ur_10 = Ok [z; y; y; y; down; y] /\
  home_axes iiwa_7 = Ok [z; y; z; right; z; y; z] /\ home_axes iiwa_14 = Ok [z; y; z; right; z; y; z] /\
  home_axes abb = Ok [z; y; y; x; y; x].
Proof.
  split; [|split; [|split]]; unfold home_axes, link_transforms; cbn [arm_active arm_steps ur_10 iiwa_7 iiwa_14 abb repeat length Nat.eqb cassert]; change (cassert true true ?k) with k.
  - go mid (mkV 0 0 0.1273). go (mkM 0 0 1 0 1 0 (-1) 0 0) (mkV 0 0.220941 0.1273). go (mkM 0 0 1 0 1 0 (-1) 0 0) (mkV 0.612 0.049041 0.1273). go (mkM (-1) 0 0 0 1 0 0 0 (-1)) (mkV 1.1843 0.049041 0.1273). go (mkM (-1) 0 0 0 1 0 0 0 (-1)) (mkV 1.1843 0.163941 0.1273). go (mkM (-1) 0 0 0 1 0 0 0 (-1)) (mkV 1.1843 0.163941 0.0116).
    cbn [chain obind]. unfold axes_at. cbn [arm_active arm_steps ur_10 tl combine firstn map fst snd irot]. f_equal. repeat (apply f_equal2; [apply V3_eq; unf; cbn; ring|]). reflexivity.
  - go mid (mkV 0 0 0.15). go (mkM (-1) 0 0 0 0 1 0 1 0) (mkV 0 0 0.34). go mid (mkV 0 0 0.55). go (mkM 1 0 0 0 0 (-1) 0 1 0) (mkV 0 0 0.74). go (mkM (-1) 0 0 0 (-1) 0 0 0 1) (mkV 0 0 0.95). go (mkM (-1) 0 0 0 0 1 0 1 0) (mkV 0 (-0.0607) 1.14). go mid (mkV 0 0 1.221).
    cbn [chain obind]. unfold axes_at. cbn [arm_active arm_steps iiwa_7 tl combine firstn map fst snd irot]. f_equal. repeat (apply f_equal2; [apply V3_eq; unf; cbn; ring|]). reflexivity.
  - go mid (mkV 0 0 0.1575). go (mkM (-1) 0 0 0 0 1 0 1 0) (mkV 0 0 0.36). go mid (mkV 0 0 0.5645). go (mkM 1 0 0 0 0 (-1) 0 1 0) (mkV 0 0 0.78). go (mkM (-1) 0 0 0 (-1) 0 0 0 1) (mkV 0 0 0.9645). go (mkM (-1) 0 0 0 0 1 0 1 0) (mkV 0 0 1.18). go mid (mkV 0 0 1.261).
    cbn [chain obind]. unfold axes_at. cbn [arm_active arm_steps iiwa_14 tl combine firstn map fst snd irot]. f_equal. repeat (apply f_equal2; [apply V3_eq; unf; cbn; ring|]). reflexivity.
  - go mid (mkV 0 0 0.1245). go mid (mkV 0.15 (-0.1395) 0.4865). go mid (mkV 0.15 (-0.1115) 1.1865). go mid (mkV 0.464 (-0.0045) 1.1865). go mid (mkV 0.75 (-0.0045) 1.1865). go mid (mkV 0.75 (-0.0045) 1.1865). rewrite chain_fixed.
    cbn [chain obind]. unfold axes_at. cbn [arm_active arm_steps abb tl combine firstn map fst snd irot]. f_equal. repeat (apply f_equal2; [apply V3_eq; unf; cbn; ring|]). reflexivity.
Qed.
Print Assumptions C130_home_axes.

(** ** C130: the names, in order *)
Definition numbered (prefix : string) (first count : nat) : list string := map (fun i => (prefix ++ NilZero.string_of_uint (Nat.to_uint i))%string) (seq first count).
Theorem C130_names :
  arm_joints ur_10 = ["shoulder_pan_joint"; "shoulder_lift_joint"; "elbow_joint"; "wrist_1_joint"; "wrist_2_joint"; "wrist_3_joint"]%string /\
  arm_links ur_10 = ["base_link"; "shoulder_link"; "upper_arm_link"; "forearm_link"; "wrist_1_link"; "wrist_2_link"; "wrist_3_link"]%string /\
  (forall r, r = iiwa_7 \/ r = iiwa_14 -> arm_joints r = numbered "iiwa_joint_" 1 7 /\ arm_links r = numbered "iiwa_link_" 0 8) /\
  arm_joints abb = numbered "joint_" 1 6 /\ arm_links abb = numbered "link_" 0 8.
Proof. split; [reflexivity|]. split; [reflexivity|]. split; [intros r [->| ->]; split; reflexivity|]. split; reflexivity. Qed.
Print Assumptions C130_names.

(** ** C130: by name *)
Lemma name_links_ok names : forall ts m, length names = length ts -> NoDup names -> exists m', name_links m names ts = Ok m' /\ (forall k, m' k = match find (fun p => String.eqb k (fst p)) (combine names ts) with Some p => Some (snd p) | None => m k end).
Proof.
  induction names as [|n names IH]; intros [|t ts] m L D; cbn in L; try discriminate; [exists m; split; reflexivity|]. inversion D as [|? ? NI D']; subst. destruct (IH ts (put m n t) ltac:(lia) D') as (m' & E & K). exists m'. split; [exact E|]. intros k. rewrite K. cbn [combine find fst]. unfold put. destruct (String.eqb_spec k n) as [->|NE].
  - replace (find (fun p => String.eqb n (fst p)) (combine names ts)) with (@None (string * iso)); [reflexivity|]. symmetry. destruct (find (fun p => String.eqb n (fst p)) (combine names ts)) as [p|] eqn:F; [|reflexivity]. exfalso. apply find_some in F. destruct F as [F1 F2]. apply String.eqb_eq in F2. destruct p as [a b]. apply in_combine_l in F1. cbn in F2. congruence.
  - destruct (find (fun p => String.eqb k (fst p)) (combine names ts)); reflexivity.
Qed.
(** Values given by name: joints without a value are at zero, other names do not matter; the result names every link once. *)
Theorem C130_named : forall dbg r (m : named R) base, In r arms ->
  link_transforms_named dbg r m base = link_transforms dbg r (map (fun k => match m k with Some v => v | None => 0 end) (arm_joints r)) base /\
  exists ts out, link_transforms_named dbg r m base = Ok ts /\ link_map_named dbg r m base = Ok out /\
    (forall i name, nth_error (arm_links r) i = Some name -> out name = nth_error ts i) /\ (forall name, ~ In name (arm_links r) -> out name = None).
Proof.
  intros dbg r m base I. split; [reflexivity|]. destruct (arms_ok r I) as (N & LJ & LL & DL & _). unfold link_map_named, link_transforms_named. destruct (C130_sizes r (map (retrieve m) (arm_joints r)) base I) as (H & _). destruct H as (ts & E & LT & _); [rewrite map_length; exact LJ|].
  rewrite E. cbn [obind]. destruct (name_links_ok (arm_links r) ts no_links (eq_sym LT) DL) as (out & EO & K). exists ts, out. split; [reflexivity|]. split; [exact EO|]. split.
  - intros i name NM. rewrite K. clear - NM LT DL. revert i ts LT NM DL. generalize (arm_links r). induction l as [|x l IH]; intros [|i] [|t ts] LT NM DL; cbn in NM, LT; try discriminate; cbn [combine find fst nth_error].
    + injection NM as ->. rewrite String.eqb_refl. reflexivity.
    + inversion DL as [|? ? NI D']; subst. destruct (String.eqb_spec name x) as [->|NE]; [exfalso; apply NI; eapply nth_error_In; exact NM|]. apply IH; [lia|exact NM|exact D'].
  - intros name NI. rewrite K. destruct (find (fun p => String.eqb name (fst p)) (combine (arm_links r) ts)) as [p|] eqn:F; [|reflexivity]. exfalso. apply find_some in F. destruct F as [F1 F2]. apply String.eqb_eq in F2. destruct p as [a b]. apply in_combine_l in F1. cbn in F2. congruence.
Qed.
Print Assumptions C130_named.
Theorem C130_map : forall dbg r conf base, In r arms -> length conf = arm_active r -> exists ts out, link_transforms dbg r conf base = Ok ts /\ link_map dbg r conf base = Ok out /\
  (forall i name, nth_error (arm_links r) i = Some name -> out name = nth_error ts i) /\ (forall name, ~ In name (arm_links r) -> out name = None).
Proof.
  intros dbg r conf base I L. destruct (arms_ok r I) as (N & LJ & LL & DL & DJ). set (m := fun k => option_map snd (find (fun p => String.eqb k (fst p)) (combine (arm_joints r) conf))). assert (M : map (retrieve m) (arm_joints r) = conf).
  { unfold m. clear - L LJ DJ. rewrite <- LJ in L. revert conf L DJ. generalize (arm_joints r). induction l as [|x l IH]; intros [|v conf] L DJ; cbn in L; try discriminate; [reflexivity|]. cbn [map combine]. inversion DJ as [|? ? NI D']; subst. unfold retrieve at 1. cbn [find fst]. rewrite String.eqb_refl. cbn [option_map snd]. f_equal. transitivity (map (retrieve (fun k => option_map snd (find (fun p => String.eqb k (fst p)) (combine l conf)))) l); [|apply IH; [lia|assumption]]. apply map_ext_in. intros k K. unfold retrieve. cbn [find fst]. destruct (String.eqb_spec k x) as [->|_]; [contradiction|reflexivity]. }
  destruct (C130_named dbg r m base I) as (_ & ts & out & E1 & E2 & E3 & E4). unfold link_map_named, link_transforms_named in *. rewrite M in E1, E2. exists ts, out. unfold link_map. auto.
Qed.
Print Assumptions C130_map.

(** ** C130: the same as the general robot model of simple_linked_robot_model.hpp, with the same joints *)
Fixpoint chain_joints (k : nat) (steps : list kstep) (conf : list R) : list rjoint :=
  match steps, conf with
  | Turn t q a :: steps, v :: conf => mkRJ (mkI (qmat q) t) a (Z.of_nat k) (Z.of_nat (S k)) (mkJ (MInf, PInf) (Fin v) CONTINUOUS) "joint" :: chain_joints (S k) steps conf
  | Fixed t q :: steps, conf => mkRJ (mkI (qmat q) t) ux (Z.of_nat k) (Z.of_nat (S k)) (mkJ (Fin 0, Fin 0) (Fin 0) FIXED) "joint" :: chain_joints (S k) steps conf
  | _, _ => []
  end.
Lemma upd_middle {A} (pre : list A) x y l : upd (pre ++ x :: l) (length pre) y = pre ++ y :: l.
Proof. induction pre as [|p pre IH]; cbn; [reflexivity|]. f_equal. exact IH. Qed.
Lemma zget_middle {A} (pre : list A) x l : zget (pre ++ x :: l) (Z.of_nat (length pre)) = Some x.
Proof. unfold zget. destruct (Z.ltb_spec (Z.of_nat (length pre)) 0); [lia|]. rewrite Nat2Z.id, nth_error_app2, Nat.sub_diag by lia. reflexivity. Qed.
Lemma motion_turning t a i j lim v n : motion (mkRJ t a i j (mkJ lim (Fin v) CONTINUOUS) n) = At (mkI (qmat (qaxis v a)) vzero). Proof. reflexivity. Qed.
Lemma motion_fixed t a i j lim v n : motion (mkRJ t a i j (mkJ lim v FIXED) n) = At iid. Proof. reflexivity. Qed.
Lemma place_chain steps : forall conf base ts pre l rest, chain base steps conf = Ok ts -> length rest = length steps -> rl_place l = At base ->
  exists out, place_children (pre ++ l :: rest) (chain_joints (length pre) steps conf) = Ok (pre ++ out) /\ map rl_place out = map At ts /\ map rl_name out = map rl_name (l :: rest).
Proof.
  induction steps as [|s steps IH]; intros conf base ts pre l rest C L P; [destruct rest; [|discriminate]; cbn in C; injection C as <-; exists [l]; cbn [chain_joints place_children map]; rewrite P; auto|].
  destruct rest as [|c rest]; [discriminate|]. cbn in L.
  assert (Z1 : zget (pre ++ l :: c :: rest) (Z.of_nat (length pre)) = Some l) by apply zget_middle.
  assert (Z2 : zget (pre ++ l :: c :: rest) (Z.of_nat (S (length pre))) = Some c) by (replace (pre ++ l :: c :: rest) with ((pre ++ [l]) ++ c :: rest) by (rewrite <- app_assoc; reflexivity); replace (S (length pre)) with (length (pre ++ [l])) by (rewrite app_length; cbn; lia); apply zget_middle).
  assert (UP : forall y, upd (pre ++ l :: c :: rest) (Z.to_nat (Z.of_nat (S (length pre)))) y = (pre ++ [l]) ++ y :: rest) by (intros y; rewrite Nat2Z.id; replace (pre ++ l :: c :: rest) with ((pre ++ [l]) ++ c :: rest) by (rewrite <- app_assoc; reflexivity); replace (S (length pre)) with (length (pre ++ [l])) by (rewrite app_length; cbn; lia); apply upd_middle).
  assert (LP : length (pre ++ [l]) = S (length pre)) by (rewrite app_length; cbn; lia).
  assert (GO : forall conf' base' r, chain base' steps conf' = Ok r -> exists out, place_children ((pre ++ [l]) ++ with_place c (At base') :: rest) (chain_joints (S (length pre)) steps conf') = Ok (pre ++ l :: out) /\ map rl_place out = map At r /\ map rl_name out = map rl_name (c :: rest)).
  { intros conf' base' r CR. destruct (IH conf' base' r (pre ++ [l]) (with_place c (At base')) rest CR ltac:(lia) eq_refl) as (out & E & P1 & P2). rewrite LP in E. exists out. rewrite E, <- app_assoc. auto. }
  destruct s as [t q a|t q].
  - destruct conf as [|v conf]; [discriminate|]. cbn [chain] in C. destruct (chain (imul base (turn_transform t q a v)) steps conf) as [r| | | |] eqn:CR; try discriminate. injection C as <-. cbn [chain_joints place_children]. unfold place_child. cbn [rj_parent rj_child]. rewrite Z1, Z2, P, motion_turning. cbn [rj_transform rj_child obind]. rewrite UP.
    unfold turn_transform in CR. cbv zeta in CR. rewrite <- imul_assoc in CR. destruct (GO conf _ r CR) as (out & E & P1 & P2). exists (l :: out). split; [exact E|]. split; [cbn [map]; rewrite P, P1; reflexivity | cbn [map] in *; rewrite P2; reflexivity].
  - cbn [chain] in C. destruct (chain (imul base (fixed_transform t q)) steps conf) as [r| | | |] eqn:CR; try discriminate. injection C as <-. cbn [chain_joints place_children]. unfold place_child. cbn [rj_parent rj_child]. rewrite Z1, Z2, P, motion_fixed. cbn [rj_transform rj_child obind]. rewrite UP. rewrite imul_1_r.
    destruct (GO conf _ r CR) as (out & E & P1 & P2). exists (l :: out). split; [exact E|]. split; [cbn [map]; rewrite P, P1; reflexivity | cbn [map] in *; rewrite P2; reflexivity].
Qed.
Theorem C130_linked_robot : forall dbg r conf base ts links, In r arms -> link_transforms dbg r conf base = Ok ts -> map rl_name links = arm_links r ->
  exists out, update_transforms base links (chain_joints 0 (arm_steps r) conf) = Ok out /\ map rl_place out = map At ts /\ map rl_name out = arm_links r.
Proof.
  intros dbg r conf base ts links I E NM. apply run_chain in E. destruct (arms_ok r I) as (_ & _ & LL & _). assert (LN : length links = S (length (arm_steps r))) by (rewrite <- LL, <- NM, map_length; reflexivity). destruct links as [|l rest]; [discriminate|]. cbn [update_transforms].
  destruct (place_chain (arm_steps r) conf base ts [] (with_place l (At base)) rest E ltac:(cbn in LN; lia) eq_refl) as (out & EO & P1 & P2). exists out. cbn [app length] in EO. split; [exact EO|]. split; [exact P1|]. rewrite P2. exact NM.
Qed.
Print Assumptions C130_linked_robot.
