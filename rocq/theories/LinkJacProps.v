(** The Jacobian of simple_linked_robot_model.hpp: C120. *)
From Coq Require Import String Reals Lra Lia.
From Coquelicot Require Import Coquelicot.
From Verif Require Import Base MathModel TotpVec MathProps GeoModel GeoAlg GeoProps RotModel RotProps LinkModel LinkProps LinkTreeProps LinkKinProps.
Open Scope R_scope.

(** ** Specification *)
(** Where a link is, as the joints say. *)
Inductive pose (base : iso) (joints : list rjoint) : Z -> iso -> Prop :=
| pose_base : pose base joints 0 base
| pose_joint : forall j t m, In j joints -> pose base joints (rj_parent j) t -> motion j = At m -> pose base joints (rj_child j) (imul (imul t (rj_transform j)) m).
(** The joints, with joint [k] at the value [x] and all others as they are. *)
Definition with_value (j : rjoint) (x : R) : rjoint := with_model j (mkJ (j_limits (rj_model j)) (Fin x) (j_type (rj_model j))).
Definition turned (joints : list rjoint) (k : nat) (x : R) : list rjoint := match nth_error joints k with Some j => upd joints k (with_value j x) | None => joints end.
(** Joints of the four kinds, in rigid places and with axes of length 1. *)
Definition plain (j : rjoint) : Prop := rigid (rj_transform j) /\ unit (rj_axis j) /\ (is_revolute (rj_model j) || is_prismatic (rj_model j) || is_fixed (rj_model j)) = true.

(** ** The active joints *)
Lemma active_nth joints : forall n k j, nth_error joints k = Some j -> nth_error (snd (active_from n joints)) k = Some (if movable j then Z.of_nat (n + length (filter movable (firstn k joints))) else (-1)%Z).
Proof.
  induction joints as [|x joints IH]; intros n k j K; [destruct k; discriminate|]. cbn [active_from]. unfold movable in *. destruct (is_fixed (rj_model x)) eqn:F.
  - specialize (IH n). destruct (active_from n joints) as [m l]. cbn [snd] in *. destruct k as [|k]; cbn in K |- *; [injection K as <-; rewrite F; reflexivity|]. rewrite F. cbn [negb]. apply IH. exact K.
  - specialize (IH (S n)). destruct (active_from (S n) joints) as [m l]. cbn [snd] in *. destruct k as [|k]; cbn in K |- *; [injection K as <-; rewrite F; cbn; rewrite Nat.add_0_r; reflexivity|]. rewrite F. cbn [negb length]. rewrite (IH k j K). destruct (is_fixed (rj_model j)); cbn [negb]; [reflexivity|]. do 2 f_equal. lia.
Qed.
Lemma firstn_mono (joints : list rjoint) : forall k k' j, (k < k')%nat -> nth_error joints k = Some j -> movable j = true -> (length (filter movable (firstn k joints)) < length (filter movable (firstn k' joints)))%nat.
Proof.
  induction joints as [|x joints IH]; intros k k' j L K M; [destruct k; discriminate|]. destruct k' as [|k']; [lia|]. destruct k as [|k]; cbn in K |- *.
  - injection K as ->. rewrite M. cbn. lia.
  - specialize (IH k k' j ltac:(lia) K M). destruct (movable x); cbn; lia.
Qed.
Lemma active_inj r k k' j j' a a' : active_from 0 (r_joints r) = (r_num r, r_active r) -> nth_error (r_joints r) k = Some j -> nth_error (r_joints r) k' = Some j' -> movable j = true -> movable j' = true ->
  zget (r_active r) (Z.of_nat k) = Some a -> zget (r_active r) (Z.of_nat k') = Some a' -> (0 <= a)%Z /\ (k <> k' -> a <> a').
Proof.
  intros A K K' M M' G G'. pose proof (active_nth (r_joints r) 0 k j K) as N. pose proof (active_nth (r_joints r) 0 k' j' K') as N'. rewrite A in N, N'. cbn [snd] in N, N'. rewrite M in N. rewrite M' in N'.
  unfold zget in G, G'. destruct (Z.ltb_spec (Z.of_nat k) 0); [lia|]. destruct (Z.ltb_spec (Z.of_nat k') 0); [lia|]. rewrite Nat2Z.id in G, G'. rewrite N in G. rewrite N' in G'. injection G as <-. injection G' as <-. split; [lia|]. intros D. cbn [Nat.add].
  destruct (Nat.lt_ge_cases k k') as [L|L]; [pose proof (firstn_mono _ k k' j L K M); lia|]. pose proof (firstn_mono _ k' k j' ltac:(lia) K' M'). lia.
Qed.
Lemma zget_of_nat {A} (l : list A) k : zget l (Z.of_nat k) = nth_error l k.
Proof. unfold zget. destruct (Z.ltb_spec (Z.of_nat k) 0); [lia|]. rewrite Nat2Z.id. reflexivity. Qed.

(** ** The walk up the tree *)
Section Walk.
Variable r : robot.
Hypothesis W : wf r.
Hypothesis PL : Forall plain (r_joints r).
Notation joints := (r_joints r).
Lemma wf_facts : length (r_skeleton r) = length (r_links r) /\ NoDup (map rj_child joints) /\ ~ In 0%Z (map rj_child joints) /\
  (forall k j, nth_error joints k = Some j -> exists e, zget (r_skeleton r) (rj_child j) = Some e /\ e_parent e = rj_parent j /\ e_parent_joint e = Z.of_nat k) /\
  (forall l e, zget (r_skeleton r) l = Some e -> e_children e = children_of l joints) /\ (forall i, (0 <= i < Z.of_nat (length (r_skeleton r)))%Z -> reach joints 0 i) /\ in_range (length (r_skeleton r)) joints.
Proof.
  destruct W as [WR WT WO WA WW WJ WP WC]. destruct (C116_skeleton _ _ _ WR WT) as (L & ND & N0 & S & C). destruct (C116_check _ _ WR) as (sk & b & E & IFF). rewrite WT in E. injection E as <- <-. destruct (proj1 IFF eq_refl) as (_ & _ & _ & _ & ALL). rewrite L. repeat split; try assumption; apply WR; assumption.
Qed.
Lemma no_cycle j : In j joints -> ~ reach joints (rj_child j) (rj_parent j).
Proof. destruct wf_facts as (L & ND & N0 & S & C & ALL & R). exact (acyclic (r_skeleton r) joints R C ND N0 ALL j). Qed.
Lemma one_joint j1 j2 : In j1 joints -> In j2 joints -> rj_child j1 = rj_child j2 -> j1 = j2.
Proof. destruct wf_facts as (L & ND & N0 & S & C & ALL & R). exact (same_joint joints ND j1 j2). Qed.
Lemma one_index k1 k2 j1 j2 : nth_error joints k1 = Some j1 -> nth_error joints k2 = Some j2 -> rj_child j1 = rj_child j2 -> k1 = k2.
Proof.
  intros K1 K2 E. destruct wf_facts as (_ & ND & _). apply (proj1 (NoDup_nth_error (map rj_child joints)) ND).
  - rewrite map_length. apply nth_error_Some. rewrite K1. discriminate.
  - rewrite !nth_error_map, K1, K2. cbn. congruence.
Qed.
Lemma not_root j : In j joints -> (0 < rj_child j)%Z.
Proof. intros I. destruct wf_facts as (L & ND & N0 & S & C & ALL & R). destruct (R j I) as [_ RC]. assert (rj_child j <> 0%Z) by (intros E; apply N0; rewrite <- E; apply in_map; exact I). lia. Qed.
Lemma depth_bound d i : depth joints d i -> (0 <= i < Z.of_nat (length (r_links r)))%Z -> (d < length (r_links r))%nat.
Proof.
  intros D I. assert (K : exists l, length l = S d /\ NoDup l /\ forall x, In x l -> (0 <= x < Z.of_nat (length (r_links r)))%Z /\ reach joints x i).
  { induction D as [|d j IJ D IH].
    - exists [0%Z]. split; [reflexivity|]. split; [constructor; [intros [] | constructor]|]. intros x [<-|[]]. split; [exact I | constructor].
    - destruct (wf_range r W j IJ) as [RP RC]. destruct (IH RP) as (l & LL & ND & H). exists (rj_child j :: l). split; [cbn; congruence|]. split; [constructor; [|exact ND]; intros X; apply (no_cycle j IJ); apply H; exact X|].
      intros x [<-|X]; [split; [exact RC | constructor]|]. destruct (H x X) as [X1 X2]. split; [exact X1 | apply reach_next; assumption]. }
  destruct K as (l & LL & ND & H). assert (IN : incl l (map Z.of_nat (seq 0 (length (r_links r))))) by (intros x X; destruct (H x X) as [X1 _]; apply in_map_iff; exists (Z.to_nat x); split; [lia | apply in_seq; lia]).
  pose proof (NoDup_incl_length ND IN) as Q. rewrite map_length, seq_length, LL in Q. lia.
Qed.
Lemma reach_to_depth i : reach joints 0 i -> exists d, depth joints d i.
Proof. induction 1 as [|j I _ [d D]]; [exists 0%nat; constructor | exists (S d); constructor; assumption]. Qed.
(** The column that a joint gets when its child link is at [t]. *)
Definition column_at (j : rjoint) (point : V3) (t : iso) : column :=
  if is_revolute (rj_model j) then (vcross (mapp (irot t) (rj_axis j)) (vsub point (itrans t)), mapp (irot t) (rj_axis j)) else (iapp t (rj_axis j), vzero).
Lemma walk_spec point d i : depth joints d i -> forall fuel cols, (d <= fuel)%nat ->
  exists cols', walk_up fuel r point i cols = Ok cols' /\
    forall k j a, nth_error joints k = Some j -> movable j = true -> zget (r_active r) (Z.of_nat k) = Some a ->
      (forall t, reach joints (rj_child j) i -> at_place (r_links r) (rj_child j) t -> cols' (Z.to_nat a) = column_at j point t) /\ (~ reach joints (rj_child j) i -> cols' (Z.to_nat a) = cols (Z.to_nat a)).
Proof.
  induction 1 as [|d j0 I0 D IH]; intros fuel cols F.
  - exists cols. split; [destruct fuel; reflexivity|]. intros k j a K M A. split; [|reflexivity]. intros t H _. exfalso. pose proof (not_root j (nth_error_In _ _ K)) as C. inversion H as [E|j' I' _ E]; [lia|]. pose proof (not_root j' I'). lia.
  - destruct fuel as [|fuel]; [lia|]. pose proof (not_root j0 I0) as C0. cbn [walk_up]. destruct (Z.leb_spec (rj_child j0) 0); [lia|]. pose proof I0 as I0'. apply In_nth_error in I0'. destruct I0' as [k0 K0]. destruct wf_facts as (L & ND & N0 & S & C & ALL & R).
    destruct (S k0 j0 K0) as (e & E & EP & EJ). rewrite E, EJ, EP. destruct (Z.ltb_spec (Z.of_nat k0) 0); [lia|]. rewrite !zget_of_nat, K0.
    pose proof (active_nth joints 0 k0 j0 K0) as A0. rewrite (wf_active r W) in A0. cbn [snd] in A0. rewrite A0.
    destruct (wf_posed r W) as [_ P]. destruct (P j0 I0) as (tp & m0 & MO & AP & (lc & EC & AC)). rewrite EC. rewrite AC. set (tc := imul (imul tp (rj_transform j0)) m0) in *.
    rewrite Forall_forall in PL. destruct (PL j0 I0) as (_ & _ & KIND).
    assert (STEP : forall cols1, (forall k j a, nth_error joints k = Some j -> movable j = true -> zget (r_active r) (Z.of_nat k) = Some a -> cols1 (Z.to_nat a) = if Nat.eq_dec k k0 then column_at j0 point tc else cols (Z.to_nat a)) ->
      exists cols', walk_up fuel r point (rj_parent j0) cols1 = Ok cols' /\ forall k j a, nth_error joints k = Some j -> movable j = true -> zget (r_active r) (Z.of_nat k) = Some a ->
      (forall t, reach joints (rj_child j) (rj_child j0) -> at_place (r_links r) (rj_child j) t -> cols' (Z.to_nat a) = column_at j point t) /\ (~ reach joints (rj_child j) (rj_child j0) -> cols' (Z.to_nat a) = cols (Z.to_nat a))).
    { intros cols1 H1. destruct (IH fuel cols1 ltac:(lia)) as (cols' & EW & H'). exists cols'. split; [exact EW|]. intros k j a K M A. destruct (H' k j a K M A) as [HA HB]. specialize (H1 k j a K M A). destruct (Nat.eq_dec k k0) as [->|NK].
      - assert (j = j0) by congruence. subst j. split; [|intros X; exfalso; apply X; constructor]. intros t _ AT. rewrite HB by exact (no_cycle j0 I0). rewrite H1. f_equal. apply at_place_unique with (r_links r) (rj_child j0); [exists lc; auto | exact AT].
      - assert (NC : rj_child j <> rj_child j0) by (intros X; apply NK; exact (one_index k k0 j j0 K K0 X)). split.
        + intros t HR AT. apply HA; [|exact AT]. inversion HR as [X|j' I' H'' X]; [contradiction|]. pose proof (one_joint j' j0 I' I0 X). subst j'. exact H''.
        + intros NR. rewrite HB by (intros X; apply NR; apply reach_next; assumption). exact H1. }
    assert (COL : forall c, movable j0 = true -> column_at j0 point tc = c -> forall k j a, nth_error joints k = Some j -> movable j = true -> zget (r_active r) (Z.of_nat k) = Some a ->
      set_column cols (if movable j0 then Z.of_nat (0 + length (filter movable (firstn k0 joints))) else -1) c (Z.to_nat a) = if Nat.eq_dec k k0 then column_at j0 point tc else cols (Z.to_nat a)).
    { intros c M0 CC k j a K M A. rewrite M0. rewrite M0 in A0. unfold set_column. assert (A0' : zget (r_active r) (Z.of_nat k0) = Some (Z.of_nat (0 + length (filter movable (firstn k0 joints))))) by (rewrite zget_of_nat; exact A0).
      destruct (active_inj r k k0 j j0 a _ (wf_active r W) K K0 M M0 A A0') as [NN DIFF]. rewrite Z2Nat.id by exact NN. destruct (Nat.eq_dec k k0) as [->|NK]; [rewrite A0' in A; injection A as <-; rewrite Z.eqb_refl; symmetry; exact CC|].
      destruct (Z.eqb_spec a (Z.of_nat (0 + length (filter movable (firstn k0 joints))))); [exfalso; exact (DIFF NK e0) | reflexivity]. }
    destruct (is_revolute (rj_model j0)) eqn:RV.
    + apply STEP. apply COL; [unfold movable, is_fixed, is_revolute in *; destruct (N.eqb_spec (j_type (rj_model j0)) FIXED) as [Q|Q]; [rewrite Q in RV; discriminate | reflexivity]|]. unfold column_at. rewrite RV. reflexivity.
    + destruct (is_prismatic (rj_model j0)) eqn:PR.
      * apply STEP. apply COL; [unfold movable, is_fixed, is_prismatic in *; apply N.eqb_eq in PR; rewrite PR; reflexivity|]. unfold column_at. rewrite RV. reflexivity.
      * cbn [orb] in KIND. rewrite KIND. apply STEP. intros k j a K M A. destruct (Nat.eq_dec k k0) as [->|NK]; [|reflexivity]. assert (j = j0) by congruence. subst j. unfold movable in M. rewrite KIND in M. discriminate.
Qed.

(** ** The derivative *)
Variables (k : nat) (jk : rjoint) (x0 : R).
Hypothesis K : nth_error joints k = Some jk.
Hypothesis V0 : j_value (rj_model jk) = Fin x0.
Lemma turned_other j x : In j joints -> j <> jk -> In j (turned joints k x).
Proof.
  intros I N. apply In_nth_error in I. destruct I as [n E]. unfold turned. rewrite K. apply nth_error_In with n. rewrite nth_error_upd. destruct (Nat.eqb_spec k n) as [<-|NE]; [congruence | exact E].
Qed.
Lemma turned_this x : In (with_value jk x) (turned joints k x).
Proof. unfold turned. rewrite K. apply nth_error_In with k. rewrite nth_error_upd, Nat.eqb_refl. destruct (Nat.ltb_spec k (length joints)) as [L|L]; [reflexivity|]. apply nth_error_None in L. congruence. Qed.
Lemma pose_off i x t : reach joints 0 i -> ~ reach joints (rj_child jk) i -> at_place (r_links r) i t -> pose (r_base r) (turned joints k x) i t.
Proof.
  intros H. revert t. induction H as [|j I H IH]; intros t N A; destruct (wf_posed r W) as [P0 P].
  - rewrite (at_place_unique _ _ _ _ A P0). constructor.
  - destruct (P j I) as (tp & m & M & AP & AC). rewrite (at_place_unique _ _ _ _ A AC). apply pose_joint; [|apply IH; [intros X; apply N; apply reach_next; assumption | exact AP] | exact M]. apply turned_other; [exact I|]. intros ->. apply N. constructor.
Qed.
Lemma pose_on tp i : at_place (r_links r) (rj_parent jk) tp -> (exists m, motion jk = At m) -> reach joints (rj_child jk) i ->
  exists c, (forall x m, motion (with_value jk x) = At m -> pose (r_base r) (turned joints k x) i (imul (imul (imul tp (rj_transform jk)) m) c)) /\
    (forall m, motion jk = At m -> at_place (r_links r) i (imul (imul (imul tp (rj_transform jk)) m) c)) /\ ((forall j, In j joints -> rigid (rj_transform j) /\ unit (rj_axis j)) -> rigid c).
Proof.
  intros AP [m0 M0] H. assert (IK : In jk joints) by exact (nth_error_In _ _ K). destruct wf_facts as (L & ND & N0 & S & C & ALL & R). destruct (wf_posed r W) as [P0 P]. induction H as [|j I H (c & E1 & E2 & E3)].
  - exists iid. split; [|split].
    + intros x m M. rewrite imul_1_r. apply (pose_joint _ (turned joints k x) (with_value jk x)); [apply turned_this | | exact M]. cbn [rj_parent with_value with_model]. apply pose_off; [apply ALL; apply R; exact IK | exact (no_cycle jk IK) | exact AP].
    + intros m M. rewrite imul_1_r. destruct (P jk IK) as (t & m' & M' & AP' & AC'). assert (m' = m) by congruence. subst m'. rewrite (at_place_unique _ _ _ _ AP AP'). exact AC'.
    + intros _. unfold rigid, rotation. cbn [irot iid]. split; [mring | unf; ring].
  - assert (NJ : j <> jk) by (intros ->; exact (no_cycle jk IK H)). destruct (P j I) as (t & m & M & AP' & AC). exists (imul (imul c (rj_transform j)) m). split; [|split].
    + intros x mk MK. replace (imul (imul (imul tp (rj_transform jk)) mk) (imul (imul c (rj_transform j)) m)) with (imul (imul (imul (imul (imul tp (rj_transform jk)) mk) c) (rj_transform j)) m) by (rewrite !imul_assoc; reflexivity).
      apply pose_joint; [apply turned_other; assumption | apply E1; exact MK | exact M].
    + intros mk MK. replace (imul (imul (imul tp (rj_transform jk)) mk) (imul (imul c (rj_transform j)) m)) with (imul (imul (imul (imul (imul tp (rj_transform jk)) mk) c) (rj_transform j)) m) by (rewrite !imul_assoc; reflexivity).
      rewrite (at_place_unique _ _ _ _ (E2 mk MK) AP'). exact AC.
    + intros RG. destruct (RG j I) as [RJ UJ]. apply rigid_mul; [apply rigid_mul; [apply E3; exact RG | exact RJ]|]. destruct (C117_motion j UJ) as (X1 & X2 & X3). rewrite Forall_forall in PL. destruct (PL j I) as (_ & _ & KIND).
      assert (VJ : exists y, j_value (rj_model j) = Fin y) by (apply regular_value; pose proof (wf_joints r W) as WJ; rewrite Forall_forall in WJ; apply WJ; exact I). destruct VJ as [y VJ].
      destruct (is_revolute (rj_model j)) eqn:RV; [|destruct (is_prismatic (rj_model j)) eqn:PR; [|cbn in KIND]].
      * rewrite (X1 y eq_refl VJ) in M. injection M as <-. apply rod_rotation. exact UJ.
      * rewrite (X2 y eq_refl VJ) in M. injection M as <-. unfold rigid, rotation. cbn [irot]. split; [mring | unf; ring].
      * rewrite (X3 KIND) in M. injection M as <-. unfold rigid, rotation. cbn [irot iid]. split; [mring | unf; ring].
Qed.
End Walk.

(** ** Derivatives of products *)
Ltac parts := unfold mderiv, vderiv; repeat match goal with |- _ /\ _ => split end.
Lemma lin3 (f0 f1 f2 : R -> R) t d0 d1 d2 a b c e : is_derive f0 t d0 -> is_derive f1 t d1 -> is_derive f2 t d2 ->
  is_derive (fun s => a * f0 s + b * f1 s + c * f2 s) t (a * d0 + b * d1 + c * d2) /\ is_derive (fun s => f0 s * a + f1 s * b + f2 s * c) t (d0 * a + d1 * b + d2 * c) /\ is_derive (fun s => f0 s * a + f1 s * b + f2 s * c + e) t (d0 * a + d1 * b + d2 * c).
Proof.
  intros F0 F1 F2. split; [|split]; (auto_derive; [repeat split; eexists; eassumption|];
  replace (Derive (fun x : R => f0 x) t) with d0 by (symmetry; apply is_derive_unique; exact F0);
  replace (Derive (fun x : R => f1 x) t) with d1 by (symmetry; apply is_derive_unique; exact F1);
  replace (Derive (fun x : R => f2 x) t) with d2 by (symmetry; apply is_derive_unique; exact F2); ring).
Qed.
Lemma mderiv_left a f t d : mderiv f t d -> mderiv (fun s => mmul a (f s)) t (mmul a d).
Proof.
  intros (D0 & D1 & D2 & D3 & D4 & D5 & D6 & D7 & D8). unfold mderiv, mmul. cbn [m00 m01 m02 m10 m11 m12 m20 m21 m22].
  parts; match goal with |- _ => eapply (fun f0 f1 f2 d0 d1 d2 a b c X Y Z => proj1 (lin3 f0 f1 f2 t d0 d1 d2 a b c 0 X Y Z)) end; eassumption.
Qed.
Lemma mderiv_right a f t d : mderiv f t d -> mderiv (fun s => mmul (f s) a) t (mmul d a).
Proof.
  intros (D0 & D1 & D2 & D3 & D4 & D5 & D6 & D7 & D8). unfold mderiv, mmul. cbn [m00 m01 m02 m10 m11 m12 m20 m21 m22].
  parts; match goal with |- _ => eapply (fun f0 f1 f2 d0 d1 d2 a b c X Y Z => proj1 (proj2 (lin3 f0 f1 f2 t d0 d1 d2 a b c 0 X Y Z))) end; eassumption.
Qed.
Lemma vderiv_app v w f t d : mderiv f t d -> vderiv (fun s => vadd (mapp (f s) v) w) t (mapp d v).
Proof.
  intros (D0 & D1 & D2 & D3 & D4 & D5 & D6 & D7 & D8). unfold vderiv, mapp, vadd. cbn [vx vy vz].
  parts; match goal with |- _ => eapply (fun f0 f1 f2 d0 d1 d2 a b c e X Y Z => proj2 (proj2 (lin3 f0 f1 f2 t d0 d1 d2 a b c e X Y Z))) end; eassumption.
Qed.
Lemma rod_deriv_1 u t : unit u -> mderiv (fun s => rodrigues u s) t (mmul (rodrigues u t) (skew u)).
Proof.
  intros U. pose proof (rod_deriv u 1 t U) as D. rewrite Rmult_1_r in D. replace (mscale (mmul (rodrigues u t) (skew u)) 1) with (mmul (rodrigues u t) (skew u)) in D by (generalize (mmul (rodrigues u t) (skew u)); intros m; mring).
  destruct D as (D0 & D1 & D2 & D3 & D4 & D5 & D6 & D7 & D8). parts; (eapply is_derive_ext; [|eassumption]); intros s; cbv beta; rewrite Rmult_1_r; reflexivity.
Qed.
Lemma vderiv_ext f g t d : (forall s, f s = g s) -> vderiv f t d -> vderiv g t d.
Proof. intros E (D0 & D1 & D2). split; [|split]; (eapply is_derive_ext; [|eassumption]); intros s; cbv beta; rewrite E; reflexivity. Qed.
Lemma mderiv_ext f g t d : (forall s, f s = g s) -> mderiv f t d -> mderiv g t d.
Proof. intros E (D0 & D1 & D2 & D3 & D4 & D5 & D6 & D7 & D8). parts; (eapply is_derive_ext; [|eassumption]); intros s; cbv beta; rewrite E; reflexivity. Qed.
Lemma turn_deriv b u c p x : rigid b -> unit u -> let t := imul b (mkI (rodrigues u x) vzero) in
  vderiv (fun s => iapp (imul (imul b (mkI (rodrigues u s) vzero)) c) p) x (vcross (mapp (irot t) u) (vsub (iapp (imul t c) p) (itrans t))) /\
  mderiv (fun s => irot (imul (imul b (mkI (rodrigues u s) vzero)) c)) x (mmul (skew (mapp (irot t) u)) (irot (imul t c))).
Proof.
  intros RB U t. pose proof (mderiv_left (irot b) _ _ _ (rod_deriv_1 u x U)) as D. set (m := rodrigues u x) in *. assert (RM : rotation m) by (apply rod_rotation; exact U).
  assert (RT : rotation (mmul (irot b) m)) by (apply rot_mul; assumption). assert (TI : irot t = mmul (irot b) m) by reflexivity. split.
  - pose proof (vderiv_app (iapp c p) (itrans b) _ _ _ D) as V. replace (vcross (mapp (irot t) u) (vsub (iapp (imul t c) p) (itrans t))) with (mapp (mmul (irot b) (mmul m (skew u))) (iapp c p)).
    + apply (vderiv_ext (fun s => vadd (mapp (mmul (irot b) (rodrigues u s)) (iapp c p)) (itrans b))); [|exact V]. intros s. unfold iapp, imul. cbn [irot itrans]. generalize (rodrigues u s). intros q. vring.
    + rewrite TI. replace (vsub (iapp (imul t c) p) (itrans t)) with (mapp (mmul (irot b) m) (iapp c p)) by (unfold iapp, imul, t; cbn [irot itrans]; generalize m; intros q; vring).
      rewrite <- rot_cross by exact RT. rewrite <- skew_cross, !mapp_mmul. reflexivity.
  - pose proof (mderiv_right (irot c) _ _ _ D) as V. replace (mmul (skew (mapp (irot t) u)) (irot (imul t c))) with (mmul (mmul (irot b) (mmul m (skew u))) (irot c)).
    + apply (mderiv_ext (fun s => mmul (mmul (irot b) (rodrigues u s)) (irot c))); [|exact V]. intros s. reflexivity.
    + cbn [imul irot]. rewrite TI. rewrite <- (rot_skew _ u RT). pose proof (rot_left _ RT) as LT. set (q := mmul (irot b) m) in *. replace (mmul (irot b) (mmul m (skew u))) with (mmul q (skew u)) by (unfold q; apply mmul_assoc).
      change (irot t) with q. rewrite !mmul_assoc. do 2 f_equal. rewrite <- mmul_assoc, LT, mmul_1_l. reflexivity.
Qed.
Lemma slide_deriv b u c p x : rigid b -> vderiv (fun s => iapp (imul (imul b (mkI mid (vscale s u))) c) p) x (mapp (irot b) u).
Proof.
  intros _. unfold vderiv. unfold iapp, imul. unf. parts; auto_derive; try exact I; ring.
Qed.
Lemma const_vderiv v t : vderiv (fun _ => v) t vzero.
Proof. parts; auto_derive; try exact I; reflexivity. Qed.
Lemma const_mderiv m t : mderiv (fun _ => m) t mzero.
Proof. parts; auto_derive; try exact I; reflexivity. Qed.

(** ** The Jacobian *)
Lemma find_link_nth links : forall n l, NoDup (map rl_name links) -> nth_error links n = Some l -> find_link links (rl_name l) = Ok (rl_place l) /\ forall b, link_index links b (rl_name l) = (b + Z.of_nat n)%Z.
Proof.
  induction links as [|x links IH]; intros n l ND E; [destruct n; discriminate|]. cbn [map] in ND. inversion ND as [|? ? N1 N2]; subst. cbn [find_link link_index]. destruct n as [|n]; cbn in E.
  - injection E as ->. rewrite String.eqb_refl. split; [reflexivity | intros b; lia].
  - destruct (String.eqb_spec (rl_name x) (rl_name l)) as [Q|Q]; [exfalso; apply N1; rewrite Q; apply in_map; exact (nth_error_In _ _ E)|]. destruct (IH n l N2 E) as [F1 F2]. split; [exact F1|]. intros b. rewrite F2. lia.
Qed.
(** What ComputeLinkPointJacobian returns, joint by joint. *)
Lemma jacobian_spec r i l t p : wf r -> Forall plain (r_joints r) -> zget (r_links r) i = Some l -> rl_place l = At t ->
  exists cols, jacobian r (rl_name l) p 1 = Ok cols /\ forall k j a, nth_error (r_joints r) k = Some j -> movable j = true -> zget (r_active r) (Z.of_nat k) = Some a ->
    (forall tc, reach (r_joints r) (rj_child j) i -> at_place (r_links r) (rj_child j) tc -> cols (Z.to_nat a) = column_at j (iapp t p) tc) /\ (~ reach (r_joints r) (rj_child j) i -> cols (Z.to_nat a) = (vzero, vzero)).
Proof.
  intros W PL E P. pose proof (wf_facts r W) as (L & ND & N0 & S & C & ALL & R). assert (RI : (0 <= i < Z.of_nat (length (r_links r)))%Z) by (apply zget_lt; exists l; exact E).
  destruct (C116_check _ _ (wf_range r W)) as (sk & b & ES & IFF). rewrite (wf_tree r W) in ES. injection ES as <- <-. destruct (proj1 IFF eq_refl) as (NDN & _ & _ & _ & _).
  assert (EN : nth_error (r_links r) (Z.to_nat i) = Some l) by (rewrite <- zget_of_nat, Z2Nat.id by lia; exact E). destruct (find_link_nth (r_links r) (Z.to_nat i) l NDN EN) as [F1 F2].
  unfold jacobian, link_transform. rewrite F1. cbn [obind]. rewrite P. rewrite F2. cbn [Z.add]. rewrite Z2Nat.id by lia. replace (vadd (mapp (irot t) p) (vscale 1 (itrans t))) with (iapp t p) by (unfold iapp; vring). destruct (Z.ltb_spec i 0); [lia|].
  destruct (Z.eqb_spec i 0) as [->|NI].
  - eexists. split; [reflexivity|]. intros k j a K M A. split; [|reflexivity]. intros tc H0 _. exfalso. pose proof (not_root r W j (nth_error_In _ _ K)) as CP. inversion H0 as [X|j' I' _ X]; [lia|]. pose proof (not_root r W j' I'). lia.
  - rewrite L in ALL. destruct (reach_to_depth r i (ALL i RI)) as [d D]. pose proof (depth_bound r W d i D RI) as DB. apply (walk_spec r W PL (iapp t p) d i D (length (r_links r))). lia.
Qed.
Lemma reach_dec joints a b n : in_range n joints -> NoDup (map rj_child joints) -> ~ In 0%Z (map rj_child joints) -> reach joints 0 b -> reach joints a b \/ ~ reach joints a b.
Proof.
  intros R ND N0 H. induction H as [|j I H IH].
  - destruct (Z.eq_dec a 0) as [->|NA]; [left; constructor|]. right. intros X. inversion X as [E|j I _ E]; [congruence|]. apply N0. rewrite <- E. apply in_map. exact I.
  - destruct (Z.eq_dec a (rj_child j)) as [->|NA]; [left; constructor|]. destruct IH as [IH|IH]; [left; apply reach_next; assumption|]. right. intros X. inversion X as [E|j' I' H' E]; [contradiction|]. pose proof (same_joint joints ND j' j I' I E). subst j'. contradiction.
Qed.
(** C120: the column of a revolute joint is how the point moves, and how the link turns, when that joint alone is turned. *)
Theorem C120_revolute : forall r i l p k j a, wf r -> Forall plain (r_joints r) -> rigid (r_base r) -> zget (r_links r) i = Some l ->
  nth_error (r_joints r) k = Some j -> is_revolute (rj_model j) = true -> zget (r_active r) (Z.of_nat k) = Some a ->
  exists cols x0 T, jacobian r (rl_name l) p 1 = Ok cols /\ j_value (rj_model j) = Fin x0 /\ (forall x, pose (r_base r) (turned (r_joints r) k x) i (T x)) /\ rl_place l = At (T x0) /\
    vderiv (fun x => iapp (T x) p) x0 (fst (cols (Z.to_nat a))) /\ mderiv (fun x => irot (T x)) x0 (mmul (skew (snd (cols (Z.to_nat a)))) (irot (T x0))).
Proof.
  intros r i l p k j a W PL RB E K RV A. pose proof (wf_facts r W) as (L & ND & N0 & S & C & ALL & R). assert (RI : (0 <= i < Z.of_nat (length (r_links r)))%Z) by (apply zget_lt; exists l; exact E). rewrite L in ALL.
  assert (IJ : In j (r_joints r)) by exact (nth_error_In _ _ K). assert (RG : forall j, In j (r_joints r) -> rigid (rj_transform j) /\ unit (rj_axis j)) by (rewrite Forall_forall in PL; intros y IY; destruct (PL y IY) as (Y1 & Y2 & _); auto).
  destruct (C117_rigid _ _ _ i (wf_posed r W) RB RG (ALL i RI)) as (t & (l' & E' & P) & _). rewrite E in E'. injection E' as <-.
  assert (MV : movable j = true) by (unfold movable, is_fixed, is_revolute in *; destruct (N.eqb_spec (j_type (rj_model j)) FIXED) as [Q|Q]; [rewrite Q in RV; discriminate | reflexivity]).
  destruct (jacobian_spec r i l t p W PL E P) as (cols & EJ & CJ). destruct (CJ k j a K MV A) as [C1 C2].
  assert (VJ : exists y, j_value (rj_model j) = Fin y) by (apply regular_value; pose proof (wf_joints r W) as WJ; rewrite Forall_forall in WJ; apply WJ; exact IJ). destruct VJ as [x0 VJ]. exists cols, x0.
  destruct (reach_dec (r_joints r) (rj_child j) i _ R ND N0 (ALL i RI)) as [ON|OFF].
  - destruct (RG j IJ) as [RJ UJ]. destruct (wf_posed r W) as [_ PO]. destruct (PO j IJ) as (tp & m & M & AP & AC). destruct (C117_motion j UJ) as (X1 & _). assert (Em : m = mkI (rodrigues (rj_axis j) x0) vzero) by (rewrite (X1 x0 RV VJ) in M; injection M as <-; reflexivity).
    destruct (pose_on r W PL k j K tp i AP (ex_intro _ m M) ON) as (c & Q1 & Q2 & Q3). set (b := imul tp (rj_transform j)) in *. exists (fun x => imul (imul b (mkI (rodrigues (rj_axis j) x) vzero)) c).
    split; [exact EJ|]. split; [exact VJ|]. split; [|split].
    + intros x. apply Q1. destruct (C117_motion (with_value j x) UJ) as (Y1 & _). apply Y1; [exact RV | reflexivity].
    + pose proof (Q2 m M) as (l2 & E2 & P2). rewrite E in E2. injection E2 as <-. rewrite Em in P2. exact P2.
    + assert (RTP : rigid tp). { destruct (C117_rigid _ _ _ (rj_parent j) (wf_posed r W) RB RG) as (t' & A' & RT'); [apply ALL; apply (wf_range r W); exact IJ|]. rewrite (at_place_unique _ _ _ _ AP A'). exact RT'. }
      assert (RBB : rigid b) by (apply rigid_mul; assumption). rewrite (C1 _ ON AC). unfold column_at. rewrite RV. cbn [fst snd].
      assert (TT : t = imul (imul b m) c) by (apply (at_place_unique (r_links r) i); [exists l; auto | apply Q2; exact M]). rewrite TT, Em. apply turn_deriv; assumption.
  - exists (fun _ => t). split; [exact EJ|]. split; [exact VJ|]. split; [|split; [exact P|]].
    + intros x. apply (pose_off r W k j K); [apply ALL; exact RI | exact OFF | exists l; auto].
    + rewrite (C2 OFF). cbn [fst snd]. split; [apply const_vderiv|]. replace (mmul (skew vzero) (irot t)) with mzero by (generalize (irot t); intros q; mring). apply const_mderiv.
Qed.
Print Assumptions C120_revolute.
(** The column of a prismatic joint below which the link hangs is how the point moves plus where the joint's child is: right only if that is at the
    origin. *)
Theorem C120_prismatic_partial : forall r i l p k j a, wf r -> Forall plain (r_joints r) -> rigid (r_base r) -> zget (r_links r) i = Some l ->
  nth_error (r_joints r) k = Some j -> is_prismatic (rj_model j) = true -> zget (r_active r) (Z.of_nat k) = Some a ->
  exists cols x0 T d tc, jacobian r (rl_name l) p 1 = Ok cols /\ j_value (rj_model j) = Fin x0 /\ (forall x, pose (r_base r) (turned (r_joints r) k x) i (T x)) /\ rl_place l = At (T x0) /\
    vderiv (fun x => iapp (T x) p) x0 d /\ at_place (r_links r) (rj_child j) tc /\
    (reach (r_joints r) (rj_child j) i -> cols (Z.to_nat a) = (vadd d (itrans tc), vzero)) /\ (~ reach (r_joints r) (rj_child j) i -> d = vzero /\ cols (Z.to_nat a) = (vzero, vzero)).
Proof.
  intros r i l p k j a W PL RB E K PR A. pose proof (wf_facts r W) as (L & ND & N0 & S & C & ALL & R). assert (RI : (0 <= i < Z.of_nat (length (r_links r)))%Z) by (apply zget_lt; exists l; exact E). rewrite L in ALL.
  assert (RV : is_revolute (rj_model j) = false) by (unfold is_revolute, is_prismatic in *; apply N.eqb_eq in PR; rewrite PR; reflexivity).
  assert (IJ : In j (r_joints r)) by exact (nth_error_In _ _ K). assert (RG : forall j, In j (r_joints r) -> rigid (rj_transform j) /\ unit (rj_axis j)) by (rewrite Forall_forall in PL; intros y IY; destruct (PL y IY) as (Y1 & Y2 & _); auto).
  destruct (C117_rigid _ _ _ i (wf_posed r W) RB RG (ALL i RI)) as (t & (l' & E' & P) & _). rewrite E in E'. injection E' as <-.
  assert (MV : movable j = true) by (unfold movable, is_fixed, is_prismatic in *; apply N.eqb_eq in PR; rewrite PR; reflexivity).
  destruct (jacobian_spec r i l t p W PL E P) as (cols & EJ & CJ). destruct (CJ k j a K MV A) as [C1 C2].
  assert (VJ : exists y, j_value (rj_model j) = Fin y) by (apply regular_value; pose proof (wf_joints r W) as WJ; rewrite Forall_forall in WJ; apply WJ; exact IJ). destruct VJ as [x0 VJ]. exists cols, x0.
  destruct (RG j IJ) as [RJ UJ]. destruct (wf_posed r W) as [_ PO]. destruct (PO j IJ) as (tp & m & M & AP & AC). destruct (C117_motion j UJ) as (_ & X1 & _). assert (Em : m = mkI mid (vscale x0 (rj_axis j))) by (rewrite (X1 x0 PR VJ) in M; injection M as <-; reflexivity).
  destruct (reach_dec (r_joints r) (rj_child j) i _ R ND N0 (ALL i RI)) as [ON|OFF].
  - destruct (pose_on r W PL k j K tp i AP (ex_intro _ m M) ON) as (c & Q1 & Q2 & Q3). set (b := imul tp (rj_transform j)) in *. exists (fun x => imul (imul b (mkI mid (vscale x (rj_axis j)))) c), (mapp (irot b) (rj_axis j)), (imul b m).
    split; [exact EJ|]. split; [exact VJ|]. split; [|split; [|split; [|split; [|split]]]].
    + intros x. apply Q1. destruct (C117_motion (with_value j x) UJ) as (_ & Y1 & _). apply Y1; [exact PR | reflexivity].
    + pose proof (Q2 m M) as (l2 & E2 & P2). rewrite E in E2. injection E2 as <-. rewrite Em in P2. exact P2.
    + assert (RTP : rigid tp). { destruct (C117_rigid _ _ _ (rj_parent j) (wf_posed r W) RB RG) as (t' & A' & RT'); [apply ALL; apply (wf_range r W); exact IJ|]. rewrite (at_place_unique _ _ _ _ AP A'). exact RT'. }
      apply slide_deriv. apply rigid_mul; assumption.
    + exact AC.
    + intros _. rewrite (C1 _ ON AC). unfold column_at. rewrite RV. f_equal. unfold iapp. rewrite Em. cbn [imul irot]. rewrite mmul_1_r. reflexivity.
    + contradiction.
  - exists (fun _ => t), vzero, (imul (imul tp (rj_transform j)) m). split; [exact EJ|]. split; [exact VJ|]. split; [|split; [exact P|]].
    + intros x. apply (pose_off r W k j K); [apply ALL; exact RI | exact OFF | exists l; auto].
    + split; [apply const_vderiv|]. split; [exact AC|]. split; [contradiction|]. intros _. split; [reflexivity | apply C2; exact OFF].
Qed.
Print Assumptions C120_prismatic_partial.
(** A robot of two links, the second on a slide along the third axis; the first is one unit from the origin. *)
Lemma slide_robot : exists r l, wf r /\ Forall plain (r_joints r) /\ rigid (r_base r) /\ zget (r_links r) 1 = Some l /\ at_place (r_links r) 1 (mkI mid (mkV 1 0 0)) /\
  exists j, nth_error (r_joints r) 0 = Some j /\ is_prismatic (rj_model j) = true /\ rj_child j = 1%Z /\ zget (r_active r) 0 = Some 0%Z.
Proof.
  pose (m := mkJ (Fin (-1), Fin 2) (Fin 0) PRISMATIC). pose (J := mkRJ iid (mkV 0 0 1) 0 1 m "j"). pose (base := mkI mid (mkV 1 0 0)). pose (la := mkRL (At base) "a"). pose (lb := mkRL (At base) "b"). pose (links := [la; lb]).
  assert (R : in_range (length links) [J]) by (intros j [<-|[]]; cbn; lia).
  assert (A : acceptable links [J]).
  { split; [repeat constructor; cbn; intuition discriminate|]. split; [repeat constructor; cbn; intuition discriminate|]. split; [repeat (constructor; [exact axis_z|]); constructor|]. split; [reflexivity|].
    intros i I. cbn in I. assert (i = 0 \/ i = 1)%Z as [->| ->] by lia; [constructor|]. apply (reach_next [J] 0%Z J); [left; reflexivity | constructor]. }
  assert (RM : regular m). { split; [exists (Fin (-1), Fin 2), (Fin 0)|split; discriminate]. unfold make_joint, set_value, enforce_limits, is_continuous. cbn. rewrite (proj2 (Rltb_false 2 (-1))), (proj2 (Rltb_false 0 (-1))), (proj2 (Rltb_false 2 0)) by lra. reflexivity. }
  assert (ID : imul (imul base iid) (mkI mid (vscale 0 (mkV 0 0 1))) = base) by (apply iso_eq; unfold base; cbn; [mring | vring]).
  destruct (accepted links [J] R A) as [sk S]. exists (mkR [m] base (iinv base) links [J] sk [0%Z] [1] 1), lb. cbn [r_joints r_base r_links r_active].
  split; [|split; [|split; [|split; [|split]]]].
  - constructor; cbn [r_links r_joints r_skeleton r_num r_active r_weights r_base r_config]; try assumption; try reflexivity.
    + intros [|k] j K; cbn in K; [injection K as <-; left; reflexivity | destruct k; discriminate].
    + constructor; [exact RM | constructor].
    + split; [exists la; split; reflexivity|]. intros j [<-|[]]; exists base, (mkI mid (vscale 0 (mkV 0 0 1))). split; [reflexivity|]. unfold J; cbn [rj_transform rj_parent rj_child]. rewrite ID. split; [exists la | exists lb]; split; reflexivity.
  - constructor; [|constructor]. split; [unfold rigid, rotation, J; cbn [rj_transform irot iid]; split; [mring | unf; ring]|]. split; [unfold unit, J; unf; cbn; ring | reflexivity].
  - unfold rigid, rotation, base. cbn [irot]. split; [mring | unf; ring].
  - reflexivity.
  - exists lb. split; reflexivity.
  - exists J. repeat split.
Qed.
(** For a prismatic joint the column is not how the point moves: for a slide a unit from the origin it is one too long. *)
Theorem C120_prismatic_refuted : exists r i l k j a cols x0 T d, wf r /\ Forall plain (r_joints r) /\ rigid (r_base r) /\ zget (r_links r) i = Some l /\
  nth_error (r_joints r) k = Some j /\ zget (r_active r) (Z.of_nat k) = Some a /\ jacobian r (rl_name l) vzero 1 = Ok cols /\ j_value (rj_model j) = Fin x0 /\
  (forall x, pose (r_base r) (turned (r_joints r) k x) i (T x)) /\ vderiv (fun x => iapp (T x) vzero) x0 d /\ fst (cols (Z.to_nat a)) <> d.
Proof.
  destruct slide_robot as (r & l & W & PL & RB & E & AT & j & K & PR & CH & A).
  destruct (C120_prismatic_partial r 1 l vzero 0 j 0 W PL RB E K PR A) as (cols & x0 & T & d & tc & EJ & VJ & P & _ & D & AC & C & _).
  exists r, 1%Z, l, 0%nat, j, 0%Z, cols, x0, T, d. repeat (split; [assumption|]). rewrite C by (rewrite CH; constructor). cbn [fst]. rewrite CH in AC. rewrite (at_place_unique _ _ _ _ AC AT). cbn [itrans]. intros X. apply (f_equal vx) in X. cbn in X. lra.
Qed.
Print Assumptions C120_prismatic_refuted.
