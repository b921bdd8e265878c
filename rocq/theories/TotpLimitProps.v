(** C80: the speed and acceleration limits along the path are exactly the joint limits (GetMinMaxPathAcceleration,
    GetAccelerationMaxPathVelocity, GetVelocityMaxPathVelocity). *)
From Coq Require Import Reals Lra Psatz.
From Verif Require Import Base MathModel TotpModel TotpVec TotpTrajModel.
Open Scope R_scope.

(** Joint [i] moves along the path with velocity [t i * v] and acceleration [t i * a + c i * v * v] when the path is followed
    with speed [v] and acceleration [a]; [t] and [c] are the tangent and the curvature. *)
Definition joint_acc_ok (n : nat) (t c amax : vec) (v a : R) : Prop := forall i, (i < n)%nat -> Rabs (t i * a + c i * v * v) <= amax i.
Definition moving_acc_ok (n : nat) (t c amax : vec) (v a : R) : Prop := forall i, (i < n)%nat -> t i <> 0 -> Rabs (t i * a + c i * v * v) <= amax i.
Definition joint_vel_ok (n : nat) (t vmax : vec) (v : R) : Prop := forall i, (i < n)%nat -> Rabs (t i * v) <= vmax i.

(** ** Folds *)
Definition le_opt (v : R) (m : option R) : Prop := match m with None => True | Some x => v <= x end.
Lemma above_le v m : above v m = false <-> le_opt v m.
Proof. destruct m as [x|]; cbn; [apply Rltb_false|tauto]. Qed.
Lemma omin_le v m x : le_opt v (omin m x) <-> le_opt v m /\ v <= x.
Proof.
  destruct m as [y|]; cbn; [|tauto]. split.
  - intros H. split; [eapply Rle_trans; [exact H|apply Rmin_l]|eapply Rle_trans; [exact H|apply Rmin_r]].
  - intros [H1 H2]. apply Rmin_glb; assumption.
Qed.
Lemma fold_opt {A} (f : option R -> A -> option R) (P : A -> Prop) v l : forall m,
  (forall m x, In x l -> (le_opt v (f m x) <-> le_opt v m /\ P x)) ->
  (le_opt v (fold_left f l m) <-> le_opt v m /\ forall x, In x l -> P x).
Proof.
  induction l as [|x l IH]; intros m H; cbn [fold_left].
  - split; [intros; split; [assumption|intros ? []]|tauto].
  - rewrite IH by (intros; apply H; right; assumption). rewrite H by (left; reflexivity). split.
    + intros [[H1 H2] H3]. split; [exact H1|]. intros y [<-|Hy]; auto.
    + intros [H1 H2]. split; [split|]; auto. apply H2. left. reflexivity. intros y Hy. apply H2. right. exact Hy.
Qed.
Lemma fold_min {A} (f : R -> A -> R) (P : A -> Prop) v l : forall m,
  (forall m x, In x l -> (v <= f m x <-> v <= m /\ P x)) ->
  (v <= fold_left f l m <-> v <= m /\ forall x, In x l -> P x).
Proof.
  induction l as [|x l IH]; intros m H; cbn [fold_left].
  - split; [intros; split; [assumption|intros ? []]|tauto].
  - rewrite IH by (intros; apply H; right; assumption). rewrite H by (left; reflexivity). split.
    + intros [[H1 H2] H3]. split; [exact H1|]. intros y [<-|Hy]; auto.
    + intros [H1 H2]. split; [split|]; auto. apply H2. left. reflexivity. intros y Hy. apply H2. right. exact Hy.
Qed.
Lemma le_min v m x : v <= Rmin m x <-> v <= m /\ v <= x.
Proof.
  split; [intros H; split; [eapply Rle_trans; [exact H|apply Rmin_l]|eapply Rle_trans; [exact H|apply Rmin_r]]|].
  intros [H1 H2]. apply Rmin_glb; assumption.
Qed.
Lemma le_sqrt v x : 0 <= v -> 0 <= x -> (v <= sqrt x <-> v * v <= x).
Proof.
  intros Hv Hx. pose proof (sqrt_pos x) as P. pose proof (sqrt_sqrt x Hx) as S. split; intros H.
  - rewrite <- S. apply Rmult_le_compat; lra.
  - destruct (Rle_dec v (sqrt x)) as [|N]; [assumption|]. apply Rnot_le_lt in N. nra.
Qed.
(** The accelerations a moving joint allows are an interval. *)
Definition lo (A t w : R) := - (A / Rabs t) - w / t.
Definition hi (A t w : R) := A / Rabs t - w / t.
Lemma interval A t w a : t <> 0 -> (Rabs (t * a + w) <= A <-> lo A t w <= a <= hi A t w).
Proof.
  intros Ht. unfold lo, hi. assert (Pt : 0 < Rabs t) by (apply Rabs_pos_lt, Ht).
  assert (E : Rabs (t * a + w) = Rabs t * Rabs (a + w / t)). { rewrite <- Rabs_mult. f_equal. field. exact Ht. }
  rewrite E. assert (Q : Rabs t * Rabs (a + w / t) <= A <-> Rabs (a + w / t) <= A / Rabs t).
  { split; intros H.
    - apply (Rmult_le_reg_l (Rabs t)); [exact Pt|]. replace (Rabs t * (A / Rabs t)) with A by (field; lra). exact H.
    - apply (Rmult_le_compat_l (Rabs t)) in H; [|lra]. replace (Rabs t * (A / Rabs t)) with A in H by (field; lra). exact H. }
  rewrite Q. split; intros H.
  - pose proof (Rle_abs (a + w / t)) as H1. pose proof (Rle_abs (- (a + w / t))) as H2. rewrite Rabs_Ropp in H2. lra.
  - apply Rabs_le. lra.
Qed.

(** ** The accelerations between the two limits are those that keep every moving joint within its limit *)
Theorem C80_path_acceleration n tg cv amax s v a : - dbl_max <= a <= dbl_max ->
  (min_max_acc n tg cv amax s v false <= a <= min_max_acc n tg cv amax s v true <-> moving_acc_ok n (tg s) (cv s) amax v a).
Proof.
  intros Ha. unfold min_max_acc. cbv zeta. rewrite Rmult_1_l.
  rewrite (fold_min _ (fun i => tg s i <> 0 -> a <= hi (amax i) (tg s i) (cv s i * v * v)) a) by
    (intros m i _; unfold Reqb; destruct (Req_EM_T (tg s i) 0) as [Z|N]; [intuition lra|];
     rewrite le_min; unfold hi; replace (1 * cv s i * v * v) with (cv s i * v * v) by ring; tauto).
  match goal with |- -1 * ?F <= a /\ _ <-> _ => assert (M : -1 * F <= a <-> - a <= F) by lra; rewrite M; clear M end.
  rewrite (fold_min _ (fun i => tg s i <> 0 -> lo (amax i) (tg s i) (cv s i * v * v) <= a) (- a)) by
    (intros m i _; unfold Reqb; destruct (Req_EM_T (tg s i) 0) as [Z|N]; [intuition lra|];
     rewrite le_min; unfold lo; replace (-1 * cv s i * v * v / tg s i) with (- (cv s i * v * v / tg s i)) by (field; exact N); intuition lra).
  unfold moving_acc_ok. split.
  - intros [[_ H1] [_ H2]] i Hi Ht. apply interval; [exact Ht|]. assert (I : In i (seq 0 n)) by (apply in_seq; lia). auto.
  - intros H. split; (split; [lra|]); intros i Hi Ht; apply in_seq in Hi; specialize (H i ltac:(lia) Ht); apply interval in H; tauto.
Qed.
Print Assumptions C80_path_acceleration.

(** ** The speeds up to the velocity limit are those that keep every joint within its limit *)
Theorem C80_path_velocity n tg vmax s v : (forall i, (i < n)%nat -> 0 <= vmax i) -> 0 <= v <= dbl_max ->
  (v <= vel_max n tg vmax s <-> joint_vel_ok n (tg s) vmax v).
Proof.
  intros Hv H. unfold vel_max.
  rewrite (fold_min _ (fun i => tg s i <> 0 -> v <= vmax i / Rabs (tg s i)) v) by
    (intros m i _; unfold Reqb; destruct (Req_EM_T (tg s i) 0) as [Z|N]; [intuition lra|]; rewrite le_min; tauto).
  assert (Q : forall i, tg s i <> 0 -> (v <= vmax i / Rabs (tg s i) <-> Rabs (tg s i * v) <= vmax i)).
  { intros i Hi. assert (P : 0 < Rabs (tg s i)) by (apply Rabs_pos_lt, Hi). rewrite Rabs_mult, (Rabs_pos_eq v) by lra. split; intros E.
    - apply (Rmult_le_compat_l (Rabs (tg s i))) in E; [|lra]. replace (Rabs (tg s i) * (vmax i / Rabs (tg s i))) with (vmax i) in E by (field; lra). exact E.
    - apply (Rmult_le_reg_l (Rabs (tg s i))); [exact P|]. replace (Rabs (tg s i) * (vmax i / Rabs (tg s i))) with (vmax i) by (field; lra). exact E. }
  unfold joint_vel_ok. split.
  - intros [_ E] i Hi. destruct (Req_dec (tg s i) 0) as [Z|N].
    + rewrite Z, Rmult_0_l, Rabs_R0. apply Hv, Hi.
    + apply Q; [exact N|]. apply E; [apply in_seq; lia|exact N].
  - intros E. split; [lra|]. intros i Hi N. apply in_seq in Hi. apply Q; [exact N|]. apply E. lia.
Qed.
Print Assumptions C80_path_velocity.

(** ** The speeds up to the acceleration limit are those at which some acceleration keeps every joint within its limit *)
Lemma largest (f : nat -> R) l : l <> [] -> exists k, In k l /\ forall j, In j l -> f j <= f k.
Proof.
  induction l as [|x l IH]; [contradiction|]. intros _. destruct l as [|y l].
  - exists x. split; [left; reflexivity|]. intros j [<-|[]]. lra.
  - destruct IH as (k & Hk & H); [discriminate|]. destruct (Rle_dec (f x) (f k)) as [L|L].
    + exists k. split; [right; exact Hk|]. intros j [<-|Hj]; auto.
    + exists x. split; [left; reflexivity|]. intros j [<-|Hj]; [lra|]. specialize (H j Hj). lra.
Qed.
Theorem C80_acceleration_limit n tg cv amax s v : (forall i, (i < n)%nat -> 0 <= amax i) -> 0 <= v ->
  (above v (acc_max_vel n tg cv amax s) = false <-> exists a, joint_acc_ok n (tg s) (cv s) amax v a).
Proof.
  intros HA Hv. rewrite above_le. unfold acc_max_vel. cbv zeta. set (t := tg s). set (c := cv s).
  set (pair := fun i j => t i <> 0 -> t j <> 0 -> (c i / t i - c j / t j) * (v * v) <= amax i / Rabs (t i) + amax j / Rabs (t j)).
  assert (NN : forall i, (i < n)%nat -> t i <> 0 -> 0 <= amax i / Rabs (t i)) by (intros i Hi N; apply div_nonneg; [auto|apply Rabs_pos_lt, N]).
  rewrite (fold_opt _ (fun i => (t i = 0 -> Rabs (c i) * (v * v) <= amax i) /\ forall j, In j (seq (S i) (n - S i)) -> pair i j /\ pair j i) v).
  - split.
    + intros [_ H].
      assert (PR : forall i j, (i < n)%nat -> (j < n)%nat -> pair i j).
      { intros i j Hi Hj. destruct (Nat.lt_trichotomy i j) as [L|[->|L]].
        - apply (H i ltac:(apply in_seq; lia)). apply in_seq. lia.
        - intros N _. replace (c j / t j - c j / t j) with 0 by ring. pose proof (NN j Hj N). lra.
        - apply (H j ltac:(apply in_seq; lia)). apply in_seq. lia. }
      set (mv := filter (fun i => if Req_EM_T (t i) 0 then false else true) (seq 0 n)).
      assert (MV : forall i, In i mv <-> (i < n)%nat /\ t i <> 0).
      { intros i. unfold mv. rewrite filter_In, in_seq. destruct (Req_EM_T (t i) 0); intuition (try lia; try discriminate; try lra). }
      assert (ST : forall a i, (i < n)%nat -> t i = 0 -> Rabs (t i * a + c i * v * v) <= amax i).
      { intros a i Hi Z. destruct (H i ltac:(apply in_seq; lia)) as [H1 _]. specialize (H1 Z). rewrite Z, Rmult_0_l, Rplus_0_l, Rmult_assoc, Rabs_mult, (Rabs_pos_eq (v * v)) by nra. exact H1. }
      destruct mv as [|m0 mv'] eqn:Em.
      * exists 0. intros i Hi. destruct (Req_dec (t i) 0) as [Z|N]; [apply ST; assumption|]. exfalso. apply (proj2 (MV i)). split; assumption.
      * destruct (largest (fun i => lo (amax i) (t i) (c i * v * v)) (m0 :: mv')) as (k & Hk & Hmax); [discriminate|].
        apply MV in Hk. destruct Hk as [Hk Nk]. exists (lo (amax k) (t k) (c k * v * v)). intros i Hi.
        destruct (Req_dec (t i) 0) as [Z|N]; [apply ST; assumption|]. apply interval; [exact N|]. split; [apply (Hmax i), MV; auto|].
        specialize (PR i k Hi Hk N Nk). unfold lo, hi.
        assert (E1 : c i * v * v / t i = c i / t i * (v * v)) by (field; exact N). assert (E2 : c k * v * v / t k = c k / t k * (v * v)) by (field; exact Nk).
        rewrite E1, E2. lra.
    + intros (a & H). split; [exact I|]. intros i Hi. apply in_seq in Hi. split.
      * intros Z. specialize (H i ltac:(lia)). fold t c in H. rewrite Z, Rmult_0_l, Rplus_0_l, Rmult_assoc, Rabs_mult, (Rabs_pos_eq (v * v)) in H by nra. exact H.
      * intros j Hj. apply in_seq in Hj.
        assert (PR : forall x y, (x < n)%nat -> (y < n)%nat -> pair x y).
        { intros x y Hx Hy Nx Ny. pose proof (H x Hx) as X. pose proof (H y Hy) as Y. fold t c in X, Y. apply interval in X; [|exact Nx]. apply interval in Y; [|exact Ny].
          unfold lo, hi in X, Y. assert (E1 : c x * v * v / t x = c x / t x * (v * v)) by (field; exact Nx). assert (E2 : c y * v * v / t y = c y / t y * (v * v)) by (field; exact Ny).
          rewrite E1 in X. rewrite E2 in Y. lra. }
        split; apply PR; lia.
  - intros m i Hi. apply in_seq in Hi. unfold Reqb at 1. destruct (Req_EM_T (t i) 0) as [Z|N].
    + assert (VAC : forall j, In j (seq (S i) (n - S i)) -> pair i j /\ pair j i) by (intros j _; split; intros X Y; contradiction).
      unfold Reqb. destruct (Req_EM_T (c i) 0) as [Zc|Nc].
      * rewrite Zc, Rabs_R0, Rmult_0_l. pose proof (HA i ltac:(lia)). intuition.
      * assert (P : 0 < Rabs (c i)) by (apply Rabs_pos_lt, Nc).
        rewrite omin_le, le_sqrt by first [exact Hv | apply div_nonneg; [apply HA; lia|exact P]].
        assert (Q : v * v <= amax i / Rabs (c i) <-> Rabs (c i) * (v * v) <= amax i).
        { split; intros H.
          - apply (Rmult_le_compat_l (Rabs (c i))) in H; [|lra]. replace (Rabs (c i) * (amax i / Rabs (c i))) with (amax i) in H by (field; lra). exact H.
          - apply (Rmult_le_reg_l (Rabs (c i))); [exact P|]. replace (Rabs (c i) * (amax i / Rabs (c i))) with (amax i) by (field; lra). exact H. }
        rewrite Q. intuition.
    + rewrite (fold_opt _ (fun j => pair i j /\ pair j i) v).
      * intuition.
      * intros m' j Hj. apply in_seq in Hj. unfold Reqb at 1. destruct (Req_EM_T (t j) 0) as [Zj|Nj].
        -- assert (pair i j /\ pair j i) by (split; intros X Y; contradiction). tauto.
        -- pose proof (NN i ltac:(lia) N) as NI. pose proof (NN j ltac:(lia) Nj) as NJ. unfold Reqb.
           set (d := c i / t i - c j / t j) in *. set (B := amax i / Rabs (t i) + amax j / Rabs (t j)) in *.
           assert (EQ : pair i j /\ pair j i <-> Rabs d * (v * v) <= B).
           { unfold pair. replace (c j / t j - c i / t i) with (- d) by (unfold d; ring).
             replace (amax j / Rabs (t j) + amax i / Rabs (t i)) with B by (unfold B; ring). fold d B. split.
             - intros [P1 P2]. specialize (P1 N Nj). specialize (P2 Nj N). unfold Rabs. destruct (Rcase_abs d); lra.
             - intros P. pose proof (Rle_abs d) as A1. pose proof (Rle_abs (- d)) as A2. rewrite Rabs_Ropp in A2. assert (0 <= v * v) by nra. split; intros _ _; nra. }
           rewrite EQ. assert (HB : 0 <= B) by (unfold B; lra). destruct (Req_EM_T d 0) as [Zd|Nd].
           ++ rewrite Zd, Rabs_R0, Rmult_0_l. tauto.
           ++ assert (P : 0 < Rabs d) by (apply Rabs_pos_lt, Nd). rewrite omin_le, le_sqrt by first [exact Hv | apply div_nonneg; [exact HB|exact P]].
              assert (Q : v * v <= B / Rabs d <-> Rabs d * (v * v) <= B).
              { split; intros H.
                - apply (Rmult_le_compat_l (Rabs d)) in H; [|lra]. replace (Rabs d * (B / Rabs d)) with B in H by (field; lra). exact H.
                - apply (Rmult_le_reg_l (Rabs d)); [exact P|]. replace (Rabs d * (B / Rabs d)) with B by (field; lra). exact H. }
              rewrite Q. tauto.
Qed.
Print Assumptions C80_acceleration_limit.

(** Both joints of a quarter turn: at 45 degrees on a unit circle with limits 1 the speed limit is finite and positive. *)
Example limit_case : let t := fun i => match i with O => -1 | _ => 1 end in let c := fun _ => -1 in
  above 1 (acc_max_vel 2 (fun _ => t) (fun _ => c) (fun _ => 1) 0) = false /\
  above 2 (acc_max_vel 2 (fun _ => t) (fun _ => c) (fun _ => 1) 0) = true.
Proof.
  cbv zeta. split.
  - apply C80_acceleration_limit; [intros; lra|lra|]. exists 0. intros i Hi. destruct i; cbn beta iota; rewrite Rmult_0_r, Rplus_0_l; unfold Rabs; destruct (Rcase_abs _); lra.
  - match goal with |- ?b = true => destruct b eqn:E end; [reflexivity|]. exfalso. apply C80_acceleration_limit in E; [|intros; lra|lra].
    destruct E as (a & H). pose proof (H 0%nat ltac:(lia)) as H0. pose proof (H 1%nat ltac:(lia)) as H1. cbn beta iota in H0, H1.
    pose proof (Rle_abs (- (-1 * a + -1 * 2 * 2))) as A0. rewrite Rabs_Ropp in A0. pose proof (Rle_abs (- (1 * a + -1 * 2 * 2))) as A1. rewrite Rabs_Ropp in A1. lra.
Qed.
