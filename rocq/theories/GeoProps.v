(** C96, C97, C98: twists, their exponential, and rotation of vectors. *)
From Coq Require Import Reals Lra Nsatz Bool.
From Coquelicot Require Import Coquelicot.
From Verif Require Import Base MathModel TotpVec GeoModel GeoAlg.
Open Scope R_scope.

(** * C96: skew symmetric matrices and twists *)
(** Skew gives the matrix of the cross product; Unskew undoes it, and Skew undoes Unskew exactly on the skew symmetric matrices; TwistUnhat
    undoes TwistHat, whose matrix maps (p, 1) to the velocity of the point p. *)
Definition mneg (m : M3) : M3 := mscale m (-1).
Theorem C96_skew :
  (forall a b, mapp (skew a) b = vcross a b) /\ (forall a, mtrans (skew a) = mneg (skew a)) /\ (forall a, unskew (skew a) = a) /\
  (forall m, skew (unskew m) = m <-> mtrans m = mneg m).
Proof.
  split; [exact skew_cross|]. split; [intros a; unfold mneg; mring|]. split; [intros a; unfold unskew; apply V3_eq; unf; field|].
  intros m. unfold unskew, mneg, skew, mtrans, mscale. destruct m as [a00 a01 a02 a10 a11 a12 a20 a21 a22]. unf. split.
  - intros E. injection E as E0 E1 E2 E3 E4 E5 E6 E7 E8. apply M3_eq; cbn; lra.
  - intros E. injection E as E0 E1 E2 E3 E4 E5 E6 E7 E8. apply M3_eq; cbn; lra.
Qed.
Print Assumptions C96_skew.
(** The velocity of point p under a 4 x 4 matrix: the upper rows applied to (p, 1). *)
Definition velocity (m : M4) (p : V3) : V3 := vadd (mapp (b33 m) p) (b31 m).
Theorem C96_twist :
  (forall t, twist_unhat (twist_hat t) = t) /\ (forall t p, velocity (twist_hat t) p = vadd (tv t) (vcross (tw t) p)) /\
  (forall t, b13 (twist_hat t) = vzero /\ b11 (twist_hat t) = 0).
Proof.
  destruct C96_skew as (S1 & _ & S3 & _). split; [|split].
  - intros [v w]. unfold twist_unhat, twist_hat. cbn. rewrite S3. reflexivity.
  - intros t p. unfold velocity, twist_hat. cbn. rewrite S1. apply vadd_comm.
  - split; reflexivity.
Qed.
Print Assumptions C96_twist.
(** TransformTwist is the change of frame: the velocity field of the transformed twist at the image of a point is the image of the velocity at
    the point; so its matrix is the conjugate, and transforming composes and inverts with the transforms. *)
Theorem C96_adjoint a : rigid a ->
  (forall t p, velocity (twist_hat (transform_twist a t)) (iapp a p) = mapp (irot a) (velocity (twist_hat t) p)) /\
  (forall b t, rigid b -> transform_twist (imul a b) t = transform_twist a (transform_twist b t)) /\
  (forall t, transform_twist (iinv a) (transform_twist a t) = t) /\ (forall t, transform_twist iid t = t).
Proof.
  intros H.
  assert (F : forall b t, transform_twist b t = mkT (vadd (mapp (irot b) (tv t)) (vcross (itrans b) (mapp (irot b) (tw t)))) (mapp (irot b) (tw t))).
  { intros b t. unfold transform_twist, adjoint. f_equal; [f_equal; rewrite mapp_mmul; apply skew_cross | vring]. }
  assert (C : forall b t, rigid b -> transform_twist (imul a b) t = transform_twist a (transform_twist b t)).
  { intros b t Hb. rewrite !F. cbn [irot itrans imul tv tw]. rewrite !mapp_mmul, mapp_add, rot_cross by exact H. f_equal.
    generalize (mapp (irot a) (mapp (irot b) (tv t))) (mapp (irot a) (itrans b)) (mapp (irot a) (mapp (irot b) (tw t))). intros x y z. vring. }
  assert (U : forall t, transform_twist iid t = t).
  { intros [v w]. rewrite F. cbn. f_equal; [|apply mapp_1]. rewrite !mapp_1. vring. }
  split; [|split; [exact C | split; [|exact U]]].
  - intros t p. unfold velocity. rewrite F. cbn [twist_hat b33 b31 tv tw]. rewrite !skew_cross. unfold iapp. rewrite mapp_add, rot_cross by exact H.
    generalize (mapp (irot a) p) (mapp (irot a) (tv t)) (mapp (irot a) (tw t)). intros x y z. vring.
  - intros t. assert (E : forall b c t, rigid b -> rigid c -> transform_twist (imul b c) t = transform_twist b (transform_twist c t)).
    { clear - F. intros b c t Hb Hc. rewrite !F. cbn [irot itrans imul tv tw]. rewrite !mapp_mmul, mapp_add, rot_cross by exact Hb. f_equal.
      generalize (mapp (irot b) (mapp (irot c) (tv t))) (mapp (irot b) (itrans c)) (mapp (irot b) (mapp (irot c) (tw t))). intros x y z. vring. }
    rewrite <- E; [|apply rigid_inv; exact H | exact H]. rewrite iinv_l by exact H. apply U.
Qed.
Print Assumptions C96_adjoint.
(** Cases: a quarter turn about z moved along x. *)
Example adjoint_case : rigid (mkI (mkM 0 (-1) 0 1 0 0 0 0 1) (mkV 1 0 0)) /\
  transform_twist (mkI (mkM 0 (-1) 0 1 0 0 0 0 1) (mkV 1 0 0)) (mkT (mkV 0 0 0) (mkV 0 0 1)) = mkT (mkV 0 (-1) 0) (mkV 0 0 1).
Proof.
  split; [split; [apply M3_eq; unf; lra | unf; lra]|]. unfold transform_twist, adjoint. f_equal; apply V3_eq; unf; lra.
Qed.
Example not_skew : skew (unskew mid) <> mid.
Proof. intros E. apply (proj1 (proj2 (proj2 (proj2 C96_skew)) mid)) in E. unfold mneg, mtrans, mscale in E. unf. injection E as E1. lra. Qed.

(** * C97: the exponential of a twist *)
Definition unit (w : V3) : Prop := vdot w w = 1.
(** Rodrigues' formula for a unit axis. *)
Definition rodrigues (w : V3) (t : R) : M3 := madd (madd mid (mscale (skew w) (sin t))) (mscale (mmul (skew w) (skew w)) (1 - cos t)).
Definition screw (v w : V3) (t : R) : iso :=
  mkI (rodrigues w t) (vadd (mapp (msub mid (rodrigues w t)) (vcross w v)) (mapp (mscale (outer w w) t) v)).
Lemma unit_norm w : 0 < vnorm w -> unit (vdivs w (vnorm w)).
Proof.
  intros P. unfold unit. assert (E : vdot (vdivs w (vnorm w)) (vdivs w (vnorm w)) = vdot w w / (vnorm w * vnorm w)) by (unf; field; lra).
  rewrite E, vnorm_sq. apply Rinv_r. rewrite <- vnorm_sq. nra.
Qed.
Lemma exp_screw_eq dbg v w dt : 0 < vnorm w -> exp_screw dbg v w (vnorm w) dt = Ok (screw (vdivs v (vnorm w)) (vdivs w (vnorm w)) (dt * vnorm w)).
Proof.
  intros P. pose proof (unit_norm w P) as U. unfold exp_screw, exp_matrix. destruct C96_skew as (_ & _ & S3 & _). rewrite S3.
  assert (N : vnorm (vdivs w (vnorm w)) = 1) by (unfold vnorm at 1; rewrite U; apply sqrt_1).
  rewrite N. replace (1 - 1) with 0 by ring. rewrite Rabs_R0.
  replace (Rltb 0 (1 / 10 ^ 10)) with true. { unfold cassert. rewrite andb_false_r. reflexivity. }
  symmetry. apply Rltb_true. apply Rdiv_lt_0_compat; [lra | apply pow_lt; lra].
Qed.
Lemma trig t : sin t * sin t + cos t * cos t = 1.
Proof. pose proof (sin2_cos2 t) as H. unfold Rsqr in H. exact H. Qed.
(** Combinations of the identity, K and K K. *)
Definition lin (k : M3) (a b : R) : M3 := madd (madd mid (mscale k a)) (mscale (mmul k k) b).
Lemma lin_mul k a b a' b' : mmul k (mmul k k) = mscale k (-1) ->
  mmul (lin k a b) (lin k a' b') = lin k (a + a' - a * b' - a' * b) (b + b' + a * a' - b * b').
Proof.
  intros K3. unfold lin. rewrite !mmul_add_l, !mmul_add_r, !mmul_scale_l, !mmul_scale_r, !mmul_1_l, !mmul_1_r, ?mmul_assoc, ?K3, ?mmul_scale_r.
  clear K3. generalize (mmul k k). intros q. mring.
Qed.
Lemma lin_K k a b : mmul k (mmul k k) = mscale k (-1) -> mmul (lin k a b) k = madd (mscale k (1 - b)) (mscale (mmul k k) a).
Proof.
  intros K3. unfold lin. rewrite !mmul_add_l, !mmul_scale_l, !mmul_1_l, ?mmul_assoc, ?K3. clear K3. generalize (mmul k k). intros q. mring.
Qed.
Lemma unit_K3 w : unit w -> mmul (skew w) (mmul (skew w) (skew w)) = mscale (skew w) (-1).
Proof.
  intros U. assert (E : mmul (skew w) (mmul (skew w) (skew w)) = mscale (skew w) (- vdot w w)) by mring. rewrite E, U. reflexivity.
Qed.
Lemma rod_axis w t : mapp (rodrigues w t) w = w.
Proof. unfold rodrigues. vring. Qed.
Lemma rod_rotation w t : unit w -> rotation (rodrigues w t).
Proof.
  intros U. pose proof (trig t) as T. split.
  - assert (E : mtrans (rodrigues w t) = lin (skew w) (- sin t) (1 - cos t)) by (unfold rodrigues, lin; mring). rewrite E. change (rodrigues w t) with (lin (skew w) (sin t) (1 - cos t)).
    rewrite lin_mul by (apply unit_K3; exact U).
    replace (sin t + - sin t - sin t * (1 - cos t) - - sin t * (1 - cos t)) with 0 by ring.
    replace (1 - cos t + (1 - cos t) + sin t * - sin t - (1 - cos t) * (1 - cos t)) with 0 by (revert T; generalize (sin t) (cos t); intros; nra). unfold lin. mring.
  - assert (E : mdet (rodrigues w t) = (1 - (1 - cos t) * vdot w w) * (1 - (1 - cos t) * vdot w w) + sin t * sin t * vdot w w) by (unfold rodrigues; unf; ring).
    rewrite E, U. revert T. generalize (sin t) (cos t). intros; nra.
Qed.
Lemma rod_add w s t : unit w -> mmul (rodrigues w s) (rodrigues w t) = rodrigues w (s + t).
Proof.
  intros U. change (rodrigues w s) with (lin (skew w) (sin s) (1 - cos s)). change (rodrigues w t) with (lin (skew w) (sin t) (1 - cos t)).
  rewrite lin_mul by (apply unit_K3; exact U). change (rodrigues w (s + t)) with (lin (skew w) (sin (s + t)) (1 - cos (s + t))). rewrite sin_plus, cos_plus. f_equal; ring.
Qed.
Lemma rod_0 w : rodrigues w 0 = mid.
Proof. unfold rodrigues. rewrite sin_0, cos_0. mring. Qed.
Lemma screw_rigid v w t : unit w -> rigid (screw v w t). Proof. apply rod_rotation. Qed.
Lemma screw_0 v w : screw v w 0 = iid.
Proof. unfold screw. rewrite rod_0. apply iso_eq; cbn; [reflexivity|]. vring. Qed.
Lemma screw_add v w s t : unit w -> imul (screw v w s) (screw v w t) = screw v w (s + t).
Proof.
  intros U. apply iso_eq; cbn [imul screw irot itrans]; [apply rod_add; exact U|]. rewrite <- (rod_add w s t U). rewrite mapp_add.
  assert (A : mapp (rodrigues w s) (mapp (mscale (outer w w) t) v) = mapp (mscale (outer w w) t) v).
  { assert (E : mapp (mscale (outer w w) t) v = vscale (t * vdot w v) w) by vring. rewrite E, mapp_scale, rod_axis. reflexivity. }
  rewrite A. generalize (rodrigues w s) (rodrigues w t) (vcross w v). intros p q x. apply V3_eq; unf; ring.
Qed.
(** Derivatives, entry by entry. *)
Definition mderiv (f : R -> M3) (t : R) (d : M3) : Prop :=
  is_derive (fun s => m00 (f s)) t (m00 d) /\ is_derive (fun s => m01 (f s)) t (m01 d) /\ is_derive (fun s => m02 (f s)) t (m02 d) /\
  is_derive (fun s => m10 (f s)) t (m10 d) /\ is_derive (fun s => m11 (f s)) t (m11 d) /\ is_derive (fun s => m12 (f s)) t (m12 d) /\
  is_derive (fun s => m20 (f s)) t (m20 d) /\ is_derive (fun s => m21 (f s)) t (m21 d) /\ is_derive (fun s => m22 (f s)) t (m22 d).
Definition vderiv (f : R -> V3) (t : R) (d : V3) : Prop :=
  is_derive (fun s => vx (f s)) t (vx d) /\ is_derive (fun s => vy (f s)) t (vy d) /\ is_derive (fun s => vz (f s)) t (vz d).
Lemma rod_deriv w n t : unit w -> mderiv (fun s => rodrigues w (s * n)) t (mscale (mmul (rodrigues w (t * n)) (skew w)) n).
Proof.
  intros U. change (rodrigues w (t * n)) with (lin (skew w) (sin (t * n)) (1 - cos (t * n))). rewrite lin_K by (apply unit_K3; exact U).
  unfold mderiv, rodrigues. generalize (mmul (skew w) (skew w)) (skew w). intros q p. unf.
  do 8 (split; [auto_derive; [exact I | ring]|]). auto_derive; [exact I | ring].
Qed.
Lemma screw_deriv v w n t : unit w -> n <> 0 ->
  vderiv (fun s => itrans (screw (vdivs v n) w (s * n))) t (mapp (rodrigues w (t * n)) v).
Proof.
  intros U N.
  assert (L : vdivs v n = vsub (vscale (vdot w (vdivs v n)) w) (mapp (skew w) (vcross w (vdivs v n)))).
  { generalize (vdivs v n). intros u. assert (E : vsub (vscale (vdot w u) w) (mapp (skew w) (vcross w u)) = vscale (vdot w w) u) by vring. rewrite E, U. vring. }
  assert (D : mapp (rodrigues w (t * n)) v = vscale n (vsub (vscale (vdot w (vdivs v n)) w) (mapp (mmul (rodrigues w (t * n)) (skew w)) (vcross w (vdivs v n))))).
  { assert (V : v = vscale n (vdivs v n)) by (apply V3_eq; unf; field; exact N). rewrite V at 1. rewrite mapp_scale. f_equal. rewrite L at 1.
    assert (E : forall m x y, mapp m (vsub x y) = vsub (mapp m x) (mapp m y)) by (intros; vring). rewrite E, mapp_scale, rod_axis, mapp_mmul. reflexivity. }
  rewrite D. clear L D. pose proof (rod_deriv w n t U) as RD. cbn [screw itrans].
  revert RD. generalize (vcross w (vdivs v n)) (vdivs v n) (mmul (rodrigues w (t * n)) (skew w)). intros c u m RD.
  destruct RD as (D0 & D1 & D2 & D3 & D4 & D5 & D6 & D7 & D8). unf.
  assert (G : forall (f0 f1 f2 : R -> R) d0 d1 d2 a b k0 k1 k2 x y z j, is_derive f0 t d0 -> is_derive f1 t d1 -> is_derive f2 t d2 ->
    is_derive (fun s => (k0 - f0 s) * x + (k1 - f1 s) * y + (k2 - f2 s) * z + (a * (s * n) * vx u + b * (s * n) * vy u + j * (s * n) * vz u)) t
      (- d0 * x - d1 * y - d2 * z + n * (a * vx u + b * vy u + j * vz u))).
  { intros f0 f1 f2 d0 d1 d2 a b k0 k1 k2 x y z j F0 F1 F2. auto_derive; [repeat split; eexists; eassumption|].
    replace (Derive (fun x : R => f0 x) t) with d0 by (symmetry; apply is_derive_unique; exact F0).
    replace (Derive (fun x : R => f1 x) t) with d1 by (symmetry; apply is_derive_unique; exact F1).
    replace (Derive (fun x : R => f2 x) t) with d2 by (symmetry; apply is_derive_unique; exact F2). ring. }
  split; [|split]; (evar_last; [apply G; eassumption | match goal with |- @eq _ ?p ?q => change (@eq R p q) end; unf; ring]).
Qed.
(** ** ExpTwist *)
(** The cases where ExpTwist is not the exponential: a rotational velocity that is not zero but shorter than 1e-100, with a translational
    velocity that is not so short. *)
Definition resolved (t : twist) : Prop := tw t = vzero \/ 1 / 10 ^ 100 <= vnorm (tw t) \/ vnorm (tv t) < 1 / 10 ^ 100.
Lemma tiny_pos : 0 < 1 / 10 ^ 100. Proof. apply Rdiv_lt_0_compat; [lra | apply pow_lt; lra]. Qed.
Lemma exp_cases dbg t dt : resolved t ->
  (tw t = vzero /\ exp_twist dbg t dt = Ok (mkI mid (vscale dt (tv t)))) \/
  (0 < vnorm (tw t) /\ exp_twist dbg t dt = Ok (screw (vdivs (tv t) (vnorm (tw t))) (vdivs (tw t) (vnorm (tw t))) (dt * vnorm (tw t)))).
Proof.
  intros H. pose proof tiny_pos as T. unfold exp_twist. destruct (Req_dec (vnorm (tw t)) 0) as [E|N].
  - left. split; [apply vnorm_zero; exact E|]. rewrite E. replace (Rleb (1 / 10 ^ 100) 0) with false by (symmetry; apply Rleb_false; exact T).
    replace (Reqb 0 0) with true by (symmetry; apply Reqb_true; reflexivity). rewrite orb_true_r. reflexivity.
  - right. assert (P : 0 < vnorm (tw t)) by (pose proof (vnorm_nonneg (tw t)); lra). split; [exact P|]. rewrite exp_screw_eq by exact P.
    destruct (Rleb (1 / 10 ^ 100) (vnorm (tw t))) eqn:L; [reflexivity|]. apply Rleb_false in L.
    destruct H as [H|[H|H]]; [apply vnorm_zero in H; contradiction | lra|].
    replace (Rleb (1 / 10 ^ 100) (vnorm (tv t))) with false by (symmetry; apply Rleb_false; exact H).
    replace (Reqb (vnorm (tw t)) 0) with false; [reflexivity|]. symmetry. apply Reqb_false. exact N.
Qed.
(** ExpTwist(twist, t), as a function of t, is a motion of rigid transforms that starts at the identity, composes as the times add up, and whose
    velocity is the twist: its derivative at every time is the transform times the matrix of the twist.  The assertion in ExpMatrixExact
    holds. *)
Theorem C97_exponential_partial dbg t : resolved t ->
  exists f : R -> iso, (forall dt, exp_twist dbg t dt = Ok (f dt)) /\ f 0 = iid /\ (forall dt, rigid (f dt)) /\
  (forall s dt, imul (f s) (f dt) = f (s + dt)) /\
  forall dt, mderiv (fun s => irot (f s)) dt (mmul (irot (f dt)) (skew (tw t))) /\ vderiv (fun s => itrans (f s)) dt (mapp (irot (f dt)) (tv t)).
Proof.
  intros H. destruct (exp_cases dbg t 0 H) as [[Z _]|[P _]].
  - exists (fun dt => mkI mid (vscale dt (tv t))). split; [|split; [|split; [|split]]].
    + intros dt. destruct (exp_cases dbg t dt H) as [[_ E]|[P _]]; [exact E|]. exfalso. apply vnorm_zero in Z. lra.
    + apply iso_eq; cbn; [reflexivity|]. vring.
    + intros dt. split; cbn; [mring | unf; ring].
    + intros s dt. apply iso_eq; cbn; [apply mmul_1_l|]. vring.
    + intros dt. rewrite Z. cbn [irot itrans]. split.
      * unfold mderiv; unf. do 8 (split; [auto_derive; [exact I | ring]|]). auto_derive; [exact I | ring].
      * unfold vderiv; unf. do 2 (split; [auto_derive; [exact I | ring]|]). auto_derive; [exact I | ring].
  - pose proof (unit_norm _ P) as U. exists (fun dt => screw (vdivs (tv t) (vnorm (tw t))) (vdivs (tw t) (vnorm (tw t))) (dt * vnorm (tw t))).
    split; [|split; [|split; [|split]]].
    + intros dt. destruct (exp_cases dbg t dt H) as [[Z _]|[_ E]]; [|exact E]. exfalso. apply vnorm_zero in Z. lra.
    + rewrite Rmult_0_l. apply screw_0.
    + intros dt. apply screw_rigid. exact U.
    + intros s dt. rewrite screw_add by exact U. f_equal. ring.
    + intros dt. split.
      * pose proof (rod_deriv _ (vnorm (tw t)) dt U) as D. cbn [screw irot].
        assert (E : mscale (mmul (rodrigues (vdivs (tw t) (vnorm (tw t))) (dt * vnorm (tw t))) (skew (vdivs (tw t) (vnorm (tw t))))) (vnorm (tw t)) = mmul (rodrigues (vdivs (tw t) (vnorm (tw t))) (dt * vnorm (tw t))) (skew (tw t))).
        { rewrite <- mmul_scale_r. f_equal. apply M3_eq; unf; field; lra. }
        rewrite E in D. exact D.
      * apply screw_deriv; [exact U | lra].
Qed.
Print Assumptions C97_exponential_partial.
(** Moving the frame: the exponential of the transformed twist is the conjugate of the exponential. *)
Theorem C97_conjugate dbg a t dt x : rigid a -> exp_twist dbg t dt = Ok x -> resolved t -> resolved (transform_twist a t) ->
  exp_twist dbg (transform_twist a t) dt = Ok (imul (imul a x) (iinv a)).
Proof.
  intros Ra E H H'.
  assert (F : transform_twist a t = mkT (vadd (mapp (irot a) (tv t)) (vcross (itrans a) (mapp (irot a) (tw t)))) (mapp (irot a) (tw t))).
  { unfold transform_twist, adjoint. f_equal; [f_equal; rewrite mapp_mmul; apply skew_cross | vring]. }
  assert (N : vnorm (tw (transform_twist a t)) = vnorm (tw t)) by (rewrite F; cbn [tw]; apply rot_norm; exact Ra).
  destruct (exp_cases dbg t dt H) as [[Z E1]|[P E1]]; destruct (exp_cases dbg _ dt H') as [[Z' E2]|[P' E2]].
  - rewrite E2. rewrite E1 in E. injection E as <-. f_equal. rewrite F, Z. cbn [tv]. destruct Ra as [O D]. apply iso_eq; cbn [imul iinv irot itrans].
    + rewrite mmul_1_r. symmetry. exact O.
    + assert (Q : mapp (mscale (mtrans (irot a)) (-1)) (itrans a) = mapp (mtrans (irot a)) (vscale (-1) (itrans a))) by vring.
      rewrite mmul_1_r, Q, <- mapp_mmul, O, mapp_1, mapp_scale. vring.
  - exfalso. apply vnorm_zero in Z. lra.
  - exfalso. apply vnorm_zero in Z'. lra.
  - rewrite E2, N. rewrite E1 in E. injection E as <-. f_equal. rewrite F. cbn [tv tw]. set (n := vnorm (tw t)) in *.
    pose proof (unit_norm _ P) as U. fold n in U. set (w := vdivs (tw t) n) in *. set (v := vdivs (tv t) n).
    assert (W : vdivs (mapp (irot a) (tw t)) n = mapp (irot a) w) by (unfold w; apply V3_eq; unf; field; lra).
    assert (V : vdivs (vadd (mapp (irot a) (tv t)) (vcross (itrans a) (mapp (irot a) (tw t)))) n = vadd (mapp (irot a) v) (vcross (itrans a) (mapp (irot a) w))).
    { unfold v, w. apply V3_eq; unf; field; lra. }
    rewrite W, V. set (st := dt * n). set (r := irot a) in *. set (p := itrans a).
    assert (Ra' : rotation r) by exact Ra. pose proof (proj1 Ra') as O.
    assert (RR : rodrigues (mapp r w) st = mmul (mmul r (rodrigues w st)) (mtrans r)).
    { unfold rodrigues. rewrite <- (rot_skew r w Ra'). rewrite !mmul_add_r, !mmul_add_l, !mmul_scale_r, !mmul_scale_l, mmul_1_r, O.
      f_equal; [f_equal; f_equal; rewrite mmul_assoc; reflexivity|]. f_equal.
      rewrite !mmul_assoc, <- (mmul_assoc (mtrans r)), (rot_left r Ra'), mmul_1_l. reflexivity. }
    apply iso_eq; cbn [imul iinv irot itrans screw]; [exact RR|].
    rewrite RR. set (m := rodrigues w st) in *.
    assert (A1 : mapp (mscale (outer (mapp r w) (mapp r w)) st) (vadd (mapp r v) (vcross p (mapp r w))) = mapp r (mapp (mscale (outer w w) st) v)).
    { assert (G : forall y z, mapp (mscale (outer y y) st) z = vscale (st * vdot y z) y) by (intros; vring). rewrite !G, mapp_scale. f_equal.
      assert (Q : forall x y z, vdot x (vadd y (vcross z x)) = vdot x y) by (intros; unf; ring). rewrite Q, rot_dot by exact Ra'. reflexivity. }
    rewrite A1.
    assert (A2 : mapp (msub mid (mmul (mmul r m) (mtrans r))) (vcross (mapp r w) (vadd (mapp r v) (vcross p (mapp r w)))) =
                 vadd (mapp r (mapp (msub mid m) (vcross w v))) (vsub p (mapp r (mapp m (mapp (mtrans r) p))))).
    { assert (Q : vcross (mapp r w) (vadd (mapp r v) (vcross p (mapp r w))) = vadd (mapp r (vcross w v)) (vsub p (vscale (vdot (mapp r w) p) (mapp r w)))).
      { rewrite rot_cross by exact Ra'. assert (U' : vdot (mapp r w) (mapp r w) = 1) by (rewrite rot_dot; assumption). revert U'. generalize (mapp r w) (mapp r v). intros y z U'.
        assert (Q : vcross y (vadd z (vcross p y)) = vadd (vcross y z) (vsub (vscale (vdot y y) p) (vscale (vdot y p) y))) by vring. rewrite Q, U'. vring. }
      rewrite Q. assert (B : forall y, mapp (msub mid (mmul (mmul r m) (mtrans r))) y = vsub y (mapp r (mapp m (mapp (mtrans r) y)))).
      { intros y. rewrite <- !mapp_mmul, mmul_assoc. generalize (mmul r (mmul m (mtrans r))). intros k. vring. }
      rewrite B. assert (B2 : forall y z, vadd y (vsub z (vscale (vdot (mapp r w) z) (mapp r w))) = vadd y (vadd z (vscale (- vdot (mapp r w) z) (mapp r w)))) by (intros; vring).
      rewrite B2. rewrite !(mapp_add (mtrans r)), !(mapp_scale (mtrans r)), <- !(mapp_mmul (mtrans r) r), (rot_left r Ra'), !mapp_1, !mapp_add, !mapp_scale.
      assert (Ax : mapp m w = w) by apply rod_axis. rewrite Ax. 
      assert (B3 : mapp (msub mid m) (vcross w v) = vadd (vcross w v) (vscale (-1) (mapp m (vcross w v)))) by (generalize (vcross w v); intros; vring).
      rewrite B3, mapp_add, mapp_scale. generalize (mapp r (vcross w v)) (mapp r (mapp m (vcross w v))) (mapp r (mapp m (mapp (mtrans r) p))) (vdot (mapp r w) p) (mapp r w). intros. vring. }
    rewrite A2. fold r p. rewrite (mapp_add r).
    assert (A3 : mapp (mmul r m) (mapp (mscale (mtrans r) (-1)) p) = vscale (-1) (mapp r (mapp m (mapp (mtrans r) p)))).
    { assert (Q : mapp (mscale (mtrans r) (-1)) p = vscale (-1) (mapp (mtrans r) p)) by vring. rewrite Q, mapp_scale, mapp_mmul. reflexivity. }
    fold r p. rewrite A3. generalize (mapp r (mapp (msub mid m) (vcross w v))) (mapp r (mapp m (mapp (mtrans r) p))) (mapp r (mapp (mscale (outer w w) st) v)). intros. vring.
Qed.
Print Assumptions C97_conjugate.
(** The matrices of four rows: that of a transform moves points, that of a twist gives the velocity of the points it moves. *)
Definition on_point (m : M4) (p : V3) (w : R) : V3 * R := (vadd (mapp (b33 m) p) (vscale w (b31 m)), vdot (b13 m) p + b11 m * w).
Theorem C97_matrices a t p : on_point (to_matrix a) p 1 = (iapp a p, 1) /\ on_point (twist_hat t) p 1 = (vadd (vcross (tw t) p) (tv t), 0).
Proof.
  unfold on_point, to_matrix, twist_hat. cbn [b33 b31 b13 b11]. split; f_equal; try (unf; ring); unfold iapp; apply V3_eq; unf; ring.
Qed.
Print Assumptions C97_matrices.
(** TwistBetweenTransforms: with a logarithm that inverts the exponential, following the twist for one unit of time from [start] reaches
    [stop]. *)
Definition log_ok (log : M4 -> M4) (x : iso) : Prop := exists t, log (to_matrix x) = twist_hat t /\ forall dbg, exp_twist dbg t 1 = Ok x.
Theorem C97_twist_between dbg log start stop : rigid start -> log_ok log (imul (iinv start) stop) ->
  exists x, exp_twist dbg (twist_between log start stop) 1 = Ok x /\ imul start x = stop.
Proof.
  intros H (t & L & E). exists (imul (iinv start) stop). split.
  - unfold twist_between. rewrite L, (proj1 C96_twist). apply E.
  - rewrite <- imul_assoc, iinv_r, imul_1_l by exact H. reflexivity.
Qed.
Print Assumptions C97_twist_between.
(** A rotational velocity below 1e-100 is dropped, however long the time. *)
Theorem C97_tiny_rotation_refuted :
  exists t f, (forall dt, exp_twist true t dt = Ok (f dt)) /\ ~ mderiv (fun s => irot (f s)) 0 (mmul (irot (f 0)) (skew (tw t))).
Proof.
  set (e := 1 / 10 ^ 101). assert (P : 0 < e) by (apply Rdiv_lt_0_compat; [lra | apply pow_lt; lra]).
  assert (L : e < 1 / 10 ^ 100).
  { unfold e. assert (0 < 10 ^ 100) by (apply pow_lt; lra). change (10 ^ 101) with (10 * 10 ^ 100). generalize dependent (10 ^ 100). intros x Hx.
    apply Rmult_lt_reg_r with (10 * x); [lra|]. replace (1 / (10 * x) * (10 * x)) with 1 by (field; lra). replace (1 / x * (10 * x)) with 10 by (field; lra). lra. }
  exists (mkT (mkV 1 0 0) (mkV 0 0 e)), (fun dt => mkI mid (vscale dt (mkV 1 0 0))). split.
  - intros dt. unfold exp_twist. cbn [tv tw].
    assert (N1 : vnorm (mkV 0 0 e) = e). { unfold vnorm. replace (vdot (mkV 0 0 e) (mkV 0 0 e)) with (e * e) by (unf; ring). apply sqrt_square. lra. }
    assert (N2 : vnorm (mkV 1 0 0) = 1). { unfold vnorm. replace (vdot (mkV 1 0 0) (mkV 1 0 0)) with 1 by (unf; ring). apply sqrt_1. }
    rewrite N1, N2. replace (Rleb (1 / 10 ^ 100) e) with false by (symmetry; apply Rleb_false; exact L).
    replace (Rleb (1 / 10 ^ 100) 1) with true; [reflexivity|]. symmetry. apply Rleb_true.
    assert (1 <= 10 ^ 100) by (apply pow_R1_Rle; lra). clear L. generalize dependent (10 ^ 100). intros x Hx. apply Rmult_le_reg_r with x; [lra|]. replace (1 / x * x) with 1 by (field; lra). lra.
  - intros (_ & D & _). apply is_derive_unique in D. unf. rewrite Derive_const in D. lra.
Qed.
Print Assumptions C97_tiny_rotation_refuted.
(** A case: a quarter turn about z while moving along x and z, in one unit of time. *)
Example quarter_turn : resolved (mkT (mkV 1 0 3) (mkV 0 0 (PI / 2))) /\
  exp_twist true (mkT (mkV 1 0 3) (mkV 0 0 (PI / 2))) 1 = Ok (mkI (mkM 0 (-1) 0 1 0 0 0 0 1) (mkV (2 / PI) (2 / PI) 3)).
Proof.
  pose proof PI_RGT_0 as P. assert (N : vnorm (mkV 0 0 (PI / 2)) = PI / 2). { unfold vnorm. replace (vdot _ _) with ((PI / 2) * (PI / 2)) by (unf; ring). apply sqrt_square. lra. }
  assert (H : resolved (mkT (mkV 1 0 3) (mkV 0 0 (PI / 2)))).
  { right; left. cbn [tw]. rewrite N. pose proof PI2_1. assert (1 <= 10 ^ 100) by (apply pow_R1_Rle; lra). generalize dependent (10 ^ 100). intros x Hx.
    apply Rle_trans with 1; [|lra]. apply Rmult_le_reg_r with x; [lra|]. replace (1 / x * x) with 1 by (field; lra). lra. }
  split; [exact H|]. destruct (exp_cases true _ 1 H) as [[Z _]|[_ E]]; [cbn in Z; injection Z as Z; lra|]. rewrite E. cbn [tv tw]. rewrite N, Rmult_1_l. f_equal.
  unfold screw, rodrigues. rewrite sin_PI2, cos_PI2.
  apply iso_eq; cbn [irot itrans]; [apply M3_eq | apply V3_eq]; unf; field; lra.
Qed.

(** * C98: RotateVector *)
(** For every quaternion but zero, normalized or not, RotateVector is a rotation: it keeps lengths, angles and orientation, RotateVectorReverse
    undoes it, rotating by a product is rotating twice, and opposite quaternions rotate alike.  For a unit quaternion it is the product
    with Eigen's rotation matrix. *)
Lemma qdot_nonneg q : 0 <= qdot q q.
Proof. unf. pose proof (Rle_0_sqr (qx q)). pose proof (Rle_0_sqr (qy q)). pose proof (Rle_0_sqr (qz q)). pose proof (Rle_0_sqr (qw q)). unfold Rsqr in *. lra. Qed.
Definition qsmul (k : R) (q : quat) : quat := mkQ (k * qw q) (k * qx q) (k * qy q) (k * qz q).
Lemma rotate_formula q v : 0 < qdot q q -> rotate_vector q v = 
  mapp (mscale (mkM (qw q * qw q + qx q * qx q - qy q * qy q - qz q * qz q) (2 * (qx q * qy q - qw q * qz q)) (2 * (qx q * qz q + qw q * qy q))
                    (2 * (qx q * qy q + qw q * qz q)) (qw q * qw q - qx q * qx q + qy q * qy q - qz q * qz q) (2 * (qy q * qz q - qw q * qx q))
                    (2 * (qx q * qz q - qw q * qy q)) (2 * (qy q * qz q + qw q * qx q)) (qw q * qw q - qx q * qx q - qy q * qy q + qz q * qz q)) (/ qdot q q)) v.
Proof.
  intros P. unfold rotate_vector, qinv. rewrite (proj2 (Rltb_true _ _) P). assert (N : qdot q q <> 0) by lra. revert N. generalize (qdot q q). intros n N. apply V3_eq; unf; field; exact N.
Qed.
Lemma reverse_formula q v : 0 < qdot q q -> rotate_vector_reverse q v = rotate_vector (qconj q) v.
Proof.
  intros P. unfold rotate_vector, rotate_vector_reverse, qinv. assert (E : qdot (qconj q) (qconj q) = qdot q q) by (unf; ring). rewrite E, (proj2 (Rltb_true _ _) P).
  assert (N : qdot q q <> 0) by lra. revert N. generalize (qdot q q). intros n N. apply V3_eq; unf; field; exact N.
Qed.
Theorem C98_rotate q : 0 < qdot q q ->
  (exists m, rotation m /\ forall v, rotate_vector q v = mapp m v) /\
  (forall v, rotate_vector_reverse q (rotate_vector q v) = v /\ rotate_vector q (rotate_vector_reverse q v) = v) /\
  (forall v, vnorm (rotate_vector q v) = vnorm v) /\
  (forall k v, k <> 0 -> rotate_vector (qsmul k q) v = rotate_vector q v) /\
  (forall p v, 0 < qdot p p -> rotate_vector (qmul q p) v = rotate_vector q (rotate_vector p v)) /\
  (qdot q q = 1 -> forall v, rotate_vector q v = mapp (qmat q) v).
Proof.
  intros P.
  assert (Rot : forall q, 0 < qdot q q -> exists m, rotation m /\ forall v, rotate_vector q v = mapp m v).
  { clear q P. intros q P. eexists. split; [|intros v; apply rotate_formula; exact P]. assert (N : qdot q q <> 0) by lra. revert N. unfold qdot. intros N.
    split; [apply M3_eq|]; unf; field; exact N. }
  assert (Mul : forall p, 0 < qdot p p -> forall v, rotate_vector (qmul q p) v = rotate_vector q (rotate_vector p v)).
  { intros p Pp v. assert (E : qdot (qmul q p) (qmul q p) = qdot q q * qdot p p) by (unf; ring).
    assert (PP : 0 < qdot (qmul q p) (qmul q p)) by (rewrite E; apply Rmult_lt_0_compat; assumption).
    rewrite !rotate_formula by assumption. rewrite E. assert (N : qdot q q <> 0) by lra. assert (N' : qdot p p <> 0) by lra. revert N N'. generalize (qdot q q) (qdot p p). intros n n' N N'.
    apply V3_eq; unf; field; split; assumption. }
  assert (Cj : 0 < qdot (qconj q) (qconj q)) by (replace (qdot (qconj q) (qconj q)) with (qdot q q) by (unf; ring); exact P).
  split; [apply Rot; exact P|]. split; [|split; [|split; [|split]]].
  - intros v. destruct q as [w x y z]. split.
    + rewrite reverse_formula by exact P. rewrite !rotate_formula by assumption. cbn in *. unf. apply V3_eq; unf; field; lra.
    + rewrite reverse_formula by exact P. rewrite !rotate_formula by assumption. cbn in *. unf. apply V3_eq; unf; field; lra.
  - intros v. destruct (Rot q P) as (m & Hm & E). rewrite E. apply rot_norm. exact Hm.
  - intros k v K. assert (E : qdot (qsmul k q) (qsmul k q) = k * k * qdot q q) by (unfold qdot, qsmul; cbn; ring).
    assert (PP : 0 < qdot (qsmul k q) (qsmul k q)). { rewrite E. apply Rmult_lt_0_compat; [|exact P]. assert (0 <= k * k) by apply Rle_0_sqr. assert (k * k <> 0) by (apply Rmult_integral_contrapositive_currified; exact K). lra. }
    rewrite !rotate_formula by assumption. rewrite E. assert (N : qdot q q <> 0) by lra. revert N. generalize (qdot q q). intros n N. cbn [qsmul qw qx qy qz]. apply V3_eq; unf; field; split; assumption.
  - intros p v Pp. apply Mul. exact Pp.
  - intros U v. rewrite rotate_formula by exact P. rewrite U, Rinv_1. destruct q as [w x y z]. unfold qmat. unf. assert (E : w * w = 1 - x * x - y * y - z * z) by lra. apply V3_eq; unf; rewrite E; ring.
Qed.
Print Assumptions C98_rotate.
(** The zero quaternion sends every vector to zero. *)
Theorem C98_zero v : rotate_vector (mkQ 0 0 0 0) v = vzero /\ rotate_vector_reverse (mkQ 0 0 0 0) v = vzero.
Proof. unfold rotate_vector, rotate_vector_reverse, qinv. destruct (Rltb _ _); split; apply V3_eq; unf; unfold Rdiv; ring. Qed.
Print Assumptions C98_zero.
Example rotate_case : rotate_vector (mkQ 1 0 0 1) (mkV 1 0 5) = mkV 0 1 5.
Proof. rewrite rotate_formula by (unf; lra). apply V3_eq; unf; field. Qed.
