(** Algebra of the three dimensional vectors, matrices, isometries and quaternions of GeoModel. *)
From Coq Require Import Reals Lra Nsatz.
From Verif Require Import Base MathModel TotpVec GeoModel.
Open Scope R_scope.

Ltac unf := unfold mdet, mtrace, vdot, qdot in *; cbn [vzero vadd vsub vscale vdivs vcross mid mzero madd msub mscale mtrans mmul mapp mdet mtrace outer skew iid imul iinv iapp
  qmul qconj vdot qdot vx vy vz m00 m01 m02 m10 m11 m12 m20 m21 m22 irot itrans tv tw qw qx qy qz b33 b31 b13 b11] in *.
Ltac ext := f_equal; try ring.

(** A rotation matrix: orthogonal, keeping orientation. *)
Definition rotation (m : M3) : Prop := mmul m (mtrans m) = mid /\ mdet m = 1.
Definition rigid (a : iso) : Prop := rotation (irot a).

Lemma V3_eq a b : vx a = vx b -> vy a = vy b -> vz a = vz b -> a = b.
Proof. destruct a, b; cbn; intros; subst; reflexivity. Qed.
Lemma M3_eq a b : m00 a = m00 b -> m01 a = m01 b -> m02 a = m02 b -> m10 a = m10 b -> m11 a = m11 b -> m12 a = m12 b -> m20 a = m20 b -> m21 a = m21 b -> m22 a = m22 b -> a = b.
Proof. destruct a, b; cbn; intros; subst; reflexivity. Qed.
Lemma Q_eq a b : qw a = qw b -> qx a = qx b -> qy a = qy b -> qz a = qz b -> a = b.
Proof. destruct a, b; cbn; intros; subst; reflexivity. Qed.
Ltac mring := apply M3_eq; unf; ring.
Ltac vring := apply V3_eq; unf; ring.

Lemma mmul_assoc a b c : mmul (mmul a b) c = mmul a (mmul b c). Proof. mring. Qed.
Lemma mmul_1_l a : mmul mid a = a. Proof. mring. Qed.
Lemma mmul_1_r a : mmul a mid = a. Proof. mring. Qed.
Lemma mapp_mmul a b v : mapp (mmul a b) v = mapp a (mapp b v). Proof. vring. Qed.
Lemma mapp_1 v : mapp mid v = v. Proof. vring. Qed.
Lemma mapp_add a u v : mapp a (vadd u v) = vadd (mapp a u) (mapp a v). Proof. vring. Qed.
Lemma mapp_scale a k v : mapp a (vscale k v) = vscale k (mapp a v). Proof. vring. Qed.
Lemma mtrans_mmul a b : mtrans (mmul a b) = mmul (mtrans b) (mtrans a). Proof. mring. Qed.
Lemma mtrans_inv a : mtrans (mtrans a) = a. Proof. mring. Qed.
Lemma mdet_mmul a b : mdet (mmul a b) = mdet a * mdet b. Proof. unf; ring. Qed.
Lemma mdet_trans a : mdet (mtrans a) = mdet a. Proof. unf; ring. Qed.
Lemma skew_cross a b : mapp (skew a) b = vcross a b. Proof. vring. Qed.
Lemma vdot_adj m a b : vdot (mapp m a) b = vdot a (mapp (mtrans m) b). Proof. unf; ring. Qed.
Lemma vdot_comm a b : vdot a b = vdot b a. Proof. unf; ring. Qed.
Lemma vadd_comm a b : vadd a b = vadd b a. Proof. vring. Qed.
Lemma vadd_assoc a b c : vadd (vadd a b) c = vadd a (vadd b c). Proof. vring. Qed.
Lemma vdot_nonneg a : 0 <= vdot a a.
Proof. unf. pose proof (Rle_0_sqr (vx a)). pose proof (Rle_0_sqr (vy a)). pose proof (Rle_0_sqr (vz a)). unfold Rsqr in *. lra. Qed.
Lemma vnorm_sq a : vnorm a * vnorm a = vdot a a.
Proof. apply sqrt_sqrt, vdot_nonneg. Qed.
Lemma vnorm_nonneg a : 0 <= vnorm a. Proof. apply sqrt_pos. Qed.
Lemma vdot_zero a : vdot a a = 0 -> a = vzero.
Proof. unf. intros H. pose proof (Rle_0_sqr (vx a)). pose proof (Rle_0_sqr (vy a)). pose proof (Rle_0_sqr (vz a)). unfold Rsqr in *. apply V3_eq; cbn; nra. Qed.
Lemma vnorm_zero a : vnorm a = 0 <-> a = vzero.
Proof.
  split; [intros H; apply vdot_zero; rewrite <- vnorm_sq, H; ring|]. intros ->. unfold vnorm. replace (vdot vzero vzero) with 0 by (unf; ring). apply sqrt_0.
Qed.
(** The left inverse of an orthogonal matrix is its transpose too. *)
Lemma rot_left m : rotation m -> mmul (mtrans m) m = mid.
Proof.
  intros [O D].
  (* the inverse by cofactors *)
  set (c := mkM (m11 m * m22 m - m12 m * m21 m) (m02 m * m21 m - m01 m * m22 m) (m01 m * m12 m - m02 m * m11 m)
                (m12 m * m20 m - m10 m * m22 m) (m00 m * m22 m - m02 m * m20 m) (m02 m * m10 m - m00 m * m12 m)
                (m10 m * m21 m - m11 m * m20 m) (m01 m * m20 m - m00 m * m21 m) (m00 m * m11 m - m01 m * m10 m)).
  assert (L : mmul c m = mscale mid (mdet m)) by (unfold c; mring).
  rewrite D in L. assert (mscale mid 1 = mid) as E1 by mring. rewrite E1 in L.
  assert (E : mtrans m = c).
  { rewrite <- (mmul_1_l (mtrans m)), <- L, mmul_assoc, O. apply mmul_1_r. }
  rewrite E. exact L.
Qed.
(** The transpose is the matrix of cofactors. *)
Lemma rot_cofactor m : rotation m -> mtrans m =
  mkM (m11 m * m22 m - m12 m * m21 m) (m02 m * m21 m - m01 m * m22 m) (m01 m * m12 m - m02 m * m11 m)
      (m12 m * m20 m - m10 m * m22 m) (m00 m * m22 m - m02 m * m20 m) (m02 m * m10 m - m00 m * m12 m)
      (m10 m * m21 m - m11 m * m20 m) (m01 m * m20 m - m00 m * m21 m) (m00 m * m11 m - m01 m * m10 m).
Proof.
  intros [O D]. match goal with |- _ = ?x => set (c := x) end.
  assert (L : mmul c m = mscale mid (mdet m)) by (unfold c; mring).
  rewrite D in L. assert (mscale mid 1 = mid) as E1 by mring. rewrite E1 in L.
  rewrite <- (mmul_1_l (mtrans m)), <- L, mmul_assoc, O. apply mmul_1_r.
Qed.
Lemma rot_trans m : rotation m -> rotation (mtrans m).
Proof. intros H. split; [rewrite mtrans_inv; apply rot_left; exact H | rewrite mdet_trans; apply H]. Qed.
Lemma rot_mul a b : rotation a -> rotation b -> rotation (mmul a b).
Proof.
  intros [O D] [O' D']. split; [|rewrite mdet_mmul, D, D'; ring]. rewrite mtrans_mmul, mmul_assoc, <- (mmul_assoc b), O', mmul_1_l. exact O.
Qed.
Lemma rot_dot m a b : rotation m -> vdot (mapp m a) (mapp m b) = vdot a b.
Proof. intros H. rewrite vdot_adj, <- mapp_mmul, (rot_left m H), mapp_1. reflexivity. Qed.
Lemma rot_norm m a : rotation m -> vnorm (mapp m a) = vnorm a.
Proof. intros H. unfold vnorm. rewrite rot_dot by exact H. reflexivity. Qed.
Lemma rot_cross m a b : rotation m -> mapp m (vcross a b) = vcross (mapp m a) (mapp m b).
Proof.
  intros H. pose proof (rot_cofactor m H) as E. destruct m as [a00 a01 a02 a10 a11 a12 a20 a21 a22]. unfold mtrans in E. unf. injection E as E0 E1 E2 E3 E4 E5 E6 E7 E8.
  apply V3_eq; unf.
  - rewrite E0, E3, E6. ring.
  - rewrite E1, E4, E7. ring.
  - rewrite E2, E5, E8. ring.
Qed.
Lemma rot_skew m a : rotation m -> mmul m (mmul (skew a) (mtrans m)) = skew (mapp m a).
Proof.
  intros H.
  assert (X : forall v, mapp (mmul m (mmul (skew a) (mtrans m))) v = mapp (skew (mapp m a)) v).
  { intros v. rewrite !mapp_mmul, skew_cross, skew_cross, rot_cross by exact H. f_equal. rewrite <- mapp_mmul. destruct H as [-> _]. apply mapp_1. }
  pose proof (X (mkV 1 0 0)) as X1. pose proof (X (mkV 0 1 0)) as X2. pose proof (X (mkV 0 0 1)) as X3. revert X1 X2 X3.
  generalize (mmul m (mmul (skew a) (mtrans m))) (skew (mapp m a)). clear. intros p q X1 X2 X3. unfold mapp in *; cbn [vx vy vz] in *.
  injection X1 as A1 A2 A3. injection X2 as B1 B2 B3. injection X3 as D1 D2 D3. apply M3_eq; lra.
Qed.
Lemma iso_eq a b : irot a = irot b -> itrans a = itrans b -> a = b.
Proof. destruct a, b; cbn; intros; subst; reflexivity. Qed.
Lemma imul_assoc a b c : imul (imul a b) c = imul a (imul b c).
Proof. apply iso_eq; cbn; [apply mmul_assoc|]. rewrite mapp_mmul, mapp_add, vadd_assoc. reflexivity. Qed.
Lemma imul_1_l a : imul iid a = a. Proof. apply iso_eq; cbn; [apply mmul_1_l|]. vring. Qed.
Lemma imul_1_r a : imul a iid = a. Proof. apply iso_eq; cbn; [apply mmul_1_r|]. vring. Qed.
Lemma iinv_l a : rigid a -> imul (iinv a) a = iid.
Proof. intros H. apply iso_eq; cbn; [apply rot_left; exact H|]. vring. Qed.
Lemma iinv_r a : rigid a -> imul a (iinv a) = iid.
Proof.
  intros [O D]. apply iso_eq; cbn; [exact O|].
  assert (E : mapp (mscale (mtrans (irot a)) (-1)) (itrans a) = mapp (mtrans (irot a)) (vscale (-1) (itrans a))) by vring.
  rewrite E, <- mapp_mmul, O, mapp_1. vring.
Qed.
Lemma rigid_mul a b : rigid a -> rigid b -> rigid (imul a b). Proof. apply rot_mul. Qed.
Lemma rigid_inv a : rigid a -> rigid (iinv a). Proof. apply rot_trans. Qed.
Lemma mmul_add_l a b c : mmul (madd a b) c = madd (mmul a c) (mmul b c). Proof. mring. Qed.
Lemma mmul_add_r a b c : mmul a (madd b c) = madd (mmul a b) (mmul a c). Proof. mring. Qed.
Lemma mmul_scale_l a k c : mmul (mscale a k) c = mscale (mmul a c) k. Proof. mring. Qed.
Lemma mmul_scale_r a k c : mmul a (mscale c k) = mscale (mmul a c) k. Proof. mring. Qed.
