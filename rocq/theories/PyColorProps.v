(** C142: conversions between colour spaces are inverse to each other, and the colour maps run through their colours. *)
From Coq Require Import Reals Lra List Bool.
From Verif Require Import PyBase MathModel TotpVec GeoModel GeoAlg RotModel RotProps RotDistProps PyColorModel.
Import ListNotations.
Open Scope R_scope.

(** ** RGB and XYZ *)
(** convert_rgb_to_xyz: the weights of sRGB; white has the luminance 1. *)
Theorem C142_xyz r g b : rgb_to_xyz (mkV r g b) =
  mkV (4124 / 10000 * r + 3576 / 10000 * g + 1805 / 10000 * b) (2126 / 10000 * r + 7152 / 10000 * g + 722 / 10000 * b) (193 / 10000 * r + 1192 / 10000 * g + 9505 / 10000 * b) /\
  vy (rgb_to_xyz (mkV 1 1 1)) = 1.
Proof. split; [apply V3_eq; unfold rgb_to_xyz, vm, cvt; unf; ring | unfold rgb_to_xyz, vm, cvt; unf; lra]. Qed.
Print Assumptions C142_xyz.

(** What is assumed of numpy.linalg.inv: a matrix times its inverse is the identity. *)
Theorem C142_rgb_xyz inv c : mmul cvt (inv cvt) = mid -> xyz_to_rgb inv (rgb_to_xyz c) = c.
Proof.
  intros I. unfold xyz_to_rgb, rgb_to_xyz, vm. generalize dependent cvt. intros m I.
  replace (mapp (mtrans (inv m)) (mapp (mtrans m) c)) with (mapp (mtrans (mmul m (inv m))) c) by (apply V3_eq; unf; ring).
  rewrite I. apply V3_eq; unf; ring.
Qed.
Print Assumptions C142_rgb_xyz.

(** ** XYZ and Lab *)
Lemma third_pow x : 0 < x -> Rpower x (1 / 3) ^ 3 = x.
Proof.
  intros P. rewrite <- Rpower_pow by (unfold Rpower; apply exp_pos). rewrite Rpower_mult. replace (1 / 3 * INR 3) with 1 by (cbn; field). apply Rpower_1. auto.
Qed.
Lemma pow_third u : 0 < u -> Rpower (u ^ 3) (1 / 3) = u.
Proof.
  intros P. rewrite <- Rpower_pow by auto. rewrite Rpower_mult. replace (INR 3 * (1 / 3)) with 1 by (cbn; field). apply Rpower_1. auto.
Qed.
Lemma cube_lt a b : 0 <= a -> a < b -> a ^ 3 < b ^ 3.
Proof.
  intros A L. assert (0 < (b - a) * (b * b + a * b + a * a)); [|replace (b ^ 3) with (a ^ 3 + (b - a) * (b * b + a * b + a * a)) by ring; lra].
  assert (0 < b * b) by (apply Rmult_lt_0_compat; lra). assert (0 <= a * b) by (apply Rmult_le_pos; lra). assert (0 <= a * a) by (apply Rmult_le_pos; lra).
  apply Rmult_lt_0_compat; lra.
Qed.
Lemma cube_le a b : 0 <= a -> a <= b -> a ^ 3 <= b ^ 3.
Proof. intros A [L|<-]; [left; apply cube_lt; auto|lra]. Qed.

(** The two functions undo each other everywhere. *)
Theorem C142_cielab v : cielab_finv (cielab_f v) = v /\ cielab_f (cielab_finv v) = v.
Proof.
  unfold cielab_f, cielab_finv. split.
  - destruct (Rltb (216 / 24389) v) eqn:E.
    + apply Rltb_true in E. assert (P : 0 < v) by lra. assert (Q : 0 < Rpower v (1 / 3)) by (unfold Rpower; apply exp_pos).
      destruct (Rltb (6 / 29) (Rpower v (1 / 3))) eqn:F; [apply third_pow; auto|]. apply Rltb_false in F. exfalso.
      pose proof (cube_le _ _ (Rlt_le _ _ Q) F) as C. rewrite third_pow in C by auto. lra.
    + apply Rltb_false in E. rewrite (proj2 (Rltb_false _ _)) by lra. field.
  - destruct (Rltb (6 / 29) v) eqn:E.
    + apply Rltb_true in E. rewrite (proj2 (Rltb_true _ _)); [apply pow_third; lra|]. pose proof (cube_lt (6 / 29) v ltac:(lra) E). lra.
    + apply Rltb_false in E. rewrite (proj2 (Rltb_false _ _)) by lra. field.
Qed.
Print Assumptions C142_cielab.

(** From XYZ to Lab and back leaves every component divided by that of the reference white. *)
Theorem C142_lab c : lab_to_xyz (xyz_to_lab c) = mkV (vx c / (95047 / 1000)) (vy c / 100) (vz c / (108883 / 1000)).
Proof.
  unfold lab_to_xyz, xyz_to_lab, ref_xyz. cbn [vx vy vz]. set (fx := cielab_f (vx c / (95047 / 1000))). set (fy := cielab_f (vy c / 100)). set (fz := cielab_f (vz c / (108883 / 1000))).
  replace ((116 * (fy - 16 / 116) + 16) * (1 / 116)) with fy by field.
  replace (fy + 500 * (fx - fy) * (1 / 500)) with fx by field. replace (fy - 200 * (fy - fz) * (1 / 200)) with fz by field.
  unfold fx, fy, fz. rewrite !(proj1 (C142_cielab _)). reflexivity.
Qed.
Print Assumptions C142_lab.
Theorem C142_lab_refuted : exists c, lab_to_xyz (xyz_to_lab c) <> c.
Proof. exists (mkV 1 1 1). rewrite C142_lab. intros E. apply (f_equal vy) in E. cbn in E. lra. Qed.
Print Assumptions C142_lab_refuted.

(** ** Lab and Msh *)
Lemma hyp_atan a b : a <> 0 -> sqrt (a * a + b * b) * cos (atan (b / a)) = Rabs a /\ sqrt (a * a + b * b) * sin (atan (b / a)) = b * (Rabs a / a).
Proof.
  intros N. destruct (cos_atan (b / a)) as [C S1]. rewrite C, S1.
  assert (E : sqrt (a * a + b * b) = Rabs a * sqrt (1 + b / a * (b / a))).
  { rewrite <- (sqrt_Rsqr_abs a), <- sqrt_mult_alt by apply Rle_0_sqr. f_equal. unfold Rsqr. field. auto. }
  rewrite E. assert (Q : 0 < sqrt (1 + b / a * (b / a))). { apply sqrt_lt_R0. pose proof (Rle_0_sqr (b / a)). unfold Rsqr in *. lra. }
  split; field; [|split]; lra.
Qed.
Lemma msh_parts l a b : a <> 0 -> let m := sqrt (l ^ 2 + a ^ 2 + b ^ 2) in
  0 < m /\ -1 <= l / m <= 1 /\ m * cos (acos (l / m)) = l /\ m * sin (acos (l / m)) = sqrt (a * a + b * b).
Proof.
  intros N m. assert (A : 0 < a * a) by (destruct (Rdichotomy _ _ N); nra). pose proof (Rle_0_sqr l) as L0. pose proof (Rle_0_sqr b) as B0. unfold Rsqr in *.
  assert (P : 0 < l ^ 2 + a ^ 2 + b ^ 2) by lra. assert (M : 0 < m) by (apply sqrt_lt_R0; auto).
  assert (MM : m * m = l * l + a * a + b * b) by (unfold m; rewrite sqrt_sqrt by lra; ring).
  assert (B : -1 <= l / m <= 1).
  { assert (- m <= l <= m) by (split; nra). split; apply Rmult_le_reg_r with m; auto; unfold Rdiv; rewrite Rmult_assoc, Rinv_l by lra; lra. }
  split; auto. split; auto. split; [rewrite cos_acos by auto; field; lra|].
  destruct (sin_acos_sq (l / m) B) as [S2 S0]. symmetry. apply sqrt_lem_1; [lra|apply Rmult_le_pos; lra|].
  replace (m * sin (acos (l / m)) * (m * sin (acos (l / m)))) with (m * m * (sin (acos (l / m)) * sin (acos (l / m)))) by ring. rewrite S2.
  replace (m * m * (1 - l / m * (l / m))) with (m * m - l * l) by (field; lra). lra.
Qed.
(** Back and forth is the identity for colours with positive a; with negative a both a and b change sign, and without a it raises. *)
Theorem C142_msh l a b :
  (0 < a -> exists c, lab_to_msh (mkV l a b) = Ret c /\ msh_to_lab c = mkV l a b) /\
  (a < 0 -> exists c, lab_to_msh (mkV l a b) = Ret c /\ msh_to_lab c = mkV l (- a) (- b)) /\
  (a = 0 -> lab_to_msh (mkV l a b) = Raise ZeroDivisionError).
Proof.
  assert (G : a <> 0 -> exists c, lab_to_msh (mkV l a b) = Ret c /\ msh_to_lab c = mkV l (Rabs a) (b * (Rabs a / a))).
  { intros N. destruct (msh_parts l a b N) as (M & B & C & S). destruct (hyp_atan a b N) as [HC HS]. unfold lab_to_msh, pdiv. cbn [vx vy vz]. cbv zeta.
    set (m := sqrt (l ^ 2 + a ^ 2 + b ^ 2)) in *. rewrite (proj2 (Reqb_false m 0)) by lra. cbn [pbind]. rewrite (proj2 (Reqb_false a 0)) by auto. cbn [pbind].
    eexists. split; [reflexivity|]. unfold msh_to_lab. cbn [vx vy vz]. rewrite C, S, HC, HS. reflexivity. }
  split; [|split].
  - intros P. destruct (G ltac:(lra)) as (c & E & F). exists c. split; auto. rewrite F, Rabs_pos_eq by lra. f_equal. field. lra.
  - intros P. destruct (G ltac:(lra)) as (c & E & F). exists c. split; auto. rewrite F, Rabs_left by lra. f_equal. field. lra.
  - intros ->. unfold lab_to_msh, pdiv. cbn [vx vy vz]. cbv zeta. destruct (Reqb _ 0); [reflexivity|]. cbn [pbind]. rewrite (proj2 (Reqb_true 0 0)) by auto. reflexivity.
Qed.
Print Assumptions C142_msh.
Theorem C142_msh_refuted : exists l a b c, lab_to_msh (mkV l a b) = Ret c /\ msh_to_lab c <> mkV l a b.
Proof.
  exists 1, (-1), 0. destruct (proj1 (proj2 (C142_msh 1 (-1) 0)) ltac:(lra)) as (c & E & F). exists c. split; auto. rewrite F. intros H. apply (f_equal vy) in H. cbn in H. lra.
Qed.
Print Assumptions C142_msh_refuted.

(** The whole way from RGB to Msh and back turns red into another colour, and black raises. *)
Theorem C142_rgb_msh_refuted inv : mmul cvt (inv cvt) = mid -> mmul (inv cvt) cvt = mid ->
  (exists c m, rgb_to_msh c = Ret m /\ msh_to_rgb inv m <> c) /\ rgb_to_msh (mkV 0 0 0) = Raise ZeroDivisionError.
Proof.
  intros I1 I2.
  assert (LOW : forall v, v <= 216 / 24389 -> cielab_f v = 841 / 108 * v + 16 / 116) by (intros v V; unfold cielab_f; rewrite (proj2 (Rltb_false _ _)) by lra; reflexivity).
  split.
  - exists (mkV 1 0 0). set (x := rgb_to_xyz (mkV 1 0 0)). assert (X : x = mkV (4124 / 10000) (2126 / 10000) (193 / 10000)) by (unfold x, rgb_to_xyz, vm, cvt; apply V3_eq; unf; ring).
    destruct (xyz_to_lab x) as [l a b] eqn:E.
    assert (A : 0 < a).
    { assert (EA : a = vy (xyz_to_lab x)) by (rewrite E; reflexivity). rewrite EA, X. unfold xyz_to_lab, ref_xyz. cbn [vx vy vz]. rewrite !LOW by lra. lra. }
    destruct (proj1 (C142_msh l a b) A) as (m & M & B). exists m. split; [unfold rgb_to_msh; fold x; rewrite E; exact M|].
    unfold msh_to_rgb. rewrite B, <- E, C142_lab. intros H.
    assert (H2 : rgb_to_xyz (xyz_to_rgb inv (mkV (vx x / (95047 / 1000)) (vy x / 100) (vz x / (108883 / 1000)))) = x) by (rewrite H; reflexivity).
    unfold rgb_to_xyz, xyz_to_rgb, vm in H2. replace (mapp (mtrans cvt) (mapp (mtrans (inv cvt)) (mkV (vx x / (95047 / 1000)) (vy x / 100) (vz x / (108883 / 1000)))))
      with (mapp (mtrans (mmul (inv cvt) cvt)) (mkV (vx x / (95047 / 1000)) (vy x / 100) (vz x / (108883 / 1000)))) in H2
      by (generalize cvt (inv cvt); intros p q; apply V3_eq; unf; ring).
    rewrite I2, X in H2. apply (f_equal vy) in H2. revert H2. unfold mid. unf. lra.
  - unfold rgb_to_msh. replace (rgb_to_xyz (mkV 0 0 0)) with (mkV 0 0 0) by (unfold rgb_to_xyz, vm, cvt; apply V3_eq; unf; ring).
    unfold xyz_to_lab, ref_xyz. cbn [vx vy vz]. rewrite !LOW by lra. apply C142_msh. lra.
Qed.
Print Assumptions C142_rgb_msh_refuted.

(** ** Interpolating *)
(** interpolate_coolwarm raises exactly outside of 0 to 1, apart from divisions by zero; between two saturated colours it starts and ends
    with them (as the conversion from Msh gives them back). *)
Theorem C142_coolwarm_range inv c1 c2 t : ~ 0 <= t <= 1 -> interpolate_coolwarm inv c1 c2 t = Raise PyAssertionError.
Proof.
  intros N. unfold interpolate_coolwarm. destruct (Rleb 0 t) eqn:A; [|reflexivity]. destruct (Rleb t 1) eqn:B; [|reflexivity].
  apply Rleb_true in A. apply Rleb_true in B. exfalso. lra.
Qed.
Print Assumptions C142_coolwarm_range.

Lemma mix_0 a b : mix 0 a b = a. Proof. destruct a as [x y z]. unfold mix. cbn [vx vy vz]. f_equal; ring. Qed.
Lemma mix_1 a b : mix 1 a b = b. Proof. destruct b as [x y z]. unfold mix. cbn [vx vy vz]. f_equal; ring. Qed.
Theorem C142_coolwarm_ends inv c1 c2 a b : rgb_to_msh c1 = Ret a -> rgb_to_msh c2 = Ret b -> 5 / 100 < vy a < PI -> 5 / 100 < vy b < PI -> 0 < vx a -> 0 < vx b ->
  interpolate_coolwarm inv c1 c2 0 = Ret (msh_to_rgb inv a) /\ interpolate_coolwarm inv c1 c2 1 = Ret (msh_to_rgb inv b).
Proof.
  intros E1 E2 S1 S2 M1 M2.
  assert (AH : forall x u, 5 / 100 < vy x < PI -> 0 < vx x -> exists h, adjust_hue x u = Ret h).
  { intros x u S M. unfold adjust_hue. destruct (Rleb u (vx x)); [eauto|]. unfold pdiv. rewrite (proj2 (Reqb_false _ _)).
    - cbn [pbind]. destruct (Rltb _ _); eauto.
    - assert (0 < sin (vy x)) by (apply sin_gt_0; lra). pose proof (Rmult_lt_0_compat _ _ M H). lra. }
  assert (FS : fix_hues a b = Ret (a, b)).
  { unfold fix_hues. rewrite (proj2 (Rltb_false (vy a) (5 / 100))), (proj2 (Rltb_false (vy b) (5 / 100))) by lra. reflexivity. }
  unfold interpolate_coolwarm. rewrite E1, E2. cbn [pbind]. unfold put_white. rewrite (proj2 (Rltb_true (5 / 100) (vy a))), (proj2 (Rltb_true (5 / 100) (vy b))) by lra. cbn [andb].
  rewrite (proj2 (Rleb_true 0 0)), (proj2 (Rleb_true 0 1)), (proj2 (Rleb_true 1 1)) by lra. cbn [andb].
  destruct (Rltb (PI / 3) (rad_diff (vz a) (vz b))).
  - rewrite (proj2 (Rltb_true 0 (1 / 2))) by lra. rewrite (proj2 (Rltb_false 1 (1 / 2))) by lra. cbv zeta. set (mid := mkV _ 0 0).
    assert (MS : vy mid = 0) by reflexivity. split.
    + unfold fix_hues. rewrite (proj2 (Rltb_false (vy a) (5 / 100))) by lra. rewrite MS. rewrite (proj2 (Rltb_true 0 (5 / 100))), (proj2 (Rltb_true (5 / 100) (vy a))) by lra. cbn [andb].
      destruct (AH a (vx mid) S1 M1) as (h & ->). cbn [pbind fst snd]. rewrite Rmult_0_l, mix_0. reflexivity.
    + unfold fix_hues. rewrite MS. rewrite (proj2 (Rltb_true 0 (5 / 100))), (proj2 (Rltb_true (5 / 100) (vy b))) by lra. cbn [andb].
      destruct (AH b (vx mid) S2 M2) as (h & ->). cbn [pbind fst snd]. replace (2 * 1 - 1) with 1 by ring. rewrite mix_1. reflexivity.
  - rewrite FS. cbn [pbind fst snd]. rewrite mix_0, mix_1. auto.
Qed.
Print Assumptions C142_coolwarm_ends.
(** Half way between two saturated colours of different hue is a colour without saturation, at least as light as both. *)
Theorem C142_coolwarm_middle inv c1 c2 a b : rgb_to_msh c1 = Ret a -> rgb_to_msh c2 = Ret b -> 5 / 100 < vy a -> 5 / 100 < vy b < PI -> 0 < vx b -> PI / 3 < rad_diff (vz a) (vz b) ->
  exists m, interpolate_coolwarm inv c1 c2 (1 / 2) = Ret (xyz_to_rgb inv (lab_to_xyz (mkV m 0 0))) /\ vx a <= m /\ vx b <= m /\ 88 <= m.
Proof.
  intros E1 E2 S1 S2 M2 D. unfold interpolate_coolwarm. rewrite E1, E2. cbn [pbind]. unfold put_white.
  rewrite (proj2 (Rltb_true (5 / 100) (vy a))), (proj2 (Rltb_true (5 / 100) (vy b))), (proj2 (Rltb_true _ _) D) by lra. cbn [andb].
  rewrite (proj2 (Rleb_true 0 (1 / 2))), (proj2 (Rleb_true (1 / 2) 1)) by lra. cbn [andb]. rewrite (proj2 (Rltb_false (1 / 2) (1 / 2))) by lra. cbv zeta.
  set (m := Rmax (Rmax (vx a) (vx b)) 88). unfold fix_hues. cbn [vx vy vz]. rewrite (proj2 (Rltb_true 0 (5 / 100))), (proj2 (Rltb_true (5 / 100) (vy b))) by lra. cbn [andb].
  assert (exists h, adjust_hue b m = Ret h) as (h & ->).
  { unfold adjust_hue. destruct (Rleb m (vx b)); [eauto|]. unfold pdiv. rewrite (proj2 (Reqb_false _ _)).
    - cbn [pbind]. destruct (Rltb _ _); eauto.
    - assert (0 < sin (vy b)) by (apply sin_gt_0; lra). pose proof (Rmult_lt_0_compat _ _ M2 H). lra. }
  cbn [pbind fst snd]. exists m. split.
  - replace (2 * (1 / 2) - 1) with 0 by field. rewrite mix_0. unfold msh_to_rgb, msh_to_lab. cbn [vx vy vz]. rewrite cos_0, sin_0. do 4 f_equal; ring.
  - pose proof (Rmax_l (Rmax (vx a) (vx b)) 88). pose proof (Rmax_r (Rmax (vx a) (vx b)) 88). pose proof (Rmax_l (vx a) (vx b)). pose proof (Rmax_r (vx a) (vx b)). unfold m. lra.
Qed.
Print Assumptions C142_coolwarm_middle.

(** The hue given to an unsaturated colour: that of the saturated one if this is at least as light, and otherwise turned away from the hue -pi/3
    (purple), never towards it. *)
Theorem C142_adjust_hue c m : 0 < vx c -> 0 < vy c < PI ->
  exists h, adjust_hue c m = Ret h /\ (m <= vx c -> h = vz c) /\
    (- (PI / 3) < vz c -> vz c <= h) /\ (vz c <= - (PI / 3) -> h <= vz c) /\
    (vx c < m -> Rabs (h - vz c) * (vx c * sin (vy c)) = vy c * sqrt (m * m - vx c * vx c)).
Proof.
  intros M S. assert (SP : 0 < sin (vy c)) by (apply sin_gt_0; lra). pose proof (Rmult_lt_0_compat _ _ M SP) as D. unfold adjust_hue.
  destruct (Rleb m (vx c)) eqn:E.
  - apply Rleb_true in E. exists (vz c). repeat split; intros; lra.
  - apply Rleb_false in E. unfold pdiv. rewrite (proj2 (Reqb_false _ _)) by lra. cbn [pbind]. replace (m ^ 2 - vx c ^ 2) with (m * m - vx c * vx c) by ring.
    set (q := vy c * sqrt (m * m - vx c * vx c) / (vx c * sin (vy c))).
    assert (Q0 : 0 <= q) by (apply Rmult_le_pos; [apply Rmult_le_pos; [lra|apply sqrt_pos]|left; apply Rinv_0_lt_compat; auto]).
    assert (Q : q * (vx c * sin (vy c)) = vy c * sqrt (m * m - vx c * vx c)) by (unfold q; field; split; lra).
    destruct (Rltb (- (PI / 3)) (vz c)) eqn:F; [apply Rltb_true in F; exists (vz c + q)|apply Rltb_false in F; exists (vz c - q)]; (split; [reflexivity|]); repeat split; intros; try lra.
    + replace (vz c + q - vz c) with q by ring. rewrite Rabs_pos_eq; auto.
    + replace (vz c - q - vz c) with (- q) by ring. rewrite Rabs_Ropp, Rabs_pos_eq; auto.
Qed.
Print Assumptions C142_adjust_hue.
(** Between an unsaturated colour and a saturated one, in either order, the unsaturated one takes its hue from the other and all three components
    run linearly. *)
Theorem C142_coolwarm_unsaturated inv c1 c2 a b t : rgb_to_msh c1 = Ret a -> rgb_to_msh c2 = Ret b -> 0 <= t <= 1 ->
  (vy a < 5 / 100 -> 5 / 100 < vy b -> forall h, adjust_hue b (vx a) = Ret h ->
     interpolate_coolwarm inv c1 c2 t = Ret (msh_to_rgb inv (vadd (vscale (1 - t) (mkV (vx a) (vy a) h)) (vscale t b)))) /\
  (vy b < 5 / 100 -> 5 / 100 < vy a -> forall h, adjust_hue a (vx b) = Ret h ->
     interpolate_coolwarm inv c1 c2 t = Ret (msh_to_rgb inv (vadd (vscale (1 - t) a) (vscale t (mkV (vx b) (vy b) h))))).
Proof.
  intros E1 E2 T. unfold interpolate_coolwarm. rewrite E1, E2. cbn [pbind]. rewrite (proj2 (Rleb_true 0 t)), (proj2 (Rleb_true t 1)) by lra. cbn [andb]. unfold put_white.
  split; intros U S h H.
  - rewrite (proj2 (Rltb_false (5 / 100) (vy a))) by lra. cbn [andb]. unfold fix_hues. rewrite (proj2 (Rltb_true (vy a) _) U), (proj2 (Rltb_true _ (vy b)) S). cbn [andb]. rewrite H. reflexivity.
  - rewrite (proj2 (Rltb_false (5 / 100) (vy b))) by lra. rewrite andb_false_r. cbn [andb]. unfold fix_hues. rewrite (proj2 (Rltb_false (vy a) (5 / 100))) by lra. cbn [andb].
    rewrite (proj2 (Rltb_true (vy b) _) U), (proj2 (Rltb_true _ (vy a)) S). cbn [andb]. rewrite H. reflexivity.
Qed.
Print Assumptions C142_coolwarm_unsaturated.

(** rad_diff is the angle between two directions if the numbers are at most a full turn apart, and can be negative otherwise. *)
Theorem C142_rad_diff x y : Rabs (x - y) <= 2 * PI -> 0 <= rad_diff x y <= PI /\ cos (rad_diff x y) = cos (x - y).
Proof.
  intros B. unfold rad_diff. cbv zeta. pose proof (Rabs_pos (x - y)). assert (C : cos (Rabs (x - y)) = cos (x - y)) by (unfold Rabs; destruct (Rcase_abs _); [apply cos_neg|reflexivity]).
  destruct (Rltb PI (Rabs (x - y))) eqn:E.
  - apply Rltb_true in E. split; [lra|]. rewrite <- C. replace (PI * 2 - Rabs (x - y)) with (- Rabs (x - y) + 2 * PI) by ring. rewrite cos_plus, cos_2PI, sin_2PI, cos_neg. ring.
  - apply Rltb_false in E. split; [lra|auto].
Qed.
Print Assumptions C142_rad_diff.
Theorem C142_rad_diff_refuted : exists x y, rad_diff x y < 0.
Proof.
  exists (6 * PI), 0. pose proof PI_RGT_0. unfold rad_diff. cbv zeta. rewrite Rminus_0_r, Rabs_pos_eq by lra. rewrite (proj2 (Rltb_true _ _)) by lra. lra.
Qed.
Print Assumptions C142_rad_diff_refuted.

(** ** Colour maps *)
(** The jet map: each component is a trapezium, 1.5 minus twice the distance from its centre and kept between 0 and 1; the centres of red, green
    and blue are at 0.5, 0 and -0.5, and 0 to 1 is stretched to -1 to 1. *)
Definition trapezium (centre v : R) : R := Rmax 0 (Rmin 1 (3 / 2 - 2 * Rabs (v - centre))).
Definition jet (v : R) : V3 := mkV (trapezium (1 / 2) v) (trapezium 0 v) (trapezium (- (1 / 2)) v).
Lemma base_trap v w : jet_base (v - w) = trapezium w v.
Proof.
  unfold jet_base, trapezium, jet_interpolate. generalize (v - w). intros x.
  repeat match goal with |- context [Rleb ?a ?b] => destruct (Rleb a b) eqn:?; [match goal with H : _ = true |- _ => apply Rleb_true in H end|match goal with H : _ = false |- _ => apply Rleb_false in H end] end;
  unfold Rmax, Rmin, Rabs; repeat (destruct (Rcase_abs _) || destruct (Rle_dec _ _)); lra.
Qed.
Theorem C142_jet v :
  (0 <= v <= 1 -> interpolate_jet v false = Ret (jet (2 * v - 1))) /\ (-1 <= v <= 1 -> interpolate_jet v true = Ret (jet v)) /\
  (~ 0 <= v <= 1 -> interpolate_jet v false = Raise PyAssertionError) /\ (~ -1 <= v <= 1 -> interpolate_jet v true = Raise PyAssertionError).
Proof.
  assert (J : forall x, jet_color x = jet x).
  { intros x. unfold jet_color, jet. f_equal; [replace (5 / 10) with (1 / 2) by lra|replace x with (x - 0) at 1 by ring|replace (x + 5 / 10) with (x - - (1 / 2)) by lra]; apply base_trap. }
  unfold interpolate_jet. split; [|split; [|split]].
  - intros B. rewrite (proj2 (Rleb_true _ _)), (proj2 (Rleb_true v 1)) by lra. cbn [andb]. cbv zeta. rewrite J. do 2 f_equal.
    destruct (Rltb (5 / 10) v) eqn:A; [lra|]. apply Rltb_false in A. destruct (Rltb v (5 / 10)) eqn:C; [lra|]. apply Rltb_false in C. lra.
  - intros B. rewrite (proj2 (Rleb_true _ _)), (proj2 (Rleb_true v 1)) by lra. cbn [andb]. rewrite J. reflexivity.
  - intros N. destruct (Rleb 0 v) eqn:A; [|reflexivity]. destruct (Rleb v 1) eqn:B; [|reflexivity]. apply Rleb_true in A. apply Rleb_true in B. lra.
  - intros N. destruct (Rleb (-1) v) eqn:A; [|reflexivity]. destruct (Rleb v 1) eqn:B; [|reflexivity]. apply Rleb_true in A. apply Rleb_true in B. lra.
Qed.
Print Assumptions C142_jet.

(** A component of the hot to cold map that is meant: blue, cyan, green, yellow, red at 0, 1/4, 1/2, 3/4, 1. *)
Definition unit_clamp (x : R) : R := Rmax 0 (Rmin 1 x).
Definition rainbow (u : R) : V3 := mkV (unit_clamp (4 * u - 2)) (unit_clamp (Rmin (4 * u) (4 - 4 * u))) (unit_clamp (2 - 4 * u)).
(** Where a value is between the limits. *)
Definition fraction (v mn mx : R) : R := (Rmax mn (Rmin mx v) - mn) / (mx - mn).
(** It is this map up to three quarters.  From there on green is 4, whatever the value. *)
Theorem C142_hot_to_cold v mn mx : mn < mx ->
  (fraction v mn mx < 3 / 4 -> interpolate_hot_to_cold v mn mx = Ret (rainbow (fraction v mn mx))) /\
  (3 / 4 <= fraction v mn mx -> interpolate_hot_to_cold v mn mx = Ret (mkV 1 4 0)).
Proof.
  intros L. unfold interpolate_hot_to_cold. rewrite (proj2 (Rltb_true _ _) L). cbv zeta.
  set (x := if Rltb v mn then mn else if Rltb mx v then mx else v).
  assert (X : x = Rmax mn (Rmin mx v)).
  { unfold x. destruct (Rltb v mn) eqn:A; [apply Rltb_true in A|apply Rltb_false in A; destruct (Rltb mx v) eqn:B; [apply Rltb_true in B|apply Rltb_false in B]];
    unfold Rmax, Rmin; repeat destruct (Rle_dec _ _); lra. }
  unfold fraction. rewrite <- X. assert (XB : mn <= x <= mx) by (rewrite X; unfold Rmax, Rmin; repeat destruct (Rle_dec _ _); lra). clearbody x. clear X.
  set (r := mx - mn). assert (RP : 0 < r) by (unfold r; lra). set (u := (x - mn) / r). assert (XU : x = mn + u * r) by (unfold u; field; lra).
  assert (U0 : 0 <= u) by (unfold u; apply Rmult_le_pos; [lra|left; apply Rinv_0_lt_compat; auto]).
  assert (CMP : forall k, Rltb x (mn + k * r) = Rltb u k).
  { intros k. rewrite XU. destruct (Rltb u k) eqn:E; [apply Rltb_true in E; apply Rltb_true|apply Rltb_false in E; apply Rltb_false]; nra. }
  rewrite !CMP. replace (4 * (x - mn) / r) with (4 * u) by (rewrite XU; field; lra).
  replace (1 + 4 * (mn + 25 / 100 * r - x) / r) with (2 - 4 * u) by (rewrite XU; field; lra).
  replace (4 * (x - mn - 5 / 10 * r) / r) with (4 * u - 2) by (rewrite XU; field; lra).
  replace (1 + 4 * (mn + 75 / 100 * r - mn) / r) with 4 by (field; lra).
  split; intros Q.
  - destruct (Rltb u (25 / 100)) eqn:A; [apply Rltb_true in A|apply Rltb_false in A; destruct (Rltb u (5 / 10)) eqn:B; [apply Rltb_true in B|apply Rltb_false in B; rewrite (proj2 (Rltb_true u (75 / 100))) by lra]];
    f_equal; unfold rainbow, unit_clamp; f_equal; unfold Rmax, Rmin; repeat destruct (Rle_dec _ _); lra.
  - rewrite !(proj2 (Rltb_false _ _)) by lra. reflexivity.
Qed.
Print Assumptions C142_hot_to_cold.
(** So components leave the range from 0 to 1, and the message colours are yellow all through the last quarter and never red. *)
Theorem C142_hot_to_cold_refuted :
  (exists v c, 0 <= v <= 1 /\ interpolate_hot_to_cold v 0 1 = Ret c /\ 1 < vy c) /\
  (forall v, 3 / 4 <= v -> map_color v = Ret (mkV 1 1 0, 1)).
Proof.
  assert (G : forall v, 3 / 4 <= v -> interpolate_hot_to_cold v 0 1 = Ret (mkV 1 4 0)).
  { intros v V. apply C142_hot_to_cold; [lra|]. unfold fraction, Rmax, Rmin. repeat destruct (Rle_dec _ _); lra. }
  split.
  - exists 1, (mkV 1 4 0). split; [lra|]. split; [apply G; lra|]. cbn. lra.
  - intros v V. unfold map_color. rewrite G by auto. cbn [pbind vx vy vz]. unfold make_color, safe_color_val.
    rewrite (proj2 (Rleb_true 1 1)), (proj2 (Rleb_true 1 4)), (proj2 (Rleb_false 1 0)), (proj2 (Rleb_true 0 0)) by lra. reflexivity.
Qed.
Print Assumptions C142_hot_to_cold_refuted.

(** Colours of messages are kept in the range from 0 to 1, and unchanged if they were in it. *)
Theorem C142_safe v : safe_color_val v = unit_clamp v.
Proof.
  unfold safe_color_val, unit_clamp. destruct (Rleb 1 v) eqn:A; [apply Rleb_true in A|apply Rleb_false in A; destruct (Rleb v 0) eqn:B; [apply Rleb_true in B|apply Rleb_false in B]];
  unfold Rmax, Rmin; repeat destruct (Rle_dec _ _); lra.
Qed.
Print Assumptions C142_safe.
Theorem C142_map_color v : v < 3 / 4 -> map_color v = Ret (rainbow (Rmax 0 v), 1).
Proof.
  intros V. unfold map_color. assert (F : fraction v 0 1 = Rmax 0 v) by (unfold fraction, Rmax, Rmin; repeat destruct (Rle_dec _ _); lra).
  rewrite (proj1 (C142_hot_to_cold v 0 1 ltac:(lra))) by (rewrite F; unfold Rmax; destruct (Rle_dec _ _); lra). cbn [pbind]. rewrite F. unfold make_color. rewrite !C142_safe.
  unfold rainbow. cbn [vx vy vz]. do 2 f_equal; [f_equal|]; unfold unit_clamp, Rmax, Rmin; repeat destruct (Rle_dec _ _); lra.
Qed.
Print Assumptions C142_map_color.

(** Cases: the ends and the middle of the jet map. *)
Example jet_case : interpolate_jet 0 false = Ret (mkV 0 0 (1 / 2)) /\ interpolate_jet (1 / 2) false = Ret (mkV (1 / 2) 1 (1 / 2)).
Proof.
  split; rewrite (proj1 (C142_jet _)) by lra; f_equal; unfold jet, trapezium; f_equal; unfold Rmax, Rmin, Rabs; repeat (destruct (Rcase_abs _) || destruct (Rle_dec _ _)); lra.
Qed.
