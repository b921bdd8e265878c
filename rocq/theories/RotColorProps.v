(** Random rotations (C92) and colour interpolation (C93), arc_helpers.hpp. *)
From Coq Require Import Reals Lra Bool.
From Verif Require Import Base MathModel TotpVec RotColorModel.
Open Scope R_scope.

Definition unit_draw (u : R) : Prop := 0 <= u < 1.
Definition qnorm2 (q : R * R * R * R) : R := let '(w, x, y, z) := q in w * w + x * x + y * y + z * z.

Lemma circle_angle s c : s * s + c * c = 1 -> exists u, unit_draw u /\ sin (2 * PI * u) = s /\ cos (2 * PI * u) = c.
Proof.
  intros H. pose proof PI_RGT_0 as P. assert (C : -1 <= c <= 1) by nra. pose proof (acos_bound c) as [B1 B2].
  assert (Sq : sin (acos c) = sqrt (1 - Rsqr c)) by (apply sin_acos; exact C).
  destruct (Rle_dec 0 s) as [Sp|Sn].
  - exists (acos c / (2 * PI)). split.
    + split; [apply Rmult_le_pos; [lra | left; apply Rinv_0_lt_compat; lra]|]. apply Rmult_lt_reg_r with (2 * PI); [lra|]. unfold Rdiv. rewrite Rmult_assoc, Rinv_l; lra.
    + replace (2 * PI * (acos c / (2 * PI))) with (acos c) by (field; lra). split; [|apply cos_acos; exact C].
      rewrite Sq. replace (1 - Rsqr c) with (s * s) by (unfold Rsqr; lra). apply sqrt_square; exact Sp.
  - assert (Ap : 0 < acos c).
    { destruct B1 as [B1|B1]; [exact B1|]. exfalso. assert (E : cos (acos c) = 1) by (rewrite <- B1; apply cos_0). rewrite cos_acos in E by exact C. nra. }
    exists (1 - acos c / (2 * PI)). assert (Q : 0 < acos c / (2 * PI)) by (apply Rdiv_lt_0_compat; lra).
    assert (Q2 : acos c / (2 * PI) <= / 2). { apply Rmult_le_reg_r with (2 * PI); [lra|]. unfold Rdiv. rewrite Rmult_assoc, Rinv_l; lra. }
    split; [split; lra|]. replace (2 * PI * (1 - acos c / (2 * PI))) with (- acos c + 2 * PI) by (field; lra).
    replace (- acos c + 2 * PI) with (- acos c + 2 * INR 1 * PI) by (cbn; ring). rewrite sin_period, cos_period, sin_neg, cos_neg.
    split; [|apply cos_acos; exact C]. rewrite Sq. replace (1 - Rsqr c) with ((- s) * (- s)) by (unfold Rsqr; lra). rewrite sqrt_square; lra.
Qed.

(** C92: every quaternion made from draws in [0, 1) has unit length, and every unit quaternion with a nonzero (x, y) part is made from some
    draws. *)
Theorem C92_quaternion x0 u1 u2 : unit_draw x0 -> qnorm2 (random_quaternion x0 u1 u2) = 1.
Proof.
  intros [A B]. unfold random_quaternion, qnorm2.
  assert (S1 : sqrt (1 - x0) * sqrt (1 - x0) = 1 - x0) by (apply sqrt_sqrt; lra). assert (S2 : sqrt x0 * sqrt x0 = x0) by (apply sqrt_sqrt; lra).
  pose proof (sin2_cos2 (2 * PI * u1)) as C1. pose proof (sin2_cos2 (2 * PI * u2)) as C2. unfold Rsqr in *.
  set (s1 := sin (2 * PI * u1)) in *. set (c1 := cos (2 * PI * u1)) in *. set (s2 := sin (2 * PI * u2)) in *. set (c2 := cos (2 * PI * u2)) in *. set (r1 := sqrt (1 - x0)) in *. set (r2 := sqrt x0) in *.
  replace (c2 * r2 * (c2 * r2) + s1 * r1 * (s1 * r1) + c1 * r1 * (c1 * r1) + s2 * r2 * (s2 * r2)) with ((s1 * s1 + c1 * c1) * (r1 * r1) + (s2 * s2 + c2 * c2) * (r2 * r2)) by ring.
  rewrite C1, C2, S1, S2. ring.
Qed.
Print Assumptions C92_quaternion.

(** No draw gives a rotation about the third axis, the identity among them: the first draw is below 1. *)
Theorem C92_third_axis x0 u1 u2 : unit_draw x0 ->
  let '(w, x, y, z) := random_quaternion x0 u1 u2 in x <> 0 \/ y <> 0.
Proof.
  intros [A B]. unfold random_quaternion. pose proof (sin2_cos2 (2 * PI * u1)) as C1. unfold Rsqr in C1.
  assert (P : 0 < sqrt (1 - x0)) by (apply sqrt_lt_R0; lra).
  destruct (Req_dec (sin (2 * PI * u1)) 0) as [S|S].
  - right. apply Rmult_integral_contrapositive_currified; [|lra]. intros C. rewrite S, C in C1. lra.
  - left. apply Rmult_integral_contrapositive_currified; lra.
Qed.
Print Assumptions C92_third_axis.
Theorem C92_covers w x y z : qnorm2 (w, x, y, z) = 1 -> (x <> 0 \/ y <> 0) ->
  exists x0 u1 u2, unit_draw x0 /\ unit_draw u1 /\ unit_draw u2 /\ random_quaternion x0 u1 u2 = (w, x, y, z).
Proof.
  unfold qnorm2. intros N NZ. assert (X : 0 <= x * x) by apply Rle_0_sqr. assert (Y : 0 <= y * y) by apply Rle_0_sqr. assert (Z : 0 <= z * z) by apply Rle_0_sqr. assert (W : 0 <= w * w) by apply Rle_0_sqr.
  assert (Pos : 0 < x * x + y * y). { destruct NZ as [H|H]; [assert (0 < x * x) by (apply Rsqr_pos_lt in H; exact H) | assert (0 < y * y) by (apply Rsqr_pos_lt in H; exact H)]; lra. }
  set (r1 := sqrt (x * x + y * y)). assert (R1 : 0 < r1) by (apply sqrt_lt_R0; exact Pos). assert (R1s : r1 * r1 = x * x + y * y) by (apply sqrt_sqrt; lra).
  destruct (circle_angle (x / r1) (y / r1)) as (u1 & U1 & Es1 & Ec1).
  { replace (x / r1 * (x / r1) + y / r1 * (y / r1)) with ((x * x + y * y) / (r1 * r1)) by (field; lra). rewrite R1s. field. lra. }
  set (r2 := sqrt (z * z + w * w)). assert (R2 : 0 <= r2) by apply sqrt_pos. assert (R2s : r2 * r2 = z * z + w * w) by (apply sqrt_sqrt; lra).
  assert (T2 : exists u2, unit_draw u2 /\ sin (2 * PI * u2) * r2 = z /\ cos (2 * PI * u2) * r2 = w).
  { destruct R2 as [R2|R2].
    - destruct (circle_angle (z / r2) (w / r2)) as (u2 & U2 & Es2 & Ec2).
      { replace (z / r2 * (z / r2) + w / r2 * (w / r2)) with ((z * z + w * w) / (r2 * r2)) by (field; lra). rewrite R2s. field. nra. }
      exists u2. split; [exact U2|]. rewrite Es2, Ec2. split; field; lra.
    - exists 0. rewrite <- R2 in *. assert (z * z = 0) by lra. assert (w * w = 0) by lra. split; [unfold unit_draw; lra|].
      assert (z = 0) by (apply Rsqr_0_uniq; assumption). assert (w = 0) by (apply Rsqr_0_uniq; assumption). split; lra. }
  destruct T2 as (u2 & U2 & Ez & Ew).
  exists (z * z + w * w), u1, u2. split; [unfold unit_draw; lra|]. split; [exact U1|]. split; [exact U2|].
  unfold random_quaternion. replace (1 - (z * z + w * w)) with (x * x + y * y) by lra. fold r1 r2. rewrite Es1, Ec1, Ez, Ew.
  assert (E1 : x / r1 * r1 = x) by (field; lra). assert (E2 : y / r1 * r1 = y) by (field; lra). rewrite E1, E2. reflexivity.
Qed.
Print Assumptions C92_covers.

(** The angles lie in [-pi, pi), [0, 2 pi) and [-pi, pi), and the sine of the pitch is plus or minus 1 - 2 u, so that it is spread evenly. *)
Theorem C92_euler u1 u2 u3 u4 : unit_draw u1 -> unit_draw u2 -> unit_draw u4 ->
  let '(roll, pitch, yaw) := random_euler u1 u2 u3 u4 in
  - PI <= roll < PI /\ 0 <= pitch < 2 * PI /\ - PI <= yaw < PI /\
  sin pitch = (if Rlt_dec u3 (/ 2) then - (1 - 2 * u2) else 1 - 2 * u2).
Proof.
  intros [A1 A2] [B1 B2] [D1 D2]. unfold random_euler. pose proof PI_RGT_0 as P. pose proof (acos_bound (1 - 2 * u2)) as [C1 C2].
  assert (Lt : acos (1 - 2 * u2) < PI).
  { destruct C2 as [C2|C2]; [exact C2|]. exfalso. assert (E : cos (acos (1 - 2 * u2)) = -1) by (rewrite C2; apply cos_PI). rewrite cos_acos in E by lra. lra. }
  assert (Sn : sin (acos (1 - 2 * u2) + PI / 2) = 1 - 2 * u2).
  { rewrite sin_plus, cos_PI2, sin_PI2, cos_acos by lra. lra. }
  assert (Ro : - PI <= 2 * PI * u1 - PI < PI) by (split; nra). assert (Ya : - PI <= 2 * PI * u4 - PI < PI) by (split; nra).
  unfold Rltb. destruct (Rlt_dec u3 (/ 2)).
  - destruct (Rlt_dec (acos (1 - 2 * u2) + PI / 2) PI).
    + repeat split; try lra. rewrite neg_sin, Sn. reflexivity.
    + repeat split; try lra. replace (acos (1 - 2 * u2) + PI / 2 - PI) with (- (PI - (acos (1 - 2 * u2) + PI / 2))) by ring. rewrite sin_neg. rewrite sin_PI_x, Sn. reflexivity.
  - repeat split; lra.
Qed.
Print Assumptions C92_euler.

(** ** Colours *)
Definition in_unit (c : rgba) : Prop := 0 <= c_r c <= 1 /\ 0 <= c_g c <= 1 /\ 0 <= c_b c <= 1 /\ 0 <= c_a c <= 1.
Lemma trim_id v : 0 <= v <= 1 -> trim v = v.
Proof. intros [A B]. unfold trim. rewrite Rmax_right, Rmin_right; lra. Qed.
Lemma trim_range v : 0 <= trim v <= 1.
Proof. unfold trim, Rmin, Rmax. destruct (Rle_dec 0 v); destruct (Rle_dec 1 _); lra. Qed.

(** The fraction of the way from the least to the greatest value. *)
Definition frac (v mn mx : R) : R := (Rmin mx (Rmax mn v) - mn) / (mx - mn).
Lemma frac_range v mn mx : mn < mx -> 0 <= frac v mn mx <= 1.
Proof.
  intros H. assert (A : mn <= Rmin mx (Rmax mn v) <= mx). { unfold Rmin, Rmax. destruct (Rle_dec mn v); destruct (Rle_dec mx _); lra. }
  unfold frac. split; [apply div_nonneg; lra|]. apply Rmult_le_reg_r with (mx - mn); [lra|]. unfold Rdiv. rewrite Rmult_assoc, Rinv_l; lra.
Qed.
(** The channels as functions of the fraction. *)
Definition red (t : R) := if Rlt_dec t (/ 2) then 0 else if Rlt_dec t (3 / 4) then 4 * t - 2 else 1.
Definition green (t : R) := if Rlt_dec t (/ 4) then 4 * t else if Rlt_dec t (3 / 4) then 1 else 4 - 4 * t.
Definition blue (t : R) := if Rlt_dec t (/ 4) then 1 else if Rlt_dec t (/ 2) then 2 - 4 * t else 0.
Lemma hot_to_cold_frac dbg v mn mx : mn < mx ->
  hot_to_cold dbg v mn mx = Ok (RGBA (red (frac v mn mx)) (green (frac v mn mx)) (blue (frac v mn mx)) 1).
Proof.
  intros H. pose proof (frac_range v mn mx H) as F. unfold hot_to_cold, cassert. replace (Rltb mn mx) with true by (symmetry; unfold Rltb; destruct (Rlt_dec mn mx); [reflexivity | contradiction]).
  rewrite andb_false_r. set (w := Rmin mx (Rmax mn v)). set (range := mx - mn). assert (Rp : 0 < range) by (unfold range; lra).
  assert (Ew : w = mn + frac v mn mx * range). { unfold frac. fold w range. field. lra. }
  set (t := frac v mn mx) in *. clearbody t.
  assert (Lt : forall k, Rltb w (mn + k * range) = Rltb t k).
  { intros k. rewrite Ew. unfold Rltb. destruct (Rlt_dec _ _) as [G|G], (Rlt_dec t k) as [L|L]; try reflexivity; exfalso.
    - apply L. apply Rmult_lt_reg_r with range; lra.
    - apply G. apply Rplus_lt_compat_l, Rmult_lt_compat_r; assumption. }
  rewrite !Lt. assert (X : forall a, (mn + a * range - w) / range = a - t) by (intros a; rewrite Ew; field; lra).
  assert (Y : forall a, 4 * (mn + a * range - w) / range = 4 * (a - t)) by (intros a; rewrite Ew; field; lra).
  assert (Z1 : 4 * (w - mn) / range = 4 * t) by (rewrite Ew; field; lra). assert (Z2 : 4 * (w - mn - / 2 * range) / range = 4 * t - 2) by (rewrite Ew; field; lra).
  rewrite !Y, Z1, Z2. unfold Rltb, from_floats, red, green, blue.
  destruct (Rlt_dec t (/ 4)), (Rlt_dec t (/ 2)), (Rlt_dec t (3 / 4)); try lra; f_equal; rewrite !trim_id by lra; f_equal; lra.
Qed.

(** C93: for a least value below the greatest, the hot-to-cold colour is opaque with channels in [0, 1]; it is blue up to the least value,
    cyan at a quarter, green half way, yellow at three quarters and red from the greatest value; red never falls and blue never rises as the
    value grows; and no channel changes faster than four times the fraction: there are no jumps. *)
Theorem C93_hot_to_cold dbg mn mx : mn < mx ->
  exists f : R -> rgba, (forall v, hot_to_cold dbg v mn mx = Ok (f v)) /\ (forall v, in_unit (f v) /\ c_a (f v) = 1) /\
  (forall v, v <= mn -> f v = RGBA 0 0 1 1) /\ f (mn + (mx - mn) / 4) = RGBA 0 1 1 1 /\ f (mn + (mx - mn) / 2) = RGBA 0 1 0 1 /\
  f (mn + 3 * (mx - mn) / 4) = RGBA 1 1 0 1 /\ (forall v, mx <= v -> f v = RGBA 1 0 0 1) /\
  (forall v w, v <= w -> c_r (f v) <= c_r (f w) /\ c_b (f w) <= c_b (f v)) /\
  (forall v w, Rabs (c_r (f v) - c_r (f w)) <= 4 * Rabs (v - w) / (mx - mn) /\ Rabs (c_g (f v) - c_g (f w)) <= 4 * Rabs (v - w) / (mx - mn) /\
               Rabs (c_b (f v) - c_b (f w)) <= 4 * Rabs (v - w) / (mx - mn)).
Proof.
  intros H. exists (fun v => RGBA (red (frac v mn mx)) (green (frac v mn mx)) (blue (frac v mn mx)) 1). cbn [c_r c_g c_b c_a].
  assert (Fm : forall v w, v <= w -> 0 <= frac w mn mx - frac v mn mx <= (w - v) / (mx - mn)).
  { intros v w L. unfold frac. assert (D : 0 <= Rmin mx (Rmax mn w) - Rmin mx (Rmax mn v) <= w - v).
    { unfold Rmin, Rmax. destruct (Rle_dec mn v), (Rle_dec mn w); destruct (Rle_dec mx v), (Rle_dec mx w), (Rle_dec mx mn); lra. }
    assert (I : 0 < / (mx - mn)) by (apply Rinv_0_lt_compat; lra). replace ((Rmin mx (Rmax mn w) - mn) / (mx - mn) - (Rmin mx (Rmax mn v) - mn) / (mx - mn)) with ((Rmin mx (Rmax mn w) - Rmin mx (Rmax mn v)) * / (mx - mn)) by (field; lra).
    split; [apply Rmult_le_pos; lra | apply Rmult_le_compat_r; lra]. }
  assert (At : forall v t, 0 <= t <= 1 -> v = mn + t * (mx - mn) -> frac v mn mx = t).
  { intros v t T ->. unfold frac. rewrite Rmax_right by nra. rewrite Rmin_right by nra. field. lra. }
  split; [intros v; apply hot_to_cold_frac; exact H|]. split.
  { intros v. split; [|reflexivity]. pose proof (frac_range v mn mx H) as F. unfold in_unit. cbn. unfold red, green, blue. set (t := frac v mn mx) in *.
    destruct (Rlt_dec t (/ 4)), (Rlt_dec t (/ 2)), (Rlt_dec t (3 / 4)); lra. }
  assert (Lo : forall v, v <= mn -> frac v mn mx = 0) by (intros v L; unfold frac; rewrite Rmax_left, Rmin_right by lra; unfold Rdiv; rewrite Rminus_eq_0; ring).
  assert (Hi : forall v, mx <= v -> frac v mn mx = 1) by (intros v L; unfold frac; rewrite Rmax_right, Rmin_left by lra; field; lra).
  split; [|split; [|split; [|split; [|split; [|split]]]]].
  - intros v L. rewrite Lo by exact L. unfold red, green, blue. destruct (Rlt_dec 0 (/ 4)), (Rlt_dec 0 (/ 2)); try lra. f_equal; lra.
  - rewrite (At _ (/ 4)) by lra. unfold red, green, blue. destruct (Rlt_dec (/ 4) (/ 4)), (Rlt_dec (/ 4) (/ 2)), (Rlt_dec (/ 4) (3 / 4)); try lra. f_equal; lra.
  - rewrite (At _ (/ 2)) by lra. unfold red, green, blue. destruct (Rlt_dec (/ 2) (/ 4)), (Rlt_dec (/ 2) (/ 2)), (Rlt_dec (/ 2) (3 / 4)); try lra. f_equal; lra.
  - rewrite (At _ (3 / 4)) by lra. unfold red, green, blue. destruct (Rlt_dec (3 / 4) (/ 4)), (Rlt_dec (3 / 4) (/ 2)), (Rlt_dec (3 / 4) (3 / 4)); try lra. f_equal; lra.
  - intros v L. rewrite Hi by exact L. unfold red, green, blue. destruct (Rlt_dec 1 (/ 4)), (Rlt_dec 1 (/ 2)), (Rlt_dec 1 (3 / 4)); try lra. f_equal; lra.
  - intros v w L. pose proof (Fm v w L) as [D _]. pose proof (frac_range v mn mx H). pose proof (frac_range w mn mx H). unfold red, blue. set (t := frac v mn mx) in *. set (u := frac w mn mx) in *. clearbody t u.
    split; repeat destruct (Rlt_dec _ _); lra.
  - assert (G : forall v w, v <= w -> Rabs (red (frac v mn mx) - red (frac w mn mx)) <= 4 * Rabs (v - w) / (mx - mn) /\ Rabs (green (frac v mn mx) - green (frac w mn mx)) <= 4 * Rabs (v - w) / (mx - mn) /\ Rabs (blue (frac v mn mx) - blue (frac w mn mx)) <= 4 * Rabs (v - w) / (mx - mn)).
    { intros v w L. pose proof (Fm v w L) as [D1 D2]. pose proof (frac_range v mn mx H). pose proof (frac_range w mn mx H).
      replace (4 * Rabs (v - w) / (mx - mn)) with (4 * ((w - v) / (mx - mn))) by (rewrite Rabs_left1 by lra; field; lra).
      unfold red, green, blue. set (t := frac v mn mx) in *. set (u := frac w mn mx) in *. set (d := (w - v) / (mx - mn)) in *. clearbody t u d.
      repeat split; apply Rabs_le; repeat destruct (Rlt_dec _ _); lra. }
    intros v w. destruct (Rle_dec v w) as [L|L]; [apply G; exact L|]. rewrite (Rabs_minus_sym v w), (Rabs_minus_sym (red _)), (Rabs_minus_sym (green _)), (Rabs_minus_sym (blue _)). apply G. lra.
Qed.
Print Assumptions C93_hot_to_cold.

(** Interpolating between two colours with channels in [0, 1]: the first colour up to ratio 0, the second from ratio 1, every channel between
    the two, moving steadily from the first to the second. *)
Definition channel_between (a b x : R) : Prop := Rmin a b <= x <= Rmax a b.
Theorem C93_interpolate c1 c2 : in_unit c1 -> in_unit c2 ->
  (forall t, t <= 0 -> interpolate_color c1 c2 t = c1) /\ (forall t, 1 <= t -> interpolate_color c1 c2 t = c2) /\
  (forall t, let c := interpolate_color c1 c2 t in channel_between (c_r c1) (c_r c2) (c_r c) /\ channel_between (c_g c1) (c_g c2) (c_g c) /\
     channel_between (c_b c1) (c_b c2) (c_b c) /\ channel_between (c_a c1) (c_a c2) (c_a c)) /\
  (forall t, 0 <= t <= 1 -> let c := interpolate_color c1 c2 t in
     c_r c = c_r c1 + t * (c_r c2 - c_r c1) /\ c_g c = c_g c1 + t * (c_g c2 - c_g c1) /\ c_b c = c_b c1 + t * (c_b c2 - c_b c1) /\ c_a c = c_a c1 + t * (c_a c2 - c_a c1)).
Proof.
  intros (R1 & G1 & B1 & A1) (R2 & G2 & B2 & A2).
  assert (M : forall a b t, 0 <= a <= 1 -> 0 <= b <= 1 -> 0 <= t <= 1 -> trim (a * (1 - t) + b * t) = a + t * (b - a)).
  { intros a b t Ha Hb Ht. rewrite trim_id by nra. ring. }
  assert (Bt : forall a b t, 0 <= t <= 1 -> channel_between a b (a + t * (b - a))).
  { intros a b t Ht. unfold channel_between, Rmin, Rmax. destruct (Rle_dec a b); nra. }
  assert (Cl : forall t, 0 <= (if Rltb t 0 then 0 else if Rltb 1 t then 1 else t) <= 1).
  { intros t. unfold Rltb. destruct (Rlt_dec t 0); [lra|]. destruct (Rlt_dec 1 t); lra. }
  split; [|split; [|split]].
  - intros t Ht. unfold interpolate_color. assert (E : (if Rltb t 0 then 0 else if Rltb 1 t then 1 else t) = 0) by (unfold Rltb; destruct (Rlt_dec t 0); [reflexivity|]; destruct (Rlt_dec 1 t); lra).
    rewrite E, !M by lra. destruct c1; cbn. f_equal; ring.
  - intros t Ht. unfold interpolate_color. assert (E : (if Rltb t 0 then 0 else if Rltb 1 t then 1 else t) = 1) by (unfold Rltb; destruct (Rlt_dec t 0); [lra|]; destruct (Rlt_dec 1 t); lra).
    rewrite E, !M by lra. destruct c2; cbn. f_equal; ring.
  - intros t. unfold interpolate_color. cbn [c_r c_g c_b c_a]. pose proof (Cl t) as Ht. rewrite !M by assumption. repeat split; apply Bt; exact Ht.
  - intros t Ht. unfold interpolate_color. cbn [c_r c_g c_b c_a]. assert (E : (if Rltb t 0 then 0 else if Rltb 1 t then 1 else t) = t) by (unfold Rltb; destruct (Rlt_dec t 0); [lra|]; destruct (Rlt_dec 1 t); lra).
    rewrite E, !M by assumption. auto.
Qed.
Print Assumptions C93_interpolate.

(** Whatever the input colours and ratio, the channels of the result lie in [0, 1]. *)
Theorem C93_trimmed c1 c2 t : in_unit (interpolate_color c1 c2 t).
Proof. unfold in_unit, interpolate_color. cbn. repeat split; apply trim_range. Qed.
Print Assumptions C93_trimmed.
Example mix_case : interpolate_color (RGBA 0 0 1 1) (RGBA 1 0 0 1) (/ 2) = RGBA (/ 2) 0 (/ 2) 1.
Proof.
  destruct (C93_interpolate (RGBA 0 0 1 1) (RGBA 1 0 0 1)) as (_ & _ & _ & H); [unfold in_unit; cbn; lra .. |].
  specialize (H (/ 2) ltac:(lra)). destruct (interpolate_color _ _ _) as [r g b a]. cbn in H. destruct H as (H1 & H2 & H3 & H4). f_equal; lra.
Qed.
