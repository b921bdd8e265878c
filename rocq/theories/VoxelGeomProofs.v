(** Geometry of the voxel grid over the reals. *)
From Verif Require Import Base VoxelModel VoxelProofs VoxelGeom.
From Coq Require Import Reals Lra.
From Flocq Require Import Core.Raux.
Open Scope R_scope.

(** The rotation part has orthonormal columns. *)
Definition rigid (m : iso) : Prop :=
  dot (col1 m) (col1 m) = 1 /\ dot (col2 m) (col2 m) = 1 /\ dot (col3 m) (col3 m) = 1 /\
  dot (col1 m) (col2 m) = 0 /\ dot (col1 m) (col3 m) = 0 /\ dot (col2 m) (col3 m) = 0.

Lemma inverse_apply m p : rigid m -> apply (inverse m) (apply m p) = p.
Proof.
  destruct m as [[a b c] [d e f] [g h i] [t u v]], p as [x y z].
  unfold rigid, dot, col1, col2, col3; cbn [vx vy vz r1 r2 r3].
  intros (H1 & H2 & H3 & H4 & H5 & H6).
  unfold apply, inverse, dot, col1, col2, col3; cbn [vx vy vz r1 r2 r3 tr].
  f_equal.
  - transitivity (x * (a*a+d*d+g*g) + y * (a*b+d*e+g*h) + z * (a*c+d*f+g*i)); [ring|]. rewrite H1, H4, H5. ring.
  - transitivity (x * (a*b+d*e+g*h) + y * (b*b+e*e+h*h) + z * (b*c+e*f+h*i)); [ring|]. rewrite H2, H4, H6. ring.
  - transitivity (x * (a*c+d*f+g*i) + y * (b*c+e*f+h*i) + z * (c*c+f*f+i*i)); [ring|]. rewrite H3, H5, H6. ring.
Qed.

Lemma trunc_pos n x : (0 <= n)%Z -> IZR n <= x < IZR n + 1 -> Ztrunc x = n.
Proof.
  intros Hn H. rewrite Ztrunc_floor.
  - apply Zfloor_imp. rewrite plus_IZR. exact H.
  - apply IZR_le in Hn. lra.
Qed.

Lemma trunc_bounds x n : (0 < n)%Z -> (0 <= Ztrunc x < n)%Z <-> -1 < x < IZR n.
Proof.
  intros Hn. destruct (Rle_or_lt 0 x) as [H|H].
  - rewrite Ztrunc_floor by auto. split.
    + intros (A & B). split; [lra|]. apply Rlt_le_trans with (IZR (Zfloor x + 1)).
      * rewrite plus_IZR. apply Zfloor_ub.
      * apply IZR_le. lia.
    + intros (A & B). split.
      * apply Zfloor_lub. exact H.
      * apply lt_IZR. apply Rle_lt_trans with x; auto. apply Zfloor_lb.
  - rewrite Ztrunc_ceil by lra. split.
    + intros (A & B). split.
      * apply Rle_lt_trans with (IZR (Zceil x) - 1).
        -- apply IZR_le in A. lra.
        -- pose proof (Zceil_ub x) as U. pose proof (Zfloor_lb (-x)). pose proof (Zfloor_ub (-x)).
           unfold Zceil in *. rewrite opp_IZR in *. lra.
      * apply Rlt_trans with 0; auto. apply IZR_lt. lia.
    + intros (A & B). assert (E : Zceil x = 0%Z).
      { apply Zceil_imp. rewrite minus_IZR. lra. }
      rewrite E. lia.
Qed.

Lemma to_int64_fits x : -1 < x -> x <= IZR int64_max -> to_int64 x = Ok (Ztrunc x).
Proof.
  intros A B. apply ck_ok.
  assert (0 <= Ztrunc x < int64_max + 1)%Z as C.
  { apply trunc_bounds; [reflexivity|]. split; auto. rewrite plus_IZR. lra. }
  unfold int64_min, int64_max in *. lia.
Qed.

Lemma scale_lt c n p : 0 < c -> (-1 < p * (1 / c) < n <-> - c < p < n * c).
Proof.
  intros Hc. assert (E : p = p * (1 / c) * c) by (field; lra).
  split; intros H.
  - rewrite E. split; nra.
  - assert (0 < 1 / c) by (apply Rdiv_lt_0_compat; lra).
    assert (1 = c * (1 / c)) by (field; lra).
    split; [|]; nra.
Qed.

(** One axis: a point inside the volume. *)
Lemma axis_inside c n p : 0 < c -> (0 < n <= int64_max)%Z -> 0 <= p < IZR n * c ->
  exists i, to_int64 (p * (1 / c)) = Ok i /\ (0 <= i < n)%Z /\ c * IZR i <= p < c * (IZR i + 1).
Proof.
  intros Hc Hn (A & B). assert (E : p = p * (1 / c) * c) by (field; lra).
  assert (H : -1 < p * (1 / c) < IZR n) by (apply scale_lt; auto; lra).
  assert (N : IZR n <= IZR int64_max) by (apply IZR_le; lia).
  exists (Ztrunc (p * (1 / c))). split; [apply to_int64_fits; lra|]. split.
  - apply trunc_bounds; [lia|lra].
  - assert (0 < 1 / c) by (apply Rdiv_lt_0_compat; lra).
    rewrite Ztrunc_floor by nra.
    pose proof (Zfloor_lb (p * (1 / c))). pose proof (Zfloor_ub (p * (1 / c))).
    revert E. generalize dependent (p * (1 / c)). intros q _ L U E. subst p. split; nra.
Qed.

Lemma axis_centre c i : 0 < c -> (0 <= i < int64_max)%Z -> to_int64 (c * (IZR i + 0.5) * (1 / c)) = Ok i.
Proof.
  intros Hc Hi. replace (c * (IZR i + 0.5) * (1 / c)) with (IZR i + 0.5) by (field; lra).
  assert (E : Ztrunc (IZR i + 0.5) = i) by (apply trunc_pos; [lia|lra]).
  unfold to_int64. rewrite E. apply ck_ok. unfold int64_min, int64_max in *. lia.
Qed.

Lemma count_covers size cell n : 0 < size -> 0 < cell -> count_for size cell = Ok n ->
  (0 < n)%Z /\ size_of (n - 1) cell < size <= size_of n cell.
Proof.
  intros Hs Hc. unfold count_for. rewrite !Rabs_pos_eq by lra. unfold ck.
  destruct (_ && _)%bool; [|discriminate]. intros E. injection E as E.
  assert (P : 0 < size / cell) by (apply Rdiv_lt_0_compat; lra).
  assert (Q : size = size / cell * cell) by (field; lra).
  pose proof (Zceil_ub (size / cell)) as U.
  assert (L : IZR (Zceil (size / cell)) - 1 < size / cell).
  { pose proof (Zfloor_ub (- (size / cell))). unfold Zceil. rewrite opp_IZR. lra. }
  rewrite E in *. unfold size_of. rewrite minus_IZR. split.
  - apply lt_IZR. lra.
  - split; rewrite Q; nra.
Qed.
