(** C155: the chunk a point belongs to, in doubles. *)
From Verif Require Import Base VoxelModel VoxelFloat DynGridFloat VoxelMakeModel VoxelMakeProps.
From Flocq Require Import IEEE754.Bits IEEE754.Binary Core.
From Coq Require Import Reals Lra Psatz.
Open Scope R_scope.
Local Instance P53r : Prec_gt_0 53 := eq_refl.

Lemma of_Z_signed i : (Z.abs i < 2 ^ 53)%Z -> is_finite 53 1024 (f_of_Z i) = true /\ val (f_of_Z i) = IZR i.
Proof.
  intros Hi. unfold f_of_Z.
  pose proof (binary_normalize_correct 53 1024 eq_refl eq_refl NE i 0 false) as H.
  change (BinarySingleNaN.round_mode NE) with ZnearestE in H.
  assert (E : F2R (Float radix2 i 0) = IZR i) by (unfold F2R; cbn [Fnum Fexp]; change (bpow radix2 0) with 1; ring).
  rewrite round_generic in H; [|apply valid_rnd_N|apply fmt; lia].
  rewrite E in H. rewrite Rlt_bool_true in H; [tauto|].
  rewrite <- abs_IZR. apply Rlt_trans with (bpow radix2 53); [|apply bpow_lt; reflexivity].
  rewrite <- (IZR_Zpower radix2) by discriminate. apply IZR_lt. exact Hi.
Qed.
Lemma f_floor_spec x : is_finite 53 1024 x = true -> Rabs (val x) <= bpow radix2 52 -> f_floor x = Ok (Zfloor (val x)).
Proof.
  intros F U. unfold f_floor. rewrite F. cbv zeta.
  assert (T : Btrunc 53 1024 x = Ztrunc (val x)) by (apply eq_IZR; rewrite Btrunc_correct by reflexivity; rewrite round_FIX_IZR; reflexivity).
  rewrite T. assert (W : (Z.abs (Ztrunc (val x)) <= 2 ^ 52)%Z).
  { apply le_IZR. rewrite abs_IZR. rewrite (IZR_Zpower radix2) by discriminate. unfold Ztrunc. destruct (Rlt_bool_spec (val x) 0) as [N|N].
    - apply Rabs_le_inv in U. apply Rabs_le. split; [|]. { apply Rle_trans with (val x); [lra|apply Zceil_ub]. }
      apply Rle_trans with 0; [|apply bpow_ge_0]. apply IZR_le. apply Zceil_glb. lra.
    - apply Rabs_le_inv in U. apply Rabs_le. split; [|apply Rle_trans with (val x); [apply Zfloor_lb|lra]].
      apply Rle_trans with 0; [pose proof (bpow_ge_0 radix2 52); lra|]. apply IZR_le. apply Zfloor_lub. lra. }
  destruct (of_Z_signed (Ztrunc (val x)) ltac:(lia)) as (FT & VT).
  unfold f_lt, b64_compare. rewrite Bcompare_correct by auto. rewrite VT.
  assert (K : (if match Some (Rcompare (val x) (IZR (Ztrunc (val x)))) with Some Lt => true | _ => false end then Ztrunc (val x) - 1 else Ztrunc (val x))%Z = Zfloor (val x)).
  { destruct (Rlt_or_le (val x) 0) as [N|N].
    - unfold Ztrunc. rewrite Rlt_bool_true by exact N. destruct (Rcompare_spec (val x) (IZR (Zceil (val x)))) as [C|C|C].
      + symmetry. apply Zfloor_imp. rewrite Z.sub_add. split; [|exact C]. rewrite minus_IZR. pose proof (Zceil_lb (val x)). lra.
      + rewrite C at 2. rewrite Zfloor_IZR. reflexivity.
      + pose proof (Zceil_ub (val x)). lra.
    - rewrite (Ztrunc_floor _ N). destruct (Rcompare_spec (val x) (IZR (Zfloor (val x)))) as [C|C|C]; auto. pose proof (Zfloor_lb (val x)). lra. }
  rewrite K. unfold ck. assert (Q : (- 2 ^ 52 - 1 <= Zfloor (val x) <= 2 ^ 52)%Z).
  { rewrite <- K. destruct (Rcompare _ _); lia. }
  unfold int64_min, int64_max. destruct (Z.leb_spec (- 2 ^ 63) (Zfloor (val x))); [|lia]. destruct (Z.leb_spec (Zfloor (val x)) (2 ^ 63 - 1)); [reflexivity|lia].
Qed.

(** A coordinate [x] that is finite and not too far from the origin for the chunk size [s]. *)
Definition placed (x s : fl) : Prop := is_finite 53 1024 x = true /\ usable s /\ bpow radix2 (-900) <= val s <= bpow radix2 900 /\
  (val x = 0 \/ bpow radix2 (-1000) <= Rabs (val x / val s) <= bpow radix2 50).
(** [y] is the coordinate, up to one rounding, of a multiple of [s]; [x] is above it by less than [s], up to one rounding of their quotient. *)
Definition base_of (x s y : fl) : Prop := is_finite 53 1024 y = true /\ exists (k : Z) d e, Rabs d <= bpow radix2 (-53) /\ Rabs e <= bpow radix2 (-53) /\
  IZR k <= val x / val s * (1 + d) < IZR k + 1 /\ val y = IZR k * val s * (1 + e).
Definition each3 (P : fl -> fl -> fl -> Prop) (a b c : t3 fl) : Prop := P (ax a) (ax b) (ax c) /\ P (ay a) (ay b) (ay c) /\ P (az a) (az b) (az c).

Lemma base_axis x s : placed x s -> exists k, f_floor (b64_div NE x s) = Ok k /\ base_of x s (b64_mult NE (f_of_Z k) s).
Proof.
  intros (FX & (FS & PS) & (S1 & S2) & Q).
  assert (P53 : 0 < bpow radix2 (-53) <= / 4).
  { split; [apply bpow_gt_0|]. replace (/ 4) with (bpow radix2 (-2)) by (cbn; lra). apply bpow_le. discriminate. }
  assert (D : exists d, Rabs d <= bpow radix2 (-53) /\ is_finite 53 1024 (b64_div NE x s) = true /\ val (b64_div NE x s) = val x / val s * (1 + d) /\ Rabs (val (b64_div NE x s)) <= bpow radix2 51).
  { destruct Q as [Z0|(Q1 & Q2)].
    - pose proof (Bdiv_correct 53 1024 eq_refl eq_refl binop_nan_pl64 NE x s ltac:(lra)) as H. rewrite Z0 in H. unfold Rdiv in H at 1 2. rewrite Rmult_0_l, round_0, Rabs_R0 in H by apply valid_rnd_N.
      rewrite Rlt_bool_true in H by apply bpow_gt_0. destruct H as (H1 & H2 & _). exists 0. rewrite Rabs_R0. split; [lra|]. unfold b64_div. rewrite H2, H1, Z0. split; [exact FX|]. split; [unfold Rdiv; ring|]. rewrite Rabs_R0. apply bpow_ge_0.
    - destruct (div_rel x s FX ltac:(lra)) as (d & D1 & D2 & D3).
      { rewrite !b_opaque. split; [apply Rle_trans with (bpow radix2 (-1000)); [apply bpow_le; discriminate|exact Q1]|apply Rle_trans with (bpow radix2 50); [exact Q2|apply bpow_le; discriminate]]. }
      rewrite b_opaque in D1. exists d. split; [exact D1|]. split; [exact D2|]. split; [exact D3|]. rewrite D3, Rabs_mult. replace (bpow radix2 51) with (bpow radix2 50 * 2).
      2: { change 2 with (bpow radix2 1). rewrite <- bpow_plus. reflexivity. }
      apply Rmult_le_compat; try apply Rabs_pos; [exact Q2|]. apply Rabs_le. apply Rabs_le_inv in D1. lra. }
  destruct D as (d & D1 & D2 & D3 & D4).
  assert (R52 : bpow radix2 51 <= bpow radix2 52) by (apply bpow_le; discriminate).
  exists (Zfloor (val (b64_div NE x s))). split; [apply f_floor_spec; [exact D2|lra]|].
  set (k := Zfloor (val (b64_div NE x s))). assert (K1 : IZR k <= val (b64_div NE x s) < IZR k + 1).
  { split; [apply Zfloor_lb|]. unfold k. apply Zfloor_ub. }
  assert (KB : (Z.abs k <= 2 ^ 52)%Z).
  { apply le_IZR. rewrite abs_IZR. rewrite (IZR_Zpower radix2) by discriminate. apply Rabs_le_inv in D4. replace (bpow radix2 52) with (bpow radix2 51 * 2) by (replace 2 with (bpow radix2 1) by (cbn; lra); rewrite <- bpow_plus; reflexivity).
    assert (1 <= bpow radix2 51) by (change 1 with (bpow radix2 0); apply bpow_le; discriminate). apply Rabs_le. lra. }
  destruct (of_Z_signed k ltac:(lia)) as (FK & VK). destruct (Z.eq_dec k 0) as [Z0|NZ].
  - pose proof (Bmult_correct 53 1024 eq_refl eq_refl binop_nan_pl64 NE (f_of_Z k) s) as H. rewrite VK, Z0, Rmult_0_l, round_0, Rabs_R0 in H by apply valid_rnd_N.
    rewrite Rlt_bool_true in H by apply bpow_gt_0. destruct H as (H1 & H2 & _). rewrite Z0 in FK. rewrite FK, FS in H2. unfold base_of. rewrite Z0. unfold b64_mult. split; [exact H2|].
    exists 0%Z, d, 0. rewrite Rabs_R0. split; [exact D1|]. split; [lra|]. rewrite Z0 in K1. rewrite <- D3. split; [exact K1|]. rewrite H1. ring.
  - assert (A1 : 1 <= Rabs (IZR k)) by (rewrite <- abs_IZR; apply IZR_le; lia).
    assert (A2 : Rabs (IZR k) <= bpow radix2 52) by (rewrite <- abs_IZR, <- (IZR_Zpower radix2) by discriminate; apply IZR_le; exact KB).
    destruct (mult_rel (f_of_Z k) s FK FS) as (e & E1 & E2 & E3).
    { rewrite VK, !b_opaque, Rabs_mult, (Rabs_pos_eq (val s)) by lra. split.
      - apply Rle_trans with (1 * bpow radix2 (-900)); [rewrite Rmult_1_l; apply bpow_le; discriminate|]. apply Rmult_le_compat; try lra. apply bpow_ge_0.
      - apply Rle_trans with (bpow radix2 52 * bpow radix2 900); [apply Rmult_le_compat; try lra; apply Rabs_pos|]. rewrite <- bpow_plus. apply bpow_le. discriminate. }
    rewrite b_opaque in E1. split; [exact E2|]. exists k, d, e. split; [exact D1|]. split; [exact E1|]. rewrite <- D3. split; [exact K1|]. rewrite E3, VK. reflexivity.
Qed.
(** GetContainingChunkRegion. *)
Theorem C155_region (I T : Type) dbg (g : dg I T) p : d_init _ _ g = true -> placed (ax p) (ax (d_size _ _ g)) -> placed (ay p) (ay (d_size _ _ g)) -> placed (az p) (az (d_size _ _ g)) ->
  exists base, region I T dbg g p = Ok base /\ each3 base_of p (d_size _ _ g) base.
Proof.
  intros W A B C. destruct (base_axis _ _ A) as (i & A1 & A2). destruct (base_axis _ _ B) as (j & B1 & B2). destruct (base_axis _ _ C) as (k & C1 & C2).
  unfold region, cassert. rewrite W. cbn [negb]. rewrite andb_false_r, A1, B1, C1. cbn [obind]. eexists. split; [reflexivity|]. split; [exact A2|]. split; [exact B2|exact C2].
Qed.
Print Assumptions C155_region.
Print Assumptions f_floor_spec.
(** A negative coordinate belongs to the chunk below the origin. *)
Example C155_region_case : f_floor (b64_div NE (f_of_Z (-1)) (f_of_Z 4)) = Ok (-1)%Z /\ placed (f_of_Z (-1)) (f_of_Z 4).
Proof.
  split; [vm_compute; reflexivity|]. destruct (of_Z_signed (-1) ltac:(lia)) as (A & B). destruct (of_Z_signed 4 ltac:(lia)) as (C & D).
  unfold placed, usable. rewrite B, D. split; [exact A|]. split; [split; [exact C|lra]|]. split.
  - split; [apply Rle_trans with (bpow radix2 0); [apply bpow_le; discriminate|cbn; lra]|apply Rle_trans with (bpow radix2 2); [cbn; lra|apply bpow_le; discriminate]].
  - right. replace (-1 / 4) with (- bpow radix2 (-2)) by (cbn; lra). rewrite Rabs_Ropp, Rabs_pos_eq by apply bpow_ge_0. split; apply bpow_le; discriminate.
Qed.
