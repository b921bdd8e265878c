(** C154: class RGBAColor and the operations on colours, in IEEE arithmetic. *)
From Verif Require Import Base VoxelFloat HelpersModel HelpersProps RgbaModel RgbaRound.
From Flocq Require Import IEEE754.Bits IEEE754.Binary Core.
From Coq Require Import Reals Lra Psatz.
Open Scope R_scope.

(** ** Vocabulary *)
(** The number a float stands for (0 for infinities and NaN). *)
Notation val := (B2R 24 128).
Notation finite := (is_finite 24 128).
(** A channel from 0 to 1, and a colour of such channels. *)
Definition unit_channel (v : f32) : Prop := finite v = true /\ 0 <= val v <= 1.
Definition good_color (c : color) : Prop := forall k, unit_channel (get c k).
Definition byte (h : Z) : Prop := (0 <= h <= 255)%Z.

(** ** Trimming *)
Lemma v0 : val zero = 0. Proof. reflexivity. Qed.
Lemma v1 : val one = 1. Proof. vm_compute. lra. Qed.
Lemma u0 : unit_channel zero. Proof. split; [reflexivity|rewrite v0; lra]. Qed.
Lemma u1 : unit_channel one. Proof. split; [reflexivity|rewrite v1; lra]. Qed.
Lemma lt_val a b : finite a = true -> finite b = true -> (f32_lt a b = true <-> val a < val b).
Proof. intros A B. unfold f32_lt, b32_compare. rewrite Bcompare_correct by auto. destruct (Rcompare_spec (val a) (val b)); split; intros; try lra; try discriminate; auto. Qed.
Lemma ge_val a b : finite a = true -> finite b = true -> (f32_lt a b = false <-> val b <= val a).
Proof. intros A B. pose proof (lt_val a b A B) as H. destruct (f32_lt a b); split; intros; try discriminate; auto; [apply proj1 in H; specialize (H eq_refl); lra|]. apply Rnot_lt_le. intros X. apply H in X. discriminate. Qed.
Lemma trim_finite v : finite v = true -> finite (trim_color v) = true /\ val (trim_color v) = Rmin 1 (Rmax 0 (val v)).
Proof.
  intros F. unfold trim_color, std_max, std_min. fold zero one. destruct (f32_lt zero v) eqn:A.
  - apply lt_val in A; auto. rewrite v0 in A. destruct (f32_lt v one) eqn:B.
    + apply lt_val in B; auto. rewrite v1 in B. split; auto. rewrite Rmax_right, Rmin_right by lra. auto.
    + apply ge_val in B; auto. rewrite v1 in B. split; [reflexivity|]. rewrite v1, Rmax_right, Rmin_left by lra. auto.
  - apply ge_val in A; auto. rewrite v0 in A. change (f32_lt zero one) with true. cbn iota. split; [reflexivity|]. rewrite v0, Rmax_left, Rmin_right by lra. auto.
Qed.
Lemma trim_other v : finite v = false -> trim_color v = match v with B754_infinity _ _ false => one | _ => zero end.
Proof. destruct v as [|[]| |]; try discriminate; reflexivity. Qed.
Lemma trim_unit v : unit_channel (trim_color v).
Proof.
  destruct (finite v) eqn:F.
  - destruct (trim_finite v F) as (A & B). split; auto. rewrite B. unfold Rmin, Rmax. repeat destruct Rle_dec; lra.
  - rewrite trim_other by auto. destruct v as [|[]| |]; try apply u0; apply u1.
Qed.
Lemma trim_same v : unit_channel v -> val (trim_color v) = val v.
Proof. intros (F & U). destruct (trim_finite v F) as (_ & ->). rewrite Rmax_right, Rmin_right; lra. Qed.
Lemma from_hex_unit h : byte h -> unit_channel (channel_from_hex h).
Proof.
  intros H. assert (T : forallb (fun n => finite (channel_from_hex (Z.of_nat n)) && negb (f32_lt (channel_from_hex (Z.of_nat n)) zero) && negb (f32_lt one (channel_from_hex (Z.of_nat n)))) (seq 0 256) = true) by (vm_compute; reflexivity).
  rewrite forallb_forall in T. specialize (T (Z.to_nat h)). rewrite Z2Nat.id in T by (unfold byte in H; lia). assert (I : In (Z.to_nat h) (seq 0 256)) by (apply in_seq; unfold byte in H; lia).
  specialize (T I). rewrite !andb_true_iff, !negb_true_iff in T. destruct T as ((F & A) & B). split; auto. apply ge_val in A; auto. apply ge_val in B; auto. rewrite v0 in A. rewrite v1 in B. lra.
Qed.

(** ** Objects *)
(** All constructors make colours with channels from 0 to 1, whatever floats they are given, and no call of a setter changes that. *)
Theorem C154_constructors : (forall r g b a, good_color (make_float r g b a)) /\ (forall r g b, good_color (rgb_floats r g b)) /\
  (forall r g b a, byte r -> byte g -> byte b -> byte a -> good_color (rgba_bytes r g b a)) /\ (forall r g b a, byte r -> byte g -> byte b -> good_color (rgb_bytes_float r g b a)) /\
  (forall r g b, byte r -> byte g -> byte b -> good_color (rgb_bytes r g b)) /\ good_color rgba_default.
Proof. repeat split; try (intros; destruct k; cbn; try apply trim_unit; try apply from_hex_unit; auto; try apply u1; apply u0). Qed.
Print Assumptions C154_constructors.
Definition good_change (o : change) : Prop := match o with SetFloat _ _ => True | SetByte _ h => byte h end.
Theorem C154_setters c ops : good_color c -> Forall good_change ops -> good_color (fold_left apply1 ops c).
Proof.
  intros G F. revert c G. induction F as [|o ops O F IH]; intros c G; cbn [fold_left]; auto. apply IH. intros k.
  destruct o as [j v|j h]; cbn [apply1]; unfold set, set_hex, put; destruct j, k; cbn; try apply trim_unit; try (apply from_hex_unit; exact O); apply (G ChR) || apply (G ChG) || apply (G ChB) || apply (G ChA).
Qed.
Print Assumptions C154_setters.
(** A channel that was set is the nearest value from 0 to 1, for NaN 0; the others are as before. *)
Theorem C154_set c k v : (finite v = true -> val (get (set c k v) k) = Rmin 1 (Rmax 0 (val v))) /\ (is_nan _ _ v = true -> val (get (set c k v) k) = 0) /\
  (v = B754_infinity _ _ false -> val (get (set c k v) k) = 1) /\ (v = B754_infinity _ _ true -> val (get (set c k v) k) = 0) /\ forall j, j <> k -> get (set c k v) j = get c j.
Proof.
  assert (E : get (set c k v) k = trim_color v) by (destruct k; reflexivity). rewrite E. repeat split.
  - apply trim_finite.
  - intros N. rewrite trim_other by (destruct v; auto; discriminate). destruct v; try discriminate. apply v0.
  - intros ->. apply v1.
  - intros ->. apply v0.
  - intros j J. destruct k, j; try congruence; reflexivity.
Qed.
Print Assumptions C154_set.
(** A byte that was set is read back, and the bytes given to a constructor are. *)
Theorem C154_set_hex c k h : byte h -> get_hex (set_hex c k h) k = h /\ forall j, j <> k -> get_hex (set_hex c k h) j = get_hex c j.
Proof.
  intros H. unfold get_hex. split; [|intros j J; destruct k, j; try congruence; reflexivity]. replace (get (set_hex c k h) k) with (channel_from_hex h) by (destruct k; reflexivity). apply C64_hex_round_trip. exact H.
Qed.
Print Assumptions C154_set_hex.
Theorem C154_bytes r g b a : byte r -> byte g -> byte b -> byte a ->
  (let c := rgba_bytes r g b a in get_hex c ChR = r /\ get_hex c ChG = g /\ get_hex c ChB = b /\ get_hex c ChA = a) /\
  (let c := rgb_bytes r g b in get_hex c ChR = r /\ get_hex c ChG = g /\ get_hex c ChB = b /\ get_hex c ChA = 255%Z) /\
  (let c := rgba_default in get_hex c ChR = 0%Z /\ get_hex c ChG = 0%Z /\ get_hex c ChB = 0%Z /\ get_hex c ChA = 0%Z).
Proof.
  intros R G B A. unfold get_hex. cbn [get rgba_bytes rgb_bytes c_r c_g c_b c_a]. rewrite !C64_hex_round_trip by auto. repeat split; vm_compute; reflexivity.
Qed.
Print Assumptions C154_bytes.
(** A channel made from a float: the nearest number from 0 to 1, for NaN 0. *)
Definition made_from (v x : f32) : Prop :=
  (finite v = true -> val x = Rmin 1 (Rmax 0 (val v))) /\ (is_nan _ _ v = true -> val x = 0) /\
  (v = B754_infinity _ _ false -> val x = 1) /\ (v = B754_infinity _ _ true -> val x = 0).
Lemma made_trim v : made_from v (trim_color v).
Proof.
  refine (conj _ (conj _ (conj _ _))).
  - apply trim_finite.
  - intros N. rewrite trim_other by (destruct v; auto; discriminate). destruct v; try discriminate. apply v0.
  - intros ->. apply v1.
  - intros ->. apply v0.
Qed.
(** The constructors from floats put every number into its channel; a colour made without alpha is opaque. *)
Theorem C154_floats : (forall r g b a, let c := make_float r g b a in made_from r (get c ChR) /\ made_from g (get c ChG) /\ made_from b (get c ChB) /\ made_from a (get c ChA)) /\
  (forall r g b, let c := rgb_floats r g b in made_from r (get c ChR) /\ made_from g (get c ChG) /\ made_from b (get c ChB) /\ val (get c ChA) = 1) /\
  (forall r g b a, byte r -> byte g -> byte b ->
     let c := rgb_bytes_float r g b a in get_hex c ChR = r /\ get_hex c ChG = g /\ get_hex c ChB = b /\ made_from a (get c ChA)).
Proof.
  refine (conj _ (conj _ _)).
  - intros r g b a. refine (conj _ (conj _ (conj _ _))); apply made_trim.
  - intros r g b. refine (conj _ (conj _ (conj _ _))); try apply made_trim. apply v1.
  - intros r g b a HR HG HB. unfold get_hex. cbn [get rgb_bytes_float c_r c_g c_b c_a]. rewrite !C64_hex_round_trip by auto.
    refine (conj eq_refl (conj eq_refl (conj eq_refl _))). apply made_trim.
Qed.
Print Assumptions C154_floats.
(** Converting keeps a good colour and makes any other good. *)
Theorem C154_convert c : good_color (convert_color c) /\ (good_color c -> forall k, val (get (convert_color c) k) = val (get c k)).
Proof. split; [intros k; destruct k; apply trim_unit|]. intros G k. specialize (G k). destruct k; cbn in *; apply trim_same; auto. Qed.
Print Assumptions C154_convert.

(** ** Multiplying *)
Lemma fx32 : SpecFloat.fexp 24 128 = FLT_exp (-149) 24. Proof. reflexivity. Qed.
Lemma mult32 x y : finite x = true -> finite y = true -> Rabs (rnd32 (val x * val y)) < bpow radix2 128 ->
  finite (b32_mult NE x y) = true /\ val (b32_mult NE x y) = rnd32 (val x * val y).
Proof.
  intros X Y L. pose proof (Bmult_correct 24 128 eq_refl eq_refl binop_nan_pl32 NE x y) as H. change (BinarySingleNaN.round_mode NE) with ZnearestE in H. rewrite fx32 in H.
  rewrite Rlt_bool_true in H by exact L. destruct H as (H1 & H2 & _). rewrite X, Y in H2. split; auto.
Qed.
Lemma F32_val x : F32 (val x). Proof. rewrite <- fx32. apply generic_format_B2R. Qed.
Lemma big : 2 < bpow radix2 128. Proof. change 2 with (bpow radix2 1). apply bpow_lt. lia. Qed.
Lemma mult_unit x y : unit_channel x -> unit_channel y -> finite (b32_mult NE x y) = true /\ val (b32_mult NE x y) = rnd32 (val x * val y) /\ 0 <= rnd32 (val x * val y) <= val y.
Proof.
  intros (FX & X) (FY & Y). assert (B : 0 <= rnd32 (val x * val y) <= val y).
  { split; [rewrite <- rnd32_0; apply rnd32_le; nra|]. rewrite <- (rnd32_id (val y)) at 2 by apply F32_val. apply rnd32_le. nra. }
  destruct (mult32 x y FX FY) as (A & C); [rewrite Rabs_pos_eq by lra; pose proof big; lra|]. auto.
Qed.
(** Multiply keeps alpha; the other channels are always from 0 to 1; a factor of 1 changes nothing, and a factor from 0 to 1 makes no channel greater: it is the product
    rounded to a float. *)
Theorem C154_multiply c f : get (multiply c f) ChA = get c ChA /\ (forall k, k <> ChA -> unit_channel (get (multiply c f) k)) /\
  (good_color c -> unit_channel f -> forall k, k <> ChA -> val (get (multiply c f) k) = round radix2 (FLT_exp (-149) 24) ZnearestE (val f * val (get c k)) /\ val (get (multiply c f) k) <= val (get c k)) /\
  (good_color c -> forall k, val (get (multiply c one) k) = val (get c k)).
Proof.
  split; [reflexivity|]. split; [intros k K; destruct k; try congruence; apply trim_unit|].
  assert (M : good_color c -> forall f, unit_channel f -> forall k, k <> ChA -> val (get (multiply c f) k) = rnd32 (val f * val (get c k)) /\ 0 <= rnd32 (val f * val (get c k)) <= val (get c k)).
  { intros G g U k K. destruct (mult_unit g (get c k) U (G k)) as (A & B & C). destruct (G k) as (_ & GK).
    replace (get (multiply c g) k) with (trim_color (b32_mult NE g (get c k))) by (destruct k; try congruence; reflexivity).
    split; auto. rewrite trim_same; auto. split; auto. rewrite B. lra. }
  split.
  - intros G U k K. destruct (M G f U k K) as (A & B). rewrite A. split; auto. lra.
  - intros G k. destruct k; try reflexivity; (match goal with |- val (get _ ?k) = _ => destruct (M G one u1 k) as (A & _); [discriminate|] end; rewrite A, v1, Rmult_1_l; apply rnd32_id, F32_val).
Qed.
Print Assumptions C154_multiply.
(** An alpha outside of [0, 1] is passed on, so the comment's "ensuring the result stays in the range [0, 1]" holds of r, g and b only. *)
Theorem C154_multiply_alpha_refuted : exists c f, unit_channel f /\ val (get (multiply c f) ChA) = 2.
Proof. exists {| c_r := one; c_g := one; c_b := one; c_a := f32_of_Z 2 |}, one. split; [apply u1|]. vm_compute. lra. Qed.
Print Assumptions C154_multiply_alpha_refuted.

(** ** Interpolating *)
Lemma fx64 : SpecFloat.fexp 53 1024 = FLT_exp (-1074) 53. Proof. reflexivity. Qed.
Lemma big64 : 2 < bpow radix2 1024. Proof. change 2 with (bpow radix2 1). apply bpow_lt. lia. Qed.
Lemma widen_spec x : finite x = true -> Rabs (val x) <= 2 -> is_finite _ _ (widen x) = true /\ B2R _ _ (widen x) = val x.
Proof.
  intros F L. destruct x as [s| | |s m e b]; try discriminate; [split; reflexivity|]. cbn [widen].
  pose proof (binary_normalize_correct 53 1024 eq_refl eq_refl NE (cond_Zopp s (Zpos m)) e s) as H. change (BinarySingleNaN.round_mode NE) with ZnearestE in H. rewrite fx64 in H.
  change (F2R (Float radix2 (cond_Zopp s (Zpos m)) e)) with (val (B754_finite 24 128 s m e b)) in H.
  rewrite rnd64_id in H by (apply wide, F32_val). rewrite Rlt_bool_true in H by (pose proof big64; lra). tauto.
Qed.
Lemma narrow_spec x : is_finite 53 1024 x = true -> Rabs (rnd32 (B2R _ _ x)) <= 2 -> finite (narrow x) = true /\ val (narrow x) = rnd32 (B2R _ _ x).
Proof.
  intros F L. destruct x as [s| | |s m e b]; try discriminate; [split; [reflexivity|cbn; rewrite rnd32_0; auto]|]. cbn [narrow].
  pose proof (binary_normalize_correct 24 128 eq_refl eq_refl NE (cond_Zopp s (Zpos m)) e s) as H. change (BinarySingleNaN.round_mode NE) with ZnearestE in H. rewrite fx32 in H.
  change (F2R (Float radix2 (cond_Zopp s (Zpos m)) e)) with (B2R 53 1024 (B754_finite 53 1024 s m e b)) in H.
  rewrite Rlt_bool_true in H by (pose proof big; lra). tauto.
Qed.
Lemma mix_spec a b t : unit_channel a -> unit_channel b -> unit_channel t -> val (mix a b t) = Rmin 1 (Rmax 0 (mixR (val a) (val b) (val t))).
Proof.
  intros A B T. destruct (mixR_parts (val a) (val b) (val t) (proj2 A) (proj2 B) (proj2 T)) as (D & P & R & S & Q).
  destruct A as (FA & A), B as (FB & B), T as (FT & T). unfold mix.
  destruct (widen_spec a FA) as (WA & VA); [rewrite Rabs_pos_eq; lra|]. destruct (widen_spec t FT) as (WT & VT); [rewrite Rabs_pos_eq; lra|].
  destruct (mult_unit b t (conj FB B) (conj FT T)) as (FM & VM & _).
  destruct (widen_spec (b32_mult NE b t) FM) as (WM & VWM); [rewrite VM, Rabs_pos_eq; lra|]. rewrite VM in VWM.
  assert (O : is_finite 53 1024 f_one = true /\ B2R 53 1024 f_one = 1) by (split; [reflexivity|vm_compute; lra]). destruct O as (O1 & O2).
  pose proof (Bminus_correct 53 1024 eq_refl eq_refl binop_nan_pl64 NE f_one (widen t) O1 WT) as H. change (BinarySingleNaN.round_mode NE) with ZnearestE in H. rewrite fx64, O2, VT in H.
  rewrite Rlt_bool_true in H by (pose proof big64; rewrite Rabs_pos_eq; lra). destruct H as (H1 & H2 & _). fold (b64_minus NE f_one (widen t)) in H1, H2.
  pose proof (Bmult_correct 53 1024 eq_refl eq_refl binop_nan_pl64 NE (widen a) (b64_minus NE f_one (widen t))) as H. change (BinarySingleNaN.round_mode NE) with ZnearestE in H. rewrite fx64, VA, H1 in H.
  rewrite Rlt_bool_true in H by (pose proof big64; rewrite Rabs_pos_eq; lra). destruct H as (G1 & G2 & _). rewrite WA, H2 in G2. cbn [andb] in G2. fold (b64_mult NE (widen a) (b64_minus NE f_one (widen t))) in G1, G2.
  pose proof (Bplus_correct 53 1024 eq_refl eq_refl binop_nan_pl64 NE _ _ G2 WM) as H. change (BinarySingleNaN.round_mode NE) with ZnearestE in H. rewrite fx64, VWM, G1 in H.
  rewrite Rlt_bool_true in H by (pose proof big64; rewrite Rabs_pos_eq; lra). destruct H as (K1 & K2 & _). fold (b64_plus NE (b64_mult NE (widen a) (b64_minus NE f_one (widen t))) (widen (b32_mult NE b t))) in K1, K2.
  destruct (narrow_spec _ K2) as (N1 & N2); [rewrite K1, Rabs_pos_eq; lra|].
  destruct (trim_finite _ N1) as (_ & ->). rewrite N2, K1. reflexivity.
Qed.

(** The ratio that is used. *)
Definition used_ratio (t : R) : R := Rmin 1 (Rmax 0 t).
Lemma ratio_unit r : finite r = true -> let t := if f32_lt r zero then zero else if f32_lt one r then one else r in unit_channel t /\ val t = used_ratio (val r).
Proof.
  intros F. cbn zeta. unfold used_ratio. destruct (f32_lt r zero) eqn:A.
  - apply lt_val in A; auto. rewrite v0 in A. split; [apply u0|]. rewrite v0, Rmax_left, Rmin_right; lra.
  - apply ge_val in A; auto. rewrite v0 in A. destruct (f32_lt one r) eqn:B.
    + apply lt_val in B; auto. rewrite v1 in B. split; [apply u1|]. rewrite v1, Rmax_right, Rmin_left; lra.
    + apply ge_val in B; auto. rewrite v1 in B. split; [split; auto|]. rewrite Rmax_right, Rmin_right; lra.
Qed.
Lemma get_interpolate c1 c2 r k : get (interpolate_color c1 c2 r) k = mix (get c1 k) (get c2 k) (if f32_lt r zero then zero else if f32_lt one r then one else r).
Proof. destruct k; reflexivity. Qed.

(** The first colour up to ratio 0, the second from ratio 1 on, exactly. *)
Theorem C154_interpolate_ends c1 c2 r k : good_color c1 -> good_color c2 -> finite r = true ->
  (val r <= 0 -> val (get (interpolate_color c1 c2 r) k) = val (get c1 k)) /\ (1 <= val r -> val (get (interpolate_color c1 c2 r) k) = val (get c2 k)).
Proof.
  intros G1 G2 F. rewrite get_interpolate. destruct (ratio_unit r F) as (U & V). set (t := if f32_lt r zero then _ else _) in *.
  pose proof (proj2 (G1 k)). pose proof (proj2 (G2 k)).
  split; intros H1; rewrite mix_spec by auto; rewrite V; unfold used_ratio.
  - rewrite (Rmax_left 0 (val r)), (Rmin_right 1 0) by lra. rewrite mixR_0 by apply F32_val. rewrite Rmax_right, Rmin_right; lra.
  - rewrite (Rmax_right 0 (val r)), (Rmin_left 1 (val r)) by lra. rewrite mixR_1 by apply F32_val. rewrite Rmax_right, Rmin_right; lra.
Qed.
Print Assumptions C154_interpolate_ends.
(** Every channel of the result is from 0 to 1 and at most 2^-22 from the exact mixture, for all ratios that are not NaN or infinite. *)
Theorem C154_interpolate_near c1 c2 r k : good_color c1 -> good_color c2 -> finite r = true -> let t := used_ratio (val r) in
  unit_channel (get (interpolate_color c1 c2 r) k) /\ Rabs (val (get (interpolate_color c1 c2 r) k) - (val (get c1 k) * (1 - t) + val (get c2 k) * t)) <= / 2 ^ 22.
Proof.
  intros G1 G2 F. cbn zeta. rewrite get_interpolate. destruct (ratio_unit r F) as (U & V). set (t := if f32_lt r zero then _ else _) in *. split; [apply trim_unit|].
  rewrite mix_spec, <- V by auto. pose proof (proj2 (G1 k)) as X. pose proof (proj2 (G2 k)) as Y. pose proof (proj2 U) as Z. pose proof (mixR_error _ _ _ X Y Z) as E.
  replace (/ 2 ^ 22) with (bpow radix2 (-22)) by (change (bpow radix2 (-22)) with (/ IZR (2 ^ 22)); f_equal; lra).
  apply Rabs_le_inv in E. set (x := val (get c1 k)) in *. set (y := val (get c2 k)) in *. set (z := val t) in *. assert (0 <= x * (1 - z) + y * z <= 1) by nra.
  apply Rabs_le. unfold Rmin, Rmax. repeat destruct Rle_dec; lra.
Qed.
Print Assumptions C154_interpolate_near.
(** Channels that are 0 or at least 2^-100: every channel of the result is exactly between the two, so that a colour mixed with itself is itself. *)
Definition normal_color (c : color) : Prop := forall k, val (get c k) = 0 \/ / 2 ^ 100 <= val (get c k).
Theorem C154_interpolate_between c1 c2 r k : good_color c1 -> good_color c2 -> normal_color c1 -> normal_color c2 -> finite r = true ->
  Rmin (val (get c1 k)) (val (get c2 k)) <= val (get (interpolate_color c1 c2 r) k) <= Rmax (val (get c1 k)) (val (get c2 k)).
Proof.
  intros G1 G2 N1 N2 F. rewrite get_interpolate. destruct (ratio_unit r F) as (U & V). set (t := if f32_lt r zero then _ else _) in *. rewrite mix_spec by auto.
  pose proof (proj2 (G1 k)) as X. pose proof (proj2 (G2 k)) as Y. pose proof (proj2 U) as Z.
  assert (C100 : / 2 ^ 100 = bpow radix2 (-100)) by (change (bpow radix2 (-100)) with (/ IZR (2 ^ 100)); f_equal; rewrite pow_IZR; f_equal; lia).
  assert (S1 : mixR (val (get c1 k)) (val (get c1 k)) (val t) = val (get c1 k)) by (apply mixR_same; try apply F32_val; auto; rewrite <- C100; apply N1).
  assert (S2 : mixR (val (get c2 k)) (val (get c2 k)) (val t) = val (get c2 k)) by (apply mixR_same; try apply F32_val; auto; rewrite <- C100; apply N2).
  destruct (Rle_dec (val (get c1 k)) (val (get c2 k))) as [L|L].
  - pose proof (mixR_le _ _ _ _ (val t) Z (Rle_refl (val (get c1 k))) L) as A. pose proof (mixR_le _ _ _ _ (val t) Z L (Rle_refl (val (get c2 k)))) as B. rewrite S1 in A. rewrite S2 in B.
    clear - A B X Y L. unfold Rmin, Rmax. repeat destruct Rle_dec; lra.
  - assert (L' : val (get c2 k) <= val (get c1 k)) by lra.
    pose proof (mixR_le _ _ _ _ (val t) Z (Rle_refl (val (get c1 k))) L') as A. pose proof (mixR_le _ _ _ _ (val t) Z L' (Rle_refl (val (get c2 k)))) as B. rewrite S1 in A. rewrite S2 in B.
    clear - A B X Y L. unfold Rmin, Rmax. repeat destruct Rle_dec; lra.
Qed.
Print Assumptions C154_interpolate_between.
(** Not so for the smallest floats: half way from the smallest positive float to itself is 0. *)
Theorem C154_interpolate_tiny_refuted : exists c r, good_color c /\ finite r = true /\ 0 < val (get c ChR) /\ val (get (interpolate_color c c r) ChR) = 0.
Proof.
  exists {| c_r := binary_normalize 24 128 eq_refl eq_refl NE 1 (-149) false; c_g := zero; c_b := zero; c_a := one |}, (binary_normalize 24 128 eq_refl eq_refl NE 1 (-1) false).
  assert (P : f32_lt zero (binary_normalize 24 128 eq_refl eq_refl NE 1 (-149) false) = true /\ f32_lt (binary_normalize 24 128 eq_refl eq_refl NE 1 (-149) false) one = true) by (split; vm_compute; reflexivity).
  destruct P as (P & Q). apply lt_val in P; [|reflexivity|reflexivity]. apply lt_val in Q; [|reflexivity|reflexivity]. rewrite v0 in P. rewrite v1 in Q.
  split; [intros []; cbn [get c_r c_g c_b c_a]; try apply u0; try apply u1; split; [reflexivity|lra]|]. split; [reflexivity|]. split; [exact P|]. vm_compute. reflexivity.
Qed.
Print Assumptions C154_interpolate_tiny_refuted.
Lemma mult_nan x y : is_nan 53 1024 y = true -> is_nan _ _ (b64_mult NE x y) = true.
Proof. intros N. destruct y; try discriminate. destruct x; reflexivity. Qed.
Lemma plus_nan x y : is_nan 53 1024 x = true -> is_nan _ _ (b64_plus NE x y) = true.
Proof. intros N. destruct x; try discriminate. destruct y; reflexivity. Qed.
Lemma narrow_nan x : is_nan 53 1024 x = true -> is_nan _ _ (narrow x) = true.
Proof. destruct x; try discriminate. reflexivity. Qed.
Lemma nan_finite x : is_nan 24 128 x = true -> finite x = false.
Proof. destruct x; try discriminate. reflexivity. Qed.
(** A ratio that is not a number gives transparent black. *)
Theorem C154_interpolate_nan_refuted : exists r, forall c1 c2, good_color c1 -> good_color c2 -> forall k, val (get (interpolate_color c1 c2 r) k) = 0.
Proof.
  exists (B754_nan 24 128 false 1 eq_refl). intros c1 c2 _ _ k. rewrite get_interpolate. change (f32_lt (B754_nan 24 128 false 1 eq_refl) zero) with false. change (f32_lt one (B754_nan 24 128 false 1 eq_refl)) with false. cbn iota.
  unfold mix. assert (N : is_nan _ _ (b64_minus NE f_one (widen (B754_nan 24 128 false 1 eq_refl))) = true) by reflexivity.
  rewrite trim_other; [|apply nan_finite, narrow_nan, plus_nan, mult_nan, N]. pose proof (narrow_nan _ (plus_nan _ (widen (b32_mult NE (get c2 k) (B754_nan 24 128 false 1 eq_refl))) (mult_nan (widen (get c1 k)) _ N))) as M.
  destruct (narrow _); try discriminate. apply v0.
Qed.
Print Assumptions C154_interpolate_nan_refuted.
(** A case: halfway from black to a grey. *)
Example halfway : let g := channel_from_hex 201 in let c := {| c_r := g; c_g := g; c_b := g; c_a := one |} in
  get_hex (interpolate_color rgba_default c (binary_normalize 24 128 eq_refl eq_refl NE 1 (-1) false)) ChR = 101%Z /\ get_hex (multiply c (binary_normalize 24 128 eq_refl eq_refl NE 1 (-2) false)) ChG = 50%Z.
Proof. vm_compute. auto. Qed.
