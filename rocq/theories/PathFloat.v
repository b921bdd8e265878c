(** Dividing a double by a count, as UpsamplePathPartial does (path_utils.hpp 202): more pieces are never longer. *)
From Verif Require Import Base Cost CostFloat.
From Flocq Require Import IEEE754.Bits IEEE754.Binary Core.
From Coq Require Import Reals Lra.
Open Scope nat_scope.

(** path_utils.hpp 201-202: the count, an ssize_t (so no more than 2^63 - 1), converted to double. *)
Definition of_count (n : nat) : binary64 :=
  binary_normalize 53 1024 eq_refl eq_refl BinarySingleNaN.mode_NE (Z.min (Z.of_nat n) (2 ^ 63 - 1)) 0 false.
(** 202: individual_lengths[i] / new_count. *)
Definition b64_part (x : binary64) (n : nat) : binary64 := b64_div BinarySingleNaN.mode_NE x (of_count n).

Local Instance P53 : Prec_gt_0 53 := eq_refl.
Local Instance VE : Valid_exp (SpecFloat.fexp 53 1024) := BinarySingleNaN.fexp_correct 53 1024 eq_refl.

Definition cnt (n : nat) : R := rnd (IZR (Z.min (Z.of_nat n) (2 ^ 63 - 1))).
Lemma rnd_bpow e : (-1000 <= e <= 1000)%Z -> rnd (bpow radix2 e) = bpow radix2 e.
Proof.
  intros H. apply round_generic; [apply valid_rnd_N|]. apply generic_format_bpow. unfold SpecFloat.fexp, SpecFloat.emin. lia.
Qed.
Lemma rnd_1 : rnd 1 = 1%R.
Proof. apply (rnd_bpow 0). lia. Qed.
Lemma cnt_ge n : 1 <= n -> (1 <= cnt n)%R.
Proof. intros H. unfold cnt. rewrite <- rnd_1. apply rnd_le. apply IZR_le. lia. Qed.
Lemma cnt_lt n : (cnt n < fmax)%R.
Proof.
  unfold cnt. apply Rle_lt_trans with (rnd (bpow radix2 63)).
  - apply rnd_le. rewrite <- (IZR_Zpower radix2) by lia. apply IZR_le. cbn [radix_val radix2]. lia.
  - rewrite rnd_bpow by lia. apply bpow_lt. lia.
Qed.
Lemma cnt_mono n : (cnt n <= cnt (n + 1))%R.
Proof. apply rnd_le, IZR_le. lia. Qed.
Lemma of_count_spec n : 1 <= n -> is_finite 53 1024 (of_count n) = true /\ B2R 53 1024 (of_count n) = cnt n /\ Bsign 53 1024 (of_count n) = false.
Proof.
  intros Hn. unfold of_count. set (k := Z.min _ _). pose proof (binary_normalize_correct 53 1024 eq_refl eq_refl BinarySingleNaN.mode_NE k 0 false) as H.
  assert (EF : F2R (beta := radix2) {| Fnum := k; Fexp := 0 |} = IZR k) by (unfold F2R; cbn; apply Rmult_1_r). rewrite EF in H.
  change (round radix2 (SpecFloat.fexp 53 1024) (BinarySingleNaN.round_mode BinarySingleNaN.mode_NE) (IZR k)) with (cnt n) in H.
  pose proof (cnt_ge n Hn) as G. pose proof (cnt_lt n) as T. rewrite Rabs_pos_eq in H by lra. change (bpow radix2 1024) with fmax in H.
  destruct (Rlt_bool_spec (cnt n) fmax) as [HL|HL]; [|exfalso; lra]. destruct H as (H1 & H2 & H3). split; auto. split; auto. rewrite H3.
  rewrite Rcompare_Gt; auto. apply IZR_lt. lia.
Qed.
Lemma part_spec x n : b64_ok x -> 1 <= n -> b64_ok (b64_part x n) /\ bval (b64_part x n) = match bval x with Some r => Some (rnd (r / cnt n)) | None => None end /\
  (is_finite 53 1024 x = true -> Bsign 53 1024 (b64_part x n) = Bsign 53 1024 x).
Proof.
  intros O Hn. destruct (of_count_spec n Hn) as (F & V & S). pose proof (cnt_ge n Hn) as G. unfold b64_part. set (y := of_count n) in *. clearbody y.
  destruct (is_finite 53 1024 x) eqn:FX.
  - pose proof (bval_nonneg x _ O ltac:(unfold bval; rewrite FX; reflexivity)) as PX.
    pose proof (Bdiv_correct 53 1024 eq_refl eq_refl binop_nan_pl64 BinarySingleNaN.mode_NE x y) as H. rewrite V in H. specialize (H ltac:(lra)).
    change (round radix2 (SpecFloat.fexp 53 1024) (BinarySingleNaN.round_mode BinarySingleNaN.mode_NE) (B2R 53 1024 x / cnt n)) with (rnd (B2R 53 1024 x / cnt n)) in H.
    destruct (bval_rnd x (B2R 53 1024 x)) as [R1 R2]; [unfold bval; rewrite FX; auto|].
    assert (I : (0 < / cnt n <= 1)%R). { split; [apply Rinv_0_lt_compat; lra|]. rewrite <- Rinv_1. apply Rinv_le; lra. }
    assert (Q : (0 <= B2R 53 1024 x / cnt n <= B2R 53 1024 x)%R).
    { unfold Rdiv. split; [apply Rmult_le_pos; lra|]. rewrite <- (Rmult_1_r (B2R 53 1024 x)) at 2. apply Rmult_le_compat_l; lra. }
    assert (B : (0 <= rnd (B2R 53 1024 x / cnt n) <= B2R 53 1024 x)%R). { split; [rewrite <- rnd_0|rewrite <- R1 at 2]; apply rnd_le; lra. }
    rewrite Rabs_pos_eq in H by lra. change (bpow radix2 1024) with fmax in H. destruct (Rlt_bool_spec (rnd (B2R 53 1024 x / cnt n)) fmax) as [HL|HL]; [|exfalso; lra].
    change (Bdiv 53 1024 eq_refl eq_refl binop_nan_pl64 BinarySingleNaN.mode_NE x y) with (b64_div BinarySingleNaN.mode_NE x y) in H.
    set (z := b64_div BinarySingleNaN.mode_NE x y) in *. destruct H as (H1 & H2 & H3). rewrite FX in H2.
    assert (NN : is_nan 53 1024 z = false) by (destruct z; auto; discriminate H2). specialize (H3 NN). rewrite S, xorb_false_r in H3. split.
    + clearbody z. destruct z as [| | |s m e Hb]; cbn; auto; try discriminate. destruct s; auto. exfalso.
      assert (B2R 53 1024 (B754_finite 53 1024 true m e Hb) < 0)%R by (cbn; apply F2R_lt_0; reflexivity). rewrite H1 in H. lra.
    + split; [unfold bval; rewrite H2, FX, H1; auto|auto].
  - destruct x; try discriminate; cbn in O; [subst|contradiction]. destruct y as [| | |sy m e Hb]; try discriminate F.
    + exfalso. cbn in V. lra.
    + cbn in S. subst sy. split; [reflexivity|]. split; [reflexivity|discriminate].
Qed.

Lemma b64_part_one x : b64_ok x -> b64_part x 1 = x.
Proof.
  intros O. destruct (part_spec x 1 O ltac:(lia)) as (O1 & V & S). assert (C1 : cnt 1 = 1%R) by apply rnd_1.
  destruct (is_finite 53 1024 x) eqn:F.
  - unfold bval in V. rewrite F in V. destruct (is_finite 53 1024 (b64_part x 1)) eqn:F1; [|discriminate]. injection V as V. apply B2R_Bsign_inj; auto.
    rewrite V, C1. unfold Rdiv. rewrite Rinv_1, Rmult_1_r. apply (bval_rnd x). unfold bval. rewrite F. reflexivity.
  - unfold bval in V. rewrite F in V. destruct (is_finite 53 1024 (b64_part x 1)) eqn:F1; [discriminate|].
    destruct x; try discriminate; cbn in O; [subst|contradiction]. destruct (b64_part _ 1); try discriminate; cbn in O1; [subst|contradiction]. reflexivity.
Qed.
Lemma b64_part_less x n : b64_ok x -> 1 <= n -> @cltb b64_cost (b64_part x n) (b64_part x (n + 1)) = false.
Proof.
  intros O Hn. destruct (part_spec x n O Hn) as (O1 & V1 & _). destruct (part_spec x (n + 1) O ltac:(lia)) as (O2 & V2 & _). rewrite ltb_false_spec, V1, V2 by auto.
  destruct (bval x) as [r|] eqn:E; [|cbn; auto]. cbn [vlt]. pose proof (bval_nonneg x r O E). pose proof (cnt_ge n Hn). pose proof (cnt_mono n).
  assert (rnd (r / cnt (n + 1)) <= rnd (r / cnt n))%R; [|lra]. apply rnd_le. unfold Rdiv. apply Rmult_le_compat_l; auto. apply Rinv_le; lra.
Qed.
