(** C168: vector_math.hpp on vectors and pairs of double, with rounding. *)
From Verif Require Import Base VoxelFloat ChunkFloat VecFloatModel.
From Flocq Require Import IEEE754.Bits IEEE754.Binary Core Relative Plus_error.
From Coq Require Import Reals Lra Psatz.
Open Scope R_scope.
Local Instance P53' : Prec_gt_0 53 := eq_refl.
Local Instance VE' : Valid_exp (SpecFloat.fexp 53 1024) := BinarySingleNaN.fexp_correct 53 1024 eq_refl.

(** [f] is the double a number rounds to: no double is nearer, and of two as near the one with the even significand; infinity of the number's sign
    when that would be 2^1024 or more. *)
Definition nearest (f : fl) (x : R) : Prop :=
  let r := round radix2 (FLT_exp (-1074) 53) ZnearestE x in
  if Rlt_bool (Rabs r) (bpow radix2 1024) then fin f = true /\ B f = r else f = B754_infinity 53 1024 (Rlt_bool x 0).

Lemma rnd_0 : rndN 0 = 0. Proof. apply round_0, valid_rnd_N. Qed.
Lemma over_inf (f : fl) s : B2FF 53 1024 f = binary_overflow 53 1024 NE s -> f = B754_infinity 53 1024 s.
Proof. unfold binary_overflow. destruct f; cbn; intros H; inversion H; reflexivity. Qed.
Lemma sign_of (f : fl) : fin f = true -> B f <> 0 -> Bsign 53 1024 f = Rlt_bool (B f) 0.
Proof.
  destruct f as [s|s|s p H|s m e H]; cbn; intros F N; try congruence.
  destruct s; cbn; symmetry; [apply Rlt_bool_true, F2R_lt_0; reflexivity|apply Rlt_bool_false, F2R_ge_0; discriminate].
Qed.
Lemma big_nonzero x : Rlt_bool (Rabs (rndN x)) (bpow radix2 1024) = false -> x <> 0.
Proof. intros H E. rewrite E, rnd_0, Rabs_R0, Rlt_bool_true in H by apply bpow_gt_0. discriminate H. Qed.
Lemma lt_mult x y : x <> 0 -> y <> 0 -> Rlt_bool (x * y) 0 = xorb (Rlt_bool x 0) (Rlt_bool y 0).
Proof.
  intros X Y. destruct (Rlt_bool_spec x 0); destruct (Rlt_bool_spec y 0); cbn; (apply Rlt_bool_true + apply Rlt_bool_false); nra.
Qed.
Lemma lt_inv y : y <> 0 -> Rlt_bool (/ y) 0 = Rlt_bool y 0.
Proof.
  intros Y. destruct (Rlt_bool_spec y 0) as [H|H]; [apply Rlt_bool_true, Rinv_lt_0_compat, H|apply Rlt_bool_false; left; apply Rinv_0_lt_compat; lra].
Qed.

Lemma near_mult x y : fin x = true -> fin y = true -> nearest (b64_mult NE x y) (B x * B y).
Proof.
  intros FX FY. unfold nearest. cbv zeta. change (FLT_exp (-1074) 53) with (SpecFloat.fexp 53 1024).
  pose proof (Bmult_correct 53 1024 eq_refl eq_refl binop_nan_pl64 NE x y) as H. change (BinarySingleNaN.round_mode NE) with ZnearestE in H.
  destruct (Rlt_bool (Rabs (rndN (B x * B y))) (bpow radix2 1024)) eqn:E.
  - destruct H as (H1 & H2 & _). rewrite FX, FY in H2. split; [exact H2|exact H1].
  - apply big_nonzero in E. apply over_inf in H. unfold b64_mult. rewrite H. f_equal. rewrite lt_mult, !sign_of; auto; intros Z; apply E; rewrite Z; ring.
Qed.
Lemma near_div x y : fin x = true -> B y <> 0 -> nearest (b64_div NE x y) (B x / B y).
Proof.
  intros FX NY. unfold nearest. cbv zeta. change (FLT_exp (-1074) 53) with (SpecFloat.fexp 53 1024).
  assert (FY : fin y = true) by (destruct y; cbn in NY |- *; congruence).
  pose proof (Bdiv_correct 53 1024 eq_refl eq_refl binop_nan_pl64 NE x y NY) as H. change (BinarySingleNaN.round_mode NE) with ZnearestE in H.
  destruct (Rlt_bool (Rabs (rndN (B x / B y))) (bpow radix2 1024)) eqn:E.
  - destruct H as (H1 & H2 & _). rewrite FX in H2. split; [exact H2|exact H1].
  - apply big_nonzero in E. apply over_inf in H. unfold b64_div. rewrite H. f_equal. assert (NX : B x <> 0) by (intros Z; apply E; rewrite Z; unfold Rdiv; ring).
    unfold Rdiv. rewrite lt_mult, lt_inv, !sign_of; auto. apply Rinv_neq_0_compat, NY.
Qed.
Lemma over_sum x y : Rlt_bool (Rabs (rndN (B x + y))) (bpow radix2 1024) = false -> Rabs y < bpow radix2 1024 -> fin x = true ->
  generic_format radix2 (SpecFloat.fexp 53 1024) y -> B x <> 0.
Proof.
  intros E Y FX F Z. rewrite Z, Rplus_0_l, round_generic, Rlt_bool_true in E; auto using valid_rnd_N. discriminate E.
Qed.
Lemma near_plus x y : fin x = true -> fin y = true -> nearest (b64_plus NE x y) (B x + B y).
Proof.
  intros FX FY. unfold nearest. cbv zeta. change (FLT_exp (-1074) 53) with (SpecFloat.fexp 53 1024).
  pose proof (Bplus_correct 53 1024 eq_refl eq_refl binop_nan_pl64 NE x y FX FY) as H. change (BinarySingleNaN.round_mode NE) with ZnearestE in H.
  destruct (Rlt_bool (Rabs (rndN (B x + B y))) (bpow radix2 1024)) eqn:E.
  - destruct H as (H1 & H2 & _). split; [exact H2|exact H1].
  - destruct H as (H & S). apply over_inf in H. unfold b64_plus. rewrite H. f_equal.
    assert (NX : B x <> 0) by (apply (over_sum _ _ E); [apply abs_B2R_lt_emax|exact FX|apply generic_format_B2R]).
    assert (NY : B y <> 0) by (rewrite Rplus_comm in E; apply (over_sum _ _ E); [apply abs_B2R_lt_emax|exact FY|apply generic_format_B2R]).
    rewrite !sign_of in S by auto. rewrite sign_of by auto. destruct (Rlt_bool_spec (B x) 0); destruct (Rlt_bool_spec (B y) 0); try discriminate S; symmetry; [apply Rlt_bool_true; lra|apply Rlt_bool_false; lra].
Qed.
Lemma near_minus x y : fin x = true -> fin y = true -> nearest (b64_minus NE x y) (B x - B y).
Proof.
  intros FX FY. unfold nearest. cbv zeta. change (FLT_exp (-1074) 53) with (SpecFloat.fexp 53 1024).
  pose proof (Bminus_correct 53 1024 eq_refl eq_refl binop_nan_pl64 NE x y FX FY) as H. change (BinarySingleNaN.round_mode NE) with ZnearestE in H.
  destruct (Rlt_bool (Rabs (rndN (B x - B y))) (bpow radix2 1024)) eqn:E.
  - destruct H as (H1 & H2 & _). split; [exact H2|exact H1].
  - destruct H as (H & S). apply over_inf in H. unfold b64_minus. rewrite H. f_equal. unfold Rminus in *.
    assert (NX : B x <> 0) by (apply (over_sum _ _ E); [rewrite Rabs_Ropp; apply abs_B2R_lt_emax|exact FX|apply generic_format_opp, generic_format_B2R]).
    assert (NY : B y <> 0).
    { intros Z. rewrite Z, Ropp_0, Rplus_0_r, round_generic, Rlt_bool_true in E; auto using valid_rnd_N, generic_format_B2R, abs_B2R_lt_emax. discriminate E. }
    rewrite (sign_of x), (sign_of y) in S by auto. rewrite sign_of by auto. destruct (Rlt_bool_spec (B x) 0); destruct (Rlt_bool_spec (B y) 0); try discriminate S; symmetry; [apply Rlt_bool_true; lra|apply Rlt_bool_false; lra].
Qed.

(** Entry for entry: as long as the vector, and every entry as the given relation says. *)
Definition entries (out : list fl) (v : list fl) (rel : fl -> fl -> Prop) : Prop := Forall2 rel out v.
Definition entries2 (out v1 v2 : list fl) (rel : fl -> fl -> fl -> Prop) : Prop := length out = length v1 /\ forall i o a b, nth_error out i = Some o -> nth_error v1 i = Some a -> nth_error v2 i = Some b -> rel o a b.
Definition finite (v : list fl) : Prop := Forall (fun a => fin a = true) v.

Lemma entries_map g v (rel : fl -> fl -> Prop) : (forall a, In a v -> rel (g a) a) -> entries (map g v) v rel.
Proof. induction v as [|a v IH]; intros H; constructor; [apply H; left; reflexivity|apply IH; intros; apply H; right; assumption]. Qed.
Lemma entries2_map f v1 v2 (rel : fl -> fl -> fl -> Prop) : length v1 = length v2 -> (forall a b, In a v1 -> In b v2 -> rel (f a b) a b) -> entries2 (vd_each2 f v1 v2) v1 v2 rel.
Proof.
  intros L H. unfold vd_each2. rewrite L, Nat.eqb_refl. split; [rewrite map_length, combine_length; lia|].
  revert v2 L H. induction v1 as [|a v1 IH]; intros [|b v2] L H i o x y; try discriminate L.
  - destruct i; discriminate.
  - destruct i; cbn.
    + intros E1 E2 E3. injection E1 as <-. injection E2 as <-. injection E3 as <-. apply H; left; reflexivity.
    + apply IH; [cbn in L; congruence|]. intros; apply H; right; assumption.
Qed.

Theorem C168_scalar : forall v s, finite v -> fin s = true ->
  entries (vd_abs v) v (fun o a => fin o = true /\ B o = Rabs (B a)) /\
  entries (vd_scale v s) v (fun o a => nearest o (B a * B s)) /\
  entries (vd_add_scalar v s) v (fun o a => nearest o (B a + B s)) /\
  entries (vd_sub_scalar v s) v (fun o a => nearest o (B a - B s)).
Proof.
  intros v s F FS. unfold finite in F. rewrite Forall_forall in F. repeat split; apply entries_map; intros a I; [|apply near_mult|apply near_plus|apply near_minus]; auto.
  unfold b64_abs. rewrite is_finite_Babs, B2R_Babs. auto.
Qed.
Print Assumptions C168_scalar.

Theorem C168_vectors : forall v1 v2, finite v1 -> finite v2 -> length v1 = length v2 ->
  entries2 (vd_multiply v1 v2) v1 v2 (fun o a b => nearest o (B a * B b)) /\
  entries2 (vd_add v1 v2) v1 v2 (fun o a b => nearest o (B a + B b)) /\
  entries2 (vd_sub v1 v2) v1 v2 (fun o a b => nearest o (B a - B b)) /\
  (Forall (fun b => B b <> 0) v2 -> entries2 (vd_divide v1 v2) v1 v2 (fun o a b => nearest o (B a / B b))).
Proof.
  intros v1 v2 F1 F2 L. unfold finite in *. rewrite Forall_forall in F1, F2. refine (conj _ (conj _ (conj _ _))); [apply entries2_map|apply entries2_map|apply entries2_map|intros N; rewrite Forall_forall in N; apply entries2_map]; auto;
    intros a b I J; [apply near_mult|apply near_plus|apply near_minus|apply near_div]; auto.
Qed.
Print Assumptions C168_vectors.

Theorem C168_sizes_differ : forall v1 v2, length v1 <> length v2 -> vd_multiply v1 v2 = [] /\ vd_divide v1 v2 = [] /\ vd_add v1 v2 = [] /\ vd_sub v1 v2 = [].
Proof. intros v1 v2 H. apply Nat.eqb_neq in H. unfold vd_multiply, vd_divide, vd_add, vd_sub, vd_each2. rewrite H. auto. Qed.
Print Assumptions C168_sizes_differ.

Theorem C168_pairs : forall a1 a2 b1 b2 s, fin a1 = true -> fin a2 = true -> fin b1 = true -> fin b2 = true -> fin s = true ->
  let rel p x y := nearest (fst p) x /\ nearest (snd p) y in
  rel (pd_scale (a1, a2) s) (B a1 * B s) (B a2 * B s) /\
  rel (pd_multiply (a1, a2) (b1, b2)) (B a1 * B b1) (B a2 * B b2) /\
  rel (pd_add (a1, a2) (b1, b2)) (B a1 + B b1) (B a2 + B b2) /\
  rel (pd_sub (a1, a2) (b1, b2)) (B a1 - B b1) (B a2 - B b2) /\
  (B s <> 0 -> rel (pd_divide_by (a1, a2) s) (B a1 / B s) (B a2 / B s)) /\
  (B b1 <> 0 -> B b2 <> 0 -> rel (pd_divide (a1, a2) (b1, b2)) (B a1 / B b1) (B a2 / B b2)) /\
  (fin (fst (pd_abs (a1, a2))) = true /\ fin (snd (pd_abs (a1, a2))) = true /\ B (fst (pd_abs (a1, a2))) = Rabs (B a1) /\ B (snd (pd_abs (a1, a2))) = Rabs (B a2)).
Proof.
  intros a1 a2 b1 b2 s A1 A2 B1 B2 S rel. unfold rel, pd_scale, pd_multiply, pd_add, pd_sub, pd_divide_by, pd_divide, pd_abs, b64_abs. cbn [fst snd]. rewrite !is_finite_Babs, !B2R_Babs.
  repeat apply conj; auto using near_mult, near_plus, near_minus, near_div.
Qed.
Print Assumptions C168_pairs.

(** *** Division of a vector by a scalar *)
Theorem C168_divide_error : forall v s, finite v -> b (-1022) <= Rabs (B s) <= b 1022 ->
  entries (vd_divide_by v s) v (fun o a => b (-1021) <= Rabs (B a / B s) <= b 1022 -> fin o = true /\ Rabs (B o - B a / B s) <= (2 * b (-53) + b (-53) * b (-53)) * Rabs (B a / B s)).
Proof.
  intros v s F (L & U). unfold finite in F. rewrite Forall_forall in F. apply entries_map. intros a I (QL & QU). specialize (F a I).
  assert (NS : B s <> 0) by (intros Z; rewrite Z, Rabs_R0 in L; pose proof (b_pos (-1022)); lra).
  assert (O : fin f_one = true) by reflexivity. assert (V1 : B f_one = 1) by (vm_compute; lra).
  pose proof (Rabs_pos_lt _ NS) as PS.
  assert (I1 : Rabs (B f_one / B s) = / Rabs (B s)) by (rewrite V1; unfold Rdiv; rewrite Rmult_1_l, Rabs_inv; auto).
  assert (INV : forall p, / b p = b (- p)) by (intros p; rewrite (b_opaque p), (b_opaque (- p)); symmetry; apply bpow_opp).
  destruct (div_rel f_one s O NS) as (e & E & FI & VI).
  { rewrite I1. split.
    - change (-1022)%Z with (- (1022))%Z. rewrite <- INV. apply Rinv_le; auto.
    - eapply Rle_trans; [apply Rinv_le; [apply b_pos|exact L]|]. rewrite INV. apply b_le. lia. }
  assert (U53 : b (-53) <= / 4) by (assert (Q : b (-2) = / 4) by (rewrite (b_opaque (-2)); reflexivity); rewrite <- Q; apply b_le; lia). pose proof (b_pos (-53)) as P53.
  assert (E1 : / 2 <= 1 + e <= 2) by (apply two_sided in E; lra).
  assert (PR : B a * B (b64_div NE f_one s) = B a / B s * (1 + e)) by (rewrite VI, V1; field; exact NS).
  destruct (mult_rel a (b64_div NE f_one s) F FI) as (e' & E' & FO & VO).
  { rewrite PR, Rabs_mult, (Rabs_pos_eq (1 + e)) by lra. pose proof (Rabs_pos (B a / B s)).
    assert (D : b (-1021) = 2 * b (-1022)) by (change (-1021)%Z with (1 + -1022)%Z; rewrite b_add, (b_opaque 1); reflexivity).
    assert (D' : b 1023 = 2 * b 1022) by (change 1023%Z with (1 + 1022)%Z; rewrite b_add, (b_opaque 1); reflexivity). split; nra. }
  split; [exact FO|]. rewrite VO, PR. replace (B a / B s * (1 + e) * (1 + e') - B a / B s) with (B a / B s * (e + e' + e * e')) by ring. rewrite Rabs_mult, Rmult_comm. apply Rmult_le_compat_r; [apply Rabs_pos|].
  eapply Rle_trans; [apply Rabs_triang|]. rewrite Rabs_mult. pose proof (Rabs_triang e e'). pose proof (Rabs_pos e). pose proof (Rabs_pos e'). nra.
Qed.
Print Assumptions C168_divide_error.

(** *** Sum *)
Lemma plus_fin x y : fin (b64_plus NE x y) = true -> fin x = true /\ fin y = true.
Proof. destruct x as [s|s|s p H|s m e H], y as [s'|s'|s' p' H'|s' m' e' H']; try destruct s; try destruct s'; cbn; intros F; try discriminate F; auto. Qed.
Fixpoint total (v : list fl) : R := match v with [] => 0 | a :: v => B a + total v end.
Fixpoint total_abs (v : list fl) : R := match v with [] => 0 | a :: v => Rabs (B a) + total_abs v end.
Lemma total_le v : Rabs (total v) <= total_abs v.
Proof. induction v as [|a v IH]; cbn; [rewrite Rabs_R0; lra|]. eapply Rle_trans; [apply Rabs_triang|lra]. Qed.
Lemma plus_err x y : fin (b64_plus NE x y) = true -> exists e, Rabs e <= b (-53) /\ B (b64_plus NE x y) = (B x + B y) * (1 + e).
Proof.
  intros F. destruct (plus_fin _ _ F) as (FX & FY). pose proof (near_plus x y FX FY) as H. unfold nearest in H. cbv zeta in H. change (FLT_exp (-1074) 53) with (SpecFloat.fexp 53 1024) in H.
  destruct (sum_rel (B x) (B y)) as (e & E & V); try apply generic_format_B2R. exists e. split; [exact E|].
  destruct (Rlt_bool _ _); [destruct H; congruence|]. rewrite H in F. discriminate F.
Qed.
Lemma sum_from v : forall s, fin (fold_left (fun sum element => b64_plus NE sum element) v s) = true -> fin s = true /\ finite v /\
  Rabs (B (fold_left (fun sum element => b64_plus NE sum element) v s) - (B s + total v)) <= ((1 + b (-53)) ^ length v - 1) * (Rabs (B s) + total_abs v).
Proof.
  induction v as [|a v IH]; intros s F; cbn [fold_left length total total_abs] in *.
  - split; [exact F|]. split; [constructor|]. replace (B s - (B s + 0)) with 0 by ring. rewrite Rabs_R0. cbn. lra.
  - destruct (IH _ F) as (FS & FV & E). destruct (plus_fin _ _ FS) as (F1 & F2). split; [exact F1|]. split; [constructor; assumption|].
    destruct (plus_err _ _ FS) as (e & Ee & V). rewrite V in E. set (u := b (-53)) in *. pose proof (b_pos (-53)) as PU. fold u in PU. set (p := (1 + u) ^ length v) in *.
    assert (P1 : 1 <= p) by (apply pow_R1_Rle; lra). cbn [pow]. fold p.
    set (q := B s + B a) in *. pose proof (Rabs_triang (B s) (B a)) as TQ. fold q in TQ. clear IH. match type of E with Rabs (?x - _) <= _ => set (f := x) in * end.
    replace (f - (B s + (B a + total v))) with ((f - (q * (1 + e) + total v)) + q * e) by (unfold q; ring). eapply Rle_trans; [apply Rabs_triang|]. rewrite (Rabs_mult q e).
    assert (QE : Rabs (q * (1 + e)) <= Rabs q * (1 + u)).
    { rewrite Rabs_mult. apply Rmult_le_compat_l; [apply Rabs_pos|]. eapply Rle_trans; [apply Rabs_triang|]. rewrite Rabs_R1. lra. }
    pose proof (Rabs_pos q) as Q0. pose proof (Rabs_pos e) as E0. assert (T0 : 0 <= total_abs v) by (eapply Rle_trans; [apply Rabs_pos|apply total_le]).
    assert (X1 : (p - 1) * (Rabs (q * (1 + e)) + total_abs v) <= (p - 1) * (Rabs q * (1 + u) + total_abs v)) by (apply Rmult_le_compat_l; lra).
    assert (X2 : Rabs q * Rabs e <= Rabs q * u) by (apply Rmult_le_compat_l; lra).
    assert (X3 : (p * (1 + u) - 1) * Rabs q <= (p * (1 + u) - 1) * (Rabs (B s) + Rabs (B a))) by (apply Rmult_le_compat_l; nra).
    assert (X4 : 0 <= p * u * total_abs v) by (apply Rmult_le_pos; [apply Rmult_le_pos; lra|exact T0]). nra.
Qed.
Theorem C168_sum : forall v, fin (vd_sum v) = true ->
  finite v /\ Rabs (B (vd_sum v) - total v) <= ((1 + b (-53)) ^ (length v - 1) - 1) * total_abs v.
Proof.
  intros [|a v] F; cbn [length].
  - split; [constructor|]. cbn. rewrite Rminus_0_r, Rabs_R0. lra.
  - unfold vd_sum in *. cbn [fold_left] in *. destruct (sum_from v _ F) as (FS & FV & E). destruct (plus_fin _ _ FS) as (_ & FA). split; [constructor; assumption|].
    assert (V : B (b64_plus NE (f_of_Z 0) a) = B a).
    { pose proof (near_plus (f_of_Z 0) a eq_refl FA) as H. unfold nearest in H. cbv zeta in H. change (FLT_exp (-1074) 53) with (SpecFloat.fexp 53 1024) in H. change (B (f_of_Z 0)) with 0 in H.
      rewrite Rplus_0_l, round_generic, Rlt_bool_true in H; [apply H|apply abs_B2R_lt_emax|apply valid_rnd_N|apply generic_format_B2R]. }
    rewrite V in E. cbn [total total_abs]. replace (S (length v) - 1)%nat with (length v) by lia. exact E.
Qed.
Print Assumptions C168_sum.

(** Whole numbers are added without error while their absolute values add up to 2^53 at most. *)
Lemma whole_format z : (Z.abs z <= 2 ^ 53)%Z -> generic_format radix2 (SpecFloat.fexp 53 1024) (IZR z).
Proof.
  intros H. destruct (Z.eq_dec (Z.abs z) (2 ^ 53)) as [E|E].
  - assert (G : generic_format radix2 (SpecFloat.fexp 53 1024) (IZR (2 ^ 53))) by (rewrite (IZR_Zpower radix2) by discriminate; apply generic_format_bpow; unfold SpecFloat.fexp, SpecFloat.emin; lia).
    assert (C : z = (2 ^ 53)%Z \/ z = (- 2 ^ 53)%Z) by lia. destruct C as [->| ->]; [exact G|rewrite opp_IZR; apply generic_format_opp, G].
  - apply (generic_format_FLT radix2 (-1074) 53). apply (FLT_spec radix2 (-1074) 53 _ (Float radix2 z 0)); [unfold F2R; cbn [Fnum Fexp]; rewrite Rmult_1_r; reflexivity| |discriminate].
    cbn [Fnum]. change (Zpower radix2 53) with (2 ^ 53)%Z. lia.
Qed.
Lemma whole_from v : forall s, fin s = true -> finite v -> (exists z, B s = IZR z) -> Forall (fun a => exists z, B a = IZR z) v -> Rabs (B s) + total_abs v <= IZR (2 ^ 53) ->
  let r := fold_left (fun sum element => b64_plus NE sum element) v s in fin r = true /\ B r = B s + total v.
Proof.
  induction v as [|a v IH]; intros s FS FV (z & Z) W L; cbn [fold_left total total_abs] in *; [split; [exact FS|lra]|].
  inversion FV as [|? ? FA FV']. inversion W as [|? ? (y & Y) W']. subst.
  assert (T0 : 0 <= total_abs v) by (eapply Rle_trans; [apply Rabs_pos|apply total_le]). pose proof (Rabs_triang (B s) (B a)) as TR.
  assert (SUM : B s + B a = IZR (z + y)) by (rewrite plus_IZR; congruence).
  assert (SMALL : (Z.abs (z + y) <= 2 ^ 53)%Z) by (apply le_IZR; rewrite abs_IZR, <- SUM; lra).
  pose proof (near_plus s a FS FA) as H. unfold nearest in H. cbv zeta in H. change (FLT_exp (-1074) 53) with (SpecFloat.fexp 53 1024) in H.
  rewrite SUM, round_generic in H by (apply valid_rnd_N || apply whole_format, SMALL).
  rewrite Rlt_bool_true in H.
  2:{ rewrite <- abs_IZR. apply Rle_lt_trans with (IZR (2 ^ 53)); [apply IZR_le, SMALL|]. rewrite (IZR_Zpower radix2) by discriminate. apply bpow_lt. reflexivity. }
  destruct H as (F & V). destruct (IH (b64_plus NE s a) F FV') as (F' & V'); [exists (z + y)%Z; exact V|exact W'|rewrite V, <- SUM; lra|].
  split; [exact F'|]. rewrite V', V, <- SUM. ring.
Qed.
Theorem C168_sum_whole : forall v, finite v -> Forall (fun a => exists z, B a = IZR z) v -> total_abs v <= IZR (2 ^ 53) -> fin (vd_sum v) = true /\ B (vd_sum v) = total v.
Proof.
  intros v F W L. destruct (whole_from v (f_of_Z 0) eq_refl F) as (A & C); [exists 0%Z; reflexivity|exact W|change (B (f_of_Z 0)) with 0; rewrite Rabs_R0; lra|].
  split; [exact A|]. etransitivity; [exact C|]. change (B (f_of_Z 0)) with 0. ring.
Qed.
Print Assumptions C168_sum_whole.

(** Division by zero: no entry is a number. *)
Theorem C168_divide_zero : forall v s, finite v -> fin s = true -> B s = 0 ->
  entries (vd_divide_by v s) v (fun o a => fin o = false /\ (B a <> 0 <-> is_nan 53 1024 o = false)) /\
  (forall a, In a v -> let p := pd_divide_by (a, a) s in fin (fst p) = false /\ fin (snd p) = false).
Proof.
  intros v s F FS Z. unfold finite in F. rewrite Forall_forall in F.
  assert (SZ : exists sg, s = B754_zero 53 1024 sg).
  { destruct s as [sg|sg|sg p H|sg m e H]; try discriminate FS; [exists sg; reflexivity|]. exfalso. cbn in Z. apply eq_0_F2R in Z. destruct sg; discriminate Z. }
  destruct SZ as (sg & ->). split.
  - apply entries_map. intros a I. specialize (F a I). destruct a as [sa|sa|sa p H|sa m e H]; try discriminate F; destruct sg; cbn; split; try reflexivity; split; intros Q; try congruence; try discriminate Q; try reflexivity; intros Q2; apply eq_0_F2R in Q2; destruct sa; discriminate Q2.
  - intros a I. specialize (F a I). destruct a as [sa|sa|sa p H|sa m e H]; try discriminate F; destruct sg; cbn; auto.
Qed.
Print Assumptions C168_divide_zero.

(** Division by a scalar is not the division of the entries: 49 / 49 gives 1 - 2^-53 in a vector and 1 in a pair, and the smallest double by itself gives infinity. *)
Theorem C168_divide_refuted :
  (exists a, map bits_of_b64 (vd_divide_by [a] a) = [4607182418800017407%Z] /\ map bits_of_b64 (vd_divide [a] [a]) = [4607182418800017408%Z] /\
    bits_of_b64 (fst (pd_divide_by (a, a) a)) = 4607182418800017408%Z) /\
  (exists a, fin a = true /\ vd_divide_by [a] a = [B754_infinity 53 1024 false] /\ map bits_of_b64 (vd_divide [a] [a]) = [4607182418800017408%Z]).
Proof.
  split; [exists (f_of_Z 49)|exists (b64_of_bits 1)].
  - split; [vm_compute; reflexivity|split; vm_compute; reflexivity].
  - split; [vm_compute; reflexivity|split; vm_compute; reflexivity].
Qed.
Print Assumptions C168_divide_refuted.

(** Vectors that meet the hypotheses. *)
Example ex_vectors : let v := [f_of_Z 3; f_of_Z (-7)] in finite v /\ map bits_of_b64 (vd_add v v) = map bits_of_b64 [f_of_Z 6; f_of_Z (-14)] /\ map bits_of_b64 (vd_divide_by v (f_of_Z 2)) = [4609434218613702656%Z; 13838435755002691584%Z] /\
  bits_of_b64 (vd_sum v) = bits_of_b64 (f_of_Z (-4)) /\ vd_add v [f_of_Z 1] = [].
Proof. cbv zeta. split; [repeat constructor|]. vm_compute. auto. Qed.
(** 0.1 + 0.2 + 0.3: the sum is off, within the bound. *)
Example ex_sum : fin (vd_sum [b64_of_bits 4591870180066957722; b64_of_bits 4596373779694328218; b64_of_bits 4599075939470750515]) = true.
Proof. vm_compute. reflexivity. Qed.
(** The largest double twice: infinity. *)
Example ex_overflow : vd_add [b64_of_bits 9218868437227405311] [b64_of_bits 9218868437227405311] = [B754_infinity 53 1024 false].
Proof. vm_compute. reflexivity. Qed.
