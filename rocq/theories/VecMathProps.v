(** vector_math.hpp on integers (C127) and the standard deviation (C128). *)
From Verif Require Import Base MathModel MathProps VoxelModel VoxelProofs VoxelGeom VoxelGeomProofs VoxelFloat VecMathModel.
From Flocq Require Import IEEE754.Bits IEEE754.Binary Core.
From Coq Require Import Reals Lra Lia Psatz Permutation.
Local Instance P53 : Prec_gt_0 53 := eq_refl.
Local Instance VE : Valid_exp (SpecFloat.fexp 53 1024) := BinarySingleNaN.fexp_correct 53 1024 eq_refl.

(** ** The loop *)
Lemma each_spec {A} (f : A -> outcome Z) (g : A -> Z) l : (forall a, In a l -> f a = Ok (g a)) -> each f l = Ok (map g l).
Proof. induction l as [|a l IH]; intros H; [reflexivity|]. cbn. rewrite (H a (or_introl eq_refl)). cbn. rewrite IH by (intros; apply H; right; assumption). reflexivity. Qed.
Lemma each_ub {A} (f : A -> outcome Z) l a : In a l -> f a = UB -> (forall b, In b l -> (exists z, f b = Ok z) \/ f b = UB) -> each f l = UB.
Proof.
  induction l as [|b l IH]; intros I U H; [contradiction|]. cbn. destruct (H b (or_introl eq_refl)) as [[z E]|E]; rewrite E; cbn; [|reflexivity]. destruct I as [->|I]; [congruence|]. rewrite IH; auto. intros c C. apply H. right. exact C.
Qed.
Definition zip (f : Z -> Z -> Z) (v1 v2 : list Z) : list Z := map (fun p => f (fst p) (snd p)) (combine v1 v2).

(** ** Doubles *)
Open Scope R_scope.
Lemma of_Z_signed i : (Z.abs i < 2 ^ 53)%Z -> is_finite 53 1024 (f_of_Z i) = true /\ B (f_of_Z i) = IZR i.
Proof.
  intros Hi. unfold f_of_Z. pose proof (binary_normalize_correct 53 1024 eq_refl eq_refl NE i 0 false) as H. change (BinarySingleNaN.round_mode NE) with ZnearestE in H.
  assert (E : F2R (Float radix2 i 0) = IZR i) by (unfold F2R; cbn [Fnum Fexp]; change (bpow radix2 0) with 1; ring).
  rewrite round_generic in H; [|apply valid_rnd_N|apply fmt; lia]. rewrite E in H. change (bpow radix2 1024) with (b 1024) in H. rewrite Rlt_bool_true in H; [tauto|].
  rewrite <- abs_IZR. apply Rlt_trans with (b 53); [|apply b_lt; reflexivity]. rewrite b_opaque, <- (IZR_Zpower radix2) by discriminate. apply IZR_lt. exact Hi.
Qed.
Lemma trunc_Z x z : B x = IZR z -> Btrunc 53 1024 x = z.
Proof. intros E. apply eq_IZR. rewrite Btrunc_correct by reflexivity. rewrite round_FIX_IZR, E, Ztrunc_IZR. reflexivity. Qed.
Lemma fits32 z : int_fits 32 z = true <-> (- 2147483648 <= z < 2147483648)%Z.
Proof. unfold int_fits. change (2 ^ (32 - 1))%Z with 2147483648%Z. rewrite Bool.andb_true_iff, Z.leb_le, Z.ltb_lt. tauto. Qed.
(** The product of two ints as doubles, converted back: exact, or undefined when it does not fit. *)
Lemma product32 x y : int_fits 32 x = true -> int_fits 32 y = true -> int_of_double 32 (b64_mult NE (f_of_Z x) (f_of_Z y)) = int_ck 32 (x * y).
Proof.
  intros X Y. apply fits32 in X, Y. destruct (of_Z_signed x ltac:(lia)) as [FX BX]. destruct (of_Z_signed y ltac:(lia)) as [FY BY].
  assert (P : (Z.abs (x * y) <= 2 ^ 62)%Z) by (rewrite Z.abs_mul; change (2 ^ 62)%Z with (2147483648 * 2147483648)%Z; apply Z.mul_le_mono_nonneg; lia).
  pose proof (Bmult_correct 53 1024 eq_refl eq_refl binop_nan_pl64 NE (f_of_Z x) (f_of_Z y)) as H. change (BinarySingleNaN.round_mode NE) with ZnearestE in H. rewrite BX, BY, <- mult_IZR in H. change (bpow radix2 1024) with (b 1024) in H.
  assert (E62 : rndN (IZR (2 ^ 62)) = IZR (2 ^ 62)). { rewrite (IZR_Zpower radix2) by discriminate. apply round_generic; [apply valid_rnd_N|]. apply generic_format_bpow. unfold SpecFloat.fexp, SpecFloat.emin. lia. }
  assert (UB62 : Rabs (rndN (IZR (x * y))) <= IZR (2 ^ 62)).
  { rewrite <- E62. assert (V : forall z, (z <= 2 ^ 62)%Z -> rndN (IZR z) <= rndN (IZR (2 ^ 62))) by (intros z Hz; apply round_le; [apply VE | apply valid_rnd_N | apply IZR_le; exact Hz]).
    apply Rabs_le. split; [|apply V; lia]. rewrite <- round_NE_opp. change (round radix2 (SpecFloat.fexp 53 1024) ZnearestE) with rndN. rewrite <- opp_IZR. apply round_le; [apply VE | apply valid_rnd_N | apply IZR_le; lia]. }
  rewrite Rlt_bool_true in H. 2:{ apply Rle_lt_trans with (1 := UB62). rewrite (IZR_Zpower radix2) by discriminate. rewrite (b_opaque 1024). apply bpow_lt. reflexivity. }
  destruct H as (H1 & H2 & _). rewrite FX, FY in H2. cbn [andb] in H2. change (Bmult 53 1024 eq_refl eq_refl binop_nan_pl64 NE (f_of_Z x) (f_of_Z y)) with (b64_mult NE (f_of_Z x) (f_of_Z y)) in H1, H2. unfold int_of_double. rewrite H2.
  assert (Q : forall z, (Z.abs z <= 2 ^ 53)%Z -> rndN (IZR z) = IZR z).
  { intros z Hz. destruct (Z.eq_dec (Z.abs z) (2 ^ 53)) as [E|NE]; [|replace (IZR z) with (F2R (Float radix2 z 0)) by (unfold F2R; cbn [Fnum Fexp]; change (bpow radix2 0) with 1; ring); apply round_generic; [apply valid_rnd_N | apply fmt; lia]].
    apply round_generic; [apply valid_rnd_N|]. assert (Z2 : z = (2 ^ 53)%Z \/ z = (- 2 ^ 53)%Z) by lia. assert (G : generic_format radix2 (SpecFloat.fexp 53 1024) (IZR (2 ^ 53))) by (rewrite (IZR_Zpower radix2) by discriminate; apply generic_format_bpow; unfold SpecFloat.fexp, SpecFloat.emin; lia). destruct Z2 as [->| ->]; [exact G | rewrite opp_IZR; apply generic_format_opp, G]. }
  destruct (Z_le_gt_dec (Z.abs (x * y)) (2 ^ 53)) as [L|G].
  - rewrite (trunc_Z _ (x * y)); [reflexivity|]. rewrite H1. apply Q, L.
  - assert (NF : int_fits 32 (x * y) = false) by (destruct (int_fits 32 (x * y)) eqn:F; [apply fits32 in F; lia|reflexivity]). unfold int_ck at 2. rewrite NF. unfold int_ck. replace (int_fits 32 (Btrunc 53 1024 (b64_mult NE (f_of_Z x) (f_of_Z y)))) with false; [reflexivity|]. symmetry.
    destruct (int_fits 32 (Btrunc 53 1024 (b64_mult NE (f_of_Z x) (f_of_Z y)))) eqn:F; [|reflexivity]. exfalso. apply fits32 in F. assert (T : IZR (Btrunc 53 1024 (b64_mult NE (f_of_Z x) (f_of_Z y))) = IZR (Ztrunc (rndN (IZR (x * y))))) by (rewrite Btrunc_correct, round_FIX_IZR, H1 by reflexivity; reflexivity).
    apply eq_IZR in T. rewrite T in F. destruct (Z_le_gt_dec 0 (x * y)) as [P0|N0].
    + assert (IZR (2 ^ 53) <= rndN (IZR (x * y))) by (rewrite <- (Q (2 ^ 53)%Z) by reflexivity; apply round_le; [apply VE | apply valid_rnd_N | apply IZR_le; lia]). apply Ztrunc_le in H. rewrite Ztrunc_IZR in H. lia.
    + assert (rndN (IZR (x * y)) <= IZR (- 2 ^ 53)) by (rewrite <- (Q (- 2 ^ 53)%Z) by reflexivity; apply round_le; [apply VE | apply valid_rnd_N | apply IZR_le; lia]). apply Ztrunc_le in H. rewrite Ztrunc_IZR in H. lia.
Qed.
Definition all_ints (w : Z) (v : list Z) : Prop := Forall (fun a => int_fits w a = true) v.

(** Multiplying vectors of int: the products, or undefined as soon as one does not fit (as for int itself).  By a scalar likewise; no result for different sizes. *)
Theorem C127_multiply : forall v1 v2 s, all_ints 32 v1 -> all_ints 32 v2 -> int_fits 32 s = true ->
  (length v1 = length v2 -> (all_ints 32 (zip Z.mul v1 v2) -> vm_multiply 32 v1 v2 = Ok (zip Z.mul v1 v2)) /\ (~ all_ints 32 (zip Z.mul v1 v2) -> vm_multiply 32 v1 v2 = UB)) /\
  (length v1 <> length v2 -> vm_multiply 32 v1 v2 = Ok []) /\
  (all_ints 32 (map (fun a => a * s)%Z v1) -> vm_scale_int 32 v1 s = Ok (map (fun a => a * s)%Z v1)) /\ (~ all_ints 32 (map (fun a => a * s)%Z v1) -> vm_scale_int 32 v1 s = UB).
Proof.
  intros v1 v2 s A1 A2 S. assert (DEC : forall l, all_ints 32 l \/ exists z, In z l /\ int_fits 32 z = false).
  { induction l as [|z l [IH|(y & I & F)]]; [left; constructor| |right; exists y; split; [right|]; assumption]. destruct (int_fits 32 z) eqn:F; [left; constructor; assumption | right; exists z; split; [left; reflexivity | exact F]]. }
  assert (CK : forall z, (exists y, int_ck 32 z = Ok y) \/ int_ck 32 z = UB) by (intros z; unfold int_ck; destruct (int_fits 32 z); eauto).
  unfold all_ints in A1, A2. rewrite Forall_forall in A1, A2. split; [|split].
  - intros L. unfold vm_multiply, each2. rewrite L, Nat.eqb_refl. assert (E : forall p, In p (combine v1 v2) -> int_of_double 32 (b64_mult NE (f_of_Z (fst p)) (f_of_Z (snd p))) = int_ck 32 (fst p * snd p)).
    { intros [x y] I. cbn [fst snd]. apply product32; [apply A1; eapply in_combine_l; exact I | apply A2; eapply in_combine_r; exact I]. }
    split; intros H.
    + apply each_spec. intros p I. rewrite E by exact I. unfold int_ck. unfold all_ints in H. rewrite Forall_forall in H. rewrite (H (fst p * snd p)%Z); [reflexivity|]. unfold zip. apply (in_map (fun p => (fst p * snd p)%Z)), I.
    + destruct (DEC (zip Z.mul v1 v2)) as [D|(z & I & F)]; [contradiction|]. apply in_map_iff in I. destruct I as (p & <- & I). apply (each_ub _ _ p I); [rewrite E by exact I; unfold int_ck; rewrite F; reflexivity|]. intros q Q. rewrite E by exact Q. apply CK.
  - intros L. unfold vm_multiply, each2. apply Nat.eqb_neq in L. rewrite L. reflexivity.
  - unfold vm_scale_int, vm_scale. assert (E : forall a, In a v1 -> int_of_double 32 (b64_mult NE (f_of_Z a) (f_of_Z s)) = int_ck 32 (a * s)) by (intros a I; apply product32; [apply A1, I | exact S]). split; intros H.
    + apply each_spec. intros a I. rewrite E by exact I. unfold int_ck. unfold all_ints in H. rewrite Forall_forall in H. rewrite (H (a * s)%Z); [reflexivity|]. apply (in_map (fun a => (a * s)%Z)), I.
    + destruct (DEC (map (fun a => (a * s)%Z) v1)) as [D|(z & I & F)]; [contradiction|]. apply in_map_iff in I. destruct I as (a & <- & I). apply (each_ub _ _ a I); [rewrite E by exact I; unfold int_ck; rewrite F; reflexivity|]. intros q Q. rewrite E by exact Q. apply CK.
Qed.
Print Assumptions C127_multiply.

(** Any double as the scalar: each element is the product rounded to a double and cut off towards zero; as soon as one is infinite, NaN or does not fit
    the type, the behaviour is undefined, and there is no other outcome. *)
Theorem C127_scale : forall w v s,
  (exists out, vm_scale w v s = Ok out /\
     Forall2 (fun a q => is_finite 53 1024 (b64_mult NE (f_of_Z a) s) = true /\ q = Ztrunc (B (b64_mult NE (f_of_Z a) s)) /\ int_fits w q = true) v out) \/
  (vm_scale w v s = UB /\
     exists a, In a v /\ (is_finite 53 1024 (b64_mult NE (f_of_Z a) s) = false \/ int_fits w (Ztrunc (B (b64_mult NE (f_of_Z a) s))) = false)).
Proof.
  intros w v s. unfold vm_scale. induction v as [|a v IH]; [left; exists []; split; [reflexivity|constructor]|]. cbn [each].
  assert (T : Btrunc 53 1024 (b64_mult NE (f_of_Z a) s) = Ztrunc (B (b64_mult NE (f_of_Z a) s))) by (apply eq_IZR; rewrite Btrunc_correct, round_FIX_IZR by reflexivity; reflexivity).
  assert (E0 : int_of_double w (b64_mult NE (f_of_Z a) s) = if is_finite 53 1024 (b64_mult NE (f_of_Z a) s) then int_ck w (Ztrunc (B (b64_mult NE (f_of_Z a) s))) else UB) by (unfold int_of_double; rewrite T; reflexivity).
  rewrite E0. destruct (is_finite 53 1024 (b64_mult NE (f_of_Z a) s)) eqn:F.
  2:{ right. split; [reflexivity|]. exists a. split; [left; reflexivity|left; exact F]. }
  unfold int_ck. destruct (int_fits w (Ztrunc (B (b64_mult NE (f_of_Z a) s)))) eqn:I.
  2:{ right. split; [reflexivity|]. exists a. split; [left; reflexivity|right; exact I]. }
  cbn [obind]. destruct IH as [(out & E & FO)|(E & c & C & H)]; rewrite E; cbn [obind].
  - left. eexists. split; [reflexivity|]. constructor; [|exact FO]. auto.
  - right. split; [reflexivity|]. exists c. split; [right; exact C|exact H].
Qed.
(** Dividing by zero is undefined for every vector that is not empty. *)
Theorem C127_divide_zero : forall w v, v <> [] -> vm_divide_by w v 0 = UB.
Proof.
  intros w [|a v] N; [contradiction|]. unfold vm_divide_by. destruct (C127_scale w (a :: v) (b64_div NE f_one (f_of_Z 0))) as [(out & _ & F)|[E _]]; [exfalso|exact E].
  inversion F as [|? ? ? ? H]; subst. destruct H as (H & _). assert (D : b64_div NE f_one (f_of_Z 0) = B754_infinity 53 1024 false) by (vm_compute; reflexivity).
  rewrite D in H. destruct (f_of_Z a); discriminate H.
Qed.
Print Assumptions C127_scale. Print Assumptions C127_divide_zero.
Example scale_cases : vm_scale 32 [3; -3]%Z f_half = Ok [1; -1]%Z /\ vm_scale 32 [3]%Z (f_of_Z 2000000000) = UB.
Proof. split; vm_compute; reflexivity. Qed.

(** The vectors of int64_t lose the last digits. *)
Theorem C127_int64_refuted : exists a, int_fits 64 a = true /\ vm_multiply 64 [a] [1%Z] = Ok [(a - 1)%Z] /\ vm_scale_int 64 [a] 1 = Ok [(a - 1)%Z].
Proof. exists 9007199254740993%Z. repeat split; vm_compute; reflexivity. Qed.
(** Dividing by an integer goes through its reciprocal: 49 / 49 gives 0. *)
Theorem C127_divide_refuted : exists a s, (s <> 0)%Z /\ vm_divide_by 32 [a] s = Ok [0%Z] /\ Z.quot a s = 1%Z /\ vm_divide 32 [a] [s] = Ok [1%Z].
Proof. exists 49%Z, 49%Z. split; [discriminate|]. repeat split; vm_compute; reflexivity. Qed.
Print Assumptions C127_int64_refuted. Print Assumptions C127_divide_refuted.

(** Otherwise the quotient is right: it can only be one too small in absolute value, and only when the division is exact. *)
Lemma abs_between e u : Rabs e <= u -> - u <= e <= u.
Proof. intros H. pose proof (Rle_abs e). pose proof (Rle_abs (- e)) as Q. rewrite Rabs_Ropp in Q. lra. Qed.
Lemma quotient_pos q r s x : (0 <= q)%Z -> (0 <= r < s)%Z -> (q * s + r < 2 ^ 40)%Z -> (s < 2 ^ 40)%Z -> IZR (q * s + r) / IZR s * (1 - 4 * b (-53)) <= x <= IZR (q * s + r) / IZR s * (1 + 4 * b (-53)) ->
  Ztrunc x = q \/ (r = 0 /\ 0 < q /\ Ztrunc x = q - 1)%Z.
Proof.
  intros Q R U SU [XL XU]. set (u := 4 * b (-53)) in *. assert (EU : u = b (-51)) by (unfold u; change 4 with (bpow radix2 2); rewrite <- (b_opaque 2), <- b_add; reflexivity).
  assert (PU : 0 < u) by (rewrite EU; apply b_pos). assert (S0 : 0 < IZR s) by (apply IZR_lt; lia). set (a := IZR (q * s + r)) in *. assert (A0 : 0 <= a) by (apply IZR_le; nia).
  assert (AU : a < b 40) by (rewrite b_opaque, <- (IZR_Zpower radix2) by discriminate; apply IZR_lt; exact U).
  assert (SM : a * u <= b (-11)) by (rewrite EU; replace (b (-11)) with (b 40 * b (-51)) by (rewrite <- b_add; reflexivity); apply Rmult_le_compat_r; [left; apply b_pos | lra]).
  assert (B11 : b (-11) < 1 / 2) by (change (1 / 2) with (1 * / 2); rewrite Rmult_1_l; change (/ 2) with (bpow radix2 (-1)); rewrite <- (b_opaque (-1)); apply b_lt; reflexivity).
  assert (D : a / IZR s * u * IZR s = a * u) by (field; lra). assert (DE : 0 <= a / IZR s * u) by (apply Rmult_le_pos; [apply Rmult_le_pos; [lra | left; apply Rinv_0_lt_compat; lra] | lra]).
  assert (AQ : a / IZR s = IZR q + IZR r / IZR s) by (unfold a; rewrite plus_IZR, mult_IZR; field; lra).
  assert (X0 : 0 <= x) by (apply Rle_trans with (2 := XL); apply Rmult_le_pos; [apply Rmult_le_pos; [lra | left; apply Rinv_0_lt_compat; lra]|]; assert (u < 1); [rewrite EU, <- b_0; apply b_lt; reflexivity | lra]).
  rewrite (Ztrunc_floor x X0). destruct (Z.eq_dec r 0) as [->|NR].
  - assert (T : IZR q - 1 < x < IZR q + 1).
    { assert (S1 : 1 <= IZR s) by (apply IZR_le; lia). assert (a / IZR s * u < 1) by nra. rewrite AQ in *. replace (0 / IZR s) with 0 in * by (field; lra). split; nra. }
    assert (F : (q - 1 <= Zfloor x <= q)%Z). { split; [apply Zfloor_lub; rewrite minus_IZR; lra|]. apply Z.lt_succ_r. apply lt_IZR. rewrite succ_IZR. apply Rle_lt_trans with (1 := Zfloor_lb x). lra. }
    assert (ZP : (0 <= Zfloor x)%Z) by (apply Zfloor_lub; exact X0). assert (C : (Zfloor x = q \/ Zfloor x = q - 1)%Z) by lia. destruct C as [C|C]; [left; exact C|]. right. lia.
  - left. assert (R1 : 1 <= IZR r) by (apply IZR_le; lia). assert (R2 : IZR r <= IZR s - 1) by (rewrite <- minus_IZR; apply IZR_le; lia).
    apply Zfloor_imp. rewrite plus_IZR. assert (EQ : a / IZR s * IZR s = IZR q * IZR s + IZR r) by (rewrite AQ; field; lra). split.
    + apply (Rmult_le_reg_r (IZR s)); [exact S0|]. apply Rle_trans with (a / IZR s * (1 - u) * IZR s); [|apply Rmult_le_compat_r; lra]. replace (a / IZR s * (1 - u) * IZR s) with (a / IZR s * IZR s - a / IZR s * u * IZR s) by ring. rewrite D, EQ. lra.
    + apply (Rmult_lt_reg_r (IZR s)); [exact S0|]. apply Rle_lt_trans with (a / IZR s * (1 + u) * IZR s); [apply Rmult_le_compat_r; lra|]. replace (a / IZR s * (1 + u) * IZR s) with (a / IZR s * IZR s + a / IZR s * u * IZR s) by ring. rewrite D, EQ. lra.
Qed.
Lemma reciprocal_product a s : (Z.abs a < 2 ^ 40)%Z -> (0 < Z.abs s < 2 ^ 40)%Z -> exists k, Rabs k <= 4 * b (-53) /\ is_finite 53 1024 (b64_mult NE (f_of_Z a) (b64_div NE f_one (f_of_Z s))) = true /\
  B (b64_mult NE (f_of_Z a) (b64_div NE f_one (f_of_Z s))) = IZR a / IZR s * (1 + k).
Proof.
  intros HA HS. destruct (of_Z_signed a ltac:(lia)) as [FA BA]. destruct (of_Z_signed s ltac:(lia)) as [FS BS]. destruct (of_Z_signed 1 ltac:(lia)) as [F1 B1]. fold f_one in F1, B1.
  assert (S0 : IZR s <> 0) by (apply IZR_neq; lia). assert (SA : b 0 <= Rabs (IZR s) <= b 40). { rewrite <- abs_IZR. split; [rewrite b_0; apply IZR_le; lia|]. rewrite b_opaque, <- (IZR_Zpower radix2) by discriminate. apply IZR_le. cbn [radix_val radix2]. lia. }
  assert (IV : b (-40) <= Rabs (/ IZR s) <= b 0).
  { rewrite Rabs_inv. assert (V : / b 40 = b (-40)) by (apply Rmult_eq_reg_l with (b 40); [|pose proof (b_pos 40); lra]; rewrite <- b_add, Rinv_r, <- b_0; [reflexivity|pose proof (b_pos 40); lra]). rewrite <- V. rewrite b_0 in *. split; [apply Rinv_le_contravar; lra|]. rewrite <- Rinv_1. apply Rinv_le_contravar; lra. }
  destruct (div_rel f_one (f_of_Z s) F1) as (e & E & FD & BD); [rewrite BS; exact S0 | rewrite B1, BS; unfold Rdiv; rewrite Rmult_1_l; split; [apply Rle_trans with (b (-40)); [apply b_le; discriminate|apply IV] | apply Rle_trans with (b 0); [apply IV|apply b_le; discriminate]] |].
  rewrite B1, BS in BD. assert (U1 : b (-53) < / 8) by (change (/ 8) with (bpow radix2 (-3)); rewrite <- (b_opaque (-3)); apply b_lt; reflexivity). pose proof (b_pos (-53)) as U0. apply abs_between in E.
  destruct (Z.eq_dec a 0) as [->|NA].
  - exists 0. rewrite Rabs_R0. split; [lra|]. pose proof (Bmult_correct 53 1024 eq_refl eq_refl binop_nan_pl64 NE (f_of_Z 0) (b64_div NE f_one (f_of_Z s))) as H. change (BinarySingleNaN.round_mode NE) with ZnearestE in H. rewrite BA, Rmult_0_l, round_0, Rabs_R0, Rlt_bool_true in H by (apply valid_rnd_N || apply bpow_gt_0).
    destruct H as (H1 & H2 & _). rewrite FA, FD in H2. split; [exact H2|]. etransitivity; [exact H1|]. unfold Rdiv. ring.
  - assert (A1 : 1 <= Rabs (IZR a) <= b 40). { rewrite <- abs_IZR. split; [apply IZR_le; lia|]. rewrite b_opaque, <- (IZR_Zpower radix2) by discriminate. apply IZR_le. cbn [radix_val radix2]. lia. }
    destruct (mult_rel (f_of_Z a) (b64_div NE f_one (f_of_Z s)) FA FD) as (e2 & E2 & FM & BM).
    { rewrite BA, BD. replace (IZR a * (1 / IZR s * (1 + e))) with (IZR a * / IZR s * (1 + e)) by (field; exact S0). rewrite !Rabs_mult. rewrite (Rabs_pos_eq (1 + e)) by lra. pose proof (Rabs_pos (IZR a)). pose proof (Rabs_pos (/ IZR s)). pose proof (b_pos (-40)). rewrite b_0 in IV. split.
      - apply Rle_trans with (b (-40) * b (-1)); [rewrite <- b_add; apply b_le; discriminate|]. replace (b (-1)) with (/ 2) by (rewrite b_opaque; reflexivity). apply Rmult_le_compat; [lra..| |lra]. nra.
      - apply Rle_trans with (b 40 * b 1); [|rewrite <- b_add; apply b_le; discriminate]. replace (b 1) with 2 by (rewrite b_opaque; reflexivity). apply Rmult_le_compat; [apply Rmult_le_pos; lra | lra | nra | lra]. }
    apply abs_between in E2. exists (e + e2 + e * e2). split; [apply Rabs_le; nra|]. split; [exact FM|]. rewrite BM, BA, BD. field. exact S0.
Qed.
Lemma quot_sign a s : (s <> 0)%Z -> ((0 <= a * s -> 0 <= Z.quot a s) /\ (a * s <= 0 -> Z.quot a s <= 0))%Z.
Proof.
  intros NZ. split; intros H.
  - destruct (Z_lt_le_dec s 0) as [S|S].
    + assert (a <= 0)%Z by (clear NZ; nia). rewrite <- Z.quot_opp_opp by exact NZ. apply Z.quot_pos; [clear - H0; lia | clear - S; lia].
    + apply Z.quot_pos; nia.
  - destruct (Z_lt_le_dec s 0) as [S|S].
    + assert (0 <= a)%Z by nia. assert (0 <= Z.quot a (- s))%Z by (apply Z.quot_pos; nia). rewrite Z.quot_opp_r in H1 by exact NZ. revert H1. generalize (Z.quot a s). intros. lia.
    + assert (a <= 0)%Z by nia. assert (0 <= Z.quot (- a) s)%Z by (apply Z.quot_pos; nia). rewrite Z.quot_opp_l in H1 by exact NZ. revert H1. generalize (Z.quot a s). intros. lia.
Qed.
Lemma Ztrunc_sign x : (0 <= x -> 0 <= IZR (Ztrunc x)) /\ (x <= 0 -> (Ztrunc x <= 0)%Z).
Proof. split; intros H; apply Ztrunc_le in H; rewrite Ztrunc_IZR in H; [apply IZR_le|]; exact H. Qed.
Lemma divide_one a s : int_fits 32 a = true -> int_fits 32 s = true -> (s <> 0)%Z -> int_fits 32 (Z.quot a s) = true ->
  exists q, int_of_double 32 (b64_mult NE (f_of_Z a) (b64_div NE f_one (f_of_Z s))) = Ok q /\ (q = Z.quot a s \/ (a = Z.quot a s * s /\ Z.abs q = Z.abs (Z.quot a s) - 1))%Z.
Proof.
  intros HA HS NZ HQ. apply fits32 in HA, HS. destruct (reciprocal_product a s ltac:(lia) ltac:(lia)) as (k & K & F & E). apply abs_between in K. set (p := b64_mult NE (f_of_Z a) (b64_div NE f_one (f_of_Z s))) in *.
  assert (T : Btrunc 53 1024 p = Ztrunc (B p)) by (apply eq_IZR; rewrite Btrunc_correct, round_FIX_IZR by reflexivity; reflexivity).
  assert (KP : 0 <= 1 + k) by (assert (4 * b (-53) < 1); [|lra]; change 4 with (bpow radix2 2); rewrite <- (b_opaque 2), <- b_add, <- b_0; apply b_lt; reflexivity).
  assert (S0 : IZR s <> 0) by (apply IZR_neq; exact NZ). assert (SG : IZR a / IZR s * (1 + k) = IZR (a * s) * (/ (IZR s * IZR s) * (1 + k))) by (rewrite mult_IZR; field; exact S0).
  assert (W : 0 <= / (IZR s * IZR s) * (1 + k)) by (apply Rmult_le_pos; [left; apply Rinv_0_lt_compat; nra | exact KP]).
  destruct (quot_sign a s NZ) as [SQ1 SQ2]. destruct (Ztrunc_sign (B p)) as [ST1 ST2].
  assert (SP1 : (0 <= a * s)%Z -> 0 <= B p) by (intros H; rewrite E, SG; apply Rmult_le_pos; [apply IZR_le; exact H | exact W]).
  assert (SP2 : (a * s <= 0)%Z -> B p <= 0) by (intros H; rewrite E, SG; apply IZR_le in H; nra).
  pose proof (Z.quot_rem a s NZ) as QR1. pose proof (Z.quot_abs a s NZ) as QA. pose proof (Z.rem_abs a s NZ) as RA. pose proof (Z.quot_rem (Z.abs a) (Z.abs s) ltac:(clear - NZ; lia)) as QR.
  assert (RB : (0 <= Z.rem (Z.abs a) (Z.abs s) < Z.abs s)%Z) by (apply Z.rem_bound_pos; clear - NZ; lia). assert (QP : (0 <= Z.quot (Z.abs a) (Z.abs s))%Z) by (apply Z.quot_pos; clear - NZ; lia).
  revert SQ1 SQ2 QR1 QA RA QR RB QP HQ. generalize (Z.quot (Z.abs a) (Z.abs s)), (Z.rem (Z.abs a) (Z.abs s)), (Z.quot a s), (Z.rem a s). intros q0 r0 q r SQ1 SQ2 QR1 QA RA QR RB QP HQ.
  assert (SA : 0 < IZR (Z.abs s)) by (apply IZR_lt; clear - NZ; lia). assert (QR' : Z.abs a = (q0 * Z.abs s + r0)%Z) by (rewrite QR; ring).
  assert (AB : Rabs (B p) = IZR (q0 * Z.abs s + r0) / IZR (Z.abs s) * (1 + k)) by (rewrite E, Rabs_mult, (Rabs_pos_eq (1 + k)) by exact KP; unfold Rdiv; rewrite Rabs_mult, Rabs_inv, <- !abs_IZR, <- QR'; reflexivity).
  assert (ND : 0 <= IZR (q0 * Z.abs s + r0) / IZR (Z.abs s)) by (apply Rmult_le_pos; [rewrite <- QR'; apply IZR_le; clear; lia | left; apply Rinv_0_lt_compat; exact SA]).
  assert (TA : Z.abs (Ztrunc (B p)) = Ztrunc (Rabs (B p))) by (symmetry; apply Ztrunc_abs).
  apply fits32 in HQ. unfold int_of_double. rewrite F, T.
  destruct (quotient_pos q0 r0 (Z.abs s) (Rabs (B p)) QP RB) as [C|(C1 & C2 & C3)]; [rewrite <- QR'; clear - HA; lia | clear - HS; lia | rewrite AB; split; apply Rmult_le_compat_l; lra | |].
  - rewrite C in TA. exists q. assert (TQ : Ztrunc (B p) = q).
    { destruct (Z_le_gt_dec 0 (a * s)) as [P|N].
      - specialize (SQ1 P). specialize (SP1 P). apply ST1 in SP1. apply le_IZR in SP1. clear - SQ1 SP1 TA QA. lia.
      - assert (N' : (a * s <= 0)%Z) by (clear - N; lia). specialize (SQ2 N'). specialize (SP2 N'). apply ST2 in SP2. clear - SQ2 SP2 TA QA. lia. }
    rewrite TQ. unfold int_ck. rewrite (proj2 (fits32 q) HQ). split; [reflexivity|left; reflexivity].
  - rewrite C3 in TA. exists (Ztrunc (B p)). unfold int_ck. rewrite (proj2 (fits32 (Ztrunc (B p)))) by (clear - TA HQ QA C2; lia). split; [reflexivity|]. right. split; [clear - C1 RA QR1; nia | clear - TA QA; lia].
Qed.
Theorem C127_divide_partial : forall v s, all_ints 32 v -> int_fits 32 s = true -> (s <> 0)%Z -> all_ints 32 (map (fun a => Z.quot a s) v) ->
  exists out, vm_divide_by 32 v s = Ok out /\ Forall2 (fun a q => q = Z.quot a s \/ (a = Z.quot a s * s /\ Z.abs q = Z.abs (Z.quot a s) - 1))%Z v out.
Proof.
  intros v s HV HS NZ HQ. unfold vm_divide_by, vm_scale. induction v as [|a v IH]; [exists []; split; [reflexivity|constructor]|]. inversion HV; subst. cbn [map] in HQ. inversion HQ; subst. destruct (divide_one a s) as (q & E & C); try assumption. destruct (IH ltac:(assumption) ltac:(assumption)) as (out & EO & FO). exists (q :: out). cbn [each]. rewrite E. cbn [obind]. rewrite EO. split; [reflexivity|]. constructor; assumption.
Qed.
Print Assumptions C127_divide_partial.

(** The remaining functions: the exact results, or undefined as soon as one does not fit; nothing for different sizes. *)
Definition exact_or_ub (w : Z) (want : list Z) (got : outcome (list Z)) : Prop := (all_ints w want -> got = Ok want) /\ (~ all_ints w want -> got = UB).
Lemma each_exact {A} w (g : A -> Z) (f : A -> outcome Z) l : (forall a, In a l -> f a = int_ck w (g a)) -> exact_or_ub w (map g l) (each f l).
Proof.
  intros E. split; intros H.
  - apply each_spec. intros a I. rewrite E by exact I. unfold int_ck. unfold all_ints in H. rewrite Forall_forall in H. rewrite (H (g a)); [reflexivity|]. apply in_map, I.
  - assert (D : exists a, In a l /\ int_fits w (g a) = false).
    { clear E. induction l as [|a l IH]; [exfalso; apply H; constructor|]. destruct (int_fits w (g a)) eqn:F; [|exists a; split; [left; reflexivity|exact F]]. destruct IH as (b' & I & F'); [intros Q; apply H; constructor; assumption|]. exists b'. split; [right|]; assumption. }
    destruct D as (a & I & F). apply (each_ub _ _ a I); [rewrite E by exact I; unfold int_ck; rewrite F; reflexivity|]. intros q Q. rewrite E by exact Q. unfold int_ck. destruct (int_fits w (g q)); eauto.
Qed.
Theorem C127_elementwise : forall w v v2 s,
  exact_or_ub w (map Z.abs v) (vm_abs w v) /\ exact_or_ub w (map (fun a => a + s)%Z v) (vm_add_scalar w v s) /\ exact_or_ub w (map (fun a => a - s)%Z v) (vm_sub_scalar w v s) /\
  (length v = length v2 -> exact_or_ub w (zip Z.sub v v2) (vm_sub w v v2) /\ (Forall (fun d => d <> 0%Z) v2 -> exact_or_ub w (zip Z.quot v v2) (vm_divide w v v2))) /\
  (length v <> length v2 -> vm_sub w v v2 = Ok [] /\ vm_divide w v v2 = Ok []).
Proof.
  intros w v v2 s. split; [apply each_exact; reflexivity|]. split; [apply each_exact; reflexivity|]. split; [apply each_exact; reflexivity|]. split.
  - intros L. unfold vm_sub, vm_divide, each2. rewrite L, Nat.eqb_refl. split; [apply (each_exact w (fun p => (fst p - snd p)%Z)); reflexivity|]. intros NZ. apply (each_exact w (fun p => Z.quot (fst p) (snd p))). intros [x y] I. cbn [fst snd]. apply in_combine_r in I. rewrite Forall_forall in NZ. specialize (NZ y I). apply Z.eqb_neq in NZ. rewrite NZ. reflexivity.
  - intros L. unfold vm_sub, vm_divide, each2. apply Nat.eqb_neq in L. rewrite L. split; reflexivity.
Qed.
Print Assumptions C127_elementwise.
Theorem C127_sum : forall w v, (0 < w)%Z -> (forall k, int_fits w (fold_right Z.add 0%Z (firstn k v)) = true) -> vm_sum w v = Ok (fold_right Z.add 0%Z v).
Proof.
  intros w v W H. unfold vm_sum. assert (G : forall v acc, (forall k, int_fits w (acc + fold_right Z.add 0%Z (firstn k v)) = true) -> sum_from w acc v = Ok (acc + fold_right Z.add 0%Z v)%Z).
  { clear. induction v as [|a v IH]; intros acc H; [cbn; f_equal; lia|]. cbn [sum_from]. unfold int_ck. pose proof (H 1%nat) as H1. cbn [firstn fold_right] in H1. rewrite Z.add_0_r in H1. rewrite H1. cbn [obind]. rewrite IH; [cbn [fold_right]; f_equal; lia|]. intros k. specialize (H (S k)). cbn [firstn fold_right] in H. rewrite <- Z.add_assoc. exact H. }
  rewrite G by exact H. reflexivity.
Qed.
Print Assumptions C127_sum.
Example vector_math_case : vm_multiply 32 [3; -4]%Z [5; 6]%Z = Ok [15; -24]%Z /\ vm_divide_by 32 [7; -9; 50]%Z 7 = Ok [1; -1; 7]%Z /\ vm_multiply 32 [65536]%Z [65536]%Z = UB /\ vm_sum 32 [1; 2; 3]%Z = Ok 6%Z.
Proof. repeat split; vm_compute; reflexivity. Qed.

(** ** Standard deviation *)
Lemma square_sum_spec m l : forall s, square_sum m s l = s + Rsum (map (fun x => (x - m) * (x - m)) l).
Proof. induction l as [|x l IH]; intros s; cbn [square_sum map]; [unfold Rsum; cbn; ring|]. rewrite IH. unfold Rsum. cbn [fold_right]. ring. Qed.
Definition mean (l : list R) : R := Rsum l / INR (length l).
(** The sample variance: squares of deviations from the mean, divided by one less than their number. *)
Definition variance (l : list R) : R := Rsum (map (fun x => (x - mean l) * (x - mean l)) l) / (INR (length l) - 1).
Lemma Rsum_cons' a l : Rsum (a :: l) = a + Rsum l. Proof. reflexivity. Qed.
Lemma squares_nonneg m l : 0 <= Rsum (map (fun x => (x - m) * (x - m)) l).
Proof. induction l as [|x l IH]; cbn [map]; [unfold Rsum; cbn; lra|]. rewrite Rsum_cons'. pose proof (Rle_0_sqr (x - m)) as Q. unfold Rsqr in Q. lra. Qed.
Lemma variance_nonneg l : (2 <= length l)%nat -> 0 <= variance l.
Proof. intros L. apply le_INR in L. cbn in L. unfold variance. apply Rmult_le_pos; [apply squares_nonneg|]. left. apply Rinv_0_lt_compat. lra. Qed.
Theorem C128_value : forall dbg l, l <> [] -> std_dev dbg l = Ok (if (length l =? 1)%nat then 0 else sqrt (variance l)).
Proof.
  intros dbg l NE. unfold std_dev. rewrite C52_mean by exact NE. cbn [obind]. fold (mean l). unfold std_dev_about, cassert. destruct l as [|x l]; [contradiction|]. cbn [length Nat.ltb Nat.leb negb]. rewrite Bool.andb_false_r. destruct l as [|y l]; [reflexivity|]. cbn [length Nat.eqb]. f_equal. f_equal.
  rewrite square_sum_spec, Rplus_0_l. unfold variance. replace (INR (S (S (length l)) - 1)) with (INR (length (x :: y :: l)) - 1) by (cbn [length]; rewrite !S_INR; replace (S (S (length l)) - 1)%nat with (S (length l)) by lia; rewrite S_INR; ring). field. cbn [length]. rewrite !S_INR. pose proof (pos_INR (length l)). lra.
Qed.
Print Assumptions C128_value.
Lemma Rsum_map_lin c s l : Rsum (map (fun x => c * x + s) l) = c * Rsum l + INR (length l) * s.
Proof. induction l as [|x l IH]; [unfold Rsum; cbn; ring|]. cbn [map length]. rewrite !Rsum_cons', IH, S_INR. ring. Qed.
Lemma Rsum_map_ext (f g : R -> R) l : (forall x, f x = g x) -> Rsum (map f l) = Rsum (map g l).
Proof. intros E. rewrite (map_ext f g E). reflexivity. Qed.
Lemma Rsum_map_scal c (f : R -> R) l : Rsum (map (fun x => c * f x) l) = c * Rsum (map f l).
Proof. induction l as [|x l IH]; [unfold Rsum; cbn; ring|]. cbn [map]. rewrite !Rsum_cons', IH. ring. Qed.
Lemma Rsum_perm l l' : Permutation l l' -> Rsum l = Rsum l'.
Proof. induction 1; rewrite ?Rsum_cons'; try lra. Qed.
(** Shifting, scaling, order; zero exactly for equal values; no other centre gives less. *)
Theorem C128_laws : forall l, (2 <= length l)%nat -> exists s, (forall dbg, std_dev dbg l = Ok s) /\ 0 <= s /\
  (forall dbg c t, std_dev dbg (map (fun x => c * x + t) l) = Ok (Rabs c * s)) /\
  (forall dbg l', Permutation l l' -> std_dev dbg l' = Ok s) /\
  (s = 0 <-> forall x y, In x l -> In y l -> x = y) /\
  (forall dbg m, exists s', std_dev_about dbg l m = Ok s' /\ s <= s' /\ (s' = s -> m = mean l)) /\
  s * s * (INR (length l) - 1) = Rsum (map (fun x => x * x) l) - INR (length l) * (mean l * mean l).
Proof.
  intros l L. assert (NE : l <> []) by (intros ->; cbn in L; lia). assert (L1 : (length l =? 1)%nat = false) by (apply Nat.eqb_neq; lia). assert (LR : 2 <= INR (length l)) by (apply (le_INR 2); exact L). exists (sqrt (variance l)). pose proof (variance_nonneg l L) as VN.
  assert (SV : forall dbg, std_dev dbg l = Ok (sqrt (variance l))) by (intros dbg; rewrite C128_value, L1 by exact NE; reflexivity).
  assert (CENTRE : forall m, Rsum (map (fun x => (x - m) * (x - m)) l) = Rsum (map (fun x => (x - mean l) * (x - mean l)) l) + INR (length l) * ((m - mean l) * (m - mean l))).
  { intros m. assert (G : forall l', Rsum (map (fun x => (x - m) * (x - m)) l') = Rsum (map (fun x => (x - mean l) * (x - mean l)) l') + 2 * (mean l - m) * Rsum l' + INR (length l') * (m * m - mean l * mean l)) by (induction l' as [|x l' IH]; [unfold Rsum; cbn; ring|]; cbn [map length]; rewrite !Rsum_cons', IH, S_INR; ring).
    rewrite G. replace (Rsum l) with (INR (length l) * mean l) by (unfold mean; field; lra). ring. }
  split; [exact SV|]. split; [apply sqrt_pos|]. split; [|split; [|split; [|split]]].
  - intros dbg c t. rewrite C128_value by (destruct l; [contradiction|discriminate]). rewrite map_length, L1. f_equal. assert (M : mean (map (fun x => c * x + t) l) = c * mean l + t) by (unfold mean; rewrite Rsum_map_lin, map_length; field; lra).
    replace (variance (map (fun x => c * x + t) l)) with (c * c * variance l); [rewrite sqrt_mult by (apply Rle_0_sqr || exact VN); f_equal; apply sqrt_Rsqr_abs|]. unfold variance. rewrite M, map_length, map_map. rewrite (Rsum_map_ext (fun x => (c * x + t - (c * mean l + t)) * (c * x + t - (c * mean l + t))) (fun x => (c * c) * ((x - mean l) * (x - mean l)))) by (intros x; ring). rewrite Rsum_map_scal. field. lra.
  - intros dbg l' P. rewrite C128_value by (intros ->; apply Permutation_sym, Permutation_nil in P; contradiction). rewrite <- (Permutation_length P), L1. f_equal. f_equal. unfold variance, mean. rewrite <- (Permutation_length P), <- (Rsum_perm _ _ P). f_equal. apply Rsum_perm. apply Permutation_map, Permutation_sym, P.
  - split.
    + intros Z. apply sqrt_eq_0 in Z; [|exact VN]. assert (S0 : Rsum (map (fun x => (x - mean l) * (x - mean l)) l) = 0) by (unfold variance in Z; apply (Rmult_eq_reg_r (/ (INR (length l) - 1))); [rewrite Rmult_0_l; exact Z | apply Rinv_neq_0_compat; lra]).
      assert (ALL : forall l', Rsum (map (fun x => (x - mean l) * (x - mean l)) l') = 0 -> forall x, In x l' -> x = mean l).
      { induction l' as [|a l' IH]; intros S x I; [contradiction|]. cbn [map] in S. rewrite Rsum_cons' in S. pose proof (squares_nonneg (mean l) l'). pose proof (Rle_0_sqr (a - mean l)) as Q. unfold Rsqr in Q. destruct I as [<-|I]; [assert ((a - mean l) * (a - mean l) = 0) by lra; nra | apply IH; [lra|exact I]]. }
      intros x y X Y. rewrite (ALL l S0 x X), (ALL l S0 y Y). reflexivity.
    + intros E. replace (variance l) with 0; [apply sqrt_0|]. symmetry. destruct l as [|a l0]; [contradiction|]. set (l := a :: l0) in *. assert (ALL : forall x, In x l -> x = a) by (intros x X; apply E; [exact X | left; reflexivity]).
      assert (SM : forall l', (forall x, In x l' -> x = a) -> Rsum l' = INR (length l') * a) by (induction l' as [|b' l' IH]; intros H; [unfold Rsum; cbn; ring|]; rewrite Rsum_cons', IH by (intros; apply H; right; assumption); rewrite (H b') by (left; reflexivity); cbn [length]; rewrite S_INR; ring).
      assert (M : mean l = a) by (unfold mean; rewrite (SM l ALL); field; lra). unfold variance. rewrite M. replace (Rsum (map (fun x => (x - a) * (x - a)) l)) with 0; [unfold Rdiv; ring|]. clear - ALL. induction l as [|b' l' IH]; [reflexivity|]. cbn [map]. rewrite Rsum_cons', <- IH by (intros; apply ALL; right; assumption). rewrite (ALL b') by (left; reflexivity). ring.
  - intros dbg m. exists (sqrt (Rsum (map (fun x => (x - m) * (x - m)) l) / (INR (length l) - 1))). assert (IVP : 0 < / (INR (length l) - 1)) by (apply Rinv_0_lt_compat; lra). pose proof (Rle_0_sqr (m - mean l)) as Q. unfold Rsqr in Q. split; [|split].
    + unfold std_dev_about, cassert. rewrite (proj2 (Nat.ltb_lt 0 (length l))) by lia. cbn [negb]. rewrite Bool.andb_false_r, L1. destruct l as [|a l0]; [contradiction|]. f_equal. f_equal. rewrite square_sum_spec, Rplus_0_l, minus_INR by lia. cbn [INR]. field. lra.
    + apply sqrt_le_1_alt. unfold variance, Rdiv. apply Rmult_le_compat_r; [lra|]. rewrite (CENTRE m). nra.
    + intros E. apply sqrt_inj in E; [|apply Rmult_le_pos; [apply squares_nonneg|lra]|exact VN]. unfold variance, Rdiv in E. apply Rmult_eq_reg_r in E; [|lra]. rewrite (CENTRE m) in E. assert ((m - mean l) * (m - mean l) = 0) by nra. nra.
  - rewrite sqrt_sqrt by exact VN. unfold variance. replace (Rsum (map (fun x => (x - mean l) * (x - mean l)) l) / (INR (length l) - 1) * (INR (length l) - 1)) with (Rsum (map (fun x => (x - mean l) * (x - mean l)) l)) by (field; lra).
    pose proof (CENTRE 0) as C0. rewrite (Rsum_map_ext (fun x => (x - 0) * (x - 0)) (fun x => x * x)) in C0 by (intros x; ring). rewrite C0. ring.
Qed.
Print Assumptions C128_laws.
(** No values: stopped by the assert; without asserts the mean is read out of range. *)
Theorem C128_empty : std_dev true [] = AssertFail /\ std_dev false [] = UB /\ (forall m, std_dev_about false [] m = Ok 0).
Proof. split; [reflexivity|]. split; [reflexivity|]. intros m. cbn. rewrite Rmult_0_l, sqrt_0. reflexivity. Qed.
Print Assumptions C128_empty.
Example std_dev_case : std_dev true [1; 3] = Ok (sqrt 2).
Proof. rewrite C128_value by discriminate. cbn [length Nat.eqb]. f_equal. f_equal. unfold variance, mean, Rsum. cbn. field. Qed.
