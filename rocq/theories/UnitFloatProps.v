(** C173: unit points with the rounding of doubles. *)
From Verif Require Import Base VoxelFloat DynGridFloat VoxelMakeModel ChunkFloat InterpFloatModel AvgFloatModel EigenFloatModel InterpFloatProps VecFloatProps AvgFloatProps EigenFloatProps PyBase UnitFloatModel.
From Flocq Require Import IEEE754.Bits IEEE754.Binary Core Relative Plus_error.
From Coq Require Import Reals Lra Psatz.
Local Instance P53 : Prec_gt_0 53 := eq_refl.
Local Instance VE : Valid_exp (SpecFloat.fexp 53 1024) := BinarySingleNaN.fexp_correct 53 1024 eq_refl.
Open Scope R_scope.

(** ** Specification *)
(** What is assumed of pow(x, 2.0): a NaN stays one, infinities give infinity, zeros zero, and finite numbers of at most 2^510 their square up to a unit in the
    last place of it, or the smallest double. *)
Record square_ok (pow2 : fl -> fl) : Prop := {
  sq_nan : forall x, ~ number x -> ~ number (pow2 x);
  sq_inf : forall s, pow2 (B754_infinity 53 1024 s) = B754_infinity 53 1024 false;
  sq_zero : forall x, fin x = true -> B x = 0 -> fin (pow2 x) = true /\ B (pow2 x) = 0;
  sq_near : forall x, fin x = true -> Rabs (B x) <= bpow radix2 510 -> fin (pow2 x) = true /\ 0 <= B (pow2 x) /\
    Rabs (B (pow2 x) - B x ^ 2) <= bpow radix2 (-52) * B x ^ 2 + bpow radix2 (-1074) }.
(** A coordinate of at most 2^500, and one of at least 2^-500. *)
Definition moderate (x : fl) : Prop := fin x = true /\ Rabs (B x) <= bpow radix2 500.
Definition sizable (x : fl) : Prop := bpow radix2 (-500) <= Rabs (B x).
Definition norm3 (x y z : fl) : R := sqrt (B x ^ 2 + B y ^ 2 + B z ^ 2).

Notation u := (b (-53)).
Lemma u52 : bpow radix2 (-52) = 2 * u.
Proof. rewrite <- (b_opaque (-52)). change (-52)%Z with (-53 + 1)%Z. apply b_double. Qed.
Section S.
Variable pow2 : fl -> fl.
Hypothesis OK : square_ok pow2.
Variable debug : bool.
Notation make_unit_point := (make_unit_point pow2 debug).

Lemma square_val x : moderate x -> py_square pow2 x = Ret (pow2 x) /\ fin (pow2 x) = true /\ 0 <= B (pow2 x) <= b 1001 /\
  B x ^ 2 * (1 - 2 * u) - b (-1074) <= B (pow2 x) <= B x ^ 2 * (1 + 2 * u) + b (-1074).
Proof.
  intros (F & L). rewrite <- (b_opaque 500) in L. assert (L510 : Rabs (B x) <= bpow radix2 510) by (rewrite <- (b_opaque 510); apply Rle_trans with (b 500); [exact L | apply b_le; lia]).
  destruct (sq_near _ OK x F L510) as (FP & P0 & E). rewrite u52, <- (b_opaque (-1074)) in E. apply two_sided in E. split.
  - unfold py_square. destruct (pow2 x); try discriminate FP; reflexivity.
  - split; [exact FP|]. assert (S : 0 <= B x ^ 2 <= b 1000).
    { split; [apply pow2_ge_0|]. rewrite <- pow2_abs. change 1000%Z with (500 + 500)%Z. rewrite b_add. cbn [pow]. rewrite Rmult_1_r. apply Rmult_le_compat; auto using Rabs_pos. }
    split; [|lra]. split; [exact P0|]. pose proof u_small as (U0 & U1). change 1001%Z with (1000 + 1)%Z. rewrite b_double.
    assert (b (-1074) <= / 64 * b 1000). { apply Rle_trans with (b 0 * / 64); [|rewrite b_0; assert (1 <= b 1000) by (rewrite <- b_0; apply b_le; lia); lra].
      replace (/ 64) with (b (-6)) by (rewrite (b_opaque (-6)); cbn; lra). rewrite <- b_add. apply b_le. lia. }
    assert (B x ^ 2 * u <= b 1000 * / 64) by (apply Rmult_le_compat; lra). lra.
Qed.
Lemma mag_val x y z : moderate x -> moderate y -> moderate z -> sizable x \/ sizable y \/ sizable z ->
  let mag := b64_sqrt NE (b64_plus NE (b64_plus NE (pow2 x) (pow2 y)) (pow2 z)) in
  fin mag = true /\ Rabs (B mag - norm3 x y z) <= 5 * u * norm3 x y z /\ b (-500) <= norm3 x y z.
Proof.
  intros MX MY MZ SZ. cbv zeta. destruct (square_val x MX) as (_ & FX & PX & EX), (square_val y MY) as (_ & FY & PY & EY), (square_val z MZ) as (_ & FZ & PZ & EZ).
  pose proof u_small as (U0 & U1).
  destruct (add_pos _ _ 1001 FX FY PX PY ltac:(lia)) as (F1 & V1 & B1). assert (PZ' : 0 <= B (pow2 z) <= b 1002) by (split; [lra | apply Rle_trans with (b 1001); [lra | apply b_le; lia]]).
  destruct (add_pos _ _ 1002 F1 FZ B1 PZ' ltac:(lia)) as (F2 & V2 & B2).
  pose proof (add_err _ _ (fmt_B (pow2 x)) (fmt_B (pow2 y)) ltac:(lra)) as A1. rewrite <- V1 in A1.
  pose proof (add_err _ _ (fmt_B (b64_plus NE (pow2 x) (pow2 y))) (fmt_B (pow2 z)) ltac:(lra)) as A2. rewrite <- V2 in A2.
  destruct (sqrt_val _ F2 (proj1 B2)) as (F3 & V3). split; [exact F3|].
  unfold norm3. set (X := B x ^ 2) in *. set (Y := B y ^ 2) in *. set (Z := B z ^ 2) in *.
  assert (X0 : 0 <= X) by apply pow2_ge_0. assert (Y0 : 0 <= Y) by apply pow2_ge_0. assert (Z0 : 0 <= Z) by apply pow2_ge_0.
  assert (BIG : b (-1000) <= X + Y + Z).
  { assert (G : forall w, sizable w -> b (-1000) <= B w ^ 2).
    { intros w H. unfold sizable in H. rewrite <- (b_opaque (-500)) in H. rewrite <- pow2_abs. change (-1000)%Z with (-500 + -500)%Z. rewrite b_add. pose proof (b_pos (-500)). cbn [pow]. rewrite Rmult_1_r. apply Rmult_le_compat; lra. }
    destruct SZ as [H|[H|H]]; apply G in H; [fold X in H | fold Y in H | fold Z in H]; lra. }
  assert (N500 : b (-500) <= sqrt (X + Y + Z)).
  { pose proof (b_pos (-500)). rewrite <- (sqrt_square (b (-500))) by lra. apply sqrt_le_1_alt. rewrite <- b_add. exact BIG. }
  refine (conj _ N500). rewrite V3. apply root_err; [exact BIG | | lra].
  assert (T : b (-1074) <= / 64 * (u * (X + Y + Z))).
  { apply Rle_trans with (b (-6) * (u * b (-1000))).
    - rewrite <- !b_add. apply b_le. lia.
    - replace (b (-6)) with (/ 64) by (rewrite (b_opaque (-6)); cbn; lra). apply Rmult_le_compat_l; [lra|]. apply Rmult_le_compat_l; lra. }
  apply Rle_trans with (6 * u * (X + Y + Z)); [|pose proof (b_pos (-1073)); lra].
  clear V1 V2 V3 F1 F2 F3 FX FY FZ N500 SZ BIG MX MY MZ PZ'. set (p := B (pow2 x)) in *. set (q := B (pow2 y)) in *. set (r := B (pow2 z)) in *.
  set (s := B (b64_plus NE (pow2 x) (pow2 y))) in *. set (t := B (b64_plus NE (b64_plus NE (pow2 x) (pow2 y)) (pow2 z))) in *. clearbody p q r s t X Y Z.
  pose proof (b_pos (-1074)) as E0. set (e := b (-1074)) in *. clearbody e. set (v := u) in *. clearbody v. set (S := X + Y + Z) in *.
  assert (VV : 0 <= v * v <= / 64 * v) by (split; [apply Rmult_le_pos; lra | apply Rmult_le_compat_r; lra]).
  assert (VS : 0 <= v * S) by (apply Rmult_le_pos; unfold S; lra). assert (E3 : 3 * e <= / 16 * (v * S)) by lra.
  apply Rabs_le. split.
  - assert (L1 : (1 - v) * (p + q) <= s) by lra. assert (L2 : (1 - v) * ((1 - v) * (p + q) + r) <= t) by (apply Rle_trans with ((1 - v) * (s + r)); [apply Rmult_le_compat_l; lra | lra]).
    assert (L3 : (1 - v) * (1 - v) * (S * (1 - 2 * v) - 3 * e) <= t).
    { eapply Rle_trans; [|exact L2]. rewrite Rmult_assoc. apply Rmult_le_compat_l; [lra|]. apply Rle_trans with ((1 - v) * (p + q + r)); [apply Rmult_le_compat_l; unfold S; lra|].
      assert (0 <= v * r) by (apply Rmult_le_pos; lra). lra. }
    assert (C2 : 1 - 2 * v <= (1 - v) * (1 - v) <= 1) by nra.
    assert (S3 : 0 <= S * (1 - 2 * v) - 3 * e) by (assert (v * S <= / 64 * S) by (apply Rmult_le_compat_r; unfold S in *; lra); lra).
    assert (L4 : (1 - 2 * v) * (S * (1 - 2 * v) - 3 * e) <= t) by (eapply Rle_trans; [|exact L3]; apply Rmult_le_compat_r; lra).
    assert (0 <= v * v * S) by (apply Rmult_le_pos; unfold S; lra). assert (0 <= v * e) by (apply Rmult_le_pos; lra).
    lra.
  - assert (L1 : s <= (1 + v) * (p + q)) by lra. assert (L2 : t <= (1 + v) * ((1 + v) * (p + q) + r)) by (apply Rle_trans with ((1 + v) * (s + r)); [lra | apply Rmult_le_compat_l; lra]).
    assert (L3 : t <= (1 + v) * (1 + v) * (S * (1 + 2 * v) + 3 * e)).
    { eapply Rle_trans; [exact L2|]. rewrite (Rmult_assoc (1 + v) (1 + v)). apply Rmult_le_compat_l; [lra|]. apply Rle_trans with ((1 + v) * (p + q + r)); [|apply Rmult_le_compat_l; unfold S; lra].
      assert (0 <= v * r) by (apply Rmult_le_pos; lra). lra. }
    assert (C2 : (1 + v) * (1 + v) <= 1 + 2.02 * v) by nra.
    assert (S3 : 0 <= S * (1 + 2 * v) + 3 * e) by (unfold S; lra).
    assert (L4 : t <= (1 + 2.02 * v) * (S * (1 + 2 * v) + / 16 * (v * S))).
    { eapply Rle_trans; [exact L3|]. apply Rmult_le_compat; try lra. }
    assert (v * v * S <= / 64 * v * S) by (apply Rmult_le_compat_r; unfold S; lra). lra.
Qed.

Lemma coordinate_val x mag N : fin x = true -> fin mag = true -> 0 < N -> Rabs (B mag - N) <= 5 * u * N -> Rabs (B x) <= N ->
  py_div x mag = Ret (b64_div NE x mag) /\ fin (b64_div NE x mag) = true /\ Rabs (B (b64_div NE x mag) - B x / N) <= 8 * u * Rabs (B x / N) + b (-1075).
Proof.
  intros FX FM N0 E L. apply two_sided in E. pose proof u_small as (U0 & U1). assert (UN : 5 * u * N <= 5 * / 64 * N) by (apply Rmult_le_compat_r; lra).
  assert (M0 : 0 < B mag) by lra. set (a := B x / N). assert (A1 : Rabs a <= 1).
  { unfold a, Rdiv. rewrite Rabs_mult, (Rabs_pos_eq (/ N)) by (left; apply Rinv_0_lt_compat; lra). apply (Rmult_le_reg_r N); [lra|]. rewrite Rmult_assoc, Rinv_l, Rmult_1_r by lra. lra. }
  set (k := N / B mag). assert (K : 1 - 5 * u <= k <= 1 + 6 * u).
  { unfold k. split; apply (Rmult_le_reg_r (B mag)); auto; unfold Rdiv; rewrite Rmult_assoc, Rinv_l, Rmult_1_r by lra.
    - apply Rle_trans with ((1 - 5 * u) * (N * (1 + 5 * u))); [apply Rmult_le_compat_l; lra|]. assert (0 <= u * u * N) by (repeat apply Rmult_le_pos; lra). lra.
    - apply Rle_trans with ((1 + 6 * u) * (N * (1 - 5 * u))); [|apply Rmult_le_compat_l; lra]. assert (u * (u * N) <= / 64 * (u * N)) by (apply Rmult_le_compat_r; [apply Rmult_le_pos|]; lra). assert (0 <= u * N) by (apply Rmult_le_pos; lra). nra. }
  assert (Q : B x / B mag = a * k) by (unfold a, k; field; lra). assert (QL : Rabs (B x / B mag) <= b 1).
  { rewrite Q, Rabs_mult, (Rabs_pos_eq k) by lra. change 1%Z with (0 + 1)%Z. rewrite b_double, b_0, (Rmult_comm 2). apply Rmult_le_compat; auto using Rabs_pos; lra. }
  destruct (near_num _ _ 1 (near_div x mag FX ltac:(lra)) QL ltac:(lia)) as (FD & VD & _). split; [|split; [exact FD|]].
  - unfold py_div. destruct (f_eqb mag f_zero) eqn:T; [|reflexivity]. exfalso. apply eqb_same in T. assert (B mag = B f_zero) by (destruct mag; cbn in T; try discriminate FM; apply T). change (B f_zero) with 0 in *. lra.
  - rewrite VD, Q. pose proof (rnd_err (a * k)) as R. rewrite Rabs_mult, (Rabs_pos_eq k) in R by lra.
    replace (rndN (a * k) - a) with ((rndN (a * k) - a * k) + a * (k - 1)) by ring. eapply Rle_trans; [apply Rabs_triang|].
    assert (K1 : Rabs (k - 1) <= 6 * u) by (apply Rabs_le; lra). rewrite (Rabs_mult a). pose proof (Rabs_pos a) as A0. set (w := Rabs a) in *. clearbody w.
    assert (T1 : w * Rabs (k - 1) <= w * (6 * u)) by (apply Rmult_le_compat_l; lra). assert (T2 : u * (w * k) <= u * (w * 2)) by (apply Rmult_le_compat_l; [lra|]; apply Rmult_le_compat_l; lra). lra.
Qed.
Lemma square_close c a e : Rabs (c - a) <= 8 * u * Rabs a + e -> Rabs a <= 1 -> 0 < e -> e <= / 64 * u -> a ^ 2 - (17 * u * a ^ 2 + 4 * e) <= c ^ 2 <= a ^ 2 + (17 * u * a ^ 2 + 4 * e).
Proof.
  intros H A E0 E1. pose proof u_small as (U0 & U1). set (d := c - a) in *. replace c with (a + d) by (unfold d; ring). clearbody d.
  assert (Q : (a + d) ^ 2 - a ^ 2 = d * (2 * a + d)) by ring.
  assert (W : a ^ 2 = Rabs a * Rabs a) by (rewrite <- pow2_abs; ring). pose proof (Rabs_pos a) as A0. pose proof (Rabs_pos d) as D0.
  assert (G : Rabs (d * (2 * a + d)) <= 17 * u * a ^ 2 + 4 * e).
  { rewrite Rabs_mult. apply Rle_trans with ((8 * u * Rabs a + e) * (2 * Rabs a + (8 * u * Rabs a + e))).
    - apply Rmult_le_compat; auto using Rabs_pos. eapply Rle_trans; [apply Rabs_triang|]. rewrite Rabs_mult, (Rabs_pos_eq 2) by lra. lra.
    - rewrite W. set (w := Rabs a) in *. clearbody w. set (v := u) in *. clearbody v. assert (V : v * v <= / 64 * v) by (apply Rmult_le_compat_r; lra).
      assert (T1 : (v * v) * (w * w) <= (/ 64 * v) * (w * w)) by (apply Rmult_le_compat_r; [apply Rmult_le_pos; lra | exact V]).
      assert (T2 : e * w <= e) by (rewrite <- (Rmult_1_r e) at 2; apply Rmult_le_compat_l; lra). assert (T3 : (v * w) * e <= / 64 * e) by (apply Rmult_le_compat_r; [lra|]; assert (v * w <= / 64 * 1) by (apply Rmult_le_compat; lra); lra).
      assert (T4 : e * e <= / 64 * e) by (apply Rmult_le_compat_r; lra). nra. }
  apply two_sided in G. lra.
Qed.
(** Each coordinate of the result is within 8 half units of the exact one, and the sum of the squares within 18 half units of 1, whether or not assertions are on. *)
Theorem C173_unit x y z : moderate x -> moderate y -> moderate z -> sizable x \/ sizable y \/ sizable z ->
  exists p, make_unit_point x y z = Ret p /\ normalize_point pow2 debug (T3 x y z) = Ret p /\ fin (ax p) = true /\ fin (ay p) = true /\ fin (az p) = true /\
    (let close c v := Rabs (B c - B v / norm3 x y z) <= 8 * bpow radix2 (-53) * Rabs (B v / norm3 x y z) + bpow radix2 (-1075) in close (ax p) x /\ close (ay p) y /\ close (az p) z) /\
    Rabs (B (ax p) ^ 2 + B (ay p) ^ 2 + B (az p) ^ 2 - 1) <= 18 * bpow radix2 (-53).
Proof.
  intros MX MY MZ SZ. destruct (mag_val x y z MX MY MZ SZ) as (FM & EM & N5). cbv zeta in FM, EM. set (mag := b64_sqrt NE _) in *. pose proof (b_pos (-500)) as P500. pose proof u_small as (U0 & U1).
  set (N := norm3 x y z) in *. assert (N0 : 0 < N) by lra.
  assert (NN : N * N = B x ^ 2 + B y ^ 2 + B z ^ 2) by (apply sqrt_sqrt; pose proof (pow2_ge_0 (B x)); pose proof (pow2_ge_0 (B y)); pose proof (pow2_ge_0 (B z)); lra).
  assert (LE : forall t, t ^ 2 <= N * N -> Rabs t <= N) by (intros t H; rewrite <- (Rabs_pos_eq N) by lra; apply Rsqr_le_abs_0; unfold Rsqr; cbn [pow] in H; lra).
  assert (LX : Rabs (B x) <= N) by (apply LE; rewrite NN; pose proof (pow2_ge_0 (B y)); pose proof (pow2_ge_0 (B z)); lra).
  assert (LY : Rabs (B y) <= N) by (apply LE; rewrite NN; pose proof (pow2_ge_0 (B x)); pose proof (pow2_ge_0 (B z)); lra).
  assert (LZ : Rabs (B z) <= N) by (apply LE; rewrite NN; pose proof (pow2_ge_0 (B x)); pose proof (pow2_ge_0 (B y)); lra).
  destruct (coordinate_val x mag N (proj1 MX) FM N0 EM LX) as (RX & FX & CX), (coordinate_val y mag N (proj1 MY) FM N0 EM LY) as (RY & FY & CY), (coordinate_val z mag N (proj1 MZ) FM N0 EM LZ) as (RZ & FZ & CZ).
  exists (T3 (b64_div NE x mag) (b64_div NE y mag) (b64_div NE z mag)). unfold normalize_point. cbn [ax ay az]. rewrite <- and_assoc. split; [refine ((fun G => conj G G) _)|].
  - unfold UnitFloatModel.make_unit_point. destruct (square_val x MX) as (-> & _), (square_val y MY) as (-> & _), (square_val z MZ) as (-> & _). cbn [pbind]. fold mag.
    assert (M0 : 0 < B mag) by (apply two_sided in EM; assert (5 * u * N <= 5 * / 64 * N) by (apply Rmult_le_compat_r; lra); lra).
    rewrite gt_le by auto. replace (f_le mag f_zero) with false.
    + cbn [negb]. rewrite andb_false_r, RX, RY, RZ. reflexivity.
    + symmetry. destruct (f_le mag f_zero) eqn:T; [|reflexivity]. apply le_spec in T; auto. change (B f_zero) with 0 in T. lra.
  - split; [exact FX|]. split; [exact FY|]. split; [exact FZ|]. cbv zeta. rewrite <- (b_opaque (-53)), <- (b_opaque (-1075)). split; [auto|].
    assert (A1 : forall t, Rabs t <= N -> Rabs (t / N) <= 1).
    { intros t H. unfold Rdiv. rewrite Rabs_mult, (Rabs_pos_eq (/ N)) by (left; apply Rinv_0_lt_compat; lra). apply (Rmult_le_reg_r N); [lra|]. rewrite Rmult_assoc, Rinv_l, Rmult_1_r by lra. lra. }
    assert (E1 : b (-1075) <= / 64 * u). { replace (/ 64) with (b (-6)) by (rewrite (b_opaque (-6)); cbn; lra). rewrite <- b_add. apply b_le. lia. }
    pose proof (b_pos (-1075)) as E0.
    pose proof (square_close _ _ _ CX (A1 _ LX) E0 E1) as SX. pose proof (square_close _ _ _ CY (A1 _ LY) E0 E1) as SY. pose proof (square_close _ _ _ CZ (A1 _ LZ) E0 E1) as SZ'.
    assert (ONE : (B x / N) ^ 2 + (B y / N) ^ 2 + (B z / N) ^ 2 = 1) by (replace 1 with (N * N / (N * N)) by (field; lra); rewrite NN at 1; field; lra).
    set (X := (B x / N) ^ 2) in *. set (Y := (B y / N) ^ 2) in *. set (Z := (B z / N) ^ 2) in *. clearbody X Y Z. assert (ZE : Z = 1 - X - Y) by lra. subst Z.
    apply Rabs_le. lra.
Qed.

Lemma plus_nan x y : ~ number x \/ ~ number y -> ~ number (b64_plus NE x y).
Proof. unfold number. destruct x, y; cbn; intros [H|H]; try discriminate; exfalso; apply H; reflexivity. Qed.
Lemma sqrt_nan x : ~ number x -> ~ number (b64_sqrt NE x).
Proof. unfold number. destruct x; cbn; intros H; try discriminate; exfalso; apply H; reflexivity. Qed.
(** The origin: the assertion fails, and without assertions the division. *)
Theorem C173_origin x y z : fin x = true -> fin y = true -> fin z = true -> B x = 0 -> B y = 0 -> B z = 0 ->
  make_unit_point x y z = Raise (if debug then PyAssertionError else ZeroDivisionError).
Proof.
  intros FX FY FZ X Y Z. unfold UnitFloatModel.make_unit_point. destruct (sq_zero _ OK x FX X) as (F1 & V1), (sq_zero _ OK y FY Y) as (F2 & V2), (sq_zero _ OK z FZ Z) as (F3 & V3).
  assert (Q : forall w, fin (pow2 w) = true -> py_square pow2 w = Ret (pow2 w)) by (intros w F; unfold py_square; destruct (pow2 w); try discriminate F; reflexivity).
  rewrite !Q by assumption. cbn [pbind]. destruct (add_pos _ _ 1 F1 F2) as (F4 & V4 & _); [rewrite V1 | rewrite V2 | lia |]; try (pose proof (b_pos 1); lra). rewrite V1, V2, Rplus_0_l, (rnd_fmt 0 fmt_0) in V4.
  destruct (add_pos _ _ 1 F4 F3) as (F5 & V5 & _); [rewrite V4 | rewrite V3 | lia |]; try (pose proof (b_pos 1); lra). rewrite V4, V3, Rplus_0_l, (rnd_fmt 0 fmt_0) in V5.
  destruct (sqrt_val _ F5 ltac:(rewrite V5; lra)) as (F6 & V6). rewrite V5, sqrt_0, (rnd_fmt 0 fmt_0) in V6. set (mag := b64_sqrt NE _) in *.
  rewrite gt_le by auto. rewrite (proj2 (le_spec mag f_zero F6 eq_refl)) by (rewrite V6; change (B f_zero) with 0; lra). destruct debug; [reflexivity|]. cbn [andb negb].
  unfold py_div. replace (f_eqb mag f_zero) with true; [reflexivity|]. symmetry. apply eqb_same. unfold same. destruct mag; try discriminate F6; cbn [fin is_finite]; repeat split; auto.
Qed.
(** A NaN: with assertions on the call fails. *)
Theorem C173_nan x y z : ~ number x \/ ~ number y \/ ~ number z -> debug = true -> exists e, make_unit_point x y z = Raise e.
Proof.
  intros H D. unfold UnitFloatModel.make_unit_point.
  assert (Q : forall w, (exists e, py_square pow2 w = Raise e) \/ py_square pow2 w = Ret (pow2 w)) by (intros w; unfold py_square; destruct (pow2 w); auto; destruct (is_finite 53 1024 w); eauto).
  destruct (Q x) as [(e & ->)| ->]; [eexists; reflexivity|]. destruct (Q y) as [(e & ->)| ->]; [eexists; reflexivity|]. destruct (Q z) as [(e & ->)| ->]; [eexists; reflexivity|]. cbn [pbind].
  assert (N : ~ number (b64_sqrt NE (b64_plus NE (b64_plus NE (pow2 x) (pow2 y)) (pow2 z)))).
  { apply sqrt_nan, plus_nan. destruct H as [H|[H|H]]; [left; apply plus_nan; left; apply (sq_nan _ OK _ H) | left; apply plus_nan; right; apply (sq_nan _ OK _ H) | right; apply (sq_nan _ OK _ H)]. }
  rewrite gt_nan; [rewrite D; eexists; reflexivity|]. left. unfold number in N. destruct (is_nan _ _ _); [reflexivity | destruct (N eq_refl)].
Qed.
End S.
(** ** What goes wrong outside of these bounds *)
(** The rounded square, which meets the assumptions. *)
Definition rounded_square (x : fl) : fl := b64_mult NE x x.
Lemma rounded_square_ok : square_ok rounded_square.
Proof.
  unfold rounded_square. split.
  - intros x H. unfold number in *. destruct x; cbn in *; try discriminate; exfalso; apply H; reflexivity.
  - intros []; reflexivity.
  - intros x F V. destruct (near_num _ _ 0 (near_mult x x F F)) as (FP & VP & _); [rewrite V, Rmult_0_l, Rabs_R0; apply Rlt_le, b_pos | lia|]. split; [exact FP|]. rewrite VP, V, Rmult_0_l. apply rnd_fmt, fmt_0.
  - intros x F L. rewrite <- (b_opaque 510) in L. assert (S : 0 <= B x * B x) by nra.
    destruct (near_num _ _ 1020 (near_mult x x F F)) as (FP & VP & _); [rewrite Rabs_mult; change 1020%Z with (510 + 510)%Z; rewrite b_add; apply Rmult_le_compat; auto using Rabs_pos | lia|].
    split; [exact FP|]. rewrite VP. split; [apply rnd_pos; exact S|]. pose proof (rnd_err (B x * B x)) as R. rewrite (Rabs_pos_eq _ S) in R. rewrite u52, <- (b_opaque (-1074)). cbn [pow]. rewrite Rmult_1_r. eapply Rle_trans; [exact R|].
    assert (b (-1075) <= b (-1074)) by (apply b_le; lia). pose proof u_small as (U0 & U1). assert (0 <= u * (B x * B x)) by (apply Rmult_le_pos; lra). lra.
Qed.
Definition lit64 (z : Z) : fl := b64_of_bits z.
Definition f_small : fl := lit64 (485 * 2 ^ 52 + 2 ^ 51)%Z.        (* 1.5 * 2^-538 *)
Definition f_large : fl := lit64 (1534 * 2 ^ 52 + 2 ^ 51)%Z.       (* 1.5 * 2^511 *)
Definition bits_of (r : py (t3 fl)) : py (Z * Z * Z) := match r with Ret p => Ret (bits_of_b64 (ax p), bits_of_b64 (ay p), bits_of_b64 (az p)) | Raise e => Raise e | NoEnd => NoEnd end.
(** A tiny point gives a point of length 0.75, a tinier one an AssertionError, a large one the origin, a larger one an OverflowError, and an infinite coordinate a NaN. *)
Theorem C173_range_refuted : exists tiny tinier large larger,
  fin tiny = true /\ fin tinier = true /\ fin large = true /\ fin larger = true /\ f_gt tinier f_zero = true /\
  bits_of (make_unit_point rounded_square true tiny f_zero f_zero) = Ret (1022 * 2 ^ 52 + 2 ^ 51, 0, 0)%Z /\
  make_unit_point rounded_square true tinier f_zero f_zero = Raise PyAssertionError /\
  bits_of (make_unit_point rounded_square true large large f_zero) = Ret (0, 0, 0)%Z /\
  make_unit_point rounded_square true larger f_zero f_zero = Raise OverflowError /\
  match make_unit_point rounded_square true (B754_infinity 53 1024 false) f_zero f_zero with Ret p => ~ number (ax p) | _ => False end.
Proof.
  exists f_small, f_m540, f_large, (lit64 (1535 * 2 ^ 52)%Z).
  repeat (split; [vm_compute; reflexivity|]). vm_compute. discriminate.
Qed.

(** ** Examples *)
(** The point (3, 4, 0) is within the bounds. *)
Example C173_example : moderate (f_of_Z 3) /\ moderate (f_of_Z 4) /\ moderate f_zero /\ sizable (f_of_Z 3) /\
  bits_of (make_unit_point rounded_square true (f_of_Z 3) (f_of_Z 4) f_zero) = Ret (4603579539098121011, 4605380978949069210, 0)%Z.
Proof.
  destruct (of_Z_whole 3 ltac:(lia)) as (F3 & V3), (of_Z_whole 4 ltac:(lia)) as (F4 & V4).
  assert (H : 4 <= bpow radix2 500) by (apply Rle_trans with (bpow radix2 2); [cbn; lra | apply bpow_le; lia]).
  split; [split; [exact F3 | rewrite V3, Rabs_pos_eq; lra]|]. split; [split; [exact F4 | rewrite V4, Rabs_pos_eq; lra]|]. split; [split; [reflexivity | cbn [B2R]; change (B f_zero) with 0; rewrite Rabs_R0; lra]|].
  split; [unfold sizable; rewrite V3, Rabs_pos_eq by lra; apply Rle_trans with (bpow radix2 0); [apply bpow_le; lia | cbn; lra]|]. vm_compute. reflexivity.
Qed.
Print Assumptions C173_unit.
Print Assumptions C173_origin.
Print Assumptions C173_nan.
Print Assumptions C173_range_refuted.
