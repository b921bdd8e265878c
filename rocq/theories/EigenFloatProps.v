(** C171: comparing and measuring points with the rounding of doubles. *)
From Verif Require Import Base VoxelFloat DynGridFloat VoxelMakeModel ChunkFloat InterpFloatModel AvgFloatModel EigenFloatModel InterpFloatProps VecFloatProps AvgFloatProps.
From Flocq Require Import IEEE754.Bits IEEE754.Binary Core Relative Plus_error.
From Coq Require Import Reals Lra Psatz.
Local Instance P53 : Prec_gt_0 53 := eq_refl.
Local Instance VE : Valid_exp (SpecFloat.fexp 53 1024) := BinarySingleNaN.fexp_correct 53 1024 eq_refl.
Open Scope R_scope.

(** ** Specification *)
(** Two doubles that are the same number: finite with the same value, or the same infinity; a NaN is no number. *)
Definition same (x y : fl) : Prop :=
  match x, y with
  | B754_infinity _ _ s, B754_infinity _ _ s' => s = s'
  | _, _ => fin x = true /\ fin y = true /\ B x = B y
  end.
Definition number (x : fl) : Prop := is_nan 53 1024 x = false.

(** ** Equal3d and Equal4d *)
Lemma eqb_same x y : f_eqb x y = true <-> same x y.
Proof.
  assert (G : fin x = true -> fin y = true -> f_eqb x y = true <-> B x = B y).
  { intros FX FY. unfold f_eqb, b64_compare. rewrite Bcompare_correct by auto. destruct (Rcompare_spec (B x) (B y)); split; intros; auto; try discriminate; lra. }
  destruct x as [s|s|s pl H|s m e H], y as [s'|s'|s' pl' H'|s' m' e' H']; cbn [same];
    try (rewrite G by reflexivity; tauto);
    try (split; [intros Q; try destruct s; try destruct s'; discriminate Q | intros (A & C & _); try discriminate A; discriminate C]).
  destruct s, s'; split; intros Q; try reflexivity; discriminate Q.
Qed.
Lemma same_refl x : number x -> same x x.
Proof. destruct x; cbn; auto. Qed.
Lemma same_number x y : same x y -> number x /\ number y.
Proof. unfold number. destruct x, y; cbn; intros Q; try (destruct Q as (? & ? & ?)); split; congruence. Qed.
Lemma same_sym x y : same x y -> same y x.
Proof. destruct x, y; cbn; intros Q; try (destruct Q as (? & ? & ?)); repeat split; congruence. Qed.
Lemma same_trans x y z : same x y -> same y z -> same x z.
Proof. destruct x, y, z; cbn; intros Q Q'; try (destruct Q as (? & ? & ?)); try (destruct Q' as (? & ? & ?)); repeat split; congruence. Qed.

(** True exactly if all coordinates are the same number; so it is symmetric and transitive, and true of a point and itself unless it has a NaN. *)
Theorem C171_equal3 v w : equal3 v w = true <-> same (ax v) (ax w) /\ same (ay v) (ay w) /\ same (az v) (az w).
Proof. unfold equal3. rewrite !andb_true_iff, !eqb_same. tauto. Qed.
Theorem C171_equal4 v w : equal4 v w = true <-> same (hx v) (hx w) /\ same (hy v) (hy w) /\ same (hz v) (hz w) /\ same (hw v) (hw w).
Proof. unfold equal4. rewrite !andb_true_iff, !eqb_same. tauto. Qed.
Theorem C171_equal3_laws u v w : (equal3 v v = true <-> number (ax v) /\ number (ay v) /\ number (az v)) /\
  equal3 v w = equal3 w v /\ (equal3 u v = true -> equal3 v w = true -> equal3 u w = true).
Proof.
  split; [|split].
  - rewrite C171_equal3. split; [intros (A & C & D); apply same_number in A, C, D; tauto | intros (A & C & D); auto using same_refl].
  - apply eq_true_iff_eq. rewrite !C171_equal3. split; intros (A & C & D); auto using same_sym.
  - rewrite !C171_equal3. intros (A & C & D) (A' & C' & D'). exact (conj (same_trans _ _ _ A A') (conj (same_trans _ _ _ C C') (same_trans _ _ _ D D'))).
Qed.

(** ** CloseEnough *)
(** A number of at most 2^k in absolute value ([b k] is 2^k). *)
Definition bounded (k : Z) (x : fl) : Prop := fin x = true /\ Rabs (B x) <= b k.
Definition bounded3 (k : Z) (v : t3 fl) : Prop := bounded k (ax v) /\ bounded k (ay v) /\ bounded k (az v).
Definition bounded2 (k : Z) (v : t2) : Prop := bounded k (px v) /\ bounded k (py v).
(** The exact differences of the coordinates are at most [d]. *)
Definition within3 (v w : t3 fl) (d : R) : Prop := Rabs (B (ax w) - B (ax v)) <= d /\ Rabs (B (ay w) - B (ay v)) <= d /\ Rabs (B (az w) - B (az v)) <= d.
Definition within2 (v w : t2) (d : R) : Prop := Rabs (B (px w) - B (px v)) <= d /\ Rabs (B (py w) - B (py v)) <= d.

Lemma gt_le x y : fin x = true -> fin y = true -> f_gt x y = negb (f_le x y).
Proof. intros FX FY. unfold f_gt, f_le, b64_compare. rewrite Bcompare_correct by auto. destruct (Rcompare _ _); reflexivity. Qed.
Lemma far x y t : bounded 1022 x -> bounded 1022 y -> fin t = true -> f_gt (f_abs (b64_minus NE x y)) (f_abs t) = negb (f_close x y t).
Proof.
  intros (FX & LX) (FY & LY) FT.
  assert (YX : Rabs (B x - B y) <= b 1023) by (rewrite b_1023; unfold Rminus; eapply Rle_trans; [apply Rabs_triang|]; rewrite Rabs_Ropp; lra).
  destruct (minus_val x y 1023 FX FY ltac:(lia) YX) as (F & _). rewrite gt_le by (rewrite (proj1 (abs_val _)); assumption).
  rewrite (proj2 (proj2 (C158_close_rounded x y t FX FY FT LX LY))). unfold f_close. reflexivity.
Qed.
Lemma close3_finite v w t : bounded3 1022 v -> bounded3 1022 w -> fin t = true ->
  close3 v w t = f_close (ax v) (ax w) t && f_close (ay v) (ay w) t && f_close (az v) (az w) t.
Proof.
  intros (V1 & V2 & V3) (W1 & W2 & W3) FT. unfold close3. rewrite !far by assumption.
  destruct (f_close (ax v) (ax w) t), (f_close (ay v) (ay w) t), (f_close (az v) (az w) t); reflexivity.
Qed.
(** For numbers both tests are true when no coordinates are further apart than the threshold, false when some are further apart than the next double
    above it, and symmetric. *)
Theorem C171_close3 v w t : bounded3 1022 v -> bounded3 1022 w -> fin t = true ->
  (within3 v w (Rabs (B t)) -> close3 v w t = true) /\ (close3 v w t = true -> within3 v w (Rabs (B t) * (1 + bpow radix2 (-52)))) /\ close3 v w t = close3 w v t.
Proof.
  intros V W FT. rewrite !close3_finite by assumption. destruct V as ((F1 & L1) & (F2 & L2) & (F3 & L3)), W as ((G1 & M1) & (G2 & M2) & (G3 & M3)).
  destruct (C158_close_rounded _ _ t F1 G1 FT L1 M1) as (A1 & C1 & D1), (C158_close_rounded _ _ t F2 G2 FT L2 M2) as (A2 & C2 & D2), (C158_close_rounded _ _ t F3 G3 FT L3 M3) as (A3 & C3 & D3).
  split; [|split].
  - intros (P1 & P2 & P3). rewrite A1, A2, A3; auto.
  - rewrite !andb_true_iff. intros ((P1 & P2) & P3). split; [|split]; auto.
  - rewrite D1, D2, D3. reflexivity.
Qed.
Theorem C171_close2 v w t : bounded2 1022 v -> bounded2 1022 w -> fin t = true ->
  (within2 v w (Rabs (B t)) -> close2 v w t = true) /\ (close2 v w t = true -> within2 v w (Rabs (B t) * (1 + bpow radix2 (-52)))) /\ close2 v w t = close2 w v t.
Proof.
  intros ((F1 & L1) & (F2 & L2)) ((G1 & M1) & (G2 & M2)) FT. unfold close2.
  destruct (C158_close_rounded _ _ t F1 G1 FT L1 M1) as (A1 & C1 & D1), (C158_close_rounded _ _ t F2 G2 FT L2 M2) as (A2 & C2 & D2).
  split; [|split].
  - intros (P1 & P2). rewrite A1, A2; auto.
  - rewrite !andb_true_iff. intros (P1 & P2). split; auto.
  - rewrite D1, D2. reflexivity.
Qed.
(** Vectors of points: as many, and point by point. *)
Theorem C171_vectors {A} (test : A -> A -> bool) a b : each_close test a b = true <-> Forall2 (fun x y => test x y = true) a b.
Proof.
  unfold each_close. split.
  - destruct (length a =? length b)%nat eqn:L; [|discriminate]. apply Nat.eqb_eq in L. revert b L. induction a as [|x a IH]; intros [|y b] L; try discriminate; [constructor|].
    cbn [all_pairs]. destruct (test x y) eqn:T; [|discriminate]. intros H. constructor; [exact T | apply IH; [cbn in L; lia | exact H]].
  - intros F. assert (length a = length b) as -> by (induction F; cbn; congruence). rewrite Nat.eqb_refl. induction F as [|x y a b T F IH]; [reflexivity|]. cbn [all_pairs]. rewrite T. exact IH.
Qed.
Theorem C171_close3_vectors a b t : close3_vec a b t = true <-> Forall2 (fun v w => close3 v w t = true) a b.
Proof. apply C171_vectors. Qed.

(** *** NaN *)
Lemma minus_nan x y : ~ number x \/ ~ number y -> is_nan 53 1024 (b64_minus NE x y) = true.
Proof. unfold number. destruct x, y; cbn; intros [H|H]; try reflexivity; exfalso; apply H; reflexivity. Qed.
Lemma abs_nan x : is_nan 53 1024 x = true -> is_nan 53 1024 (f_abs x) = true.
Proof. destruct x; cbn; auto. Qed.
Lemma gt_nan x y : is_nan 53 1024 x = true \/ is_nan 53 1024 y = true -> f_gt x y = false.
Proof. destruct x, y; cbn; intros [H|H]; try discriminate; reflexivity. Qed.
Lemma le_nan x y : is_nan 53 1024 x = true -> f_le x y = false.
Proof. destruct x; cbn; try discriminate. reflexivity. Qed.
(** A point of the plane with a NaN is close to nothing. *)
Theorem C171_close2_nan v w t : ~ number (px v) \/ ~ number (py v) \/ ~ number (px w) \/ ~ number (py w) -> close2 v w t = false.
Proof.
  assert (G : forall x y, ~ number x \/ ~ number y -> f_close x y t = false) by (intros x y H; unfold f_close; apply le_nan, abs_nan, minus_nan; tauto).
  intros [H|[H|[H|H]]]; unfold close2; [rewrite (G (px v)) | rewrite (G (py v)) | rewrite (G (px v) (px w)) | rewrite (G (py v) (py w))]; auto using andb_false_r.
Qed.
(** What the same test of points in space should do, and does not: coordinates with a NaN are passed over, and a point of three NaNs is close to every
    point; so is everything when the threshold is a NaN. *)
Theorem C171_close3_nan_refuted : (forall v w t, ~ number (ax v) -> ~ number (ay v) -> ~ number (az v) -> close3 v w t = true /\ close3 w v t = true) /\
  (forall v w t, ~ number t -> close3 v w t = true).
Proof.
  assert (G : forall x y t, ~ number x \/ ~ number y \/ ~ number t -> f_gt (f_abs (b64_minus NE x y)) (f_abs t) = false).
  { intros x y t H. apply gt_nan. destruct H as [H|[H|H]]; [left; apply abs_nan, minus_nan; auto | left; apply abs_nan, minus_nan; auto | right; apply abs_nan; unfold number in H; destruct (is_nan _ _ t); [reflexivity | exfalso; apply H; reflexivity]]. }
  split; [intros v w t H1 H2 H3; split | intros v w t H]; unfold close3; rewrite !G by auto; reflexivity.
Qed.
(** The coordinates without a NaN still count. *)
Theorem C171_close3_nan_rest v w t : ~ number (ax v) -> bounded 1022 (ay v) -> bounded 1022 (az v) -> bounded3 1022 w -> fin t = true ->
  close3 v w t = f_close (ay v) (ay w) t && f_close (az v) (az w) t.
Proof.
  intros N V2 V3 (W1 & W2 & W3) FT. unfold close3. rewrite (gt_nan (f_abs (b64_minus NE (ax v) (ax w)))) by (left; apply abs_nan, minus_nan; auto).
  rewrite !far by assumption. destruct (f_close (ay v) (ay w) t), (f_close (az v) (az w) t); reflexivity.
Qed.

(** ** Distances *)
(** The exact squares of the distances. *)
Definition exact3 (v w : t3 fl) : R := (B (ax w) - B (ax v)) ^ 2 + (B (ay w) - B (ay v)) ^ 2 + (B (az w) - B (az v)) ^ 2.
Definition exact2 (v w : t2) : R := (B (px w) - B (px v)) ^ 2 + (B (py w) - B (py v)) ^ 2.

(** What one coordinate contributes, for an exact difference x. *)
Definition sqR (x : R) : R := rndN (rndN x * rndN x).
Lemma fmt_rnd x : fmt64 (rndN x). Proof. apply generic_format_round; typeclasses eauto. Qed.
Lemma rnd_pos x : 0 <= x -> 0 <= rndN x.
Proof. intros H. rewrite <- (rnd_fmt 0 fmt_0). apply rnd_le. exact H. Qed.
Lemma sqR_pos x : 0 <= sqR x. Proof. apply rnd_pos. nra. Qed.
Lemma rnd_Rabs x : rndN (Rabs x) = Rabs (rndN x). Proof. apply round_NE_abs; typeclasses eauto. Qed.
Lemma sqR_abs x : sqR x = sqR (Rabs x).
Proof. unfold sqR. rewrite rnd_Rabs. f_equal. rewrite <- Rabs_mult. symmetry. apply Rabs_pos_eq. nra. Qed.
Lemma sqR_le x y : Rabs x <= Rabs y -> sqR x <= sqR y.
Proof.
  intros H. rewrite (sqR_abs x), (sqR_abs y). unfold sqR. apply rnd_le. pose proof (rnd_le _ _ H). pose proof (rnd_pos _ (Rabs_pos x)). nra.
Qed.
Lemma sqR_0 : sqR 0 = 0. Proof. unfold sqR. rewrite !(rnd_fmt 0 fmt_0), Rmult_0_l. apply rnd_fmt, fmt_0. Qed.
Lemma sqR_bound x : Rabs x <= b 509 -> sqR x <= b 1018.
Proof.
  intros H. unfold sqR. rewrite <- (rnd_fmt (b 1018)) by (apply fmt_b; lia). apply rnd_le. pose proof (rnd_abs x (b 509) ltac:(apply fmt_b; lia) H) as Q.
  apply two_sided in Q. replace (b 1018) with (b 509 * b 509) by (rewrite <- b_add; reflexivity). nra.
Qed.
Lemma coordinate x y : bounded 508 x -> bounded 508 y -> let d := b64_minus NE y x in
  fin (b64_mult NE d d) = true /\ B (b64_mult NE d d) = sqR (B y - B x) /\ Rabs (B y - B x) <= b 509.
Proof.
  intros (FX & LX) (FY & LY) d.
  assert (L : Rabs (B y - B x) <= b 509) by (change 509%Z with (508 + 1)%Z; rewrite b_double; unfold Rminus; eapply Rle_trans; [apply Rabs_triang|]; rewrite Rabs_Ropp; lra).
  destruct (near_num _ _ 509 (near_minus y x FY FX) L ltac:(lia)) as (FD & VD & AD). fold d in FD, VD, AD.
  destruct (near_num _ _ 1018 (near_mult d d FD FD)) as (FP & VP & _); [|lia|].
  - rewrite Rabs_mult. replace (b 1018) with (b 509 * b 509) by (rewrite <- b_add; reflexivity). apply Rmult_le_compat; auto using Rabs_pos.
  - split; [exact FP|]. split; [|exact L]. rewrite VP, VD. reflexivity.
Qed.
Lemma add_pos p q k : fin p = true -> fin q = true -> 0 <= B p <= b k -> 0 <= B q <= b k -> (0 <= k <= 1022)%Z ->
  fin (b64_plus NE p q) = true /\ B (b64_plus NE p q) = rndN (B p + B q) /\ 0 <= B (b64_plus NE p q) <= b (k + 1).
Proof.
  intros FP FQ P Q K. destruct (near_num _ _ (k + 1) (near_plus p q FP FQ)) as (F & V & A); [rewrite b_double, Rabs_pos_eq; lra|lia|].
  split; [exact F|]. split; [exact V|]. apply two_sided in A. split; [rewrite V; apply rnd_pos; lra | lra].
Qed.
Lemma sq3_val v w : bounded3 508 v -> bounded3 508 w -> fin (sq3 v w) = true /\
  B (sq3 v w) = rndN (rndN (sqR (B (ax w) - B (ax v)) + sqR (B (ay w) - B (ay v))) + sqR (B (az w) - B (az v))) /\ 0 <= B (sq3 v w) <= b 1020.
Proof.
  intros (V1 & V2 & V3) (W1 & W2 & W3). unfold sq3. cbv zeta.
  destruct (coordinate _ _ V1 W1) as (F1 & E1 & L1), (coordinate _ _ V2 W2) as (F2 & E2 & L2), (coordinate _ _ V3 W3) as (F3 & E3 & L3). cbv zeta in *.
  destruct (add_pos _ _ 1018 F1 F2) as (FS & VS & BS); [rewrite E1; split; [apply sqR_pos | apply sqR_bound, L1] | rewrite E2; split; [apply sqR_pos | apply sqR_bound, L2] | lia |].
  destruct (add_pos _ _ 1019 FS F3) as (FT & VT & BT); [exact BS | rewrite E3; split; [apply sqR_pos | eapply Rle_trans; [apply sqR_bound, L3 | apply b_le; lia]] | lia |].
  split; [exact FT|]. split; [|exact BT]. rewrite VT, VS, E1, E2, E3. reflexivity.
Qed.
Lemma sq2_val v w : bounded2 508 v -> bounded2 508 w -> fin (sq2 v w) = true /\
  B (sq2 v w) = rndN (sqR (B (px w) - B (px v)) + sqR (B (py w) - B (py v))) /\ 0 <= B (sq2 v w) <= b 1019.
Proof.
  intros (V1 & V2) (W1 & W2). unfold sq2. cbv zeta.
  destruct (coordinate _ _ V1 W1) as (F1 & E1 & L1), (coordinate _ _ V2 W2) as (F2 & E2 & L2). cbv zeta in *.
  destruct (add_pos _ _ 1018 F1 F2) as (FS & VS & BS); [rewrite E1; split; [apply sqR_pos | apply sqR_bound, L1] | rewrite E2; split; [apply sqR_pos | apply sqR_bound, L2] | lia |].
  split; [exact FS|]. split; [|exact BS]. rewrite VS, E1, E2. reflexivity.
Qed.
Lemma sqrt_val p : fin p = true -> 0 <= B p -> fin (b64_sqrt NE p) = true /\ B (b64_sqrt NE p) = rndN (sqrt (B p)).
Proof.
  intros F P. destruct (Bsqrt_correct 53 1024 eq_refl eq_refl unop_nan_pl64 NE p) as (VS & FS & _). change (BinarySingleNaN.round_mode NE) with ZnearestE in VS.
  change (Bsqrt 53 1024 eq_refl eq_refl unop_nan_pl64 NE p) with (b64_sqrt NE p) in VS, FS. split; [|exact VS].
  rewrite FS. destruct p as [sg|sg|sg pl H|sg mm e H]; try discriminate F; [reflexivity|]. destruct sg; [|reflexivity]. exfalso. cbn in P.
  assert (Z : F2R (Float radix2 (Zneg mm) e) < 0) by (apply F2R_lt_0; reflexivity). cbn in Z. lra.
Qed.

(** *** What always holds *)
(** Points with coordinates of at most 2^508: the results are numbers, not negative, 0 for a point and itself, the same in both directions, and never
    smaller for points further apart in every coordinate. *)
Theorem C171_distance3 v w : bounded3 508 v -> bounded3 508 w ->
  fin (sq3 v w) = true /\ fin (dist3 v w) = true /\ 0 <= B (sq3 v w) /\ 0 <= B (dist3 v w) /\
  B (sq3 v w) = B (sq3 w v) /\ B (dist3 v w) = B (dist3 w v) /\ B (sq3 v v) = 0 /\ B (dist3 v v) = 0 /\
  forall v' w', bounded3 508 v' -> bounded3 508 w' -> Rabs (B (ax w) - B (ax v)) <= Rabs (B (ax w') - B (ax v')) -> Rabs (B (ay w) - B (ay v)) <= Rabs (B (ay w') - B (ay v')) ->
    Rabs (B (az w) - B (az v)) <= Rabs (B (az w') - B (az v')) -> B (sq3 v w) <= B (sq3 v' w') /\ B (dist3 v w) <= B (dist3 v' w').
Proof.
  intros V W. destruct (sq3_val v w V W) as (F & E & P), (sq3_val w v W V) as (F' & E' & P'), (sq3_val v v V V) as (F0 & E0 & P0).
  destruct (sqrt_val _ F (proj1 P)) as (FD & ED), (sqrt_val _ F' (proj1 P')) as (FD' & ED'), (sqrt_val _ F0 (proj1 P0)) as (FD0 & ED0).
  assert (SY : B (sq3 v w) = B (sq3 w v)).
  { rewrite E, E'. rewrite (sqR_abs (B (ax w) - _)), (sqR_abs (B (ay w) - _)), (sqR_abs (B (az w) - _)), (Rabs_minus_sym (B (ax w))), (Rabs_minus_sym (B (ay w))), (Rabs_minus_sym (B (az w))), <- !sqR_abs. reflexivity. }
  assert (Z : B (sq3 v v) = 0) by (rewrite E0; unfold Rminus; rewrite !Rplus_opp_r, !sqR_0, Rplus_0_l, (rnd_fmt 0 fmt_0), Rplus_0_l; apply rnd_fmt, fmt_0).
  unfold dist3. rewrite ED, ED', ED0. split; [exact F|]. split; [exact FD|]. split; [apply P|]. split; [apply rnd_pos, sqrt_pos|]. split; [exact SY|]. split; [rewrite SY; reflexivity|]. split; [exact Z|].
  split; [rewrite Z, sqrt_0; apply rnd_fmt, fmt_0|]. intros v' w' V' W' H1 H2 H3. destruct (sq3_val v' w' V' W') as (F1 & E1 & P1). destruct (sqrt_val _ F1 (proj1 P1)) as (FD1 & ED1).
  assert (LE : B (sq3 v w) <= B (sq3 v' w')) by (rewrite E, E1; apply rnd_le, Rplus_le_compat; [apply rnd_le, Rplus_le_compat|]; apply sqR_le; assumption).
  split; [exact LE|]. rewrite ED1. apply rnd_le, sqrt_le_1_alt. exact LE.
Qed.
Theorem C171_distance2 v w : bounded2 508 v -> bounded2 508 w ->
  fin (sq2 v w) = true /\ fin (dist2 v w) = true /\ 0 <= B (sq2 v w) /\ 0 <= B (dist2 v w) /\
  B (sq2 v w) = B (sq2 w v) /\ B (dist2 v w) = B (dist2 w v) /\ B (sq2 v v) = 0 /\ B (dist2 v v) = 0 /\
  forall v' w', bounded2 508 v' -> bounded2 508 w' -> Rabs (B (px w) - B (px v)) <= Rabs (B (px w') - B (px v')) -> Rabs (B (py w) - B (py v)) <= Rabs (B (py w') - B (py v')) ->
    B (sq2 v w) <= B (sq2 v' w') /\ B (dist2 v w) <= B (dist2 v' w').
Proof.
  intros V W. destruct (sq2_val v w V W) as (F & E & P), (sq2_val w v W V) as (F' & E' & P'), (sq2_val v v V V) as (F0 & E0 & P0).
  destruct (sqrt_val _ F (proj1 P)) as (FD & ED), (sqrt_val _ F' (proj1 P')) as (FD' & ED'), (sqrt_val _ F0 (proj1 P0)) as (FD0 & ED0).
  assert (SY : B (sq2 v w) = B (sq2 w v)).
  { rewrite E, E'. rewrite (sqR_abs (B (px w) - _)), (sqR_abs (B (py w) - _)), (Rabs_minus_sym (B (px w))), (Rabs_minus_sym (B (py w))), <- !sqR_abs. reflexivity. }
  assert (Z : B (sq2 v v) = 0) by (rewrite E0; unfold Rminus; rewrite !Rplus_opp_r, !sqR_0, Rplus_0_l; apply rnd_fmt, fmt_0).
  unfold dist2. rewrite ED, ED', ED0. split; [exact F|]. split; [exact FD|]. split; [apply P|]. split; [apply rnd_pos, sqrt_pos|]. split; [exact SY|]. split; [rewrite SY; reflexivity|]. split; [exact Z|].
  split; [rewrite Z, sqrt_0; apply rnd_fmt, fmt_0|]. intros v' w' V' W' H1 H2. destruct (sq2_val v' w' V' W') as (F1 & E1 & P1). destruct (sqrt_val _ F1 (proj1 P1)) as (FD1 & ED1).
  assert (LE : B (sq2 v w) <= B (sq2 v' w')) by (rewrite E, E1; apply rnd_le, Rplus_le_compat; apply sqR_le; assumption).
  split; [exact LE|]. rewrite ED1. apply rnd_le, sqrt_le_1_alt. exact LE.
Qed.

(** *** Errors *)
Notation u := (b (-53)).
Notation tiny := (b (-1075)).
Lemma tiny_pos : 0 < tiny. Proof. apply b_pos. Qed.
Lemma sqR_err x y : fmt64 x -> fmt64 y -> (1 - u) ^ 3 * (y - x) ^ 2 - tiny <= sqR (y - x) <= (1 + u) ^ 3 * (y - x) ^ 2 + tiny.
Proof.
  intros FX FY. destruct (sum_rel y (- x) FY (generic_format_opp _ _ _ FX)) as (e & A & Q). change (y + - x) with (y - x) in Q. unfold sqR. rewrite Q. set (d := y - x).
  pose proof (rnd_err (d * (1 + e) * (d * (1 + e)))) as R. pose proof u_small as (U0 & U1). apply two_sided in A.
  set (z := d * (1 + e) * (d * (1 + e))) in *. assert (Z : z = d ^ 2 * (1 + e) ^ 2) by (unfold z; ring). assert (D : 0 <= d ^ 2) by nra.
  assert (L : (1 - u) ^ 2 <= (1 + e) ^ 2 <= (1 + u) ^ 2) by nra.
  assert (ZL : (1 - u) ^ 2 * d ^ 2 <= z <= (1 + u) ^ 2 * d ^ 2) by (rewrite Z; split; rewrite (Rmult_comm (d ^ 2)); apply Rmult_le_compat_r; lra).
  assert (Z0 : 0 <= z) by (rewrite Z; nra). rewrite (Rabs_pos_eq z Z0) in R. apply two_sided in R.
  assert (LO : (1 - u) * ((1 - u) ^ 2 * d ^ 2) <= (1 - u) * z) by (apply Rmult_le_compat_l; lra).
  assert (HI : (1 + u) * z <= (1 + u) * ((1 + u) ^ 2 * d ^ 2)) by (apply Rmult_le_compat_l; lra). cbn [pow] in *. lra.
Qed.
Lemma add_err p q : fmt64 p -> fmt64 q -> 0 <= p + q -> (1 - u) * (p + q) <= rndN (p + q) <= (1 + u) * (p + q).
Proof. intros FP FQ P. destruct (sum_rel p q FP FQ) as (e & A & ->). apply two_sided in A. nra. Qed.
Lemma powers : (1 + u) ^ 5 <= 1 + 6 * u /\ 1 - 6 * u <= (1 - u) ^ 5 /\ (1 + u) ^ 2 <= 4 / 3 /\ 0 < (1 - u) <= 1.
Proof.
  pose proof u_small as (U0 & U1). set (v := u) in *. clearbody v. assert (Q : v * v <= / 64 * v) by nra. assert (Q0 : 0 <= v * v) by nra.
  assert (A2 : (1 + v) * (1 + v) <= 1 + 2.02 * v) by nra. assert (A3 : (1 + v) * ((1 + v) * (1 + v)) <= 1 + 3.06 * v) by nra.
  assert (A4 : (1 + v) * ((1 + v) * ((1 + v) * (1 + v))) <= 1 + 4.12 * v) by nra. assert (A5 : (1 + v) * ((1 + v) * ((1 + v) * ((1 + v) * (1 + v)))) <= 1 + 5.2 * v) by nra.
  assert (C2 : 1 - 2 * v <= (1 - v) * (1 - v)) by nra. assert (C3 : 1 - 3 * v <= (1 - v) * ((1 - v) * (1 - v))) by nra.
  assert (C4 : 1 - 4 * v <= (1 - v) * ((1 - v) * ((1 - v) * (1 - v)))) by nra. assert (C5 : 1 - 5 * v <= (1 - v) * ((1 - v) * ((1 - v) * ((1 - v) * (1 - v))))) by nra.
  cbn [pow]. rewrite !Rmult_1_r. repeat split; lra.
Qed.
Lemma err3 x y z p q r e : 0 <= x -> 0 <= y -> 0 <= z -> 0 < e -> 0 <= p -> 0 <= q -> 0 <= r ->
  (1 - u) ^ 3 * x - e <= p <= (1 + u) ^ 3 * x + e -> (1 - u) ^ 3 * y - e <= q <= (1 + u) ^ 3 * y + e -> (1 - u) ^ 3 * z - e <= r <= (1 + u) ^ 3 * z + e ->
  forall s t, (1 - u) * (p + q) <= s <= (1 + u) * (p + q) -> (1 - u) * (s + r) <= t <= (1 + u) * (s + r) ->
  Rabs (t - (x + y + z)) <= 6 * u * (x + y + z) + 4 * e /\ Rabs (s - (x + y)) <= 6 * u * (x + y) + 4 * e.
Proof.
  intros X Y Z E P Q W HP HQ HR s t HS HT. destruct powers as (H5 & L5 & H2 & L1). pose proof u_small as (U0 & U1). set (v := u) in *. clearbody v.
  set (h := (1 + v) ^ 3) in *. set (l := (1 - v) ^ 3) in *.
  assert (h5 : (1 + v) * ((1 + v) * h) <= 1 + 6 * v) by (unfold h; cbn [pow] in *; lra). assert (l5 : 1 - 6 * v <= (1 - v) * ((1 - v) * l)) by (unfold l; cbn [pow] in *; lra).
  assert (h0 : 1 <= h) by (unfold h; cbn [pow]; nra). assert (l0 : 0 <= l) by (unfold l; cbn [pow]; assert (0 <= (1 - v) * (1 - v)) by nra; nra). clearbody h l.
  assert (h2 : (1 + v) * (1 + v) <= 4 / 3) by (cbn [pow] in H2; lra). assert (h4 : h <= (1 + v) * h) by nra. assert (h4' : (1 + v) * h <= (1 + v) * ((1 + v) * h)) by (apply Rmult_le_compat_l; lra). assert (ve : 0 <= v * e) by (apply Rmult_le_pos; lra). assert (ve' : v * e <= 1 * e) by (apply Rmult_le_compat_r; lra).
  assert (l4 : (1 - v) * l <= l) by nra. assert (l4' : (1 - v) * ((1 - v) * l) <= (1 - v) * l) by nra.
  assert (SH : s <= (1 + v) * h * (x + y) + 2 * ((1 + v) * e)).
  { apply Rle_trans with ((1 + v) * (p + q)); [lra|]. replace ((1 + v) * h * (x + y) + 2 * ((1 + v) * e)) with ((1 + v) * (h * x + e + (h * y + e))) by ring. apply Rmult_le_compat_l; lra. }
  assert (SL : (1 - v) * l * (x + y) - 2 * e <= s).
  { apply Rle_trans with ((1 - v) * (p + q)); [|lra]. apply Rle_trans with ((1 - v) * (l * x - e + (l * y - e))); [|apply Rmult_le_compat_l; lra]. nra. }
  assert (TH : t <= (1 + 6 * v) * (x + y + z) + 4 * e).
  { apply Rle_trans with ((1 + v) * (s + r)); [lra|]. apply Rle_trans with ((1 + v) * ((1 + v) * h * (x + y) + 2 * ((1 + v) * e) + ((1 + v) * h * z + (1 + v) * e))).
    - apply Rmult_le_compat_l; [lra|]. assert (h * z <= (1 + v) * h * z) by (apply Rmult_le_compat_r; lra). lra.
    - replace ((1 + v) * ((1 + v) * h * (x + y) + 2 * ((1 + v) * e) + ((1 + v) * h * z + (1 + v) * e))) with ((1 + v) * ((1 + v) * h) * (x + y + z) + 3 * ((1 + v) * (1 + v)) * e) by ring.
      apply Rplus_le_compat; apply Rmult_le_compat_r; lra. }
  assert (TL : (1 - 6 * v) * (x + y + z) - 4 * e <= t).
  { apply Rle_trans with ((1 - v) * (s + r)); [|lra]. apply Rle_trans with ((1 - v) * ((1 - v) * l * (x + y) - 2 * e + ((1 - v) * l * z - e))).
    - replace ((1 - v) * ((1 - v) * l * (x + y) - 2 * e + ((1 - v) * l * z - e))) with ((1 - v) * ((1 - v) * l) * (x + y + z) - 3 * (1 - v) * e) by ring.
      assert ((1 - 6 * v) * (x + y + z) <= (1 - v) * ((1 - v) * l) * (x + y + z)) by (apply Rmult_le_compat_r; lra). lra.
    - apply Rmult_le_compat_l; [lra|]. assert ((1 - v) * l * z <= l * z) by (apply Rmult_le_compat_r; lra). lra. }
  split; apply Rabs_le.
  - lra.
  - assert ((1 + v) * h * (x + y) <= (1 + 6 * v) * (x + y)) by (apply Rmult_le_compat_r; lra). assert ((1 - 6 * v) * (x + y) <= (1 - v) * l * (x + y)) by (apply Rmult_le_compat_r; lra).
    lra.
Qed.
Lemma four_tiny : 4 * tiny = b (-1073).
Proof. change (-1073)%Z with (-1075 + 1 + 1)%Z. rewrite !b_double. ring. Qed.
(** The error of the square: at most 6 half units of the exact square, and 2^-1073. *)
Theorem C171_square_error : (forall v w, bounded3 508 v -> bounded3 508 w -> Rabs (B (sq3 v w) - exact3 v w) <= 6 * bpow radix2 (-53) * exact3 v w + bpow radix2 (-1073)) /\
  (forall v w, bounded2 508 v -> bounded2 508 w -> Rabs (B (sq2 v w) - exact2 v w) <= 6 * bpow radix2 (-53) * exact2 v w + bpow radix2 (-1073)).
Proof.
  rewrite <- (b_opaque (-53)), <- (b_opaque (-1073)), <- four_tiny.
  split; intros v w V W.
  - destruct (sq3_val v w V W) as (_ & E & _). rewrite E. unfold exact3.
    assert (FQ : forall x, fmt64 (sqR x)) by (intros; apply fmt_rnd).
    pose proof (sqR_pos (B (ax w) - B (ax v))). pose proof (sqR_pos (B (ay w) - B (ay v))). pose proof (sqR_pos (B (az w) - B (az v))).
    apply (proj1 (err3 _ _ _ (sqR (B (ax w) - B (ax v))) (sqR (B (ay w) - B (ay v))) (sqR (B (az w) - B (az v))) tiny (pow2_ge_0 _) (pow2_ge_0 _) (pow2_ge_0 _) tiny_pos (sqR_pos _) (sqR_pos _) (sqR_pos _) ltac:(apply sqR_err; apply fmt_B) ltac:(apply sqR_err; apply fmt_B) ltac:(apply sqR_err; apply fmt_B)
      (rndN (sqR (B (ax w) - B (ax v)) + sqR (B (ay w) - B (ay v)))) _ ltac:(apply add_err; auto; lra) ltac:(apply add_err; auto using fmt_rnd; pose proof (rnd_pos (sqR (B (ax w) - B (ax v)) + sqR (B (ay w) - B (ay v))) ltac:(lra)); lra))).
  - destruct (sq2_val v w V W) as (_ & E & _). rewrite E. unfold exact2.
    assert (FQ : forall x, fmt64 (sqR x)) by (intros; apply fmt_rnd).
    pose proof (sqR_pos (B (px w) - B (px v))). pose proof (sqR_pos (B (py w) - B (py v))).
    set (p := sqR (B (px w) - B (px v))) in *. set (q := sqR (B (py w) - B (py v))) in *. pose proof (rnd_pos (p + q) ltac:(lra)) as S0. pose proof u_small as (U0 & U1).
    assert (T : (1 - u) * (rndN (p + q) + 0) <= rndN (p + q) <= (1 + u) * (rndN (p + q) + 0)) by (clear - S0 U0 U1; set (h := u) in *; clearbody h; nra).
    apply (proj2 (err3 _ _ 0 p q 0 tiny (pow2_ge_0 _) (pow2_ge_0 _) (Rle_refl 0) tiny_pos (sqR_pos _) (sqR_pos _) (Rle_refl 0) ltac:(apply sqR_err; apply fmt_B) ltac:(apply sqR_err; apply fmt_B) ltac:(pose proof tiny_pos; lra)
      (rndN (p + q)) (rndN (p + q)) ltac:(apply add_err; [apply FQ | apply FQ | lra]) T)).
Qed.
Lemma root_err a S : b (-1000) <= S -> Rabs (a - S) <= 6 * u * S + b (-1073) -> 0 <= a -> Rabs (rndN (sqrt a) - sqrt S) <= 5 * u * sqrt S.
Proof.
  intros HS HA A0. pose proof u_small as (U0 & U1). assert (T : b (-1073) <= u * S).
  { apply Rle_trans with (u * b (-1000)); [rewrite <- b_add; apply b_le; lia | apply Rmult_le_compat_l; lra]. }
  pose proof (b_pos (-1000)) as P1000. apply two_sided in HA. set (D := sqrt S). assert (D0 : 0 <= D) by apply sqrt_pos. assert (DD : D * D = S) by (apply sqrt_sqrt; lra).
  assert (D500 : b (-500) <= D).
  { apply Rsqr_incr_0_var; [|exact D0]. unfold Rsqr. rewrite DD, <- b_add. exact HS. }
  pose proof (b_pos (-500)) as P500. remember u as v eqn:VE.
  assert (UP : sqrt a <= D * (1 + 7 / 2 * v)).
  { rewrite <- (sqrt_square (D * (1 + 7 / 2 * v))) by nra. apply sqrt_le_1_alt. apply Rle_trans with (S * (1 + 7 * v)); [lra|]. rewrite <- DD. assert (0 <= D * D) by nra. assert (0 <= v * v) by nra. nra. }
  assert (LOW : D * (1 - 4 * v) <= sqrt a).
  { rewrite <- (sqrt_square (D * (1 - 4 * v))) by nra. apply sqrt_le_1_alt. apply Rle_trans with (S * (1 - 7 * v)); [|lra]. rewrite <- DD. replace (D * (1 - 4 * v) * (D * (1 - 4 * v))) with (D * D * (1 - 8 * v + 16 * (v * v))) by ring. apply Rmult_le_compat_l; nra. }
  assert (N : b (-1022) <= Rabs (sqrt a)).
  { rewrite Rabs_pos_eq by apply sqrt_pos. apply Rle_trans with (b (-501)); [apply b_le; lia|]. apply Rle_trans with (D * (1 - 4 * v)); [|exact LOW].
    assert (b (-500) = 2 * b (-501)) as Q by (change (-500)%Z with (-501 + 1)%Z; apply b_double). pose proof (b_pos (-501)). nra. }
  apply rnd_rel in N. destruct N as (e & HE & ->). rewrite <- VE in HE. apply two_sided in HE. pose proof (sqrt_pos a) as SA. set (q := sqrt a) in *. clearbody q.
  apply Rabs_le. split.
  - assert (D * (1 - 4 * v) * (1 - v) <= q * (1 + e)) by (apply Rmult_le_compat; nra). nra.
  - assert (q * (1 + e) <= D * (1 + 7 / 2 * v) * (1 + v)) by (apply Rmult_le_compat; nra). nra.
Qed.

(** The error of the distance: at most 5 half units, unless the points are less than 2^-500 apart. *)
Theorem C171_distance_error :
  (forall v w, bounded3 508 v -> bounded3 508 w -> bpow radix2 (-500) <= sqrt (exact3 v w) -> Rabs (B (dist3 v w) - sqrt (exact3 v w)) <= 5 * bpow radix2 (-53) * sqrt (exact3 v w)) /\
  (forall v w, bounded2 508 v -> bounded2 508 w -> bpow radix2 (-500) <= sqrt (exact2 v w) -> Rabs (B (dist2 v w) - sqrt (exact2 v w)) <= 5 * bpow radix2 (-53) * sqrt (exact2 v w)).
Proof.
  assert (SQ : forall S, 0 <= S -> b (-500) <= sqrt S -> b (-1000) <= S).
  { intros S S0 H. rewrite <- (sqrt_sqrt S S0). change (-1000)%Z with (-500 + -500)%Z. rewrite b_add. pose proof (b_pos (-500)). nra. }
  destruct C171_square_error as (E3 & E2). rewrite <- (b_opaque (-53)), <- (b_opaque (-500)). rewrite <- (b_opaque (-53)), <- (b_opaque (-1073)) in E3, E2. split; intros v w V W H.
  - destruct (sq3_val v w V W) as (F & _ & P). destruct (sqrt_val _ F (proj1 P)) as (_ & ED). unfold dist3. rewrite ED.
    apply root_err; [apply SQ; [|exact H] | apply E3; assumption | apply P]. unfold exact3. rewrite <- !Rsqr_pow2. repeat apply Rplus_le_le_0_compat; apply Rle_0_sqr.
  - destruct (sq2_val v w V W) as (F & _ & P). destruct (sqrt_val _ F (proj1 P)) as (_ & ED). unfold dist2. rewrite ED.
    apply root_err; [apply SQ; [|exact H] | apply E2; assumption | apply P]. unfold exact2. rewrite <- !Rsqr_pow2. repeat apply Rplus_le_le_0_compat; apply Rle_0_sqr.
Qed.

(** *** What does not hold *)
Definition f_m540 : fl := b64_of_bits (483 * 2 ^ 52)%Z.
Definition f_one : fl := b64_of_bits (1023 * 2 ^ 52)%Z.
Definition f_before : fl := b64_of_bits (2 ^ 63 + 970 * 2 ^ 52 + 2 ^ 51)%Z.
Lemma lit f s m e : B2FF 53 1024 f = F754_finite s m e -> B f = F2R (Float radix2 (cond_Zopp s (Zpos m)) e).
Proof. intros H. rewrite <- FF2R_B2FF, H. reflexivity. Qed.
(** Different points can have the distance 0: 0 and 2^-540 on an axis, whose square is too small. *)
Theorem C171_zero_refuted : exists v w, bounded3 508 v /\ bounded3 508 w /\ B (dist3 v w) = 0 /\ exact3 v w <> 0 /\ equal3 v w = false.
Proof.
  exists (T3 f_zero f_zero f_zero), (T3 f_m540 f_zero f_zero).
  assert (Z : bounded 508 f_zero) by (split; [reflexivity | cbn; rewrite Rabs_R0; apply Rlt_le; first [apply b_pos | apply bpow_gt_0]]).
  assert (L : B f_m540 = bpow radix2 (-540)).
  { rewrite (lit f_m540 false 4503599627370496 (-592)) by (vm_compute; reflexivity). unfold F2R. cbn [Fnum Fexp cond_Zopp]. replace (IZR 4503599627370496) with (bpow radix2 52) by (rewrite <- IZR_Zpower by lia; reflexivity). rewrite <- bpow_plus. reflexivity. }
  assert (M : bounded 508 f_m540) by (split; [vm_compute; reflexivity | rewrite L, Rabs_pos_eq by apply bpow_ge_0; first [rewrite b_opaque | idtac]; apply bpow_le; lia]).
  split; [repeat split; apply Z|]. split; [split; [exact M | split; exact Z]|]. split.
  - assert (E : B2FF 53 1024 (dist3 (T3 f_zero f_zero f_zero) (T3 f_m540 f_zero f_zero)) = F754_zero false) by (vm_compute; reflexivity). rewrite <- FF2R_B2FF, E. reflexivity.
  - split; [|vm_compute; reflexivity]. unfold exact3. cbn [ax ay az]. rewrite L. change (B f_zero) with 0. pose proof (bpow_gt_0 radix2 (-540)). intros Q. nra.
Qed.
(** The triangle inequality can fail: -3 * 2^-54, 0 and 1 on an axis. *)
Theorem C171_triangle_refuted : exists p q r, bounded3 508 p /\ bounded3 508 q /\ bounded3 508 r /\ B (dist3 p q) + B (dist3 q r) < B (dist3 p r).
Proof.
  exists (T3 f_before f_zero f_zero), (T3 f_zero f_zero f_zero), (T3 f_one f_zero f_zero).
  assert (Z : bounded 508 f_zero) by (split; [reflexivity | cbn; rewrite Rabs_R0; apply Rlt_le; first [apply b_pos | apply bpow_gt_0]]).
  assert (S53 : b (-52) = 18014398509481984 * b (-106)) by (change (-52)%Z with (54 + -106)%Z; rewrite b_add; f_equal; rewrite (b_opaque 54), <- IZR_Zpower by lia; reflexivity).
  pose proof (b_pos (-106)) as P.
  assert (B52 : b (-52) <= 1) by (rewrite <- b_0; apply b_le; lia). assert (H1 : 1 <= b 508) by (rewrite <- b_0; apply b_le; lia).
  assert (P52 : 4503599627370496 * b (-52) = 1) by (rewrite <- b_0; change 0%Z with (52 + -52)%Z; rewrite b_add; f_equal; rewrite (b_opaque 52), <- IZR_Zpower by lia; reflexivity).
  split; [split; [split; [vm_compute; reflexivity|]|split; exact Z]|].
  { cbn [ax]. rewrite (lit f_before true 6755399441055744 (-105)) by (vm_compute; reflexivity). unfold F2R. cbn [Fnum Fexp cond_Zopp]. rewrite Rabs_mult, Rabs_Zabs, (Rabs_pos_eq (bpow _ _)) by apply bpow_ge_0. cbn [Z.abs Z.opp].
    rewrite <- (b_opaque (-105)). try rewrite <- (b_opaque 508). assert (b (-105) = 2 * b (-106)) by (change (-105)%Z with (-106 + 1)%Z; apply b_double). lra. }
  split; [repeat split; apply Z|]. split; [split; [split; [vm_compute; reflexivity|]|split; exact Z]|].
  { cbn [ax]. rewrite (lit f_one false 4503599627370496 (-52)) by (vm_compute; reflexivity). unfold F2R. cbn [Fnum Fexp cond_Zopp]. rewrite Rabs_mult, Rabs_Zabs, (Rabs_pos_eq (bpow _ _)) by apply bpow_ge_0. cbn [Z.abs Z.opp].
    rewrite <- (b_opaque (-52)). try rewrite <- (b_opaque 508). lra. }
  rewrite (lit (dist3 (T3 f_before f_zero f_zero) (T3 f_zero f_zero f_zero)) false 6755399441055744 (-105)) by (vm_compute; reflexivity).
  rewrite (lit (dist3 (T3 f_zero f_zero f_zero) (T3 f_one f_zero f_zero)) false 4503599627370496 (-52)) by (vm_compute; reflexivity).
  rewrite (lit (dist3 (T3 f_before f_zero f_zero) (T3 f_one f_zero f_zero)) false 4503599627370497 (-52)) by (vm_compute; reflexivity).
  unfold F2R. cbn [Fnum Fexp cond_Zopp]. rewrite <- (b_opaque (-105)), <- (b_opaque (-52)). assert (b (-105) = 2 * b (-106)) by (change (-105)%Z with (-106 + 1)%Z; apply b_double). lra.
Qed.

(** ** TransformData *)
(** As many items, each the product of the transform and the item at its place. *)
Theorem C171_transform_data {A} (mul : A -> A) data : length (transform_data mul data) = length data /\ forall i, nth_error (transform_data mul data) i = option_map mul (nth_error data i).
Proof. induction data as [|x r (L & N)]; cbn [transform_data length]; (split; [congruence|]); intros [|i]; cbn; auto. Qed.

Print Assumptions C171_equal3.
Print Assumptions C171_equal4.
Print Assumptions C171_equal3_laws.
Print Assumptions C171_close3.
Print Assumptions C171_close2.
Print Assumptions C171_vectors.
Print Assumptions C171_close3_vectors.
Print Assumptions C171_close2_nan.
Print Assumptions C171_close3_nan_refuted.
Print Assumptions C171_close3_nan_rest.
Print Assumptions C171_distance3.
Print Assumptions C171_distance2.
Print Assumptions C171_square_error.
Print Assumptions C171_distance_error.
Print Assumptions C171_zero_refuted.
Print Assumptions C171_triangle_refuted.
Print Assumptions C171_transform_data.

(** ** Examples *)
(** The points (0, 0, 0) and (1, 1, 0): the square is 2, and the distance the double nearest to its root. *)
Example C171_example : bits_of_b64 (sq3 (T3 f_zero f_zero f_zero) (T3 f_one f_one f_zero)) = (1024 * 2 ^ 52)%Z /\
  bits_of_b64 (dist3 (T3 f_zero f_zero f_zero) (T3 f_one f_one f_zero)) = 4609047870845172685%Z /\ bounded3 508 (T3 f_one f_one f_zero) /\
  close3 (T3 f_one f_one f_zero) (T3 f_one f_zero f_zero) f_one = true /\ close3 (T3 f_one f_one f_zero) (T3 f_one f_zero f_zero) f_m540 = false.
Proof.
  assert (O : bounded 508 f_one).
  { split; [vm_compute; reflexivity|]. rewrite (lit f_one false 4503599627370496 (-52)) by (vm_compute; reflexivity). unfold F2R. cbn [Fnum Fexp cond_Zopp]. replace (IZR 4503599627370496) with (bpow radix2 52) by (rewrite <- IZR_Zpower by lia; reflexivity). rewrite <- bpow_plus, Rabs_pos_eq by apply bpow_ge_0. try rewrite b_opaque. apply bpow_le. lia. }
  split; [vm_compute; reflexivity|]. split; [vm_compute; reflexivity|]. split; [|split; vm_compute; reflexivity].
  split; [exact O|]. split; [exact O|]. split; [reflexivity | cbn; rewrite Rabs_R0; apply Rlt_le; first [apply b_pos | apply bpow_gt_0]].
Qed.
