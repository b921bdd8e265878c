(** The Gaussian functions (arc_helpers.hpp 936-1005): the distribution and density functions agree (C89). *)
From Coq Require Import Reals Lra Lia Bool.
From Coquelicot Require Import Coquelicot.
From Verif Require Import Base MathModel TotpVec GaussModel Gauss.
Open Scope R_scope.

Ltac req := match goal with |- @eq _ ?a ?b => change (@eq R a b) end.
Lemma sqrt2 : 0 < sqrt 2 /\ sqrt 2 * sqrt 2 = 2.
Proof. split; [apply sqrt_lt_R0; lra | apply sqrt_sqrt; lra]. Qed.
Lemma cdf_incr mean sd x y : 0 < sd -> x < y -> gaussian_cdf mean sd x < gaussian_cdf mean sd y.
Proof.
  intros P H. unfold gaussian_cdf. destruct sqrt2 as [Q _]. assert (erf ((x - mean) / sd / sqrt 2) < erf ((y - mean) / sd / sqrt 2)); [|lra].
  apply erf_increasing. apply Rmult_lt_compat_r; [apply Rinv_0_lt_compat; exact Q|]. apply Rmult_lt_compat_r; [apply Rinv_0_lt_compat; exact P | lra].
Qed.
Lemma cdf_derive mean sd x : 0 < sd -> is_derive (gaussian_cdf mean sd) x (gaussian_pdf mean sd x).
Proof.
  intros P. destruct sqrt2 as [Q1 Q2]. destruct sqrtpi as [S1 S2]. unfold gaussian_cdf. evar_last.
  - apply (is_derive_scal (fun v => 1 + erf ((v - mean) / sd / sqrt 2))). apply (is_derive_plus (fun _ => 1) (fun v => erf ((v - mean) / sd / sqrt 2))); [apply is_derive_const|].
    apply (is_derive_comp erf (fun v => (v - mean) / sd / sqrt 2)); [apply erf_derive|]. instantiate (1 := / (sd * sqrt 2)). auto_derive; [exact I | field; split; lra].
  - unfold plus, scal, zero; cbn. unfold mult; cbn. unfold gaussian_pdf. rewrite sqrt_mult by (pose proof PI_RGT_0; lra).
    replace (- ((x - mean) / sd / sqrt 2 * ((x - mean) / sd / sqrt 2))) with (- ((x - mean) * (x - mean) / (sd * sd * (sqrt 2 * sqrt 2)))) by (field; split; lra).
    rewrite Q2. replace ((x - mean) * (x - mean) / (sd * sd * 2)) with ((x - mean) * (x - mean) / (2 * sd * sd)) by (field; lra).
    field. repeat split; lra.
Qed.
Lemma pdf_pos mean sd x : 0 < sd -> 0 < gaussian_pdf mean sd x.
Proof.
  intros P. unfold gaussian_pdf. apply Rmult_lt_0_compat; [|apply exp_pos]. pose proof PI_RGT_0. apply Rdiv_lt_0_compat; [lra|]. apply Rmult_lt_0_compat; [exact P | apply sqrt_lt_R0; lra].
Qed.
Lemma pdf_cont mean sd x : 0 < sd -> continuous (gaussian_pdf mean sd) x.
Proof. intros P. apply (@ex_derive_continuous R_AbsRing R_NormedModule (gaussian_pdf mean sd)). unfold gaussian_pdf. auto_derive. nra. Qed.

(** C89: for a positive standard deviation the distribution function lies strictly between 0 and 1, increases strictly, is 1/2 at the
    mean and symmetric about it, tends to 0 and 1, and its derivative is the density function, which is positive. *)
Theorem C89_gaussian mean sd : 0 < sd ->
  (forall x, 0 < gaussian_cdf mean sd x < 1) /\ (forall x y, x < y -> gaussian_cdf mean sd x < gaussian_cdf mean sd y) /\
  gaussian_cdf mean sd mean = / 2 /\ (forall d, gaussian_cdf mean sd (mean - d) = 1 - gaussian_cdf mean sd (mean + d)) /\
  is_lim (gaussian_cdf mean sd) p_infty 1 /\ is_lim (gaussian_cdf mean sd) m_infty 0 /\
  (forall x, is_derive (gaussian_cdf mean sd) x (gaussian_pdf mean sd x) /\ 0 < gaussian_pdf mean sd x).
Proof.
  intros P. destruct sqrt2 as [Q1 Q2].
  assert (Sym : forall d, gaussian_cdf mean sd (mean - d) = 1 - gaussian_cdf mean sd (mean + d)).
  { intros d. unfold gaussian_cdf. replace ((mean - d - mean) / sd / sqrt 2) with (- ((mean + d - mean) / sd / sqrt 2)) by (field; split; lra). rewrite erf_odd. lra. }
  assert (Lim : is_lim (gaussian_cdf mean sd) p_infty 1).
  { apply is_lim_spec. intros eps. pose proof erf_limit as L. apply is_lim_spec in L. destruct (L eps) as (m & Hm). cbn in Hm |- *.
    exists (mean + sd * sqrt 2 * m). intros x Hx. unfold gaussian_cdf.
    assert (m < (x - mean) / sd / sqrt 2).
    { apply Rmult_lt_reg_r with (sd * sqrt 2); [apply Rmult_lt_0_compat; assumption|]. replace ((x - mean) / sd / sqrt 2 * (sd * sqrt 2)) with (x - mean) by (field; split; lra). lra. }
    pose proof (Hm _ H) as A. apply Rabs_def2 in A. pose proof (cond_pos eps). apply Rabs_def1; lra. }
  split; [|split; [|split; [|split; [exact Sym | split; [exact Lim | split]]]]].
  - intros x. unfold gaussian_cdf. pose proof (erf_range ((x - mean) / sd / sqrt 2)). lra.
  - intros x y. apply cdf_incr; exact P.
  - unfold gaussian_cdf. replace ((mean - mean) / sd / sqrt 2) with 0 by (field; split; lra). rewrite erf_0. lra.
  - apply is_lim_spec. intros eps. apply is_lim_spec in Lim. destruct (Lim eps) as (m & Hm). cbn in Hm |- *. exists (2 * mean - m).
    intros x Hx. specialize (Hm (2 * mean - x) ltac:(lra)). pose proof (Sym (mean - x)) as Sx. replace (mean - (mean - x)) with x in Sx by ring. replace (mean + (mean - x)) with (2 * mean - x) in Sx by ring.
    rewrite Sx. apply Rabs_def2 in Hm. apply Rabs_def1; lra.
  - intros x. split; [apply cdf_derive | apply pdf_pos]; exact P.
Qed.
Print Assumptions C89_gaussian.

Lemma pdf_int mean sd a b : 0 < sd -> is_RInt (gaussian_pdf mean sd) a b (gaussian_cdf mean sd b - gaussian_cdf mean sd a).
Proof.
  intros P. apply (is_RInt_derive (gaussian_cdf mean sd)); intros; [apply cdf_derive | apply pdf_cont]; exact P.
Qed.
(** IntegrateGaussian is the integral of EvaluateGaussianPDF between the limits. *)
Theorem C89_integral dbg mean sd a b : 0 < sd -> a <= b ->
  integrate_gaussian dbg mean sd a b = Ok (RInt (gaussian_pdf mean sd) a b) /\ 0 <= RInt (gaussian_pdf mean sd) a b < 1.
Proof.
  intros P H. rewrite (is_RInt_unique _ _ _ _ (pdf_int mean sd a b P)). split.
  - unfold integrate_gaussian, cassert. replace (Rleb a b) with true by (symmetry; unfold Rleb; destruct (Rle_dec a b); [reflexivity | contradiction]). rewrite andb_false_r. reflexivity.
  - destruct (C89_gaussian mean sd P) as (B & M & _). pose proof (B a). pose proof (B b). destruct H as [H| ->]; [pose proof (M a b H)|]; lra.
Qed.
Print Assumptions C89_integral.

Definition tcdf (mean lo hi sd v : R) : R :=
  if Rleb v lo then 0 else if Rleb hi v then 1
  else (gaussian_cdf mean sd v - gaussian_cdf mean sd lo) / (gaussian_cdf mean sd hi - gaussian_cdf mean sd lo).
Definition tpdf (mean lo hi sd v : R) : R :=
  if Rleb v lo then 0 else if Rleb hi v then 0 else gaussian_pdf mean sd v / (gaussian_cdf mean sd hi - gaussian_cdf mean sd lo).
Lemma tcdf_eq dbg mean lo hi sd v : lo <= hi -> truncated_cdf dbg mean lo hi sd v = Ok (tcdf mean lo hi sd v).
Proof.
  intros H. unfold truncated_cdf, cassert, tcdf. replace (Rleb lo hi) with true by (symmetry; unfold Rleb; destruct (Rle_dec lo hi); [reflexivity | contradiction]). rewrite andb_false_r.
  destruct (Rleb v lo); [reflexivity|]. destruct (Rleb hi v); reflexivity.
Qed.
Lemma tpdf_eq dbg mean lo hi sd v : lo <= hi -> truncated_pdf dbg mean lo hi sd v = Ok (tpdf mean lo hi sd v).
Proof.
  intros H. unfold truncated_pdf, cassert, tpdf. replace (Rleb lo hi) with true by (symmetry; unfold Rleb; destruct (Rle_dec lo hi); [reflexivity | contradiction]). rewrite andb_false_r.
  destruct (Rleb v lo); [reflexivity|]. destruct (Rleb hi v); reflexivity.
Qed.
Lemma tcdf_mid mean lo hi sd v : 0 < sd -> lo < hi -> lo <= v <= hi ->
  tcdf mean lo hi sd v = (gaussian_cdf mean sd v - gaussian_cdf mean sd lo) / (gaussian_cdf mean sd hi - gaussian_cdf mean sd lo).
Proof.
  intros P L [A B]. unfold tcdf, Rleb. pose proof (cdf_incr mean sd lo hi P L). destruct (Rle_dec v lo).
  - replace v with lo by lra. unfold Rdiv. rewrite Rminus_eq_0. ring.
  - destruct (Rle_dec hi v); [|reflexivity]. replace v with hi by lra. field. lra.
Qed.
Lemma tcdf_low mean lo hi sd v : v <= lo -> tcdf mean lo hi sd v = 0.
Proof. intros H. unfold tcdf, Rleb. destruct (Rle_dec v lo); [reflexivity | contradiction]. Qed.
Lemma tcdf_high mean lo hi sd v : lo < hi -> hi <= v -> tcdf mean lo hi sd v = 1.
Proof. intros L H. unfold tcdf, Rleb. destruct (Rle_dec v lo); [lra|]. destruct (Rle_dec hi v); [reflexivity | contradiction]. Qed.
Lemma tpdf_int_mid mean lo hi sd a b : 0 < sd -> lo < hi -> lo <= a -> a <= b -> b <= hi ->
  is_RInt (tpdf mean lo hi sd) a b (tcdf mean lo hi sd b - tcdf mean lo hi sd a).
Proof.
  intros P L A AB B. rewrite !tcdf_mid by (try exact P; try exact L; lra). set (D := gaussian_cdf mean sd hi - gaussian_cdf mean sd lo).
  assert (Dp : 0 < D) by (unfold D; pose proof (cdf_incr mean sd lo hi P L); lra).
  apply (is_RInt_ext (fun v => scal (/ D) (gaussian_pdf mean sd v))).
  - intros v [V1 V2]. rewrite Rmin_left in V1 by exact AB. rewrite Rmax_right in V2 by exact AB. unfold tpdf, Rleb.
    destruct (Rle_dec v lo); [lra|]. destruct (Rle_dec hi v); [lra|]. unfold scal; cbn; unfold mult; cbn. fold D. unfold Rdiv. ring.
  - replace ((gaussian_cdf mean sd b - gaussian_cdf mean sd lo) / D - (gaussian_cdf mean sd a - gaussian_cdf mean sd lo) / D) with (scal (/ D) (gaussian_cdf mean sd b - gaussian_cdf mean sd a))
      by (unfold scal; cbn; unfold mult; cbn; field; lra).
    apply (@is_RInt_scal R_NormedModule). apply pdf_int; exact P.
Qed.
Lemma zero_int (f : R -> R) a b : a <= b -> (forall x, a < x < b -> f x = 0) -> is_RInt f a b 0.
Proof.
  intros AB H. apply (is_RInt_ext (fun _ => 0)).
  - intros x [V1 V2]. rewrite Rmin_left in V1 by exact AB. rewrite Rmax_right in V2 by exact AB. symmetry. apply H. lra.
  - evar_last; [apply (@is_RInt_const R_NormedModule)|]. unfold scal; cbn; unfold mult; cbn. apply Rmult_0_r.
Qed.
Lemma tpdf_int_low mean lo hi sd a b : a <= b -> b <= lo -> is_RInt (tpdf mean lo hi sd) a b (tcdf mean lo hi sd b - tcdf mean lo hi sd a).
Proof.
  intros AB B. rewrite !tcdf_low by lra. rewrite Rminus_0_r. apply zero_int; [exact AB|]. intros x Hx. unfold tpdf, Rleb. destruct (Rle_dec x lo); [reflexivity | lra].
Qed.
Lemma tpdf_int_high mean lo hi sd a b : lo < hi -> a <= b -> hi <= a -> is_RInt (tpdf mean lo hi sd) a b (tcdf mean lo hi sd b - tcdf mean lo hi sd a).
Proof.
  intros L AB A. rewrite !tcdf_high by lra. rewrite Rminus_eq_0. apply zero_int; [exact AB|]. intros x Hx. unfold tpdf, Rleb. destruct (Rle_dec x lo); [reflexivity|]. destruct (Rle_dec hi x); [reflexivity | lra].
Qed.
Lemma int_chain (f F : R -> R) a b c : is_RInt f a b (F b - F a) -> is_RInt f b c (F c - F b) -> is_RInt f a c (F c - F a).
Proof.
  intros A B. replace (F c - F a) with (plus (F b - F a) (F c - F b)) by (unfold plus; cbn; ring). apply (@is_RInt_Chasles R_NormedModule f a b c); assumption.
Qed.
Lemma tpdf_int mean lo hi sd a b : 0 < sd -> lo < hi -> a <= b -> is_RInt (tpdf mean lo hi sd) a b (tcdf mean lo hi sd b - tcdf mean lo hi sd a).
Proof.
  intros P L AB. set (clip := fun x => Rmax lo (Rmin hi x)).
  destruct (Rle_dec b lo); [apply tpdf_int_low; lra|]. destruct (Rle_dec hi a); [apply tpdf_int_high; lra|].
  destruct (Rle_dec lo a) as [La|La], (Rle_dec b hi) as [Bh|Bh].
  - apply tpdf_int_mid; lra.
  - apply (int_chain _ _ a hi b); [apply tpdf_int_mid; lra | apply tpdf_int_high; lra].
  - apply (int_chain _ _ a lo b); [apply tpdf_int_low; lra | apply tpdf_int_mid; lra].
  - apply (int_chain _ _ a lo b); [apply tpdf_int_low; lra|]. apply (int_chain _ _ lo hi b); [apply tpdf_int_mid; lra | apply tpdf_int_high; lra].
Qed.
Lemma tcdf_range mean lo hi sd v : 0 < sd -> lo < hi -> 0 <= tcdf mean lo hi sd v <= 1.
Proof.
  intros P L. destruct (Rle_dec v lo); [rewrite tcdf_low; lra|]. destruct (Rle_dec hi v); [rewrite tcdf_high; lra|].
  rewrite tcdf_mid by lra. pose proof (cdf_incr mean sd lo v P ltac:(lra)). pose proof (cdf_incr mean sd v hi P ltac:(lra)).
  set (D := gaussian_cdf mean sd hi - gaussian_cdf mean sd lo). assert (Dp : 0 < D) by (unfold D; lra). split.
  - apply div_nonneg; lra.
  - apply Rmult_le_reg_r with D; [exact Dp|]. unfold Rdiv. rewrite Rmult_assoc, Rinv_l by lra. unfold D in *. lra.
Qed.
Lemma tcdf_strict mean lo hi sd x y : 0 < sd -> lo < hi -> lo <= x -> x < y -> y <= hi -> tcdf mean lo hi sd x < tcdf mean lo hi sd y.
Proof.
  intros P L A XY B. rewrite !tcdf_mid by lra. pose proof (cdf_incr mean sd lo hi P L). pose proof (cdf_incr mean sd x y P XY).
  apply Rmult_lt_compat_r; [apply Rinv_0_lt_compat; lra | lra].
Qed.

(** C89: the truncated functions for a positive standard deviation and lower bound below the upper one.  The distribution function lies in
    [0, 1], is 0 up to the lower bound and 1 from the upper bound, increases strictly between them and is continuous everywhere; the
    probability of any range of limits is the integral of the truncated density over it; and over a range that covers the bounds it is 1. *)
Theorem C89_truncated dbg mean lo hi sd : 0 < sd -> lo < hi ->
  exists cdf pdf : R -> R,
  (forall v, truncated_cdf dbg mean lo hi sd v = Ok (cdf v)) /\ (forall v, truncated_pdf dbg mean lo hi sd v = Ok (pdf v)) /\
  (forall v, 0 <= cdf v <= 1 /\ 0 <= pdf v) /\ (forall v, v <= lo -> cdf v = 0) /\ (forall v, hi <= v -> cdf v = 1) /\
  (forall x y, lo <= x -> x < y -> y <= hi -> cdf x < cdf y) /\ (forall v, continuous cdf v) /\
  (forall v, lo < v < hi -> is_derive cdf v (pdf v)) /\
  (forall a b, a <= b -> integrate_truncated dbg mean lo hi sd a b = Ok (RInt pdf a b) /\ 0 <= RInt pdf a b <= 1) /\
  (forall a b, a <= lo -> hi <= b -> integrate_truncated dbg mean lo hi sd a b = Ok 1).
Proof.
  intros P L. exists (tcdf mean lo hi sd), (tpdf mean lo hi sd).
  assert (IT : forall a b, a <= b -> integrate_truncated dbg mean lo hi sd a b = Ok (tcdf mean lo hi sd b - tcdf mean lo hi sd a)).
  { intros a b AB. unfold integrate_truncated, cassert. rewrite !tcdf_eq by lra. cbn [obind].
    replace (Rleb lo hi) with true by (symmetry; unfold Rleb; destruct (Rle_dec lo hi); [reflexivity | lra]).
    replace (Rleb a b) with true by (symmetry; unfold Rleb; destruct (Rle_dec a b); [reflexivity | contradiction]). rewrite andb_false_r. reflexivity. }
  assert (Dp : 0 < gaussian_cdf mean sd hi - gaussian_cdf mean sd lo) by (pose proof (cdf_incr mean sd lo hi P L); lra).
  split; [intros v; apply tcdf_eq; lra|]. split; [intros v; apply tpdf_eq; lra|]. split.
  { intros v. split; [apply tcdf_range; assumption|]. unfold tpdf. destruct (Rleb v lo); [lra|]. destruct (Rleb hi v); [lra|].
    apply div_nonneg; [left; apply pdf_pos; exact P | exact Dp]. }
  split; [intros v; apply tcdf_low|]. split; [intros v; apply tcdf_high; exact L|]. split; [intros; apply tcdf_strict; assumption|]. split; [|split; [|split]].
  - intros v.
    set (G := fun v => (gaussian_cdf mean sd (Rmax lo (Rmin hi v)) - gaussian_cdf mean sd lo) / (gaussian_cdf mean sd hi - gaussian_cdf mean sd lo)).
    apply (continuous_ext G).
    { intros x. unfold G. destruct (Rle_dec x lo).
      - rewrite tcdf_low by exact r. rewrite Rmin_right, Rmax_left by lra. unfold Rdiv. rewrite Rminus_eq_0. req. ring.
      - destruct (Rle_dec hi x).
        + rewrite tcdf_high by assumption. rewrite Rmin_left, Rmax_right by lra. req. field. lra.
        + rewrite tcdf_mid by lra. rewrite Rmin_right, Rmax_right by lra. reflexivity. }
    assert (CR : forall x, continuous (fun v => Rmax lo (Rmin hi v)) x).
    { intros x. apply (continuous_ext (fun v => (lo + (hi + v - Rabs (hi - v)) / 2 + Rabs (lo - (hi + v - Rabs (hi - v)) / 2)) / 2)).
      - intros y. unfold Rmax, Rmin. destruct (Rle_dec hi y), (Rle_dec lo _); unfold Rabs; repeat destruct (Rcase_abs _); lra.
      - apply continuity_pt_filterlim. repeat first [ apply continuity_pt_id | apply (continuity_pt_const _ _ (fun _ _ => eq_refl)) | reg ]. }
    apply (continuous_comp (fun v => Rmax lo (Rmin hi v)) (fun w => (gaussian_cdf mean sd w - gaussian_cdf mean sd lo) / (gaussian_cdf mean sd hi - gaussian_cdf mean sd lo))); [apply CR|].
    apply (@ex_derive_continuous R_AbsRing R_NormedModule). eexists. apply (is_derive_ext (fun w => scal (/ (gaussian_cdf mean sd hi - gaussian_cdf mean sd lo)) (minus (gaussian_cdf mean sd w) (gaussian_cdf mean sd lo)))).
    { intros w. unfold scal, minus, plus, opp; cbn; unfold mult; cbn. unfold Rdiv. req. ring. }
    apply (is_derive_scal (fun w => minus (gaussian_cdf mean sd w) (gaussian_cdf mean sd lo))). apply (is_derive_minus (gaussian_cdf mean sd) (fun _ => gaussian_cdf mean sd lo)); [apply cdf_derive; exact P | apply is_derive_const].
  - intros v V. apply (is_derive_ext_loc (fun w => scal (/ (gaussian_cdf mean sd hi - gaussian_cdf mean sd lo)) (minus (gaussian_cdf mean sd w) (gaussian_cdf mean sd lo)))).
    + assert (E : 0 < Rmin (v - lo) (hi - v)) by (apply Rmin_case; lra). exists (mkposreal _ E). intros w Hw.
      assert (Hw' : Rabs (w - v) < Rmin (v - lo) (hi - v)) by exact Hw. apply Rabs_def2 in Hw'. pose proof (Rmin_l (v - lo) (hi - v)). pose proof (Rmin_r (v - lo) (hi - v)).
      rewrite tcdf_mid by lra. unfold scal, minus, plus, opp; cbn; unfold mult; cbn. unfold Rdiv. req. ring.
    + evar_last.
      * apply (is_derive_scal (fun w => minus (gaussian_cdf mean sd w) (gaussian_cdf mean sd lo))). apply (is_derive_minus (gaussian_cdf mean sd) (fun _ => gaussian_cdf mean sd lo)); [apply cdf_derive; exact P | apply is_derive_const].
      * unfold tpdf, Rleb. destruct (Rle_dec v lo); [lra|]. destruct (Rle_dec hi v); [lra|]. unfold scal, minus, plus, opp, zero; cbn; unfold mult; cbn. unfold Rdiv. req. ring.
  - intros a b AB. rewrite (is_RInt_unique _ _ _ _ (tpdf_int mean lo hi sd a b P L AB)). split; [apply IT; exact AB|].
    pose proof (tcdf_range mean lo hi sd a P L). pose proof (tcdf_range mean lo hi sd b P L). split; [|lra].
    rewrite <- (is_RInt_unique _ _ _ _ (tpdf_int mean lo hi sd a b P L AB)). apply RInt_ge_0; [exact AB | eexists; apply tpdf_int; assumption |].
    intros x _. unfold tpdf. destruct (Rleb x lo); [lra|]. destruct (Rleb hi x); [lra|]. apply div_nonneg; [left; apply pdf_pos; exact P | exact Dp].
  - intros a b A B. rewrite IT by lra. rewrite (tcdf_low _ _ _ _ a) by exact A. rewrite tcdf_high by assumption. f_equal. lra.
Qed.
Print Assumptions C89_truncated.

(** Refuted: that the probability over the bounds themselves is 1 for every pair of bounds the assertions accept.  With equal bounds the
    value at the bound counts as below it, and the probability is 0. *)
Theorem C89_point_refuted :
  exists mean sd lo hi, 0 < sd /\ lo <= hi /\ integrate_truncated true mean lo hi sd lo hi = Ok 0.
Proof.
  exists 0, 1, 0, 0. split; [lra|]. split; [lra|]. unfold integrate_truncated, cassert. rewrite !tcdf_eq by lra. rewrite !tcdf_low by lra.
  replace (Rleb 0 0) with true by (symmetry; unfold Rleb; destruct (Rle_dec 0 0); [reflexivity | lra]). cbn. f_equal. lra.
Qed.
Print Assumptions C89_point_refuted.

(** A case that meets the hypotheses, and is not at an end: half the mass of the symmetric interval lies above the mean. *)
Example symmetric_half : truncated_cdf true 0 (-1) 1 2 0 = Ok (/ 2).
Proof.
  rewrite tcdf_eq by lra. rewrite tcdf_mid by lra. destruct (C89_gaussian 0 2 ltac:(lra)) as (_ & M & H & Y & _).
  pose proof (M (-1) 1 ltac:(lra)) as L. specialize (Y 1). rewrite H. replace (0 - 1) with (-1) in Y by lra. replace (0 + 1) with 1 in Y by lra. rewrite Y in *. f_equal. field. lra.
Qed.
