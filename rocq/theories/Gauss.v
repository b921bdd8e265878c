(** The error function: derivative, sign, range and limit, from the Gaussian integral. *)
From Coq Require Import Reals Lra Lia.
From Coquelicot Require Import Coquelicot.
From Verif Require Import Base MathModel GaussModel.
Open Scope R_scope.

Definition gexp (t : R) : R := exp (- (t * t)).
Definition gint (x : R) : R := RInt gexp 0 x.

Lemma gexp_cont x : continuous gexp x.
Proof. apply (@ex_derive_continuous R_AbsRing R_NormedModule gexp). unfold gexp. auto_derive. exact I. Qed.
Lemma gexp_ex a b : ex_RInt gexp a b.
Proof. apply (@ex_RInt_continuous R_CompleteNormedModule). intros z _. apply gexp_cont. Qed.
Lemma gint_derive x : is_derive gint x (gexp x).
Proof.
  unfold gint. apply (is_derive_RInt gexp (RInt gexp 0) 0 x).
  - exists (mkposreal 1 Rlt_0_1). intros y _. apply (@RInt_correct R_CompleteNormedModule), gexp_ex.
  - apply gexp_cont.
Qed.
Definition kern (x t : R) : R := exp (- (x * x * (1 + t * t))) / (1 + t * t).
Lemma den t : 0 < 1 + t * t.
Proof. assert (0 <= t * t) by apply Rle_0_sqr. lra. Qed.
Lemma kern_derive x t : is_derive (fun u => kern u t) x (- (2 * x) * exp (- (x * x * (1 + t * t)))).
Proof. unfold kern. pose proof (den t). auto_derive; [lra | field; lra]. Qed.
Lemma kern_cont x t : continuous (kern x) t.
Proof. apply (@ex_derive_continuous R_AbsRing R_NormedModule (kern x)). unfold kern. pose proof (den t). auto_derive. lra. Qed.
Lemma kern_ex x a b : ex_RInt (kern x) a b.
Proof. apply (@ex_RInt_continuous R_CompleteNormedModule). intros z _. apply kern_cont. Qed.
Definition hint (x : R) : R := RInt (fun t => kern x t) 0 1.
Lemma dkern_eq x t : Derive (fun u => kern u t) x = - (2 * x) * exp (- (x * x * (1 + t * t))).
Proof. apply is_derive_unique, kern_derive. Qed.
Lemma dkern_cont2 x t : continuity_2d_pt (fun u v => Derive (fun z => kern z v) u) x t.
Proof.
  apply continuity_2d_pt_ext with (f := fun u v => - (2 * u) * exp (- (u * u * (1 + v * v)))).
  { intros u v. symmetry. apply dkern_eq. }
  apply continuity_2d_pt_mult.
  - apply continuity_2d_pt_opp, continuity_2d_pt_mult; [apply continuity_2d_pt_const | apply continuity_2d_pt_id1].
  - apply (continuity_1d_2d_pt_comp exp).
    + apply derivable_continuous_pt, derivable_pt_exp.
    + apply continuity_2d_pt_opp, continuity_2d_pt_mult; [apply continuity_2d_pt_mult; apply continuity_2d_pt_id1|].
      apply continuity_2d_pt_plus; [apply continuity_2d_pt_const | apply continuity_2d_pt_mult; apply continuity_2d_pt_id2].
Qed.
Lemma hint_derive x : is_derive hint x (- 2 * gexp x * gint x).
Proof.
  unfold hint. evar_last.
  - apply is_derive_RInt_param.
    + exists (mkposreal 1 Rlt_0_1). intros y _ t _. eexists. apply kern_derive.
    + intros t _. apply dkern_cont2.
    + exists (mkposreal 1 Rlt_0_1). intros y _. apply kern_ex.
  - apply is_RInt_unique. apply (is_RInt_ext (fun t => scal (- 2 * gexp x) (scal x (gexp (x * t + 0))))).
    + intros t _. rewrite dkern_eq. unfold scal; cbn. unfold mult; cbn. unfold gexp. rewrite Rplus_0_r.
      replace (- (x * x * (1 + t * t))) with (- (x * x) + - (x * t * (x * t))) by ring. rewrite exp_plus. ring.
    + apply (@is_RInt_scal R_NormedModule). apply (@is_RInt_comp_lin R_NormedModule gexp). rewrite Rmult_0_r, Rmult_1_r, !Rplus_0_r.
      apply (@RInt_correct R_CompleteNormedModule), gexp_ex.
Qed.
Lemma hint_0 : hint 0 = PI / 4.
Proof.
  unfold hint. rewrite (RInt_ext _ (fun t => / (1 + t * t))).
  - apply is_RInt_unique. replace (PI / 4) with (minus (atan 1) (atan 0)) by (rewrite atan_1, atan_0; unfold minus, plus, opp; cbn; lra).
    apply (is_RInt_derive atan (fun t => / (1 + t * t))).
    + intros t _. evar_last; [apply is_derive_Reals, derivable_pt_lim_atan|]. match goal with |- @eq _ ?a ?b => change (@eq R a b) end. unfold Rsqr. pose proof (den t). field. unfold pow. lra.
    + intros t _. pose proof (den t). apply (@ex_derive_continuous R_AbsRing R_NormedModule (fun t => / (1 + t * t))). auto_derive. lra.
  - intros t _. unfold kern. pose proof (den t). replace (- (0 * 0 * (1 + t * t))) with 0 by ring. rewrite exp_0. change (1 / (1 + t * t) = / (1 + t * t)). field. lra.
Qed.
Lemma const_zero (f : R -> R) : (forall x, is_derive f x 0) -> forall x, f x = f 0.
Proof.
  intros H x. destruct (MVT_gen f 0 x (fun _ => 0)) as (c & _ & E).
  - intros; apply H.
  - intros y _. apply continuity_pt_filterlim. apply (@ex_derive_continuous R_AbsRing R_NormedModule). eexists. apply H.
  - lra.
Qed.
Lemma gauss_identity x : gint x * gint x + hint x = PI / 4.
Proof.
  rewrite (const_zero (fun x => gint x * gint x + hint x)).
  - unfold gint at 1 2. rewrite RInt_point, hint_0. unfold zero; cbn. lra.
  - intros y. evar_last.
    + apply (is_derive_plus (fun x => gint x * gint x) hint); [|apply hint_derive].
      apply (is_derive_mult gint gint); try apply gint_derive. intros; apply Rmult_comm.
    + unfold plus, mult; cbn. unfold mult; cbn. ring.
Qed.
Lemma hint_pos x : 0 < hint x.
Proof.
  unfold hint. apply RInt_gt_0; [lra | | intros; apply kern_cont].
  intros t _. unfold kern. apply Rdiv_lt_0_compat; [apply exp_pos | apply den].
Qed.
Lemma hint_small x : hint x <= exp (- (x * x)).
Proof.
  unfold hint. replace (exp (- (x * x))) with (RInt (fun _ => exp (- (x * x))) 0 1).
  - apply RInt_le; [lra | apply kern_ex | apply ex_RInt_const |]. intros t _. unfold kern. pose proof (den t) as D. assert (0 <= t * t) by apply Rle_0_sqr.
    assert (0 <= x * x) by apply Rle_0_sqr.
    apply Rle_trans with (exp (- (x * x * (1 + t * t)))).
    + apply Rmult_le_reg_r with (1 + t * t); [exact D|]. unfold Rdiv. rewrite Rmult_assoc, Rinv_l, Rmult_1_r; [|lra].
      pose proof (exp_pos (- (x * x * (1 + t * t)))). nra.
    + assert (L : - (x * x * (1 + t * t)) <= - (x * x)) by nra. destruct L as [L| ->]; [left; apply exp_increasing; exact L | right; reflexivity].
  - rewrite RInt_const. unfold scal; cbn. unfold mult; cbn. lra.
Qed.
Lemma sqrtpi : 0 < sqrt PI /\ sqrt PI * sqrt PI = PI.
Proof. pose proof PI_RGT_0. split; [apply sqrt_lt_R0; exact H | apply sqrt_sqrt; lra]. Qed.
Lemma erf_gint x : erf x = 2 / sqrt PI * gint x.
Proof. reflexivity. Qed.
Lemma erf_sq x : erf x * erf x = 1 - 4 / PI * hint x.
Proof.
  destruct sqrtpi as [P Q]. rewrite !erf_gint. pose proof (gauss_identity x) as G. pose proof PI_RGT_0.
  replace (2 / sqrt PI * gint x * (2 / sqrt PI * gint x)) with (4 / (sqrt PI * sqrt PI) * (gint x * gint x)) by (field; lra).
  rewrite Q. replace (gint x * gint x) with (PI / 4 - hint x) by lra. field. lra.
Qed.
Lemma erf_range x : -1 < erf x < 1.
Proof.
  pose proof (erf_sq x) as E. pose proof (hint_pos x) as H. pose proof PI_RGT_0 as P.
  assert (0 < 4 / PI * hint x) by (apply Rmult_lt_0_compat; [apply Rdiv_lt_0_compat; lra | exact H]). split; nra.
Qed.
Lemma erf_derive x : is_derive erf x (2 / sqrt PI * exp (- (x * x))).
Proof. apply (is_derive_scal gint). apply gint_derive. Qed.
Lemma erf_0 : erf 0 = 0.
Proof. unfold erf. rewrite RInt_point. unfold zero; cbn. lra. Qed.
Lemma erf_increasing x y : x < y -> erf x < erf y.
Proof.
  intros H. destruct (MVT_gen erf x y (fun z => 2 / sqrt PI * exp (- (z * z)))) as (c & _ & E).
  - intros; apply erf_derive.
  - intros z _. apply continuity_pt_filterlim. apply (@ex_derive_continuous R_AbsRing R_NormedModule). eexists. apply erf_derive.
  - destruct sqrtpi as [P _]. assert (0 < 2 / sqrt PI * exp (- (c * c))) by (apply Rmult_lt_0_compat; [apply Rdiv_lt_0_compat; lra | apply exp_pos]). nra.
Qed.
Lemma erf_odd x : erf (- x) = - erf x.
Proof.
  pose proof (const_zero (fun x => erf (- x) + erf x)) as H. cbv beta in H. rewrite Ropp_0, erf_0 in H. rewrite Rplus_0_r in H.
  assert (erf (- x) + erf x = 0); [apply H | lra]. intros y. evar_last.
  - apply (is_derive_plus (fun x => erf (- x)) erf); [|apply erf_derive]. apply (is_derive_comp erf Ropp); [apply erf_derive|]. instantiate (1 := -1). auto_derive; [exact I | ring].
  - unfold plus, scal; cbn. unfold mult; cbn. replace (- y * - y) with (y * y) by ring. ring.
Qed.
Lemma exp_sq_small eps : 0 < eps -> exists m, forall x, m < x -> exp (- (x * x)) < eps.
Proof.
  intros He. exists (Rmax 1 (/ eps)). intros x Hx. pose proof (Rmax_l 1 (/ eps)). pose proof (Rmax_r 1 (/ eps)).
  pose proof (Rinv_0_lt_compat _ He) as Ie.
  assert (Q : / eps < x * x) by nra.
  assert (W : 1 + x * x <= exp (x * x)) by apply exp_ineq1_le.
  rewrite exp_Ropp. rewrite <- (Rinv_inv eps). apply Rinv_lt_contravar; [apply Rmult_lt_0_compat; [exact Ie | apply exp_pos] | lra].
Qed.
Lemma erf_limit : is_lim erf p_infty 1.
Proof.
  apply is_lim_spec. intros [eps He]. cbn. pose proof PI_RGT_0 as P. assert (Q : 1 < PI) by (pose proof PI2_1; lra).
  destruct (exp_sq_small (eps * PI / 4)) as (m & Hm); [apply Rdiv_lt_0_compat; [apply Rmult_lt_0_compat; lra | lra]|].
  exists (Rmax 0 m). intros x Hx. pose proof (Rmax_l 0 m). pose proof (Rmax_r 0 m).
  assert (E0 : 0 < erf x) by (rewrite <- erf_0; apply erf_increasing; lra). pose proof (erf_range x) as [_ E1].
  rewrite Rabs_left by lra. pose proof (erf_sq x) as E2. pose proof (hint_small x) as Hs. pose proof (Hm x ltac:(lra)) as Hb.
  assert (4 / PI * hint x < eps).
  { apply Rle_lt_trans with (4 / PI * exp (- (x * x))); [apply Rmult_le_compat_l; [left; apply Rdiv_lt_0_compat; lra | exact Hs]|].
    replace eps with (4 / PI * (eps * PI / 4)) by (field; lra). apply Rmult_lt_compat_l; [apply Rdiv_lt_0_compat; lra | exact Hb]. }
  nra.
Qed.
