(** Thin plate kernels are conditionally positive definite: the mathematics behind ThinPlateSpline (C126).  No part of the code is modelled here. *)
From Coq Require Import Reals Lra Lia.
From Coquelicot Require Import Coquelicot.
From Verif Require Import Base MathModel TotpModel TotpVec ELinModel ELinProps EFitProps.
Local Notation mid := ELinModel.mid.
Open Scope R_scope.

(** ** Sums over pairs *)
Definition sum2 (n : nat) (F : nat -> nat -> R) : R := sumf n (fun i => sumf n (F i)).
Lemma sumf_0 f : sumf 0 f = 0. Proof. reflexivity. Qed.
Lemma sumf_plus n f g : sumf n (fun i => f i + g i) = sumf n f + sumf n g.
Proof. induction n; [rewrite !sumf_0; ring|]. rewrite !sumf_S, IHn. ring. Qed.
Lemma sumf_scal n c f : sumf n (fun i => c * f i) = c * sumf n f.
Proof. induction n; [rewrite !sumf_0; ring|]. rewrite !sumf_S, IHn. ring. Qed.
Lemma sumf_scal_r n c f : sumf n (fun i => f i * c) = sumf n f * c.
Proof. induction n; [rewrite !sumf_0; ring|]. rewrite !sumf_S, IHn. ring. Qed.
Lemma sumf_zero n : sumf n (fun _ => 0) = 0.
Proof. induction n; [reflexivity|]. rewrite sumf_S, IHn. ring. Qed.
Lemma sumf_nonneg n f : (forall i, (i < n)%nat -> 0 <= f i) -> 0 <= sumf n f.
Proof. induction n; intros H; [rewrite sumf_0; lra|]. rewrite sumf_S. assert (0 <= sumf n f) by (apply IHn; intros; apply H; lia). specialize (H n ltac:(lia)). lra. Qed.
Lemma sum2_ext n F G : (forall i j, (i < n)%nat -> (j < n)%nat -> F i j = G i j) -> sum2 n F = sum2 n G.
Proof. intros H. apply sumf_ext. intros i Hi. apply sumf_ext. intros j Hj. apply H; assumption. Qed.
Lemma sum2_plus n F G : sum2 n (fun i j => F i j + G i j) = sum2 n F + sum2 n G.
Proof. unfold sum2. rewrite <- sumf_plus. apply sumf_ext. intros i _. apply sumf_plus. Qed.
Lemma sum2_scal n c F : sum2 n (fun i j => c * F i j) = c * sum2 n F.
Proof. unfold sum2. rewrite <- sumf_scal. apply sumf_ext. intros i _. apply sumf_scal. Qed.
Lemma sum2_prod n u v : sum2 n (fun i j => u i * v j) = sumf n u * sumf n v.
Proof. unfold sum2. rewrite <- sumf_scal_r. apply sumf_ext. intros i _. apply sumf_scal. Qed.
Lemma sum2_sumf n m (F : nat -> nat -> nat -> R) : sum2 n (fun i j => sumf m (F i j)) = sumf m (fun k => sum2 n (fun i j => F i j k)).
Proof.
  induction m; [rewrite sumf_0; unfold sum2; rewrite (sumf_ext n _ (fun _ => 0)) by (intros i _; apply (sumf_zero n)); apply sumf_zero|].
  rewrite sumf_S, <- IHm, <- sum2_plus. apply sum2_ext. intros i j _ _. apply sumf_S.
Qed.

(** ** Limits at infinity *)
Definition tends (f : R -> R) (l : R) : Prop := forall eps, 0 < eps -> exists M, forall x, M < x -> Rabs (f x - l) < eps.
Lemma tends_ext f g l : (forall x, 0 < x -> f x = g x) -> tends f l -> tends g l.
Proof. intros E H eps P. destruct (H eps P) as [M HM]. exists (Rmax M 0). intros x Hx. rewrite <- E by (pose proof (Rmax_r M 0); lra). apply HM. pose proof (Rmax_l M 0); lra. Qed.
Lemma tends_const c : tends (fun _ => c) c.
Proof. intros eps P. exists 0. intros x _. rewrite Rminus_diag_eq, Rabs_R0 by reflexivity. exact P. Qed.
Lemma tends_plus f g a b : tends f a -> tends g b -> tends (fun x => f x + g x) (a + b).
Proof.
  intros F G eps P. destruct (F (eps / 2) ltac:(lra)) as [M HM]. destruct (G (eps / 2) ltac:(lra)) as [N HN]. exists (Rmax M N). intros x Hx. pose proof (Rmax_l M N). pose proof (Rmax_r M N).
  replace (f x + g x - (a + b)) with (f x - a + (g x - b)) by ring. eapply Rle_lt_trans; [apply Rabs_triang|]. specialize (HM x ltac:(lra)). specialize (HN x ltac:(lra)). lra.
Qed.
Lemma tends_scal c f a : tends f a -> tends (fun x => c * f x) (c * a).
Proof.
  intros F eps P. pose proof (Rabs_pos c). assert (Q : 0 < eps / (Rabs c + 1)) by (apply Rdiv_lt_0_compat; lra). destruct (F _ Q) as [M HM]. exists M. intros x Hx.
  replace (c * f x - c * a) with (c * (f x - a)) by ring. rewrite Rabs_mult. specialize (HM x Hx).
  apply Rle_lt_trans with (Rabs c * (eps / (Rabs c + 1))); [apply Rmult_le_compat_l; lra|]. apply (Rmult_lt_reg_r (Rabs c + 1)); [lra|]. replace (Rabs c * (eps / (Rabs c + 1)) * (Rabs c + 1)) with (Rabs c * eps) by (field; lra). nra.
Qed.
Lemma tends_sumf n (f : nat -> R -> R) l : (forall i, (i < n)%nat -> tends (f i) (l i)) -> tends (fun x => sumf n (fun i => f i x)) (sumf n l).
Proof.
  induction n; intros H; [apply (tends_const 0)|]. eapply tends_ext; [intros x _; symmetry; apply (sumf_S n (fun i => f i x))|]. rewrite sumf_S. apply tends_plus; [apply IHn; intros; apply H; lia | apply H; lia].
Qed.
Lemma tends_sum2 n (f : nat -> nat -> R -> R) l : (forall i j, (i < n)%nat -> (j < n)%nat -> tends (f i j) (l i j)) -> tends (fun x => sum2 n (fun i j => f i j x)) (sum2 n l).
Proof. intros H. apply (tends_sumf n (fun i x => sumf n (fun j => f i j x))). intros i Hi. apply (tends_sumf n (f i)). intros j Hj. apply H; assumption. Qed.
Lemma tends_zero f c : (forall x, 1 < x -> Rabs (f x) <= c / x) -> tends f 0.
Proof.
  intros H eps P. exists (Rmax 1 (Rabs c / eps)). intros x Hx. pose proof (Rmax_l 1 (Rabs c / eps)). pose proof (Rmax_r 1 (Rabs c / eps)). rewrite Rminus_0_r. eapply Rle_lt_trans; [apply H; lra|].
  apply (Rmult_lt_reg_r x); [lra|]. replace (c / x * x) with c by (field; lra). pose proof (Rle_abs c). assert (Rabs c / eps * eps < x * eps) by (apply Rmult_lt_compat_r; lra). replace (Rabs c / eps * eps) with (Rabs c) in * by (field; lra). lra.
Qed.
Lemma tends_ge f l c : tends f l -> (forall x, 1 < x -> c <= f x) -> c <= l.
Proof.
  intros T H. destruct (Rle_or_lt c l) as [|L]; [assumption|]. exfalso. destruct (T (c - l) ltac:(lra)) as [M HM]. set (x := Rmax M 1 + 1). assert (M < x /\ 1 < x) as [A B] by (unfold x; pose proof (Rmax_l M 1); pose proof (Rmax_r M 1); lra).
  specialize (HM x A). specialize (H x B). apply Rabs_def2 in HM. lra.
Qed.

(** ** Derivatives *)
Lemma derive_sumf n (f : nat -> R -> R) f' t : (forall i, (i < n)%nat -> is_derive (f i) t (f' i)) -> is_derive (fun x => sumf n (fun i => f i x)) t (sumf n f').
Proof.
  induction n; intros H; [apply (is_derive_const 0)|]. rewrite sumf_S. eapply is_derive_ext; [intros x; symmetry; apply (sumf_S n (fun i => f i x))|]. apply @is_derive_plus; [apply IHn; intros; apply H; lia | apply H; lia].
Qed.
Lemma derive_sum2 n (f : nat -> nat -> R -> R) f' t : (forall i j, (i < n)%nat -> (j < n)%nat -> is_derive (f i j) t (f' i j)) -> is_derive (fun x => sum2 n (fun i j => f i j x)) t (sum2 n f').
Proof. intros H. apply (derive_sumf n (fun i x => sumf n (fun j => f i j x))). intros i Hi. apply (derive_sumf n (f i)). intros j Hj. apply H; assumption. Qed.
Lemma increasing_le f f' a b : a <= b -> (forall x, a <= x <= b -> is_derive f x (f' x)) -> (forall x, a <= x <= b -> 0 <= f' x) -> f a <= f b.
Proof.
  intros L D P. destruct (Req_dec a b) as [->|N]; [lra|]. destruct (MVT_gen f a b f') as (c & C & E).
  - intros x Hx. rewrite Rmin_left, Rmax_right in Hx by lra. apply D. lra.
  - intros x Hx. rewrite Rmin_left, Rmax_right in Hx by lra. apply continuity_pt_filterlim. apply (ex_derive_continuous f x). eexists. apply D. lra.
  - rewrite Rmin_left, Rmax_right in C by lra. specialize (P c C). nra.
Qed.
Lemma increasing_lt f f' a b : a < b -> (forall x, a <= x <= b -> is_derive f x (f' x)) -> (forall x, a <= x <= b -> 0 < f' x) -> f a < f b.
Proof.
  intros L D P. destruct (MVT_gen f a b f') as (c & C & E).
  - intros x Hx. rewrite Rmin_left, Rmax_right in Hx by lra. apply D. lra.
  - intros x Hx. rewrite Rmin_left, Rmax_right in Hx by lra. apply continuity_pt_filterlim. apply (ex_derive_continuous f x). eexists. apply D. lra.
  - rewrite Rmin_left, Rmax_right in C by lra. specialize (P c C). nra.
Qed.

(** ** Gaussians *)
Section Points.
Variables (d n : nat) (x : nat -> vec).
Definition sq (i j : nat) : R := dot d (vsub (x i) (x j)) (vsub (x i) (x j)).
Lemma sq_expand i j : sq i j = dot d (x i) (x i) + dot d (x j) (x j) - 2 * dot d (x i) (x j).
Proof. unfold sq, vsub. induction d; cbn [dot]; [ring|]. rewrite IHn0. ring. Qed.
Lemma sq_nonneg i j : 0 <= sq i j. Proof. apply dot_self_nonneg. Qed.
Lemma sq_refl i : sq i i = 0.
Proof. rewrite sq_expand. ring. Qed.

(** Powers of the inner product. *)
Lemma power_psd k : forall v, 0 <= sum2 n (fun i j => v i * v j * dot d (x i) (x j) ^ k).
Proof.
  induction k; intros v.
  - rewrite (sum2_ext n _ (fun i j => v i * v j)) by (intros; cbn; ring). rewrite sum2_prod. apply Rle_0_sqr.
  - rewrite (sum2_ext n _ (fun i j => sumf d (fun c => (v i * x i c) * (v j * x j c) * dot d (x i) (x j) ^ k))).
    + rewrite sum2_sumf. apply sumf_nonneg. intros c _. apply (IHk (fun i => v i * x i c)).
    + intros i j _ _. rewrite (sumf_ext d _ (fun c => (v i * v j * dot d (x i) (x j) ^ k) * (x i c * x j c))) by (intros c _; ring). rewrite sumf_scal, <- dot_sumf. cbn. ring.
Qed.
Lemma lim_sumf m (f : nat -> nat -> R) l : (forall i, (i < m)%nat -> is_lim_seq (f i) (Finite (l i))) -> is_lim_seq (fun k => sumf m (fun i => f i k)) (Finite (sumf m l)).
Proof.
  induction m; intros H; [apply is_lim_seq_const|]. eapply is_lim_seq_ext; [intros k; symmetry; apply (sumf_S m (fun i => f i k))|]. rewrite sumf_S. apply (is_lim_seq_plus' _ _ (sumf m l) (l m)); [apply IHm; intros; apply H; lia | apply H; lia].
Qed.
Lemma exp_psd v c : 0 <= c -> 0 <= sum2 n (fun i j => v i * v j * exp (c * dot d (x i) (x j))).
Proof.
  intros C. assert (L : is_lim_seq (fun k => sum2 n (fun i j => v i * v j * sum_n (fun m => (c * dot d (x i) (x j)) ^ m * / INR (fact m)) k)) (Finite (sum2 n (fun i j => v i * v j * exp (c * dot d (x i) (x j)))))).
  { apply (lim_sumf n (fun i k => sumf n (fun j => v i * v j * sum_n (fun m => (c * dot d (x i) (x j)) ^ m * / INR (fact m)) k))). intros i _.
    apply (lim_sumf n (fun j k => v i * v j * sum_n (fun m => (c * dot d (x i) (x j)) ^ m * / INR (fact m)) k)). intros j _.
    apply (is_lim_seq_scal_l _ (v i * v j) (Finite (exp (c * dot d (x i) (x j))))). generalize (is_exp_Reals (c * dot d (x i) (x j))). unfold is_pseries, is_series. intros H.
    eapply is_lim_seq_ext; [|exact H]. intros k. apply sum_n_ext. intros m. unfold scal. cbn. unfold mult. cbn. rewrite pow_n_pow. ring. }
  apply (is_lim_seq_le (fun _ => 0) _ (Finite 0) (Finite _)) with (2 := is_lim_seq_const 0) (3 := L). intros k.
  induction k.
  - rewrite (sum2_ext n _ (fun i j => v i * v j * dot d (x i) (x j) ^ 0)); [apply power_psd|]. intros. rewrite sum_O. cbn. field.
  - rewrite (sum2_ext n _ (fun i j => v i * v j * sum_n (fun m => (c * dot d (x i) (x j)) ^ m * / INR (fact m)) k + (c ^ S k * / INR (fact (S k))) * (v i * v j * dot d (x i) (x j) ^ S k))).
    + rewrite sum2_plus, sum2_scal. assert (0 <= c ^ S k * / INR (fact (S k))) by (apply Rmult_le_pos; [apply pow_le; exact C | left; apply Rinv_0_lt_compat, INR_fact_lt_0]). pose proof (power_psd (S k) v). nra.
    + intros. rewrite sum_Sn. unfold plus. cbn -[pow fact INR sum_n]. rewrite (Rpow_mult_distr _ _ (S k)). ring.
Qed.
Definition gauss (w : vec) (t : R) : R := sum2 n (fun i j => w i * w j * exp (- t * sq i j)).
Lemma gauss_nonneg w t : 0 <= t -> 0 <= gauss w t.
Proof.
  intros T. unfold gauss. rewrite (sum2_ext n _ (fun i j => (w i * exp (- t * dot d (x i) (x i))) * (w j * exp (- t * dot d (x j) (x j))) * exp (2 * t * dot d (x i) (x j)))); [apply exp_psd; lra|].
  intros i j _ _. replace (exp (- t * sq i j)) with (exp (- t * dot d (x i) (x i)) * exp (- t * dot d (x j) (x j)) * exp (2 * t * dot d (x i) (x j))); [ring|]. rewrite <- !exp_plus. f_equal. rewrite sq_expand. ring.
Qed.
Definition distinct : Prop := forall i j, (i < n)%nat -> (j < n)%nat -> i <> j -> 0 < sq i j.
Lemma exp_decay s t : 0 < s -> 1 < t -> Rabs (exp (- t * s)) <= (/ s) / t.
Proof.
  intros S T. rewrite Rabs_pos_eq by (left; apply exp_pos). replace (- t * s) with (- (t * s)) by ring. rewrite exp_Ropp. assert (P : 0 < t * s) by (apply Rmult_lt_0_compat; lra). pose proof (exp_ineq1 (t * s) ltac:(lra)).
  replace (/ s / t) with (/ (t * s)) by (field; lra). apply Rinv_le_contravar; lra.
Qed.
Lemma diagonal w : sum2 n (fun i j => w i * w j * (if (i =? j)%nat then 1 else 0)) = dot n w w.
Proof.
  unfold sum2. rewrite dot_sumf. apply sumf_ext. intros i Hi. rewrite (sumf_ext n _ (fun j => w i * (mid i j * w j))) by (intros j _; unfold mid; ring). rewrite sumf_scal. change (fun j => mid i j * w j) with (fun j => (mid i) j * w j). rewrite <- (dot_sumf n (mid i) w). f_equal. apply (mapply_id n w i Hi).
Qed.
Lemma gauss_limit w : distinct -> tends (gauss w) (dot n w w).
Proof.
  intros D. rewrite <- diagonal. apply (tends_sum2 n (fun i j t => w i * w j * exp (- t * sq i j)) (fun i j => w i * w j * (if (i =? j)%nat then 1 else 0))). intros i j Hi Hj. apply tends_scal.
  destruct (Nat.eqb_spec i j) as [->|N].
  - apply (tends_ext (fun _ => 1)); [|apply tends_const]. intros t _. rewrite sq_refl, Rmult_0_r, exp_0. reflexivity.
  - apply (tends_zero _ (/ sq i j)). intros t T. apply exp_decay; [apply D; assumption | exact T].
Qed.

(** ** 1 / (s + t) *)
Definition inverse (w : vec) (t : R) : R := sum2 n (fun i j => w i * w j * / (sq i j + t)).
Lemma nonzero_self w : ~ veq n w vzero -> 0 < dot n w w.
Proof. intros N. apply self_pos. exact N. Qed.
Lemma inverse_pos w t : distinct -> ~ veq n w vzero -> 0 < t -> 0 < inverse w t.
Proof.
  intros D N T. set (P := fun u => sum2 n (fun i j => w i * w j * ((1 - exp (- u * (sq i j + t))) * / (sq i j + t)))).
  assert (DP : forall u, is_derive P u (exp (- u * t) * gauss w u)).
  { intros u. unfold gauss. rewrite <- sum2_scal. apply (derive_sum2 n (fun i j u => w i * w j * ((1 - exp (- u * (sq i j + t))) * / (sq i j + t)))). intros i j _ _. pose proof (sq_nonneg i j).
    auto_derive; [lra|]. replace (exp (- u * (sq i j + t))) with (exp (- u * t) * exp (- u * sq i j)) by (rewrite <- exp_plus; f_equal; ring). field. lra. }
  assert (P0 : P 0 = 0).
  { unfold P. rewrite (sum2_ext n _ (fun i j => 0 * 0)); [rewrite (sum2_scal n 0 (fun _ _ => 0)); ring|]. intros. replace (- 0 * (sq i j + t)) with 0 by ring. rewrite exp_0. ring. }
  assert (L : tends P (inverse w t)).
  { apply (tends_sum2 n (fun i j u => w i * w j * ((1 - exp (- u * (sq i j + t))) * / (sq i j + t))) (fun i j => w i * w j * / (sq i j + t))). intros i j _ _. apply tends_scal. pose proof (sq_nonneg i j).
    apply (tends_ext (fun u => / (sq i j + t) + (- / (sq i j + t)) * exp (- u * (sq i j + t)))); [intros u _; ring|]. replace (/ (sq i j + t)) with (/ (sq i j + t) + (- / (sq i j + t)) * 0) at 1 by ring.
    apply tends_plus; [apply tends_const|]. apply tends_scal. apply (tends_zero _ (/ (sq i j + t))). intros u U. apply exp_decay; lra. }
  destruct (gauss_limit w D (dot n w w)) as [M HM]; [apply nonzero_self; exact N|]. set (a := Rmax M 1). assert (A : M <= a /\ 1 <= a) by (unfold a; split; [apply Rmax_l|apply Rmax_r]).
  assert (GP : forall u, a < u -> 0 < gauss w u) by (intros u U; specialize (HM u ltac:(lra)); apply Rabs_def2 in HM; lra).
  assert (I : forall u v, 0 <= u <= v -> P u <= P v).
  { intros u v H. apply (increasing_le P (fun u => exp (- u * t) * gauss w u)); [lra | intros; apply DP | intros y Y; apply Rmult_le_pos; [left; apply exp_pos | apply gauss_nonneg; lra]]. }
  assert (S : P (a + 1) < P (a + 2)).
  { apply (increasing_lt P (fun u => exp (- u * t) * gauss w u)); [lra | intros; apply DP | intros y Y; apply Rmult_lt_0_compat; [apply exp_pos | apply GP; lra]]. }
  pose proof (I 0 (a + 1) ltac:(lra)). apply Rlt_le_trans with (P (a + 2)); [lra|]. 
  assert (L2 : tends (fun u => P (u + (a + 1))) (inverse w t)). { intros eps E. destruct (L eps E) as [K HK]. exists K. intros u U. apply HK. lra. }
  apply (tends_ge _ _ _ L2). intros u U. apply I. lra.
Qed.

(** ** - sqrt s, for weights with sum zero *)
Lemma atan_limit : tends atan (PI / 2).
Proof.
  intros eps E. set (e := Rmin eps (PI / 4)). assert (E0 : 0 < e <= eps /\ e <= PI / 4) by (pose proof PI_RGT_0; unfold e; repeat split; [apply Rmin_pos; lra | apply Rmin_l | apply Rmin_r]).
  pose proof PI_RGT_0. exists (tan (PI / 2 - e)). intros u U. pose proof (atan_bound u). assert (A : PI / 2 - e < atan u).
  { rewrite <- (atan_tan (PI / 2 - e)) by lra. apply atan_increasing. exact U. }
  apply Rabs_def1; lra.
Qed.
Lemma sqrt_atan_limit s : 0 <= s -> tends (fun v => sqrt s * atan (v / sqrt s)) (PI / 2 * sqrt s).
Proof.
  intros S. destruct (Req_dec s 0) as [->|N]; [rewrite sqrt_0, Rmult_0_r; apply (tends_ext (fun _ => 0)); [intros; ring|apply tends_const]|].
  assert (Q : 0 < sqrt s) by (apply sqrt_lt_R0; lra). rewrite (Rmult_comm (PI / 2)). apply tends_scal. intros eps E. destruct (atan_limit eps E) as [M HM]. exists (M * sqrt s). intros v V. apply HM.
  apply (Rmult_lt_reg_r (sqrt s)); [exact Q|]. replace (v / sqrt s * sqrt s) with v by (field; lra). exact V.
Qed.
Lemma root_negative w : distinct -> ~ veq n w vzero -> sumf n w = 0 -> sum2 n (fun i j => w i * w j * sqrt (sq i j)) < 0.
Proof.
  intros D N M. set (H := fun v => sum2 n (fun i j => w i * w j * (sqrt (sq i j) * atan (v / sqrt (sq i j))))).
  assert (DH : forall v, 0 < v -> is_derive (fun v => - H v) v (v * v * inverse w (v * v))).
  { intros v V. replace (v * v * inverse w (v * v)) with (- sum2 n (fun i j => w i * w j * (sq i j * / (sq i j + v * v)))).
    - apply (is_derive_opp H). apply (derive_sum2 n (fun i j v => w i * w j * (sqrt (sq i j) * atan (v / sqrt (sq i j))))). intros i j _ _. pose proof (sq_nonneg i j) as S.
      destruct (Req_dec (sq i j) 0) as [Z|NZ].
      + rewrite Z, sqrt_0. replace (w i * w j * (0 * / (0 + v * v))) with 0 by ring. apply (is_derive_ext (fun _ : R => 0)); [intros y; change ((0 : R) = w i * w j * (0 * atan (y / 0))); ring|]. apply (is_derive_const 0).
      + assert (Q : 0 < sqrt (sq i j)) by (apply sqrt_lt_R0; lra). pose proof (sqrt_sqrt _ S) as E. assert (0 < v * v) by nra. auto_derive; [lra|]. set (q := sqrt (sq i j)) in *. rewrite <- E. field. split; nra.
    - unfold inverse. rewrite <- sum2_scal. replace (- sum2 n (fun i j => w i * w j * (sq i j * / (sq i j + v * v)))) with (sumf n w * sumf n w + - 1 * sum2 n (fun i j => w i * w j * (sq i j * / (sq i j + v * v)))) by (rewrite M; ring).
      rewrite <- sum2_prod, <- sum2_scal, <- sum2_plus. apply sum2_ext. intros i j _ _. pose proof (sq_nonneg i j). assert (0 < v * v) by nra. field. lra. }
  assert (L : tends (fun v => - H v) (- (PI / 2) * sum2 n (fun i j => w i * w j * sqrt (sq i j)))).
  { apply (tends_ext (fun v => - 1 * H v)); [intros; ring|]. replace (- (PI / 2) * sum2 n (fun i j => w i * w j * sqrt (sq i j))) with (- 1 * sum2 n (fun i j => w i * w j * (PI / 2 * sqrt (sq i j)))).
    - apply tends_scal. apply (tends_sum2 n (fun i j v => w i * w j * (sqrt (sq i j) * atan (v / sqrt (sq i j)))) (fun i j => w i * w j * (PI / 2 * sqrt (sq i j)))). intros i j _ _. apply tends_scal, sqrt_atan_limit, sq_nonneg.
    - rewrite (sum2_ext n _ (fun i j => PI / 2 * (w i * w j * sqrt (sq i j)))) by (intros; ring). rewrite sum2_scal. ring. }
  (** H tends to 0 at 0 *)
  assert (Z : tends (fun v => - H (/ v)) 0).
  { replace 0 with (sum2 n (fun i j => 0 * 0)) by (rewrite (sum2_scal n 0 (fun _ _ => 0)); ring). apply (tends_ext (fun v => sum2 n (fun i j => (- (w i * w j)) * (sqrt (sq i j) * atan (/ v / sqrt (sq i j)))))).
    - intros v _. unfold H. replace (- sum2 n (fun i j => w i * w j * (sqrt (sq i j) * atan (/ v / sqrt (sq i j))))) with (- 1 * sum2 n (fun i j => w i * w j * (sqrt (sq i j) * atan (/ v / sqrt (sq i j))))) by ring. rewrite <- sum2_scal. apply sum2_ext. intros. ring.
    - apply (tends_sum2 n (fun i j v => (- (w i * w j)) * (sqrt (sq i j) * atan (/ v / sqrt (sq i j)))) (fun _ _ => 0 * 0)). intros i j _ _. replace (0 * 0) with ((- (w i * w j)) * 0) by ring. apply tends_scal. pose proof (sq_nonneg i j) as S.
      apply (tends_zero _ 1). intros v V. destruct (Req_dec (sq i j) 0) as [Z|NZ]; [rewrite Z, sqrt_0, Rmult_0_l, Rabs_R0; apply Rlt_le, Rdiv_lt_0_compat; lra|].
      assert (Q : 0 < sqrt (sq i j)) by (apply sqrt_lt_R0; lra). assert (V0 : 0 < / v) by (apply Rinv_0_lt_compat; lra). set (q := sqrt (sq i j)) in *. assert (Y : 0 < / v / q) by (apply Rdiv_lt_0_compat; lra).
      assert (B : atan (/ v / q) <= / v / q).
      { assert (G : 0 - atan 0 <= / v / q - atan (/ v / q)); [|rewrite atan_0 in G; lra]. apply (increasing_le (fun y => y - atan y) (fun y => 1 - / (1 + y ^ 2))); [lra | intros; auto_derive; [exact I | field; nra] | intros y _; assert (0 < / (1 + y ^ 2) <= 1); [|lra]].
        split; [apply Rinv_0_lt_compat; nra|]. rewrite <- Rinv_1 at 2. apply Rinv_le_contravar; nra. }
      assert (B0 : 0 < atan (/ v / q)) by (rewrite <- atan_0; apply atan_increasing; exact Y). rewrite Rabs_pos_eq by (apply Rmult_le_pos; lra). apply Rle_trans with (q * (/ v / q)); [apply Rmult_le_compat_l; lra|]. right. field. lra. }
  assert (I : forall u v, 0 < u <= v -> - H u <= - H v).
  { intros u v U. apply (increasing_le (fun v => - H v) (fun v => v * v * inverse w (v * v))); [lra | intros; apply DH; lra | intros y Y; assert (0 < y * y) by nra; left; apply Rmult_lt_0_compat; [assumption | apply inverse_pos; assumption]]. }
  assert (S : - H 1 < - H 2).
  { apply (increasing_lt (fun v => - H v) (fun v => v * v * inverse w (v * v))); [lra | intros; apply DH; lra | intros y Y; assert (0 < y * y) by nra; apply Rmult_lt_0_compat; [assumption | apply inverse_pos; assumption]]. }
  assert (H1 : 0 <= - H 1).
  { apply Ropp_le_cancel. rewrite Ropp_0. assert (Z2 : tends (fun v => - 1 * (- H (/ v))) (- 1 * 0)) by (apply tends_scal; exact Z). rewrite Rmult_0_r in Z2. apply (tends_ge _ _ _ Z2). intros v V.
    assert (0 < / v) by (apply Rinv_0_lt_compat; lra). assert (/ v <= 1) by (rewrite <- Rinv_1; apply Rinv_le_contravar; lra). specialize (I (/ v) 1 ltac:(lra)). lra. }
  assert (L2 : - H 2 <= - (PI / 2) * sum2 n (fun i j => w i * w j * sqrt (sq i j))).
  { assert (T : tends (fun v => - H (v + 2)) (- (PI / 2) * sum2 n (fun i j => w i * w j * sqrt (sq i j)))) by (intros eps E; destruct (L eps E) as [K HK]; exists K; intros u U; apply HK; lra). apply (tends_ge _ _ _ T). intros v V. apply I. lra. }
  pose proof PI_RGT_0. nra.
Qed.

(** ** s ln s, for weights with sum zero and moments zero *)
Lemma moments_sq w : sumf n w = 0 -> (forall c, (c < d)%nat -> sumf n (fun i => w i * x i c) = 0) -> sum2 n (fun i j => w i * w j * sq i j) = 0.
Proof.
  intros M0 M1. rewrite (sum2_ext n _ (fun i j => (w i * dot d (x i) (x i)) * w j + w i * (w j * dot d (x j) (x j)) + - 2 * sumf d (fun c => (w i * x i c) * (w j * x j c)))).
  - rewrite sum2_plus, sum2_plus, !sum2_prod, sum2_scal, sum2_sumf, M0. rewrite (sumf_ext d _ (fun _ => 0)); [rewrite sumf_zero; ring|]. intros c C. rewrite sum2_prod, M1 by exact C. ring.
  - intros i j _ _. rewrite sq_expand. rewrite (sumf_ext d _ (fun c => (w i * w j) * (x i c * x j c))) by (intros c _; ring). rewrite sumf_scal, <- dot_sumf. ring.
Qed.
Definition xlnx (s : R) : R := if Req_EM_T s 0 then 0 else s * ln s.
Lemma ln_upper y : 0 < y -> ln y <= y - 1.
Proof.
  intros Y. destruct (Req_dec (ln y) 0) as [E|N]; [|pose proof (exp_ineq1 (ln y) N) as H; rewrite exp_ln in H; lra].
  assert (y = 1) by (rewrite <- (exp_ln y Y), E; apply exp_0). subst. rewrite ln_1. lra.
Qed.
Lemma ln_lower y : 0 < y -> 1 - / y <= ln y.
Proof. intros Y. pose proof (ln_upper (/ y) (Rinv_0_lt_compat _ Y)) as H. rewrite ln_Rinv in H by exact Y. lra. Qed.
Lemma xlnx_limit s : 0 <= s -> tends (fun u => (s + / u) * ln (s + / u)) (xlnx s).
Proof.
  intros S. unfold xlnx. destruct (Req_EM_T s 0) as [->|N].
  - (* u = 1/t: - ln u / u *)
    intros eps E. exists (Rmax 1 (4 / (eps * eps))). intros u U. pose proof (Rmax_l 1 (4 / (eps * eps))). pose proof (Rmax_r 1 (4 / (eps * eps))). assert (U0 : 0 < u) by lra.
    rewrite Rplus_0_l, Rminus_0_r, ln_Rinv by exact U0. replace (/ u * - ln u) with (- (ln u / u)) by (field; lra). rewrite Rabs_Ropp.
    assert (Q : 0 < sqrt u) by (apply sqrt_lt_R0; exact U0). assert (QQ : sqrt u * sqrt u = u) by (apply sqrt_sqrt; lra). assert (LN : ln u = 2 * ln (sqrt u)) by (rewrite <- QQ at 1; rewrite ln_mult by exact Q; ring).
    assert (P : 0 <= ln u) by (rewrite <- ln_1; left; apply ln_increasing; lra). rewrite Rabs_pos_eq by (apply div_nonneg; lra). pose proof (ln_upper (sqrt u) Q).
    apply (Rmult_lt_reg_r u); [exact U0|]. replace (ln u / u * u) with (ln u) by (field; lra). assert (B : 4 / (eps * eps) * (eps * eps) < u * (eps * eps)) by (apply Rmult_lt_compat_r; nra). replace (4 / (eps * eps) * (eps * eps)) with 4 in B by (field; lra).
    set (q := sqrt u) in *. clearbody q. subst u. assert (2 < eps * q); [|nra]. apply Rsqr_incrst_0; [unfold Rsqr; nra | lra | nra].
  - assert (S0 : 0 < s) by lra. (* continuity *)
    intros eps E. assert (C : continuity_pt (fun y => y * ln y) s).
    { apply continuity_pt_filterlim, (ex_derive_continuous (fun y => y * ln y) s). auto_derive. exact S0. }
    destruct (C eps E) as (al & A & HA). exists (Rmax 1 (/ al)). intros u U. pose proof (Rmax_l 1 (/ al)). pose proof (Rmax_r 1 (/ al)). assert (IA : 0 < / al) by (apply Rinv_0_lt_compat; lra).
    assert (IU : 0 < / u) by (apply Rinv_0_lt_compat; lra). assert (/ u < al) by (rewrite <- (Rinv_inv al); apply Rinv_lt_contravar; [apply Rmult_lt_0_compat; lra | lra]).
    apply (HA (s + / u)). split; [split; [exact I | lra]|]. simpl. unfold R_dist. replace (s + / u - s) with (/ u) by ring. rewrite Rabs_pos_eq; lra.
Qed.
Lemma xlnx_positive w : distinct -> ~ veq n w vzero -> sumf n w = 0 -> (forall c, (c < d)%nat -> sumf n (fun i => w i * x i c) = 0) ->
  0 < sum2 n (fun i j => w i * w j * xlnx (sq i j)).
Proof.
  intros D N M0 M1. pose proof (moments_sq w M0 M1) as M2.
  assert (WW : sum2 n (fun i j => w i * w j) = 0) by (rewrite sum2_prod, M0; ring).
  set (H := fun t => sum2 n (fun i j => w i * w j * ((sq i j + t) * ln (sq i j + t)))). set (H1 := fun t => sum2 n (fun i j => w i * w j * (ln (sq i j + t)))).
  assert (D1 : forall t, 0 < t -> is_derive H1 t (inverse w t)).
  { intros t T. apply (derive_sum2 n (fun i j t => w i * w j * ln (sq i j + t))). intros i j _ _. pose proof (sq_nonneg i j). auto_derive; [lra|]. field. lra. }
  assert (D0 : forall t, 0 < t -> is_derive H t (H1 t)).
  { intros t T. replace (H1 t) with (sum2 n (fun i j => w i * w j * (ln (sq i j + t) + 1))).
    - apply (derive_sum2 n (fun i j t => w i * w j * ((sq i j + t) * ln (sq i j + t)))). intros i j _ _. pose proof (sq_nonneg i j). auto_derive; [lra|]. field. lra.
    - unfold H1. rewrite (sum2_ext n _ (fun i j => w i * w j * ln (sq i j + t) + w i * w j)) by (intros; ring). rewrite sum2_plus, WW. ring. }
  assert (Y : forall s t, 0 <= s -> 0 < t -> s / (s + t) <= ln (s + t) - ln t <= s / t).
  { intros s t S T. rewrite <- ln_div by lra. assert (P : 0 < (s + t) / t) by (apply Rdiv_lt_0_compat; lra). pose proof (ln_upper _ P). pose proof (ln_lower _ P). replace (s / (s + t)) with (1 - / ((s + t) / t)) by (field; lra). replace (s / t) with ((s + t) / t - 1) by (field; lra). lra. }
  assert (L1 : tends H1 0).
  { apply (tends_ext (fun t => sum2 n (fun i j => w i * w j * (ln (sq i j + t) - ln t)))).
    - intros t _. unfold H1. rewrite (sum2_ext n _ (fun i j => w i * w j * ln (sq i j + t) + - ln t * (w i * w j))) by (intros; ring). rewrite sum2_plus, sum2_scal, WW. ring.
    - replace 0 with (sum2 n (fun i j => 0 * 0)) by (rewrite (sum2_scal n 0 (fun _ _ => 0)); ring). apply (tends_sum2 n (fun i j t => w i * w j * (ln (sq i j + t) - ln t)) (fun _ _ => 0 * 0)). intros i j _ _. replace (0 * 0) with (w i * w j * 0) by ring.
      apply tends_scal. apply (tends_zero _ (sq i j)). intros t T. pose proof (sq_nonneg i j) as S. destruct (Y _ t S ltac:(lra)). assert (0 <= sq i j / (sq i j + t)) by (apply div_nonneg; lra). rewrite Rabs_pos_eq; lra. }
  assert (L0 : tends H 0).
  { apply (tends_ext (fun t => sum2 n (fun i j => w i * w j * ((sq i j + t) * (ln (sq i j + t) - ln t) - sq i j)))).
    - intros t _. unfold H. rewrite (sum2_ext n _ (fun i j => w i * w j * ((sq i j + t) * ln (sq i j + t)) + ((- ln t - 1) * (w i * w j * sq i j) + - (t * ln t) * (w i * w j)))) by (intros; ring). rewrite !sum2_plus, !sum2_scal, WW, M2. ring.
    - replace 0 with (sum2 n (fun i j => 0 * 0)) by (rewrite (sum2_scal n 0 (fun _ _ => 0)); ring). apply (tends_sum2 n (fun i j t => w i * w j * ((sq i j + t) * (ln (sq i j + t) - ln t) - sq i j)) (fun _ _ => 0 * 0)). intros i j _ _. replace (0 * 0) with (w i * w j * 0) by ring.
      apply tends_scal. apply (tends_zero _ (sq i j * sq i j)). intros t T. pose proof (sq_nonneg i j) as S. destruct (Y _ t S ltac:(lra)) as [A B]. set (l := ln (sq i j + t) - ln t) in *. set (s := sq i j) in *.
      assert (A2 : s / (s + t) * (s + t) <= l * (s + t)) by (apply Rmult_le_compat_r; lra). assert (B2 : l * (s + t) <= s / t * (s + t)) by (apply Rmult_le_compat_r; lra). replace (s / (s + t) * (s + t)) with s in A2 by (field; lra). replace (s / t * (s + t)) with (s * s / t + s) in B2 by (field; lra).
      rewrite Rabs_pos_eq; lra. }
  assert (L : tends (fun u => H (/ u)) (sum2 n (fun i j => w i * w j * xlnx (sq i j)))).
  { apply (tends_sum2 n (fun i j u => w i * w j * ((sq i j + / u) * ln (sq i j + / u))) (fun i j => w i * w j * xlnx (sq i j))). intros i j _ _. apply tends_scal, xlnx_limit, sq_nonneg. }
  assert (I1 : forall u v, 0 < u < v -> H1 u < H1 v).
  { intros u v U. apply (increasing_lt H1 (inverse w)); [lra | intros; apply D1; lra | intros y Y0; apply inverse_pos; [assumption..|lra]]. }
  assert (N1 : forall u, 0 < u -> H1 u < 0).
  { intros u U. apply Rlt_le_trans with (H1 (u + 1)); [apply I1; lra|]. assert (T : tends (fun t => H1 (t + (u + 1))) 0) by (intros eps E; destruct (L1 eps E) as [K HK]; exists K; intros v V; apply HK; lra). apply (tends_ge _ _ _ T). intros t T1. left. apply I1. lra. }
  assert (I0 : forall u v, 0 < u < v -> H v < H u).
  { intros u v U. apply Ropp_lt_cancel. apply (increasing_lt (fun t => - H t) (fun t => - H1 t)); [lra | intros; apply (is_derive_opp H), D0; lra | intros y Y0; specialize (N1 y ltac:(lra)); lra]. }
  assert (P2 : 0 <= H 2).
  { assert (T : tends (fun t => - 1 * H (t + 2)) (- 1 * 0)) by (apply tends_scal; intros eps E; destruct (L0 eps E) as [K HK]; exists K; intros v V; apply HK; lra). assert (G : - H 2 <= - 1 * 0); [|lra]. apply (tends_ge _ _ _ T). intros t T1. specialize (I0 2 (t + 2) ltac:(lra)). lra. }
  specialize (I0 1 2 ltac:(lra)) as I12. apply Rlt_le_trans with (H 1); [lra|]. apply (tends_ge _ _ _ L). intros u U. left. apply I0. split; [apply Rinv_0_lt_compat; lra|]. rewrite <- Rinv_1. apply Rinv_lt_contravar; lra.
Qed.
End Points.
