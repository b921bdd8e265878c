(** Samples of a multivariate Gaussian (C129). *)
From Coq Require Import Reals Lra Lia Psatz.
From Verif Require Import Base MathModel TotpModel TotpVec EVecModel EVecProps ELinModel ELinProps EFitProps TpsMath MvnModel.
Open Scope R_scope.
Local Notation mid := ELinModel.mid.

(** Eigen's decompositions read the lower triangle only. *)
Definition lower (A : mat) : mat := fun i j => if (j <=? i)%nat then A i j else A j i.
Definition meq (n : nat) (A B : mat) : Prop := forall i j, (i < n)%nat -> (j < n)%nat -> A i j = B i j.
(** A factor: L times its transpose. *)
Definition squared (n : nat) (L : mat) : mat := fun i j => dot n (L i) (L j).
Definition llt_contract (n : nat) (A : mat) (r : option mat) : Prop := match r with Some L => meq n (squared n L) (lower A) | None => True end.
(** Orthonormal eigenvectors with their eigenvalues. *)
Definition eigen_contract (n : nat) (A : mat) (r : mat * vec) : Prop :=
  orthonormal n n (fst r) /\ forall l, (l < n)%nat -> veq n (mapply n (lower A) (fun i => fst r i l)) (fun i => snd r l * fst r i l).
Definition psd (n : nat) (A : mat) : Prop := symmetric n A /\ forall x, 0 <= dot n x (mapply n A x).
(** Expectations of functions of the draws: linear, and for independent draws of mean 0 and variance 1. *)
Record expectation (n : nat) (E : (vec -> R) -> R) : Prop := {
  e_ext : forall f g, (forall z, f z = g z) -> E f = E g;
  e_plus : forall f g, E (fun z => f z + g z) = E f + E g;
  e_scal : forall c f, E (fun z => c * f z) = c * E f;
  e_const : forall c, E (fun _ => c) = c;
  e_mean : forall k, (k < n)%nat -> E (fun z => z k) = 0;
  e_cov : forall k l, (k < n)%nat -> (l < n)%nat -> E (fun z => z k * z l) = if (k =? l)%nat then 1 else 0 }.

Lemma lower_symmetric n A : symmetric n (lower A).
Proof. intros i j _ _. unfold lower. destruct (Nat.leb_spec j i), (Nat.leb_spec i j); try lia; try reflexivity. replace i with j by lia. reflexivity. Qed.
Lemma lower_id n A : symmetric n A -> meq n (lower A) A.
Proof. intros S i j I J. unfold lower. destruct (j <=? i)%nat; [reflexivity|apply S; assumption]. Qed.
Lemma parseval n V v : orthonormal n n V -> dot n v v = dot n (mapply n (mtr V) v) (mapply n (mtr V) v).
Proof.
  intros O. pose proof (bessel n n V v O) as B. cbv zeta in B. pose proof (square_complete n V O v) as C. assert (Z : dot n (vsub v (mapply n V (mapply n (mtr V) v))) (vsub v (mapply n V (mapply n (mtr V) v))) = 0); [|lra].
  apply dot_self_zero. intros i Hi. unfold vsub. rewrite (C i Hi). unfold vzero. ring.
Qed.
(** The eigenvectors give back the matrix. *)
Lemma spectral n V lam M : orthonormal n n V -> (forall l, (l < n)%nat -> veq n (mapply n M (fun i => V i l)) (fun i => lam l * V i l)) -> meq n M (fun i j => dot n (fun l => V i l * lam l) (V j)).
Proof.
  intros O EV i j Hi Hj. assert (B : forall l, mapply n (mtr V) (basis j) l = V j l).
  { intros l. unfold mapply, mtr, basis. rewrite dot_comm. rewrite (dot_ext n _ (mid j) _ (fun k => V k l)) by (try apply veq_refl; intros k _; unfold ELinModel.mid; rewrite (Nat.eqb_sym k j); reflexivity). apply (mapply_id n (fun k => V k l) j Hj). }
  pose proof (square_complete n V O (basis j)) as C. transitivity (mapply n M (basis j) i).
  - unfold mapply. rewrite dot_comm, (dot_ext n (basis j) (mid j) _ (M i)) by (try apply veq_refl; intros k _; unfold basis, ELinModel.mid; rewrite (Nat.eqb_sym k j); reflexivity). symmetry. apply (mapply_id n (M i) j Hj).
  - transitivity (mapply n M (mapply n V (V j)) i).
    + unfold mapply at 1. unfold mapply at 1. apply dot_ext; [apply veq_refl|]. intros k Hk. rewrite <- (C k Hk). unfold mapply at 1 3. apply dot_ext; [apply veq_refl|]. intros l _. apply B.
    + assert (S : forall m, mapply n M (fun k => dot m (V k) (V j)) i = dot m (fun l => mapply n M (fun k => V k l) i) (V j)).
      { induction m as [|m IH]; [unfold mapply; cbn [dot]; apply dot_zero_r|]. cbn [dot]. rewrite <- IH. unfold mapply. rewrite dot_plus_fun_r. f_equal. rewrite (dot_ext n (M i) (M i) (fun k => V k m * V j m) (fun k => V j m * V k m)) by (try apply veq_refl; intros k _; ring). rewrite dot_scale_fun_r. ring. }
      unfold mapply at 2. rewrite S. apply dot_ext; [|apply veq_refl]. intros l Hl. rewrite (EV l Hl i Hi). ring.
Qed.
Definition clipped (n : nat) (V : mat) (lam : vec) : mat := fun i j => dot n (fun l => V i l * Rmax (lam l) 0) (V j).
Lemma roots n V lam : meq n (squared n (fun i l => V i l * sqrt (Rmax (lam l) 0))) (clipped n V lam).
Proof.
  intros i j _ _. unfold squared, clipped. rewrite !dot_sumf. apply sumf_ext. intros l _. transitivity (V i l * V j l * (sqrt (Rmax (lam l) 0) * sqrt (Rmax (lam l) 0))); [ring|]. rewrite sqrt_sqrt by apply Rmax_r. ring.
Qed.
Lemma eigen_form n V lam M l : orthonormal n n V -> (l < n)%nat -> veq n (mapply n M (fun i => V i l)) (fun i => lam l * V i l) -> dot n (fun i => V i l) (mapply n M (fun i => V i l)) = lam l.
Proof. intros O L E. rewrite (dot_ext n _ (fun i => V i l) _ (fun i => lam l * V i l) (veq_refl _ _) E), dot_scale_fun_r, (O l l L L). unfold ELinModel.mid. rewrite Nat.eqb_refl. ring. Qed.
Lemma psd_ext n A B : meq n A B -> psd n A -> psd n B.
Proof.
  intros E [S P]. split; [intros i j I J; rewrite <- !E by assumption; apply S; assumption|]. intros x. rewrite (dot_ext n x x _ (mapply n A x)); [apply P|apply veq_refl|]. intros i I. apply (mapply_ext n n B A x x); [intros a b Ha Hb; symmetry; apply E; assumption | apply veq_refl | exact I].
Qed.
(** The transform times its transpose is the covariance (its lower triangle, mirrored). *)
Lemma transform_squared llt eigen n A : llt_contract n A (llt n A) -> eigen_contract n A (eigen n A) -> psd n (lower A) -> meq n (squared n (norm_transform llt eigen n A)) (lower A).
Proof.
  intros L [O EV] [S P]. unfold norm_transform. destruct (llt n A) as [T|]; [exact L|]. destruct (eigen n A) as [V lam]. cbn [fst snd] in *. intros i j I J. rewrite (roots n V lam i j I J), (spectral n V lam (lower A) O EV i j I J). unfold clipped. apply dot_ext; [|apply veq_refl].
  intros l Hl. f_equal. apply Rmax_left. rewrite <- (eigen_form n V lam (lower A) l O Hl (EV l Hl)). apply P.
Qed.
Lemma e_dot n E : expectation n E -> forall m w, (m <= n)%nat -> E (fun z => dot m w z) = 0.
Proof.
  intros H. induction m as [|m IH]; intros w L; cbn [dot]; [apply (e_const n E H)|]. rewrite (e_plus n E H), IH by lia. rewrite (e_scal n E H), (e_mean n E H) by lia. ring.
Qed.
Lemma e_dot_one n E : expectation n E -> forall m w k, (m <= n)%nat -> (k < n)%nat -> E (fun z => dot m w z * z k) = if (k <? m)%nat then w k else 0.
Proof.
  intros H. induction m as [|m IH]; intros w k L K; cbn [dot]; [rewrite (e_ext n E H _ (fun _ => 0)) by (intros; ring); apply (e_const n E H)|].
  rewrite (e_ext n E H _ (fun z => dot m w z * z k + w m * (z m * z k))) by (intros; ring). rewrite (e_plus n E H), IH, (e_scal n E H), (e_cov n E H) by lia. destruct (Nat.ltb_spec k m), (Nat.ltb_spec k (S m)), (Nat.eqb_spec m k); try lia; subst; ring.
Qed.
Lemma e_dot_dot n E : expectation n E -> forall m u w, (m <= n)%nat -> E (fun z => dot n u z * dot m w z) = dot m u w.
Proof.
  intros H. induction m as [|m IH]; intros u w L; cbn [dot]; [rewrite (e_ext n E H _ (fun _ => 0)) by (intros; ring); apply (e_const n E H)|].
  rewrite (e_ext n E H _ (fun z => dot n u z * dot m w z + w m * (dot n u z * z m))) by (intros; ring). rewrite (e_plus n E H), IH, (e_scal n E H), (e_dot_one n E H) by lia. destruct (Nat.ltb_spec m n); [ring|lia].
Qed.
Definition sample_at (d : mvn) (z : vec) : vec := fun i => dot (mvn_size d) (mvn_transform d i) z + mvn_mean d i.
Lemma draws_spec {G} (next : G -> R * G) n g : exists z, draws next n g = (z, Nat.iter n (fun g => snd (next g)) g) /\ forall i, (i < n)%nat -> z i = fst (next (Nat.iter i (fun g => snd (next g)) g)).
Proof.
  induction n as [|n (z & E & H)]; [exists (fun _ => 0); split; [reflexivity|intros i L; lia]|]. cbn [draws]. rewrite E. set (g' := Nat.iter n (fun g => snd (next g)) g) in *. assert (G' : Nat.iter (S n) (fun g => snd (next g)) g = snd (next g')) by reflexivity. rewrite G'. destruct (next g') as [x g''] eqn:N. eexists. split; [reflexivity|]. intros i L.
  cbn beta. destruct (Nat.eqb_spec i n) as [->|NE]; [fold g'; rewrite N; reflexivity | apply H; lia].
Qed.
Lemma make_square llt eigen dbg n mean A : make_mvn llt eigen dbg n mean n n A = Ok (mkMvn n mean n (norm_transform llt eigen n A)).
Proof. unfold make_mvn, cassert. rewrite Nat.eqb_refl. destruct dbg; reflexivity. Qed.
(** Each sample takes as many draws as there are rows, in order. *)
Theorem C129_draws : forall G (next : G -> R * G) llt eigen dbg n mean A, exists d, make_mvn llt eigen dbg n mean n n A = Ok d /\
  forall g, exists z, sample next d g = Ok (sample_at d z, Nat.iter n (fun g => snd (next g)) g) /\ forall i, (i < n)%nat -> z i = fst (next (Nat.iter i (fun g => snd (next g)) g)).
Proof.
  intros G next llt eigen dbg n mean A. rewrite make_square. eexists. split; [reflexivity|]. intros g. unfold sample. cbn [mvn_rows mvn_size]. rewrite Nat.eqb_refl. destruct (draws_spec next n g) as (z & -> & H). exists z. split; [reflexivity|exact H].
Qed.
(** Sizes that do not fit: asserts stop the construction; without them nothing says so until a sample is drawn, which is undefined. *)
Theorem C129_sizes : forall G (next : G -> R * G) llt eigen k n mean A, k <> n ->
  make_mvn llt eigen true k mean n n A = AssertFail /\ exists d, make_mvn llt eigen false k mean n n A = Ok d /\ forall g, sample next d g = UB.
Proof.
  intros G next llt eigen k n mean A N. apply Nat.eqb_neq in N. unfold make_mvn, cassert. rewrite Nat.eqb_refl, N. cbn. split; [reflexivity|]. eexists. split; [reflexivity|]. intros g. unfold sample. cbn. rewrite N. reflexivity.
Qed.
(** With a positive semi-definite covariance the samples have the given mean and covariance, whichever decomposition made the transform. *)
Theorem C129_moments : forall llt eigen dbg n mean A d E,
  llt_contract n A (llt n A) -> eigen_contract n A (eigen n A) -> psd n A -> expectation n E -> make_mvn llt eigen dbg n mean n n A = Ok d ->
  (forall i, (i < n)%nat -> E (fun z => sample_at d z i) = mean i) /\
  (forall i j, (i < n)%nat -> (j < n)%nat -> E (fun z => (sample_at d z i - mean i) * (sample_at d z j - mean j)) = A i j).
Proof.
  intros llt eigen dbg n mean A d E L V P H M. rewrite make_square in M. injection M as <-. unfold sample_at. cbn [mvn_rows mvn_size mvn_mean mvn_transform]. split.
  - intros i Hi. rewrite (e_plus n E H), (e_dot n E H), (e_const n E H) by lia. ring.
  - intros i j Hi Hj. pose proof (lower_id n A (proj1 P)) as LA. pose proof (transform_squared llt eigen n A L V) as T. rewrite <- (LA i j Hi Hj), <- T; [| |exact Hi|exact Hj].
    + unfold squared. rewrite <- (e_dot_dot n E H n) by lia. apply (e_ext n E H). intros z. ring.
    + apply (psd_ext n A); [|exact P]. intros a b Ha Hb. symmetry. apply LA; assumption.
Qed.
(** Whatever the covariance: the samples' own covariance is the transform times its transpose, so positive semi-definite. *)
Definition sample_cov (E : (vec -> R) -> R) (d : mvn) : mat := fun i j => E (fun z => (sample_at d z i - mvn_mean d i) * (sample_at d z j - mvn_mean d j)).
Lemma sample_cov_squared n E mean T : expectation n E -> meq n (sample_cov E (mkMvn n mean n T)) (squared n T).
Proof. intros H i j Hi Hj. unfold sample_cov, sample_at, squared. cbn [mvn_rows mvn_size mvn_mean mvn_transform]. rewrite <- (e_dot_dot n E H n) by lia. apply (e_ext n E H). intros z. ring. Qed.
Definition frob2 (n : nat) (A B : mat) : R := sumf n (fun i => sumf n (fun j => (A i j - B i j) * (A i j - B i j))).

(** Frobenius norms do not depend on the basis. *)
Definition inbasis (n : nat) (V M : mat) : mat := fun k l => dot n (fun i => V i k) (mapply n M (fun j => V j l)).
Definition norm2 (n : nat) (M : mat) : R := sumf n (fun i => dot n (M i) (M i)).
Lemma frob_norm n A B : frob2 n A B = norm2 n (fun i j => A i j - B i j).
Proof. unfold frob2, norm2. apply sumf_ext. intros i _. rewrite dot_sumf. reflexivity. Qed.
Lemma norm2_tr n M : norm2 n M = norm2 n (mtr M).
Proof. unfold norm2. rewrite (sumf_ext n _ (fun i => sumf n (fun j => M i j * M i j))) by (intros i _; apply dot_sumf). rewrite sumf_swap. apply sumf_ext. intros i _. rewrite dot_sumf. reflexivity. Qed.
Lemma norm2_right n V M : orthonormal n n V -> norm2 n M = norm2 n (fun i l => dot n (M i) (fun j => V j l)).
Proof. intros O. unfold norm2. apply sumf_ext. intros i _. rewrite (parseval n V (M i) O). apply dot_ext; intros l _; unfold mapply, mtr; apply dot_comm. Qed.
Lemma norm2_basis n V M : orthonormal n n V -> norm2 n M = norm2 n (inbasis n V M).
Proof.
  intros O. rewrite (norm2_right n V M O), norm2_tr, (norm2_right n V (mtr _) O), norm2_tr. unfold norm2. apply sumf_ext. intros i _. apply dot_ext; intros l _; unfold mtr, inbasis, mapply; apply dot_comm.
Qed.
Lemma clipped_eigen n V lam l : orthonormal n n V -> (l < n)%nat -> veq n (mapply n (clipped n V lam) (fun i => V i l)) (fun i => Rmax (lam l) 0 * V i l).
Proof.
  intros O L i Hi. unfold mapply, clipped. transitivity (sumf n (fun j => sumf n (fun m => V i m * Rmax (lam m) 0 * (V j m * V j l)))).
  { rewrite dot_sumf. apply sumf_ext. intros j _. rewrite dot_sumf, <- sumf_scal_r. apply sumf_ext. intros m _. ring. }
  rewrite sumf_swap. transitivity (sumf n (fun m => V i m * Rmax (lam m) 0 * mid l m)).
  { apply sumf_ext. intros m Hm. rewrite sumf_scal. f_equal. rewrite <- (O l m L Hm), dot_sumf. apply sumf_ext. intros j _. ring. }
  rewrite <- (dot_sumf n (fun m => V i m * Rmax (lam m) 0) (mid l)), dot_comm. transitivity ((fun m => V i m * Rmax (lam m) 0) l); [apply (mapply_id n (fun m => V i m * Rmax (lam m) 0) l L)|ring].
Qed.
Lemma mapply_sub n (A B : mat) x i : mapply n (fun i j => A i j - B i j) x i = mapply n A x i - mapply n B x i.
Proof. unfold mapply. rewrite !dot_sumf. transitivity (sumf n (fun l => A i l * x l + -1 * (B i l * x l))); [apply sumf_ext; intros l _; ring|]. rewrite sumf_plus, sumf_scal. ring. Qed.
Lemma dot_sub n u v w : dot n u (fun i => v i - w i) = dot n u v - dot n u w.
Proof. rewrite !dot_sumf. transitivity (sumf n (fun l => u l * v l + -1 * (u l * w l))); [apply sumf_ext; intros l _; ring|]. rewrite sumf_plus, sumf_scal. ring. Qed.
Lemma sumf_le n f g : (forall i, (i < n)%nat -> f i <= g i) -> sumf n f <= sumf n g.
Proof. intros H. assert (0 <= sumf n (fun i => g i + -1 * f i)); [apply sumf_nonneg; intros i Hi; specialize (H i Hi); lra|]. rewrite sumf_plus, sumf_scal in *. lra. Qed.
Lemma diag_below n (M : mat) : sumf n (fun l => M l l * M l l) <= norm2 n M.
Proof.
  apply sumf_le. intros l Hl. rewrite dot_sumf. apply (Rle_trans _ (sumf n (fun j => mid l j * (M l j * M l j)))).
  - rewrite <- (dot_sumf n (mid l) (fun j => M l j * M l j)). right. symmetry. apply (mapply_id n (fun j => M l j * M l j) l Hl).
  - apply sumf_le. intros j _. unfold ELinModel.mid. destruct (l =? j)%nat; nra.
Qed.
Lemma nearest n V lam M B : orthonormal n n V -> (forall l, (l < n)%nat -> veq n (mapply n M (fun i => V i l)) (fun i => lam l * V i l)) -> psd n B -> frob2 n M (clipped n V lam) <= frob2 n M B.
Proof.
  intros O EV [_ P]. rewrite !frob_norm, (norm2_basis n V (fun i j => M i j - clipped n V lam i j) O), (norm2_basis n V (fun i j => M i j - B i j) O). eapply Rle_trans; [|apply diag_below]. unfold norm2. apply sumf_le. intros l Hl.
  assert (D : forall k, (k < n)%nat -> inbasis n V (fun i j => M i j - clipped n V lam i j) l k = (lam k - Rmax (lam k) 0) * mid l k).
  { intros k Hk. unfold inbasis. rewrite <- (O l k Hl Hk), <- dot_scale_fun_r. apply dot_ext; [apply veq_refl|]. intros i Hi. rewrite mapply_sub, (EV k Hk i Hi), (clipped_eigen n V lam k O Hk i Hi). ring. }
  rewrite (dot_ext n _ (fun k => (lam k - Rmax (lam k) 0) * mid l k) _ (fun k => (lam k - Rmax (lam k) 0) * mid l k)) by (intros k Hk; apply D; exact Hk).
  apply (Rle_trans _ (dot n (mid l) (fun k => (lam k - Rmax (lam k) 0) * (lam k - Rmax (lam k) 0)))).
  { right. rewrite !dot_sumf. apply sumf_ext. intros k _. unfold ELinModel.mid. destruct (l =? k)%nat; ring. }
  apply (Rle_trans _ ((lam l - Rmax (lam l) 0) * (lam l - Rmax (lam l) 0))); [right; apply (mapply_id n (fun k => (lam k - Rmax (lam k) 0) * (lam k - Rmax (lam k) 0)) l Hl)|].
  assert (B' : inbasis n V (fun i j => M i j - B i j) l l = lam l - dot n (fun i => V i l) (mapply n B (fun j => V j l))).
  { rewrite <- (eigen_form n V lam M l O Hl (EV l Hl)) at 1. unfold inbasis. rewrite <- dot_sub. apply dot_ext; [apply veq_refl|]. intros i _. apply mapply_sub. }
  rewrite B'. specialize (P (fun i => V i l)). set (q := dot n _ _) in *. clearbody q. unfold Rmax. destruct (Rle_dec (lam l) 0) as [N|N]; [pose proof (Rmult_le_pos q (- lam l) P ltac:(lra)); nra|]. pose proof (Rle_0_sqr (lam l - q)) as Q. unfold Rsqr in Q. lra.
Qed.
Lemma squared_psd n T : psd n (squared n T).
Proof.
  split; [intros i j _ _; unfold squared; apply dot_comm|]. intros x. assert (E : dot n x (mapply n (squared n T) x) = dot n (mapply n (mtr T) x) (mapply n (mtr T) x)); [|rewrite E; apply dot_self_nonneg].
  unfold mapply, squared, mtr. rewrite !dot_sumf. transitivity (sumf n (fun i => sumf n (fun j => sumf n (fun l => T i l * x i * (T j l * x j))))).
  { apply sumf_ext. intros i _. rewrite dot_sumf, <- sumf_scal. apply sumf_ext. intros j _. rewrite dot_sumf, <- sumf_scal_r, <- sumf_scal. apply sumf_ext. intros l _. ring. }
  transitivity (sumf n (fun i => sumf n (fun l => sumf n (fun j => T i l * x i * (T j l * x j))))); [apply sumf_ext; intros i _; apply (sumf_swap n n (fun j l => T i l * x i * (T j l * x j)))|].
  rewrite (sumf_swap n n (fun i l => sumf n (fun j => T i l * x i * (T j l * x j)))). apply sumf_ext. intros l _. rewrite !dot_sumf, <- sumf_scal_r. apply sumf_ext. intros i _. rewrite <- sumf_scal. reflexivity.
Qed.
(** Any symmetric covariance: a covariance of its own comes out, and no positive semi-definite matrix is nearer to the one given. *)
Theorem C129_nearest : forall llt eigen dbg n mean A d E,
  llt_contract n A (llt n A) -> eigen_contract n A (eigen n A) -> symmetric n A -> expectation n E -> make_mvn llt eigen dbg n mean n n A = Ok d ->
  psd n (sample_cov E d) /\ forall B, psd n B -> frob2 n A (sample_cov E d) <= frob2 n A B.
Proof.
  intros llt eigen dbg n mean A d E L V S H M. rewrite make_square in M. injection M as <-. pose proof (sample_cov_squared n E mean (norm_transform llt eigen n A) H) as C. split.
  - apply (psd_ext n (squared n (norm_transform llt eigen n A))); [|apply squared_psd]. intros i j Hi Hj. symmetry. apply C; assumption.
  - intros B P. assert (X : forall A' C1 C2, meq n C1 C2 -> meq n A' A -> frob2 n A C1 = frob2 n A' C2).
    { intros A' C1 C2 E1 E2. unfold frob2. apply sumf_ext. intros i Hi. apply sumf_ext. intros j Hj. rewrite E1, E2 by assumption. reflexivity. }
    pose proof (lower_id n A S) as LA. unfold norm_transform in C. unfold norm_transform. destruct (llt n A) as [T|].
    + rewrite (X A _ A); [| |intros i j _ _; reflexivity]. 2: { intros i j Hi Hj. rewrite (C i j Hi Hj), (L i j Hi Hj), (LA i j Hi Hj). reflexivity. }
      unfold frob2. apply sumf_le. intros i Hi. apply sumf_le. intros j Hj. pose proof (Rle_0_sqr (A i j - B i j)) as Q. unfold Rsqr in Q. unfold Rminus at 1 2. rewrite Rplus_opp_r. lra.
    + destruct V as [O EV]. destruct (eigen n A) as [V lam]. cbn [fst snd] in *. rewrite (X (lower A) _ (clipped n V lam)), (X (lower A) B B); [apply nearest; assumption|intros i j _ _; reflexivity|exact LA| |exact LA].
      intros i j Hi Hj. rewrite (C i j Hi Hj). apply roots; assumption.
Qed.
(** One dimension: 1 and -1, each half of the time. *)
Definition coin (f : vec -> R) : R := (f (fun _ => 1) + f (fun _ => -1)) / 2.
Lemma coin_ok : expectation 1 coin.
Proof. split; unfold coin; intros; try field; try (rewrite !H; reflexivity). destruct k, l; try lia. cbn. field. Qed.
Definition never_llt (n : nat) (A : mat) : option mat := None.
Definition one_eigen (n : nat) (A : mat) : mat * vec := (mid, fun l => A l l).
Lemma one_eigen_ok A : eigen_contract 1 A (one_eigen 1 A).
Proof.
  split; [intros a b Ha Hb; replace a with 0%nat by lia; replace b with 0%nat by lia; cbn; ring|]. intros l Hl i Hi. replace l with 0%nat by lia. replace i with 0%nat by lia. unfold mapply, lower. cbn. ring.
Qed.
(** A negative variance is taken without a word, asserts or no asserts: every sample is the mean. *)
Theorem C129_indefinite_refuted : exists (A : mat) (llt : nat -> mat -> option mat) (eigen : nat -> mat -> mat * vec),
  A 0%nat 0%nat = -1 /\ llt_contract 1 A (llt 1%nat A) /\ eigen_contract 1 A (eigen 1%nat A) /\
  forall dbg mean, exists d, make_mvn llt eigen dbg 1 mean 1 1 A = Ok d /\ forall G (next : G -> R * G) g, exists s g', sample next d g = Ok (s, g') /\ s 0%nat = mean 0%nat.
Proof.
  exists (fun _ _ => -1), never_llt, one_eigen. split; [reflexivity|]. split; [exact I|]. split; [apply one_eigen_ok|]. intros dbg mean. rewrite make_square. eexists. split; [reflexivity|]. intros G next g.
  unfold sample. cbn [mvn_rows mvn_size mvn_mean mvn_transform Nat.eqb]. destruct (draws next 1 g) as [z g']. eexists _, _. split; [reflexivity|]. unfold mapply, norm_transform, never_llt, one_eigen. cbn. rewrite Rmax_right, sqrt_0 by lra. ring.
Qed.
(** The upper triangle is not read: of an asymmetric matrix only the mirrored lower one counts. *)
Theorem C129_asymmetric : forall llt eigen dbg n mean A d E,
  llt_contract n A (llt n A) -> eigen_contract n A (eigen n A) -> psd n (lower A) -> expectation n E -> make_mvn llt eigen dbg n mean n n A = Ok d ->
  forall i j, (j <= i < n)%nat -> sample_cov E d i j = A i j /\ sample_cov E d j i = A i j.
Proof.
  intros llt eigen dbg n mean A d E L V P H M i j [J I]. rewrite make_square in M. injection M as <-. rewrite !(sample_cov_squared n E mean _ H), !(transform_squared llt eigen n A L V P) by lia. unfold lower. destruct (Nat.leb_spec j i), (Nat.leb_spec i j); try lia; [|split; reflexivity]. replace j with i by lia. split; reflexivity.
Qed.
(** A variance of 9: the factor is 3 and both decompositions serve. *)
Example mvn_case :
  let A : mat := fun _ _ => 9 in let llt := fun (n : nat) (_ : mat) => Some (fun _ _ => 3) : option mat in
  psd 1 A /\ llt_contract 1 A (llt 1%nat A) /\ llt_contract 1 A (never_llt 1 A) /\ eigen_contract 1 A (one_eigen 1 A) /\ expectation 1 coin /\
  exists d, make_mvn never_llt one_eigen true 1 (fun _ => 5) 1 1 A = Ok d /\ sample_at d (fun _ => 1) 0%nat = 8 /\ sample_at d (fun _ => -1) 0%nat = 2.
Proof.
  cbv zeta. split; [split; [intros i j _ _; reflexivity|intros x; unfold mapply; cbn; nra]|]. split; [intros i j _ _; unfold squared, lower; cbn; destruct (j <=? i)%nat; ring|]. split; [exact I|]. split; [apply one_eigen_ok|]. split; [apply coin_ok|].
  rewrite make_square. eexists. split; [reflexivity|]. assert (Q : sqrt (Rmax 9 0) = 3) by (rewrite Rmax_left by lra; apply sqrt_lem_1; lra). unfold sample_at, norm_transform, never_llt, one_eigen. cbn. rewrite Q. split; ring.
Qed.
Print Assumptions C129_draws. Print Assumptions C129_sizes. Print Assumptions C129_moments. Print Assumptions C129_nearest. Print Assumptions C129_indefinite_refuted. Print Assumptions C129_asymmetric.
