(** ThinPlateSpline (C126). *)
From Coq Require Import Reals Lra Lia.
From Coquelicot Require Import Coquelicot.
From Verif Require Import Base MathModel TotpModel TotpVec ELinModel ELinProps EFitProps EConvModel EConvProps TpsMath TpsSolve TpsModel.
From Coq Require Import Permutation.
Open Scope R_scope.
Local Notation interpolate := TpsModel.interpolate.

(** ** Specification *)
(** What Eigen's colPivHouseholderQr().solve gives in exact arithmetic: a solution when the system has one. *)
Definition solver_contract (solve : nat -> mat -> vec -> vec) : Prop :=
  forall n A b, (exists x, veq n (mapply n A x) b) -> veq n (mapply n A (solve n A b)) b.
(** The bending kernel as a function of the distance: r^2 ln r^2 in the plane, - r in space. *)
Definition bend (d : nat) (r : R) : R := if Req_EM_T r 0 then 0 else if (d =? 2)%nat then 2 * (r * r) * ln r else - r.
(** An affine map and a sum of bending kernels at the points [xs] ... *)
Definition spline_form (d : nat) (xs : list vec) (a w : vec) (p : vec) : R :=
  dot d a p + a d + sumf (length xs) (fun i => w i * bend d (norm d (vsub p (nth i xs vzero)))).
(** ... whose weights have sum zero and moments zero. *)
Definition balanced (d : nat) (xs : list vec) (w : vec) : Prop :=
  sumf (length xs) w = 0 /\ forall l, (l < d)%nat -> sumf (length xs) (fun i => w i * nth i xs vzero l) = 0.
Definition thin_plate (d : nat) (xs : list vec) (f : vec -> vec) : Prop :=
  forall c, (c < d)%nat -> exists a w, balanced d xs w /\ forall p, f p c = spline_form d xs a w p.
Definition distinct_points (d : nat) (xs : list vec) : Prop :=
  forall i j, (i < j < length xs)%nat -> ~ veq d (nth i xs vzero) (nth j xs vzero).
(** Not all on one line (plane): the only affine function that is zero at all of them is zero. *)
Definition spanning (d : nat) (xs : list vec) : Prop :=
  forall a b, (forall k, (k < length xs)%nat -> dot d a (nth k xs vzero) + b = 0) -> veq d a vzero /\ b = 0.

(** ** The kernel *)
Lemma kernel_bend d r : (d = 2 \/ d = 3)%nat -> 0 <= r -> kernel d (r * r) = bend d r.
Proof.
  intros D R0. unfold kernel, bend. destruct (Req_EM_T r 0) as [->|N].
  - replace (Reqb (0 * 0) 0) with true by (symmetry; apply Reqb_true; ring). destruct (d =? 2)%nat; reflexivity.
  - replace (Reqb (r * r) 0) with false by (symmetry; apply Reqb_false; nra). destruct (d =? 2)%nat; [rewrite ln_mult by lra; ring | rewrite sqrt_square by exact R0; reflexivity].
Qed.
Lemma sq_norm d x i j : sq d x i j = norm d (vsub (x i) (x j)) * norm d (vsub (x i) (x j)).
Proof. unfold sq. symmetry. apply norm_sq. Qed.
Lemma bend_definite d n (x : nat -> vec) w : (d = 2 \/ d = 3)%nat -> distinct d n x -> ~ veq n w vzero -> sumf n w = 0 -> (forall c, (c < d)%nat -> sumf n (fun i => w i * x i c) = 0) ->
  0 < sum2 n (fun i j => w i * w j * bend d (norm d (vsub (x i) (x j)))).
Proof.
  intros D DI N M0 M1. destruct D as [->| ->].
  - rewrite (sum2_ext n _ (fun i j => w i * w j * xlnx (sq 2 x i j))); [apply xlnx_positive; assumption|]. intros i j _ _. f_equal. rewrite sq_norm. set (r := norm 2 (vsub (x i) (x j))). assert (0 <= r) by apply norm_nonneg. clearbody r. unfold bend, xlnx.
    destruct (Req_EM_T r 0) as [->|NR]; [rewrite Rmult_0_l; destruct (Req_EM_T 0 0); [reflexivity|lra]|]. destruct (Req_EM_T (r * r) 0); [nra|]. cbn [Nat.eqb]. rewrite ln_mult by lra. ring.
  - assert (Q := root_negative 3 n x w DI N M0). rewrite (sum2_ext n _ (fun i j => - 1 * (w i * w j * sqrt (sq 3 x i j)))); [rewrite sum2_scal; lra|]. intros i j _ _. rewrite sq_norm. set (r := norm 3 (vsub (x i) (x j))). assert (0 <= r) by apply norm_nonneg. clearbody r.
    rewrite sqrt_square by assumption. unfold bend. destruct (Req_EM_T r 0) as [->|NR]; cbn [Nat.eqb]; ring.
Qed.
Lemma distinct_sq d xs : distinct_points d xs -> distinct d (length xs) (fun i => nth i xs vzero).
Proof.
  intros D. assert (G : forall i j, (i < length xs)%nat -> (j < length xs)%nat -> (i < j)%nat -> 0 < sq d (fun i => nth i xs vzero) i j).
  { intros i j Hi Hj L. assert (V : ~ veq d (vsub (nth i xs vzero) (nth j xs vzero)) vzero) by (intros V; apply (D i j ltac:(lia)); intros k K; specialize (V k K); unfold vsub in V; change (vzero k) with 0 in V; lra). apply self_pos. exact V. }
  intros i j Hi Hj N. destruct (Nat.lt_ge_cases i j) as [L|L]; [apply G; assumption|]. specialize (G j i Hj Hi ltac:(lia)). rewrite sq_expand in *. rewrite (dot_comm d (nth i xs vzero) (nth j xs vzero)). lra.
Qed.
Lemma sumf_dot n w (x : nat -> vec) d a : sumf n (fun i => w i * dot d a (x i)) = dot d a (fun l => sumf n (fun i => w i * x i l)).
Proof.
  rewrite (dot_sumf d a). rewrite (sumf_ext n _ (fun i => sumf d (fun l => w i * (a l * x i l)))) by (intros i _; rewrite dot_sumf, <- sumf_scal; reflexivity). rewrite sumf_swap. apply sumf_ext. intros l _. rewrite <- sumf_scal. apply sumf_ext. intros i _. ring.
Qed.
(** A spline that is zero at its points has no bending. *)
Lemma definite d xs a w : (d = 2 \/ d = 3)%nat -> distinct_points d xs -> balanced d xs w -> (forall k, (k < length xs)%nat -> spline_form d xs a w (nth k xs vzero) = 0) -> veq (length xs) w vzero.
Proof.
  intros D DI [M0 M1] Z. destruct (Req_dec (dot (length xs) w w) 0) as [E|NE]; [apply dot_self_zero; exact E|]. exfalso. assert (N : ~ veq (length xs) w vzero) by (intros V; apply NE; apply dot_self_zero; exact V).
  pose proof (bend_definite d (length xs) (fun i => nth i xs vzero) w D (distinct_sq d xs DI) N M0 M1) as P.
  enough (S : sum2 (length xs) (fun i j => w i * w j * bend d (norm d (vsub (nth i xs vzero) (nth j xs vzero)))) = 0) by lra.
  assert (T : sumf (length xs) (fun k => w k * spline_form d xs a w (nth k xs vzero)) = 0) by (rewrite (sumf_ext _ _ (fun _ => 0)) by (intros k K; rewrite Z by exact K; ring); apply sumf_zero).
  unfold spline_form in T. rewrite (sumf_ext _ _ (fun k => (w k * dot d a (nth k xs vzero) + w k * a d) + sumf (length xs) (fun j => w k * w j * bend d (norm d (vsub (nth k xs vzero) (nth j xs vzero)))))) in T.
  2:{ intros k _. rewrite (sumf_ext (length xs) (fun j => w k * w j * _) (fun j => w k * (w j * bend d (norm d (vsub (nth k xs vzero) (nth j xs vzero)))))) by (intros j _; ring). rewrite sumf_scal. ring. }
  rewrite !sumf_plus, sumf_scal_r, M0, (sumf_dot _ _ (fun i => nth i xs vzero)) in T. fold (sum2 (length xs) (fun i j => w i * w j * bend d (norm d (vsub (nth i xs vzero) (nth j xs vzero))))) in T.
  rewrite (dot_ext d a a _ vzero) in T by (intros l L; first [reflexivity | apply M1, L]). replace (dot d a vzero) with 0 in T; [lra|]. rewrite dot_sumf. rewrite (sumf_ext d _ (fun _ => 0)) by (intros l _; unfold vzero; ring). rewrite sumf_zero. reflexivity.
Qed.

(** ** The linear system *)
Lemma dot_split n m u v : dot (n + m) u v = dot n u v + dot m (fun j => u (n + j)%nat) (fun j => v (n + j)%nat).
Proof. induction m; [rewrite Nat.add_0_r; cbn; ring|]. rewrite Nat.add_succ_r. cbn [dot]. rewrite IHm. ring. Qed.
Lemma hom_dot d a p : dot (d + 1) a (homogeneous d p) = dot d a p + a d.
Proof.
  rewrite dot_split. f_equal.
  - apply dot_ext; [apply veq_refl|]. intros i Hi. unfold homogeneous. rewrite (proj2 (Nat.ltb_lt _ _) Hi). reflexivity.
  - cbn [dot]. unfold homogeneous. rewrite (proj2 (Nat.ltb_ge _ _)) by lia. rewrite Nat.add_0_r. ring.
Qed.
Lemma hom_dist d p q : dot (d + 1) (vsub (homogeneous d p) (homogeneous d q)) (vsub (homogeneous d p) (homogeneous d q)) = dot d (vsub p q) (vsub p q).
Proof.
  assert (E : forall i, vsub (homogeneous d p) (homogeneous d q) i = if (i <? d)%nat then vsub p q i else 0) by (intros i; unfold vsub, homogeneous; destruct (i <? d)%nat; ring).
  rewrite (dot_ext (d + 1) _ (fun i => if (i <? d)%nat then vsub p q i else 0) _ (fun i => if (i <? d)%nat then vsub p q i else 0)) by (intros i _; apply E). rewrite dot_split. cbn [dot]. rewrite (proj2 (Nat.ltb_ge (d + 0) d)) by lia.
  rewrite (dot_ext d _ (vsub p q) _ (vsub p q)) by (intros i Hi; rewrite (proj2 (Nat.ltb_lt _ _) Hi); reflexivity). ring.
Qed.
Lemma nth_hom d xs i : (i < length xs)%nat -> nth i (map (homogeneous d) xs) vzero = homogeneous d (nth i xs vzero).
Proof. intros H. rewrite (nth_indep _ vzero (homogeneous d vzero)) by (rewrite map_length; exact H). apply map_nth. Qed.
Section Rows.
Variables (d : nat) (init : mat) (xs : list vec).
Hypothesis D : (d = 2 \/ d = 3)%nat.
Let n := length xs.
Let S := system d init (map (homogeneous d) xs).
Lemma system_kernel k i : (k < n)%nat -> (i < n)%nat -> S k i = bend d (norm d (vsub (nth k xs vzero) (nth i xs vzero))).
Proof.
  intros K I. unfold S, system. rewrite map_length. fold n. rewrite (proj2 (Nat.ltb_lt _ _) K), (proj2 (Nat.ltb_lt _ _) I).
  destruct (C109_matrix (d + 1) (map (homogeneous d) xs) init (matrix_writes (d + 1) (map (homogeneous d) xs)) (Permutation_refl _) k i) as [E _]; [rewrite map_length; assumption..|].
  rewrite E, norm_sq, !nth_hom by assumption. rewrite hom_dist, <- norm_sq. apply kernel_bend; [exact D | apply norm_nonneg].
Qed.
Lemma row_top z k : (k < n)%nat -> mapply (n + d + 1) S z k = spline_form d xs (fun j => z (n + j)%nat) z (nth k xs vzero).
Proof.
  intros K. unfold mapply, spline_form. rewrite <- Nat.add_assoc, dot_split. rewrite (dot_ext n (S k) (fun i => bend d (norm d (vsub (nth k xs vzero) (nth i xs vzero)))) z z) by (intros i I; first [apply system_kernel; assumption | reflexivity]).
  rewrite (dot_ext (d + 1) (fun j => S k (n + j)%nat) (homogeneous d (nth k xs vzero)) (fun j => z (n + j)%nat) (fun j => z (n + j)%nat)).
  - rewrite (dot_comm (d + 1)), hom_dot, dot_sumf, (sumf_ext n _ (fun i => z i * bend d (norm d (vsub (nth k xs vzero) (nth i xs vzero))))) by (intros i _; ring). fold n. ring.
  - intros j J. unfold S, system. rewrite map_length. fold n. rewrite (proj2 (Nat.ltb_lt _ _) K), (proj2 (Nat.ltb_ge _ _)) by lia. rewrite nth_hom by assumption. f_equal. lia.
  - apply veq_refl.
Qed.
Lemma row_low z l : (l < d + 1)%nat -> mapply (n + d + 1) S z (n + l)%nat = sumf n (fun i => z i * homogeneous d (nth i xs vzero) l).
Proof.
  intros L. unfold mapply. rewrite <- Nat.add_assoc, dot_split. rewrite (dot_ext (d + 1) (fun j => S (n + l)%nat (n + j)%nat) vzero (fun j => z (n + j)%nat) (fun j => z (n + j)%nat)).
  - replace (dot (d + 1) vzero (fun j => z (n + j)%nat)) with 0 by (rewrite dot_sumf, (sumf_ext _ _ (fun _ => 0)) by (intros j _; unfold vzero; ring); rewrite sumf_zero; reflexivity). rewrite Rplus_0_r, dot_sumf. apply sumf_ext. intros i I.
    unfold S, system. rewrite map_length. fold n. rewrite (proj2 (Nat.ltb_ge (n + l) n)) by lia. rewrite (proj2 (Nat.ltb_lt _ _) I). rewrite nth_hom by assumption. replace (n + l - n)%nat with l by lia. ring.
  - intros j J. unfold S, system. rewrite map_length. fold n. rewrite !(proj2 (Nat.ltb_ge _ _)) by lia. reflexivity.
  - apply veq_refl.
Qed.
Lemma rows ys c z : length ys = n -> (veq (n + d + 1) (mapply (n + d + 1) S z) (right_side ys c) <->
  (forall k, (k < n)%nat -> spline_form d xs (fun j => z (n + j)%nat) z (nth k xs vzero) = nth k ys vzero c) /\ balanced d xs z).
Proof.
  intros LY. split.
  - intros V. split; [|split].
    + intros k K. rewrite <- row_top by exact K. rewrite V by lia. unfold right_side. rewrite LY, (proj2 (Nat.ltb_lt _ _) K). reflexivity.
    + specialize (V (n + d)%nat ltac:(lia)). rewrite row_low in V by lia. unfold right_side in V. rewrite LY, (proj2 (Nat.ltb_ge _ _)) in V by lia. rewrite <- V. apply sumf_ext. intros i _. unfold homogeneous. rewrite (proj2 (Nat.ltb_ge _ _)) by lia. ring.
    + intros l L. specialize (V (n + l)%nat ltac:(lia)). rewrite row_low in V by lia. unfold right_side in V. rewrite LY, (proj2 (Nat.ltb_ge _ _)) in V by lia. rewrite <- V. apply sumf_ext. intros i _. unfold homogeneous. rewrite (proj2 (Nat.ltb_lt _ _) L). ring.
  - intros (T & M0 & M1) r R. unfold right_side. rewrite LY. destruct (Nat.ltb_spec r n) as [L|G]; [rewrite row_top by exact L; apply T, L|]. replace r with (n + (r - n))%nat by lia. rewrite row_low by lia. set (l := (r - n)%nat). destruct (Nat.ltb_spec l d) as [B|B].
    + rewrite <- (M1 l B). apply sumf_ext. intros i _. unfold homogeneous. rewrite (proj2 (Nat.ltb_lt _ _) B). reflexivity.
    + rewrite <- M0. apply sumf_ext. intros i _. unfold homogeneous. rewrite (proj2 (Nat.ltb_ge _ _) B). ring.
Qed.
Lemma system_symmetric i j : (i < n + d + 1)%nat -> (j < n + d + 1)%nat -> S i j = S j i.
Proof.
  intros I J. destruct (Nat.lt_ge_cases i n) as [A|A], (Nat.lt_ge_cases j n) as [B|B].
  - rewrite !system_kernel by assumption. rewrite norm_sub_sym. reflexivity.
  - unfold S, system. rewrite map_length. fold n. rewrite (proj2 (Nat.ltb_lt i n) A), (proj2 (Nat.ltb_ge j n) B). reflexivity.
  - unfold S, system. rewrite map_length. fold n. rewrite (proj2 (Nat.ltb_lt j n) B), (proj2 (Nat.ltb_ge i n) A). reflexivity.
  - unfold S, system. rewrite map_length. fold n. rewrite (proj2 (Nat.ltb_ge j n) B), (proj2 (Nat.ltb_ge i n) A). reflexivity.
Qed.
(** With distinct points the system has a solution, even when they are all on one line. *)
Lemma system_solvable ys c : distinct_points d xs -> length ys = n -> exists z, veq (n + d + 1) (mapply (n + d + 1) S z) (right_side ys c).
Proof.
  intros DI LY. apply solvable. intros z Z. assert (V : veq (n + d + 1) (mapply (n + d + 1) S z) (right_side (map (fun _ => vzero) ys) c)).
  { intros r Rr. rewrite (mapply_ext (n + d + 1) (n + d + 1) S (mtr S) z z) by (assumption || apply veq_refl || (intros; unfold mtr; apply system_symmetric; assumption)). rewrite (Z r Rr). unfold right_side. destruct (r <? _)%nat; [|reflexivity].
    clear. unfold vzero. revert r. induction ys as [|y ys IH]; intros [|r]; cbn; try reflexivity. apply IH. }
  apply rows in V; [|rewrite map_length; exact LY]. destruct V as [T B].
  assert (W : veq n z vzero). { apply (definite d xs (fun j => z (n + j)%nat)); [exact D | exact DI | exact B |]. intros k K. rewrite T by exact K. clear. unfold vzero. revert k. induction ys as [|y ys IH]; intros [|k]; cbn; try reflexivity. apply IH. }
  rewrite <- Nat.add_assoc, dot_split, (dot_ext n _ (right_side ys c) z vzero) by (assumption || apply veq_refl). rewrite (dot_ext (d + 1) (fun j => right_side ys c (n + j)%nat) vzero _ (fun j => z (n + j)%nat)).
  - rewrite !dot_sumf, (sumf_ext n _ (fun _ => 0)) by (intros i _; unfold vzero; ring). rewrite (sumf_ext (d + 1) _ (fun _ => 0)) by (intros i _; unfold vzero; ring). rewrite !sumf_zero. ring.
  - intros j J. unfold right_side. rewrite LY, (proj2 (Nat.ltb_ge _ _)) by lia. reflexivity.
  - apply veq_refl.
Qed.
End Rows.

(** ** Interpolation *)
Lemma interpolate_value d solve init s pts : s_solved s = true -> exists out, interpolate d solve init s pts = Ok (s, out) /\ length out = length pts /\
  forall k c, (k < length pts)%nat -> nth k out vzero c = dot (d + 1) (s_affine s c) (homogeneous d (nth k pts vzero)) +
    sumf (length (s_template s)) (fun i => s_warp s c i * kernel d (dot (d + 1) (vsub (nth i (s_template s) vzero) (homogeneous d (nth k pts vzero))) (vsub (nth i (s_template s) vzero) (homogeneous d (nth k pts vzero))))).
Proof.
  intros S. unfold interpolate. rewrite S. cbn [obind]. eexists. split; [reflexivity|]. split; [rewrite map_length, seq_length; reflexivity|]. intros k c K.
  set (g := fun b c => _). rewrite (nth_indep _ vzero (g 0%nat)) by (rewrite map_length, seq_length; exact K). rewrite map_nth, seq_nth by exact K. cbn [Nat.add]. unfold g. rewrite nth_hom by exact K. f_equal. rewrite dot_sumf. apply sumf_ext. intros i I.
  destruct (C109_to_set (d + 1) [] vzero (s_template s) (map (homogeneous d) pts)) as [_ E]. rewrite E by (rewrite ?map_length; assumption). rewrite norm_sq, nth_hom by exact K. reflexivity.
Qed.
Lemma make_solved d solve init aff warp xs ys : xs <> [] -> length ys = length xs -> exists s, make_tps d solve init aff warp xs ys = Ok s /\ s_solved s = true /\ s_template s = map (homogeneous d) xs /\
  s_affine s = (fun c j => solve (length xs + d + 1)%nat (system d init (map (homogeneous d) xs)) (right_side ys c) (length xs + j)%nat) /\
  s_warp s = (fun c i => solve (length xs + d + 1)%nat (system d init (map (homogeneous d) xs)) (right_side ys c) i).
Proof.
  intros NE L. unfold make_tps, solve_coeffs, set_target, set_template, default_tps. cbn [s_template s_target s_affine s_warp]. rewrite !map_length, L, Nat.eqb_refl. destruct xs as [|x xs]; [contradiction|]. cbn [length Nat.ltb Nat.leb orb negb]. eexists. repeat split.
Qed.
(** The spline of distinct template points goes through its targets, and is a thin plate spline everywhere. *)
Theorem C126_interpolates : forall d solve init aff warp xs ys, (d = 2 \/ d = 3)%nat -> solver_contract solve -> xs <> [] -> length ys = length xs -> distinct_points d xs ->
  exists s f, make_tps d solve init aff warp xs ys = Ok s /\ thin_plate d xs f /\ (forall k, (k < length xs)%nat -> veq d (f (nth k xs vzero)) (nth k ys vzero)) /\
    (forall pts, exists out, interpolate d solve init s pts = Ok (s, out) /\ length out = length pts /\ forall k, (k < length pts)%nat -> veq d (nth k out vzero) (f (nth k pts vzero))).
Proof.
  intros d solve init aff warp xs ys D SC NE L DI. destruct (make_solved d solve init aff warp xs ys NE L) as (s & M & SS & ST & SA & SW). set (n := length xs) in *.
  set (z := fun c => solve (n + d + 1)%nat (system d init (map (homogeneous d) xs)) (right_side ys c)). set (f := fun (p : vec) c => spline_form d xs (fun j => z c (n + j)%nat) (z c) p).
  assert (RW : forall c, (forall k, (k < n)%nat -> spline_form d xs (fun j => z c (n + j)%nat) (z c) (nth k xs vzero) = nth k ys vzero c) /\ balanced d xs (z c)).
  { intros c. apply (rows d init xs D ys c (z c) L). apply SC. apply (system_solvable d init xs D ys c DI L). }
  exists s, f. split; [exact M|]. split; [|split].
  - intros c C. exists (fun j => z c (n + j)%nat), (z c). split; [apply RW|reflexivity].
  - intros k K c C. apply RW. exact K.
  - intros pts. destruct (interpolate_value d solve init s pts SS) as (out & I & LO & V). exists out. split; [exact I|]. split; [exact LO|]. intros k K c C. rewrite V by exact K. unfold f, spline_form. rewrite SA, SW, ST, map_length. fold n. fold (z c).
    rewrite hom_dot. f_equal. apply sumf_ext. intros i Hi. f_equal. rewrite nth_hom by exact Hi. rewrite hom_dist, <- norm_sq, (norm_sub_sym d (nth i xs vzero)). apply kernel_bend; [exact D | apply norm_nonneg].
Qed.
Print Assumptions C126_interpolates.

(** Only one thin plate spline goes through given targets, when the template points are distinct and not all on one line (plane). *)
Lemma form_minus d xs a b w v p : spline_form d xs (vsub a b) (vsub w v) p = spline_form d xs a w p - spline_form d xs b v p.
Proof.
  unfold spline_form, vsub at 1 2. change (fun i => a i - b i) with (vsub a b). unfold vsub at 1. rewrite dot_minus_fun_l. rewrite (sumf_ext (length xs) (fun i => (vsub w v) i * _) (fun i => w i * bend d (norm d (vsub p (nth i xs vzero))) + - 1 * (v i * bend d (norm d (vsub p (nth i xs vzero)))))) by (intros i _; unfold vsub at 1; ring).
  rewrite sumf_plus, sumf_scal. ring.
Qed.
Theorem C126_unique : forall d xs f g, (d = 2 \/ d = 3)%nat -> distinct_points d xs -> spanning d xs -> thin_plate d xs f -> thin_plate d xs g ->
  (forall k, (k < length xs)%nat -> veq d (f (nth k xs vzero)) (g (nth k xs vzero))) -> forall p, veq d (f p) (g p).
Proof.
  intros d xs f g D DI SP F G E p c C. destruct (F c C) as (a & w & [W0 W1] & FE). destruct (G c C) as (b & v & [V0 V1] & GE).
  assert (Z : forall k, (k < length xs)%nat -> spline_form d xs (vsub a b) (vsub w v) (nth k xs vzero) = 0) by (intros k K; rewrite form_minus, <- FE, <- GE, (E k K c C); ring).
  assert (B : balanced d xs (vsub w v)).
  { split; [unfold vsub; rewrite (sumf_ext _ _ (fun i => w i + - 1 * v i)) by (intros i _; ring); rewrite sumf_plus, sumf_scal, W0, V0; ring|]. intros l L. rewrite (sumf_ext _ _ (fun i => w i * nth i xs vzero l + - 1 * (v i * nth i xs vzero l))) by (intros i _; unfold vsub; ring). rewrite sumf_plus, sumf_scal, W1, V1 by exact L. ring. }
  pose proof (definite d xs (vsub a b) (vsub w v) D DI B Z) as N.
  assert (NB : forall q, sumf (length xs) (fun i => vsub w v i * bend d (norm d (vsub q (nth i xs vzero)))) = 0) by (intros q; rewrite (sumf_ext _ _ (fun _ => 0)) by (intros i I; rewrite (N i I); unfold vzero; ring); apply sumf_zero).
  assert (A : veq d (vsub a b) vzero /\ vsub a b d = 0). { apply SP. intros k K. specialize (Z k K). unfold spline_form in Z. rewrite NB in Z. lra. }
  destruct A as [A1 A2]. rewrite FE, GE. apply Rminus_diag_uniq. rewrite <- form_minus. unfold spline_form. rewrite NB, A2. rewrite (dot_ext d _ vzero p p) by (exact A1 || apply veq_refl). rewrite dot_sumf, (sumf_ext d _ (fun _ => 0)) by (intros i _; unfold vzero; ring). rewrite sumf_zero. ring.
Qed.
Print Assumptions C126_unique.

(** What a spline gives at [p]: the first point of interpolate on [p] alone. *)
Definition gives (d : nat) (solve : nat -> mat -> vec -> vec) (init aff warp : mat) (xs ys : list vec) (f : vec -> vec) : Prop :=
  exists s, make_tps d solve init aff warp xs ys = Ok s /\
    forall pts, exists out, interpolate d solve init s pts = Ok (s, out) /\ length out = length pts /\ forall k, (k < length pts)%nat -> veq d (nth k out vzero) (f (nth k pts vzero)).
Lemma gives_thin d solve init aff warp xs ys g : (d = 2 \/ d = 3)%nat -> solver_contract solve -> xs <> [] -> length ys = length xs -> distinct_points d xs -> spanning d xs ->
  thin_plate d xs g -> (forall k, (k < length xs)%nat -> veq d (g (nth k xs vzero)) (nth k ys vzero)) -> gives d solve init aff warp xs ys g.
Proof.
  intros D SC NE L DI SP G E. destruct (C126_interpolates d solve init aff warp xs ys D SC NE L DI) as (s & f & M & F & V & I). exists s. split; [exact M|]. intros pts. destruct (I pts) as (out & O & LO & P). exists out. split; [exact O|]. split; [exact LO|].
  intros k K. eapply veq_trans; [apply P, K|]. apply (C126_unique d xs f g D DI SP F G). intros j J. eapply veq_trans; [apply V, J|]. apply veq_sym, E, J.
Qed.

(** Affine maps are reproduced. *)
Theorem C126_affine : forall d solve init aff warp xs ys (A : mat) (t : vec), (d = 2 \/ d = 3)%nat -> solver_contract solve -> xs <> [] -> length ys = length xs -> distinct_points d xs -> spanning d xs ->
  (forall k, (k < length xs)%nat -> veq d (nth k ys vzero) (fun l => mapply d A (nth k xs vzero) l + t l)) ->
  gives d solve init aff warp xs ys (fun p l => mapply d A p l + t l).
Proof.
  intros d solve init aff warp xs ys A t D SC NE L DI SP E. apply gives_thin; try assumption; [|intros k K; apply veq_sym, E, K].
  intros c C. exists (fun j => if (j <? d)%nat then A c j else t c), vzero. split.
  - split; [apply sumf_zero|]. intros l _. rewrite (sumf_ext _ _ (fun _ => 0)) by (intros i _; change (vzero i) with 0; ring). apply sumf_zero.
  - intros p. unfold spline_form. rewrite (sumf_ext _ _ (fun _ => 0)) by (intros i _; change (vzero i) with 0; ring). rewrite sumf_zero, (proj2 (Nat.ltb_ge d d)) by lia. unfold mapply. rewrite (dot_ext d (fun j => if (j <? d)%nat then A c j else t c) (A c) p p); [ring | | apply veq_refl].
    intros i Hi. rewrite (proj2 (Nat.ltb_lt _ _) Hi). reflexivity.
Qed.
Print Assumptions C126_affine.

(** The result is linear in the targets. *)
Theorem C126_linear : forall d solve init aff warp xs ys zs us (al be : R) f g, (d = 2 \/ d = 3)%nat -> solver_contract solve -> xs <> [] -> length ys = length xs -> length zs = length xs -> length us = length xs -> distinct_points d xs -> spanning d xs ->
  (forall k, (k < length xs)%nat -> veq d (nth k us vzero) (fun l => al * nth k ys vzero l + be * nth k zs vzero l)) ->
  gives d solve init aff warp xs ys f -> gives d solve init aff warp xs zs g -> gives d solve init aff warp xs us (fun p l => al * f p l + be * g p l).
Proof.
  intros d solve init aff warp xs ys zs us al be f g D SC NE LY LZ LU DI SP E GY GZ.
  assert (TP : forall ws h, length ws = length xs -> gives d solve init aff warp xs ws h -> thin_plate d xs h /\ forall k, (k < length xs)%nat -> veq d (h (nth k xs vzero)) (nth k ws vzero)).
  { intros ws h LW (s & M & H). destruct (C126_interpolates d solve init aff warp xs ws D SC NE LW DI) as (s' & h' & M' & F & V & I). rewrite M in M'. injection M' as <-.
    assert (EH : forall p, veq d (h p) (h' p)).
    { intros p. destruct (H [p]) as (o1 & O1 & _ & P1). destruct (I [p]) as (o2 & O2 & _ & P2). rewrite O1 in O2. injection O2 as <-. specialize (P1 0%nat ltac:(cbn; lia)). specialize (P2 0%nat ltac:(cbn; lia)). cbn [nth] in P1, P2. eapply veq_trans; [apply veq_sym; exact P1|exact P2]. }
    split; [|intros k K; eapply veq_trans; [apply EH | apply V, K]]. intros c C. destruct (F c C) as (a & w & B & Q). exists a, w. split; [exact B|]. intros p. rewrite (EH p c C). apply Q. }
  destruct (TP ys f LY GY) as [FY VY]. destruct (TP zs g LZ GZ) as [FZ VZ]. apply gives_thin; try assumption.
  - intros c C. destruct (FY c C) as (a & w & [W0 W1] & Q). destruct (FZ c C) as (b & v & [V0 V1] & Q'). exists (fun j => al * a j + be * b j), (fun i => al * w i + be * v i). split.
    + split; [rewrite sumf_plus, !sumf_scal, W0, V0; ring|]. intros l Hl. rewrite (sumf_ext _ _ (fun i => al * (w i * nth i xs vzero l) + be * (v i * nth i xs vzero l))) by (intros i _; ring). rewrite sumf_plus, !sumf_scal, W1, V1 by exact Hl. ring.
    + intros p. rewrite Q, Q'. unfold spline_form. rewrite dot_plus_fun_l, !dot_scale_fun_l.
      rewrite (sumf_ext (length xs) (fun i => (al * w i + be * v i) * _) (fun i => al * (w i * bend d (norm d (vsub p (nth i xs vzero)))) + be * (v i * bend d (norm d (vsub p (nth i xs vzero)))))) by (intros i _; ring). rewrite sumf_plus, !sumf_scal. ring.
  - intros k K c C. rewrite (E k K c C), (VY k K c C), (VZ k K c C). reflexivity.
Qed.
Print Assumptions C126_linear.

(** Moving, turning, reflecting or scaling the template and the points alike changes nothing. *)
Record similarity (d : nat) (k : R) (A : mat) (t : vec) (T : vec -> vec) : Prop := {
  sim_scale : 0 < k;
  sim_affine : forall p, veq d (T p) (fun l => mapply d A p l + t l);
  sim_distance : forall p q, norm d (vsub (T p) (T q)) = k * norm d (vsub p q) }.
Lemma sum_sq d xs w p : balanced d xs w -> sumf (length xs) (fun i => w i * (norm d (vsub p (nth i xs vzero)) * norm d (vsub p (nth i xs vzero)))) = sumf (length xs) (fun i => w i * dot d (nth i xs vzero) (nth i xs vzero)).
Proof.
  intros [M0 M1]. rewrite (sumf_ext _ _ (fun i => w i * dot d (nth i xs vzero) (nth i xs vzero) + (dot d p p * w i + - 2 * (w i * dot d p (nth i xs vzero))))).
  - rewrite !sumf_plus, !sumf_scal, M0, (sumf_dot _ _ (fun i => nth i xs vzero)). rewrite (dot_ext d p p (fun l => sumf (length xs) (fun i => w i * nth i xs vzero l)) vzero) by (intros l Hl; first [reflexivity | apply M1, Hl]). rewrite Rmult_0_r, (dot_sumf d p vzero), (sumf_ext d _ (fun _ => 0)) by (intros l _; change (vzero l) with 0; ring). rewrite sumf_zero. ring.
  - intros i _. rewrite norm_sq. pose proof (sq_expand d (fun b => if (b =? 0)%nat then p else nth i xs vzero) 0 1) as S. cbn [Nat.eqb] in S. unfold sq in S. cbn [Nat.eqb] in S. rewrite S. ring.
Qed.
Lemma nth_map_T (T : vec -> vec) xs i : (i < length xs)%nat -> nth i (map T xs) vzero = T (nth i xs vzero).
Proof. intros H. rewrite (nth_indep _ vzero (T vzero)) by (rewrite map_length; exact H). apply map_nth. Qed.
Lemma thin_similar d k A t T xs f : (d = 2 \/ d = 3)%nat -> similarity d k A t T -> thin_plate d (map T xs) f -> (forall p q c, (c < d)%nat -> veq d p q -> f p c = f q c) -> thin_plate d xs (fun p => f (T p)).
Proof.
  intros D [K TA TD] F EX c C. destruct (F c C) as (a & w & [W0 W1] & Q). rewrite map_length in W0, W1.
  assert (B : balanced d xs w).
  { split; [exact W0|]. set (v := fun l => sumf (length xs) (fun i => w i * nth i xs vzero l)). enough (V : veq d v vzero) by (intros l Hl; apply V, Hl).
    assert (AV : veq d (mapply d A v) vzero).
    { intros l Hl. unfold mapply, v. rewrite <- (sumf_dot (length xs) w (fun i => nth i xs vzero)). specialize (W1 l Hl). rewrite (sumf_ext _ _ (fun i => w i * dot d (A l) (nth i xs vzero) + w i * t l)) in W1.
      - rewrite sumf_plus, sumf_scal_r, W0 in W1. change (vzero l) with 0. lra.
      - intros i Hi. rewrite nth_map_T by exact Hi. rewrite (TA (nth i xs vzero) l Hl). unfold mapply. ring. }
    pose proof (TD v vzero) as N. rewrite (proj2 (norm_zero d (vsub (T v) (T vzero)))) in N.
    - assert (Z : norm d (vsub v vzero) = 0) by nra. apply norm_zero in Z. intros l Hl. specialize (Z l Hl). unfold vsub in Z. change (vzero l) with 0 in *. lra.
    - intros l Hl. unfold vsub. rewrite (TA v l Hl), (TA vzero l Hl). rewrite (AV l Hl). unfold mapply. rewrite dot_sumf, (sumf_ext d _ (fun _ => 0)) by (intros i _; change (vzero i) with 0; ring). rewrite sumf_zero. change (vzero l) with 0. ring. }
  set (r := fun p i => norm d (vsub p (nth i xs vzero))). set (m := sumf (length xs) (fun i => w i * dot d (nth i xs vzero) (nth i xs vzero))).
  set (k2 := if (d =? 2)%nat then k * k else k). set (extra := if (d =? 2)%nat then 2 * (k * k) * ln k * m else 0).
  assert (BK : forall p, sumf (length xs) (fun i => w i * bend d (k * r p i)) = k2 * sumf (length xs) (fun i => w i * bend d (r p i)) + extra).
  { intros p. unfold k2, extra. destruct (d =? 2)%nat eqn:D2.
    - unfold m. rewrite <- (sum_sq d xs w p B), <- !sumf_scal, <- sumf_plus. apply sumf_ext. intros i _. fold (r p i). assert (0 <= r p i) by apply norm_nonneg. unfold bend. rewrite D2. destruct (Req_EM_T (r p i) 0) as [Z|NZ].
      + rewrite Z, Rmult_0_r. destruct (Req_EM_T 0 0); [ring|lra].
      + destruct (Req_EM_T (k * r p i) 0); [nra|]. rewrite ln_mult by lra. ring.
    - rewrite Rplus_0_r, <- sumf_scal. apply sumf_ext. intros i _. assert (0 <= r p i) by apply norm_nonneg. unfold bend. rewrite D2. destruct (Req_EM_T (r p i) 0) as [Z|NZ].
      + rewrite Z, Rmult_0_r. destruct (Req_EM_T 0 0); [ring|lra].
      + destruct (Req_EM_T (k * r p i) 0); [nra|]. ring. }
  exists (fun j => if (j <? d)%nat then mapply d (mtr A) a j else dot d a t + a d + extra), (fun i => k2 * w i). split.
  - destruct B as [B0 B1]. split; [rewrite sumf_scal, B0; ring|]. intros l Hl. rewrite (sumf_ext _ _ (fun i => k2 * (w i * nth i xs vzero l))) by (intros i _; ring). rewrite sumf_scal, (B1 l Hl). ring.
  - intros p. rewrite Q. unfold spline_form. rewrite map_length. rewrite (proj2 (Nat.ltb_ge d d)) by lia.
    rewrite (sumf_ext (length xs) (fun i => w i * bend d (norm d (vsub (T p) (nth i (map T xs) vzero)))) (fun i => w i * bend d (k * r p i))) by (intros i Hi; rewrite nth_map_T by exact Hi; rewrite TD; reflexivity).
    rewrite BK. rewrite (sumf_ext (length xs) (fun i => k2 * w i * _) (fun i => k2 * (w i * bend d (r p i)))) by (intros i _; unfold r; ring). rewrite sumf_scal.
    rewrite (dot_ext d (fun j => if (j <? d)%nat then mapply d (mtr A) a j else _) (mapply d (mtr A) a) p p) by first [apply veq_refl | intros i Hi; rewrite (proj2 (Nat.ltb_lt _ _) Hi); reflexivity].
    rewrite (dot_ext d a a (T p) (fun l => mapply d A p l + t l)) by (apply veq_refl || apply TA). rewrite dot_plus_fun_r. rewrite (dot_comm d a (mapply d A p)), adjoint, (dot_comm d p). ring.
Qed.
Theorem C126_similar : forall d solve init aff warp xs ys k A t T f, (d = 2 \/ d = 3)%nat -> solver_contract solve -> xs <> [] -> length ys = length xs -> distinct_points d xs -> spanning d xs -> similarity d k A t T ->
  gives d solve init aff warp (map T xs) ys f -> gives d solve init aff warp xs ys (fun p => f (T p)).
Proof.
  intros d solve init aff warp xs ys k A t T f D SC NE L DI SP SI (s & M & H). assert (NT : map T xs <> []) by (destruct xs; [contradiction|discriminate]).
  assert (DT : distinct_points d (map T xs)).
  { intros i j IJ V. rewrite map_length in IJ. rewrite !nth_map_T in V by lia. apply (DI i j IJ). pose proof (sim_distance _ _ _ _ _ SI (nth i xs vzero) (nth j xs vzero)) as E. rewrite (proj2 (norm_zero d _)) in E by (intros l Hl; unfold vsub; rewrite (V l Hl); change (vzero l) with 0; ring).
    pose proof (sim_scale _ _ _ _ _ SI). assert (Z : norm d (vsub (nth i xs vzero) (nth j xs vzero)) = 0) by nra. apply norm_zero in Z. intros l Hl. specialize (Z l Hl). unfold vsub in Z. change (vzero l) with 0 in Z. lra. }
  destruct (C126_interpolates d solve init aff warp (map T xs) ys D SC NT ltac:(rewrite map_length; exact L) DT) as (s' & g & M' & F & V & I). rewrite M in M'. injection M' as <-.
  assert (EF : forall p, veq d (f p) (g p)).
  { intros p. destruct (H [p]) as (o1 & O1 & _ & P1). destruct (I [p]) as (o2 & O2 & _ & P2). rewrite O1 in O2. injection O2 as <-. specialize (P1 0%nat ltac:(cbn; lia)). specialize (P2 0%nat ltac:(cbn; lia)). cbn [nth] in P1, P2. eapply veq_trans; [apply veq_sym; exact P1|exact P2]. }
  assert (FX : forall p q c, (c < d)%nat -> veq d p q -> g p c = g q c).
  { intros p q c C E. destruct (F c C) as (a & w & _ & Q). rewrite !Q. unfold spline_form. rewrite (dot_ext d a a p q) by (apply veq_refl || exact E). f_equal. apply sumf_ext. intros i _. f_equal. f_equal. apply norm_ext. intros l Hl. unfold vsub. rewrite (E l Hl). reflexivity. }
  assert (G : gives d solve init aff warp xs ys (fun p => g (T p))).
  { apply gives_thin; try assumption; [apply (thin_similar d k A t T xs g D SI F FX)|]. intros j J. rewrite <- nth_map_T by exact J. apply V. rewrite map_length. exact J. }
  destruct G as (s2 & M2 & H2). exists s2. split; [exact M2|]. intros pts. destruct (H2 pts) as (out & O & LO & P). exists out. split; [exact O|]. split; [exact LO|]. intros j J. eapply veq_trans; [apply P, J|]. apply veq_sym, EF.
Qed.
Print Assumptions C126_similar.

(** ** Errors and laziness *)
(** Solving, and so the constructor and interpolate on an unsolved spline, refuse exactly empty sets and sets of different sizes. *)
Theorem C126_errors : forall d solve init aff warp xs ys,
  (xs = [] \/ ys = [] \/ length xs <> length ys -> make_tps d solve init aff warp xs ys = Throw InvalidArgument /\
     forall pts, interpolate d solve init (set_target ys (set_template d xs (default_tps aff warp))) pts = Throw InvalidArgument) /\
  (xs <> [] -> length xs = length ys -> exists s, make_tps d solve init aff warp xs ys = Ok s).
Proof.
  intros d solve init aff warp xs ys. split.
  - intros H. assert (E : make_tps d solve init aff warp xs ys = Throw InvalidArgument).
    { unfold make_tps, solve_coeffs, set_target, set_template. cbn [s_template s_target]. rewrite map_length. destruct xs as [|x xs]; [reflexivity|]. destruct ys as [|y ys]; [reflexivity|]. cbn [length Nat.ltb Nat.leb orb]. destruct H as [H|[H|H]]; [discriminate..|]. apply Nat.eqb_neq in H. cbn [length] in H. rewrite H. reflexivity. }
    split; [exact E|]. intros pts. unfold interpolate. cbn [s_solved set_target]. unfold make_tps in E. rewrite E. reflexivity.
  - intros NE L. destruct (make_solved d solve init aff warp xs ys NE (eq_sym L)) as (s & M & _). exists s. exact M.
Qed.
Print Assumptions C126_errors.

(** Calls on a spline; a call that throws leaves it as it was. *)
Inductive call := SetTemplate (points : list vec) | SetTarget (points : list vec) | Solve | Interpolate (points : list vec).
Definition after (d : nat) (solve : nat -> mat -> vec -> vec) (init : mat) (s : tps) (c : call) : tps :=
  match c with
  | SetTemplate p => set_template d p s
  | SetTarget p => set_target p s
  | Solve => match solve_coeffs d solve init s with Ok s' => s' | _ => s end
  | Interpolate p => match interpolate d solve init s p with Ok (s', _) => s' | _ => s end
  end.
Fixpoint last_template (acc : list vec) (cs : list call) : list vec := match cs with [] => acc | SetTemplate p :: cs => last_template p cs | _ :: cs => last_template acc cs end.
Fixpoint last_target (acc : list vec) (cs : list call) : list vec := match cs with [] => acc | SetTarget p :: cs => last_target p cs | _ :: cs => last_target acc cs end.
Definition result {A B} (o : outcome (A * B)) : outcome B := let! p := o in Ok (snd p).
(** Whatever was called before, interpolate gives what a spline made of the template and target points set last gives. *)
Theorem C126_history : forall d solve init aff warp aff' warp' cs pts, let s := fold_left (after d solve init) cs (default_tps aff warp) in
  result (interpolate d solve init s pts) = result (let! s0 := make_tps d solve init aff' warp' (last_template [] cs) (last_target [] cs) in interpolate d solve init s0 pts).
Proof.
  intros d solve init aff warp aff' warp' cs pts s.
  set (ok := fun (tm tg : list vec) (s : tps) => s_template s = map (homogeneous d) tm /\ s_target s = tg /\ (s_solved s = true -> make_tps d solve init aff' warp' tm tg = Ok s)).
  assert (SV : forall tm tg s, s_template s = map (homogeneous d) tm -> s_target s = tg -> solve_coeffs d solve init s = make_tps d solve init aff' warp' tm tg).
  { intros tm tg s0 E1 E2. unfold make_tps, solve_coeffs, set_target, set_template. cbn [s_template s_target]. rewrite E1, E2. reflexivity. }
  assert (MS : forall tm tg s, make_tps d solve init aff' warp' tm tg = Ok s -> s_template s = map (homogeneous d) tm /\ s_target s = tg /\ s_solved s = true).
  { intros tm tg s0 M. unfold make_tps, solve_coeffs, set_target, set_template in M. cbn [s_template s_target] in M. destruct (_ || _); [discriminate|]. destruct (negb _); [discriminate|]. injection M as <-. repeat split. }
  assert (INV : ok (last_template [] cs) (last_target [] cs) s).
  { unfold s. assert (I0 : ok [] [] (default_tps aff warp)) by (split; [reflexivity|split; [reflexivity|discriminate]]). revert I0. generalize (default_tps aff warp) as s0. generalize (@nil vec) at 1 3 as tm. generalize (@nil vec) as tg. induction cs as [|c cs IH]; intros tg tm s0 O; [exact O|].
    destruct O as (O1 & O2 & O3). destruct c; cbn [fold_left after last_template last_target]; apply IH.
    - split; [reflexivity|split; [exact O2|discriminate]].
    - split; [exact O1|split; [reflexivity|discriminate]].
    - rewrite (SV tm tg s0 O1 O2). destruct (make_tps d solve init aff' warp' tm tg) eqn:M; try (split; [exact O1|split; [exact O2|intros Q; specialize (O3 Q); discriminate]]). destruct (MS _ _ _ M) as (Q1 & Q2 & Q3). split; [exact Q1|split; [exact Q2|intros _; exact M]].
    - unfold interpolate. destruct (s_solved s0) eqn:SS; cbn [obind]; [split; [exact O1|split; [exact O2|intros _; apply O3; reflexivity]]|]. rewrite (SV tm tg s0 O1 O2). destruct (make_tps d solve init aff' warp' tm tg) eqn:M; cbn [obind]; try (split; [exact O1|split; [exact O2|rewrite SS; discriminate]]). destruct (MS _ _ _ M) as (Q1 & Q2 & Q3). split; [exact Q1|split; [exact Q2|intros _; exact M]]. }
  destruct INV as (O1 & O2 & O3). destruct (s_solved s) eqn:SS.
  - rewrite (O3 eq_refl). cbn [obind]. reflexivity.
  - unfold interpolate at 1. rewrite SS, (SV _ _ _ O1 O2). destruct (make_tps d solve init aff' warp' (last_template [] cs) (last_target [] cs)) eqn:M; cbn [obind]; try reflexivity. destruct (MS _ _ _ M) as (_ & _ & Q3). unfold interpolate. rewrite Q3. reflexivity.
Qed.
Print Assumptions C126_history.

(** ** What does not hold *)
(** A repeated template point with two targets is accepted, and one of the targets is missed, whatever the solver does. *)
Theorem C126_repeated_refuted : forall solve init aff warp, exists xs ys s, length xs = length ys /\ make_tps 2 solve init aff warp xs ys = Ok s /\
  forall out, interpolate 2 solve init s xs = Ok (s, out) -> exists k, (k < length xs)%nat /\ ~ veq 2 (nth k out vzero) (nth k ys vzero).
Proof.
  intros solve init aff warp. exists [vzero; vzero], [vzero; fun _ => 1]. destruct (make_solved 2 solve init aff warp [vzero; vzero] [vzero; fun _ => 1]) as (s & M & SS & _); [discriminate|reflexivity|]. exists s. split; [reflexivity|]. split; [exact M|]. intros out O.
  destruct (interpolate_value 2 solve init s [vzero; vzero] SS) as (out' & O' & _ & V). rewrite O in O'. injection O' as <-. destruct (Req_dec (nth 0 out vzero 0%nat) 0) as [E|N].
  - exists 1%nat. split; [cbn; lia|]. intros Q. specialize (Q 0%nat ltac:(lia)). rewrite (V 1%nat 0%nat) in Q by (cbn; lia). rewrite (V 0%nat 0%nat) in E by (cbn; lia). cbn [nth] in Q, E. rewrite Q in E. cbn in E. lra.
  - exists 0%nat. split; [cbn; lia|]. intros Q. apply N. rewrite (Q 0%nat) by lia. reflexivity.
Qed.
Print Assumptions C126_repeated_refuted.
(** Template points on one line (here: one point) do not determine the affine part: a translation of the template need not translate other points.
    The solver here, like Eigen's, gives columns of zeros the coefficient zero. *)
Theorem C126_line_refuted : exists solve xs ys t p, solver_contract solve /\ distinct_points 2 xs /\ (forall k, (k < length xs)%nat -> veq 2 (nth k ys vzero) (vadd (nth k xs vzero) t)) /\
  forall init aff warp, exists s out, make_tps 2 solve init aff warp xs ys = Ok s /\ interpolate 2 solve init s [p] = Ok (s, out) /\ ~ veq 2 (nth 0 out vzero) (vadd p t).
Proof.
  exists project_solve, [vzero], [fun _ => 1], (fun _ => 1), (fun _ => 1). split; [intros n A b; apply project_solves|]. split; [intros i j IJ; cbn in IJ; lia|]. split.
  { intros k K l _. cbn in K. replace k with 0%nat by lia. cbn [nth]. unfold vadd. change (vzero l) with 0. ring. }
  intros init aff warp. destruct (make_solved 2 project_solve init aff warp [vzero] [fun _ => 1]) as (s & M & SS & ST & SA & SW); [discriminate|reflexivity|]. destruct (interpolate_value 2 project_solve init s [fun _ => 1] SS) as (out & O & _ & V). exists s, out. split; [exact M|]. split; [exact O|].
  intros Q. specialize (Q 0%nat ltac:(lia)). rewrite (V 0%nat 0%nat) in Q by (cbn; lia). rewrite SA, SW, ST in Q. set (z := project_solve (length [vzero] + 2 + 1)%nat (system 2 init (map (homogeneous 2) [vzero])) (right_side [fun _ => 1] 0)) in *.
  assert (D2 : (2 = 2 \/ 2 = 3)%nat) by (left; reflexivity). assert (DI : distinct_points 2 [vzero]) by (intros i j IJ; cbn in IJ; lia).
  assert (R : (forall k, (k < 1)%nat -> spline_form 2 [vzero] (fun j => z (1 + j)%nat) z (nth k [vzero] vzero) = nth k [fun _ : nat => 1] vzero 0%nat) /\ balanced 2 [vzero] z).
  { apply (rows 2 init [vzero] D2 [fun _ => 1] 0%nat z eq_refl). apply project_solves. apply (system_solvable 2 init [vzero] D2 [fun _ => 1] 0%nat DI eq_refl). }
  destruct R as [T [M0 M1]]. assert (Z0 : z 0%nat = 0) by (unfold sumf in M0; cbn in M0; lra).
  assert (ZC : forall j, (j = 1 \/ j = 2)%nat -> z j = 0).
  { intros j J. apply project_zero; [cbn; lia|]. intros i Hi. destruct J as [->| ->]; unfold system; cbn [map length]; destruct i as [|[|[|[|i]]]]; try reflexivity; cbn in Hi; lia. }
  specialize (T 0%nat ltac:(lia)). unfold spline_form, sumf in T. cbn [nth length dot] in T. rewrite Z0 in T. change (1 + 0)%nat with 1%nat in T. change (1 + 1)%nat with 2%nat in T. change (1 + 2)%nat with 3%nat in T. rewrite (ZC 1%nat), (ZC 2%nat) in T by lia.
  rewrite hom_dot in Q. unfold sumf in Q. cbn [map length dot] in Q. change (1 + 0)%nat with 1%nat in Q. change (1 + 1)%nat with 2%nat in Q. change (1 + 2)%nat with 3%nat in Q. rewrite Z0, (ZC 1%nat), (ZC 2%nat) in Q by lia. unfold vadd in Q. lra.
Qed.
Print Assumptions C126_line_refuted.

(** Three points of the plane meet the hypotheses, and a solver with the contract exists. *)
Example tps_case : let e := fun i k => if (k =? i)%nat then 1 else 0 in let xs := [vzero; e 0%nat; e 1%nat] in solver_contract project_solve /\ distinct_points 2 xs /\ spanning 2 xs.
Proof.
  cbv zeta. set (e := fun i k => if (k =? i)%nat then 1 else 0). split; [intros n A b; apply project_solves|]. split.
  - intros i j IJ V. cbn [length] in IJ. destruct i as [|[|[|i]]], j as [|[|[|j]]]; try lia; cbn [nth] in V; pose proof (V 0%nat ltac:(lia)) as V0; pose proof (V 1%nat ltac:(lia)) as V1; unfold e in V0, V1; cbn in V0, V1; change (vzero 0%nat) with 0 in V0; change (vzero 1%nat) with 0 in V1; lra.
  - intros a b H. pose proof (H 0%nat ltac:(cbn; lia)) as H0. pose proof (H 1%nat ltac:(cbn; lia)) as H1. pose proof (H 2%nat ltac:(cbn; lia)) as H2. cbn [nth dot] in H0, H1, H2. unfold e in H1, H2. cbn in H1, H2. unfold vzero in H0. split; [|lra]. intros i Hi. change (vzero i) with 0. destruct i as [|[|i]]; [lra..|lia].
Qed.
(** A quarter turn with scaling by 2 and a shift is a similarity. *)
Example similarity_case : let A := fun i j => if (i =? 0)%nat then (if (j =? 1)%nat then - 2 else 0) else (if (j =? 0)%nat then 2 else 0) in similarity 2 2 A (fun _ => 5) (fun p l => mapply 2 A p l + 5).
Proof.
  cbv zeta. set (A := fun i j => _). split; [lra | intros p l _; reflexivity |]. intros p q. apply norm_unique; [apply Rmult_le_pos; [lra|apply norm_nonneg]|]. replace (2 * norm 2 (vsub p q) * (2 * norm 2 (vsub p q))) with (4 * (norm 2 (vsub p q) * norm 2 (vsub p q))) by ring. rewrite norm_sq. unfold mapply, vsub, A. cbn. ring.
Qed.
