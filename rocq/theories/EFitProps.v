(** C112, C113: averages of quaternions and planes fitted to points, over the real numbers. *)
From Coq Require Import Reals List Lra Lia Bool ZArith.
From Verif Require Import Base MathModel MathProps TotpModel TotpVec EVecModel EVecProps EAngleProps ELinModel ELinProps.
Import ListNotations.
Open Scope R_scope.

(** ** A square matrix with orthonormal columns has orthonormal rows *)
Definition complete (n k : nat) (U : mat) : Prop := forall v, veq n (mapply k U (mapply n (mtr U) v)) v.
Definition sumf (n : nat) (f : vec) : R := dot n f (fun _ => 1).
Lemma sumf_swap m n (A : mat) : sumf m (fun i => sumf n (A i)) = sumf n (fun j => sumf m (fun i => A i j)).
Proof. unfold sumf. pose proof (adjoint m n A (fun _ => 1) (fun _ => 1)) as E. rewrite (dot_comm n (fun _ => 1)) in E. exact E. Qed.
Lemma sumf_nonneg_zero n f : (forall i, (i < n)%nat -> 0 <= f i) -> sumf n f = 0 -> forall i, (i < n)%nat -> f i = 0.
Proof.
  unfold sumf. induction n as [|n IH]; intros P Z i Hi; [lia|]. cbn [dot] in Z. assert (0 <= dot n f (fun _ => 1)).
  { assert (G : forall k, (k <= n)%nat -> 0 <= dot k f (fun _ => 1)) by (induction k as [|k IHk]; intros K; cbn [dot]; [lra|]; specialize (IHk ltac:(lia)); specialize (P k ltac:(lia)); lra). apply G. lia. }
  pose proof (P n ltac:(lia)). destruct (Nat.eq_dec i n) as [->|D]; [lra|]. apply IH; [intros; apply P; lia | lra | lia].
Qed.
Lemma sumf_const n : sumf n (fun _ => 1) = INR n.
Proof. unfold sumf. induction n as [|n IH]; [reflexivity|]. rewrite S_INR. cbn [dot]. rewrite IH. ring. Qed.
Lemma sumf_S n f : sumf (S n) f = sumf n f + f n.
Proof. unfold sumf. cbn [dot]. ring. Qed.
Lemma sumf_ext n f g : veq n f g -> sumf n f = sumf n g.
Proof. intros E. apply dot_ext; [exact E | apply veq_refl]. Qed.
Lemma dot_sumf n u v : dot n u v = sumf n (fun l => u l * v l).
Proof. unfold sumf. induction n as [|n IH]; [reflexivity|]. cbn [dot]. rewrite IH. ring. Qed.
Lemma bessel n k U v : orthonormal n k U -> let w := vsub v (mapply k U (mapply n (mtr U) v)) in dot n w w = dot n v v - dot k (mapply n (mtr U) v) (mapply n (mtr U) v).
Proof.
  intros O. cbv zeta. set (z := mapply n (mtr U) v). assert (A : dot n v (mapply k U z) = dot k z z) by (rewrite dot_comm, adjoint; reflexivity).
  assert (B : dot n (mapply k U z) (mapply k U z) = dot k z z) by (rewrite adjoint; apply dot_ext; [apply veq_refl | apply ortho_apply; exact O]).
  dots. rewrite (dot_comm n (mapply k U z) v), A, B. ring.
Qed.
Lemma square_complete n U : orthonormal n n U -> complete n n U.
Proof.
  intros O. set (gap := fun i => 1 - sumf n (fun l => U i l * U i l)).
  assert (E : forall i l, (i < n)%nat -> mapply n (mtr U) (basis i) l = U i l).
  { intros i l Hi. unfold mapply, mtr. rewrite dot_comm. change (basis i) with (fun j => if (j =? i)%nat then 1 else 0). rewrite (dot_ext n _ (mid i) _ (fun k => U k l)) by (try apply veq_refl; intros j _; unfold mid; rewrite (Nat.eqb_sym j i); reflexivity).
    pose proof (mapply_id n (fun k => U k l) i Hi) as M. exact M. }
  assert (W : forall i, (i < n)%nat -> let w := vsub (basis i) (mapply n U (mapply n (mtr U) (basis i))) in dot n w w = gap i).
  { intros i Hi. cbv zeta. rewrite (bessel n n U (basis i) O). unfold gap, sumf. f_equal.
    - rewrite (dot_ext n (basis i) (mid i) (basis i) (basis i)) by (try apply veq_refl; intros j _; unfold mid, basis; rewrite (Nat.eqb_sym j i); reflexivity). pose proof (mapply_id n (basis i) i Hi) as M. unfold mapply in M. rewrite M. unfold basis. rewrite Nat.eqb_refl. reflexivity.
    - rewrite (dot_ext n _ (U i) _ (U i)) by (intros l _; apply E; exact Hi). apply dot_sumf. }
  assert (S : sumf n gap = 0).
  { unfold gap. assert (D : forall m, sumf m (fun i => 1 - sumf n (fun l => U i l * U i l)) = INR m - sumf m (fun i => sumf n (fun l => U i l * U i l))).
    { induction m as [|m IH]; [cbn; unfold sumf; cbn [dot]; ring|]. rewrite S_INR, !sumf_S, IH. ring. }
    rewrite D, (sumf_swap n n (fun i l => U i l * U i l)).
    assert (C : sumf n (fun l => sumf n (fun i => U i l * U i l)) = INR n). { rewrite <- sumf_const. apply sumf_ext. intros l Hl. transitivity (dot n (fun i => U i l) (fun i => U i l)).
      - symmetry. apply dot_sumf.
      - rewrite (O l l Hl Hl). unfold mid. rewrite Nat.eqb_refl. reflexivity. }
    rewrite C. ring. }
  assert (G : forall i, (i < n)%nat -> gap i = 0). { apply sumf_nonneg_zero; [|exact S]. intros i Hi. rewrite <- (W i Hi). apply dot_self_nonneg. }
  intros v i Hi. rewrite <- mapply_mmul. transitivity (mapply n mid v i); [|apply mapply_id; exact Hi]. unfold mapply at 1 2. apply dot_ext; [|apply veq_refl]. intros j Hj.
  specialize (W j Hj). cbv zeta in W. rewrite (G j Hj) in W. apply (proj1 (dot_self_zero n _)) in W. specialize (W i Hi). unfold vsub, vzero in W.
  assert (X : mapply n U (mapply n (mtr U) (basis j)) i = mmul n U (mtr U) i j). { unfold mapply at 1, mmul. apply dot_ext; [apply veq_refl|]. intros l _. rewrite E by exact Hj. reflexivity. }
  rewrite X in W. unfold basis in W. unfold mid. lra.
Qed.

(** ** C113 *)
Lemma least_index_spec s : forall k, (0 < k)%nat -> exists b, least_index s k = Some b /\ (b < k)%nat /\ forall l, (l < k)%nat -> s b <= s l.
Proof.
  induction k as [|k IH]; intros K; [lia|]. cbn [least_index]. destruct k as [|k]; [exists O; cbn; split; [reflexivity|]; split; [lia|]; intros l Hl; replace l with O by lia; lra|].
  destruct IH as (b & E & B & M); [lia|]. rewrite E. destruct (Rltb (s (S k)) (s b)) eqn:C.
  - apply Rltb_true in C. exists (S k). split; [reflexivity|]. split; [lia|]. intros l Hl. destruct (Nat.eq_dec l (S k)) as [->|D]; [lra|]. specialize (M l ltac:(lia)). lra.
  - apply Rltb_false in C. exists b. split; [reflexivity|]. split; [lia|]. intros l Hl. destruct (Nat.eq_dec l (S k)) as [->|D]; [lra|]. apply M. lia.
Qed.
(** The sum of the squared distances of the points to the plane. *)
Definition misfit (n : nat) (points : list vec) (h : hyperplane) : R := Rsum (map (fun p => plane_distance n h p * plane_distance n h p) points).
Lemma Rsum_index f (points : list vec) : Rsum (map f points) = sumf (length points) (fun i => f (nth i points vzero)).
Proof.
  induction points as [|p points IH] using rev_ind; [reflexivity|]. rewrite map_app. assert (A : forall a b, Rsum (a ++ b) = Rsum a + Rsum b) by (unfold Rsum; induction a as [|x a IHa]; intros b; cbn; [ring|rewrite IHa; ring]). rewrite A, IH, app_length. cbn [length map]. rewrite Nat.add_1_r. unfold sumf. cbn [dot].
  rewrite app_nth2, Nat.sub_diag by lia. cbn [nth]. unfold Rsum. cbn [fold_right]. rewrite Rplus_0_r, Rmult_1_r. f_equal. apply dot_ext; [|apply veq_refl]. intros i Hi. rewrite app_nth1 by exact Hi. reflexivity.
Qed.
Lemma distance2_formula n o v p : 0 < dot n v v -> plane_distance n (mkH o v) p * plane_distance n (mkH o v) p = dot n v (vsub p o) * dot n v (vsub p o) / dot n v v.
Proof.
  intros V. unfold plane_distance. cbn [h_origin h_normal]. rewrite norm_sq. unfold projection. rewrite (proj2 (Rltb_true _ _) V). rewrite dot_scale_l, dot_scale_r. field. lra.
Qed.
Theorem C113_fit_plane dbg svd n points : (forall M, svd_contract n (length points) M (svd n (length points) M)) -> (0 < n)%nat -> points <> [] ->
  exists h, fit_plane dbg svd n points = Ok h /\ norm n (h_normal h) = 1 /\
    (forall i, h_origin h i = Rsum (map (fun p => p i) points) / INR (length points)) /\
    forall o v, ~ veq n v vzero -> misfit n points h <= misfit n points (mkH o v).
Proof.
  intros SV N NE. destruct (C107_mean dbg points NE) as (c & EC & MC). unfold fit_plane. rewrite EC. cbn [obind]. set (A := fun i idx => vsub (nth idx points vzero) c i).
  specialize (SV A). set (d := svd n (length points) A) in *. set (N' := length points) in *. assert (NP : (0 < N')%nat) by (unfold N'; destruct points; [contradiction|cbn; lia]).
  destruct SV as [OU OV SS EA]. set (k := Nat.min n N') in *. destruct (least_index_spec (svd_s d) k ltac:(lia)) as (b & EB & B & MB). rewrite EB.
  set (u := fun i => svd_u d i b). assert (U1 : dot n u u = 1) by (unfold u; rewrite (OU b b B B); unfold mid; rewrite Nat.eqb_refl; reflexivity).
  assert (NU : norm n u = 1) by (apply norm_unique; lra). assert (EPS : eps < 1). { unfold eps. rewrite <- Rinv_1. apply Rinv_lt_contravar; [|apply Rlt_pow_R1; [lra|lia]]. rewrite Rmult_1_l. apply pow_lt. lra. }
  assert (SN : veq n (safe_normal n u) u). { intros i _. unfold safe_normal. rewrite NU, (proj2 (Rltb_true _ _) EPS). field. }
  eexists. split; [reflexivity|]. cbn [h_normal h_origin]. split; [rewrite (norm_ext n _ _ SN); exact NU|]. split; [exact MC|]. intros o v NZ.
  (* the squared distances as a quadratic form *)
  assert (Q : forall v, sumf N' (fun i => dot n v (vsub (nth i points vzero) c) * dot n v (vsub (nth i points vzero) c)) = dot N' (mapply n (mtr A) v) (mapply n (mtr A) v)).
  { intros x. set (g := fun i => dot n x (vsub (nth i points vzero) c)). transitivity (dot N' g g).
    - symmetry. apply dot_sumf.
    - apply dot_ext; intros i _; unfold g, mapply, mtr; apply dot_comm. }
  assert (AT : forall v, veq N' (mapply n (mtr A) v) (mapply k (svd_v d) (vmul (svd_s d) (mapply n (mtr (svd_u d)) v)))).
  { intros x j Hj. rewrite <- usv_apply. apply (mapply_ext N' n (mtr A) (mmul k (fun i l => svd_v d i l * svd_s d l) (mtr (svd_u d))) x x); [|apply veq_refl|exact Hj].
    intros a i Ha Hi. unfold mtr at 1. rewrite (EA i a Hi Ha). unfold mmul, mtr. clear. induction k as [|k IH]; [reflexivity|]. cbn [dot]. rewrite IH. ring. }
  assert (FORM : forall v, dot N' (mapply n (mtr A) v) (mapply n (mtr A) v) = dot k (vmul (svd_s d) (mapply n (mtr (svd_u d)) v)) (vmul (svd_s d) (mapply n (mtr (svd_u d)) v))).
  { intros x. rewrite (dot_ext N' _ _ _ _ (AT x) (AT x)). rewrite adjoint. apply dot_ext; [apply veq_refl | apply ortho_apply; exact OV]. }
  assert (COST : misfit n points (mkH c (safe_normal n u)) = svd_s d b * svd_s d b).
  { unfold misfit. rewrite Rsum_index. fold N'. transitivity (sumf N' (fun i => dot n u (vsub (nth i points vzero) c) * dot n u (vsub (nth i points vzero) c))).
    - unfold sumf. apply dot_ext; [|apply veq_refl]. intros i _. rewrite distance2_formula by (rewrite (dot_ext n _ _ _ _ SN SN), U1; lra). rewrite (dot_ext n _ _ _ _ SN SN), U1, (dot_ext n _ _ _ _ SN (veq_refl n _)). field.
    - rewrite Q, FORM. assert (E : veq k (vmul (svd_s d) (mapply n (mtr (svd_u d)) u)) (fun l => svd_s d b * mid b l)).
      { intros l Hl. unfold vmul, mapply, mtr, u. rewrite (OU l b Hl B). unfold mid. rewrite (Nat.eqb_sym l b). destruct (Nat.eqb_spec b l) as [->|D]; ring. }
      rewrite (dot_ext k _ _ _ _ E E), dot_scale_fun_l, dot_scale_fun_r. pose proof (mapply_id k (mid b) b B) as M. unfold mapply in M. change (fun i => mid b i) with (mid b). rewrite M. unfold mid. rewrite Nat.eqb_refl. ring. }
  rewrite COST. pose proof (self_pos n v NZ) as VP. unfold misfit. rewrite Rsum_index. fold N'.
  apply Rle_trans with (sumf N' (fun i => dot n v (vsub (nth i points vzero) c) * dot n v (vsub (nth i points vzero) c)) / dot n v v).
  - rewrite Q. destruct (le_lt_dec n N') as [L|L].
    + assert (KN : k = n) by lia. rewrite FORM. pose proof (square_complete n (svd_u d)) as CM. rewrite KN in *. specialize (CM OU).
      apply (Rmult_le_reg_r (dot n v v)); [exact VP|]. assert (DV : forall a, a / dot n v v * dot n v v = a) by (intros; field; lra). rewrite DV. set (z := mapply n (mtr (svd_u d)) v).
      assert (PV : dot n v v = dot n z z). { transitivity (dot n (mapply n (svd_u d) z) v); [apply dot_ext; [apply veq_sym, CM|apply veq_refl]|]. rewrite adjoint. reflexivity. }
      rewrite PV. rewrite <- dot_scale_fun_l. assert (G : forall m, (m <= n)%nat -> dot m (fun i => svd_s d b * svd_s d b * z i) z <= dot m (vmul (svd_s d) z) (vmul (svd_s d) z)).
      { induction m as [|m IH]; intros M; cbn [dot]; [lra|]. specialize (IH ltac:(lia)). unfold vmul at 3 4. pose proof (MB m ltac:(lia)) as S1. pose proof (SS b ltac:(lia)) as S2. assert (S3 : svd_s d b * svd_s d b <= svd_s d m * svd_s d m) by (apply Rmult_le_compat; lra).
        pose proof (Rmult_le_compat_r (z m * z m) _ _ (Rle_0_sqr (z m)) S3). lra. }
      apply G. lia.
    + (* fewer points than entries: the least singular value is 0 *)
      assert (KN : k = N') by lia. assert (SZ : svd_s d b = 0).
      { destruct (Req_EM_T (svd_s d b) 0) as [E|E]; [exact E|]. exfalso. pose proof (SS b B) as S2. assert (SP : forall l, (l < k)%nat -> 0 < svd_s d l) by (intros l Hl; specialize (MB l Hl); lra).
        pose proof (square_complete N' (svd_v d)) as CM. rewrite KN in *. specialize (CM OV). set (one := fun _ : nat => 1). set (z := mapply N' (mtr (svd_v d)) one).
        assert (A1 : veq n (mapply N' A one) vzero).
        { intros i Hi. unfold mapply. rewrite (dot_ext N' (A i) (fun idx => nth idx points vzero i - c i) one one) by (try apply veq_refl; intros j _; reflexivity).
          assert (E1 : forall m, dot m (fun idx => nth idx points vzero i - c i) one = sumf m (fun idx => nth idx points vzero i) - INR m * c i). { intros m. induction m as [|m IH]; [cbn; unfold sumf; cbn; ring|]. rewrite S_INR. unfold sumf in *. cbn [dot]. rewrite IH. unfold one. ring. }
          rewrite E1, MC. change (vzero i) with 0. rewrite (Rsum_index (fun p : vec => p i)). fold N'. field. apply not_0_INR. lia. }
        assert (Z0 : forall l, (l < N')%nat -> svd_s d l * z l = 0).
        { intros l Hl. assert (UAZ : mapply n (mtr (svd_u d)) (mapply N' A one) l = svd_s d l * z l).
          { rewrite (mapply_ext N' n (mtr (svd_u d)) (mtr (svd_u d)) _ (mapply N' (svd_u d) (vmul (svd_s d) z)) (fun _ _ _ _ => eq_refl)) by first [exact Hl | intros i Hi; rewrite (mapply_ext n N' _ _ one one EA (veq_refl N' one) i Hi); apply usv_apply].
            apply (ortho_apply n N' (svd_u d) (vmul (svd_s d) z) OU l Hl). }
          rewrite <- UAZ. unfold mapply at 1. rewrite (dot_ext n _ _ _ _ (veq_refl n _) A1). apply dot_zero_r. }
        assert (ZZ : veq N' z vzero). { intros l Hl. specialize (Z0 l Hl). specialize (SP l Hl). apply Rmult_integral in Z0. unfold vzero. destruct Z0; lra. }
        specialize (CM one O NP). fold z in CM. unfold mapply at 1 in CM. rewrite (dot_ext N' _ _ _ _ (veq_refl N' _) ZZ), dot_zero_r in CM. unfold one in CM. lra. }
      rewrite SZ, Rmult_0_l. apply Rmult_le_pos; [apply dot_self_nonneg | left; apply Rinv_0_lt_compat; exact VP].
  - (* the centroid is the best point *)
    assert (LIN : sumf N' (fun i => dot n v (nth i points vzero)) = INR N' * dot n v c).
    { transitivity (Rsum (map (fun p => dot n v p) points)); [symmetry; apply Rsum_index|]. assert (AV : average dbg (map (fun p => dot n v p) points) [] = Ok (Rsum (map (fun p => dot n v p) points) / INR N')) by (rewrite C52_mean, map_length; [reflexivity|intros E; apply map_eq_nil in E; contradiction]).
      rewrite vaverage_map, EC in AV. cbn [obind] in AV. apply (f_equal (fun o => match o with Ok x => x | _ => 0 end)) in AV. cbv beta iota in AV. rewrite AV. field. apply not_0_INR. lia. }
    assert (E : sumf N' (fun i => plane_distance n (mkH o v) (nth i points vzero) * plane_distance n (mkH o v) (nth i points vzero)) = sumf N' (fun i => dot n v (vsub (nth i points vzero) o) * dot n v (vsub (nth i points vzero) o)) / dot n v v).
    { unfold sumf. rewrite (dot_ext N' _ (fun i => / dot n v v * (dot n v (vsub (nth i points vzero) o) * dot n v (vsub (nth i points vzero) o))) _ (fun _ => 1)) by (try apply veq_refl; intros i _; rewrite distance2_formula by exact VP; field; lra). rewrite dot_scale_fun_l. unfold Rdiv. ring. }
    rewrite E. unfold Rdiv. apply Rmult_le_compat_r; [left; apply Rinv_0_lt_compat; exact VP|].
    assert (X : forall m, sumf m (fun i => dot n v (vsub (nth i points vzero) o) * dot n v (vsub (nth i points vzero) o)) =
      sumf m (fun i => dot n v (vsub (nth i points vzero) c) * dot n v (vsub (nth i points vzero) c)) + 2 * dot n v (vsub c o) * (sumf m (fun i => dot n v (nth i points vzero)) - INR m * dot n v c) + INR m * (dot n v (vsub c o) * dot n v (vsub c o))).
    { intros m. unfold sumf. induction m as [|m IH]; [cbn; ring|]. rewrite S_INR. cbn [dot]. rewrite IH. dots. ring. }
    rewrite X, LIN. pose proof (pos_INR N') as P1. pose proof (Rmult_le_pos _ _ P1 (Rle_0_sqr (dot n v (vsub c o)))) as P2. unfold Rsqr in P2. lra.
Qed.
Print Assumptions C113_fit_plane.
(** Decompositions that keep the contract for matrices of one row: points on a line. *)
Definition svd_row (r c : nat) (A : mat) : svd_result :=
  mkSvd (fun _ _ => 1) (fun _ => norm c (A O)) (fun j _ => if Rltb 0 (norm c (A O)) then A O j / norm c (A O) else basis 0 j).
Lemma dot_basis0 n : (0 < n)%nat -> dot n (basis 0) (basis 0) = 1.
Proof. intros H. destruct n as [|n]; [lia|]. clear H. induction n as [|n IH]; [unfold dot, basis; cbn; ring|]. cbn [dot] in *. rewrite IH. unfold basis. cbn. ring. Qed.
Example fit_case c : (0 < c)%nat -> forall M, svd_contract 1 c M (svd_row 1 c M).
Proof.
  intros C M. assert (K : Nat.min 1 c = 1%nat) by lia. split; rewrite ?K.
  - intros [|a] [|b] Ha Hb; try lia. cbn. ring.
  - intros [|a] [|b] Ha Hb; try lia. change (mid 0%nat 0%nat) with 1. cbn [svd_v svd_row]. destruct (Rltb 0 (norm c (M O))) eqn:E; [|apply dot_basis0; exact C]. apply Rltb_true in E. rewrite <- (normalized_pos c (M O) E), <- norm_sq, normalized_unit by exact E. ring.
  - intros l _. apply norm_nonneg.
  - intros [|i] j Hi Hj; [|lia]. unfold mmul, mtr. cbn [dot svd_u svd_s svd_v svd_row]. destruct (Rltb 0 (norm c (M O))) eqn:E; [apply Rltb_true in E; field; lra|]. apply Rltb_false in E. pose proof (norm_nonneg c (M O)).
    assert (Z : norm c (M O) = 0) by lra. rewrite Z. apply norm_zero in Z. rewrite (Z j Hj). unfold vzero. ring.
Qed.

(** ** C112 *)
(** What the eigenvalue solver gives for a symmetric 4 x 4 matrix: eigenvectors of length 1 that span the space. *)
Definition eigen_contract (solver : mat -> vec * mat) : Prop := forall M, symmetric 4 M ->
  (forall l, (l < 4)%nat -> norm 4 (fun i => snd (solver M) i l) = 1 /\ veq 4 (mapply 4 M (fun i => snd (solver M) i l)) (fun i => fst (solver M) l * snd (solver M) i l)) /\
  (forall x, exists c, veq 4 (mapply 4 (snd (solver M)) c) x).
Lemma largest_spec e : forall k, (0 < k)%nat -> (largest_index e k < k)%nat /\ forall l, (l < k)%nat -> e l <= e (largest_index e k).
Proof.
  induction k as [|k IH]; intros K; [lia|]. destruct k as [|k]; [cbn; split; [lia|]; intros l Hl; replace l with O by lia; lra|]. change (largest_index e (S (S k))) with (let i := largest_index e (S k) in if Rltb (e i) (e (S k)) then S k else i). cbv zeta.
  destruct IH as [B M]; [lia|]. set (i := largest_index e (S k)) in *. destruct (Rltb (e i) (e (S k))) eqn:C.
  - apply Rltb_true in C. split; [lia|]. intros l Hl. destruct (Nat.eq_dec l (S k)) as [->|D]; [lra|]. specialize (M l ltac:(lia)). lra.
  - apply Rltb_false in C. split; [lia|]. intros l Hl. destruct (Nat.eq_dec l (S k)) as [->|D]; [lra|]. apply M. lia.
Qed.
Lemma eigen_orthogonal n M u v a b : symmetric n M -> veq n (mapply n M u) (fun i => a * u i) -> veq n (mapply n M v) (fun i => b * v i) -> a <> b -> dot n u v = 0.
Proof.
  intros S U V D. assert (E : dot n (mapply n M u) v = dot n u (mapply n M v)).
  { rewrite adjoint. apply dot_ext; [apply veq_refl|]. intros i Hi. unfold mapply. apply dot_ext; [|apply veq_refl]. intros j Hj. unfold mtr. apply S; assumption. }
  rewrite (dot_ext n _ _ _ _ U (veq_refl n v)), (dot_ext n _ _ _ _ (veq_refl n u) V), dot_scale_fun_l, dot_scale_fun_r in E. assert (X : (a - b) * dot n u v = 0) by lra. apply Rmult_integral in X. destruct X; [lra|assumption].
Qed.
(** The largest eigenvalue bounds the quadratic form. *)
Lemma rayleigh n M e V top : symmetric n M -> (forall l, (l < n)%nat -> veq n (mapply n M (fun i => V i l)) (fun i => e l * V i l)) -> (forall x, exists c, veq n (mapply n V c) x) ->
  (forall l, (l < n)%nat -> e l <= top) -> forall x, dot n x (mapply n M x) <= top * dot n x x.
Proof.
  intros S EV SP T x. destruct (SP x) as [c C]. set (gap := fun l => sqrt (top - e l)). set (y := mapply n V (vmul gap c)).
  assert (MV : veq n (mapply n M x) (mapply n V (vmul e c))).
  { intros i Hi. rewrite <- (mapply_ext n n M M _ _ (fun _ _ _ _ => eq_refl) C i Hi). rewrite <- mapply_mmul. unfold mapply. apply dot_ext; [|apply veq_refl] || idtac.
    transitivity (dot n (fun l => e l * V i l) c); [apply dot_ext; [|apply veq_refl]; intros l Hl; exact (EV l Hl i Hi)|]. unfold vmul. clear. induction n as [|n IH]; [reflexivity|]. cbn [dot]. rewrite IH. ring. }
  assert (G : top * dot n x x - dot n x (mapply n M x) = dot n y y).
  { rewrite (dot_ext n x x _ _ (veq_refl n x) MV). rewrite <- !(dot_ext n _ _ _ _ C C), <- (dot_ext n _ _ _ _ C (veq_refl n (mapply n V (vmul e c)))). unfold y. rewrite !adjoint.
    rewrite <- dot_scale_fun_l. assert (P : forall l, (l < n)%nat -> top * c l * mapply n (mtr V) (mapply n V c) l - c l * mapply n (mtr V) (mapply n V (vmul e c)) l = vmul gap c l * mapply n (mtr V) (mapply n V (vmul gap c)) l).
    { intros l Hl. rewrite <- !mapply_mmul. set (Gm := mmul n (mtr V) V). unfold mapply.
      assert (Q : forall m, (m <= n)%nat -> top * c l * dot m (Gm l) c - c l * dot m (Gm l) (vmul e c) = vmul gap c l * dot m (Gm l) (vmul gap c)).
      { induction m as [|m IH]; intros Hm; [cbn; ring|]. cbn [dot]. specialize (IH ltac:(lia)).
        assert (Z : c l * (top - e m) * Gm l m * c m = vmul gap c l * (Gm l m * vmul gap c m)).
        { unfold vmul. destruct (Req_EM_T (e l) (e m)) as [E|E].
          - unfold gap. rewrite E. pose proof (sqrt_sqrt (top - e m) ltac:(specialize (T m ltac:(lia)); lra)) as R. set (q := sqrt (top - e m)) in *. rewrite <- R. ring.
          - assert (O : Gm l m = 0) by (apply (eigen_orthogonal n M (fun i => V i l) (fun i => V i m) (e l) (e m) S); [apply EV; lia | apply EV; lia | exact E]). rewrite O. ring. }
        unfold vmul in Z, IH |- *. lra. }
      apply Q. lia. }
    assert (Q : forall m, (m <= n)%nat -> dot m (fun l => top * c l) (mapply n (mtr V) (mapply n V c)) - dot m c (mapply n (mtr V) (mapply n V (vmul e c))) = dot m (vmul gap c) (mapply n (mtr V) (mapply n V (vmul gap c)))).
    { induction m as [|m IH]; intros Hm; [cbn; ring|]. cbn [dot]. specialize (IH ltac:(lia)). specialize (P m ltac:(lia)). lra. }
    apply Q. lia. }
  pose proof (dot_self_nonneg n y). lra.
Qed.
(** The weighted agreement of the quaternions with [x]: the sum of [w^2 (q . x)^2]; weight 1 each without weights. *)
Fixpoint agreement (qs : list vec) (ws : list R) (x : vec) : R :=
  match qs with
  | [] => 0
  | q :: qs => match ws with
      | [] => 0
      | w :: ws => w * w * (dot 4 q x * dot 4 q x) + agreement qs ws x
      end
  end.
Definition weights_of (qs : list vec) (ws : list R) : list R := match ws with [] => repeat 1 (length qs) | _ => ws end.
Lemma Rsum_cons a l : Rsum (a :: l) = a + Rsum l.
Proof. reflexivity. Qed.
Lemma quat_matrix_form qs ws x : dot 4 x (mapply 4 (quat_matrix qs ws) x) = agreement qs ws x.
Proof.
  assert (F : forall (l : list (vec * R)) i j a, fold_left (fun s c => s + (Rabs (snd c) * fst c i) * (Rabs (snd c) * fst c j)) l a = a + Rsum (map (fun c => snd c * snd c * (fst c i * fst c j)) l)).
  { induction l as [|[q w] l IH]; intros i j a; [unfold Rsum; cbn; ring|]. cbn [fold_left map fst snd]. rewrite Rsum_cons. rewrite IH. assert (AA : Rabs w * Rabs w = w * w) by (unfold Rabs; destruct (Rcase_abs w); ring). match goal with |- context [Rsum ?z] => set (r := Rsum z) end. transitivity (a + (Rabs w * Rabs w) * (q i * q j) + r); [ring|]. rewrite AA. ring. }
  assert (E : forall i j, quat_matrix qs ws i j = Rsum (map (fun c => snd c * snd c * (fst c i * fst c j)) (combine qs ws))) by (intros i j; unfold quat_matrix; rewrite F; ring).
  unfold mapply. cbn [dot]. rewrite !E. clear E F. revert ws. induction qs as [|q qs IH]; intros ws; [cbn; ring|]. destruct ws as [|w ws]; [cbn; ring|]. cbn [combine map agreement fst snd]. rewrite !Rsum_cons, <- IH. cbn [dot fst snd]. ring.
Qed.
Lemma quat_matrix_symmetric qs ws : symmetric 4 (quat_matrix qs ws).
Proof.
  intros i j _ _. unfold quat_matrix. generalize 0 as a. induction (combine qs ws) as [|c l IH]; intros a; [reflexivity|]. cbn [fold_left]. rewrite (Rmult_comm (Rabs (snd c) * fst c i)). apply IH.
Qed.
(** C112: a unit quaternion, and none has a larger sum of squares of its weighted products with the given ones; so signs do not matter. *)
Theorem C112_average_partial dbg solver qs ws : eigen_contract solver -> qs <> [] -> Forall (fun q => norm 4 q = 1) qs ->
  (ws = [] \/ (length ws = length qs /\ exists w, In w ws /\ w <> 0)) ->
  exists q, quat_average dbg solver qs ws = Ok q /\ norm 4 q = 1 /\
    forall x, norm 4 x = 1 -> agreement qs (weights_of qs ws) x <= agreement qs (weights_of qs ws) q.
Proof.
  intros EC NE UN W. unfold quat_average, cassert. replace (0 <? length qs)%nat with true by (symmetry; apply Nat.ltb_lt; destruct qs; [contradiction|cbn; lia]). cbn [negb]. rewrite andb_false_r.
  replace ((length ws =? length qs) || (length ws =? 0))%nat with true by (symmetry; apply orb_true_iff; destruct W as [->|[L _]]; [right; reflexivity | left; apply Nat.eqb_eq; exact L]). cbn [negb]. rewrite andb_false_r.
  destruct qs as [|q0 qs]; [contradiction|]. destruct qs as [|q1 qs].
  - inversion UN as [|? ? U0 _]; subst. exists q0.
    assert (A : ((length ws =? 0)%nat || negb (Reqb (hd 0 ws) 0)) = true). { destruct W as [->|[L (w & I & NZ)]]; [reflexivity|]. destruct ws as [|w' [|w'' ws]]; cbn in L; try lia. destruct I as [->|[]]. cbn [hd]. rewrite (proj2 (Reqb_false w 0) NZ). reflexivity. }
    rewrite A. cbn [negb]. rewrite andb_false_r. split; [reflexivity|]. split; [exact U0|]. intros x X.
    assert (EW : exists w, weights_of [q0] ws = [w]). { destruct W as [->|[L _]]; [exists 1; reflexivity|]. destruct ws as [|w' [|w'' ws]]; cbn in L; try lia. exists w'. reflexivity. }
    destruct EW as [w ->]. cbn [agreement]. pose proof (cauchy_sq 4 q0 x) as CS. rewrite <- !norm_sq, U0, X in CS. rewrite <- (norm_sq 4 q0), U0. pose proof (Rle_0_sqr w) as W0. unfold Rsqr in W0. rewrite !Rplus_0_r. apply Rmult_le_compat_l; lra.
  - set (l := q0 :: q1 :: qs) in *. set (w := if (length ws =? length l)%nat then ws else repeat 1 (length l)).
    assert (EW : w = weights_of l ws). { unfold w. destruct W as [->|[L _]]; [unfold l; reflexivity|]. rewrite L, Nat.eqb_refl. destruct ws; [cbn in L; lia | reflexivity]. }
    rewrite EW. set (M := quat_matrix l (weights_of l ws)). destruct (EC M (quat_matrix_symmetric _ _)) as [EV SP]. destruct (solver M) as [e V]. cbn [fst snd] in *.
    destruct (largest_spec e 4 ltac:(lia)) as [B T]. set (b := largest_index e 4) in *. eexists. split; [reflexivity|]. destruct (EV b B) as [N E]. split; [exact N|]. intros x X.
    rewrite <- !quat_matrix_form. fold M. rewrite (dot_ext 4 _ _ (mapply 4 M (fun i => V i b)) _ (veq_refl 4 _) E), dot_scale_fun_r, <- norm_sq, N.
    pose proof (rayleigh 4 M e V (e b) (quat_matrix_symmetric _ _) (fun l Hl => proj2 (EV l Hl)) SP T x) as R. rewrite <- norm_sq, X in R. lra.
Qed.
Print Assumptions C112_average_partial.
(** The sign of each quaternion, which does not change its rotation, does not change the matrix. *)
Theorem C112_signs qs qs' ws : Forall2 (fun q q' => veq 4 q' q \/ veq 4 q' (vneg q)) qs qs' -> forall i j, (i < 4)%nat -> (j < 4)%nat -> quat_matrix qs' ws i j = quat_matrix qs ws i j.
Proof.
  intros F i j Hi Hj. unfold quat_matrix. generalize 0 as a. revert ws. induction F as [|q q' qs qs' H F IH]; intros ws a; [reflexivity|]. destruct ws as [|w ws]; [reflexivity|]. cbn [combine fold_left fst snd]. rewrite IH. f_equal. f_equal.
  destruct H as [H|H]; rewrite (H i Hi), (H j Hj); unfold vneg; ring.
Qed.
Print Assumptions C112_signs.
(** Weights enter squared: a weight of 2 is not the same as listing the quaternion twice, with any solver. *)
Theorem C112_weights_refuted : exists q1 q2, norm 4 q1 = 1 /\ norm 4 q2 = 1 /\ forall solver, eigen_contract solver ->
  exists a b, quat_average true solver [q1; q2] [2; 1] = Ok a /\ quat_average true solver [q1; q1; q2] [] = Ok b /\ ~ veq 4 a b /\ ~ veq 4 a (vneg b).
Proof.
  set (q1 := basis 0). set (q2 := fun i : nat => match i with O => 3 / 5 | 1%nat => 4 / 5 | _ => 0 end). exists q1, q2.
  assert (N1 : norm 4 q1 = 1) by (apply norm_unique; [lra | unfold q1, dot, basis; cbn; ring]). assert (N2 : norm 4 q2 = 1) by (apply norm_unique; [lra | unfold q2, dot; cbn; field]). split; [exact N1|]. split; [exact N2|]. intros solver EC.
  assert (ON : forall M l, symmetric 4 M -> (l < 4)%nat -> veq 4 (mapply 4 M (fun i => snd (solver M) i l)) (fun i => fst (solver M) l * snd (solver M) i l)) by (intros M l S L; apply (EC M S); exact L).
  unfold quat_average, cassert. cbn [length Nat.ltb Nat.leb Nat.eqb orb andb negb repeat]. cbv zeta.
  pose (M1 := quat_matrix [q1; q2] [2; 1]). pose (M2 := quat_matrix [q1; q1; q2] [1; 1; 1]).
  enough (X : exists a b : vec, (let (e, v) := solver M1 in Ok (fun i => v i (largest_index e 4))) = Ok a /\ (let (e, v) := solver M2 in Ok (fun i => v i (largest_index e 4))) = Ok b /\ ~ veq 4 a b /\ ~ veq 4 a (vneg b)) by exact X.
  pose proof (EC M1 (quat_matrix_symmetric _ _)) as [EV1 SP1]. pose proof (EC M2 (quat_matrix_symmetric _ _)) as [EV2 _]. clear ON.
  destruct (solver M1) as [e1 V1]. destruct (solver M2) as [e2 V2]. cbn [fst snd] in *. destruct (largest_spec e1 4 ltac:(lia)) as [B1 T1]. destruct (largest_spec e2 4 ltac:(lia)) as [B2 _]. set (b1 := largest_index e1 4) in *. set (b2 := largest_index e2 4) in *.
  do 2 eexists. split; [reflexivity|]. split; [reflexivity|].
  assert (C : forall s, s * s = 1 -> ~ veq 4 (fun i => V1 i b1) (fun i => s * V2 i b2)).
  { intros s SS E. destruct (EV1 b1 B1) as [U1 X1]. destruct (EV2 b2 B2) as [U2 X2]. set (a := fun i => V1 i b1) in *. set (b := fun i => V2 i b2) in *.
    assert (X2' : veq 4 (mapply 4 M2 a) (fun i => e2 b2 * a i)).
    { intros i Hi. rewrite (mapply_ext 4 4 M2 M2 a (fun i => s * b i) (fun _ _ _ _ => eq_refl) E i Hi). unfold mapply. rewrite dot_scale_fun_r. pose proof (X2 i Hi) as K. unfold mapply in K. fold b in K. rewrite K. pose proof (E i Hi) as Ei. unfold a, b in *. rewrite Ei. ring. }
    pose proof (X1 0%nat ltac:(lia)) as P0. pose proof (X1 1%nat ltac:(lia)) as P1. pose proof (X2' 0%nat ltac:(lia)) as Q0. pose proof (X2' 1%nat ltac:(lia)) as Q1. pose proof (X1 2%nat ltac:(lia)) as P2. pose proof (X1 3%nat ltac:(lia)) as P3.
    change (mapply 4 M1 a 0%nat = e1 b1 * a 0%nat) in P0.
    change (mapply 4 M1 a 1%nat = e1 b1 * a 1%nat) in P1.
    change (mapply 4 M1 a 2%nat = e1 b1 * a 2%nat) in P2.
    change (mapply 4 M1 a 3%nat = e1 b1 * a 3%nat) in P3.
    change (mapply 4 M2 a 0%nat = e2 b2 * a 0%nat) in Q0.
    change (mapply 4 M2 a 1%nat = e2 b2 * a 1%nat) in Q1.
    assert (A0 : mapply 4 M1 a 0%nat = 4 * a 0%nat + 9 / 25 * a 0%nat + 12 / 25 * a 1%nat). { unfold mapply, M1, quat_matrix. cbn [dot combine fold_left fst snd]. unfold q1, q2, basis. cbn [Nat.eqb]. rewrite (Rabs_right 2), Rabs_R1 by lra. field. }
    assert (A1 : mapply 4 M1 a 1%nat = 12 / 25 * a 0%nat + 16 / 25 * a 1%nat). { unfold mapply, M1, quat_matrix. cbn [dot combine fold_left fst snd]. unfold q1, q2, basis. cbn [Nat.eqb]. rewrite (Rabs_right 2), Rabs_R1 by lra. field. }
    assert (A2 : mapply 4 M2 a 0%nat = 2 * a 0%nat + 9 / 25 * a 0%nat + 12 / 25 * a 1%nat). { unfold mapply, M2, quat_matrix. cbn [dot combine fold_left fst snd]. unfold q1, q2, basis. cbn [Nat.eqb]. rewrite Rabs_R1 by lra. field. }
    assert (A3 : mapply 4 M2 a 1%nat = 12 / 25 * a 0%nat + 16 / 25 * a 1%nat). { unfold mapply, M2, quat_matrix. cbn [dot combine fold_left fst snd]. unfold q1, q2, basis. cbn [Nat.eqb]. rewrite Rabs_R1 by lra. field. }
    rewrite A0 in P0. rewrite A1 in P1. rewrite A2 in Q0. rewrite A3 in Q1.
    assert (Z1 : (e1 b1 - e2 b2) * a 1%nat = 0) by lra. assert (Z0 : (e1 b1 - e2 b2 - 2) * a 0%nat = 0) by lra.
    assert (ZZ : a 0%nat = 0 /\ a 1%nat = 0).
    { apply Rmult_integral in Z1. destruct Z1 as [Z1|Z1].
      - assert (a0 : a 0%nat = 0) by (apply Rmult_integral in Z0; destruct Z0; lra). split; [exact a0|]. rewrite a0 in P0. lra.
      - rewrite Z1 in P1. split; [lra | exact Z1]. }
    destruct ZZ as [z0 z1].
    (* the eigenvalue would be 0, but the form at q1 is positive *)
    pose proof (rayleigh 4 M1 e1 V1 (e1 b1) (quat_matrix_symmetric _ _) (fun l Hl => proj2 (EV1 l Hl)) SP1 T1 q1) as R1. rewrite <- (norm_sq 4 q1), N1 in R1. unfold M1 in R1. rewrite quat_matrix_form in R1. cbn [agreement] in R1.
    rewrite <- (norm_sq 4 q1), N1 in R1. pose proof (Rle_0_sqr (dot 4 q2 q1)) as SQ. unfold Rsqr in SQ.
    assert (Y2 : mapply 4 M1 a 2%nat = 0). { unfold mapply, M1, quat_matrix. cbn [dot combine fold_left fst snd]. unfold q1, q2, basis. cbn [Nat.eqb]. field. }
    assert (Y3 : mapply 4 M1 a 3%nat = 0). { unfold mapply, M1, quat_matrix. cbn [dot combine fold_left fst snd]. unfold q1, q2, basis. cbn [Nat.eqb]. field. }
    rewrite Y2 in P2. rewrite Y3 in P3. assert (EP : 0 < e1 b1) by lra. assert (a2 : a 2%nat = 0) by (symmetry in P2; apply Rmult_integral in P2; destruct P2; lra). assert (a3 : a 3%nat = 0) by (symmetry in P3; apply Rmult_integral in P3; destruct P3; lra).
    assert (NZ : norm 4 a = 0) by (apply norm_zero; intros [|[|[|[|i]]]] Hi; try lia; unfold vzero; assumption). rewrite U1 in NZ. lra. }
  split; intros E.
  - apply (C 1 ltac:(ring)). intros i Hi. rewrite (E i Hi). ring.
  - apply (C (-1) ltac:(ring)). intros i Hi. rewrite (E i Hi). unfold vneg. ring.
Qed.
Print Assumptions C112_weights_refuted.
Example quat_case : norm 4 (basis 0) = 1 /\ length [2; 1] = length [basis 0; basis 1] /\ exists w, In w [2; 1] /\ w <> 0.
Proof. split; [apply norm_unique; [lra | unfold dot, basis; cbn; ring]|]. split; [reflexivity|]. exists 2. split; [left; reflexivity | lra]. Qed.
