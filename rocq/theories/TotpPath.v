(** The segments made by Path::Path: where they start and end, how far they are from the waypoints. *)
From Coq Require Import Reals Lra Psatz.
From Verif Require Import Base MathModel TotpModel TotpVec TotpArc.
Open Scope R_scope.

(** Consecutive waypoints are more than 2e-6 apart. *)
Definition separated (n : nat) (ws : list vec) : Prop :=
  forall l1 a b l2, ws = l1 ++ a :: b :: l2 -> 2 * tol < norm n (vsub b a).
(** No three consecutive waypoints at which the path turns straight back. *)
Definition no_reversal (n : nat) (ws : list vec) : Prop :=
  forall l1 a b c l2, ws = l1 ++ a :: b :: c :: l2 ->
    ~ exists k, 0 < k /\ veq n (vsub c b) (fun i => - k * (b i - a i)).
(** [p] is within [e] of a point of the polyline through the waypoints. *)
Definition near_polyline (n : nat) (ws : list vec) (e : R) (p : vec) : Prop :=
  exists l1 a b l2 t, ws = l1 ++ a :: b :: l2 /\ 0 <= t <= 1 /\
    norm n (fun i => p i - (a i * (1 - t) + b i * t)) <= e.

Lemma separated_tl n a ws : separated n (a :: ws) -> separated n ws.
Proof. intros H l1 x y l2 E. apply (H (a :: l1) x y l2). rewrite E. reflexivity. Qed.
Lemma no_reversal_tl n a ws : no_reversal n (a :: ws) -> no_reversal n ws.
Proof. intros H l1 x y z l2 E. apply (H (a :: l1) x y z l2). rewrite E. reflexivity. Qed.
Lemma near_polyline_cons n a ws e p : near_polyline n ws e p -> near_polyline n (a :: ws) e p.
Proof. intros (l1 & x & y & l2 & t & E & H). exists (a :: l1), x, y, l2, t. split; [rewrite E; reflexivity|exact H]. Qed.
Lemma near_polyline_ext n ws e p q : veq n p q -> near_polyline n ws e p -> near_polyline n ws e q.
Proof.
  intros V (l1 & x & y & l2 & t & E & H & N). exists l1, x, y, l2, t. split; [exact E|]. split; [exact H|].
  rewrite (norm_ext n _ (fun i => p i - (x i * (1 - t) + y i * t))); [exact N|]. intros i Hi. rewrite (V i Hi). reflexivity.
Qed.

(** A segment whose configurations, tangents and curvatures are defined. *)
Definition seg_good (n : nat) (g : segment) : Prop :=
  match g with
  | Linear a b => 0 < norm n (vsub b a)
  | Arc len rad ctr x y =>
      0 < rad /\ (len = 0 \/ (0 < len <= PI * rad /\ dot n x x = 1 /\ dot n x y = 0 /\ dot n y y = 1))
  end.
Definition seg_at (n : nat) (g : segment) (u : R) : vec :=
  match seg_config n g u with Some v => v | None => vzero end.

Lemma seg_config_some n g u : seg_good n g -> seg_config n g u = Some (seg_at n g u).
Proof.
  unfold seg_at. destruct g as [a b|len rad ctr x y]; cbn [seg_good seg_config]; [|reflexivity].
  intros H. unfold Reqb. destruct (Req_EM_T (norm n (vsub b a)) 0); [lra|reflexivity].
Qed.
Lemma seg_len_nonneg n g : seg_good n g -> 0 <= seg_len n g.
Proof. destruct g; cbn [seg_good seg_len]; intros H; [lra|]. destruct H as [Hr [ -> |[H _]]]; lra. Qed.
Lemma unit_interval_in u : 0 <= u <= 1 -> unit_interval u = u.
Proof.
  intros H. unfold unit_interval, Rltb.
  destruct (Rlt_dec u 0); [lra|]. destruct (Rlt_dec 1 u); [lra|]. reflexivity.
Qed.
Lemma linear_at n a b u : 0 < norm n (vsub b a) -> 0 <= u <= norm n (vsub b a) ->
  seg_at n (Linear a b) u = (fun i => a i * (1 - u / norm n (vsub b a)) + b i * (u / norm n (vsub b a))).
Proof.
  intros H Hu. unfold seg_at. cbn [seg_config]. unfold Reqb.
  destruct (Req_EM_T (norm n (vsub b a)) 0); [lra|].
  rewrite unit_interval_in; [reflexivity|]. split.
  - apply div_nonneg; lra.
  - apply (Rmult_le_reg_r (norm n (vsub b a))); [lra|]. unfold Rdiv. rewrite Rmult_assoc, Rinv_l; lra.
Qed.
Lemma linear_start n a b i : 0 < norm n (vsub b a) -> seg_at n (Linear a b) 0 i = a i.
Proof. intros H. rewrite linear_at by lra. unfold Rdiv. ring. Qed.
Lemma linear_end n a b i : 0 < norm n (vsub b a) -> seg_at n (Linear a b) (norm n (vsub b a)) i = b i.
Proof. intros H. rewrite linear_at by lra. field. lra. Qed.

Lemma blend_some n a m b dev :
  (~ exists k, 0 < k /\ veq n (vsub b m) (fun i => - k * vsub m a i)) -> exists g, blend n a m b dev = Some g.
Proof.
  intros NR. unfold blend. pose proof tol_pos as TP.
  destruct (Rltb (norm n (vsub m a)) tol) eqn:E1; cbn [orb]; [eauto|].
  destruct (Rltb (norm n (vsub b m)) tol) eqn:E2; [eauto|].
  apply Rltb_false in E1, E2. cbv zeta.
  set (sd := normalized n (vsub m a)). set (ed := normalized n (vsub b m)).
  destruct (Rltb (norm n (vsub sd ed)) tol); [eauto|].
  destruct (Reqb (cos (/ 2 * acos (dot n sd ed))) 0) eqn:E4; [|eauto].
  exfalso. apply Reqb_true in E4.
  assert (S1 : norm n sd = 1) by (apply normalized_unit; lra).
  assert (S2 : norm n ed = 1) by (apply normalized_unit; lra).
  pose proof (cauchy n sd ed) as C. rewrite S1, S2 in C.
  pose proof (Rle_abs (dot n sd ed)) as C1. pose proof (Rle_abs (- dot n sd ed)) as C2. rewrite Rabs_Ropp in C2.
  pose proof (acos_bound (dot n sd ed)) as AB.
  assert (EA : acos (dot n sd ed) = PI).
  { destruct (Rlt_dec (acos (dot n sd ed)) PI) as [L|L]; [|lra].
    exfalso. assert (0 < cos (/ 2 * acos (dot n sd ed))); [|lra]. pose proof PI_RGT_0. apply cos_gt_0; lra. }
  assert (ED : dot n sd ed = -1).
  { rewrite <- (cos_acos (dot n sd ed)) by lra. rewrite EA. apply cos_PI. }
  assert (Z : veq n (fun i => 1 * sd i + 1 * ed i) vzero).
  { apply dot_self_zero. rewrite dot_comb, ED, <- !norm_sq, S1, S2. ring. }
  apply NR. exists (norm n (vsub b m) / norm n (vsub m a)). split; [apply Rdiv_lt_0_compat; lra|].
  intros i Hi. specialize (Z i Hi). cbn beta in Z. unfold vzero in Z. unfold sd, ed in Z.
  rewrite !normalized_pos in Z by lra. 
  apply (Rmult_eq_reg_r (/ norm n (vsub b m))); [|apply Rinv_neq_0_compat; lra].
  transitivity (- (vsub m a i / norm n (vsub m a))); [|field; lra].
  unfold Rdiv in *. lra.
Qed.

Lemma mid_half n a b : veq n (vsub b (mid a b)) (fun i => / 2 * vsub b a i).
Proof. intros i _. unfold vsub, mid. field. Qed.
Lemma mid_half' n a b : veq n (vsub (mid a b) a) (fun i => / 2 * vsub b a i).
Proof. intros i _. unfold vsub, mid. field. Qed.
Lemma norm_half n u : norm n (fun i => / 2 * u i) = norm n u / 2.
Proof. rewrite norm_scale, Rabs_pos_eq by lra. field. Qed.

(** [start] is on the first half of the leg from [c1] to the next waypoint. *)
Definition on_leg (n : nat) (c1 start : vec) (rest : list vec) : Prop :=
  match rest with
  | [] => True
  | c2 :: _ => exists t, 0 <= t <= / 2 /\ veq n start (fun i => c1 i + t * (c2 i - c1 i))
  end.

(** Consecutive segments join, starting at [p]: a linear segment exactly, an arc up to the tolerance; an arc of length zero is
    followed by a linear segment. *)
Definition joins (n : nat) (p : vec) (g : segment) : Prop :=
  match g with
  | Linear a _ => veq n a p
  | Arc _ _ _ _ _ => norm n (vsub (seg_at n g 0) p) <= tol
  end.
Definition is_linear (g : segment) : Prop := match g with Linear _ _ => True | Arc _ _ _ _ _ => False end.
Fixpoint linked (n : nat) (p : vec) (l : list segment) : Prop :=
  match l with
  | [] => True
  | g :: l' => joins n p g /\ (seg_len n g = 0 -> match l' with [] => False | g' :: _ => is_linear g' end) /\
      linked n (seg_at n g (seg_len n g)) l'
  end.
(** A point of a segment before its end, or the end of the last segment. *)
Fixpoint on_segments (n : nat) (l : list segment) (P : vec -> Prop) : Prop :=
  match l with
  | [] => False
  | [g] => exists u, 0 <= u <= seg_len n g /\ P (seg_at n g u)
  | g :: l' => (exists u, 0 <= u < seg_len n g /\ P (seg_at n g u)) \/ on_segments n l' P
  end.
Lemma on_segments_app n l1 l2 P : l2 <> [] -> on_segments n l2 P -> on_segments n (l1 ++ l2) P.
Proof.
  intros N H. induction l1 as [|g l1 IH]; [exact H|].
  cbn [app]. remember (l1 ++ l2) as l eqn:E. destruct l as [|g' l'].
  - destruct l1; [contradiction|discriminate].
  - cbn [on_segments]. right. exact IH.
Qed.
Lemma on_segments_app_l n l1 l2 P : on_segments n l1 P -> on_segments n (l1 ++ l2) P \/
  exists g l0, l1 = l0 ++ [g] /\ P (seg_at n g (seg_len n g)).
Proof.
  induction l1 as [|g l1 IH]; intros H; [destruct H|].
  destruct l1 as [|g' l1].
  - cbn [on_segments] in H. destruct H as (u & Hu & HP). cbn [app].
    destruct l2 as [|g2 l2]; [left; exists u; auto|].
    destruct (Req_dec u (seg_len n g)) as [E|N].
    + right. exists g, []. split; [reflexivity|]. rewrite <- E. exact HP.
    + left. cbn [on_segments]. left. exists u. split; [lra|exact HP].
  - change (on_segments n (g :: g' :: l1) P) with
      ((exists u, 0 <= u < seg_len n g /\ P (seg_at n g u)) \/ on_segments n (g' :: l1) P) in H.
    destruct H as [H|H].
    + left. cbn [app]. cbn [on_segments]. left. exact H.
    + destruct (IH H) as [H1|(g0 & l0 & E & HP)].
      * left. cbn [app]. cbn [app] in H1. cbn [on_segments]. right. exact H1.
      * right. exists g0, (g :: l0). rewrite E. split; [reflexivity|exact HP].
Qed.

Record segs_ok (n : nat) (dev : R) (c1 start : vec) (rest : list vec) (l : list segment) : Prop := {
  so_nil : rest = [] -> l = [];
  so_good : Forall (seg_good n) l;
  so_linked : linked n start l;
  so_last : rest <> [] -> exists l0 a, l = l0 ++ [Linear a (last rest c1)];
  so_near : forall g, In g l -> forall u, 0 <= u <= seg_len n g -> near_polyline n (c1 :: rest) (Rmax 0 dev) (seg_at n g u);
  so_pass : forall w, In w rest -> on_segments n l (fun p => norm n (vsub p w) <= Rmax 0 dev);
  so_first : veq n start c1 -> rest <> [] -> exists e l', l = Linear start e :: l' }.

Lemma last_default {A} (l : list A) x a b : last (x :: l) a = last (x :: l) b.
Proof. revert x. induction l as [|y l IH]; intros x; [reflexivity|]. exact (IH y). Qed.
Lemma norm_self n p q : veq n p q -> norm n (vsub p q) = 0.
Proof. intros H. apply norm_zero. intros i Hi. unfold vsub, vzero. rewrite (H i Hi). ring. Qed.
Lemma on_segments_head n g l (P : vec -> Prop) u :
  0 <= u < seg_len n g -> P (seg_at n g u) -> on_segments n (g :: l) P.
Proof.
  intros Hu HP. destruct l as [|g' l]; cbn [on_segments].
  - exists u. split; [lra|exact HP].
  - left. exists u. auto.
Qed.
Lemma linked_ext n p q l : veq n p q -> linked n p l -> linked n q l.
Proof.
  intros V. destruct l as [|g l]; [trivial|]. cbn [linked]. intros [H1 H2]. split; [|exact H2].
  destruct g as [a b|len r ctr x y]; cbn [joins] in *.
  - intros i Hi. rewrite (H1 i Hi). apply V, Hi.
  - rewrite (norm_ext n _ (vsub (seg_at n (Arc len r ctr x y) 0) p)); [exact H1|].
    intros i Hi. unfold vsub. rewrite (V i Hi). reflexivity.
Qed.

(** A linear segment between two points of one leg stays on the leg. *)
Lemma linear_on_leg n c1 c2 l2 a b ta tb e u :
  0 <= e -> 0 <= ta <= 1 -> 0 <= tb <= 1 ->
  veq n a (fun i => c1 i + ta * (c2 i - c1 i)) -> veq n b (fun i => c1 i + tb * (c2 i - c1 i)) ->
  0 < norm n (vsub b a) -> 0 <= u <= norm n (vsub b a) ->
  near_polyline n (c1 :: c2 :: l2) e (seg_at n (Linear a b) u).
Proof.
  intros He Ha Hb Ea Eb Hn Hu. rewrite linear_at by assumption.
  set (v := u / norm n (vsub b a)).
  assert (Hv : 0 <= v <= 1).
  { unfold v. split; [apply div_nonneg; lra|].
    apply (Rmult_le_reg_r (norm n (vsub b a))); [lra|]. unfold Rdiv. rewrite Rmult_assoc, Rinv_l; lra. }
  exists [], c1, c2, l2, (ta * (1 - v) + tb * v). split; [reflexivity|]. split.
  - split; nra.
  - replace (norm n _) with 0; [exact He|]. symmetry. apply norm_zero. intros i Hi. unfold vzero.
    rewrite (Ea i Hi), (Eb i Hi). ring.
Qed.
Lemma linear_good_leg n c1 c2 a t :
  0 <= t <= / 2 -> 2 * tol < norm n (vsub c2 c1) -> veq n a (fun i => c1 i + t * (c2 i - c1 i)) ->
  tol < norm n (vsub c2 a).
Proof.
  intros Ht Hs Ea.
  rewrite (norm_ext n (vsub c2 a) (fun i => (1 - t) * vsub c2 c1 i)).
  - rewrite norm_scale, Rabs_pos_eq by lra. pose proof tol_pos. nra.
  - intros i Hi. unfold vsub. rewrite (Ea i Hi). ring.
Qed.
Lemma seg_at_arc n len r ctr x y u : seg_at n (Arc len r ctr x y) u = (fun i => ctr i + r * (x i * cos (u / r) + y i * sin (u / r))).
Proof. reflexivity. Qed.
Lemma degenerate_at n m u i : seg_at n (degenerate m) u i = m i.
Proof. unfold degenerate. rewrite seg_at_arc. unfold vzero. ring. Qed.

Lemma segs_ok_linear n dev c1 c2 start rest' l :
  separated n (c1 :: c2 :: rest') -> on_leg n c1 start (c2 :: rest') ->
  segs_ok n dev c2 c2 rest' l -> segs_ok n dev c1 start (c2 :: rest') (Linear start c2 :: l).
Proof.
  intros Sep (t & Ht & Es) [Nl G L La N P F].
  pose proof (Sep [] c1 c2 rest' eq_refl) as S2. pose proof tol_pos as TP.
  pose proof (linear_good_leg n c1 c2 start t Ht S2 Es) as Gl.
  split.
  - discriminate.
  - constructor; [cbn [seg_good]; lra|exact G].
  - cbn [linked joins seg_len]. split; [apply veq_refl|]. split.
    + lra.
    + apply (linked_ext n c2); [|exact L]. intros i Hi. cbn [seg_len]. symmetry. apply linear_end. lra.
  - intros _. destruct rest' as [|c3 rest'].
    + rewrite (Nl eq_refl). exists [], start. reflexivity.
    + destruct La as (l0 & a & E); [discriminate|]. exists (Linear start c2 :: l0), a. rewrite E.
      change (last (c2 :: c3 :: rest') c1) with (last (c3 :: rest') c1). rewrite (last_default rest' c3 c1 c2). reflexivity.
  - intros g [ <- |Hg] u Hu.
    + apply (linear_on_leg n c1 c2 rest' start c2 t 1); try lra; try assumption.
      * apply Rmax_l.
      * intros i Hi. ring.
    + apply near_polyline_cons. apply N; assumption.
  - intros w [ <- |Hw].
    + destruct rest' as [|c3 rest'].
      * rewrite (Nl eq_refl). cbn [on_segments]. exists (norm n (vsub c2 start)). cbn [seg_len]. split; [split; lra|].
        rewrite norm_self; [apply Rmax_l|]. intros i Hi. apply linear_end. lra.
      * destruct F as (e & l' & E); [apply veq_refl|discriminate|]. subst l.
        apply (on_segments_app n [Linear start c2] (Linear c2 e :: l')); [discriminate|].
        pose proof (Forall_inv G) as G1. cbn [seg_good] in G1.
        apply (on_segments_head n _ _ _ 0); [cbn [seg_len]; lra|].
        rewrite norm_self; [apply Rmax_l|]. intros i Hi. apply linear_start. exact G1.
    + apply (on_segments_app n [Linear start c2] l); [|apply P, Hw].
      intros ->. apply (P w Hw).
  - intros _ _. eexists _, _. reflexivity.
Qed.

Lemma half_direction n c1 c2 i : 0 < norm n (vsub c2 c1) -> (i < n)%nat ->
  normalized n (vsub c2 (mid c1 c2)) i = (c2 i - c1 i) / norm n (vsub c2 c1).
Proof.
  intros H Hi. rewrite (normalized_ext n _ _ (mid_half n c1 c2) i Hi), (normalized_scale n (/ 2) _ ltac:(lra) i Hi).
  rewrite normalized_pos by exact H. reflexivity.
Qed.
Lemma half_direction' n c1 c2 i : 0 < norm n (vsub c2 c1) -> (i < n)%nat ->
  normalized n (vsub (mid c1 c2) c1) i = (c2 i - c1 i) / norm n (vsub c2 c1).
Proof.
  intros H Hi. rewrite (normalized_ext n _ _ (mid_half' n c1 c2) i Hi), (normalized_scale n (/ 2) _ ltac:(lra) i Hi).
  rewrite normalized_pos by exact H. reflexivity.
Qed.

(** What the path uses of a blend at [c2] between [c1] and [c3]. *)
Record blend_ok (n : nat) (dev : R) (c1 c2 c3 : vec) (g : segment) : Prop := {
  bo_good : seg_good n g;
  bo_start : exists t, / 2 <= t <= 1 /\ veq n (seg_at n g 0) (fun i => c1 i + t * (c2 i - c1 i));
  bo_end : exists t, 0 <= t <= / 2 /\ veq n (seg_at n g (seg_len n g)) (fun i => c2 i + t * (c3 i - c2 i)) /\
             (seg_len n g = 0 -> t = 0);
  bo_near : forall l2 u, 0 <= u <= seg_len n g -> near_polyline n (c1 :: c2 :: c3 :: l2) (Rmax 0 dev) (seg_at n g u);
  bo_pass : seg_len n g = 0 \/ exists u, 0 <= u < seg_len n g /\ norm n (vsub (seg_at n g u) c2) <= Rmax 0 dev;
  bo_arc : ~ is_linear g }.

Lemma blend_is_ok n dev c1 c2 c3 g :
  0 < dev -> 2 * tol < norm n (vsub c2 c1) -> 2 * tol < norm n (vsub c3 c2) ->
  blend n (mid c1 c2) c2 (mid c2 c3) dev = Some g -> blend_ok n dev c1 c2 c3 g.
Proof.
  intros Hd H1 H2 HB. pose proof tol_pos as TP.
  destruct (blend_cases _ _ _ _ _ _ Hd HB) as [ -> |(ed & h & d & r & ctr & x & -> & _ & _ & A)].
  - split.
    + cbn. split; [lra|left; reflexivity].
    + exists 1. split; [lra|]. intros i Hi. rewrite degenerate_at. ring.
    + exists 0. split; [lra|]. split; [|reflexivity]. intros i Hi. rewrite degenerate_at. ring.
    + intros l2 u Hu. exists [], c1, c2, (c3 :: l2), 1. split; [reflexivity|]. split; [lra|].
      replace (norm n _) with 0; [apply Rmax_l|]. symmetry. apply norm_zero. intros i Hi. unfold vzero.
      rewrite degenerate_at. ring.
    + left. reflexivity.
    + intros [].
  - set (sd := normalized n (vsub c2 (mid c1 c2))) in *.
    set (L1 := norm n (vsub c2 c1)) in *. set (L2 := norm n (vsub c3 c2)) in *.
    pose proof (arc_r_pos _ _ _ _ _ _ _ _ _ _ _ _ A) as Rp. pose proof (arc_len_pos _ _ _ _ _ _ _ _ _ _ _ _ A) as Lp.
    pose proof (ao_h _ _ _ _ _ _ _ _ _ _ _ _ A) as Hh. pose proof (ao_d _ _ _ _ _ _ _ _ _ _ _ _ A) as Dp.
    pose proof (ao_d1 _ _ _ _ _ _ _ _ _ _ _ _ A) as D1. pose proof (ao_d2 _ _ _ _ _ _ _ _ _ _ _ _ A) as D2.
    rewrite (norm_ext n _ _ (mid_half n c1 c2)), norm_half in D1. fold L1 in D1.
    rewrite (norm_ext n _ _ (mid_half' n c2 c3)), norm_half in D2. fold L2 in D2.
    assert (Esd : forall i, (i < n)%nat -> sd i = (c2 i - c1 i) / L1) by (intros i Hi; apply half_direction; [fold L1; lra|exact Hi]).
    assert (Eed : forall i, (i < n)%nat -> ed i = (c3 i - c2 i) / L2).
    { intros i Hi. rewrite (ao_ed _ _ _ _ _ _ _ _ _ _ _ _ A i Hi). apply half_direction'; [fold L2; lra|exact Hi]. }
    split.
    + cbn [seg_good]. split; [exact Rp|right]. split; [split; [exact Lp|]|].
      * apply Rmult_le_compat_r; lra.
      * split; [apply (arc_xx _ _ _ _ _ _ _ _ _ _ _ _ A)|]. split; [apply (arc_xsd _ _ _ _ _ _ _ _ _ _ _ _ A)|].
        apply (ao_sd1 _ _ _ _ _ _ _ _ _ _ _ _ A).
    + exists (1 - d / L1). split.
      * split.
        -- assert (d / L1 <= / 2); [|lra]. apply (Rmult_le_reg_r L1); [lra|]. unfold Rdiv. rewrite Rmult_assoc, Rinv_l by lra. lra.
        -- assert (0 <= d / L1) by (apply div_nonneg; lra). lra.
      * intros i Hi. rewrite seg_at_arc, (arc_start _ _ _ _ _ _ _ _ _ _ _ _ A), (Esd i Hi). field. lra.
    + exists (d / L2). split; [|split].
      * split; [apply div_nonneg; lra|]. apply (Rmult_le_reg_r L2); [lra|]. unfold Rdiv. rewrite Rmult_assoc, Rinv_l by lra. lra.
      * intros i Hi. cbn [seg_len]. rewrite seg_at_arc, (arc_end _ _ _ _ _ _ _ _ _ _ _ _ A), (Eed i Hi). field. lra.
      * cbn [seg_len]. lra.
    + intros l2 u Hu. cbn [seg_len] in Hu. rewrite seg_at_arc.
      assert (Hphi : 0 <= u / r <= 2 * h).
      { split; [apply div_nonneg; lra|]. apply (Rmult_le_reg_r r); [lra|]. unfold Rdiv. rewrite Rmult_assoc, Rinv_l by lra. lra. }
      destruct (Rle_dec (u / r) h) as [Hc|Hc].
      * destruct (arc_near_first _ _ _ _ _ _ _ _ _ _ _ _ A (u / r)) as (t & Ht & N); [lra|].
        rewrite (norm_ext n _ _ (mid_half n c1 c2)), norm_half in Ht. fold L1 in Ht.
        exists [], c1, c2, (c3 :: l2), (1 - t / L1). split; [reflexivity|].
        assert (0 <= t / L1 <= 1).
        { split; [apply div_nonneg; lra|]. apply (Rmult_le_reg_r L1); [lra|]. unfold Rdiv. rewrite Rmult_assoc, Rinv_l by lra. lra. }
        split; [lra|].
        eapply Rle_trans; [|apply Rmax_r]. eapply Rle_trans; [|exact N].
        right. apply norm_ext. intros i Hi. rewrite (Esd i Hi). field. lra.
      * destruct (arc_near_second _ _ _ _ _ _ _ _ _ _ _ _ A (u / r)) as (t & Ht & N); [lra|].
        rewrite (norm_ext n _ _ (mid_half' n c2 c3)), norm_half in Ht. fold L2 in Ht.
        exists [c1], c2, c3, l2, (t / L2). split; [reflexivity|].
        assert (0 <= t / L2 <= 1).
        { split; [apply div_nonneg; lra|]. apply (Rmult_le_reg_r L2); [lra|]. unfold Rdiv. rewrite Rmult_assoc, Rinv_l by lra. lra. }
        split; [lra|].
        eapply Rle_trans; [|apply Rmax_r]. eapply Rle_trans; [|exact N].
        right. apply norm_ext. intros i Hi. rewrite (Eed i Hi). field. lra.
    + right. exists (h * r). cbn [seg_len]. split; [split; nra|].
      eapply Rle_trans; [|apply Rmax_r]. eapply Rle_trans; [|apply (arc_near_corner _ _ _ _ _ _ _ _ _ _ _ _ A)].
      right. apply norm_ext. intros i Hi. unfold vsub. rewrite seg_at_arc. replace (h * r / r) with h by (field; lra). reflexivity.
    + intros [].
Qed.

Lemma segs_ok_blend n dev c1 c2 c3 start rest' g l :
  0 < dev -> separated n (c1 :: c2 :: c3 :: rest') -> on_leg n c1 start (c2 :: c3 :: rest') -> blend_ok n dev c1 c2 c3 g ->
  segs_ok n dev c2 (seg_at n g (seg_len n g)) (c3 :: rest') l ->
  segs_ok n dev c1 start (c2 :: c3 :: rest')
    ((if Rltb tol (norm n (vsub (seg_at n g 0) start)) then [Linear start (seg_at n g 0)] else []) ++ g :: l).
Proof.
  intros Hd Sep (t & Ht & Es) [Bg (t1 & Ht1 & B1) (t2 & Ht2 & B2 & B3) Bn Bp Ba] [Nl G L La N P F].
  pose proof (Sep [] c1 c2 (c3 :: rest') eq_refl) as S1. pose proof tol_pos as TP.
  pose proof (seg_len_nonneg n g Bg) as Lg.
  set (e := seg_at n g 0) in *.
  assert (HL : l <> []).
  { intros ->. destruct La as (l0 & a & E); [discriminate|]. destruct l0; discriminate. }
  assert (Pc2 : on_segments n (g :: l) (fun p => norm n (vsub p c2) <= Rmax 0 dev)).
  { destruct Bp as [Z|(u & Hu & HP)].
    - destruct F as (e' & l' & E); [|discriminate|].
      + intros i Hi. rewrite (B2 i Hi), (B3 Z). ring.
      + apply (on_segments_app n [g] l _ HL). subst l. pose proof (Forall_inv G) as G1. cbn [seg_good] in G1.
        apply (on_segments_head n _ _ _ 0); [cbn [seg_len]; lra|].
        rewrite norm_self; [apply Rmax_l|]. intros i Hi. rewrite linear_start by exact G1. rewrite (B2 i Hi), (B3 Z). ring.
    - apply (on_segments_head n _ _ _ u Hu HP). }
  assert (Z : seg_len n g = 0 -> match l with [] => False | g' :: _ => is_linear g' end).
  { intros Z. destruct F as (e' & l' & E); [|discriminate|rewrite E; exact I].
    intros i Hi. rewrite (B2 i Hi), (B3 Z). ring. }
  assert (J : forall q, norm n (vsub e q) <= tol -> joins n q g).
  { intros q Hq. destruct g; [exfalso; apply Ba; exact I|exact Hq]. }
  destruct (Rltb tol (norm n (vsub e start))) eqn:EG.
  - apply Rltb_true in EG. cbn [app]. split.
    + discriminate.
    + constructor; [cbn [seg_good]; lra|constructor; assumption].
    + change (linked n start (Linear start e :: g :: l)) with
        (veq n start start /\ (seg_len n (Linear start e) = 0 -> is_linear g) /\
         linked n (seg_at n (Linear start e) (seg_len n (Linear start e))) (g :: l)).
      split; [apply veq_refl|]. split; [cbn [seg_len]; lra|].
      cbn [linked]. split; [|split; [exact Z|exact L]].
      apply J. rewrite norm_self; [lra|]. intros i Hi. cbn [seg_len]. symmetry. apply linear_end. lra.
    + intros _. destruct La as (l0 & a & E); [discriminate|]. exists (Linear start e :: g :: l0), a. rewrite E.
      change (last (c2 :: c3 :: rest') c1) with (last (c3 :: rest') c1). rewrite (last_default rest' c3 c1 c2). reflexivity.
    + intros g' [ <- |[ <- |Hg]] u Hu.
      * apply (linear_on_leg n c1 c2 (c3 :: rest') start e t t1); try lra; try assumption. apply Rmax_l.
      * apply Bn, Hu.
      * apply near_polyline_cons. apply N; assumption.
    + intros w [ <- |Hw].
      * apply (on_segments_app n [Linear start e] (g :: l)); [discriminate|exact Pc2].
      * apply (on_segments_app n [Linear start e; g] l _ HL). apply P, Hw.
    + intros _ _. eexists _, _. reflexivity.
  - apply Rltb_false in EG. cbn [app]. split.
    + discriminate.
    + constructor; assumption.
    + cbn [linked]. split; [apply J, EG|]. split; [exact Z|exact L].
    + intros _. destruct La as (l0 & a & E); [discriminate|]. exists (g :: l0), a. rewrite E.
      change (last (c2 :: c3 :: rest') c1) with (last (c3 :: rest') c1). rewrite (last_default rest' c3 c1 c2). reflexivity.
    + intros g' [ <- |Hg] u Hu.
      * apply Bn, Hu.
      * apply near_polyline_cons. apply N; assumption.
    + intros w [ <- |Hw].
      * exact Pc2.
      * apply (on_segments_app n [g] l _ HL). apply P, Hw.
    + intros V _. exfalso.
      assert (tol < norm n (vsub e start)); [|lra].
      rewrite (norm_ext n (vsub e start) (fun i => t1 * vsub c2 c1 i)).
      * rewrite norm_scale, Rabs_pos_eq by lra. nra.
      * intros i Hi. unfold vsub. rewrite (B1 i Hi), (V i Hi). ring.
Qed.

Theorem path_segments_ok n dev : forall rest c1 start,
  separated n (c1 :: rest) -> (0 < dev -> no_reversal n (c1 :: rest)) -> on_leg n c1 start rest ->
  exists l, path_segments n dev c1 start rest = Some l /\ segs_ok n dev c1 start rest l.
Proof.
  induction rest as [|c2 rest IH]; intros c1 start Sep NR On.
  - exists []. split; [reflexivity|]. split; try constructor; try contradiction; auto; intros; try contradiction; congruence.
  - destruct rest as [|c3 rest].
    + exists [Linear start c2]. split; [reflexivity|]. apply segs_ok_linear; try assumption.
      split; try constructor; try contradiction; auto; intros; try contradiction; congruence.
    + change (path_segments n dev c1 start (c2 :: c3 :: rest)) with
        (if Rltb 0 dev then
            match blend n (mid c1 c2) c2 (mid c2 c3) dev with
            | None => None
            | Some g =>
                match seg_config n g 0, seg_config n g (seg_len n g) with
                | Some e, Some start' =>
                    match path_segments n dev c2 start' (c3 :: rest) with
                    | None => None
                    | Some l =>
                        Some ((if Rltb tol (norm n (vsub e start)) then [Linear start e] else []) ++ g :: l)
                    end
                | _, _ => None
                end
            end
          else
            match path_segments n dev c2 c2 (c3 :: rest) with
            | None => None
            | Some l => Some (Linear start c2 :: l)
            end).
      pose proof tol_pos as TP.
      pose proof (Sep [] c1 c2 (c3 :: rest) eq_refl) as S1.
      pose proof (separated_tl _ _ _ Sep [] c2 c3 rest eq_refl) as S2.
      destruct (Rltb 0 dev) eqn:ED.
      * apply Rltb_true in ED.
        destruct (blend_some n (mid c1 c2) c2 (mid c2 c3) dev) as (g & EB).
        { intros (k & Hk & V). apply (NR ED [] c1 c2 c3 rest eq_refl). exists k. split; [exact Hk|].
          intros i Hi. specialize (V i Hi). cbn beta in V. unfold vsub, mid in V. unfold vsub. lra. }
        rewrite EB. pose proof (blend_is_ok n dev c1 c2 c3 g ED S1 S2 EB) as B.
        rewrite !(seg_config_some n g) by apply (bo_good _ _ _ _ _ _ B).
        destruct (IH c2 (seg_at n g (seg_len n g))) as (l & El & Ol).
        { apply (separated_tl _ _ _ Sep). }
        { intros _. apply (no_reversal_tl _ _ _ (NR ED)). }
        { destruct (bo_end _ _ _ _ _ _ B) as (t & Ht & V & _). exists t. split; assumption. }
        rewrite El. eexists. split; [reflexivity|]. apply segs_ok_blend; assumption.
      * destruct (IH c2 c2) as (l & El & Ol).
        { apply (separated_tl _ _ _ Sep). }
        { intros Hd. apply Rltb_false in ED. lra. }
        { exists 0. split; [lra|]. intros i Hi. ring. }
        rewrite El. eexists. split; [reflexivity|]. apply segs_ok_linear; assumption.
Qed.
