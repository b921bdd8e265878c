(** The path as a whole: where a position is, configurations, tangents, curvatures and switching points. *)
From Coq Require Import Reals Lra Psatz.
From Verif Require Import Base MathModel TotpModel TotpVec TotpArc TotpPath TotpLookup.
Open Scope R_scope.

(** Any path Path::Path makes from waypoints that are apart: its segment list and switching points. *)
Record route (n : nat) (dev : R) (w0 : vec) (ws : list vec) (p : path) (l : list segment) : Prop := {
  ro_segs : p_segs p = posn n 0 l;
  ro_len : p_len p = total n 0 l;
  ro_ok : segs_ok n dev w0 w0 ws l;
  ro_sorted : forall l1 a b l2, p_switch p = l1 ++ a :: b :: l2 -> fst a <= fst b;
  ro_in : forall q d, In (q, d) (p_switch p) <-> q < total n 0 l /\
     exists l1 g l2, l = l1 ++ g :: l2 /\
       ((d = true /\ q = total n 0 (l1 ++ [g])) \/ (d = false /\ exists u, In u (seg_switching n g) /\ q = total n 0 l1 + u)) }.

Lemma sw_sorted_adj len l : sw_sorted len l -> forall l1 a b l2, l = l1 ++ a :: b :: l2 -> fst b <= fst a.
Proof.
  intros S. induction S as [|len p d l Hp S IH]; intros l1 a b l2 E; [destruct l1; discriminate|].
  destruct l1 as [|c l1]; cbn [app] in E; injection E as E1 E2.
  - subst a. destruct b as [q e]. subst l. inversion S; subst. cbn [fst]. assumption.
  - apply (IH l1 a b l2 E2).
Qed.

Lemma path_route n dev w0 ws : ws <> [] -> separated n (w0 :: ws) -> (0 < dev -> no_reversal n (w0 :: ws)) ->
  exists p l, path_make n (w0 :: ws) dev = Some p /\ route n dev w0 ws p l.
Proof.
  intros NE Sep NR.
  destruct (path_segments_ok n dev ws w0 w0 Sep NR) as (l & El & Ol).
  { destruct ws; [exact I|]. exists 0. split; [lra|]. intros i _. ring. }
  assert (HL : l <> []). { intros ->. destruct (so_last _ _ _ _ _ _ Ol NE) as (l0 & a & E). destruct l0; discriminate. }
  destruct (place_switch n l 0 [] (so_good _ _ _ _ _ _ Ol) (sw_nil 0)) as (sw & Ep & S1 & S2 & _ & S4 & S5).
  destruct (S5 HL) as (sw0 & E0 & B0).
  exists (Path (posn n 0 l) (total n 0 l) (rev (tl sw))), l. split.
  - destruct ws as [|w1 ws]; [contradiction|]. cbn [path_make]. rewrite El, Ep. reflexivity.
  - split; cbn [p_segs p_len p_switch]; auto.
    + intros l1 a b l2 E. subst sw. cbn [tl] in E. apply (f_equal (@rev _)) in E. rewrite rev_involutive, rev_app_distr in E. cbn [rev] in E.
      rewrite <- !app_assoc in E. cbn [app] in E. inversion S1; subst.
      eapply sw_sorted_adj; eauto.
    + intros q d. subst sw. cbn [tl]. rewrite <- in_rev. split.
      * intros H. split; [apply (B0 q d H)|]. destruct (S2 q d (or_intror H)) as [[]|H1]. exact H1.
      * intros (Hq & l1 & g & l2 & E & H). destruct (S4 l1 g l2 E) as [T1 T2].
        destruct H as [[ -> -> ]|[ -> (u & Hu & -> )]].
        -- destruct T1 as [T1|T1]; [injection T1 as T1; lra|exact T1].
        -- destruct (T2 u Hu) as [T|T]; [injection T as T T'; discriminate|exact T].
Qed.

Section Route.
Context {n : nat} {dev : R} {w0 : vec} {ws : list vec} {p : path} {l : list segment}.
Hypothesis RT : route n dev w0 ws p l.
Hypothesis NE : ws <> [].
Let O := ro_ok _ _ _ _ _ _ RT.
Let G := so_good _ _ _ _ _ _ O.

Lemma route_first : exists e l', l = Linear w0 e :: l'.
Proof. apply (so_first _ _ _ _ _ _ O); [apply veq_refl|exact NE]. Qed.
Lemma route_last : exists l0 a, l = l0 ++ [Linear a (last ws w0)].
Proof. apply (so_last _ _ _ _ _ _ O NE). Qed.
Lemma route_good g : In g l -> seg_good n g.
Proof. intros H. apply (proj1 (Forall_forall _ _) G g H). Qed.
Lemma route_len_pos : 0 < p_len p.
Proof.
  rewrite (ro_len _ _ _ _ _ _ RT). destruct route_first as (e & l' & E). rewrite E in *. cbn [total].
  pose proof (Forall_inv G) as G1. cbn [seg_good] in G1. pose proof (total_ge n l' (0 + seg_len n (Linear w0 e)) (Forall_inv_tail G)) as T. cbn [seg_len] in *. lra.
Qed.

(** [s] is on segment [g], which comes after the segments [l1]. *)
Definition located (s : R) (l1 : list segment) (g : segment) (l2 : list segment) : Prop :=
  l = l1 ++ g :: l2 /\ (total n 0 l1 <= s \/ l1 = []) /\ (l2 = [] \/ s < total n 0 l1 + seg_len n g).
Lemma located_ex s : exists l1 g l2, located s l1 g l2.
Proof.
  destruct route_first as (e & l' & E). unfold located.
  destruct (Rle_dec 0 s) as [H|H].
  - destruct (find_segment_spec n s l' 0 (Linear w0 e)) as (l1 & g & l2 & E1 & _ & E3 & E4); [rewrite <- E; exact G|exact H|].
    exists l1, g, l2. rewrite E, E1. auto.
  - exists [], (Linear w0 e), l'. rewrite E. split; [reflexivity|]. split; [auto|]. right. cbn [total seg_len].
    pose proof (norm_nonneg n (vsub e w0)). lra.
Qed.
Lemma located_segment s l1 g l2 : located s l1 g l2 -> path_segment p s = Ok (g, s - total n 0 l1).
Proof.
  intros (E & H1 & H2). unfold path_segment. rewrite (ro_segs _ _ _ _ _ _ RT).
  destruct l as [|g0 l'] eqn:El; [destruct l1; discriminate|]. cbn [posn].
  destruct (Rle_dec (total n 0 l1) s) as [H|H].
  - rewrite (find_segment_at n s l2 g l1 0 g0 l'); auto.
  - destruct H1 as [H1| -> ]; [contradiction|]. cbn [app total] in *. injection E as -> ->.
    rewrite (find_segment_before n s l2 0 g); [reflexivity|exact G|lra].
Qed.
Lemma located_in s l1 g l2 : located s l1 g l2 -> In g l.
Proof. intros (E & _). rewrite E. apply in_elt. Qed.
Lemma located_len s l1 g l2 : located s l1 g l2 -> 0 < seg_len n g.
Proof.
  intros L. pose proof (route_good g (located_in _ _ _ _ L)) as Gg. pose proof (seg_len_nonneg n g Gg). destruct L as (E & H1 & H2).
  destruct route_last as (l0 & a & El). rewrite El in E.
  destruct H2 as [ -> |H2].
  - apply app_inj_tail in E. destruct E as [_ <-]. cbn [seg_good] in Gg. exact Gg.
  - destruct H1 as [H1| -> ]; [lra|]. destruct route_first as (e & l' & Ef). rewrite El, E in Ef. cbn [app] in Ef. injection Ef as -> _. cbn [seg_good] in Gg. exact Gg.
Qed.
Definition seg_tan (g : segment) (u : R) : vec := match seg_tangent n g u with Some v => v | None => vzero end.
Definition seg_cur (g : segment) (u : R) : vec := match seg_curvature n g u with Some v => v | None => vzero end.
Lemma located_getters s l1 g l2 : located s l1 g l2 ->
  path_config n p s = Ok (Some (seg_at n g (s - total n 0 l1))) /\
  path_tangent n p s = Ok (Some (seg_tan g (s - total n 0 l1))) /\
  path_curvature n p s = Ok (Some (seg_cur g (s - total n 0 l1))).
Proof.
  intros L. pose proof (located_segment _ _ _ _ L) as E. pose proof (route_good g (located_in _ _ _ _ L)) as Gg.
  unfold path_config, path_tangent, path_curvature. rewrite E. cbn [obind]. split; [|split].
  - rewrite (seg_config_some n g); auto.
  - unfold seg_tan. destruct g; cbn [seg_tangent seg_good] in *; [|reflexivity]. unfold Reqb. destruct (Req_EM_T _ 0); [lra|reflexivity].
  - unfold seg_cur. destruct g; reflexivity.
Qed.

(** The end of a list of segments is at or before the end of any longer one. *)
Lemma total_prefix l1 l2 : l = l1 ++ l2 -> total n 0 l1 <= total n 0 l.
Proof.
  intros E. rewrite E, total_app. apply total_ge. rewrite E in G. apply Forall_app in G. apply G.
Qed.
Lemma total_nonneg l1 l2 : l = l1 ++ l2 -> 0 <= total n 0 l1.
Proof. intros E. apply total_ge. rewrite E in G. apply Forall_app in G. apply G. Qed.
Lemma total_snoc l1 g : total n 0 (l1 ++ [g]) = total n 0 l1 + seg_len n g.
Proof. rewrite total_app. reflexivity. Qed.
Lemma located_end s l1 g : located s l1 g [] -> total n 0 l1 + seg_len n g = p_len p.
Proof. intros (E & _). rewrite (ro_len _ _ _ _ _ _ RT), E, total_snoc. reflexivity. Qed.
(** Positions inside a segment are located there. *)
Lemma located_inside s l1 g l2 : l = l1 ++ g :: l2 -> total n 0 l1 <= s -> s < total n 0 l1 + seg_len n g -> located s l1 g l2.
Proof. intros E H1 H2. split; auto. Qed.

(** A segment boundary strictly inside the path is flagged. *)
Lemma boundary_flagged l1 l2 : l = l1 ++ l2 -> 0 < total n 0 l1 < p_len p -> In (total n 0 l1, true) (p_switch p).
Proof.
  intros E H. apply (ro_in _ _ _ _ _ _ RT). rewrite <- (ro_len _ _ _ _ _ _ RT). split; [lra|].
  destruct (exists_last (l := l1)) as (l0 & g & ->); [intros ->; cbn in H; lra|].
  exists l0, g, l2. rewrite E, <- app_assoc. split; [reflexivity|]. left. auto.
Qed.
End Route.

(** ** Derivatives on a segment *)
Lemma derive_lin (f : R -> R) a b s : (forall u, f u = a + b * u) -> derivable_pt_lim f s b.
Proof.
  intros H eps He. exists (mkposreal 1 Rlt_0_1). intros h Hh _. rewrite !H.
  replace ((a + b * (s + h) - (a + b * s)) / h - b) with 0 by (field; exact Hh). rewrite Rabs_R0. exact He.
Qed.
Lemma derive_local (f g : R -> R) s d r : 0 < r -> (forall u, Rabs (u - s) < r -> f u = g u) -> derivable_pt_lim g s d -> derivable_pt_lim f s d.
Proof.
  intros Hr H D eps He. destruct (D eps He) as (de & Hd).
  assert (P : 0 < Rmin r de) by (apply Rmin_glb_lt; [exact Hr|apply (cond_pos de)]).
  exists (mkposreal _ P). cbn [pos]. intros h Hh Hl.
  assert (Rabs h < r) by (eapply Rlt_le_trans; [exact Hl|apply Rmin_l]).
  assert (Rabs h < de) by (eapply Rlt_le_trans; [exact Hl|apply Rmin_r]).
  rewrite (H (s + h)), (H s).
  - apply Hd; assumption.
  - replace (s - s) with 0 by ring. rewrite Rabs_R0. exact Hr.
  - replace (s + h - s) with h by ring. assumption.
Qed.
Lemma derive_trig a b c r s : r <> 0 ->
  derivable_pt_lim (fun u => c + r * (a * cos ((u) / r) + b * sin (u / r))) s (- a * sin (s / r) + b * cos (s / r)).
Proof.
  intros Hr.
  assert (D : derivable_pt_lim (fun u => u / r) s (/ r)) by (apply (derive_lin _ 0); intros; field; exact Hr).
  assert (Dc : derivable_pt_lim (fun u => cos (u / r)) s (- sin (s / r) * / r)) by (apply (derivable_pt_lim_comp (fun u => u / r) cos); [exact D|apply derivable_pt_lim_cos]).
  assert (Ds : derivable_pt_lim (fun u => sin (u / r)) s (cos (s / r) * / r)) by (apply (derivable_pt_lim_comp (fun u => u / r) sin); [exact D|apply derivable_pt_lim_sin]).
  assert (D2 := derivable_pt_lim_plus _ _ _ _ _ (derivable_pt_lim_scal _ a _ _ Dc) (derivable_pt_lim_scal _ b _ _ Ds)).
  assert (D3 := derivable_pt_lim_plus _ _ _ _ _ (derivable_pt_lim_const c s) (derivable_pt_lim_scal _ r _ _ D2)).
  assert (E : 0 + r * (a * (- sin (s / r) * / r) + b * (cos (s / r) * / r)) = - a * sin (s / r) + b * cos (s / r)) by (field; exact Hr).
  rewrite E in D3. exact D3.
Qed.
Lemma derive_shift f s c d : derivable_pt_lim f (s - c) d -> derivable_pt_lim (fun u => f (u - c)) s d.
Proof.
  intros D. assert (X := derivable_pt_lim_comp (fun u => u - c) f s 1 d). unfold comp in X. rewrite Rmult_1_r in X.
  apply X; [|exact D]. apply (derive_lin _ (- c)). intros; ring.
Qed.

Lemma seg_derive n g u i : seg_good n g -> 0 < u < seg_len n g ->
  derivable_pt_lim (fun v => seg_at n g v i) u (seg_tan (n := n) g u i) /\ derivable_pt_lim (fun v => seg_tan (n := n) g v i) u (seg_cur (n := n) g u i).
Proof.
  intros Gg Hu. destruct g as [a b|len r ctr x y].
  - cbn [seg_good seg_len] in *. set (L := norm n (vsub b a)) in *.
    unfold seg_tan, seg_cur. cbn [seg_tangent seg_curvature]. fold L. unfold Reqb. destruct (Req_EM_T L 0); [lra|]. split.
    + apply (derive_local _ (fun v => a i + (b i - a i) / L * v) u _ (Rmin u (L - u))).
      * apply Rmin_glb_lt; lra.
      * intros v Hv. rewrite linear_at; fold L; [field; lra|lra|].
        assert (Rabs (v - u) < u) by (eapply Rlt_le_trans; [exact Hv|apply Rmin_l]).
        assert (Rabs (v - u) < L - u) by (eapply Rlt_le_trans; [exact Hv|apply Rmin_r]).
        apply Rabs_def2 in H. apply Rabs_def2 in H0. lra.
      * apply (derive_lin _ (a i)). reflexivity.
    + apply (derive_lin _ ((b i - a i) / L) 0). intros; ring.
  - destruct Gg as [Hr _]. split.
    + unfold seg_tan. cbn [seg_tangent]. apply (derive_trig (x i) (y i) (ctr i) r u). lra.
    + unfold seg_tan, seg_cur. cbn [seg_tangent seg_curvature].
      assert (D := derive_trig (y i / r) (- x i / r) 0 r u ltac:(lra)).
      apply (derive_local _ (fun v => 0 + r * (y i / r * cos (v / r) + - x i / r * sin (v / r))) u _ 1); [lra|intros; field; lra|].
      replace (-1 / r * (x i * cos (u / r) + y i * sin (u / r))) with (- (y i / r) * sin (u / r) + - x i / r * cos (u / r)) by (field; lra). exact D.
Qed.
Lemma seg_tan_unit n g u : seg_good n g -> 0 < seg_len n g -> norm n (seg_tan (n := n) g u) = 1.
Proof.
  destruct g as [a b|len r ctr x y]; cbn [seg_good seg_len]; intros Gg Hl; unfold seg_tan; cbn [seg_tangent].
  - unfold Reqb. destruct (Req_EM_T (norm n (vsub b a)) 0); [lra|].
    rewrite (norm_ext n _ (fun i => / norm n (vsub b a) * vsub b a i)) by (intros i _; unfold vsub; field; exact n0).
    rewrite norm_scale, Rabs_pos_eq by (left; apply Rinv_0_lt_compat; lra). field. exact n0.
  - destruct Gg as [Hr [Z|(_ & X & XY & Y)]]; [lra|]. apply norm_unique; [lra|].
    rewrite (dot_ext n _ (fun i => - sin (u / r) * x i + cos (u / r) * y i) _ (fun i => - sin (u / r) * x i + cos (u / r) * y i)) by (intros i _; ring).
    rewrite dot_comb, X, XY, Y. pose proof (sin2_cos2 (u / r)) as SC. unfold Rsqr in SC. lra.
Qed.

(** ** A segment is traversed at unit speed: points are no further apart than their positions *)
Lemma chord_le_arc a : 2 - 2 * cos a <= a * a.
Proof.
  assert (S : forall t, 0 <= t -> sin t <= t).
  { intros t Ht. destruct (Req_dec t 0) as [ -> |N]; [rewrite sin_0; lra|]. left. apply sin_lt_x. lra. }
  replace (2 - 2 * cos a) with (4 * (sin (a / 2) * sin (a / 2))).
  - assert (Rabs (sin (a / 2)) <= Rabs (a / 2)).
    { destruct (Rle_dec 0 (a / 2)) as [H|H].
      - rewrite (Rabs_pos_eq (a / 2)) by exact H. apply Rabs_le. split; [|apply S, H].
        destruct (Rle_dec (a / 2) 1) as [L|L]; [|pose proof (SIN_bound (a / 2)); lra].
        assert (0 <= sin (a / 2)); [|lra]. apply sin_ge_0; [exact H|]. pose proof PI_4. pose proof PI2_1. lra.
      - rewrite (Rabs_left (a / 2)) by lra. assert (T : 0 <= - (a / 2)) by lra. specialize (S _ T). rewrite sin_neg in S.
        apply Rabs_le. split; [lra|].
        destruct (Rle_dec (- (a / 2)) 1) as [L|L]; [|pose proof (SIN_bound (a / 2)); lra].
        assert (0 <= sin (- (a / 2))); [|rewrite sin_neg in H0; lra]. apply sin_ge_0; [exact T|]. pose proof PI2_1. lra. }
    assert (Q : Rabs (sin (a / 2)) * Rabs (sin (a / 2)) <= Rabs (a / 2) * Rabs (a / 2)) by (apply Rmult_le_compat; auto using Rabs_pos).
    rewrite <- !Rabs_mult in Q. rewrite !Rabs_pos_eq in Q by nra. nra.
  - replace (cos a) with (cos (2 * (a / 2))) by (f_equal; field). rewrite cos_2a_sin. ring.
Qed.
Lemma seg_lipschitz n g u v : seg_good n g -> 0 <= u <= seg_len n g -> 0 <= v <= seg_len n g ->
  norm n (vsub (seg_at n g u) (seg_at n g v)) <= Rabs (u - v).
Proof.
  intros Gg Hu Hv. destruct g as [a b|len r ctr x y].
  - cbn [seg_good seg_len] in *. set (L := norm n (vsub b a)) in *.
    rewrite (norm_ext n _ (fun i => ((u - v) / L) * vsub b a i)).
    + rewrite norm_scale. fold L. unfold Rdiv. rewrite Rabs_mult, (Rabs_pos_eq (/ L)) by (left; apply Rinv_0_lt_compat; lra).
      right. field. lra.
    + intros i _. unfold vsub at 1. rewrite !linear_at; fold L; try lra; try assumption. unfold vsub. field. lra.
  - destruct Gg as [Hr [Z|(_ & X & XY & Y)]].
    + subst len. cbn [seg_len] in *. replace u with v by lra. rewrite norm_self by apply veq_refl. apply Rabs_pos.
    + pose proof (norm_nonneg n (vsub (seg_at n (Arc len r ctr x y) u) (seg_at n (Arc len r ctr x y) v))) as NN.
      pose proof (norm_sq n (vsub (seg_at n (Arc len r ctr x y) u) (seg_at n (Arc len r ctr x y) v))) as Q.
      assert (V : veq n (vsub (seg_at n (Arc len r ctr x y) u) (seg_at n (Arc len r ctr x y) v))
        (fun i => r * (cos (u / r) - cos (v / r)) * x i + r * (sin (u / r) - sin (v / r)) * y i)).
      { intros i _. unfold vsub. rewrite !seg_at_arc. ring. }
      rewrite (dot_ext n _ _ _ _ V V), dot_comb, X, XY, Y in Q.
      pose proof (chord_le_arc (u / r - v / r)) as C. rewrite cos_minus in C.
      pose proof (sin2_cos2 (u / r)) as S1. pose proof (sin2_cos2 (v / r)) as S2. unfold Rsqr in S1, S2.
      assert (E : r * r * ((u / r - v / r) * (u / r - v / r)) = (u - v) * (u - v)) by (field; lra).
      assert (B : norm n (vsub (seg_at n (Arc len r ctr x y) u) (seg_at n (Arc len r ctr x y) v)) *
                  norm n (vsub (seg_at n (Arc len r ctr x y) u) (seg_at n (Arc len r ctr x y) v)) <= (u - v) * (u - v)).
      { rewrite Q, <- E. assert (0 < r * r) by nra.
        replace (r * (cos (u / r) - cos (v / r)) * (r * (cos (u / r) - cos (v / r))) * 1 +
          (r * (cos (u / r) - cos (v / r)) * (r * (sin (u / r) - sin (v / r))) + r * (sin (u / r) - sin (v / r)) * (r * (cos (u / r) - cos (v / r)))) * 0 +
          r * (sin (u / r) - sin (v / r)) * (r * (sin (u / r) - sin (v / r))) * 1)
          with (r * r * (2 - 2 * (cos (u / r) * cos (v / r) + sin (u / r) * sin (v / r)))); [|nra].
        apply Rmult_le_compat_l; lra. }
      set (N := norm n (vsub (seg_at n (Arc len r ctr x y) u) (seg_at n (Arc len r ctr x y) v))) in *.
      destruct (Rle_dec N (Rabs (u - v))) as [OK|NO]; [exact OK|]. exfalso. apply Rnot_le_lt in NO.
      pose proof (Rabs_pos (u - v)). assert (Rabs (u - v) * Rabs (u - v) = (u - v) * (u - v)) by (rewrite <- Rabs_mult, Rabs_pos_eq by nra; reflexivity).
      nra.
Qed.
