(** With a positive deviation the direction of travel has no jumps larger than the tolerance. *)
From Coq Require Import Reals Lra Psatz.
From Verif Require Import Base MathModel TotpModel TotpVec TotpArc TotpPath TotpLookup TotpRoute.
Open Scope R_scope.

Notation seg_tan n g u := (@seg_tan n g u).

(** Directions at the joints: [d] is the direction in which the previous segment ended; segments of length zero, which no
    position lies on, are passed over. *)
Inductive tlinked (n : nat) : vec -> list segment -> Prop :=
| tl_nil d : tlinked n d []
| tl_pos d g l : 0 < seg_len n g -> norm n (vsub (seg_tan n g 0) d) <= tol -> tlinked n (seg_tan n g (seg_len n g)) l -> tlinked n d (g :: l)
| tl_zero d g l : seg_len n g = 0 -> tlinked n d l -> tlinked n d (g :: l).

Definition dir (n : nat) (a b : vec) : vec := fun i => (b i - a i) / norm n (vsub b a).

(** A linear segment along a leg points in the direction of the leg. *)
Lemma linear_dir n c1 c2 a b k : 0 < norm n (vsub c2 c1) -> 0 < norm n (vsub b a) -> 0 <= k -> veq n (vsub b a) (fun i => k * vsub c2 c1 i) ->
  forall u, veq n (seg_tan n (Linear a b) u) (dir n c1 c2).
Proof.
  intros H1 H2 Hk V u i Hi. unfold TotpRoute.seg_tan. cbn [seg_tangent]. unfold Reqb. destruct (Req_EM_T (norm n (vsub b a)) 0); [lra|].
  assert (N : norm n (vsub b a) = k * norm n (vsub c2 c1)) by (rewrite (norm_ext n _ _ V), norm_scale, Rabs_pos_eq by exact Hk; reflexivity).
  assert (k <> 0) by (intros ->; lra).
  specialize (V i Hi). cbn beta in V. unfold vsub at 1 in V. unfold vsub at 1 in V. unfold dir. rewrite N, V. unfold vsub. field. split; [unfold vsub in H1; lra|assumption].
Qed.
Lemma norm_sub_ext n a b c d : veq n a c -> veq n b d -> norm n (vsub a b) = norm n (vsub c d).
Proof. intros H1 H2. apply norm_ext. intros i Hi. unfold vsub. rewrite (H1 i Hi), (H2 i Hi). reflexivity. Qed.

(** The joint at a blend: a turn of less than the tolerance, or an arc from one leg's direction to the other's. *)
Lemma blend_dir n dev c1 c2 c3 g : 0 < dev -> 2 * tol < norm n (vsub c2 c1) -> 2 * tol < norm n (vsub c3 c2) ->
  blend n (mid c1 c2) c2 (mid c2 c3) dev = Some g ->
  (seg_len n g = 0 /\ veq n (seg_at n g 0) c2 /\ norm n (vsub (dir n c1 c2) (dir n c2 c3)) <= tol) \/
  (0 < seg_len n g /\ veq n (seg_tan n g 0) (dir n c1 c2) /\ veq n (seg_tan n g (seg_len n g)) (dir n c2 c3)).
Proof.
  intros Hd H1 H2 HB. pose proof tol_pos as TP.
  assert (Esd : veq n (normalized n (vsub c2 (mid c1 c2))) (dir n c1 c2)) by (intros i Hi; apply half_direction; [lra|exact Hi]).
  assert (Eed : veq n (normalized n (vsub (mid c2 c3) c2)) (dir n c2 c3)) by (intros i Hi; apply half_direction'; [lra|exact Hi]).
  destruct (blend_cases _ _ _ _ _ _ Hd HB) as [ -> |(ed & h & d & r & ctr & x & -> & _ & _ & A)].
  - left. split; [reflexivity|]. split; [intros i Hi; apply degenerate_at|].
    unfold blend in HB.
    rewrite (norm_ext n _ _ (mid_half n c1 c2)), norm_half in HB. rewrite (norm_ext n _ _ (mid_half' n c2 c3)), norm_half in HB.
    destruct (Rltb (norm n (vsub c2 c1) / 2) tol) eqn:E1; [apply Rltb_true in E1; lra|].
    destruct (Rltb (norm n (vsub c3 c2) / 2) tol) eqn:E2; [apply Rltb_true in E2; lra|]. cbn [orb] in HB. cbv zeta in HB.
    rewrite (norm_sub_ext n _ _ _ _ Esd Eed) in HB.
    destruct (Rltb (norm n (vsub (dir n c1 c2) (dir n c2 c3))) tol) eqn:E3; [apply Rltb_true in E3; lra|].
    exfalso. destruct (Reqb _ 0) in HB; [discriminate|]. unfold degenerate in HB. injection HB as _ _ _ _ HY.
    assert (U : norm n (normalized n (vsub c2 (mid c1 c2))) = 1).
    { apply normalized_unit. rewrite (norm_ext n _ _ (mid_half n c1 c2)), norm_half. lra. }
    rewrite HY in U. assert (Z : norm n vzero = 0) by (apply norm_zero, veq_refl). lra.
  - right. pose proof (arc_r_pos _ _ _ _ _ _ _ _ _ _ _ _ A) as Rp. pose proof (arc_len_pos _ _ _ _ _ _ _ _ _ _ _ _ A) as Lp.
    cbn [seg_len]. split; [exact Lp|]. unfold TotpRoute.seg_tan. cbn [seg_tangent]. split; intros i Hi.
    + replace (0 / r) with 0 by (field; lra). rewrite sin_0, cos_0, <- (Esd i Hi). ring.
    + replace (2 * h * r / r) with (2 * h) by (field; lra). rewrite (arc_tangent_end _ _ _ _ _ _ _ _ _ _ _ _ A), (ao_ed _ _ _ _ _ _ _ _ _ _ _ _ A i Hi).
      apply Eed, Hi.
Qed.

Lemma path_segments_smooth n dev : 0 < dev -> forall rest c1 c2 start l d,
  separated n (c1 :: c2 :: rest) -> on_leg n c1 start (c2 :: rest) ->
  path_segments n dev c1 start (c2 :: rest) = Some l -> norm n (vsub (dir n c1 c2) d) <= tol -> tlinked n d l.
Proof.
  intros Hd. pose proof tol_pos as TP.
  induction rest as [|c3 rest IH]; intros c1 c2 start l d Sep (t & Ht & Es) HP Hn.
  - pose proof (Sep [] c1 c2 [] eq_refl) as S1. cbn [path_segments] in HP. injection HP as <-.
    pose proof (linear_good_leg n c1 c2 start t Ht S1 Es) as GL.
    apply tl_pos; [cbn [seg_len]; lra| |apply tl_nil].
    rewrite (norm_sub_ext n _ _ (dir n c1 c2) d); [exact Hn| |apply veq_refl].
    apply (linear_dir n c1 c2 start c2 (1 - t)); try lra. intros i Hi. unfold vsub. rewrite (Es i Hi). ring.
  - pose proof (Sep [] c1 c2 (c3 :: rest) eq_refl) as S1. pose proof (separated_tl _ _ _ Sep [] c2 c3 rest eq_refl) as S2.
    pose proof (linear_good_leg n c1 c2 start t Ht S1 Es) as GL.
    change (path_segments n dev c1 start (c2 :: c3 :: rest)) with
        (if Rltb 0 dev then
            match blend n (mid c1 c2) c2 (mid c2 c3) dev with
            | None => None
            | Some g =>
                match seg_config n g 0, seg_config n g (seg_len n g) with
                | Some e, Some start' =>
                    match path_segments n dev c2 start' (c3 :: rest) with
                    | None => None
                    | Some l =>
                        Some ((if Rltb tol (norm n (vsub e start)) then [Linear start e] else []) ++ g :: l)
                    end
                | _, _ => None
                end
            end
          else
            match path_segments n dev c2 c2 (c3 :: rest) with
            | None => None
            | Some l => Some (Linear start c2 :: l)
            end) in HP.
    rewrite (proj2 (Rltb_true 0 dev) Hd) in HP.
    destruct (blend n (mid c1 c2) c2 (mid c2 c3) dev) as [g|] eqn:EB; [|discriminate].
    pose proof (blend_is_ok n dev c1 c2 c3 g Hd S1 S2 EB) as B.
    rewrite !(seg_config_some n g) in HP by apply (bo_good _ _ _ _ _ _ B).
    destruct (path_segments n dev c2 (seg_at n g (seg_len n g)) (c3 :: rest)) as [l'|] eqn:EL; [|discriminate]. injection HP as <-.
    assert (On : on_leg n c2 (seg_at n g (seg_len n g)) (c3 :: rest)).
    { destruct (bo_end _ _ _ _ _ _ B) as (t2 & Ht2 & V & _). exists t2. split; assumption. }
    destruct (bo_start _ _ _ _ _ _ B) as (t1 & Ht1 & V1).
    assert (REST : forall d', (veq n d' (dir n c1 c2) \/ (norm n (vsub (dir n c1 c2) d') <= tol /\ 0 < seg_len n g)) -> tlinked n d' (g :: l')).
    { intros d' D'. destruct (blend_dir n dev c1 c2 c3 g Hd S1 S2 EB) as [(Z & _ & J)|(P & T0 & T1)].
      - apply tl_zero; [exact Z|]. apply (IH c2 c3 (seg_at n g (seg_len n g)) l' d' (separated_tl _ _ _ Sep) On EL).
        destruct D' as [D'|[_ D']]; [|lra]. rewrite norm_sub_sym, (norm_sub_ext n _ _ (dir n c1 c2) (dir n c2 c3)); [exact J|exact D'|apply veq_refl].
      - apply tl_pos; [exact P| |].
        + rewrite (norm_sub_ext n _ _ (dir n c1 c2) d' T0 (veq_refl _ _)). destruct D' as [D'|[D' _]]; [|exact D'].
          rewrite norm_self; [lra|]. apply veq_sym, D'.
        + apply (IH c2 c3 (seg_at n g (seg_len n g)) l' _ (separated_tl _ _ _ Sep) On EL). rewrite norm_self; [lra|]. apply veq_sym, T1. }
    destruct (Rltb tol (norm n (vsub (seg_at n g 0) start))) eqn:EG; cbn [app].
    + apply Rltb_true in EG.
      assert (LD : forall u, veq n (seg_tan n (Linear start (seg_at n g 0)) u) (dir n c1 c2)).
      { apply (linear_dir n c1 c2 start (seg_at n g 0) (t1 - t)); try lra. intros i Hi. unfold vsub. rewrite (Es i Hi), (V1 i Hi). ring. }
      apply tl_pos; [cbn [seg_len]; lra| |apply REST; left; apply LD].
      rewrite (norm_sub_ext n _ _ (dir n c1 c2) d (LD 0) (veq_refl _ _)). exact Hn.
    + apply Rltb_false in EG. apply REST. right. split; [exact Hn|].
      destruct (blend_dir n dev c1 c2 c3 g Hd S1 S2 EB) as [(Z & V0 & _)|(P & _)]; [|exact P].
      exfalso. rewrite (norm_sub_ext n _ _ c2 start V0 (veq_refl _ _)) in EG. lra.
Qed.

(** The direction changes along a segment at a bounded rate. *)
Lemma seg_tan_lipschitz n g : seg_good n g -> exists k, 0 < k /\ forall u v, norm n (vsub (seg_tan n g u) (seg_tan n g v)) <= k * Rabs (u - v) \/ seg_len n g = 0.
Proof.
  intros Gg. destruct g as [a b|len r ctr x y].
  - exists 1. split; [lra|]. intros u v. left. rewrite norm_self; [rewrite Rmult_1_l; apply Rabs_pos|]. intros i Hi. reflexivity.
  - destruct Gg as [Hr [Z|(_ & X & XY & Y)]]; [exists 1; split; [lra|]; intros; right; exact Z|].
    exists (/ r). split; [apply Rinv_0_lt_compat, Hr|]. intros u v. left.
    set (N := norm n (vsub (seg_tan n (Arc len r ctr x y) u) (seg_tan n (Arc len r ctr x y) v))).
    pose proof (norm_nonneg n (vsub (seg_tan n (Arc len r ctr x y) u) (seg_tan n (Arc len r ctr x y) v))) as NN. fold N in NN.
    assert (Q : N * N <= (/ r * Rabs (u - v)) * (/ r * Rabs (u - v))).
    { unfold N. rewrite norm_sq.
      assert (V : veq n (vsub (seg_tan n (Arc len r ctr x y) u) (seg_tan n (Arc len r ctr x y) v))
        (fun i => - (sin (u / r) - sin (v / r)) * x i + (cos (u / r) - cos (v / r)) * y i)).
      { intros i _. unfold vsub, TotpRoute.seg_tan. cbn [seg_tangent]. ring. }
      rewrite (dot_ext n _ _ _ _ V V), dot_comb, X, XY, Y.
      pose proof (chord_le_arc (u / r - v / r)) as C. rewrite cos_minus in C.
      pose proof (sin2_cos2 (u / r)) as S1. pose proof (sin2_cos2 (v / r)) as S2. unfold Rsqr in S1, S2.
      assert (E : (/ r * Rabs (u - v)) * (/ r * Rabs (u - v)) = (u / r - v / r) * (u / r - v / r)).
      { replace ((/ r * Rabs (u - v)) * (/ r * Rabs (u - v))) with (/ r * / r * (Rabs (u - v) * Rabs (u - v))) by ring.
        rewrite <- Rabs_mult, Rabs_pos_eq by (apply Rle_0_sqr). field. lra. }
      rewrite E. nra. }
    assert (P : 0 <= / r * Rabs (u - v)) by (apply Rmult_le_pos; [left; apply Rinv_0_lt_compat, Hr|apply Rabs_pos]).
    destruct (Rle_dec N (/ r * Rabs (u - v))) as [OK|NO]; [exact OK|]. apply Rnot_le_lt in NO. nra.
Qed.
