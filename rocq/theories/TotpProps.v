(** Properties of the path of the time optimal trajectory parametrization (time_optimal_trajectory_parametrization.cpp 7-214). *)
From Coq Require Import Reals Lra Psatz.
From Verif Require Import Base MathModel TotpModel TotpVec TotpArc TotpPath TotpLookup TotpRoute TotpSmooth.
Open Scope R_scope.

(** ** The segment before a boundary *)
Lemma linked_tail n p l1 l2 : linked n p (l1 ++ l2) -> exists q, linked n q l2 /\ (forall l0 h, l1 = l0 ++ [h] -> q = seg_at n h (seg_len n h)).
Proof.
  revert p. induction l1 as [|g l1 IH]; intros p H.
  - exists p. split; [exact H|]. intros l0 h E. destruct l0; discriminate.
  - cbn [app linked] in H. destruct H as (_ & _ & H). destruct l1 as [|g' l1].
    + exists (seg_at n g (seg_len n g)). split; [exact H|]. intros l0 h E. destruct l0 as [|? [|? ?]]; [injection E as ->; reflexivity|discriminate|discriminate].
    + destruct (IH _ H) as (q & Hq & E). exists q. split; [exact Hq|]. intros l0 h E0. destruct l0 as [|? l0]; [discriminate|]. injection E0 as -> E0. apply (E l0 h E0).
Qed.
Lemma joins_tol n p g : joins n p g -> seg_good n g -> norm n (vsub (seg_at n g 0) p) <= tol.
Proof.
  intros J Gg. destruct g as [a b|]; [|exact J]. cbn [joins seg_good] in *. rewrite norm_self; [left; apply tol_pos|].
  intros i Hi. rewrite linear_start by exact Gg. apply J, Hi.
Qed.
Lemma tlinked_tail n d l1 l2 : tlinked n d (l1 ++ l2) -> exists d', tlinked n d' l2.
Proof. revert d. induction l1 as [|g l1 IH]; intros d H; [eauto|]. cbn [app] in H. inversion H; subst; eauto. Qed.
Lemma tlinked_pos n d g l : tlinked n d (g :: l) -> 0 < seg_len n g -> norm n (vsub (seg_tan n g 0) d) <= tol /\ tlinked n (seg_tan n g (seg_len n g)) l.
Proof. intros H Hg. inversion H; subst; [auto|lra]. Qed.
Lemma tlinked_zero n d g l : tlinked n d (g :: l) -> seg_len n g = 0 -> tlinked n d l.
Proof. intros H Hg. inversion H; subst; [lra|auto]. Qed.

(** [dev] is positive: directions at the joints. *)
Lemma route_smooth n dev w0 ws p l : path_make n (w0 :: ws) dev = Some p -> route n dev w0 ws p l -> ws <> [] -> separated n (w0 :: ws) ->
  path_segments n dev w0 w0 ws = Some l -> 0 < dev -> exists d, tlinked n d l.
Proof.
  intros _ RT NE Sep E Hd. destruct ws as [|w1 ws]; [contradiction|].
  exists (dir n w0 w1). apply (path_segments_smooth n dev Hd ws w0 w1 w0 l _ Sep); [|exact E|].
  - exists 0. split; [lra|]. intros i _. ring.
  - rewrite norm_self by apply veq_refl. left. apply tol_pos.
Qed.

(** The segment list of a path. *)
Lemma path_route' n dev w0 ws p : ws <> [] -> separated n (w0 :: ws) -> (0 < dev -> no_reversal n (w0 :: ws)) -> path_make n (w0 :: ws) dev = Some p ->
  exists l, route n dev w0 ws p l /\ (0 < dev -> exists d, tlinked n d l).
Proof.
  intros NE Sep NR E. destruct (path_route n dev w0 ws NE Sep NR) as (p' & l & E' & RT). rewrite E in E'. injection E' as <-.
  exists l. split; [exact RT|]. intros Hd.
  assert (EP : exists l', path_segments n dev w0 w0 ws = Some l' /\ p_segs p = posn n 0 l').
  { destruct ws as [|w1 ws]; [contradiction|]. cbn [path_make] in E. destruct (path_segments n dev w0 w0 (w1 :: ws)) as [l'|] eqn:EL; [|discriminate].
    exists l'. split; [reflexivity|]. destruct (place_posn n l' 0 []) as (sw & EQ). rewrite EQ in E. injection E as <-. reflexivity. }
  destruct EP as (l' & EL & EP). rewrite (ro_segs _ _ _ _ _ _ RT) in EP.
  assert (l = l').
  { clear - EP. revert EP. generalize 0. revert l'. induction l as [|g l IH]; intros [|g' l'] x H; cbn [posn] in H; try discriminate; [reflexivity|].
    injection H as -> H. f_equal. eapply IH, H. }
  subst l'. eapply route_smooth; eauto.
Qed.

Section Neighbour.
Context {n : nat} {dev : R} {w0 : vec} {ws : list vec} {p : path} {l : list segment}.
Hypothesis RT : route n dev w0 ws p l.
Hypothesis NE : ws <> [].
Hypothesis SM : 0 < dev -> exists d, tlinked n d l.

Lemma left_neighbour l1 g l2 : l = l1 ++ g :: l2 -> l1 <> [] -> 0 < seg_len n g ->
  exists l0 h l', l = l0 ++ h :: l' /\ l' <> [] /\ 0 < seg_len n h /\ total n 0 (l0 ++ [h]) = total n 0 l1 /\
    norm n (vsub (seg_at n g 0) (seg_at n h (seg_len n h))) <= tol /\
    (0 < dev -> norm n (vsub (seg_tan n g 0) (seg_tan n h (seg_len n h))) <= tol).
Proof.
  intros E N Hg. pose proof (ro_ok _ _ _ _ _ _ RT) as O. pose proof (so_linked _ _ _ _ _ _ O) as LK.
  destruct (exists_last N) as (l0 & h & ->). rewrite <- app_assoc in E. cbn [app] in E.
  assert (Gh : seg_good n h) by (apply (route_good RT); rewrite E; apply in_elt).
  assert (Gg : seg_good n g) by (apply (route_good RT); rewrite E; apply in_or_app; right; right; left; reflexivity).
  assert (L2 := LK). rewrite E in L2.
  replace (l0 ++ h :: g :: l2) with ((l0 ++ [h]) ++ g :: l2) in L2 by (rewrite <- app_assoc; reflexivity).
  destruct (linked_tail _ _ _ _ L2) as (q & Lq & Eq). specialize (Eq l0 h eq_refl). subst q.
  cbn [linked] in Lq. destruct Lq as (J & _ & _).
  destruct (Req_dec (seg_len n h) 0) as [Z|NZ].
  - (* a zero-length arc in between *)
    assert (L3 := LK). rewrite E in L3. destruct (linked_tail _ _ _ _ L3) as (q & Lq & Eq). cbn [linked] in Lq. destruct Lq as (Jh & IsL & _).
    specialize (IsL Z). destruct g as [a b|]; [|contradiction IsL]. cbn [joins] in J.
    destruct h as [a' b'|len r ctr x y]; [cbn [seg_good seg_len] in *; lra|].
    assert (N0 : l0 <> []).
    { intros ->. destruct (route_first RT NE) as (e & l' & E'). rewrite E in E'. discriminate. }
    destruct (exists_last N0) as (l00 & h' & ->). specialize (Eq l00 h' eq_refl). subst q.
    rewrite <- app_assoc in E. cbn [app] in E.
    assert (Gh' : seg_good n h') by (apply (route_good RT); rewrite E; apply in_elt).
    assert (P' : 0 < seg_len n h').
    { destruct (Req_dec (seg_len n h') 0) as [Z'|NZ']; [|pose proof (seg_len_nonneg n h' Gh'); lra].
      exfalso. assert (L4 := LK). rewrite E in L4. destruct (linked_tail _ _ _ _ L4) as (q & Lq & _). cbn [linked] in Lq. destruct Lq as (_ & IsL' & _).
      apply (IsL' Z'). }
    exists l00, h', (Arc len r ctr x y :: Linear a b :: l2). split; [exact E|]. split; [discriminate|]. split; [exact P'|].
    split; [rewrite (total_snoc (l00 ++ [h'])), Z; lra|].
    split.
    + rewrite (norm_sub_ext n _ _ (seg_at n (Arc len r ctr x y) 0) (seg_at n h' (seg_len n h'))); [exact Jh| |apply veq_refl].
      intros i Hi. rewrite linear_start by exact Gg. rewrite (J i Hi), Z. reflexivity.
    + intros Hd. destruct (SM Hd) as (d & T). rewrite E in T. destruct (tlinked_tail _ _ _ _ T) as (d' & T').
      destruct (tlinked_pos _ _ _ _ T' P') as [_ T'']. apply tlinked_zero in T''; [|exact Z]. apply (tlinked_pos _ _ _ _ T'' Hg).
  - assert (Ph : 0 < seg_len n h) by (pose proof (seg_len_nonneg n h Gh); lra).
    exists l0, h, (g :: l2). split; [exact E|]. split; [discriminate|]. split; [exact Ph|]. split; [reflexivity|]. split.
    + apply joins_tol; assumption.
    + intros Hd. destruct (SM Hd) as (d & T). rewrite E in T. destruct (tlinked_tail _ _ _ _ T) as (d' & T').
      destruct (tlinked_pos _ _ _ _ T' Ph) as [_ T'']. apply (tlinked_pos _ _ _ _ T'' Hg).
Qed.

Lemma norm_tri n' a b c : norm n' (vsub a c) <= norm n' (vsub a b) + norm n' (vsub b c).
Proof.
  rewrite (norm_ext n' (vsub a c) (vadd (vsub a b) (vsub b c))); [apply norm_triangle|]. intros i _. unfold vadd, vsub. ring.
Qed.

(** Near [s] the position and the direction change by little more than the tolerance. *)
Lemma near_here s : 0 <= s <= p_len p -> forall eps, 0 < eps -> exists de, 0 < de /\
  forall t, 0 <= t <= p_len p -> Rabs (t - s) < de ->
    exists q0 q1 t0 t1, path_config n p s = Ok (Some q0) /\ path_config n p t = Ok (Some q1) /\
      path_tangent n p s = Ok (Some t0) /\ path_tangent n p t = Ok (Some t1) /\
      norm n (vsub q1 q0) <= Rabs (t - s) + tol /\ (0 < dev -> norm n (vsub t1 t0) <= eps + tol).
Proof.
  intros Hs eps He. pose proof tol_pos as TP.
  destruct (located_ex RT NE s) as (l1 & g & l2 & L).
  pose proof (located_len RT NE _ _ _ _ L) as Hg. pose proof (route_good RT g (located_in (l := l) _ _ _ _ L)) as Gg.
  destruct (seg_tan_lipschitz n g Gg) as (k & Hk & LipT).
  pose proof (located_getters RT _ _ _ _ L) as (C0 & T0 & _).
  assert (HU : 0 <= s - total n 0 l1 <= seg_len n g).
  { destruct L as (E & H1 & H2). split.
    - destruct H1 as [H1| -> ]; [lra|cbn [total]; lra].
    - destruct H2 as [ -> |H2]; [|lra]. rewrite (ro_len _ _ _ _ _ _ RT), E, total_snoc in Hs. lra. }
  set (u := s - total n 0 l1) in *.
  assert (Same : forall t, located (n := n) (l := l) t l1 g l2 -> 0 <= t - total n 0 l1 <= seg_len n g -> Rabs (t - s) < eps / k ->
    exists q0 q1 t0 t1, path_config n p s = Ok (Some q0) /\ path_config n p t = Ok (Some q1) /\
      path_tangent n p s = Ok (Some t0) /\ path_tangent n p t = Ok (Some t1) /\
      norm n (vsub q1 q0) <= Rabs (t - s) + tol /\ (0 < dev -> norm n (vsub t1 t0) <= eps + tol)).
  { intros t Lt Ht Hd. pose proof (located_getters RT _ _ _ _ Lt) as (C1 & T1 & _).
    do 4 eexists. split; [exact C0|]. split; [exact C1|]. split; [exact T0|]. split; [exact T1|].
    assert (EU : t - total n 0 l1 - u = t - s) by (unfold u; ring). split.
    - pose proof (seg_lipschitz n g (t - total n 0 l1) u Gg Ht HU) as Q. rewrite EU in Q. lra.
    - intros _. destruct (LipT (t - total n 0 l1) u) as [Q|Q]; [|lra]. rewrite EU in Q.
      assert (k * Rabs (t - s) <= eps). { apply (Rmult_lt_compat_l k) in Hd; [|exact Hk]. replace (k * (eps / k)) with eps in Hd by (field; lra). lra. } 
      eapply Rle_trans; [exact Q|]. lra. }
  assert (Pk : 0 < eps / k) by (apply Rdiv_lt_0_compat; lra).
  (* how far to the right g extends *)
  assert (Right : exists dr, 0 < dr /\ forall t, s <= t <= p_len p -> Rabs (t - s) < dr -> located (n := n) (l := l) t l1 g l2 /\ 0 <= t - total n 0 l1 <= seg_len n g).
  { destruct L as (E & H1 & H2). destruct H2 as [H2|H2].
    - exists 1. split; [lra|]. intros t Ht _. unfold u in HU. split; [split; [exact E|]; split; [left; lra|left; exact H2]|].
      split; [lra|]. subst l2. rewrite (ro_len _ _ _ _ _ _ RT), E, total_snoc in Ht. lra.
    - exists (total n 0 l1 + seg_len n g - s). split; [lra|]. intros t Ht Hd. apply Rabs_def2 in Hd. unfold u in HU.
      split; [split; [exact E|]; split; [left; lra|right; lra]|]. lra. }
  destruct Right as (dr & Hdr & Right).
  destruct (Rlt_dec 0 u) as [Pu|Zu].
  - exists (Rmin (Rmin dr (eps / k)) u). split; [repeat apply Rmin_glb_lt; assumption|].
    intros t Ht Hd.
    assert (D1 : Rabs (t - s) < dr) by (eapply Rlt_le_trans; [exact Hd|]; eapply Rle_trans; [apply Rmin_l|apply Rmin_l]).
    assert (D2 : Rabs (t - s) < eps / k) by (eapply Rlt_le_trans; [exact Hd|]; eapply Rle_trans; [apply Rmin_l|apply Rmin_r]).
    assert (D3 : Rabs (t - s) < u) by (eapply Rlt_le_trans; [exact Hd|]; apply Rmin_r).
    destruct (Rle_dec s t) as [Hst|Hst].
    + destruct (Right t) as [A B]; [lra|exact D1|]. apply Same; assumption.
    + apply Rabs_def2 in D3. unfold u in *. apply Same; [|lra|exact D2]. destruct L as (E & H1 & H2). split; [exact E|]. split; [left; lra|].
      destruct H2 as [H2|H2]; [left; exact H2|right; lra].
  - assert (Eu : s = total n 0 l1) by (unfold u in *; lra).
    destruct l1 as [|g1 l1'] eqn:El1.
    + (* at the start of the path *)
      cbn [total] in Eu. exists (Rmin dr (eps / k)). split; [apply Rmin_glb_lt; assumption|].
      intros t Ht Hd. destruct (Right t) as [A B]; [lra|eapply Rlt_le_trans; [exact Hd|apply Rmin_l]|]. apply Same; [exact A|exact B|].
      eapply Rlt_le_trans; [exact Hd|apply Rmin_r].
    + rewrite <- El1 in *.
      destruct (left_neighbour l1 g l2) as (l0 & h & l' & E & NL & Hh & ET & JP & JT); [apply L|rewrite El1; discriminate|exact Hg|].
      assert (Gh : seg_good n h) by (apply (route_good RT); rewrite E; apply in_elt).
      destruct (seg_tan_lipschitz n h Gh) as (k' & Hk' & LipT'). rewrite total_snoc in ET.
      assert (Pk' : 0 < eps / k') by (apply Rdiv_lt_0_compat; lra).
      exists (Rmin (Rmin dr (eps / k)) (Rmin (eps / k') (seg_len n h))). split; [repeat apply Rmin_glb_lt; assumption|].
      intros t Ht Hd.
      assert (D1 : Rabs (t - s) < dr) by (eapply Rlt_le_trans; [exact Hd|]; eapply Rle_trans; [apply Rmin_l|apply Rmin_l]).
      assert (D2 : Rabs (t - s) < eps / k) by (eapply Rlt_le_trans; [exact Hd|]; eapply Rle_trans; [apply Rmin_l|apply Rmin_r]).
      assert (D3 : Rabs (t - s) < eps / k') by (eapply Rlt_le_trans; [exact Hd|]; eapply Rle_trans; [apply Rmin_r|apply Rmin_l]).
      assert (D4 : Rabs (t - s) < seg_len n h) by (eapply Rlt_le_trans; [exact Hd|]; eapply Rle_trans; [apply Rmin_r|apply Rmin_r]).
      destruct (Rle_dec s t) as [Hst|Hst].
      * destruct (Right t) as [A B]; [lra|exact D1|]. apply Same; assumption.
      * pose proof (Rabs_def2 _ _ D4) as D5.
        assert (Lh : located (n := n) (l := l) t l0 h l') by (apply located_inside; [exact E|lra|lra]).
        pose proof (located_getters RT _ _ _ _ Lh) as (C1 & T1 & _).
        do 4 eexists. split; [exact C0|]. split; [exact C1|]. split; [exact T0|]. split; [exact T1|].
        replace u with 0 by (unfold u in *; lra).
        assert (EU : Rabs (t - total n 0 l0 - seg_len n h) = Rabs (t - s)) by (f_equal; lra).
        split.
        -- eapply Rle_trans; [apply (norm_tri n _ (seg_at n h (seg_len n h)))|].
           rewrite (norm_sub_sym n (seg_at n h (seg_len n h))).
           pose proof (seg_lipschitz n h (t - total n 0 l0) (seg_len n h) Gh ltac:(lra) ltac:(lra)) as Q. rewrite EU in Q. lra.
        -- intros Hdv. eapply Rle_trans; [apply (norm_tri n _ (seg_tan n h (seg_len n h)))|].
           rewrite (norm_sub_sym n (seg_tan n h (seg_len n h))). specialize (JT Hdv).
           destruct (LipT' (t - total n 0 l0) (seg_len n h)) as [Q|Q]; [|lra]. rewrite EU in Q.
           assert (k' * Rabs (t - s) <= eps). { apply (Rmult_lt_compat_l k') in D3; [|exact Hk']. replace (k' * (eps / k')) with eps in D3 by (field; lra). lra. }
           lra.
Qed.
End Neighbour.

(** ** C75: the path starts at the first waypoint and ends at the last *)
Definition good_waypoints (n : nat) (ws : list vec) (dev : R) : Prop :=
  (2 <= length ws)%nat /\ separated n ws /\ (0 < dev -> no_reversal n ws).
Lemma good_cons n ws dev : good_waypoints n ws dev -> exists w0 ws', ws = w0 :: ws' /\ ws' <> [] /\ separated n (w0 :: ws') /\ (0 < dev -> no_reversal n (w0 :: ws')).
Proof. intros (H & S1 & S2). destruct ws as [|w0 [|w1 ws]]; cbn [length] in H; [lia|lia|]. exists w0, (w1 :: ws). repeat split; auto. discriminate. Qed.

Theorem C75_path_ends_partial n ws dev : good_waypoints n ws dev ->
  exists p, path_make n ws dev = Some p /\ 0 < p_len p /\
    (forall s, s <= 0 -> exists q, path_config n p s = Ok (Some q) /\ veq n q (hd vzero ws)) /\
    (forall s, p_len p <= s -> exists q, path_config n p s = Ok (Some q) /\ veq n q (last ws vzero)).
Proof.
  intros (w0 & ws' & -> & NE & Sep & NR)%good_cons.
  destruct (path_route n dev w0 ws' NE Sep NR) as (p & l & E & RT). exists p. split; [exact E|].
  pose proof (route_len_pos RT NE) as LP. split; [exact LP|]. split.
  - intros s Hs. destruct (route_first RT NE) as (e & l' & El).
    assert (Gf : seg_good n (Linear w0 e)) by (apply (route_good RT); rewrite El; left; reflexivity). cbn [seg_good] in Gf.
    assert (L : located (n := n) (l := l) s [] (Linear w0 e) l').
    { split; [exact El|]. split; [right; reflexivity|]. right. cbn [total seg_len]. lra. }
    eexists. split; [apply (located_getters RT _ _ _ _ L)|]. cbn [total hd]. rewrite Rminus_0_r. intros i Hi.
    unfold seg_at. cbn [seg_config]. unfold Reqb. destruct (Req_EM_T (norm n (vsub e w0)) 0); [lra|].
    assert (U : unit_interval (s / norm n (vsub e w0)) = 0).
    { assert (s / norm n (vsub e w0) <= 0). { unfold Rdiv. assert (0 < / norm n (vsub e w0)) by (apply Rinv_0_lt_compat; lra). nra. }
      unfold unit_interval, Rltb. destruct (Rlt_dec (s / norm n (vsub e w0)) 0); [reflexivity|]. destruct (Rlt_dec 1 _); lra. }
    rewrite U. ring.
  - intros s Hs. destruct (route_last RT NE) as (l0 & a & El).
    assert (Gl : seg_good n (Linear a (last ws' w0))) by (apply (route_good RT); rewrite El; apply in_elt). cbn [seg_good] in Gl.
    assert (TL : p_len p = total n 0 l0 + norm n (vsub (last ws' w0) a)) by (rewrite (ro_len _ _ _ _ _ _ RT), El, total_snoc; reflexivity).
    assert (L : located (n := n) (l := l) s l0 (Linear a (last ws' w0)) []).
    { split; [exact El|]. split; [left; lra|left; reflexivity]. }
    eexists. split; [apply (located_getters RT _ _ _ _ L)|]. intros i Hi.
    replace (last (w0 :: ws') vzero) with (last ws' w0) by (destruct ws' as [|w1 ws']; [contradiction|apply (last_default ws' w1 w0 vzero)]).
    unfold seg_at. cbn [seg_config]. unfold Reqb. destruct (Req_EM_T (norm n (vsub (last ws' w0) a)) 0); [lra|].
    set (D := norm n (vsub (last ws' w0) a)) in *.
    assert (U : unit_interval ((s - total n 0 l0) / D) = 1).
    { assert (1 <= (s - total n 0 l0) / D).
      { apply (Rmult_le_reg_r D); [lra|]. unfold Rdiv. rewrite Rmult_assoc, Rinv_l; lra. }
      unfold unit_interval, Rltb. destruct (Rlt_dec ((s - total n 0 l0) / D) 0); [lra|]. destruct (Rlt_dec 1 _); lra. }
    rewrite U. ring.
Qed.
Print Assumptions C75_path_ends_partial.

(** A path through three corners of a square. *)
Definition corner (x y : R) : vec := fun i => match i with O => x | S O => y | _ => 0 end.
Definition square : list vec := [corner 0 0; corner 1 0; corner 1 1].
Lemma norm_at_least n u i r : (i < n)%nat -> r < Rabs (u i) -> r < norm n u.
Proof. intros Hi H. eapply Rlt_le_trans; [exact H|apply norm_coord, Hi]. Qed.
Example square_good dev : good_waypoints 2 square dev.
Proof.
  split; [cbn; lia|]. unfold square, tol. split.
  - intros l1 a b l2 E. destruct l1 as [|? [|? [|? ?]]]; cbn [app] in E.
    + injection E as <- <- _. unfold tol. apply (norm_at_least 2 _ 0); [lia|]. unfold vsub. cbn [corner]. rewrite Rabs_pos_eq; lra.
    + injection E as _ <- <- _. unfold tol. apply (norm_at_least 2 _ 1); [lia|]. unfold vsub. cbn [corner]. rewrite Rabs_pos_eq; lra.
    + discriminate.
    + destruct l; discriminate.
  - intros _ l1 a b c l2 E. destruct l1 as [|? [|? ?]]; cbn [app] in E.
    + injection E as <- <- <- _. intros (k & Hk & V). specialize (V 1%nat ltac:(lia)). unfold vsub in V. cbn [corner] in V. lra.
    + discriminate.
    + destruct l; [discriminate|]. destruct l; discriminate.
Qed.

(** Two equal waypoints: the configuration at the start is not a number. *)
Theorem C75_repeated_waypoint_refuted : exists n w p, path_make n [w; w] 0 = Some p /\ p_len p = 0 /\ path_config n p 0 = Ok None.
Proof.
  exists 1%nat, vzero, (Path [(0, Linear vzero vzero)] 0 []).
  assert (Z : norm 1 (vsub vzero vzero) = 0) by (apply norm_zero; intros i _; unfold vsub, vzero; ring).
  split; [|split].
  - cbn [path_make path_segments place seg_switching map rev app pop_past tl seg_len]. rewrite Z. f_equal. f_equal; lra.
  - reflexivity.
  - unfold path_config, path_segment. cbn [p_segs find_segment obind seg_config]. rewrite Z. unfold Reqb.
    destruct (Req_EM_T 0 0); [|contradiction]. rewrite Rminus_0_r. destruct (Req_EM_T 0 0); [reflexivity|contradiction].
Qed.
(** One waypoint or none: every query reads the front of an empty list. *)
Theorem C75_short_list_refuted n ws dev : (length ws < 2)%nat -> exists p, path_make n ws dev = Some p /\ forall s, path_config n p s = UB.
Proof. intros H. destruct ws as [|a [|b ws]]; cbn [length] in H; [| |lia]; exists (Path [] 0 []); (split; [reflexivity|]); intros s; reflexivity. Qed.
Print Assumptions C75_repeated_waypoint_refuted.
Print Assumptions C75_short_list_refuted.

(** ** C76: the path stays within the allowed deviation of the waypoints' polyline and passes every waypoint *)
Theorem C76_deviation n ws dev p : good_waypoints n ws dev -> path_make n ws dev = Some p ->
  (forall s, 0 <= s <= p_len p -> exists q, path_config n p s = Ok (Some q) /\ near_polyline n ws (Rmax 0 dev) q) /\
  (forall w, In w ws -> exists s q, 0 <= s <= p_len p /\ path_config n p s = Ok (Some q) /\ norm n (vsub q w) <= Rmax 0 dev).
Proof.
  intros Hg E. destruct (C75_path_ends_partial n ws dev Hg) as (p' & E' & LP & START & _). rewrite E in E'. injection E' as <-.
  apply good_cons in Hg. destruct Hg as (w0 & ws' & -> & NE & Sep & NR).
  destruct (path_route' n dev w0 ws' p NE Sep NR E) as (l & RT & _). pose proof (ro_ok _ _ _ _ _ _ RT) as O.
  split.
  - intros s Hs. destruct (located_ex RT NE s) as (l1 & g & l2 & L). eexists. split; [apply (located_getters RT _ _ _ _ L)|].
    apply (so_near _ _ _ _ _ _ O g); [apply (located_in (l := l) _ _ _ _ L)|].
    destruct L as (EL & H1 & H2). split.
    + destruct H1 as [H1| -> ]; [lra|cbn [total]; lra].
    + destruct H2 as [ -> |H2]; [|lra]. rewrite (ro_len _ _ _ _ _ _ RT), EL, total_snoc in Hs. lra.
  - intros w [<-|Hw].
    + destruct (START 0 ltac:(lra)) as (q & C & V). exists 0, q. split; [lra|]. split; [exact C|]. cbn [hd] in V.
      rewrite (norm_self n q w0 V). apply Rmax_l.
    + pose proof (so_pass _ _ _ _ _ _ O w Hw) as P.
      assert (GO : forall l2 l1, l = l1 ++ l2 -> on_segments n l2 (fun p => norm n (vsub p w) <= Rmax 0 dev) ->
        exists s q, 0 <= s <= p_len p /\ path_config n p s = Ok (Some q) /\ norm n (vsub q w) <= Rmax 0 dev).
      { induction l2 as [|g l2 IH]; intros l1 EL PO; [contradiction PO|].
        pose proof (total_nonneg RT l1 (g :: l2) EL) as T0.
        assert (T1 : total n 0 (l1 ++ [g]) <= total n 0 l) by (apply (total_prefix RT _ l2); rewrite EL, <- app_assoc; reflexivity). rewrite total_snoc in T1.
        assert (HERE : forall u, 0 <= u <= seg_len n g -> (l2 = [] \/ u < seg_len n g) -> norm n (vsub (seg_at n g u) w) <= Rmax 0 dev ->
          exists s q, 0 <= s <= p_len p /\ path_config n p s = Ok (Some q) /\ norm n (vsub q w) <= Rmax 0 dev).
        { intros u Hu Hl Hn. exists (total n 0 l1 + u), (seg_at n g u). split; [rewrite (ro_len _ _ _ _ _ _ RT); lra|]. split; [|exact Hn].
          assert (L : located (n := n) (l := l) (total n 0 l1 + u) l1 g l2).
          { split; [exact EL|]. split; [left; lra|]. destruct Hl as [Hl|Hl]; [left; exact Hl|right; lra]. }
          destruct (located_getters RT _ _ _ _ L) as (C & _). rewrite C. do 3 f_equal. ring. }
        cbn [on_segments] in PO. destruct l2 as [|g2 l2].
        - destruct PO as (u & Hu & Hn). apply (HERE u Hu); [left; reflexivity|exact Hn].
        - destruct PO as [(u & Hu & Hn)|PO].
          + apply (HERE u); [lra|right; lra|exact Hn].
          + apply (IH (l1 ++ [g])); [rewrite EL, <- app_assoc; reflexivity|exact PO]. }
      apply (GO l []); [reflexivity|exact P].
Qed.
Print Assumptions C76_deviation.

(** ** C77: the tangent is the derivative of the configuration, the curvature that of the tangent; no jumps *)
Theorem C77_derivatives n ws dev p : good_waypoints n ws dev -> path_make n ws dev = Some p ->
  exists q t c : R -> vec,
    (forall s, path_config n p s = Ok (Some (q s)) /\ path_tangent n p s = Ok (Some (t s)) /\ path_curvature n p s = Ok (Some (c s))) /\
    (forall s i, 0 < s < p_len p -> ~ In (s, true) (p_switch p) ->
       derivable_pt_lim (fun x => q x i) s (t s i) /\ derivable_pt_lim (fun x => t x i) s (c s i)) /\
    (forall s, norm n (t s) = 1) /\
    (forall s eps, 0 <= s <= p_len p -> 0 < eps -> exists de, 0 < de /\ forall x, 0 <= x <= p_len p -> Rabs (x - s) < de ->
       norm n (vsub (q x) (q s)) <= Rabs (x - s) + / 1000000 /\
       (0 < dev -> norm n (vsub (t x) (t s)) <= eps + / 1000000)).
Proof.
  intros Hg E. apply good_cons in Hg. destruct Hg as (w0 & ws' & -> & NE & Sep & NR).
  destruct (path_route' n dev w0 ws' p NE Sep NR E) as (l & RT & SM).
  set (val := fun (o : outcome (option vec)) => match o with Ok (Some v) => v | _ => vzero end).
  exists (fun s => val (path_config n p s)), (fun s => val (path_tangent n p s)), (fun s => val (path_curvature n p s)).
  assert (VAL : forall s l1 g l2, located (n := n) (l := l) s l1 g l2 -> val (path_config n p s) = seg_at n g (s - total n 0 l1) /\
     val (path_tangent n p s) = seg_tan n g (s - total n 0 l1) /\ val (path_curvature n p s) = seg_cur (n := n) g (s - total n 0 l1)).
  { intros s l1 g l2 L. destruct (located_getters RT _ _ _ _ L) as (C & T & K). rewrite C, T, K. repeat split. }
  split; [|split; [|split]].
  - intros s. destruct (located_ex RT NE s) as (l1 & g & l2 & L). destruct (located_getters RT _ _ _ _ L) as (C & T & K). rewrite C, T, K. repeat split.
  - intros s i Hs NI. destruct (located_ex RT NE s) as (l1 & g & l2 & L). assert (L' := L). destruct L' as (EL & H1 & H2).
    pose proof (route_good RT g (located_in (l := l) _ _ _ _ L)) as Gg. pose proof (located_len RT NE _ _ _ _ L) as Lg.
    assert (B : total n 0 l1 < s).
    { destruct H1 as [H1|H1]; [|subst l1; cbn [total]; lra]. destruct (Req_dec (total n 0 l1) s) as [Z|N]; [|lra].
      exfalso. apply NI. rewrite <- Z. apply (boundary_flagged RT l1 (g :: l2) EL). lra. }
    assert (B2 : s < total n 0 l1 + seg_len n g).
    { destruct H2 as [ -> |H2]; [|exact H2]. pose proof (located_end RT _ _ _ L). lra. }
    pose proof (VAL s l1 g l2 L) as (V1 & V2 & V3). rewrite V2, V3.
    destruct (seg_derive n g (s - total n 0 l1) i Gg ltac:(lra)) as [D1 D2].
    assert (RP : 0 < Rmin (s - total n 0 l1) (total n 0 l1 + seg_len n g - s)) by (apply Rmin_glb_lt; lra).
    assert (LOC : forall x, Rabs (x - s) < Rmin (s - total n 0 l1) (total n 0 l1 + seg_len n g - s) -> located (n := n) (l := l) x l1 g l2).
    { intros x Hx. assert (X1 := Rlt_le_trans _ _ _ Hx (Rmin_l _ _)). assert (X2 := Rlt_le_trans _ _ _ Hx (Rmin_r _ _)).
      apply Rabs_def2 in X1, X2. apply located_inside; [exact EL|lra|lra]. }
    split.
    + eapply derive_local; [exact RP| |apply (derive_shift (fun v => seg_at n g v i) s (total n 0 l1)), D1].
      intros x Hx. cbn beta. rewrite (proj1 (VAL x _ _ _ (LOC x Hx))). reflexivity.
    + eapply derive_local; [exact RP| |apply (derive_shift (fun v => seg_tan n g v i) s (total n 0 l1)), D2].
      intros x Hx. cbn beta. rewrite (proj1 (proj2 (VAL x _ _ _ (LOC x Hx)))). reflexivity.
  - intros s. destruct (located_ex RT NE s) as (l1 & g & l2 & L). rewrite (proj1 (proj2 (VAL s _ _ _ L))).
    apply seg_tan_unit; [apply (route_good RT g (located_in (l := l) _ _ _ _ L))|apply (located_len RT NE _ _ _ _ L)].
  - intros s eps Hs He. destruct (near_here RT NE SM s Hs eps He) as (de & Hd & H). exists de. split; [exact Hd|].
    intros x Hx Hxs. destruct (H x Hx Hxs) as (q0 & q1 & t0 & t1 & C0 & C1 & T0 & T1 & Q1 & Q2). rewrite C0, C1, T0, T1. cbn [val].
    split; [exact Q1|exact Q2].
Qed.
Print Assumptions C77_derivatives.

(** ** C78: the switching points are exactly the segment boundaries and the places where a joint's motion turns *)
Theorem C78_switching_points n ws dev p : good_waypoints n ws dev -> path_make n ws dev = Some p ->
  (forall s d, In (s, d) (p_switch p) -> 0 <= s < p_len p) /\
  (forall l1 a b l2, p_switch p = l1 ++ a :: b :: l2 -> fst a <= fst b) /\
  (forall s t c i, 0 < s < p_len p -> path_tangent n p s = Ok (Some t) -> path_curvature n p s = Ok (Some c) ->
     (i < n)%nat -> t i = 0 -> c i <> 0 -> exists d, In (s, d) (p_switch p)) /\
  (forall s, In (s, false) (p_switch p) -> exists t i, path_tangent n p s = Ok (Some t) /\ (i < n)%nat /\ t i = 0).
Proof.
  intros Hg E. apply good_cons in Hg. destruct Hg as (w0 & ws' & -> & NE & Sep & NR).
  destruct (path_route' n dev w0 ws' p NE Sep NR E) as (l & RT & _).
  split; [|split; [exact (ro_sorted _ _ _ _ _ _ RT)|split]].
  - intros s d H. apply (ro_in _ _ _ _ _ _ RT) in H. rewrite <- (ro_len _ _ _ _ _ _ RT) in H. destruct H as (H & l1 & g & l2 & EL & C). split; [|exact H].
    destruct C as [[_ ->]|[_ (u & Hu & ->)]].
    + apply (total_nonneg RT _ l2). rewrite EL, <- app_assoc. reflexivity.
    + assert (Gg : seg_good n g) by (apply (route_good RT); rewrite EL; apply in_elt).
      pose proof (seg_switching_bound n g u Gg Hu). pose proof (total_nonneg RT l1 _ EL). lra.
  - intros s t c i Hs Ht Hc Hi T0 C0. destruct (located_ex RT NE s) as (l1 & g & l2 & L). assert (L' := L). destruct L' as (EL & H1 & H2).
    destruct (located_getters RT _ _ _ _ L) as (_ & T & K). rewrite Ht in T. rewrite Hc in K. injection T as ->. injection K as ->.
    pose proof (located_len RT NE _ _ _ _ L) as Lg. pose proof (route_good RT g (located_in (l := l) _ _ _ _ L)) as Gg.
    assert (B0 : total n 0 l1 <= s) by (destruct H1 as [H1| -> ]; [exact H1|cbn [total]; lra]).
    destruct (Req_dec (total n 0 l1) s) as [Z|N]; [exists true; rewrite <- Z; apply (boundary_flagged RT l1 (g :: l2) EL); lra|].
    destruct g as [a b|len r ctr x y]; [exfalso; apply C0; reflexivity|].
    unfold TotpRoute.seg_tan in T0. unfold seg_cur in C0. cbn [seg_tangent seg_curvature seg_len seg_good] in *.
    destruct Gg as [Hr [Z|(Hlen & _)]]; [lra|].
    assert (B2 : s - total n 0 l1 < len).
    { destruct H2 as [ -> |H2]; [|lra]. exfalso. destruct (route_last RT NE) as (l0 & a & E2). rewrite EL in E2. apply app_inj_tail in E2. destruct E2 as [_ E2]. discriminate. }
    set (u := s - total n 0 l1) in *. assert (Hu : 0 < u) by (unfold u; lra).
    assert (AR : 0 < u / r < PI).
    { split; [apply Rdiv_lt_0_compat; lra|]. apply (Rmult_lt_reg_r r); [lra|]. unfold Rdiv. rewrite Rmult_assoc, Rinv_l, Rmult_1_r by lra. lra. }
    assert (A : arc_angle (x i) (y i) = u / r).
    { apply arc_angle_unique; [exact AR|lra|]. destruct (Req_dec (x i) 0) as [X|X]; [|left; exact X]. right. intros Y. apply C0. rewrite X, Y. ring. }
    exists false. apply (ro_in _ _ _ _ _ _ RT). rewrite <- (ro_len _ _ _ _ _ _ RT). split; [lra|]. exists l1, (Arc len r ctr x y), l2. split; [exact EL|].
    right. split; [reflexivity|]. exists u. split; [|unfold u; lra]. apply in_seg_switching. exists i. split; [exact Hi|]. rewrite A. split; [field; lra|exact B2].
  - intros s H. apply (ro_in _ _ _ _ _ _ RT) in H. destruct H as (H & l1 & g & l2 & EL & [[D _]|[_ (u & Hu & ->)]]); [discriminate|].
    assert (Gg : seg_good n g) by (apply (route_good RT); rewrite EL; apply in_elt). pose proof (seg_switching_bound n g u Gg Hu) as B.
    assert (L : located (n := n) (l := l) (total n 0 l1 + u) l1 g l2) by (apply located_inside; [exact EL|lra|lra]).
    destruct (located_getters RT _ _ _ _ L) as (_ & T & _). destruct g as [a b|len r ctr x y]; [destruct Hu|].
    apply in_seg_switching in Hu. destruct Hu as (i & Hi & Eu & _). destruct Gg as [Hr _].
    eexists. exists i. split; [exact T|]. split; [exact Hi|]. unfold TotpRoute.seg_tan. cbn [seg_tangent].
    replace ((total n 0 l1 + u - total n 0 l1) / r) with (arc_angle (x i) (y i)) by (rewrite Eu; field; lra).
    pose proof (arc_angle_prop (x i) (y i)). lra.
Qed.
Print Assumptions C78_switching_points.

(** ** C79: GetNextSwitchingPoint finds the first one after the position *)
Theorem C79_next_switching n ws dev p s : good_waypoints n ws dev -> path_make n ws dev = Some p ->
  let r := path_next_switching p s in
  (In r (p_switch p) \/ r = (p_len p, true)) /\
  (s < p_len p -> s < fst r) /\
  fst r <= p_len p /\
  (forall x d, In (x, d) (p_switch p) -> s < x -> fst r <= x) /\
  (p_len p <= s -> r = (p_len p, true)).
Proof.
  intros Hg E. destruct (C78_switching_points n ws dev p Hg E) as (B & S & _). unfold path_next_switching. clear Hg E. cbv zeta.
  revert B S. generalize (p_switch p) (p_len p). clear p. intros l len. induction l as [|[x d] l IH]; intros B S; cbn [next_switching].
  - split; [right; reflexivity|]. cbn [fst]. split; [auto|]. split; [lra|]. split; [intros ? ? []|auto].
  - assert (B' : forall s d, In (s, d) l -> 0 <= s < len) by (intros; apply (B s0 d0); right; assumption).
    assert (S' : forall l1 a b l2, l = l1 ++ a :: b :: l2 -> fst a <= fst b) by (intros l1 a b l2 EL; apply (S ((x, d) :: l1) a b l2); rewrite EL; reflexivity).
    pose proof (B x d (or_introl eq_refl)) as Bx.
    destruct (Rleb x s) eqn:Ex.
    + apply Rleb_true in Ex. destruct (IH B' S') as (I1 & I2 & I3 & I4 & I5). split; [destruct I1 as [I1|I1]; [left; right; exact I1|right; exact I1]|].
      split; [exact I2|]. split; [exact I3|]. split; [|exact I5]. intros y e [Ey|Hy] Hs; [injection Ey as -> ->; lra|apply (I4 y e Hy Hs)].
    + apply Rleb_false in Ex. cbn [fst]. split; [left; left; reflexivity|]. split; [intros _; exact Ex|]. split; [lra|]. split; [|lra].
      intros y e [Ey|Hy] Hs; [injection Ey as -> ->; lra|].
      assert (GE : forall (l0 : list (R * bool)) (z : R * bool), (forall l1 a b l2, z :: l0 = l1 ++ a :: b :: l2 -> fst a <= fst b) -> forall y e, In (y, e) l0 -> fst z <= y).
      { clear. induction l0 as [|w l0 IH]; intros z S y e H; [destruct H|].
        pose proof (S [] z w l0 eq_refl) as Z. destruct H as [->|H]; [exact Z|].
        apply Rle_trans with (fst w); [exact Z|]. apply (IH w) with e; [|exact H]. intros l1 a b l2 EL. apply (S (z :: l1) a b l2). rewrite EL. reflexivity. }
      apply (GE l (x, d) S y e Hy).
Qed.
Print Assumptions C79_next_switching.
