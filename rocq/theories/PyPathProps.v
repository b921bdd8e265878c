(** C139: closest points, travelling, densifying and reversing of path_utils.py. *)
From Coq Require Import Reals Lra Psatz FunctionalExtensionality.
From Flocq Require Import Core.Raux.
From Verif Require Import PyBase MathModel TotpModel TotpVec PyPathModel.
Open Scope R_scope.

(** ** Specification *)
Section Spec.
  Context (n : nat).
  (** The point of the segment from [a] to [b] at the fraction [t]. *)
  Definition between (a b : vec) (t : R) : vec := fun i => a i + t * (b i - a i).
  Definition adjacent (path : list vec) (a b : vec) : Prop := exists i, nth_error path i = Some a /\ nth_error path (S i) = Some b.
  (** [x] is a vertex or lies on a segment. *)
  Definition on_path (path : list vec) (x : vec) : Prop :=
    In x path \/ exists a b t, adjacent path a b /\ 0 <= t <= 1 /\ x = between a b t.
End Spec.

Lemma dist_nonneg n a b : 0 <= dist n a b.
Proof. apply norm_nonneg. Qed.
Lemma dist_sym n a b : dist n a b = dist n b a.
Proof. apply norm_sub_sym. Qed.
Lemma dist_triangle n a b c : dist n a c <= dist n a b + dist n b c.
Proof.
  unfold dist. eapply Rle_trans; [|apply norm_triangle]. right. apply norm_ext. intros i _. unfold vsub, vadd. ring.
Qed.
Lemma dist_between n a b t u : dist n (between a b t) (between a b u) = Rabs (u - t) * dist n a b.
Proof.
  unfold dist. rewrite (norm_ext n (vsub (between a b t) (between a b u)) (fun i => (u - t) * vsub a b i)) by (intros i _; unfold vsub, between; ring).
  rewrite norm_scale. reflexivity.
Qed.
Lemma dist_between_start n a b t : dist n a (between a b t) = Rabs t * dist n a b.
Proof.
  unfold dist. rewrite (norm_ext n (vsub a (between a b t)) (fun i => (- t) * vsub b a i)) by (intros i _; unfold vsub, between; ring).
  rewrite norm_scale, Rabs_Ropp. f_equal. apply norm_sub_sym.
Qed.
Lemma dist_between_end n a b t : t <= 1 -> dist n (between a b t) b = (1 - t) * dist n a b.
Proof.
  intros H. unfold dist. rewrite (norm_ext n (vsub (between a b t) b) (fun i => (1 - t) * vsub a b i)) by (intros i _; unfold vsub, between; ring).
  rewrite norm_scale, Rabs_pos_eq by lra. reflexivity.
Qed.
Lemma dist_ext n a a' b b' : veq n a a' -> veq n b b' -> dist n a b = dist n a' b'.
Proof. intros A B. apply norm_ext. intros i Hi. unfold vsub. rewrite A, B; auto. Qed.
Lemma between_0 a b : between a b 0 = a.
Proof. apply functional_extensionality. intros i. unfold between. ring. Qed.
Lemma between_1 a b : between a b 1 = b.
Proof. apply functional_extensionality. intros i. unfold between. ring. Qed.

(** ** The closest point *)
Definition tiny : R := 10 * float_eps.
Lemma tiny_pos : 0 < tiny.
Proof. unfold tiny, float_eps. assert (0 < / IZR (2 ^ 52)) by (apply Rinv_0_lt_compat, IZR_lt; reflexivity). lra. Qed.

Lemma dist_between_sq n a b q t :
  dist n (between a b t) q * dist n (between a b t) q =
  dist n a q * dist n a q - 2 * t * dot n (vsub q a) (vsub b a) + t * t * dot n (vsub b a) (vsub b a).
Proof.
  unfold dist. rewrite !norm_sq.
  rewrite (dot_ext n (vsub (between a b t) q) (fun i => (-1) * vsub q a i + t * vsub b a i) (vsub (between a b t) q) (fun i => (-1) * vsub q a i + t * vsub b a i))
    by (intros i _; unfold vsub, between; ring).
  rewrite dot_comb.
  rewrite (dot_ext n (vsub a q) (fun i => (-1) * vsub q a i + 0 * vsub q a i) (vsub a q) (fun i => (-1) * vsub q a i + 0 * vsub q a i))
    by (intros i _; unfold vsub; ring).
  rewrite dot_comb. ring.
Qed.

Lemma segment_spec n a b q s : 0 <= s -> (dist n a b < tiny -> dist n a b <= s) ->
  exists t, closest_on_segment n a b q = (between a b t, t) /\ 0 <= t <= 1 /\
    forall u, 0 <= u <= 1 -> dist n (between a b t) q <= dist n (between a b u) q + s.
Proof.
  intros S0 SS. unfold closest_on_segment. cbv zeta. fold tiny. destruct (Rltb (norm n (vsub b a)) tiny) eqn:E.
  - apply Rltb_true in E. exists 0. rewrite between_0. split; auto. split; [lra|]. intros u U.
    assert (D : dist n a b <= s). { apply SS. rewrite dist_sym. exact E. }
    pose proof (dist_triangle n a (between a b u) q) as T. rewrite dist_between_start, Rabs_pos_eq in T by lra.
    pose proof (dist_nonneg n a b). nra.
  - apply Rltb_false in E. pose proof tiny_pos.
    set (L := norm n (vsub b a)) in *. set (W := dot n (vsub q a) (vsub b a)).
    assert (EA : dot n (vsub q a) (fun i => vsub b a i / L) = W / L).
    { rewrite dot_comm. rewrite (dot_ext n (fun i => vsub b a i / L) (fun i => / L * vsub b a i) (vsub q a) (vsub q a))
        by (try apply veq_refl; intros i _; unfold Rdiv; ring).
      rewrite dot_scale, dot_comm. unfold W, Rdiv. ring. }
    rewrite EA. set (t := clamp (W / L / L) 0 1).
    assert (T : 0 <= t <= 1).
    { unfold t, clamp. split; [apply Rmin_glb; [apply Rmax_l|lra]|apply Rmin_r]. }
    assert (CASES : (t = 0 /\ W / L / L <= 0) \/ t = W / L / L \/ (t = 1 /\ 1 <= W / L / L)).
    { unfold t, clamp, Rmin, Rmax. destruct (Rle_dec 0 _), (Rle_dec _ 1); lra. }
    exists t. split.
    { f_equal. }
    split; auto. intros u U. clearbody t.
    assert (SQ : dist n (between a b t) q * dist n (between a b t) q <= dist n (between a b u) q * dist n (between a b u) q).
    { rewrite !dist_between_sq. fold W. rewrite <- norm_sq. fold L.
      assert (WL : W = W / L / L * (L * L)) by (field; lra). set (c := W / L / L) in *. clearbody c. rewrite WL.
      assert (LL : 0 < L * L) by nra.
      assert (KEY : 0 <= (u - t) * (u + t - 2 * c)).
      { destruct CASES as [[ET HC]|[ET|[ET HC]]]; rewrite ET.
        - apply Rmult_le_pos; lra.
        - replace ((u - c) * (u + c - 2 * c)) with (Rsqr (u - c)) by (unfold Rsqr; ring). apply Rle_0_sqr.
        - replace ((u - 1) * (u + 1 - 2 * c)) with ((1 - u) * (2 * c - 1 - u)) by ring. apply Rmult_le_pos; lra. }
      nra. }
    pose proof (dist_nonneg n (between a b t) q). pose proof (dist_nonneg n (between a b u) q). nra.
Qed.

(** What the loop keeps: the best so far is the point of the path it says. *)
Definition found n (path : list vec) (q : vec) (st : R * R * vec * nat) : Prop :=
  let '(d, t, p, i) := st in
  d = dist n p q /\ 0 <= t <= 1 /\ exists a, nth_error path i = Some a /\ (t = 0 -> p = a) /\
    (t <> 0 -> exists b, nth_error path (S i) = Some b /\ p = between a b t).

Lemma nth_mid {A} (pre : list A) a rest : nth_error (pre ++ a :: rest) (length pre) = Some a.
Proof. rewrite nth_error_app2 by lia. rewrite Nat.sub_diag. reflexivity. Qed.

Lemma loop_spec n s q path : 0 <= s -> (forall a b, adjacent path a b -> dist n a b < tiny -> dist n a b <= s) ->
  forall rest pre a st, path = pre ++ a :: rest -> found n path q st -> fst (fst (fst st)) <= dist n a q + s ->
  let r := closest_loop n a rest (length pre) q st in
  found n path q r /\ fst (fst (fst r)) <= fst (fst (fst st)) /\
  (forall x, In x (a :: rest) -> fst (fst (fst r)) <= dist n x q + s) /\
  (forall i x y t, nth_error (a :: rest) i = Some x -> nth_error (a :: rest) (S i) = Some y -> 0 <= t <= 1 ->
     fst (fst (fst r)) <= dist n (between x y t) q + s).
Proof.
  intros S0 SS. induction rest as [|b rest IH]; intros pre a st EP F D; cbn [closest_loop].
  - cbn zeta. split; auto. split; [lra|]. split.
    + intros x [<-|[]]. auto.
    + intros [|[|i]]; cbn; discriminate.
  - destruct (segment_spec n a b q s S0) as (t & -> & T & OPT).
    { apply SS. exists (length pre). rewrite EP. split; [apply nth_mid|].
      replace (S (length pre)) with (length (pre ++ [a])) by (rewrite app_length; cbn; lia).
      replace (pre ++ a :: b :: rest) with ((pre ++ [a]) ++ b :: rest) by (rewrite <- app_assoc; reflexivity). apply nth_mid. }
    destruct st as [[[d t0] p] i0]. cbn [fst] in D.
    set (st' := if Rltb (dist n (between a b t) q) d then (dist n (between a b t) q, t, between a b t, length pre) else (d, t0, p, i0)).
    assert (EP' : path = (pre ++ [a]) ++ b :: rest) by (rewrite <- app_assoc; exact EP).
    assert (F' : found n path q st').
    { unfold st'. destruct (Rltb _ d); auto. split; auto. split; auto. exists a.
      split; [rewrite EP; apply nth_mid|]. split; [intros ->; apply between_0|]. intros _. exists b. split; auto.
      replace (S (length pre)) with (length (pre ++ [a])) by (rewrite app_length; cbn; lia). rewrite EP'. apply nth_mid. }
    assert (LE : fst (fst (fst st')) <= d).
    { unfold st'. destruct (Rltb _ d) eqn:E; cbn; [apply Rltb_true in E|]; lra. }
    assert (LT : fst (fst (fst st')) <= dist n (between a b t) q).
    { unfold st'. destruct (Rltb _ d) eqn:E; cbn; [lra|apply Rltb_false in E; lra]. }
    assert (SEG : forall u, 0 <= u <= 1 -> fst (fst (fst st')) <= dist n (between a b u) q + s).
    { intros u U. pose proof (OPT u U). lra. }
    specialize (IH (pre ++ [a]) b st' EP' F').
    replace (length (pre ++ [a])) with (S (length pre)) in IH by (rewrite app_length; cbn; lia).
    destruct IH as (IF & ILE & IV & IS).
    { pose proof (SEG 1 ltac:(lra)) as H. rewrite between_1 in H. auto. }
    cbn zeta. split; auto. split; [cbn [fst]; lra|]. split.
    + intros x [<-|I]; [|auto]. pose proof (SEG 0 ltac:(lra)) as H. rewrite between_0 in H. lra.
    + intros [|i] x y u X Y U.
      * cbn in X, Y. injection X as <-. injection Y as <-. pose proof (SEG u U). lra.
      * apply (IS i); auto.
Qed.

(** closest_point gives a point of the path, at the fraction [t < 1] of the segment after vertex [i]; no point of the path is closer, up to
    the length of the segments the code takes for points. *)
Theorem C139_closest n path q s : path <> [] -> 0 <= s -> (forall a b, adjacent path a b -> dist n a b < tiny -> dist n a b <= s) ->
  exists p i t, closest_point n path q = Ret (p, i, t) /\ 0 <= t < 1 /\
    (exists a, nth_error path i = Some a /\ (t = 0 -> p = a) /\ (t <> 0 -> exists b, nth_error path (S i) = Some b /\ p = between a b t)) /\
    forall x, on_path path x -> dist n p q <= dist n x q + s.
Proof.
  intros NE S0 SS. destruct path as [|p0 rest]; [congruence|]. cbn [closest_point].
  destruct (loop_spec n s q (p0 :: rest) S0 SS rest [] p0 (dist n p0 q, 0, p0, O)) as (F & _ & V & G); auto.
  { split; auto. split; [lra|]. exists p0. split; auto. split; auto. intros; lra. }
  { cbn. lra. }
  cbn [length] in *. destruct (closest_loop n p0 rest 0 q (dist n p0 q, 0, p0, O)) as [[[d t] p] i]. cbn [fst] in *.
  destruct F as (-> & T & a & A & Z & NZ).
  assert (OPT : forall x, on_path (p0 :: rest) x -> dist n p q <= dist n x q + s).
  { intros x [I|(x1 & y1 & u & (k & K1 & K2) & U & ->)]; [auto|]. apply (G k); auto. }
  destruct (Reqb t 1) eqn:E.
  - apply Reqb_true in E. subst t. destruct NZ as (b & B & ->); [lra|]. exists (between a b 1), (S i), 0. split; auto. split; [lra|].
    split; [|auto]. exists b. split; auto. split; [intros _; apply between_1|]. intros; lra.
  - apply Reqb_false in E. exists p, i, t. split; auto. split; [lra|]. split; [|auto]. exists a. auto.
Qed.
Print Assumptions C139_closest.
Theorem C139_closest_empty n q : closest_point n [] q = Raise IndexError.
Proof. reflexivity. Qed.

(** ** Travelling *)
Fixpoint trav n (q : vec) (rem : list vec) (d : R) : list vec :=
  match rem with
  | [] => []
  | nx :: rem' =>
      if Rltb 0 d then if Rltb d (dist n q nx) then [between q nx (d / dist n q nx)] else nx :: trav n nx rem' (d - dist n q nx) else []
  end.

Lemma cut_point n q nx d : 0 < d -> d < dist n q nx ->
  (fun i => vsub nx q i / norm n (vsub nx q) * d + q i) = between q nx (d / dist n q nx).
Proof.
  intros P D. apply functional_extensionality. intros i. change (norm n (vsub nx q)) with (dist n nx q). rewrite (dist_sym n nx q).
  unfold between, vsub. field. lra.
Qed.

Lemma nth_skip {A} (l : list A) i : nth_error l i = match skipn i l with [] => None | x :: _ => Some x end.
Proof. revert l; induction i as [|i IH]; intros [|a l]; cbn; auto. Qed.
Lemma skip_S {A} (l : list A) i x r : skipn i l = x :: r -> skipn (S i) l = r.
Proof. revert l; induction i as [|i IH]; intros [|a l]; cbn; try congruence. intros H. apply IH in H. exact H. Qed.

Lemma forward n path : forall fuel ind q d acc, (length (skipn (S ind) path) < fuel)%nat -> (ind < length path)%nat ->
  travel_loop n fuel path 1 ind q d acc = Ret (acc ++ trav n q (skipn (S ind) path) d).
Proof.
  induction fuel as [|f IH]; intros ind q d acc L I; [lia|]. cbn [travel_loop]. destruct (Rltb 0 d) eqn:P.
  - destruct (Nat.eqb_spec ind (length path - 1)) as [E|E].
    + cbn [Z.eqb Pos.eqb andb orb]. rewrite skipn_all2 by lia. cbn. rewrite app_nil_r. reflexivity.
    + cbn [Z.eqb Pos.eqb andb orb]. replace (Z.to_nat (Z.of_nat ind + 1)) with (S ind) by lia.
      rewrite nth_skip. destruct (skipn (S ind) path) as [|nx rem] eqn:SK.
      { apply (f_equal (@length vec)) in SK. rewrite skipn_length in SK. cbn in SK. lia. }
      cbn [trav]. rewrite P. destruct (Rltb d (dist n q nx)) eqn:D.
      * rewrite cut_point by (apply Rltb_true; auto). reflexivity.
      * pose proof (skip_S _ _ _ _ SK) as SK'. rewrite IH; [| |].
        -- rewrite SK', <- app_assoc. reflexivity.
        -- rewrite SK'. cbn in L. lia.
        -- apply (f_equal (@length vec)) in SK. rewrite skipn_length in SK. cbn in SK. lia.
  - f_equal. destruct (skipn (S ind) path); cbn; [|rewrite P]; rewrite app_nil_r; reflexivity.
Qed.

Lemma first_S {A} (l : list A) i x : nth_error l i = Some x -> firstn (S i) l = firstn i l ++ [x].
Proof. revert l; induction i as [|i IH]; intros [|a l]; cbn; try discriminate; [intros [= ->]; auto|]. intros H. f_equal. apply IH; auto. Qed.

Lemma backward n path : forall fuel ind q d acc, (ind < fuel)%nat -> (ind < length path)%nat ->
  travel_loop n fuel path (-1) ind q d acc = Ret (acc ++ trav n q (rev (firstn ind path)) d).
Proof.
  induction fuel as [|f IH]; intros ind q d acc L I; [lia|]. cbn [travel_loop]. destruct (Rltb 0 d) eqn:P.
  - destruct ind as [|k].
    + cbn. rewrite app_nil_r. reflexivity.
    + cbn [Z.eqb Pos.eqb andb orb Nat.eqb]. replace (Z.to_nat (Z.of_nat (S k) + -1)) with k by lia.
      destruct (nth_error path k) as [nx|] eqn:N; [|apply nth_error_None in N; lia].
      rewrite (first_S _ _ _ N), rev_app_distr. cbn [rev app trav]. rewrite P. destruct (Rltb d (dist n q nx)) eqn:D.
      * rewrite cut_point by (apply Rltb_true; auto). reflexivity.
      * rewrite IH by lia. rewrite <- app_assoc. reflexivity.
  - f_equal. destruct (rev (firstn ind path)); cbn; [|rewrite P]; rewrite app_nil_r; reflexivity.
Qed.

(** [out] follows [route] from its beginning: some of its vertices, then possibly a point of the next segment. *)
Definition follows (route out : list vec) : Prop :=
  exists k, out = firstn k route \/
    exists a b t, (1 <= k)%nat /\ nth_error route (k - 1) = Some a /\ nth_error route k = Some b /\ 0 <= t <= 1 /\ out = firstn k route ++ [between a b t].

Lemma trav_length n rem : forall q d, 0 <= d -> path_length n (q :: trav n q rem d) = Rmin d (path_length n (q :: rem)).
Proof.
  induction rem as [|nx rem IH]; intros q d D; cbn [trav path_length path_length_from].
  - rewrite Rmin_right; auto.
  - destruct (Rltb 0 d) eqn:P.
    + apply Rltb_true in P. assert (PL : forall r p, 0 <= path_length_from n p r).
      { clear. induction r as [|x r IH]; intros p; cbn; [lra|]. pose proof (dist_nonneg n p x). pose proof (IH x). lra. }
      pose proof (PL rem nx). destruct (Rltb d (dist n q nx)) eqn:E.
      * apply Rltb_true in E. cbn. rewrite dist_between_start. rewrite Rabs_pos_eq by (apply div_nonneg; lra).
        rewrite Rmin_left by lra. field. lra.
      * apply Rltb_false in E. cbn [path_length_from]. specialize (IH nx (d - dist n q nx) ltac:(lra)). cbn [path_length] in IH. rewrite IH.
        unfold Rmin. destruct (Rle_dec _ _), (Rle_dec _ _); lra.
    + apply Rltb_false in P. cbn. rewrite Rmin_left; [lra|].
      assert (PL : forall r p, 0 <= path_length_from n p r).
      { clear. induction r as [|x r IH]; intros p; cbn; [lra|]. pose proof (dist_nonneg n p x). pose proof (IH x). lra. }
      pose proof (PL rem nx). pose proof (dist_nonneg n q nx). lra.
Qed.

Lemma trav_follows n rem : forall q d, follows (q :: rem) (q :: trav n q rem d).
Proof.
  induction rem as [|nx rem IH]; intros q d; cbn [trav].
  - exists 1%nat. left. reflexivity.
  - destruct (Rltb 0 d) eqn:P; [|exists 1%nat; left; reflexivity]. destruct (Rltb d (dist n q nx)) eqn:E.
    + apply Rltb_true in P, E. exists 1%nat. right. exists q, nx, (d / dist n q nx). split; auto. split; auto. split; auto. split; [|reflexivity].
      split; [apply div_nonneg; lra|]. apply (Rmult_le_reg_r (dist n q nx)); [lra|]. unfold Rdiv. rewrite Rmult_assoc, Rinv_l by lra. lra.
    + destruct (IH nx (d - dist n q nx)) as (k & [H|(a & b & t & K1 & A & B & T & H)]); exists (S k).
      * left. cbn [firstn]. rewrite <- H. reflexivity.
      * right. exists a, b, t. split; [lia|]. split; [|split; [|split; [exact T|]]].
        -- destruct k as [|k]; [lia|]. cbn in A |- *. rewrite Nat.sub_0_r in *. exact A.
        -- exact B.
        -- cbn [firstn app]. rewrite <- H. reflexivity.
Qed.

(** path_length is the sum of the distances from each point to the next; 0 without points. *)
Theorem C139_length n path : path_length n path = fold_right Rplus 0 (map (fun c => dist n (fst c) (snd c)) (combine path (tl path))).
Proof. destruct path as [|q rest]; [reflexivity|]. cbn [path_length tl]. revert q. induction rest as [|p rest IH]; intros q; [reflexivity|]. cbn [path_length_from combine map fold_right fst snd]. rewrite IH. reflexivity. Qed.
Print Assumptions C139_length.

(** travel_along starts at the closest point, goes along the path in the direction asked for, and has the length asked for, or what is left of
    the path if that is less. *)
Theorem C139_travel n path distance start : path <> [] ->
  exists q i t, closest_point n path (match start with Some p => p | None => hd vzero path end) = Ret (q, i, t) /\
    let ahead := if Rltb 0 distance then skipn (S i) path else rev (firstn (if Reqb t 0 then i else S i) path) in
    exists out, travel_along n path distance start = Ret out /\ hd_error out = Some q /\ follows (q :: ahead) out /\
      path_length n out = Rmin (Rabs distance) (path_length n (q :: ahead)).
Proof.
  intros NE. set (st := match start with Some p => p | None => hd vzero path end).
  destruct (C139_closest n path st tiny NE) as (q & i & t & E & T & (a & A & Z & NZ) & _).
  { left. apply tiny_pos. }
  { intros; lra. }
  exists q, i, t. split; auto. intros ahead.
  assert (EX : travel_along n path distance start = Ret (q :: trav n q ahead (Rabs distance))).
  { unfold travel_along.
    assert ((match start with Some p => Ret p | None => match path with [] => Raise IndexError | p0 :: _ => Ret p0 end end) = Ret st) as ->.
    { unfold st. destruct start; auto. destruct path; [congruence|reflexivity]. }
    cbn [pbind]. rewrite E. cbn [pbind].
    assert (IL : (i < length path)%nat) by (apply nth_error_Some; congruence).
    unfold ahead, sign. destruct (Rltb 0 distance) eqn:P.
    - destruct (Reqb t 0) eqn:ET.
      + rewrite forward; [reflexivity| |auto]. rewrite skipn_length. lia.
      + rewrite forward; [|rewrite skipn_length, !app_length, firstn_length, skipn_length; cbn [length]; lia|rewrite !app_length, firstn_length, skipn_length; cbn [length]; lia].
        do 2 f_equal. rewrite skipn_app. rewrite skipn_all2 by (rewrite firstn_length; lia).
        rewrite firstn_length. replace (S (S i) - Nat.min (S i) (length path))%nat with 1%nat by lia. reflexivity.
    - apply Rltb_false in P. destruct (Rltb distance 0) eqn:P'.
      + destruct (Reqb t 0) eqn:ET.
        * rewrite backward by lia. reflexivity.
        * rewrite backward; [|lia|rewrite !app_length, firstn_length, skipn_length; cbn [length]; lia].
          do 4 f_equal. rewrite firstn_app. rewrite firstn_length. replace (S i - Nat.min (S i) (length path))%nat with O by lia.
          rewrite firstn_O, app_nil_r, firstn_firstn, Nat.min_id. reflexivity.
      + apply Rltb_false in P'. assert (distance = 0) as -> by lra. rewrite Rabs_R0.
        assert (Rltb 0 0 = false) as ZZ by (apply Rltb_false; lra).
        destruct (Reqb t 0); cbn [travel_loop]; rewrite ZZ; do 2 f_equal; destruct (rev _); cbn; rewrite ?ZZ; reflexivity. }
  exists (q :: trav n q ahead (Rabs distance)). split; auto. split; [reflexivity|]. split; [apply trav_follows|].
  apply trav_length, Rabs_pos.
Qed.
Print Assumptions C139_travel.

(** ** Densifying *)
Definition lpt (s e : vec) (N j : nat) : vec := fun i => s i + (e i - s i) * INR j / INR N.
Lemma line_points n s e N m : (0 < N)%nat -> forall k,
  path_length_from n (lpt s e N k) (map (fun idx => lpt s e N (S idx)) (seq k m)) = INR m * (dist n s e / INR N) /\
  last (map (fun idx => lpt s e N (S idx)) (seq k m)) (lpt s e N k) = lpt s e N (k + m)%nat /\
  forall j a b, nth_error (lpt s e N k :: map (fun idx => lpt s e N (S idx)) (seq k m)) j = Some a ->
    nth_error (lpt s e N k :: map (fun idx => lpt s e N (S idx)) (seq k m)) (S j) = Some b -> dist n a b = dist n s e / INR N.
Proof.
  intros NP. assert (NP' : 0 < INR N) by (apply lt_0_INR; auto).
  induction m as [|m IH]; intros k; cbn [seq map path_length_from].
  - split; [cbn; ring|]. split; [rewrite Nat.add_0_r; reflexivity|]. intros [|[|j]]; cbn; discriminate.
  - destruct (IH (S k)) as (IL & ILA & IS).
    assert (PT : forall j, lpt s e N j = between s e (INR j / INR N)).
    { intros j. apply functional_extensionality. intros i. unfold lpt, between. unfold Rdiv. ring. }
    assert (D : dist n (lpt s e N k) (lpt s e N (S k)) = dist n s e / INR N).
    { rewrite !PT, dist_between. rewrite S_INR. replace ((INR k + 1) / INR N - INR k / INR N) with (/ INR N) by (field; lra).
      rewrite Rabs_pos_eq by (left; apply Rinv_0_lt_compat; lra). unfold Rdiv. ring. }
    split; [|split].
    + rewrite D. rewrite IL. rewrite S_INR. unfold Rdiv. ring.
    + destruct m as [|m]; [cbn; replace (k + 1)%nat with (S k) by lia; reflexivity|].
      replace (k + S (S m))%nat with (S k + S m)%nat by lia. rewrite <- ILA. cbn [seq map].
      clear. generalize (map (fun idx => lpt s e N (S idx)) (seq (S (S k)) m)). intros l.
      change (last (lpt s e N (S k) :: lpt s e N (S (S k)) :: l) (lpt s e N k)) with (last (lpt s e N (S (S k)) :: l) (lpt s e N k)).
      generalize (lpt s e N (S (S k))). clear. induction l as [|y l IH]; intros x; [reflexivity|].
      change (last (x :: y :: l) (lpt s e N k)) with (last (y :: l) (lpt s e N k)). change (last (x :: y :: l) (lpt s e N (S k))) with (last (y :: l) (lpt s e N (S k))). apply IH.
    + intros [|j] a b; cbn [nth_error].
      * intros [= <-] [= <-]. exact D.
      * intros A B. apply (IS j a b); auto.
Qed.

Lemma last_cons {A} (a d : A) l : last (a :: l) d = last l a.
Proof. revert a d. induction l as [|b l IH]; intros a d; [reflexivity|]. change (last (a :: b :: l) d) with (last (b :: l) d). rewrite !IH. reflexivity. Qed.
Lemma last_app {A} (l m : list A) d : last (l ++ m) d = last m (last l d).
Proof.
  revert d. induction l as [|a l IH]; intros d; [reflexivity|]. rewrite <- app_comm_cons, !last_cons. apply IH.
Qed.
Lemma plf_app n l : forall q m, path_length_from n q (l ++ m) = path_length_from n q l + path_length_from n (last l q) m.
Proof.
  induction l as [|a l IH]; intros q m; [cbn; lra|]. rewrite last_cons. cbn [app path_length_from]. rewrite IH. lra.
Qed.
Lemma plf_ext n l : forall q q', veq n q q' -> path_length_from n q l = path_length_from n q' l.
Proof. destruct l; intros q q' E; cbn; auto. rewrite (dist_ext n q q' v v); auto. apply veq_refl. Qed.

Definition steps n (l : list vec) (m : R) : Prop := forall a b, adjacent l a b -> dist n a b <= m.

Lemma steps_app n p l m r : steps n (p :: l) r -> steps n (last l p :: m) r -> steps n ((p :: l) ++ m) r.
Proof.
  intros A B x y (i & X & Y). destruct (Nat.lt_ge_cases (S i) (length (p :: l))) as [L|L].
  - apply A. exists i. rewrite nth_error_app1 in X, Y by lia. auto.
  - rewrite nth_error_app2 in Y by lia. destruct (Nat.eq_dec (S i) (length (p :: l))) as [E|E].
    + rewrite nth_error_app1 in X by lia. apply B. exists O. rewrite E, Nat.sub_diag in Y. split; [|exact Y].
      cbn. rewrite <- X. cbn [length] in E. injection E as ->. clear. revert p. induction l as [|a l IH]; intros p; [reflexivity|]. rewrite last_cons. apply IH.
    + rewrite nth_error_app2 in X by lia. apply B. exists (S (i - length (p :: l)))%nat. split; [exact X|].
      replace (S i - length (p :: l))%nat with (S (i - length (p :: l)))%nat in Y by lia. exact Y.
Qed.

Lemma densify_line_spec n s e m : 0 < m ->
  let l := densify_line n s e m in
  steps n (s :: l) m /\ path_length_from n s l = dist n s e /\ veq n (last l s) e /\
  forall x, In x l -> exists t, 0 <= t <= 1 /\ x = between s e t.
Proof.
  intros M l. unfold densify_line in l. cbv zeta in l. set (N := Z.to_nat (Zceil (dist n s e / m))) in *.
  pose proof (dist_nonneg n s e) as D0.
  destruct (Nat.eq_dec N 0) as [E|E].
  - assert (D : dist n s e = 0).
    { destruct (Req_dec (dist n s e) 0); auto. exfalso.
      assert (0 < dist n s e / m) by (apply Rdiv_lt_0_compat; lra).
      assert (0 < Zceil (dist n s e / m))%Z; [|unfold N in E; lia].
      apply lt_IZR. eapply Rlt_le_trans; [exact H0|]. apply Zceil_ub. }
    subst l. rewrite E. cbn. split; [|split; [lra|split; [|contradiction]]].
    + intros a b (i & A & B). destruct i; cbn in B; [discriminate|destruct i; discriminate].
    + apply norm_zero in D. intros i Hi. specialize (D i Hi). unfold vsub, vzero in D. lra.
  - assert (NP : (0 < N)%nat) by lia. assert (NP' : 0 < INR N) by (apply lt_0_INR; auto).
    destruct (line_points n s e N N NP 0) as (IL & ILA & IS).
    assert (P0 : lpt s e N 0 = s).
    { apply functional_extensionality. intros i. unfold lpt. cbn. field. lra. }
    change (map (fun idx => lpt s e N (S idx)) (seq 0 N)) with l in *. rewrite P0 in IL, ILA, IS.
    assert (DN : dist n s e / INR N <= m).
    { assert (dist n s e / m <= INR N).
      { unfold N. rewrite INR_IZR_INZ. rewrite Z2Nat.id; [apply Zceil_ub|]. unfold N in NP. lia. }
      apply (Rmult_le_reg_r (INR N)); [lra|]. unfold Rdiv in *. rewrite Rmult_assoc, Rinv_l by lra.
      apply (Rmult_le_compat_r m) in H; [|lra]. rewrite Rmult_assoc, Rinv_l in H by lra. lra. }
    split; [|split; [|split]].
    + intros a b (j & A & B). rewrite (IS j a b A B). exact DN.
    + rewrite IL. field. lra.
    + rewrite ILA. intros i _. rewrite Nat.add_0_l. unfold lpt. field. lra.
    + intros x I. unfold l in I. apply in_map_iff in I as (k & <- & K). apply in_seq in K.
      exists (INR (S k) / INR N). split.
      * split; [apply div_nonneg; [apply pos_INR|lra]|]. apply (Rmult_le_reg_r (INR N)); [lra|]. unfold Rdiv. rewrite Rmult_assoc, Rinv_l by lra.
        rewrite Rmult_1_r, Rmult_1_l. apply le_INR. lia.
      * apply functional_extensionality. intros i. unfold between, Rdiv. ring.
Qed.

(** densify gives a path of the same length, with the same ends, through the same vertices, of points of the segments of the given path, no
    two consecutive ones further apart than [max_dist]. *)
Theorem C139_densify n p0 rest max_dist : 0 < max_dist ->
  let out := densify n (p0 :: rest) max_dist in
  hd_error out = Some p0 /\ veq n (last out p0) (last rest p0) /\
  (forall a b, adjacent out a b -> dist n a b <= max_dist) /\
  path_length n out = path_length n (p0 :: rest) /\
  (forall v, In v (p0 :: rest) -> exists x, In x out /\ veq n x v) /\
  (forall x, In x out -> exists y, on_path (p0 :: rest) y /\ veq n x y).
Proof.
  intros M. cbn [densify].
  assert (G : forall rest2 done acc, veq n (last acc p0) (last done p0) -> steps n (p0 :: acc) max_dist ->
    path_length_from n p0 acc = path_length_from n p0 done ->
    (forall v, In v (p0 :: done) -> exists x, In x (p0 :: acc) /\ veq n x v) ->
    (forall x, In x (p0 :: acc) -> exists y, on_path (p0 :: done) y /\ veq n x y) ->
    exists acc', fold_left (fun new_path p => new_path ++ densify_line n (last new_path p0) p max_dist) rest2 (p0 :: acc) = p0 :: acc' /\
      veq n (last acc' p0) (last (done ++ rest2) p0) /\ steps n (p0 :: acc') max_dist /\
      path_length_from n p0 acc' = path_length_from n p0 (done ++ rest2) /\
      (forall v, In v (p0 :: done ++ rest2) -> exists x, In x (p0 :: acc') /\ veq n x v) /\
      (forall x, In x (p0 :: acc') -> exists y, on_path (p0 :: done ++ rest2) y /\ veq n x y)).
  { induction rest2 as [|b rest2 IH]; intros done acc LA ST PL V O; cbn [fold_left].
    - exists acc. rewrite app_nil_r. auto 7.
    - rewrite last_cons. set (l := densify_line n (last acc p0) b max_dist).
      destruct (densify_line_spec n (last acc p0) b max_dist M) as (S1 & S2 & S3 & S4). fold l in S1, S2, S3, S4.
      assert (DE : dist n (last acc p0) b = dist n (last done p0) b) by (apply dist_ext; [auto|apply veq_refl]).
      destruct (IH (done ++ [b]) (acc ++ l)) as (acc' & E & H).
      + rewrite !last_app. cbn. exact S3.
      + rewrite app_comm_cons. apply steps_app; auto.
      + rewrite !plf_app, S2, PL. cbn. rewrite DE. lra.
      + intros v I. rewrite app_comm_cons, in_app_iff in I. destruct I as [I|[<-|[]]].
        * destruct (V v I) as (x & X & XV). exists x. split; auto. rewrite app_comm_cons, in_app_iff. auto.
        * exists (last l (last acc p0)). split; auto.
          replace (last l (last acc p0)) with (last (acc ++ l) p0) by apply last_app.
          generalize (acc ++ l). clear. intros l. revert p0. induction l as [|a l IH]; intros p0; [left; reflexivity|]. rewrite last_cons. right. apply IH.
      + intros x I. rewrite app_comm_cons, in_app_iff in I. destruct I as [I|I].
        * destruct (O x I) as (y & Y & XY). exists y. split; auto. destruct Y as [Y|(a' & b' & t & (k & K1 & K2) & T & ->)].
          -- left. rewrite app_comm_cons, in_app_iff. auto.
          -- right. exists a', b', t. split; auto. exists k. rewrite app_comm_cons. split; rewrite nth_error_app1; auto; apply nth_error_Some; congruence.
        * destruct (S4 x I) as (t & T & ->). exists (between (last done p0) b t). split.
          -- right. exists (last done p0), b, t. split; auto. exists (length done). rewrite app_comm_cons. split.
             ++ rewrite nth_error_app1 by (cbn; lia). clear. revert p0. induction done as [|a l IH]; intros p0; [reflexivity|]. rewrite last_cons. apply IH.
             ++ rewrite nth_error_app2 by (cbn; lia). cbn. rewrite Nat.sub_diag. reflexivity.
          -- intros i Hi. unfold between. rewrite (LA i Hi). reflexivity.
      + rewrite <- app_assoc in H. cbn [app] in H. exists acc'. split; [|exact H]. rewrite <- E. reflexivity. }
  destruct (G rest [] []) as (acc & E & H1 & H2 & H3 & H4 & H5).
  - apply veq_refl.
  - intros a b ([|[|i]] & A & B); discriminate.
  - reflexivity.
  - intros v [<-|[]]. exists p0. split; [left; auto|apply veq_refl].
  - intros x [<-|[]]. exists p0. split; [left; left; auto|apply veq_refl].
  - cbn [app] in *. cbv zeta. rewrite E. rewrite last_cons. cbn [hd_error path_length]. auto 7.
Qed.
Print Assumptions C139_densify.

(** ** Reversing *)
Lemma reverse_loop_spec rest : forall prev t, reverse_loop prev rest t = map (fun pt => mkJ (t + j_time prev - j_time pt) (j_pos pt) (j_vel pt)) rest.
Proof.
  induction rest as [|pt rest IH]; intros prev t; cbn [reverse_loop map]; auto. rewrite IH. f_equal; [f_equal; lia|].
  apply map_ext. intros p. f_equal. lia.
Qed.

(** The points in reverse order, each at the time the original still had to go. *)
Theorem C139_reverse points : points <> [] ->
  let T := j_time (last points (mkJ 0 [] [])) in
  reverse_trajectory points = Ret (map (fun pt => mkJ (T - j_time pt) (j_pos pt) (j_vel pt)) (rev points)).
Proof.
  intros NE T. unfold reverse_trajectory. destruct points as [|pl init] using rev_ind; [congruence|]. clear IHinit.
  unfold T. rewrite last_last. rewrite rev_app_distr. cbn [rev app map]. f_equal. f_equal; [f_equal; lia|].
  rewrite reverse_loop_spec. apply map_ext. intros p. f_equal; lia.
Qed.
Print Assumptions C139_reverse.

(** Reversing twice gives the trajectory back, starting at time 0. *)
Theorem C139_reverse_twice points : points <> [] ->
  let T0 := j_time (hd (mkJ 0 [] []) points) in
  exists r, reverse_trajectory points = Ret r /\
    reverse_trajectory r = Ret (map (fun pt => mkJ (j_time pt - T0) (j_pos pt) (j_vel pt)) points).
Proof.
  intros NE T0. eexists. split; [apply C139_reverse; auto|]. destruct points as [|p0 rest]; [congruence|].
  rewrite C139_reverse.
  - set (T := j_time (last (p0 :: rest) (mkJ 0 [] []))). rewrite <- map_rev, rev_involutive, map_map.
    replace (last (map (fun pt => mkJ (T - j_time pt) (j_pos pt) (j_vel pt)) (rev (p0 :: rest))) (mkJ 0 [] []))
      with (mkJ (T - j_time p0) (j_pos p0) (j_vel p0)) by (cbn [rev]; rewrite map_app; cbn [map]; rewrite last_last; reflexivity).
    f_equal. apply map_ext. intros p. cbn [j_time j_pos j_vel]. f_equal. unfold T0. cbn [hd]. lia.
  - cbn. destruct (rev rest); discriminate.
Qed.
Print Assumptions C139_reverse_twice.

(** A trajectory of one joint that moves as its velocities (per nanosecond) say: between two points with the same velocity it covers velocity
    times time. *)
Definition moves_as_told (l : list jpoint) : Prop :=
  forall i p p' x x' v, nth_error l i = Some p -> nth_error l (S i) = Some p' -> j_pos p = [x] -> j_pos p' = [x'] -> j_vel p = [v] -> j_vel p' = [v] ->
    x' - x = v * IZR (j_time p' - j_time p).

(** Reversing leaves the velocities as they are, so the result does not move as it says. *)
Theorem C139_reverse_velocities_refuted : exists points r, moves_as_told points /\ reverse_trajectory points = Ret r /\ ~ moves_as_told r.
Proof.
  exists [mkJ 0 [0] [1]; mkJ 1 [1] [1]]. eexists. split; [|split; [reflexivity|]].
  - intros [|[|i]] p p' x x' v; cbn; try discriminate. intros [= <-] [= <-]. cbn. intros [= <-] [= <-] [= <-] _. lra.
  - intros H. specialize (H 0%nat _ _ 1 0 1 eq_refl eq_refl eq_refl eq_refl eq_refl eq_refl). cbn in H. lra.
Qed.
Print Assumptions C139_reverse_velocities_refuted.
Theorem C139_reverse_empty : reverse_trajectory [] = Raise IndexError.
Proof. reflexivity. Qed.

(** A case: on the path 0, 4 on a line the closest point to 3 is 3, and travelling 2 from there covers the distance 1 that is left. *)
Lemma line_norm x : 0 <= x -> norm 1 (fun _ => x) = x.
Proof. intros H. apply Rsqr_inj; [apply norm_nonneg|auto|]. unfold Rsqr. rewrite norm_sq. unfold dot. cbn. ring. Qed.
Lemma line_closest : closest_point 1 [fun _ => 0; fun _ => 4] (fun _ => 3) = Ret (between (fun _ => 0) (fun _ => 4) (3 / 4), O, 3 / 4).
Proof.
  destruct (C139_closest 1 [fun _ => 0; fun _ => 4] (fun _ => 3) 0) as (p & i & t & E & T & (a & A & Z & NZ) & OPT); [discriminate|lra| |].
  { intros a b ([|[|i]] & A & B); cbn in A, B; try discriminate. injection A as <-. injection B as <-. intros L. exfalso.
    unfold dist, vsub in L. change (norm 1 (fun i => 0 - 4)) with (norm 1 (fun _ : nat => 0 - 4)) in L.
    pose proof (dist_sym 1 (fun _ => 0) (fun _ => 4)) as DS. unfold dist, vsub in DS. rewrite DS in L.
    replace (4 - 0) with 4 in L by ring. rewrite line_norm in L by lra. revert L. unfold tiny, float_eps. intros L.
    assert (/ IZR (2 ^ 52) <= / 100) by (apply Rinv_le_contravar; [lra|apply IZR_le; vm_compute; discriminate]). lra. }
  assert (D : dist 1 p (fun _ => 3) <= 0).
  { eapply Rle_trans; [apply (OPT (between (fun _ => 0) (fun _ => 4) (3 / 4)))|].
    - right. exists (fun _ => 0), (fun _ => 4), (3 / 4). split; [exists O; split; reflexivity|]. split; [lra|reflexivity].
    - unfold dist, vsub, between. replace (0 + 3 / 4 * (4 - 0) - 3) with 0 by field. rewrite line_norm by lra. lra. }
  assert (P0 : p O = 3).
  { pose proof (norm_sq 1 (vsub p (fun _ => 3))) as S. pose proof (norm_nonneg 1 (vsub p (fun _ => 3))).
    unfold dist in D. assert (norm 1 (vsub p (fun _ => 3)) = 0) as N0 by lra. rewrite N0 in S. unfold dot, vsub in S. cbn in S.
    assert ((p O - 3) * (p O - 3) = 0) as SQ by lra. destruct (Rmult_integral _ _ SQ); lra. }
  rewrite E. destruct i as [|[|i]]; cbn in A.
  - injection A as <-. destruct (Req_dec t 0) as [T0|T0].
    + rewrite (Z T0) in P0. lra.
    + destruct (NZ T0) as (b & B & ->). cbn in B. injection B as <-. unfold between in P0. assert (t = 3 / 4) as -> by lra. reflexivity.
  - injection A as <-. destruct (Req_dec t 0) as [T0|T0]; [rewrite (Z T0) in P0; lra|]. destruct (NZ T0) as (b & B & _). discriminate.
  - destruct i; discriminate.
Qed.
Example path_case : exists out, travel_along 1 [fun _ => 0; fun _ => 4] 2 (Some (fun _ => 3)) = Ret out /\ path_length 1 out = 1.
Proof.
  destruct (C139_travel 1 [fun _ => 0; fun _ => 4] 2 (Some (fun _ => 3))) as (q & i & t & C & out & E & _ & _ & L); [discriminate|].
  rewrite line_closest in C. injection C as <- <- <-. exists out. split; auto. rewrite L.
  rewrite (proj2 (Rltb_true 0 2)) by lra. cbn [skipn path_length path_length_from]. rewrite dist_sym.
  replace (dist 1 (fun _ => 4) (between (fun _ => 0) (fun _ => 4) (3 / 4))) with 1.
  - rewrite Rabs_pos_eq by lra. rewrite Rmin_right; lra.
  - unfold dist, vsub, between. replace (4 - (0 + 3 / 4 * (4 - 0))) with 1 by field. rewrite line_norm; lra.
Qed.
