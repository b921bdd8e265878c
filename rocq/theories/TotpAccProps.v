(** C160: the slope of the acceleration limit, the switching points on it (GetAccelerationMaxPathVelocityDeriv,
    GetNextAccelerationSwitchingPoint), and one step of IntegrateForward. *)
From Coq Require Import Reals Lra Lia Sorting.Sorted.
From Coquelicot Require Import Rbar.
From Verif Require Import Base MathModel TotpModel TotpVec TotpTrajModel TotpLimitProps TotpStepProps TotpSwitchProps.
Open Scope R_scope.

(** The order of doubles: NaN is below nothing and nothing is below it. *)
Definition number (x : ext) : option Rbar := match x with Fin r => Some (Finite r) | PInf => Some p_infty | NInf => Some m_infty | NaN => None end.
Definition lower (x y : ext) : Prop := exists a b, number x = Some a /\ number y = Some b /\ Rbar_lt a b.
Definition at_most (x y : ext) : Prop := exists a b, number x = Some a /\ number y = Some b /\ Rbar_le a b.
Lemma elt_lower x y : elt x y = true <-> lower x y.
Proof.
  unfold lower. destruct x as [r| | |], y as [r'| | |]; cbn [elt number]; (split; [intros H; try discriminate; try (apply Rltb_true in H); do 2 eexists; (split; [reflexivity|]); (split; [reflexivity|]); cbn; auto
    |intros (a & c & A & C & L); try discriminate; try (injection A as <-); try (injection C as <-); cbn in L; try contradiction; try reflexivity; apply Rltb_true; exact L]).
Qed.
(** A limit below another one; no limit is an infinite one. *)
Definition below (x y : option R) : Prop := exists r, x = Some r /\ forall r', y = Some r' -> r < r'.
Lemma below_lower x y : below x y <-> lower (of_opt x) (of_opt y).
Proof.
  rewrite <- elt_lower. unfold below. destruct x as [r|], y as [r'|]; cbn [of_opt elt].
  - rewrite Rltb_true. split; [intros (q & E & H); injection E as ->; apply H; reflexivity | intros H; exists r; split; [reflexivity|]; intros q E; injection E as <-; exact H].
  - split; [reflexivity|]. intros _. exists r. split; [reflexivity|]. intros q E. discriminate.
  - split; [intros (q & E & _); discriminate | discriminate].
  - split; [intros (q & E & _); discriminate | discriminate].
Qed.
Lemma ele_at_most x y : ele x y = true <-> at_most x y.
Proof.
  unfold at_most. destruct x as [r| | |], y as [r'| | |]; cbn [ele number]; (split; [intros H; try discriminate; try (apply Rleb_true in H); do 2 eexists; (split; [reflexivity|]); (split; [reflexivity|]); cbn; auto
    |intros (a & c & A & C & L); try discriminate; try (injection A as <-); try (injection C as <-); cbn in L; try contradiction; try reflexivity; apply Rleb_true; exact L]).
Qed.

Section Acc.
Variables (n : nat) (tg cv : R -> vec) (len : R) (vmax amax : vec) (dt : R).
Notation limit := (acc_max_vel n tg cv amax).
Notation least s v := (min_max_acc n tg cv amax s v false).
Notation most s v := (min_max_acc n tg cv amax s v true).

(** GetAccelerationMaxPathVelocityDeriv: the difference quotient over 1e-6 to either side; infinite where the limit is on one side, NaN on both. *)
Theorem C160_slope s :
  (forall a b, limit (s + / 1000000) = Some a -> limit (s - / 1000000) = Some b -> exists r, acc_max_deriv n tg cv amax s = Fin r /\ a - b = r * (2 / 1000000)) /\
  (forall b, limit (s + / 1000000) = None -> limit (s - / 1000000) = Some b -> acc_max_deriv n tg cv amax s = PInf) /\
  (forall a, limit (s + / 1000000) = Some a -> limit (s - / 1000000) = None -> acc_max_deriv n tg cv amax s = NInf) /\
  (limit (s + / 1000000) = None -> limit (s - / 1000000) = None -> acc_max_deriv n tg cv amax s = NaN).
Proof.
  unfold acc_max_deriv, tol. split; [|split; [|split]].
  - intros a b -> ->. eexists. split; [reflexivity|]. field.
  - intros b -> ->. reflexivity.
  - intros a -> ->. reflexivity.
  - intros -> ->. reflexivity.
Qed.
(** Where the limit is smooth this is its derivative at a place no further away. *)
Theorem C160_slope_is_derivative s f f' : (forall x, s - / 1000000 <= x <= s + / 1000000 -> limit x = Some (f x) /\ derivable_pt_lim f x (f' x)) ->
  exists c, Rabs (c - s) < / 1000000 /\ acc_max_deriv n tg cv amax s = Fin (f' c).
Proof.
  intros H. destruct (MVT_cor2 f f' (s - / 1000000) (s + / 1000000)) as (c & E & L); [lra|intros x Hx; apply H, Hx|]. exists c. split; [apply Rabs_def1; lra|].
  unfold acc_max_deriv, tol. destruct (H (s + / 1000000)) as [-> _]; [lra|]. destruct (H (s - / 1000000)) as [-> _]; [lra|]. f_equal. rewrite E. field.
Qed.
(** The slope of an acceleration: it over the speed; without speed infinite to the side of the acceleration, NaN without one. *)
Theorem C160_phase_slope s v mx : let a := min_max_acc n tg cv amax s v mx in let r := phase_slope n tg cv amax s v mx in
  (v <> 0 -> exists m, r = Fin m /\ a = m * v) /\ (v = 0 -> (0 < a -> r = PInf) /\ (a < 0 -> r = NInf) /\ (a = 0 -> r = NaN)).
Proof.
  cbv zeta. unfold phase_slope, ediv, Reqb. split; intros H; destruct (Req_EM_T v 0) as [E|E]; try contradiction.
  - eexists. split; [reflexivity|]. field. exact H.
  - set (a := min_max_acc n tg cv amax s v mx) in *. clearbody a. split; [|split]; intros L.
    + rewrite (proj2 (Rltb_true 0 a) L). reflexivity.
    + rewrite (proj2 (Rltb_false 0 a)) by lra. rewrite (proj2 (Rltb_true a 0) L). reflexivity.
    + rewrite (proj2 (Rltb_false 0 a)), (proj2 (Rltb_false a 0)) by lra. reflexivity.
Qed.

(** ** Switching points *)
(** The trajectory can switch at [s] with speed [v], braking with [b] before and accelerating with [a] after.  At a jump of the curvature: the speed is the
    lower of the limits on the two sides; the limit drops there, or falls faster than braking does before; and rises there, or rises faster than
    accelerating does after.  Elsewhere: the slope of the limit turns from negative to positive. *)
Definition can_switch (s : R) (jump : bool) (v b a : R) : Prop :=
  if jump then
    let lb := limit (s - tol) in let la := limit (s + tol) in
    (lb = Some v \/ la = Some v) /\ le_opt v lb /\ le_opt v la /\
    (below la lb \/ lower (acc_max_deriv n tg cv amax (s - 2 * tol)) (phase_slope n tg cv amax (s - tol) v false)) /\
    (below lb la \/ lower (phase_slope n tg cv amax (s + tol) v true) (acc_max_deriv n tg cv amax (s + 2 * tol))) /\
    b = least (s - tol) v /\ a = most (s + tol) v
  else
    limit s = Some v /\ lower (acc_max_deriv n tg cv amax (s - tol)) (Fin 0) /\ lower (Fin 0) (acc_max_deriv n tg cv amax (s + tol)) /\ b = 0 /\ a = 0.
(** The entry of the list of switching points that counts for position [p]: the first with it. *)
Definition counted (l : list (R * bool)) (p : R) (d : bool) : Prop := exists l1 l2, l = l1 ++ (p, d) :: l2 /\ forall q, In q l1 -> fst q < p.

Lemma min_opt (x y : option R) v : (match x, y with Some x, Some y => Some (Rmin x y) | Some x, None => Some x | None, y => y end) = Some v <->
  (x = Some v \/ y = Some v) /\ le_opt v x /\ le_opt v y.
Proof.
  destruct x as [x|], y as [y|]; cbn [le_opt].
  - unfold Rmin. destruct (Rle_dec x y) as [L|L]; split.
    + intros E. injection E as <-. split; [left; reflexivity|lra].
    + intros ([E|E] & H1 & H2); injection E as <-; f_equal; lra.
    + intros E. injection E as <-. split; [right; reflexivity|lra].
    + intros ([E|E] & H1 & H2); injection E as <-; f_equal; lra.
  - split; [intros E; injection E as <-; split; [left; reflexivity|split; [lra|exact I]]|intros ([E|E] & _); [exact E|discriminate]].
  - split; [intros E; injection E as <-; split; [right; reflexivity|split; [exact I|lra]]|intros ([E|E] & _); [discriminate|exact E]].
  - split; [discriminate|intros ([E|E] & _); discriminate].
Qed.
(** The decision of one round. *)
Definition decide (s : R) (d : bool) : option (step * R * R) :=
  if d then
    let b := limit (s - tol) in let a := limit (s + tol) in
    match (match b, a with Some x, Some y => Some (Rmin x y) | Some x, None => Some x | None, y => y end) with
    | None => None
    | Some v =>
        if (elt (of_opt a) (of_opt b) || elt (acc_max_deriv n tg cv amax (s - 2 * tol)) (phase_slope n tg cv amax (s - tol) v false)) &&
           (elt (of_opt b) (of_opt a) || elt (phase_slope n tg cv amax (s + tol) v true) (acc_max_deriv n tg cv amax (s + 2 * tol)))
        then Some (s, v, least (s - tol) v, most (s + tol) v) else None
    end
  else match limit s with
       | None => None
       | Some v => if elt (acc_max_deriv n tg cv amax (s - tol)) (Fin 0) && elt (Fin 0) (acc_max_deriv n tg cv amax (s + tol)) then Some (s, v, 0, 0) else None
       end.
Lemma decide_spec s d p v b a : decide s d = Some (p, v, b, a) <-> p = s /\ can_switch s d v b a.
Proof.
  unfold decide, can_switch. destruct d.
  - cbv zeta. set (m := match limit (s - tol), limit (s + tol) with Some x, Some y => Some (Rmin x y) | Some x, None => Some x | None, y => y end).
    assert (M : forall v, m = Some v <-> (limit (s - tol) = Some v \/ limit (s + tol) = Some v) /\ le_opt v (limit (s - tol)) /\ le_opt v (limit (s + tol))) by (intros; apply min_opt).
    clearbody m. rewrite !below_lower, <- !elt_lower. split.
    + destruct m as [v'|]; [|discriminate]. destruct (_ && _) eqn:T; [|discriminate]. intros E. injection E as <- <- <- <-.
      apply andb_true_iff in T. rewrite !orb_true_iff in T. destruct T as [T1 T2]. destruct (proj1 (M v') eq_refl) as (M1 & M2 & M3). split; [reflexivity|]. repeat (split; [assumption|]). split; reflexivity.
    + intros (-> & M1 & M2 & M3 & T1 & T2 & -> & ->). rewrite (proj2 (M v) (conj M1 (conj M2 M3))). rewrite <- orb_true_iff in T1, T2. rewrite T1, T2. reflexivity.
  - rewrite <- !elt_lower. split.
    + destruct (limit s) as [v'|]; [|discriminate]. destruct (_ && _) eqn:T; [|discriminate]. intros E. injection E as <- <- <- <-. apply andb_true_iff in T. tauto.
    + intros (-> & -> & T1 & T2 & -> & ->). rewrite T1, T2. reflexivity.
Qed.
Lemma next_acc_decide s d l cur : next_acc n tg cv len amax ((s, d) :: l) cur =
  if Rleb s cur then next_acc n tg cv len amax l cur else if Rltb (len - tol) s then None else match decide s d with Some r => Some r | None => next_acc n tg cv len amax l s end.
Proof.
  cbn [next_acc]. destruct (Rleb s cur); [reflexivity|]. destruct (Rltb (len - tol) s); [reflexivity|]. unfold decide. destruct d; cbv zeta.
  - destruct (limit (s - tol)), (limit (s + tol)); try reflexivity; destruct (_ && _); reflexivity.
  - destruct (limit s); [|reflexivity]. destruct (_ && _); reflexivity.
Qed.
Definition rsorted (l : list (R * bool)) := StronglySorted (fun x y : R * bool => fst x <= fst y) l.
Lemma counted_in l p d : counted l p d -> In (p, d) l.
Proof. intros (l1 & l2 & -> & _). apply in_elt. Qed.
Lemma counted_tail x l p d : fst x < p -> (counted (x :: l) p d <-> counted l p d).
Proof.
  intros L. split.
  - intros (l1 & l2 & E & H). destruct l1 as [|y l1]; [injection E as -> ->; cbn in L; lra|]. injection E as -> ->. exists l1, l2. split; [reflexivity|]. intros q Q. apply H. right. exact Q.
  - intros (l1 & l2 & -> & H). exists (x :: l1), l2. split; [reflexivity|]. intros q [<-|Q]; auto.
Qed.
Lemma next_acc_first l : rsorted l -> forall cur,
  match next_acc n tg cv len amax l cur with
  | Some (s, v, b, a) => cur < s <= len - tol /\ (exists d, counted l s d /\ can_switch s d v b a) /\
      forall p d v' b' a', counted l p d -> cur < p < s -> ~ can_switch p d v' b' a'
  | None => forall p d v' b' a', counted l p d -> cur < p <= len - tol -> ~ can_switch p d v' b' a'
  end.
Proof.
  induction l as [|[s d] l IH]; intros SS cur; [intros p d v b a (l1 & l2 & E & _); destruct l1; discriminate|].
  apply StronglySorted_inv in SS. destruct SS as [SS HD]. rewrite Forall_forall in HD. cbn [fst] in HD. specialize (IH SS). rewrite next_acc_decide.
  destruct (Rleb s cur) eqn:L1; [apply Rleb_true in L1|apply Rleb_false in L1].
  - specialize (IH cur). destruct (next_acc n tg cv len amax l cur) as [[[[p v] b] a]|].
    + destruct IH as (I1 & (d' & I2 & I3) & I4). split; [exact I1|]. split; [exists d'; split; [apply counted_tail; [cbn; lra|exact I2]|exact I3]|].
      intros p' d'' v' b' a' C X. apply (I4 p' d''); [|exact X]. apply counted_tail in C; [exact C|cbn; lra].
    + intros p' d'' v' b' a' C X. apply (IH p' d''); [|exact X]. apply counted_tail in C; [exact C|cbn; lra].
  - destruct (Rltb (len - tol) s) eqn:L2; [apply Rltb_true in L2|apply Rltb_false in L2].
    + intros p' d'' v' b' a' C X. apply counted_in in C. destruct C as [C|C]; [injection C as <- <-; lra|]. apply HD in C. cbn in C. lra.
    + assert (HERE : forall p' d'', counted ((s, d) :: l) p' d'' -> p' <= s -> p' = s /\ d'' = d).
      { intros p' d'' (l1 & l2 & E & H) X. destruct l1 as [|y l1]; [injection E as <- <- _; auto|]. injection E as <- E. specialize (H (s, d) (or_introl eq_refl)). cbn in H. lra. }
      destruct (decide s d) as [[[[p v] b] a]|] eqn:D.
      * apply decide_spec in D. destruct D as (-> & D). split; [lra|]. split; [exists d; split; [exists [], l; split; [reflexivity|intros ? []]|exact D]|].
        intros p' d'' v' b' a' C X. destruct (HERE p' d'' C); lra.
      * assert (ND : forall v b a, ~ can_switch s d v b a). { intros v b a X. assert (decide s d = Some (s, v, b, a)) by (apply decide_spec; auto). congruence. }
        specialize (IH s). destruct (next_acc n tg cv len amax l s) as [[[[p v] b] a]|].
        -- destruct IH as (I1 & (d' & I2 & I3) & I4). split; [lra|]. split; [exists d'; split; [apply counted_tail; [cbn; lra|exact I2]|exact I3]|].
           intros p' d'' v' b' a' C X. destruct (Rle_dec p' s) as [Y|Y]; [destruct (HERE p' d'' C Y) as [-> ->]; apply ND|]. apply (I4 p' d''); [|lra]. apply counted_tail in C; [exact C|cbn; lra].
        -- intros p' d'' v' b' a' C X. destruct (Rle_dec p' s) as [Y|Y]; [destruct (HERE p' d'' C Y) as [-> ->]; apply ND|]. apply (IH p' d''); [|lra]. apply counted_tail in C; [exact C|cbn; lra].
Qed.
(** GetNextAccelerationSwitchingPoint: the first counted switching point after the position, at least 1e-6 before the end, at which the trajectory can
    switch; and nothing only when there is none. *)
Theorem C160_switching l cur : (forall l1 x y l2, l = l1 ++ x :: y :: l2 -> fst x <= fst y) ->
  match next_acc n tg cv len amax l cur with
  | Some (s, v, b, a) => cur < s <= len - tol /\ (exists d, counted l s d /\ can_switch s d v b a) /\
      forall p d v' b' a', counted l p d -> cur < p < s -> ~ can_switch p d v' b' a'
  | None => forall p d v' b' a', counted l p d -> cur < p <= len - tol -> ~ can_switch p d v' b' a'
  end.
Proof.
  intros H. apply next_acc_first. apply Sorted_StronglySorted; [intros x y z; cbn; lra|].
  induction l as [|x l IH]; [constructor|]. constructor.
  - apply IH. intros l1 y z l2 ->. apply (H (x :: l1) y z l2). reflexivity.
  - destruct l as [|y l]; constructor. apply (H [] x y l). reflexivity.
Qed.
End Acc.
Print Assumptions C160_slope. Print Assumptions C160_slope_is_derivative. Print Assumptions C160_phase_slope. Print Assumptions C160_switching.

(** ** One step of IntegrateForward *)
(** [rest] is [disc] without the switching points before the next jump after [pos]. *)
Definition ahead (disc rest : list (R * bool)) (pos : R) : Prop :=
  (exists skipped, disc = skipped ++ rest /\ forall x, In x skipped -> fst x <= pos \/ snd x = false) /\
  match rest with (d, e) :: _ => pos < d /\ e = true | [] => True end.
Lemma skip_disc_ahead disc pos : ahead disc (skip_disc disc pos) pos.
Proof.
  induction disc as [|[p d] l IH]; cbn [skip_disc]; [split; [exists []; split; [reflexivity|intros ? []]|exact I]|].
  destruct (Rleb p pos || negb d) eqn:E.
  - destruct IH as [(sk & E1 & E2) H]. split; [|exact H]. exists ((p, d) :: sk). split; [cbn; rewrite <- E1; reflexivity|]. intros x [<-|X]; [|apply E2, X].
    apply orb_true_iff in E. destruct E as [E|E]; [left; apply Rleb_true, E|right; apply negb_true_iff, E].
  - apply orb_false_iff in E. destruct E as [E1 E2]. split; [exists []; split; [reflexivity|intros ? []]|]. split; [apply Rleb_false, E1|apply negb_false_iff, E2].
Qed.
Section Step.
Variables (n : nat) (tg cv : R -> vec) (len : R) (vmax amax : vec) (dt : R).
Notation vlimit := (vel_max n tg vmax).
Notation alimit := (acc_max_vel n tg cv amax).
(** Both limits are kept. *)
Definition within (s v : R) : Prop := v <= vlimit s /\ le_opt v (alimit s).
(** The velocity limit can be followed from [s] on: braking falls at least as fast. *)
Definition can_follow (s : R) : Prop := at_most (phase_slope n tg cv amax s (vlimit s) false) (vel_max_deriv n tg cv vmax s).
(** Uniform acceleration over the time step, up to the next jump of the curvature. *)
Definition moved (rest : list (R * bool)) (pos vel acc pos1 vel1 : R) : Prop :=
  let v := vel + dt * acc in let p := pos + (vel + v) / 2 * dt in
  (exists d l, rest = (d, true) :: l /\ d < p /\ pos1 = d /\ vel1 = vel + (v - vel) * ((d - pos) / (p - pos))) \/
  ((forall d l, rest = (d, true) :: l -> p <= d) /\ pos1 = p /\ vel1 = v).
(** Beyond the point [a] where a limit is exceeded the trajectory cannot go on from ([b], [v]). *)
Definition blocked (rest : list (R * bool)) (b v a : R) : Prop :=
  (below (alimit a) (Some (vlimit a)) /\
     ((exists d e l, rest = (d, e) :: l /\ d < a) \/ lower (acc_max_deriv n tg cv amax b) (phase_slope n tg cv amax b v true))) \/
  (~ below (alimit a) (Some (vlimit a)) /\ lower (vel_max_deriv n tg cv vmax b) (phase_slope n tg cv amax b v false)).

Lemma over_within s v : TotpTrajModel.over n tg cv vmax amax s v = false <-> within s v.
Proof. unfold TotpTrajModel.over, within. rewrite orb_false_iff, above_le, Rltb_false. tauto. Qed.
Lemma elt_dec (x y : ext) : {elt x y = true /\ lower x y} + {elt x y = false /\ ~ lower x y}.
Proof. pose proof (elt_lower x y) as H. destruct (elt x y); [left; split; [reflexivity|apply H; reflexivity]|right; split; [reflexivity|]]. intros L. apply H in L. discriminate. Qed.

(** One round: the motion over the time step, lowered to the velocity limit when it exceeds that and the limit can be followed; past the end it is the last
    one; backwards is an error; within the limits it is added and the round that follows starts from it with the strongest acceleration; otherwise a
    step within 1e-6 of the crossing is added instead, and the integration stops unless it can go on beyond. *)
Theorem C160_step fuel b0 v0 tr disc pos vel acc r :
  (forall i, (i < n)%nat -> 0 <= vmax i) -> (forall i, (i < n)%nat -> 0 <= amax i) ->
  b0 <= pos -> 0 <= v0 -> within b0 v0 -> 0 <= vel -> 0 <= dt ->
  forward_round n tg cv len vmax amax dt fuel ((b0, v0) :: tr) disc pos vel acc = r ->
  exists rest pos1 vel1, ahead disc rest pos /\ moved rest pos vel acc pos1 vel1 /\
    (len < pos1 -> r = Ok (inl ((pos1, vel1) :: (b0, v0) :: tr, true))) /\
    (pos1 <= len -> vel1 < 0 -> r = Throw RuntimeError) /\
    (pos1 <= len -> 0 <= vel1 -> exists vel2,
       (vlimit pos1 < vel1 /\ can_follow pos -> vel2 = vlimit pos1) /\ (~ (vlimit pos1 < vel1 /\ can_follow pos) -> vel2 = vel1) /\
       (within pos1 vel2 -> r = Ok (inr ((pos1, vel2) :: (b0, v0) :: tr, rest, pos1, vel2, min_max_acc n tg cv amax pos1 vel2 true))) /\
       (~ within pos1 vel2 -> forall x, r = Ok x -> exists b v a, b0 <= b <= a /\ a <= pos1 /\ a - b <= / 1000000 /\ within b v /\
          (blocked rest b v a -> x = inl ((b, v) :: (b0, v0) :: tr, false)) /\
          (~ blocked rest b v a -> x = inr ((b, v) :: (b0, v0) :: tr, rest, pos1, vel2, min_max_acc n tg cv amax pos1 vel2 true)))).
Proof.
  intros Hv Ha L0 Hv0 W0 Hvel Hdt <-. unfold forward_round. cbv zeta.
  pose proof (skip_disc_ahead disc pos) as AH. set (rest := skip_disc disc pos) in *. clearbody rest.
  set (pr := match rest with (d, _) :: _ => _ | [] => _ end).
  assert (MV : moved rest pos vel acc (fst pr) (snd pr) /\ (0 <= snd pr -> pos <= fst pr)).
  { unfold pr, moved. cbv zeta. replace (pos + (vel + (vel + dt * acc)) / 2 * dt) with (pos + dt * / 2 * (vel + (vel + dt * acc))) by field.
    set (w := vel + dt * acc). set (p := pos + dt * / 2 * (vel + w)). assert (PP : 0 <= w -> pos <= p) by (intros H; unfold p; assert (0 <= dt * / 2 * (vel + w)) by (apply Rmult_le_pos; lra); lra).
    destruct rest as [|[d e] l]; [cbn [fst snd]; split; [right; split; [intros d l E; discriminate|auto]|exact PP]|]. destruct AH as [_ [AH1 ->]].
    destruct (rdecb d p) as [[Q QL]|[Q QL]]; rewrite Q; cbn [fst snd].
    - split; [left; exists d, l; split; [reflexivity|]; split; [exact QL|]; split; [reflexivity|field; lra]|lra].
    - split; [right; split; [intros d' l' E; injection E as <- <-; exact QL|auto]|exact PP]. }
  destruct pr as [pos1 vel1]. cbn [fst snd] in MV. destruct MV as [MV PP]. exists rest, pos1, vel1. split; [exact AH|]. split; [exact MV|]. clear MV.
  split; [intros X; rewrite (proj2 (Rltb_true len pos1) X); reflexivity|].
  split; [intros X Y; rewrite (proj2 (Rltb_false len pos1) X), (proj2 (Rltb_true vel1 0) Y); reflexivity|].
  intros X Y. specialize (PP Y). rewrite (proj2 (Rltb_false len pos1) X), (proj2 (Rltb_false vel1 0) Y).
  set (vel2 := if Rltb (vlimit pos1) vel1 && follows n tg cv vmax amax pos then vlimit pos1 else vel1).
  assert (CF : Rltb (vlimit pos1) vel1 && follows n tg cv vmax amax pos = true <-> vlimit pos1 < vel1 /\ can_follow pos).
  { rewrite andb_true_iff, Rltb_true. unfold follows, can_follow. rewrite ele_at_most. tauto. }
  exists vel2. split; [intros H; unfold vel2; rewrite (proj2 CF H); reflexivity|].
  split; [intros H; unfold vel2; destruct (_ && _); [exfalso; apply H, CF; reflexivity|reflexivity]|].
  assert (V2 : 0 <= vel2) by (unfold vel2; pose proof (vel_max_nonneg n tg cv vmax amax Hv Ha pos1); destruct (_ && _); lra).
  clearbody vel2. destruct (TotpTrajModel.over n tg cv vmax amax pos1 vel2) eqn:O.
  - split; [intros H; apply over_within in H; congruence|]. intros NW x E. 
    destruct (bisect n tg cv vmax amax fuel b0 v0 pos1 vel2) as [[[b v] a]| | | |] eqn:EB; try discriminate. cbn [obind] in E.
    destruct (TotpStepProps.bisect_spec n tg cv vmax amax Hv Ha _ _ _ _ _ _ _ _ EB) as (P1 & P2 & P3 & P4 & P5 & _); try assumption; try lra; [apply over_within, W0|].
    exists b, v, a. split; [lra|]. split; [lra|]. split; [exact P3|]. split; [apply over_within, P5|].
    unfold blocked. rewrite (below_lower (alimit a) (Some (vlimit a))). cbn [of_opt]. destruct (elt_dec (of_opt (alimit a)) (Fin (vlimit a))) as [[T TL]|[T TL]]; rewrite T in E.
    + destruct rest as [|[d e] l]; [discriminate|]. destruct (rdecb d a) as [[D DL]|[D DL]]; rewrite D in E.
      * injection E as <-. split; [reflexivity|]. intros N. exfalso. apply N. left. split; [exact TL|]. left. exists d, e, l. auto.
      * destruct (elt_dec (acc_max_deriv n tg cv amax b) (phase_slope n tg cv amax b v true)) as [[S SL]|[S SL]]; rewrite S in E; injection E as <-.
        -- split; [reflexivity|]. intros N. exfalso. apply N. left. auto.
        -- split; [|reflexivity]. intros [[_ [(d' & e' & l' & Q & QL)|Q]]|[Q _]]; [injection Q as <- <- <-; lra|contradiction|contradiction].
    + destruct (elt_dec (vel_max_deriv n tg cv vmax b) (phase_slope n tg cv amax b v false)) as [[S SL]|[S SL]]; rewrite S in E; injection E as <-.
      * split; [reflexivity|]. intros N. exfalso. apply N. right. auto.
      * split; [|reflexivity]. intros [[Q _]|[_ Q]]; contradiction.
  - split; [reflexivity|]. intros NW. exfalso. apply NW, over_within, O.
Qed.
End Step.
Print Assumptions C160_step.

(** ** The hypotheses are met *)
(** Two joints; the curvature of the second is largest at position 1, where the limit is lowest. *)
Definition dip_tg (s : R) (i : nat) : R := match i with 0%nat => 1 | _ => / 2 end.
Definition dip_cv (s : R) (i : nat) : R := match i with 0%nat => 0 | _ => 2 - Rabs (s - 1) end.
Lemma dip_limit s : Rabs (s - 1) < 2 -> acc_max_vel 2 dip_tg dip_cv (fun _ => 1) s = Some (sqrt (3 / (2 * (2 - Rabs (s - 1))))).
Proof.
  intros L. unfold acc_max_vel. cbn [seq fold_left Nat.sub]. unfold Reqb, dip_tg, dip_cv. cbn [fold_left].
  set (k := 2 - Rabs (s - 1)). assert (K : 0 < k) by (unfold k; lra). clearbody k.
  destruct (Req_EM_T 1 0); [lra|]. destruct (Req_EM_T (/ 2) 0); [lra|]. destruct (Req_EM_T (0 / 1 - k / / 2) 0) as [E|E]; [exfalso; replace (0 / 1 - k / / 2) with (- (2 * k)) in E by field; lra|].
  cbn [omin]. rewrite Rabs_R1, (Rabs_right (/ 2)) by lra. replace (0 / 1 - k / / 2) with (- (2 * k)) by field. rewrite Rabs_Ropp, (Rabs_right (2 * k)) by lra. f_equal. f_equal. field. lra.
Qed.
Example switching_case : exists v, next_acc 2 dip_tg dip_cv 2 (fun _ => 1) [(1, false)] 0 = Some (1, v, 0, 0).
Proof.
  pose proof (C160_switching 2 dip_tg dip_cv 2 (fun _ => 1) [(1, false)] 0) as H.
  assert (S : forall l1 x y l2, [(1, false)] = l1 ++ x :: y :: l2 -> fst x <= fst y) by (intros l1 x y l2 E; destruct l1 as [|? [|? ?]]; discriminate). specialize (H S). clear S.
  assert (LOW : forall h, 0 < h < 1 -> sqrt (3 / (2 * 2)) < sqrt (3 / (2 * (2 - h)))).
  { intros h Hh. apply sqrt_lt_1; [lra| |].
    - apply Rlt_le, Rdiv_lt_0_compat; lra.
    - apply Rmult_lt_compat_l; [lra|]. apply Rinv_lt_contravar; [apply Rmult_lt_0_compat; lra|lra]. }
  assert (CS : can_switch 2 dip_tg dip_cv (fun _ => 1) 1 false (sqrt (3 / (2 * (2 - Rabs (1 - 1))))) 0 0).
  { cbn [can_switch]. split; [apply dip_limit; rewrite Rminus_diag_eq, Rabs_R0 by reflexivity; lra|]. unfold acc_max_deriv, tol.
    replace (1 - / 1000000 + / 1000000) with 1 by ring. replace (1 + / 1000000 - / 1000000) with 1 by ring.
    rewrite (dip_limit 1) by (rewrite Rminus_diag_eq, Rabs_R0 by reflexivity; lra).
    replace (Rabs (1 - 1)) with 0 by (rewrite Rminus_diag_eq, Rabs_R0; reflexivity). rewrite Rminus_0_r.
    assert (A1 : Rabs (1 - / 1000000 - / 1000000 - 1) = 2 * / 1000000) by (rewrite Rabs_left by lra; ring).
    assert (A2 : Rabs (1 + / 1000000 + / 1000000 - 1) = 2 * / 1000000) by (rewrite Rabs_right by lra; ring).
    rewrite !dip_limit by (rewrite ?A1, ?A2; lra). rewrite A1, A2. specialize (LOW (2 * / 1000000)).
    split; [|split; [|auto]]; do 2 eexists; (split; [reflexivity|]); (split; [reflexivity|]); cbn; lra. }
  destruct (next_acc 2 dip_tg dip_cv 2 (fun _ => 1) [(1, false)] 0) as [[[[s v] b] a]|].
  - destruct H as (_ & (d & C & K) & _). apply counted_in in C. destruct C as [C|[]]. injection C as <- <-. cbn [can_switch] in K. destruct K as (_ & _ & _ & -> & ->). exists v. reflexivity.
  - exfalso. eapply (H 1 false); [exists [], []; split; [reflexivity|intros ? []]|unfold tol; lra|exact CS].
Qed.
(** One joint on a straight path, starting at rest. *)
Example step_case : exists v, forward_round 1 (fun _ _ => 1) (fun _ _ => 0) 10 (fun _ => 1) (fun _ => 1) (/ 10) 50 [(0, 0)] [] 0 0 1 = Ok (inr ([(/ 200, v); (0, 0)], [], / 200, v, 1)).
Proof.
  assert (BIG : 1 < dbl_max) by (unfold dbl_max; apply IZR_lt; reflexivity).
  assert (VM : forall s, vel_max 1 (fun _ _ => 1) (fun _ => 1) s = 1).
  { intros s. unfold vel_max. cbn [seq fold_left]. unfold Reqb. destruct (Req_EM_T 1 0); [lra|]. rewrite Rabs_R1. rewrite Rmin_right; lra. }
  assert (AM : forall s, acc_max_vel 1 (fun _ _ => 1) (fun _ _ => 0) (fun _ => 1) s = None).
  { intros s. unfold acc_max_vel. cbn [seq fold_left Nat.sub]. unfold Reqb. destruct (Req_EM_T 1 0); [lra|]. reflexivity. }
  set (r := forward_round _ _ _ _ _ _ _ _ _ _ _ _ _).
  destruct (C160_step 1 (fun _ _ => 1) (fun _ _ => 0) 10 (fun _ => 1) (fun _ => 1) (/ 10) 50 0 0 [] [] 0 0 1 r ltac:(intros; lra) ltac:(intros; lra) ltac:(lra) ltac:(lra)) as (rest & p & v & A & M & _ & _ & H); try lra; try reflexivity.
  { split; [rewrite VM; lra|rewrite AM; exact I]. }
  destruct A as [(sk & E & _) _]. symmetry in E. apply app_eq_nil in E. destruct E as [_ ->].
  destruct M as [(d & l & M & _)|(_ & P & V)]; [discriminate|]. assert (EP : p = / 200) by (rewrite P; field). assert (EV : v = / 10) by (rewrite V; field).
  destruct H as (v2 & _ & H2 & H3 & _); [lra|lra|]. rewrite VM, EV in H2. assert (E2 : v2 = / 10) by (apply H2; intros [X _]; lra).
  exists v2. rewrite H3; [|split; [rewrite VM; lra|rewrite AM; exact I]]. rewrite EP. do 3 f_equal.
  unfold min_max_acc. cbn [seq fold_left]. unfold Reqb. destruct (Req_EM_T 1 0); [lra|]. rewrite Rabs_R1. replace (1 / 1 - 1 * 0 * v2 * v2 / 1) with 1 by field. rewrite Rmin_right by lra. ring.
Qed.
