(** C166: what IntegrateBackward adds to a trajectory, and when it meets it. *)
From Coq Require Import Reals Lra Lia.
From Verif Require Import Base MathModel TotpModel TotpVec TotpTrajModel TotpLimitProps TotpAccProps.
Open Scope R_scope.

Section Back.
Variables (n : nat) (tg cv : R -> vec) (amax : vec) (dt : R).
Notation braking_at := (fun p v => min_max_acc n tg cv amax p v false).
Notation loop := (backward_loop n tg cv amax dt).

(** One time step with the constant acceleration [a] leads from (p, v) to (p', v'). *)
Definition one_step (a : R) (p v p' v' : R) : Prop := v' = v + dt * a /\ p' = p + dt * ((v + v') / 2).
(** Braking towards (pos, vel): the steps, first the earliest, the point before them, and the acceleration of the step that leads to that point.  Every
    step ends with the strongest braking at its end, the last one with the given acceleration. *)
Inductive brakes (pos vel acc : R) : R * R -> list (R * R) -> R -> Prop :=
| brakes_none : brakes pos vel acc (pos, vel) [] acc
| brakes_step p v l a p0 v0 : brakes pos vel acc (p, v) l a -> 0 <= v0 -> one_step a p0 v0 p v ->
    brakes pos vel acc (p0, v0) ((p, v) :: l) (braking_at p0 v0).
(** (x, y) is on the line through two points that are not above each other, and not outside of their positions by more than 1e-6. *)
Definition on_line (a b : R * R) (x y : R) : Prop :=
  fst a <> fst b /\ (y - snd a) * (fst b - fst a) = (snd b - snd a) * (x - fst a) /\ fst a - / 1000000 <= x <= fst b + / 1000000.

Lemma intersection_spec s1 s2 pos vel f x xv : intersection s1 s2 pos vel (quot (snd f - vel) (fst f - pos)) = Some (x, xv) ->
  fst s1 <> fst s2 /\ pos <> fst f /\ (xv - snd s1) * (fst s2 - fst s1) = (snd s2 - snd s1) * (x - fst s1) /\ (xv - vel) * (fst f - pos) = (snd f - vel) * (x - pos).
Proof.
  unfold intersection, quot, Reqb. destruct (Req_EM_T (fst s2 - fst s1) 0) as [|D1]; [discriminate|]. destruct (Req_EM_T (fst f - pos) 0) as [|D2]; [discriminate|].
  set (m1 := (snd s2 - snd s1) / (fst s2 - fst s1)). set (m := (snd f - vel) / (fst f - pos)). destruct (Req_EM_T (m - m1) 0) as [|D3]; [discriminate|].
  intros H. injection H as <- <-. set (z := (snd s1 - vel + m * pos - m1 * fst s1) / (m - m1)).
  assert (E1 : snd s2 - snd s1 = m1 * (fst s2 - fst s1)) by (unfold m1; field; auto). assert (E2 : snd f - vel = m * (fst f - pos)) by (unfold m; field; auto).
  assert (E3 : z * (m - m1) = snd s1 - vel + m * pos - m1 * fst s1) by (unfold z; field; auto). clearbody m1 m z. split; [lra|]. split; [lra|]. rewrite E1, E2. split; [ring|].
  replace (snd s1 + m1 * (z - fst s1) - vel) with (m * (z - pos)) by lra. ring.
Qed.

Lemma loop_spec pos0 vel0 acc0 tr0 fuel : forall s1 before s2 tr pos vel acc slope r later,
  brakes pos0 vel0 acc0 (pos, vel) tr acc -> tr0 = later ++ s2 :: s1 :: before ->
  (forall f l, tr = f :: l -> slope = quot (snd f - vel) (fst f - pos)) ->
  loop fuel s1 before s2 tr pos vel acc slope = Ok r ->
  exists later s2 s1 before cur f l a x xv, brakes pos0 vel0 acc0 cur (f :: l) a /\ tr0 = later ++ s2 :: s1 :: before /\
    r = rev (f :: l) ++ (x, xv) :: s1 :: before /\ on_line s1 s2 x xv /\ on_line cur f x xv.
Proof.
  induction fuel as [|fuel IH]; [discriminate|]. intros s1 before s2 tr pos vel acc slope r later B T S H. cbn [backward_loop] in H.
  destruct (match before with [] => Rleb 0 pos | _ :: _ => true end); [|discriminate].
  assert (CHECK : forall s1 before s2 f l later pos vel acc, brakes pos0 vel0 acc0 (pos, vel) (f :: l) acc -> tr0 = later ++ s2 :: s1 :: before ->
    match intersection s1 s2 pos vel (quot (snd f - vel) (fst f - pos)) with
    | Some (x, xv) => if Rleb (Rmax (fst s1) pos - tol) x && Rleb x (tol + Rmin (fst s2) (fst f)) then Ok (rev (f :: l) ++ (x, xv) :: s1 :: before)
        else loop fuel s1 before s2 (f :: l) pos vel acc (quot (snd f - vel) (fst f - pos))
    | None => loop fuel s1 before s2 (f :: l) pos vel acc (quot (snd f - vel) (fst f - pos))
    end = Ok r ->
    exists later s2 s1 before cur f l a x xv, brakes pos0 vel0 acc0 cur (f :: l) a /\ tr0 = later ++ s2 :: s1 :: before /\
      r = rev (f :: l) ++ (x, xv) :: s1 :: before /\ on_line s1 s2 x xv /\ on_line cur f x xv).
  { clear -IH. intros s1 before s2 f l later pos vel acc B T H.
    assert (GO : loop fuel s1 before s2 (f :: l) pos vel acc (quot (snd f - vel) (fst f - pos)) = Ok r -> exists later s2 s1 before cur f l a x xv,
      brakes pos0 vel0 acc0 cur (f :: l) a /\ tr0 = later ++ s2 :: s1 :: before /\ r = rev (f :: l) ++ (x, xv) :: s1 :: before /\ on_line s1 s2 x xv /\ on_line cur f x xv).
    { intros G. eapply (IH s1 before s2 (f :: l)); eauto. intros f' l' E. injection E as <- <-. reflexivity. }
    destruct (intersection s1 s2 pos vel (quot (snd f - vel) (fst f - pos))) as [[x xv]|] eqn:E; [|exact (GO H)].
    destruct (Rleb (Rmax (fst s1) pos - tol) x) eqn:E1; cbn [andb] in H; [|exact (GO H)]. destruct (Rleb x (tol + Rmin (fst s2) (fst f))) eqn:E2; [|exact (GO H)].
    injection H as <-. apply Rleb_true in E1, E2. apply intersection_spec in E. destruct E as (D1 & D2 & L1 & L2). unfold tol in *.
    pose proof (Rmax_l (fst s1) pos). pose proof (Rmax_r (fst s1) pos). pose proof (Rmin_l (fst s2) (fst f)). pose proof (Rmin_r (fst s2) (fst f)).
    exists later, s2, s1, before, (pos, vel), f, l, acc, x, xv. split; auto. split; auto. split; auto.
    split; (split; [cbn [fst]; auto|split; [cbn [fst snd]; auto|cbn [fst]; lra]]). }
  destruct (Rleb (fst s1) pos) eqn:E.
  - cbv zeta in H. destruct (Rltb (vel - dt * acc) 0) eqn:V; [discriminate|]. apply Rltb_false in V.
    eapply (CHECK s1 before s2 (pos, vel) tr later); [|exact T|exact H]. apply brakes_step with (a := acc); [exact B|lra|]. unfold one_step. split; lra.
  - destruct before as [|s0 before]; [discriminate|]. destruct tr as [|f l]; [discriminate|]. rewrite (S f l eq_refl) in H.
    eapply (CHECK s0 before s1 f l (later ++ [s2])); [exact B|rewrite <- app_assoc; exact T|exact H].
Qed.

Lemma brakes_end pos vel acc cur l a : brakes pos vel acc cur l a -> forall f l', l = f :: l' -> exists m, rev l = (pos, vel) :: m.
Proof.
  induction 1 as [|p v l a p0 v0 B IH V O]; intros f l' E; [discriminate|]. cbn [rev]. destruct l as [|g l''].
  - inversion B; subst. exists []. reflexivity.
  - destruct (IH g l'' eq_refl) as (m & ->). exists (m ++ [(p, v)]). reflexivity.
Qed.

(** The result (here the last step first) is the trajectory up to some step, a point on its line to the step that followed, and steps of braking that end
    at the given point; the new point is also on the line of the braking step before the first of them. *)
Theorem C166_backward fuel tr pos vel acc r : backward n tg cv amax dt fuel tr pos vel acc = Ok r ->
  exists removed s2 s1 kept cur f l a x xv m, tr = removed ++ s2 :: s1 :: kept /\ brakes pos vel acc cur (f :: l) a /\
    r = rev (f :: l) ++ (x, xv) :: s1 :: kept /\ rev (f :: l) = (pos, vel) :: m /\ on_line s1 s2 x xv /\ on_line cur f x xv.
Proof.
  unfold backward. destruct tr as [|s2 [|s1 before]]; try discriminate. destruct (Rltb pos (fst s1)); [discriminate|]. intros H.
  destruct (loop_spec pos vel acc (s2 :: s1 :: before) fuel s1 before s2 [] pos vel acc (Some 0) r [] (brakes_none _ _ _) eq_refl ltac:(discriminate) H)
    as (later & s2' & s1' & before' & cur & f & l & a & x & xv & H1 & H2 & H3 & H4 & H5).
  destruct (brakes_end _ _ _ _ _ _ H1 f l eq_refl) as (m & M). exists later, s2', s1', before', cur, f, l, a, x, xv, m. auto 10.
Qed.

Lemma fold_min_le {A} (f : A -> R -> R) (l : list A) : (forall i m, f i m <= m) -> forall m, fold_left (fun m i => f i m) l m <= m.
Proof. intros H. induction l as [|i l IH]; intros m; cbn [fold_left]; [lra|]. eapply Rle_trans; [apply IH|apply H]. Qed.
Lemma braking_lower p v : - dbl_max <= braking_at p v.
Proof.
  unfold min_max_acc. cbv zeta. match goal with |- _ <= -1 * fold_left ?f ?l dbl_max => pose proof (fold_min_le (fun i m => f m i) l) as H; cbv beta in H end.
  specialize (H ltac:(intros i m; destruct (Reqb (tg p i) 0); [lra|apply Rmin_l]) dbl_max). lra.
Qed.
(** If anything keeps the moving joints within their acceleration limits at the end of a braking step (but for the last, whose acceleration is given), the
    acceleration of the step does. *)
Theorem C166_limits pos vel acc p v l a p0 v0 a0 b : brakes pos vel acc (p0, v0) ((p, v) :: l) a0 -> brakes pos vel acc (p, v) l a -> l <> [] -> 0 < dt ->
  - dbl_max <= b <= dbl_max -> moving_acc_ok n (tg p) (cv p) amax v b -> moving_acc_ok n (tg p) (cv p) amax v ((v - v0) / dt).
Proof.
  intros B B' N D LB OK. inversion B as [|p' v' l' a' p'' v'' B1 V0 O E1 E2 E3]; subst. destruct O as (O & _). assert (O' : v - v0 = dt * a') by lra. clear O.
  inversion B1 as [|q w l'' a'' q0 w0 B2 V O2]; subst; [contradiction|].
  assert (A : (v - v0) / dt = braking_at p v) by (rewrite O'; field; lra). rewrite A. apply C80_path_acceleration; apply C80_path_acceleration in OK; auto; pose proof (braking_lower p v); lra.
Qed.

(** *** What can go wrong *)
Theorem C166_refused fuel tr pos vel acc : (exists s2 s1 before, tr = s2 :: s1 :: before /\ pos < fst s1) <-> backward n tg cv amax dt fuel tr pos vel acc = Throw InvalidArgument.
Proof.
  split.
  - intros (s2 & s1 & before & -> & L). unfold backward. rewrite (proj2 (Rltb_true _ _) L). reflexivity.
  - unfold backward. destruct tr as [|s2 [|s1 before]]; try discriminate. destruct (Rltb pos (fst s1)) eqn:E; [apply Rltb_true in E; eauto|].
    intros H. exfalso. revert H. clear. generalize (@nil step), (Some 0). revert s2 s1 before pos vel acc. induction fuel as [|fuel IH]; [discriminate|].
    intros s2 s1 before pos vel acc tr slope. cbn [backward_loop]. match goal with |- (if ?c then _ else _) = _ -> _ => destruct c end; [|discriminate].
    destruct (Rleb (fst s1) pos).
    + cbv zeta. destruct (Rltb (vel - dt * acc) 0); [discriminate|]. destruct (intersection _ _ _ _ _) as [[x xv]|]; [destruct (_ && _); [discriminate|]|]; apply IH.
    + destruct before as [|s0 before]; [discriminate|]. cbv zeta. destruct tr as [|f tr]; [discriminate|].
      destruct (intersection _ _ _ _ _) as [[x xv]|]; [destruct (_ && _); [discriminate|]|]; apply IH.
Qed.
(** No access outside the list for a trajectory of at least two steps that begins at or before position 0. *)
Theorem C166_defined fuel tr s z pos vel acc : fst z <= 0 -> backward n tg cv amax dt fuel (s :: tr ++ [z]) pos vel acc <> UB.
Proof.
  intros Z. unfold backward. destruct (tr ++ [z]) as [|s1 before] eqn:T; [destruct tr; discriminate|]. destruct (Rltb pos (fst s1)) eqn:E; [discriminate|]. apply Rltb_false in E.
  assert (ZZ : exists r, s1 :: before = r ++ [z]) by eauto. assert (TT : Rleb (fst s1) pos = true \/ (0 < length (@nil step))%nat) by (left; apply Rleb_true; lra). clear T E.
  revert ZZ TT. generalize (@nil step), (Some 0). revert s s1 before pos vel acc. induction fuel as [|fuel IH]; [discriminate|].
  intros s2 s1 before pos vel acc tr0 slope (r & ZZ) TT. cbn [backward_loop]. match goal with |- (if ?c then _ else _) <> _ => destruct c eqn:G end; [|discriminate].
  destruct (Rleb (fst s1) pos) eqn:E.
  - cbv zeta. destruct (Rltb (vel - dt * acc) 0); [discriminate|].
    destruct (intersection _ _ _ _ _) as [[x xv]|]; [destruct (_ && _); [discriminate|]|]; (apply IH; [eauto|right; cbn [length]; apply Nat.lt_0_succ]).
  - destruct before as [|s0 before].
    + exfalso. apply Rleb_true in G. apply Rleb_false in E. assert (s1 = z) by (destruct r as [|? [|? ?]]; [injection ZZ; auto|discriminate|discriminate]). subst. lra.
    + cbv zeta. destruct TT as [|TT]; [discriminate|]. destruct tr0 as [|f tr0]; [apply Nat.nlt_0_r in TT; contradiction|].
      assert (Z' : exists r', s0 :: before = r' ++ [z]) by (destruct r as [|? r]; [discriminate|injection ZZ as _ ZZ; eauto]).
      destruct (intersection _ _ _ _ _) as [[x xv]|]; [destruct (_ && _); [discriminate|]|]; (apply IH; [exact Z'|right; cbn [length]; apply Nat.lt_0_succ]).
Qed.

(** *** Meeting the trajectory *)
(** A trajectory, last step first, whose positions increase (a step may be there twice). *)
Definition rising (tr : list (R * R)) : Prop := forall l b a r, tr = l ++ b :: a :: r -> fst a < fst b \/ a = b.
(** (p, v) is not above the trajectory. *)
Definition under (tr : list (R * R)) (p v : R) : Prop :=
  exists l b a r, tr = l ++ b :: a :: r /\ fst a < fst b /\ fst a <= p <= fst b /\ (v - snd a) * (fst b - fst a) <= (snd b - snd a) * (p - fst a).

Lemma rising_tail b tr : rising (b :: tr) -> rising tr.
Proof. intros H l b' a r ->. apply (H (b :: l) b' a r). reflexivity. Qed.
Lemma rising_nonneg tr : rising tr -> forall r, tr = r ++ [(0, 0)] -> forall a, In a tr -> 0 <= fst a.
Proof.
  induction tr as [|b tr IH]; intros H r E a I; [contradiction|]. destruct tr as [|c tr].
  - destruct I as [<-|[]]. destruct r as [|? [|]]; [injection E as ->; cbn; lra|discriminate|discriminate].
  - assert (T : exists r', c :: tr = r' ++ [(0, 0)]) by (destruct r as [|? r]; [discriminate|injection E as _ E; eauto]). destruct T as (r' & T).
    pose proof (IH (rising_tail _ _ H) r' T) as N. destruct I as [<-|I]; [|apply N, I]. specialize (N c (or_introl eq_refl)). destruct (H [] b c tr eq_refl) as [?| ->]; lra.
Qed.

Definition slope_of (a b : R * R) : R := (snd b - snd a) / (fst b - fst a).
Lemma slope_at a b : fst a < fst b \/ a = b -> snd a + slope_of a b * (fst b - fst a) = snd b.
Proof. unfold slope_of. intros [H| ->]; [field; lra|ring]. Qed.

(** If the check finds nothing, the braking line is not above the trajectory at the left end of what they share, if it is not at the right end. *)
Lemma check_fails s1 s2 pos vel f m : fst s1 < fst s2 \/ s1 = s2 -> pos < fst f -> m = Rmin (fst s2) (fst f) -> fst s1 <= m -> pos <= m ->
  vel + slope_of (pos, vel) f * (m - pos) <= snd s1 + slope_of s1 s2 * (m - fst s1) ->
  (exists x xv, intersection s1 s2 pos vel (quot (snd f - vel) (fst f - pos)) = Some (x, xv) /\ Rleb (Rmax (fst s1) pos - tol) x && Rleb x (tol + Rmin (fst s2) (fst f)) = true) \/
  (let L := Rmax (fst s1) pos in vel + slope_of (pos, vel) f * (L - pos) <= snd s1 + slope_of s1 s2 * (L - fst s1)).
Proof.
  intros C F M A B D. cbv zeta. set (L := Rmax (fst s1) pos). destruct (Rle_dec (vel + slope_of (pos, vel) f * (L - pos)) (snd s1 + slope_of s1 s2 * (L - fst s1))) as [|G]; [right; assumption|left].
  apply Rnot_le_lt in G. assert (LM : L <= m) by (unfold L; apply Rmax_lub; auto). destruct C as [C|C].
  2:{ exfalso. subst s2. assert (m = fst s1) by (pose proof (Rmin_l (fst s1) (fst f)); lra). assert (fst s1 <= L) by apply Rmax_l. replace L with m in G by lra. lra. }
  unfold intersection, quot, Reqb. destruct (Req_EM_T (fst s2 - fst s1) 0); [lra|]. destruct (Req_EM_T (fst f - pos) 0); [lra|].
  change ((snd s2 - snd s1) / (fst s2 - fst s1)) with (slope_of s1 s2). change ((snd f - vel) / (fst f - pos)) with (slope_of (pos, vel) f).
  set (mb := slope_of (pos, vel) f) in *. set (mo := slope_of s1 s2) in *. clearbody mb mo.
  assert (LT : L < m). { destruct (Rle_lt_or_eq_dec _ _ LM) as [|Q]; auto. rewrite Q in G. lra. }
  assert (N : mb - mo < 0). { apply Rnot_le_lt. intros Q. assert (0 <= (mb - mo) * (m - L)) by (apply Rmult_le_pos; lra). lra. }
  destruct (Req_EM_T (mb - mo) 0); [lra|]. set (x := (snd s1 - vel + mb * pos - mo * fst s1) / (mb - mo)).
  assert (X : (mb - mo) * x = snd s1 - vel + mb * pos - mo * fst s1) by (unfold x; field; lra). clearbody x. exists x, (snd s1 + mo * (x - fst s1)). split; [reflexivity|].
  rewrite <- M. fold L. apply andb_true_intro. unfold tol.
  assert (L <= x) by (apply Rnot_lt_le; intros Q; assert (0 < (mo - mb) * (L - x)) by (apply Rmult_lt_0_compat; lra); lra).
  assert (x <= m) by (apply Rnot_lt_le; intros Q; assert (0 < (mo - mb) * (x - m)) by (apply Rmult_lt_0_compat; lra); lra).
  split; apply Rleb_true; lra.
Qed.
(** Between two points with speeds not negative, the later or its speed positive, the line has a positive value at 0. *)
Lemma value_at_zero pos vel f : 0 < vel -> 0 <= snd f -> 0 < fst f \/ 0 < snd f -> pos < 0 -> 0 <= fst f -> 0 < vel + slope_of (pos, vel) f * (0 - pos).
Proof.
  intros V W P N F. unfold slope_of. cbn [fst snd]. replace (vel + (snd f - vel) / (fst f - pos) * (0 - pos)) with ((vel * fst f + snd f * - pos) / (fst f - pos)) by (field; lra).
  apply Rdiv_lt_0_compat; [|lra]. destruct P as [P|P].
  - assert (0 < vel * fst f) by (apply Rmult_lt_0_compat; lra). assert (0 <= snd f * - pos) by (apply Rmult_le_pos; lra). lra.
  - assert (0 <= vel * fst f) by (apply Rmult_le_pos; lra). assert (0 < snd f * - pos) by (apply Rmult_lt_0_compat; lra). lra.
Qed.

Section Meets.
Variables (whole : list (R * R)) (pos0 vmin : R).
Hypothesis (W1 : rising whole) (W2 : exists r, whole = r ++ [(0, 0)]) (VM : 0 < vmin) (DT : 0 < dt).
Hypothesis CAN : forall p v, p <= pos0 -> 0 <= v -> under whole p v -> braking_at p v <= 0.
Let delta := dt * / 2 * vmin.

Definition inv (s1 : R * R) (before : list (R * R)) (s2 : R * R) (tr : list (R * R)) (pos vel acc : R) (slope : option R) : Prop :=
  (exists l, whole = l ++ s2 :: s1 :: before) /\ pos <= pos0 /\
  ((fst s1 <= pos <= fst s2 /\ vel <= snd s1 + slope_of s1 s2 * (pos - fst s1) /\ 0 <= vel /\ acc <= 0 /\ vmin <= vel - dt * acc /\ (0 < pos \/ 0 < vel)) \/
   (pos < fst s1 /\ exists f l, tr = f :: l /\ slope = quot (snd f - vel) (fst f - pos) /\ before <> [] /\ acc = braking_at pos vel /\ vmin <= vel /\ fst s1 <= fst f /\
      vel + slope_of (pos, vel) f * (fst s1 - pos) <= snd s1 /\ 0 <= snd f /\ (0 < fst f \/ 0 < snd f))).

Lemma suffix_zero s1 before s2 l : whole = l ++ s2 :: s1 :: before -> before = [] -> s1 = (0, 0).
Proof.
  intros E ->. destruct W2 as (r & E2). rewrite E2 in E. replace (l ++ [s2; s1]) with ((l ++ [s2]) ++ [s1]) in E by (rewrite <- app_assoc; reflexivity).
  apply app_inj_tail in E. symmetry. apply E.
Qed.
Lemma whole_nonneg a : In a whole -> 0 <= fst a.
Proof. destruct W2 as (r & E). apply (rising_nonneg whole W1 r E). Qed.

Lemma meets M : forall K s1 before s2 tr pos vel acc slope, inv s1 before s2 tr pos vel acc slope -> pos < INR K * delta -> (K + length before <= M)%nat ->
  exists out, forall fuel, (M <= fuel)%nat -> loop fuel s1 before s2 tr pos vel acc slope = Ok out.
Proof.
  assert (DP : 0 < delta) by (unfold delta; apply Rmult_lt_0_compat; lra).
  induction M as [|M IH]; intros K s1 before s2 tr pos vel acc slope ((l & W) & PP & I) HK HM.
  - exfalso. assert (K = O) by lia. subst K. cbn [INR] in HK. assert (before = []) by (destruct before; [reflexivity|cbn in HM; lia]). destruct I as [I|(_ & f & l' & _ & _ & N & _)]; [|contradiction].
    assert (0 <= fst s1) by (apply whole_nonneg; rewrite W; apply in_or_app; right; right; left; reflexivity). lra.
  - assert (N1 : 0 <= fst s1) by (apply whole_nonneg; rewrite W; apply in_or_app; right; right; left; reflexivity).
    assert (C : fst s1 < fst s2 \/ s1 = s2) by (apply (W1 l s2 s1 before W)).
    destruct I as [((A1 & A2) & A3 & A4 & A5 & A6 & A7)|(B0 & f & l' & -> & -> & B1 & B2 & B3 & B4 & B5 & B6 & B7)].
    + set (vel1 := vel - dt * acc) in *. set (pos1 := pos - dt * / 2 * (vel1 + vel)).
      assert (AV : 0 <= dt * - acc) by (apply Rmult_le_pos; lra). assert (V1 : vel <= vel1) by (unfold vel1; lra).
      assert (P1 : pos1 <= pos - delta). { unfold pos1, delta. assert (dt * / 2 * vmin <= dt * / 2 * (vel1 + vel)) by (apply Rmult_le_compat_l; lra). lra. }
      assert (SP : vel1 + slope_of (pos1, vel1) (pos, vel) * (pos - pos1) = vel) by (apply (slope_at (pos1, vel1) (pos, vel)); left; cbn [fst]; lra).
      assert (MM : Rmin (fst s2) pos = pos) by (apply Rmin_right; lra).
      assert (ST : forall k, loop (S k) s1 before s2 tr pos vel acc slope =
        match intersection s1 s2 pos1 vel1 (quot (vel - vel1) (pos - pos1)) with
        | Some (x, xv) => if Rleb (Rmax (fst s1) pos1 - tol) x && Rleb x (tol + Rmin (fst s2) pos) then Ok (rev ((pos, vel) :: tr) ++ (x, xv) :: s1 :: before)
            else loop k s1 before s2 ((pos, vel) :: tr) pos1 vel1 (braking_at pos1 vel1) (quot (vel - vel1) (pos - pos1))
        | None => loop k s1 before s2 ((pos, vel) :: tr) pos1 vel1 (braking_at pos1 vel1) (quot (vel - vel1) (pos - pos1))
        end).
      { intros k. cbn [backward_loop fst]. match goal with |- (if ?c then _ else _) = _ => assert (Cc : c = true) by (destruct before; [apply Rleb_true; lra|reflexivity]); rewrite Cc end. rewrite (proj2 (Rleb_true _ _) A1). cbv zeta. fold vel1. rewrite (proj2 (Rltb_false vel1 0)) by lra. fold pos1. reflexivity. }
      destruct (check_fails s1 s2 pos1 vel1 (pos, vel) pos C) as [(x & xv & X1 & X2)|X]; cbn [fst snd]; try lra.
      * cbn [fst snd] in X1, X2. exists (rev ((pos, vel) :: tr) ++ (x, xv) :: s1 :: before). intros fuel HF. destruct fuel as [|fuel]; [lia|]. rewrite ST, X1, X2. reflexivity.
      * assert (GO : exists out, forall fuel, (M <= fuel)%nat -> loop fuel s1 before s2 ((pos, vel) :: tr) pos1 vel1 (braking_at pos1 vel1) (quot (vel - vel1) (pos - pos1)) = Ok out).
        { assert (KP : (1 <= K)%nat). { destruct K; [cbn [INR] in HK; lra|lia]. } apply (IH (K - 1)%nat).
          - split; [eauto|]. split; [lra|]. cbv zeta in X. destruct (Rle_dec (fst s1) pos1) as [Q|Q].
            + left. rewrite (Rmax_right _ _ Q) in X. assert (HH : vel1 <= snd s1 + slope_of s1 s2 * (pos1 - fst s1)) by lra.
              assert (C' : fst s1 < fst s2) by (destruct C as [|E]; auto; rewrite <- E in A2; lra).
              assert (U : braking_at pos1 vel1 <= 0).
              { apply CAN; [lra|lra|]. exists l, s2, s1, before. split; auto. split; auto. split; [lra|]. unfold slope_of in HH.
                apply Rle_trans with ((snd s2 - snd s1) / (fst s2 - fst s1) * (pos1 - fst s1) * (fst s2 - fst s1)); [apply Rmult_le_compat_r; lra|]. right. field. lra. }
              assert (0 <= dt * - braking_at pos1 vel1) by (apply Rmult_le_pos; lra).
              repeat split; try lra.
            + right. apply Rnot_le_lt in Q. rewrite (Rmax_left (fst s1) pos1) in X by lra. split; auto. exists (pos, vel), tr. cbn [fst snd]. repeat split; try lra; auto.
              intros ->. rewrite (suffix_zero _ _ _ _ W eq_refl) in X, Q. cbn [fst snd] in X, Q.
              pose proof (value_at_zero pos1 vel1 (pos, vel) ltac:(lra) ltac:(cbn; lra) ltac:(cbn; lra) Q ltac:(cbn; lra)) as Z. lra.
          - rewrite minus_INR by lia. cbn [INR]. lra.
          - lia. }
        destruct GO as (out & GO). destruct (intersection s1 s2 pos1 vel1 (quot (vel - vel1) (pos - pos1))) as [[x xv]|] eqn:EI.
        -- destruct (Rleb (Rmax (fst s1) pos1 - tol) x && Rleb x (tol + Rmin (fst s2) pos)) eqn:EB.
           ++ exists (rev ((pos, vel) :: tr) ++ (x, xv) :: s1 :: before). intros fuel HF. destruct fuel as [|fuel]; [lia|]. rewrite ST. reflexivity.
           ++ exists out. intros fuel HF. destruct fuel as [|fuel]; [lia|]. rewrite ST. apply GO. lia.
        -- exists out. intros fuel HF. destruct fuel as [|fuel]; [lia|]. rewrite ST. apply GO. lia.
    + destruct before as [|s0 before]; [contradiction|].
      assert (N0 : 0 <= fst s0) by (apply whole_nonneg; rewrite W; apply in_or_app; right; right; right; left; reflexivity).
      assert (W' : whole = (l ++ [s2]) ++ s1 :: s0 :: before) by (rewrite W, <- app_assoc; reflexivity).
      assert (C0 : fst s0 < fst s1 \/ s0 = s1) by (apply (W1 _ s1 s0 before W')).
      assert (C1 : fst s0 <= fst s1) by (destruct C0 as [|E]; [lra|rewrite E; lra]).
      assert (SP := slope_at s0 s1 C0).
      assert (ST : forall k, loop (S k) s1 (s0 :: before) s2 (f :: l') pos vel acc (quot (snd f - vel) (fst f - pos)) =
        match intersection s0 s1 pos vel (quot (snd f - vel) (fst f - pos)) with
        | Some (x, xv) => if Rleb (Rmax (fst s0) pos - tol) x && Rleb x (tol + Rmin (fst s1) (fst f)) then Ok (rev (f :: l') ++ (x, xv) :: s0 :: before)
            else loop k s0 before s1 (f :: l') pos vel acc (quot (snd f - vel) (fst f - pos))
        | None => loop k s0 before s1 (f :: l') pos vel acc (quot (snd f - vel) (fst f - pos))
        end).
      { intros k. cbn [backward_loop]. rewrite (proj2 (Rleb_false _ _) B0). reflexivity. }
      destruct (check_fails s0 s1 pos vel f (fst s1) C0) as [(x & xv & X1 & X2)|X]; try lra.
      * symmetry. apply Rmin_left. exact B4.
      * exists (rev (f :: l') ++ (x, xv) :: s0 :: before). intros fuel HF. destruct fuel as [|fuel]; [lia|]. rewrite ST, X1, X2. reflexivity.
      * assert (GO : exists out, forall fuel, (M <= fuel)%nat -> loop fuel s0 before s1 (f :: l') pos vel acc (quot (snd f - vel) (fst f - pos)) = Ok out).
        { apply (IH K).
          - split; [eauto|]. split; [lra|]. cbv zeta in X. destruct (Rle_dec (fst s0) pos) as [Q|Q].
            + left. rewrite (Rmax_right _ _ Q) in X. assert (HH : vel <= snd s0 + slope_of s0 s1 * (pos - fst s0)) by lra.
              assert (C' : fst s0 < fst s1) by lra.
              assert (U : braking_at pos vel <= 0).
              { apply CAN; [lra|lra|]. exists (l ++ [s2]), s1, s0, before. split; auto. split; auto. split; [lra|]. unfold slope_of in HH.
                apply Rle_trans with ((snd s1 - snd s0) / (fst s1 - fst s0) * (pos - fst s0) * (fst s1 - fst s0)); [apply Rmult_le_compat_r; lra|]. right. field. lra. }
              assert (acc <= 0) by (rewrite B2; exact U). assert (0 <= dt * - acc) by (apply Rmult_le_pos; lra). repeat split; try lra.
            + right. apply Rnot_le_lt in Q. rewrite (Rmax_left (fst s0) pos) in X by lra. split; auto. exists f, l'. repeat split; try lra; auto.
              intros ->. rewrite (suffix_zero _ _ _ _ W' eq_refl) in X, Q. cbn [fst snd] in X, Q.
              pose proof (value_at_zero pos vel f ltac:(lra) B6 B7 Q ltac:(lra)) as Z. lra.
          - exact HK.
          - cbn [length] in HM. lia. }
        destruct GO as (out & GO). destruct (intersection s0 s1 pos vel (quot (snd f - vel) (fst f - pos))) as [[x xv]|] eqn:EI.
        -- destruct (Rleb (Rmax (fst s0) pos - tol) x && Rleb x (tol + Rmin (fst s1) (fst f))) eqn:EB.
           ++ exists (rev (f :: l') ++ (x, xv) :: s0 :: before). intros fuel HF. destruct fuel as [|fuel]; [lia|]. rewrite ST. reflexivity.
           ++ exists out. intros fuel HF. destruct fuel as [|fuel]; [lia|]. rewrite ST. apply GO. lia.
        -- exists out. intros fuel HF. destruct fuel as [|fuel]; [lia|]. rewrite ST. apply GO. lia.
Qed.
End Meets.

(** Braking from a point between the last two steps, not above their line, meets the trajectory - which begins at rest at position 0 -, if at no point
    under it the braking is an acceleration. *)
Theorem C166_meets s2 s1 before pos vel acc : let tr := s2 :: s1 :: before in
  rising tr -> (exists r, s1 :: before = r ++ [(0, 0)]) -> 0 < pos -> fst s1 <= pos <= fst s2 -> 0 <= vel -> under [s2; s1] pos vel -> 0 < dt -> acc < 0 ->
  (forall p v, p <= pos -> 0 <= v -> under tr p v -> braking_at p v <= 0) ->
  exists N r, forall fuel, (N <= fuel)%nat -> backward n tg cv amax dt fuel tr pos vel acc = Ok r.
Proof.
  cbv zeta. intros W1 (r & W2) P0 P1 V U DT A CAN. assert (VM : 0 < dt * - acc) by (apply Rmult_lt_0_compat; lra). set (delta := dt * / 2 * (dt * - acc)).
  assert (DP : 0 < delta) by (unfold delta; apply Rmult_lt_0_compat; lra).
  destruct (archimed (pos / delta)) as (HK & _). assert (HZ : 0 < pos / delta) by (apply Rdiv_lt_0_compat; lra). set (K := Z.to_nat (up (pos / delta))).
  assert (EK : IZR (up (pos / delta)) = INR K) by (unfold K; rewrite INR_IZR_INZ, Z2Nat.id; [reflexivity|apply le_IZR; lra]). rewrite EK in HK. clearbody K.
  assert (HK' : pos < INR K * delta). { apply Rgt_lt, (Rmult_lt_compat_r delta) in HK; auto. replace (pos / delta * delta) with pos in HK by (field; lra). exact HK. }
  destruct (meets (s2 :: s1 :: before) pos (dt * - acc) W1 ltac:(exists (s2 :: r); rewrite W2; reflexivity) VM DT CAN (K + length before)%nat K s1 before s2 [] pos vel acc (Some 0)) as (out & O).
  - split; [exists []; reflexivity|]. split; [lra|]. left. assert (HH : vel <= snd s1 + slope_of s1 s2 * (pos - fst s1)).
    { destruct U as (l & b & a & r' & E & U1 & U2 & U3). assert (EE : l = [] /\ b = s2 /\ a = s1).
      { destruct l as [|? [|? ?]]; [injection E as -> -> _; auto|discriminate|destruct l; discriminate]. } destruct EE as (_ & -> & ->).
      unfold slope_of. apply Rmult_le_reg_r with (fst s2 - fst s1); [lra|]. replace ((snd s1 + (snd s2 - snd s1) / (fst s2 - fst s1) * (pos - fst s1)) * (fst s2 - fst s1))
        with (snd s1 * (fst s2 - fst s1) + (snd s2 - snd s1) * (pos - fst s1)) by (field; lra). lra. }
    repeat split; try lra.
  - exact HK'.
  - lia.
  - exists (K + length before)%nat, out. intros fuel HF. unfold backward. rewrite (proj2 (Rltb_false _ _)) by lra. apply O, HF.
Qed.
End Back.

Print Assumptions C166_backward.
Print Assumptions C166_limits.
Print Assumptions C166_refused.
Print Assumptions C166_defined.
Print Assumptions C166_meets.

(** *** A straight line in one dimension with the acceleration limit 1 *)
Lemma ex_braking p v : min_max_acc 1 (fun _ _ => 1) (fun _ _ => 0) (fun _ => 1) p v false = -1.
Proof.
  unfold min_max_acc. cbn [fold_left seq]. unfold Reqb. destruct (Req_EM_T 1 0); [lra|]. rewrite Rabs_R1.
  replace (1 / 1 - -1 * 0 * v * v / 1) with 1 by field. rewrite Rmin_right; [lra|]. unfold dbl_max.
  apply IZR_le. vm_compute. discriminate.
Qed.
Definition ex_tr : list (R * R) := [(2, 2); (1 / 2, 1); (0, 0)].
(** The braking from (1, 0) meets the trajectory for every time step. *)
Example ex_meets dt : 0 < dt -> exists N r, forall fuel, (N <= fuel)%nat -> backward 1 (fun _ _ => 1) (fun _ _ => 0) (fun _ => 1) dt fuel ex_tr 1 0 (-1) = Ok r.
Proof.
  intros D. apply C166_meets; cbn [fst snd]; try lra.
  - intros l b a r E. destruct l as [|? [|? [|? ?]]]; cbn [app] in E; [injection E as <- <- _|injection E as _ <- <- _|discriminate|destruct l; discriminate]; cbn [fst]; lra.
  - exists [(1 / 2, 1)]. reflexivity.
  - exists [], (2, 2), (1 / 2, 1), []. split; [reflexivity|]. cbn [fst snd]. lra.
  - intros p v _ _ _. rewrite ex_braking. lra.
Qed.
(** What the other theorems say of the result: it ends with (1, 0), and begins with what was kept. *)
Example ex_result dt fuel r : backward 1 (fun _ _ => 1) (fun _ _ => 0) (fun _ => 1) dt fuel ex_tr 1 0 (-1) = Ok r -> exists m, r = (1, 0) :: m.
Proof.
  intros H. apply C166_backward in H. destruct H as (removed & s2 & s1 & kept & cur & f & l & a & x & xv & m & _ & _ & -> & -> & _). eexists. reflexivity.
Qed.
Example ex_refused fuel dt : backward 1 (fun _ _ => 1) (fun _ _ => 0) (fun _ => 1) dt fuel ex_tr (1 / 4) 0 (-1) = Throw InvalidArgument.
Proof. apply C166_refused. exists (2, 2), (1 / 2, 1), [(0, 0)]. split; [reflexivity|]. cbn [fst]. lra. Qed.
Example ex_defined fuel dt p v a : backward 1 (fun _ _ => 1) (fun _ _ => 0) (fun _ => 1) dt fuel ex_tr p v a <> UB.
Proof. apply (C166_defined 1 _ _ _ dt fuel [(1 / 2, 1)] (2, 2) (0, 0)). cbn [fst]. lra. Qed.
(** Two steps of half a second back from (1, 0). *)
Lemma ex_brakes1 : brakes 1 (fun _ _ => 1) (fun _ _ => 0) (fun _ => 1) (1 / 2) 1 0 (-1) (7 / 8, 1 / 2) [(1, 0)] (-1).
Proof. rewrite <- (ex_braking (7 / 8) (1 / 2)) at 2. apply brakes_step with (-1); [constructor|lra|split; lra]. Qed.
Lemma ex_brakes2 : brakes 1 (fun _ _ => 1) (fun _ _ => 0) (fun _ => 1) (1 / 2) 1 0 (-1) (1 / 2, 1) [(7 / 8, 1 / 2); (1, 0)] (-1).
Proof. rewrite <- (ex_braking (1 / 2) 1) at 2. apply brakes_step with (-1); [apply ex_brakes1|lra|split; lra]. Qed.
Example ex_limits : moving_acc_ok 1 (fun _ => 1) (fun _ => 0) (fun _ => 1) (1 / 2) ((1 / 2 - 1) / (1 / 2)).
Proof.
  apply (C166_limits 1 _ _ _ (1 / 2) 1 0 (-1) (7 / 8) (1 / 2) [(1, 0)] (-1) (1 / 2) 1 (-1) 0 ex_brakes2 ex_brakes1); [discriminate|lra| |].
  - assert (0 <= dbl_max) by (apply IZR_le; vm_compute; discriminate). lra.
  - unfold moving_acc_ok. intros. rewrite !Rmult_0_r, !Rmult_0_l. rewrite ?Rplus_0_r, Rabs_R0. lra.
Qed.
