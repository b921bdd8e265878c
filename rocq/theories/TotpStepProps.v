(** Properties of the steps of the time-optimal trajectory (time_optimal_trajectory_parametrization.cpp 305-496): C86, C87. *)
From Coq Require Import Reals Lra Psatz.
From Verif Require Import Base MathModel TotpModel TotpVec TotpTrajModel TotpLimitProps TotpTrajProps TotpWitnessProps.
Open Scope R_scope.

(** A step within the limits: every joint within its velocity limit, and some acceleration keeps every joint within its acceleration limit. *)
Definition step_ok (n : nat) (tg cv : R -> vec) (vmax amax : vec) (s v : R) : Prop :=
  0 <= v /\ joint_vel_ok n (tg s) vmax v /\ exists a, joint_acc_ok n (tg s) (cv s) amax v a.
(** A point where the speed [v] is too much. *)
Definition step_bad (n : nat) (tg cv : R -> vec) (vmax amax : vec) (s v : R) : Prop :=
  ~ (joint_vel_ok n (tg s) vmax v /\ exists a, joint_acc_ok n (tg s) (cv s) amax v a).
(** [l] newest first. *)
Definition advancing (l : list step) : Prop := forall l1 x y l2, l = l1 ++ x :: y :: l2 -> fst y <= fst x.

Lemma rdecb a b : {Rltb a b = true /\ a < b} + {Rltb a b = false /\ b <= a}.
Proof. destruct (Rltb a b) eqn:E; [left; split; [reflexivity|apply Rltb_true, E]|right; split; [reflexivity|apply Rltb_false, E]]. Qed.

Section Steps.
Variables (n : nat) (tg cv : R -> vec) (len : R) (sw : list (R * bool)) (vmax amax : vec) (dt : R).
Hypothesis Hv : forall i, (i < n)%nat -> 0 <= vmax i.
Hypothesis Ha : forall i, (i < n)%nat -> 0 <= amax i.
Notation over := (over n tg cv vmax amax). Notation vel_max := (vel_max n tg vmax).
Notation ok := (step_ok n tg cv vmax amax). Notation bad := (step_bad n tg cv vmax amax).

Lemma vel_max_le s : vel_max s <= dbl_max.
Proof.
  unfold TotpTrajModel.vel_max. assert (G : forall l m, m <= dbl_max -> fold_left (fun m i => if Reqb (tg s i) 0 then m else Rmin m (vmax i / Rabs (tg s i))) l m <= dbl_max).
  { induction l as [|i l IH]; intros m H; [exact H|]. cbn [fold_left]. apply IH. destruct (Reqb _ _); [exact H|]. pose proof (Rmin_l m (vmax i / Rabs (tg s i))). lra. }
  apply G. lra.
Qed.
Lemma vel_max_nonneg s : 0 <= vel_max s.
Proof.
  unfold TotpTrajModel.vel_max. assert (G : forall l m, (forall i, In i l -> (i < n)%nat) -> 0 <= m -> 0 <= fold_left (fun m i => if Reqb (tg s i) 0 then m else Rmin m (vmax i / Rabs (tg s i))) l m).
  { induction l as [|i l IH]; intros m I H; [exact H|]. cbn [fold_left]. apply IH; [intros; apply I; right; assumption|]. destruct (Reqb (tg s i) 0) eqn:E; [exact H|]. apply Reqb_false in E.
    apply Rmin_glb; [exact H|]. apply div_nonneg; [apply Hv, I; left; reflexivity|apply Rabs_pos_lt, E]. }
  apply G; [intros i Hi; apply in_seq in Hi; lia|]. unfold dbl_max. apply IZR_le. vm_compute. discriminate.
Qed.
Lemma over_ok s v : 0 <= v -> over s v = false -> ok s v.
Proof.
  intros H O. unfold TotpTrajModel.over in O. apply orb_false_iff in O. destruct O as [O1 O2]. apply Rltb_false in O2. pose proof (vel_max_le s).
  split; [exact H|]. split; [apply (C80_path_velocity n tg vmax s v Hv); [lra|exact O2]|]. apply (C80_acceleration_limit n tg cv amax s v Ha H). exact O1.
Qed.
Lemma over_bad s v : 0 <= v <= dbl_max -> over s v = true -> bad s v.
Proof.
  intros H O [V A]. unfold TotpTrajModel.over in O. apply orb_true_iff in O. destruct O as [O|O].
  - apply (C80_acceleration_limit n tg cv amax s v Ha) in A; [|lra]. congruence.
  - apply Rltb_true in O. apply (C80_path_velocity n tg vmax s v Hv) in V; lra.
Qed.
Lemma bisect_spec fuel : forall b bv a av b' bv' a', bisect n tg cv vmax amax fuel b bv a av = Ok (b', bv', a') ->
  b <= a -> 0 <= bv -> 0 <= av -> over b bv = false -> over a av = true ->
  b <= b' <= a' /\ a' <= a /\ a' - b' <= tol /\ 0 <= bv' /\ over b' bv' = false /\ exists av', 0 <= av' <= Rmax bv av /\ over a' av' = true.
Proof.
  induction fuel as [|k IH]; intros b bv a av b' bv' a' E L Hb Hav O1 O2; [discriminate|]. cbn [bisect] in E.
  destruct (rdecb tol (a - b)) as [[D DL]|[D DL]]; rewrite D in E.
  - set (m := / 2 * (b + a)) in *. set (mv := if Rltb (vel_max m) (/ 2 * (bv + av)) && follows n tg cv vmax amax b then vel_max m else / 2 * (bv + av)) in *.
    assert (Hm : b <= m <= a) by (unfold m; lra).
    assert (Hmv : 0 <= mv /\ mv <= Rmax bv av).
    { unfold mv. pose proof (vel_max_nonneg m). pose proof (Rmax_l bv av). pose proof (Rmax_r bv av). destruct (rdecb (vel_max m) (/ 2 * (bv + av))) as [[-> X]|[-> X]]; cbn [andb]; [destruct (follows _ _ _ _ _ _); lra|lra]. }
    destruct (over m mv) eqn:O.
    + destruct (IH _ _ _ _ _ _ _ E) as (P1 & P2 & P3 & P4 & P5 & av' & P6 & P7); try assumption; try tauto; try lra.
      repeat split; try lra; try assumption. exists av'. split; [|exact P7]. pose proof (Rmax_l bv av). assert (Rmax bv mv <= Rmax bv av) by (apply Rmax_lub; lra). lra.
    + destruct (IH _ _ _ _ _ _ _ E) as (P1 & P2 & P3 & P4 & P5 & av' & P6 & P7); try assumption; try tauto; try lra.
      repeat split; try lra; try assumption. exists av'. split; [|exact P7]. pose proof (Rmax_r bv av). assert (Rmax mv av <= Rmax bv av) by (apply Rmax_lub; lra). lra.
  - injection E as <- <- <-. repeat split; try lra; try assumption. exists av. split; [|exact O2]. pose proof (Rmax_r bv av). lra.
Qed.

(** The state of the forward integration: the newest step is within the limits and not past the current position. *)
Definition fstate (tr : list step) (pos vel : R) : Prop :=
  (exists b bv l, tr = (b, bv) :: l /\ b <= pos /\ 0 <= bv /\ over b bv = false) /\ pos <= len /\ 0 <= vel.
Definition good_new (tr new : list step) : Prop :=
  (forall s v, In (s, v) new -> s <= len -> ok s v) /\ advancing (new ++ firstn 1 tr).
Lemma good_nil tr : good_new tr [].
Proof.
  split; [intros s v []|]. intros l1 x y l2 E. destruct tr as [|z tr]; cbn [firstn app] in E; [destruct l1; discriminate|].
  destruct l1 as [|? [|? ?]]; discriminate.
Qed.
Lemma advancing_cons x y l : advancing (y :: l) -> fst y <= fst x -> advancing (x :: y :: l).
Proof. intros A L l1 a b l2 E. destruct l1 as [|z l1]; cbn [app] in E; [injection E as -> -> ->; exact L|]. injection E as _ E. apply (A l1 a b l2 E). Qed.
Lemma good_cons tr new s v b bv l : good_new tr new -> new ++ tr = (b, bv) :: l -> b <= s -> (s <= len -> ok s v) -> good_new tr ((s, v) :: new).
Proof.
  intros [G A] E L O. split.
  - intros s' v' [X|X] H; [injection X as <- <-; auto|eapply G; eassumption].
  - cbn [app]. destruct new as [|z new]; cbn [app] in *.
    + subst tr. cbn [firstn] in *. apply advancing_cons; [exact A|exact L].
    + injection E as -> E. apply advancing_cons; [exact A|exact L].
Qed.

Definition stopped (tr : list step) (reached : bool) : Prop :=
  match tr with
  | [] => False
  | (s, v) :: _ => if reached then len < s else exists a av, s <= a <= len /\ a - s <= tol /\ 0 <= av /\ over a av = true
  end.
Lemma skip_disc_after l pos d e l' : skip_disc l pos = (d, e) :: l' -> pos < d.
Proof.
  induction l as [|[p f] l IH]; cbn [skip_disc]; [discriminate|]. destruct (Rleb p pos) eqn:E; cbn [orb]; [exact IH|]. destruct f; cbn [negb]; [|exact IH].
  intros X. injection X as <- <- <-. apply Rleb_false, E.
Qed.
Hypothesis Hdt : 0 <= dt.
Lemma forward_round_spec fuel tr disc pos vel acc r : fstate tr pos vel -> forward_round n tg cv len vmax amax dt fuel tr disc pos vel acc = Ok r ->
  exists s v, (s <= len -> ok s v) /\ (forall b bv l, tr = (b, bv) :: l -> b <= s) /\
    match r with
    | inl (tr', reached) => tr' = (s, v) :: tr /\ stopped tr' reached
    | inr (tr', _, pos', vel', _) => tr' = (s, v) :: tr /\ fstate tr' pos' vel'
    end.
Proof.
  intros ((b & bv & l & Et & Lb & Hbv & Ob) & Lp & Hvel) E. unfold forward_round in E. cbv zeta in E.
  set (dl := skip_disc disc pos) in *.
  match type of E with (let '(_, _) := ?t in _) = _ => destruct t as [pos1 vel1] eqn:EP end.
  destruct (rdecb len pos1) as [[D DL]|[D DL]]; rewrite D in E.
  - injection E as <-. exists pos1, vel1. split; [lra|]. split; [|split; [reflexivity|exact DL]]. intros b0 bv0 l0 E0. rewrite Et in E0. injection E0 as <- <- <-. lra.
  - destruct (rdecb vel1 0) as [[D0 _]|[D0 HL]]; rewrite D0 in E; [discriminate|].
    assert (Hp : pos <= pos1).
    { set (w := vel + dt * acc) in *.
      destruct dl as [|[d e] dl'] eqn:Edl.
      - injection EP as <- <-. assert (0 <= dt * / 2 * (vel + w)); [|lra]. apply Rmult_le_pos; [lra|lra].
      - pose proof (skip_disc_after _ _ _ _ _ Edl) as SA. destruct (rdecb d (pos + dt * / 2 * (vel + w))) as [[Q _]|[Q _]]; rewrite Q in EP; injection EP as <- <-; [lra|].
        assert (0 <= dt * / 2 * (vel + w)); [|lra]. apply Rmult_le_pos; [lra|lra]. }
    set (vel2 := if Rltb (vel_max pos1) vel1 && follows n tg cv vmax amax pos then vel_max pos1 else vel1) in *.
    assert (H2 : 0 <= vel2) by (unfold vel2; pose proof (vel_max_nonneg pos1); destruct (_ && _); lra).
    destruct (over pos1 vel2) eqn:O.
    + rewrite Et in E. destruct (bisect n tg cv vmax amax fuel b bv pos1 vel2) as [[[b' bv'] a']| | | |] eqn:EB; try discriminate. cbn [obind] in E.
      destruct (bisect_spec _ _ _ _ _ _ _ _ EB) as (P1 & P2 & P3 & P4 & P5 & av' & P6 & P7); try assumption; try lra.
      exists b', bv'. split; [intros _; apply over_ok; assumption|]. split; [intros b0 bv0 l0 E0; rewrite Et in E0; injection E0 as <- <- <-; lra|].
      assert (ST : stopped ((b', bv') :: tr) false) by (cbn [stopped]; exists a', av'; repeat split; try lra; exact P7).
      assert (FS : fstate ((b', bv') :: tr) pos1 vel2) by (split; [exists b', bv', tr; repeat split; try assumption; lra|lra]).
      destruct (elt (of_opt (acc_max_vel n tg cv amax a')) (Fin (vel_max a'))).
      * destruct dl as [|[d e] dl']; [discriminate|]. destruct (Rltb d a'); [injection E as <-; rewrite <- Et; auto|].
        destruct (elt _ _); injection E as <-; rewrite <- Et; auto.
      * destruct (elt _ _); injection E as <-; rewrite <- Et; auto.
    + injection E as <-. exists pos1, vel2. split; [intros _; apply over_ok; assumption|]. split; [intros b0 bv0 l0 E0; rewrite Et in E0; injection E0 as <- <- <-; lra|].
      split; [reflexivity|]. split; [exists pos1, vel2, tr; repeat split; try assumption; lra|lra].
Qed.
Lemma forward_loop_spec fuel rounds : forall tr disc pos vel acc tr' reached, fstate tr pos vel ->
  forward_loop n tg cv len vmax amax dt fuel rounds tr disc pos vel acc = Ok (tr', reached) ->
  exists new, tr' = new ++ tr /\ new <> [] /\ good_new tr new /\ stopped tr' reached.
Proof.
  induction rounds as [|k IH]; intros tr disc pos vel acc tr' reached F E; [discriminate|]. cbn [forward_loop] in E.
  destruct (forward_round n tg cv len vmax amax dt fuel tr disc pos vel acc) as [r| | | |] eqn:ER; try discriminate. cbn [obind] in E.
  destruct (forward_round_spec _ _ _ _ _ _ _ F ER) as (s & v & O & LB & R1).
  destruct F as ((b & bv & l & Et & F1) & F2). specialize (LB b bv l Et).
  assert (G1 : good_new tr [(s, v)]) by (apply (good_cons tr [] s v b bv l); [apply good_nil|exact Et|exact LB|exact O]).
  destruct r as [[tr1 r1]|[[[[tr1 d1] p1] v1] a1]].
  - injection E as <- <-. destruct R1 as [-> ST]. exists [(s, v)]. split; [reflexivity|]. split; [discriminate|]. split; [exact G1|exact ST].
  - destruct R1 as [-> F']. destruct (IH _ _ _ _ _ _ _ F' E) as (new & -> & N & [G A] & ST). exists (new ++ [(s, v)]). rewrite <- app_assoc. cbn [app].
    split; [reflexivity|]. split; [destruct new; discriminate|]. split; [|exact ST]. split.
    + intros s' v' H. apply in_app_iff in H. destruct H as [H|H]; [apply G, H|apply G1, H].
    + cbn [firstn] in A. destruct G1 as [_ A1]. cbn [app] in A1. rewrite Et in *. cbn [firstn app] in *.
      intros l1 x y l2 X. rewrite <- app_assoc in X. cbn [app] in X.
      destruct l2 as [|z l2] using rev_ind.
      * assert (Y : l1 ++ [x] = new ++ [(s, v)] /\ y = (b, bv)).
        { apply app_inj_tail. rewrite <- !app_assoc. cbn [app]. symmetry. exact X. }
        destruct Y as [Y ->]. apply app_inj_tail in Y. destruct Y as [-> ->]. exact LB.
      * assert (Y : l1 ++ x :: y :: l2 = new ++ [(s, v)] /\ z = (b, bv)).
        { apply app_inj_tail. rewrite <- !app_assoc. cbn [app]. symmetry. exact X. }
        destruct Y as [Y _]. apply (A l1 x y l2). symmetry. exact Y.
Qed.
End Steps.

(** ** C86: the forward integration keeps within the limits, moves on along the path, and stops only past the end or at a limit *)
Theorem C86_forward n tg cv len sw vmax amax dt fuel s0 v0 tr acc tr' reached :
  (forall i, (i < n)%nat -> 0 <= vmax i) -> (forall i, (i < n)%nat -> 0 <= amax i) -> 0 <= dt ->
  step_ok n tg cv vmax amax s0 v0 -> v0 <= dbl_max -> s0 <= len ->
  forward n tg cv len sw vmax amax dt fuel ((s0, v0) :: tr) acc = Ok (tr', reached) ->
  exists new s v l, tr' = new ++ (s0, v0) :: tr /\ new = (s, v) :: l /\
    (forall s v, In (s, v) new -> s <= len -> step_ok n tg cv vmax amax s v) /\
    advancing (new ++ [(s0, v0)]) /\
    (reached = true -> len < s) /\
    (reached = false -> exists a av, s <= a <= len /\ a - s <= tol /\ 0 <= av /\ (av <= dbl_max -> step_bad n tg cv vmax amax a av)).
Proof.
  intros Hv Ha Hdt (N0 & V0 & A0) D0 L0 E. cbn [forward] in E.
  assert (O : over n tg cv vmax amax s0 v0 = false).
  { unfold over. apply orb_false_iff. split; [apply C80_acceleration_limit; assumption|]. apply Rltb_false. apply C80_path_velocity; [assumption|lra|assumption]. }
  destruct (forward_loop_spec n tg cv len vmax amax dt Hv Ha Hdt fuel fuel ((s0, v0) :: tr) sw s0 v0 acc tr' reached) as (new & -> & N & [G A] & ST); [|exact E|].
  - split; [exists s0, v0, tr; repeat split; try assumption; lra|lra].
  - destruct new as [|[s v] l]; [contradiction|]. exists ((s, v) :: l), s, v, l. split; [reflexivity|]. split; [reflexivity|]. split; [exact G|]. split; [exact A|].
    cbn [app stopped] in ST. destruct reached; (split; [|try discriminate]); intros X; try discriminate X; try exact ST.
    destruct ST as (a & av & P1 & P2 & P3 & P4). exists a, av. split; [exact P1|]. split; [exact P2|]. split; [exact P3|].
    intros DM. apply over_bad; [assumption|assumption|lra|exact P4].
Qed.
Print Assumptions C86_forward.

(** ** C87: where the planner looks for the next switching point *)
Definition acc_possible (n : nat) (tg cv : R -> vec) (amax : vec) (s v : R) : Prop := exists a, joint_acc_ok n (tg s) (cv s) amax v a.
Section Switch.
Variables (n : nat) (tg cv : R -> vec) (len : R) (sw : list (R * bool)) (vmax amax : vec).
Hypothesis Hv : forall i, (i < n)%nat -> 0 <= vmax i.
Hypothesis Ha : forall i, (i < n)%nat -> 0 <= amax i.
Lemma acc_max_vel_nonneg s x : acc_max_vel n tg cv amax s = Some x -> 0 <= x.
Proof.
  unfold acc_max_vel. cbv zeta.
  assert (P : forall m y, (forall z, m = Some z -> 0 <= z) -> 0 <= y -> forall z, omin m y = Some z -> 0 <= z).
  { intros [m|] y H1 H2 z E; cbn [omin] in E; injection E as <-; [apply Rmin_glb; auto|exact H2]. }
  match goal with |- fold_left ?f _ _ = _ -> _ => assert (G : forall l m, (forall z, m = Some z -> 0 <= z) -> forall z, fold_left f l m = Some z -> 0 <= z) end.
  { induction l as [|i l IH]; intros m H z; [apply H|]. cbn [fold_left]. apply IH.
    destruct (Reqb (tg s i) 0); [destruct (Reqb (cv s i) 0); [exact H|]; apply P; [exact H|apply sqrt_pos]|].
    generalize (seq (S i) (n - S i)). intros l2. revert m H. induction l2 as [|j l2 IH2]; intros m H; [exact H|]. cbn [fold_left]. apply IH2.
    destruct (Reqb (tg s j) 0); [exact H|]. destruct (Reqb _ 0); [exact H|]. apply P; [exact H|apply sqrt_pos]. }
  apply G. discriminate.
Qed.
Lemma below_possible s v x : 0 <= v -> acc_max_vel n tg cv amax s = x -> le_opt v x -> acc_possible n tg cv amax s v.
Proof. intros H E L. apply (C80_acceleration_limit n tg cv amax s v Ha H). rewrite E. apply above_le, L. Qed.
(** A listed switching point on the acceleration limit. *)
Definition acc_point (cur s v : R) : Prop :=
  cur < s <= len - tol /\ 0 <= v /\ exists d, In (s, d) sw /\
    if d : bool then acc_possible n tg cv amax (s - tol) v /\ acc_possible n tg cv amax (s + tol) v else acc_possible n tg cv amax s v.
Lemma next_acc_spec : forall l cur s v b a, (forall x, In x l -> In x sw) -> next_acc n tg cv len amax l cur = Some (s, v, b, a) -> acc_point cur s v.
Proof.
  induction l as [|[p d] l IH]; intros cur s v b a I E; [discriminate|]. cbn [next_acc] in E.
  assert (I' : forall x, In x l -> In x sw) by (intros; apply I; right; assumption).
  destruct (Rleb p cur) eqn:E1; [eapply IH; eassumption|]. apply Rleb_false in E1.
  destruct (rdecb (len - tol) p) as [[D _]|[D DL]]; rewrite D in E; [discriminate|].
  assert (REC : next_acc n tg cv len amax l p = Some (s, v, b, a) -> acc_point cur s v).
  { intros X. destruct (IH _ _ _ _ _ I' X) as (Q1 & Q2). split; [lra|exact Q2]. }
  assert (In (p, d) sw) by (apply I; left; reflexivity).
  destruct d.
  - destruct (acc_max_vel n tg cv amax (p - tol)) as [x|] eqn:Eb; destruct (acc_max_vel n tg cv amax (p + tol)) as [y|] eqn:Ea; cbn match in E; try exact (REC E).
    + destruct (_ && _); [|exact (REC E)]. injection E as <- <- _ _.
      pose proof (acc_max_vel_nonneg _ _ Eb). pose proof (acc_max_vel_nonneg _ _ Ea). assert (0 <= Rmin x y) by (apply Rmin_glb; assumption).
      split; [lra|]. split; [assumption|]. exists true. split; [assumption|]. split; [apply (below_possible _ _ _ H2 Eb), Rmin_l|apply (below_possible _ _ _ H2 Ea), Rmin_r].
    + destruct (_ && _); [|exact (REC E)]. injection E as <- <- _ _. pose proof (acc_max_vel_nonneg _ _ Eb) as Hx.
      split; [lra|]. split; [assumption|]. exists true. split; [assumption|]. split; [apply (below_possible _ _ _ Hx Eb); cbn; lra|apply (below_possible _ _ _ Hx Ea), Logic.I].
    + destruct (_ && _); [|exact (REC E)]. injection E as <- <- _ _. pose proof (acc_max_vel_nonneg _ _ Ea) as Hx.
      split; [lra|]. split; [assumption|]. exists true. split; [assumption|]. split; [apply (below_possible _ _ _ Hx Eb), Logic.I|apply (below_possible _ _ _ Hx Ea); cbn; lra].
  - destruct (acc_max_vel n tg cv amax p) as [x|] eqn:Ex; [|exact (REC E)].
    destruct (_ && _); [|exact (REC E)]. injection E as <- <- _ _. pose proof (acc_max_vel_nonneg _ _ Ex) as Hx.
    split; [lra|]. split; [assumption|]. exists false. split; [assumption|]. apply (below_possible _ _ _ Hx Ex); cbn; lra.
Qed.
Lemma acc_switch_spec rounds : forall cur p s v b a, acc_switch n tg cv len sw vmax amax rounds cur = (p, Some (s, v, b, a)) -> p = s /\ acc_point cur s v /\ v <= vel_max n tg vmax s.
Proof.
  induction rounds as [|k IH]; intros cur p s v b a E; [discriminate|]. cbn [acc_switch] in E.
  destruct (next_acc n tg cv len amax sw cur) as [[[[s1 v1] b1] a1]|] eqn:EN; [|discriminate].
  pose proof (next_acc_spec sw cur s1 v1 b1 a1 (fun x H => H) EN) as P.
  destruct (rdecb (vel_max n tg vmax s1) v1) as [[D _]|[D DL]]; rewrite D in E.
  - destruct (IH _ _ _ _ _ _ E) as (Q1 & Q2 & Q3). split; [exact Q1|]. split; [|exact Q3]. destruct P as (P1 & _). destruct Q2 as (R1 & R2). split; [lra|exact R2].
  - injection E as <- <- <- _ _. auto.
Qed.
Lemma vel_scan_ge fuel : forall pos start s, vel_scan n tg cv len vmax amax fuel pos start = Ok s -> pos + / 1000 <= s.
Proof.
  induction fuel as [|k IH]; intros pos start s E; [discriminate|]. cbn [vel_scan] in E. cbv zeta in E. destruct (_ && _); [|injection E as <-; lra].
  apply IH in E. lra.
Qed.
Lemma vel_bisect_in fuel : forall b a b' a', vel_bisect n tg cv vmax amax fuel b a = Ok (b', a') -> b <= a -> b <= b' <= a' /\ a' <= a.
Proof.
  induction fuel as [|k IH]; intros b a b' a' E L; [discriminate|]. cbn [vel_bisect] in E. cbv zeta in E.
  destruct (Rltb _ _); [|injection E as <- <-; lra]. destruct (elt _ _); apply IH in E; lra.
Qed.
Lemma next_vel_spec fuel pos s v b a : next_vel n tg cv len vmax amax fuel pos = Ok (Some (s, v, b, a)) -> pos - / 1000 <= s < len /\ v = vel_max n tg vmax s.
Proof.
  unfold next_vel. destruct (vel_scan _ _ _ _ _ _ _ _ _) as [q| | | |] eqn:ES; try discriminate. cbn [obind]. apply vel_scan_ge in ES.
  destruct (Rleb len q) eqn:EL; [discriminate|]. apply Rleb_false in EL. destruct (vel_bisect _ _ _ _ _ _ _ _) as [[b1 a1]| | | |] eqn:EB; try discriminate. cbn [obind].
  apply vel_bisect_in in EB; [|lra]. intros E. injection E as <- <- _ _. split; [lra|reflexivity].
Qed.
Lemma vel_switch_spec fuel rounds accpos : forall lo pos s v b a, lo <= pos - / 1000 -> vel_switch n tg cv len vmax amax fuel rounds accpos pos = Ok (Some (s, v, b, a)) ->
  s < len /\ v = vel_max n tg vmax s /\ (s <= accpos -> above v (acc_max_vel n tg cv amax (s - tol)) = false /\ above v (acc_max_vel n tg cv amax (s + tol)) = false).
Proof.
  induction rounds as [|k IH]; intros lo pos s v b a L E; [discriminate|]. cbn [vel_switch] in E.
  destruct (next_vel _ _ _ _ _ _ _ _) as [[[[[s1 v1] b1] a1]|]| | | |] eqn:EN; try discriminate. cbn [obind] in E.
  apply next_vel_spec in EN. destruct EN as [Q1 Q2].
  destruct (Rleb s1 accpos) eqn:EL; cbn [andb] in E.
  - destruct (above v1 (acc_max_vel n tg cv amax (s1 - tol))) eqn:A1; cbn [orb] in E; [eapply (IH (s1 - / 1000)); [|exact E]; lra|].
    destruct (above v1 (acc_max_vel n tg cv amax (s1 + tol))) eqn:A2; [eapply (IH (s1 - / 1000)); [|exact E]; lra|]. injection E as <- <- _ _. split; [lra|]. split; [exact Q2|]. auto.
  - apply Rleb_false in EL. injection E as <- <- _ _. split; [lra|]. split; [exact Q2|]. lra.
Qed.
End Switch.

(** A returned point is before the end and within the joints' velocity limits; it is a listed switching point after the current position at whose
    sides the acceleration limits can be met, or the joints' velocity limits are reached there; and when a listed point further on qualifies, the
    acceleration limits can be met around the returned one as well. *)
Theorem C87_switching_point n tg cv len sw vmax amax fuel pos s v b a :
  (forall i, (i < n)%nat -> 0 <= vmax i) -> (forall i, (i < n)%nat -> 0 <= amax i) ->
  next_switch n tg cv len sw vmax amax fuel pos = Ok (Some (s, v, b, a)) ->
  s < len /\ 0 <= v /\ joint_vel_ok n (tg s) vmax v /\
  ((pos < s /\ exists d, In (s, d) sw /\
      if d : bool then acc_possible n tg cv amax (s - tol) v /\ acc_possible n tg cv amax (s + tol) v else acc_possible n tg cv amax s v) \/
   ((forall v', v < v' <= dbl_max -> ~ joint_vel_ok n (tg s) vmax v') /\
    ((exists s' v' b' a', snd (acc_switch n tg cv len sw vmax amax (S (length sw)) pos) = Some (s', v', b', a')) ->
       acc_possible n tg cv amax (s - tol) v /\ acc_possible n tg cv amax (s + tol) v))).
Proof.
  intros Hv Ha. unfold next_switch. destruct (acc_switch n tg cv len sw vmax amax (S (length sw)) pos) as [accpos acc] eqn:EA.
  destruct (vel_switch n tg cv len vmax amax fuel fuel accpos pos) as [vel| | | |] eqn:EV; try discriminate. cbn [obind snd].
  assert (ACC : forall s v b a, acc = Some (s, v, b, a) -> accpos = s /\ acc_point n tg cv len sw amax pos s v /\ v <= vel_max n tg vmax s).
  { intros s1 v1 b1 a1 ->. apply acc_switch_spec in EA; assumption. }
  assert (VEL : forall s v b a, vel = Some (s, v, b, a) -> s < len /\ v = vel_max n tg vmax s /\ (s <= accpos -> above v (acc_max_vel n tg cv amax (s - tol)) = false /\ above v (acc_max_vel n tg cv amax (s + tol)) = false)).
  { intros s1 v1 b1 a1 ->. eapply (vel_switch_spec n tg cv len vmax amax fuel fuel accpos (pos - / 1000)); [|exact EV]. lra. }
  assert (T := vel_max_le n tg vmax). assert (NN : forall s, 0 <= vel_max n tg vmax s) by (intros; first [apply (vel_max_nonneg n tg cv vmax amax Hv Ha)]). 
  assert (R1 : acc = Some (s, v, b, a) -> s < len /\ 0 <= v /\ joint_vel_ok n (tg s) vmax v /\ (pos < s /\ exists d, In (s, d) sw /\
      if d : bool then acc_possible n tg cv amax (s - tol) v /\ acc_possible n tg cv amax (s + tol) v else acc_possible n tg cv amax s v)).
  { intros X. destruct (ACC _ _ _ _ X) as (_ & (P1 & P2 & P3) & P4). split; [unfold tol in P1; lra|]. split; [exact P2|].
    split; [apply (C80_path_velocity n tg vmax s v Hv); [specialize (T s); lra|exact P4]|]. split; [lra|exact P3]. }
  assert (R2 : vel = Some (s, v, b, a) -> (forall s' v' b' a', acc = Some (s', v', b', a') -> s < s') -> s < len /\ 0 <= v /\ joint_vel_ok n (tg s) vmax v /\
     (forall v', v < v' <= dbl_max -> ~ joint_vel_ok n (tg s) vmax v') /\ ((exists s' v' b' a', acc = Some (s', v', b', a')) -> acc_possible n tg cv amax (s - tol) v /\ acc_possible n tg cv amax (s + tol) v)).
  { intros X Y. destruct (VEL _ _ _ _ X) as (P1 & P2 & P3). specialize (T s). specialize (NN s). split; [exact P1|]. split; [lra|].
    split; [apply (C80_path_velocity n tg vmax s v Hv); lra|]. split.
    - intros v' L J. apply (C80_path_velocity n tg vmax s v' Hv) in J; lra.
    - intros (s' & v' & b' & a' & Z). destruct (ACC _ _ _ _ Z) as (-> & _). specialize (Y _ _ _ _ Z). destruct P3 as [P3 P4]; [lra|].
      split; apply (C80_acceleration_limit n tg cv amax _ v Ha); [lra|exact P3|lra|exact P4]. }
  destruct acc as [[[[s1 v1] b1] a1]|]; destruct vel as [[[[s2 v2] b2] a2]|]; intros E;
    (match type of E with Ok ?x = Ok ?y => assert (E' : x = y) by congruence; clear E; rename E' into E end); try discriminate E.
  - destruct (Rleb s1 s2) eqn:EL; injection E as <- <- <- <-.
    + destruct (R1 eq_refl) as (Q1 & Q2 & Q3 & Q4). auto.
    + apply Rleb_false in EL. destruct (R2 eq_refl) as (Q1 & Q2 & Q3 & Q4 & Q5); [intros s' v' b' a' X; injection X as <- _ _ _; exact EL|]. auto 8.
  - injection E as <- <- <- <-. destruct (R1 eq_refl) as (Q1 & Q2 & Q3 & Q4). auto.
  - injection E as <- <- <- <-. destruct (R2 eq_refl) as (Q1 & Q2 & Q3 & Q4 & Q5); [discriminate|]. auto 8.
Qed.
Print Assumptions C87_switching_point.

(** The hypotheses of C86 are met by the straight line. *)
Example forward_case : step_ok 1 (tangent_of 1 (line 1)) (curvature_of 1 (line 1)) (fun _ => 10) (fun _ => 1) 0 0 /\
  forward 1 (tangent_of 1 (line 1)) (curvature_of 1 (line 1)) 1 [] (fun _ => 10) (fun _ => 1) 1 10 [(0, 0)] 1 = Ok ([(2, 2); (1 / 2, 1); (0, 0)], true).
Proof.
  split.
  - split; [lra|]. split; [intros i _; rewrite Rmult_0_r, Rabs_R0; lra|]. exists 0. intros i _. rewrite !Rmult_0_r, Rplus_0_r, Rabs_R0. lra.
  - unfold forward. cbn [forward_loop].
    rewrite (fr_step _ _ _ _ _ _ _ _ _ _ _ _ _ (1 / 2) 1); [|reflexivity|lra|lra|lra|lra|apply line_over; lra]. cbn [obind]. rewrite line_acc by lra.
    rewrite (fr_end _ _ _ _ _ _ _ _ _ _ _ _ _ 2 2); [reflexivity|reflexivity|lra|lra|lra].
Qed.
(** The hypotheses of C87 are met: two joints, the first bending most at 1/2000. *)
Example switch_case : exists tg cv, next_switch 2 tg cv (9 / 10000) [(/ 2000, false)] (fun _ => 1) (fun _ => 1) 2 0 = Ok (Some (/ 2000, 1, 0, 0)).
Proof.
  set (w := fun s => 2 - Rabs (s - / 2000)).
  exists (fun _ _ => 1), (fun s i => match i with O => - w s | _ => 0 end).
  assert (W : forall s, Rabs (s - / 2000) <= 1 -> 1 <= w s <= 2) by (intros s H; unfold w; pose proof (Rabs_pos (s - / 2000)); lra).
  assert (AM : forall s, Rabs (s - / 2000) <= 1 -> acc_max_vel 2 (fun _ _ => 1) (fun s i => match i with O => - w s | _ => 0 end) (fun _ => 1) s = Some (sqrt (2 / w s))).
  { intros s H. specialize (W s H). unfold acc_max_vel. cbn [seq fold_left Nat.sub]. rdec.
    cbn [omin]. do 2 f_equal. rewrite Rabs_R1. replace (- w s / 1 - 0 / 1) with (- w s) by field. rewrite Rabs_Ropp, (Rabs_pos_eq (w s)) by lra. field. lra. }
  assert (VM : forall s, vel_max 2 (fun _ _ => 1) (fun _ => 1) s = 1).
  { intros s. unfold vel_max. cbn [seq fold_left]. rdec. rewrite Rabs_R1. pose proof dbl_max_big. replace (1 / 1) with 1 by field. rewrite (Rmin_right dbl_max) by lra. rewrite Rmin_left by lra. reflexivity. }
  assert (Z0 : Rabs (/ 2000 - / 2000) = 0) by (rewrite Rminus_diag_eq, Rabs_R0 by reflexivity; reflexivity).
  assert (W0 : w (/ 2000) = 2) by (unfold w; rewrite Z0; ring).
  assert (S0 : sqrt (2 / w (/ 2000)) = 1) by (rewrite W0; replace (2 / 2) with 1 by field; apply sqrt_1).
  assert (AB : forall x, 0 <= x -> Rabs (/ 2000 + x - / 2000) = x) by (intros x H; replace (/ 2000 + x - / 2000) with x by ring; apply Rabs_pos_eq, H).
  assert (AB' : forall x, 0 <= x -> Rabs (/ 2000 - x - / 2000) = x) by (intros x H; replace (/ 2000 - x - / 2000) with (- x) by ring; rewrite Rabs_Ropp; apply Rabs_pos_eq, H).
  assert (T : 0 < tol < / 2000) by (unfold tol; lra).
  assert (BIG : 1 < sqrt (2 / (2 - 2 * tol))).
  { rewrite <- sqrt_1 at 1. apply sqrt_lt_1; [lra| |].
    - apply div_nonneg; lra.
    - apply (Rmult_lt_reg_r (2 - 2 * tol)); [lra|]. unfold Rdiv. rewrite Rmult_assoc, Rinv_l by lra. lra. }
  unfold next_switch. cbn [acc_switch length next_acc]. rewrite (proj2 (Rleb_false (/ 2000) 0)) by lra. rewrite (proj2 (Rltb_false (9 / 10000 - tol) (/ 2000))) by (unfold tol; lra).
  rewrite (AM (/ 2000)) by (rewrite Z0; lra). rewrite S0.
  unfold acc_max_deriv at 1 2. replace (/ 2000 - tol + tol) with (/ 2000) by ring. replace (/ 2000 + tol - tol) with (/ 2000) by ring.
  replace (/ 2000 - tol - tol) with (/ 2000 - 2 * tol) by ring. replace (/ 2000 + tol + tol) with (/ 2000 + 2 * tol) by ring.
  rewrite (AM (/ 2000)) by (rewrite Z0; lra). rewrite (AM (/ 2000 - 2 * tol)) by (rewrite AB' by lra; lra). rewrite (AM (/ 2000 + 2 * tol)) by (rewrite AB by lra; lra).
  rewrite S0. cbn [elt]. unfold w. rewrite AB, AB' by lra.
  assert (D : 0 < (sqrt (2 / (2 - 2 * tol)) - 1) / (2 * tol)) by (apply Rmult_lt_0_compat; [lra|apply Rinv_0_lt_compat; lra]).
  replace ((1 - sqrt (2 / (2 - 2 * tol))) / (2 * tol)) with (- ((sqrt (2 / (2 - 2 * tol)) - 1) / (2 * tol))) by (field; lra).
  rewrite !(proj2 (Rltb_true _ _)) by lra. cbn [andb]. rewrite VM. rewrite (proj2 (Rltb_false 1 1)) by lra.
  cbn [vel_switch]. unfold next_vel. fold w.
  assert (VD : forall s, Rabs (s - / 2000) <= 1 -> vel_max_deriv 2 (fun _ _ => 1) (fun s i => match i with O => - w s | _ => 0 end) (fun _ => 1) s = Fin (w s)).
  { intros s H. unfold vel_max_deriv, active. cbn [seq fold_left]. rdec. cbn [fst]. rewrite Rabs_R1. pose proof dbl_max_big. replace (1 / 1) with 1 by field. rdec. cbn [fst]. rdec. cbn [snd]. unfold ediv. rewrite ?Rabs_R1. rdec. f_equal. field. }
  assert (PS : forall s, Rabs (s - / 2000) <= 1 -> phase_slope 2 (fun _ _ => 1) (fun s i => match i with O => - w s | _ => 0 end) (fun _ => 1) s 1 false = Fin (w s - 1)).
  { intros s H. specialize (W s H). unfold phase_slope, min_max_acc. cbn [seq fold_left]. rdec. rewrite Rabs_R1. pose proof dbl_max_big. rewrite (Rmin_right dbl_max) by lra. rewrite Rmin_left by lra. unfold ediv. rdec. f_equal. field. }
  assert (A0 : Rabs (0 - / 1000 + / 1000 - / 2000) <= 1) by (apply Rabs_le; lra).
  assert (A1 : Rabs (0 - / 1000 + / 1000 + / 1000 - / 2000) <= 1) by (apply Rabs_le; lra).
  cbn [vel_scan]. rewrite !VM, !VD, !PS by assumption. cbn [ele elt]. rdec. cbn [orb negb andb]. rdec. cbn [obind]. rdec. reflexivity.
Qed.
