(** Lemmas about the planned steps, their times and the queries. *)
From Coq Require Import Reals Lra Psatz.
From Verif Require Import Base MathModel TotpModel TotpVec TotpTrajModel.
Open Scope R_scope.

Section Plan.
Variables (n : nat) (tg cv : R -> vec) (len : R) (sw : list (R * bool)) (vmax amax : vec) (dt : R).
Notation forward_round := (forward_round n tg cv len vmax amax dt).
Notation forward_loop := (forward_loop n tg cv len vmax amax dt).
Notation backward_loop := (backward_loop n tg cv amax dt).

Lemma forward_round_grows fuel tr disc pos vel acc r : forward_round fuel tr disc pos vel acc = Ok r ->
  match r with inl (tr', _) => exists x, tr' = x :: tr | inr (tr', _, _, _, _) => exists x, tr' = x :: tr end.
Proof.
  unfold TotpTrajModel.forward_round. cbv zeta.
  destruct (match skip_disc disc pos with [] => _ | (d, _) :: _ => _ end) as [pos1 vel1].
  destruct (Rltb len pos1); [intros H; injection H as <-; eauto|].
  destruct (Rltb vel1 0); [discriminate|].
  destruct (over _ _ _ _ _ _ _); [|intros H; injection H as <-; eauto].
  destruct tr as [|[b bv] tr]; [discriminate|].
  destruct (bisect _ _ _ _ _ _ _ _ _ _) as [[[b' bv'] a]| | | |]; try discriminate. cbn [obind].
  destruct (elt _ _).
  - destruct (skip_disc disc pos) as [|[d e] l]; [discriminate|].
    destruct (Rltb d a); [intros H; injection H as <-; eauto|]. destruct (elt _ _); intros H; injection H as <-; eauto.
  - destruct (elt _ _); intros H; injection H as <-; eauto.
Qed.
Lemma forward_loop_grows fuel rounds : forall tr disc pos vel acc tr' b, forward_loop fuel rounds tr disc pos vel acc = Ok (tr', b) ->
  exists x l, tr' = x :: l ++ tr.
Proof.
  induction rounds as [|k IH]; intros tr disc pos vel acc tr' b H; [discriminate|]. cbn [TotpTrajModel.forward_loop] in H.
  destruct (forward_round fuel tr disc pos vel acc) as [r| | | |] eqn:E; try discriminate. cbn [obind] in H.
  apply forward_round_grows in E. destruct r as [[tr1 b1]|[[[[tr1 d1] p1] v1] a1]].
  - injection H as -> ->. destruct E as (x & ->). exists x, []. reflexivity.
  - destruct E as (x & ->). apply IH in H. destruct H as (y & l & ->). exists y, (l ++ [x]). rewrite <- app_assoc. reflexivity.
Qed.
Lemma forward_grows fuel tr acc tr' b : forward n tg cv len sw vmax amax dt fuel tr acc = Ok (tr', b) -> tr <> [] /\ exists x l, tr' = x :: l ++ tr.
Proof. unfold forward. destruct tr as [|[p v] tr]; [discriminate|]. intros H. split; [discriminate|]. eapply forward_loop_grows, H. Qed.

Lemma backward_loop_keeps fuel : forall s1 before s2 tr pos vel acc slope r,
  backward_loop fuel s1 before s2 tr pos vel acc slope = Ok r ->
  exists new x l s1' before', r = rev (new ++ tr) ++ x :: s1' :: before' /\ s1 :: before = l ++ s1' :: before' /\
    (tr = [] -> exists new', new = new' ++ [(pos, vel)]).
Proof.
  induction fuel as [|k IH]; intros s1 before s2 tr pos vel acc slope r H; [discriminate|]. cbn [TotpTrajModel.backward_loop] in H.
  destruct (match before with [] => Rleb 0 pos | _ => true end); [|discriminate].
  destruct (Rleb (fst s1) pos).
  - destruct (Rltb (vel - dt * acc) 0); [discriminate|].
    set (pos1 := pos - dt * / 2 * (vel - dt * acc + vel)) in *. set (vel1 := vel - dt * acc) in *.
    assert (GO : backward_loop k s1 before s2 ((pos, vel) :: tr) pos1 vel1 (min_max_acc n tg cv amax pos1 vel1 false) (quot (vel - vel1) (pos - pos1)) = Ok r ->
       exists new x l s1' before', r = rev (new ++ tr) ++ x :: s1' :: before' /\ s1 :: before = l ++ s1' :: before' /\
         (tr = [] -> exists new', new = new' ++ [(pos, vel)])).
    { intros G. apply IH in G. destruct G as (new & x & l & s1' & before' & E1 & E2 & _). exists (new ++ [(pos, vel)]), x, l, s1', before'.
      split; [rewrite E1, <- app_assoc; reflexivity|]. split; [exact E2|]. intros _. exists new. reflexivity. }
    destruct (intersection s1 s2 pos1 vel1 _) as [[x xv]|]; [|exact (GO H)]. destruct (Rleb _ x && Rleb x _); [|exact (GO H)].
    injection H as <-. exists [(pos, vel)], (x, xv), [], s1, before. split; [reflexivity|]. split; [reflexivity|]. intros _. exists []. reflexivity.
  - destruct before as [|s0 before']; [discriminate|]. destruct tr as [|f tr]; [discriminate|].
    assert (GO : backward_loop k s0 before' s1 (f :: tr) pos vel acc slope = Ok r ->
       exists new x l s1' before'', r = rev (new ++ f :: tr) ++ x :: s1' :: before'' /\ s1 :: s0 :: before' = l ++ s1' :: before'' /\
         (f :: tr = [] -> exists new', new = new' ++ [(pos, vel)])).
    { intros G. apply IH in G. destruct G as (new & x & l & s1' & b'' & E1 & E2 & _). exists new, x, (s1 :: l), s1', b''.
      split; [exact E1|]. split; [rewrite E2; reflexivity|]. discriminate. }
    destruct (intersection s0 s1 pos vel slope) as [[x xv]|]; [|exact (GO H)]. destruct (Rleb _ x && Rleb x _); [|exact (GO H)].
    injection H as <-. exists [], (x, xv), [s1], s0, before'. split; [reflexivity|]. split; [reflexivity|]. discriminate.
Qed.
Lemma backward_keeps fuel tr z pos vel acc r : backward n tg cv amax dt fuel (tr ++ [z]) pos vel acc = Ok r -> exists m, r = (pos, vel) :: m ++ [z].
Proof.
  unfold backward. destruct (tr ++ [z]) as [|s2 [|s1 before]] eqn:E; try discriminate.
  destruct (Rltb pos (fst s1)); [discriminate|]. intros H. apply backward_loop_keeps in H.
  destruct H as (new & x & l & s1' & before' & -> & E2 & E3). destruct (E3 eq_refl) as (new' & ->).
  rewrite app_nil_r, rev_app_distr. cbn [rev app].
  assert (Z : exists m, s1' :: before' = m ++ [z]).
  { assert (N : s1' :: before' <> []) by discriminate. destruct (exists_last N) as (m & y & Em). exists m. rewrite Em. f_equal. f_equal.
    rewrite E2, Em in E. rewrite app_assoc in E. change (s2 :: ((l ++ m) ++ [y])) with ((s2 :: l ++ m) ++ [y]) in E. apply app_inj_tail in E. symmetry. apply E. }
  destruct Z as (m & ->). exists (rev new' ++ x :: m). rewrite <- app_assoc. reflexivity.
Qed.

Lemma plan_loop_keeps fuel rounds : forall tr acc z r, plan_loop n tg cv len sw vmax amax dt fuel rounds (tr ++ [z]) acc = Ok r -> exists m, r = m ++ [z].
Proof.
  induction rounds as [|k IH]; intros tr acc z r H; [discriminate|]. cbn [plan_loop] in H.
  destruct (forward n tg cv len sw vmax amax dt fuel (tr ++ [z]) acc) as [[tr1 reached]| | | |] eqn:EF; try discriminate. cbn [obind] in H.
  apply forward_grows in EF. destruct EF as (_ & x & l & ->).
  assert (E1 : x :: l ++ tr ++ [z] = (x :: l ++ tr) ++ [z]) by (cbn [app]; rewrite app_assoc; reflexivity).
  destruct reached; [injection H as <-; exists (x :: l ++ tr); exact E1|].
  destruct x as [back bv].
  destruct (next_switch n tg cv len sw vmax amax fuel back) as [[[[[s v] b] a]|]| | | |]; try discriminate; cbn [obind] in H.
  - rewrite E1 in H. destruct (backward n tg cv amax dt fuel _ s v b) as [tr2| | | |] eqn:EB; try discriminate. cbn [obind] in H.
    apply backward_keeps in EB. destruct EB as (m & ->). apply (IH ((s, v) :: m) a z r H).
  - injection H as <-. exists ((back, bv) :: l ++ tr). exact E1.
Qed.
(** Any plan starts at the beginning at rest and ends at the end at rest. *)
Lemma plan_ends fuel steps : plan n tg cv len sw vmax amax dt fuel = Ok steps -> exists m, steps = (0, 0) :: m ++ [(len, 0)].
Proof.
  unfold plan. destruct (plan_loop _ _ _ _ _ _ _ _ fuel fuel _ _) as [tr| | | |] eqn:E; try discriminate. cbn [obind].
  destruct (backward _ _ _ _ _ fuel tr len 0 _) as [tr'| | | |] eqn:EB; try discriminate. cbn [obind]. intros H. injection H as <-.
  apply (plan_loop_keeps fuel fuel [] _ (0, 0)) in E. destruct E as (m & ->). apply backward_keeps in EB. destruct EB as (m' & ->).
  cbn [rev]. rewrite rev_app_distr. cbn [rev app]. eauto.
Qed.
End Plan.

(** ** Times *)
Definition same_step (x : tstep) (s : step) : Prop := ts_pos x = fst s /\ ts_vel x = snd s.
Definition interval_ok (a b : tstep) : Prop := (ts_time b - ts_time a) * ((ts_vel b + ts_vel a) / 2) = ts_pos b - ts_pos a.
Lemma timing_from_spec : forall l prev ts, timing_from prev l = Some ts ->
  exists ts', ts = prev :: ts' /\ Forall2 same_step ts' l /\ (forall l1 a b l2, ts = l1 ++ a :: b :: l2 -> interval_ok a b).
Proof.
  induction l as [|[p v] l IH]; intros prev ts H; cbn [timing_from] in H.
  - injection H as <-. exists []. split; [reflexivity|]. split; [constructor|]. intros l1 a b l2 E. destruct l1 as [|? [|? ?]]; discriminate.
  - unfold quot in H. unfold Reqb in H. destruct (Req_EM_T ((v + ts_vel prev) / 2) 0) as [|N]; [discriminate|].
    destruct (timing_from _ l) as [r|] eqn:E; [|discriminate]. injection H as <-.
    apply IH in E. destruct E as (ts' & -> & F & I). exists (TStep p v (ts_time prev + (p - ts_pos prev) / ((v + ts_vel prev) / 2)) :: ts').
    split; [reflexivity|]. split; [constructor; [split; reflexivity|exact F]|]. intros l1 a b l2 E.
    destruct l1 as [|c l1]; cbn [app] in E.
    + injection E as <- <- _. unfold interval_ok. cbn [ts_time ts_vel ts_pos]. field. lra.
    + injection E as _ E. apply (I l1 a b l2 E).
Qed.
Lemma timing_spec l ts : timing l = Some ts -> Forall2 same_step ts l /\ (exists x ts', ts = x :: ts' /\ ts_time x = 0) /\ (forall l1 a b l2, ts = l1 ++ a :: b :: l2 -> interval_ok a b).
Proof.
  unfold timing. destruct l as [|[p v] l]; [discriminate|]. intros H. apply timing_from_spec in H. destruct H as (ts' & -> & F & I).
  split; [constructor; [split; reflexivity|exact F]|]. split; [|exact I]. eexists _, _. split; reflexivity.
Qed.

(** ** Queries *)
(** The first step after time [t], or the last one. *)
Definition segment_at (l : list tstep) (t : R) (k : nat) : Prop :=
  (duration l <= t /\ k = pred (length l)) \/
  (t < duration l /\ (exists x, nth_error l k = Some x /\ t < ts_time x) /\ forall j y, (j < k)%nat -> nth_error l j = Some y -> ts_time y <= t).
Lemma segment_unique l t k k' : segment_at l t k -> segment_at l t k' -> k = k'.
Proof.
  intros [[H ->]|(H & (x & Hx & Tx) & B)] [[H' ->]|(H' & (x' & Hx' & Tx') & B')]; try lra; [reflexivity|].
  destruct (Nat.lt_trichotomy k k') as [L|[E|L]]; [|exact E|].
  - specialize (B' k x L Hx). lra.
  - specialize (B k' x' L Hx'). lra.
Qed.
Lemma advance_spec t : forall l k, (exists x, In x l /\ t < ts_time x) ->
  exists j x, advance l k t = Ok (k + j)%nat /\ nth_error l j = Some x /\ t < ts_time x /\ forall i y, (i < j)%nat -> nth_error l i = Some y -> ts_time y <= t.
Proof.
  induction l as [|s l IH]; intros k (x & Hx & Tx); [destruct Hx|]. cbn [advance].
  destruct (Rleb (ts_time s) t) eqn:E; [apply Rleb_true in E|apply Rleb_false in E].
  - destruct Hx as [->|Hx]; [lra|]. destruct (IH (S k)) as (j & y & A & N & T & B); [eauto|].
    exists (S j), y. rewrite A. split; [f_equal; lia|]. split; [exact N|]. split; [exact T|].
    intros [|i] z Hi Hz; [injection Hz as ->; exact E|]. apply (B i z); [lia|exact Hz].
  - exists 0%nat, s. rewrite Nat.add_0_r. split; [reflexivity|]. split; [reflexivity|]. split; [exact E|]. intros i y Hi. lia.
Qed.
(** What the cache holds after queries. *)
Definition cache_ok (l : list tstep) (c : cache) : Prop :=
  c = fresh \/ exists t k, c = Cache (Some t) (Some k) /\ t < duration l /\ segment_at l t k.
Lemma last_in_time (l : list tstep) : l <> [] -> exists x, In x l /\ ts_time x = duration l.
Proof. intros N. unfold duration. exists (last l (TStep 0 0 0)). split; [|reflexivity]. destruct (exists_last N) as (m & y & ->). rewrite last_last. apply in_elt. Qed.
Lemma get_segment_ok l c t : l <> [] -> duration l <= dbl_max -> cache_ok l c ->
  exists k c', get_segment l c (Some t) = Ok (k, c') /\ segment_at l t k /\ cache_ok l c'.
Proof.
  intros N D C. unfold get_segment. destruct (Rleb (duration l) t) eqn:E; [apply Rleb_true in E|apply Rleb_false in E].
  - exists (pred (length l)), c. split; [reflexivity|]. split; [left; auto|exact C].
  - destruct (last_in_time l N) as (z & Hz & Tz).
    assert (GO : forall k0, (forall j y, (j < k0)%nat -> nth_error l j = Some y -> ts_time y <= t) ->
      exists k c', (let! k' := advance (skipn k0 l) k0 t in Ok (k', Cache (Some t) (Some k'))) = Ok (k, c') /\ segment_at l t k /\ cache_ok l c').
    { intros k0 B0. destruct (advance_spec t (skipn k0 l) k0) as (j & x & A & Nx & Tx & B).
      - exists z. split; [|lra]. rewrite <- (firstn_skipn k0 l) in Hz. apply in_app_or in Hz. destruct Hz as [Hz|Hz]; [|exact Hz].
        exfalso. apply In_nth_error in Hz. destruct Hz as (j & Hj).
        assert (Lf : (j < length (firstn k0 l))%nat) by (apply nth_error_Some; rewrite Hj; discriminate).
        assert (Hj' : nth_error l j = Some z) by (rewrite <- (firstn_skipn k0 l), nth_error_app1 by exact Lf; exact Hj).
        rewrite firstn_length in Lf. assert (Lj : (j < k0)%nat) by lia. specialize (B0 j z Lj Hj'). lra.
      - rewrite A. cbn [obind]. exists (k0 + j)%nat, (Cache (Some t) (Some (k0 + j)%nat)). split; [reflexivity|].
        assert (SA : segment_at l t (k0 + j)).
        { right. split; [lra|]. split.
          - exists x. split; [|exact Tx]. rewrite <- (firstn_skipn k0 l). rewrite <- Nx.
            assert (Lk : (k0 <= length l)%nat). { destruct (Nat.le_gt_cases k0 (length l)) as [|G]; [assumption|]. rewrite skipn_all2 in Nx by lia. destruct j; discriminate. }
            rewrite nth_error_app2 by (rewrite firstn_length; lia). rewrite firstn_length. f_equal. lia.
          - intros i y Hi Hy. destruct (Nat.lt_ge_cases i k0) as [L|L]; [apply (B0 i y L Hy)|].
            apply (B (i - k0)%nat y); [lia|]. rewrite <- (firstn_skipn k0 l) in Hy.
            assert (Lk : (k0 <= length l)%nat). { destruct (Nat.le_gt_cases k0 (length l)) as [|G]; [assumption|]. rewrite skipn_all2 in Nx by lia. destruct j; discriminate. }
            rewrite nth_error_app2 in Hy by (rewrite firstn_length; lia). rewrite firstn_length in Hy. rewrite <- Hy. f_equal. lia. }
        split; [exact SA|]. right. exists t, (k0 + j)%nat. split; [reflexivity|]. split; [lra|exact SA]. }
    destruct C as [->|(t0 & k0 & -> & T0 & S0)].
    + cbn [c_time c_seg fresh]. destruct (Rltb t dbl_max) eqn:E2; [|apply Rltb_false in E2; lra]. apply GO. intros j y Hj. lia.
    + cbn [c_time c_seg]. destruct (Rltb t t0) eqn:E2; [apply GO; intros j y Hj; lia|]. apply Rltb_false in E2. apply GO.
      destruct S0 as [[S0 _]|(_ & _ & B)]; [lra|]. intros j y Hj Hy. specialize (B j y Hj Hy). lra.
Qed.
