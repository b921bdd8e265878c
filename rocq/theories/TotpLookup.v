(** The segment found for a position, switching points, derivatives of the configuration along the path. *)
From Coq Require Import Reals Lra Psatz.
From Verif Require Import Base MathModel TotpModel TotpVec TotpArc TotpPath.
Open Scope R_scope.

(** Positions of the segments of a list laid end to end from [len], and where the list ends. *)
Fixpoint posn (n : nat) (len : R) (l : list segment) : list (R * segment) :=
  match l with [] => [] | g :: l' => (len, g) :: posn n (len + seg_len n g) l' end.
Fixpoint total (n : nat) (len : R) (l : list segment) : R :=
  match l with [] => len | g :: l' => total n (len + seg_len n g) l' end.

Lemma place_posn n : forall l len sw, exists sw', place n len sw l = (posn n len l, total n len l, sw').
Proof.
  induction l as [|g l IH]; intros len sw; cbn [place posn total]; [eauto|].
  match goal with |- context [place n ?a ?b l] => destruct (IH a b) as (sw' & ->) end. eauto.
Qed.
Lemma total_app n l1 l2 len : total n len (l1 ++ l2) = total n (total n len l1) l2.
Proof. revert len. induction l1; intros len; cbn [app total]; auto. Qed.
Lemma posn_app n l1 l2 len : posn n len (l1 ++ l2) = posn n len l1 ++ posn n (total n len l1) l2.
Proof. revert len. induction l1; intros len; cbn [app total posn]; [reflexivity|]. rewrite IHl1. reflexivity. Qed.
Lemma total_ge n l len : Forall (seg_good n) l -> len <= total n len l.
Proof.
  revert len. induction l as [|g l IH]; intros len H; cbn [total]; [lra|].
  pose proof (seg_len_nonneg n g (Forall_inv H)). specialize (IH (len + seg_len n g) (Forall_inv_tail H)). lra.
Qed.
Lemma in_posn n l len q g : In (q, g) (posn n len l) -> exists l1 l2, l = l1 ++ g :: l2 /\ q = total n len l1.
Proof.
  revert len. induction l as [|g' l IH]; intros len H; [destruct H|].
  cbn [posn] in H. destruct H as [E|H].
  - injection E as <- <-. exists [], l. split; reflexivity.
  - destruct (IH _ H) as (l1 & l2 & -> & ->). exists (g' :: l1), l2. split; reflexivity.
Qed.

(** What [find_segment] finds: the segment splits the list, [s] is on it. *)
Lemma find_segment_spec n s : forall l len g0,
  Forall (seg_good n) (g0 :: l) -> len <= s ->
  exists l1 g l2, g0 :: l = l1 ++ g :: l2 /\
    find_segment (len, g0) (posn n (len + seg_len n g0) l) s = (total n len l1, g) /\
    total n len l1 <= s /\ (l2 = [] \/ s < total n len l1 + seg_len n g).
Proof.
  induction l as [|g1 l IH]; intros len g0 G Hs; cbn [posn find_segment].
  - exists [], g0, []. cbn [app total]. auto.
  - cbn [fst]. destruct (Rleb (len + seg_len n g0) s) eqn:E.
    + apply Rleb_true in E.
      destruct (IH (len + seg_len n g0) g1 (Forall_inv_tail G) E) as (l1 & g & l2 & E1 & E2 & E3 & E4).
      exists (g0 :: l1), g, l2. cbn [app total]. rewrite <- E1. auto.
    + apply Rleb_false in E. exists [], g0, (g1 :: l). cbn [app total]. auto.
Qed.
Lemma find_segment_at n s l2 g : forall l1 len g0 l,
  Forall (seg_good n) (g0 :: l) -> g0 :: l = l1 ++ g :: l2 -> total n len l1 <= s ->
  (l2 = [] \/ s < total n len l1 + seg_len n g) ->
  find_segment (len, g0) (posn n (len + seg_len n g0) l) s = (total n len l1, g).
Proof.
  induction l1 as [|g' l1 IH]; intros len g0 l G E Hs H2.
  - cbn [app] in E. injection E as -> ->. cbn [total] in *. destruct l2 as [|g1 l2]; [reflexivity|].
    cbn [posn find_segment fst]. destruct H2 as [H2|H2]; [discriminate|].
    destruct (Rleb (len + seg_len n g) s) eqn:E1; [apply Rleb_true in E1; lra|reflexivity].
  - cbn [app] in E. injection E as -> ->. cbn [total] in *.
    assert (GL : Forall (seg_good n) l1).
    { apply Forall_inv_tail in G. apply Forall_app in G. apply G. }
    pose proof (total_ge n l1 (len + seg_len n g') GL) as T.
    destruct l1 as [|g1 l1]; cbn [app posn find_segment fst].
    + cbn [total] in *. destruct (Rleb (len + seg_len n g') s) eqn:E1; [|apply Rleb_false in E1; lra].
      apply (IH (len + seg_len n g') g l2); auto. apply (Forall_inv_tail G).
    + destruct (Rleb (len + seg_len n g') s) eqn:E1; [|apply Rleb_false in E1; lra].
      apply (IH (len + seg_len n g') g1 (l1 ++ g :: l2)); auto. apply (Forall_inv_tail G).
Qed.
Lemma find_segment_before n s : forall l len g0, Forall (seg_good n) (g0 :: l) -> s < len ->
  find_segment (len, g0) (posn n (len + seg_len n g0) l) s = (len, g0).
Proof.
  intros l len g0 G Hs. destruct l as [|g1 l]; [reflexivity|]. cbn [posn find_segment fst].
  pose proof (seg_len_nonneg n g0 (Forall_inv G)).
  destruct (Rleb (len + seg_len n g0) s) eqn:E; [apply Rleb_true in E; lra|reflexivity].
Qed.

(** ** Switching points *)

Definition sw_ge (a b : R * bool) : Prop := fst b <= fst a.
(** The list kept back first: never increasing, at most [len]. *)
Inductive sw_sorted : R -> list (R * bool) -> Prop :=
| sw_nil len : sw_sorted len []
| sw_cons len p d l : p <= len -> sw_sorted p l -> sw_sorted len ((p, d) :: l).
Lemma sw_sorted_le len len' l : len <= len' -> sw_sorted len l -> sw_sorted len' l.
Proof. intros H S. inversion S; subst; constructor; auto. lra. Qed.
Lemma sw_sorted_in len l p d : sw_sorted len l -> In (p, d) l -> p <= len.
Proof.
  intros S. induction S; intros H1; [destruct H1|]. destruct H1 as [E|H1]; [injection E as <- <-; exact H|].
  specialize (IHS H1). lra.
Qed.
Lemma pop_past_sorted len0 len sw : sw_sorted len0 sw -> sw_sorted len (pop_past len sw) /\
  (forall p d, In (p, d) (pop_past len sw) <-> In (p, d) sw /\ p < len).
Proof.
  intros S. induction S as [|len0 p d l Hp S [IH1 IH2]]; cbn [pop_past].
  - split; [constructor|]. cbn. intuition.
  - destruct (Rleb len p) eqn:E.
    + apply Rleb_true in E. split; [exact IH1|]. intros q e. rewrite IH2. cbn [In]. split; [tauto|].
      intros [[E1|H] Hq]; [|tauto]. injection E1 as <- <-. lra.
    + apply Rleb_false in E. split; [constructor; [lra|exact S]|]. intros q e. split; [|tauto].
      intros H. split; [exact H|]. destruct H as [E1|H]; [injection E1 as <- <-; exact E|].
      pose proof (sw_sorted_in _ _ _ _ S H). lra.
Qed.
Lemma sw_sorted_app len mid l1 l2 :
  sw_sorted len l1 -> (forall p d, In (p, d) l1 -> mid <= p) -> mid <= len -> sw_sorted mid l2 -> sw_sorted len (l1 ++ l2).
Proof.
  intros S1 H Hm S2. induction S1 as [len|len p d l Hp S IH].
  - cbn [app]. apply (sw_sorted_le mid); assumption.
  - cbn [app]. constructor; [exact Hp|]. apply IH.
    + intros q e Hq. apply (H q e). right. exact Hq.
    + apply (H p d). left. reflexivity.
Qed.

Lemma sort_insert_in a l x : In x (sort_insert a l) <-> x = a \/ In x l.
Proof.
  induction l as [|b l IH]; cbn [sort_insert]; [cbn; intuition|].
  destruct (Rleb a b); cbn [In]; [intuition|]. rewrite IH. intuition.
Qed.
Lemma sort_list_in l x : In x (sort_list l) <-> In x l.
Proof. induction l as [|a l IH]; cbn; [tauto|]. fold (sort_list l). rewrite sort_insert_in, IH. intuition. Qed.
Inductive incr : list R -> Prop :=
| incr_nil : incr []
| incr_cons a l : (forall x, In x l -> a <= x) -> incr l -> incr (a :: l).
Lemma sort_insert_incr a l : incr l -> incr (sort_insert a l).
Proof.
  intros S. induction S as [|b l Hb S IH]; cbn [sort_insert].
  - constructor; [intros x []|constructor].
  - destruct (Rleb a b) eqn:E.
    + apply Rleb_true in E. constructor; [|constructor; assumption].
      intros x [ <- |Hx]; [exact E|]. specialize (Hb x Hx). lra.
    + apply Rleb_false in E. constructor; [|exact IH]. intros x Hx. apply sort_insert_in in Hx.
      destruct Hx as [ -> |Hx]; [lra|apply Hb, Hx].
Qed.
Lemma sort_list_incr l : incr (sort_list l).
Proof. induction l; cbn; [constructor|]. apply sort_insert_incr, IHl. Qed.
Lemma incr_rev_sorted len0 (f : R -> R * bool) hi : (forall x, fst (f x) = len0 + x) -> forall l,
  incr l -> (forall x, In x l -> x <= hi) -> sw_sorted (len0 + hi) (rev (map f l)).
Proof.
  intros Hf. induction l as [|a l IH]; intros S Hb; cbn [map rev]; [constructor|].
  inversion S as [|a' l' Ha S' E]; subst. destruct (f a) as [p d] eqn:E. pose proof (Hf a) as Fa. rewrite E in Fa. cbn [fst] in Fa.
  apply (sw_sorted_app _ p).
  - apply IH; [exact S'|]. intros x Hx. apply Hb. right. exact Hx.
  - intros q e Hq. apply in_rev in Hq. apply in_map_iff in Hq. destruct Hq as (x & Ex & Hx).
    pose proof (Hf x) as Fx. rewrite Ex in Fx. cbn [fst] in Fx. specialize (Ha x Hx). lra.
  - specialize (Hb a (or_introl eq_refl)). lra.
  - constructor; [lra|constructor].
Qed.

(** atan2 is the angle of the point: in (-pi, pi], and the sine and cosine are proportional to the coordinates. *)
Lemma atan2_range y x : - PI < atan2 y x <= PI.
Proof.
  pose proof PI_RGT_0 as PP. unfold atan2.
  destruct (Rltb 0 x) eqn:E1; [pose proof (atan_bound (y / x)); lra|]. apply Rltb_false in E1.
  destruct (Rltb x 0) eqn:E2.
  - apply Rltb_true in E2. pose proof (atan_bound (y / x)) as B.
    destruct (Rleb 0 y) eqn:E3; [apply Rleb_true in E3|apply Rleb_false in E3].
    + split; [lra|]. assert (y / x <= 0).
      { replace (y / x) with (- (y / - x)) by (field; lra). pose proof (div_nonneg y (- x) E3 ltac:(lra)). lra. }
      assert (atan (y / x) <= 0); [|lra].
      destruct (Rle_lt_or_eq_dec _ _ H) as [L|Z].
      * left. rewrite <- atan_0. apply atan_increasing, L.
      * rewrite Z, atan_0. lra.
    + split; [|lra]. assert (0 < y / x).
      { replace (y / x) with ((- y) / (- x)) by (field; lra). apply Rdiv_lt_0_compat; lra. }
      pose proof (atan_increasing 0 (y / x) H) as I. rewrite atan_0 in I. lra.
  - apply Rltb_false in E2. destruct (Rltb 0 y); [lra|]. destruct (Rltb y 0); lra.
Qed.
Lemma atan_prop q : sin (atan q) = q * cos (atan q).
Proof.
  pose proof (atan_bound q) as B. pose proof (cos_gt_0 (atan q)) as C.
  pose proof (tan_atan q) as T. unfold tan in T. rewrite <- T at 2. field. lra.
Qed.
Lemma atan2_prop y x : x * sin (atan2 y x) = y * cos (atan2 y x).
Proof.
  unfold atan2. destruct (Rltb 0 x) eqn:E1.
  - apply Rltb_true in E1. rewrite atan_prop. field. lra.
  - apply Rltb_false in E1. destruct (Rltb x 0) eqn:E2.
    + apply Rltb_true in E2. destruct (Rleb 0 y).
      * rewrite neg_sin, neg_cos, atan_prop. field. lra.
      * replace (atan (y / x) - PI) with (atan (y / x) + PI - 2 * PI) by ring.
        rewrite <- (sin_period (atan (y / x) + PI - 2 * PI) 1), <- (cos_period (atan (y / x) + PI - 2 * PI) 1).
        replace (atan (y / x) + PI - 2 * PI + 2 * INR 1 * PI) with (atan (y / x) + PI) by (cbn [INR]; ring).
        rewrite neg_sin, neg_cos, atan_prop. field. lra.
    + apply Rltb_false in E2. replace x with 0 by lra.
      destruct (Rltb 0 y) eqn:E3; [rewrite cos_PI2; ring|].
      apply Rltb_false in E3. destruct (Rltb y 0) eqn:E4; [rewrite cos_neg, cos_PI2; ring|].
      apply Rltb_false in E4. replace y with 0 by lra. ring.
Qed.
(** The angle of the switching point of joint [i]. *)
Definition arc_angle (x y : R) : R := if Rltb (atan2 y x) 0 then atan2 y x + PI else atan2 y x.
Lemma arc_angle_range x y : 0 <= arc_angle x y <= PI.
Proof.
  unfold arc_angle. pose proof (atan2_range y x).
  destruct (Rltb (atan2 y x) 0) eqn:E; [apply Rltb_true in E|apply Rltb_false in E]; lra.
Qed.
Lemma arc_angle_prop x y : x * sin (arc_angle x y) = y * cos (arc_angle x y).
Proof.
  unfold arc_angle. pose proof (atan2_prop y x). destruct (Rltb (atan2 y x) 0); [rewrite neg_sin, neg_cos|]; lra.
Qed.
Lemma arc_angle_unique x y phi :
  0 < phi < PI -> x * sin phi = y * cos phi -> (x <> 0 \/ y <> 0) -> arc_angle x y = phi.
Proof.
  intros Hp E N. pose proof (arc_angle_range x y) as B. pose proof (arc_angle_prop x y) as Q.
  set (a := arc_angle x y) in *.
  assert (S : sin (a - phi) = 0).
  { rewrite sin_minus. destruct N as [N|N].
    - apply (Rmult_eq_reg_l x); [|exact N].
      replace (x * (sin a * cos phi - cos a * sin phi)) with (x * sin a * cos phi - cos a * (x * sin phi)) by ring.
      rewrite Q, E. ring.
    - apply (Rmult_eq_reg_l y); [|exact N].
      replace (y * (sin a * cos phi - cos a * sin phi)) with (sin a * (y * cos phi) - y * cos a * sin phi) by ring.
      rewrite <- Q, <- E. ring. }
  destruct (Rtotal_order (a - phi) 0) as [L|[Z|L]]; [|lra|].
  - assert (0 < sin (phi - a)) by (apply sin_gt_0; lra). replace (phi - a) with (- (a - phi)) in H by ring.
    rewrite sin_neg, S in H. lra.
  - assert (0 < sin (a - phi)) by (apply sin_gt_0; lra). lra.
Qed.

Lemma in_seg_switching n len r ctr x y p :
  In p (seg_switching n (Arc len r ctr x y)) <-> exists i, (i < n)%nat /\ p = arc_angle (x i) (y i) * r /\ p < len.
Proof.
  cbn [seg_switching]. rewrite sort_list_in, filter_In, in_map_iff. split.
  - intros [(i & <- & Hi) L]. exists i. apply in_seq in Hi. apply Rltb_true in L. split; [lia|]. split; [reflexivity|exact L].
  - intros (i & Hi & -> & L). split; [|apply Rltb_true, L]. exists i. split; [reflexivity|apply in_seq; lia].
Qed.
Lemma seg_switching_bound n g p : seg_good n g -> In p (seg_switching n g) -> 0 <= p < seg_len n g.
Proof.
  destruct g as [a b|len r ctr x y]; [intros _ []|].
  intros [Hr _] H. apply in_seg_switching in H. destruct H as (i & Hi & -> & L).
  split; [|exact L]. apply Rmult_le_pos; [apply arc_angle_range|lra].
Qed.

(** What the second loop of the constructor leaves in the switching point list (back first). *)
Lemma place_switch n : forall l len sw,
  Forall (seg_good n) l -> sw_sorted len sw ->
  exists sw', place n len sw l = (posn n len l, total n len l, sw') /\
    sw_sorted (total n len l) sw' /\
    (forall p d, In (p, d) sw' ->
       In (p, d) sw \/
       (exists l1 g l2, l = l1 ++ g :: l2 /\
          ((d = true /\ p = total n len (l1 ++ [g])) \/
           (d = false /\ exists u, In u (seg_switching n g) /\ p = total n len l1 + u)))) /\
    (forall p d, In (p, d) sw -> p < len \/ d = true -> In (p, d) sw') /\
    (forall l1 g l2, l = l1 ++ g :: l2 -> In (total n len (l1 ++ [g]), true) sw' /\
        forall u, In u (seg_switching n g) -> In (total n len l1 + u, false) sw') /\
    (l <> [] -> exists sw0, sw' = (total n len l, true) :: sw0 /\ forall p d, In (p, d) sw0 -> p < total n len l).
Proof.
  induction l as [|g l IH]; intros len sw G S.
  - exists sw. cbn [place posn total]. split; [reflexivity|]. split; [exact S|]. split; [auto|]. split; [auto|].
    split; [intros l1 g l2 E; destruct l1; discriminate|]. congruence.
  - pose proof (Forall_inv G) as G1. pose proof (Forall_inv_tail G) as G2. pose proof (seg_len_nonneg n g G1) as Lg.
    cbn [place]. cbv zeta.
    set (sw1 := rev (map (fun p => (len + p, false)) (seg_switching n g)) ++ sw). set (len' := len + seg_len n g).
    assert (In1 : forall p d, In (p, d) sw1 <-> (d = false /\ exists u, In u (seg_switching n g) /\ p = len + u) \/ In (p, d) sw).
    { intros p d. unfold sw1. rewrite in_app_iff, <- in_rev, in_map_iff. split.
      - intros [(u & E & Hu)|H]; [left; injection E as <- <-; eauto|auto].
      - intros [( -> & u & Hu & -> )|H]; [left; exists u; auto|auto]. }
    assert (S1 : sw_sorted len' sw1).
    { unfold sw1. apply (sw_sorted_app _ len).
      - unfold len'. apply incr_rev_sorted; [reflexivity| |].
        + destruct g; cbn [seg_switching]; [constructor|apply sort_list_incr].
        + intros x Hx. apply (seg_switching_bound n g x G1) in Hx. lra.
      - intros p d H. apply in_rev in H. apply in_map_iff in H. destruct H as (u & E & Hu). injection E as <- <-.
        apply (seg_switching_bound n g u G1) in Hu. lra.
      - unfold len'. lra.
      - exact S. }
    destruct (pop_past_sorted len' len' sw1 S1) as [P1 P2].
    set (sw2 := (len', true) :: pop_past len' sw1).
    assert (S2 : sw_sorted len' sw2) by (constructor; [lra|exact P1]).
    destruct (IH len' sw2 G2 S2) as (sw3 & E & T1 & T2 & T3 & T4 & T5).
    rewrite E. exists sw3. cbn [posn total]. fold len'. split; [reflexivity|]. split; [exact T1|]. split; [|split; [|split]].
    + intros p d H. destruct (T2 p d H) as [H1|(l1 & g1 & l2 & E1 & H1)].
      * destruct H1 as [E1|H1].
        -- injection E1 as <- <-. right. exists [], g, l. split; [reflexivity|]. left. split; reflexivity.
        -- apply P2 in H1. destruct H1 as [H1 H2]. apply In1 in H1. destruct H1 as [( -> & u & Hu & -> )|H1]; [|auto].
           right. exists [], g, l. split; [reflexivity|]. right. split; [reflexivity|]. exists u. split; [exact Hu|reflexivity].
      * right. exists (g :: l1), g1, l2. rewrite E1. split; [reflexivity|]. cbn [app total]. fold len'. exact H1.
    + intros p d H Hp. pose proof (sw_sorted_in _ _ _ _ S H) as Pl.
      destruct (Rlt_dec p len') as [L|NL].
      * apply T3; [|left; exact L]. right. apply P2. split; [apply In1; auto|exact L].
      * assert (Ep : p = len') by (unfold len' in *; lra). destruct Hp as [Hp| -> ]; [unfold len' in *; lra|].
        apply T3; [|right; reflexivity]. left. rewrite Ep. reflexivity.
    + intros l1 g1 l2 E1. destruct l1 as [|g' l1].
      * cbn [app] in E1. injection E1 as <- <-. cbn [app total]. fold len'. split.
        -- apply T3; [left; reflexivity|right; reflexivity].
        -- intros u Hu. pose proof (seg_switching_bound n g u G1 Hu) as Bu.
           assert (len + u < len') by (unfold len'; lra).
           apply T3; [|left; assumption]. right. apply P2. split; [|assumption]. apply In1. left. eauto.
      * cbn [app] in E1. injection E1 as <- ->. cbn [app total]. fold len'. apply (T4 l1 g1 l2). reflexivity.
    + intros _. destruct l as [|g2 l].
      * cbn [place] in E. injection E as <-. cbn [total]. exists (pop_past len' sw1). split; [reflexivity|].
        intros p d H. apply P2 in H. apply H.
      * apply T5. discriminate.
Qed.
