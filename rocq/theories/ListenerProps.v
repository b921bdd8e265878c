(** Listening to a topic (C133). *)
From Verif Require Import Base ListenerModel.

(** A shorter list within a longer one, in the same order. *)
Inductive within {A} : list A -> list A -> Prop :=
| within_nil l : within [] l
| within_both x k l : within k l -> within (x :: k) (x :: l)
| within_skip x k l : within k l -> within k (x :: l).
Definition changes {M} (e : event M) : bool := match e with Store _ | Clear _ => true | _ => false end.
Definition published {M} (es : list (event M)) : list M := concat (map (fun e => match e with Publish m => [m] | _ => [] end) es).
Definition received {M} (es : list (event M)) : list M := concat (map (fun e => match e with Store m => [m] | _ => [] end) es).
(** Quiet stretches: nothing stored, nothing cleared. *)
Definition quiet {M} (es : list (event M)) : Prop := Forall (fun e => changes e = false) es.

Section Props.
Context {M : Type} (meqb : M -> M -> bool) (meqb_ok : forall a b, meqb a b = true <-> a = b).
Notation run := (run meqb). Notation step := (step meqb).

Lemma run_snoc es : forall s e s' rs, run s (es ++ [e]) = Some (s', rs) ->
  exists s1 rs1 r, run s es = Some (s1, rs1) /\ step s1 e = Some (s', r) /\ rs = rs1 ++ match r with Some r => [r] | None => [] end.
Proof.
  induction es as [|x es IH]; intros s e s' rs H; cbn in H |- *.
  - destruct (step s e) as [[s1 r]|] eqn:E; [|discriminate]. injection H as <- <-. exists s, [], r. split; [reflexivity|]. split; [exact E|]. destruct r; reflexivity.
  - destruct (step s x) as [[s1 r]|] eqn:E; [|discriminate]. destruct (run s1 (es ++ [e])) as [[s2 rs2]|] eqn:R; [|discriminate]. injection H as <- <-. destruct (IH _ _ _ _ R) as (s3 & rs3 & r3 & R3 & E3 & ->). rewrite R3. eexists _, _, _. split; [reflexivity|]. split; [exact E3|]. destruct r; [rewrite app_comm_cons|]; reflexivity.
Qed.
Ltac inv_step E := unfold ListenerModel.step in E; repeat (match type of E with context [match ?x with _ => _ end] => destruct x eqn:? end; try discriminate); first [injection E as <- <- | injection E as <- | idtac]; cbn [queue flight msg_ running ros_ok place_of go set_msg].

(** The field holds the last message received since the last time it was cleared. *)
Lemma msg_last es : forall a ok s rs, run (construct a ok) es = Some (s, rs) ->
  match msg_ s with
  | Some m => exists b c, es = b ++ Store m :: c /\ quiet c
  | None => quiet es \/ exists b t c, es = b ++ Clear t :: c /\ quiet c
  end.
Proof.
  induction es as [|e es IH] using rev_ind; intros a ok s rs H.
  - cbn in H. injection H as <- <-. left. constructor.
  - destruct (run_snoc _ _ _ _ _ H) as (s1 & rs1 & r & R & E & _). specialize (IH _ _ _ _ R). destruct (changes e) eqn:CH.
    + destruct e; try discriminate CH; inv_step E; [|right].
      * apply meqb_ok in Heqb. exists es, []. split; [reflexivity|constructor].
      * exists es, t, []. split; [reflexivity|constructor].
    + assert (K : msg_ s = msg_ s1) by (destruct e; try discriminate CH; inv_step E; congruence). rewrite K. destruct (msg_ s1) as [m|].
      * destruct IH as (b & c & -> & Q). exists b, (c ++ [e]). rewrite <- app_assoc. split; [reflexivity|]. apply Forall_app. auto.
      * destruct IH as [Q|(b & t & c & -> & Q)]; [left; apply Forall_app; auto|]. right. exists b, t, (c ++ [e]). rewrite <- app_assoc. split; [reflexivity|]. apply Forall_app. auto.
Qed.
(** A thread inside waitForNew has cleared the field. *)
Lemma inside es : forall a ok s rs t, run (construct a ok) es = Some (s, rs) -> place_of s t <> Elsewhere -> exists b c, es = b ++ Clear t :: c /\ ~ In (Clear t) c.
Proof.
  induction es as [|e es IH] using rev_ind; intros a ok s rs t H P.
  - cbn in H. injection H as <- <-. cbn in P. congruence.
  - destruct (run_snoc _ _ _ _ _ H) as (s1 & rs1 & r & R & E & _). specialize (IH _ _ _ _ t R).
    assert (K : e = Clear t \/ place_of s1 t <> Elsewhere /\ e <> Clear t).
    { destruct e; inv_step E; cbn in P; try (right; split; [exact P|discriminate]).
      all: try (destruct (Nat.eqb_spec t t0); [subst; first [left; reflexivity | right; split; [congruence|discriminate]] | right; split; [exact P|congruence]]). }
    destruct K as [->|[K NE]]; [exists es, []; split; [reflexivity|intros []]|]. destruct (IH K) as (b & c & -> & N). exists b, (c ++ [e]). rewrite <- app_assoc. split; [reflexivity|]. intros I. apply in_app_or in I. destruct I as [I|[I|[]]]; [tauto|congruence].
Qed.
(** ** The property *)
(** get() gives the last message received, unless somebody has called waitForNew() since. *)
Theorem C133_get : forall autostart ok es s rs t s' m, run (construct autostart ok) es = Some (s, rs) -> step s (Get t) = Some (s', Some (t, Got m)) ->
  match m with
  | Some m => exists a c, es = a ++ Store m :: c /\ quiet c
  | None => quiet es \/ exists a u c, es = a ++ Clear u :: c /\ quiet c
  end.
Proof. intros autostart ok es s rs t s' m R E. pose proof (msg_last _ _ _ _ _ R) as H. inv_step E. exact H. Qed.
(** waitForNew() returns a message received after it was called, the last one received before it looked. *)
Theorem C133_new : forall autostart ok es s rs t s' m, run (construct autostart ok) es = Some (s, rs) -> step s (Poll t) = Some (s', Some (t, Returned m)) ->
  exists a b c, es = a ++ Clear t :: b ++ Store m :: c /\ ~ In (Clear t) b /\ quiet c.
Proof.
  intros autostart ok es s rs t s' m R E. pose proof (msg_last _ _ _ _ _ R) as H. pose proof (inside _ _ _ _ _ t R) as I. inv_step E. destruct H as (x & c & EX & Q). destruct I as (a & y & EY & N); [congruence|]. rewrite EX in EY. apply app_eq_app in EY. destruct EY as (l & [[-> F]|[-> F]]).
  - destruct l as [|z l]; [discriminate|]. injection F as <- ->. exists a, l, c. split; [rewrite EX, <- app_assoc; reflexivity|]. split; [|exact Q]. intros K. apply N. apply in_or_app. auto.
  - exfalso. destruct l as [|z l]; [discriminate|]. injection F as <- ->. apply Forall_app in Q. destruct Q as [_ Q]. apply Forall_inv in Q. discriminate.
Qed.
(** As long as nobody else clears: once a message is received during the wait, the next look returns the last one, if ROS is still up. *)
Theorem C133_wakes : forall autostart ok es s rs a b m c t s1 r, run (construct autostart ok) es = Some (s, rs) ->
  es = a ++ Clear t :: b ++ Store m :: c -> quiet c -> step s (CheckOk t) = Some (s1, r) ->
  (ros_ok s = true -> r = None /\ exists s2, step s1 (Poll t) = Some (s2, Some (t, Returned m))) /\ (ros_ok s = false -> r = Some (t, Threw RuntimeError)).
Proof.
  intros autostart ok es s rs a b m c t s1 r R EQ Q E. assert (MS : msg_ s = Some m).
  { pose proof (msg_last _ _ _ _ _ R) as H. rewrite app_comm_cons, app_assoc in EQ. set (pre := a ++ Clear t :: b) in *. clearbody pre. clear - H EQ Q. assert (U : forall x e c', es = x ++ e :: c' -> changes e = true -> quiet c' -> e = Store m).
    { intros x e c' F CH Q'. rewrite EQ in F. apply app_eq_app in F. destruct F as (l & [[_ F]|[_ F]]); destruct l as [|z l]; try (injection F as -> ->); try (injection F as <- ->); auto; exfalso; [apply Forall_app in Q'; destruct Q' as [_ Q'] | apply Forall_app in Q; destruct Q as [_ Q]].
      - apply Forall_inv in Q'. discriminate.
      - apply Forall_inv in Q. congruence. }
    destruct (msg_ s) as [m'|].
    - destruct H as (x & c' & F & Q'). specialize (U _ _ _ F eq_refl Q'). congruence.
    - exfalso. destruct H as [H|(x & u & c' & F & Q')]; [rewrite EQ in H; apply Forall_app in H; destruct H as [_ H]; apply Forall_inv in H; discriminate|]. specialize (U _ _ _ F eq_refl Q'). discriminate. }
  cbn in E. destruct (place_of s t); try discriminate. destruct (ros_ok s); injection E as <- <-; split; intros K; try discriminate; auto. split; [reflexivity|]. cbn. rewrite Nat.eqb_refl, MS. eauto.
Qed.
(** It throws only after the node was shut down, and then always. *)
Theorem C133_throws : forall autostart es s rs t s' e, run (construct autostart true) es = Some (s, rs) -> step s (CheckOk t) = Some (s', Some (t, Threw e)) -> e = RuntimeError /\ In Shutdown es.
Proof.
  intros autostart es s rs t s' e R E. assert (K : ros_ok s = false -> In Shutdown es).
  { clear E. revert s rs R. induction es as [|x es IH] using rev_ind; intros s rs R F; [cbn in R; injection R as <- <-; discriminate|]. destruct (run_snoc _ _ _ _ _ R) as (s1 & rs1 & r & R1 & E & _). specialize (IH _ _ R1). apply in_or_app. destruct (ros_ok s1) eqn:O; [|auto]. right. destruct x; inv_step E; cbn in F; try congruence. left. reflexivity. }
  inv_step E. split; [reflexivity|]. apply K. reflexivity.
Qed.
Lemma within_refl {A} (l : list A) : within l l. Proof. induction l; constructor; assumption. Qed.
Lemma within_app {A} (k l k' l' : list A) : within k l -> within k' l' -> within (k ++ k') (l ++ l').
Proof. induction 1; intros W; cbn; try (constructor; auto). induction l; cbn; [exact W|constructor; assumption]. Qed.
Lemma within_prefix {A} (k r l : list A) : within (k ++ r) l -> within k l.
Proof. remember (k ++ r) as kr. intros W. revert k Heqkr. induction W; intros k0 E; [destruct k0; [constructor|discriminate]| |constructor; auto]. destruct k0 as [|y k0]; [constructor|]. cbn in E. injection E as <- ->. constructor. apply IHW. reflexivity. Qed.
(** Messages are received in the order of their publication, none twice and none that was not published. *)
Theorem C133_order : forall autostart ok es s rs, run (construct autostart ok) es = Some (s, rs) -> within (received es) (published es).
Proof.
  assert (H : forall es a ok s rs, run (construct a ok) es = Some (s, rs) -> within (received es ++ match flight s with Some m => [m] | None => [] end ++ match queue s with Some m => [m] | None => [] end) (published es)).
  { induction es as [|e es IH] using rev_ind; intros a ok s rs R; [cbn in R; injection R as <- <-; constructor|]. destruct (run_snoc _ _ _ _ _ R) as (s1 & rs1 & r & R1 & E & _). specialize (IH _ _ _ _ R1).
    assert (PP : published (es ++ [e]) = published es ++ match e with Publish m => [m] | _ => [] end) by (unfold published; rewrite map_app, concat_app; cbn; rewrite app_nil_r; reflexivity).
    assert (PR : received (es ++ [e]) = received es ++ match e with Store m => [m] | _ => [] end) by (unfold received; rewrite map_app, concat_app; cbn; rewrite app_nil_r; reflexivity).
    rewrite PP, PR. clear PP PR R R1. destruct e; inv_step E; rewrite ?app_nil_r; try rewrite ?Heqo, ?Heqo0 in IH; try apply meqb_ok in Heqb; subst; auto.
    - rewrite app_assoc. apply within_app; [|apply within_refl]. rewrite app_assoc in IH. apply (within_prefix _ _ _ IH).
    - apply meqb_ok in Heqb0. subst. exact IH.
    - rewrite <- ?app_assoc. exact IH. }
  intros autostart ok es s rs R. apply H in R. apply (within_prefix _ _ _ R).
Qed.
(** Never started, it never returns. *)
Theorem C133_not_started : forall ok es s rs t m, run (construct false ok) es = Some (s, rs) -> ~ In StartSpinner es -> ~ In (t, Returned m) rs.
Proof.
  intros ok es s rs t m R N. assert (H : flight s = None /\ msg_ s = None /\ running s = false /\ ~ In (t, Returned m) rs); [|tauto]. revert s rs R N. induction es as [|e es IH] using rev_ind; intros s rs R N; [cbn in R; injection R as <- <-; cbn; auto|].
  destruct (run_snoc _ _ _ _ _ R) as (s1 & rs1 & r & R1 & E & ->). destruct (IH _ _ R1) as (F & G & RU & I); [intros K; apply N; apply in_or_app; auto|]. assert (NS : e <> StartSpinner) by (intros ->; apply N; apply in_or_app; right; left; reflexivity). clear R R1 IH.
  destruct e; inv_step E; try congruence; repeat split; auto; try congruence; intros K; apply in_app_or in K; destruct K as [K|K]; try (exact (I K)); try contradiction; destruct K as [K|[]]; congruence.
Qed.
End Props.

(** Messages 1, 2, ... *)
Notation nrun := (run Nat.eqb). Notation nstep := (step Nat.eqb).
(** The message returned may be older than the call: it was waiting in the queue, or being handled. *)
Theorem C133_stale_refuted :
  (exists s s' rs, nrun (construct false true) [Publish 1; Clear 0; StartSpinner; Take 1; Store 1; CheckOk 0] = Some (s, rs) /\ nstep s (Poll 0) = Some (s', Some (0, Returned 1))) /\
  (exists s s' rs, nrun (construct true true) [Publish 1; Take 1; Clear 0; Store 1; CheckOk 0] = Some (s, rs) /\ nstep s (Poll 0) = Some (s', Some (0, Returned 1))).
Proof. split; eexists _, _, _; split; reflexivity. Qed.
(** get() forgets: a message was received, yet it gives none. *)
Theorem C133_forgets_refuted : exists s s' rs, nrun (construct true true) [Publish 1; Take 1; Store 1; Clear 0] = Some (s, rs) /\ nstep s (Get 1) = Some (s', Some (1, Got None)).
Proof. eexists _, _, _; split; reflexivity. Qed.
(** Two threads waiting: the second can take the message from under the first, which goes on waiting. *)
Theorem C133_two_refuted : exists s s' rs, nrun (construct true true) [Clear 0; Publish 1; Take 1; Store 1; CheckOk 0; Clear 1] = Some (s, rs) /\ nstep s (Poll 0) = Some (s', None) /\ place_of s' 0 = AtCheck.
Proof. eexists _, _, _; split; [|split]; reflexivity. Qed.
Example listener_case : exists s s' rs, nrun (construct true true) [Clear 0; Publish 1; CheckOk 0; Poll 0; Take 1; Publish 2; Publish 3; Store 1; Take 3; Store 3; CheckOk 0] = Some (s, rs) /\ nstep s (Poll 0) = Some (s', Some (0, Returned 3)) /\ (forall a b, Nat.eqb a b = true <-> a = b).
Proof. eexists _, _, _; split; [|split; [|apply Nat.eqb_eq]]; reflexivity. Qed.
Print Assumptions C133_get. Print Assumptions C133_new. Print Assumptions C133_wakes. Print Assumptions C133_throws. Print Assumptions C133_order. Print Assumptions C133_not_started. Print Assumptions C133_stale_refuted. Print Assumptions C133_forgets_refuted. Print Assumptions C133_two_refuted.
