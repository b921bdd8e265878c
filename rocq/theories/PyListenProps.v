(** C146: the listener. *)
From Verif Require Import PyBase PyListenModel.
Open Scope nat_scope.

Section Props.
Context {M : Type}.
Variable callback : option (M -> M).
Variable reenter first : bool.
Notation step := (step callback reenter first).
Notation reach := (reach callback reenter first).
Notation state := (@state M).

(** A thread is between taking and releasing the lock. *)
Definition inside (x : thread_at M) : bool := match x with TIdle | TWant _ => false | _ => true end.
(** The message that a thread has stored and is busy with. *)
Definition busy (x : thread_at M) : option M := match x with TStored m | TIn m | TGet m => Some m | _ => None end.

Record inv (s : state) : Prop := {
  i_main : lock s = Some OMain <-> exists b, main s = MRead b;
  i_thread : forall t, lock s = Some (OThread t) <-> inside (thread s t) = true;
  i_busy : forall t m, busy (thread s t) = Some m -> hd_error (stored s) = Some m;
  i_data : data s = None <-> stored s = [];
  i_field : custom s = FUnset <-> main s = MInit;
  i_block : main s = MLock true \/ main s = MRead true -> data s = None -> shutdown s = true;
  i_calls : callback <> None -> failed s = [] -> (forall t m, thread s t <> TStored m) -> stored s = called s;
  i_pending : callback <> None -> failed s = [] -> forall t m, thread s t = TStored m -> stored s = m :: called s;
  i_in : forall t m, thread s t = TIn m \/ thread s t = TGet m -> callback <> None /\ custom s = FSet;
  i_get : forall t m, thread s t = TGet m -> reenter = true
}.

Lemma set_same f t (x : thread_at M) : set_thread f t x t = x. Proof. unfold set_thread. rewrite Nat.eqb_refl. auto. Qed.
Lemma set_other f t (x : thread_at M) u : u <> t -> set_thread f t x u = f u. Proof. intros N. unfold set_thread. destruct (Nat.eqb_spec u t); congruence. Qed.

Lemma inv_start : inv start.
Proof.
  split; cbn.
  - split; [discriminate|intros (b & [=])].
  - split; discriminate.
  - discriminate.
  - tauto.
  - tauto.
  - intros [|]; discriminate.
  - auto.
  - discriminate.
  - intros t m [|]; discriminate.
  - discriminate.
Qed.

Ltac cases u t := destruct (Nat.eq_dec u t) as [->|]; [rewrite ?set_same in *|rewrite ?set_other in * by assumption].
Lemma inv_step s s' : inv s -> step s s' -> inv s'.
Proof.
  intros [IM IT IB ID IF IBL IC IP II IG] H. destruct H; cbn [data lock custom main thread shutdown stored called failed] in *.
  - split; cbn; auto.
  - (* init *) split; cbn; auto.
    + rewrite IM. split; intros (b & [=]).
    + split; discriminate.
    + intros [|]; discriminate.
    + intros t m H. destruct (II t m H). auto.
  - (* wait *) split; cbn; auto.
    + rewrite IM. split; intros (b0 & [=]).
    + rewrite IF. split; discriminate.
    + intros [[= ->]|[=]] D. destruct H as [|[|]]; auto; congruence.
  - (* main lock *) split; cbn; auto.
    + split; eauto.
    + intros t. split; [discriminate|]. intros X. apply IT in X. discriminate.
    + rewrite IF. split; discriminate.
    + intros [[=]|[= ->]]. auto.
  - (* read *) assert (l = Some OMain) as -> by (apply IM; eauto). split; cbn; auto.
    + split; [discriminate|intros (b0 & [=])].
    + intros t. split; [discriminate|]. intros X. apply IT in X. discriminate.
    + rewrite IF. split; discriminate.
    + intros [|]; discriminate.
  - (* again *) split; cbn; auto.
    + rewrite IM. split; intros (b0 & [=]).
    + rewrite IF. split; discriminate.
    + intros [|]; discriminate.
  - (* deliver *) split; cbn; auto.
    + intros u. rewrite IT. cases u t; [rewrite H; reflexivity|tauto].
    + intros u y. cases u t; [discriminate|apply IB].
    + intros A B N. apply IC; auto. intros u y E. apply (N u y). rewrite set_other by congruence. exact E.
    + intros A B u y. cases u t; [discriminate|eauto].
    + intros u y. cases u t; [intros [|]; discriminate|apply II].
    + intros u y. cases u t; [discriminate|apply IG].
  - (* lock *) split; cbn; auto.
    + split; [discriminate|]. intros X. apply IM in X. discriminate.
    + intros u. cases u t; [split; auto|]. rewrite <- IT. split; [intros [= E]; congruence|discriminate].
    + intros u y. cases u t; [discriminate|apply IB].
    + intros A B N. apply IC; auto. intros u y E. apply (N u y). rewrite set_other by congruence. exact E.
    + intros A B u y. cases u t; [discriminate|eauto].
    + intros u y. cases u t; [intros [|]; discriminate|apply II].
    + intros u y. cases u t; [discriminate|apply IG].
  - (* store *) assert (LK : l = Some (OThread t)) by (apply IT; rewrite H; auto). split; cbn; auto.
    + intros u. rewrite IT. cases u t; [rewrite H; reflexivity|tauto].
    + intros u y. cases u t; [auto|]. intros B. assert (l = Some (OThread u)) by (apply IT; destruct (th u); auto; discriminate). congruence.
    + split; discriminate.
    + intros [|] [=].
    + intros A B N. exfalso. apply (N t x). apply set_same.
    + intros A B u y. cases u t.
      * intros [= <-]. f_equal. apply IC; auto. intros u y E. assert (l = Some (OThread u)) by (apply IT; rewrite E; auto). assert (u = t) by congruence. congruence.
      * intros E. assert (l = Some (OThread u)) by (apply IT; rewrite E; auto). congruence.
    + intros u y. cases u t; [intros [|]; discriminate|apply II].
    + intros u y. cases u t; [discriminate|apply IG].
  - (* fail *) assert (LK : l = Some (OThread t)) by (apply IT; rewrite H; auto). split; cbn; auto.
    + split; [discriminate|]. intros X. apply IM in X. congruence.
    + intros u. split; [discriminate|]. cases u t; [discriminate|]. intros X. apply IT in X. congruence.
    + intros u y. cases u t; [discriminate|apply IB].
    + discriminate.
    + discriminate.
    + intros u y. cases u t; [intros [|]; discriminate|apply II].
    + intros u y. cases u t; [discriminate|apply IG].
  - (* none *) assert (LK : l = Some (OThread t)) by (apply IT; rewrite H; auto). split; cbn; auto.
    + split; [discriminate|]. intros X. apply IM in X. congruence.
    + intros u. split; [discriminate|]. cases u t; [discriminate|]. intros X. apply IT in X. congruence.
    + intros u y. cases u t; [discriminate|apply IB].
    + intros A; contradiction.
    + intros u y. cases u t; [intros [|]; discriminate|apply II].
    + intros u y. cases u t; [discriminate|apply IG].
  - (* call *) assert (LK : l = Some (OThread t)) by (apply IT; rewrite H; auto). split; cbn; auto.
    + intros u. rewrite IT. cases u t; [rewrite H; reflexivity|tauto].
    + intros u y. cases u t; [|apply IB]. intros E. apply (IB t). rewrite H. exact E.
    + intros A B N. apply (IP A B t x H).
    + intros A B u y. cases u t; [discriminate|]. intros E. assert (l = Some (OThread u)) by (apply IT; rewrite E; auto). congruence.
    + intros u y. cases u t; [intros _; split; congruence|apply II].
    + intros u y. cases u t; [discriminate|apply IG].
  - (* return *) assert (LK : l = Some (OThread t)) by (apply IT; rewrite H; auto). split; cbn; auto.
    + split; [discriminate|]. intros X. apply IM in X. congruence.
    + intros u. split; [discriminate|]. cases u t; [discriminate|]. intros X. apply IT in X. congruence.
    + intros u y. cases u t; [discriminate|apply IB].
    + split; [discriminate|]. intros E. pose proof (IB t x) as X. rewrite H in X. specialize (X eq_refl). rewrite E in X. discriminate.
    + intros _ [=].
    + intros A B N. apply IC; auto. intros u y E. apply (N u y). rewrite set_other by congruence. exact E.
    + intros A B u y. cases u t; [discriminate|eauto].
    + intros u y. cases u t; [intros [|]; discriminate|apply II].
    + intros u y. cases u t; [discriminate|apply IG].
  - (* reenter *) assert (LK : l = Some (OThread t)) by (apply IT; rewrite H; auto). split; cbn; auto.
    + intros u. rewrite IT. cases u t; [rewrite H; reflexivity|tauto].
    + intros u y. cases u t; [|apply IB]. intros E. apply (IB t). rewrite H. exact E.
    + intros A B N. apply IC; auto. intros u y E. apply (N u y). rewrite set_other by congruence. exact E.
    + intros A B u y. cases u t; [discriminate|eauto].
    + intros u y. cases u t; [intros _; apply (II t x); auto|apply II].
  - (* get *) assert (LK : None = Some (OThread t)) by (apply IT; rewrite H; auto). discriminate.
Qed.

Lemma inv_reach s : reach start s -> inv s.
Proof. intros H. remember start as s0 eqn:E. induction H as [|s1 s2 s3 H IH K]; subst; [apply inv_start|eauto using inv_step]. Qed.
Lemma reach_trans s1 s2 s3 : reach s1 s2 -> reach s2 s3 -> reach s1 s3.
Proof. intros A B. revert A. induction B as [|a b c B IH K]; intros A; auto. eapply r_step; [apply IH; exact A|exact K]. Qed.
Lemma one s1 s2 : step s1 s2 -> reach s1 s2. Proof. intros H. eapply r_step; [apply r_refl|exact H]. Qed.
Lemma front s1 s2 s3 : step s1 s2 -> reach s2 s3 -> reach s1 s3. Proof. intros A B. eapply reach_trans; [apply one; exact A|exact B]. Qed.

(** The lock does its work: at most one thread at a time is between taking and releasing it, be it the thread of get or one that delivers a message. *)
Theorem C146_exclusive s t u : reach start s ->
  (inside (thread s t) = true -> inside (thread s u) = true -> t = u) /\
  (forall b, main s = MRead b -> inside (thread s t) = false).
Proof.
  intros R. destruct (inv_reach s R) as [IM IT _ _ _ _ _ _ _ _]. split.
  - intros A B. apply IT in A. apply IT in B. congruence.
  - intros b A. destruct (inside (thread s t)) eqn:E; auto. apply IT in E. assert (lock s = Some OMain) by (apply IM; eauto). congruence.
Qed.

(** get returns the message that was stored last, if the custom callback leaves messages as they are; and while ROS is running a get that waits returns a
    message. *)
Theorem C146_get s s' b v :
  (forall g m, callback = Some g -> g m = m) -> reach start s -> step s s' -> main s = MRead b -> main s' = MDone b v ->
  v = hd_error (stored s) /\ (b = true -> shutdown s = false -> exists m, v = Some m).
Proof.
  intros G R H A B.
  assert (D : data s = hd_error (stored s)).
  { clear H A B. remember start as s0 eqn:E. induction R as [|s1 s2 s3 R IH K]; subst; [reflexivity|]. specialize (IH eq_refl).
    pose proof (inv_reach _ R) as [_ _ IB _ _ _ _ _ _ _].
    destruct K; cbn in *; auto; rewrite G by auto; symmetry; apply (IB t); rewrite H; auto. }
  destruct (inv_reach s R) as [_ _ _ _ _ IBL _ _ _ _].
  assert (V : v = data s) by (destruct H; cbn in *; congruence).
  subst v. split; auto. intros -> SD. destruct (data s) eqn:E; eauto. rewrite IBL in SD; auto. discriminate.
Qed.

(** What get returns in general: if no thread is in the custom callback, the last stored message or what the callback made of it. *)
Theorem C146_get_changed s s' b v :
  reach start s -> step s s' -> main s = MRead b -> main s' = MDone b v ->
  match hd_error (stored s) with None => v = None | Some m => v = Some m \/ exists g, callback = Some g /\ v = Some (g m) end.
Proof.
  intros R H A B.
  assert (D : match hd_error (stored s) with None => data s = None | Some m => data s = Some m \/ exists g, callback = Some g /\ data s = Some (g m) end).
  { clear H A B. remember start as s0 eqn:E. induction R as [|s1 s2 s3 R IH K]; subst; [reflexivity|]. specialize (IH eq_refl).
    pose proof (inv_reach _ R) as [_ _ IB _ _ _ _ _ _ _].
    destruct K; cbn in *; auto; (assert (X : hd_error st = Some x) by (apply (IB t); rewrite H; auto)); rewrite X; right; eauto. }
  assert (V : v = data s) by (destruct H; cbn in *; congruence). subst v. exact D.
Qed.

(** As long as no message has been lost, the custom callback has been called with all stored messages, once each and in the order of storing, except for
    at most the last one. *)
Theorem C146_called s : callback <> None -> reach start s -> failed s = [] ->
  stored s = called s \/ exists m, stored s = m :: called s.
Proof.
  intros C R F. destruct (inv_reach s R) as [_ IT _ _ _ _ IC IP _ _].
  assert (D : (forall t m, thread s t <> TStored m) \/ exists t m, thread s t = TStored m).
  { destruct (lock s) as [[|t]|] eqn:L.
    - left. intros u m E. assert (X : inside (thread s u) = true) by (rewrite E; auto). apply IT in X. congruence.
    - destruct (thread s t) eqn:T; try (right; eauto; fail).
      all: left; intros u m' E; assert (X : inside (thread s u) = true) by (rewrite E; auto); apply IT in X; assert (u = t) by congruence; congruence.
    - left. intros u m E. assert (X : inside (thread s u) = true) by (rewrite E; auto). apply IT in X. congruence. }
  destruct D as [D|(t & m & D)]; [left; auto|right; eauto].
Qed.
(** Messages are lost only before the constructor has set the callback. *)
Theorem C146_lost s s' : reach start s -> step s s' -> failed s' <> failed s -> main s = MInit.
Proof.
  intros R H F. destruct (inv_reach s R) as [_ _ _ _ IF _ _ _ _ _]. destruct H; cbn in *; try congruence. apply IF. auto.
Qed.

(** If the custom callback does not call get, a get that has its data can always finish, whatever the other threads are doing. *)
Theorem C146_progress s b : reenter = false -> reach start s -> main s = MLock b -> exists s' v, reach s s' /\ main s' = MDone b v.
Proof.
  intros RE R A. pose proof (inv_reach s R) as I.
  assert (FREE : forall s1, main s1 = MLock b -> lock s1 = None -> exists s' v, reach s1 s' /\ main s' = MDone b v).
  { intros [d l c m th sd st ca fa] M1 L1. cbn in *. subst. do 2 eexists. split; [eapply r_step; [apply one, s_main_lock|apply s_read]|reflexivity]. }
  destruct (lock s) as [[|t]|] eqn:L; [| |auto].
  - destruct I as [IM _ _ _ _ _ _ _ _ _]. apply IM in L as (b' & E). congruence.
  - assert (IN : inside (thread s t) = true) by (apply I; auto).
    assert (CU : custom s = FSet) by (destruct (custom s) eqn:E; auto; apply I in E; congruence).
    (* stored: the callback is called or not, and the lock is free *)
    assert (ST : forall s1 m, main s1 = MLock b -> custom s1 = FSet -> thread s1 t = TStored m \/ (thread s1 t = TIn m /\ callback <> None) ->
                 exists s2, reach s1 s2 /\ main s2 = MLock b /\ lock s2 = None).
    { intros [d l c mm th sd st ca fa] m M1 C1 T1. cbn in *. subst. assert (CB : callback = None \/ exists g, callback = Some g) by (destruct callback; eauto).
      destruct CB as [CB|(g & CB)]; cycle 1.
      - destruct T1 as [T1|[T1 _]].
        + eexists. split; [eapply r_step; [apply one; eapply s_call; eauto|eapply s_return with (t := t); eauto; apply set_same]|auto].
        + eexists. split; [apply one; eapply s_return with (t := t); eauto|auto].
      - destruct T1 as [T1|[_ X]]; [|congruence]. eexists. split; [apply one; eapply s_none; eauto|auto]. }
    assert (GO : exists s2, reach s s2 /\ main s2 = MLock b /\ lock s2 = None).
    { destruct (thread s t) eqn:T; try discriminate.
      - assert (X : exists s1, step s s1 /\ main s1 = MLock b /\ custom s1 = FSet /\ thread s1 t = TStored m).
        { destruct s as [d l c mm th sd st ca fa]. cbn in *. subst. eexists. split; [eapply s_store; eauto|]. cbn. rewrite set_same. auto. }
        destruct X as (s1 & X & M1 & C1 & T1). destruct (ST s1 m M1 C1 (or_introl T1)) as (s2 & Y & Z). exists s2. split; auto.
        eapply reach_trans; [apply one; exact X|exact Y].
      - apply (ST s m); auto.
      - apply (ST s m); auto. right. split; auto. apply (i_in _ I t m). auto.
      - pose proof (i_get _ I t m T). congruence. }
    destruct GO as (s2 & X & M2 & L2). destruct (FREE s2 M2 L2) as (s' & v & Y & Z). exists s', v. split; auto. eapply reach_trans; eauto.
Qed.
End Props.

(** ** What a user may expect and does not get *)
Ltac go := repeat (first [reflexivity | assumption | discriminate | (left; reflexivity) | (right; left; discriminate) | (right; right; reflexivity)]).
(** A message that arrives before the constructor has set the callback is stored, but the thread that delivers it fails with AttributeError and the
    callback never gets it, although it is set right after. *)
Theorem C146_init_refuted : exists (s : @state nat),
  reach (Some (fun m => m)) false true start s /\ main s = MWait true /\ stored s = [7] /\ called s = [] /\ failed s = [7].
Proof.
  eexists. split.
  - unfold start.
    eapply front; [eapply s_deliver with (t := 0) (x := 7); go|].
    eapply front; [eapply s_lock with (t := 0) (x := 7); go|].
    eapply front; [eapply s_store with (t := 0) (x := 7); go|].
    eapply front; [eapply s_fail with (t := 0) (x := 7); go|].
    eapply front; [apply s_init|].
    apply r_refl.
  - cbn. auto.
Qed.

(** A get that waits returns None when ROS shuts down first. *)
Theorem C146_shutdown_refuted : exists (s : @state nat), reach None false true start s /\ main s = MDone true None.
Proof.
  eexists. split.
  - unfold start.
    eapply front; [apply s_shutdown|].
    eapply front; [apply s_init|].
    eapply front; [apply s_wait; go|].
    eapply front; [apply s_main_lock|].
    eapply front; [apply s_read|].
    apply r_refl.
  - reflexivity.
Qed.

(** A custom callback that changes its argument changes what get returns: here 8, which no publisher sent. *)
Theorem C146_changed_refuted : exists (s : @state nat), reach (Some S) false true start s /\ main s = MDone true (Some 8) /\ stored s = [7].
Proof.
  eexists. split.
  - unfold start.
    eapply front; [apply s_init|].
    eapply front; [eapply s_deliver with (t := 0) (x := 7); go|].
    eapply front; [eapply s_lock with (t := 0) (x := 7); go|].
    eapply front; [eapply s_store with (t := 0) (x := 7); go|].
    eapply front; [eapply s_call with (t := 0) (x := 7); go|].
    eapply front; [eapply s_return with (t := 0) (x := 7); go|].
    eapply front; [apply s_wait; go|].
    eapply front; [apply s_main_lock|].
    eapply front; [apply s_read|].
    apply r_refl.
  - cbn. auto.
Qed.

(** A custom callback that calls get stops everything: once it has, the lock is never free again and no get ever returns. *)
Theorem C146_deadlock_refuted : exists (s : @state nat),
  reach (Some (fun m => m)) true false start s /\
  forall s', reach (Some (fun m => m)) true false s s' -> lock s' = Some (OThread 0) /\ stored s' = [7] /\ forall b v, main s' <> MDone b v.
Proof.
  eexists. split.
  - unfold start.
    eapply front; [apply s_init|].
    eapply front; [eapply s_deliver with (t := 0) (x := 7); go|].
    eapply front; [eapply s_lock with (t := 0) (x := 7); go|].
    eapply front; [eapply s_store with (t := 0) (x := 7); go|].
    eapply front; [eapply s_call with (t := 0) (x := 7); go|].
    eapply front; [eapply s_reenter with (t := 0) (x := 7); go|].
    apply r_refl.
  - cbn. match goal with |- forall s', reach _ _ _ ?s0 s' -> _ => set (s := s0) end.
    assert (X : forall s', reach (Some (fun m => m)) true false s s' ->
              lock s' = Some (OThread 0) /\ stored s' = [7] /\ thread s' 0 = TGet 7 /\ (forall t, t <> 0 -> inside (thread s' t) = false) /\
              exists b, main s' = MWait b \/ main s' = MLock b).
    { intros s' H. remember s as s0 eqn:E. induction H as [|s1 s2 s3 H IH K]; subst.
      - cbn. repeat split; auto; [|exists false; auto]. intros t N. destruct t; [congruence|reflexivity].
      - specialize (IH eq_refl). destruct IH as (L & ST & T & O & b & MM).
        assert (Q : forall t, inside (thread s2 t) = true -> t = 0) by (intros t; destruct t; auto; rewrite O; auto; discriminate).
        destruct K; cbn in *; subst; try discriminate.
        all: try (assert (t = 0) as -> by (apply Q; rewrite H0; auto); congruence).
        all: try (destruct MM; discriminate).
        + repeat split; auto. eauto.
        + repeat split; auto. destruct MM as [[= ->]|[=]]. eauto.
        + assert (t <> 0) by congruence. repeat split; auto.
          * rewrite set_other; auto.
          * intros u N. destruct (Nat.eq_dec u t) as [->|]; [rewrite set_same; auto|rewrite set_other by auto; auto].
          * eauto. }
    intros s' H. destruct (X s' H) as (A & B & _ & _ & b & C). repeat split; auto. intros b' v E. destruct C; congruence.
Qed.

(** Non-vacuity: a get that reads while another message waits for the lock. *)
Example get_case : exists s s' : @state nat,
  reach (Some (fun m => m)) false true start s /\ step (Some (fun m => m)) false true s s' /\ main s = MRead true /\ main s' = MDone true (Some 7) /\
  thread s 1 = TWant 9 /\ stored s = [7].
Proof.
  do 2 eexists. split; [|split].
  - unfold start.
    eapply front; [apply s_init|].
    eapply front; [eapply s_deliver with (t := 0) (x := 7); go|].
    eapply front; [eapply s_deliver with (t := 1) (x := 9); go|].
    eapply front; [eapply s_lock with (t := 0) (x := 7); go|].
    eapply front; [eapply s_store with (t := 0) (x := 7); go|].
    eapply front; [eapply s_call with (t := 0) (x := 7); go|].
    eapply front; [eapply s_return with (t := 0) (x := 7); go|].
    eapply front; [apply s_wait; go|].
    eapply front; [apply s_main_lock|].
    apply r_refl.
  - apply s_read.
  - cbn. auto.
Qed.

Print Assumptions C146_exclusive. Print Assumptions C146_get. Print Assumptions C146_get_changed. Print Assumptions C146_called.
Print Assumptions C146_lost. Print Assumptions C146_progress. Print Assumptions C146_init_refuted. Print Assumptions C146_shutdown_refuted.
Print Assumptions C146_changed_refuted. Print Assumptions C146_deadlock_refuted.
