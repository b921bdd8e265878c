(** C145: timeouts. *)
From Verif Require Import PyBase PyCatchModel.
Open Scope nat_scope.

(** A function that works for [d] seconds in all and then does [r], without alarms of its own. *)
Inductive plain : prog -> nat -> py val -> Prop :=
| plain_done r : plain (Done r) 0 r
| plain_work d k d' r : plain k d' r -> plain (Work d k) (d + d') r.

Lemma run_plain p d r : plain p d r -> forall w,
  (alarm w = None -> run p w = (mkW (time w + d) None (handler w), r)) /\
  (forall due, alarm w = Some due -> time w <= due -> time w + d < due -> run p w = (mkW (time w + d) (Some due) (handler w), r)) /\
  (forall due, alarm w = Some due -> time w <= due -> due < time w + d -> handler w = HTimeout -> run p w = (mkW due None HTimeout, Raise TimeoutError)).
Proof.
  induction 1 as [r|d k d' r P IH]; intros [t a h]; cbn [time alarm handler run].
  - repeat split.
    + intros ->. rewrite Nat.add_0_r. auto.
    + intros due -> _ _. rewrite Nat.add_0_r. auto.
    + intros due _ A B. lia.
  - repeat split.
    + intros ->. destruct (IH (mkW (t + d) None h)) as (I & _ & _). rewrite I by auto. cbn. rewrite Nat.add_assoc. auto.
    + intros due -> A B. destruct (Nat.ltb_spec due (t + d)); [lia|]. destruct (IH (mkW (t + d) (Some due) h)) as (_ & I & _). rewrite (I due) by (cbn; auto; lia). cbn. rewrite Nat.add_assoc. auto.
    + intros due -> A B ->. destruct (Nat.ltb_spec due (t + d)); [rewrite Nat.max_r by lia; auto|]. destruct (IH (mkW (t + d) (Some due) HTimeout)) as (_ & _ & I). apply (I due); cbn; auto; lia.
Qed.

(** A function that is done before the timeout, or has none, gives its result or exception after the time it takes; one that takes longer is stopped
    exactly at the timeout. *)
Theorem C145_catch p d r seconds w : plain p d r ->
  (seconds = 0 \/ d < seconds ->
     catch_timeout seconds p w = (mkW (time w + d) None HTimeout, match r with Ret v => Ret (VPair (Some v) false) | Raise TimeoutError => Ret (VPair None true) | _ => r end)) /\
  (0 < seconds < d -> catch_timeout seconds p w = (mkW (time w + seconds) None HTimeout, Ret (VPair None true))).
Proof.
  intros P. unfold catch_timeout. cbn [run]. unfold set_alarm. cbn [time alarm handler]. destruct (Nat.eqb_spec seconds 0) as [->|N].
  - split; [intros _|lia]. destruct (run_plain p d r P (mkW (time w) None HTimeout)) as (I & _ & _). rewrite I by auto. cbn. destruct r as [v|[]|]; reflexivity.
  - destruct (run_plain p d r P (mkW (time w) (Some (time w + seconds)) HTimeout)) as (_ & I & J). split.
    + intros [|D]; [lia|]. rewrite (I (time w + seconds)) by (cbn; auto; lia). cbn. destruct r as [v|[]|]; reflexivity.
    + intros D. rewrite (J (time w + seconds)) by (cbn; auto; lia). reflexivity.
Qed.
Print Assumptions C145_catch.
(** Whatever the function does, no alarm is pending afterwards. *)
Theorem C145_no_alarm p seconds w w' r : catch_timeout seconds p w = (w', r) -> alarm w' = None.
Proof.
  unfold catch_timeout. cbn [run]. destruct (run p _) as [w2 r2]. destruct r2 as [v|[]|]; cbn [run]; intros [= <- <-]; reflexivity.
Qed.
Print Assumptions C145_no_alarm.

(** A call within the function, however short, takes the timeout away: the rest can take any time. *)
Theorem C145_nested_refuted : forall seconds inner d t h,
  catch_timeout seconds (Catch inner (Done (Ret (VItem 1))) (fun _ => Work d (Done (Ret (VItem 2))))) (mkW t None h) = (mkW (t + d) None HTimeout, Ret (VPair (Some (VItem 2)) false)).
Proof. intros. unfold catch_timeout. cbn. destruct (seconds =? 0), (inner =? 0); reflexivity. Qed.
Print Assumptions C145_nested_refuted.
(** The same happens to an alarm that the caller has set, and the caller's handler is gone. *)
Theorem C145_caller_alarm_refuted : forall own seconds d t,
  run (Alarm own (Catch seconds (Done (Ret (VItem 1))) (fun _ => Work d (Done (Ret (VItem 2)))))) (mkW t None HCaller) = (mkW (t + d) None HTimeout, Ret (VItem 2)).
Proof. intros. cbn. destruct (own =? 0), (seconds =? 0); reflexivity. Qed.
Print Assumptions C145_caller_alarm_refuted.
(** A TimeoutError of the function itself, such as one of a socket, is reported as the timeout, even if there is none. *)
Theorem C145_own_timeout_refuted : forall w, exists w', catch_timeout 0 (Done (Raise TimeoutError)) w = (w', Ret (VPair None true)) /\ time w' = time w.
Proof. intros w. eexists. split; reflexivity. Qed.
Print Assumptions C145_own_timeout_refuted.

(** ** Generators *)
Definition fast (seconds : nat) (l : list (nat * Z)) : Prop := Forall (fun x => fst x < seconds) l.
Definition yields (l : list (nat * Z)) : list event := map (fun x => EYield (snd x)) l.

Lemma next_fast seconds d v r l w : d < seconds -> next (mkGen ((d, v) :: r) l) = (Work d (Done (Ret (VItem v))), mkGen r l) /\
  catch_timeout seconds (Work d (Done (Ret (VItem v)))) w = (mkW (time w + d) None HTimeout, Ret (VPair (Some (VItem v)) false)).
Proof.
  intros D. split; [reflexivity|]. assert (P : plain (Work d (Done (Ret (VItem v)))) (d + 0) (Ret (VItem v))) by repeat constructor. rewrite Nat.add_0_r in P.
  destruct (C145_catch _ _ _ seconds w P) as (A & _). rewrite A by auto. reflexivity.
Qed.
Lemma next_slow seconds d r w : 0 < seconds < d -> catch_timeout seconds (Work d (Done r)) w = (mkW (time w + seconds) None HTimeout, Ret (VPair None true)).
Proof.
  intros D. assert (P : plain (Work d (Done r)) (d + 0) r) by repeat constructor. rewrite Nat.add_0_r in P. destruct (C145_catch _ _ _ seconds w P) as (_ & B). apply B. auto.
Qed.
Lemma next_stop seconds d w : d < seconds -> catch_timeout seconds (Work d (Done (Raise StopIteration))) w = (mkW (time w + d) None HTimeout, Raise StopIteration).
Proof.
  intros D. assert (P : plain (Work d (Done (Raise StopIteration))) (d + 0) (Raise StopIteration)) by repeat constructor. rewrite Nat.add_0_r in P.
  destruct (C145_catch _ _ _ seconds w P) as (A & _). rewrite A by auto. reflexivity.
Qed.

Section Users.
Variable pause : Z -> nat.

(** A generator is slow after [pre]: the items of [pre] come in time, and then the next item, or the end, takes longer than the timeout. *)
Inductive slow_after (seconds : nat) (pre : list (nat * Z)) : gen -> Prop :=
| slow_item d v r l : seconds < d -> slow_after seconds pre (mkGen (pre ++ (d, v) :: r) l)
| slow_end l : seconds < l -> slow_after seconds pre (mkGen pre l).

(** If the calls of gen before the n-th each become slow after some items, and the n-th does not become slow, retry_on_timeout yields all these items
    one after the other, calls on_timeout once for each call of gen that was given up, and ends after all items of the n-th. *)
Theorem C145_retry seconds attempt n pre : 0 < seconds ->
  (forall k, k < n -> fast seconds (pre k) /\ slow_after seconds (pre k) (attempt k)) -> fast seconds (items (attempt n)) -> last (attempt n) < seconds -> forall w,
  exists enough w', forall fuel, enough <= fuel ->
    retry_on_timeout pause fuel seconds attempt w = (flat_map (fun k => yields (pre k) ++ [ETimeout]) (seq 0 n) ++ yields (items (attempt n)), w', Ret tt).
Proof.
  intros S SLOW FAST LAST. unfold retry_on_timeout.
  assert (G : forall m k, k + m = n -> forall w, exists enough w', forall fuel, enough <= fuel ->
    retry pause fuel seconds attempt k (attempt k) w = (flat_map (fun k => yields (pre k) ++ [ETimeout]) (seq k m) ++ yields (items (attempt n)), w', Ret tt)).
  { assert (FUEL : forall f1 k it w es w2, retry pause f1 seconds attempt k it w = (es, w2, Ret tt) -> forall f2, f1 <= f2 -> retry pause f2 seconds attempt k it w = (es, w2, Ret tt)).
    { induction f1 as [|f1 IH]; intros k it w es w2; [cbn; discriminate|]. intros H [|f2] L; [lia|]. cbn [retry] in H |- *. destruct (next it) as [p it']. destruct (catch_timeout seconds p w) as [w1 [[z|[[z|]|] [|]]|[]|]]; try discriminate H; auto;
      match type of H with (let '(_, _) := ?R in _) = _ => destruct R as [[es1 w3] e1] eqn:E end; injection H as <- <- ->; rewrite (IH _ _ _ _ _ E f2) by lia; reflexivity. }
    (* the world after the fast items does not depend on the fuel left *)
    assert (PRE : forall k pr r l, fast seconds pr -> forall w, exists w1, forall f es w2 e,
      retry pause f seconds attempt k (mkGen r l) w1 = (es, w2, e) -> retry pause (length pr + f) seconds attempt k (mkGen (pr ++ r) l) w = (yields pr ++ es, w2, e)).
    { intros k pr r l FK. induction FK as [|[d v] pr D F IHp]; intros w; [exists w; auto|]. cbn [fst] in D. destruct (next_fast seconds d v (pr ++ r) l w D) as (N & C).
      destruct (IHp (wait pause (mkW (time w + d) None HTimeout) v)) as (w' & IH'). exists w'. intros f es w2 e R. cbn [length plus app]. cbn [retry]. rewrite N, C. rewrite (IH' _ _ _ _ R). reflexivity. }
    induction m as [|m IH]; intros k K w.
    - assert (k = n) by lia. subst k. destruct (attempt n) as [l z] eqn:A. cbn [items last] in *.
      destruct (PRE n l [] z FAST w) as (w1 & R). rewrite app_nil_r in R. specialize (R 1).
      exists (length l + 1), (mkW (time w1 + z) None HTimeout). intros fuel F. eapply FUEL; [|exact F]. cbn [seq flat_map app].
      rewrite (R [] (mkW (time w1 + z) None HTimeout) (Ret tt)); [rewrite app_nil_r; reflexivity|]. cbn [retry next items PyCatchModel.last]. rewrite next_stop by auto. reflexivity.
    - destruct (SLOW k) as (FK & SK); [lia|]. assert (AK : exists r l, attempt k = mkGen (pre k ++ r) l /\ forall w, exists p it', next (mkGen r l) = (p, it') /\ catch_timeout seconds p w = (mkW (time w + seconds) None HTimeout, Ret (VPair None true))).
      { destruct SK as [d v r l D|l D].
        - exists ((d, v) :: r), l. split; auto. intros w0. do 2 eexists. split; [reflexivity|]. apply next_slow. lia.
        - exists [], l. rewrite app_nil_r. split; auto. intros w0. do 2 eexists. split; [reflexivity|]. apply next_slow. cbn. lia. }
      destruct AK as (r & l & E & T). rewrite E.
      destruct (PRE k (pre k) r l FK w) as (w1 & Q). destruct (T w1) as (p & it' & N & C).
      destruct (IH (Datatypes.S k) ltac:(lia) (mkW (time w1 + seconds) None HTimeout)) as (enough & w2 & R).
      exists (length (pre k) + Datatypes.S enough), w2. intros fuel F. eapply FUEL; [|exact F].
      rewrite (Q (Datatypes.S enough) (ETimeout :: flat_map (fun k0 => yields (pre k0) ++ [ETimeout]) (seq (Datatypes.S k) m) ++ yields (items (attempt n))) w2 (Ret tt)).
      + cbn [seq flat_map]. rewrite <- !app_assoc. reflexivity.
      + cbn [retry]. rewrite N, C. rewrite (R enough) by lia. reflexivity. }
  intros w. apply (G n 0). lia.
Qed.

(** skip_on_timeout yields the items before the first slow one and then ends, as if the generator had ended. *)
Theorem C145_skip seconds it pre : 0 < seconds -> fast seconds pre -> slow_after seconds pre it \/ (items it = pre /\ last it < seconds) -> forall w,
  exists enough w', forall fuel, enough <= fuel -> skip_on_timeout pause fuel seconds it w = (yields pre, w', Ret tt).
Proof.
  intros S F SL.
  assert (FUEL : forall f1 it w es w2, skip_on_timeout pause f1 seconds it w = (es, w2, Ret tt) -> forall f2, f1 <= f2 -> skip_on_timeout pause f2 seconds it w = (es, w2, Ret tt)).
  { induction f1 as [|f1 IH]; intros i w es w2; [cbn; discriminate|]. intros H [|f2] L; [lia|]. cbn [skip_on_timeout] in H |- *. destruct (next i) as [p i']. destruct (catch_timeout seconds p w) as [w1 [[z|[[z|]|] [|]]|[]|]]; try discriminate H; auto; try (apply (IH _ _ _ _ H); lia).
    destruct (skip_on_timeout pause f1 seconds i' (wait pause w1 z)) as [[es1 w3] e1] eqn:E. injection H as <- <- ->. rewrite (IH _ _ _ _ E f2) by lia. reflexivity. }
  assert (REST : exists r l, it = mkGen (pre ++ r) l /\ forall w, exists w', skip_on_timeout pause 2 seconds (mkGen r l) w = ([], w', Ret tt)).
  { assert (EX : forall w, exists w', skip_on_timeout pause 1 seconds exhausted w = ([], w', Ret tt)).
    { intros w. cbn [skip_on_timeout next items exhausted PyCatchModel.last]. rewrite next_stop by auto. eauto. }
    destruct SL as [[d v r l D|l D]|(<- & L)].
    - exists ((d, v) :: r), l. split; auto. intros w. change (skip_on_timeout pause 2 seconds (mkGen ((d, v) :: r) l) w) with
        (let (w', r0) := catch_timeout seconds (Work d (Done (Ret (VItem v)))) w in match r0 with
         | Ret (VPair (Some (VItem v0)) false) => let '(es, w2, e) := skip_on_timeout pause 1 seconds (mkGen r l) (wait pause w' v0) in (EYield v0 :: es, w2, e)
         | Ret (VPair _ _) => skip_on_timeout pause 1 seconds exhausted w' | Ret (VItem _) => ([], w', NoEnd)
         | Raise StopIteration => ([], w', Ret tt) | Raise e => ([], w', Raise e) | NoEnd => ([], w', NoEnd) end).
      rewrite next_slow by lia. apply EX.
    - exists [], l. rewrite app_nil_r. split; auto. intros w. change (skip_on_timeout pause 2 seconds (mkGen [] l) w) with
        (let (w', r0) := catch_timeout seconds (Work l (Done (Raise StopIteration))) w in match r0 with
         | Ret (VPair (Some (VItem v0)) false) => let '(es, w2, e) := skip_on_timeout pause 1 seconds exhausted (wait pause w' v0) in (EYield v0 :: es, w2, e)
         | Ret (VPair _ _) => skip_on_timeout pause 1 seconds exhausted w' | Ret (VItem _) => ([], w', NoEnd)
         | Raise StopIteration => ([], w', Ret tt) | Raise e => ([], w', Raise e) | NoEnd => ([], w', NoEnd) end).
      rewrite next_slow by lia. apply EX.
    - destruct it as [il ll]. cbn [items PyCatchModel.last] in *. exists [], ll. rewrite app_nil_r. split; auto. intros w. cbn [skip_on_timeout next items PyCatchModel.last]. rewrite next_stop by auto. eauto. }
  destruct REST as (r & l & -> & R). clear SL. induction F as [|[d v] pr D F IH]; intros w.
  - destruct (R w) as (w' & E). exists 2, w'. intros fuel L. eapply FUEL; [|exact L]. exact E.
  - cbn [fst] in D. destruct (next_fast seconds d v (pr ++ r) l w D) as (N & C). destruct (IH (wait pause (mkW (time w + d) None HTimeout) v)) as (enough & w' & H).
    exists (Datatypes.S enough), w'. intros fuel L. eapply FUEL; [|exact L]. cbn [skip_on_timeout app]. rewrite N, C. rewrite (H enough) by lia. reflexivity.
Qed.
End Users.
Print Assumptions C145_retry.
Print Assumptions C145_skip.

(** A slow item is not skipped: the fast ones after it are lost, too. *)
Theorem C145_skip_refuted : exists it, In (0, 3%Z) (items it) /\ forall w pause, exists enough w', forall fuel, enough <= fuel -> skip_on_timeout pause fuel 5 it w = ([EYield 1], w', Ret tt).
Proof.
  exists (mkGen [(0, 1%Z); (9, 2%Z); (0, 3%Z)] 0). split; [cbn; auto|]. intros w pause.
  apply (C145_skip pause 5 _ [(0, 1%Z)]); [lia|repeat constructor|]. left. apply (slow_item 5 [(0, 1%Z)] 9 2%Z [(0, 3%Z)] 0). lia.
Qed.
Print Assumptions C145_skip_refuted.
(** A generator that is slow every time: the items before are yielded again and again, without end. *)
Theorem C145_retry_refuted : exists it, forall w pause n, exists w', retry_on_timeout pause (n * 2) 5 (fun _ => it) w = (concat (repeat [EYield 1; ETimeout] n), w', NoEnd).
Proof.
  exists (mkGen [(0, 1%Z); (9, 2%Z)] 0). set (it := mkGen [(0, 1%Z); (9, 2%Z)] 0). intros w pause n. unfold retry_on_timeout.
  assert (G : forall n k w, exists w', retry pause (n * 2) 5 (fun _ => it) k it w = (concat (repeat [EYield 1; ETimeout] n), w', NoEnd)); [|apply G].
  clear w n. induction n as [|n IH]; intros k w; [exists w; reflexivity|].
  change (S n * 2) with (S (S (n * 2))). unfold it at 2. cbn [retry next items PyCatchModel.last].
  assert (F : catch_timeout 5 (Work 0 (Done (Ret (VItem 1)))) w = (mkW (time w + 0) None HTimeout, Ret (VPair (Some (VItem 1)) false))) by (apply (next_fast 5 0 1%Z [] 0 w); lia).
  rewrite F. rewrite next_slow by lia. match goal with |- context [retry _ _ _ _ _ _ ?W] => destruct (IH (S k) W) as (w' & E) end. exists w'. rewrite E. reflexivity.
Qed.
Print Assumptions C145_retry_refuted.

(** conditional_try gives what the function gives, and instead of an Exception the given value if it should catch; an interrupt is never caught. *)
Theorem C145_conditional_try {A} (should_catch : bool) (r : py A) d :
  (forall x, r = Ret x -> conditional_try should_catch r d = Ret x) /\
  (forall e, r = Raise e -> e <> KeyboardInterrupt -> conditional_try should_catch r d = if should_catch then Ret d else Raise e) /\
  (r = Raise KeyboardInterrupt -> conditional_try should_catch r d = Raise KeyboardInterrupt).
Proof. unfold conditional_try. repeat split; [intros x ->; destruct should_catch; auto|intros e -> N; destruct should_catch; auto; destruct e; congruence|intros ->; destruct should_catch; auto]. Qed.
Print Assumptions C145_conditional_try.

(** A case: the second item of the first call takes too long; the second call is fast. *)
Example retry_case : exists w', retry_on_timeout (fun _ => 3) 9 5 (fun k => if k =? 0 then mkGen [(1, 1%Z); (9, 2%Z)] 0 else mkGen [(1, 1%Z); (2, 2%Z)] 0) (mkW 0 None HCaller)
  = ([EYield 1; ETimeout; EYield 1; EYield 2], w', Ret tt) /\ time w' = 18.
Proof. eexists. split; reflexivity. Qed.
