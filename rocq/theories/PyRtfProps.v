(** C148: getting and sending transforms from Python, once and repeatedly. *)
From Coq Require Import Reals Lra List Bool ZArith.
From Verif Require Import PyBase MathModel GeoModel GeoAlg RotDistProps ConvProps PyTfModel PyTfProps PyRtfModel.
Import ListNotations.
Open Scope nat_scope.

(** ** Getting transforms *)
Section Get.
Context (qm : quat -> M3).
Variable can down : nat -> bool.
Variable look : nat -> looked_up.
Lemma get_loop_go fuel : forall i k, i <= k -> k < i + fuel -> (forall j, i <= j < k -> can j = false /\ down j = false) ->
  get_msg_loop can down look fuel i = get_msg_loop can down look (fuel - (k - i)) k.
Proof.
  induction fuel as [|fuel IH]; intros i k L F W; [lia|]. destruct (Nat.eq_dec i k) as [->|N]; [rewrite Nat.sub_diag, Nat.sub_0_r; reflexivity|].
  cbn [get_msg_loop]. destruct (W i) as [-> ->]; [lia|]. rewrite (IH (S i) k); [|lia|lia|intros; apply W; lia]. f_equal. lia.
Qed.
(** get_transform waits for the first poll at which the transform can be had or ROS is shut down: then it gives the matrix of the transform that the
    buffer has, None if the lookup raises one of three exceptions, and an interrupt if ROS is shut down. *)
Theorem C148_get k fuel : k < fuel -> (forall i, i < k -> can i = false /\ down i = false) ->
  (forall t, can k = true -> look k = Found t -> get_transform qm can down look fuel = Ret (Some (mkI (qm (x_rot t)) (x_trans t)))) /\
  (forall e, can k = true -> look k = Tf2 e -> In e [LookupException; ConnectivityException; ExtrapolationException] -> get_transform qm can down look fuel = Ret None) /\
  (can k = false -> down k = true -> get_transform qm can down look fuel = Raise KeyboardInterrupt).
Proof.
  intros F W. unfold get_transform, get_transform_msg. rewrite (get_loop_go fuel 0 k); [|lia|lia|intros; apply W; lia].
  destruct (fuel - (k - 0)) as [|f] eqn:E; [lia|]. cbn [get_msg_loop]. repeat split.
  - intros t -> ->. reflexivity.
  - intros e -> -> I. cbn in I. destruct I as [<-|[<-|[<-|[]]]]; reflexivity.
  - intros -> ->. reflexivity.
Qed.
Theorem C148_get_forever : (forall i, can i = false /\ down i = false) -> forall fuel, get_transform qm can down look fuel = NoEnd.
Proof.
  intros W fuel. unfold get_transform, get_transform_msg. replace (get_msg_loop can down look fuel 0) with MNoEnd; auto. generalize 0.
  induction fuel as [|fuel IH]; intros i; cbn; auto. destruct (W i) as [-> ->]. apply IH.
Qed.
End Get.
(** None is not returned for every exception of tf2. *)
Theorem C148_get_refuted : exists qm can down look, can 0 = true /\ look 0 = Tf2 InvalidArgumentException /\ get_transform qm can down look 1 = Raise OtherError.
Proof. exists (fun _ => mid), (fun _ => true), (fun _ => false), (fun _ => Tf2 InvalidArgumentException). repeat split. Qed.

(** ** Sending transforms *)
Section Send.
Context (qm : quat -> M3) (qf : M3 -> quat) (inv : iso -> iso).
(** The motion that a content stands for. *)
Definition motion (h : heap) (c : content) (p : V3) : V3 :=
  match c with CQuat t q => apply (mkX t q) p | CMatrix m => iapp m p | CPose t i => apply (mkX t (h i)) p end.
Definition good (h : heap) (c : content) : Prop := match c with CQuat _ q => qunit q | CMatrix m => rigid m | CPose _ i => qunit (h i) end.

(** What is sent has the given frames and time (now, if none is given) and the given motion; whoever reads it back with get_transform has the matrix of
    that motion. *)
Theorem C148_send statics h c par chi (s : bool) time now : contract qm qf inv -> good h c ->
  exists w, (if s then exists before, snd (send qf statics h c par chi s time now) = TfStatic (before ++ [w]) else snd (send qf statics h c par chi s time now) = Tf w) /\
    w_parent w = par /\ w_child w = chi /\ w_stamp w = match time with Some z => z | None => now end /\
    (forall p, apply (w_xform w) p = motion h c p) /\ (forall p, iapp (to_mat qm (w_xform w)) p = motion h c p).
Proof.
  intros C G. exists (on_wire h (make qf c match time with Some z => z | None => now end par chi)).
  assert (M : forall p, apply (w_xform (on_wire h (make qf c match time with Some z => z | None => now end par chi))) p = motion h c p).
  { intros p. destruct c as [t q|m|t i]; cbn; auto. apply (from_mat_spec qm qf inv m p C G). }
  assert (U : proper (w_xform (on_wire h (make qf c match time with Some z => z | None => now end par chi)))).
  { destruct c as [t q|m|t i]; cbn in *; auto. apply (from_mat_spec qm qf inv m vzero C G). }
  split.
  - unfold send. destruct s; cbn [snd]; [|reflexivity]. exists (map (on_wire h) statics). rewrite map_app. reflexivity.
  - destruct c; cbn; repeat split; auto; intros p; rewrite (to_mat_apply qm qf inv) by auto; apply M.
Qed.

(** What a program has sent statically with one wrapper. *)
Definition static_of (h : heap) (a : act) : list wire :=
  match a with ASend _ c par chi true time now => [on_wire h (make qf c match time with Some z => z | None => now end par chi)] | _ => [] end.
Definition plain (a : act) : Prop := match a with ASend k _ _ _ _ _ _ => k = 0 | AChange _ _ => False end.
Lemma run_static acts : forall p, Forall plain acts -> (latched p = map (on_wire (objects p)) (statics p 0)) ->
  objects (run qf acts p) = objects p /\
  latched (run qf acts p) = latched p ++ flat_map (static_of (objects p)) acts.
Proof.
  induction acts as [|a acts IH]; intros p F E; cbn; [rewrite app_nil_r; auto|]. inversion F as [|? ? P F']; subst.
  destruct a as [k c par chi s time now|i q]; [|destruct P]. cbn in P. subst k.
  unfold run in *. destruct s; cbn [do_act send] in *.
  - match goal with |- objects (fold_left _ _ ?p1) = _ /\ _ => specialize (IH p1 F') end. cbn [latched objects statics] in IH. rewrite Nat.eqb_refl in IH.
    specialize (IH eq_refl). destruct IH as [-> ->]. split; auto. rewrite map_app, <- E, <- app_assoc. reflexivity.
  - match goal with |- objects (fold_left _ _ ?p1) = _ /\ _ => specialize (IH p1 F') end. cbn [latched objects statics] in IH. rewrite Nat.eqb_refl in IH. specialize (IH E).
    destruct IH as [-> ->]. auto.
Qed.
(** A program that uses one wrapper and does not change the poses it has sent: who subscribes later gets all static transforms ever sent, in order. *)
Theorem C148_static h acts : Forall plain acts -> latched (run qf acts (begin h)) = flat_map (static_of h) acts.
Proof. intros F. apply (run_static acts (begin h) F eq_refl). Qed.

(** With a second wrapper in the process, such as the one inside of ReliableTF, the transforms of the first are gone for later subscribers. *)
Theorem C148_two_wrappers_refuted h : exists acts w, In w (flat_map (static_of h) acts) /\ latched (run qf acts (begin h)) <> [] /\ ~ In w (latched (run qf acts (begin h))).
Proof.
  exists [ASend 0 (CQuat vzero (mkQ 1 0 0 0)) 1 2 true None 0; ASend 1 (CQuat vzero (mkQ 1 0 0 0)) 1 3 true None 0]. eexists. split; [left; reflexivity|].
  cbn. split; [discriminate|]. intros [E|[]]. apply (f_equal w_child) in E. discriminate.
Qed.
(** A pose that is used again: the rotation of what was sent before changes, but not its translation. *)
Theorem C148_changed_refuted h : exists acts,
  exists w1 w2, sent (run qf (firstn 1 acts) (begin h)) = [TfStatic [w1]] /\ latched (run qf acts (begin h)) = [w2; mkWire 0 1 3 (mkX (mkV 1 0 0) (mkQ 0 1 0 0))] /\
  w_child w1 = w_child w2 /\ x_trans (w_xform w1) = x_trans (w_xform w2) /\ w_xform w2 <> w_xform w1 /\ h 0 = x_rot (w_xform w1).
Proof.
  set (q := if Req_EM_T (qx (h 0)) 1 then mkQ 0 0 1 0 else mkQ 0 1 0 0).
  destruct (Req_EM_T (qx (h 0)) 1) as [E|E].
  - exists [ASend 0 (CPose vzero 0) 1 2 true None 0; AChange 0 (mkQ 0 0 1 0); ASend 0 (CQuat (mkV 1 0 0) (mkQ 0 1 0 0)) 1 3 true None 0].
    do 2 eexists. split; [reflexivity|]. split; [reflexivity|]. repeat split. cbn. intros X. apply (f_equal (fun x => qx (x_rot x))) in X. cbn in X. lra.
  - exists [ASend 0 (CPose vzero 0) 1 2 true None 0; AChange 0 (mkQ 0 1 0 0); ASend 0 (CPose (mkV 1 0 0) 0) 1 3 true None 0].
    do 2 eexists. split; [reflexivity|]. split; [reflexivity|]. repeat split. cbn. intros X. apply (f_equal (fun x => qx (x_rot x))) in X. cbn in X. congruence.
Qed.
(** Sending one static transform again and again, as ReliableTF does ten times a second, makes the message longer each time. *)
Theorem C148_growth_refuted h c par chi n now : length (latched (run qf (repeat (ASend 0 c par chi true None now) n) (begin h))) = n.
Proof.
  rewrite C148_static by (apply Forall_forall; intros a I; apply repeat_spec in I; subst; reflexivity).
  induction n as [|n IH]; cbn; auto.
Qed.
End Send.

(** ** Sending repeatedly *)
Section Reliable.
Context (qm : quat -> M3) (qf : M3 -> quat) (inv : iso -> iso).
Notation do_call := (do_call qm qf).
Notation run_calls := (run_calls qm qf).
(** What should be sent for a pair of frames after a sequence of calls: the content of the last start, unless stopped since. *)
Fixpoint wanted (calls : list call) (k : key) : option content :=
  match calls with
  | [] => None
  | x :: earlier =>
      match x with
      | KStart k' c _ _ _ => if key_eqb k' k then Some c else wanted earlier k
      | KStop k' => if key_eqb k' k then None else wanted earlier k
      | KClose => None
      end
  end.
(** What the running threads send for the frames. *)
Definition sending (s : reliable) (k : key) : list content := map (fun e => snd (snd e)) (filter (fun e => key_eqb (fst (snd e)) k) (running s)).

Lemma key_spec a b : key_eqb a b = true <-> a = b.
Proof. destruct a, b. unfold key_eqb. cbn. rewrite andb_true_iff, !Nat.eqb_eq. split; [intros [-> ->]; auto|intros [= -> ->]; auto]. Qed.
Lemma key_refl a : key_eqb a a = true. Proof. apply key_spec. reflexivity. Qed.

Definition entry (e : nat * (key * content)) : key * nat := (fst (snd e), fst e).
Record inv_r (s : reliable) : Prop := {
  i_managed : managed s = map entry (running s);
  i_keys : NoDup (map (fun e => fst (snd e)) (running s));
  i_ids : NoDup (map fst (running s));
  i_next : forall e, In e (running s) -> fst e < next_id s }.

Lemma nodup_filter {A B} (f : A -> B) p l : NoDup (map f l) -> NoDup (map f (filter p l)).
Proof.
  induction l as [|x l IH]; cbn; auto. intros N. inversion_clear N as [|? ? N1 N2]. destruct (p x); cbn; auto. constructor; auto.
  intros I. apply N1. apply in_map_iff in I as (y & E & I). apply filter_In in I as [I _]. rewrite <- E. apply in_map. auto.
Qed.
Lemma nodup_inj {A B} (f : A -> B) l x y : NoDup (map f l) -> In x l -> In y l -> f x = f y -> x = y.
Proof.
  induction l as [|z l IH]; cbn; [tauto|]. intros N [->|I] [->|J] E; auto; inversion_clear N as [|? ? N1 N2].
  - exfalso. apply N1. rewrite E. apply in_map. auto.
  - exfalso. apply N1. rewrite <- E. apply in_map. auto.
  - auto.
Qed.
Lemma stop_running s k : inv_r s -> running (stop_send s k) = filter (fun e => negb (key_eqb (fst (snd e)) k)) (running s) /\ next_id (stop_send s k) = next_id s /\
  managed (stop_send s k) = filter (fun e => negb (key_eqb (fst e) k)) (managed s).
Proof.
  intros [M K I N]. unfold stop_send. destruct (find _ (managed s)) as [[k' t]|] eqn:F; cbn.
  - apply find_some in F as [F1 F2]. cbn in F2. apply key_spec in F2 as ->. split; [|auto].
    rewrite M in F1. apply in_map_iff in F1 as ([t0 [k0 c0]] & [= -> ->] & F1).
    apply filter_ext_in. intros e E. f_equal. destruct (key_eqb (fst (snd e)) k) eqn:X.
    + apply key_spec in X. assert (e = (t, (k, c0))) as -> by (eapply (nodup_inj (fun e => fst (snd e))); eauto). apply Nat.eqb_refl.
    + apply Nat.eqb_neq. intros Y. assert (e = (t, (k, c0))) as -> by (eapply (nodup_inj fst); eauto). cbn in X. rewrite key_refl in X. discriminate.
  - assert (Q : forall e, In e (managed s) -> key_eqb (fst e) k = false) by (intros e E; apply (find_none _ _ F e E)).
    split; [|split]; auto.
    + symmetry. rewrite <- (map_id (running s)) at 2. rewrite map_id. assert (Z : forall e, In e (running s) -> key_eqb (fst (snd e)) k = false).
      { intros e E. apply (Q (entry e)). rewrite M. apply in_map. auto. }
      clear -Z. induction (running s) as [|e l IH]; cbn; auto. rewrite (Z e) by (cbn; auto). cbn. f_equal. apply IH. intros. apply Z. cbn. auto.
    + symmetry. clear -Q. induction (managed s) as [|e l IH]; cbn; auto. rewrite (Q e) by (cbn; auto). cbn. f_equal. apply IH. intros. apply Q. cbn. auto.
Qed.
Lemma stop_inv s k : inv_r s -> inv_r (stop_send s k).
Proof.
  intros I. destruct (stop_running s k I) as (R & NX & M). destruct I as [I1 I2 I3 I4]. split.
  - rewrite M, R, I1. clear. induction (running s) as [|e l IH]; cbn; auto. destruct (key_eqb (fst (snd e)) k); cbn; rewrite IH; auto.
  - rewrite R. apply nodup_filter. auto.
  - rewrite R. apply nodup_filter. auto.
  - rewrite R, NX. intros e E. apply filter_In in E as [E _]. auto.
Qed.
Lemma filter_filter {A} (p q : A -> bool) l : filter p (filter q l) = filter (fun x => p x && q x) l.
Proof. induction l as [|x l IH]; cbn; auto. destruct (q x); cbn; [destruct (p x); cbn; rewrite IH; auto|rewrite andb_false_r; auto]. Qed.
Lemma stop_sending s k k' : inv_r s -> sending (stop_send s k) k' = if key_eqb k k' then [] else sending s k'.
Proof.
  intros I. unfold sending. destruct (stop_running s k I) as (-> & _ & _). rewrite filter_filter. destruct (key_eqb k k') eqn:E.
  - apply key_spec in E as ->. clear. induction (running s) as [|e l IH]; cbn; auto. destruct (key_eqb (fst (snd e)) k'); cbn; auto.
  - f_equal. apply filter_ext. intros e. destruct (key_eqb (fst (snd e)) k') eqn:X; auto. apply key_spec in X as ->.
    destruct (key_eqb k' k) eqn:Y; auto. apply key_spec in Y as ->. rewrite key_refl in E. discriminate.
Qed.
Lemma close_spec ks : forall s, inv_r s -> inv_r (fold_left stop_send ks s) /\ forall k, (In k ks \/ sending s k = []) -> sending (fold_left stop_send ks s) k = [].
Proof.
  induction ks as [|k0 ks IH]; intros s I; cbn; [split; auto; intros k [[]|H]; auto|].
  destruct (IH (stop_send s k0) (stop_inv s k0 I)) as [A B]. split; auto. intros k H. apply B. rewrite stop_sending by auto.
  destruct (key_eqb k0 k) eqn:E; auto. destruct H as [[->|H]|H]; auto. rewrite key_refl in E. discriminate.
Qed.
Lemma sending_managed s k : inv_r s -> ~ In k (map fst (managed s)) -> sending s k = [].
Proof.
  intros [M _ _ _] N. unfold sending. rewrite M in N. clear M. induction (running s) as [|e l IH]; cbn; auto. cbn in N.
  destruct (key_eqb (fst (snd e)) k) eqn:E; [apply key_spec in E; tauto|]. apply IH. tauto.
Qed.
Lemma close_all_spec s : inv_r s -> inv_r (close_all s) /\ forall k, sending (close_all s) k = [].
Proof.
  intros I. destruct (close_spec (map fst (managed s)) s I) as [A B]. split; auto. intros k. apply B.
  destruct (in_dec (fun a b : key => ltac:(decide equality; apply Nat.eq_dec)) k (map fst (managed s))); auto. right. apply sending_managed; auto.
Qed.
Lemma run_snoc l x : run_calls (l ++ [x]) = do_call (run_calls l) x.
Proof. unfold PyRtfModel.run_calls. rewrite fold_left_app. reflexivity. Qed.
Lemma run_spec l : inv_r (run_calls l) /\ forall k, sending (run_calls l) k = match wanted (rev l) k with Some c => [c] | None => [] end.
Proof.
  induction l as [|x l IH] using rev_ind.
  - split; [split; cbn; try constructor; tauto|reflexivity].
  - rewrite run_snoc, rev_app_distr. destruct IH as [I S]. set (s := run_calls l) in *. destruct x as [k c fuel h r|k|]; cbn [do_call rev app wanted].
    + unfold PyRtfModel.do_call, start_send. cbn [fst].
      pose proof (stop_inv s k I) as I'. pose proof (fun k' => stop_sending s k k' I) as S'. destruct (stop_running s k I) as (R & NX & M).
      set (s1 := stop_send s k) in *. split.
      * destruct I' as [I1 I2 I3 I4]. split; cbn.
        -- rewrite map_app, I1. reflexivity.
        -- rewrite map_app. cbn. apply NoDup_Add with (a := k) (l := map (fun e => fst (snd e)) (running s1)); [rewrite <- (app_nil_r (map _ _)) at 1; apply Add_app|].
           split; auto. rewrite R. intros X. apply in_map_iff in X as (e & <- & X). apply filter_In in X as [_ X]. rewrite key_refl in X. discriminate.
        -- rewrite map_app. cbn. apply NoDup_Add with (a := next_id s1) (l := map fst (running s1)); [rewrite <- (app_nil_r (map _ _)) at 1; apply Add_app|].
           split; auto. intros X. apply in_map_iff in X as (e & E & X). specialize (I4 e X). lia.
        -- intros e E. apply in_app_or in E as [E|[<-|[]]]; [specialize (I4 e E); lia|cbn; lia].
      * intros k'. specialize (S' k'). unfold sending in *. cbn [running]. rewrite filter_app, map_app, S'. cbn. destruct (key_eqb k k'); cbn; auto.
        rewrite app_nil_r. apply S.
    + split; [apply stop_inv; auto|]. intros k'. unfold PyRtfModel.do_call. rewrite stop_sending by auto. destruct (key_eqb k k'); auto.
    + apply close_all_spec. auto.
Qed.
(** Whatever the calls and whether they raised or not: for each pair of frames there is at most one sending thread, with the content of the last start,
    and none after stop or close. *)
Theorem C148_senders calls k : sending (run_calls calls) k = match wanted (rev calls) k with Some c => [c] | None => [] end.
Proof. apply run_spec. Qed.
(** After close no thread is left. *)
Theorem C148_close calls : running (run_calls (calls ++ [KClose])) = [].
Proof.
  rewrite run_snoc. destruct (run_spec calls) as [I _]. destruct (close_all_spec _ I) as [_ A]. unfold PyRtfModel.do_call.
  destruct (running (close_all (run_calls calls))) as [|e l] eqn:E; auto. specialize (A (fst (snd e))). unfold sending in A. rewrite E in A. cbn in A. rewrite key_refl in A. discriminate.
Qed.
(** Two parents for one child are two pairs of frames: both are sent, and the child jumps between them. *)
Theorem C148_two_parents_refuted : exists calls c1 c2, sending (run_calls calls) (1, 3) = [c1] /\ sending (run_calls calls) (2, 3) = [c2] /\ c1 <> c2.
Proof.
  exists [KStart (1, 3) (CQuat vzero (mkQ 1 0 0 0)) 0 (fun _ => mkQ 1 0 0 0) (fun _ => Ret None); KStart (2, 3) (CQuat (mkV 1 0 0) (mkQ 1 0 0 0)) 0 (fun _ => mkQ 1 0 0 0) (fun _ => Ret None)].
  do 2 eexists. split; [reflexivity|]. split; [reflexivity|]. intros E. injection E. intros. lra.
Qed.

(** ** When start_send returns *)
Open Scope R_scope.
Definition near (a b : R) : Prop := Rabs (a - b) <= 1 / 10 ^ 8 + 1 / 10 ^ 5 * Rabs b.
Lemma close_near a b : close a b = true <-> near a b.
Proof. unfold close, near, Rleb, Rdiv. rewrite !Rmult_1_l. destruct (Rle_dec _ _); split; intros; auto; try contradiction; discriminate. Qed.
Lemma near_refl a : near a a.
Proof. unfold near. replace (a - a) with 0 by ring. rewrite Rabs_R0. pose proof (Rabs_pos a). assert (0 < 1 / 10 ^ 5) by lra. assert (0 <= 1 / 10 ^ 5 * Rabs a) by (apply Rmult_le_pos; lra). lra. Qed.
Lemma allclose_spec a : forall b, allclose a b = true <-> Forall2 near a b.
Proof.
  induction a as [|x a IH]; intros [|y b]; cbn; split; intros H; try discriminate; try constructor; auto; try solve [inversion H].
  - apply andb_true_iff in H as [H _]. apply close_near. auto.
  - apply IH. apply andb_true_iff in H. tauto.
  - inversion_clear H as [|? ? ? ? H1 H2]. apply andb_true_iff. split; [apply close_near; auto|apply IH; auto].
Qed.
Lemma allclose_refl a : allclose a a = true.
Proof. apply allclose_spec. induction a; constructor; auto using near_refl. Qed.
(** start_send returns only after the buffer gave a matrix that is near to the one sent, entry by entry. *)
Theorem C148_returns s k m fuel h received s' : start_send qm qf s k (CMatrix m) fuel h received = (s', Ret tt) ->
  exists i r, received i = Ret (Some r) /\ let a := irot m in let b := irot r in let p := itrans m in let q := itrans r in
    near (m00 a) (m00 b) /\ near (m01 a) (m01 b) /\ near (m02 a) (m02 b) /\ near (m10 a) (m10 b) /\ near (m11 a) (m11 b) /\ near (m12 a) (m12 b) /\
    near (m20 a) (m20 b) /\ near (m21 a) (m21 b) /\ near (m22 a) (m22 b) /\ near (vx p) (vx q) /\ near (vy p) (vy q) /\ near (vz p) (vz q).
Proof.
  unfold start_send. intros E. injection E as _ E. revert E. generalize 0%nat. induction fuel as [|fuel IH]; intros i E; [discriminate|]. cbn [wait_close] in E.
  destruct (received i) as [[r|]|e|] eqn:R; cbn [pbind is_close] in E; try discriminate.
  destruct (allclose (entries m) (entries r)) eqn:A; cbn [pbind] in E; [|eapply IH; exact E].
  exists i, r. split; auto. apply allclose_spec in A. unfold entries in A. cbv zeta in A |- *. repeat match goal with H : Forall2 _ (_ :: _) (_ :: _) |- _ => inversion_clear H end. auto 15.
Qed.
(** Likewise for a translation and a quaternion: each component of the translation is near, and so is each of the quaternion read from the matrix, or of its
    negative, which is the same rotation. *)
Theorem C148_returns_quaternion s k t q fuel h received s' : start_send qm qf s k (CQuat t q) fuel h received = (s', Ret tt) ->
  exists i r, received i = Ret (Some r) /\ let p := itrans r in let o := qf (irot r) in
    near (vx t) (vx p) /\ near (vy t) (vy p) /\ near (vz t) (vz p) /\
    ((near (qx q) (qx o) /\ near (qy q) (qy o) /\ near (qz q) (qz o) /\ near (qw q) (qw o)) \/
     (near (qx q) (- qx o) /\ near (qy q) (- qy o) /\ near (qz q) (- qz o) /\ near (qw q) (- qw o))).
Proof.
  unfold start_send. intros E. injection E as _ E. revert E. generalize 0%nat. induction fuel as [|fuel IH]; intros i E; [discriminate|]. cbn [wait_close] in E.
  destruct (received i) as [[r|]|e|] eqn:R; cbn [pbind is_close] in E; try discriminate. cbv zeta in E.
  match type of E with (if ?b then _ else _) = _ => destruct b eqn:A end; [|eapply IH; exact E].
  exists i, r. split; auto. apply andb_true_iff in A. destruct A as [A1 A2]. apply allclose_spec in A1. unfold vec in A1. cbv zeta.
  apply orb_true_iff in A2. rewrite !allclose_spec in A2. unfold quat_list in A2. cbn [map] in A2.
  destruct A2 as [A2|A2]; repeat match goal with H : Forall2 _ (_ :: _) (_ :: _) |- _ => inversion_clear H end; auto 10.
Qed.
(** It returns as soon as the buffer gives back what is sent, for rotations given by unit quaternions or rotation matrices; the sign of the quaternion
    does not matter. *)
Theorem C148_start s k c fuel h received n t : contract qm qf inv -> good h c -> (n < fuel)%nat ->
  (forall i, (i < n)%nat -> exists m, received i = Ret (Some m) /\ is_close qm qf h c (Some m) = Ret false) ->
  received n = Ret (Some (to_mat qm t)) -> t = w_xform (on_wire h (make qf c 0 (fst k) (snd k))) ->
  exists s', start_send qm qf s k c fuel h received = (s', Ret tt).
Proof.
  intros C G F W RN ->. unfold start_send. eexists. f_equal.
  assert (CL : is_close qm qf h c (Some (to_mat qm (w_xform (on_wire h (make qf c 0 (fst k) (snd k)))))) = Ret true).
  { destruct C as (C1 & C2 & _). destruct c as [p q|m|p i]; cbn [is_close on_wire make w_xform rotation translation good to_mat irot itrans x_rot x_trans from_mat] in *.
    - rewrite allclose_refl. cbn [andb]. f_equal. rewrite C1 by auto. assert (RO : GeoAlg.rotation (qmat q)) by (apply qmat_rot; exact G).
      destruct (C2 _ RO) as [U E]. apply orb_true_iff. destruct (same_matrix _ _ U G E) as [->| ->]; [left; apply allclose_refl|right].
      cbn [quat_list map qx qy qz qw]. rewrite !Ropp_involutive. apply (allclose_refl (quat_list q)).
    - f_equal. unfold to_mat, from_mat. cbn [x_rot x_trans]. destruct (C2 _ G) as [U E]. rewrite C1, E by auto. destruct m. apply allclose_refl.
    - f_equal. apply allclose_refl. }
  enough (X : forall j, (j <= n)%nat -> (n < j + fuel)%nat -> wait_close qm qf fuel h c received j = Ret tt) by (apply X; lia).
  clear -CL W RN. induction fuel as [|fuel IH]; intros j L F; [lia|]. cbn [wait_close]. destruct (Nat.eq_dec j n) as [->|N].
  - rewrite RN. cbn [pbind]. rewrite CL. reflexivity.
  - destruct (W j) as (m & R & I); [lia|]. rewrite R. cbn [pbind]. rewrite I. cbn [pbind]. apply IH; lia.
Qed.
(** With a quaternion that is not of length 1, which tf accepts and normalizes, it never returns although the transform arrives. *)
Theorem C148_start_refuted : contract qm qf inv -> (forall q, 0 < qdot q q -> qm q = qmat (normalize_quaternion q)) ->
  exists q, 0 < qdot q q /\ forall s k t fuel h, exists s', start_send qm qf s k (CQuat t q) fuel h (fun _ => Ret (Some (to_mat qm (mkX t q)))) = (s', NoEnd).
Proof.
  intros (C1 & C2 & _) N. exists (mkQ 2 0 0 0). assert (P : 0 < qdot (mkQ 2 0 0 0) (mkQ 2 0 0 0)) by (unfold qdot; cbn; lra). split; auto. intros s k t fuel h.
  unfold start_send. eexists. f_equal.
  assert (NC : is_close qm qf h (CQuat t (mkQ 2 0 0 0)) (Some (to_mat qm (mkX t (mkQ 2 0 0 0)))) = Ret false).
  { cbn [is_close]. f_equal. apply andb_false_iff. right. cbn [irot to_mat x_rot]. rewrite (N _ P).
    assert (RO : GeoAlg.rotation (qmat (normalize_quaternion (mkQ 2 0 0 0)))) by (apply qmat_rot, normalize_unit; auto).
    destruct (C2 _ RO) as [U _]. set (r := qf (qmat (normalize_quaternion (mkQ 2 0 0 0)))) in *.
    assert (W : Rabs (qw r) <= 1).
    { apply Rabs_le. unfold qunit, qdot in U. pose proof (Rle_0_sqr (qx r)). pose proof (Rle_0_sqr (qy r)). pose proof (Rle_0_sqr (qz r)). unfold Rsqr in *. nra. }
    assert (FAR : forall w, Rabs w <= 1 -> ~ near 2 w).
    { intros w L X. unfold near in X. pose proof (Rabs_pos w). pose proof (Rle_abs w). pose proof (Rle_abs (2 - w)). assert (1 / 10 ^ 5 * Rabs w <= 1 / 10 ^ 5) by nra. lra. }
    apply orb_false_iff. split; apply not_true_is_false; intros X; apply allclose_spec in X; cbn in X;
      inversion_clear X as [|? ? ? ? _ X1]; inversion_clear X1 as [|? ? ? ? _ X2]; inversion_clear X2 as [|? ? ? ? _ X3]; inversion_clear X3 as [|? ? ? ? X4 _].
    - apply (FAR (qw r)); auto.
    - apply (FAR (- qw r)); auto. rewrite Rabs_Ropp. auto. }
  generalize 0%nat. induction fuel as [|fuel IH]; intros i; [reflexivity|]. cbn [wait_close pbind]. rewrite NC. apply IH.
Qed.
(** If get_transform gives None, start_send raises, and the thread goes on sending. *)
Theorem C148_start_none_refuted s k c fuel h received : received 0%nat = Ret None ->
  exists s', start_send qm qf s k c (S fuel) h received = (s', Raise TypeError) /\ exists t, In (t, (k, c)) (running s').
Proof. intros E. unfold start_send. eexists. split; [cbn [wait_close]; rewrite E; reflexivity|]. cbn. eexists. apply in_or_app. right. left. reflexivity. Qed.
End Reliable.

(** Non-vacuity: functions that meet the assumptions of C148_start_refuted. *)
Example normalizing_contract : let qm := fun q => qmat (normalize_quaternion q) in contract qm RotModel.qfrom iinv /\ (forall q, (0 < qdot q q)%R -> qm q = qmat (normalize_quaternion q)).
Proof.
  cbv zeta. destruct contract_met as (_ & B & C). split; [|auto]. split; [|split; auto].
  intros q U. rewrite normalize_id; auto.
Qed.

Print Assumptions C148_get. Print Assumptions C148_get_forever. Print Assumptions C148_get_refuted. Print Assumptions C148_send.
Print Assumptions C148_static. Print Assumptions C148_two_wrappers_refuted. Print Assumptions C148_changed_refuted. Print Assumptions C148_growth_refuted.
Print Assumptions C148_senders. Print Assumptions C148_close. Print Assumptions C148_two_parents_refuted. Print Assumptions C148_returns. Print Assumptions C148_returns_quaternion.
Print Assumptions C148_start. Print Assumptions C148_start_refuted. Print Assumptions C148_start_none_refuted.
