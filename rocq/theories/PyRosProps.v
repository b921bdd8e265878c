(** C147: waiting, connecting, the controller and the node of the Python package. *)
From Coq Require Import Ascii String Reals Lra.
From Verif Require Import PyBase PyRosModel.
Open Scope nat_scope.

(** ** wait_for *)
Section Wait.
Variable func : nat -> py bool.
Variable down : nat -> bool.
Variable now : nat -> Z.
Variable start_t : Z.
Variable warn_after : option Z.
Notation wait_loop := (wait_loop func down now start_t warn_after).
Notation wait_for := (wait_for func down now start_t warn_after).
(** At poll [i] neither was func true nor ROS shut down. *)
Definition waits (i : nat) : Prop := func i = Ret false /\ down i = false.
Definition warned (ws : list nat) (i k : nat) : Prop :=
  NoDup ws /\ forall j, In j ws <-> i <= j < k /\ exists s, warn_after = Some s /\ (now j - start_t > s * 1000000000)%Z.

Lemma late_spec i : late now start_t warn_after i = true <-> exists s, warn_after = Some s /\ (now i - start_t > s * 1000000000)%Z.
Proof.
  unfold late. destruct warn_after as [s|]; [rewrite Z.ltb_lt|].
  - split; [intros; exists s; split; auto; lia|intros (s' & [= <-] & H); lia].
  - split; [discriminate|intros (s' & [=] & _)].
Qed.
Lemma wait_loop_go fuel : forall i k r, i <= k -> k < i + fuel -> (forall j, i <= j < k -> waits j) ->
  (match r with Ret n => n = S k /\ (func k = Ret true \/ func k = Ret false /\ down k = true) | Raise e => func k = Raise e | NoEnd => func k = NoEnd end) ->
  exists ws, wait_loop fuel i = (ws, r) /\ warned ws i k.
Proof.
  induction fuel as [|fuel IH]; intros i k r L F W E; [lia|]. cbn.
  destruct (Nat.eq_dec i k) as [->|N].
  - assert (X : warned [] k k) by (split; [constructor|intros j; cbn; lia]). exists [].
    destruct r as [n|e|]; [destruct E as (-> & [E|[E D]]); rewrite E; try rewrite D|rewrite E|rewrite E]; auto.
  - destruct (W i) as [A B]; [lia|]. rewrite A, B.
    destruct (IH (S i) k r) as (ws & EQ & ND & IN); [lia|lia|intros; apply W; lia|exact E|]. rewrite EQ.
    eexists. split; [reflexivity|]. split.
    + destruct (late now start_t warn_after i) eqn:LA; auto. cbn. constructor; auto. rewrite IN. lia.
    + intros j. rewrite in_app_iff, IN. destruct (late now start_t warn_after i) eqn:LA; cbn.
      * split; [intros [[->|[]]|[H1 H2]]; [split; [lia|apply late_spec; auto]|split; [lia|auto]]|].
        intros [H1 H2]. destruct (Nat.eq_dec j i); [left; left; auto|right; split; [lia|auto]].
      * split; [intros [[]|[H1 H2]]; split; [lia|auto]|]. intros [H1 H2]. right. split; auto.
        destruct (Nat.eq_dec j i) as [->|]; [|lia]. apply late_spec in H2. congruence.
Qed.
(** wait_for ends at the first poll where func is true or ROS is shut down, having called func once for each poll; it warns at each poll before that
    which is later than warn_after seconds.  An exception of func comes through. *)
Theorem C147_wait k fuel r : k < fuel -> (forall i, i < k -> waits i) ->
  (r = Ret (S k) /\ (func k = Ret true \/ func k = Ret false /\ down k = true)) \/ (exists e, r = Raise e /\ func k = Raise e) ->
  exists ws, wait_for fuel = (ws, r) /\ warned ws 0 k.
Proof.
  intros F W E. apply wait_loop_go; [lia|lia|intros j J; apply W; lia|].
  destruct E as [(-> & E)|(e & -> & E)]; auto.
Qed.
(** Otherwise it does not end. *)
Theorem C147_wait_forever : (forall i, waits i) -> forall fuel, exists ws, wait_for fuel = (ws, NoEnd).
Proof.
  intros W fuel. unfold PyRosModel.wait_for. generalize 0. induction fuel as [|fuel IH]; intros i; cbn; [eauto|].
  destruct (W i) as [-> ->]. destruct (IH (S i)) as (ws & ->). eauto.
Qed.
End Wait.
Example wait_case : wait_for (fun i => Ret (3 <=? i)) (fun _ => false) (fun i => Z.of_nat i * 6000000000)%Z 0 (Some 10%Z) 9 = ([2], Ret 4).
Proof. reflexivity. Qed.

(** ** Controller *)
(** The order of the buttons and axes in the messages of the drivers. *)
Definition xpad_buttons : list string :=
  ["A"; "B"; "X"; "Y"; "LB"; "RB"; "back"; "start"; "power"; "stick_button_left"; "stick_button_right"; "DL"; "DR"; "DU"; "DD"]%string.
Definition xboxdrv_buttons : list string := firstn 11 xpad_buttons.
Definition both_axes : list string := ["LH"; "LV"; "LT"; "RH"; "RV"; "RT"; "DH"; "DV"]%string.
Definition driver_buttons (xpad : bool) : list string := if xpad then xpad_buttons else xboxdrv_buttons.

Lemma unpack_spec {A} (wrap : A -> field) names : forall vals,
  unpack wrap names vals = if length names =? length vals then Ret (combine names (map wrap vals)) else Raise ValueError.
Proof.
  induction names as [|n names IH]; intros [|v vals]; cbn; auto. rewrite IH. destruct (length names =? length vals); reflexivity.
Qed.
Lemma joy_spec j xpad : joy_to_xbox j xpad =
  if (length (driver_buttons xpad) =? length (buttons j)) && (length both_axes =? length (axes j))
  then Ret (combine (driver_buttons xpad) (map Btn (buttons j)) ++ combine both_axes (map Axis (axes j))) else Raise ValueError.
Proof.
  unfold joy_to_xbox. rewrite !unpack_spec. change axis_names with both_axes.
  replace (if xpad then (common_buttons ++ ["DL"; "DR"; "DU"; "DD"]%string) else common_buttons) with (driver_buttons xpad) by (destruct xpad; reflexivity).
  destruct (length (driver_buttons xpad) =? length (buttons j)); cbn [pbind andb]; auto.
  destruct (length both_axes =? length (axes j)); reflexivity.
Qed.
(** get_button gives each button and axis by its name, for messages of the right lengths; other lengths are refused with ValueError, other names with
    AttributeError. *)
Theorem C147_button j (xpad : bool) :
  (length (buttons j) = (if xpad then 15 else 11) /\ length (axes j) = 8 ->
    (forall i n b, nth_error (driver_buttons xpad) i = Some n -> nth_error (buttons j) i = Some b -> get_button (Some j) xpad n = Ret (Btn b)) /\
    (forall i n x, nth_error both_axes i = Some n -> nth_error (axes j) i = Some x -> get_button (Some j) xpad n = Ret (Axis x)) /\
    (forall n, ~ In n (driver_buttons xpad) -> ~ In n both_axes -> get_button (Some j) xpad n = Raise AttributeError)) /\
  (~ (length (buttons j) = (if xpad then 15 else 11)%nat /\ length (axes j) = 8) -> joy_to_xbox j xpad = Raise ValueError).
Proof.
  assert (LB : length (driver_buttons xpad) = if xpad then 15 else 11) by (destruct xpad; reflexivity).
  rewrite (joy_spec j xpad). rewrite LB. change (length both_axes) with 8. split.
  - intros [A B]. destruct j as [bs xs]. cbn [buttons axes] in *.
    do 9 (destruct xs as [|? xs]; try discriminate B).
    assert (FI : forall n, get_button (Some (mkJoy bs [r; r0; r1; r2; r3; r4; r5; r6])) xpad n =
                match find (fun f => (fst f =? n)%string) (combine (driver_buttons xpad) (map Btn bs) ++ combine both_axes (map Axis [r; r0; r1; r2; r3; r4; r5; r6])) with
                | Some f => Ret (snd f) | None => Raise AttributeError end).
    { intros n. unfold get_button, get_buttons_state. rewrite joy_spec. cbn [buttons axes]. rewrite LB, A, Nat.eqb_refl. reflexivity. }
    split; [|split].
    + intros i n b N V. rewrite FI. destruct xpad.
      * do 16 (destruct bs as [|? bs]; try discriminate A).
        do 15 (destruct i as [|i]; [injection N as <-; injection V as <-; reflexivity|]). destruct i; discriminate.
      * do 12 (destruct bs as [|? bs]; try discriminate A).
        do 11 (destruct i as [|i]; [injection N as <-; injection V as <-; reflexivity|]). destruct i; discriminate.
    + intros i n x N V. rewrite FI. destruct xpad.
      * do 16 (destruct bs as [|? bs]; try discriminate A).
        do 8 (destruct i as [|i]; [injection N as <-; injection V as <-; reflexivity|]). destruct i; discriminate.
      * do 12 (destruct bs as [|? bs]; try discriminate A).
        do 8 (destruct i as [|i]; [injection N as <-; injection V as <-; reflexivity|]). destruct i; discriminate.
    + intros n N1 N2. rewrite FI.
      match goal with |- match find ?p ?l with _ => _ end = _ => destruct (find p l) as [[m v]|] eqn:F; auto end. exfalso.
      apply find_some in F as [I E]. cbn in E. apply String.eqb_eq in E as ->. apply in_app_or in I as [I|I]; apply in_combine_l in I; contradiction.
  - intros N. destruct (_ && _) eqn:E; auto. exfalso. apply N. apply andb_true_iff in E as [E1 E2].
    apply Nat.eqb_eq in E1, E2. auto.
Qed.

Open Scope R_scope.
(** What a stick gives: nothing near the middle, else its position. *)
Definition stick (position result : R) : Prop := (Rabs position < 1 / 20 -> result = 0) /\ (1 / 20 <= Rabs position -> result = position).
Lemma deadzone_stick x : stick x (deadzone x).
Proof. unfold stick, deadzone. destruct (Rlt_dec (Rabs x) (1 / 20)); split; intros; auto; lra. Qed.
Lemma stick_range x y : stick x y -> -1 <= x <= 1 -> -1 <= y <= 1.
Proof. intros [A B] R. destruct (Rlt_le_dec (Rabs x) (1 / 20)) as [L|L]; [rewrite A by auto; lra|rewrite B by auto; auto]. Qed.

(** get_3d_delta of one message: the left stick, with its first axis turned round, and the vertical axis of the right stick; in [-1, 1] as the axes are. *)
Theorem C147_delta j (xpad : bool) lh lv rv :
  get_button (Some j) xpad "LH" = Ret (Axis lh) -> get_button (Some j) xpad "LV" = Ret (Axis lv) -> get_button (Some j) xpad "RV" = Ret (Axis rv) ->
  exists x y z, get_3d_delta (Some j) (Some j) (Some j) = Ret (x, y, z) /\ stick (- lh) x /\ stick lv y /\ stick rv z /\
  (-1 <= lh <= 1 -> -1 <= lv <= 1 -> -1 <= rv <= 1 -> -1 <= x <= 1 /\ -1 <= y <= 1 /\ -1 <= z <= 1).
Proof.
  intros A B C.
  destruct (C147_button j xpad) as [H1 H2].
  destruct (Nat.eq_dec (length (buttons j)) (if xpad then 15 else 11)) as [LB|LB].
  2:{ exfalso. unfold get_button, get_buttons_state in A. rewrite H2 in A by tauto. discriminate. }
  destruct (Nat.eq_dec (length (axes j)) 8) as [LA|LA].
  2:{ exfalso. unfold get_button, get_buttons_state in A. rewrite H2 in A by tauto. discriminate. }
  destruct (H1 (conj LB LA)) as (_ & AX & _). clear H1 H2. destruct j as [bs xs]. cbn [buttons axes] in *.
  do 9 (destruct xs as [|? xs]; try discriminate LA).
  rewrite (AX 0%nat "LH"%string r) in A by reflexivity. rewrite (AX 1%nat "LV"%string r0) in B by reflexivity. rewrite (AX 4%nat "RV"%string r3) in C by reflexivity.
  injection A as ->. injection B as ->. injection C as ->.
  exists (deadzone (- lh)), (deadzone lv), (deadzone rv). split; [reflexivity|]. do 3 (split; [apply deadzone_stick|]).
  intros R1 R2 R3. split; [|split]; eapply stick_range; try apply deadzone_stick; lra.
Qed.
Example delta_case : exists j lh, get_button (Some j) true "LH" = Ret (Axis lh) /\ lh = 1 / 2.
Proof. exists (mkJoy (repeat 0%Z 15) [1 / 2; 0; 0; 0; 0; 0; 0; 0]), (1 / 2). split; reflexivity. Qed.

(** Contrary to its description, get_3d_delta does not use the directional pad for x and y nor the left stick for z, as joy_to_xbox names them. *)
Theorem C147_delta_doc_refuted : exists j,
  get_button (Some j) true "DH" = Ret (Axis 1) /\ get_button (Some j) true "DV" = Ret (Axis 1) /\ get_3d_delta (Some j) (Some j) (Some j) = Ret (0, 0, 0).
Proof.
  exists (mkJoy (repeat 0%Z 15) [0; 0; 0; 0; 0; 0; 1; 1]). split; [reflexivity|]. split; [reflexivity|].
  assert (Z : deadzone 0 = 0) by (unfold deadzone; destruct (Rlt_dec (Rabs 0) (1 / 20)); auto).
  unfold get_3d_delta. cbn. rewrite Ropp_0, Z. reflexivity.
Qed.
(** Its three values come from three messages: the stick moves from one place to another, and the result belongs to neither. *)
Theorem C147_delta_torn_refuted : exists j0 j1 j2 d0 d1 d,
  get_3d_delta (Some j0) (Some j0) (Some j0) = Ret d0 /\ get_3d_delta (Some j1) (Some j1) (Some j1) = Ret d1 /\ j2 = j1 /\
  get_3d_delta (Some j0) (Some j1) (Some j2) = Ret d /\ d <> d0 /\ d <> d1.
Proof.
  assert (Z : deadzone 0 = 0) by (unfold deadzone; destruct (Rlt_dec (Rabs 0) (1 / 20)); auto).
  assert (O : deadzone 1 = 1). { unfold deadzone. rewrite Rabs_R1. destruct (Rlt_dec 1 (1 / 20)); auto. lra. }
  exists (mkJoy (repeat 0%Z 15) [-1; 0; 0; 0; 0; 0; 0; 0]), (mkJoy (repeat 0%Z 15) [0; 1; 0; 0; 0; 0; 0; 0]), (mkJoy (repeat 0%Z 15) [0; 1; 0; 0; 0; 0; 0; 0]).
  exists (1, 0, 0), (0, 1, 0), (1, 1, 0). unfold get_3d_delta. cbn [get_axis_normalized pbind axes index nth_error].
  rewrite Ropp_0, Z, ?O. replace (- (-1)) with 1 by lra. rewrite O.
  repeat split; intros E; injection E; intros; lra.
Qed.
(** The other axes. *)
Theorem C147_axis m axis : ~ In axis [0; 1; 2; 4; 5]%nat -> get_axis_normalized m axis = Raise NotImplementedError.
Proof. intros N. do 6 (destruct axis as [|axis]; [cbn in *; tauto|]). destruct axis; reflexivity. Qed.
Theorem C147_axis_value bs xs axis x : In axis [1; 2; 4; 5]%nat -> nth_error xs axis = Some x ->
  exists y, get_axis_normalized (Some (mkJoy bs xs)) axis = Ret y /\ stick x y.
Proof.
  intros I E. exists (deadzone x). split; [|apply deadzone_stick].
  cbn in I. destruct I as [<-|[<-|[<-|[<-|[]]]]]; unfold get_axis_normalized, index; cbn [axes]; rewrite E; reflexivity.
Qed.
Close Scope R_scope.

(** wait_for_button ends at the first poll with the button pressed, or the stick or trigger moved, or ROS shut down, if all messages have it. *)
Definition pressed (f : field) : Prop := match f with Btn b => b <> 0%Z | Axis x => (x <> 0)%R end.
Theorem C147_wait_button msgs down now start_t xpad button k fuel : k < fuel ->
  (forall i, i < k -> exists f, get_button (msgs i) xpad button = Ret f /\ ~ pressed f /\ down i = false) ->
  (exists f, get_button (msgs k) xpad button = Ret f /\ (pressed f \/ down k = true)) ->
  exists ws, wait_for_button msgs down now start_t xpad button fuel = (ws, Ret (S k)).
Proof.
  intros F W (b & E & P). unfold wait_for_button.
  assert (Z : forall f, (is_zero f = true /\ ~ pressed f) \/ (is_zero f = false /\ pressed f)).
  { intros [z|x]; cbn; [destruct (Z.eqb_spec z 0)|destruct (Req_EM_T x 0)]; intuition. }
  edestruct (C147_wait (fun i => let? v := get_button (msgs i) xpad button in Ret (negb (is_zero v))) down now start_t (Some 10%Z) k fuel (Ret (S k)))
    as (ws & EQ & _); [exact F| | |eauto].
  - intros i I. destruct (W i I) as (f & A & NP & B). split; auto. rewrite A. cbn [pbind]. destruct (Z f) as [(-> & _)|(_ & Q)]; [reflexivity|contradiction].
  - left. split; auto. rewrite E. cbn [pbind]. destruct (Z b) as [(-> & Q)|(-> & Q)]; cbn [negb]; [right; destruct P; [contradiction|auto]|auto].
Qed.
(** If ROS shuts down before the first message, it does not exit cleanly. *)
Theorem C147_wait_button_refuted : forall now start_t fuel,
  wait_for_button (fun _ => None) (fun _ => true) now start_t true "A" (S fuel) = ([], Raise AttributeError).
Proof. reflexivity. Qed.
Theorem C147_x_clicked ev_type code state : x_clicked ev_type code state = true <-> ev_type = "Key"%string /\ code = "BTN_NORTH"%string /\ state = 0%Z.
Proof. unfold x_clicked. rewrite !andb_true_iff, !String.eqb_eq, Z.eqb_eq. tauto. Qed.

(** ** Connections *)
(** get_connected_publisher succeeds if and only if at one of five polls the publisher has as many connections as there were subscribers. *)
Theorem C147_connected num_subs conns :
  ((exists i, i < 5 /\ conns i = num_subs) -> get_connected num_subs conns = Ret tt) /\
  ((forall i, i < 5 -> conns i <> num_subs) -> get_connected num_subs conns = Raise PyRuntimeError).
Proof.
  unfold get_connected. split.
  - intros (i & L & E). assert (X : existsb (fun i => conns i =? num_subs) (seq 0 5) = true) by (apply existsb_exists; exists i; rewrite in_seq, Nat.eqb_eq; lia).
    rewrite X. reflexivity.
  - intros H. destruct (existsb _ _) eqn:E; auto. apply existsb_exists in E as (i & I & E). apply in_seq in I. apply Nat.eqb_eq in E. exfalso. apply (H i); auto. lia.
Qed.
(** It fails although every known subscriber is connected, if one more has connected since. *)
Theorem C147_connected_refuted : forall n, get_connected n (fun _ => S n) = Raise PyRuntimeError.
Proof. intros n. apply C147_connected. intros. lia. Qed.

(** The subscribers found are those that the master lists for the topic. *)
Theorem C147_subscribers state topic subs : NoDup (map fst state) ->
  (In (topic, subs) state -> get_subscribers state topic = subs) /\ (~ In topic (map fst state) -> get_subscribers state topic = []).
Proof.
  assert (NONE : forall state, ~ In topic (map fst state) -> get_subscribers state topic = []).
  { intros st. induction st as [|[t l] st IH]; cbn; intros N; auto. destruct (String.eqb_spec t topic); [tauto|]. apply IH. tauto. }
  intros ND. split; [|apply NONE]. induction state as [|[t l] state IH]; cbn; intros I; [tauto|]. inversion ND as [|? ? NI ND']; subst.
  destruct I as [[= -> ->]|I].
  - rewrite String.eqb_refl. specialize (NONE state NI). unfold get_subscribers in NONE. rewrite NONE. apply app_nil_r.
  - destruct (String.eqb_spec t topic) as [->|]; [|apply IH; auto]. exfalso. apply NI. apply (in_map fst) in I. exact I.
Qed.
(** The topic looked up is the topic that is published, if its name is not private and not remapped and the script is in the namespace of the node. *)
Theorem C147_topic ns caller node mappings name :
  (forall rest, name <> String "~" rest) -> ~ In (script_resolve ns caller name) (map fst mappings) ->
  script_resolve ns caller name = rospy_resolve ns node mappings name.
Proof.
  intros P M. destruct name as [|c rest]; [reflexivity|]. unfold rospy_resolve.
  assert (E : script_resolve ns caller (String c rest) = script_resolve ns node (String c rest)).
  { cbn. destruct (Ascii.eqb c "/"); auto. destruct (Ascii.eqb_spec c "~"); auto. subst. exfalso. eapply P; reflexivity. }
  rewrite <- E. destruct (find _ mappings) as [m|] eqn:F; auto. apply find_some in F as [I X]. apply String.eqb_eq in X. exfalso. apply M. rewrite <- X. apply in_map. auto.
Qed.
(** For private and for remapped topics the wrong topic is looked up: with a subscriber, and connected to it from the first poll on, getting a connected
    publisher fails. *)
Theorem C147_private_refuted : exists state ns caller node mappings name sub,
  get_subscribers state (rospy_resolve ns node mappings name) = [sub] /\ mappings = [] /\
  get_connected (length (get_subscribers state (script_resolve ns caller name))) (fun _ => 1) = Raise PyRuntimeError.
Proof. exists [("/node/cmd", ["/other"])]%string, "/"%string, "/rostopic_123"%string, "/node"%string, [], "~cmd"%string, "/other"%string. repeat split. Qed.
Theorem C147_remapped_refuted : exists state ns caller node mappings name sub,
  get_subscribers state (rospy_resolve ns node mappings name) = [sub] /\ name = "cmd"%string /\
  get_connected (length (get_subscribers state (script_resolve ns caller name))) (fun _ => 1) = Raise PyRuntimeError.
Proof. exists [("/cmd2", ["/other"])]%string, "/"%string, "/rostopic_123"%string, "/node"%string, [("/cmd", "/cmd2")]%string, "cmd"%string, "/other"%string. repeat split. Qed.

(** try_to_connect is silent if and only if at one of its six polls all publishers have a connection or, at the last, none has none; otherwise it warns
    about exactly the publishers without a connection at the last poll, or raises. *)
Theorem C147_try conns pubs raise_on_fail :
  ((exists i, i <= 5 /\ forall p, In p pubs -> conns i p <> 0) -> try_to_connect conns pubs raise_on_fail = Ret []) /\
  ((forall i, i <= 5 -> exists p, In p pubs /\ conns i p = 0) ->
    if raise_on_fail then try_to_connect conns pubs raise_on_fail = Raise PyRuntimeError
    else exists l, try_to_connect conns pubs raise_on_fail = Ret l /\ l <> [] /\ forall p, In p l <-> In p pubs /\ conns 5 p = 0).
Proof.
  unfold try_to_connect. split.
  - intros (i & L & H). destruct (Nat.eq_dec i 5) as [->|N].
    + destruct (existsb _ _); auto. replace (filter (fun p => conns 5 p =? 0) pubs) with (@nil nat); auto. symmetry.
      clear L. induction pubs as [|p pubs IH]; auto. cbn. destruct (Nat.eqb_spec (conns 5 p) 0) as [E|E]; [exfalso; apply (H p); cbn; auto|].
      apply IH. intros q I. apply H. cbn. auto.
    + assert (X : existsb (fun i => forallb (fun p => 0 <? conns i p) pubs) (seq 0 5) = true).
      { apply existsb_exists. exists i. rewrite in_seq, forallb_forall. split; [lia|]. intros p I. apply Nat.ltb_lt. specialize (H p I). lia. }
      rewrite X. reflexivity.
  - intros H. destruct (existsb _ _) eqn:X.
    { exfalso. apply existsb_exists in X as (i & I & A). apply in_seq in I. rewrite forallb_forall in A. destruct (H i) as (p & P & Z); [lia|].
      specialize (A p P). apply Nat.ltb_lt in A. lia. }
    set (un := filter (fun p => conns 5 p =? 0) pubs).
    assert (U : forall p, In p un <-> In p pubs /\ conns 5 p = 0) by (intros p; unfold un; rewrite filter_In, Nat.eqb_eq; tauto).
    assert (NE : un <> []) by (destruct (H 5) as (p & P & Z); [lia|]; intros E; assert (I : In p un) by (apply U; auto); rewrite E in I; destruct I).
    assert (LN : 0 <? length un = true) by (destruct un; [congruence|reflexivity]). rewrite LN.
    destruct raise_on_fail; eauto.
Qed.
Example try_case : try_to_connect (fun i p => if p =? 2 then 0 else i) [1; 2; 3] false = Ret [2]. Proof. reflexivity. Qed.

(** ** with_ros *)
(** Both nodes are started, the function runs, and both nodes are shut down, whether it returns or raises; its result or exception comes through. *)
Theorem C147_with_ros {A} name (r : py A) : r <> NoEnd ->
  with_ros name (Ret tt) (Ret tt) r = ([CppInit ("cpp_" ++ name); PyInit name; Body; PyShutdown; CppShutdown], r).
Proof. intros N. destruct r; [reflexivity|reflexivity|congruence]. Qed.
(** But if rospy cannot start its node, that of C++ is not shut down. *)
Theorem C147_with_ros_refuted : forall (A : Type) name (r : py A) e, exists l, with_ros name (Ret tt) (Raise e) r = (l, Raise e) /\ In (CppInit ("cpp_" ++ name)) l /\ ~ In CppShutdown l.
Proof. intros. eexists. split; [reflexivity|]. split; [left; auto|]. cbn. intuition discriminate. Qed.

Print Assumptions C147_wait. Print Assumptions C147_wait_forever. Print Assumptions C147_button. Print Assumptions C147_delta.
Print Assumptions C147_delta_doc_refuted. Print Assumptions C147_delta_torn_refuted. Print Assumptions C147_axis. Print Assumptions C147_axis_value.
Print Assumptions C147_wait_button. Print Assumptions C147_wait_button_refuted. Print Assumptions C147_x_clicked. Print Assumptions C147_connected.
Print Assumptions C147_connected_refuted. Print Assumptions C147_subscribers. Print Assumptions C147_topic. Print Assumptions C147_private_refuted.
Print Assumptions C147_remapped_refuted. Print Assumptions C147_try. Print Assumptions C147_with_ros. Print Assumptions C147_with_ros_refuted.
