(** ROS messages (serialization_ros.hpp) and joints (simple_linked_robot_model.hpp:60-92): round trips, layout,
    hostile bytes. *)
From Verif Require Import Base SerModel SerSpec SerProofs SerTypes RosSerModel.
From Flocq Require IEEE754.Bits.
From Coq Require Import Strings.Byte.

(** ** Specification *)

(** A double is any 64-bit pattern; a frame name is any string of chars that can be allocated. *)
Definition f64 (x : N) : Prop := (x < 2 ^ 64)%N.
Definition u32 (x : N) : Prop := (x < 2 ^ 32)%N.
Definition name_ok (maxr : N) (s : list Z) : Prop :=
  Forall (fun c => (-128 <= c < 128)%Z) s /\ (N.of_nat (length s) < 2 ^ 64)%N /\ (N.of_nat (length s) <= maxr)%N.

Definition header_ok maxr (h : header) : Prop := u32 (h_seq h) /\ u32 (h_sec h) /\ u32 (h_nsec h) /\ name_ok maxr (h_frame h).
Definition point_ok (p : point) : Prop := f64 (p_x p) /\ f64 (p_y p) /\ f64 (p_z p).
Definition vector3_ok (v : vector3) : Prop := f64 (v_x v) /\ f64 (v_y v) /\ f64 (v_z v).
Definition quaternion_ok (q : quaternion) : Prop := f64 (q_x q) /\ f64 (q_y q) /\ f64 (q_z q) /\ f64 (q_w q).
Definition pose_ok (p : pose) : Prop := point_ok (ps_position p) /\ quaternion_ok (ps_orientation p).
Definition transform_ok (t : transform) : Prop := vector3_ok (t_translation t) /\ quaternion_ok (t_rotation t).
Definition pose_stamped_ok maxr (p : pose_stamped) : Prop := header_ok maxr (pt_header p) /\ pose_ok (pt_pose p).
Definition transform_stamped_ok maxr (t : transform_stamped) : Prop :=
  header_ok maxr (ts_header t) /\ transform_ok (ts_transform t) /\ name_ok maxr (ts_child t).
Definition joint_ok (j : raw_joint) : Prop := f64 (j_lower j) /\ f64 (j_upper j) /\ f64 (j_value j) /\ u32 (j_type j).

(** The bytes in memory of a double, a uint32_t, and what a name looks like on the wire: its length as a
    uint64_t, then the characters. *)
Definition b_f64 le (x : N) : list byte := mem_of le 8 x.
Definition b_u32 le (x : N) : list byte := mem_of le 4 x.
Definition b_name le (s : list Z) : list byte :=
  mem_of le 8 (N.of_nat (length s)) ++ concat (map (fun c => mem_of le 1 (Z.to_N (c mod 256))) s).
Definition b_header le (h : header) : list byte :=
  b_u32 le (h_seq h) ++ b_u32 le (h_sec h) ++ b_u32 le (h_nsec h) ++ b_name le (h_frame h).
Definition b_quaternion le (q : quaternion) : list byte :=
  b_f64 le (q_x q) ++ b_f64 le (q_y q) ++ b_f64 le (q_z q) ++ b_f64 le (q_w q).
Definition b_pose le (p : pose) : list byte :=
  b_f64 le (p_x (ps_position p)) ++ b_f64 le (p_y (ps_position p)) ++ b_f64 le (p_z (ps_position p)) ++
  b_quaternion le (ps_orientation p).
Definition b_transform le (t : transform) : list byte :=
  b_f64 le (v_x (t_translation t)) ++ b_f64 le (v_y (t_translation t)) ++ b_f64 le (v_z (t_translation t)) ++
  b_quaternion le (t_rotation t).

(** ** Reading one thing after another *)

Definition seq_de {A B} (d1 : deserializer A) (d2 : A -> deserializer B) : deserializer B := fun buf cur =>
  let! r1 := d1 buf cur in
  let! r2 := d2 (fst r1) buf (cur + snd r1) in
  Ok (fst r2, snd r1 + snd r2).
Definition map_de {A B} (f : A -> B) (d : deserializer A) : deserializer B := fun buf cur =>
  let! r := d buf cur in Ok (f (fst r), snd r).

Lemma in_bounds_ext {A} (d d' : deserializer A) : (forall buf cur, d buf cur = d' buf cur) -> in_bounds d' -> in_bounds d.
Proof. intros E H buf cur. rewrite E. apply H. Qed.
Lemma local_ext {A} (d d' : deserializer A) : (forall buf cur, d buf cur = d' buf cur) ->
  reads_only_reported d' -> reads_only_reported d.
Proof.
  intros E H pre mid post a n. rewrite E. intros H1 H2. destruct (H _ _ _ _ _ H1 H2) as [G1 G2].
  split; auto. intros. rewrite E. auto.
Qed.

Lemma seq_in_bounds {A B} (d1 : deserializer A) (d2 : A -> deserializer B) :
  in_bounds d1 -> (forall a, in_bounds (d2 a)) -> in_bounds (seq_de d1 d2).
Proof.
  intros H1 H2 buf cur. unfold seq_de. destruct (H1 buf cur) as (U & F & K).
  destruct (d1 buf cur) as [[a n]|e| | |]; cbn; try (split; [|split]; congruence).
  destruct (H2 a buf (cur + n)) as (U' & F' & K').
  destruct (d2 a buf (cur + n)) as [[b n']|e| | |]; cbn; try (split; [|split]; congruence).
  split; [discriminate|]. split; [discriminate|]. intros a0 n0 [= <- <-].
  specialize (K' _ _ eq_refl). lia.
Qed.

Lemma map_in_bounds' {A B} (f : A -> B) (d : deserializer A) : in_bounds d -> in_bounds (map_de f d).
Proof.
  intros H buf cur. unfold map_de. destruct (H buf cur) as (U & F & K).
  destruct (d buf cur) as [[a n]|e| | |]; cbn; try (split; [|split]; congruence).
  split; [discriminate|]. split; [discriminate|]. intros a0 n0 [= <- <-]. eauto.
Qed.

Lemma map_local' {A B} (f : A -> B) (d : deserializer A) : reads_only_reported d -> reads_only_reported (map_de f d).
Proof.
  intros H pre mid post b n. unfold map_de. intros E L. apply obind_ok in E. destruct E as ([a k] & E & G).
  cbn in G. injection G as <- <-. destruct (H _ _ _ _ _ E L) as [N1 N2]. split; auto.
  intros. rewrite N2. reflexivity.
Qed.

Lemma seq_local {A B} (d1 : deserializer A) (d2 : A -> deserializer B) :
  in_bounds d1 -> reads_only_reported d1 -> (forall a, in_bounds (d2 a)) -> (forall a, reads_only_reported (d2 a)) ->
  reads_only_reported (seq_de d1 d2).
Proof.
  intros I1 L1 I2 L2 pre mid post b n. unfold seq_de. intros E L.
  apply obind_ok in E. destruct E as ([a n1] & E1 & E). cbn in E.
  apply obind_ok in E. destruct E as ([b' n2] & E2 & E). cbn in E. injection E as <- <-.
  destruct (split_at mid n1) as (m1 & m2 & -> & Lm); [lia|].
  rewrite app_length in L. assert (Ln2 : n2 = length m2) by lia.
  rewrite <- app_assoc in E1. destruct (L1 pre m1 (m2 ++ post) a n1 E1 (eq_sym Lm)) as [N1 R1].
  replace (pre ++ (m1 ++ m2) ++ post) with ((pre ++ m1) ++ m2 ++ post) in E2 by (rewrite !app_assoc; reflexivity).
  rewrite <- Lm, <- app_length in E2. destruct (L2 a (pre ++ m1) m2 post b' n2 E2 Ln2) as [N2 R2].
  split; [lia|]. intros pre' post'. rewrite <- app_assoc, R1. cbn.
  specialize (R2 (pre' ++ m1) post'). rewrite app_length, Lm in R2. rewrite <- app_assoc in R2.
  rewrite R2. reflexivity.
Qed.

Lemma pod_bounds dbg le maxr t : dbg = true -> in_bounds (de false dbg le maxr t).
Proof. intros ->. apply ty_in_bounds. Qed.

(** ** Round trips and layout: one tactic for all messages *)

Definition reads {A} (d : deserializer A) (a : A) (bytes : list byte) : Prop :=
  forall pre post, d (pre ++ bytes ++ post) (length pre) = Ok (a, length bytes).

Lemma f64_rt dbg le maxr x : f64 x -> writes (ser_f64 dbg le) x (b_f64 le x) /\ reads (de_f64 dbg le maxr) x (b_f64 le x).
Proof.
  intros H. split.
  - intros buf. unfold ser_f64. cbn [ser ser_p]. rewrite ser_pod_writes. reflexivity.
  - intros pre post. destruct (ty_round_trips false dbg le maxr (TUint 8)) with (a := x) as (b & _ & S1 & D1).
    + discriminate.
    + exact H.
    + specialize (S1 []). cbn [ser ser_p] in S1. rewrite ser_pod_writes in S1. injection S1 as E _.
      cbn [app] in E. subst b. apply D1.
Qed.

Lemma u32_rt dbg le maxr x : u32 x -> writes (ser_u32 dbg le) x (b_u32 le x) /\ reads (de_u32 dbg le maxr) x (b_u32 le x).
Proof.
  intros H. split.
  - intros buf. unfold ser_u32. cbn [ser ser_p]. rewrite ser_pod_writes. reflexivity.
  - intros pre post. destruct (ty_round_trips false dbg le maxr (TUint 4)) with (a := x) as (b & _ & S1 & D1).
    + discriminate.
    + exact H.
    + specialize (S1 []). cbn [ser ser_p] in S1. rewrite ser_pod_writes in S1. injection S1 as E _.
      cbn [app] in E. subst b. apply D1.
Qed.

Lemma str_writes dbg le s : (N.of_nat (length s) < 2 ^ 64)%N -> writes (ser_str dbg le) s (b_name le s).
Proof.
  intros H. unfold ser_str. cbn [ser ser_p]. unfold b_name. apply vector_wire; auto.
  - intros buf. rewrite ser_pod_writes. reflexivity.
  - apply Forall_forall. intros c _ buf. rewrite ser_pod_writes. reflexivity.
Qed.

Lemma str_rt dbg le maxr s : name_ok maxr s -> writes (ser_str dbg le) s (b_name le s) /\ reads (de_str dbg le maxr) s (b_name le s).
Proof.
  intros (F & L1 & L2). assert (W := str_writes dbg le s L1). split; auto.
  intros pre post. destruct (ty_round_trips false dbg le maxr (TString 1)) with (a := s) as (b & _ & S1 & D1).
  - discriminate.
  - split; [|split; assumption]. eapply Forall_impl; [|exact F]. intros c Hc. exact Hc.
  - specialize (S1 []). change (ser false dbg le (TString 1)) with (ser_str dbg le) in S1. rewrite W in S1. injection S1 as E _.
    cbn [app] in E. subst b. apply D1.
Qed.

Lemma writes_eq {A} (s : serializer A) a b buf : writes s a b -> s a buf = Ok (buf ++ b, length b).
Proof. intros H. apply H. Qed.
Lemma reads_at {A} (d : deserializer A) a pre mid post cur bytes : reads d a mid ->
  bytes = pre ++ mid ++ post -> cur = length pre -> d bytes cur = Ok (a, length mid).
Proof. intros H -> ->. apply H. Qed.

Ltac wr := let buf := fresh "buf" in intros buf;
  repeat match goal with W : writes ?s ?a ?b |- context [?s ?a ?x] => rewrite (writes_eq s a b x W); cbn [obind fst snd] end;
  rewrite ?app_length, <- ?app_assoc; do 2 f_equal; try (rewrite ?app_length; lia).

Lemma step_read {A} (d : deserializer A) a mid pre post bytes cur :
  reads d a mid -> bytes = pre ++ mid ++ post -> cur = length pre -> d bytes cur = Ok (a, length mid).
Proof. intros H -> ->. apply H. Qed.

Ltac rd1 R pre post :=
  match type of R with reads ?d ?a ?m =>
    match goal with |- context [d ?b ?c] =>
      rewrite (step_read d a m pre post b c R)
        by (first [ rewrite <- ?app_assoc; reflexivity | rewrite ?app_length; lia ]); cbn [obind fst snd]
    end
  end.

Lemma header_rt dbg le maxr h : header_ok maxr h ->
  writes (ser_header dbg le) h (b_header le h) /\ reads (de_header dbg le maxr) h (b_header le h).
Proof.
  intros (H1 & H2 & H3 & H4).
  destruct (u32_rt dbg le maxr _ H1) as [W1 R1]. destruct (u32_rt dbg le maxr _ H2) as [W2 R2].
  destruct (u32_rt dbg le maxr _ H3) as [W3 R3]. destruct (str_rt dbg le maxr _ H4) as [W4 R4].
  unfold b_header. set (b1 := b_u32 le (h_seq h)) in *. set (b2 := b_u32 le (h_sec h)) in *.
  set (b3 := b_u32 le (h_nsec h)) in *. set (b4 := b_name le (h_frame h)) in *.
  split.
  - unfold ser_header. wr.
  - intros pre post. unfold de_header.
    rd1 R1 pre (b2 ++ b3 ++ b4 ++ post). rd1 R2 (pre ++ b1) (b3 ++ b4 ++ post).
    rd1 R3 (pre ++ b1 ++ b2) (b4 ++ post). rd1 R4 (pre ++ b1 ++ b2 ++ b3) post.
    destruct h; cbn. do 2 f_equal. rewrite !app_length. lia.
Qed.

Lemma three_rt dbg le maxr x y z : f64 x -> f64 y -> f64 z -> exists b1 b2 b3,
  b1 = b_f64 le x /\ b2 = b_f64 le y /\ b3 = b_f64 le z /\
  (writes (ser_f64 dbg le) x b1 /\ reads (de_f64 dbg le maxr) x b1) /\
  (writes (ser_f64 dbg le) y b2 /\ reads (de_f64 dbg le maxr) y b2) /\
  (writes (ser_f64 dbg le) z b3 /\ reads (de_f64 dbg le maxr) z b3).
Proof. intros. do 3 eexists. repeat split; eauto; apply f64_rt; auto. Qed.

Lemma point_rt dbg le maxr p : point_ok p ->
  let b := b_f64 le (p_x p) ++ b_f64 le (p_y p) ++ b_f64 le (p_z p) in
  writes (ser_point dbg le) p b /\ reads (de_point dbg le maxr) p b.
Proof.
  intros (H1 & H2 & H3). destruct (three_rt dbg le maxr _ _ _ H1 H2 H3) as (b1 & b2 & b3 & E1 & E2 & E3 & [W1 R1] & [W2 R2] & [W3 R3]).
  cbv zeta. rewrite <- E1, <- E2, <- E3. split.
  - unfold ser_point. wr.
  - intros pre post. unfold de_point.
    rd1 R1 pre (b2 ++ b3 ++ post). rd1 R2 (pre ++ b1) (b3 ++ post). rd1 R3 (pre ++ b1 ++ b2) post.
    destruct p; cbn. do 2 f_equal. rewrite !app_length. lia.
Qed.

Lemma vector3_rt dbg le maxr v : vector3_ok v ->
  let b := b_f64 le (v_x v) ++ b_f64 le (v_y v) ++ b_f64 le (v_z v) in
  writes (ser_vector3 dbg le) v b /\ reads (de_vector3 dbg le maxr) v b.
Proof.
  intros (H1 & H2 & H3). destruct (three_rt dbg le maxr _ _ _ H1 H2 H3) as (b1 & b2 & b3 & E1 & E2 & E3 & [W1 R1] & [W2 R2] & [W3 R3]).
  cbv zeta. rewrite <- E1, <- E2, <- E3. split.
  - unfold ser_vector3. wr.
  - intros pre post. unfold de_vector3.
    rd1 R1 pre (b2 ++ b3 ++ post). rd1 R2 (pre ++ b1) (b3 ++ post). rd1 R3 (pre ++ b1 ++ b2) post.
    destruct v; cbn. do 2 f_equal. rewrite !app_length. lia.
Qed.

Lemma quaternion_rt dbg le maxr q : quaternion_ok q ->
  writes (ser_quaternion dbg le) q (b_quaternion le q) /\ reads (de_quaternion dbg le maxr) q (b_quaternion le q).
Proof.
  intros (H1 & H2 & H3 & H4). destruct (three_rt dbg le maxr _ _ _ H1 H2 H3) as (b1 & b2 & b3 & E1 & E2 & E3 & [W1 R1] & [W2 R2] & [W3 R3]).
  destruct (f64_rt dbg le maxr _ H4) as [W4 R4].
  unfold b_quaternion. rewrite <- E1, <- E2, <- E3. set (b4 := b_f64 le (q_w q)) in *. split.
  - unfold ser_quaternion. wr.
  - intros pre post. unfold de_quaternion.
    rd1 R1 pre (b2 ++ b3 ++ b4 ++ post). rd1 R2 (pre ++ b1) (b3 ++ b4 ++ post).
    rd1 R3 (pre ++ b1 ++ b2) (b4 ++ post). rd1 R4 (pre ++ b1 ++ b2 ++ b3) post.
    destruct q; cbn. do 2 f_equal. rewrite !app_length. lia.
Qed.

Lemma pose_rt dbg le maxr p : pose_ok p ->
  writes (ser_pose dbg le) p (b_pose le p) /\ reads (de_pose dbg le maxr) p (b_pose le p).
Proof.
  intros (H1 & H2). destruct (point_rt dbg le maxr _ H1) as [W1 R1]. destruct (quaternion_rt dbg le maxr _ H2) as [W2 R2].
  unfold b_pose.
  replace (b_f64 le (p_x (ps_position p)) ++ b_f64 le (p_y (ps_position p)) ++ b_f64 le (p_z (ps_position p)) ++
    b_quaternion le (ps_orientation p)) with ((b_f64 le (p_x (ps_position p)) ++ b_f64 le (p_y (ps_position p)) ++ b_f64 le (p_z (ps_position p))) ++
    b_quaternion le (ps_orientation p)) by (rewrite <- !app_assoc; reflexivity).
  set (b1 := b_f64 le (p_x (ps_position p)) ++ b_f64 le (p_y (ps_position p)) ++ b_f64 le (p_z (ps_position p))) in *.
  set (b2 := b_quaternion le (ps_orientation p)) in *. clearbody b1 b2. split.
  - unfold ser_pose. wr.
  - intros pre post. unfold de_pose. rd1 R1 pre (b2 ++ post). rd1 R2 (pre ++ b1) post.
    destruct p; cbn. do 2 f_equal. rewrite !app_length. lia.
Qed.

Lemma transform_rt dbg le maxr t : transform_ok t ->
  writes (ser_transform dbg le) t (b_transform le t) /\ reads (de_transform dbg le maxr) t (b_transform le t).
Proof.
  intros (H1 & H2). destruct (vector3_rt dbg le maxr _ H1) as [W1 R1]. destruct (quaternion_rt dbg le maxr _ H2) as [W2 R2].
  unfold b_transform.
  replace (b_f64 le (v_x (t_translation t)) ++ b_f64 le (v_y (t_translation t)) ++ b_f64 le (v_z (t_translation t)) ++
    b_quaternion le (t_rotation t)) with ((b_f64 le (v_x (t_translation t)) ++ b_f64 le (v_y (t_translation t)) ++ b_f64 le (v_z (t_translation t))) ++
    b_quaternion le (t_rotation t)) by (rewrite <- !app_assoc; reflexivity).
  set (b1 := b_f64 le (v_x (t_translation t)) ++ b_f64 le (v_y (t_translation t)) ++ b_f64 le (v_z (t_translation t))) in *.
  set (b2 := b_quaternion le (t_rotation t)) in *. clearbody b1 b2. split.
  - unfold ser_transform. wr.
  - intros pre post. unfold de_transform. rd1 R1 pre (b2 ++ post). rd1 R2 (pre ++ b1) post.
    destruct t; cbn. do 2 f_equal. rewrite !app_length. lia.
Qed.

Lemma pose_stamped_rt dbg le maxr p : pose_stamped_ok maxr p ->
  let b := b_header le (pt_header p) ++ b_pose le (pt_pose p) in
  writes (ser_pose_stamped dbg le) p b /\ reads (de_pose_stamped dbg le maxr) p b.
Proof.
  intros (H1 & H2). destruct (header_rt dbg le maxr _ H1) as [W1 R1]. destruct (pose_rt dbg le maxr _ H2) as [W2 R2].
  set (b1 := b_header le _) in *. set (b2 := b_pose le _) in *. clearbody b1 b2. cbv zeta. split.
  - unfold ser_pose_stamped. wr.
  - intros pre post. unfold de_pose_stamped. rd1 R1 pre (b2 ++ post). rd1 R2 (pre ++ b1) post.
    destruct p; cbn. do 2 f_equal. rewrite !app_length. lia.
Qed.

Lemma transform_stamped_rt dbg le maxr t : transform_stamped_ok maxr t ->
  let b := b_header le (ts_header t) ++ b_transform le (ts_transform t) ++ b_name le (ts_child t) in
  writes (ser_transform_stamped dbg le) t b /\ reads (de_transform_stamped dbg le maxr) t b.
Proof.
  intros (H1 & H2 & H3). destruct (header_rt dbg le maxr _ H1) as [W1 R1]. destruct (transform_rt dbg le maxr _ H2) as [W2 R2].
  destruct (str_rt dbg le maxr _ H3) as [W3 R3].
  set (b1 := b_header le _) in *. set (b2 := b_transform le _) in *. set (b3 := b_name le _) in *. clearbody b1 b2 b3. cbv zeta. split.
  - unfold ser_transform_stamped. wr.
  - intros pre post. unfold de_transform_stamped. rd1 R1 pre (b2 ++ b3 ++ post). rd1 R2 (pre ++ b1) (b3 ++ post). rd1 R3 (pre ++ b1 ++ b2) post.
    destruct t; cbn. do 2 f_equal. rewrite !app_length. lia.
Qed.

Lemma joint_rt dbg le maxr j : joint_ok j ->
  let b := b_f64 le (j_lower j) ++ b_f64 le (j_upper j) ++ b_f64 le (j_value j) ++ b_u32 le (j_type j) in
  writes (ser_joint dbg le) j b /\ reads (de_joint dbg le maxr) j b.
Proof.
  intros (H1 & H2 & H3 & H4). destruct (three_rt dbg le maxr _ _ _ H1 H2 H3) as (b1 & b2 & b3 & E1 & E2 & E3 & [W1 R1] & [W2 R2] & [W3 R3]).
  destruct (u32_rt dbg le maxr _ H4) as [W4 R4].
  cbv zeta. rewrite <- E1, <- E2, <- E3. set (b4 := b_u32 le (j_type j)) in *. clearbody b4. split.
  - unfold ser_joint. wr.
  - intros pre post. unfold de_joint.
    rd1 R1 pre (b2 ++ b3 ++ b4 ++ post). rd1 R2 (pre ++ b1) (b3 ++ b4 ++ post).
    rd1 R3 (pre ++ b1 ++ b2) (b4 ++ post). rd1 R4 (pre ++ b1 ++ b2 ++ b3) post.
    destruct j; cbn. do 2 f_equal. rewrite !app_length. lia.
Qed.

Lemma mem8 le x : length (mem_of le 8 x) = 8. Proof. apply mem_of_length. Qed.
Lemma mem4 le x : length (mem_of le 4 x) = 4. Proof. apply mem_of_length. Qed.

Lemma rt_intro {A} (ok : A -> Prop) (s : serializer A) (d : deserializer A) (enc : A -> list byte) :
  (forall a, length (enc a) <> 0) -> (forall a, ok a -> writes s a (enc a) /\ reads d a (enc a)) -> round_trips ok s d.
Proof.
  intros L H a Ha. destruct (H a Ha) as [W R]. exists (enc a). split; [|split; auto].
  intros E. apply (L a). rewrite E. reflexivity.
Qed.

(** ** Theorems *)

(** C123: every message with any field values (including NaNs and empty names) written by a Serialize function
    is read back exactly by the matching Deserialize function, wherever it is in a buffer, and both report the
    same number of bytes. *)
Theorem C123_round_trip : forall dbg le maxr,
  round_trips (header_ok maxr) (ser_header dbg le) (de_header dbg le maxr) /\
  round_trips point_ok (ser_point dbg le) (de_point dbg le maxr) /\
  round_trips vector3_ok (ser_vector3 dbg le) (de_vector3 dbg le maxr) /\
  round_trips quaternion_ok (ser_quaternion dbg le) (de_quaternion dbg le maxr) /\
  round_trips pose_ok (ser_pose dbg le) (de_pose dbg le maxr) /\
  round_trips (pose_stamped_ok maxr) (ser_pose_stamped dbg le) (de_pose_stamped dbg le maxr) /\
  round_trips transform_ok (ser_transform dbg le) (de_transform dbg le maxr) /\
  round_trips (transform_stamped_ok maxr) (ser_transform_stamped dbg le) (de_transform_stamped dbg le maxr).
Proof.
  intros dbg le maxr.
  assert (L : forall x l, length (b_f64 le x ++ l) <> 0) by (intros; unfold b_f64; rewrite app_length, mem8; lia).
  assert (M : forall x l, length (b_u32 le x ++ l) <> 0) by (intros; unfold b_u32; rewrite app_length, mem4; lia).
  split; [|split; [|split; [|split; [|split; [|split; [|split]]]]]].
  - eapply rt_intro; [|intros; apply header_rt; auto]. intros. apply M.
  - eapply rt_intro; [|intros; apply point_rt; auto]. intros; apply L.
  - eapply rt_intro; [|intros; apply vector3_rt; auto]. intros; apply L.
  - eapply rt_intro; [|intros; apply quaternion_rt; auto]. intros; apply L.
  - eapply rt_intro; [|intros; apply pose_rt; auto]. intros; apply L.
  - eapply rt_intro; [|intros; apply pose_stamped_rt; auto]. intros. cbv beta. unfold b_header. rewrite <- app_assoc. apply M.
  - eapply rt_intro; [|intros; apply transform_rt; auto]. intros; apply L.
  - eapply rt_intro; [|intros; apply transform_stamped_rt; auto]. intros. cbv beta. unfold b_header. rewrite <- app_assoc. apply M.
Qed.
Print Assumptions C123_round_trip.

(** C123: what is on the wire: the fields in the order of the message definition, in host byte order, names as
    length and characters; so a stamped pose takes 76 bytes and its frame name, a stamped transform 84 and both
    names. *)
Theorem C123_layout : forall dbg le,
  (forall maxr h, header_ok maxr h -> writes (ser_header dbg le) h (b_header le h)) /\
  (forall maxr p, pose_stamped_ok maxr p ->
     writes (ser_pose_stamped dbg le) p (b_header le (pt_header p) ++ b_pose le (pt_pose p)) /\
     length (b_header le (pt_header p) ++ b_pose le (pt_pose p)) = 76 + length (h_frame (pt_header p))) /\
  (forall maxr t, transform_stamped_ok maxr t ->
     writes (ser_transform_stamped dbg le) t
       (b_header le (ts_header t) ++ b_transform le (ts_transform t) ++ b_name le (ts_child t)) /\
     length (b_header le (ts_header t) ++ b_transform le (ts_transform t) ++ b_name le (ts_child t)) =
       84 + length (h_frame (ts_header t)) + length (ts_child t)).
Proof.
  intros dbg le.
  assert (C : forall s, length (concat (map (fun c => mem_of le 1 (Z.to_N (c mod 256))) s)) = length s).
  { induction s as [|c s IH]; cbn [map concat length]; auto. rewrite app_length, mem_of_length, IH. reflexivity. }
  split; [|split].
  - intros maxr h H. apply (header_rt dbg le maxr h H).
  - intros maxr p H. split; [apply (pose_stamped_rt dbg le maxr p H)|].
    unfold b_header, b_pose, b_quaternion, b_name, b_f64, b_u32. rewrite !app_length, C, !mem8, !mem4. lia.
  - intros maxr t H. split; [apply (transform_stamped_rt dbg le maxr t H)|].
    unfold b_header, b_transform, b_quaternion, b_name, b_f64, b_u32. rewrite !app_length, !C, !mem8, !mem4. lia.
Qed.
Print Assumptions C123_layout.

(** Each Deserialize function as a chain of reads. *)
Ltac chain := intros buf cur; unfold seq_de, map_de;
  repeat (match goal with |- context [obind (?d buf ?c) _] => destruct (d buf c) as [[? ?]|?| | |]; cbn [obind fst snd]; auto end;
          rewrite ?Nat.add_assoc);
  try (do 2 f_equal; lia).

Lemma header_chain dbg le maxr buf cur : de_header dbg le maxr buf cur =
  seq_de (de_u32 dbg le maxr) (fun a => seq_de (de_u32 dbg le maxr) (fun b => seq_de (de_u32 dbg le maxr) (fun c =>
    map_de (Build_header a b c) (de_str dbg le maxr)))) buf cur.
Proof. revert buf cur. unfold de_header. chain. Qed.
Lemma point_chain dbg le maxr buf cur : de_point dbg le maxr buf cur =
  seq_de (de_f64 dbg le maxr) (fun a => seq_de (de_f64 dbg le maxr) (fun b => map_de (Build_point a b) (de_f64 dbg le maxr))) buf cur.
Proof. revert buf cur. unfold de_point. chain. Qed.
Lemma vector3_chain dbg le maxr buf cur : de_vector3 dbg le maxr buf cur =
  seq_de (de_f64 dbg le maxr) (fun a => seq_de (de_f64 dbg le maxr) (fun b => map_de (Build_vector3 a b) (de_f64 dbg le maxr))) buf cur.
Proof. revert buf cur. unfold de_vector3. chain. Qed.
Lemma quaternion_chain dbg le maxr buf cur : de_quaternion dbg le maxr buf cur =
  seq_de (de_f64 dbg le maxr) (fun a => seq_de (de_f64 dbg le maxr) (fun b => seq_de (de_f64 dbg le maxr) (fun c =>
    map_de (Build_quaternion a b c) (de_f64 dbg le maxr)))) buf cur.
Proof. revert buf cur. unfold de_quaternion. chain. Qed.
Lemma pose_chain dbg le maxr buf cur : de_pose dbg le maxr buf cur =
  seq_de (de_point dbg le maxr) (fun a => map_de (Build_pose a) (de_quaternion dbg le maxr)) buf cur.
Proof. revert buf cur. unfold de_pose. chain. Qed.
Lemma pose_stamped_chain dbg le maxr buf cur : de_pose_stamped dbg le maxr buf cur =
  seq_de (de_header dbg le maxr) (fun a => map_de (Build_pose_stamped a) (de_pose dbg le maxr)) buf cur.
Proof. revert buf cur. unfold de_pose_stamped. chain. Qed.
Lemma transform_chain dbg le maxr buf cur : de_transform dbg le maxr buf cur =
  seq_de (de_vector3 dbg le maxr) (fun a => map_de (Build_transform a) (de_quaternion dbg le maxr)) buf cur.
Proof. revert buf cur. unfold de_transform. chain. Qed.
Lemma transform_stamped_chain dbg le maxr buf cur : de_transform_stamped dbg le maxr buf cur =
  seq_de (de_header dbg le maxr) (fun a => seq_de (de_transform dbg le maxr) (fun b =>
    map_de (Build_transform_stamped a b) (de_str dbg le maxr))) buf cur.
Proof. revert buf cur. unfold de_transform_stamped. chain. Qed.
Lemma joint_chain dbg le maxr buf cur : de_joint dbg le maxr buf cur =
  seq_de (de_f64 dbg le maxr) (fun a => seq_de (de_f64 dbg le maxr) (fun b => seq_de (de_f64 dbg le maxr) (fun c =>
    map_de (Build_raw_joint a b c) (de_u32 dbg le maxr)))) buf cur.
Proof. revert buf cur. unfold de_joint. chain. Qed.

Definition safe {A} (d : deserializer A) : Prop := in_bounds d /\ reads_only_reported d.
Lemma safe_ext {A} (d d' : deserializer A) : (forall buf cur, d buf cur = d' buf cur) -> safe d' -> safe d.
Proof. intros E [H1 H2]. split; [eapply in_bounds_ext|eapply local_ext]; eauto. Qed.
Lemma safe_seq {A B} (d1 : deserializer A) (d2 : A -> deserializer B) : safe d1 -> (forall a, safe (d2 a)) -> safe (seq_de d1 d2).
Proof. intros [H1 H2] H. split; [apply seq_in_bounds|apply seq_local]; auto; apply H. Qed.
Lemma safe_map {A B} (f : A -> B) d : safe d -> safe (map_de f d).
Proof. intros [H1 H2]. split; [apply map_in_bounds'|apply map_local']; auto. Qed.
Lemma safe_ty le maxr t : wf t -> safe (de false true le maxr t).
Proof. intros W. split; [apply ty_in_bounds|apply ty_local; auto]. Qed.

Lemma f64_safe le maxr : safe (de_f64 true le maxr). Proof. apply (safe_ty le maxr (TUint 8)). discriminate. Qed.
Lemma u32_safe le maxr : safe (de_u32 true le maxr). Proof. apply (safe_ty le maxr (TUint 4)). discriminate. Qed.
Lemma str_safe le maxr : safe (de_str true le maxr). Proof. apply (safe_ty le maxr (TString 1)). discriminate. Qed.

Lemma header_safe le maxr : safe (de_header true le maxr).
Proof. eapply safe_ext; [apply header_chain|]. repeat (apply safe_seq; [first [apply f64_safe|apply u32_safe]|intros]). apply safe_map; first [apply f64_safe|apply u32_safe|apply str_safe]. Qed.
Lemma point_safe le maxr : safe (de_point true le maxr).
Proof. eapply safe_ext; [apply point_chain|]. repeat (apply safe_seq; [first [apply f64_safe|apply u32_safe]|intros]). apply safe_map; first [apply f64_safe|apply u32_safe|apply str_safe]. Qed.
Lemma vector3_safe le maxr : safe (de_vector3 true le maxr).
Proof. eapply safe_ext; [apply vector3_chain|]. repeat (apply safe_seq; [first [apply f64_safe|apply u32_safe]|intros]). apply safe_map; first [apply f64_safe|apply u32_safe|apply str_safe]. Qed.
Lemma quaternion_safe le maxr : safe (de_quaternion true le maxr).
Proof. eapply safe_ext; [apply quaternion_chain|]. repeat (apply safe_seq; [first [apply f64_safe|apply u32_safe]|intros]). apply safe_map; first [apply f64_safe|apply u32_safe|apply str_safe]. Qed.
Lemma pose_safe le maxr : safe (de_pose true le maxr).
Proof. eapply safe_ext; [apply pose_chain|]. apply safe_seq; [apply point_safe|intros]. apply safe_map, quaternion_safe. Qed.
Lemma transform_safe le maxr : safe (de_transform true le maxr).
Proof. eapply safe_ext; [apply transform_chain|]. apply safe_seq; [apply vector3_safe|intros]. apply safe_map, quaternion_safe. Qed.

(** C123: with assertions compiled in, no bytes and no position make any of them leave the buffer, and what is
    read depends only on the bytes reported as read. *)
Theorem C123_hostile_bytes : forall le maxr,
  safe (de_header true le maxr) /\ safe (de_point true le maxr) /\ safe (de_vector3 true le maxr) /\
  safe (de_quaternion true le maxr) /\ safe (de_pose true le maxr) /\ safe (de_pose_stamped true le maxr) /\
  safe (de_transform true le maxr) /\ safe (de_transform_stamped true le maxr).
Proof.
  intros le maxr. split; [|split; [|split; [|split; [|split; [|split; [|split]]]]]].
  - apply header_safe.
  - apply point_safe.
  - apply vector3_safe.
  - apply quaternion_safe.
  - apply pose_safe.
  - eapply safe_ext; [apply pose_stamped_chain|]. apply safe_seq; [apply header_safe|intros]. apply safe_map, pose_safe.
  - apply transform_safe.
  - eapply safe_ext; [apply transform_stamped_chain|]. apply safe_seq; [apply header_safe|intros].
    apply safe_seq; [apply transform_safe|intros]. apply safe_map; first [apply f64_safe|apply u32_safe|apply str_safe].
Qed.
Print Assumptions C123_hostile_bytes.

(** *** RosMessageSerializationWrapper *)

(** The contract of roscpp: reading the bytes written for a message gives the message, whatever follows. *)
Definition roscpp {M} (body : M -> list byte) (parse : list byte -> outcome M) : Prop :=
  forall m rest, parse (body m ++ rest) = Ok m.

(** C124 is false: for every message the serialization wrapper reads past the end of the array that roscpp
    allocated (message_start is four bytes into it, but num_bytes is counted from its beginning). *)
Theorem C124_wrapper_refuted : forall le (M : Type) (body : M -> list byte) m buf,
  ser_ros le M body [] m buf = UB.
Proof.
  intros le M body m buf. unfold ser_ros, read_bytes, ros_message_start, ros_num_bytes.
  rewrite app_nil_r. destruct (Nat.leb_spec (4 + length (ros_array le M body m)) (length (ros_array le M body m))); [lia|reflexivity].
Qed.
Print Assumptions C124_wrapper_refuted.

(** C124, what remains true: if the four bytes after the array can be read, whatever they are, then the message
    followed by them is appended, and it is read back exactly, with the same count; missing: the read is out of
    bounds in the first place. *)
Theorem C124_round_trip_partial : forall le (M : Type) (body : M -> list byte) parse after maxr,
  roscpp body parse -> 4 <= length after ->
  forall m buf post,
  exists extra, length extra = 4 /\
    ser_ros le M body after m buf = Ok (buf ++ body m ++ extra, length (body m ++ extra)) /\
    ((N.of_nat (length (buf ++ (body m ++ extra) ++ post)) < 2 ^ 64)%N ->
     (N.of_nat (length ((body m ++ extra) ++ post)) <= maxr)%N ->
     de_ros maxr M body parse (buf ++ (body m ++ extra) ++ post) (length buf) = Ok (m, length (body m ++ extra))).
Proof.
  intros le M body parse after maxr RP LA m buf post.
  exists (firstn 4 after). assert (L4 : length (firstn 4 after) = 4) by (rewrite firstn_length; lia).
  split; auto. split.
  - unfold ser_ros, read_bytes, ros_message_start, ros_num_bytes, ros_array.
    set (hd := mem_of le 4 (N.of_nat (length (body m)))). assert (LH : length hd = 4) by apply mem_of_length. clearbody hd.
    destruct (Nat.leb_spec (4 + length (hd ++ body m)) (length ((hd ++ body m) ++ after))) as [H|H].
    2:{ rewrite !app_length in H. lia. }
    cbn [obind]. rewrite <- app_assoc. rewrite skipn_app, LH, Nat.sub_diag.
    rewrite (skipn_all2 hd) by lia. cbn [skipn app]. rewrite app_length, LH.
    rewrite firstn_app. replace (4 + length (body m) - length (body m)) with 4 by lia.
    rewrite firstn_all2 by lia. rewrite !app_length, L4. do 2 f_equal. lia.
  - intros H64 HM. unfold de_ros, ros_size_left.
    set (all := (body m ++ firstn 4 after) ++ post) in *. rewrite app_length, Nat2N.inj_add in *.
    rewrite (N.mod_small (N.of_nat (length buf))) by lia.
    replace (N.of_nat (length buf) + N.of_nat (length all) + 2 ^ 64 - N.of_nat (length buf))%N
      with (N.of_nat (length all) + 1 * 2 ^ 64)%N by lia.
    rewrite N.mod_add by discriminate. rewrite N.mod_small by lia.
    destruct (N.ltb_spec maxr (N.of_nat (length all))); [lia|].
    destruct (Nat.leb_spec (length buf + length all) (length buf)) as [H1|H1].
    { exfalso. unfold all in H1. rewrite !app_length in H1. lia. }
    rewrite skipn_app, Nat.sub_diag, skipn_all2 by lia. cbn [skipn app]. unfold all. rewrite <- app_assoc, RP.
    cbn [obind]. rewrite app_length, L4. reflexivity.
Qed.
Print Assumptions C124_round_trip_partial.

(** C124: the count reported when reading is four more than what was needed: a message at the end of a buffer
    (as roscpp itself would write its body) is read, and the position after it is outside the buffer. *)
Theorem C124_count_refuted : forall (M : Type) (body : M -> list byte) parse, roscpp body parse ->
  forall m, body m <> [] -> (N.of_nat (length (body m)) < 2 ^ 64)%N ->
  exists n, de_ros (N.of_nat (length (body m))) M body parse (body m) 0 = Ok (m, n) /\ length (body m) < 0 + n.
Proof.
  intros M body parse RP m NE L. exists (length (body m) + 4). split; [|lia].
  unfold de_ros, ros_size_left. change (N.of_nat 0 mod 2 ^ 64)%N with 0%N. rewrite N.sub_0_r.
  replace (N.of_nat (length (body m)) + 2 ^ 64)%N with (N.of_nat (length (body m)) + 1 * 2 ^ 64)%N by lia.
  rewrite N.mod_add, N.mod_small by (auto; discriminate). rewrite N.ltb_irrefl.
  destruct (Nat.leb_spec (length (body m)) 0) as [H|H].
  { destruct (body m); [congruence|cbn in H; lia]. }
  cbn [skipn]. specialize (RP m []). rewrite app_nil_r in RP. rewrite RP. reflexivity.
Qed.
Print Assumptions C124_count_refuted.

(** *** Joints *)

(** C125: a joint is read back exactly; hostile bytes do not make the read leave the buffer. *)
Theorem C125_joint_round_trip : forall dbg le maxr,
  round_trips joint_ok (ser_joint dbg le) (de_joint dbg le maxr) /\
  (forall j, joint_ok j -> forall buf, ser_joint dbg le j buf =
     Ok (buf ++ b_f64 le (j_lower j) ++ b_f64 le (j_upper j) ++ b_f64 le (j_value j) ++ b_u32 le (j_type j), 28)) /\
  safe (de_joint true le maxr).
Proof.
  intros dbg le maxr. split; [|split].
  - eapply rt_intro; [|intros; apply joint_rt; auto]. intros. cbv beta. unfold b_f64. rewrite app_length, mem8. lia.
  - intros j H buf. destruct (joint_rt dbg le maxr j H) as [W _]. rewrite W. do 2 f_equal.
    unfold b_f64, b_u32. rewrite !app_length, !mem8, mem4. reflexivity.
  - eapply safe_ext; [apply joint_chain|]. repeat (apply safe_seq; [first [apply f64_safe|apply u32_safe]|intros]). apply safe_map; first [apply f64_safe|apply u32_safe|apply str_safe].
Qed.
Print Assumptions C125_joint_round_trip.

(** The order of two doubles given by their bits (IEEE 754). *)
Definition exceeds (x y : N) : Prop :=
  Bits.b64_compare (Bits.b64_of_bits (Z.of_N x)) (Bits.b64_of_bits (Z.of_N y)) = Some Gt.

(** C125 is false for "a joint that has been read is a joint that could have been made": the value is not
    brought into the limits, the limits may be in the wrong order, and the type may be none of the four. *)
Theorem C125_invalid_joint_refuted : exists buf j n,
  de_joint true true 1000 buf 0 = Ok (j, n) /\
  exceeds (j_value j) (j_upper j) /\ exceeds (j_lower j) (j_upper j) /\
  ~ In (j_type j) [0; 1; 2; 4]%N.
Proof.
  (* limits [1, 0.5], value 2, type 3 *)
  exists (le_bytes 8 0x3ff0000000000000 ++ le_bytes 8 0x3fe0000000000000 ++ le_bytes 8 0x4000000000000000 ++ le_bytes 4 3).
  eexists. eexists. split; [vm_compute; reflexivity|].
  split; [vm_compute; reflexivity|]. split; [vm_compute; reflexivity|].
  intros H. vm_compute in H. repeat (destruct H as [H|H]; [discriminate|]). exact H.
Qed.
Print Assumptions C125_invalid_joint_refuted.

(** ** The hypotheses are met *)

Definition ex_stamped : transform_stamped :=
  {| ts_header := {| h_seq := 7; h_sec := 1500000000; h_nsec := 999999999; h_frame := [109; 97; 112]%Z |};
     ts_transform := {| t_translation := {| v_x := 0x3ff0000000000000; v_y := 0; v_z := 0x7ff8000000000000 |};
                        t_rotation := {| q_x := 0; q_y := 0; q_z := 0; q_w := 0x3ff0000000000000 |} |};
     ts_child := [] |}.

Example ros_case :
  transform_stamped_ok 1000 ex_stamped /\
  (exists b, ser_transform_stamped true true ex_stamped [] = Ok (b, 87) /\
     de_transform_stamped true true 1000 ([x01; x02] ++ b ++ [x03]) 2 = Ok (ex_stamped, 87)) /\
  (* a roscpp-like coding: one byte for a boolean *)
  roscpp (fun b : bool => [if b then x01 else x00])
    (fun l => match l with b :: _ => Ok (negb (Byte.eqb b x00)) | [] => Throw RuntimeError end).
Proof.
  split; [|split].
  - repeat split; cbn; try (vm_compute; reflexivity); try lia; repeat constructor; try (vm_compute; discriminate).
  - eexists. split; vm_compute; reflexivity.
  - intros [|] rest; reflexivity.
Qed.
