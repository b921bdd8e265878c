(** Property C56: Eigen matrix serialization. *)
From Verif Require Import Base SerModel SerSpec SerProofs EigenSerModel EigenSerProofs.
From Coq Require Import Strings.Byte.

(** C56: SerializeEigen appends exactly SerializedSizeEigen bytes and returns their number; DeserializeEigen at
    their position, anywhere in a buffer, gives back the matrix and the count.  Any scalar size, any mix of
    fixed and dynamic dimensions, either byte order, assertions on or off.  The only condition: the matrix has a
    coefficient, or some byte follows its header in the buffer. *)
Theorem C56_eigen_round_trip : forall dbg le maxr sc sr sl m,
  sc <> 0 -> matrix_ok maxr sc sr sl m ->
  exists bytes,
    (forall buf, ser_eigen le sc sr sl m buf = Ok (buf ++ bytes, length bytes)) /\
    length bytes = eigen_size sc sr sl m /\
    (forall pre post, em_data m <> [] \/ (bytes <> [] /\ post <> []) ->
      de_eigen dbg le maxr sc sr sl (pre ++ bytes ++ post) (length pre) = Ok (m, length bytes)).
Proof.
  intros dbg le maxr sc sr sl m Hsc H. exists (eigen_bytes le sc sr sl m).
  split; [|split].
  - intros buf. apply ser_eigen_writes.
  - apply eigen_bytes_length.
  - intros pre post C. apply de_eigen_reads; tauto.
Qed.
Print Assumptions C56_eigen_round_trip.

(** C56 for fixed sizes (Vector3d, Vector6d, Vector7d, Isometry3d): unconditional. *)
Theorem C56_fixed_round_trip : forall dbg le maxr sc r c,
  sc <> 0 -> (0 < r * c)%N ->
  round_trips (matrix_ok maxr sc (Some r) (Some c))
    (ser_eigen le sc (Some r) (Some c)) (de_eigen dbg le maxr sc (Some r) (Some c)).
Proof. exact fixed_round_trips. Qed.
Print Assumptions C56_fixed_round_trip.

(** C56 as stated for every size is false: an empty VectorXd written last in a buffer cannot be read back
    without indexing the buffer one past its end ([&buffer[current + 8]]). *)
Theorem C56_empty_at_end_refuted : exists m buf n,
  matrix_ok 100 8 None (Some 1%N) m /\
  ser_eigen true 8 None (Some 1%N) m [] = Ok (buf, n) /\
  de_eigen true true 100 8 None (Some 1%N) buf 0 = UB.
Proof.
  exists {| em_rows := 0; em_cols := 1; em_data := [] |}. do 2 eexists. split; [|split].
  - unfold matrix_ok, static_ok; cbn. repeat split; try lia. constructor.
  - vm_compute. reflexivity.
  - vm_compute. reflexivity.
Qed.
Print Assumptions C56_empty_at_end_refuted.

(** C56, hostile bytes: with assertions compiled in, any bytes at any position give a value, an exception or a
    failed assertion, and the bytes reported as read are in the buffer; the sole exception is the empty matrix
    of the refutation above. *)
Theorem C56_hostile_bytes_in_bounds : forall le maxr sc sr sl buf cur,
  let r := de_eigen true le maxr sc sr sl buf cur in
  r <> NoFuel /\
  (forall m n, r = Ok (m, n) -> cur + n <= length buf /\ n = eigen_size sc sr sl m) /\
  (r = UB -> cur + header_size sr sl = length buf).
Proof.
  intros le maxr sc sr sl buf cur. cbn zeta. unfold de_eigen, cassert. cbn [andb].
  destruct (Nat.ltb_spec cur (length buf)) as [H|H]; cbn [negb]; [|split; [discriminate|split; [intros; discriminate|discriminate]]].
  destruct (Nat.leb_spec (cur + header_size sr sl) (length buf)) as [H1|H1]; cbn [negb];
    [|split; [discriminate|split; [intros; discriminate|discriminate]]].
  assert (RD : forall s p, p + (match s with None => 8 | Some _ => 0 end) <= length buf ->
    exists v, read_dim le s buf p = Ok (v, match s with None => 8 | Some _ => 0 end)).
  { intros [w|] p Hp; cbn [read_dim]; eauto. unfold read_bytes.
    destruct (Nat.leb_spec (p + 8) (length buf)); [|lia]. cbn [obind]. eauto. }
  unfold header_size in H1.
  destruct (RD sr cur ltac:(destruct sr, sl; lia)) as (rows & ->). cbn [obind fst snd].
  destruct (RD sl (cur + match sr with None => 8 | Some _ => 0 end) ltac:(destruct sr, sl; lia)) as (cols & ->).
  cbn [obind fst snd]. unfold alloc_zero.
  destruct (_ && _)%bool; [|split; [discriminate|split; [intros; discriminate|discriminate]]].
  destruct (_ <=? maxr)%N; [|split; [discriminate|split; [intros; discriminate|discriminate]]].
  set (n := N.to_nat (rows * cols)). fold (header_size sr sl) in *.
  destruct (Nat.leb_spec (cur + (header_size sr sl + n * sc)) (length buf)) as [H2|H2]; cbn [negb];
    [|split; [discriminate|split; [intros; discriminate|discriminate]]].
  destruct (Nat.ltb_spec (cur + header_size sr sl) (length buf)) as [H3|H3].
  - unfold read_bytes. destruct (Nat.leb_spec (cur + header_size sr sl + n * sc) (length buf)); [|lia].
    cbn [obind]. split; [discriminate|]. split; [|discriminate].
    intros m k [= <- <-]. split; [exact H2|]. unfold eigen_size; cbn [em_data].
    assert (L : forall k l, length (scalars le sc k l) = k) by (induction k; simpl; intros; auto).
    rewrite L. reflexivity.
  - split; [discriminate|]. split; [intros; discriminate|lia].
Qed.
Print Assumptions C56_hostile_bytes_in_bounds.

(** A 2x3 MatrixXf inside a longer buffer, and an empty Matrix3Xd followed by a byte. *)
Example C56_example :
  let m := {| em_rows := 2; em_cols := 3; em_data := [1; 2; 3; 4; 5; 4294967295]%N |} in
  matrix_ok 100 4 None None m /\
  exists buf, ser_eigen true 4 None None m [x07] = Ok (buf, 40) /\
    de_eigen true true 100 4 None None (buf ++ [x08]) 1 = Ok (m, 40).
Proof.
  split.
  - unfold matrix_ok, static_ok; cbn. repeat split; try lia. repeat (constructor; try lia).
  - eexists. split; [vm_compute; reflexivity|]. vm_compute. reflexivity.
Qed.
