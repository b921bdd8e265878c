(** Properties C01-C04: serialization. *)
From Verif Require Import Base SerModel SerSpec SerProofs SerTypes.
From Coq Require Import Strings.Byte.

(** C01, C02: every value of every nesting of scalars, strings, pairs, vectors and maps round-trips at any
    offset, the serializer appends exactly the bytes it reports, and the deserializer reports the same count;
    host-order or network-order functions ([net]), assertions on or off, either host byte order. *)
Theorem C01_serialization_round_trip :
  forall (net dbg host_le : bool) (maxr : N) (t : ty), wf t ->
  forall v, fits maxr t v ->
  exists bytes,
    (forall buf, ser net dbg host_le t v buf = Ok (buf ++ bytes, length bytes)) /\
    (forall pre post, de net dbg host_le maxr t (pre ++ bytes ++ post) (length pre) = Ok (v, length bytes)).
Proof.
  intros net dbg le maxr t W v F.
  destruct (ty_round_trips net dbg le maxr t W v F) as (b & _ & H1 & H2). eauto.
Qed.
Print Assumptions C01_serialization_round_trip.

(** C01 for user codecs: the containers preserve the round-trip law of whatever item codecs they are given. *)
Theorem C01_containers_preserve_round_trip :
  forall (net dbg host_le : bool) (maxr : N) (A B : Type) (okA : A -> Prop) (okB : B -> Prop) sa da sb db ltb,
  round_trips okA sa da -> round_trips okB sb db -> strict_order ltb ->
  let ss := ser_p net host_le (uint_pod host_le 8) in
  let ds := de_p net dbg host_le (uint_pod host_le 8) in
  round_trips (fun l => Forall okA l /\ len_in maxr l) (ser_vector ss sa) (de_vector dbg maxr ds da) /\
  round_trips (fun ab => okA (fst ab) /\ okB (snd ab)) (ser_pair dbg sa sb) (de_pair dbg da db) /\
  round_trips (fun m => Forall (fun kv => okA (fst kv) /\ okB (snd kv)) m /\ key_sorted ltb m /\
                        (N.of_nat (length m) < 2 ^ 64)%N)
    (ser_map dbg ss sa sb) (de_map dbg ltb ds da db).
Proof.
  intros net dbg le maxr A B okA okB sa da sb db ltb RA RB SO ss ds. repeat split.
  - apply vector_round_trips; auto. apply size_round_trips.
  - apply pair_round_trips; auto.
  - apply map_round_trips; auto. apply size_round_trips.
Qed.
Print Assumptions C01_containers_preserve_round_trip.

(** C02: chaining.  Writing a list of values one after the other and reading them back by adding up the
    returned counts gives the values back. *)
Theorem C02_chained_values :
  forall (net dbg host_le : bool) (maxr : N) (t : ty), wf t ->
  forall vs, Forall (fits maxr t) vs ->
  exists bytes,
    (forall buf, ser_items (ser net dbg host_le t) vs buf = Ok (buf ++ bytes)) /\
    (forall pre post, de_items (de net dbg host_le maxr t) (pre ++ bytes ++ post) (length vs) (length pre)
                      = Ok (vs, length pre + length bytes)).
Proof.
  intros net dbg le maxr t W vs F.
  exact (items_round_trip _ _ _ (ty_round_trips net dbg le maxr t W) vs F).
Qed.
Print Assumptions C02_chained_values.

(** C03: network scalars are big-endian on every host. *)
Theorem C03_network_scalars_big_endian :
  forall (host_le : bool) (n : nat) (x : N), (x < 256 ^ N.of_nat n)%N ->
  exists bytes, writes (ser_net_pod host_le (uint_pod host_le n)) x bytes /\
                length bytes = n /\ be_value bytes = x.
Proof. exact net_uint_wire. Qed.
Print Assumptions C03_network_scalars_big_endian.

Theorem C03_network_signed_big_endian :
  forall (host_le : bool) (n : nat) (z : Z),
  exists bytes, writes (ser_net_pod host_le (sint_pod host_le n)) z bytes /\
                length bytes = n /\ (Z.of_N (be_value bytes) = z mod 2 ^ (8 * Z.of_nat n))%Z.
Proof. exact net_sint_wire. Qed.
Print Assumptions C03_network_signed_big_endian.

(** C03: the bytes of any value do not depend on the host ([host_le] on both sides), so data written on one
    machine can be read on another. *)
Theorem C03_network_host_independent :
  forall dbg host_le host_le' maxr t, wf t -> forall v, fits maxr t v ->
  exists bytes,
    (forall buf, ser true dbg host_le t v buf = Ok (buf ++ bytes, length bytes)) /\
    (forall pre post, de true dbg host_le' maxr t (pre ++ bytes ++ post) (length pre) = Ok (v, length bytes)).
Proof.
  intros dbg le le' maxr t W v F.
  destruct (ty_round_trips true dbg le' maxr t W v F) as (b & _ & H1 & H2).
  exists b. split; auto. intros buf.
  rewrite (ty_host_independent dbg le maxr t v buf F), <- (ty_host_independent dbg le' maxr t v buf F). apply H1.
Qed.
Print Assumptions C03_network_host_independent.

(** Wire layout: a vector is its 64-bit length followed by the items; a map likewise with key then value; a
    pair is first then second. *)
Theorem C02_wire_layout :
  forall (A B : Type) dbg (ssize : serializer N) (sa : serializer A) (sb : serializer B) ea eb,
  (forall l hb, (N.of_nat (length l) < 2 ^ 64)%N -> writes ssize (N.of_nat (length l)) hb ->
     Forall (fun a => writes sa a (ea a)) l ->
     writes (ser_vector ssize sa) l (hb ++ concat (map ea l))) /\
  (forall a b, writes sa a (ea a) -> writes sb b (eb b) -> writes (ser_pair dbg sa sb) (a, b) (ea a ++ eb b)) /\
  (forall m hb, (N.of_nat (length m) < 2 ^ 64)%N -> writes ssize (N.of_nat (length m)) hb ->
     Forall (fun kv => writes sa (fst kv) (ea (fst kv)) /\ writes sb (snd kv) (eb (snd kv))) m ->
     writes (ser_map dbg ssize sa sb) m (hb ++ concat (map (fun kv => ea (fst kv) ++ eb (snd kv)) m))).
Proof.
  intros A B dbg ssize sa sb ea eb. repeat split.
  - intros; apply vector_wire; auto.
  - intros; apply pair_wire; auto.
  - intros; apply map_wire; auto.
Qed.
Print Assumptions C02_wire_layout.

(** C04: with assertions compiled in, no bytes and no position make deserialization leave the buffer; and a
    successful read depends only on the bytes it reports. *)
Theorem C04_hostile_bytes_in_bounds :
  forall (net host_le : bool) (maxr : N) (t : ty) (buf : buffer) (cur : nat),
  de net true host_le maxr t buf cur <> UB /\
  (forall v n, de net true host_le maxr t buf cur = Ok (v, n) -> cur + n <= length buf).
Proof.
  intros net le maxr t buf cur. destruct (ty_in_bounds net le maxr t buf cur) as (H1 & _ & H2). auto.
Qed.
Print Assumptions C04_hostile_bytes_in_bounds.

Theorem C04_reads_only_reported_bytes :
  forall (net host_le : bool) (maxr : N) (t : ty), wf t ->
  forall pre mid post v, de net true host_le maxr t (pre ++ mid ++ post) (length pre) = Ok (v, length mid) ->
  forall pre' post', de net true host_le maxr t (pre' ++ mid ++ post') (length pre') = Ok (v, length mid).
Proof.
  intros net le maxr t W pre mid post v H pre' post'.
  destruct (ty_local net le maxr t W pre mid post v _ H eq_refl) as [_ G]. apply G.
Qed.
Print Assumptions C04_reads_only_reported_bytes.

(** C04 fails without assertions (NDEBUG): a truncated buffer is read out of bounds. *)
Theorem C04_release_build_refuted :
  exists t buf cur, wf t /\ de false false true 1000 t buf cur = UB.
Proof. exists (TVector (TUint 4)), (le_bytes 8 2), 0. split; [discriminate|]. vm_compute. reflexivity. Qed.
Print Assumptions C04_release_build_refuted.

(** C01 boundary: DeserializePair demands at least one byte in the buffer even when both items occupy none
    (possible with user codecs), so a pair of zero-byte items at the end of the buffer does not round-trip in
    a build with assertions.  This is why [round_trips] speaks of non-empty encodings. *)
Theorem C01_zero_byte_pair_refuted :
  exists (s : serializer unit) (d : deserializer unit),
    (forall buf, s tt buf = Ok (buf, 0)) /\ (forall buf cur, d buf cur = Ok (tt, 0)) /\
    (forall buf, ser_pair true s s (tt, tt) buf = Ok (buf, 0)) /\
    (forall buf, de_pair true d d buf (length buf) = AssertFail).
Proof.
  exists (fun _ buf => Ok (buf, 0)), (fun _ _ => Ok (tt, 0)). repeat split.
  - intros buf. unfold ser_pair. simpl. rewrite Nat.sub_diag. reflexivity.
  - intros buf. unfold de_pair, cassert. rewrite Nat.ltb_irrefl. reflexivity.
Qed.
Print Assumptions C01_zero_byte_pair_refuted.

(** A map read from any accepted bytes is a legal map, and among pairs with one key the first read wins. *)
Theorem C04_map_first_key_wins :
  forall (K V : Type) (ltb : K -> K -> bool), strict_order ltb ->
  forall dbg ds (dk : deserializer K) (dv : deserializer V) buf cur m n,
  de_map dbg ltb ds dk dv buf cur = Ok (m, n) ->
  key_sorted ltb m /\
  exists l p, (exists sz k, ds buf cur = Ok (sz, k) /\ de_items (de_pair dbg dk dv) buf (N.to_nat sz) (cur + k) = Ok (l, p)) /\
    (forall x, In x m -> In x l) /\
    (forall l1 x l2, l = l1 ++ x :: l2 ->
       (forall y, In y l1 -> ltb (fst x) (fst y) = true \/ ltb (fst y) (fst x) = true) -> In x m).
Proof.
  intros K V ltb SO dbg ds dk dv buf cur m n H.
  unfold de_map, cassert in H. destruct (dbg && negb (cur <? length buf)); [discriminate|].
  apply obind_ok in H. destruct H as ([sz k] & E1 & H).
  apply obind_ok in H. destruct H as ([l p] & E2 & H). simpl in *. injection H; intros _ <-.
  split.
  - apply rebuilt_is_sorted_aux; simpl; auto.
  - exists l, p. repeat split.
    + exists sz, k. auto.
    + intros x Hx. eapply rebuilt_subset; eauto.
    + intros l1 x l2 -> Hx. apply rebuilt_first_wins; auto.
Qed.
Print Assumptions C04_map_first_key_wins.

(** Non-vacuity: a nested value meeting the hypotheses, and its actual bytes. *)
Definition example_ty := TMap 2 (TPair (TString 1) (TVector (TSint 4))).
Definition example_val : val example_ty :=
  [(3%N, ([72; 105]%Z, [(-1); 2147483647]%Z)); (700%N, ([]%Z, []%Z))].
Example example_fits : wf example_ty /\ fits 1000 example_ty example_val.
Proof.
  split; [simpl; auto|].
  cbn [fits example_ty example_val]. unfold uint_in, sint_in, len_in, key_sorted; simpl.
  repeat first [split | constructor | intros ? [<-|[]] | intros ? []]; simpl; try reflexivity; try lia; try discriminate.
Qed.
Example example_bytes :
  ser true true true example_ty example_val [] =
  ser true true false example_ty example_val [] /\
  de true true true 1000 example_ty
    (match ser true true false example_ty example_val [] with Ok (b, _) => b | _ => [] end) 0
  = Ok (example_val, 54).
Proof. vm_compute. auto. Qed.
