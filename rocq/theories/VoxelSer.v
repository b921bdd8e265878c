(** Model of VoxelGrid::SerializeSelf / DeserializeSelf (include/arc_utilities/voxel_grid.hpp:390-521) and its
    round-trip proof.  The functions call one field codec after the other; [ser_then]/[de_then] are that
    sequencing. *)
From Verif Require Import Base SerModel SerSpec SerProofs GraphModel GraphSerProofs EigenSerModel EigenSerProofs VoxelModel.
From Coq Require Import Strings.Byte.

(** "serialize the first field; serialize the rest", counting bytes by buffer size (394, 422-424). *)
Definition ser_then {A B} (s1 : serializer A) (s2 : serializer B) : serializer (A * B) :=
  fun ab buf =>
    let! r1 := s1 (fst ab) buf in
    let! r2 := s2 (snd ab) (fst r1) in
    Ok (fst r2, length (fst r2) - length buf).

(** "deserialize the first field; current_position += its count; deserialize the rest" (431 ff., 519). *)
Definition de_then {A B} (d1 : deserializer A) (d2 : deserializer B) : deserializer (A * B) :=
  fun buf cur =>
    let! r1 := d1 buf cur in
    let! r2 := d2 buf (cur + snd r1) in
    Ok ((fst r1, fst r2), cur + snd r1 + snd r2 - cur).

Lemma then_round_trips {A B} (ok1 : A -> Prop) (ok2 : B -> Prop) s1 d1 s2 d2 :
  round_trips ok1 s1 d1 -> round_trips ok2 s2 d2 ->
  round_trips (fun ab => ok1 (fst ab) /\ ok2 (snd ab)) (ser_then s1 s2) (de_then d1 d2).
Proof.
  intros R1 R2 [a b] (H1 & H2). cbn [fst snd] in *.
  destruct (R1 _ H1) as (b1 & N1 & S1 & D1). destruct (R2 _ H2) as (b2 & N2 & S2 & D2).
  exists (b1 ++ b2). split; [|split].
  - intros E. apply app_eq_nil in E. tauto.
  - intros buf. unfold ser_then. cbn [fst snd]. rewrite S1. cbn [obind fst]. rewrite S2. cbn [obind fst].
    rewrite <- app_assoc, app_sub_length. reflexivity.
  - intros pre post. unfold de_then.
    rewrite (read_at _ _ _ D1 _ _ pre (b2 ++ post)); [|rewrite <- app_assoc; reflexivity|reflexivity].
    cbn [obind fst snd].
    rewrite (read_at _ _ _ D2 _ _ (pre ++ b1) post); [|rewrite <- !app_assoc; reflexivity|rewrite app_length; reflexivity].
    cbn [obind fst snd]. do 2 f_equal. rewrite app_length. lia.
Qed.

(** Changing the representation of the value on both sides. *)
Lemma iso_round_trips {A B} (ok : B -> Prop) s d (f : A -> B) (h : B -> A) :
  (forall a, h (f a) = a) -> round_trips ok s d ->
  round_trips (fun a => ok (f a)) (fun a buf => s (f a) buf)
    (fun buf cur => let! r := d buf cur in Ok (h (fst r), snd r)).
Proof.
  intros E R a H. destruct (R _ H) as (b & N & S & D). exists b. split; [auto|]. split; [intros buf; apply S|].
  intros pre post. rewrite D. cbn [obind fst snd]. rewrite E. reflexivity.
Qed.

Section V.
Variables (dbg le : bool) (maxr : N).

(** uint8_t (397, 431-434): (uint8_t)initialized_ and back by (bool). *)
Definition ser_flag : serializer bool := fun b buf => ser_pod (uint_pod le 1) (if b then 1 else 0)%N buf.
Definition de_flag : deserializer bool :=
  fun buf cur => let! r := de_pod dbg (uint_pod le 1) buf cur in Ok (negb (fst r =? 0)%N, snd r).

(** Isometry3d: 4x4 doubles (399-400, 436-443). *)
Definition iso_of (l : list N) : ematrix := {| em_rows := 4; em_cols := 4; em_data := l |}.
Definition ser_iso : serializer (list N) := fun l buf => ser_eigen le 8 (Some 4%N) (Some 4%N) (iso_of l) buf.
Definition de_iso : deserializer (list N) :=
  fun buf cur => let! r := de_eigen dbg le 16 8 (Some 4%N) (Some 4%N) buf cur in Ok (em_data (fst r), snd r).

Notation sd := (ser_pod (f64_pod le)).
Notation dd := (de_pod dbg (f64_pod le)).
Notation si := (ser_pod (i64_pod le)).
Notation di := (de_pod dbg (i64_pod le)).

(** Three consecutive doubles. *)
Definition ser_3 : serializer (N * N * N) := ser_then (ser_then sd sd) sd.
Definition de_3 : deserializer (N * N * N) := de_then (de_then dd dd) dd.

Context {T : Type} (sv : serializer T) (dv : deserializer T).

(** The order of the fields on the wire (395-421). *)
Definition fields (g : vgrid T) :=
  (vg_init g,
  (geo_origin (vg_geo g),
  (geo_inverse (vg_geo g),
  (vg_data g,
  (geo_cell (vg_geo g),
  (geo_inv_cell (vg_geo g),
  (geo_size (vg_geo g),
  (vg_s1 g, (vg_s2 g, (vg_nx g, (vg_ny g, (vg_nz g,
  (vg_default g, vg_oob g))))))))))))).

Definition unfields (f : bool * (list N * (list N * (list T * (N * N * N * (N * N * N * (N * N * N *
    (Z * (Z * (Z * (Z * (Z * (T * T))))))))))))) : vgrid T :=
  let '(i, (o, (iv, (d, (c, (ic, (s, (s1, (s2, (nx, (ny, (nz, (df, ob))))))))))))) := f in
  {| vg_geo := {| geo_origin := o; geo_inverse := iv; geo_cell := c; geo_inv_cell := ic; geo_size := s |};
     vg_init := i; vg_default := df; vg_oob := ob; vg_data := d;
     vg_s1 := s1; vg_s2 := s2; vg_nx := nx; vg_ny := ny; vg_nz := nz |}.

(** voxel_grid.hpp:390-426 SerializeSelf. *)
Definition ser_vgrid : serializer (vgrid T) :=
  fun g buf =>
    ser_then ser_flag (ser_then ser_iso (ser_then ser_iso (ser_then (ser_vector (ser_u64 le) sv)
   (ser_then ser_3 (ser_then ser_3 (ser_then ser_3
   (ser_then si (ser_then si (ser_then si (ser_then si (ser_then si
   (ser_then sv sv)))))))))))) (fields g) buf.

(** voxel_grid.hpp:428-521 DeserializeSelf. *)
Definition de_vgrid : deserializer (vgrid T) :=
  fun buf cur =>
    let! r :=
      de_then de_flag (de_then de_iso (de_then de_iso (de_then (de_vector dbg maxr (de_u64 dbg le) dv)
     (de_then de_3 (de_then de_3 (de_then de_3
     (de_then di (de_then di (de_then di (de_then di (de_then di
     (de_then dv dv)))))))))))) buf cur in
    Ok (unfields (fst r), snd r).

Context (okv : T -> Prop).
Hypothesis RV : round_trips okv sv dv.

Definition ok3 (p : N * N * N) : Prop := (u64_ok (fst (fst p)) /\ u64_ok (snd (fst p))) /\ u64_ok (snd p).
Definition iso_ok (l : list N) : Prop := length l = 16 /\ Forall u64_ok l.

(** Every grid the machine can hold: 64-bit doubles and integers, values the client's codec accepts. *)
Definition vgrid_ok (g : vgrid T) : Prop :=
  iso_ok (geo_origin (vg_geo g)) /\ iso_ok (geo_inverse (vg_geo g)) /\
  (Forall okv (vg_data g) /\ size_ok maxr (vg_data g)) /\
  ok3 (geo_cell (vg_geo g)) /\ ok3 (geo_inv_cell (vg_geo g)) /\ ok3 (geo_size (vg_geo g)) /\
  i64_ok (vg_s1 g) /\ i64_ok (vg_s2 g) /\ i64_ok (vg_nx g) /\ i64_ok (vg_ny g) /\ i64_ok (vg_nz g) /\
  okv (vg_default g) /\ okv (vg_oob g).

Lemma flag_rt : round_trips (fun _ => True) ser_flag de_flag.
Proof.
  intros b _. destruct (pod_round_trips _ _ dbg (uint_pod_faithful le 1 (Nat.neq_succ_0 0)) (if b then 1 else 0)%N)
    as (bs & N & S & D); [destruct b; reflexivity|].
  exists bs. split; [auto|]. split; [exact S|].
  intros pre post. unfold de_flag. rewrite D. cbn [obind fst snd]. destruct b; reflexivity.
Qed.

Lemma iso_rt : round_trips iso_ok ser_iso de_iso.
Proof.
  intros l (L & F).
  destruct (fixed_round_trips dbg le 16 8 4 4 (Nat.neq_succ_0 7) eq_refl (iso_of l)) as (bs & N & S & D).
  - unfold matrix_ok, static_ok, iso_of; cbn [em_rows em_cols em_data].
    split; [reflexivity|]. split; [reflexivity|]. split; [reflexivity|]. split; [reflexivity|].
    split; [discriminate|]. split; [exact L|exact F].
  - exists bs. split; [auto|]. split; [exact S|].
    intros pre post. unfold de_iso. rewrite D. reflexivity.
Qed.

Lemma three_rt : round_trips ok3 ser_3 de_3.
Proof. apply (then_round_trips (fun p => u64_ok (fst p) /\ u64_ok (snd p)) u64_ok); [apply then_round_trips|]; apply f64_rt. Qed.

Lemma vgrid_round_trips : round_trips vgrid_ok ser_vgrid de_vgrid.
Proof.
  pose proof (i64_rt dbg le) as RI.
  pose proof (vector_round_trips _ _ _ RV dbg maxr _ _ (u64_round_trips dbg le)) as RD.
  intros g H.
  refine (iso_round_trips _ _ _ fields unfields _
    (then_round_trips _ _ _ _ _ _ flag_rt
    (then_round_trips _ _ _ _ _ _ iso_rt
    (then_round_trips _ _ _ _ _ _ iso_rt
    (then_round_trips _ _ _ _ _ _ RD
    (then_round_trips _ _ _ _ _ _ three_rt
    (then_round_trips _ _ _ _ _ _ three_rt
    (then_round_trips _ _ _ _ _ _ three_rt
    (then_round_trips _ _ _ _ _ _ RI
    (then_round_trips _ _ _ _ _ _ RI
    (then_round_trips _ _ _ _ _ _ RI
    (then_round_trips _ _ _ _ _ _ RI
    (then_round_trips _ _ _ _ _ _ RI
    (then_round_trips _ _ _ _ _ _ RV RV))))))))))))) g _).
  - intros [[? ? ? ? ?] ? ? ? ? ? ? ? ? ?]; reflexivity.
  - cbn [fields fst snd]. unfold vgrid_ok in H. split; [exact I|exact H].
Qed.
End V.
