(** Round trip of graph serialization. *)
From Verif Require Import Base SerModel SerSpec SerProofs GraphModel GraphSpec.
From Coq Require Import Strings.Byte.

(** Reading back at any place described up to reassociation. *)
Lemma read_at {A} (de : deserializer A) b a :
  (forall pre post, de (pre ++ b ++ post) (length pre) = Ok (a, length b)) ->
  forall buf cur pre post, buf = pre ++ b ++ post -> cur = length pre -> de buf cur = Ok (a, length b).
Proof. intros H buf cur pre post -> ->. apply H. Qed.

Definition i64_ok (z : Z) : Prop := (- 2 ^ 63 <= z < 2 ^ 63)%Z.
Definition edge_ok (e : edge N) : Prop := i64_ok (e_from e) /\ i64_ok (e_to e) /\ u64_ok (e_weight e).
Definition size_ok {A} (maxr : N) (l : list A) : Prop :=
  u64_ok (N.of_nat (length l)) /\ (N.of_nat (length l) <= maxr)%N.
Definition node_ok {V} (maxr : N) (okv : V -> Prop) (n : node V N) : Prop :=
  okv (n_value n) /\ u64_ok (n_dist n) /\
  (Forall edge_ok (n_in n) /\ size_ok maxr (n_in n)) /\ (Forall edge_ok (n_out n) /\ size_ok maxr (n_out n)).

Section S.
Variables (dbg host_le : bool) (maxr : N).

Lemma i64_rt : round_trips i64_ok (ser_pod (i64_pod host_le)) (de_pod dbg (i64_pod host_le)).
Proof. apply pod_round_trips. exact (sint_pod_faithful host_le 8 (Nat.neq_succ_0 7)). Qed.
Lemma f64_rt : round_trips u64_ok (ser_pod (f64_pod host_le)) (de_pod dbg (f64_pod host_le)).
Proof. apply pod_round_trips. exact (uint_pod_faithful host_le 8 (Nat.neq_succ_0 7)). Qed.
Lemma validity_rt : round_trips (fun _ => True) (ser_pod (validity_pod host_le)) (de_pod dbg (validity_pod host_le)).
Proof.
  apply pod_round_trips. split; [discriminate|]. split.
  - intros x. apply mem_of_length.
  - intros x _. cbn [validity_pod pod_rep pod_abs].
    rewrite of_mem_of by (destruct x; reflexivity). destruct x; reflexivity.
Qed.

Lemma len_sub4 {A} (buf b1 b2 b3 b4 : list A) :
  length ((((buf ++ b1) ++ b2) ++ b3) ++ b4) - length buf = length (b1 ++ b2 ++ b3 ++ b4).
Proof. rewrite !app_length. lia. Qed.

Ltac reads D pre' post' :=
  rewrite (read_at _ _ _ D _ _ pre' post');
  [cbn [obind fst snd] | rewrite <- ?app_assoc; reflexivity | rewrite ?app_length; lia].

Lemma edge_round_trips : round_trips edge_ok (ser_edge host_le) (de_edge dbg host_le).
Proof.
  intros e (H1 & H2 & H3).
  destruct (i64_rt _ H1) as (b1 & N1 & S1 & D1). destruct (i64_rt _ H2) as (b2 & N2 & S2 & D2).
  destruct (f64_rt _ H3) as (b3 & N3 & S3 & D3). destruct (validity_rt (e_valid e) I) as (b4 & N4 & S4 & D4).
  exists (b1 ++ b2 ++ b3 ++ b4). split; [|split].
  - intros E. apply app_eq_nil in E. tauto.
  - intros buf. unfold ser_edge. rewrite S1. cbn [obind fst]. rewrite S2. cbn [obind fst].
    rewrite S3. cbn [obind fst]. rewrite S4. cbn [obind fst]. rewrite len_sub4, <- !app_assoc. reflexivity.
  - intros pre post. unfold de_edge.
    reads D1 pre ((b2 ++ b3 ++ b4) ++ post).
    reads D2 (pre ++ b1) (b3 ++ b4 ++ post).
    reads D3 (pre ++ b1 ++ b2) (b4 ++ post).
    reads D4 (pre ++ b1 ++ b2 ++ b3) post.
    destruct e as [f t w v]. cbn [e_from e_to e_weight e_valid]. do 2 f_equal. rewrite !app_length. lia.
Qed.

Lemma edges_round_trip :
  round_trips (fun l => Forall edge_ok l /\ size_ok maxr l)
    (ser_vector (ser_u64 host_le) (ser_edge host_le)) (de_vector dbg maxr (de_u64 dbg host_le) (de_edge dbg host_le)).
Proof. apply vector_round_trips; [apply edge_round_trips | apply u64_round_trips]. Qed.

Context {V : Type} (okv : V -> Prop) (sv : serializer V) (dv : deserializer V).
Hypothesis RV : round_trips okv sv dv.

Lemma node_round_trips : round_trips (node_ok maxr okv) (ser_node host_le sv) (de_node dbg host_le maxr dv).
Proof.
  intros n (H1 & H2 & H3 & H4).
  destruct (RV _ H1) as (b1 & N1 & S1 & D1). destruct (f64_rt _ H2) as (b2 & N2 & S2 & D2).
  destruct (edges_round_trip _ H3) as (b3 & N3 & S3 & D3). destruct (edges_round_trip _ H4) as (b4 & N4 & S4 & D4).
  exists (b1 ++ b2 ++ b3 ++ b4). split; [|split].
  - intros E. apply app_eq_nil in E. tauto.
  - intros buf. unfold ser_node. rewrite S1. cbn [obind fst]. rewrite S2. cbn [obind fst].
    rewrite S3. cbn [obind fst]. rewrite S4. cbn [obind fst]. rewrite len_sub4, <- !app_assoc. reflexivity.
  - intros pre post. unfold de_node.
    reads D1 pre ((b2 ++ b3 ++ b4) ++ post).
    reads D2 (pre ++ b1) (b3 ++ b4 ++ post).
    reads D3 (pre ++ b1 ++ b2) (b4 ++ post).
    reads D4 (pre ++ b1 ++ b2 ++ b3) post.
    destruct n as [v d i o]. cbn [n_value n_dist n_in n_out]. do 2 f_equal. rewrite !app_length. lia.
Qed.

Lemma graph_round_trips :
  round_trips (fun g => Forall (node_ok maxr okv) g /\ size_ok maxr g)
    (ser_graph host_le sv) (de_graph dbg host_le maxr dv).
Proof.
  intros g H.
  destruct (vector_round_trips _ _ _ node_round_trips dbg maxr _ _ (u64_round_trips dbg host_le) g H)
    as (b & N & S & D).
  exists b. split; [exact N|]. split; [|exact D].
  intros buf. unfold ser_graph. rewrite S. cbn [obind fst]. rewrite app_sub_length. reflexivity.
Qed.
End S.
