(** A universe of the types that can be serialized by nesting the library's functions; the codec of each
    type is the corresponding composition of library calls (serialization.hpp:118-589). *)
From Verif Require Import Base SerModel SerSpec SerProofs.
From Coq Require Import Strings.Byte.

Inductive ty :=
| TUint (n : nat)            (* uint8_t .. uint64_t, size_t, bool, and float/double as their bit patterns: n bytes *)
| TSint (n : nat)            (* int8_t .. int64_t, char: n bytes *)
| TString (n : nat)          (* basic_string of n-byte characters *)
| TVector (t : ty)           (* std::vector, or vector-like *)
| TPair (t1 t2 : ty)
| TMap (n : nat) (t : ty).   (* std::map with n-byte unsigned keys *)

Fixpoint wf (t : ty) : Prop :=
  match t with
  | TUint n | TSint n | TString n => n <> 0
  | TVector t => wf t
  | TPair t1 t2 => wf t1 /\ wf t2
  | TMap n t => n <> 0 /\ wf t
  end.

Fixpoint val (t : ty) : Type :=
  match t with
  | TUint _ => N
  | TSint _ => Z
  | TString _ => list Z
  | TVector t => list (val t)
  | TPair t1 t2 => val t1 * val t2
  | TMap _ t => list (N * val t)
  end.

Definition uint_in (n : nat) (x : N) : Prop := (x < 256 ^ N.of_nat n)%N.
Definition sint_in (n : nat) (z : Z) : Prop := (- 2 ^ (8 * Z.of_nat n - 1) <= z < 2 ^ (8 * Z.of_nat n - 1))%Z.
Definition len_in {A} (maxr : N) (l : list A) : Prop :=
  (N.of_nat (length l) < 2 ^ 64)%N /\ (N.of_nat (length l) <= maxr)%N.

(** Values representable in the C++ type, of a size that can be allocated. *)
Fixpoint fits (maxr : N) (t : ty) : val t -> Prop :=
  match t with
  | TUint n => uint_in n
  | TSint n => sint_in n
  | TString n => fun l => Forall (sint_in n) l /\ len_in maxr l
  | TVector t => fun l => Forall (fits maxr t) l /\ len_in maxr l
  | TPair t1 t2 => fun ab => fits maxr t1 (fst ab) /\ fits maxr t2 (snd ab)
  | TMap n t => fun m => Forall (fun kv => uint_in n (fst kv) /\ fits maxr t (snd kv)) m /\
                         key_sorted N.ltb m /\ (N.of_nat (length m) < 2 ^ 64)%N
  end.

(** [net] selects the network-order functions. *)
Definition ser_p {T} (net le : bool) (p : pod T) := if net then ser_net_pod le p else ser_pod p.
Definition de_p {T} (net dbg le : bool) (p : pod T) := if net then de_net_pod dbg le p else de_pod dbg p.

Fixpoint ser (net dbg le : bool) (t : ty) : serializer (val t) :=
  match t with
  | TUint n => ser_p net le (uint_pod le n)
  | TSint n => ser_p net le (sint_pod le n)
  | TString n => ser_vector (ser_p net le (uint_pod le 8)) (ser_p net le (sint_pod le n))
  | TVector t => ser_vector (ser_p net le (uint_pod le 8)) (ser net dbg le t)
  | TPair t1 t2 => ser_pair dbg (ser net dbg le t1) (ser net dbg le t2)
  | TMap n t => ser_map dbg (ser_p net le (uint_pod le 8)) (ser_p net le (uint_pod le n)) (ser net dbg le t)
  end.

Fixpoint de (net dbg le : bool) (maxr : N) (t : ty) : deserializer (val t) :=
  match t with
  | TUint n => de_p net dbg le (uint_pod le n)
  | TSint n => de_p net dbg le (sint_pod le n)
  | TString n => de_vector dbg maxr (de_p net dbg le (uint_pod le 8)) (de_p net dbg le (sint_pod le n))
  | TVector t => de_vector dbg maxr (de_p net dbg le (uint_pod le 8)) (de net dbg le maxr t)
  | TPair t1 t2 => de_pair dbg (de net dbg le maxr t1) (de net dbg le maxr t2)
  | TMap n t => de_map dbg N.ltb (de_p net dbg le (uint_pod le 8)) (de_p net dbg le (uint_pod le n))
                  (de net dbg le maxr t)
  end.

Lemma round_trips_weaken {A} (ok ok' : A -> Prop) s d :
  (forall a, ok' a -> ok a) -> round_trips ok s d -> round_trips ok' s d.
Proof. intros H R a Ha. apply R. auto. Qed.

Lemma p_round_trips {T} ok (p : pod T) net dbg le :
  pod_faithful ok p -> round_trips ok (ser_p net le p) (de_p net dbg le p).
Proof. intros H; destruct net; [apply net_pod_round_trips|apply pod_round_trips]; auto. Qed.

Lemma size_round_trips net dbg le :
  round_trips u64_ok (ser_p net le (uint_pod le 8)) (de_p net dbg le (uint_pod le 8)).
Proof. apply p_round_trips. exact (uint_pod_faithful le 8 (Nat.neq_succ_0 7)). Qed.

Lemma N_ltb_strict : strict_order N.ltb.
Proof. split; intros; lia. Qed.

Lemma ty_round_trips net dbg le maxr t : wf t ->
  round_trips (fits maxr t) (ser net dbg le t) (de net dbg le maxr t).
Proof.
  induction t as [n|n|n|t IH|t1 IH1 t2 IH2|n t IH]; simpl; intros W.
  - apply p_round_trips, uint_pod_faithful; auto.
  - apply p_round_trips, sint_pod_faithful; auto.
  - eapply round_trips_weaken; [|apply vector_round_trips; [apply p_round_trips, (sint_pod_faithful le n W)|apply size_round_trips]].
    intros l (H1 & H2 & H3). repeat split; eauto.
  - eapply round_trips_weaken; [|apply vector_round_trips; [apply IH; auto|apply size_round_trips]].
    intros l (H1 & H2 & H3). repeat split; eauto.
  - destruct W. apply pair_round_trips; auto.
  - destruct W as [Wn Wt].
    apply map_round_trips; [apply N_ltb_strict|apply size_round_trips|apply p_round_trips, uint_pod_faithful; auto|auto].
Qed.

Lemma p_in_bounds {T} (p : pod T) net le : in_bounds (de_p net true le p).
Proof. destruct net; [apply net_pod_in_bounds|apply pod_in_bounds]. Qed.

Lemma ty_in_bounds net le maxr t : in_bounds (de net true le maxr t).
Proof.
  induction t as [n|n|n|t IH|t1 IH1 t2 IH2|n t IH]; simpl;
    repeat first [apply p_in_bounds | assumption | apply vector_in_bounds | apply pair_in_bounds | apply map_in_bounds].
Qed.

Lemma p_local {T} (p : pod T) net le : pod_size p <> 0 -> reads_only_reported (de_p net true le p).
Proof. destruct net; [apply net_pod_local|apply pod_local]. Qed.

Lemma map_local {K V} ltb de_size (dek : deserializer K) (dev : deserializer V) :
  in_bounds de_size -> in_bounds dek -> in_bounds dev ->
  reads_only_reported de_size -> reads_only_reported dek -> reads_only_reported dev ->
  reads_only_reported (de_map true ltb de_size dek dev).
Proof.
  intros BS BK BV RS RK RV pre mid post l n H Hn.
  assert (BI := pair_in_bounds _ _ BK BV). assert (RI := pair_local _ _ BK BV RK RV).
  unfold de_map, cassert in H; simpl in H.
  destruct (Nat.ltb_spec (length pre) (length (pre ++ mid ++ post))); simpl in H; [|discriminate].
  destruct (BS (pre ++ mid ++ post) (length pre)) as (_ & _ & HB).
  destruct (de_size (pre ++ mid ++ post) (length pre)) as [[sz k]|e| | |] eqn:E; simpl in H; try discriminate.
  specialize (HB _ _ eq_refl).
  destruct (items_in_bounds _ BI (N.to_nat sz) (pre ++ mid ++ post) (length pre + k) HB) as (_ & _ & HB').
  destruct (de_items (de_pair true dek dev) (pre ++ mid ++ post) (N.to_nat sz) (length pre + k))
    as [[l' p]|e| | |] eqn:E2; simpl in H; try discriminate.
  specialize (HB' _ _ eq_refl). injection H; intros Hnp Hl. clear H.
  destruct (split_at mid k) as (m1 & m2 & -> & Hm1); [lia|].
  rewrite <- app_assoc in E.
  destruct (RS _ _ _ _ _ E) as [Hk G]; [auto|].
  split; [rewrite app_length in Hn; lia|].
  intros pre' post'. unfold de_map.
  rewrite cassert_true by (apply Nat.ltb_lt; rewrite !app_length; lia).
  rewrite <- app_assoc, G. simpl.
  assert (E3 : de_items (de_pair true dek dev) ((pre ++ m1) ++ m2 ++ post) (N.to_nat sz) (length (pre ++ m1)) = Ok (l', p)).
  { rewrite <- app_assoc, app_length, Hm1. rewrite <- app_assoc in E2. exact E2. }
  pose proof (items_local _ BI RI _ _ _ _ _ _ E3) as G2.
  rewrite app_length in G2, Hn. specialize (G2 ltac:(lia) (pre' ++ m1) post').
  rewrite <- app_assoc, app_length, Hm1 in G2. rewrite G2. simpl. rewrite Hl. f_equal. f_equal. lia.
Qed.

Lemma ty_local net le maxr t : wf t -> reads_only_reported (de net true le maxr t).
Proof.
  induction t as [n|n|n|t IH|t1 IH1 t2 IH2|n t IH]; simpl; intros W.
  - apply p_local; auto.
  - apply p_local; auto.
  - apply vector_local; try apply p_in_bounds; apply p_local; simpl; auto.
  - apply vector_local; try apply p_in_bounds; try apply ty_in_bounds; auto. apply p_local; simpl; auto.
  - destruct W. apply pair_local; try apply ty_in_bounds; auto.
  - destruct W. apply map_local; try apply p_in_bounds; try apply ty_in_bounds; auto; apply p_local; simpl; auto.
Qed.

(** Wire format. *)
Lemma items_wire {A} (s : serializer A) (enc : A -> list byte) l :
  Forall (fun a => writes s a (enc a)) l ->
  forall buf, ser_items s l buf = Ok (buf ++ concat (map enc l)).
Proof.
  induction 1 as [|a l Ha Hl IH]; intros buf; simpl.
  - rewrite app_nil_r; auto.
  - rewrite Ha. simpl. rewrite IH, app_assoc. reflexivity.
Qed.

Lemma vector_wire {A} (ssize : serializer N) (s : serializer A) (enc : A -> list byte) l hb :
  (N.of_nat (length l) < 2 ^ 64)%N ->
  writes ssize (N.of_nat (length l)) hb -> Forall (fun a => writes s a (enc a)) l ->
  writes (ser_vector ssize s) l (hb ++ concat (map enc l)).
Proof.
  intros Hl Hh Hi buf. unfold ser_vector. rewrite N.mod_small by auto. rewrite Hh. simpl.
  rewrite (items_wire s enc l Hi). simpl. rewrite <- app_assoc, app_sub_length. reflexivity.
Qed.

Lemma pair_wire {A B} dbg (s1 : serializer A) (s2 : serializer B) a b ba bb :
  writes s1 a ba -> writes s2 b bb -> writes (ser_pair dbg s1 s2) (a, b) (ba ++ bb).
Proof.
  intros H1 H2 buf. unfold ser_pair. simpl. rewrite H1. simpl. rewrite H2. simpl.
  rewrite <- app_assoc, app_sub_length, cassert_true; auto.
  apply Nat.eqb_eq. rewrite app_length; auto.
Qed.

Lemma map_wire {K V} dbg (ssize : serializer N) (sk : serializer K) (sv : serializer V) ek ev m hb :
  (N.of_nat (length m) < 2 ^ 64)%N ->
  writes ssize (N.of_nat (length m)) hb ->
  Forall (fun kv => writes sk (fst kv) (ek (fst kv)) /\ writes sv (snd kv) (ev (snd kv))) m ->
  writes (ser_map dbg ssize sk sv) m (hb ++ concat (map (fun kv => ek (fst kv) ++ ev (snd kv)) m)).
Proof.
  intros Hl Hh Hi buf. unfold ser_map. rewrite N.mod_small by auto. rewrite Hh. simpl.
  rewrite (items_wire (ser_pair dbg sk sv) (fun kv => ek (fst kv) ++ ev (snd kv)) m).
  - simpl. rewrite <- app_assoc, app_sub_length. reflexivity.
  - eapply Forall_impl; [|exact Hi]. intros [k v] [H1 H2]. simpl in *. apply pair_wire; auto.
Qed.

(** Network-order scalars: big-endian on every host. *)
Lemma net_uint_wire le n x : (x < 256 ^ N.of_nat n)%N ->
  exists bytes, writes (ser_net_pod le (uint_pod le n)) x bytes /\ length bytes = n /\ be_value bytes = x.
Proof.
  intros H. exists (rev (le_bytes n x)). repeat split.
  - intros buf. rewrite net_pod_writes by apply mem_of_length. simpl.
    rewrite of_mem_of, net_bytes by auto. reflexivity.
  - rewrite rev_length; apply le_bytes_length.
  - rewrite be_value_rev. apply le_value_bytes; auto.
Qed.

Lemma net_sint_wire le n z :
  exists bytes, writes (ser_net_pod le (sint_pod le n)) z bytes /\ length bytes = n /\
                (Z.of_N (be_value bytes) = z mod 2 ^ (8 * Z.of_nat n))%Z.
Proof.
  exists (rev (le_bytes n (sint_bits n z))). repeat split.
  - intros buf. rewrite net_pod_writes by apply mem_of_length. simpl.
    rewrite of_mem_of by apply sint_bits_bound. rewrite net_bytes by apply sint_bits_bound. reflexivity.
  - rewrite rev_length; apply le_bytes_length.
  - rewrite be_value_rev, le_value_bytes by apply sint_bits_bound. unfold sint_bits.
    rewrite Z2N.id; auto. apply Z.mod_pos_bound, Z.pow_pos_nonneg; lia.
Qed.

(** Same bytes on both kinds of host, for every type. *)
Lemma le_bytes_inj n x y : (x < 256 ^ N.of_nat n)%N -> (y < 256 ^ N.of_nat n)%N ->
  le_bytes n x = le_bytes n y -> x = y.
Proof. intros Hx Hy E. rewrite <- (le_value_bytes n x Hx), E. apply le_value_bytes; auto. Qed.

Lemma ser_net_uint_eq le n x buf : (x < 256 ^ N.of_nat n)%N ->
  ser_net_pod le (uint_pod le n) x buf = Ok (buf ++ rev (le_bytes n x), n).
Proof.
  intros H. rewrite net_pod_writes by apply mem_of_length. cbn [pod_size pod_rep uint_pod].
  rewrite of_mem_of, net_bytes, rev_length, le_bytes_length by auto. reflexivity.
Qed.

Lemma ser_net_uint_host le n x buf : (x < 256 ^ N.of_nat n)%N ->
  ser_net_pod le (uint_pod le n) x buf = ser_net_pod true (uint_pod true n) x buf.
Proof. intros H. rewrite !ser_net_uint_eq; auto. Qed.

Lemma ser_net_sint_eq le n z buf :
  ser_net_pod le (sint_pod le n) z buf = Ok (buf ++ rev (le_bytes n (sint_bits n z)), n).
Proof.
  rewrite net_pod_writes by apply mem_of_length. cbn [pod_size pod_rep sint_pod].
  rewrite of_mem_of by apply sint_bits_bound.
  rewrite net_bytes, rev_length, le_bytes_length by apply sint_bits_bound. reflexivity.
Qed.

Lemma ser_net_sint_host le n z buf :
  ser_net_pod le (sint_pod le n) z buf = ser_net_pod true (sint_pod true n) z buf.
Proof. rewrite !ser_net_sint_eq; auto. Qed.

Lemma ser_items_ext {A} (s s' : serializer A) l buf :
  Forall (fun a => forall b, s a b = s' a b) l -> ser_items s l buf = ser_items s' l buf.
Proof.
  intros H; revert buf; induction H as [|a l Ha Hl IH]; intros buf; simpl; auto.
  rewrite Ha. destruct (s' a buf); simpl; auto.
Qed.

Lemma ty_host_independent dbg le maxr t v buf : fits maxr t v ->
  ser true dbg le t v buf = ser true dbg true t v buf.
Proof.
  revert v buf; induction t as [n|n|n|t IH|t1 IH1 t2 IH2|n t IH]; simpl; intros v buf F.
  - apply ser_net_uint_host; auto.
  - apply ser_net_sint_host.
  - unfold ser_vector, ser_p. rewrite ser_net_uint_host.
    2:{ rewrite u64_pow. apply N.mod_lt. discriminate. }
    destruct (ser_net_pod true (uint_pod true 8) _ buf); simpl; auto.
    erewrite ser_items_ext; [reflexivity|]. apply Forall_forall. intros; apply ser_net_sint_host.
  - unfold ser_vector, ser_p. rewrite ser_net_uint_host.
    2:{ rewrite u64_pow. apply N.mod_lt. discriminate. }
    destruct (ser_net_pod true (uint_pod true 8) _ buf); simpl; auto.
    erewrite ser_items_ext; [reflexivity|]. destruct F as [F _].
    eapply Forall_impl; [|exact F]. intros; apply IH; auto.
  - unfold ser_pair. destruct F. rewrite IH1 by auto.
    destruct (ser true dbg true t1 (fst v) buf); simpl; auto. rewrite IH2 by auto. reflexivity.
  - unfold ser_map, ser_p. rewrite ser_net_uint_host.
    2:{ rewrite u64_pow. apply N.mod_lt. discriminate. }
    destruct (ser_net_pod true (uint_pod true 8) _ buf); simpl; auto.
    erewrite ser_items_ext; [reflexivity|]. destruct F as (F & _).
    eapply Forall_impl; [|exact F]. intros kv [Hk Hv] b. unfold ser_pair.
    rewrite ser_net_uint_host by auto.
    destruct (ser_net_pod true (uint_pod true n) (fst kv) b); simpl; auto.
    rewrite IH by auto. reflexivity.
Qed.
