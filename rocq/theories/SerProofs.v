From Verif Require Import Base SerModel SerSpec.
From Coq Require Import Strings.Byte.

(** ** Bytes of integers *)

Lemma le_bytes_length n x : length (le_bytes n x) = n.
Proof. revert x; induction n as [|n IH]; intros x; simpl; auto. Qed.

Lemma pow256_succ n : (256 ^ N.of_nat (S n) = 256 * 256 ^ N.of_nat n)%N.
Proof. rewrite Nat2N.inj_succ, N.pow_succ_r'. reflexivity. Qed.

Lemma le_value_bytes n x : (x < 256 ^ N.of_nat n)%N -> le_value (le_bytes n x) = x.
Proof.
  revert x; induction n as [|n IH]; intros x H.
  - simpl in *. lia.
  - cbn [le_bytes le_value]. rewrite pow256_succ in H.
    rewrite byte_to_of_N by (apply N.mod_lt; discriminate).
    rewrite IH.
    + pose proof (N.div_mod' x 256). lia.
    + apply N.div_lt_upper_bound; lia.
Qed.

Lemma le_value_bound l : (le_value l < 256 ^ N.of_nat (length l))%N.
Proof.
  induction l as [|b l IH].
  - simpl. lia.
  - cbn [le_value length]. rewrite pow256_succ. pose proof (byte_to_N_bound b). nia.
Qed.

Lemma le_bytes_value l : le_bytes (length l) (le_value l) = l.
Proof.
  induction l as [|b l IH]; auto.
  cbn [le_value length le_bytes].
  pose proof (byte_to_N_bound b) as Hb.
  replace ((Byte.to_N b + 256 * le_value l) mod 256)%N with (Byte.to_N b).
  2:{ rewrite N.mul_comm, N.mod_add by discriminate. symmetry; apply N.mod_small; auto. }
  replace ((Byte.to_N b + 256 * le_value l) / 256)%N with (le_value l).
  2:{ rewrite N.mul_comm, N.div_add by discriminate. rewrite N.div_small by auto. reflexivity. }
  rewrite byte_of_to_N, IH. reflexivity.
Qed.

Lemma mem_of_length le n x : length (mem_of le n x) = n.
Proof. unfold mem_of; destruct le; rewrite ?rev_length; apply le_bytes_length. Qed.

Lemma of_mem_of le n x : (x < 256 ^ N.of_nat n)%N -> of_mem le (mem_of le n x) = x.
Proof.
  unfold of_mem, mem_of; intros H; destruct le; rewrite ?rev_involutive; apply le_value_bytes; auto.
Qed.

Lemma mem_of_mem le l : mem_of le (length l) (of_mem le l) = l.
Proof.
  unfold of_mem, mem_of; destruct le.
  - apply le_bytes_value.
  - rewrite <- (rev_length l), le_bytes_value. apply rev_involutive.
Qed.

Lemma of_mem_bound le l : (of_mem le l < 256 ^ N.of_nat (length l))%N.
Proof.
  unfold of_mem; destruct le; [apply le_value_bound|].
  rewrite <- (rev_length l). apply le_value_bound.
Qed.

Lemma hto_be_bound le n x : (x < 256 ^ N.of_nat n)%N -> (hto_be le n x < 256 ^ N.of_nat n)%N.
Proof.
  unfold hto_be; destruct le; auto. intros _.
  pose proof (le_value_bound (rev (le_bytes n x))) as H.
  rewrite rev_length, le_bytes_length in H. exact H.
Qed.

Lemma hto_be_involutive le n x : (x < 256 ^ N.of_nat n)%N -> hto_be le n (hto_be le n x) = x.
Proof.
  unfold hto_be; destruct le; auto. intros H.
  pose proof (le_bytes_value (rev (le_bytes n x))) as E.
  rewrite rev_length, le_bytes_length in E.
  rewrite E, rev_involutive. apply le_value_bytes; auto.
Qed.

(** The bytes written by the network serializer are the reversed little-endian image, on any host. *)
Lemma net_bytes le n x : (x < 256 ^ N.of_nat n)%N -> mem_of le n (hto_be le n x) = rev (le_bytes n x).
Proof.
  intros H. unfold hto_be, mem_of; destruct le; auto.
  pose proof (le_bytes_value (rev (le_bytes n x))) as E.
  rewrite rev_length, le_bytes_length in E. exact E.
Qed.

Lemma be_value_app l1 l2 :
  (be_value (l1 ++ l2) = be_value l1 * 256 ^ N.of_nat (length l2) + be_value l2)%N.
Proof.
  induction l1 as [|b l1 IH]; simpl; auto.
  rewrite IH, app_length, Nat2N.inj_add, N.pow_add_r. lia.
Qed.

Lemma be_value_rev l : be_value (rev l) = le_value l.
Proof.
  induction l as [|b l IH]; auto.
  cbn [rev le_value]. rewrite be_value_app, IH. cbn [length be_value].
  change (N.of_nat 1) with 1%N. change (N.of_nat 0) with 0%N. rewrite N.pow_0_r, N.pow_1_r. lia.
Qed.

(** ** Faithful PODs *)

Lemma uint_pod_faithful le n : n <> 0 -> pod_faithful (fun x => (x < 256 ^ N.of_nat n)%N) (uint_pod le n).
Proof.
  intros H; repeat split; simpl; auto.
  - intros x; apply mem_of_length.
  - intros x Hx; apply of_mem_of; auto.
Qed.

Lemma pow256_Z n : Z.of_N (256 ^ N.of_nat n) = (2 ^ (8 * Z.of_nat n))%Z.
Proof.
  rewrite N2Z.inj_pow, nat_N_Z. change (Z.of_N 256) with (2 ^ 8)%Z.
  rewrite <- Z.pow_mul_r by lia. reflexivity.
Qed.

Lemma sint_wrap_bits n z :
  n <> 0 -> (- 2 ^ (8 * Z.of_nat n - 1) <= z < 2 ^ (8 * Z.of_nat n - 1))%Z ->
  sint_wrap n (sint_bits n z) = z.
Proof.
  intros Hn Hz. unfold sint_wrap, sint_bits.
  set (m := (2 ^ (8 * Z.of_nat n))%Z).
  assert (Hm : (m = 2 * 2 ^ (8 * Z.of_nat n - 1))%Z).
  { unfold m. rewrite <- (Z.pow_succ_r 2) by lia. f_equal. lia. }
  set (h := (2 ^ (8 * Z.of_nat n - 1))%Z) in *.
  assert (Hh : (0 < h)%Z) by (apply Z.pow_pos_nonneg; lia).
  rewrite Z2N.id by (apply Z.mod_pos_bound; lia).
  destruct (Z.ltb_spec z 0).
  - assert (E : (z mod m = z + m)%Z) by (symmetry; apply Z.mod_unique with (-1)%Z; lia).
    rewrite E. destruct (Z.ltb_spec (2 * (z + m)) m); lia.
  - rewrite Z.mod_small by lia. destruct (Z.ltb_spec (2 * z) m); lia.
Qed.

Lemma sint_bits_bound n z : (sint_bits n z < 256 ^ N.of_nat n)%N.
Proof.
  assert (H : (0 <= z mod 2 ^ (8 * Z.of_nat n) < 2 ^ (8 * Z.of_nat n))%Z).
  { apply Z.mod_pos_bound. apply Z.pow_pos_nonneg; lia. }
  rewrite <- pow256_Z in *. unfold sint_bits. rewrite <- pow256_Z. lia.
Qed.

Lemma sint_pod_faithful le n :
  n <> 0 ->
  pod_faithful (fun z => - 2 ^ (8 * Z.of_nat n - 1) <= z < 2 ^ (8 * Z.of_nat n - 1))%Z (sint_pod le n).
Proof.
  intros H; repeat split; simpl; auto.
  - intros x; apply mem_of_length.
  - intros x Hx. rewrite of_mem_of by apply sint_bits_bound. apply sint_wrap_bits; auto.
Qed.

(** ** Reading *)

Lemma read_bytes_middle pre mid post :
  read_bytes (pre ++ mid ++ post) (length pre) (length mid) = Ok mid.
Proof.
  unfold read_bytes. rewrite !app_length.
  destruct (Nat.leb_spec (length pre + length mid) (length pre + (length mid + length post))); [|lia].
  rewrite skipn_app, skipn_all, Nat.sub_diag. simpl.
  rewrite firstn_app, firstn_all, Nat.sub_diag. simpl. rewrite app_nil_r. reflexivity.
Qed.

Lemma cassert_true {A} dbg c (k : outcome A) : c = true -> cassert dbg c k = k.
Proof. intros ->; unfold cassert; rewrite Bool.andb_false_r; reflexivity. Qed.

Lemma app_sub_length {A} (a b : list A) : length (a ++ b) - length a = length b.
Proof. rewrite app_length; lia. Qed.

Lemma ser_pod_writes {T} (p : pod T) x : writes (ser_pod p) x (pod_rep p x).
Proof. intros buf; unfold ser_pod. rewrite app_sub_length. reflexivity. Qed.

Lemma pod_round_trips {T} (ok : T -> Prop) (p : pod T) dbg :
  pod_faithful ok p -> round_trips ok (ser_pod p) (de_pod dbg p).
Proof.
  intros (Hs & Hl & Ha) x Hx. exists (pod_rep p x). repeat split.
  - intros E. specialize (Hl x). rewrite E in Hl. simpl in Hl. congruence.
  - apply ser_pod_writes.
  - intros pre post. unfold de_pod.
    rewrite !cassert_true by (rewrite ?app_length, ?Hl; apply Nat.leb_le; lia).
    rewrite <- (Hl x), read_bytes_middle. simpl. rewrite Ha; auto.
Qed.

Lemma net_pod_writes {T} le (p : pod T) x :
  length (pod_rep p x) = pod_size p ->
  writes (ser_net_pod le p) x (mem_of le (pod_size p) (hto_be le (pod_size p) (of_mem le (pod_rep p x)))).
Proof. intros Hl buf; unfold ser_net_pod. rewrite app_sub_length. reflexivity. Qed.

Lemma net_pod_round_trips {T} (ok : T -> Prop) (p : pod T) dbg le :
  pod_faithful ok p -> round_trips ok (ser_net_pod le p) (de_net_pod dbg le p).
Proof.
  intros (Hs & Hl & Ha) x Hx.
  set (bs := mem_of le (pod_size p) (hto_be le (pod_size p) (of_mem le (pod_rep p x)))).
  assert (Hbs : length bs = pod_size p) by apply mem_of_length.
  exists bs. repeat split.
  - intros E. rewrite E in Hbs; simpl in Hbs; congruence.
  - apply net_pod_writes; auto.
  - intros pre post. unfold de_net_pod.
    rewrite !cassert_true by (rewrite ?app_length, ?Hbs; apply Nat.leb_le; lia).
    rewrite <- Hbs at 1. rewrite read_bytes_middle. simpl. rewrite Hbs.
    pose proof (of_mem_bound le (pod_rep p x)) as B. rewrite Hl in B.
    unfold bs. rewrite of_mem_of by (apply hto_be_bound; auto).
    rewrite hto_be_involutive by auto.
    pose proof (mem_of_mem le (pod_rep p x)) as E. rewrite Hl in E. rewrite E.
    rewrite Ha; auto.
Qed.

Lemma u64_pow : (256 ^ N.of_nat 8 = 2 ^ 64)%N.
Proof. reflexivity. Qed.

Definition u64_ok (x : N) : Prop := (x < 2 ^ 64)%N.

Lemma u64_round_trips dbg le : round_trips u64_ok (ser_u64 le) (de_u64 dbg le).
Proof. apply pod_round_trips. exact (uint_pod_faithful le 8 (Nat.neq_succ_0 7)). Qed.

Lemma net_u64_round_trips dbg le : round_trips u64_ok (ser_net_u64 le) (de_net_u64 dbg le).
Proof. apply net_pod_round_trips. exact (uint_pod_faithful le 8 (Nat.neq_succ_0 7)). Qed.

(** ** Containers *)

Section Containers.
  Context {A : Type} (ok : A -> Prop) (ser : serializer A) (de : deserializer A).
  Hypothesis RT : round_trips ok ser de.

  Lemma items_round_trip l :
    Forall ok l ->
    exists bytes,
      (forall buf, ser_items ser l buf = Ok (buf ++ bytes)) /\
      (forall pre post, de_items de (pre ++ bytes ++ post) (length l) (length pre)
                        = Ok (l, length pre + length bytes)).
  Proof.
    induction 1 as [|a l Ha Hl IH].
    - exists []. split; intros; simpl; rewrite ?app_nil_r, ?Nat.add_0_r; reflexivity.
    - destruct (RT a Ha) as (b1 & _ & S1 & D1).
      destruct IH as (b2 & S2 & D2).
      exists (b1 ++ b2). split.
      + intros buf. simpl. rewrite S1. simpl. rewrite S2, app_assoc. reflexivity.
      + intros pre post. simpl.
        rewrite <- app_assoc, D1. simpl.
        specialize (D2 (pre ++ b1) post). rewrite app_length in D2.
        rewrite <- app_assoc in D2. rewrite D2. simpl.
        f_equal. f_equal. rewrite app_length. lia.
  Qed.

  Lemma vector_round_trips dbg maxr ser_size de_size :
    round_trips u64_ok ser_size de_size ->
    round_trips (fun l => Forall ok l /\ u64_ok (N.of_nat (length l)) /\ (N.of_nat (length l) <= maxr)%N)
      (ser_vector ser_size ser) (de_vector dbg maxr de_size de).
  Proof.
    intros RTs l (Hl & Hlen & Hmax).
    destruct (RTs _ Hlen) as (hb & Hne & HS & HD).
    destruct (items_round_trip l Hl) as (ib & IS & ID).
    exists (hb ++ ib). repeat split.
    - destruct hb; [congruence|discriminate].
    - intros buf. unfold ser_vector. rewrite N.mod_small by exact Hlen. rewrite HS. simpl.
      rewrite IS. simpl. rewrite <- app_assoc, app_sub_length. reflexivity.
    - intros pre post. unfold de_vector.
      rewrite cassert_true.
      2:{ apply Nat.ltb_lt. rewrite !app_length. destruct hb; [congruence|simpl; lia]. }
      rewrite <- app_assoc, HD. simpl.
      unfold reserve. destruct (N.leb_spec (N.of_nat (length l)) maxr); [|lia].
      rewrite Nat2N.id.
      specialize (ID (pre ++ hb) post). rewrite app_length, <- app_assoc in ID. rewrite ID. simpl.
      f_equal. f_equal. rewrite app_length. lia.
  Qed.
End Containers.

Lemma pair_round_trips {A B} (okA : A -> Prop) (okB : B -> Prop) ser1 de1 ser2 de2 dbg :
  round_trips okA ser1 de1 -> round_trips okB ser2 de2 ->
  round_trips (fun ab => okA (fst ab) /\ okB (snd ab)) (ser_pair dbg ser1 ser2) (de_pair dbg de1 de2).
Proof.
  intros R1 R2 [a b] [Ha Hb]; simpl in *.
  destruct (R1 a Ha) as (b1 & N1 & S1 & D1).
  destruct (R2 b Hb) as (b2 & N2 & S2 & D2).
  exists (b1 ++ b2). repeat split.
  - destruct b1; [congruence|discriminate].
  - intros buf. unfold ser_pair. simpl. rewrite S1. simpl. rewrite S2. simpl.
    rewrite <- app_assoc, app_sub_length.
    rewrite cassert_true by (apply Nat.eqb_eq; rewrite app_length; lia). reflexivity.
  - intros pre post. unfold de_pair.
    rewrite cassert_true.
    2:{ apply Nat.ltb_lt. rewrite !app_length. destruct b1; [congruence|simpl; lia]. }
    rewrite <- app_assoc, D1. simpl.
    specialize (D2 (pre ++ b1) post). rewrite app_length, <- app_assoc in D2. rewrite D2. simpl.
    f_equal. f_equal. rewrite app_length. lia.
Qed.

Section Maps.
  Context {K V : Type} (ltb : K -> K -> bool).
  Hypothesis SO : strict_order ltb.

  Lemma map_insert_last (m : list (K * V)) kv :
    (forall y, In y m -> ltb (fst y) (fst kv) = true) ->
    map_insert ltb kv m = m ++ [kv].
  Proof.
    destruct SO as [Irr Tr].
    induction m as [|x m IH]; intros H; simpl; auto.
    assert (Hx : ltb (fst x) (fst kv) = true) by (apply H; left; auto).
    destruct (ltb (fst kv) (fst x)) eqn:E.
    - pose proof (Tr _ _ _ E Hx) as C. rewrite Irr in C. discriminate.
    - rewrite Hx, IH; auto. intros y Hy; apply H; right; auto.
  Qed.

  Lemma rebuild_sorted_aux (l acc : list (K * V)) :
    key_sorted ltb l ->
    (forall x y, In x acc -> In y l -> ltb (fst x) (fst y) = true) ->
    fold_left (fun m kv => map_insert ltb kv m) l acc = acc ++ l.
  Proof.
    revert acc; induction l as [|x l IH]; intros acc Hs Ha; simpl.
    - rewrite app_nil_r; auto.
    - destruct Hs as [Hx Hs].
      rewrite map_insert_last by (intros y Hy; apply Ha; simpl; auto).
      rewrite IH; auto.
      + rewrite <- app_assoc. reflexivity.
      + intros y z Hy Hz. apply in_app_or in Hy. destruct Hy as [Hy|[<-|[]]].
        * apply Ha; simpl; auto.
        * apply Hx; auto.
  Qed.

  Lemma rebuild_sorted (l : list (K * V)) :
    key_sorted ltb l -> fold_left (fun m kv => map_insert ltb kv m) l [] = l.
  Proof. intros H. rewrite rebuild_sorted_aux; simpl; tauto. Qed.

  Lemma map_round_trips (okK : K -> Prop) (okV : V -> Prop) dbg ser_size de_size serk dek serv dev :
    round_trips u64_ok ser_size de_size ->
    round_trips okK serk dek -> round_trips okV serv dev ->
    round_trips (fun m => Forall (fun kv => okK (fst kv) /\ okV (snd kv)) m /\ key_sorted ltb m /\
                          u64_ok (N.of_nat (length m)))
      (ser_map dbg ser_size serk serv) (de_map dbg ltb de_size dek dev).
  Proof.
    intros RTs RK RV m (Hm & Hsorted & Hlen).
    destruct (RTs _ Hlen) as (hb & Hne & HS & HD).
    destruct (items_round_trip _ _ _ (pair_round_trips _ _ _ _ _ _ dbg RK RV) m Hm) as (ib & IS & ID).
    exists (hb ++ ib). repeat split.
    - destruct hb; [congruence|discriminate].
    - intros buf. unfold ser_map. rewrite N.mod_small by exact Hlen. rewrite HS. simpl.
      rewrite IS. simpl. rewrite <- app_assoc, app_sub_length. reflexivity.
    - intros pre post. unfold de_map.
      rewrite cassert_true.
      2:{ apply Nat.ltb_lt. rewrite !app_length. destruct hb; [congruence|simpl; lia]. }
      rewrite <- app_assoc, HD. simpl. rewrite Nat2N.id.
      specialize (ID (pre ++ hb) post). rewrite app_length, <- app_assoc in ID. rewrite ID. simpl.
      rewrite rebuild_sorted by auto.
      f_equal. f_equal. rewrite app_length. lia.
  Qed.

  (** Whatever list of pairs is read, the rebuilt map is sorted and keeps the first value read for a key. *)

  Lemma map_insert_in (kv : K * V) m y : In y (map_insert ltb kv m) -> y = kv \/ In y m.
  Proof.
    induction m as [|x m IH]; simpl; [intuition congruence|].
    destruct (ltb (fst kv) (fst x)); [simpl; intuition congruence|].
    destruct (ltb (fst x) (fst kv)); simpl; intuition congruence.
  Qed.

  Lemma map_insert_sorted kv (m : list (K * V)) : key_sorted ltb m -> key_sorted ltb (map_insert ltb kv m).
  Proof.
    destruct SO as [Irr Tr].
    induction m as [|x m IH]; intros H; simpl.
    - split; simpl; tauto.
    - destruct H as [Hx Hm].
      destruct (ltb (fst kv) (fst x)) eqn:E1.
      + simpl. repeat split; auto. intros y [<-|Hy]; auto. eapply Tr; eauto.
      + destruct (ltb (fst x) (fst kv)) eqn:E2.
        * split; auto. intros y Hy. apply map_insert_in in Hy. destruct Hy as [->|Hy]; auto.
        * split; auto.
  Qed.

  Lemma rebuilt_is_sorted_aux (l m : list (K * V)) : key_sorted ltb m ->
    key_sorted ltb (fold_left (fun m kv => map_insert ltb kv m) l m).
  Proof.
    revert m; induction l as [|x l IH]; intros m H; simpl; auto.
    apply IH. apply map_insert_sorted; auto.
  Qed.

  Lemma map_insert_keeps kv (m : list (K * V)) x : In x m -> In x (map_insert ltb kv m).
  Proof.
    induction m as [|y m IH]; intros H; simpl; [destruct H|].
    destruct (ltb (fst kv) (fst y)); [right; exact H|].
    destruct (ltb (fst y) (fst kv)); [|exact H].
    destruct H as [<-|H]; [left; auto|right; auto].
  Qed.

  Lemma map_insert_adds kv (m : list (K * V)) :
    In kv (map_insert ltb kv m) \/
    exists x, In x m /\ ltb (fst kv) (fst x) = false /\ ltb (fst x) (fst kv) = false.
  Proof.
    induction m as [|y m IH]; simpl; [left; auto|].
    destruct (ltb (fst kv) (fst y)) eqn:E1; [left; left; auto|].
    destruct (ltb (fst y) (fst kv)) eqn:E2.
    - destruct IH as [IH|(x & Hx & H1 & H2)]; [left; right; auto|right; exists x; auto].
    - right; exists y; auto.
  Qed.

  Lemma rebuilt_keeps (l m : list (K * V)) x :
    In x m -> In x (fold_left (fun m kv => map_insert ltb kv m) l m).
  Proof.
    revert m; induction l as [|y l IH]; intros m H; simpl; auto.
    apply IH. apply map_insert_keeps; auto.
  Qed.

  Lemma rebuilt_in_aux (l m : list (K * V)) x :
    In x (fold_left (fun m kv => map_insert ltb kv m) l m) -> In x l \/ In x m.
  Proof.
    revert m; induction l as [|y l IH]; intros m Hx; simpl in *; auto.
    apply IH in Hx. destruct Hx as [Hx|Hx]; auto. apply map_insert_in in Hx. intuition.
  Qed.

  (** The first pair with a given key survives. *)
  Lemma rebuilt_first_wins (l1 l2 : list (K * V)) kv :
    (forall x, In x l1 -> ltb (fst kv) (fst x) = true \/ ltb (fst x) (fst kv) = true) ->
    In kv (fold_left (fun m kv => map_insert ltb kv m) (l1 ++ kv :: l2) []).
  Proof.
    intros H. rewrite fold_left_app. simpl.
    apply rebuilt_keeps.
    destruct (map_insert_adds kv (fold_left (fun m kv => map_insert ltb kv m) l1 [])) as [Hin|(x & Hx & H1 & H2)]; auto.
    apply rebuilt_in_aux in Hx. destruct Hx as [Hx|[]]. destruct (H x Hx); congruence.
  Qed.

  Lemma rebuilt_subset (l : list (K * V)) x :
    In x (fold_left (fun m kv => map_insert ltb kv m) l []) -> In x l.
  Proof.
    intros H. apply rebuilt_in_aux in H. destruct H as [H|[]]; auto.
  Qed.
End Maps.

(** ** Hostile input *)

Ltac fin := split; [intros; congruence|split; [intros; congruence|]]; intros;
  match goal with
  | H : _ = Ok _ |- _ => first [discriminate | injection H; intros; subst; lia]
  end.


Lemma pod_in_bounds {T} (p : pod T) : in_bounds (de_pod true p).
Proof.
  intros buf cur. unfold de_pod, cassert, read_bytes; simpl.
  destruct (Nat.leb_spec cur (length buf)); simpl; [|fin].
  destruct (Nat.leb_spec (cur + pod_size p) (length buf)); simpl; [|fin].
  fin.
Qed.

Lemma net_pod_in_bounds {T} le (p : pod T) : in_bounds (de_net_pod true le p).
Proof.
  intros buf cur. unfold de_net_pod, cassert, read_bytes; simpl.
  destruct (Nat.leb_spec cur (length buf)); simpl; [|fin].
  destruct (Nat.leb_spec (cur + pod_size p) (length buf)); simpl; [|fin].
  fin.
Qed.

Lemma items_in_bounds {A} (de : deserializer A) : in_bounds de ->
  forall n buf pos, pos <= length buf ->
    de_items de buf n pos <> UB /\ de_items de buf n pos <> NoFuel /\
    (forall l p, de_items de buf n pos = Ok (l, p) -> pos <= p <= length buf).
Proof.
  intros IB; induction n as [|n IH]; intros buf pos Hpos; simpl.
  - fin.
  - destruct (IB buf pos) as (HU & HN & HB).
    destruct (de buf pos) as [[a k]|e| | |] eqn:E; simpl; try fin; try congruence.
    specialize (HB _ _ eq_refl).
    destruct (IH buf (pos + k) HB) as (HU' & HN' & HB').
    destruct (de_items de buf n (pos + k)) as [[l p]|e| | |] eqn:E2; simpl;
      try fin; try congruence.
    specialize (HB' _ _ eq_refl).
    fin.
Qed.

Lemma vector_in_bounds {A} maxr de_size (de : deserializer A) :
  in_bounds de_size -> in_bounds de -> in_bounds (de_vector true maxr de_size de).
Proof.
  intros BS BI buf cur. unfold de_vector, cassert; simpl.
  destruct (Nat.ltb_spec cur (length buf)); simpl; [|fin].
  destruct (BS buf cur) as (HU & HN & HB).
  destruct (de_size buf cur) as [[sz k]|e| | |] eqn:E; simpl; try fin; try congruence.
  specialize (HB _ _ eq_refl).
  unfold reserve. destruct (sz <=? maxr)%N; [|fin].
  destruct (items_in_bounds de BI (N.to_nat sz) buf (cur + k) HB) as (HU' & HN' & HB').
  destruct (de_items de buf (N.to_nat sz) (cur + k)) as [[l p]|e| | |] eqn:E2; simpl;
    try fin; try congruence.
  specialize (HB' _ _ eq_refl).
  fin.
Qed.

Lemma pair_in_bounds {A B} (de1 : deserializer A) (de2 : deserializer B) :
  in_bounds de1 -> in_bounds de2 -> in_bounds (de_pair true de1 de2).
Proof.
  intros B1 B2 buf cur. unfold de_pair, cassert; simpl.
  destruct (Nat.ltb_spec cur (length buf)); simpl; [|fin].
  destruct (B1 buf cur) as (HU & HN & HB).
  destruct (de1 buf cur) as [[a k]|e| | |] eqn:E; simpl; try fin; try congruence.
  specialize (HB _ _ eq_refl).
  destruct (B2 buf (cur + k)) as (HU' & HN' & HB').
  destruct (de2 buf (cur + k)) as [[b k']|e| | |] eqn:E2; simpl; try fin; try congruence.
  specialize (HB' _ _ eq_refl).
  fin.
Qed.

Lemma map_in_bounds {K V} ltb de_size (dek : deserializer K) (dev : deserializer V) :
  in_bounds de_size -> in_bounds dek -> in_bounds dev -> in_bounds (de_map true ltb de_size dek dev).
Proof.
  intros BS BK BV buf cur. unfold de_map, cassert; simpl.
  destruct (Nat.ltb_spec cur (length buf)); simpl; [|fin].
  destruct (BS buf cur) as (HU & HN & HB).
  destruct (de_size buf cur) as [[sz k]|e| | |] eqn:E; simpl; try fin; try congruence.
  specialize (HB _ _ eq_refl).
  destruct (items_in_bounds _ (pair_in_bounds _ _ BK BV) (N.to_nat sz) buf (cur + k) HB) as (HU' & HN' & HB').
  destruct (de_items (de_pair true dek dev) buf (N.to_nat sz) (cur + k)) as [[l p]|e| | |] eqn:E2; simpl;
    try fin; try congruence.
  specialize (HB' _ _ eq_refl).
  fin.
Qed.

(** ** Locality: only the reported bytes matter *)

Lemma split_at {A} (l : list A) n : n <= length l -> exists l1 l2, l = l1 ++ l2 /\ length l1 = n.
Proof.
  intros H. exists (firstn n l), (skipn n l). split; [symmetry; apply firstn_skipn|].
  apply firstn_length_le; auto.
Qed.

Lemma pod_local {T} (p : pod T) : pod_size p <> 0 -> reads_only_reported (de_pod true p).
Proof.
  intros Hp pre mid post a n H Hn.
  assert (n = pod_size p) as ->.
  { unfold de_pod, cassert, read_bytes in H.
    destruct (length pre <=? _) eqn:E1; simpl in H; [|discriminate].
    destruct (length pre + pod_size p <=? _) eqn:E2; simpl in H; [|discriminate]. congruence. }
  assert (G : forall pre post, de_pod true p (pre ++ mid ++ post) (length pre) = Ok (pod_abs p mid, pod_size p)).
  { intros pre' post'. unfold de_pod. rewrite !cassert_true by (rewrite ?app_length; apply Nat.leb_le; lia).
    rewrite Hn, read_bytes_middle. reflexivity. }
  split; auto. intros pre' post'. rewrite G. rewrite G in H. congruence.
Qed.

Lemma net_pod_local {T} le (p : pod T) : pod_size p <> 0 -> reads_only_reported (de_net_pod true le p).
Proof.
  intros Hp pre mid post a n H Hn.
  assert (n = pod_size p) as ->.
  { unfold de_net_pod, cassert, read_bytes in H.
    destruct (length pre <=? _) eqn:E1; simpl in H; [|discriminate].
    destruct (length pre + pod_size p <=? _) eqn:E2; simpl in H; [|discriminate]. congruence. }
  assert (G : forall pre post, de_net_pod true le p (pre ++ mid ++ post) (length pre)
     = Ok (pod_abs p (mem_of le (pod_size p) (hto_be le (pod_size p) (of_mem le mid))), pod_size p)).
  { intros pre' post'. unfold de_net_pod. rewrite !cassert_true by (rewrite ?app_length; apply Nat.leb_le; lia).
    rewrite Hn at 1. rewrite read_bytes_middle. reflexivity. }
  split; auto. intros pre' post'. rewrite G. rewrite G in H. congruence.
Qed.

Lemma items_local {A} (de : deserializer A) : in_bounds de -> reads_only_reported de ->
  forall n pre mid post l p, de_items de (pre ++ mid ++ post) n (length pre) = Ok (l, p) ->
    p = length pre + length mid ->
    forall pre' post', de_items de (pre' ++ mid ++ post') n (length pre') = Ok (l, length pre' + length mid).
Proof.
  intros IB RO; induction n as [|n IH]; intros pre mid post l p H Hp pre' post'; simpl in *.
  - injection H; intros; subst. replace (length mid) with 0 by lia. rewrite Nat.add_0_r. reflexivity.
  - destruct (de (pre ++ mid ++ post) (length pre)) as [[a k]|e| | |] eqn:E; try discriminate.
    simpl in H.
    destruct (IB (pre ++ mid ++ post) (length pre)) as (_ & _ & HB). specialize (HB _ _ E).
    destruct (items_in_bounds de IB n (pre ++ mid ++ post) (length pre + k) HB) as (_ & _ & HB').
    destruct (de_items de (pre ++ mid ++ post) n (length pre + k)) as [[l' p']|e| | |] eqn:E2; try discriminate.
    simpl in H. injection H; intros; subst p' l. specialize (HB' _ _ eq_refl).
    destruct (split_at mid k) as (m1 & m2 & -> & Hm1); [lia|].
    rewrite <- app_assoc in E.
    destruct (RO _ _ _ _ _ E) as [_ G]; [auto|].
    rewrite <- app_assoc, G. simpl.
    assert (E3 : de_items de ((pre ++ m1) ++ m2 ++ post) n (length (pre ++ m1)) = Ok (l', p)).
    { rewrite <- app_assoc, app_length, Hm1. rewrite <- app_assoc in E2. exact E2. }
    pose proof (IH _ _ _ _ _ E3) as G2.
    rewrite app_length in G2 |- *. rewrite app_length in Hp.
    specialize (G2 ltac:(lia) (pre' ++ m1) post').
    rewrite <- app_assoc, app_length, Hm1 in G2. rewrite G2. simpl. f_equal. f_equal. lia.
Qed.

Lemma vector_local {A} maxr de_size (de : deserializer A) :
  in_bounds de_size -> in_bounds de -> reads_only_reported de_size -> reads_only_reported de ->
  reads_only_reported (de_vector true maxr de_size de).
Proof.
  intros BS BI RS RI pre mid post l n H Hn.
  unfold de_vector, cassert in H; simpl in H.
  destruct (Nat.ltb_spec (length pre) (length (pre ++ mid ++ post))); simpl in H; [|discriminate].
  destruct (BS (pre ++ mid ++ post) (length pre)) as (_ & _ & HB).
  destruct (de_size (pre ++ mid ++ post) (length pre)) as [[sz k]|e| | |] eqn:E; simpl in H; try discriminate.
  specialize (HB _ _ eq_refl).
  unfold reserve in H. destruct (sz <=? maxr)%N eqn:Emax; [|discriminate].
  destruct (items_in_bounds de BI (N.to_nat sz) (pre ++ mid ++ post) (length pre + k) HB) as (_ & _ & HB').
  destruct (de_items de (pre ++ mid ++ post) (N.to_nat sz) (length pre + k)) as [[l' p]|e| | |] eqn:E2;
    simpl in H; try discriminate.
  specialize (HB' _ _ eq_refl). injection H; intros Hnp ->. clear H.
  destruct (split_at mid k) as (m1 & m2 & -> & Hm1); [lia|].
  rewrite <- app_assoc in E.
  destruct (RS _ _ _ _ _ E) as [Hk G]; [auto|].
  split; [rewrite app_length in Hn; lia|].
  intros pre' post'. unfold de_vector.
  rewrite cassert_true by (apply Nat.ltb_lt; rewrite !app_length; lia).
  rewrite <- app_assoc, G. simpl. unfold reserve. rewrite Emax.
  assert (E3 : de_items de ((pre ++ m1) ++ m2 ++ post) (N.to_nat sz) (length (pre ++ m1)) = Ok (l, p)).
  { rewrite <- app_assoc, app_length, Hm1. rewrite <- app_assoc in E2. exact E2. }
  pose proof (items_local de BI RI _ _ _ _ _ _ E3) as G2.
  rewrite app_length in G2, Hn. specialize (G2 ltac:(lia) (pre' ++ m1) post').
  rewrite <- app_assoc, app_length, Hm1 in G2. rewrite G2. simpl. f_equal. f_equal. lia.
Qed.

Lemma pair_local {A B} (de1 : deserializer A) (de2 : deserializer B) :
  in_bounds de1 -> in_bounds de2 -> reads_only_reported de1 -> reads_only_reported de2 ->
  reads_only_reported (de_pair true de1 de2).
Proof.
  intros B1 B2 R1 R2 pre mid post [a b] n H Hn.
  unfold de_pair, cassert in H; simpl in H.
  destruct (Nat.ltb_spec (length pre) (length (pre ++ mid ++ post))); simpl in H; [|discriminate].
  destruct (de1 (pre ++ mid ++ post) (length pre)) as [[a' k]|e| | |] eqn:E; simpl in H; try discriminate.
  destruct (de2 (pre ++ mid ++ post) (length pre + k)) as [[b' k']|e| | |] eqn:E2; simpl in H; try discriminate.
  injection H; intros Hnp -> ->. clear H.
  destruct (split_at mid k) as (m1 & m2 & -> & Hm1); [lia|].
  rewrite <- app_assoc in E.
  destruct (R1 _ _ _ _ _ E) as [Hk G]; [auto|].
  split; [rewrite app_length in Hn; lia|].
  intros pre' post'. unfold de_pair.
  rewrite cassert_true by (apply Nat.ltb_lt; rewrite !app_length; lia).
  rewrite <- app_assoc, G. simpl.
  assert (E3 : de2 ((pre ++ m1) ++ m2 ++ post) (length (pre ++ m1)) = Ok (b, k')).
  { rewrite <- app_assoc, app_length, Hm1. rewrite <- app_assoc in E2. exact E2. }
  destruct (R2 _ _ _ _ _ E3) as [_ G2]; [rewrite app_length in Hn; lia|].
  specialize (G2 (pre' ++ m1) post').
  rewrite <- app_assoc, app_length, Hm1 in G2. rewrite G2. simpl. f_equal. f_equal. lia.
Qed.
