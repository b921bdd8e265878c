(** Map helpers (arc_helpers.hpp 179-199, 1283-1348): C91. *)
From Coq Require Import List Bool Arith NArith Lia Sorted.
From Verif Require Import Base MapHelpModel.
Import ListNotations.

(** Compare is a strict weak order, as std::map requires. *)
Record weak_order {K} (lt : K -> K -> bool) : Prop := {
  wo_irr : forall x, lt x x = false;
  wo_trans : forall x y z, lt x y = true -> lt y z = true -> lt x z = true;
  wo_split : forall x y z, lt x z = true -> lt x y = true \/ lt y z = true }.
Definition equivalent {K} (lt : K -> K -> bool) (x y : K) : Prop := lt x y = false /\ lt y x = false.
(** A state of std::map: entries in strictly increasing order of their keys. *)
Definition well_formed {K V} (lt : K -> K -> bool) (m : list (K * V)) : Prop :=
  StronglySorted (fun a b => lt (fst a) (fst b) = true) m.
(** The last entry of a list whose key is equivalent to [k]. *)
Definition last_for {K V} (lt : K -> K -> bool) (l : list (K * V)) (k : K) (v : V) : Prop :=
  exists pre k' post, l = pre ++ (k', v) :: post /\ equivalent lt k' k /\ Forall (fun e => ~ equivalent lt (fst e) k) post.

Section Proofs.
Context {K V : Type} (lt : K -> K -> bool) (W : weak_order lt).
Implicit Types m : list (K * V).

Lemma lt_asym x y : lt x y = true -> lt y x = false.
Proof. intros H. destruct (lt y x) eqn:E; [|reflexivity]. rewrite <- (wo_irr _ W x). symmetry. exact (wo_trans _ W _ _ _ H E). Qed.
Lemma eqv_sym x y : equivalent lt x y -> equivalent lt y x.
Proof. intros [A B]. split; assumption. Qed.
Lemma eqv_refl x : equivalent lt x x.
Proof. split; apply (wo_irr _ W). Qed.
Lemma lt_eqv_r x y z : lt x y = true -> equivalent lt y z -> lt x z = true.
Proof. intros H [A B]. destruct (wo_split _ W x z y H) as [E|E]; [exact E | congruence]. Qed.
Lemma lt_eqv_l x y z : equivalent lt x y -> lt y z = true -> lt x z = true.
Proof. intros [A B] H. destruct (wo_split _ W y x z H) as [E|E]; [congruence | exact E]. Qed.
Lemma eqv_trans x y z : equivalent lt x y -> equivalent lt y z -> equivalent lt x z.
Proof.
  intros A B. split.
  - destruct (lt x z) eqn:E; [|reflexivity]. pose proof (lt_eqv_r _ _ _ E (eqv_sym _ _ B)) as F. destruct A. congruence.
  - destruct (lt z x) eqn:E; [|reflexivity]. pose proof (lt_eqv_r _ _ _ E A) as F. destruct B. congruence.
Qed.
Lemma put_forall (P : K * V -> Prop) m k v : Forall P m -> P (k, v) -> (forall k' v', In (k', v') m -> equivalent lt k' k -> P (k', v)) -> Forall P (put lt m k v).
Proof.
  induction m as [|[k' v'] m IH]; cbn; intros F H Q; [constructor; [exact H | constructor]|].
  inversion F as [|? ? F1 F2]; subst. destruct (lt k' k) eqn:A.
  - constructor; [exact F1 | apply IH; [exact F2 | exact H | intros; eapply Q; eauto]].
  - destruct (lt k k') eqn:B; constructor; auto. apply (Q k' v'); [left; reflexivity | split; assumption].
Qed.
Lemma put_wf m k v : well_formed lt m -> well_formed lt (put lt m k v).
Proof.
  induction m as [|[k' v'] m IH]; cbn; intros S1; [constructor; constructor|].
  apply StronglySorted_inv in S1 as [S1 S2]. destruct (lt k' k) eqn:A.
  - constructor; [apply IH; exact S1|]. apply put_forall; [exact S2 | exact A |]. intros k2 v2 Hi _. rewrite Forall_forall in S2. exact (S2 _ Hi).
  - destruct (lt k k') eqn:B.
    + constructor; [constructor; assumption|]. constructor; [exact B|]. eapply Forall_impl; [|exact S2]. intros [a b] H. cbn in *. exact (wo_trans _ W _ _ _ B H).
    + constructor; assumption.
Qed.
Lemma look_put m k v q : well_formed lt m -> look lt (put lt m k v) q = if negb (lt k q) && negb (lt q k) then Some v else look lt m q.
Proof.
  induction m as [|[k' v'] m IH]; cbn; intros S1.
  - destruct (lt k q), (lt q k); reflexivity.
  - apply StronglySorted_inv in S1 as [S1 S2]. destruct (lt k' k) eqn:A.
    + cbn. rewrite IH by exact S1. destruct (lt k q) eqn:B, (lt q k) eqn:C; cbn; try reflexivity.
      assert (D : lt k' q = true) by (apply (lt_eqv_r k' k q); [exact A | split; assumption]). rewrite D. reflexivity.
    + destruct (lt k k') eqn:B; cbn.
      * destruct (lt k q) eqn:C, (lt q k) eqn:D; reflexivity.
      * destruct (lt k' q) eqn:C, (lt q k') eqn:D; cbn; destruct (lt k q) eqn:E, (lt q k) eqn:F; cbn; try reflexivity; exfalso.
        -- pose proof (lt_eqv_l k k' q (conj B A) C). congruence.
        -- pose proof (lt_eqv_l k k' q (conj B A) C). congruence.
        -- pose proof (lt_eqv_r q k' k D (conj A B)). congruence.
        -- pose proof (lt_eqv_l k' k q (conj A B) E). congruence.
        -- pose proof (lt_eqv_l k' k q (conj A B) E). congruence.
        -- pose proof (lt_eqv_r q k k' F (conj B A)). congruence.
Qed.
Lemma put_append m k v : (forall e, In e m -> lt (fst e) k = true) -> put lt m k v = m ++ [(k, v)].
Proof.
  induction m as [|[k' v'] m IH]; cbn; intros H; [reflexivity|]. pose proof (H (k', v') (or_introl eq_refl)) as E. cbn in E. rewrite E. f_equal. apply IH. intros; apply H; right; assumption.
Qed.
Lemma make_app (l m : list (K * V)) : fold_left (fun m e => put lt m (fst e) (snd e)) (l ++ m) [] = fold_left (fun m e => put lt m (fst e) (snd e)) m (make_from_pairs lt l).
Proof. apply fold_left_app. Qed.
Lemma make_sorted m : well_formed lt m -> make_from_pairs lt m = m.
Proof.
  intros S1. unfold make_from_pairs.
  assert (H : forall pre, well_formed lt (pre ++ m) -> fold_left (fun m e => put lt m (fst e) (snd e)) m pre = pre ++ m).
  { clear S1. induction m as [|[k v] m IH]; cbn; intros pre S1; [rewrite app_nil_r; reflexivity|].
    rewrite put_append.
    - rewrite IH; rewrite <- app_assoc; [reflexivity | exact S1].
    - intros e He. clear - S1 He. induction pre as [|a pre IHp]; [destruct He|]. cbn in S1. apply StronglySorted_inv in S1 as [S1 S2]. destruct He as [-> | He]; [|apply IHp; assumption].
      rewrite Forall_forall in S2. apply (S2 (k, v)). apply in_or_app. right. left. reflexivity. }
  apply (H []). exact S1.
Qed.
Lemma make_pairs_wf (l : list (K * V)) : well_formed lt (make_from_pairs lt l).
Proof.
  unfold make_from_pairs. assert (H : forall m, well_formed lt m -> well_formed lt (fold_left (fun m e => put lt m (fst e) (snd e)) l m)); [|apply H; constructor].
  induction l as [|e l IH]; cbn; intros m S1; [exact S1|]. apply IH, put_wf, S1.
Qed.
Lemma eqv_dec x y : {equivalent lt x y} + {~ equivalent lt x y}.
Proof. unfold equivalent. destruct (lt x y), (lt y x); [right | right | right | left]; intuition congruence. Qed.
Lemma look_pairs (l : list (K * V)) k : match look lt (make_from_pairs lt l) k with Some v => last_for lt l k v | None => Forall (fun e => ~ equivalent lt (fst e) k) l end.
Proof.
  induction l as [|[k' v] l IH] using rev_ind; [constructor|].
  unfold make_from_pairs. rewrite make_app. cbn [fold_left fst snd]. rewrite look_put by apply make_pairs_wf.
  destruct (negb (lt k' k) && negb (lt k k')) eqn:E.
  - apply andb_true_iff in E as [A B]. rewrite negb_true_iff in A, B. exists l, k', []. split; [reflexivity|]. split; [split; assumption | constructor].
  - assert (N : ~ equivalent lt k' k). { intros [A B]. rewrite A, B in E. discriminate. }
    destruct (look lt (make_from_pairs lt l) k) as [w|].
    + destruct IH as (pre & k2 & post & -> & E2 & F). exists pre, k2, (post ++ [(k', v)]). rewrite <- app_assoc. cbn. split; [reflexivity|]. split; [exact E2|].
      apply Forall_app. split; [exact F | constructor; [exact N | constructor]].
    + apply Forall_app. split; [exact IH | constructor; [exact N | constructor]].
Qed.
Lemma make_loop_pairs ks (vs : list V) m : make_loop lt ks vs m = if (length ks <=? length vs)%nat then Ok (fold_left (fun m e => put lt m (fst e) (snd e)) (combine ks vs) m) else UB.
Proof.
  revert vs m. induction ks as [|k ks IH]; intros vs m; [reflexivity|]. destruct vs as [|v vs]; [reflexivity|]. cbn [make_loop length combine fold_left Nat.leb fst snd]. apply IH.
Qed.
End Proofs.

(** C91: for every strict weak order and every map, the keys come out in strictly increasing order and the pairs rebuild the map. *)
Theorem C91_round_trip {K V} (lt : K -> K -> bool) (m : list (K * V)) :
  weak_order lt -> well_formed lt m ->
  StronglySorted (fun a b => lt a b = true) (get_keys m) /\ (forall k, In k (get_keys m) <-> exists v, In (k, v) m) /\
  get_keys_and_values m = m /\ make_from_pairs lt (get_keys_and_values m) = m /\
  forall dbg, make_from_vectors lt dbg (get_keys m) (map snd m) = Ok m.
Proof.
  intros W S1. assert (E : get_keys_and_values m = m) by (unfold get_keys_and_values; rewrite <- map_id; apply map_ext; intros [a b]; reflexivity).
  split; [|split; [|split; [exact E | split]]].
  - unfold get_keys. clear E. induction m as [|a m IH]; cbn; [constructor|]. apply StronglySorted_inv in S1 as [S1 S2]. constructor; [apply IH; exact S1|].
    clear IH. induction S2; cbn; constructor; try assumption. apply IHS2. apply StronglySorted_inv in S1. tauto.
  - intros k. unfold get_keys. rewrite in_map_iff. split; [intros ([a b] & <- & H); exists b; exact H | intros (v & H); exists (k, v); auto].
  - rewrite E. apply make_sorted; assumption.
  - intros dbg. unfold make_from_vectors, get_keys. rewrite !map_length, Nat.eqb_refl. unfold cassert. rewrite andb_false_r. rewrite make_loop_pairs, !map_length, Nat.leb_refl.
    f_equal. replace (combine (map fst m) (map snd m)) with m; [apply make_sorted; assumption|]. clear. induction m as [|[a b] m IH]; cbn; [reflexivity | f_equal; exact IH].
Qed.
Print Assumptions C91_round_trip.

(** The map built from pairs holds, for each key, the value of the last pair with an equivalent key, and nothing for other keys. *)
Theorem C91_last_wins {K V} (lt : K -> K -> bool) (l : list (K * V)) :
  weak_order lt ->
  well_formed lt (make_from_pairs lt l) /\
  forall k, match look lt (make_from_pairs lt l) k with Some v => last_for lt l k v | None => Forall (fun e => ~ equivalent lt (fst e) k) l end.
Proof. intros W. split; [apply make_pairs_wf; exact W | intros k; apply look_pairs; exact W]. Qed.
Print Assumptions C91_last_wins.

(** From two vectors: the same as from the pairs; unequal lengths stop at the assertion; without assertions surplus values are ignored and
    missing values are read past the end. *)
Theorem C91_vectors {K V} (lt : K -> K -> bool) (ks : list K) (vs : list V) :
  make_from_vectors lt true ks vs = (if (length ks =? length vs)%nat then Ok (make_from_pairs lt (combine ks vs)) else AssertFail) /\
  make_from_vectors lt false ks vs = (if (length ks <=? length vs)%nat then Ok (make_from_pairs lt (combine ks vs)) else UB).
Proof.
  unfold make_from_vectors, cassert. rewrite make_loop_pairs. split; [|reflexivity].
  destruct (length ks =? length vs)%nat eqn:E; cbn; [|reflexivity]. apply Nat.eqb_eq in E. rewrite E, Nat.leb_refl. reflexivity.
Qed.
Print Assumptions C91_vectors.

(** The check holds exactly when every string has the substring somewhere. *)
Theorem C91_substring {C} (eqb : C -> C -> bool) (l : list (list C)) (p : list C) :
  (forall a b, eqb a b = true <-> a = b) ->
  check_all_substring eqb l p = true <-> (forall s, In s l -> exists a b, s = a ++ p ++ b).
Proof.
  intros E.
  assert (St : forall p s, starts eqb p s = true <-> exists b, s = p ++ b).
  { clear p l. induction p as [|x p IH]; intros s; [cbn; split; [intros _; exists s; reflexivity | reflexivity]|].
    destruct s as [|y s]; cbn; [split; [discriminate | intros (b & H); discriminate]|]. rewrite andb_true_iff, E, IH. split.
    - intros [-> (b & ->)]. exists b. reflexivity.
    - intros (b & H). injection H as -> ->. split; [reflexivity | exists b; reflexivity]. }
  assert (Cn : forall s, contains eqb p s = true <-> exists a b, s = a ++ p ++ b).
  { induction s as [|y s IH].
    - cbn [contains]. rewrite orb_false_r, St. split; [intros (b & H); exists [], b; exact H|]. intros (a & b & H). destruct a; [exists b; exact H | discriminate].
    - cbn [contains]. rewrite orb_true_iff, St, IH. split.
      + intros [(b & H)|(a & b & H)]; [exists [], b; exact H | exists (y :: a), b; cbn; congruence].
      + intros (a & b & H). destruct a as [|z a]; [left; exists b; exact H|]. right. exists a, b. cbn in H. congruence. }
  induction l as [|s l IH]; cbn [check_all_substring]; [split; [intros _ s [] | reflexivity]|].
  destruct (contains eqb p s) eqn:D.
  - rewrite IH. split; [intros H t [<- |Ht]; [apply Cn; exact D | apply H; exact Ht] | intros H t Ht; apply H; right; exact Ht].
  - split; [discriminate|]. intros H. exfalso. specialize (H s (or_introl eq_refl)). apply Cn in H. congruence.
Qed.
Print Assumptions C91_substring.

(** The hypotheses are met by the natural numbers, and a duplicate key keeps the last value. *)
Example nat_order : weak_order Nat.ltb.
Proof.
  split; intros *; rewrite ?Nat.ltb_lt; [apply Nat.ltb_irrefl | lia | lia].
Qed.
Example duplicate_case : make_from_pairs Nat.ltb [(2, 10); (1, 20); (2, 30)] = [(1, 20); (2, 30)].
Proof. reflexivity. Qed.
Example substring_case : check_all_substring Nat.eqb [[1; 2; 3]; [2; 3]] [2; 3] = true.
Proof. reflexivity. Qed.

(** ** RetrieveOrDefault *)
(** The value of the entry with an equivalent key, and the default if there is none; for std::unordered_map the keys are compared with its predicate, and no two
    entries have equal keys. *)
Theorem C91_retrieve {K V} (k : K) (d : V) :
  (forall (lt : K -> K -> bool) (m : list (K * V)), weak_order lt -> well_formed lt m ->
     (forall k' v, In (k', v) m -> equivalent lt k' k -> retrieve_or_default lt m k d = v) /\
     ((forall k' v, In (k', v) m -> ~ equivalent lt k' k) -> retrieve_or_default lt m k d = d)) /\
  (forall (eqb : K -> K -> bool) (m : list (K * V)), (forall x y, eqb x y = eqb y x) -> (forall x y z, eqb x y = true -> eqb y z = true -> eqb x z = true) ->
     ForallOrdPairs (fun a b => eqb (fst a) (fst b) = false) m ->
     (forall k' v, In (k', v) m -> eqb k' k = true -> retrieve_or_default_u eqb m k d = v) /\
     ((forall k' v, In (k', v) m -> eqb k' k = false) -> retrieve_or_default_u eqb m k d = d)).
Proof.
  split.
  - intros lt m W S1. unfold retrieve_or_default. induction m as [|[q w] m IH]; [split; [intros k' v [] | reflexivity]|].
    apply StronglySorted_inv in S1 as (S1 & S2). destruct (IH S1) as (I & N). cbn [look]. rewrite Forall_forall in S2. split.
    + intros k' v [E|H] Q.
      * injection E as -> ->. destruct Q as (-> & ->). reflexivity.
      * assert (L : lt q k = true) by (eapply (lt_eqv_r lt W); [exact (S2 _ H) | exact Q]). rewrite L. exact (I _ _ H Q).
    + intros H. destruct (lt q k) eqn:A; [apply N; intros; apply (H _ v); right; assumption|]. destruct (lt k q) eqn:C; [apply N; intros; apply (H _ v); right; assumption|].
      exfalso. apply (H q w (or_introl eq_refl)). split; assumption.
  - intros eqb m Sy Tr P. unfold retrieve_or_default_u. induction P as [|[q w] m F P IH]; [split; [intros k' v [] | reflexivity]|].
    destruct IH as (I & N). cbn [find fst snd]. rewrite Forall_forall in F. split.
    + intros k' v [E|H] Q.
      * injection E as -> ->. rewrite Q. reflexivity.
      * destruct (eqb q k) eqn:A; [|exact (I _ _ H Q)]. pose proof (F _ H) as D. cbn in D. rewrite (Tr q k k' A) in D by (rewrite Sy; exact Q). discriminate.
    + intros H. rewrite (H q w (or_introl eq_refl)). apply N. intros k' v Hi. apply (H k' v). right. exact Hi.
Qed.
Print Assumptions C91_retrieve.
Example C91_retrieve_example : let m := [(1, 10); (4, 40); (9, 90)]%nat in
  well_formed Nat.ltb m /\ retrieve_or_default Nat.ltb m 4 7 = 40 /\ retrieve_or_default Nat.ltb m 5 7 = 7 /\
  retrieve_or_default_u Nat.eqb (rev m) 9 7 = 90 /\ retrieve_or_default_u Nat.eqb (rev m) 0 7 = 7.
Proof. cbv zeta. split; [repeat constructor|]. repeat split. Qed.
