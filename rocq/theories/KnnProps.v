(** Properties of nearest-neighbour selection: C25. *)
From Verif Require Import Base Cost CostFloat KnnModel KnnProofs.
From Coq Require Import Permutation.
From Flocq Require Import IEEE754.Binary IEEE754.Bits.

(** [res] holds distinct items of the data set, with their distances, and nothing left out is strictly closer
    than anything returned. *)
Definition nearest {Item} {C : cost} (dist : Item -> C) (items : list Item) (res : list (Z * C)) : Prop :=
  NoDup (map fst res) /\
  (forall p, In p res -> exists i x, nth_error items i = Some x /\ p = (Z.of_nat i, dist x)) /\
  (forall i x p, nth_error items i = Some x -> ~ In (Z.of_nat i) (map fst res) -> In p res ->
     cltb (dist x) (snd p) = false).

(** How many entries are strictly closer than [t]: equal for all [t] means equal distances up to order. *)
Definition count_closer {C : cost} (t : C) (res : list (Z * C)) : nat := length (filter (fun p => cltb (snd p) t) res).

(** A schedule gives every loop iteration to exactly one thread, in any order. *)
Definition schedule_of (n : nat) (s : list (list nat)) : Prop := Permutation (concat s) (seq 0 n).

Section P.
Context {C : cost} {ok : C -> Prop}.
Variable L : cost_laws C ok.
Variable isinf : C -> bool.
Hypothesis Hinf : forall d, ok d -> isinf d = negb (cltb d cinf).
Context {Item : Type}.
Variable dist : Item -> C.

Definition finite_count (items : list Item) : nat := length (filter (fun x => cltb (dist x) cinf) items).

Lemma entries_as_map (items : list Item) : forall pre,
  flat_map (entry_of dist (pre ++ items)) (seq (length pre) (length items)) =
  map (fun p => (Z.of_nat (length pre + fst p), dist (snd p))) (combine (seq 0 (length items)) items).
Proof.
  induction items as [|x items IH]; intros pre; cbn [length seq flat_map combine map]; auto.
  unfold entry_of at 1. rewrite nth_error_app2, Nat.sub_diag by lia. cbn [nth_error app fst snd]. rewrite Nat.add_0_r. f_equal.
  specialize (IH (pre ++ [x])). rewrite <- app_assoc, app_length in IH. cbn [app length] in IH.
  rewrite Nat.add_1_r in IH. rewrite IH. rewrite <- seq_shift.
  clear. generalize (seq 0 (length items)). induction items as [|y items IH]; intros [|k l]; cbn; auto.
  rewrite IH. f_equal. do 2 f_equal. lia.
Qed.
Lemma all_entries_map items : all_entries dist items =
  map (fun p => (Z.of_nat (fst p), dist (snd p))) (combine (seq 0 (length items)) items).
Proof. apply (entries_as_map items []). Qed.
Lemma combine_snd {A B} (a : list A) : forall b : list B, length a = length b -> map snd (combine a b) = b.
Proof. induction a as [|x a IH]; intros [|y b]; cbn; intros H; auto; try discriminate. rewrite IH; auto. Qed.
Lemma all_entries_dists items : map snd (all_entries dist items) = map dist items.
Proof.
  rewrite all_entries_map, map_map. cbn [snd].
  rewrite <- (combine_snd (seq 0 (length items)) items) at 3 by apply seq_length. rewrite map_map. reflexivity.
Qed.
Lemma filter_count {A B} (f : A -> B) (p : B -> bool) l : length (filter (fun x => p (f x)) l) = length (filter p (map f l)).
Proof. induction l as [|x l IH]; cbn; auto. destruct (p (f x)); cbn; auto. Qed.

Lemma all_keys items : map fst (all_entries dist items) = map Z.of_nat (seq 0 (length items)).
Proof. apply entry_keys. apply Forall_forall. intros i I. apply in_seq in I. lia. Qed.
Lemma all_nodup items : NoDup (map fst (all_entries dist items)).
Proof. rewrite all_keys. apply FinFun.Injective_map_NoDup; [intros a b; lia|apply seq_NoDup]. Qed.

Lemma nearest_of_best items res f :
  (forall x, In x items -> ok (dist x)) ->
  (forall e, In e (all_entries dist items) -> f e = cltb (snd e) cinf) ->
  best_part res (filter f (all_entries dist items)) -> nearest dist items res.
Proof.
  intros O Hf (rest & P & D). 
  assert (IN : forall p, In p res -> In p (filter f (all_entries dist items))).
  { intros p I. apply (Permutation_in _ P). apply in_app_iff; auto. }
  split; [|split].
  - assert (N : NoDup (map fst (res ++ rest))).
    { eapply Permutation_NoDup; [apply Permutation_map; symmetry; exact P|].
      assert (X : forall l : list (Z * C), NoDup (map fst l) -> NoDup (map fst (filter f l))).
      { induction l as [|e l IH]; cbn; auto. intros N. inversion N; subst. destruct (f e); cbn; auto. constructor; auto.
        rewrite in_map_iff in *. intros (e' & E1 & E2). apply filter_In in E2 as [E2 _]. apply H1. eauto. }
      apply X. apply all_nodup. }
    rewrite map_app in N. clear - N. induction (map fst res) as [|k ks IH]; [constructor|].
    cbn in N. inversion N; subst. constructor; auto. rewrite in_app_iff in H1. tauto.
  - intros p I. specialize (IN p I). apply filter_In in IN as [IN _]. apply entry_in in IN as (i & x & _ & H & ->). eauto.
  - intros i x p H NI I.
    assert (E : In (Z.of_nat i, dist x) (all_entries dist items)).
    { apply entry_in. exists i, x. split; auto. apply in_seq. assert (i < length items) by (apply nth_error_Some; congruence). lia. }
    assert (OX : ok (dist x)) by (apply O; eapply nth_error_In; eauto).
    assert (OP : ok (snd p)).
    { specialize (IN p I). apply filter_In in IN as [IN _]. apply entry_in in IN as (j & y & _ & HY & ->). apply O. eapply nth_error_In; eauto. }
    destruct (f (Z.of_nat i, dist x)) eqn:Q.
    + assert (X : In (Z.of_nat i, dist x) (res ++ rest)).
      { apply (Permutation_in _ (Permutation_sym P)). apply filter_In. auto. }
      apply in_app_iff in X as [X|X].
      * elim NI. apply in_map_iff. exists (Z.of_nat i, dist x). auto.
      * exact (D p _ I X).
    + rewrite Hf in Q by auto. cbn in Q.
      destruct (cltb (dist x) (snd p)) eqn:Q'; auto.
      rewrite (clt_le_trans L (dist x) (snd p) cinf) in Q; auto; [apply (cl_inf _ _ L)|].
      apply (cl_inf_max _ _ L); auto.
Qed.

Lemma finite_filter items f : (forall e, In e (all_entries dist items) -> f e = cltb (snd e) cinf) ->
  length (filter f (all_entries dist items)) = finite_count items.
Proof.
  intros Hf. unfold finite_count. rewrite (filter_count dist (fun d => cltb d cinf)), <- all_entries_dists, <- (filter_count snd (fun d => cltb d cinf)).
  f_equal. revert Hf. generalize (all_entries dist items). induction l as [|e l IH]; cbn; auto. intros H.
  rewrite (H e) by auto. rewrite IH by auto. reflexivity.
Qed.

Lemma all_finite items : (forall x, In x items -> cltb (dist x) cinf = true) -> finite_count items = length items.
Proof. intros H. unfold finite_count. rewrite filter_all; auto. Qed.

(** C25, serial, finite distances: exactly min(K, n) nearest items. *)
Theorem C25_serial : forall items K,
  (forall x, In x items -> ok (dist x) /\ cltb (dist x) cinf = true) ->
  length (knn_serial dist items K) = Nat.min K (length items) /\ nearest dist items (knn_serial dist items K).
Proof.
  intros items K H. assert (O : forall x, In x items -> ok (dist x)) by (intros x I; apply H; auto).
  set (f := fun e : Z * C => cltb (snd e) cinf).
  assert (Ff : filter f (all_entries dist items) = all_entries dist items).
  { apply filter_all. intros e I. apply entry_in in I as (i & x & _ & N & ->). apply H. eapply nth_error_In; eauto. }
  assert (LA : length (all_entries dist items) = length items).
  { rewrite <- (map_length snd), all_entries_dists, map_length. reflexivity. }
  unfold knn_serial. destruct (Nat.eqb_spec K 0) as [->|NK].
  { split; auto. split; [constructor|]. split; [intros p []|intros i x p _ _ []]. }
  destruct (Nat.ltb_spec K (length items)) as [LT|GE].
  - destruct (thread_entries L K (all_entries dist items)) as [(rest & P & D) Len]; [lia|apply entries_from_data; auto|].
    set (res := fold_left offer (all_entries dist items) (repeat sentinel K)) in *.
    split; [lia|].
    apply (nearest_of_best items res f); auto. rewrite Ff.
    (* no sentinel is left: it would be beaten by a real entry *)
    assert (NS : forall e, In e res -> cltb (snd e) cinf = true).
    { intros e I. destruct (cltb (snd e) cinf) eqn:Q; auto. exfalso.
      assert (CA : closer cinf (repeat sentinel K ++ all_entries dist items) = length items).
      { rewrite closer_app, closer_none, (closer_every cinf (all_entries dist items)); auto.
        - intros e' I'. rewrite <- Ff in I'. apply filter_In in I' as [_ I']. exact I'.
        - intros e' I'. apply repeat_spec in I' as ->. cbn. apply (cl_irrefl _ _ L). apply (cl_inf _ _ L). }
      assert (OA : Forall (fun e : Z * C => ok (snd e)) (repeat sentinel K ++ all_entries dist items)).
      { apply Forall_app. split; [apply (sentinels_ok L)|apply from_data_ok, entries_from_data; auto]. }
      pose proof (best_count L cinf res _ OA (cl_inf _ _ L) (ex_intro _ rest (conj P D))) as BC.
      rewrite CA, Len in BC. rewrite Nat.min_l in BC by lia. rewrite <- Len in BC.
      pose proof (closer_all cinf res BC e I). congruence. }
    (* so all sentinels are in the rest *)
    assert (P2 : Permutation (filter f (res ++ rest)) (filter f (repeat sentinel K ++ all_entries dist items)))
      by (apply perm_filter; auto).
    rewrite !filter_app, Ff in P2.
    assert (filter f (repeat sentinel K) = []) as E0.
    { clear -L. unfold f. induction K; cbn; auto. rewrite (cl_irrefl _ _ L) by apply (cl_inf _ _ L). auto. }
    rewrite E0 in P2. cbn [app] in P2.
    rewrite (filter_all f res) in P2 by exact NS.
    exists (filter f rest). split; auto. intros b r IB IR. apply filter_In in IR as [IR _]. auto.
  - split; [lia|]. apply (nearest_of_best items _ f); auto. rewrite Ff. apply best_refl.
Qed.

(** C25, parallel: under every schedule, the min(K, number of items at finite distance) nearest items; items at
    infinite distance are only returned when there are no more than K items in all. *)
Theorem C25_parallel : forall schedule items K,
  (forall x, In x items -> ok (dist x)) -> schedule_of (length items) schedule ->
  length (knn_parallel isinf dist schedule items K)
    = Nat.min K (if K <? length items then finite_count items else length items) /\
  nearest dist items (knn_parallel isinf dist schedule items K).
Proof.
  intros s items K O S.
  assert (LA : length (all_entries dist items) = length items).
  { rewrite <- (map_length snd), all_entries_dists, map_length. reflexivity. }
  unfold knn_parallel. destruct (Nat.eqb_spec K 0) as [->|NK].
  { split; auto. split; [constructor|]. split; [intros p []|intros i x p _ _ []]. }
  destruct (Nat.ltb_spec K (length items)) as [LT|GE].
  - destruct (parallel_best L isinf Hinf K (map (flat_map (entry_of dist items)) s)) as [B Len]; [lia| |].
    { apply Forall_forall. intros es I. apply in_map_iff in I as (is & <- & I). apply entries_from_data; auto. }
    rewrite map_map in B, Len.
    assert (PC : Permutation (concat (map (flat_map (entry_of dist items)) s)) (all_entries dist items)).
    { assert (concat (map (flat_map (entry_of dist items)) s) = flat_map (entry_of dist items) (concat s)) as ->.
      { clear. induction s as [|is s IH]; cbn; auto. rewrite flat_map_app, IH. reflexivity. }
      apply Permutation_flat_map. exact S. }
    assert (Hf : forall e, In e (all_entries dist items) -> real_entry isinf e = cltb (snd e) cinf).
    { intros e I. apply entry_in in I as (i & x & _ & N & ->). apply (real_inf isinf Hinf); cbn; [lia|].
      apply O. eapply nth_error_In; eauto. }
    apply perm_filter with (f := real_entry isinf) in PC. split.
    + rewrite Len, (Permutation_length PC), (finite_filter items _ Hf). reflexivity.
    + apply (nearest_of_best items _ (real_entry isinf)); auto.
      destruct B as (rest & P & D). exists rest. split; auto. rewrite P. exact PC.
  - split; [lia|]. split; [apply all_nodup|]. split.
    + intros p I. apply entry_in in I as (i & x & _ & N & ->). eauto.
    + intros i x p N NI _. elim NI. rewrite all_keys. apply in_map. apply in_seq.
      assert (i < length items) by (apply nth_error_Some; congruence). lia.
Qed.

Lemma nearest_best items res : nearest dist items res -> best_part res (all_entries dist items).
Proof.
  intros (N & I & D).
  assert (exists rest, Permutation (res ++ rest) (all_entries dist items)) as (rest & P).
  { assert (Sub : incl res (all_entries dist items)).
    { intros p Hp. destruct (I p Hp) as (i & x & H & ->). apply entry_in. exists i, x. split; auto. apply in_seq.
      assert (i < length items) by (apply nth_error_Some; congruence). lia. }
    apply NoDup_map_inv in N. revert Sub N. generalize (all_entries dist items). clear. intros all. revert all.
    induction res as [|e res IH]; intros all Sub N; [exists all; reflexivity|].
    inversion N; subst. assert (IE : In e all) by (apply Sub; left; auto).
    apply in_split in IE as (l1 & l2 & ->).
    destruct (IH (l1 ++ l2)) as (rest & P); auto.
    - intros x Hx. assert (X : In x (l1 ++ e :: l2)) by (apply Sub; right; auto). rewrite in_app_iff in *. cbn in X.
      destruct X as [X|[<-|X]]; auto. contradiction.
    - exists rest. cbn. rewrite P. apply Permutation_middle. }
  exists rest. split; auto. intros b r IB IR.
  assert (IA : In r (all_entries dist items)) by (apply (Permutation_in _ P); apply in_app_iff; auto).
  apply entry_in in IA as (i & x & _ & H & ->). apply (D i x b); auto.
  intros K. apply in_map_iff in K as (e & E1 & E2).
  pose proof (all_nodup items) as ND. rewrite <- (Permutation_map fst P), map_app in ND.
  clear - ND E1 E2 IR. apply in_split in IR as (l1 & l2 & ->). rewrite map_app in ND. cbn in ND.
  rewrite app_assoc in ND. apply NoDup_remove_2 in ND. apply ND. rewrite <- E1. rewrite !in_app_iff. left; left. apply in_map; auto.
Qed.

(** C25: serial and parallel agree on the distances found, whatever the schedule. *)
Theorem C25_same_distances : forall schedule items K t,
  (forall x, In x items -> ok (dist x) /\ cltb (dist x) cinf = true) -> schedule_of (length items) schedule -> ok t ->
  count_closer t (knn_serial dist items K) = count_closer t (knn_parallel isinf dist schedule items K).
Proof.
  intros s items K t H S OT. assert (O : forall x, In x items -> ok (dist x)) by (intros x I; apply H; auto).
  destruct (C25_serial items K H) as [L1 N1]. destruct (C25_parallel s items K O S) as [L2 N2].
  rewrite all_finite in L2 by (intros x I; apply H; auto). destruct (K <? length items).
  1, 2: rewrite <- L1 in L2.
  all: change (closer t (knn_serial dist items K) = closer t (knn_parallel isinf dist s items K));
    rewrite (best_count L t _ (all_entries dist items)), (best_count L t (knn_parallel isinf dist s items K) (all_entries dist items)), L2; auto;
    try apply nearest_best; auto; apply from_data_ok, entries_from_data; auto.
Qed.
End P.
Print Assumptions C25_serial.
Print Assumptions C25_parallel.
Print Assumptions C25_same_distances.

(** std::isinf on doubles. *)
Definition b64_isinf (x : b64_cost) : bool := match (x : binary64) with B754_infinity _ _ _ => true | _ => false end.
Lemma b64_isinf_ok (d : b64_cost) : b64_ok d -> b64_isinf d = negb (cltb d cinf).
Proof.
  destruct d as [s|s|s pl H|s m e B]; cbn; intros O; try contradiction; try subst s; auto.
Qed.

(** C25 for doubles: any number of items at non-negative, finite, non-NaN distances. *)
Theorem C25_doubles : forall (Item : Type) (dist : Item -> b64_cost) schedule items K,
  (forall x, In x items -> b64_ok (dist x) /\ is_finite 53 1024 (dist x) = true) -> schedule_of (length items) schedule ->
  let serial := knn_serial dist items K in let parallel := knn_parallel b64_isinf dist schedule items K in
  length serial = Nat.min K (length items) /\ length parallel = Nat.min K (length items) /\
  nearest dist items serial /\ nearest dist items parallel.
Proof.
  intros Item dist s items K H S. cbn zeta.
  assert (H' : forall x, In x items -> b64_ok (dist x) /\ cltb (dist x) (cinf : b64_cost) = true).
  { intros x I. destruct (H x I) as [A B]. split; auto. pose proof (b64_isinf_ok (dist x) A) as E.
    destruct (dist x); cbn in *; try discriminate; auto. }
  destruct (C25_serial b64_laws dist items K H') as [L1 N1].
  destruct (C25_parallel b64_laws b64_isinf b64_isinf_ok dist s items K) as [L2 N2]; auto; [intros x I; apply H; auto|].
  rewrite all_finite in L2 by (intros x I; apply H'; auto).
  split; auto. split; [destruct (K <? length items); auto|]. auto.
Qed.
Print Assumptions C25_doubles.

(** C25 is false when distances may be infinite: the serial version then returns index -1, which is no item, and
    the parallel version returns fewer than min(K, n) items. *)
Theorem C25_infinite_distance_refuted : exists (dist : nat -> b64_cost) items K schedule,
  schedule_of (length items) schedule /\ K < length items /\
  knn_serial dist items K = [((-1)%Z, cinf)] /\ knn_parallel b64_isinf dist schedule items K = [].
Proof.
  exists (fun _ => cinf), [0; 1], 1, [[1]; [0]]. split; [apply perm_swap|]. split; [cbn; lia|]. split; vm_compute; reflexivity.
Qed.
Print Assumptions C25_infinite_distance_refuted.

(** The hypotheses are met, with ties, two threads and out-of-order iterations. *)
Definition d_small (x : nat) : b64_cost := binary_normalize 53 1024 eq_refl eq_refl BinarySingleNaN.mode_NE (Z.of_nat x) 0 false.
Example C25_example :
  schedule_of 5 [[4; 1]; []; [2; 0; 3]] /\
  map fst (knn_serial d_small [5; 2; 9; 2; 1] 3) = [4; 1; 3]%Z /\
  map fst (knn_parallel b64_isinf d_small [[4; 1]; []; [2; 0; 3]] [5; 2; 9; 2; 1] 3) = [4; 1; 3]%Z.
Proof.
  split; [|split; vm_compute; reflexivity]. unfold schedule_of; cbn.
  apply NoDup_Permutation; try (repeat constructor; cbn; intuition lia).
  intros x; cbn; intuition lia.
Qed.
