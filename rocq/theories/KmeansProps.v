(** Properties of k-means clustering: C35, C36, C66. *)
From Verif Require Import Base Cost KmeansModel.
From Coq Require Import Reals Lra Sorted.
Open Scope nat_scope.

Notation label := (option nat).

(** The items bearing label l, in order. *)
Definition bearing {A} (data : list A) (labels : list label) (l : nat) : list A :=
  map fst (filter (fun p => match snd p with Some l' => l' =? l | None => false end) (combine data labels)).

Lemma nth_error_seq a n i : i < n -> nth_error (seq a n) i = Some (a + i).
Proof. revert a i. induction n as [|n IH]; intros a [|i] H; try lia; cbn; [f_equal; lia|]. rewrite IH by lia. f_equal. lia. Qed.

Section P.
Context {C : cost} {ok : C -> Prop}.
Variable L : cost_laws C ok.
Context {D A : Type}.
Variable dbg : bool.
Variable dist : D -> D -> C.
Variable item : A -> D.
Variable avg : list A -> D.
Hypothesis Hdist : forall a b, ok (dist a b).

Lemma closest_fold x centers : forall s acc, ok (fst acc) ->
  let r := fold_left (closest_step dist x) (combine (seq s (length centers)) centers) acc in
  ok (fst r) /\ cle (fst r) (fst acc) /\ (forall c, In c centers -> cle (fst r) (dist c x)) /\
  (r = acc \/ exists l c, nth_error centers l = Some c /\ snd r = Some (s + l) /\ fst r = dist c x /\
     cltb (dist c x) (fst acc) = true /\ forall l' c', l' < l -> nth_error centers l' = Some c' -> cltb (dist c x) (dist c' x) = true).
Proof.
  induction centers as [|c centers IH]; intros s acc O; cbn [length seq combine fold_left].
  - cbn. split; auto. split; [apply (cle_refl L); auto|]. split; [tauto|auto].
  - cbv zeta. set (acc1 := closest_step dist x acc (s, c)).
    assert (O1 : ok (fst acc1)) by (unfold acc1, closest_step; cbn [fst snd]; destruct (cltb _ _); cbn; auto).
    assert (A1 : cle (fst acc1) (fst acc) /\ cle (fst acc1) (dist c x)).
    { unfold acc1, closest_step. cbn [fst snd]. destruct (cltb (dist c x) (fst acc)) eqn:E; cbn [fst].
      - split; [apply (clt_le L); auto|apply (cle_refl L); auto].
      - split; [apply (cle_refl L); auto|exact E]. }
    destruct A1 as [A1 A2]. specialize (IH (S s) acc1 O1). cbv zeta in IH.
    destruct IH as (I1 & I2 & I3 & I4). split; auto. split; [apply (cle_trans L _ (fst acc1)); auto|]. split.
    + intros c' [<-|H]; auto. apply (cle_trans L _ (fst acc1)); auto.
    + destruct I4 as [E|(l & c' & N & S1 & F1 & T1 & B)].
      * rewrite E. unfold acc1, closest_step. cbn [fst snd]. destruct (cltb (dist c x) (fst acc)) eqn:X; auto.
        right. exists 0, c. cbn [nth_error fst snd]. rewrite Nat.add_0_r. repeat split; auto. intros l' c'' H. lia.
      * right. exists (S l), c'. cbn [nth_error]. split; auto. split; [rewrite S1; f_equal; lia|]. split; auto. split.
        { apply (clt_le_trans L _ (fst acc1)); auto. }
        intros [|l'] c'' Hl Hn; cbn in Hn.
        -- injection Hn as <-. apply (clt_le_trans L _ (fst acc1)); auto.
        -- apply (B l'); auto. lia.
Qed.

(** What a label says about centers and item: a closest center, the first such. *)
Definition nearest_label (centers : list D) (x : D) (l : nat) : Prop :=
  exists c, nth_error centers l = Some c /\ (forall c', In c' centers -> cltb (dist c' x) (dist c x) = false) /\
    forall l' c', l' < l -> nth_error centers l' = Some c' -> cltb (dist c x) (dist c' x) = true.

Lemma get_closest_some centers x l : get_closest dbg dist centers x = Ok (Some l) -> nearest_label centers x l.
Proof.
  unfold get_closest, cassert. intros H.
  pose proof (closest_fold x centers 0 (cinf, None) (cl_inf _ _ L)) as (_ & _ & I3 & I4).
  change (combine (seq 0 (length centers)) centers) with (enumerate centers) in *. cbv zeta in *.
  destruct I4 as [E|(l' & c & N & S1 & F1 & T1 & B)].
  - rewrite E in H. cbn [snd negb andb] in H. rewrite andb_true_r in H. destruct dbg; discriminate.
  - rewrite S1 in H. cbn [negb] in H. rewrite andb_false_r in H. injection H as <-. exists c. split; auto.
    split; auto. rewrite F1 in I3. exact I3.
Qed.
Lemma get_closest_total centers x : centers <> [] -> (forall c, In c centers -> cltb (dist c x) cinf = true) ->
  exists l, get_closest dbg dist centers x = Ok (Some l).
Proof.
  intros NE F. unfold get_closest, cassert.
  pose proof (closest_fold x centers 0 (cinf, None) (cl_inf _ _ L)) as (_ & _ & I3 & I4).
  change (combine (seq 0 (length centers)) centers) with (enumerate centers) in *. cbv zeta in *.
  destruct I4 as [E|(l' & c & N & S1 & _)].
  - exfalso. rewrite E in I3. cbn [fst] in I3. destruct centers as [|c centers]; [congruence|].
    specialize (I3 c ltac:(left; auto)). unfold cle in I3. rewrite F in I3 by (left; auto). discriminate.
  - rewrite S1. cbn [negb]. rewrite andb_false_r. eauto.
Qed.

Lemma label_all_spec centers data : forall labels, label_all dbg dist centers data = Ok labels ->
  length labels = length data /\ forall i x l, nth_error data i = Some x -> nth_error labels i = Some (Some l) -> nearest_label centers x l.
Proof.
  induction data as [|x data IH]; intros labels H; cbn [label_all] in H.
  - injection H as <-. split; auto. intros [|i]; discriminate.
  - apply obind_ok in H. destruct H as (l & E & H). apply obind_ok in H. destruct H as (ls & E2 & H). injection H as <-.
    destruct (IH _ E2) as [I1 I2]. split; [cbn; auto|]. intros [|i] y l' N1 N2; cbn in N1, N2.
    + injection N1 as <-. injection N2 as ->. apply get_closest_some; auto.
    + eapply I2; eauto.
Qed.
Lemma label_all_total centers data : centers <> [] -> (forall c x, In c centers -> In x data -> cltb (dist c x) cinf = true) ->
  exists ls, label_all dbg dist centers data = Ok (map Some ls).
Proof.
  intros NE. induction data as [|x data IH]; intros F; cbn [label_all].
  - exists []. reflexivity.
  - destruct (get_closest_total centers x NE ltac:(intros; apply F; [auto|left; auto])) as (l & ->). cbn [obind].
    destruct IH as (ls & ->); [intros; apply F; [auto|right; auto]|]. exists (l :: ls). reflexivity.
Qed.

Lemma distribute_spec {B} (data : list B) : forall labels acc cs, distribute acc data labels = Ok cs ->
  length cs = length acc /\
  (forall l c0, nth_error acc l = Some c0 -> nth_error cs l = Some (c0 ++ bearing data labels l)) /\
  (forall i x, nth_error data i = Some x -> exists l, nth_error labels i = Some (Some l) /\ l < length acc).
Proof.
  induction data as [|x data IH]; intros labels acc cs H; cbn [distribute] in H.
  - injection H as <-. split; auto. split.
    + intros l c0 E. unfold bearing. cbn. rewrite app_nil_r. auto.
    + intros [|i]; discriminate.
  - destruct labels as [|[l|] labels]; try discriminate. destruct (nth_error acc l) as [c|] eqn:E; [|discriminate].
    destruct (IH _ _ _ H) as (I1 & I2 & I3). rewrite upd_length in I1, I3.
    assert (Ll : l < length acc) by (apply nth_error_Some; congruence). split; auto. split.
    + intros l' c0 E'. unfold bearing. cbn [combine filter map fst snd].
      destruct (Nat.eqb_spec l l') as [->|N]; cbn [map fst].
      * rewrite E in E'. injection E' as <-.
        rewrite (I2 l' (c ++ [x])); [|rewrite nth_error_upd, Nat.eqb_refl; destruct (Nat.ltb_spec l' (length acc)); [reflexivity|lia]].
        rewrite <- app_assoc. reflexivity.
      * apply I2. rewrite nth_error_upd. destruct (Nat.eqb_spec l l'); auto; congruence.
    + intros [|i] y Y; cbn in Y |- *.
      * eauto.
      * destruct (I3 i y Y) as (l' & X & Lt). eauto.
Qed.

Lemma centers_spec (data : list A) labels k centers : compute_centers dbg avg data labels k = Ok centers ->
  length centers = k /\ (forall l c, nth_error centers l = Some c -> c = avg (bearing data labels l)) /\
  (forall i x, nth_error data i = Some x -> exists l, nth_error labels i = Some (Some l) /\ l < k).
Proof.
  unfold compute_centers, cassert. destruct (dbg && _); [discriminate|]. intros H. apply obind_ok in H. destruct H as (cs & E & H).
  injection H as <-. destruct (distribute_spec _ _ _ _ E) as (I1 & I2 & I3). rewrite repeat_length in I1, I3.
  split; [rewrite map_length; auto|]. split; auto.
  intros l c N. rewrite nth_error_map in N. assert (Lk : l < k).
  { rewrite <- I1. apply nth_error_Some. intro X. rewrite X in N. discriminate. }
  specialize (I2 l []). rewrite nth_error_repeat in I2 by auto. rewrite (I2 eq_refl) in N. cbn in N. congruence.
Qed.

Lemma converged_eq a b : length a = length b -> converged a b = true -> a = b.
Proof.
  revert b. induction a as [|x a IH]; intros [|y b] H; cbn in *; try discriminate; auto. intros E.
  apply andb_true_iff in E. destruct E as [E1 E2]. f_equal; auto.
  destruct x as [i|], y as [j|]; try discriminate; auto. apply Nat.eqb_eq in E1. congruence.
Qed.

Lemma loop_spec fuel : forall (data : list A) k labels labels' centers, length labels = length data ->
  kmeans_loop dbg dist item avg fuel data k labels = Ok (labels', centers) ->
  length centers = k /\ length labels' = length data /\
  (forall i x, nth_error data i = Some x -> exists l, nth_error labels' i = Some (Some l) /\ l < k /\ nearest_label centers (item x) l) /\
  (forall l c, nth_error centers l = Some c -> c = avg (bearing data labels' l)).
Proof.
  induction fuel as [|f IH]; intros data k labels labels' centers Ln H; cbn [kmeans_loop] in H; [discriminate|].
  apply obind_ok in H. destruct H as (cs & E & H). apply obind_ok in H. destruct H as (ls & E2 & H).
  destruct (label_all_spec _ _ _ E2) as [L2 N2]. rewrite map_length in L2.
  destruct (converged labels ls) eqn:CV.
  - injection H as <- <-. apply converged_eq in CV; [|congruence]. subst ls.
    destruct (centers_spec _ _ _ _ E) as (I1 & I2 & I3). split; auto. split; auto. split; auto.
    intros i x X. destruct (I3 i x X) as (l & Y & Lt). exists l. split; auto. split; auto. apply (N2 i); auto.
    rewrite nth_error_map, X. reflexivity.
  - apply (IH data k ls); auto.
Qed.

(** C35: when Cluster returns labels and centers, every item is labelled with a closest center, and every center is
    the average of the items it labels (an empty list for a center without items). *)
Theorem C35_labels_and_centers : forall fuel (data : list A) initial labels centers,
  kmeans dbg dist item avg fuel data initial = Ok (labels, centers) ->
  length centers = length initial /\ length labels = length data /\
  (forall i x, nth_error data i = Some x -> exists l c, nth_error labels i = Some (Some l) /\ nth_error centers l = Some c /\
     forall c', In c' centers -> cltb (dist c' (item x)) (dist c (item x)) = false) /\
  (forall l c, nth_error centers l = Some c -> c = avg (bearing data labels l)).
Proof.
  intros fuel data initial labels centers H. unfold kmeans in H. apply obind_ok in H. destruct H as (l0 & E & H).
  destruct (label_all_spec _ _ _ E) as [L0 _]. rewrite map_length in L0.
  destruct (loop_spec _ _ _ _ _ _ L0 H) as (I1 & I2 & I3 & I4). split; auto. split; auto. split; auto.
  intros i x X. destruct (I3 i x X) as (l & Y & _ & c & N & M & _). exists l, c. auto.
Qed.

Lemma insert_length i l : length (insert i l) <= S (length l).
Proof.
  induction l as [|j l IH]; cbn [insert length]; [lia|]. destruct (i <? j); cbn [length]; [lia|]. destruct (j <? i); cbn [length]; lia.
Qed.
Lemma insert_in i l j : In j (insert i l) <-> j = i \/ In j l.
Proof.
  induction l as [|a l IH]; cbn [insert In].
  - split; intros [H|H]; auto; contradiction.
  - destruct (Nat.ltb_spec i a); cbn [In].
    + split; intros [H1|H1]; auto.
    + destruct (Nat.ltb_spec a i); cbn [In].
      * rewrite IH. tauto.
      * assert (i = a) by lia. subst. split; [tauto|]. intros [->|H1]; auto.
Qed.
Lemma select_spec fuel draw n m : (forall t, draw t < n) -> forall t chosen r, length chosen <= m -> (forall i, In i chosen -> i < n) ->
  select fuel draw t m chosen = Ok r -> length r = m /\ forall i, In i r -> i < n.
Proof.
  intros Hd. induction fuel as [|f IH]; intros t chosen r Lc Hi H; cbn [select] in H; destruct (Nat.ltb_spec (length chosen) m); try discriminate.
  - injection H as <-. split; auto. lia.
  - apply IH in H; auto; [pose proof (insert_length (draw t) chosen); lia|].
    intros i I. apply insert_in in I. destruct I as [->|I]; auto.
  - injection H as <-. split; auto. lia.
Qed.
Lemma pick_length {B} (data : list B) is : (forall i, In i is -> i < length data) -> length (pick_items data is) = length is.
Proof.
  induction is as [|i is IH]; intros H; cbn; auto. destruct (nth_error data i) eqn:E.
  - cbn. f_equal. apply IH. intros; apply H; right; auto.
  - apply nth_error_None in E. specialize (H i ltac:(left; auto)). lia.
Qed.

(** C35 for the overloads that choose the initial centers at random, with or without preliminary clustering: the
    labels returned are below num_clusters and are the nearest-center labels of the averages they define. *)
Theorem C35_random_start : forall fuel draw draw2 tenth subset (data : list A) k prelim labels, 1 <= k ->
  (forall t, draw t < length data) ->
  kmeans_random dbg dist item avg fuel draw draw2 tenth subset data k prelim = Ok labels ->
  exists centers, length centers = k /\ length labels = length data /\
  (forall i x, nth_error data i = Some x -> exists l c, nth_error labels i = Some (Some l) /\ nth_error centers l = Some c /\
     forall c', In c' centers -> cltb (dist c' (item x)) (dist c (item x)) = false) /\
  (forall l c, nth_error centers l = Some c -> c = avg (bearing data labels l)).
Proof.
  intros fuel draw draw2 tenth subset data k prelim labels K Hd H.
  assert (G : forall initial r, kmeans dbg dist item avg fuel data initial = Ok r -> length initial = k -> labels = fst r -> exists centers, length centers = k /\ length labels = length data /\
    (forall i x, nth_error data i = Some x -> exists l c, nth_error labels i = Some (Some l) /\ nth_error centers l = Some c /\
     forall c', In c' centers -> cltb (dist c' (item x)) (dist c (item x)) = false) /\
    (forall l c, nth_error centers l = Some c -> c = avg (bearing data labels l))).
  { intros initial [ls cs] E Ei El. cbn [fst] in El. subst ls. destruct (C35_labels_and_centers _ _ _ _ _ E) as (I1 & I2 & I3 & I4). exists cs. split; [congruence|auto]. }
  unfold kmeans_random in H. destruct (prelim && _ && _).
  - unfold cassert in H. destruct (dbg && _); [discriminate|]. destruct (dbg && _); [discriminate|].
    apply obind_ok in H. destruct H as (is & _ & H). apply obind_ok in H. destruct H as (ls & _ & H).
    apply obind_ok in H. destruct H as (cs & Ec & H). apply obind_ok in H. destruct H as (r & E & H). injection H as <-.
    apply (G cs r); auto. apply (centers_spec _ _ _ _ Ec).
  - unfold kmeans_simple, cassert in H. destruct (dbg && _); [discriminate|]. destruct (dbg && _); [discriminate|].
    destruct (Nat.eqb_spec k 1) as [ -> |_].
    { injection H as <-. exists [avg (bearing data (repeat (Some 0) (length data)) 0)]. split; auto. split; [apply repeat_length|]. split.
      - intros i x X. exists 0. eexists. split; [apply nth_error_repeat, nth_error_Some; congruence|]. split; [reflexivity|].
        intros c' [<-|[]]. apply (cl_irrefl _ _ L), Hdist.
      - intros [|[|l]] c E; cbn in E; congruence. }
    apply obind_ok in H. destruct H as (is & Es & H). apply obind_ok in H. destruct H as (r & E & H). injection H as <-.
    destruct (select_spec fuel draw (length data) k Hd 0 [] is) as [S1 S2]; auto; [cbn; lia|cbn; tauto|].
    eapply (G _ r); eauto. rewrite pick_length; auto. rewrite map_length. auto.
Qed.
End P.
Print Assumptions C35_labels_and_centers.
Print Assumptions C35_random_start.

(** ** C36 *)
Lemma insert_sorted i l : StronglySorted lt l -> StronglySorted lt (insert i l).
Proof.
  induction 1 as [|a l S IH F]; cbn [insert].
  - constructor; constructor.
  - destruct (Nat.ltb_spec i a) as [H|H].
    + constructor; [constructor; auto|]. constructor; auto. eapply Forall_impl; [|exact F]. cbn. intros; lia.
    + destruct (Nat.ltb_spec a i) as [H'|H'].
      * constructor; auto. rewrite Forall_forall in F |- *. intros j J. apply insert_in in J. destruct J as [->|J]; auto.
      * constructor; auto.
Qed.
Lemma sorted_nodup l : StronglySorted lt l -> NoDup l.
Proof.
  induction 1 as [|a l S IH F]; constructor; auto. intros I. rewrite Forall_forall in F. specialize (F a I). lia.
Qed.

(** C36 is false when more clusters are asked for than there are items: choosing distinct initial centers never ends,
    whatever the draws. *)
Theorem C36_more_clusters_than_items_refuted : forall (C : cost) D A dbg (dist : D -> D -> C) (item : A -> D) avg fuel draw draw2 tenth subset (data : list A) k,
  data <> [] -> 2 <= k -> length data < k -> (forall t, draw t < length data) ->
  kmeans_random dbg dist item avg fuel draw draw2 tenth subset data k false = NoFuel.
Proof.
  intros C D A dbg dist item avg fuel draw draw2 tenth subset data k NE K Lt Hd.
  unfold kmeans_random. cbn [andb]. unfold kmeans_simple, cassert.
  assert (0 <? length data = true) as -> by (apply Nat.ltb_lt; destruct data; [congruence|cbn; lia]).
  assert (0 <? k = true) as -> by (apply Nat.ltb_lt; lia). cbn [negb]. rewrite !andb_false_r.
  destruct (Nat.eqb_spec k 1) as [|_]; [lia|].
  assert (SZ : forall chosen, NoDup chosen -> (forall i, In i chosen -> i < length data) -> length chosen < k).
  { intros chosen N H. apply (Nat.le_lt_trans _ (length (seq 0 (length data)))); [|rewrite seq_length; auto].
    apply NoDup_incl_length; auto. intros i I. apply in_seq. specialize (H i I). lia. }
  assert (S : forall f t chosen, StronglySorted lt chosen -> (forall i, In i chosen -> i < length data) -> select f draw t k chosen = NoFuel).
  { induction f as [|f IH]; intros t chosen N H; cbn [select];
      (destruct (Nat.ltb_spec (length chosen) k) as [_|X]; [|specialize (SZ chosen (sorted_nodup _ N) H); lia]); auto.
    apply IH; [apply insert_sorted; auto|]. intros i I. apply insert_in in I. destruct I as [->|I]; auto. }
  rewrite S; [reflexivity|constructor|intros i []].
Qed.
Print Assumptions C36_more_clusters_than_items_refuted.

(** C36 is also false for averaging functions that do not fit the distance: two items that swap labels for ever. *)
Definition swap_dist (c x : nat) : ninf := if (c =? 10) && (x =? 0) || (c =? 11) && (x =? 1) || (c <? 10) && negb (c =? x) then Some 5%N else Some 0%N.
Definition swap_avg (l : list nat) : nat := match l with [0] => 10 | _ => 11 end.
Theorem C36_oscillation_refuted : exists data initial, data <> [] /\ length initial <= length data /\
  forall dbg fuel, kmeans dbg swap_dist (fun x => x) swap_avg fuel data initial = NoFuel.
Proof.
  exists [0; 1], [0; 1]. split; [discriminate|]. split; [auto|]. intros dbg fuel.
  assert (I : forall dbg, label_all dbg swap_dist [0; 1] [0; 1] = Ok [Some 0; Some 1]) by (intros []; reflexivity).
  unfold kmeans. cbn [map]. rewrite I. cbn [obind length].
  assert (G : kmeans_loop dbg swap_dist (fun x => x) swap_avg fuel [0; 1] 2 [Some 0; Some 1] = NoFuel /\
              kmeans_loop dbg swap_dist (fun x => x) swap_avg fuel [0; 1] 2 [Some 1; Some 0] = NoFuel).
  { induction fuel as [|f [IH1 IH2]]; [split; reflexivity|]. split; cbn [kmeans_loop map].
    - assert (compute_centers dbg swap_avg [0; 1] [Some 0; Some 1] 2 = Ok [10; 11]) as -> by (destruct dbg; reflexivity). cbn [obind].
      assert (label_all dbg swap_dist [10; 11] [0; 1] = Ok [Some 1; Some 0]) as -> by (destruct dbg; reflexivity). cbn [obind].
      exact IH2.
    - assert (compute_centers dbg swap_avg [0; 1] [Some 1; Some 0] 2 = Ok [11; 10]) as -> by (destruct dbg; reflexivity). cbn [obind].
      assert (label_all dbg swap_dist [11; 10] [0; 1] = Ok [Some 0; Some 1]) as -> by (destruct dbg; reflexivity). cbn [obind].
      exact IH1. }
  apply G.
Qed.
Print Assumptions C36_oscillation_refuted.

(** Sum of real numbers. *)
Definition rsum (l : list R) : R := fold_right Rplus 0%R l.
Lemma rsum_cons a l : rsum (a :: l) = (a + rsum l)%R.
Proof. reflexivity. Qed.
Lemma rsum_nil : rsum [] = 0%R.
Proof. reflexivity. Qed.

(** Positive part of C36: if distances are finite and compare like real numbers [val], and the averaging function
    returns a point with the least sum of distances to the items (as the mean does for squared Euclidean distance, and
    a median for the absolute difference), then Cluster with given initial centers always returns. *)
Section Lloyd.
Context {C : cost} {ok : C -> Prop}.
Variable L : cost_laws C ok.
Context {D A : Type}.
Variable dbg : bool.
Variable dist : D -> D -> C.
Variable item : A -> D.
Variable avg : list A -> D.
Variable val : D -> D -> R.
Hypothesis Hdist : forall a b, ok (dist a b).
Hypothesis Hfin : forall a b, cltb (dist a b) cinf = true.
Hypothesis Hval : forall c c' x, cltb (dist c x) (dist c' x) = true <-> (val c x < val c' x)%R.
Hypothesis Havg : forall l m, l <> [] -> (rsum (map (fun x => val (avg l) (item x)) l) <= rsum (map (fun x => val m (item x)) l))%R.

Variable data : list A.
Variable k : nat.
Hypothesis Hk : 0 < k.

(** Sum of distances of the items to the centers of their labels. *)
Definition objective (centers : nat -> D) (ls : list nat) : R :=
  rsum (map (fun p => val (centers (snd p)) (item (fst p))) (combine data ls)).
Definition means (ls : list nat) (l : nat) : D := avg (bearing data (map Some ls) l).
Definition good (ls : list nat) : Prop := length ls = length data /\ Forall (fun l => l < k) ls.

Lemma bearing_cons {B} (x : B) xs l ls c : bearing (x :: xs) (map Some (l :: ls)) c =
  if l =? c then x :: bearing xs (map Some ls) c else bearing xs (map Some ls) c.
Proof. unfold bearing. cbn [map combine filter snd]. destruct (l =? c); reflexivity. Qed.

(** Regrouping a sum over items by labels. *)
Lemma regroup {B} (f : nat -> B -> R) (xs : list B) : forall ls, Forall (fun l => l < k) ls -> length ls = length xs ->
  rsum (map (fun p => f (snd p) (fst p)) (combine xs ls)) =
  rsum (map (fun c => rsum (map (f c) (bearing xs (map Some ls) c))) (seq 0 k)).
Proof.
  induction xs as [|x xs IH]; intros [|l ls] F Ln; try discriminate.
  - cbn [combine map]. rewrite rsum_nil. induction (seq 0 k) as [|c cs IH]; cbn [map]; [auto|]. rewrite rsum_cons, <- IH. cbn. lra.
  - inversion F as [|? ? Hl F']; subst. injection Ln as Ln. cbn [combine map fst snd]. rewrite rsum_cons.
    rewrite (IH ls F' Ln).
    assert (G : forall cs, NoDup cs -> (rsum (map (fun c => rsum (map (f c) (bearing (x :: xs) (map Some (l :: ls)) c))) cs) =
              (if in_dec Nat.eq_dec l cs then f l x else 0) + rsum (map (fun c => rsum (map (f c) (bearing xs (map Some ls) c))) cs))%R).
    { induction cs as [|c cs IHc]; intros N; cbn [map].
      - destruct (in_dec Nat.eq_dec l []) as [[]|]; lra.
      - inversion N as [|? ? Nc N']; subst. cbn [map] in IHc. rewrite !rsum_cons, (IHc N'). change (Some l :: map Some ls) with (map Some (l :: ls)).
        rewrite bearing_cons. destruct (Nat.eqb_spec l c) as [->|X]; cbn [map]; rewrite ?rsum_cons.
        + destruct (in_dec Nat.eq_dec c cs); [contradiction|]. destruct (in_dec Nat.eq_dec c (c :: cs)) as [|Y]; [lra|]. exfalso. apply Y. left. auto.
        + destruct (in_dec Nat.eq_dec l cs) as [I|I], (in_dec Nat.eq_dec l (c :: cs)) as [J|J]; try lra; exfalso.
          * apply J. right. auto.
          * destruct J; [congruence|contradiction]. }
    change (Some l :: map Some ls) with (map Some (l :: ls)).
    rewrite (G (seq 0 k) (seq_NoDup _ _)). destruct (in_dec Nat.eq_dec l (seq 0 k)) as [|X]; [reflexivity|].
    exfalso. apply X. apply in_seq. lia.
Qed.

Lemma rsum_le {B} (f g : B -> R) l : (forall x, In x l -> (f x <= g x)%R) -> (rsum (map f l) <= rsum (map g l))%R.
Proof.
  induction l as [|x l IH]; intros H; cbn; [lra|]. specialize (IH ltac:(intros; apply H; right; auto)).
  specialize (H x ltac:(left; auto)). unfold rsum in IH. lra.
Qed.
Lemma rsum_eq_le {B} (f g : B -> R) l : (forall x, In x l -> (f x <= g x)%R) -> rsum (map f l) = rsum (map g l) ->
  forall x, In x l -> f x = g x.
Proof.
  induction l as [|y l IH]; intros H E x X; [destruct X|]. cbn in E.
  assert (Hl : forall x, In x l -> (f x <= g x)%R) by (intros; apply H; right; auto).
  pose proof (rsum_le f g l Hl) as Y. unfold rsum in Y. pose proof (H y ltac:(left; auto)).
  destruct X as [<-|X]; [lra|]. apply IH; auto. unfold rsum. lra.
Qed.

(** Averaging does not increase the objective. *)
Lemma means_best ls centers : good ls -> (objective (means ls) ls <= objective centers ls)%R.
Proof.
  intros [G1 G2]. unfold objective. rewrite (regroup (fun c x => val (means ls c) (item x)) data ls G2 G1), (regroup (fun c x => val (centers c) (item x)) data ls G2 G1).
  apply rsum_le. intros c _. unfold means. destruct (bearing data (map Some ls) c) as [|x l] eqn:E; [cbn; lra|].
  rewrite <- E. apply Havg. rewrite E. discriminate.
Qed.

(** One iteration. *)
Lemma iteration ls : good ls -> exists ls', good ls' /\
  compute_centers dbg avg data (map Some ls) k = Ok (map (means ls) (seq 0 k)) /\
  label_all dbg dist (map (means ls) (seq 0 k)) (map item data) = Ok (map Some ls') /\
  (ls' = ls \/ (objective (means ls') ls' < objective (means ls) ls)%R \/
   (objective (means ls') ls' = objective (means ls) ls /\ list_sum ls' < list_sum ls)).
Proof.
  intros G. destruct G as [G1 G2].
  assert (DS : forall (xs : list A) ms acc, Forall (fun l => l < length acc) ms -> length ms = length xs -> exists cs, distribute acc xs (map Some ms) = Ok cs).
  { induction xs as [|x xs IH]; intros [|m ms] acc F Lm; try discriminate; cbn [map distribute]; eauto.
    inversion F; subst. destruct (nth_error acc m) as [c|] eqn:E; [|apply nth_error_None in E; lia].
    apply IH; auto. rewrite upd_length. auto. }
  assert (CC : compute_centers dbg avg data (map Some ls) k = Ok (map (means ls) (seq 0 k))).
  { destruct (DS data ls (repeat [] k)) as (cs & E); [rewrite repeat_length; auto|auto|].
    assert (X : compute_centers dbg avg data (map Some ls) k = Ok (map avg cs)).
    { unfold compute_centers, cassert. rewrite map_length, G1, Nat.eqb_refl. cbn [negb]. rewrite andb_false_r, E. reflexivity. }
    rewrite X. f_equal. destruct (centers_spec dbg avg _ _ _ _ X) as (Y1 & Y2 & _).
    apply nth_error_ext. intros i. destruct (nth_error (map avg cs) i) as [c|] eqn:N.
    - rewrite (Y2 i c N). assert (Li : i < k) by (rewrite <- Y1; apply nth_error_Some; congruence).
      rewrite nth_error_map, nth_error_seq by auto. reflexivity.
    - apply nth_error_None in N. symmetry. apply nth_error_None. rewrite map_length, seq_length. lia. }
  set (centers := map (means ls) (seq 0 k)) in *.
  assert (NE : centers <> []) by (unfold centers; destruct k; [lia|discriminate]).
  destruct (label_all_total L dbg dist Hdist centers (map item data) NE ltac:(intros; apply Hfin)) as (ls' & EL).
  destruct (label_all_spec L dbg dist Hdist _ _ _ EL) as [L1 N1]. rewrite !map_length in L1.
  assert (NL : forall i x l, nth_error data i = Some x -> nth_error ls' i = Some l -> nearest_label dist centers (item x) l).
  { intros i x l X Y. apply (N1 i); rewrite nth_error_map; [rewrite X|rewrite Y]; reflexivity. }
  assert (CA : forall l c, nth_error centers l = Some c -> l < k /\ c = means ls l).
  { intros l c H. unfold centers in H. rewrite nth_error_map in H. assert (Ll : l < k).
    { destruct (Nat.lt_ge_cases l k); auto. assert (nth_error (seq 0 k) l = None) as X by (apply nth_error_None; rewrite seq_length; auto). rewrite X in H. discriminate. }
    rewrite nth_error_seq in H by auto. cbn in H. split; auto. congruence. }
  assert (G1' : length ls' = length data) by auto.
  assert (G2' : Forall (fun l => l < k) ls').
  { apply Forall_forall. intros l I. apply In_nth_error in I. destruct I as (i & I).
    assert (Li : i < length data) by (rewrite <- G1'; apply nth_error_Some; congruence).
    destruct (nth_error data i) as [x|] eqn:X; [|apply nth_error_None in X; lia].
    destruct (NL i x l X I) as (c & Nc & _). apply CA in Nc. apply Nc. }
  exists ls'. split; [split; auto|]. split; auto. split; auto.
  (* pointwise comparison of new and old labels under the same centers *)
  assert (PW : forall i x l l', nth_error data i = Some x -> nth_error ls i = Some l -> nth_error ls' i = Some l' ->
            (val (means ls l') (item x) <= val (means ls l) (item x))%R /\
            (val (means ls l') (item x) = val (means ls l) (item x) -> l' <= l)).
  { intros i x l l' X Y Y'. destruct (NL i x l' X Y') as (c & Nc & M & B). apply CA in Nc. destruct Nc as [Lc ->].
    assert (Ll : l < k) by (rewrite Forall_forall in G2; apply G2; eapply nth_error_In; eauto).
    assert (Nl : nth_error centers l = Some (means ls l)) by (unfold centers; rewrite nth_error_map, nth_error_seq by auto; reflexivity).
    split.
    - destruct (Rle_or_lt (val (means ls l') (item x)) (val (means ls l) (item x))) as [|H]; auto. apply Hval in H.
      rewrite M in H; [discriminate|]. eapply nth_error_In; eauto.
    - intros E. destruct (Nat.le_gt_cases l' l) as [|H]; auto. specialize (B l _ H Nl). apply Hval in B. lra. }
  assert (OB : (objective (means ls) ls' <= objective (means ls) ls)%R /\
    (objective (means ls) ls' = objective (means ls) ls -> ls' = ls \/ list_sum ls' < list_sum ls)).
  { clear -PW G1 G1'. unfold objective. revert PW G1 G1'. generalize (means ls). intros m.
    revert ls ls'. induction data as [|x xs IH]; intros [|l ls] [|l' ls'] PW G1 G1'; try discriminate; cbn [combine map fst snd].
    - split; [lra|auto].
    - rewrite !rsum_cons.
      destruct (PW 0 x l l' eq_refl eq_refl eq_refl) as [P1 P2].
      destruct (IH ls ls' (fun i y a b => PW (S i) y a b) ltac:(cbn in G1; lia) ltac:(cbn in G1'; lia)) as [I1 I2].
      split; [lra|]. intros E. assert (E1 : val (m l') (item x) = val (m l) (item x)) by lra. specialize (P2 E1).
      assert (E2 : rsum (map (fun p => val (m (snd p)) (item (fst p))) (combine xs ls')) = rsum (map (fun p => val (m (snd p)) (item (fst p))) (combine xs ls))) by lra.
      specialize (I2 E2). cbn [list_sum fold_right]. fold (list_sum ls) (list_sum ls'). destruct I2 as [->|I2].
      + destruct (Nat.eq_dec l' l) as [->|]; auto. right. lia.
      + right. lia. }
  destruct OB as [O1 O2]. pose proof (means_best ls' (means ls) (conj G1' G2')) as O3.
  destruct (Rlt_or_le (objective (means ls') ls') (objective (means ls) ls)) as [H|H]; auto.
  assert (E1 : objective (means ls) ls' = objective (means ls) ls) by lra. destruct (O2 E1) as [->|S]; auto.
  right. right. split; auto. lra.
Qed.

(** All labellings, a finite set. *)
Fixpoint labellings (n : nat) : list (list nat) :=
  match n with O => [[]] | S n' => flat_map (fun l => map (cons l) (labellings n')) (seq 0 k) end.
Lemma labellings_in n : forall ls, length ls = n -> Forall (fun l => l < k) ls -> In ls (labellings n).
Proof.
  induction n as [|n IH]; intros [|l ls] H F; try discriminate; cbn; auto. inversion F; subst.
  apply in_flat_map. exists l. split; [apply in_seq; lia|]. apply in_map. apply IH; auto.
Qed.

Definition better (a b : list nat) : Prop :=
  (objective (means a) a < objective (means b) b)%R \/ (objective (means a) a = objective (means b) b /\ list_sum a < list_sum b).
Lemma better_trans a b c : better a b -> better b c -> better a c.
Proof. unfold better. intros [H|[H H']] [G|[G G']]; try (left; lra). right. split; [lra|lia]. Qed.
Lemma better_irrefl a : ~ better a a.
Proof. unfold better. intros [H|[_ H]]; [lra|lia]. Qed.

Lemma converged_refl a : converged (map Some a) (map Some a) = true.
Proof. induction a as [|x a IH]; cbn [map converged]; auto. rewrite Nat.eqb_refl, IH. reflexivity. Qed.

Lemma lloyd_loop fuel : forall seen ls, good ls -> NoDup (ls :: seen) -> Forall good seen -> Forall (fun s => better ls s) seen ->
  length (labellings (length data)) <= length seen + fuel -> exists r, kmeans_loop dbg dist item avg fuel data k (map Some ls) = Ok r.
Proof.
  induction fuel as [|f IH]; intros seen ls G N S B Ln.
  - exfalso. assert (I : incl (ls :: seen) (labellings (length data))).
    { intros s [<-|Is]; [|rewrite Forall_forall in S; specialize (S s Is); destruct S; apply labellings_in; auto].
      destruct G. apply labellings_in; auto. }
    pose proof (NoDup_incl_length N I) as X. cbn [length] in X. lia.
  - cbn [kmeans_loop]. destruct (iteration ls G) as (ls' & G' & -> & E & T). cbn [obind]. rewrite E. cbn [obind].
    destruct (converged (map Some ls) (map Some ls')) eqn:CV; [eauto|].
    assert (NE : ls' <> ls).
    { intros ->. rewrite converged_refl in CV. discriminate. }
    assert (BB : better ls' ls) by (destruct T as [T|T]; [contradiction|exact T]).
    assert (B' : Forall (fun s => better ls' s) (ls :: seen)).
    { constructor; auto. eapply Forall_impl; [|exact B]. intros s. apply better_trans. exact BB. }
    apply (IH (ls :: seen)); auto.
    + constructor; auto. intros I. rewrite Forall_forall in B'. apply (better_irrefl ls'). auto.
    + cbn [length]. lia.
Qed.

Theorem C36_terminates_partial : (* missing: arbitrary averaging functions, refuted above *)
  forall initial, length initial = k ->
  exists fuel r, kmeans dbg dist item avg fuel data initial = Ok r.
Proof.
  intros initial Hi. exists (length (labellings (length data))). unfold kmeans.
  assert (NE : initial <> []) by (destruct initial; [cbn in Hi; lia|discriminate]).
  destruct (label_all_total L dbg dist Hdist initial (map item data) NE ltac:(intros; apply Hfin)) as (ls & EL). rewrite EL. cbn [obind].
  destruct (label_all_spec L dbg dist Hdist _ _ _ EL) as [L1 N1]. rewrite !map_length in L1. rewrite Hi.
  apply (lloyd_loop _ []); [| | | |cbn [length]; lia]; try (repeat constructor; intros []; fail).
  split; [auto|].
  apply Forall_forall. intros l I. apply In_nth_error in I. destruct I as (i & I).
    assert (Li : i < length data) by (rewrite <- L1; apply nth_error_Some; congruence).
    destruct (nth_error data i) as [x|] eqn:X; [|apply nth_error_None in X; lia].
    destruct (N1 i (item x) l) as (c & Nc & _); try (rewrite nth_error_map; rewrite ?X, ?I; reflexivity).
    rewrite <- Hi. apply nth_error_Some. congruence.
Qed.
End Lloyd.
Print Assumptions C36_terminates_partial.

(** ** A case that meets the hypotheses: items and centers are booleans, the distance tells whether they differ, the
    average is the majority. *)
Definition bdist (c x : bool) : ninf := if eqb c x then Some 0%N else Some 1%N.
Definition bval (c x : bool) : R := if eqb c x then 0%R else 1%R.
Definition majority (l : list bool) : bool := length (filter negb l) <=? length (filter (fun b => b) l).
Lemma bsum c l : rsum (map (fun x => bval c x) l) = INR (length (filter (fun b => negb (eqb c b)) l)).
Proof.
  induction l as [|x l IH]; [reflexivity|]. cbn [map filter]. rewrite rsum_cons, IH. unfold bval.
  destruct (eqb c x); cbn [negb length]; [lra|]. rewrite S_INR. lra.
Qed.
Example C36_terminates_example : forall dbg data initial, initial <> [] ->
  exists fuel r, kmeans dbg bdist (fun b => b) majority fuel data initial = Ok r.
Proof.
  intros dbg data initial NE. apply (C36_terminates_partial ninf_laws dbg bdist (fun b => b) majority bval) with (k := length initial); auto.
  - intros [] []; reflexivity.
  - intros [] [] []; split; intros H; try (vm_compute in H; discriminate H); try reflexivity; unfold bval in *; cbn [eqb] in *; lra.
  - intros l m _. rewrite !bsum. apply le_INR. unfold majority.
    assert (E1 : forall l', filter (fun b => negb (eqb true b)) l' = filter negb l') by (intros l'; apply filter_ext; intros []; auto).
    assert (E2 : forall l', filter (fun b => negb (eqb false b)) l' = filter (fun b => b) l') by (intros l'; apply filter_ext; intros []; auto).
    destruct (Nat.leb_spec (length (filter negb l)) (length (filter (fun b => b) l))); destruct m; rewrite ?E1, ?E2; lia.
  - destruct initial; [congruence|cbn; lia].
Qed.
Definition absd (a b : N) : ninf := Some (if (a <? b)%N then (b - a)%N else (a - b)%N).
Definition wmean (l : list (N * N)) : N :=
  N.div (fold_right (fun p s => N.add (N.mul (fst p) (snd p)) s) 0%N l) (fold_right (fun p s => N.add (snd p) s) 0%N l).
Example C35_labels_example : kmeans true absd fst wmean 10 [(0, 1); (10, 2); (1, 3); (12, 2)]%N [0; 1]%N =
  Ok ([Some 0; Some 1; Some 0; Some 1], [0; 11]%N).
Proof. vm_compute. reflexivity. Qed.
Example C35_random_example : kmeans_random true absd fst wmean 10 (fun t => t * 2 mod 3) (fun t => t) (fun n => (n + 9) / 10)
  subset_weighted [(0, 1); (10, 2); (1, 3); (12, 2)]%N 2 true = Ok [Some 0; Some 1; Some 0; Some 1].
Proof. vm_compute. reflexivity. Qed.
Example C36_more_clusters_example : kmeans_random true absd (fun x => x) (fun l => 0%N) 50 (fun t => t mod 2) (fun t => t) (fun n => (n + 9) / 10)
  subset_plain [0; 10]%N 3 false = NoFuel.
Proof. vm_compute. reflexivity. Qed.

(** C66: ClusterWeighted gives the averaging function, for every cluster, the items of the cluster each with its own
    weight: every center returned is the average of a list of pairs which is a sublist of items and weights. *)
Theorem C66_own_weights_partial : (* missing: the averages taken during preliminary clustering, refuted below *)
  forall (C : cost) (ok : C -> Prop) (L : cost_laws C ok) D W dbg (dist : D -> D -> C) (avg : list (D * W) -> D) fuel
    (items : list D) (weights : list W) initial labels centers, (forall a b, ok (dist a b)) -> length items = length weights ->
  kmeans dbg dist fst avg fuel (combine items weights) initial = Ok (labels, centers) ->
  forall l c, nth_error centers l = Some c -> exists cluster, c = avg cluster /\
    (forall x w, In (x, w) cluster <-> exists i, nth_error items i = Some x /\ nth_error weights i = Some w /\ nth_error labels i = Some (Some l)) /\
    length cluster = length (filter (fun l' => match l' with Some l' => l' =? l | None => false end) labels).
Proof.
  intros C ok L D W dbg dist avg fuel items weights initial labels centers Ho Ln H l c N.
  destruct (C35_labels_and_centers L dbg dist fst avg Ho _ _ _ _ _ H) as (_ & I2 & _ & I4).
  exists (bearing (combine items weights) labels l). split; [auto|]. rewrite combine_length, <- Ln, Nat.min_id in I2.
  clear -Ln I2. split.
  - intros x w. unfold bearing. rewrite in_map_iff. setoid_rewrite filter_In. revert items weights Ln I2.
    induction labels as [|l' labels IH]; intros [|y items] [|v weights] Ln I2; try discriminate; cbn [combine].
    + split; [intros (p & _ & [] & _)|intros ([|i] & H & _); discriminate].
    + specialize (IH items weights ltac:(cbn in *; lia) ltac:(cbn in *; lia)). cbn [In]. split.
      * intros (p & E & [<-|I] & F); cbn [fst snd] in *.
        -- exists 0. cbn. injection E as -> ->. split; auto. split; auto. destruct l' as [l'|]; [|discriminate]. apply Nat.eqb_eq in F. congruence.
        -- destruct IH as [IH _]. destruct IH as (i & H); [exists p; auto|]. exists (S i). exact H.
      * intros ([|i] & H1 & H2 & H3); cbn in H1, H2, H3.
        -- exists ((x, w), l'). cbn. split; auto. split; [left; congruence|]. injection H3 as ->. apply Nat.eqb_refl.
        -- destruct IH as [_ IH]. destruct IH as (p & E & I & F); [eauto|]. exists p. auto.
  - unfold bearing. rewrite map_length. revert items weights Ln I2.
    induction labels as [|l' labels IH]; intros [|y items] [|v weights] Ln I2; try discriminate; cbn [combine filter]; auto.
    specialize (IH items weights ltac:(cbn in *; lia) ltac:(cbn in *; lia)). cbn [snd]. destruct l' as [l'|]; [destruct (l' =? l)|]; cbn [length]; auto.
Qed.
Print Assumptions C66_own_weights_partial.

(** C66 is false with preliminary clustering: items are averaged with other items' weights, and the labels returned
    differ from those obtained with each item's own weight. *)
Definition w_data : list (N * N) :=
  map (fun i => ((i * 100 + 17) mod 6, 1 + (i * 17) mod 7 * (i mod 5))%N) (map N.of_nat (seq 0 91)).
Definition w_run subset := kmeans_random true absd fst wmean 100 (fun t => 81 + t mod 10) (fun t => t mod 10) (fun n => (n + 9) / 10) subset w_data 2 true.
Theorem C66_preliminary_weights_refuted :
  (exists j i, nth_error (seq 81 10) j = Some i /\ nth_error (subset_weighted w_data (seq 81 10)) j <> nth_error w_data i) /\
  exists labels labels', w_run subset_weighted = Ok labels /\ w_run (fun data is => pick_items data is) = Ok labels' /\ labels <> labels'.
Proof.
  split.
  - exists 1, 82. split; [reflexivity|]. vm_compute. discriminate.
  - eexists. eexists. split; [vm_compute; reflexivity|]. split; [vm_compute; reflexivity|]. discriminate.
Qed.
Print Assumptions C66_preliminary_weights_refuted.
