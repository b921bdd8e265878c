(** Proofs about hierarchical clustering: GetClosestPair finds a closest pair, and merging keeps a partition. *)
From Verif Require Import Base Cost HierModel.
From Coq Require Import Permutation.

(** ** Lists *)
Lemma upd_perm {A} (l : list A) : forall i a, nth_error l i = Some a ->
  exists r, Permutation l (a :: r) /\ forall v, Permutation (upd l i v) (v :: r).
Proof.
  induction l as [|x l IH]; intros [|i] a H; cbn in H; try discriminate.
  - injection H as ->. exists l. split; auto.
  - destruct (IH _ _ H) as (r & P & Q). exists (x :: r). split.
    + rewrite P. apply perm_swap.
    + intros v. cbn. rewrite Q. apply perm_swap.
Qed.
Lemma upd_perm2 {A} (l : list A) : forall i j a b, i <> j -> nth_error l i = Some a -> nth_error l j = Some b ->
  exists r, Permutation l (a :: b :: r) /\ forall v w, Permutation (upd (upd l i v) j w) (v :: w :: r).
Proof.
  induction l as [|x l IH]; intros [|i] [|j] a b N H1 H2; cbn in H1, H2; try discriminate; try lia.
  - injection H1 as ->. destruct (upd_perm _ _ _ H2) as (r & P & Q). exists r. split; [rewrite P; auto|].
    intros v w. cbn. rewrite Q. auto.
  - injection H2 as ->. destruct (upd_perm _ _ _ H1) as (r & P & Q). exists r. split; [rewrite P; apply perm_swap|].
    intros v w. cbn. rewrite Q. apply perm_swap.
  - destruct (IH i j a b ltac:(lia) H1 H2) as (r & P & Q). exists (x :: r). split.
    + rewrite P. rewrite perm_swap. apply perm_skip. apply perm_swap.
    + intros v w. cbn. rewrite Q. rewrite perm_swap. apply perm_skip. apply perm_swap.
Qed.
Lemma filter_perm {A} (f : A -> bool) l l' : Permutation l l' -> Permutation (filter f l) (filter f l').
Proof.
  induction 1 as [|x l l' P IH|x y l|l l' l'' P1 IH1 P2 IH2]; cbn; auto.
  - destruct (f x); auto.
  - destruct (f x), (f y); auto. apply perm_swap.
  - etransitivity; eauto.
Qed.
Lemma filter_drop (f : nat -> bool) l i : NoDup l -> In i l -> f i = true ->
  Permutation (filter f l) (i :: filter (fun k => negb (k =? i) && f k) l).
Proof.
  induction 1 as [|x l N ND IH]; cbn [In filter]; [tauto|]. intros [->|H] F.
  - rewrite F, Nat.eqb_refl. cbn. apply perm_skip.
    assert (E : filter f l = filter (fun k => negb (k =? i) && f k) l); [|rewrite <- E; auto].
    apply filter_ext_in. intros k K. destruct (Nat.eqb_spec k i) as [->|]; [contradiction|reflexivity].
  - destruct (Nat.eqb_spec x i) as [->|X]; [contradiction|]. cbn [negb andb].
    specialize (IH H F). destruct (f x); auto. rewrite IH. apply perm_swap.
Qed.
Lemma nth_upd_other {A} (l : list A) : forall i j v d, i <> j -> nth j (upd l i v) d = nth j l d.
Proof. induction l as [|x l IH]; intros [|i] [|j] v d N; cbn; auto; lia. Qed.
Lemma nth_upd_same {A} (l : list A) : forall i v d, i < length l -> nth i (upd l i v) d = v.
Proof. induction l as [|x l IH]; intros [|i] v d H; cbn in *; auto; try lia. apply IH. lia. Qed.

Lemma free_upd mask i k : i < length mask -> free (upd mask i true) k = negb (k =? i) && free mask k.
Proof.
  intros H. unfold free. destruct (Nat.eqb_spec k i) as [->|N]; cbn.
  - rewrite nth_upd_same; auto.
  - rewrite nth_upd_other; auto.
Qed.
Definition frees (mask : list bool) : list nat := filter (free mask) (seq 0 (length mask)).
Lemma frees_upd mask i : free mask i = true -> i < length mask ->
  Permutation (frees mask) (i :: frees (upd mask i true)).
Proof.
  intros F H. unfold frees. rewrite upd_length. rewrite (filter_ext (free (upd mask i true)) _ (fun k => free_upd mask i k H)).
  apply filter_drop; auto; [apply seq_NoDup|apply in_seq; lia].
Qed.
Lemma free_lt mask i : free mask i = true -> i < length mask.
Proof.
  unfold free. intros H. destruct (Nat.lt_ge_cases i (length mask)) as [|G]; auto.
  rewrite nth_overflow in H by auto. discriminate.
Qed.

(** ** Groups: the clusters and the unclustered points *)
Definition single (i : nat) : list nat := [i].
Definition groups (s : state) : list (list nat) :=
  filter nonempty (snd s) ++ map single (frees (fst s)).

Section P.
Context {C : cost} {ok : C -> Prop}.
Variable L : cost_laws C ok.
Variable dm : nat -> nat -> C.
Variable strat : strategy.
Hypothesis Hdm : forall i j, ok (dm i j).

(** [d] is the linkage distance from group a to group b. *)
Definition is_link (a b : list nat) (d : C) : Prop :=
  ok d /\
  match strat with
  | CompleteLink => (forall x y, In x a -> In y b -> cle (dm x y) d) /\ (exists x y, In x a /\ In y b /\ cle d (dm x y))
  | SingleLink => (forall x y, In x a -> In y b -> cle d (dm x y)) /\ (exists x y, In x a /\ In y b /\ cle (dm x y) d)
  end.

Lemma link_ok ds : Forall ok ds -> ok (link_of strat ds).
Proof.
  intros H. unfold link_of. destruct strat.
  - assert (I := cl_inf _ _ L). revert I. generalize (@cinf C). induction H as [|x l X H IH]; intros a I; cbn; auto.
    apply IH. unfold dmin. destruct (cltb x a); auto.
  - assert (I := cl_zero _ _ L). revert I. generalize (@czero C). induction H as [|x l X H IH]; intros a I; cbn; auto.
    apply IH. unfold dmax. destruct (cltb a x); auto.
Qed.
Lemma fold_max ds : Forall ok ds -> forall a, ok a ->
  cle a (fold_left dmax ds a) /\ (forall x, In x ds -> cle x (fold_left dmax ds a)) /\
  (fold_left dmax ds a = a \/ In (fold_left dmax ds a) ds) /\ ok (fold_left dmax ds a).
Proof.
  induction 1 as [|x l X H IH]; intros a A; cbn [fold_left].
  - split; [apply (cle_refl L); auto|]. split; [cbn; tauto|]. auto.
  - assert (M : ok (dmax a x) /\ cle a (dmax a x) /\ cle x (dmax a x) /\ (dmax a x = a \/ dmax a x = x)).
    { unfold dmax. destruct (cltb a x) eqn:E.
      - split; auto. split; [apply (clt_le L); auto|]. split; [apply (cle_refl L)|]; auto.
      - split; auto. split; [apply (cle_refl L); auto|]. split; auto. }
    destruct M as (M1 & M2 & M3 & M4). destruct (IH _ M1) as (I1 & I2 & I3 & I4).
    split; [apply (cle_trans L a (dmax a x)); auto|]. split.
    + intros y [<-|Y]; auto. apply (cle_trans L x (dmax a x)); auto.
    + split; auto. destruct I3 as [E|I3]; [|right; right; auto]. rewrite E. destruct M4 as [->| ->]; [left|right; left]; auto.
Qed.
Lemma fold_min ds : Forall ok ds -> forall a, ok a ->
  cle (fold_left dmin ds a) a /\ (forall x, In x ds -> cle (fold_left dmin ds a) x) /\
  (fold_left dmin ds a = a \/ In (fold_left dmin ds a) ds) /\ ok (fold_left dmin ds a).
Proof.
  induction 1 as [|x l X H IH]; intros a A; cbn [fold_left].
  - split; [apply (cle_refl L); auto|]. split; [cbn; tauto|]. auto.
  - assert (M : ok (dmin a x) /\ cle (dmin a x) a /\ cle (dmin a x) x /\ (dmin a x = a \/ dmin a x = x)).
    { unfold dmin. destruct (cltb x a) eqn:E.
      - split; auto. split; [apply (clt_le L); auto|]. split; [apply (cle_refl L)|]; auto.
      - split; auto. split; [apply (cle_refl L); auto|]. split; auto. }
    destruct M as (M1 & M2 & M3 & M4). destruct (IH _ M1) as (I1 & I2 & I3 & I4).
    split; [apply (cle_trans L _ (dmin a x)); auto|]. split.
    + intros y [<-|Y]; auto. apply (cle_trans L _ (dmin a x)); auto.
    + split; auto. destruct I3 as [E|I3]; [|right; right; auto]. rewrite E. destruct M4 as [->| ->]; [left|right; left]; auto.
Qed.

Lemma link_is a b : a <> [] -> b <> [] -> is_link a b (link_of strat (flat_map (fun x => map (dm x) b) a)).
Proof.
  intros A B. set (ds := flat_map (fun x => map (dm x) b) a).
  assert (O : Forall ok ds).
  { apply Forall_forall. intros d D. apply in_flat_map in D. destruct D as (x & _ & D). apply in_map_iff in D.
    destruct D as (y & <- & _). apply Hdm. }
  assert (IN : forall d, In d ds <-> exists x y, In x a /\ In y b /\ d = dm x y).
  { intro d. unfold ds. rewrite in_flat_map. split.
    - intros (x & X & D). apply in_map_iff in D. destruct D as (y & <- & Y). eauto.
    - intros (x & y & X & Y & ->). exists x. split; auto. apply in_map; auto. }
  assert (W : exists x y, In x a /\ In y b).
  { destruct a as [|x a]; [congruence|]. destruct b as [|y b]; [congruence|]. exists x, y. cbn; auto. }
  destruct W as (x0 & y0 & X0 & Y0).
  split; [apply link_ok; auto|]. unfold link_of. destruct strat.
  - destruct (fold_min ds O cinf (cl_inf _ _ L)) as (_ & I2 & I3 & I4). split.
    + intros x y X Y. apply I2. apply IN. eauto.
    + destruct I3 as [E|I3].
      * exists x0, y0. rewrite E. split; auto. split; auto. apply (cl_inf_max _ _ L); auto.
      * apply IN in I3. destruct I3 as (x & y & X & Y & E). exists x, y. rewrite E. split; auto. split; auto. apply (cle_refl L); auto.
  - destruct (fold_max ds O czero (cl_zero _ _ L)) as (_ & I2 & I3 & I4). split.
    + intros x y X Y. apply I2. apply IN. eauto.
    + destruct I3 as [E|I3].
      * exists x0, y0. rewrite E. split; auto. split; auto. apply (cl_zero_min _ _ L); auto.
      * apply IN in I3. destruct I3 as (x & y & X & Y & E). exists x, y. rewrite E. split; auto. split; auto. apply (cle_refl L); auto.
Qed.
Lemma link_single i b : b <> [] -> is_link [i] b (link_of strat (map (dm i) b)).
Proof. intros B. pose proof (link_is [i] b ltac:(discriminate) B) as X. cbn [flat_map] in X. rewrite app_nil_r in X. exact X. Qed.
Lemma link_points i j : is_link [i] [j] (dm i j).
Proof.
  split; auto. assert (R := cle_refl L _ (Hdm i j)).
  destruct strat; (split; [intros x y [<-|[]] [<-|[]]; exact R|exists i, j; cbn; auto]).
Qed.
(** The linkage distance is unique up to comparison. *)
Lemma link_unique a b d d' : is_link a b d -> is_link a b d' -> cle d d'.
Proof.
  intros [O1 H1] [O2 H2]. destruct strat; destruct H1 as [A1 (x1 & y1 & X1 & Y1 & B1)], H2 as [A2 (x2 & y2 & X2 & Y2 & B2)].
  - apply (cle_trans L d (dm x2 y2)); auto.
  - apply (cle_trans L d (dm x1 y1)); auto.
Qed.

(** ** Minimum over a set of candidates *)
(** The accumulator holds a least candidate, or infinity when there is none below it. *)
Definition best {A} (S : A -> C -> Prop) (acc : C * A) : Prop :=
  ok (fst acc) /\ (cltb (fst acc) cinf = true -> S (snd acc) (fst acc)) /\ (forall a d, S a d -> ok d -> cle (fst acc) d).
Definition cup {A} (S T : A -> C -> Prop) : A -> C -> Prop := fun a d => S a d \/ T a d.

Lemma best_init {A} (a : A) : best (fun _ _ => False) (cinf, a).
Proof.
  split; [apply (cl_inf _ _ L)|]. split; [|tauto]. cbn. rewrite (cl_irrefl _ _ L) by apply (cl_inf _ _ L). discriminate.
Qed.
Lemma best_ext {A} (S T : A -> C -> Prop) acc : (forall a d, S a d <-> T a d) -> best S acc -> best T acc.
Proof. intros E (H1 & H2 & H3). split; auto. split; [intros X; apply E; auto|intros a d X; apply (H3 a); apply E; auto]. Qed.
Lemma best_keep {A} (S T : A -> C -> Prop) acc x : best S acc -> best T x -> best (cup S T) (keep_min acc x).
Proof.
  intros (A1 & A2 & A3) (B1 & B2 & B3). unfold keep_min. destruct (cltb (fst x) (fst acc)) eqn:E.
  - split; auto. split; [right; auto|]. intros a d [H|H] O; eauto. apply (cle_trans L _ (fst acc)); eauto. apply (clt_le L); auto.
  - split; auto. split; [left; auto|]. intros a d [H|H] O; eauto. apply (cle_trans L _ (fst x)); eauto.
Qed.
Lemma best_one {A} (a : A) d : ok d -> best (fun a' d' => a' = a /\ d' = d) (d, a).
Proof. intros O. split; auto. split; auto. intros a' d' [_ ->] _. apply (cle_refl L); auto. Qed.
Lemma best_fold {A I} (step : C * A -> I -> C * A) (T : I -> A -> C -> Prop) l :
  (forall S acc i, In i l -> best S acc -> best (cup S (T i)) (step acc i)) ->
  forall S acc, best S acc -> best (cup S (fun a d => exists i, In i l /\ T i a d)) (fold_left step l acc).
Proof.
  induction l as [|i l IH]; intros H S acc B; cbn [fold_left].
  - eapply best_ext; [|exact B]. intros a d. unfold cup. split; auto. intros [X|(i & [] & _)]; auto.
  - eapply best_ext; [|apply (IH ltac:(intros; apply H; [right|]; auto) (cup S (T i))); apply H; [left|]; auto].
    intros a d. unfold cup. split.
    + intros [[X|X]|(k & K & X)]; auto; right; [exists i|exists k]; cbn; auto.
    + intros [X|(k & [->|K] & X)]; auto. right. eauto.
Qed.
(** Renaming the payload. *)
Lemma best_map {A B} (f : A -> B) (S : A -> C -> Prop) acc : best S acc ->
  best (fun b d => exists a, b = f a /\ S a d) (fst acc, f (snd acc)).
Proof.
  intros (H1 & H2 & H3). split; auto. split; cbn [fst snd]; [intros X; eauto|]. intros b d (a & _ & X). eauto.
Qed.

(** ** GetClosestPair *)
Section Pair.
Variable mask : list bool.
Variable clusters : list (list nat).

Lemma point_point_best i : best (fun o d => exists j, o = Some j /\ j < length mask /\ i <> j /\ free mask j = true /\ d = dm i j)
  (point_point dm mask i).
Proof.
  unfold point_point.
  eapply best_ext; [|apply (best_fold _ (fun j o d => i <> j /\ free mask j = true /\ o = Some j /\ d = dm i j)); [|apply best_init]].
  - intros o d. unfold cup. split.
    + intros [[]|(j & J & X & F & -> & ->)]. apply in_seq in J. exists j. repeat split; auto. lia.
    + intros (j & -> & J & X & F & ->). right. exists j. split; [apply in_seq; lia|auto].
  - intros S acc j _ B. cbv beta. destruct (Nat.eqb_spec i j) as [->|N]; cbn [negb andb].
    + eapply best_ext; [|exact B]. unfold cup. intros; split; [auto|]. intros [|(X & _)]; auto; congruence.
    + destruct (free mask j) eqn:F.
      * eapply best_ext; [|apply best_keep; [exact B|apply (best_one (Some j) (dm i j)); auto]]. unfold cup. intros; tauto.
      * eapply best_ext; [|exact B]. unfold cup. intros; split; [auto|]. intros [|(_ & X & _)]; auto; congruence.
Qed.
Lemma nonempty_spec {A} (l : list A) : nonempty l = true <-> l <> [].
Proof. destruct l; cbn; split; congruence. Qed.
Lemma point_cluster_best i : best (fun o d => exists c, o = Some c /\ c < length clusters /\ cluster_at clusters c <> [] /\
    is_link [i] (cluster_at clusters c) d /\ d = link_of strat (map (dm i) (cluster_at clusters c)))
  (point_cluster dm strat clusters i).
Proof.
  unfold point_cluster.
  eapply best_ext; [|apply (best_fold _ (fun c o d => cluster_at clusters c <> [] /\ o = Some c /\ d = link_of strat (map (dm i) (cluster_at clusters c)))); [|apply best_init]].
  - intros o d. unfold cup. split.
    + intros [[]|(j & J & X & -> & ->)]. apply in_seq in J. exists j. repeat split; try lia; auto; apply link_single; auto.
    + intros (j & -> & J & X & _ & ->). right. exists j. split; [apply in_seq; lia|auto].
  - intros S acc j _ B. cbv beta. destruct (nonempty (cluster_at clusters j)) eqn:N.
    + apply nonempty_spec in N.
      eapply best_ext; [|apply best_keep; [exact B|apply best_one; apply (link_single i _ N)]]. unfold cup. intros; tauto.
    + eapply best_ext; [|exact B]. unfold cup. intros; split; [auto|]. intros [|(X & _)]; auto.
      apply nonempty_spec in X. congruence.
Qed.

(** The elements in play, and their members. *)
Definition live (e : element) : Prop :=
  match e with
  | (false, Some i) => free mask i = true
  | (true, Some c) => c < length clusters /\ cluster_at clusters c <> []
  | (_, None) => False
  end.
Definition members (e : element) : list nat :=
  match e with
  | (false, Some i) => [i]
  | (true, Some c) => cluster_at clusters c
  | (_, None) => []
  end.
(** The ordered pairs of elements GetClosestPair compares: all except (cluster, point). *)
Definition pair_cand (p : element * element) (d : C) : Prop :=
  live (fst p) /\ live (snd p) /\ fst p <> snd p /\ (fst (fst p) = true -> fst (snd p) = true) /\
  is_link (members (fst p)) (members (snd p)) d.

(** Weaker notion of minimum: candidates bound it only up to comparison. *)
Definition cand1 (a : option nat * element) (d : C) : Prop := pair_cand ((false, fst a), snd a) d.
Definition cand2 (a : option nat * option nat) (d : C) : Prop := pair_cand ((true, fst a), (true, snd a)) d.

Lemma best_equiv {A} (S T : A -> C -> Prop) acc : best S acc -> (forall a d, S a d -> T a d) ->
  (forall a d, T a d -> ok d -> exists d', S a d' /\ ok d' /\ cle d' d) -> best T acc.
Proof.
  intros (H1 & H2 & H3) I J. split; auto. split; auto. intros a d X O. destruct (J a d X O) as (d' & Y & O' & Z).
  apply (cle_trans L _ d'); eauto.
Qed.

Lemma point_step_best S acc i : best S acc ->
  best (cup S (fun a d => free mask i = true /\ fst a = Some i /\ cand1 a d)) (point_step dm strat mask clusters acc i).
Proof.
  intros B. unfold point_step. destruct (free mask i) eqn:F.
  2:{ eapply best_ext; [|exact B]. unfold cup. intros; split; auto. intros [|(X & _)]; auto. discriminate. }
  cbv zeta.
  pose proof (best_map (fun o => (Some i, (false, o))) _ _ (point_point_best i)) as B1.
  pose proof (best_map (fun o => (Some i, (true, o))) _ _ (point_cluster_best i)) as B2.
  pose proof (best_keep _ _ _ _ (best_keep _ _ _ _ B B1) B2) as B3.
  eapply best_equiv; [exact B3| |].
  - intros a d [[X|X]|X]; [left; auto|right|right].
    + destruct X as (o & -> & j & -> & J & N & Fj & ->). split; auto. split; auto.
      unfold cand1, pair_cand. cbn. repeat split; auto; try congruence; try discriminate; apply link_points.
    + destruct X as (o & -> & c & -> & K & N & Lk & _). split; auto. split; auto.
      unfold cand1, pair_cand. cbn. split; auto. split; auto. split; [discriminate|]. split; [discriminate|auto].
  - intros [o e] d [X|X] O.
    + exists d. split; [left; left; auto|]. split; auto. apply (cle_refl L); auto.
    + destruct X as (_ & E & X). cbn [fst] in E. subst o. unfold cand1, pair_cand in X. cbn [fst snd] in X.
      destruct X as (_ & Le & Ne & _ & Lk). destruct e as [[|] [j|]]; cbn [live] in Le; try contradiction.
      * destruct Le as [Lj Nj]. exists (link_of strat (map (dm i) (cluster_at clusters j))).
        assert (G := link_single i _ Nj). split.
        { right. exists (Some j). split; auto. exists j. auto 6. }
        split; [apply G|]. apply (link_unique [i] (cluster_at clusters j)); auto.
      * exists (dm i j). split.
        { left. right. exists (Some j). split; auto. exists j. split; auto. split; [apply free_lt; auto|]. split; [congruence|auto]. }
        split; auto. apply (link_unique [i] [j]); auto. apply link_points.
Qed.
Lemma cluster_step_best S acc fc : fc < length clusters -> best S acc ->
  best (cup S (fun a d => fst a = Some fc /\ cand2 a d)) (cluster_step dm strat clusters acc fc).
Proof.
  intros Lf B. unfold cluster_step. destruct (nonempty (cluster_at clusters fc)) eqn:N.
  2:{ eapply best_ext; [|exact B]. unfold cup. intros; split; auto. intros [|(X & Y)]; auto.
      destruct a as [o1 o2]. cbn [fst] in X. subst o1. destruct Y as (Y & _). cbn in Y. destruct Y as [_ Y].
      apply nonempty_spec in Y. congruence. }
  apply nonempty_spec in N.
  set (dist := fun sc => link_of strat (flat_map (fun x => map (dm x) (cluster_at clusters sc)) (cluster_at clusters fc))).
  eapply best_equiv; [apply (best_fold _ (fun sc a d => fc <> sc /\ cluster_at clusters sc <> [] /\ a = (Some fc, Some sc) /\ d = dist sc)); [|exact B]| |].
  - intros S' acc' sc _ B'. cbv beta. destruct (Nat.eqb_spec fc sc) as [E|E]; cbn [negb andb].
    { eapply best_ext; [|exact B']. unfold cup. intros; split; [auto|]. intros [|(X & _)]; auto; congruence. }
    destruct (nonempty (cluster_at clusters sc)) eqn:N'.
    + apply nonempty_spec in N'. eapply best_ext; [|apply best_keep; [exact B'|apply best_one; apply (link_is _ _ N N')]].
      unfold cup, dist. intros; tauto.
    + eapply best_ext; [|exact B']. unfold cup. intros; split; [auto|]. intros [|(_ & X & _)]; auto.
      apply nonempty_spec in X. congruence.
  - intros a d [X|(sc & K & E & N' & -> & ->)]; [left; auto|right]. apply in_seq in K. split; auto.
    unfold cand2, pair_cand. cbn. split; [split; auto|]. split; [split; auto; lia|]. split; [congruence|]. split; auto.
    apply link_is; auto.
  - intros [o1 o2] d [X|[X Y]] O.
    + exists d. split; [left; auto|]. split; auto. apply (cle_refl L); auto.
    + cbn [fst] in X. subst o1. unfold cand2, pair_cand in Y. cbn [fst snd] in Y. destruct Y as (_ & Y1 & Y2 & _ & Y3).
      destruct o2 as [sc|]; cbn [live] in Y1; [|contradiction]. destruct Y1 as [Y1 N'].
      exists (dist sc). assert (G := link_is _ _ N N'). split.
      { right. exists sc. split; [apply in_seq; lia|]. split; [congruence|]. auto. }
      split; [apply G|]. eapply link_unique; [apply G|exact Y3].
Qed.

(** GetClosestPair's answer: a least candidate pair, or infinity. *)
Definition closest_ok (r : C * (element * element)) : Prop := best pair_cand r.

Lemma pick_best a b : best cand1 a -> best cand2 b -> closest_ok (pick a b).
Proof.
  intros A B.
  pose proof (best_map (fun x : option nat * element => ((false, fst x), snd x)) _ _ A) as A'.
  pose proof (best_map (fun x : option nat * option nat => ((true, fst x), (true, snd x))) _ _ B) as B'.
  pose proof (best_keep _ _ _ _ B' A') as X. unfold closest_ok. unfold keep_min in X. cbn [fst snd] in X. unfold pick.
  eapply best_ext; [|destruct (cltb (fst a) (fst b)); exact X].
  intros [e1 e2] d. unfold cup. split.
  - intros [(x & E & H)|(x & E & H)]; rewrite E; exact H.
  - intros H. destruct e1 as [[|] o1].
    + left. destruct e2 as [[|] o2]; [|destruct H as (_ & _ & _ & H & _); specialize (H eq_refl); discriminate].
      exists (o1, o2). auto.
    + right. exists (o1, e2). auto.
Qed.

Lemma serial_closest : closest_ok (closest_serial dm strat mask clusters).
Proof.
  unfold closest_serial. apply pick_best.
  - eapply best_ext; [|apply (best_fold _ (fun i a d => free mask i = true /\ fst a = Some i /\ cand1 a d)); [intros; apply point_step_best; auto|apply best_init]].
    intros [o e] d. unfold cup. split; [intros [[]|(i & _ & _ & _ & H)]; exact H|].
    intros H. right. pose proof H as (H1 & _). cbn in H1. destruct o as [i|]; [|contradiction]. exists i. split; auto.
    apply in_seq. apply free_lt in H1. lia.
  - eapply best_ext; [|apply (best_fold _ (fun i a d => fst a = Some i /\ cand2 a d)); [intros; apply cluster_step_best; auto; apply in_seq in H; lia|apply best_init]].
    intros [o e] d. unfold cup. split; [intros [[]|(i & _ & _ & H)]; exact H|].
    intros H. right. pose proof H as (H1 & _). cbn in H1. destruct o as [i|]; [|contradiction]. exists i. split; auto.
    apply in_seq. destruct H1. lia.
Qed.

(** Combining per-thread results. *)
Lemma best_threads {A} (step : C * A -> nat -> C * A) (T : nat -> A -> C -> Prop) a0 n sched :
  (forall S acc i, i < n -> best S acc -> best (cup S (T i)) (step acc i)) ->
  Permutation (concat sched) (seq 0 n) ->
  best (fun a d => exists i, i < n /\ T i a d)
    (fold_left keep_min (map (fun is => fold_left step is (cinf, a0)) sched) (cinf, a0)).
Proof.
  intros H P.
  assert (R : forall i, In i (concat sched) -> i < n).
  { intros i I. apply (Permutation_in _ P) in I. apply in_seq in I. lia. }
  eapply best_ext with (S := cup (fun _ _ => False) (fun a d => exists is, In is sched /\ exists i, In i is /\ T i a d)).
  - intros a d. unfold cup. split.
    + intros [[]|(is & I & i & J & X)]. exists i. split; auto. apply R. apply in_concat. eauto.
    + intros (i & I & X). right. assert (J : In i (concat sched)).
      { apply (Permutation_in _ (Permutation_sym P)). apply in_seq. lia. }
      apply in_concat in J. destruct J as (is & J & K). exists is. eauto.
  - clear P. generalize (@best_init A a0).
    match goal with |- best ?S0 _ -> _ => enough (G : forall S acc, best S acc -> best (cup S (fun a d => exists is, In is sched /\ exists i, In i is /\ T i a d))
      (fold_left keep_min (map (fun is => fold_left step is (cinf, a0)) sched) acc)) by apply G end.
    induction sched as [|is sched IH]; intros S acc B; cbn [map fold_left].
    + eapply best_ext; [|exact B]. unfold cup. intros; split; auto. intros [|(is & [] & _)]; auto.
    + eapply best_ext; [|apply (IH ltac:(intros i I; apply R; cbn; apply in_app_iff; auto) (cup S (fun a d => exists i, In i is /\ T i a d)))].
      * intros a d. unfold cup. split.
        -- intros [[X|X]|(k & K & X)]; auto; right; [exists is|exists k]; cbn; auto.
        -- intros [X|(k & [->|K] & X)]; auto. right. eauto.
      * apply best_keep; auto.
        eapply best_ext; [|apply (best_fold step T is); [intros S' acc' i I B'; apply H; auto; apply R; cbn; apply in_app_iff; auto|apply best_init]].
        intros a d. unfold cup. tauto.
Qed.
Lemma parallel_closest s1 s2 : Permutation (concat s1) (seq 0 (length mask)) ->
  Permutation (concat s2) (seq 0 (length clusters)) -> closest_ok (closest_parallel dm strat mask clusters s1 s2).
Proof.
  intros P1 P2. unfold closest_parallel. apply pick_best.
  - eapply best_ext; [|apply (best_threads (point_step dm strat mask clusters) (fun i a d => free mask i = true /\ fst a = Some i /\ cand1 a d) _ _ _
      (fun S acc i _ => point_step_best S acc i) P1)].
    intros [o e] d. cbv beta. split; [intros (i & _ & _ & _ & H); exact H|].
    intros H. pose proof H as (H1 & _). cbn in H1. destruct o as [i|]; [|contradiction]. exists i. split; auto. apply free_lt; auto.
  - eapply best_ext; [|apply (best_threads (cluster_step dm strat clusters) (fun i a d => fst a = Some i /\ cand2 a d) _ _ _
      (fun S acc i => cluster_step_best S acc i) P2)].
    intros [o e] d. cbv beta. split; [intros (i & _ & _ & H); exact H|].
    intros H. pose proof H as (H1 & _). cbn in H1. destruct o as [i|]; [|contradiction]. destruct H1. exists i. auto.
Qed.
End Pair.

(** ** Merging *)
Definition elems (s : state) : list element :=
  map (fun c => (true, Some c)) (filter (fun c => nonempty (cluster_at (snd s) c)) (seq 0 (length (snd s)))) ++
  map (fun i => (false, Some i)) (frees (fst s)).

Lemma filter_at (l : list (list nat)) : forall k,
  map (fun c => nth (c - k) l []) (filter (fun c => nonempty (nth (c - k) l [])) (seq k (length l))) = filter nonempty l.
Proof.
  induction l as [|x l IH]; intros k; cbn [length seq filter]; auto.
  rewrite Nat.sub_diag. change (nth 0 (x :: l) []) with x.
  assert (E : map (fun c => nth (c - k) (x :: l) []) (filter (fun c => nonempty (nth (c - k) (x :: l) [])) (seq (S k) (length l))) = filter nonempty l).
  { rewrite <- (IH (S k)).
    assert (F : forall c, In c (seq (S k) (length l)) -> nth (c - k) (x :: l) [] = nth (c - S k) l []).
    { intros c I. apply in_seq in I. replace (c - k) with (S (c - S k)) by lia. reflexivity. }
    rewrite (filter_ext_in (fun c => nonempty (nth (c - k) (x :: l) [])) (fun c => nonempty (nth (c - S k) l []))).
    - apply map_ext_in. intros c I. apply filter_In in I. apply F. tauto.
    - intros c I. rewrite F; auto. }
  destruct (nonempty x); cbn [map]; rewrite ?Nat.sub_diag, E; reflexivity.
Qed.
Lemma groups_elems s : groups s = map (members (snd s)) (elems s).
Proof.
  unfold groups, elems. rewrite map_app, !map_map. f_equal.
  rewrite <- (filter_at (snd s) 0). unfold members, cluster_at.
  rewrite (filter_ext (fun c => nonempty (nth (c - 0) (snd s) [])) (fun c => nonempty (nth c (snd s) []))) by (intros c; rewrite Nat.sub_0_r; auto).
  apply map_ext. intros c. rewrite Nat.sub_0_r. reflexivity.
Qed.
Lemma elems_nodup s : NoDup (elems s).
Proof.
  unfold elems. assert (D : forall A (l1 l2 : list A), NoDup l1 -> NoDup l2 -> (forall x, In x l1 -> ~ In x l2) -> NoDup (l1 ++ l2)).
  { intros A l1 l2 N1 N2 X. induction N1 as [|x l1 X1 N1 IH]; cbn; auto. constructor.
    - rewrite in_app_iff. intros [Y|Y]; [contradiction|]. apply (X x); cbn; auto.
    - apply IH. intros y Y. apply X. right. auto. }
  apply D.
  - apply FinFun.Injective_map_NoDup; [intros a b E; congruence|apply NoDup_filter, seq_NoDup].
  - apply FinFun.Injective_map_NoDup; [intros a b E; congruence|apply NoDup_filter, seq_NoDup].
  - intros x X Y. apply in_map_iff in X, Y. destruct X as (c & <- & _), Y as (i & Y & _). discriminate.
Qed.
Lemma elems_live s e : In e (elems s) <-> live (fst s) (snd s) e.
Proof.
  unfold elems. rewrite in_app_iff, !in_map_iff. split.
  - intros [(c & <- & I)|(i & <- & I)]; apply filter_In in I; destruct I as [I F]; cbn [live].
    + apply in_seq in I. apply nonempty_spec in F. split; auto. lia.
    + exact F.
  - destruct e as [[|] [k|]]; cbn [live]; try tauto.
    + intros [K N]. left. exists k. split; auto. apply filter_In. split; [apply in_seq; lia|apply nonempty_spec; auto].
    + intros F. right. exists k. split; auto. apply filter_In. split; [apply in_seq; apply free_lt in F; lia|auto].
Qed.

Lemma nth_error_cluster clusters c : c < length clusters -> nth_error clusters c = Some (cluster_at clusters c).
Proof. intros H. unfold cluster_at. apply nth_error_nth'. auto. Qed.

Lemma merge_spec dbg s e1 e2 : live (fst s) (snd s) e1 -> live (fst s) (snd s) e2 -> e1 <> e2 ->
  (fst e1 = true -> fst e2 = true) ->
  exists s' g rest, merge dbg s e1 e2 = Ok s' /\ length (fst s') = length (fst s) /\
    Permutation (groups s) (members (snd s) e1 :: members (snd s) e2 :: rest) /\
    Permutation (groups s') (g :: rest) /\ Permutation g (members (snd s) e1 ++ members (snd s) e2).
Proof.
  destruct s as [mask clusters]. cbn [fst snd]. intros L1 L2 N O.
  destruct e1 as [[|] [i|]], e2 as [[|] [j|]]; cbn [live] in L1, L2; try contradiction;
    try (specialize (O eq_refl); discriminate); cbn [members merge is_some]; unfold cassert; cbn [negb]; rewrite ?andb_false_r.
  - destruct L1 as [I1 N1], L2 as [I2 N2]. rewrite !nth_error_cluster by auto.
    destruct (Nat.eqb_spec i j) as [->|E]; [congruence|].
    destruct (upd_perm2 clusters i j _ _ E (nth_error_cluster _ _ I1) (nth_error_cluster _ _ I2)) as (r & P & Q).
    eexists _, (cluster_at clusters i ++ cluster_at clusters j), (filter nonempty r ++ map single (frees mask)).
    split; [reflexivity|]. split; [reflexivity|]. unfold groups. cbn [fst snd].
    split; [|split; [|reflexivity]].
    + rewrite (filter_perm nonempty _ _ P). cbn [filter]. apply nonempty_spec in N1, N2. rewrite N1, N2. reflexivity.
    + rewrite (filter_perm nonempty _ _ (Q _ _)). cbn [filter].
      assert (nonempty (cluster_at clusters i ++ cluster_at clusters j) = true) as ->; [|reflexivity].
      destruct (cluster_at clusters i); [congruence|reflexivity].
  - destruct L2 as [I2 N2]. rewrite nth_error_cluster by auto. assert (I1 := free_lt _ _ L1).
    destruct (Nat.ltb_spec i (length mask)) as [_|]; [|lia].
    destruct (upd_perm clusters j _ (nth_error_cluster _ _ I2)) as (r & P & Q).
    eexists _, (cluster_at clusters j ++ [i]), (filter nonempty r ++ map single (frees (upd mask i true))).
    split; [reflexivity|]. split; [cbn [fst]; apply upd_length|]. unfold groups. cbn [fst snd].
    split; [|split; [|apply Permutation_app_comm]].
    + rewrite (filter_perm nonempty _ _ P). cbn [filter]. apply nonempty_spec in N2. rewrite N2.
      rewrite (frees_upd mask i L1 I1) at 1. cbn [map single app].
      change (single i) with [i]. rewrite <- Permutation_middle. rewrite perm_swap. apply perm_skip. reflexivity.
    + rewrite (filter_perm nonempty _ _ (Q _)). cbn [filter].
      assert (nonempty (cluster_at clusters j ++ [i]) = true) as ->; [|reflexivity].
      destruct (cluster_at clusters j); reflexivity.
  - assert (I1 := free_lt _ _ L1). assert (I2 := free_lt _ _ L2).
    destruct (Nat.ltb_spec i (length mask)) as [_|]; [|lia]. destruct (Nat.ltb_spec j (length mask)) as [_|]; [|lia]. cbn [andb].
    eexists _, [i; j], (filter nonempty clusters ++ map single (frees (upd (upd mask i true) j true))).
    split; [reflexivity|]. split; [cbn [fst]; rewrite !upd_length; reflexivity|]. unfold groups. cbn [fst snd].
    split; [|split; [|reflexivity]].
    + rewrite (frees_upd mask i L1 I1) at 1.
      assert (F : free (upd mask i true) j = true).
      { rewrite free_upd by auto. rewrite L2. destruct (Nat.eqb_spec j i) as [->|]; [congruence|reflexivity]. }
      rewrite (frees_upd (upd mask i true) j F) at 1 by (rewrite upd_length; auto). cbn [map].
      change (single i) with [i]. change (single j) with [j].
      rewrite <- Permutation_middle. apply perm_skip. rewrite <- Permutation_middle. reflexivity.
    + rewrite filter_app. cbn [filter nonempty]. rewrite <- app_assoc. cbn [app]. rewrite <- Permutation_middle. reflexivity.
Qed.

(** ** No finite distance left *)
Definition init_or_finite {A} (a0 : A) (acc : C * A) : Prop := cltb (fst acc) cinf = true \/ acc = (cinf, a0).
Lemma iof_keep {A} (a0 : A) acc x : ok (fst acc) -> ok (fst x) -> init_or_finite a0 acc -> init_or_finite a0 (keep_min acc x).
Proof.
  intros O1 O2 H. unfold keep_min. destruct (cltb (fst x) (fst acc)) eqn:E; auto. left.
  apply (clt_le_trans L _ (fst acc)); auto; [apply (cl_inf _ _ L)|apply (cl_inf_max _ _ L); auto].
Qed.
Lemma cluster_step_iof clusters fc acc : ok (fst acc) -> init_or_finite (None, None) acc ->
  ok (fst (cluster_step dm strat clusters acc fc)) /\ init_or_finite (None, None) (cluster_step dm strat clusters acc fc).
Proof.
  intros O H. unfold cluster_step. destruct (nonempty _) eqn:N; auto. apply nonempty_spec in N.
  revert acc O H. induction (seq 0 (length clusters)) as [|sc l IH]; intros acc O H; cbn [fold_left]; auto.
  destruct (negb (fc =? sc) && nonempty (cluster_at clusters sc)) eqn:E; [|apply IH; auto].
  apply andb_true_iff in E. destruct E as [_ E]. apply nonempty_spec in E.
  pose proof (proj1 (link_is _ _ N E)) as Ol.
  apply IH; [|apply iof_keep; auto].
  unfold keep_min. destruct (cltb _ _); auto.
Qed.
Lemma cluster_fold_iof clusters l : forall acc, ok (fst acc) -> init_or_finite (None, None) acc ->
  ok (fst (fold_left (cluster_step dm strat clusters) l acc)) /\
  init_or_finite (None, None) (fold_left (cluster_step dm strat clusters) l acc).
Proof.
  induction l as [|c l IH]; intros acc O H; cbn [fold_left]; auto.
  destruct (cluster_step_iof clusters c acc O H). apply IH; auto.
Qed.
Definition closest_none (r : C * (element * element)) : Prop :=
  cltb (fst r) cinf = false -> snd r = ((true, None), (true, None)).
Lemma pick_none a b : ok (fst a) -> ok (fst b) -> init_or_finite (None, None) b -> closest_none (pick a b).
Proof.
  intros O1 O2 H E. unfold pick in *. destruct (cltb (fst a) (fst b)) eqn:X; cbn [fst snd] in *.
  - rewrite (clt_le_trans L (fst a) (fst b) cinf) in E; auto; [discriminate|apply (cl_inf _ _ L)|apply (cl_inf_max _ _ L); auto].
  - destruct H as [H| ->]; [congruence|reflexivity].
Qed.
Lemma acc_init_iof : init_or_finite (None, None) (@acc2_init C).
Proof. right. reflexivity. Qed.

Lemma point_step_ok mask clusters acc i : ok (fst acc) -> ok (fst (point_step dm strat mask clusters acc i)).
Proof.
  intros O. unfold point_step. destruct (free mask i); auto. cbv zeta.
  pose proof (proj1 (point_point_best mask i)). pose proof (proj1 (point_cluster_best clusters i)).
  unfold keep_min. cbn [fst snd]. destruct (cltb (fst (point_point dm mask i)) (fst acc)); cbn [fst]; destruct (cltb _ _); auto.
Qed.
Lemma fold_ok {A I} (step : C * A -> I -> C * A) l : (forall acc i, ok (fst acc) -> ok (fst (step acc i))) ->
  forall acc, ok (fst acc) -> ok (fst (fold_left step l acc)).
Proof. intros H. induction l as [|i l IH]; intros acc O; cbn; auto. Qed.

Lemma serial_none mask clusters : closest_none (closest_serial dm strat mask clusters).
Proof.
  unfold closest_serial. destruct (cluster_fold_iof clusters (seq 0 (length clusters)) acc2_init) as [O2 H2];
    [apply (cl_inf _ _ L)|apply acc_init_iof|].
  apply pick_none; auto. apply fold_ok; [intros; apply point_step_ok; auto|apply (cl_inf _ _ L)].
Qed.
Lemma parallel_none mask clusters s1 s2 : closest_none (closest_parallel dm strat mask clusters s1 s2).
Proof.
  unfold closest_parallel.
  assert (K : forall A (a0 : A) l acc, ok (fst acc) -> init_or_finite a0 acc -> Forall (fun x => ok (fst x)) l ->
            ok (fst (fold_left keep_min l acc)) /\ init_or_finite a0 (fold_left keep_min l acc)).
  { intros A a0 l. induction l as [|x l IH]; intros acc O H F; cbn [fold_left]; auto. inversion F; subst.
    apply IH; auto; [|apply iof_keep; auto]. unfold keep_min. destruct (cltb _ _); auto. }
  assert (O1 : ok (fst (fold_left keep_min (map (fun is => fold_left (point_step dm strat mask clusters) is acc1_init) s1) acc1_init))).
  { apply (K _ (None, (false, None))); [apply (cl_inf _ _ L)|right; reflexivity|].
    apply Forall_forall. intros x X. apply in_map_iff in X. destruct X as (is & <- & _).
    apply fold_ok; [intros; apply point_step_ok; auto|apply (cl_inf _ _ L)]. }
  destruct (K _ (None, None) (map (fun is => fold_left (cluster_step dm strat clusters) is acc2_init) s2) acc2_init) as [O2 H2];
    [apply (cl_inf _ _ L)|apply acc_init_iof| |].
  { apply Forall_forall. intros x X. apply in_map_iff in X. destruct X as (is & <- & _).
    apply cluster_fold_iof; [apply (cl_inf _ _ L)|apply acc_init_iof]. }
  apply pick_none; auto.
Qed.

(** With a threshold that infinity does not exceed the loop always ends in the failed assertion or, without
    assertions, in undefined behaviour. *)
Lemma loop_inf dbg closest maxd : (forall it mask clusters, closest_ok mask clusters (closest it mask clusters)) ->
  (forall it mask clusters, closest_none (closest it mask clusters)) -> (forall d, ok d -> cgeb maxd d = true) ->
  forall fuel it s, length (groups s) < fuel -> loop dbg closest maxd fuel it s = if dbg then AssertFail else UB.
Proof.
  intros Hc Hn Hm. induction fuel as [|f IH]; intros it s Lf; [lia|]. cbn [loop].
  pose proof (Hc it (fst s) (snd s)) as (B1 & B2 & _). specialize (Hn it (fst s) (snd s)). unfold closest_none in Hn.
  destruct (closest it (fst s) (snd s)) as [d [e1 e2]]. cbn [fst snd] in *. rewrite (Hm d B1).
  destruct (cltb d cinf) eqn:E.
  - destruct (B2 eq_refl) as (M1 & M2 & M3 & M4 & _). cbn [fst snd] in *.
    destruct (merge_spec dbg s e1 e2 M1 M2 M3 M4) as (s1 & g & rest & Em & Ln & P1 & P2 & P3).
    rewrite Em. cbn [obind]. apply IH. apply Permutation_length in P1, P2. cbn [length] in P1, P2. lia.
  - specialize (Hn eq_refl). injection Hn as -> ->. destruct s as [mask clusters]. cbn. destruct dbg; reflexivity.
Qed.

(** ** The loop *)
Section Loop.
Variable dbg : bool.
Variable closest : nat -> list bool -> list (list nat) -> C * (element * element).
Variable maxd : C.
Hypothesis Hclosest : forall it mask clusters, closest_ok mask clusters (closest it mask clusters).
Variable J : list (list nat) -> Prop.
Hypothesis HJ : forall G g1 g2 rest g d G', J G -> Permutation G (g1 :: g2 :: rest) -> is_link g1 g2 d -> cgeb maxd d = true ->
  Permutation g (g1 ++ g2) -> Permutation G' (g :: rest) -> J G'.
Hypothesis Hmax : forall d, ok d -> cgeb maxd d = true -> cltb d cinf = true.

Lemma loop_spec fuel : forall it s, length (groups s) < fuel -> J (groups s) ->
  exists s' d, loop dbg closest maxd fuel it s = Ok (s', d) /\ J (groups s') /\ length (fst s') = length (fst s) /\
    cgeb maxd d = false /\ ok d /\
    (forall p d', pair_cand (fst s') (snd s') p d' -> cle d d').
Proof.
  induction fuel as [|f IH]; intros it s Lf H; [lia|]. cbn [loop].
  pose proof (Hclosest it (fst s) (snd s)) as (B1 & B2 & B3).
  destruct (closest it (fst s) (snd s)) as [d [e1 e2]]. cbn [fst snd] in *.
  destruct (cgeb maxd d) eqn:E.
  - specialize (B2 (Hmax d B1 E)). destruct B2 as (M1 & M2 & M3 & M4 & M5). cbn [fst snd] in *.
    destruct (merge_spec dbg s e1 e2 M1 M2 M3 M4) as (s1 & g & rest & Em & Ln & P1 & P2 & P3).
    rewrite Em. cbn [obind].
    assert (J1 : J (groups s1)) by (eapply HJ; eauto).
    assert (L1 : length (groups s1) < f).
    { apply Permutation_length in P1, P2. cbn [length] in P1, P2. lia. }
    destruct (IH (S it) s1 L1 J1) as (s' & d' & Q1 & Q2 & Q3 & Q4). exists s', d'. split; auto. split; auto. split; [congruence|auto].
  - exists s, d. repeat (split; auto). intros p d' X. apply (B3 p d' X). apply X.
Qed.
End Loop.
End P.

Lemma extract_groups {D} (data : list D) s : extract data s = map (items data) (groups s).
Proof. unfold extract, groups. rewrite map_app, map_map. reflexivity. Qed.
Lemma groups_init n : groups (repeat false n, []) = map single (seq 0 n).
Proof.
  unfold groups, frees. cbn [fst snd filter app]. rewrite repeat_length. f_equal.
  assert (F : forall l, (forall i, In i l -> free (repeat false n) i = true) -> filter (free (repeat false n)) l = l).
  { induction l as [|x l IH]; intros H; cbn; auto. rewrite H by (left; auto). f_equal. apply IH. intros; apply H; right; auto. }
  apply F. intros i I. apply in_seq in I. unfold free. rewrite (nth_indep _ _ false) by (rewrite repeat_length; lia).
  rewrite nth_repeat. reflexivity.
Qed.
