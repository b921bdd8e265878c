(** Properties of hierarchical clustering: C32, C33, C34. *)
From Verif Require Import Base Cost CostFloat HierModel HierProofs.
From Coq Require Import Permutation Relations.
From Flocq Require Import IEEE754.Binary IEEE754.Bits.

(** The serial build, or the parallel build with an assignment of loop iterations to threads for every call. *)
Inductive build :=
| Serial
| Parallel (points clusters : nat -> nat -> list (list nat)).  (* call number, loop length *)
(** Every loop iteration is executed by exactly one thread. *)
Definition valid (b : build) : Prop :=
  match b with
  | Serial => True
  | Parallel s1 s2 => forall it n, Permutation (concat (s1 it n)) (seq 0 n) /\ Permutation (concat (s2 it n)) (seq 0 n)
  end.
Definition closest {C : cost} (dm : nat -> nat -> C) strat (b : build) (it : nat) mask clusters :=
  match b with
  | Serial => closest_serial dm strat mask clusters
  | Parallel s1 s2 => closest_parallel dm strat mask clusters (s1 it (length mask)) (s2 it (length clusters))
  end.

Section P.
Context {C : cost} {ok : C -> Prop}.
Variable L : cost_laws C ok.
Variable dm : nat -> nat -> C.
Variable b : build.
Context {D : Type}.
Variable data : list D.
Variable dbg : bool.
Variable maxd : C.

(** The distances are non-negative numbers, the schedules are schedules, and the threshold is a non-negative number
    or smaller than every distance. *)
Hypothesis Hdm : forall i j, ok (dm i j).
Hypothesis Hb : valid b.
Hypothesis Hthr : ok maxd \/ forall d, ok d -> cgeb maxd d = false.

(** [within x y]: the distance is at most the threshold. *)
Definition within (x y : nat) : Prop := cgeb maxd (dm x y) = true.
(** [x] and [y] are in one cluster of [g]. *)
Definition together (g : list (list nat)) (x y : nat) : Prop := exists c, In c g /\ In x c /\ In y c.

Lemma closest_is strat it mask clusters : closest_ok (ok := ok) dm strat mask clusters (closest dm strat b it mask clusters).
Proof.
  unfold closest. destruct b as [|s1 s2].
  - apply serial_closest; auto.
  - apply parallel_closest; auto; apply Hb.
Qed.
Lemma closest_is_none strat it mask clusters : closest_none (closest dm strat b it mask clusters).
Proof.
  unfold closest. destruct b as [|s1 s2].
  - apply (serial_none L); auto.
  - apply (parallel_none L); auto.
Qed.

Lemma within_down d d' : ok d -> ok d' -> cle d d' -> cgeb maxd d' = true -> cgeb maxd d = true.
Proof.
  intros O O' H W. destruct Hthr as [O2|N]; [|rewrite N in W by auto; discriminate].
  rewrite (cl_geb _ _ L) in * by auto. apply negb_true_iff in W. apply negb_true_iff. apply (cle_trans L d d'); auto.
Qed.
Lemma within_finite d : cgeb maxd cinf = false -> ok d -> cgeb maxd d = true -> cltb d cinf = true.
Proof.
  intros F O W. destruct (cltb d cinf) eqn:E; auto.
  rewrite (within_down cinf d) in F; auto. apply (cl_inf _ _ L).
Qed.

Definition partition (n : nat) (G : list (list nat)) : Prop := Permutation (concat G) (seq 0 n) /\ ~ In [] G.

Lemma perm_concat (G G' : list (list nat)) : Permutation G G' -> Permutation (concat G) (concat G').
Proof.
  induction 1 as [|x l l' P IH|x y l|l l' l'' P1 IH1 P2 IH2]; cbn; auto.
  - apply Permutation_app_head. auto.
  - rewrite !app_assoc. apply Permutation_app_tail. apply Permutation_app_comm.
  - etransitivity; eauto.
Qed.
Lemma partition_step n G g1 g2 rest g G' : partition n G -> Permutation G (g1 :: g2 :: rest) -> Permutation g (g1 ++ g2) ->
  Permutation G' (g :: rest) -> partition n G'.
Proof.
  intros [H1 H2] P1 P2 P3. split.
  - rewrite (perm_concat _ _ P3). cbn [concat]. rewrite P2, <- H1, (perm_concat _ _ P1). cbn [concat]. rewrite app_assoc. reflexivity.
  - intros I. apply (Permutation_in _ P3) in I. destruct I as [->|I].
    + apply Permutation_nil in P2. apply app_eq_nil in P2. destruct P2 as [-> _]. apply H2.
      apply (Permutation_in _ (Permutation_sym P1)). left. reflexivity.
    + apply H2. apply (Permutation_in _ (Permutation_sym P1)). right. right. auto.
Qed.
Lemma partition_init n : partition n (map single (seq 0 n)).
Proof.
  split.
  - assert (E : forall l, concat (map single l) = l) by (induction l as [|x l IH]; cbn; [auto|rewrite IH; auto]). rewrite E. auto.
  - intros I. apply in_map_iff in I. destruct I as (x & X & _). discriminate.
Qed.

(** Everything about a run: the output is the data of a final partition into groups with an invariant, and all
    candidate pairs are beyond the threshold. *)
Lemma run_spec strat (J : list (list nat) -> Prop) : cgeb maxd cinf = false ->
  (forall G g1 g2 rest g d G', J G -> Permutation G (g1 :: g2 :: rest) -> is_link (ok := ok) dm strat g1 g2 d -> cgeb maxd d = true ->
    Permutation g (g1 ++ g2) -> Permutation G' (g :: rest) -> J G') -> J (map single (seq 0 (length data))) ->
  exists s d, cluster dbg (closest dm strat b) maxd data = Ok (map (items data) (groups s), d) /\
    partition (length data) (groups s) /\ J (groups s) /\ cgeb maxd d = false /\
    forall p d', pair_cand (ok := ok) dm strat (fst s) (snd s) p d' -> cgeb maxd d' = false.
Proof.
  intros F HJ J0.
  destruct (loop_spec (ok := ok) dm strat Hdm dbg (closest dm strat b) maxd (closest_is strat) (fun G => partition (length data) G /\ J G)) with
    (fuel := S (length data)) (it := 0) (s := (repeat false (length data), @nil (list nat))) as (s & d & E & (H1 & H2) & H3 & H4 & H5 & H6).
  - intros G g1 g2 rest g d G' [A B] P1 Lk W P2 P3. split; [eapply partition_step|eapply HJ]; eauto.
  - intros d. apply within_finite; auto.
  - rewrite groups_init, map_length, seq_length. lia.
  - rewrite groups_init. split; auto. apply partition_init.
  - exists s, d. unfold cluster. rewrite E. cbn [obind fst snd]. rewrite extract_groups. split; auto. split; auto. split; auto.
    split; auto. intros p d' X. destruct (cgeb maxd d') eqn:W; auto.
    rewrite (within_down d d') in H4; auto. apply X. apply (H6 p d' X).
Qed.

Lemma items_concat (G : list (list nat)) : concat (map (items data) G) = items data (concat G).
Proof.
  unfold items. induction G as [|g G IH]; cbn; auto. rewrite IH, flat_map_app. reflexivity.
Qed.
Lemma items_perm l l' : Permutation l l' -> Permutation (items data l) (items data l').
Proof.
  unfold items. induction 1 as [|x l l' P IH|x y l|l l' l'' P1 IH1 P2 IH2]; cbn; auto.
  - apply Permutation_app_head. auto.
  - rewrite !app_assoc. apply Permutation_app_tail. apply Permutation_app_comm.
  - etransitivity; eauto.
Qed.
Lemma items_all : items data (seq 0 (length data)) = data.
Proof.
  assert (G : forall (l pre : list D), flat_map (fun i => match nth_error (pre ++ l) i with Some x => [x] | None => [] end) (seq (length pre) (length l)) = l).
  { induction l as [|x l IH]; intros pre; cbn [length seq flat_map]; auto.
    rewrite nth_error_app2, Nat.sub_diag by lia. cbn [nth_error app]. f_equal.
    specialize (IH (pre ++ [x])). rewrite <- app_assoc, app_length in IH. cbn [app length] in IH. rewrite Nat.add_1_r in IH. exact IH. }
  apply (G data []).
Qed.
Lemma items_nonempty g : g <> [] -> (forall i, In i g -> i < length data) -> items data g <> [].
Proof.
  destruct g as [|i g]; [congruence|]. intros _ H. unfold items. cbn [flat_map].
  destruct (nth_error data i) eqn:E; [discriminate|]. apply nth_error_None in E. specialize (H i ltac:(left; auto)). lia.
Qed.

(** C32, for thresholds below infinity: Cluster returns, and the clusters contain every item exactly once and none is
    empty. *)
Theorem C32_partition : forall strat, cgeb maxd cinf = false ->
  exists clusters d, cluster dbg (closest dm strat b) maxd data = Ok (clusters, d) /\
    Permutation (concat clusters) data /\ ~ In [] clusters.
Proof.
  intros strat F. destruct (run_spec strat (fun _ => True) F) as (s & d & E & [P N] & _); auto.
  exists (map (items data) (groups s)), d. split; auto. split.
  - rewrite items_concat. rewrite (items_perm _ _ P). rewrite items_all. reflexivity.
  - intros I. apply in_map_iff in I. destruct I as (g & E' & I). revert E'. apply items_nonempty.
    + intros ->. contradiction.
    + intros i X. assert (Y : In i (concat (groups s))) by (apply in_concat; eauto).
      apply (Permutation_in _ P) in Y. apply in_seq in Y. lia.
Qed.

(** Two different positions of the final groups are two different live elements. *)
Lemma positions s p q g h : p <> q -> nth_error (groups s) p = Some g -> nth_error (groups s) q = Some h ->
  exists e1 e2, live (fst s) (snd s) e1 /\ live (fst s) (snd s) e2 /\ e1 <> e2 /\ members (snd s) e1 = g /\ members (snd s) e2 = h.
Proof.
  rewrite (groups_elems dm Hdm). intros N H1 H2. rewrite nth_error_map in H1, H2.
  destruct (nth_error (elems s) p) as [e1|] eqn:E1; [|discriminate]. destruct (nth_error (elems s) q) as [e2|] eqn:E2; [|discriminate].
  cbn in H1, H2. injection H1 as <-. injection H2 as <-. exists e1, e2.
  split; [apply (elems_live dm Hdm); eapply nth_error_In; eauto|]. split; [apply (elems_live dm Hdm); eapply nth_error_In; eauto|].
  split; [|auto]. intros ->. apply N. apply (proj1 (NoDup_nth_error (elems s)) (elems_nodup s)); [|congruence].
  apply nth_error_Some. congruence.
Qed.
(** ... of which at least one order was compared. *)
Lemma separated strat s p q g h :
  (forall e d', pair_cand (ok := ok) dm strat (fst s) (snd s) e d' -> cgeb maxd d' = false) ->
  (~ In [] (groups s)) ->
  p <> q -> nth_error (groups s) p = Some g -> nth_error (groups s) q = Some h ->
  exists d', cgeb maxd d' = false /\ (is_link (ok := ok) dm strat g h d' \/ is_link (ok := ok) dm strat h g d').
Proof.
  intros H NE N Eg Eh. assert (G0 : g <> []) by (intros ->; apply NE; eapply nth_error_In; eauto).
  assert (H0 : h <> []) by (intros ->; apply NE; eapply nth_error_In; eauto).
  destruct (positions s p q g h N Eg Eh) as (e1 & e2 & L1 & L2 & Ne & M1 & M2).
  destruct (fst e1) eqn:F1; [destruct (fst e2) eqn:F2|].
  - exists (link_of strat (flat_map (fun x => map (dm x) h) g)). assert (X := link_is L dm strat Hdm g h G0 H0). split; auto.
    apply (H (e1, e2)). unfold pair_cand. cbn [fst snd]. rewrite M1, M2. auto.
  - exists (link_of strat (flat_map (fun x => map (dm x) g) h)). assert (X := link_is L dm strat Hdm h g H0 G0). split; auto.
    apply (H (e2, e1)). unfold pair_cand. cbn [fst snd]. rewrite M1, M2. repeat split; auto; try congruence; apply X.
  - exists (link_of strat (flat_map (fun x => map (dm x) h) g)). assert (X := link_is L dm strat Hdm g h G0 H0). split; auto.
    apply (H (e1, e2)). unfold pair_cand. cbn [fst snd]. rewrite M1, M2. repeat split; auto; try congruence; apply X.
Qed.

Hypothesis Hsym : forall i j, dm i j = dm j i.

(** C33, complete linkage. *)
Theorem C33_complete_link : cgeb maxd cinf = false ->
  exists groups d, cluster dbg (closest dm CompleteLink b) maxd data = Ok (map (items data) groups, d) /\
    partition (length data) groups /\
    (forall x y, together groups x y -> x <> y -> within x y) /\
    (forall p q g h, p <> q -> nth_error groups p = Some g -> nth_error groups q = Some h ->
       exists x y, In x g /\ In y h /\ ~ within x y).
Proof.
  intros F.
  destruct (run_spec CompleteLink (fun G => forall x y, together G x y -> x <> y -> within x y) F) as (s & d & E & P & HJ & W & H).
  - intros G g1 g2 rest g d G' HJ P1 (Od & Lk & _) Wd P2 P3 x y (c & Ic & X & Y) N.
    apply (Permutation_in _ P3) in Ic. destruct Ic as [<-|Ic].
    + apply (Permutation_in _ P2) in X, Y. apply in_app_iff in X, Y.
      assert (T : forall g', In g' [g1; g2] -> In x g' -> In y g' -> within x y).
      { intros g' I' X' Y'. apply HJ; auto. exists g'. split; auto. apply (Permutation_in _ (Permutation_sym P1)). cbn in *. tauto. }
      assert (CR : forall u v, In u g1 -> In v g2 -> within u v).
      { intros u v U V. unfold within. apply (within_down _ d); auto. }
      destruct X as [X|X], Y as [Y|Y].
      * apply (T g1); cbn; auto.
      * apply CR; auto.
      * unfold within. rewrite Hsym. apply CR; auto.
      * apply (T g2); cbn; auto.
    + apply HJ; auto. exists c. split; auto. apply (Permutation_in _ (Permutation_sym P1)). cbn. auto.
  - intros x y (c & Ic & X & Y) N. apply in_map_iff in Ic. destruct Ic as (k & <- & _). cbn in X, Y. lia.
  - exists (groups s), d. split; auto. split; auto. split; auto.
    intros p q g h N Eg Eh. destruct (separated CompleteLink s p q g h H (proj2 P) N Eg Eh) as (d' & Wd & [Lk|Lk]);
      destruct Lk as (Od & _ & x & y & X & Y & Le).
    + exists x, y. split; auto. split; auto. intros Wi. rewrite (within_down d' (dm x y)) in Wd; auto. discriminate.
    + exists y, x. split; auto. split; auto. intros Wi. unfold within in Wi. rewrite Hsym in Wi.
      rewrite (within_down d' (dm x y)) in Wd; auto. discriminate.
Qed.

(** C33, single linkage: being in one cluster is being connected by steps no longer than the threshold. *)
Definition connected : nat -> nat -> Prop :=
  clos_refl_sym_trans nat (fun x y => x < length data /\ y < length data /\ within x y).
Theorem C33_single_link : cgeb maxd cinf = false ->
  exists groups d, cluster dbg (closest dm SingleLink b) maxd data = Ok (map (items data) groups, d) /\
    partition (length data) groups /\
    forall x y, x < length data -> y < length data -> (together groups x y <-> connected x y).
Proof.
  intros F.
  destruct (run_spec SingleLink (fun G => (forall c x, In c G -> In x c -> x < length data) /\ forall x y, together G x y -> connected x y) F) as (s & d & E & P & [HR HJ] & W & H).
  - intros G g1 g2 rest g d G' [HR HJ] P1 (Od & _ & u & v & U & V & Le) Wd P2 P3.
    assert (In1 : In g1 G /\ In g2 G).
    { split; apply (Permutation_in _ (Permutation_sym P1)); cbn; auto. }
    destruct In1 as [In1 In2].
    assert (UV : connected u v).
    { apply rst_step. cbv beta. split; [apply (HR g1); auto|]. split; [apply (HR g2); auto|]. unfold within. apply (within_down _ d); auto. }
    assert (CR : forall x y, In x g1 -> In y g2 -> connected x y).
    { intros x y X Y. apply rst_trans with u; [apply HJ; exists g1; auto|]. apply rst_trans with v; auto. apply HJ. exists g2. auto. }
    split.
    + intros c x Ic X. apply (Permutation_in _ P3) in Ic. destruct Ic as [<-|Ic].
      * apply (Permutation_in _ P2) in X. apply in_app_iff in X. destruct X as [X|X]; [apply (HR g1)|apply (HR g2)]; auto.
      * apply (HR c); auto. apply (Permutation_in _ (Permutation_sym P1)). cbn; auto.
    + intros x y (c & Ic & X & Y). apply (Permutation_in _ P3) in Ic. destruct Ic as [<-|Ic].
      * apply (Permutation_in _ P2) in X, Y. apply in_app_iff in X, Y. destruct X as [X|X], Y as [Y|Y].
        -- apply HJ. exists g1. split; auto.
        -- exact (CR x y X Y).
        -- apply rst_sym. exact (CR y x Y X).
        -- apply HJ. exists g2. auto.
      * apply HJ. exists c. split; auto. apply (Permutation_in _ (Permutation_sym P1)). cbn; auto.
  - split.
    + intros c x Ic X. apply in_map_iff in Ic. destruct Ic as (k & <- & K). apply in_seq in K. unfold single in X. destruct X as [<-|[]]. lia.
    + intros x y (c & Ic & X & Y). apply in_map_iff in Ic. destruct Ic as (k & <- & K). unfold single in X, Y. destruct X as [<-|[]], Y as [<-|[]]. apply rst_refl.
  - exists (groups s), d. split; auto. split; auto. intros x y Lx Ly. split; [apply HJ|]. intros CN.
    assert (COV : forall z, z < length data -> exists p c, nth_error (groups s) p = Some c /\ In z c).
    { intros z Z. assert (I : In z (concat (groups s))) by (apply (Permutation_in _ (Permutation_sym (proj1 P))); apply in_seq; lia).
      apply in_concat in I. destruct I as (c & Ic & I). apply In_nth_error in Ic. destruct Ic as (p & Ic). eauto. }
    assert (SEP : forall p q c e z w, nth_error (groups s) p = Some c -> nth_error (groups s) q = Some e -> In z c -> In w e ->
              z < length data -> w < length data -> within z w -> p = q).
    { intros p q c e z w Ep Eq Z Wq Lz Lw Wi. destruct (Nat.eq_dec p q) as [|N]; auto. exfalso.
      destruct (separated SingleLink s p q c e H (proj2 P) N Ep Eq) as (d' & Wd & [Lk|Lk]); destruct Lk as (Od & Lk & _).
      - rewrite (within_down d' (dm z w)) in Wd; auto. discriminate.
      - rewrite (within_down d' (dm w z)) in Wd; auto; [discriminate|]. rewrite Hsym. exact Wi. }
    assert (UNI : forall p q c e z, nth_error (groups s) p = Some c -> nth_error (groups s) q = Some e -> In z c -> In z e -> p = q).
    { intros p q c e z Ep Eq Z1 Z2. destruct (Nat.eq_dec p q) as [|N]; auto. exfalso.
      assert (ND : NoDup (concat (groups s))).
      { apply (Permutation_NoDup (Permutation_sym (proj1 P))). apply seq_NoDup. }
      clear -ND Ep Eq Z1 Z2 N. revert p q Ep Eq N. induction (groups s) as [|g G IH]; intros [|p] [|q] Ep Eq N; cbn in Ep, Eq; try discriminate; try lia; cbn [concat] in ND.
      - injection Ep as ->. apply nth_error_In in Eq.
        assert (Y : In z (concat G)) by (apply in_concat; eauto).
        clear -ND Z1 Y. induction c as [|a c IH]; cbn in *; [tauto|]. inversion ND; subst. destruct Z1 as [->|Z1]; auto. apply H1. apply in_app_iff. auto.
      - injection Eq as ->. apply nth_error_In in Ep.
        assert (Y : In z (concat G)) by (apply in_concat; eauto).
        clear -ND Z2 Y. induction e as [|a c IH]; cbn in *; [tauto|]. inversion ND; subst. destruct Z2 as [->|Z1]; auto. apply H1. apply in_app_iff. auto.
      - apply (IH ltac:(clear -ND; induction g; cbn in ND; [auto|inversion ND; auto]) p q); auto. }
    assert (SAME : forall u v, connected u v -> (u < length data <-> v < length data) /\ (u < length data -> together (groups s) u v)).
    { intros u v R. induction R as [u v (Lu & Lv & Wi)|u|u v R IH|u v w R1 IH1 R2 IH2].
      - split; [tauto|]. intros _. destruct (COV u Lu) as (p & c & Ep & U), (COV v Lv) as (q & e & Eq & V).
        assert (p = q) by (eapply SEP; [exact Ep|exact Eq|exact U|exact V|auto|auto|auto]). subst q. rewrite Ep in Eq. injection Eq as <-.
        exists c. split; [eapply nth_error_In; eauto|auto].
      - split; [tauto|]. intros Lu. destruct (COV u Lu) as (p & c & Ep & U). exists c. split; [eapply nth_error_In; eauto|auto].
      - destruct IH as [I1 I2]. split; [tauto|]. intros Lv. destruct (I2 (proj2 I1 Lv)) as (c & Ic & U & V). exists c. auto.
      - destruct IH1 as [I1 I2], IH2 as [I3 I4]. split; [tauto|]. intros Lu.
        destruct (I2 Lu) as (c & Ic & U & V), (I4 (proj1 I1 Lu)) as (e & Ie & V' & W').
        apply In_nth_error in Ic, Ie. destruct Ic as (p & Ep), Ie as (q & Eq).
        assert (p = q) by (eapply UNI; eauto). subst q. rewrite Ep in Eq. injection Eq as <-.
        exists c. split; [eapply nth_error_In; eauto|auto]. }
    apply SAME; auto.
Qed.

(** C34: below infinity Cluster returns (the loop merges fewer times than there are items). *)
Theorem C34_terminates_partial : forall strat, cgeb maxd cinf = false ->
  exists r, cluster dbg (closest dm strat b) maxd data = Ok r.
Proof. intros strat F. destruct (C32_partition strat F) as (c & d & E & _). eauto. Qed.
End P.
Print Assumptions C32_partition.
Print Assumptions C33_complete_link.
Print Assumptions C33_single_link.
Print Assumptions C34_terminates_partial.

(** C34 is false for the infinite threshold, on every data set: after all merges GetClosestPair returns infinity and
    the index -1, infinity is not above the threshold, and Cluster stops on the assertion or, without assertions,
    subscripts with -1. *)
Theorem C34_infinite_refuted : forall (C : cost) (ok : C -> Prop), cost_laws C ok ->
  forall (dm : nat -> nat -> C) b D (data : list D) dbg strat,
  (forall i j, ok (dm i j)) -> valid b ->
  cluster dbg (closest dm strat b) cinf data = if dbg then AssertFail else UB.
Proof.
  intros C ok L dm b D data dbg strat Hdm Hb. unfold cluster.
  rewrite (loop_inf (ok := ok) dm strat Hdm dbg (closest dm strat b) cinf).
  - destruct dbg; reflexivity.
  - intros it mask clusters. apply (closest_is L); auto.
  - intros it mask clusters. apply (closest_is_none L); auto.
  - intros d O. rewrite (cl_geb _ _ L); [|apply (cl_inf _ _ L)|auto]. rewrite (cl_inf_max _ _ L); auto.
  - rewrite groups_init, map_length, seq_length. lia.
Qed.
Print Assumptions C34_infinite_refuted.

(** Every double that is not a NaN is an admissible threshold, and any but +infinity is below infinity. *)
Lemma double_thresholds (x : binary64) : is_nan 53 1024 x = false ->
  (b64_ok x \/ forall d, b64_ok d -> @cgeb b64_cost x d = false) /\
  (x <> b64_inf -> @cgeb b64_cost x cinf = false).
Proof.
  intros N. split.
  - destruct x as [s|s|s pl e|s m e p]; cbn in N; try discriminate; cbn [b64_ok]; auto; destruct s; auto; right;
      intros d D; destruct d as [s'|s'|s' pl' e'|s' m' e' p']; cbn [b64_ok] in D; try contradiction; try subst s';
      try destruct s'; reflexivity.
  - intros X. destruct x as [s|s|s pl e|s m e p]; cbn in N; try discriminate; try destruct s; try reflexivity.
    exfalso. apply X. reflexivity.
Qed.

(** The theorems at work on doubles. *)
Theorem C32_doubles : forall (dm : nat -> nat -> binary64) b D (data : list D) dbg (maxd : binary64) strat,
  (forall i j, b64_ok (dm i j)) -> valid b -> is_nan 53 1024 maxd = false -> maxd <> b64_inf ->
  exists clusters d, cluster (C := b64_cost) dbg (closest (C := b64_cost) dm strat b) maxd data = Ok (clusters, d) /\
    Permutation (concat clusters) data /\ ~ In [] clusters.
Proof.
  intros dm b D data dbg maxd strat Hdm Hb N X. destruct (double_thresholds maxd N) as [T F].
  apply (C32_partition b64_laws dm b data dbg maxd Hdm Hb T strat (F X)).
Qed.
Print Assumptions C32_doubles.

(** Every threshold, also a NaN: Cluster returns exactly when the threshold is not +infinity, and what it returns is a
    partition. *)
Theorem C32_every_threshold : forall (dm : nat -> nat -> binary64) b D (data : list D) dbg (maxd : binary64) strat,
  (forall i j, b64_ok (dm i j)) -> valid b ->
  (forall clusters d, cluster (C := b64_cost) dbg (closest (C := b64_cost) dm strat b) maxd data = Ok (clusters, d) ->
     Permutation (concat clusters) data /\ ~ In [] clusters) /\
  ((exists r, cluster (C := b64_cost) dbg (closest (C := b64_cost) dm strat b) maxd data = Ok r) <-> maxd <> b64_inf).
Proof.
  intros dm b D data dbg maxd strat Hdm Hb.
  assert (R : maxd <> b64_inf ->
    exists clusters d, cluster (C := b64_cost) dbg (closest (C := b64_cost) dm strat b) maxd data = Ok (clusters, d) /\
      Permutation (concat clusters) data /\ ~ In [] clusters).
  { intros X. destruct (is_nan 53 1024 maxd) eqn:N; [|apply C32_doubles; auto].
    destruct maxd as [s|s|s pl e|s m e p]; cbn in N; try discriminate.
    apply (C32_partition b64_laws dm b data dbg _ Hdm Hb); [right; intros d O; destruct d as [[]|[]| |[]]; reflexivity|reflexivity]. }
  assert (I : maxd = b64_inf -> forall r, cluster (C := b64_cost) dbg (closest (C := b64_cost) dm strat b) maxd data <> Ok r).
  { intros -> r H. change b64_inf with (@cinf b64_cost) in H. rewrite (C34_infinite_refuted _ _ b64_laws) in H by auto.
    destruct dbg; discriminate. }
  assert (D' : maxd = b64_inf \/ maxd <> b64_inf).
  { destruct maxd as [s|[]|s pl e|s m e p]; try (right; intros X; discriminate X). left. reflexivity. }
  split; [|split].
  - intros clusters d H. destruct D' as [X|X]; [elim (I X _ H)|]. destruct (R X) as (c & d' & H' & A).
    rewrite H in H'. injection H' as <- <-. exact A.
  - intros [r H] X. exact (I X r H).
  - intros X. destruct (R X) as (c & d' & H' & _). eauto.
Qed.
Print Assumptions C32_every_threshold.

(** Points 0, 1, 2, 10, 12 on a line, threshold 2. *)
Definition line : list N := [0; 1; 2; 10; 12]%N.
Definition line_dm (i j : nat) : ninf :=
  let x := nth i line 0%N in let y := nth j line 0%N in Some (if (x <? y)%N then y - x else x - y)%N.
Definition odd_even (it n : nat) : list (list nat) := [filter Nat.odd (seq 0 n); filter Nat.even (seq 0 n)].
Example C33_example :
  cluster true (closest line_dm CompleteLink Serial) (Some 2%N : ninf) line = Ok ([[0; 1; 2]; [10; 12]]%N, Some 12%N) /\
  cluster true (closest line_dm SingleLink Serial) (Some 1%N : ninf) line = Ok ([[0; 1; 2]; [10]; [12]]%N, Some 2%N) /\
  cluster true (closest line_dm CompleteLink (Parallel odd_even odd_even)) (Some 2%N : ninf) line
    = Ok ([[1; 0; 2]; [10; 12]]%N, Some 12%N) /\
  cluster true (closest line_dm CompleteLink Serial) (None : ninf) line = AssertFail /\
  cgeb (Some 2%N : ninf) cinf = false /\ (forall i j, line_dm i j = line_dm j i).
Proof.
  repeat split; try (vm_compute; reflexivity). intros i j. unfold line_dm. f_equal.
  destruct (N.ltb_spec (nth i line 0%N) (nth j line 0%N)), (N.ltb_spec (nth j line 0%N) (nth i line 0%N)); lia.
Qed.
Lemma odd_even_perm n : Permutation (concat (odd_even 0 n)) (seq 0 n).
Proof.
  unfold odd_even. cbn [concat]. rewrite app_nil_r. generalize (seq 0 n). induction l as [|x l IH]; cbn; auto.
  rewrite <- Nat.negb_odd. destruct (Nat.odd x); cbn [negb app]; [auto|].
  transitivity (x :: filter Nat.odd l ++ filter Nat.even l); [symmetry; apply Permutation_middle|auto].
Qed.
Example schedules_exist : valid (Parallel odd_even odd_even).
Proof. intros it n. split; apply odd_even_perm. Qed.
