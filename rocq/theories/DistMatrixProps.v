(** Properties of distance matrices: C26, C27. *)
From Verif Require Import Base DistMatrixModel.
From Coq Require Import Permutation.

Lemma entry_some {D} (ws : list (@write D)) i j v : entry_after ws i j = Some v -> exists w, In w ws /\ w = ((i, j), v).
Proof.
  induction ws as [|[[i' j'] d] ws IH]; cbn; [discriminate|].
  destruct (entry_after ws i j); [intros [= ->]; destruct (IH eq_refl) as (w & I & E); eauto|].
  destruct (Nat.eqb_spec i i'), (Nat.eqb_spec j j'); try discriminate. intros [= ->]. subst. eauto.
Qed.
Lemma entry_written {D} (ws : list (@write D)) i j v : (forall d, In ((i, j), d) ws -> d = v) -> (exists d, In ((i, j), d) ws) ->
  entry_after ws i j = Some v.
Proof.
  intros H (d & I). destruct (entry_after ws i j) as [d'|] eqn:E.
  - apply entry_some in E as (w & I' & ->). rewrite (H _ I'). reflexivity.
  - exfalso. clear H. induction ws as [|[[i' j'] d'] ws IH]; [destruct I|]. cbn in E.
    destruct (entry_after ws i j); [discriminate|]. destruct I as [[= -> -> ->]|I]; [|auto].
    rewrite !Nat.eqb_refl in E. discriminate.
Qed.

(** ** C26 *)

(** What entry (i, j) must be: zero on the diagonal, the distance of the earlier to the later item elsewhere. *)
Definition right_value {A D} (zero : D) (data : list A) (dist : A -> A -> D) (i j : nat) : option D :=
  if i =? j then Some zero
  else match nth_error data (Nat.min i j), nth_error data (Nat.max i j) with
       | Some x, Some y => Some (dist x y)
       | _, _ => None
       end.

Lemma in_row {A D} (zero : D) (data : list A) dist idx i j d : In ((i, j), d) (row_writes zero data dist idx) ->
  Nat.min i j = idx /\ i < length data /\ j < length data /\ right_value zero data dist i j = Some d.
Proof.
  unfold row_writes. rewrite in_flat_map. intros (jdx & J & H). apply in_seq in J.
  destruct (nth_error data idx) as [x|] eqn:E1; [|destruct H].
  destruct (nth_error data jdx) as [y|] eqn:E2; [|destruct H].
  assert (idx < length data) by (apply nth_error_Some; congruence).
  assert (jdx < length data) by (apply nth_error_Some; congruence).
  unfold right_value. destruct H as [[= <- <- <-]|[[= <- <- <-]|[]]].
  - rewrite Nat.min_l, Nat.max_r, E1, E2 by lia. destruct (idx =? jdx); auto.
  - rewrite Nat.min_r, Nat.max_l, E1, E2 by lia. rewrite (Nat.eqb_sym jdx idx). destruct (idx =? jdx); auto.
Qed.

Lemma row_has {A D} (zero : D) (data : list A) dist i j : i < length data -> j < length data ->
  exists d, In ((i, j), d) (row_writes zero data dist (Nat.min i j)).
Proof.
  intros Hi Hj. destruct (nth_error data (Nat.min i j)) as [x|] eqn:E1; [|apply nth_error_None in E1; lia].
  destruct (nth_error data (Nat.max i j)) as [y|] eqn:E2; [|apply nth_error_None in E2; lia].
  exists (if Nat.min i j =? Nat.max i j then zero else dist x y). unfold row_writes. apply in_flat_map.
  exists (Nat.max i j). split; [apply in_seq; lia|]. rewrite E1, E2. cbn.
  destruct (Nat.le_gt_cases i j); [rewrite Nat.min_l, Nat.max_r by lia|rewrite Nat.min_r, Nat.max_l by lia]; auto.
Qed.

Lemma in_serial {A D} (zero : D) (data : list A) dist w : In w (serial_writes zero data dist) <->
  exists idx, idx < length data /\ In w (row_writes zero data dist idx).
Proof.
  unfold serial_writes. rewrite in_flat_map. split; intros (i & I & H); exists i; split; auto; [apply in_seq in I; lia|apply in_seq; lia].
Qed.

(** C26: whatever order the writes of all threads land in, nothing is written outside the matrix, and every entry
    ends up with the right value. *)
Theorem C26_every_schedule : forall (A D : Type) (zero : D) (data : list A) (dist : A -> A -> D) dbg order,
  Permutation order (serial_writes zero data dist) ->
  exists m, apply_writes dbg (length data) (length data) order = Ok m /\
    forall i j, i < length data -> j < length data -> m i j = right_value zero data dist i j.
Proof.
  intros A D zero data dist dbg order P.
  assert (I : forall i j d, In ((i, j), d) order -> i < length data /\ j < length data /\ right_value zero data dist i j = Some d).
  { intros i j d H. apply (Permutation_in _ P) in H. apply in_serial in H as (idx & _ & H). apply in_row in H. tauto. }
  exists (entry_after order). split.
  - unfold apply_writes. match goal with |- context [forallb ?f ?l] => assert (forallb f l = true) as -> end; [|now auto].
    apply forallb_forall. intros [[i j] d] H. cbn [fst snd]. destruct (I _ _ _ H) as (? & ? & _). lia.
  - intros i j Hi Hj. destruct (row_has zero data dist i j Hi Hj) as (d & H).
    assert (IO : In ((i, j), d) order).
    { apply (Permutation_in _ (Permutation_sym P)). apply in_serial. exists (Nat.min i j). split; auto. lia. }
    destruct (I _ _ _ IO) as (_ & _ & R). rewrite R. apply entry_written; eauto.
    intros d' H'. destruct (I _ _ _ H') as (_ & _ & R'). congruence.
Qed.
Print Assumptions C26_every_schedule.

(** C26: the threads do not race: an entry is written by one iteration of the parallel loop only. *)
Theorem C26_no_race : forall (A D : Type) (zero : D) (data : list A) (dist : A -> A -> D) idx idx' i j d d',
  In ((i, j), d) (row_writes zero data dist idx) -> In ((i, j), d') (row_writes zero data dist idx') -> idx = idx'.
Proof. intros A D zero data dist idx idx' i j d d' H H'. apply in_row in H, H'. lia. Qed.
Print Assumptions C26_no_race.

Definition absdiff (x y : nat) : nat := (x - y) + (y - x).
Example C26_example :
  exists m, apply_writes true 3 3 (rev (serial_writes 0 [5; 1; 7] absdiff)) = Ok m /\
    map (fun i => map (m i) [0; 1; 2]) [0; 1; 2]
    = [[Some 0; Some 4; Some 2]; [Some 4; Some 0; Some 6]; [Some 2; Some 6; Some 0]].
Proof. eexists. split; vm_compute; reflexivity. Qed.

(** ** C27 *)

(** The matrix a caller expects. *)
Definition right_value2 {A B D} (data1 : list A) (data2 : list B) (dist : A -> B -> D) (i j : nat) : option D :=
  match nth_error data1 i, nth_error data2 j with Some x, Some y => Some (dist x y) | _, _ => None end.

(** C27 fails even for equal sizes: entries are overwritten by those of the transposed pair. *)
Theorem C27_overwritten_refuted : exists (data1 data2 : list nat) (dist : nat -> nat -> nat) m i j,
  length data1 = length data2 /\ matrix2_serial true data1 data2 dist = Ok m /\
  i < length data1 /\ j < length data2 /\ m i j <> right_value2 data1 data2 dist i j.
Proof.
  exists [0; 1], [10; 20], absdiff. eexists. exists 0, 1. repeat (split; [vm_compute; reflexivity|]).
  split; [cbn; lia|]. split; [cbn; lia|]. vm_compute. discriminate.
Qed.
Print Assumptions C27_overwritten_refuted.

(** C27: whenever the second set is larger and the first not empty, the writes leave the matrix. *)
Theorem C27_out_of_bounds : forall (A B D : Type) (data1 : list A) (data2 : list B) (dist : A -> B -> D),
  0 < length data1 -> length data1 < length data2 ->
  matrix2_serial true data1 data2 dist = AssertFail /\ matrix2_serial false data1 data2 dist = UB.
Proof.
  intros A B D data1 data2 dist H1 H2. unfold matrix2_serial, apply_writes.
  match goal with |- context [forallb ?f ?l] => assert (forallb f l = false) as -> end; [|now auto].
  apply not_true_is_false. rewrite forallb_forall. intros H.
  destruct (nth_error data1 0) as [x|] eqn:E1; [|apply nth_error_None in E1; lia].
  destruct (nth_error data2 (length data1)) as [y|] eqn:E2; [|apply nth_error_None in E2; lia].
  specialize (H ((0, length data1), dist x y)). cbn [fst snd] in H. rewrite Nat.ltb_irrefl, andb_false_r in H.
  discriminate H. unfold serial_writes2. apply in_flat_map. exists 0. split; [apply in_seq; lia|].
  unfold row_writes2. apply in_flat_map. exists (length data1). split; [apply in_seq; lia|]. rewrite E1, E2. cbn; auto.
Qed.
Print Assumptions C27_out_of_bounds.

Lemma in_serial2 {A B D} (data1 : list A) (data2 : list B) (dist : A -> B -> D) i j d :
  In ((i, j), d) (serial_writes2 data1 data2 dist) ->
  right_value2 data1 data2 dist i j = Some d \/ right_value2 data1 data2 dist j i = Some d.
Proof.
  unfold serial_writes2. rewrite in_flat_map. intros (idx & _ & H). unfold row_writes2 in H. apply in_flat_map in H as (jdx & _ & H).
  unfold right_value2. destruct (nth_error data1 idx) eqn:E1; [|destruct H]. destruct (nth_error data2 jdx) eqn:E2; [|destruct H].
  destruct H as [[= <- <- <-]|[[= <- <- <-]|[]]]; rewrite E1, E2; auto.
Qed.

(** C27, the part that holds: if the sets have equal sizes and the distance of item i to item j equals that of
    item j to item i (as when both sets are the same and the distance is symmetric), the matrix is right.  What is
    missing is every other case. *)
Theorem C27_symmetric_partial : forall (A B D : Type) (data1 : list A) (data2 : list B) (dist : A -> B -> D) dbg,
  length data1 = length data2 ->
  (forall i j, right_value2 data1 data2 dist i j = right_value2 data1 data2 dist j i) ->
  exists m, matrix2_serial dbg data1 data2 dist = Ok m /\
    forall i j, i < length data1 -> j < length data2 -> m i j = right_value2 data1 data2 dist i j.
Proof.
  intros A B D data1 data2 dist dbg L S. exists (entry_after (serial_writes2 data1 data2 dist)). split.
  - unfold matrix2_serial, apply_writes.
    match goal with |- context [forallb ?f ?l] => assert (forallb f l = true) as -> end; [|now auto].
    apply forallb_forall. intros [[i j] d] H. cbn [fst snd]. apply in_serial2 in H. rewrite (S j i) in H.
    assert (right_value2 data1 data2 dist i j = Some d) as R by tauto. unfold right_value2 in R.
    destruct (nth_error data1 i) eqn:E1; [|discriminate]. destruct (nth_error data2 j) eqn:E2; [|discriminate].
    assert (i < length data1) by (apply nth_error_Some; congruence). assert (j < length data2) by (apply nth_error_Some; congruence). lia.
  - intros i j Hi Hj. destruct (right_value2 data1 data2 dist i j) as [v|] eqn:R.
    + apply entry_written.
      * intros d H. apply in_serial2 in H. rewrite (S j i), R in H. intuition congruence.
      * exists v. unfold right_value2 in R. unfold serial_writes2. apply in_flat_map. exists i. split; [apply in_seq; lia|].
        unfold row_writes2. apply in_flat_map. exists j. split; [apply in_seq; lia|].
        destruct (nth_error data1 i); [|discriminate]. destruct (nth_error data2 j); [|discriminate]. injection R as ->. cbn; auto.
    + exfalso. unfold right_value2 in R. destruct (nth_error data1 i) eqn:E1; [|apply nth_error_None in E1; lia].
      destruct (nth_error data2 j) eqn:E2; [discriminate|]. apply nth_error_None in E2. lia.
Qed.
Print Assumptions C27_symmetric_partial.

Example C27_example : forall i j, right_value2 [1; 4] [1; 4] absdiff i j = right_value2 [1; 4] [1; 4] absdiff j i.
Proof. intros [|[|i]] [|[|j]]; cbn; auto; try destruct i; try destruct j; auto. Qed.
