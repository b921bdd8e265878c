(** C108, C109: conversions, path lengths and distance matrices. *)
From Coq Require Import Reals List Lra Lia Bool ZArith Permutation.
From Verif Require Import Base MathModel MathProps TotpModel TotpVec EVecModel EVecProps EConvModel.
Import ListNotations.
Open Scope R_scope.

(** ** C108: conversions *)
Theorem C108_vector3 (T : Type) dbg (x y z : T) : std_to_vector3 dbg (vector3_to_std (x, y, z)) = Ok (x, y, z) /\
  (forall (v : list T) p, length v = 3%nat -> std_to_vector3 dbg v = Ok p -> vector3_to_std p = v) /\
  (forall v : list T, length v <> 3%nat -> std_to_vector3 true v = AssertFail) /\ (forall v : list T, (length v < 3)%nat -> std_to_vector3 false v = UB).
Proof.
  split; [unfold std_to_vector3, cassert; cbn; destruct dbg; reflexivity|]. split; [|split].
  2: { intros v L. unfold std_to_vector3, cassert. apply Nat.eqb_neq in L. rewrite L. reflexivity. }
  2: { intros v L. destruct v as [|a [|b [|c v]]]; try reflexivity. cbn in L. lia. }
  intros v p L E. destruct v as [|a [|b [|c [|d v]]]]; cbn in L; try lia. unfold std_to_vector3, cassert in E. cbn in E. rewrite andb_false_r in E. injection E as <-. reflexivity.
Qed.
(** A quaternion goes to (x, y, z, w) and back. *)
Theorem C108_quaternion (T : Type) dbg (w x y z : T) : quaternion_to_std (w, x, y, z) = [x; y; z; w] /\ std_to_quaternion dbg [x; y; z; w] = Ok (w, x, y, z) /\
  (forall (v : list T) q, length v = 4%nat -> std_to_quaternion dbg v = Ok q -> quaternion_to_std q = v) /\
  (forall v : list T, length v <> 4%nat -> std_to_quaternion true v = AssertFail) /\ (forall v : list T, (length v < 4)%nat -> std_to_quaternion false v = UB).
Proof.
  split; [reflexivity|]. split; [unfold std_to_quaternion, cassert; cbn; destruct dbg; reflexivity|]. split; [|split].
  - intros v q L E. destruct v as [|a [|b [|c [|d [|e v]]]]]; cbn in L; try lia. unfold std_to_quaternion, cassert in E. cbn in E. rewrite andb_false_r in E. injection E as <-. reflexivity.
  - intros v L. unfold std_to_quaternion, cassert. apply Nat.eqb_neq in L. rewrite L. reflexivity.
  - intros v L. unfold std_to_quaternion, cassert. cbn [andb]. destruct v as [|a [|b [|c [|d v]]]]; cbn in L; try lia; reflexivity.
Qed.
Lemma segments_concat {T} len : forall (vs : list (list T)), Forall (fun v => length v = len) vs -> segments len (length vs) (concat vs) = vs.
Proof.
  induction vs as [|v vs IH]; intros F; [reflexivity|]. inversion F as [|? ? V F']; subst. cbn [length segments concat]. rewrite firstn_app, skipn_app, firstn_all, skipn_all, Nat.sub_diag. cbn [firstn skipn app]. rewrite app_nil_r, IH by assumption. reflexivity.
Qed.
Lemma concat_length {T} len : forall (vs : list (list T)), Forall (fun v => length v = len) vs -> length (concat vs) = (length vs * len)%nat.
Proof. induction vs as [|v vs IH]; intros F; [reflexivity|]. inversion F; subst. cbn [concat length]. rewrite app_length, IH by assumption. lia. Qed.
Lemma segments_spec {T} len : forall n (l : list T), (n * len <= length l)%nat -> length (segments len n l) = n /\ Forall (fun v => length v = len) (segments len n l) /\ concat (segments len n l) = firstn (n * len) l.
Proof.
  induction n as [|n IH]; intros l L; [cbn; auto|]. cbn [segments length concat]. destruct (IH (skipn len l)) as (A & B & C); [rewrite skipn_length; lia|].
  split; [rewrite A; reflexivity|]. split; [constructor; [rewrite firstn_length; lia|exact B]|]. rewrite C.
  replace (S n * len)%nat with (len + n * len)%nat by lia. rewrite <- (firstn_skipn len l) at 3. rewrite firstn_app, firstn_length. replace (Nat.min len (length l)) with len by lia.
  replace (len + n * len - len)%nat with (n * len)%nat by lia. rewrite (firstn_all2 (firstn len l)) by (rewrite firstn_length; lia). reflexivity.
Qed.
(** Vectors of a fixed size joined and cut again are the same vectors; a vector whose size is a multiple is the same when cut and joined. *)
Theorem C108_join_split {T} dbg len (vs : list (list T)) : (0 < len)%nat -> vs <> [] -> Forall (fun v => length v = len) vs ->
  exists l, join dbg (Z.of_nat len) vs = Ok l /\ length l = (length vs * len)%nat /\ split dbg len l = Ok vs.
Proof.
  intros L NE F. exists (concat vs). pose proof (concat_length len vs F) as CL. split; [|split; [exact CL|]].
  - unfold join, cassert. destruct vs as [|v vs]; [contradiction|]. cbn [length Nat.ltb Nat.leb negb]. rewrite andb_false_r. replace (0 <=? Z.of_nat len)%Z with true by (symmetry; apply Z.leb_le; lia). reflexivity.
  - unfold split, cassert. rewrite CL, Nat.mod_mul, Nat.div_mul by lia. cbn [Nat.eqb negb]. rewrite andb_false_r, segments_concat by exact F. reflexivity.
Qed.
Theorem C108_split_join {T} dbg len (l : list T) : (0 < len)%nat -> l <> [] -> (length l mod len = 0)%nat ->
  exists vs, split dbg len l = Ok vs /\ Forall (fun v => length v = len) vs /\ length vs = (length l / len)%nat /\ join dbg (Z.of_nat len) vs = Ok l.
Proof.
  intros L NE M. assert (E : (length l = len * (length l / len))%nat) by (apply Nat.div_exact; lia).
  destruct (segments_spec len (length l / len) l) as (A & B & C); [lia|]. exists (segments len (length l / len) l). split; [unfold split, cassert; rewrite M; cbn [Nat.eqb negb]; rewrite andb_false_r; reflexivity|].
  split; [exact B|]. split; [exact A|]. unfold join, cassert. rewrite A. assert (P : (0 < length l / len)%nat). { destruct (length l / len)%nat; [|lia]. destruct l; [contradiction|cbn in E; lia]. }
  replace (0 <? length l / len)%nat with true by (symmetry; apply Nat.ltb_lt; exact P). cbn [negb]. rewrite andb_false_r. destruct (segments len (length l / len) l) as [|s ss] eqn:S; [cbn in A; lia|].
  replace (0 <=? Z.of_nat len)%Z with true by (symmetry; apply Z.leb_le; lia). f_equal. rewrite C. apply firstn_all2. lia.
Qed.
(** A size that is no multiple: an assertion, or in the release build the last entries are lost. *)
Theorem C108_remainder {T} len (l : list T) : (0 < len)%nat -> (length l mod len <> 0)%nat ->
  split true len l = AssertFail /\ exists vs, split false len l = Ok vs /\ concat vs = firstn (length l - length l mod len) l.
Proof.
  intros L M. unfold split, cassert. pose proof M as M'. apply Nat.eqb_neq in M'. rewrite M'. split; [reflexivity|]. cbn [andb]. eexists. split; [reflexivity|].
  pose proof (Nat.div_mod (length l) len ltac:(lia)) as D. rewrite (Nat.mul_comm len) in D. assert (Q : (forall a b c, a = b + c -> b <= a /\ a - c = b)%nat) by (intros; lia). destruct (Q _ _ _ D) as [Q1 Q2].
  destruct (segments_spec len (length l / len) l Q1) as (_ & _ & C). rewrite C, Q2. reflexivity.
Qed.
(** Joining vectors of dynamic size never works. *)
(** Nothing to join fails the assertion, and is undefined without assertions. *)
Theorem C108_join_nothing (T : Type) L : join true L (@nil (list T)) = AssertFail /\ join false L (@nil (list T)) = UB.
Proof. split; reflexivity. Qed.
Print Assumptions C108_join_nothing.
Theorem C108_dynamic_refuted : exists vs : list (list nat), vs <> [] /\ Forall (fun v => length v = 2%nat) vs /\ join true (-1) vs = AssertFail /\ join false (-1) vs = UB.
Proof. exists [[1; 2]; [3; 4]]%nat. split; [discriminate|]. split; [repeat constructor|]. split; reflexivity. Qed.
Print Assumptions C108_vector3. Print Assumptions C108_quaternion. Print Assumptions C108_join_split. Print Assumptions C108_split_join. Print Assumptions C108_remainder. Print Assumptions C108_dynamic_refuted.
Example join_case : (0 < 2)%nat /\ [[1; 2]; [3; 4]]%nat <> [] /\ Forall (fun v => length v = 2%nat) [[1; 2]; [3; 4]]%nat /\ split true 2 [1; 2; 3; 4]%nat = Ok [[1; 2]; [3; 4]]%nat.
Proof. split; [lia|]. split; [discriminate|]. split; [repeat constructor | reflexivity]. Qed.

(** ** C109: path lengths *)
(** The lengths of the legs from each point to the next. *)
Fixpoint legs (ps : list vec) : list R :=
  match ps with
  | a :: (b :: _) as rest => norm 3 (vsub b a) :: legs rest
  | _ => []
  end.
Lemma legs_length ps : length (legs ps) = (length ps - 1)%nat.
Proof. induction ps as [|a [|b ps] IH]; [reflexivity..|]. cbn [legs length] in *. lia. Qed.
Lemma legs_nth : forall ps i, (S i < length ps)%nat -> nth i (legs ps) 0 = step_length ps (S i).
Proof.
  induction ps as [|a ps IH]; intros i L; [cbn in L; lia|]. destruct ps as [|b ps]; [cbn in L; lia|]. cbn [legs]. destruct i as [|i]; [reflexivity|]. cbn [nth]. rewrite IH by (cbn in *; lia). unfold step_length. cbn [Nat.sub]. rewrite Nat.sub_0_r. reflexivity.
Qed.
Lemma fold_plus_map {A} (f : A -> R) : forall l x, fold_left (fun d i => d + f i) l x = x + Rsum (map f l).
Proof. induction l as [|a l IH]; intros x; cbn [fold_left map Rsum fold_right]; [ring|]. rewrite IH. unfold Rsum. ring. Qed.
Lemma steps_legs ps : map (step_length ps) (steps ps) = legs ps.
Proof.
  apply (nth_ext _ _ 0 0); [rewrite map_length, legs_length; unfold steps; apply seq_length|]. intros i Hi. rewrite map_length in Hi. unfold steps in *. rewrite seq_length in Hi.
  rewrite legs_nth by lia. rewrite (nth_indep _ 0 (step_length ps 0)) by (rewrite map_length, seq_length; exact Hi). rewrite map_nth, seq_nth by exact Hi. reflexivity.
Qed.
Lemma total_legs ps : total_distance ps = Rsum (legs ps).
Proof. unfold total_distance. rewrite fold_plus_map, steps_legs. ring. Qed.
Lemma put_length l i x : length (put l i x) = length l.
Proof. revert i. induction l as [|y l IH]; intros [|i]; cbn; auto. Qed.
Lemma put_nth l i x j : (i < length l)%nat -> nth j (put l i x) 0 = if (j =? i)%nat then x else nth j l 0.
Proof.
  revert i j. induction l as [|y l IH]; intros i j L; [cbn in L; lia|]. destruct i as [|i]; destruct j as [|j]; cbn [put nth Nat.eqb]; try reflexivity. apply IH. cbn in L. lia.
Qed.
Definition partial (ps : list vec) (i : nat) : R := Rsum (firstn i (legs ps)).
Lemma firstn_snoc {A} (d : A) : forall l i, (i < length l)%nat -> firstn (S i) l = firstn i l ++ [nth i l d].
Proof. induction l as [|x l IH]; intros i L; [cbn in L; lia|]. destruct i as [|i]; [reflexivity|]. cbn [firstn nth app]. rewrite <- IH by (cbn in L; lia). reflexivity. Qed.
Lemma Rsum_app a b : Rsum (a ++ b) = Rsum a + Rsum b.
Proof. unfold Rsum. induction a as [|x a IH]; cbn; [ring|]. rewrite IH. ring. Qed.
Lemma partial_S ps i : (S i < length ps)%nat -> partial ps (S i) = partial ps i + step_length ps (S i).
Proof. intros L. unfold partial. rewrite (firstn_snoc 0) by (rewrite legs_length; lia). rewrite Rsum_app, legs_nth by exact L. unfold Rsum. cbn. ring. Qed.
Lemma write_loop (ps : list vec) (f : list R -> nat -> R) (g : nat -> R) : (0 < length ps)%nat -> g 0%nat = 0 ->
  (forall d i, (S i < length ps)%nat -> length d = length ps -> (forall j, (j <= i)%nat -> nth j d 0 = g j) -> f d (S i) = g (S i)) ->
  let r := fold_left (fun d idx => put d idx (f d idx)) (steps ps) (put (repeat 0 (length ps)) 0 0) in
  length r = length ps /\ forall i, (i < length ps)%nat -> nth i r 0 = g i.
Proof.
  intros NE G0 Hf. cbv zeta. unfold steps.
  assert (K : forall k, (k <= length ps - 1)%nat -> let r := fold_left (fun d idx => put d idx (f d idx)) (seq 1 k) (put (repeat 0 (length ps)) 0 0) in length r = length ps /\ forall i, (i <= k)%nat -> nth i r 0 = g i).
  { induction k as [|k IH]; intros Hk; cbv zeta in *.
    - cbn [seq fold_left]. split; [rewrite put_length, repeat_length; reflexivity|]. intros i Hi. replace i with 0%nat by lia. rewrite put_nth by (rewrite repeat_length; exact NE). cbn [Nat.eqb]. auto.
    - rewrite seq_S, fold_left_app. cbn [fold_left]. destruct IH as [L N]; [lia|]. set (r := fold_left _ (seq 1 k) _) in *. rewrite put_length. split; [exact L|]. intros i Hi.
      rewrite put_nth by lia. cbn [Nat.add]. destruct (Nat.eqb_spec i (S k)) as [->|D]; [|apply N; lia]. apply Hf; [lia | exact L | exact N]. }
  destruct (K (length ps - 1)%nat (le_n _)) as [L N]. split; [exact L|]. intros i Hi. apply N. lia.
Qed.
(** C109: the individual distances are 0 and the legs; the cumulative distances are the lengths of the parts of the path up to each point; the total is
    the sum of the legs. *)
Theorem C109_distances ps : ps <> [] ->
  individual_distances ps = 0 :: legs ps /\
  length (cumulative_distances ps) = length ps /\ (forall i, (i < length ps)%nat -> nth i (cumulative_distances ps) 0 = total_distance (firstn (S i) ps)) /\
  total_distance ps = Rsum (legs ps) /\ nth (length ps - 1) (cumulative_distances ps) 0 = total_distance ps.
Proof.
  intros NE. assert (P : (0 < length ps)%nat) by (destruct ps; [contradiction|cbn; lia]). assert (PB : (0 <? length ps)%nat = true) by (apply Nat.ltb_lt; exact P).
  assert (LF : forall qs i, (S i <= length qs)%nat -> legs (firstn (S i) qs) = firstn i (legs qs)).
  { induction qs as [|a qs IH]; intros i Hi; [cbn in Hi; lia|]. destruct qs as [|b qs]; [destruct i; [reflexivity|cbn in Hi; lia]|]. destruct i as [|i]; [reflexivity|].
    change (firstn (S (S i)) (a :: b :: qs)) with (a :: firstn (S i) (b :: qs)). change (legs (a :: firstn (S i) (b :: qs))) with (norm 3 (vsub b a) :: legs (firstn (S i) (b :: qs))). rewrite IH by (cbn in *; lia). reflexivity. }
  assert (C : length (cumulative_distances ps) = length ps /\ forall i, (i < length ps)%nat -> nth i (cumulative_distances ps) 0 = partial ps i).
  { unfold cumulative_distances. rewrite PB. apply (write_loop ps (fun d idx => nth (idx - 1) d 0 + step_length ps idx) (partial ps) P eq_refl).
    intros d i Hi L N. cbn [Nat.sub]. rewrite Nat.sub_0_r, N by lia. symmetry. apply partial_S. exact Hi. }
  destruct C as [C1 C2]. split; [|split; [exact C1|split; [|split; [apply total_legs|]]]].
  - destruct (write_loop ps (fun _ idx => step_length ps idx) (fun i => nth i (0 :: legs ps) 0) P eq_refl) as [I1 I2].
    { intros d i Hi _ _. cbn [nth]. rewrite legs_nth by exact Hi. reflexivity. }
    unfold individual_distances. rewrite PB. apply (nth_ext _ _ 0 0); [cbv zeta in I1; rewrite I1; cbn [length]; rewrite legs_length; lia|]. intros i Hi. cbv zeta in I1. rewrite I1 in Hi. apply (I2 i Hi).
  - intros i Hi. rewrite (C2 i Hi), total_legs, LF by lia. reflexivity.
  - rewrite C2 by lia. rewrite total_legs. unfold partial. rewrite firstn_all2 by (rewrite legs_length; lia). reflexivity.
Qed.
(** A path is at least as long as the straight line between its ends; each cumulative distance is at least the one before; joining paths adds lengths;
    the way back is as long. *)
Lemma total_cons a b ps : total_distance (a :: b :: ps) = norm 3 (vsub b a) + total_distance (b :: ps).
Proof. rewrite !total_legs. reflexivity. Qed.
Lemma total_app : forall ps m qs, total_distance (ps ++ m :: qs) = total_distance (ps ++ [m]) + total_distance (m :: qs).
Proof.
  induction ps as [|a ps IH]; intros m qs; [cbn [app]; rewrite (total_legs [m]); cbn; ring|]. destruct ps as [|b ps].
  - cbn [app] in *. rewrite !total_cons, (total_legs [m]). cbn. ring.
  - cbn [app] in *. rewrite !total_cons, IH. ring.
Qed.
Theorem C109_path a ps m qs :
  norm 3 (vsub (last ps a) a) <= total_distance (a :: ps) /\ 0 <= total_distance ps /\
  total_distance (ps ++ m :: qs) = total_distance (ps ++ [m]) + total_distance (m :: qs) /\ total_distance (rev ps) = total_distance ps.
Proof.
  assert (NN : forall ps, 0 <= total_distance ps). { intros l. rewrite total_legs. unfold Rsum. induction l as [|x [|y l] IH]; [cbn; lra..|]. cbn [legs fold_right] in *. pose proof (norm_nonneg 3 (vsub y x)). lra. }
  split; [|split; [apply NN|split; [apply total_app|]]].
  - revert a. induction ps as [|b ps IH]; intros a.
    + cbn [last]. rewrite total_legs. cbn. replace (norm 3 (vsub a a)) with 0; [lra|]. symmetry. apply norm_zero. intros i _. unfold vsub, vzero. ring.
    + rewrite total_cons. replace (last (b :: ps) a) with (last ps b).
      2:{ clear. revert a b. induction ps as [|c ps IH]; intros a b; [reflexivity|]. change (last (b :: c :: ps) a) with (last (c :: ps) a). rewrite <- (IH a c). symmetry. apply IH. }
      specialize (IH b). pose proof (norm_triangle 3 (vsub b a) (vsub (last ps b) b)) as T. rewrite (norm_ext 3 (vadd (vsub b a) (vsub (last ps b) b)) (vsub (last ps b) a)) in T by (intros i _; unfold vadd, vsub; ring). lra.
  - induction ps as [|b ps IH]; [reflexivity|]. destruct ps as [|c ps]; [reflexivity|]. cbn [rev] in *. rewrite <- app_assoc. cbn [app]. rewrite total_app, IH, total_cons, total_cons, (total_legs [b]), (norm_sub_sym 3 b c). cbn. ring.
Qed.
Print Assumptions C109_distances. Print Assumptions C109_path.

(** Distance matrices. *)
Lemma write_last : forall order init a b x, (forall y, In (a, b, y) order -> y = x) -> In (a, b, x) order -> distance2_matrix init order a b = x.
Proof.
  unfold distance2_matrix. induction order as [|w order IH] using rev_ind; intros init a b x U I; [destruct I|]. rewrite fold_left_app. cbn [fold_left]. destruct w as [[i j] y]. cbn [write].
  destruct ((a =? i) && (b =? j))%nat eqn:E.
  - apply andb_true_iff in E. destruct E as [E1 E2]. apply Nat.eqb_eq in E1, E2. subst. apply U. apply in_or_app. right. left. reflexivity.
  - apply IH; [intros y' Hy; apply U; apply in_or_app; auto|]. apply in_app_or in I. destruct I as [I|[I|[]]]; [exact I|]. injection I as -> -> ->. rewrite !Nat.eqb_refl in E. discriminate.
Qed.
Lemma dist_sym len u v : dot len (vsub u v) (vsub u v) = dot len (vsub v u) (vsub v u).
Proof. dots. rewrite (dot_comm len v u). ring. Qed.
Lemma writes_spec len set a b x : In (a, b, x) (matrix_writes len set) <-> (a < length set)%nat /\ (b < length set)%nat /\ x = (let d := vsub (nth a set vzero) (nth b set vzero) in dot len d d).
Proof.
  cbv zeta. unfold matrix_writes. rewrite in_flat_map. setoid_rewrite in_seq.
  assert (ZD : dot len (vsub (nth a set vzero) (nth a set vzero)) (vsub (nth a set vzero) (nth a set vzero)) = 0) by (dots; ring). split.
  - intros (i & Hi & W). unfold row_writes in W. cbn [In] in W. destruct W as [W|W].
    + injection W as <- <- <-. split; [lia|]. split; [lia|]. symmetry. exact ZD.
    + apply in_flat_map in W. destruct W as (j & Hj & W). apply in_seq in Hj. cbn [In] in W. destruct W as [W|[W|[]]]; injection W as <- <- <-; (split; [lia|]; split; [lia|]); [reflexivity | apply dist_sym].
  - intros (A & B & ->). destruct (Nat.lt_trichotomy a b) as [L|[->|L]].
    + exists a. split; [lia|]. unfold row_writes. right. apply in_flat_map. exists b. split; [apply in_seq; lia|]. left. reflexivity.
    + exists b. split; [lia|]. unfold row_writes. left. rewrite ZD. reflexivity.
    + exists b. split; [lia|]. unfold row_writes. right. apply in_flat_map. exists a. split; [apply in_seq; lia|]. right. left. rewrite dist_sym. reflexivity.
Qed.
(** Whatever the order of the writes, each entry is the squared distance of the two points, so the matrix is symmetric with zeros on the diagonal. *)
Theorem C109_matrix len set init order : Permutation order (matrix_writes len set) -> forall a b, (a < length set)%nat -> (b < length set)%nat ->
  distance2_matrix init order a b = norm len (vsub (nth a set vzero) (nth b set vzero)) * norm len (vsub (nth a set vzero) (nth b set vzero)) /\
  distance_matrix init order a b = norm len (vsub (nth a set vzero) (nth b set vzero)) /\
  distance_matrix init order b a = distance_matrix init order a b /\
  (distance_matrix init order a b = 0 <-> veq len (nth a set vzero) (nth b set vzero)).
Proof.
  intros P. assert (V : forall a b, (a < length set)%nat -> (b < length set)%nat -> distance2_matrix init order a b = norm len (vsub (nth a set vzero) (nth b set vzero)) * norm len (vsub (nth a set vzero) (nth b set vzero))).
  { intros a b A B. rewrite norm_sq. apply write_last.
    - intros y I. apply (Permutation_in _ P) in I. apply writes_spec in I. tauto.
    - apply (Permutation_in _ (Permutation_sym P)). apply writes_spec. auto. }
  assert (D : forall a b, (a < length set)%nat -> (b < length set)%nat -> distance_matrix init order a b = norm len (vsub (nth a set vzero) (nth b set vzero))).
  { intros a b A B. unfold distance_matrix. rewrite V by assumption. apply sqrt_square, norm_nonneg. }
  intros a b A B. split; [apply V; assumption|]. split; [apply D; assumption|]. rewrite !D by assumption. split; [apply norm_sub_sym|].
  rewrite norm_zero. split; intros E i Hi; specialize (E i Hi); unfold vsub, vzero in *; lra.
Qed.
Print Assumptions C109_matrix.
(** The closest point: in range, no point is closer, and those before it are farther away. *)
Lemma min_coeff_spec : forall l i best bi, let k := min_coeff l i best bi in
  (k = bi /\ (forall x, In x l -> best <= x)) \/ (exists m, k = (i + m)%nat /\ (m < length l)%nat /\ nth m l 0 < best /\ (forall x, In x l -> nth m l 0 <= x) /\ (forall j, (j < m)%nat -> nth m l 0 < nth j l 0)).
Proof.
  induction l as [|x l IH]; intros i best bi; cbn [min_coeff]; cbv zeta; [left; split; [reflexivity|intros x []]|]. destruct (Rltb x best) eqn:E.
  - apply Rltb_true in E. right. destruct (IH (S i) x i) as [[K A]|(m & K & L & M1 & M2 & M3)].
    + exists 0%nat. split; [rewrite K; lia|]. split; [cbn; lia|]. cbn [nth]. split; [exact E|]. split; [intros y [<-|Iy]; [lra|apply A; exact Iy]|lia].
    + exists (S m). split; [rewrite K; lia|]. split; [cbn; lia|]. cbn [nth]. split; [lra|]. split; [intros y [<-|Iy]; [lra|apply M2; exact Iy]|]. intros [|j] Hj; [exact M1|apply M3; lia].
  - apply Rltb_false in E. destruct (IH (S i) best bi) as [[K A]|(m & K & L & M1 & M2 & M3)].
    + left. split; [exact K|]. intros y [<-|Iy]; [lra|apply A; exact Iy].
    + right. exists (S m). split; [rewrite K; lia|]. split; [cbn; lia|]. cbn [nth]. split; [exact M1|]. split; [intros y [<-|Iy]; [lra|apply M2; exact Iy]|]. intros [|j] Hj; [lra|apply M3; lia].
Qed.
Theorem C109_closest dbg len set point : set <> [] -> exists k, closest_point dbg len set point = Ok k /\ (k < length set)%nat /\
  (forall j, (j < length set)%nat -> norm len (vsub (nth k set vzero) point) <= norm len (vsub (nth j set vzero) point)) /\
  (forall j, (j < k)%nat -> norm len (vsub (nth k set vzero) point) < norm len (vsub (nth j set vzero) point)).
Proof.
  intros NE. destruct set as [|c set]; [contradiction|]. unfold closest_point, cassert. cbn [length Nat.ltb Nat.leb negb]. rewrite andb_false_r. cbn [distance2_to_set map].
  set (f := fun c => dot len (vsub c point) (vsub c point)) in *. exists (min_coeff (map f set) 1 (f c) 0). split; [reflexivity|].
  assert (NT : forall j, (j < length (c :: set))%nat -> nth j (map f (c :: set)) 0 = f (nth j (c :: set) vzero)).
  { intros j Hj. rewrite (nth_indep _ 0 (f vzero)) by (rewrite map_length; exact Hj). apply map_nth. }
  assert (G : forall k, (k < length (c :: set))%nat -> (forall x, In x (map f (c :: set)) -> nth k (map f (c :: set)) 0 <= x) -> (forall j, (j < k)%nat -> nth k (map f (c :: set)) 0 < nth j (map f (c :: set)) 0) ->
    (k < length (c :: set))%nat /\ (forall j, (j < length (c :: set))%nat -> norm len (vsub (nth k (c :: set) vzero) point) <= norm len (vsub (nth j (c :: set) vzero) point)) /\
    (forall j, (j < k)%nat -> norm len (vsub (nth k (c :: set) vzero) point) < norm len (vsub (nth j (c :: set) vzero) point))).
  { intros k K A B. split; [exact K|]. split.
    - intros j Hj. apply norm_le. specialize (A (nth j (map f (c :: set)) 0)). rewrite !NT in A by assumption. apply A. rewrite <- NT by exact Hj. apply nth_In. rewrite map_length. exact Hj.
    - intros j Hj. apply norm_lt. specialize (B j Hj). rewrite !NT in B by lia. exact B. }
  apply G.
  - destruct (min_coeff_spec (map f set) 1 (f c) 0) as [[K _]|(m & K & L & _)]; cbv zeta in *; rewrite K; cbn [length]; [lia|rewrite map_length in L; lia].
  - destruct (min_coeff_spec (map f set) 1 (f c) 0) as [[K A]|(m & K & L & M1 & M2 & M3)]; cbv zeta in *; rewrite K; cbn [map nth Nat.add]; intros x [<-|I]; auto; lra.
  - destruct (min_coeff_spec (map f set) 1 (f c) 0) as [[K A]|(m & K & L & M1 & M2 & M3)]; cbv zeta in *; rewrite K; cbn [map nth Nat.add]; [lia|]. intros [|j] Hj; [exact M1|apply M3; lia].
Qed.
Theorem C109_to_set len set point A B :
  (forall j, (j < length set)%nat -> nth j (distance_to_set len set point) 0 = norm len (vsub (nth j set vzero) point)) /\
  (forall a b, (a < length A)%nat -> (b < length B)%nat -> nth b (nth a (distances2_between len A B) []) 0 = norm len (vsub (nth a A vzero) (nth b B vzero)) * norm len (vsub (nth a A vzero) (nth b B vzero))).
Proof.
  split.
  - intros j Hj. unfold distance_to_set, distance2_to_set. rewrite map_map. rewrite (nth_indep _ 0 (sqrt (dot len (vsub vzero point) (vsub vzero point)))) by (rewrite map_length; exact Hj).
    rewrite (map_nth (fun c => sqrt (dot len (vsub c point) (vsub c point)))). reflexivity.
  - intros a b Ha Hb. unfold distances2_between. set (f := fun a => map (fun b => dot len (vsub a b) (vsub a b)) B). rewrite (nth_indep _ [] (f vzero)) by (rewrite map_length; exact Ha). rewrite map_nth. unfold f.
    set (g := fun b => dot len (vsub (nth a A vzero) b) (vsub (nth a A vzero) b)). rewrite (nth_indep _ 0 (g vzero)) by (rewrite map_length; exact Hb). rewrite map_nth. unfold g. rewrite norm_sq. reflexivity.
Qed.
Print Assumptions C109_closest. Print Assumptions C109_to_set.
Example path_case : total_distance [vzero; basis 0; vadd (basis 0) (vscale 2 (basis 1))] = 3.
Proof.
  rewrite total_legs. cbn [legs Rsum fold_right]. rewrite (norm_unique 3 _ 1), (norm_unique 3 _ 2); [lra|lra|unfold dot, vsub, vadd, vscale, basis; cbn; ring|lra|unfold dot, vsub, vzero, basis; cbn; ring].
Qed.
Example matrix_case : Permutation (rev (matrix_writes 3 [vzero; basis 0])) (matrix_writes 3 [vzero; basis 0]) /\ length (matrix_writes 3 [vzero; basis 0]) = 4%nat /\ [vzero; basis 0] <> [].
Proof. split; [apply Permutation_sym, Permutation_rev|]. split; [reflexivity | discriminate]. Qed.
