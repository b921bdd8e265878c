(** C149: the planner with a goal bias and a time limit. *)
From Coq Require Import QArith Lia.
From Verif Require Import Base RrtModel RrtProofs RrtProps RrtBiasModel.
Open Scope nat_scope.

(** How many of the first [i] draws are above the bias, and how many are not. *)
Fixpoint count (p : nat -> bool) (i : nat) : nat := match i with O => O | S i => count p i + if p i then 1 else 0 end.
Definition is_above (bias : Q) (draws : nat -> Q) (i : nat) : bool := negb (Qle_bool (draws i) bias).
(** What round [k] aims at: a fresh state sample when the draw is above the bias, and otherwise a fresh goal sample. *)
Definition aimed {V} (bias : Q) (draws : nat -> Q) (samples goals : nat -> V) (k : nat) : V :=
  if is_above bias draws k then samples (count (is_above bias draws) k) else goals (count (fun i => negb (is_above bias draws i)) k).

Section P.
Context {V : Type}.
Implicit Types (samples goals : nat -> V).

Lemma targets_gen (a : nat -> bool) bias draws samples goals : (forall i, above (draws i) bias = a i) -> forall n i j l,
  j = count a i -> l = count (fun i => negb (a i)) i ->
  targets bias draws samples goals n i j l = map (fun k => if a k then samples (count a k) else goals (count (fun i => negb (a i)) k)) (seq i n).
Proof.
  intros A. induction n as [|n IH]; intros i j l J L; cbn; auto. rewrite A. destruct (a i) eqn:X.
  - f_equal; [congruence|]. apply IH; cbn; rewrite X; cbn; lia.
  - f_equal; [congruence|]. apply IH; cbn; rewrite X; cbn; lia.
Qed.
Lemma targets_aimed b draws samples goals n : targets (Some b) draws samples goals n 0 0 0 = map (aimed b draws samples goals) (seq 0 n).
Proof. rewrite (targets_gen (is_above b draws)); auto. Qed.

(** Sample number [k] is a goal sample exactly when draw number [k] is at most the bias. *)
Theorem C149_targets : forall b draws samples goals n k, k < n ->
  nth_error (targets (Some b) draws samples goals n 0 0 0) k = Some (aimed b draws samples goals k).
Proof.
  intros. rewrite targets_aimed, nth_error_map. rewrite (nth_error_nth' _ 0) by (rewrite seq_length; auto). cbn. rewrite seq_nth by auto. auto.
Qed.
(** Draws lie in [0, 1): with a bias of 1 or more only goals are aimed at, with a negative bias none is. *)
Theorem C149_bias_ends : forall b draws samples goals n, (forall i, 0 <= draws i /\ draws i < 1)%Q ->
  ((1 <= b)%Q -> targets (Some b) draws samples goals n 0 0 0 = map goals (seq 0 n)) /\
  ((b < 0)%Q -> targets (Some b) draws samples goals n 0 0 0 = map samples (seq 0 n)).
Proof.
  intros b draws samples goals n D. split; intros B.
  - rewrite (targets_gen (fun _ => false)); auto.
    + apply map_ext. intros k. cbn. f_equal. induction k as [|k IH]; cbn; lia.
    + intros i. cbn. rewrite Bool.negb_false_iff. apply Qle_bool_iff. destruct (D i) as [_ H]. apply Qlt_le_weak, Qlt_le_trans with 1%Q; auto.
  - rewrite (targets_gen (fun _ => true)); auto.
    + apply map_ext. intros k. cbn. f_equal. induction k as [|k IH]; cbn; lia.
    + intros i. cbn. rewrite Bool.negb_true_iff. destruct (Qle_bool _ _) eqn:Q; auto. apply Qle_bool_iff in Q. destruct (D i) as [H _]. exfalso. apply (Qlt_irrefl b). apply Qlt_le_trans with 0%Q; auto. apply Qle_trans with (draws i); auto.
Qed.

(** ** The run of the planner *)
(** [k0] is the first round in which the clock is past the limit. *)
Definition time_is_up (start_time : Z) (check : nat -> Z) (limit : Q) (k0 : nat) : Prop :=
  (limit < inject_Z (check k0 - start_time))%Q /\ forall k, k < k0 -> (inject_Z (check k - start_time) <= limit)%Q.
(** In round [k] < [k0] the propagation from some [w] to what the round aims at gave [v], with [u] = [w] or an earlier state of it as its parent. *)
Definition step_of (fp : nat -> V -> V -> list (V * Z)) (aim : nat -> V) (k0 : nat) (u v : V) : Prop :=
  exists k w i rel, k < k0 /\ nth_error (fp k w (aim k)) i = Some (v, rel) /\
    (((rel < 0)%Z /\ u = w) \/ ((0 <= rel < Z.of_nat i)%Z /\ exists x, nth_error (fp k w (aim k)) (Z.to_nat rel) = Some (u, x))).

Lemma rounds_in_time_spec s c l k0 : time_is_up s c l k0 -> forall fuel k, k <= k0 -> k0 <= fuel + k -> rounds_in_time s c l fuel k = k0 - k.
Proof.
  intros [E L]. induction fuel as [|fuel IH]; intros k K F; cbn; [lia|]. unfold expired.
  destruct (Nat.eq_dec k k0) as [ -> |N].
  - destruct (Qle_bool _ _) eqn:Q; [|cbn; lia]. apply Qle_bool_iff in Q. exfalso. eapply Qlt_not_le; eauto.
  - assert (H : k < k0) by lia. apply L in H. apply Qle_bool_iff in H. rewrite H. cbn. rewrite IH; lia.
Qed.
Lemma rounds_of_in (nn : nat -> list (pstate V) -> V -> Z) fp aim n : forall k r, In r (rounds_of nn fp k (map aim (seq k n))) -> exists i, k <= i < k + n /\ r = mkRound (aim i) (nn i) (fp i).
Proof.
  induction n as [|n IH]; cbn; intros k r; [contradiction|]. intros [ <- |I]; [exists k; split; [lia|auto]|].
  apply IH in I. destruct I as (i & H & E). exists i. split; [lia|auto].
Qed.
(** A round that propagates to its own target only. *)
Definition fixed (r : round V) : round V := mkRound (r_target r) (r_nearest r) (fun w _ => r_prop r w (r_target r)).
Lemma loop_fixed goal_reached single rounds : forall nodes gs st,
  plan_loop goal_reached single (map fixed rounds) nodes gs st = plan_loop goal_reached single rounds nodes gs st.
Proof.
  induction rounds as [|r rounds IH]; intros; cbn [map plan_loop]; auto. destruct (_ && _); auto. cbn [fixed r_nearest r_target r_prop].
  destruct (_ <? 0)%Z; auto. destruct (nth_error _ _); auto. destruct (r_prop _ _ _); auto. destruct (add_states _ _ _ _ _ _) as [[? ?]| | | |]; cbn; auto.
Qed.
Lemma plan_fixed goal_reached fuel rounds start : plan goal_reached fuel (map fixed rounds) start = plan goal_reached fuel rounds start.
Proof. unfold plan, plan_multi_path. cbn [negb]. destruct (check_tree_linkage _); auto. cbn [negb]. rewrite loop_fixed. reflexivity. Qed.
Lemma rounds_of_length nn fp ts : forall k, length (rounds_of (V := V) nn fp k ts) = length ts.
Proof. induction ts; cbn; auto. Qed.
Lemma consecutive_weaken (A B : V -> V -> Prop) p : (forall u v, A u v -> B u v) -> consecutive A p -> consecutive B p.
Proof. unfold consecutive. eauto. Qed.
Lemma loop_total goal_reached single (rounds : list (round V)) : forall nodes gs st,
  match plan_loop goal_reached single rounds nodes gs st with Ok (_, _, st') => (s_total st' <= s_total st + N.of_nat (length rounds))%N | _ => True end.
Proof.
  induction rounds as [|r rounds IH]; intros; cbn [plan_loop length]; [lia|]. destruct (_ && _); [lia|]. destruct (_ <? 0)%Z; [lia|]. destruct (nth_error _ _); auto.
  destruct (r_prop _ _ _).
  - specialize (IH nodes gs (count_sample false st)). destruct plan_loop as [[[? ?] ?]| | | |]; auto. cbn in IH. lia.
  - destruct (add_states _ _ _ _ _ _) as [[? ?]| | | |]; cbn [obind]; auto. match goal with |- context [plan_loop ?g ?s ?r ?n ?o ?t] => specialize (IH n o t); destruct (plan_loop g s r n o t) as [[[? ?] ?]| | | |]; auto end. cbn in IH. lia.
Qed.

(** With functions that keep to their contracts the planner makes at most the [k0] rounds begun within the limit and returns nothing or a path
    from the start state, each step of it a propagation towards what that round aims at, to a state that reaches the goal. *)
Theorem C149_plan : forall goal_reached nn fp b draws samples goals start_time check limit start k0,
  (forall k nodes t, nodes <> [] -> (nn k nodes t < tsize nodes)%Z) ->
  (forall k u t i v rel, nth_error (fp k u t) i = Some (v, rel) -> (rel < Z.of_nat i)%Z) ->
  time_is_up start_time check limit k0 ->
  exists path st n, (forall fuel, n <= fuel -> plan_biased goal_reached fuel nn fp (Some b) draws samples goals start_time check limit start = Ok (path, st)) /\
    (s_total st <= N.of_nat k0)%N /\
    (path = [] \/
     consecutive (step_of fp (aimed b draws samples goals) k0) path /\ (exists q, path = start :: q) /\ exists q g, path = q ++ [g] /\ goal_reached g = true).
Proof.
  intros goal_reached nn fp b draws samples goals s c l start k0 HN HF UP.
  set (rounds := rounds_of nn fp 0 (map (aimed b draws samples goals) (seq 0 k0))).
  destruct (C68_plan_single V goal_reached (map fixed rounds) start) as (path & st & n & E & _ & R).
  { intros r I. apply in_map_iff in I. destruct I as (r' & <- & I). apply rounds_of_in in I. destruct I as (i & _ & ->). split; cbn; intros; [auto|eapply HF; eauto]. }
  assert (EQ : forall fuel, Nat.max n k0 <= fuel -> plan_biased goal_reached fuel nn fp (Some b) draws samples goals s c l start = Ok (path, st)).
  { intros fuel F. unfold plan_biased, plan_timed. rewrite (rounds_in_time_spec s c l k0 UP) by lia. rewrite Nat.sub_0_r, targets_aimed. rewrite <- plan_fixed. apply E. lia. }
  exists path, st, (Nat.max n k0). split; auto. split.
  - specialize (E n (Nat.le_refl _)). unfold plan, plan_multi_path in E. destruct (check_tree_linkage _) in E; [|discriminate E]. cbn [negb] in E.
    match type of E with context [plan_loop ?g ?x ?r ?nn ?o ?t] => pose proof (loop_total g x r nn o t) as T; destruct (plan_loop g x r nn o t) as [[[n' g'] st']| | | |]; cbn [obind] in E; try discriminate E end.
    destruct (check_tree_linkage n') in E; [|discriminate E]. cbn [negb] in E. destruct (extract_solution_paths _ _ _) in E; cbn [obind] in E; try discriminate E. injection E as _ <-. cbn [s_total].
    rewrite map_length in T. unfold rounds in T. rewrite rounds_of_length, map_length, seq_length in T. cbn in T. lia.
  - destruct R as [[ -> _]|(_ & C & S & G)]; [left; auto|right]. split; [|auto]. revert C. apply consecutive_weaken. intros u v (r & w & t & i & rel & I & N & D).
    apply in_map_iff in I. destruct I as (r' & <- & I). apply rounds_of_in in I. destruct I as (k & K & ->). cbn [fixed r_prop r_target] in N, D. exists k, w, i, rel. split; [lia|auto].
Qed.
(** A start state that reaches the goal is the whole path, without any sample, whatever the limit. *)
Theorem C149_start_is_goal : forall goal_reached nn fp b draws samples goals start_time check limit start fuel, goal_reached start = true ->
  plan_biased goal_reached (S fuel) nn fp b draws samples goals start_time check limit start = Ok ([start], mkStats 0 0 0 0 1 1).
Proof.
  intros until fuel. intros G. unfold plan_biased, plan_timed. set (rs := rounds_of _ _ _ _). unfold plan, plan_multi_path, root_state. cbn [initial_goals visit_goal p_value].
  assert (C : check_tree_linkage [root_state start] = true) by reflexivity. unfold root_state in C. rewrite C. cbn [negb]. unfold visit_goal. cbn [p_value]. rewrite G. cbn [app].
  assert (L : forall st, plan_loop goal_reached true rs [mkP start [] (-1)%Z true] [0%Z] st = Ok ([mkP start [] (-1)%Z true], [0%Z], st)) by (destruct rs; reflexivity).
  unfold root_state in *. rewrite L. cbn [obind]. rewrite C. reflexivity.
Qed.
End P.
Print Assumptions C149_targets.
Print Assumptions C149_bias_ends.
Print Assumptions C149_plan.
Print Assumptions C149_start_is_goal.

(** ** A walk on the integers *)
Definition half (i : nat) : Q := if Nat.even i then (1 # 4)%Q else (3 # 4)%Q.
Example C149_example :
  targets (Some (1 # 2)%Q) half (fun j => Z.of_nat j) (fun l => 100 + Z.of_nat l)%Z 5 0 0 0 = [100; 0; 101; 1; 102]%Z /\
  time_is_up 10 (fun k => 20 + 10 * Z.of_nat k)%Z 35 3 /\
  plan_biased (fun v => v =? 5)%Z 20 (fun _ => last_node) (fun _ => toward) (Some (1 # 2)%Q) half (fun _ => 9%Z) (fun _ => 5%Z) 10 (fun k => 20 + 10 * Z.of_nat k)%Z 35 0%Z
    = Ok ([0; 1; 2; 3; 4; 5]%Z, mkStats 3 3 0 0 7 1) /\
  (** One round less and the goal is not reached. *)
  plan_biased (fun v => v =? 5)%Z 20 (fun _ => last_node) (fun _ => toward) (Some (1 # 2)%Q) half (fun _ => 9%Z) (fun _ => 5%Z) 10 (fun k => 20 + 10 * Z.of_nat k)%Z 29 0%Z
    = Ok ([], mkStats 2 2 0 0 5 0).
Proof.
  split; [reflexivity|]. split; [|split; reflexivity]. split; [reflexivity|].
  intros [|[|[|k]]] H; [discriminate|discriminate|discriminate|lia].
Qed.

(** A bias of 0 is no protection: a draw of exactly 0 aims at the goal. *)
Theorem C149_bias_zero_refuted : exists draws, (forall i, 0 <= draws i /\ draws i < 1)%Q /\
  targets (Some 0%Q) draws (fun j => Z.of_nat j) (fun l => 100 + Z.of_nat l)%Z 2 0 0 0 = [0; 100]%Z.
Proof. exists (fun i => if Nat.even i then (1 # 2)%Q else 0%Q). split; [|reflexivity]. intros i. destruct (Nat.even i); split; (discriminate || reflexivity). Qed.
(** A bias that is not a number makes every sample a goal, and no state is ever sampled. *)
Theorem C149_bias_nan_refuted : forall V draws (samples goals : nat -> V) n, targets None draws samples goals n 0 0 0 = map goals (seq 0 n).
Proof.
  intros. rewrite (targets_gen (fun _ => false)); auto. apply map_ext. intros k. cbn. f_equal. induction k as [|k IH]; cbn; lia.
Qed.
Print Assumptions C149_bias_zero_refuted.
Print Assumptions C149_bias_nan_refuted.
