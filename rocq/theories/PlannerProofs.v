(** Invariants of SimpleAStarPlanner's search. *)
From Verif Require Import Base Cost Assoc AstarSpec PlannerModel.
From Coq Require Import Permutation.

Section Route.
Context {S : Type} {C : cost}.
Variable step : S -> S -> C -> Prop.
Lemma route_snoc u v p ws x w : route step u v p ws -> step v x w -> route step u x (p ++ [x]) (ws ++ [w]).
Proof.
  intros R. induction R as [u|u y v w' p ws S0 R IH]; intros H; cbn.
  - eapply route_cons; [exact H|constructor].
  - eapply route_cons; [exact S0|]. auto.
Qed.
Lemma total_snoc (ws : list C) w : total (ws ++ [w]) = cadd (total ws) w.
Proof. unfold total. rewrite fold_left_app. reflexivity. Qed.
End Route.

Section Planner.
Context {S : Type} {C : cost}.
Variable eqb : S -> S -> bool.
Hypothesis E : forall a b, reflect (a = b) (eqb a b).
Variables (neigh : S -> list S) (dist : S -> S -> C) (h : S -> C) (goal : S -> bool).
Variable Q : pqueue (S * C).
Hypothesis QS : pq_sane Q.
Variable dbg : bool.
Variable start : S.
Variable NS : list S.
Hypothesis SN : In start NS.
Hypothesis closed : forall u x, In u NS -> In x (neigh u) -> In x NS.

Definition pstep (u x : S) (w : C) : Prop := In x (neigh u) /\ w = dist u x.
Notation find := (a_find eqb).

Record W (st : pstate S C) : Prop := {
  w_nd : NoDup (p_expl st);
  w_ex : forall x, In x (p_expl st) -> In x NS /\ goal x = false /\ exists c, find x (p_cost st) = Some c;
  w_q : forall x v, In (x, v) (p_front st) -> exists c, find x (p_cost st) = Some c;
  w_c : forall x c, find x (p_cost st) = Some c -> In x NS /\ (x = start \/ exists p, find x (p_back st) = Some p);
  w_b : forall x p, find x (p_back st) = Some p ->
        x <> start /\ In p (p_expl st) /\ In x (neigh p) /\
        exists cp, find p (p_cost st) = Some cp /\ find x (p_cost st) = Some (cadd cp (dist p x));
  w_ord : forall l1 x l2, p_expl st = l1 ++ x :: l2 -> x = start \/ exists p, find x (p_back st) = Some p /\ In p l2;
  w_s : find start (p_cost st) = Some czero;
  w_open : forall x c, find x (p_cost st) = Some c -> In x (p_expl st) \/ exists v, In (x, v) (p_front st);
  w_inv : pq_inv Q (p_front st)
}.

Lemma push_in x q y : In y (pq_push Q x q) <-> y = x \/ In y q.
Proof.
  pose proof (pq_push_perm Q QS x q) as P. split; intros H.
  - apply (Permutation_in _ P) in H. destruct H; auto.
  - apply (Permutation_in _ (Permutation_sym P)). destruct H as [->|H]; [left|right]; auto.
Qed.

Lemma find_set_same k v m : find k (a_set eqb k v m : list (S * C)) = Some v.
Proof. rewrite a_find_set by exact E. destruct (E k k); congruence. Qed.

(** One neighbour. *)
Definition relaxed (st : pstate S C) (cur : S) (curc : C) (y : S) : pstate S C :=
  mkP (pq_push Q (y, cadd (cadd curc (dist cur y)) (h y)) (p_front st)) (p_expl st)
      (a_set eqb y (cadd curc (dist cur y)) (p_cost st)) (a_set eqb y cur (p_back st)).

Lemma relax_W st cur curc y : W st -> In start (p_expl st) -> In cur (p_expl st) -> find cur (p_cost st) = Some curc ->
  In y (neigh cur) ->
  relax eqb dist h Q dbg cur curc st y =
    Ok (if a_mem eqb y (p_expl st) then st
        else if match find y (p_cost st) with Some c => cgeb (cadd curc (dist cur y)) c | None => false end then st
        else relaxed st cur curc y) /\
  (~ In y (p_expl st) -> W (relaxed st cur curc y)).
Proof.
  intros H SE CE FC IY. split.
  - unfold relax. destruct (a_mem eqb y (p_expl st)) eqn:M; auto. apply (a_mem_false _ E) in M.
    unfold cassert.
    replace (match find y (p_cost st) with None => match find y (p_back st) with Some _ => false | None => true end | Some _ => true end) with true.
    2:{ destruct (find y (p_cost st)) eqn:F1; auto. destruct (find y (p_back st)) eqn:F2; auto.
        apply (w_b _ H) in F2. destruct F2 as (_ & _ & _ & cp & _ & F2). congruence. }
    replace (match find y (p_back st) with None => match find y (p_cost st) with Some _ => false | None => true end | Some _ => true end) with true.
    2:{ destruct (find y (p_back st)) eqn:F2; auto. destruct (find y (p_cost st)) eqn:F1; auto.
        apply (w_c _ H) in F1. destruct F1 as (_ & [->|[p F1]]); [contradiction|congruence]. }
    rewrite andb_false_r. unfold relaxed. destruct (find y (p_cost st)) as [c|]; auto. destruct (cgeb _ c); auto.
  - intros YE. assert (YS : y <> start) by (intros ->; contradiction).
    assert (YC : y <> cur) by (intros ->; contradiction).
    assert (CO : forall x, find x (a_set eqb y (cadd curc (dist cur y)) (p_cost st)) =
                           if eqb x y then Some (cadd curc (dist cur y)) else find x (p_cost st))
      by (intros; apply a_find_set; exact E).
    assert (BA : forall x, find x (a_set eqb y cur (p_back st)) = if eqb x y then Some cur else find x (p_back st))
      by (intros; apply a_find_set; exact E).
    split; cbn [relaxed p_front p_expl p_cost p_back].
    + apply H.
    + intros x I. destruct (w_ex _ H x I) as (A & B & c & F). split; auto. split; auto. exists c. rewrite CO.
      destruct (E x y); [congruence|auto].
    + intros x v I. rewrite CO. destruct (E x y); eauto. apply push_in in I. destruct I as [[= -> ->]|I]; [congruence|].
      apply (w_q _ H x v I).
    + intros x c. rewrite CO, BA. destruct (E x y) as [->|N]; [|apply (w_c _ H)]. intros _. split; [|right; eauto].
      apply (closed cur); auto. apply (w_ex _ H cur CE).
    + intros x p. rewrite BA. destruct (E x y) as [->|N].
      * intros [= <-]. split; auto. split; auto. split; auto. exists curc. rewrite !CO. split.
        -- destruct (E cur y); [congruence|auto].
        -- destruct (E y y); congruence.
      * intros F. destruct (w_b _ H x p F) as (A & B & D & cp & F1 & F2). split; auto. split; auto. split; auto.
        exists cp. rewrite !CO. split; [destruct (E p y); [congruence|auto]|destruct (E x y); [congruence|auto]].
    + intros l1 x l2 EQ. destruct (w_ord _ H l1 x l2 EQ) as [A|(p & A & B)]; auto. right. exists p. split; auto.
      rewrite BA. destruct (E x y) as [->|]; auto. elim YE. rewrite EQ. apply in_elt.
    + rewrite CO. destruct (E start y); [congruence|apply H].
    + intros x c. rewrite CO. destruct (E x y) as [->|N].
      * intros _. right. eexists. apply push_in. left. reflexivity.
      * intros F. destruct (w_open _ H x c F) as [A|[v A]]; auto. right. exists v. apply push_in. auto.
    + apply (pq_push_inv Q QS). apply H.
Qed.

(** The loop over the neighbours, keeping an additional property [P]. *)
Lemma relax_all_W (P : pstate S C -> list S -> Prop) cur curc : forall ys st done,
  (forall y, In y ys -> In y (neigh cur)) ->
  (forall st y done, W st -> In start (p_expl st) -> In cur (p_expl st) -> find cur (p_cost st) = Some curc -> In y (neigh cur) ->
     P st done ->
     P (if a_mem eqb y (p_expl st) then st
        else if match find y (p_cost st) with Some c => cgeb (cadd curc (dist cur y)) c | None => false end then st
        else relaxed st cur curc y) (y :: done)) ->
  W st -> In start (p_expl st) -> In cur (p_expl st) -> find cur (p_cost st) = Some curc -> P st done ->
  exists st', relax_all eqb dist h Q dbg cur curc st ys = Ok st' /\ W st' /\ p_expl st' = p_expl st /\ P st' (rev ys ++ done) /\
    (forall x, In x (p_expl st) -> find x (p_cost st') = find x (p_cost st)) /\
    (forall x c, find x (p_cost st) = Some c -> exists c', find x (p_cost st') = Some c') /\
    (forall y, In y ys -> exists c', find y (p_cost st') = Some c') /\
    length (p_front st') <= length ys + length (p_front st).
Proof.
  induction ys as [|y ys IH]; intros st done SUB PP H SE CE FC HP; cbn [relax_all].
  - exists st. refine (conj eq_refl (conj H (conj eq_refl (conj HP (conj _ (conj _ (conj _ _))))))); auto; eauto. intros y [].
  - destruct (relax_W st cur curc y H SE CE FC (SUB y (or_introl eq_refl))) as [R RW]. rewrite R. cbn [obind].
    pose proof (PP st y done H SE CE FC (SUB y (or_introl eq_refl)) HP) as HP'.
    set (s1 := if a_mem eqb y (p_expl st) then st else if match find y (p_cost st) with Some c => cgeb (cadd curc (dist cur y)) c | None => false end then st else relaxed st cur curc y) in *.
    assert (F1 : W s1 /\ p_expl s1 = p_expl st /\ (forall x, In x (p_expl st) -> find x (p_cost s1) = find x (p_cost st)) /\
                 (forall x c, find x (p_cost st) = Some c -> exists c', find x (p_cost s1) = Some c') /\
                 (exists c', find y (p_cost s1) = Some c') /\ length (p_front s1) <= Datatypes.S (length (p_front st))).
    { unfold s1. destruct (a_mem eqb y (p_expl st)) eqn:M.
      { apply (a_mem_iff _ E) in M. split; [auto|]. split; [auto|]. split; [auto|]. split; [eauto|]. split; [apply (w_ex _ H y M)|lia]. }
      apply (a_mem_false _ E) in M.
      assert (G : W (relaxed st cur curc y) /\ p_expl (relaxed st cur curc y) = p_expl st /\
                 (forall x, In x (p_expl st) -> find x (p_cost (relaxed st cur curc y)) = find x (p_cost st)) /\
                 (forall x c, find x (p_cost st) = Some c -> exists c', find x (p_cost (relaxed st cur curc y)) = Some c') /\
                 (exists c', find y (p_cost (relaxed st cur curc y)) = Some c') /\
                 length (p_front (relaxed st cur curc y)) <= Datatypes.S (length (p_front st))).
      { split; [auto|]. cbn [relaxed p_expl p_cost p_front]. split; [auto|]. split; [|split; [|split]].
        - intros x I. rewrite a_find_set by exact E. destruct (E x y); [congruence|auto].
        - intros x c F. rewrite a_find_set by exact E. destruct (E x y); eauto.
        - eexists. apply find_set_same.
        - rewrite (Permutation_length (pq_push_perm Q QS _ _)). cbn. lia. }
      destruct (find y (p_cost st)) as [c|] eqn:FY; [|exact G]. destruct (cgeb _ c); [|exact G].
      split; [auto|]. split; [auto|]. split; [auto|]. split; [eauto|]. split; [eauto|lia]. }
    clearbody s1. destruct F1 as (W1 & E1 & K1 & D1 & Y1 & L1).
    destruct (IH s1 (y :: done)) as (st' & A1 & A2 & A3 & A4 & A5 & A6 & A7 & A8); auto.
    { intros z I. apply SUB. cbn. auto. }
    { rewrite E1. auto. } { rewrite E1. auto. } { rewrite K1; auto. }
    exists st'. split; auto. split; auto. split; [congruence|]. split; [cbn; rewrite <- app_assoc; exact A4|].
    split; [intros x I; rewrite A5 by (rewrite E1; auto); auto|].
    split; [intros x c F; destruct (D1 x c F) as [c' F']; eauto|].
    split; [intros z [<-|I]; [destruct Y1 as [c' F']; eauto|auto]|]. cbn. lia.
Qed.

(** The invariant of the search loop. *)
Record M (st : pstate S C) : Prop := {
  m_w : W st;
  m_start : In start (p_expl st) \/ p_expl st = [] /\ forall x v, In (x, v) (p_front st) -> x = start;
  m_closed : forall u y, In u (p_expl st) -> In y (neigh u) -> exists c, find y (p_cost st) = Some c
}.

Lemma init_M : M (plan_init eqb h Q start).
Proof.
  assert (FS : forall x c, find x (a_set eqb start czero [] : list (S * C)) = Some c -> x = start /\ c = czero).
  { intros x c. rewrite a_find_set by exact E. destruct (E x start); [intros [= <-]; auto|discriminate]. }
  split.
  - split; cbn [plan_init p_front p_expl p_cost p_back].
    + constructor.
    + intros x [].
    + intros x v I. apply push_in in I. destruct I as [[= -> ->]|[]]. exists czero. apply find_set_same.
    + intros x c F. apply FS in F. destruct F as [-> _]. auto.
    + intros x p [=].
    + intros l1 x l2 EQ. destruct l1; discriminate.
    + apply find_set_same.
    + intros x c F. apply FS in F. destruct F as [-> _]. right. eexists. apply push_in. auto.
    + apply (pq_push_inv Q QS), (pq_inv_nil Q QS).
  - right. split; auto. cbn. intros x v I. apply push_in in I. destruct I as [[= -> ->]|[]]. reflexivity.
  - intros u y [].
Qed.

Lemma pop_facts q x q' : pq_inv Q q -> pq_pop Q q = Some (x, q') -> Permutation q (x :: q') /\ pq_inv Q q'.
Proof.
  intros I H. destruct q as [|y q]; [rewrite (pq_pop_nil Q QS) in H; discriminate|].
  destruct (pq_pop_some Q QS (y :: q) I) as (x' & q'' & P & PE & I'); [discriminate|]. rewrite P in H. injection H as <- <-. auto.
Qed.

Lemma skip_M st cur v q' : M st -> pq_pop Q (p_front st) = Some ((cur, v), q') -> In cur (p_expl st) ->
  M (mkP q' (p_expl st) (p_cost st) (p_back st)).
Proof.
  intros [H ST CL] PO CE. destruct (pop_facts _ _ _ (w_inv _ H) PO) as [PE PI].
  split; [|left|exact CL].
  - destruct H. split; cbn [p_front p_expl p_cost p_back]; auto.
    + intros x u I. apply (w_q0 x u). apply (Permutation_in _ (Permutation_sym PE)). cbn. auto.
    + intros x c F. destruct (w_open0 x c F) as [A|[u A]]; auto.
      apply (Permutation_in _ PE) in A. destruct A as [[= -> ->]|A]; eauto.
  - cbn. destruct ST as [ST|[ST _]]; auto. rewrite ST in CE. destruct CE.
Qed.

Lemma expand_W st cur v q' c : M st -> pq_pop Q (p_front st) = Some ((cur, v), q') -> ~ In cur (p_expl st) -> goal cur = false ->
  find cur (p_cost st) = Some c ->
  W (mkP q' (cur :: p_expl st) (p_cost st) (p_back st)) /\ In start (cur :: p_expl st).
Proof.
  intros [H ST CL] PO NI GF FC. destruct (pop_facts _ _ _ (w_inv _ H) PO) as [PE PI].
  split.
  - destruct H. split; cbn [p_front p_expl p_cost p_back]; auto.
    + constructor; auto.
    + intros x [<-|I]; auto. split; [apply (w_c0 cur c FC)|]. eauto.
    + intros x u I. apply (w_q0 x u). apply (Permutation_in _ (Permutation_sym PE)). cbn. auto.
    + intros x p F. destruct (w_b0 x p F) as (A & B & D). split; auto. split; auto. cbn. auto.
    + intros [|z l1] x l2 EQ; injection EQ as <- EQ.
      * subst l2. destruct (w_c0 cur c FC) as [_ [->|[p F]]]; auto. right. exists p. split; auto. apply (w_b0 _ _ F).
      * apply (w_ord0 l1 x l2 EQ).
    + intros x c' F. destruct (w_open0 x c' F) as [A|[u A]]; cbn; auto.
      apply (Permutation_in _ PE) in A. destruct A as [[= -> ->]|A]; eauto.
  - destruct ST as [ST|[ST A]]; cbn; auto. left. apply (A cur v).
    apply (Permutation_in _ (Permutation_sym PE)). cbn. auto.
Qed.

(** The back-pointer chain of an explored state. *)
Lemma chain st : W st -> forall n l1 x l2, p_expl st = l1 ++ x :: l2 -> length l2 <= n ->
  exists pre ws c, (forall fuel, length pre <= fuel -> extract_basic eqb fuel (p_back st) x = Ok (pre ++ [start])) /\
    incl (pre ++ [start]) (x :: l2) /\ NoDup (pre ++ [start]) /\ incl pre (map fst (p_back st)) /\
    find x (p_cost st) = Some c /\ total ws = c /\ route pstep start x (rev (pre ++ [start])) ws.
Proof.
  intros H n. induction n as [n IH] using lt_wf_ind. intros l1 x l2 EQ LE.
  assert (IE : In x (p_expl st)) by (rewrite EQ; apply in_elt).
  destruct (w_ord _ H l1 x l2 EQ) as [->|(p & FB & IP)].
  - exists [], [], czero. cbn. split; [|split; [|split; [|split; [|split; [|split]]]]].
    + intros fuel _. destruct (find start (p_back st)) eqn:F.
      * apply (w_b _ H) in F. destruct F as [F _]. congruence.
      * destruct fuel; cbn [extract_basic]; rewrite F; reflexivity.
    + intros z [<-|[]]. cbn. auto.
    + constructor; [intros []|constructor].
    + intros z [].
    + apply H.
    + reflexivity.
    + constructor.
  - destruct (in_split p l2 IP) as (m1 & m2 & EM).
    destruct (w_b _ H x p FB) as (_ & _ & IN & cp & F1 & F2).
    assert (LN : length m2 < n) by (rewrite EM, app_length in LE; cbn in LE; lia).
    destruct (IH (length m2) LN (l1 ++ x :: m1) p m2) as (pre & ws & c & X1 & X2 & X3 & X4 & X5 & X6 & X7); auto.
    { rewrite EQ, EM, <- app_assoc. reflexivity. }
    rewrite F1 in X5. injection X5 as <-.
    exists (x :: pre), (ws ++ [dist p x]), (cadd cp (dist p x)). cbn [app rev length]. split; [|split; [|split; [|split; [|split; [|split]]]]].
    + intros [|fuel] LF; [lia|]. cbn [extract_basic]. rewrite FB. rewrite X1 by lia. reflexivity.
    + intros z [<-|I]; [cbn; auto|]. right. rewrite EM. apply in_or_app. right. apply X2. auto.
    + constructor; auto. intros I. apply X2 in I. pose proof (w_nd _ H) as ND. rewrite EQ in ND. apply NoDup_remove_2 in ND.
      apply ND. apply in_or_app. right. rewrite EM. apply in_or_app. right. exact I.
    + intros z [<-|I]; [|auto]. apply (a_find_key _ E). eauto.
    + auto.
    + rewrite total_snoc, X6. reflexivity.
    + apply route_snoc with (v := p); auto. split; auto.
Qed.

(** ... and of any state reached. *)
Lemma extract_spec st x c : W st -> find x (p_cost st) = Some c -> ~ In x (p_expl st) ->
  exists r ws, extract_basic eqb (length (p_back st)) (p_back st) x = Ok r /\ NoDup (rev r) /\ total ws = c /\
    route pstep start x (rev r) ws /\ forall z, In z r -> z = x \/ In z (p_expl st).
Proof.
  intros H F NI. destruct (w_c _ H x c F) as [_ [->|[p FB]]].
  - exists [start], []. rewrite (w_s _ H) in F. injection F as <-. split; [|split; [|split; [|split]]].
    + destruct (find start (p_back st)) eqn:F.
      * apply (w_b _ H) in F. destruct F as [F _]. congruence.
      * destruct (length (p_back st)); cbn [extract_basic]; rewrite F; reflexivity.
    + cbn. constructor; [intros []|constructor].
    + reflexivity.
    + constructor.
    + intros z [<-|[]]; auto.
  - destruct (w_b _ H x p FB) as (NS0 & IP & IN & cp & F1 & F2). rewrite F in F2. injection F2 as ->.
    destruct (in_split p _ IP) as (m1 & m2 & EM).
    destruct (chain st H (length m2) m1 p m2 EM (le_n _)) as (pre & ws & c' & X1 & X2 & X3 & X4 & X5 & X6 & X7).
    rewrite F1 in X5. injection X5 as <-.
    assert (SUB : forall z, In z (pre ++ [start]) -> In z (p_expl st)).
    { intros z I. rewrite EM. apply in_or_app. right. apply X2. auto. }
    exists (x :: pre ++ [start]), (ws ++ [dist p x]). split; [|split; [|split; [|split]]].
    + assert (LEN : length (x :: pre) <= length (p_back st)).
      { rewrite <- (map_length fst (p_back st)). apply NoDup_incl_length.
        - constructor; [intros I; apply NI, SUB, in_or_app; auto|]. apply NoDup_remove_1 in X3. rewrite app_nil_r in X3. exact X3.
        - intros z [<-|I]; [apply (a_find_key _ E); eauto|auto]. }
      cbn in LEN. destruct (length (p_back st)) as [|fuel]; [lia|]. cbn [extract_basic]. rewrite FB, X1 by lia. reflexivity.
    + apply NoDup_rev. constructor; auto.
    + rewrite total_snoc, X6. reflexivity.
    + cbn [rev]. apply route_snoc with (v := p); auto. split; auto.
    + intros z [<-|I]; auto.
Qed.

(** *** The loop *)
Variable P : pstate S C -> Prop.
Hypothesis P_init : P (plan_init eqb h Q start).
Hypothesis P_skip : forall st cur v q', M st -> P st -> pq_pop Q (p_front st) = Some ((cur, v), q') ->
  goal cur = false -> In cur (p_expl st) -> P (mkP q' (p_expl st) (p_cost st) (p_back st)).
Hypothesis P_exp : forall st cur v q' c st', M st -> P st -> pq_pop Q (p_front st) = Some ((cur, v), q') ->
  goal cur = false -> ~ In cur (p_expl st) -> find cur (p_cost st) = Some c ->
  relax_all eqb dist h Q dbg cur c (mkP q' (cur :: p_expl st) (p_cost st) (p_back st)) (neigh cur) = Ok st' -> P st'.

Definition finished (r : list S * nat) : Prop :=
  (exists st cur v q' l, M st /\ P st /\ pq_pop Q (p_front st) = Some ((cur, v), q') /\ goal cur = true /\
     extract_basic eqb (length (p_back st)) (p_back st) cur = Ok l /\ r = (rev l, length (p_expl st))) \/
  (exists st, M st /\ P st /\ p_front st = [] /\ r = ([], length (p_expl st))).

Definition mu (st : pstate S C) : nat :=
  length (p_front st) + list_sum (map (fun x => length (neigh x)) (filter (fun x => negb (a_mem eqb x (p_expl st))) NS)).

Lemma sum_filter_drop ex cur l : ~ In cur ex -> In cur l ->
  list_sum (map (fun x => length (neigh x)) (filter (fun x => negb (a_mem eqb x (cur :: ex))) l)) + length (neigh cur) <=
  list_sum (map (fun x => length (neigh x)) (filter (fun x => negb (a_mem eqb x ex)) l)).
Proof.
  intros NI. assert (LE : forall l, list_sum (map (fun x => length (neigh x)) (filter (fun x => negb (a_mem eqb x (cur :: ex))) l)) <=
     list_sum (map (fun x => length (neigh x)) (filter (fun x => negb (a_mem eqb x ex)) l))).
  { clear. induction l as [|x l IH]; cbn [filter]; auto.
    change (a_mem eqb x (cur :: ex)) with (eqb cur x || a_mem eqb x ex). destruct (eqb cur x), (a_mem eqb x ex); cbn [negb orb map]; unfold list_sum in *; cbn [fold_right]; lia. }
  induction l as [|x l IH]; intros I; [destruct I|]. cbn [filter].
  change (a_mem eqb x (cur :: ex)) with (eqb cur x || a_mem eqb x ex).
  destruct (E cur x) as [->|N].
  - apply (a_mem_false _ E) in NI. rewrite NI. cbn [negb orb map]. specialize (LE l). unfold list_sum in *; cbn [fold_right]; lia.
  - destruct I as [->|I]; [congruence|]. specialize (IH I). cbn [orb]. destruct (a_mem eqb x ex); cbn [negb orb map]; unfold list_sum in *; cbn [fold_right]; lia.
Qed.

Lemma loop_ends : forall fuel st, M st -> P st -> mu st <= fuel ->
  exists r, plan_loop eqb neigh dist h goal Q dbg fuel st = Ok r /\ finished r.
Proof.
  induction fuel as [|fuel IH]; intros st H HP LE.
  - assert (p_front st = []) as FE by (unfold mu in LE; destruct (p_front st); [auto|cbn in LE; lia]).
    cbn [plan_loop]. rewrite FE, (pq_pop_nil Q QS). eexists. split; [reflexivity|]. right. exists st. auto.
  - cbn [plan_loop]. destruct (pq_pop Q (p_front st)) as [[[cur v] q']|] eqn:PO.
    2:{ eexists. split; [reflexivity|]. right. exists st. split; [auto|]. split; [auto|]. split; [|auto].
        destruct (p_front st) as [|e q] eqn:FE; auto.
        destruct (pq_pop_some Q QS (e :: q)) as (x & q'' & PP & _); [rewrite <- FE; apply (m_w _ H)|discriminate|congruence]. }
    pose proof (m_w _ H) as HW. destruct (pop_facts _ _ _ (w_inv _ HW) PO) as [PE PI].
    assert (IC : In (cur, v) (p_front st)) by (apply (Permutation_in _ (Permutation_sym PE)); cbn; auto).
    destruct (w_q _ HW cur v IC) as [c FC].
    assert (LEN : length (p_front st) = Datatypes.S (length q')) by (rewrite (Permutation_length PE); reflexivity).
    destruct (goal cur) eqn:G.
    { assert (NE : ~ In cur (p_expl st)). { intros I. apply (w_ex _ HW) in I. destruct I as (_ & I & _). congruence. }
      destruct (extract_spec st cur c HW FC NE) as (r & ws & X1 & _). rewrite X1. cbn [obind].
      eexists. split; [reflexivity|]. left. exists st, cur, v, q', r. auto 8. }
    destruct (a_mem eqb cur (p_expl st)) eqn:ME.
    { apply (a_mem_iff _ E) in ME. apply IH.
      - eapply skip_M; eauto.
      - eapply P_skip; eauto.
      - unfold mu in *. cbn [p_front p_expl]. lia. }
    apply (a_mem_false _ E) in ME. rewrite FC.
    destruct (expand_W st cur v q' c H PO ME G FC) as [HW' SE].
    destruct (relax_all_W (fun _ _ => True) cur c (neigh cur) _ [] (fun y I => I) (fun _ _ _ _ _ _ _ _ _ => I) HW' SE) as (st' & A1 & A2 & A3 & _ & A5 & A6 & A7 & A8); auto.
    { cbn. auto. }
    cbn [p_expl p_cost p_front] in *. rewrite A1. cbn [obind]. apply IH.
    + split; auto.
      * left. rewrite A3. exact SE.
      * intros u y IU IY. rewrite A3 in IU. destruct IU as [<-|IU]; auto.
        destruct (m_closed _ H u y IU IY) as [c' F]. eapply A6; eauto.
    + eapply P_exp; eauto.
    + unfold mu in *. rewrite A3. pose proof (sum_filter_drop (p_expl st) cur NS ME) as X.
      specialize (X (proj1 (w_c _ HW cur c FC))). lia.
Qed.

Lemma loop_fuel : forall fuel st r, plan_loop eqb neigh dist h goal Q dbg fuel st = Ok r ->
  forall fuel', fuel <= fuel' -> plan_loop eqb neigh dist h goal Q dbg fuel' st = Ok r.
Proof.
  clear P_init P_skip P_exp P. induction fuel as [|fuel IH]; intros st r H fuel' LE.
  - destruct fuel'; cbn [plan_loop] in *; destruct (pq_pop Q (p_front st)) as [[[cur v] q']|]; try discriminate; auto.
  - destruct fuel' as [|fuel']; [lia|]. cbn [plan_loop] in *. destruct (pq_pop Q (p_front st)) as [[[cur v] q']|]; auto.
    destruct (goal cur); auto. destruct (a_mem eqb cur (p_expl st)); [apply IH; auto; lia|].
    destruct (a_find eqb cur (p_cost st)); [|discriminate]. apply obind_ok in H. destruct H as (st' & A & B).
    rewrite A. cbn [obind]. apply IH; auto. lia.
Qed.

Lemma plan_ends : exists r, returns (fun fuel => plan eqb neigh dist h goal Q dbg fuel start) r /\ finished r.
Proof.
  destruct (loop_ends (mu (plan_init eqb h Q start)) _ init_M P_init (le_n _)) as (r & A & B).
  exists r. split; auto. exists (mu (plan_init eqb h Q start)). intros fuel LE. unfold plan. eapply loop_fuel; eauto.
Qed.

(** All reachable states have been explored when the frontier is empty. *)
Lemma all_explored st : M st -> p_front st = [] -> forall u v path ws, route pstep u v path ws -> In u (p_expl st) -> In v (p_expl st).
Proof.
  intros H FE u v path ws R. induction R as [u|u x v w p ws [S0 _] R IH]; intros I; auto.
  apply IH. destruct (m_closed _ H u x I S0) as [c F]. destruct (w_open _ (m_w _ H) x c F) as [A|[v' A]]; auto.
  rewrite FE in A. destruct A.
Qed.
Lemma start_explored st : M st -> p_front st = [] -> In start (p_expl st).
Proof.
  intros H FE. destruct (w_open _ (m_w _ H) start czero (w_s _ (m_w _ H))) as [A|[v' A]]; auto. rewrite FE in A. destruct A.
Qed.
Lemma explored_reachable st x : M st -> In x (p_expl st) -> exists path ws, route pstep start x path ws.
Proof.
  intros H I. destruct (in_split x _ I) as (m1 & m2 & EM).
  destruct (chain st (m_w _ H) (length m2) m1 x m2 EM (le_n _)) as (pre & ws & c' & X). exists (rev (pre ++ [start])), ws. apply X.
Qed.
End Planner.
