(** Optimality of SimpleAStarPlanner's plans for consistent heuristics. *)
From Verif Require Import Base Cost Assoc AstarSpec AstarProofs PlannerModel PlannerProofs.
From Coq Require Import Permutation.

Section Opt.
Context {S : Type} {C : cost} {ok : C -> Prop}.
Variable L : cost_laws C ok.
Variable X : exact_laws C ok.
Variable eqb : S -> S -> bool.
Hypothesis E : forall a b, reflect (a = b) (eqb a b).
Variables (neigh : S -> list S) (dist : S -> S -> C) (h : S -> C) (goal : S -> bool) (approx : C -> C -> bool).
Variable Q : pqueue (S * C).
Hypothesis QS : pq_sane Q.
Hypothesis QO : pq_ordered Q (planner_before h approx) (fun e => ok (snd e)).
Variable dbg : bool.
Variable start : S.
Variable NS : list S.
Hypothesis SN : In start NS.
Hypothesis closed : forall u x, In u NS -> In x (neigh u) -> In x NS.
Hypothesis AP : forall a b, ok a -> ok b -> approx a b = true -> a = b.
Hypothesis DO : forall u x, In u NS -> In x (neigh u) -> ok (dist u x).
Hypothesis HO : forall u, In u NS -> ok (h u).
Hypothesis cancel : forall u a b, In u NS -> ok a -> ok b -> cle (cadd a (h u)) (cadd b (h u)) -> cle a b.
Hypothesis consistent : forall u x, In u NS -> In x (neigh u) -> cle (h u) (cadd (dist u x) (h x)).
Hypothesis hgoal : forall u, In u NS -> goal u = true -> h u = czero.

Notation find := (a_find eqb).
Notation W := (W eqb neigh dist goal Q start NS).
Notation M := (M eqb neigh dist goal Q start NS).
Notation pstep := (pstep neigh dist).

Lemma proute_ok u v path ws : route pstep u v path ws -> In u NS -> In v NS /\ forall w, In w ws -> ok w.
Proof.
  intros R. induction R as [u|u x v w p ws [S0 ->] R IH]; intros I; [split; auto; intros w []|].
  destruct (IH (closed u x I S0)) as [A B]. split; auto. intros w [<-|J]; auto.
Qed.

(** [O st done cur]: costs of explored states are least; those of [cur]'s neighbours are settled for [done]. *)
Record O (st : pstate S C) (settled : S -> S -> Prop) : Prop := {
  o_q : forall x v, In (x, v) (p_front st) -> exists c c0, v = cadd c (h x) /\ ok c /\ find x (p_cost st) = Some c0 /\ cle c0 c;
  o_open : forall x c, find x (p_cost st) = Some c -> ~ In x (p_expl st) -> In (x, cadd c (h x)) (p_front st);
  o_opt : forall u c, In u (p_expl st) -> find u (p_cost st) = Some c -> forall path ws, route pstep start u path ws -> cle c (total ws);
  o_next : forall u y cu, In u (p_expl st) -> settled u y -> find u (p_cost st) = Some cu ->
           exists cy, find y (p_cost st) = Some cy /\ cle cy (cadd cu (dist u y));
  o_ok : forall x c, find x (p_cost st) = Some c -> ok c
}.
Definition full (u y : S) : Prop := In y (neigh u).

Lemma init_O : O (plan_init eqb h Q start) full.
Proof.
  assert (FS : forall x c, find x (a_set eqb start czero [] : list (S * C)) = Some c -> x = start /\ c = czero).
  { intros x c. rewrite a_find_set by exact E. destruct (E x start); [intros [= <-]; auto|discriminate]. }
  assert (HS : cadd czero (h start) = h start) by (apply (ex_zero_l _ _ X), HO, SN).
  split; cbn [plan_init p_front p_expl p_cost p_back].
  - intros x v I. apply (push_in Q QS) in I. destruct I as [[= -> ->]|[]]. exists czero, czero.
    split; [auto|]. split; [apply (cl_zero _ _ L)|]. split; [rewrite a_find_set by exact E; destruct (E start start); congruence|].
    apply (cle_refl L), (cl_zero _ _ L).
  - intros x c F _. apply FS in F. destruct F as [-> ->]. rewrite HS. apply (push_in Q QS). auto.
  - intros u c [].
  - intros u y cu [].
  - intros x c F. apply FS in F. destruct F as [_ ->]. apply (cl_zero _ _ L).
Qed.

Lemma o_values st s : W st -> O st s -> Forall (fun e : S * C => ok (snd e)) (p_front st).
Proof.
  intros HW H. apply Forall_forall. intros [x v] I. destruct (o_q _ _ H x v I) as (c & c0 & -> & A & B & D). cbn.
  apply (cl_add _ _ L); auto. apply HO. apply (w_c _ _ _ _ _ _ _ _ HW _ _ B).
Qed.

(** The popped priority is at most every priority. *)
Lemma popped_least st s x v q' : W st -> O st s -> pq_pop Q (p_front st) = Some ((x, v), q') ->
  forall y vy, In (y, vy) (p_front st) -> cle v vy.
Proof.
  intros HW H PO y vy I. pose proof (o_values _ _ HW H) as OV.
  destruct (pop_facts Q QS _ _ _ (w_inv _ _ _ _ _ _ _ _ HW) PO) as [PE _].
  assert (OVx : ok v). { rewrite Forall_forall in OV. apply (OV (x, v)). apply (Permutation_in _ (Permutation_sym PE)). cbn. auto. }
  assert (OVy : ok vy). { rewrite Forall_forall in OV. apply (OV (y, vy) I). }
  apply (Permutation_in _ PE) in I. destruct I as [[= <- <-]|I]; [apply (cle_refl L); auto|].
  pose proof (QO _ _ _ (w_inv _ _ _ _ _ _ _ _ HW) OV PO _ I) as B. unfold planner_before in B. cbn [fst snd] in B.
  destruct (approx v vy) eqn:AE; [|exact B]. apply AP in AE; auto. subst. apply (cle_refl L); auto.
Qed.

(** Consistency along a route. *)
Lemma h_route u t path ws : route pstep u t path ws -> In u NS -> cle (h u) (cadd (total ws) (h t)).
Proof.
  intros R. induction R as [u|u x v w p ws [S0 ->] R IH]; intros I.
  - unfold total. cbn. rewrite (ex_zero_l _ _ X); [apply (cle_refl L)|]; auto.
  - pose proof (closed u x I S0) as IX. specialize (IH IX). destruct (proute_ok _ _ _ _ R IX) as [IV OW].
    assert (OT : ok (total ws)) by (apply (fold_add_ok L); auto; apply (cl_zero _ _ L)).
    assert (T : total (dist u x :: ws) = cadd (dist u x) (total ws)).
    { unfold total at 1. cbn [fold_left]. rewrite (ex_zero_l _ _ X) by auto. apply (fold_add L X); auto. }
    rewrite T, (ex_assoc _ _ X) by auto.
    apply (cle_trans L) with (b := cadd (dist u x) (h x)); auto; try (repeat apply (cl_add _ _ L); auto).
    apply (ex_mono_r _ _ X); auto. apply (cl_add _ _ L); auto.
Qed.

Lemma frontier_min st t : W st -> O st full -> ~ In t (p_expl st) -> forall u path ws, route pstep u t path ws ->
  forall cu, In u (p_expl st) -> find u (p_cost st) = Some cu ->
  exists y cy, ~ In y (p_expl st) /\ find y (p_cost st) = Some cy /\ cle (cadd cy (h y)) (cadd (cadd cu (total ws)) (h t)).
Proof.
  intros HW H NT u path ws R. induction R as [u|u x v w p ws [S0 ->] R IH]; intros cu IU FU; [contradiction|].
  assert (NU : In u NS) by apply (w_c _ _ _ _ _ _ _ _ HW _ _ FU).
  pose proof (closed u x NU S0) as IX. destruct (proute_ok _ _ _ _ R IX) as [IV OW].
  assert (OT : ok (total ws)) by (apply (fold_add_ok L); auto; apply (cl_zero _ _ L)).
  assert (T : total (dist u x :: ws) = cadd (dist u x) (total ws)).
  { unfold total at 1. cbn [fold_left]. rewrite (ex_zero_l _ _ X) by auto. apply (fold_add L X); auto. }
  pose proof (o_ok _ _ H _ _ FU) as OU. pose proof (DO u x NU S0) as OD.
  destruct (o_next _ _ H u x cu IU S0 FU) as (cx & FX & LX). pose proof (o_ok _ _ H _ _ FX) as OX.
  assert (OUD : ok (cadd cu (dist u x))) by (apply (cl_add _ _ L); auto).
  assert (LE : cle (cadd cx (total ws)) (cadd cu (total (dist u x :: ws)))).
  { rewrite T, <- (ex_assoc _ _ X) by auto. apply (cle_add_mono L); auto. }
  destruct (in_dec (fun a b => match E a b with ReflectT _ e => left e | ReflectF _ n => right n end) x (p_expl st)) as [IE|NE].
  - destruct (IH NT cx IE FX) as (y & cy & NY & FY & LY). exists y, cy. split; auto. split; auto.
    apply (cle_trans L) with (b := cadd (cadd cx (total ws)) (h v)); auto.
    + apply (cl_add _ _ L); [eapply o_ok; eauto|]. apply HO. apply (w_c _ _ _ _ _ _ _ _ HW _ _ FY).
    + repeat apply (cl_add _ _ L); auto.
    + rewrite T. repeat apply (cl_add _ _ L); auto.
    + apply (cle_add_mono L); auto; rewrite ?T; repeat apply (cl_add _ _ L); auto.
  - exists x, cx. split; auto. split; auto.
    pose proof (h_route _ _ _ _ R IX) as HR.
    apply (cle_trans L) with (b := cadd cx (cadd (total ws) (h v))); auto.
    + repeat apply (cl_add _ _ L); auto.
    + repeat apply (cl_add _ _ L); auto.
    + rewrite T. repeat apply (cl_add _ _ L); auto.
    + apply (ex_mono_r _ _ X); auto. apply (cl_add _ _ L); auto.
    + rewrite <- (ex_assoc _ _ X) by auto. apply (cle_add_mono L); auto; rewrite ?T; repeat apply (cl_add _ _ L); auto.
Qed.

(** When [cur] is popped, its priority is at most the cost of any route to an unexplored [t] plus [h t]. *)
Lemma popped_bound st cur v q' t : M st -> O st full -> pq_pop Q (p_front st) = Some ((cur, v), q') -> ~ In t (p_expl st) ->
  forall path ws, route pstep start t path ws -> cle v (cadd (total ws) (h t)).
Proof.
  intros [HW ST CL] H PO NT path ws R.
  destruct (proute_ok _ _ _ _ R SN) as [IT OW].
  assert (OT : ok (total ws)) by (apply (fold_add_ok L); auto; apply (cl_zero _ _ L)).
  destruct (pop_facts Q QS _ _ _ (w_inv _ _ _ _ _ _ _ _ HW) PO) as [PE _].
  pose proof (o_values _ _ HW H) as OV. rewrite Forall_forall in OV.
  assert (IC : In (cur, v) (p_front st)) by (apply (Permutation_in _ (Permutation_sym PE)); cbn; auto).
  assert (OVx : ok v) by apply (OV (cur, v) IC).
  assert (G : forall y cy, ~ In y (p_expl st) -> find y (p_cost st) = Some cy -> cle (cadd cy (h y)) (cadd (total ws) (h t)) ->
              cle v (cadd (total ws) (h t))).
  { intros y cy NY FY LY. pose proof (o_open _ _ H y cy FY NY) as IY.
    apply (cle_trans L) with (b := cadd cy (h y)); auto; [apply (OV (y, cadd cy (h y)) IY)|apply (cl_add _ _ L); auto|].
    eapply popped_least; eauto. }
  destruct (in_dec (fun a b => match E a b with ReflectT _ e => left e | ReflectF _ n => right n end) start (p_expl st)) as [IE|NE].
  - destruct (frontier_min st t HW H NT start path ws R czero IE (w_s _ _ _ _ _ _ _ _ HW)) as (y & cy & NY & FY & LY).
    rewrite (ex_zero_l _ _ X) in LY by auto. apply (G y cy); auto.
  - apply (G start czero NE (w_s _ _ _ _ _ _ _ _ HW)). rewrite (ex_zero_l _ _ X) by auto. eapply h_route; eauto.
Qed.

Lemma popped_opt st cur v q' c : M st -> O st full -> pq_pop Q (p_front st) = Some ((cur, v), q') -> ~ In cur (p_expl st) ->
  find cur (p_cost st) = Some c -> forall path ws, route pstep start cur path ws -> cle c (total ws).
Proof.
  intros HM H PO NC FC path ws R. pose proof (popped_bound _ _ _ _ cur HM H PO NC path ws R) as B.
  destruct (proute_ok _ _ _ _ R SN) as [IT OW].
  assert (OT : ok (total ws)) by (apply (fold_add_ok L); auto; apply (cl_zero _ _ L)).
  pose proof (m_w _ _ _ _ _ _ _ _ HM) as HW.
  destruct (pop_facts Q QS _ _ _ (w_inv _ _ _ _ _ _ _ _ HW) PO) as [PE _].
  assert (IC : In (cur, v) (p_front st)) by (apply (Permutation_in _ (Permutation_sym PE)); cbn; auto).
  destruct (o_q _ _ H cur v IC) as (c1 & c0 & -> & O1 & F0 & L0). rewrite FC in F0. injection F0 as <-.
  pose proof (o_ok _ _ H _ _ FC) as OC.
  apply (cancel cur); auto. apply (cle_trans L) with (b := cadd c1 (h cur)); auto; try (apply (cl_add _ _ L); auto).
  apply (cle_add_mono L); auto.
Qed.

Lemma skip_O st cur v q' : M st -> O st full -> pq_pop Q (p_front st) = Some ((cur, v), q') -> In cur (p_expl st) ->
  O (mkP q' (p_expl st) (p_cost st) (p_back st)) full.
Proof.
  intros HM H PO CE. destruct (pop_facts Q QS _ _ _ (w_inv _ _ _ _ _ _ _ _ (m_w _ _ _ _ _ _ _ _ HM)) PO) as [PE _].
  destruct H. split; cbn [p_front p_expl p_cost p_back]; auto.
  - intros x u I. apply o_q0. apply (Permutation_in _ (Permutation_sym PE)). cbn. auto.
  - intros x c F NI. specialize (o_open0 x c F NI). apply (Permutation_in _ PE) in o_open0.
    destruct o_open0 as [[= -> ->]|I]; [contradiction|auto].
Qed.

Lemma relax_O st cur curc y done : W st -> In start (p_expl st) -> In cur (p_expl st) -> find cur (p_cost st) = Some curc ->
  In y (neigh cur) -> O st (fun u z => In z (neigh u) /\ (u <> cur \/ In z done)) ->
  O (if a_mem eqb y (p_expl st) then st
     else if match find y (p_cost st) with Some c => cgeb (cadd curc (dist cur y)) c | None => false end then st
     else relaxed eqb dist h Q st cur curc y) (fun u z => In z (neigh u) /\ (u <> cur \/ In z (y :: done))).
Proof.
  intros HW SE CE FC IY H.
  assert (CN : In cur NS) by apply (w_c _ _ _ _ _ _ _ _ HW _ _ FC).
  pose proof (o_ok _ _ H _ _ FC) as OC. pose proof (DO cur y CN IY) as OD. pose proof (closed _ _ CN IY) as NY.
  assert (ON : ok (cadd curc (dist cur y))) by (apply (cl_add _ _ L); auto).
  assert (EXT : (exists cy, find y (p_cost st) = Some cy /\ cle cy (cadd curc (dist cur y))) ->
                O st (fun u z => In z (neigh u) /\ (u <> cur \/ In z (y :: done)))).
  { intros (cy & FY & LY). destruct H. split; auto. intros u z cu IU [IZ SZ] FU.
    destruct (E u cur) as [->|N]; [|apply o_next0; auto]. destruct SZ as [|[<-|SZ]]; [contradiction| |apply o_next0; auto].
    rewrite FC in FU. injection FU as <-. eauto. }
  destruct (a_mem eqb y (p_expl st)) eqn:ME.
  { apply EXT. apply (a_mem_iff _ E) in ME. destruct (w_ex _ _ _ _ _ _ _ _ HW y ME) as (_ & _ & cy & FY). exists cy. split; auto.
    destruct (in_split cur _ CE) as (m1 & m2 & EM).
    destruct (chain eqb E neigh dist h goal Q start NS closed st HW (length m2) m1 cur m2 EM (le_n _)) as (pre & ws & c' & _ & _ & _ & _ & X5 & X6 & X7).
    rewrite FC in X5. injection X5 as <-.
    assert (R : route pstep start y (rev (pre ++ [start]) ++ [y]) (ws ++ [dist cur y])).
    { apply route_snoc with (v := cur); auto. split; auto. }
    pose proof (o_opt _ _ H y cy ME FY _ _ R) as G. rewrite total_snoc, X6 in G. exact G. }
  apply (a_mem_false _ E) in ME.
  assert (REL : (forall c, find y (p_cost st) = Some c -> cle (cadd curc (dist cur y)) c) ->
     O (relaxed eqb dist h Q st cur curc y) (fun u z => In z (neigh u) /\ (u <> cur \/ In z (y :: done)))).
  { intros LT.
    assert (CO : forall x, find x (a_set eqb y (cadd curc (dist cur y)) (p_cost st)) =
                           if eqb x y then Some (cadd curc (dist cur y)) else find x (p_cost st))
      by (intros; apply a_find_set; exact E).
    split; cbn [relaxed p_front p_expl p_cost p_back].
    - intros x v I. rewrite CO. apply (push_in Q QS) in I. destruct I as [[= -> ->]|I].
      + exists (cadd curc (dist cur y)), (cadd curc (dist cur y)). destruct (E y y); [|congruence]. repeat split; auto. apply (cle_refl L); auto.
      + destruct (o_q _ _ H x v I) as (c & c0 & EV & O1 & F0 & L0). destruct (E x y) as [->|]; [|eauto 8].
        exists c, (cadd curc (dist cur y)). split; auto. split; auto. split; auto.
        apply (cle_trans L) with (b := c0); auto. eapply o_ok; eauto.
    - intros x c. rewrite CO. destruct (E x y) as [->|N]; intros F NI; apply (push_in Q QS).
      + injection F as <-. auto.
      + right. apply (o_open _ _ H); auto.
    - intros u c IU. rewrite CO. destruct (E u y); [congruence|]. apply (o_opt _ _ H); auto.
    - intros u z cu IU SZ. rewrite !CO. destruct (E u y); [congruence|]. intros FU.
      destruct (E z y) as [->|N].
      + exists (cadd curc (dist cur y)). split; auto. destruct (E u cur) as [->|NU].
        * rewrite FC in FU. injection FU as <-. apply (cle_refl L); auto.
        * destruct (o_next _ _ H u y cu IU) as (cy & FY & LY); [tauto|auto|].
          assert (NU' : In u NS) by apply (w_c _ _ _ _ _ _ _ _ HW _ _ FU). destruct SZ as [SZ _].
          apply (cle_trans L) with (b := cy); auto; [eapply o_ok; eauto|apply (cl_add _ _ L); auto; eapply o_ok; eauto].
      + apply (o_next _ _ H u z cu IU); auto. destruct SZ as [IZ [|[->|]]]; try congruence; split; auto.
    - intros x c. rewrite CO. destruct (E x y); [intros [= <-]; auto|apply (o_ok _ _ H)]. }
  destruct (find y (p_cost st)) as [cy|] eqn:FY.
  - pose proof (o_ok _ _ H _ _ FY) as OY. rewrite (cl_geb _ _ L) by auto. destruct (cltb (cadd curc (dist cur y)) cy) eqn:LT; cbn [negb].
    + apply REL. intros c [= <-]. apply (clt_le L); auto.
    + apply EXT. exists cy. split; auto.
  - apply REL. intros c [=].
Qed.

Lemma expand_O st cur v q' c st' : M st -> O st full -> pq_pop Q (p_front st) = Some ((cur, v), q') -> goal cur = false ->
  ~ In cur (p_expl st) -> find cur (p_cost st) = Some c ->
  relax_all eqb dist h Q dbg cur c (mkP q' (cur :: p_expl st) (p_cost st) (p_back st)) (neigh cur) = Ok st' -> O st' full.
Proof.
  intros HM H PO GF NI FC RA.
  destruct (expand_W eqb neigh dist goal Q QS start NS st cur v q' c HM PO NI GF FC) as [HW' SE].
  destruct (relax_all_W eqb E neigh dist h goal Q QS dbg start NS closed
     (fun st done => O st (fun u z => In z (neigh u) /\ (u <> cur \/ In z done))) cur c (neigh cur)
     (mkP q' (cur :: p_expl st) (p_cost st) (p_back st)) []) as (s2 & A1 & _ & _ & A4 & _); auto.
  - intros. apply relax_O; auto.
  - cbn. auto.
  - pose proof (popped_opt _ _ _ _ _ HM H PO NI FC) as OPT.
    destruct (pop_facts Q QS _ _ _ (w_inv _ _ _ _ _ _ _ _ (m_w _ _ _ _ _ _ _ _ HM)) PO) as [PE _].
    destruct H. split; cbn [p_front p_expl p_cost p_back]; auto.
    + intros x u I. apply o_q0. apply (Permutation_in _ (Permutation_sym PE)). cbn. auto.
    + intros x c' F NX. assert (NX' : ~ In x (p_expl st)) by (intros I; apply NX; cbn; auto).
      specialize (o_open0 x c' F NX'). apply (Permutation_in _ PE) in o_open0.
      destruct o_open0 as [[= -> ->]|I]; [elim NX; cbn; auto|auto].
    + intros u c' [<-|IU] F; [rewrite FC in F; injection F as <-; exact OPT|eauto].
    + intros u y cu IU [IY [N|[]]] F. destruct IU as [->|IU]; [congruence|]. apply o_next0; auto.
  - rewrite RA in A1. injection A1 as <-. rewrite app_nil_r in A4. destruct A4. split; auto.
    intros u y cu IU FY F. apply o_next0; auto. split; auto. destruct (E u cur) as [->|]; auto. right. apply in_rev.
    rewrite rev_involutive. auto.
Qed.

Lemma plan_optimal : (exists path ws t, route pstep start t path ws /\ goal t = true) ->
  exists path k ws t, returns (fun fuel => plan eqb neigh dist h goal Q dbg fuel start) (path, k) /\
    goal t = true /\ route pstep start t path ws /\
    forall path' ws' t', goal t' = true -> route pstep start t' path' ws' -> cle (total ws) (total ws').
Proof.
  intros (rp & rws & rt & RR & RG).
  destruct (plan_ends eqb E neigh dist h goal Q QS dbg start NS SN closed (fun st => O st full) init_O) as (r & RET & FIN).
  - intros st cur v q' A B D _ F. eapply skip_O; eauto.
  - intros st cur v q' c st' A B D G N F RA. eapply expand_O; eauto.
  - destruct FIN as [(st & cur & v & q' & l & HM & HO' & PO & G & EX & ->)|(st & HM & HO' & FE & ->)].
    + pose proof (m_w _ _ _ _ _ _ _ _ HM) as HW.
      destruct (pop_facts Q QS _ _ _ (w_inv _ _ _ _ _ _ _ _ HW) PO) as [PE _].
      assert (IC : In (cur, v) (p_front st)) by (apply (Permutation_in _ (Permutation_sym PE)); cbn; auto).
      destruct (o_q _ _ HO' cur v IC) as (c1 & c & EV & O1 & FC & L0).
      assert (NG : forall t, goal t = true -> ~ In t (p_expl st)).
      { intros t GT I. apply (w_ex _ _ _ _ _ _ _ _ HW) in I. destruct I as (_ & I & _). congruence. }
      destruct (extract_spec eqb E neigh dist h goal Q start NS closed st cur c HW FC (NG _ G)) as (l' & ws & X1 & _ & X3 & X4 & _).
      rewrite EX in X1. injection X1 as <-.
      exists (rev l), (length (p_expl st)), ws, cur. split; auto. split; auto. split; auto.
      intros path' ws' t' GT R'. pose proof (popped_bound _ _ _ _ t' HM HO' PO (NG _ GT) _ _ R') as B.
      destruct (proute_ok _ _ _ _ R' SN) as [IT OW].
      assert (OT : ok (total ws')) by (apply (fold_add_ok L); auto; apply (cl_zero _ _ L)).
      rewrite (hgoal t'), (ex_zero_r _ _ X) in B by auto.
      assert (IN : In cur NS) by apply (w_c _ _ _ _ _ _ _ _ HW _ _ FC).
      rewrite EV, (hgoal cur), (ex_zero_r _ _ X) in B by auto.
      rewrite X3. apply (cle_trans L) with (b := c1); auto. eapply o_ok; eauto.
    + exfalso. assert (I : In rt (p_expl st)).
      { eapply all_explored; eauto. eapply start_explored; eauto. }
      apply (w_ex _ _ _ _ _ _ _ _ (m_w _ _ _ _ _ _ _ _ HM)) in I. destruct I as (_ & I & _). congruence.
Qed.
End Opt.
