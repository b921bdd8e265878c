(** How far SimpleAStarPlanner's plans can be from the cheapest: costs are rounded, the queue delivers an entry
    close to the least one, the heuristic is consistent up to a slack.  Explored states are never reopened, so
    each step of a route may add to the loss. *)
From Verif Require Import Base Cost Assoc AstarSpec AstarProofs PlannerModel PlannerProofs.
From Coq Require Import Permutation Reals Lra.
Local Open Scope R_scope.

(** The exact cost of a route. *)
Definition rsum {A : Type} (val : A -> R) (ws : list A) : R := fold_right (fun w s => val w + s) 0 ws.

Lemma rsum_app {A} (val : A -> R) a b : rsum val (a ++ b) = rsum val a + rsum val b.
Proof.
  induction a as [|x a IH]; cbn [app].
  - unfold rsum at 2. cbn [fold_right]. lra.
  - change (val x + rsum val (a ++ b) = val x + rsum val a + rsum val b). rewrite IH. lra.
Qed.
Lemma rsum_cons {A} (val : A -> R) w a : rsum val (w :: a) = val w + rsum val a.
Proof. reflexivity. Qed.
Lemma rsum_nil {A} (val : A -> R) : rsum val [] = 0.
Proof. reflexivity. Qed.

Section Near.
Context {S : Type} {C : cost}.
Variables (ok : C -> Prop) (val : C -> R).
Variable eqb : S -> S -> bool.
Hypothesis E : forall a b, reflect (a = b) (eqb a b).
Variables (neigh : S -> list S) (dist : S -> S -> C) (h : S -> C) (goal : S -> bool).
Variable Q : pqueue (S * C).
Hypothesis QS : pq_sane Q.
Variables eps eta kap : R.
Hypothesis eps0 : 0 <= eps.
Hypothesis eta0 : 0 <= eta.
Hypothesis kap0 : 0 <= kap.
Hypothesis QO : forall q x q', pq_inv Q q -> Forall (fun e => ok (snd e)) q -> pq_pop Q q = Some (x, q') ->
  forall y, In y q' -> val (snd x) <= val (snd y) + eps.
Variable dbg : bool.
Variable start : S.
Variable NS : list S.
Hypothesis SN : In start NS.
Hypothesis closed : forall u x, In u NS -> In x (neigh u) -> In x NS.
Notation find := (a_find eqb).
Notation W := (W eqb neigh dist goal Q start NS).
Notation M := (M eqb neigh dist goal Q start NS).
Notation pstep := (pstep neigh dist).

Hypothesis ok0 : ok czero.
Hypothesis val0 : val czero = 0.
Hypothesis okh : ok (h start).
Hypothesis lt_val : forall a b, ok a -> ok b -> (cltb a b = true <-> val a < val b).
Hypothesis ge_val : forall a b, ok a -> ok b -> cgeb a b = negb (cltb a b).
Hypothesis acc_ok : forall u path ws, route pstep start u path ws -> NoDup path -> ok (total ws).
Hypothesis acc_h : forall u path ws, route pstep start u path ws -> NoDup path ->
  ok (cadd (total ws) (h u)) /\ Rabs (val (cadd (total ws) (h u)) - (val (total ws) + val (h u))) <= eta.
Hypothesis acc_d : forall u path ws x, route pstep start u path ws -> NoDup (path ++ [x]) -> In x (neigh u) ->
  Rabs (val (cadd (total ws) (dist u x)) - (val (total ws) + val (dist u x))) <= eta.
Hypothesis dist0 : forall u x, In u NS -> In x (neigh u) -> 0 <= val (dist u x).
Hypothesis consistent : forall u x, In u NS -> In x (neigh u) -> val (h u) <= val (dist u x) + val (h x) + kap.
Hypothesis hgoal : forall u, In u NS -> goal u = true -> val (h u) = 0.

Notation sum := (rsum val).
Notation len l := (INR (length l)).
Definition sig := eps + 3 * eta + kap.

Lemma dec (x : S) l : In x l \/ ~ In x l.
Proof. destruct (in_dec (fun a b => match E a b with ReflectT _ e => left e | ReflectF _ n => right n end) x l); auto. Qed.

Lemma rabs_le a b : Rabs a <= b -> - b <= a <= b.
Proof. intros H. unfold Rabs in H. destruct (Rcase_abs a); lra. Qed.

Lemma near_in u v path ws : route pstep u v path ws -> In u NS -> In v NS /\ 0 <= sum ws.
Proof.
  intros R. induction R as [u|u x v w p ws [S0 ->] R IH]; intros I; [split; auto; rewrite rsum_nil; lra|].
  destruct (IH (closed u x I S0)) as [A B]. split; auto. rewrite rsum_cons. pose proof (dist0 u x I S0). lra.
Qed.

Lemma route_unsnoc u v p ws w : route pstep u v p (ws ++ [w]) ->
  exists p' x, p = p' ++ [v] /\ route pstep u x p' ws /\ pstep x v w.
Proof.
  revert u p. induction ws as [|w0 ws IH]; cbn; intros u p R; inversion R; subst; clear R.
  - match goal with H : route _ _ _ _ [] |- _ => inversion H; subst; clear H end. exists [u], u. split; auto. split; auto. constructor.
  - match goal with H : route _ _ _ _ (_ ++ _) |- _ => apply IH in H; destruct H as (p' & y & -> & R' & S') end.
    exists (u :: p'), y. split; auto. split; auto. econstructor; eauto.
Qed.

Lemma nodup_front {A} (l : list A) x : NoDup (l ++ [x]) -> NoDup l.
Proof. intros H. apply (NoDup_remove_1 l [] x) in H. rewrite app_nil_r in H. exact H. Qed.

(** Rounding loses at most [eta] per step. *)
Lemma sum_total ws : forall u path, route pstep start u path ws -> NoDup path -> sum ws <= val (total ws) + len ws * eta.
Proof.
  induction ws as [|w ws IH] using rev_ind; intros u path R ND.
  - unfold total. cbn [fold_left length INR]. rewrite val0, rsum_nil. lra.
  - apply route_unsnoc in R. destruct R as (p & x & -> & R & [SX ->]).
    specialize (IH _ _ R (nodup_front _ _ ND)). pose proof (acc_d _ _ _ _ R ND SX) as A. apply rabs_le in A.
    rewrite rsum_app, total_snoc, app_length, plus_INR. cbn [length INR]. rewrite rsum_cons, rsum_nil. lra.
Qed.

Lemma W_route st x c : W st -> find x (p_cost st) = Some c ->
  exists path ws, route pstep start x path ws /\ NoDup path /\ total ws = c /\ forall z, In z path -> z = x \/ In z (p_expl st).
Proof.
  intros HW F. destruct (dec x (p_expl st)) as [I|N].
  - destruct (in_split x _ I) as (m1 & m2 & EM).
    destruct (chain eqb E neigh dist h goal Q start NS closed st HW (length m2) m1 x m2 EM (le_n _)) as (pre & ws & c' & _ & X2 & X3 & _ & X5 & X6 & X7).
    exists (rev (pre ++ [start])), ws. split; auto. split; [apply NoDup_rev; auto|]. split; [congruence|].
    intros z J. apply in_rev in J. apply X2 in J. right. rewrite EM. apply in_or_app. right. destruct J; [left|right]; auto.
  - destruct (extract_spec eqb E neigh dist h goal Q start NS closed st x c HW F N) as (l & ws & _ & X2 & X3 & X4 & X5).
    exists (rev l), ws. split; auto. split; auto. split; auto. intros z J. apply in_rev in J. auto.
Qed.

Record O (st : pstate S C) (settled : S -> S -> Prop) : Prop := {
  o_q : forall x v, In (x, v) (p_front st) -> ok v /\ exists c0, find x (p_cost st) = Some c0 /\ val c0 + val (h x) <= val v + eta;
  o_open : forall x c, find x (p_cost st) = Some c -> ~ In x (p_expl st) ->
           exists v, In (x, v) (p_front st) /\ val v <= val c + val (h x) + eta;
  o_opt : forall u c, In u (p_expl st) -> find u (p_cost st) = Some c -> forall path ws, route pstep start u path ws ->
          val c <= sum ws + len ws * sig;
  o_next : forall u y cu, In u (p_expl st) -> settled u y -> find u (p_cost st) = Some cu ->
           In y (p_expl st) \/ exists cy, find y (p_cost st) = Some cy /\ val cy <= val cu + val (dist u y) + eta
}.
Definition full (u y : S) : Prop := In y (neigh u).

Lemma init_O : O (plan_init eqb h Q start) full.
Proof.
  assert (FS : forall x c, find x (a_set eqb start czero [] : list (S * C)) = Some c -> x = start /\ c = czero).
  { intros x c. rewrite a_find_set by exact E. destruct (E x start); [intros [= <-]; auto|discriminate]. }
  split; cbn [plan_init p_front p_expl p_cost p_back].
  - intros x v I. apply (push_in Q QS) in I. destruct I as [[= -> ->]|[]]. split; auto. exists czero.
    split; [rewrite a_find_set by exact E; destruct (E start start); congruence|]. lra.
  - intros x c F _. apply FS in F. destruct F as [-> ->]. exists (h start). split; [apply (push_in Q QS); auto|lra].
  - intros u c [].
  - intros u y cu [].
Qed.

Lemma popped_least st s x v q' : W st -> O st s -> pq_pop Q (p_front st) = Some ((x, v), q') ->
  forall y vy, In (y, vy) (p_front st) -> val v <= val vy + eps.
Proof.
  intros HW H PO y vy I. destruct (pop_facts Q QS _ _ _ (w_inv _ _ _ _ _ _ _ _ HW) PO) as [PE _].
  apply (Permutation_in _ PE) in I. destruct I as [[= <- <-]|I]; [lra|].
  apply (QO _ _ _ (w_inv _ _ _ _ _ _ _ _ HW)) with (2 := PO) (3 := I). apply Forall_forall. intros [z w] J. apply (o_q _ _ H z w J).
Qed.

Lemma h_route u t path ws : route pstep u t path ws -> In u NS -> val (h u) <= sum ws + val (h t) + len ws * kap.
Proof.
  intros R. induction R as [u|u x v w p ws [S0 ->] R IH]; intros I.
  - cbn [length INR]. rewrite rsum_nil. lra.
  - specialize (IH (closed u x I S0)). pose proof (consistent u x I S0). cbn [length]. rewrite rsum_cons, S_INR. lra.
Qed.

Lemma frontier_min st t : W st -> O st full -> ~ In t (p_expl st) -> forall u path ws, route pstep u t path ws ->
  forall p0 ws0, route pstep start u p0 ws0 -> In u (p_expl st) ->
  exists y cy, ~ In y (p_expl st) /\ find y (p_cost st) = Some cy /\
    val cy + val (h y) + 2 * eta + eps <= sum (ws0 ++ ws) + val (h t) + len (ws0 ++ ws) * sig.
Proof.
  intros HW H NT u path ws R. induction R as [u|u x v w p ws [S0 ->] R IH]; intros p0 ws0 R0 IU; [contradiction|].
  destruct (w_ex _ _ _ _ _ _ _ _ HW u IU) as (NU & _ & cu & FU).
  pose proof (closed u x NU S0) as IX.
  destruct (dec x (p_expl st)) as [IE|NE].
  - destruct (IH NT (p0 ++ [x]) (ws0 ++ [dist u x])) as (y & cy & NY & FY & LY); auto.
    { apply route_snoc with (v := u); auto. split; auto. }
    exists y, cy. split; auto. split; auto. rewrite <- app_assoc in LY. exact LY.
  - destruct (o_next _ _ H u x cu IU S0 FU) as [|(cx & FX & LX)]; [contradiction|].
    exists x, cx. split; auto. split; auto.
    pose proof (h_route _ _ _ _ R IX) as HR. pose proof (o_opt _ _ H u cu IU FU _ _ R0) as OU.
    rewrite rsum_app, app_length, plus_INR. cbn [length]. rewrite rsum_cons, S_INR.
    assert (len ws * kap <= len ws * sig) by (apply Rmult_le_compat_l; [apply pos_INR|unfold sig; lra]).
    unfold sig in *. lra.
Qed.

(** When [cur] is popped, its priority is little more than the cost of any route to an unexplored [t] plus [h t]. *)
Lemma popped_bound st cur v q' t : M st -> O st full -> In start (p_expl st) -> pq_pop Q (p_front st) = Some ((cur, v), q') -> ~ In t (p_expl st) ->
  forall path ws, route pstep start t path ws -> val v + eta <= sum ws + val (h t) + len ws * sig.
Proof.
  intros [HW ST CL] H SE PO NT path ws R.
  destruct (frontier_min st t HW H NT start path ws R [start] []) as (y & cy & NY & FY & LY); auto; [constructor|].
  destruct (o_open _ _ H y cy FY NY) as (vy & IY & VY).
  pose proof (popped_least _ _ _ _ _ HW H PO _ _ IY). cbn [app] in LY. lra.
Qed.

Lemma popped_opt st cur v q' c : M st -> O st full -> pq_pop Q (p_front st) = Some ((cur, v), q') -> ~ In cur (p_expl st) ->
  find cur (p_cost st) = Some c -> forall t, ~ In t (p_expl st) ->
  forall path ws, route pstep start t path ws -> val c + val (h cur) <= sum ws + val (h t) + len ws * sig.
Proof.
  intros HM H PO NC FC t NT path ws R.
  pose proof (m_w _ _ _ _ _ _ _ _ HM) as HW.
  destruct (pop_facts Q QS _ _ _ (w_inv _ _ _ _ _ _ _ _ HW) PO) as [PE _].
  assert (IC : In (cur, v) (p_front st)) by (apply (Permutation_in _ (Permutation_sym PE)); cbn; auto).
  destruct (o_q _ _ H cur v IC) as (_ & c0 & F0 & L0). rewrite FC in F0. injection F0 as <-.
  destruct (m_start _ _ _ _ _ _ _ _ HM) as [SE|[_ SE]].
  - pose proof (popped_bound _ _ _ _ t HM H SE PO NT path ws R) as B. lra.
  - specialize (SE cur v IC). subst cur. rewrite (w_s _ _ _ _ _ _ _ _ HW) in FC. injection FC as <-.
    pose proof (h_route _ _ _ _ R SN) as HR. rewrite val0.
    assert (len ws * kap <= len ws * sig) by (apply Rmult_le_compat_l; [apply pos_INR|unfold sig; lra]). lra.
Qed.

Lemma skip_O st cur v q' : M st -> O st full -> pq_pop Q (p_front st) = Some ((cur, v), q') -> In cur (p_expl st) ->
  O (mkP q' (p_expl st) (p_cost st) (p_back st)) full.
Proof.
  intros HM H PO CE. destruct (pop_facts Q QS _ _ _ (w_inv _ _ _ _ _ _ _ _ (m_w _ _ _ _ _ _ _ _ HM)) PO) as [PE _].
  destruct H. split; cbn [p_front p_expl p_cost p_back]; auto.
  - intros x u I. apply o_q0. apply (Permutation_in _ (Permutation_sym PE)). cbn. auto.
  - intros x c F NI. destruct (o_open0 x c F NI) as (w & I & B). apply (Permutation_in _ PE) in I.
    destruct I as [[= -> ->]|I]; [contradiction|eauto].
Qed.

Lemma relax_O st cur curc y done : W st -> In start (p_expl st) -> In cur (p_expl st) -> find cur (p_cost st) = Some curc ->
  In y (neigh cur) -> O st (fun u z => In z (neigh u) /\ (u <> cur \/ In z done)) ->
  O (if a_mem eqb y (p_expl st) then st
     else if match find y (p_cost st) with Some c => cgeb (cadd curc (dist cur y)) c | None => false end then st
     else relaxed eqb dist h Q st cur curc y) (fun u z => In z (neigh u) /\ (u <> cur \/ In z (y :: done))).
Proof.
  intros HW SE CE FC IY H.
  assert (EXT : In y (p_expl st) \/ (exists cy, find y (p_cost st) = Some cy /\ val cy <= val curc + val (dist cur y) + eta) ->
                O st (fun u z => In z (neigh u) /\ (u <> cur \/ In z (y :: done)))).
  { intros FY. destruct H. split; auto. intros u z cu IU [IZ SZ] FU.
    destruct (E u cur) as [->|N]; [|apply o_next0; auto]. destruct SZ as [|[<-|SZ]]; [contradiction| |apply o_next0; auto].
    rewrite FC in FU. injection FU as <-. exact FY. }
  destruct (a_mem eqb y (p_expl st)) eqn:ME; [apply (a_mem_iff _ E) in ME; auto|].
  apply (a_mem_false _ E) in ME.
  destruct (W_route st cur curc HW FC) as (path & ws & R & ND & <- & IN).
  assert (NDy : NoDup (path ++ [y])).
  { apply (NoDup_Add (Add_app y path [])). rewrite app_nil_r. split; auto. intros J. destruct (IN y J) as [->|]; auto. }
  pose proof (acc_d _ _ _ _ R NDy IY) as AD. apply rabs_le in AD.
  assert (RY : route pstep start y (path ++ [y]) (ws ++ [dist cur y])) by (apply route_snoc with (v := cur); auto; split; auto).
  pose proof (acc_ok _ _ _ RY NDy) as OKY. destruct (acc_h _ _ _ RY NDy) as [OKH AH]. apply rabs_le in AH.
  rewrite total_snoc in OKY, OKH, AH.
  assert (REL : (forall c, find y (p_cost st) = Some c -> val (cadd (total ws) (dist cur y)) <= val c) ->
     O (relaxed eqb dist h Q st cur (total ws) y) (fun u z => In z (neigh u) /\ (u <> cur \/ In z (y :: done)))).
  { intros LT.
    assert (CO : forall x, find x (a_set eqb y (cadd (total ws) (dist cur y)) (p_cost st)) =
                           if eqb x y then Some (cadd (total ws) (dist cur y)) else find x (p_cost st))
      by (intros; apply a_find_set; exact E).
    split; cbn [relaxed p_front p_expl p_cost p_back].
    - intros x v I. rewrite CO. apply (push_in Q QS) in I. destruct I as [[= -> ->]|I].
      + split; auto. exists (cadd (total ws) (dist cur y)). destruct (E y y); [|congruence]. split; auto. lra.
      + destruct (o_q _ _ H x v I) as (O1 & c0 & F0 & L0). split; auto. destruct (E x y) as [->|]; [|eauto].
        exists (cadd (total ws) (dist cur y)). split; auto. specialize (LT _ F0). lra.
    - intros x c. rewrite CO. destruct (E x y) as [->|N]; intros F NI.
      + injection F as <-. exists (cadd (cadd (total ws) (dist cur y)) (h y)). split; [apply (push_in Q QS); auto|lra].
      + destruct (o_open _ _ H x c F NI) as (v & I & B). exists v. split; auto. apply (push_in Q QS). auto.
    - intros u c IU. rewrite CO. destruct (E u y); [congruence|]. apply (o_opt _ _ H); auto.
    - intros u z cu IU SZ. rewrite !CO. destruct (E u y); [congruence|]. intros FU.
      destruct (E z y) as [->|N].
      + right. exists (cadd (total ws) (dist cur y)). split; auto. destruct (E u cur) as [->|NU].
        * rewrite FC in FU. injection FU as <-. lra.
        * destruct (o_next _ _ H u y cu IU) as [J|(cy & FY & LY)]; [tauto|auto|contradiction|]. specialize (LT _ FY). lra.
      + apply (o_next _ _ H u z cu IU); auto. destruct SZ as [IZ [|[->|]]]; try congruence; split; auto. }
  destruct (find y (p_cost st)) as [cy|] eqn:FY.
  - destruct (W_route st y cy HW FY) as (py & wy & R' & ND' & <- & _). pose proof (acc_ok _ _ _ R' ND') as OY.
    rewrite ge_val by auto. destruct (cltb (cadd (total ws) (dist cur y)) (total wy)) eqn:LT; cbn [negb].
    + apply REL. intros c [= <-]. apply lt_val in LT; auto. lra.
    + apply EXT. right. exists (total wy). split; auto.
      assert (~ val (cadd (total ws) (dist cur y)) < val (total wy)) by (intros G; apply lt_val in G; auto; congruence). lra.
  - apply REL. intros c [=].
Qed.

Lemma expand_O st cur v q' c st' : M st -> O st full -> pq_pop Q (p_front st) = Some ((cur, v), q') -> goal cur = false ->
  ~ In cur (p_expl st) -> find cur (p_cost st) = Some c ->
  relax_all eqb dist h Q dbg cur c (mkP q' (cur :: p_expl st) (p_cost st) (p_back st)) (neigh cur) = Ok st' -> O st' full.
Proof.
  intros HM H PO GF NI FC RA.
  destruct (expand_W eqb neigh dist goal Q QS start NS st cur v q' c HM PO NI GF FC) as [HW' SE].
  destruct (relax_all_W eqb E neigh dist h goal Q QS dbg start NS closed
     (fun st done => O st (fun u z => In z (neigh u) /\ (u <> cur \/ In z done))) cur c (neigh cur)
     (mkP q' (cur :: p_expl st) (p_cost st) (p_back st)) []) as (s2 & A1 & _ & _ & A4 & _); auto.
  - intros. apply relax_O; auto.
  - cbn. auto.
  - pose proof (popped_opt _ _ _ _ _ HM H PO NI FC cur NI) as OPT.
    destruct (pop_facts Q QS _ _ _ (w_inv _ _ _ _ _ _ _ _ (m_w _ _ _ _ _ _ _ _ HM)) PO) as [PE _].
    destruct H. split; cbn [p_front p_expl p_cost p_back]; auto.
    + intros x u I. apply o_q0. apply (Permutation_in _ (Permutation_sym PE)). cbn. auto.
    + intros x c' F NX. assert (NX' : ~ In x (p_expl st)) by (intros I; apply NX; cbn; auto).
      destruct (o_open0 x c' F NX') as (w & I & B). apply (Permutation_in _ PE) in I.
      destruct I as [[= -> ->]|I]; [elim NX; cbn; auto|eauto].
    + intros u c' [<-|IU] F; [|eauto]. rewrite FC in F; injection F as <-. intros path ws R. specialize (OPT path ws R). lra.
    + intros u y cu IU [IY [N|[]]] F. destruct IU as [->|IU]; [congruence|]. destruct (o_next0 u y cu IU IY F) as [J|J]; cbn; auto.
  - rewrite RA in A1. injection A1 as <-. rewrite app_nil_r in A4. destruct A4. split; auto.
    intros u y cu IU FY F. apply o_next0; auto. split; auto. destruct (E u cur) as [->|]; auto. right. apply in_rev.
    rewrite rev_involutive. auto.
Qed.

Lemma plan_near : (exists path ws t, route pstep start t path ws /\ goal t = true) ->
  exists path k ws t, returns (fun fuel => plan eqb neigh dist h goal Q dbg fuel start) (path, k) /\
    goal t = true /\ route pstep start t path ws /\ NoDup path /\
    forall path' ws' t', goal t' = true -> route pstep start t' path' ws' ->
      sum ws <= sum ws' + len ws' * sig + len ws * eta.
Proof.
  intros (rp & rws & rt & RR & RG).
  destruct (plan_ends eqb E neigh dist h goal Q QS dbg start NS SN closed (fun st => O st full) init_O) as (r & RET & FIN).
  - intros st cur v q' A B D _ F. eapply skip_O; eauto.
  - intros st cur v q' c st' A B D G N F RA. eapply expand_O; eauto.
  - destruct FIN as [(st & cur & v & q' & l & HM & HO' & PO & G & EX & ->)|(st & HM & HO' & FE & ->)].
    + pose proof (m_w _ _ _ _ _ _ _ _ HM) as HW.
      destruct (pop_facts Q QS _ _ _ (w_inv _ _ _ _ _ _ _ _ HW) PO) as [PE _].
      assert (IC : In (cur, v) (p_front st)) by (apply (Permutation_in _ (Permutation_sym PE)); cbn; auto).
      destruct (o_q _ _ HO' cur v IC) as (_ & c & FC & L0).
      assert (NG : forall t, goal t = true -> ~ In t (p_expl st)).
      { intros t GT I. apply (w_ex _ _ _ _ _ _ _ _ HW) in I. destruct I as (_ & I & _). congruence. }
      destruct (extract_spec eqb E neigh dist h goal Q start NS closed st cur c HW FC (NG _ G)) as (l' & ws & X1 & X2 & X3 & X4 & _).
      rewrite EX in X1. injection X1 as <-.
      exists (rev l), (length (p_expl st)), ws, cur. split; auto. split; auto. split; auto. split; auto.
      intros path' ws' t' GT R'. pose proof (popped_opt _ _ _ _ _ HM HO' PO (NG _ G) FC t' (NG _ GT) _ _ R') as B.
      destruct (near_in _ _ _ _ R' SN) as [IT _]. destruct (near_in _ _ _ _ X4 SN) as [IT' _].
      rewrite (hgoal t'), (hgoal cur) in B by auto.
      pose proof (sum_total _ _ _ X4 X2) as T. rewrite X3 in T. lra.
    + exfalso. assert (I : In rt (p_expl st)).
      { eapply all_explored; eauto. eapply start_explored; eauto. }
      apply (w_ex _ _ _ _ _ _ _ _ (m_w _ _ _ _ _ _ _ _ HM)) in I. destruct I as (_ & I & _). congruence.
Qed.
End Near.
