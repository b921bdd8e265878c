(** Properties C17 and C18: SimpleAStarPlanner. *)
From Verif Require Import Base Cost CostFloat AstarSpec PlannerModel PlannerProofs PlannerOpt.
From Coq Require Import Permutation.
From Flocq Require Import IEEE754.Bits.

(** One move of a plan. *)
Definition move {S : Type} {C : cost} (neigh : S -> list S) (dist : S -> S -> C) (u x : S) (w : C) : Prop :=
  In x (neigh u) /\ w = dist u x.

(** A finite set of states containing the start which the neighbour function does not leave. *)
Definition finite_region {S : Type} (neigh : S -> list S) (start : S) (NS : list S) : Prop :=
  In start NS /\ forall u x, In u NS -> In x (neigh u) -> In x NS.

(** ** C17 *)
(** Plan terminates, with or without assertions, for every choice of the queue, every cost and heuristic
    (no law is assumed: costs may be negative or NaN), and returns
    - a repetition-free route from the start to a goal state, through states that are not goals; the states counted
      are distinct reachable states that are not goals, among them all states of the route but the last; or
    - the empty plan when no goal state can be reached; all reachable states have then been counted. *)
Theorem C17_plan_sound_complete :
  forall (S : Type) (C : cost) (eqb : S -> S -> bool) (neigh : S -> list S) (dist : S -> S -> C) (h : S -> C)
         (goal : S -> bool) (Q : pqueue (S * C)) (dbg : bool) (start : S) (NS : list S),
  (forall a b, reflect (a = b) (eqb a b)) -> pq_sane Q -> finite_region neigh start NS ->
  exists path k, returns (fun fuel => plan eqb neigh dist h goal Q dbg fuel start) (path, k) /\
    ((exists t ws, goal t = true /\ route (move neigh dist) start t path ws /\ NoDup path /\
        (forall x, In x path -> goal x = true -> x = t) /\
        exists seen, NoDup seen /\ length seen = k /\
          (forall x, In x seen -> goal x = false /\ exists p ws', route (move neigh dist) start x p ws') /\
          (forall x, In x path -> x <> t -> In x seen)) \/
     (path = [] /\ (forall t p ws, route (move neigh dist) start t p ws -> goal t = false) /\
      exists seen, NoDup seen /\ length seen = k /\
        forall t, In t seen <-> exists p ws, route (move neigh dist) start t p ws)).
Proof.
  intros S C eqb neigh dist h goal Q dbg start NS E QS [SN CL].
  destruct (plan_ends eqb E neigh dist h goal Q QS dbg start NS SN CL (fun _ => True) I) as (r & RET & FIN); auto.
  destruct FIN as [(st & cur & v & q' & l & HM & _ & PO & G & EX & ->)|(st & HM & _ & FE & ->)].
  - exists (rev l), (length (p_expl st)). split; auto. left.
    pose proof (m_w _ _ _ _ _ _ _ _ HM) as HW.
    destruct (pop_facts Q QS _ _ _ (w_inv _ _ _ _ _ _ _ _ HW) PO) as [PE _].
    assert (IC : In (cur, v) (p_front st)) by (apply (Permutation_in _ (Permutation_sym PE)); cbn; auto).
    destruct (w_q _ _ _ _ _ _ _ _ HW cur v IC) as [c FC].
    assert (NG : forall t, goal t = true -> ~ In t (p_expl st)).
    { intros t GT J. apply (w_ex _ _ _ _ _ _ _ _ HW) in J. destruct J as (_ & J & _). congruence. }
    destruct (extract_spec eqb E neigh dist h goal Q start NS CL st cur c HW FC (NG _ G)) as (l' & ws & X1 & X2 & X3 & X4 & X5).
    rewrite EX in X1. injection X1 as <-. exists cur, ws. split; auto. split; auto. split; auto.
    split; [intros x J GX; apply in_rev in J; destruct (X5 x J) as [|J']; auto; elim (NG x GX J')|].
    exists (p_expl st). split; [apply (w_nd _ _ _ _ _ _ _ _ HW)|]. split; auto. split.
    + intros x J. split; [apply (w_ex _ _ _ _ _ _ _ _ HW) in J; apply J|].
      revert J. apply explored_reachable with (goal := goal) (1 := E) (2 := h) (3 := CL) (4 := HM).
    + intros x J NT. apply in_rev in J. destruct (X5 x J) as [|J']; [contradiction|auto].
  - exists [], (length (p_expl st)). split; auto. right.
    assert (ALL : forall t p ws, route (move neigh dist) start t p ws -> In t (p_expl st)).
    { intros t p ws R. eapply all_explored; eauto. eapply start_explored; eauto. }
    split; auto. split.
    + intros t p ws R. apply ALL in R. apply (w_ex _ _ _ _ _ _ _ _ (m_w _ _ _ _ _ _ _ _ HM)) in R. apply R.
    + exists (p_expl st). split; [apply (w_nd _ _ _ _ _ _ _ _ (m_w _ _ _ _ _ _ _ _ HM))|]. split; auto.
      intros t. split; [|intros (p & ws & R); eauto]. apply explored_reachable with (goal := goal) (1 := E) (2 := h) (3 := CL) (4 := HM).
Qed.
Print Assumptions C17_plan_sound_complete.

(** ** C18 *)
(** Exact costs, a consistent heuristic (zero at goals, cancellable, that is finite), and a comparison that
    regards two priorities as approximately equal only if they are equal: the plan is a cheapest one. *)
Theorem C18_plan_optimal :
  forall (S : Type) (C : cost) (ok : C -> Prop) (eqb : S -> S -> bool) (neigh : S -> list S) (dist : S -> S -> C)
         (h : S -> C) (goal : S -> bool) (approx : C -> C -> bool) (Q : pqueue (S * C)) (dbg : bool) (start : S) (NS : list S),
  cost_laws C ok -> exact_laws C ok -> (forall a b, reflect (a = b) (eqb a b)) ->
  pq_sane Q -> pq_ordered Q (planner_before h approx) (fun e => ok (snd e)) ->
  (forall a b, ok a -> ok b -> approx a b = true -> a = b) ->
  finite_region neigh start NS ->
  (forall u x, In u NS -> In x (neigh u) -> ok (dist u x)) ->
  (forall u, In u NS -> ok (h u)) ->
  (forall u a b, In u NS -> ok a -> ok b -> cltb a b = true -> cltb (cadd a (h u)) (cadd b (h u)) = true) ->
  (forall u x, In u NS -> In x (neigh u) -> cltb (cadd (dist u x) (h x)) (h u) = false) ->
  (forall u, In u NS -> goal u = true -> h u = czero) ->
  (exists t path ws, route (move neigh dist) start t path ws /\ goal t = true) ->
  exists path k t ws, returns (fun fuel => plan eqb neigh dist h goal Q dbg fuel start) (path, k) /\
    goal t = true /\ route (move neigh dist) start t path ws /\
    forall path' ws' t', goal t' = true -> route (move neigh dist) start t' path' ws' -> cltb (total ws') (total ws) = false.
Proof.
  intros S C ok eqb neigh dist h goal approx Q dbg start NS L X E QS QO AP [SN CL] DO HO CA CO HG (t & p & ws & R & G).
  destruct (plan_optimal L X eqb E neigh dist h goal approx Q QS QO dbg start NS SN CL AP DO HO) as (path & k & ws' & t' & A); auto.
  - intros u a b IU OA OB LE. unfold cle in *. destruct (cltb b a) eqn:LT; auto. rewrite (CA u b a) in LE; auto.
  - exists p, ws, t. auto.
  - exists path, k, t', ws'. exact A.
Qed.
Print Assumptions C18_plan_optimal.

(** The same for natural-number costs and heuristics. *)
Theorem C18_plan_optimal_exact :
  forall (S : Type) (eqb : S -> S -> bool) (neigh : S -> list S) (dist : S -> S -> N) (h : S -> N)
         (goal : S -> bool) (approx : ninf -> ninf -> bool) (Q : pqueue (S * ninf)) (dbg : bool) (start : S) (NS : list S),
  (forall a b, reflect (a = b) (eqb a b)) ->
  pq_sane Q -> pq_ordered Q (planner_before (fun s => Some (h s) : ninf) approx) (fun _ => True) ->
  (forall a b, approx a b = true -> a = b) -> finite_region neigh start NS ->
  (forall u x, In u NS -> In x (neigh u) -> (h u <= dist u x + h x)%N) ->
  (forall u, In u NS -> goal u = true -> h u = 0%N) ->
  (exists t path ws, route (move neigh (fun a b => Some (dist a b) : ninf)) start t path ws /\ goal t = true) ->
  exists path k t ws,
    returns (fun fuel => plan eqb neigh (fun a b => Some (dist a b) : ninf) (fun s => Some (h s) : ninf) goal Q dbg fuel start) (path, k) /\
    goal t = true /\ route (move neigh (fun a b => Some (dist a b) : ninf)) start t path ws /\
    forall path' ws' t', goal t' = true -> route (move neigh (fun a b => Some (dist a b) : ninf)) start t' path' ws' ->
      cltb (total ws') (total ws) = false.
Proof.
  intros S eqb neigh dist h goal approx Q dbg start NS E QS QO AP FR CO HG EX.
  apply (C18_plan_optimal S ninf (fun _ => True) eqb neigh _ (fun s => Some (h s) : ninf) goal approx Q dbg start NS ninf_laws ninf_exact); auto.
  - intros u a b _ _ _. destruct a as [a|], b as [b|]; cbn; auto; try discriminate. intros H. apply N.ltb_lt in H. apply N.ltb_lt. lia.
  - intros u x IU IX. cbn. apply N.ltb_ge. auto.
  - intros u IU G. cbn. f_equal. auto.
Qed.
Print Assumptions C18_plan_optimal_exact.

(** The code's comparison treats priorities within a relative 1e-10 as equal and then prefers the smaller
    heuristic value.  So a dearer plan is returned: from 0 either to the
    goal 2 directly at 2^40 + 1, or through 1 at 2^40 - 1 plus 1.  The heuristic (1 at state 1, exact) is consistent. *)
Definition tol_dist (u x : Z) : b64_cost :=
  if (x =? 1)%Z then d64 0x426fffffffffe000 (* 2^40 - 1 *)
  else if (u =? 0)%Z then d64 0x4270000000001000 (* 2^40 + 1 *) else d64 0x3ff0000000000000 (* 1 *).
Definition tol_neigh (u : Z) : list Z := if (u =? 0)%Z then [2; 1]%Z else if (u =? 1)%Z then [2]%Z else [].
Definition tol_h (u : Z) : b64_cost := if (u =? 1)%Z then d64 0x3ff0000000000000 else if (u =? 0)%Z then d64 0x4270000000000000 else b64_zero.

Theorem C18_tolerance_refuted :
  exists (Q : pqueue (Z * b64_cost)), pq_sane Q /\
    finite_region tol_neigh 0%Z [0; 1; 2]%Z /\
    (forall u x, In x (tol_neigh u) -> cltb (cadd (tol_dist u x) (tol_h x)) (tol_h u) = false) /\
    returns (fun fuel => plan Z.eqb tol_neigh tol_dist tol_h (Z.eqb 2) Q true fuel 0%Z) ([0; 2]%Z, 1) /\
    (exists ws ws', route (move tol_neigh tol_dist) 0%Z 2%Z [0; 2]%Z ws /\ route (move tol_neigh tol_dist) 0%Z 2%Z [0; 1; 2]%Z ws' /\
       cltb (total ws') (total ws) = true) /\
    Q = list_queue (planner_before tol_h (b64_isapprox tol)).
Proof.
  exists (list_queue (planner_before tol_h (b64_isapprox tol))). split; [apply list_queue_sane|]. split; [|split; [|split; [|split]]].
  - split; [cbn; auto|]. unfold tol_neigh. intros u x _. destruct (u =? 0)%Z; [|destruct (u =? 1)%Z]; cbn; tauto.
  - unfold tol_neigh. intros u x. destruct (Z.eqb_spec u 0); [|destruct (Z.eqb_spec u 1)]; subst; cbn [In]; intros I.
    + destruct I as [<-|[<-|[]]]; vm_compute; reflexivity.
    + destruct I as [<-|[]]; vm_compute; reflexivity.
    + destruct I.
  - exists 2. intros fuel LE. destruct fuel as [|[|fuel]]; try lia. unfold plan. vm_compute. reflexivity.
  - exists [tol_dist 0 2], [tol_dist 0 1; tol_dist 1 2]. split; [|split].
    + apply (route_cons _ 0%Z 2%Z 2%Z (tol_dist 0 2) [2]%Z []); [split; [cbn; auto|reflexivity]|constructor].
    + apply (route_cons _ 0%Z 1%Z 2%Z (tol_dist 0 1) [1; 2]%Z [tol_dist 1 2]); [split; [cbn; auto|reflexivity]|].
      apply (route_cons _ 1%Z 2%Z 2%Z (tol_dist 1 2) [2]%Z []); [split; [cbn; auto|reflexivity]|constructor].
    + vm_compute. reflexivity.
  - reflexivity.
Qed.
Print Assumptions C18_tolerance_refuted.

(** ** Concrete cases: a corridor of cells 0..9 with a wall at 4 that can be jumped at cost 5. *)
Definition cor_neigh (u : N) : list N :=
  if (9 <=? u)%N then [] else if (u =? 4)%N then [] else ((u + 1) :: (u + 2) :: (if (u =? 0) then [] else [u - 1]))%N.
Definition cor_dist (u x : N) : N := if (x =? u + 2)%N then 5%N else 1%N.
Definition cor_h (u : N) : N := if (u <=? 7)%N then (7 - u)%N else 0%N.
Definition int_approx (a b : ninf) : bool :=
  match a, b with Some a, Some b => (a =? b)%N | _, _ => false end.

Lemma int_before_queue {S} (h : S -> N) :
  pq_sane (list_queue (planner_before (fun s => Some (h s) : ninf) int_approx)) /\
  pq_ordered (list_queue (planner_before (fun s => Some (h s) : ninf) int_approx)) (planner_before (fun s => Some (h s) : ninf) int_approx) (fun _ => True).
Proof.
  split; [apply list_queue_sane|].
  apply list_queue_ordered; unfold planner_before, int_approx; intros.
  - destruct (snd a) as [x|]; cbn; [rewrite N.eqb_refl|]; auto. apply N.ltb_irrefl.
  - destruct a as [sa [xa|]], b as [sb [xb|]], c as [sc [xc|]]; cbn in *; auto; try discriminate.
    destruct (N.eqb_spec xb xa), (N.eqb_spec xc xb), (N.eqb_spec xc xa); try (apply N.ltb_lt in H2); try (apply N.ltb_lt in H3);
    try (apply N.ltb_lt); lia.
  - destruct a as [sa [xa|]], b as [sb [xb|]], c as [sc [xc|]]; cbn in *; auto; try discriminate.
    destruct (N.eqb_spec xb xa), (N.eqb_spec xc xb), (N.eqb_spec xc xa); try (apply N.ltb_ge in H2); try (apply N.ltb_ge in H3);
    try (apply N.ltb_ge); lia.
Qed.

Example C17_C18_example :
  let Q := list_queue (planner_before (fun s => Some (cor_h s) : ninf) int_approx) in
  finite_region cor_neigh 0%N [0; 1; 2; 3; 4; 5; 6; 7; 8; 9; 10]%N /\
  (forall u x, In u [0; 1; 2; 3; 4; 5; 6; 7; 8; 9; 10]%N -> In x (cor_neigh u) -> (cor_h u <= cor_dist u x + cor_h x)%N) /\
  (forall u, In u [0; 1; 2; 3; 4; 5; 6; 7; 8; 9; 10]%N -> (7 =? u)%N = true -> cor_h u = 0%N) /\
  plan N.eqb cor_neigh (fun a b => Some (cor_dist a b) : ninf) (fun s => Some (cor_h s) : ninf) (N.eqb 7) Q true 100 0%N
    = Ok ([0; 1; 2; 3; 5; 6; 7]%N, 7) /\
  plan N.eqb cor_neigh (fun a b => Some (cor_dist a b) : ninf) (fun s => Some (cor_h s) : ninf) (N.eqb 50) Q true 100 0%N
    = Ok ([], 11).
Proof.
  cbn zeta. split; [|split; [|split; [|split]]].
  - split; [cbn; auto|]. intros u x IU IX.
    repeat (destruct IU as [<-|IU]; [cbn in IX; cbn; tauto|]). destruct IU.
  - intros u x IU IX.
    repeat (destruct IU as [<-|IU]; [cbn in IX; repeat (destruct IX as [<-|IX]; [vm_compute; discriminate|]); destruct IX|]). destruct IU.
  - intros u _ H. apply N.eqb_eq in H. subst. reflexivity.
  - vm_compute. reflexivity.
  - vm_compute. reflexivity.
Qed.
