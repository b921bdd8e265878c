(** C57: first order deformation search. *)
From Coq Require Import Permutation.
From Verif Require Import Base Assoc Cost DeformModel.
Open Scope Z_scope.

(** ** Specification *)
Definition in_grid (rows cols : Z) (c : cell) : Prop := 0 <= fst c < rows /\ 0 <= snd c < cols.
(** Two different cells that share a side or a corner. *)
Definition touching (a b : cell) : Prop := a <> b /\ Z.abs (fst a - fst b) <= 1 /\ Z.abs (snd a - snd b) <= 1.
Fixpoint linked (l : list cell) : Prop :=
  match l with a :: ((b :: _) as r) => touching a b /\ linked r | _ => True end.
(** A chain of touching cells of the grid from corner to corner; [valid] from its second cell on. *)
Definition chain (rows cols : Z) (valid : Z -> Z -> bool) (l : list cell) : Prop :=
  hd_error l = Some (0, 0) /\ last l (0, 0) = (rows - 1, cols - 1) /\ linked l /\
  Forall (in_grid rows cols) l /\ Forall (fun c => valid (fst c) (snd c) = true) (tl l).

(** ** Proofs *)
Lemma cell_eqb_spec a b : reflect (a = b) (cell_eqb a b).
Proof.
  destruct a as [a1 a2], b as [b1 b2]. unfold cell_eqb. cbn [fst snd]. destruct (Z.eqb_spec a1 b1), (Z.eqb_spec a2 b2); cbn; constructor; congruence.
Qed.
Lemma existsb_cell c l : existsb (cell_eqb c) l = true <-> In c l.
Proof.
  rewrite existsb_exists. split; [intros (x & I & H); destruct (cell_eqb_spec c x); [subst; auto|discriminate]|]. intros I. exists c. split; auto. destruct (cell_eqb_spec c c); auto.
Qed.
Lemma in_span lo hi x : In x (span lo hi) <-> lo <= x <= hi.
Proof.
  unfold span. rewrite in_map_iff. split.
  - intros (i & <- & I). apply in_seq in I. lia.
  - intros H. exists (Z.to_nat (x - lo)). split; [lia|]. apply in_seq. lia.
Qed.
Lemma linked_app l a b r : linked (l ++ [a]) -> touching a b -> linked (b :: r) -> linked (l ++ a :: b :: r).
Proof.
  induction l as [|x l IH]; intros H T R; [cbn; auto|]. destruct l as [|y l].
  - cbn in *. tauto.
  - cbn in H. destruct H as [H1 H2]. cbn. split; auto. apply IH; auto.
Qed.

Section P.
Variable rows cols : Z.
Variable valid : Z -> Z -> bool.
Variable D : Type.
Variable dist : cell -> cell -> D.
Variable Q : pqueue (cell * D).
Hypothesis Qs : pq_sane Q.
Hypothesis Hr : 0 < rows.
Hypothesis Hc : 0 < cols.
Notation grid := (in_grid rows cols).
Notation nb := (neighbours rows cols valid).
Let start : cell := (0, 0).
Let goal : cell := (rows - 1, cols - 1).

Lemma in_neighbours c n : grid c -> In n (nb c) <-> grid n /\ touching c n /\ valid (fst n) (snd n) = true.
Proof.
  intros [G1 G2]. unfold neighbours, touching, in_grid. destruct c as [cr cc], n as [nr nc]. cbn [fst snd] in *. rewrite in_flat_map. split.
  - intros (col & IC & H). apply in_flat_map in H. destruct H as (row & IR & H). apply in_span in IC, IR.
    destruct (Z.eqb_spec row cr), (Z.eqb_spec col cc); cbn [andb negb] in H; destruct (valid row col) eqn:V; cbn in H; try destruct H as [H|[]]; try contradiction; injection H as <- <-; repeat split; try lia; try congruence.
  - intros ((R & C) & (N & A & B) & V). exists nc. split; [apply in_span; lia|]. apply in_flat_map. exists nr. split; [apply in_span; lia|].
    rewrite V. destruct (Z.eqb_spec nr cr), (Z.eqb_spec nc cc); cbn; auto. subst. elim N. auto.
Qed.
Lemma nb_length c : (length (nb c) <= 9)%nat.
Proof.
  unfold neighbours. assert (L : forall lo hi x, (length (span (Z.max lo (x - 1)) (Z.min hi (x + 1))) <= 3)%nat) by (intros; unfold span; rewrite map_length, seq_length; lia).
  assert (F : forall {A B} (f : A -> list B) b l, (forall x, length (f x) <= b)%nat -> (length (flat_map f l) <= b * length l)%nat).
  { intros A B f b l H. induction l; cbn; [lia|]. rewrite app_length. specialize (H a). lia. }
  cbn zeta. eapply Nat.le_trans; [apply (F _ _ _ 3%nat)|].
  - intros col. eapply Nat.le_trans; [apply (F _ _ _ 1%nat)|]; [intros; destruct (_ && _); cbn; lia|]. specialize (L 0 (rows - 1) (fst c)). lia.
  - specialize (L 0 (cols - 1) (snd c)). lia.
Qed.
Lemma explored_at_ok ex c : grid c -> explored_at rows cols ex c = Ok (existsb (cell_eqb c) ex).
Proof.
  intros [G1 G2]. unfold explored_at. destruct (Z.leb_spec 0 (fst c)), (Z.ltb_spec (fst c) rows), (Z.leb_spec 0 (snd c)), (Z.ltb_spec (snd c) cols); try lia. reflexivity.
Qed.

(** [p] is the recorded parent of [c], and the step is a legal one. *)
Definition from (parents : list (cell * cell)) (c p : cell) : Prop :=
  a_find cell_eqb c parents = Some p /\ touching p c /\ valid (fst c) (snd c) = true.
Record inv (frontier : list (cell * D)) (explored : list cell) (parents : list (cell * cell)) : Prop := {
  i_q : pq_inv Q frontier;
  i_nodup : NoDup explored;
  i_grid : Forall grid explored;
  i_fgrid : forall c d, In (c, d) frontier -> grid c;
  i_front : forall c d, In (c, d) frontier -> c <> start -> exists p, from parents c p /\ In p explored;
  i_expl : forall l1 c l2, explored = l1 ++ c :: l2 -> c <> start -> exists p, from parents c p /\ In p l2;
  i_goal : ~ In goal explored;
  i_start : In start explored \/ exists d, In (start, d) frontier;
  i_closed : forall c n, In c explored -> In n (nb c) -> In n explored \/ exists d, In (n, d) frontier }.

Lemma expand_spec explored current : Forall grid explored -> In current explored -> forall ns frontier parents,
  pq_inv Q frontier -> (forall n, In n ns -> grid n /\ touching current n /\ valid (fst n) (snd n) = true) ->
  exists frontier' parents', expand rows cols D dist Q explored goal current ns frontier parents = Ok (frontier', parents') /\
    pq_inv Q frontier' /\ (length frontier' <= length frontier + length ns)%nat /\
    (forall c d, In (c, d) frontier -> In (c, d) frontier') /\
    (forall c d, In (c, d) frontier' -> In (c, d) frontier \/ In c ns /\ from parents' c current) /\
    (forall n, In n ns -> In n explored \/ exists d, In (n, d) frontier') /\
    (forall c p, from parents c p -> from parents' c p \/ ~ In c explored /\ from parents' c current).
Proof.
  intros GE IC. induction ns as [|n ns IH]; intros frontier parents IQ N; cbn [expand].
  - exists frontier, parents. split; auto. split; auto. split; [cbn; lia|]. repeat split; auto. intros n [].
  - destruct (N n (or_introl eq_refl)) as (NG & NT & NV). rewrite explored_at_ok by auto. cbn [obind]. destruct (existsb (cell_eqb n) explored) eqn:X.
    + destruct (IH frontier parents IQ) as (f' & p' & E1 & E2 & E3 & E4 & E5 & E6 & E7); [intros; apply N; right; auto|]. exists f', p'. split; auto. split; auto. split; [cbn [length]; lia|]. split; auto.
      split; [intros c d I; destruct (E5 c d I) as [?|[? ?]]; auto; right; split; auto; right; auto|]. split; auto.
      intros m [ <- |I]; auto. left. apply existsb_cell; auto.
    + assert (NX : ~ In n explored) by (rewrite <- existsb_cell; congruence).
      destruct (IH (pq_push Q (n, dist n goal) frontier) (a_set cell_eqb n current parents)) as (f' & p' & E1 & E2 & E3 & E4 & E5 & E6 & E7); [apply (pq_push_inv _ Qs); auto|intros; apply N; right; auto|].
      pose proof (pq_push_perm _ Qs (n, dist n goal) frontier) as P.
      assert (FN : from p' n current). { destruct (E7 n current) as [F|[_ F]]; auto. split; [|auto]. rewrite (a_find_set cell_eqb cell_eqb_spec). destruct (cell_eqb_spec n n); [auto|congruence]. }
      exists f', p'. split; auto. split; auto. split; [rewrite (Permutation_length P) in E3; cbn [length] in *; lia|].
      split; [intros c d I; apply E4; apply (Permutation_in _ (Permutation_sym P)); right; auto|].
      split; [intros c d I; destruct (E5 c d I) as [J|[? ?]]; [|right; split; auto; right; auto]; apply (Permutation_in _ P) in J; destruct J as [J|J]; auto; injection J as <- <-; right; split; [left; auto|auto]|].
      split; [intros m [ <- |I]; auto; right; exists (dist n goal); apply E4; apply (Permutation_in _ (Permutation_sym P)); left; auto|].
      intros c p F. destruct (cell_eqb_spec c n) as [ -> |NE]; [right; auto|]. destruct (E7 c p) as [G|G]; auto.
      destruct F as (F1 & F2). split; auto. rewrite (a_find_set cell_eqb cell_eqb_spec). destruct (cell_eqb_spec c n); [contradiction|auto].
Qed.

Definition cells : list cell := list_prod (span 0 (rows - 1)) (span 0 (cols - 1)).
Lemma explored_bound ex : NoDup ex -> Forall grid ex -> (length ex <= Z.to_nat (rows * cols))%nat.
Proof.
  intros N G. replace (Z.to_nat (rows * cols)) with (length cells).
  - apply NoDup_incl_length; auto. intros [r c] I. apply (proj1 (Forall_forall _ _) G) in I. destruct I as [I1 I2]. cbn in I1, I2. apply in_prod; apply in_span; lia.
  - unfold cells, cell. rewrite prod_length. unfold span. rewrite !map_length, !seq_length. rewrite Z2Nat.inj_mul by lia. f_equal; f_equal; lia.
Qed.

(** When the search ends. *)
Definition finished (r : bool * list cell * list (cell * cell)) : Prop :=
  let '(found, explored, parents) := r in
  (forall l1 c l2, explored = l1 ++ c :: l2 -> c <> start -> exists p, from parents c p /\ In p l2) /\ Forall grid explored /\ NoDup explored /\ ~ In goal explored /\
  if found then goal = start \/ exists p, from parents goal p /\ In p explored
  else In start explored /\ forall c n, In c explored -> In n (nb c) -> In n explored.
Lemma search_spec : forall fuel frontier explored parents, inv frontier explored parents ->
  (length frontier + 10 * (Z.to_nat (rows * cols) - length explored) < fuel)%nat ->
  exists r, search rows cols valid D dist Q fuel goal frontier explored parents = Ok r /\ finished r.
Proof.
  induction fuel as [|fuel IH]; intros frontier explored parents I F; [lia|]. cbn [search]. destruct frontier as [|x0 q0] eqn:FE.
  - rewrite (pq_pop_nil _ Qs). eexists. split; [reflexivity|]. cbn. split; [apply (i_expl _ _ _ I)|]. split; [apply (i_grid _ _ _ I)|]. split; [apply (i_nodup _ _ _ I)|]. split; [apply (i_goal _ _ _ I)|]. split.
    + destruct (i_start _ _ _ I) as [S|[d []]]; auto.
    + intros c n C N. destruct (i_closed _ _ _ I c n C N) as [S|[d []]]; auto.
  - rewrite <- FE in *. destruct (pq_pop_some _ Qs frontier (i_q _ _ _ I)) as ([current d] & q & E & P & IQ); [subst; discriminate|]. rewrite E.
    assert (IN : In (current, d) frontier) by (apply (Permutation_in _ (Permutation_sym P)); left; auto).
    assert (SUB : forall c e, In (c, e) q -> In (c, e) frontier) by (intros; apply (Permutation_in _ (Permutation_sym P)); right; auto).
    assert (SPL : forall c e, In (c, e) frontier -> c = current \/ In (c, e) q) by (intros c e J; apply (Permutation_in _ P) in J; destruct J as [J|J]; auto; injection J as <- <-; auto).
    pose proof (Permutation_length P) as LP. cbn [length] in LP. destruct ((fst current =? fst goal) && (snd current =? snd goal)) eqn:CG.
    + assert (current = goal). { apply andb_true_iff in CG as [C1 C2]. apply Z.eqb_eq in C1, C2. destruct current, goal; cbn in *; congruence. } subst current.
      eexists. split; [reflexivity|]. cbn. split; [apply (i_expl _ _ _ I)|]. split; [apply (i_grid _ _ _ I)|]. split; [apply (i_nodup _ _ _ I)|]. split; [apply (i_goal _ _ _ I)|].
      destruct (cell_eqb_spec goal start) as [EQ|NE]; auto. right. apply (i_front _ _ _ I _ _ IN NE).
    + assert (NG : current <> goal) by (intros ->; rewrite !Z.eqb_refl in CG; discriminate).
      pose proof (i_fgrid _ _ _ I _ _ IN) as G. rewrite explored_at_ok by auto. cbn [obind]. destruct (existsb (cell_eqb current) explored) eqn:X.
      * apply existsb_cell in X. apply IH; [|lia]. constructor; try apply I; auto.
        -- intros c e J. apply (i_fgrid _ _ _ I c e); auto.
        -- intros c e J. apply (i_front _ _ _ I c e); auto.
        -- destruct (i_start _ _ _ I) as [S|[e J]]; auto. apply SPL in J. destruct J as [ -> |J]; eauto.
        -- intros c n C N. destruct (i_closed _ _ _ I c n C N) as [S|[e J]]; auto. apply SPL in J. destruct J as [ -> |J]; eauto.
      * assert (NX : ~ In current explored) by (rewrite <- existsb_cell; congruence). clear X.
        assert (GE : Forall grid (current :: explored)) by (constructor; auto; apply (i_grid _ _ _ I)).
        assert (ND : NoDup (current :: explored)) by (constructor; auto; apply (i_nodup _ _ _ I)).
        destruct (expand_spec (current :: explored) current GE (or_introl eq_refl) (nb current) q parents IQ) as (f' & p' & E1 & E2 & E3 & E4 & E5 & E6 & E7); [intros n N; apply in_neighbours; auto|].
        rewrite E1; cbn [obind]. cbn [fst snd]. assert (KEEP : forall c p, In c (current :: explored) -> from parents c p -> from p' c p) by (intros c p C FR; destruct (E7 c p FR) as [?|[? _]]; [auto|contradiction]).
        apply IH.
        -- constructor; auto.
           ++ intros c e J. destruct (E5 c e J) as [K|[K _]]; [apply (i_fgrid _ _ _ I c e); auto|]. apply in_neighbours in K; auto. apply K.
           ++ intros c e J NS. destruct (E5 c e J) as [K|[K FR]]; [|exists current; split; auto; left; auto]. destruct (i_front _ _ _ I c e (SUB _ _ K) NS) as (p & FR & IP).
              destruct (E7 c p FR) as [FR'|[_ FR']]; [exists p; split; auto; right; auto|exists current; split; auto; left; auto].
           ++ intros l1 c l2 EL NS. destruct l1 as [|y l1]; cbn in EL; injection EL as <- EL.
              ** subst l2. destruct (i_front _ _ _ I _ _ IN NS) as (p & FR & IP). exists p. split; auto. apply KEEP; auto. left; auto.
              ** destruct (i_expl _ _ _ I l1 c l2 EL NS) as (p & FR & IP). exists p. split; auto. apply KEEP; auto. right. rewrite EL. apply in_or_app. right. left. auto.
           ++ intros [ -> |J]; [congruence|]. apply (i_goal _ _ _ I); auto.
           ++ destruct (i_start _ _ _ I) as [S|[e J]]; [left; right; auto|]. apply SPL in J. destruct J as [ <- |J]; [left; left; auto|right; eauto].
           ++ intros c n [ <- |C] N; [destruct (E6 n N); auto|]. destruct (i_closed _ _ _ I c n C N) as [S|[e J]]; [left; right; auto|]. apply SPL in J. destruct J as [ -> |J]; [left; left; auto|right; eauto].
        -- pose proof (nb_length current). pose proof (explored_bound _ ND GE). cbn [length] in *. lia.
Qed.
Lemma inv_start : inv (pq_push Q (start, dist start goal) []) [] [].
Proof.
  pose proof (pq_push_perm _ Qs (start, dist start goal) []) as P. assert (U : forall c d, In (c, d) (pq_push Q (start, dist start goal) []) -> c = start).
  { intros c d I. apply (Permutation_in _ P) in I. destruct I as [I|[]]. congruence. }
  constructor; auto.
  - apply (pq_push_inv _ Qs), (pq_inv_nil _ Qs).
  - constructor.
  - intros c d I. apply U in I. subst c. unfold in_grid, start. cbn. lia.
  - intros c d I N. apply U in I. contradiction.
  - intros l1 c l2 H. destruct l1; discriminate.
  - right. exists (dist start goal). apply (Permutation_in _ (Permutation_sym P)). left. auto.
Qed.

(** Following the parents from an explored cell. *)
Lemma recover_spec parents : forall l, (forall l1 c l2, l = l1 ++ c :: l2 -> c <> start -> exists p, from parents c p /\ In p l2) -> Forall grid l -> NoDup l ->
  forall c acc fuel, In c l -> (length l <= fuel)%nat ->
  linked (c :: acc) -> Forall grid acc -> Forall (fun c => valid (fst c) (snd c) = true) acc -> NoDup acc -> (forall x, In x acc -> ~ In x l) ->
  exists pre, recover fuel start c parents acc = Ok (start :: pre ++ acc) /\ last (start :: pre) start = c /\ linked (start :: pre ++ acc) /\
    Forall grid (start :: pre ++ acc) /\ Forall (fun c => valid (fst c) (snd c) = true) (pre ++ acc) /\ NoDup (start :: pre ++ acc).
Proof.
  induction l as [|e l IH]; intros HP GL NL c acc fuel IC F LK GA VA NA DJ; [destruct IC|].
  assert (HP' : forall l1 c l2, l = l1 ++ c :: l2 -> c <> start -> exists p, from parents c p /\ In p l2) by (intros l1 c0 l2 ->; apply (HP (e :: l1)); auto).
  inversion GL as [|? ? Ge GL']. inversion NL as [|? ? Ne NL']. subst.
  destruct (cell_eqb_spec c start) as [ -> |NS].
  - exists []. destruct fuel; cbn [recover]; (destruct (cell_eqb_spec start start); [|congruence]); cbn [app last].
    all: split; auto; split; auto; split; auto; split; [constructor; auto; apply (proj1 (Forall_forall _ _) GL _ IC)|]; split; auto; constructor; auto; intros X; apply (DJ _ X IC).
  - destruct IC as [ -> |IC].
    + destruct (HP [] c l eq_refl NS) as (p & (FR & T & V) & IP). destruct fuel as [|fuel]; [cbn in F; lia|]. cbn [recover]. destruct (cell_eqb_spec c start); [contradiction|]. rewrite FR.
      destruct (IH HP' GL' NL' p (c :: acc) fuel IP) as (pre & R1 & R2 & R3 & R4 & R5 & R6); auto.
      * cbn in F. lia.
      * cbn. split; auto.
      * constructor; auto. intros X. apply (DJ _ X). left. auto.
      * intros x [ <- |X] Y; [contradiction|]. apply (DJ _ X). right. auto.
      * exists (pre ++ [c]). rewrite <- !app_assoc. cbn [app]. split; auto. split; [rewrite app_comm_cons, last_last; auto|]. auto.
    + apply IH; auto; [cbn in F; lia|]. intros x X Y. apply (DJ _ X). right. auto.
Qed.

Lemma chain_explored explored : Forall grid explored -> (forall c n, In c explored -> In n (nb c) -> In n explored) -> forall l c, In c explored ->
  linked (c :: l) -> Forall grid l -> Forall (fun c => valid (fst c) (snd c) = true) l -> In (last (c :: l) start) explored.
Proof.
  intros GE CL. induction l as [|b l IH]; intros c IC LK GL VL; [cbn; auto|]. destruct LK as [T LK]. inversion GL. inversion VL. subst.
  change (last (c :: b :: l) start) with (last (b :: l) start). apply IH; auto. apply (CL c); auto. apply in_neighbours; auto. apply (proj1 (Forall_forall _ _) GE _ IC).
Qed.

Theorem search_correct dbg : exists l, first_order_deformation rows cols valid D dist Q dbg = Ok l /\
  (l <> [] -> chain rows cols valid l /\ NoDup l) /\ (l = [] -> forall l', ~ chain rows cols valid l').
Proof.
  unfold first_order_deformation, cassert. destruct (Z.ltb_spec 0 rows); [|lia]. destruct (Z.ltb_spec 0 cols); [|lia]. cbn [andb negb]. rewrite andb_false_r. cbn zeta. fold goal. fold start.
  destruct (search_spec (2 + 10 * Z.to_nat (rows * cols)) _ _ _ inv_start) as (r & E & FIN). { rewrite (Permutation_length (pq_push_perm _ Qs _ [])). cbn [length]. lia. }
  match goal with |- context [obind ?x _] => replace x with (Ok r) by (symmetry; exact E) end. cbn [obind]. destruct r as [[found explored] parents]. cbn [finished] in FIN. destruct FIN as (F1 & F2 & F3 & F4 & F5). destruct found.
  - assert (R : exists l, recover (S (length explored)) start goal parents [] = Ok l /\ chain rows cols valid l /\ NoDup l).
    { destruct F5 as [EQ|(p & (FR & T & V) & IP)].
      - exists [start]. cbn [recover]. rewrite EQ. destruct (cell_eqb_spec start start); [|congruence]. split; auto. split; [|constructor; auto; constructor].
        unfold chain. cbn [hd_error last linked tl]. fold start. fold goal. repeat split; auto; constructor; auto. unfold in_grid, start. cbn. lia.
      - destruct (cell_eqb_spec goal start) as [EQ|NE].
        + exists [start]. cbn [recover]. rewrite EQ. destruct (cell_eqb_spec start start); [|congruence]. split; auto. split; [|constructor; auto; constructor].
          unfold chain. cbn [hd_error last linked tl]. fold start. fold goal. repeat split; auto; constructor; auto. unfold in_grid, start. cbn. lia.
        + cbn [recover]. destruct (cell_eqb_spec goal start); [contradiction|]. rewrite FR. assert (GG : grid goal) by (unfold in_grid, goal; cbn; lia).
          destruct (recover_spec parents explored F1 F2 F3 p [goal] (length explored)) as (pre & R1 & R2 & R3 & R4 & R5 & R6); auto.
          * cbn. auto.
          * constructor; auto; constructor.
          * intros x [ <- |[]]. auto.
          * exists (start :: pre ++ [goal]). split; auto. split; auto. split; [reflexivity|]. split; [rewrite app_comm_cons, last_last; auto|]. auto. }
    destruct R as (l & E' & C & N). exists l. split; auto. split; auto. intros ->. destruct C as [C _]. discriminate.
  - exists []. split; auto. split; [congruence|]. intros _ l' (C1 & C2 & C3 & C4 & C5). destruct F5 as [S CL]. destruct l' as [|c l']; [discriminate|]. cbn in C1. injection C1 as ->. apply F4. fold goal in C2. rewrite <- C2.
    inversion C4. subst. apply chain_explored; auto.
Qed.
End P.

(** C57 (partial): for every order of the queue, the search answers with a chain without repetitions when there is one and
    with nothing otherwise; but the validity of the first cell is never asked for. *)
Theorem C57_search_partial : forall rows cols valid D dist (Q : pqueue (cell * D)) dbg, pq_sane Q -> 0 < rows -> 0 < cols ->
  exists l, first_order_deformation rows cols valid D dist Q dbg = Ok l /\ (l <> [] -> chain rows cols valid l /\ NoDup l) /\ (l = [] -> forall l', ~ chain rows cols valid l').
Proof. intros. apply search_correct; auto. Qed.
Print Assumptions C57_search_partial.
(** Together with a valid first cell, all cells are valid. *)
Theorem C57_valid_start : forall rows cols valid D dist (Q : pqueue (cell * D)) dbg, pq_sane Q -> 0 < rows -> 0 < cols -> valid 0 0 = true ->
  exists l, first_order_deformation rows cols valid D dist Q dbg = Ok l /\ (l <> [] -> Forall (fun c => valid (fst c) (snd c) = true) l).
Proof.
  intros rows cols valid D dist Q dbg Qs Hr Hc V. destruct (C57_search_partial rows cols valid D dist Q dbg Qs Hr Hc) as (l & E & C & _). exists l. split; auto. intros NE. destruct (C NE) as [(C1 & _ & _ & _ & C5) _].
  destruct l as [|c l]; [congruence|]. injection C1 as ->. constructor; auto.
Qed.
Print Assumptions C57_valid_start.
Definition zdist (a b : cell) : Z := (fst a - fst b) * (fst a - fst b) + (snd a - snd b) * (snd a - snd b).
Notation zq := (list_queue (fun a b : cell * Z => snd a <? snd b)).
Definition wall (r c : Z) : bool := negb ((c =? 1) && (r <? 2)).
Example C57_example : first_order_deformation 3 3 wall Z zdist zq true = Ok [(0, 0); (1, 0); (2, 1); (2, 2)] /\ pq_sane zq.
Proof. split; [vm_compute; reflexivity|apply list_queue_sane]. Qed.
Example C57_no_path : first_order_deformation 2 3 wall Z zdist zq true = Ok [].
Proof. vm_compute. reflexivity. Qed.
(** C57 is false for an invalid first cell: a path through it is returned. *)
Theorem C57_start_refuted : exists rows cols valid l, first_order_deformation rows cols valid Z zdist zq true = Ok l /\ In (0, 0) l /\ valid 0 0 = false.
Proof. exists 2, 2, (fun r c => negb ((r =? 0) && (c =? 0))), [(0, 0); (1, 1)]. repeat split; try (vm_compute; reflexivity). left. auto. Qed.
Print Assumptions C57_start_refuted.
