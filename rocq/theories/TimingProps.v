(** C53, C54, C71, C72: stopwatch and profiler histories. *)
From Coq Require Import Permutation.
From Verif Require Import Base Assoc TimingModel.

(** ** C54: stopwatch *)
(** A history of calls with their clock readings, most recent first, of a stopwatch made at time [t0]. *)
Fixpoint watch (t0 : Z) (h : list (control * Z)) : Z :=
  match h with [] => t0 | (c, now) :: h => fst (stopwatch_call (watch t0 h) c now) end.
(** Specification: the time of the last reset, or of construction. *)
Fixpoint last_reset (t0 : Z) (h : list (control * Z)) : Z :=
  match h with [] => t0 | (RESET, now) :: _ => now | (READ, _) :: h => last_reset t0 h end.
Lemma watch_spec t0 h : watch t0 h = last_reset t0 h.
Proof. induction h as [|[[] now] h IH]; cbn; auto. Qed.
(** READ returns the time since the last reset and does not restart; RESET restarts. *)
Theorem C54_stopwatch_partial : forall t0 h now,
  snd (stopwatch_call (watch t0 h) READ now) = (now - last_reset t0 h)%Z /\
  watch t0 ((READ, now) :: h) = watch t0 h /\
  forall now', snd (stopwatch_call (watch t0 ((RESET, now) :: h)) READ now') = (now' - now)%Z.
Proof. intros t0 h now. cbn [watch stopwatch_call fst snd]. rewrite watch_spec. auto. Qed.
Print Assumptions C54_stopwatch_partial.
Example C54_example : snd (stopwatch_call (watch 3 [(READ, 9%Z); (RESET, 5%Z); (READ, 4%Z)]) READ 11) = 6%Z.
Proof. reflexivity. Qed.
(** C54 is false for RESET: 7 ticks after construction it returns 0. *)
Theorem C54_reset_refuted : exists t0 now, snd (stopwatch_call (watch t0 []) RESET now) <> (now - last_reset t0 [])%Z.
Proof. exists 3%Z, 10%Z. vm_compute. discriminate. Qed.
Print Assumptions C54_reset_refuted.
Theorem C54_reset_is_zero : forall t0 h now, snd (stopwatch_call (watch t0 h) RESET now) = 0%Z.
Proof. intros. cbn. lia. Qed.
Print Assumptions C54_reset_is_zero.

Section P.
Context {K : Type} (eqb : K -> K -> bool).
Hypothesis E : forall a b, reflect (a = b) (eqb a b).
Context {D : Type} (dzero : D) (dadd : D -> D -> D) (ddiv : D -> nat -> D) (dltb : D -> D -> bool) (secs : Z -> D).
Notation op := (op K D).
Notation step := (step K eqb D dzero dadd ddiv dltb secs).
Notation run := (run K eqb D dzero dadd ddiv dltb secs).
Notation profiler := (profiler K D).

(** ** Specification, in terms of the history of calls (most recent first) *)
(** [k] has data: something was recorded or asked for under that name since everything was cleared. *)
Fixpoint known (k : K) (h : list (op * Z)) : bool :=
  match h with
  | [] => false
  | (ResetAll _ _ _, _) :: _ => false
  | (AddData _ _ k' _, _) :: h | (GetData _ _ k', _) :: h => eqb k k' || known k h
  | (Record_ _ _ k', _) :: h => eqb k k' && (match started_at k h with Some _ => true | None => false end) || known k h
  | _ :: h => known k h
  end
(** when the timer [k] was last started, by startTimer or by a reset of a name with data *)
with started_at (k : K) (h : list (op * Z)) : option Z :=
  match h with
  | [] => None
  | (StartTimer _ _ k', t) :: h => if eqb k k' then Some t else started_at k h
  | (Reset _ _ k', t) :: h => if eqb k k' && known k h then Some t else started_at k h
  | _ :: h => started_at k h
  end.
(** The values recorded under [k] since it was last cleared, in order. *)
Fixpoint recorded (k : K) (h : list (op * Z)) : list D :=
  match h with
  | [] => []
  | (ResetAll _ _ _, _) :: _ => []
  | (Reset _ _ k', _) :: h => if eqb k k' then [] else recorded k h
  | (AddData _ _ k' d, _) :: h => if eqb k k' then recorded k h ++ [d] else recorded k h
  | (Record_ _ _ k', t) :: h =>
      if eqb k k' then match started_at k h with Some s => recorded k h ++ [secs (t - s)] | None => recorded k h end else recorded k h
  | _ :: h => recorded k h
  end.
(** The (time, value) pairs recorded under [k] by recordDouble since everything was cleared. *)
Fixpoint recorded_doubles (k : K) (h : list (op * Z)) : list (D * D) :=
  match h with
  | [] => []
  | (ResetAll _ _ _, _) :: _ => []
  | (RecordDouble _ _ k' d, t) :: h =>
      if eqb k k' then recorded_doubles k h ++ [(match started_at k h with Some s => secs (t - s) | None => dzero end, d)] else recorded_doubles k h
  | _ :: h => recorded_doubles k h
  end.

Record good (m : profiler) (h : list (op * Z)) : Prop := {
  g_data : forall k, a_find eqb k (data K D m) = if known k h then Some (recorded k h) else None;
  g_unknown : forall k, known k h = false -> recorded k h = [];
  g_timers : forall k, a_find eqb k (timers K D m) = started_at k h;
  g_timed : forall k, a_find eqb k (timed K D m) = match recorded_doubles k h with [] => None | l => Some l end;
  g_buffer : Forall (fun b => b = []) (buffer K D m) }.
Ltac base G := try solve [apply (g_data _ _ G) | apply (g_unknown _ _ G); assumption | apply (g_timers _ _ G) | apply (g_timed _ _ G) | apply (g_buffer _ _ G)].
Lemma has_known m h k : good m h -> has K eqb k (data K D m) = known k h.
Proof. intros G. unfold has. rewrite (g_data _ _ G). destruct (known k h); auto. Qed.
Lemma start_timer_good (m : profiler) k now : forall k', a_find eqb k' (timers K D (start_timer K eqb D m k now)) = if eqb k' k then Some now else a_find eqb k' (timers K D m).
Proof. intros k'. unfold start_timer. cbn [timers stopwatch_call fst]. apply (a_find_set eqb E). Qed.
Lemma add_data_spec m k d : Forall (fun b => b = []) (buffer K D m) ->
  let m' := add_data K eqb D m k d in
  (forall k', a_find eqb k' (data K D m') = if eqb k' k then Some (match a_find eqb k (data K D m) with Some v => v | None => [] end ++ [d]) else a_find eqb k' (data K D m)) /\
  timers K D m' = timers K D m /\ timed K D m' = timed K D m /\ Forall (fun b => b = []) (buffer K D m').
Proof.
  intros B. unfold add_data, has. destruct (a_find eqb k (data K D m)) as [v|] eqn:F.
  - unfold at_. rewrite F. cbn [set_data data timers timed buffer fst snd app]. split; auto. intros k'. apply (a_find_set eqb E).
  - destruct (rev (buffer K D m)) as [|b rest] eqn:R.
    + unfold at_. cbn [set_data data]. rewrite (a_find_set eqb E). destruct (E k k) as [_|N]; [|congruence]. cbn [set_data data timers timed buffer fst snd app]. split; auto.
      intros k'. rewrite !(a_find_set eqb E). destruct (eqb k' k); auto.
    + assert (X : buffer K D m = rev rest ++ [b]) by (rewrite <- (rev_involutive (buffer K D m)), R; auto). rewrite X in B. apply Forall_app in B as [B1 B2]. inversion B2. subst b.
      unfold at_. cbn [set_data data]. rewrite (a_find_set eqb E). destruct (E k k) as [_|N]; [|congruence]. cbn [set_data data timers timed buffer fst snd app]. split; auto.
      intros k'. rewrite !(a_find_set eqb E). destruct (eqb k' k); auto.
Qed.
Lemma step_good m h o now : good m h -> good (fst (step m o now)) ((o, now) :: h).
Proof.
  intros G. destruct o as [n|k|k d|k|k|k d|k|k]; cbn [step fst].
  - constructor; cbn; intros; auto using (g_timers _ _ G).
    apply Forall_app. split; [apply Forall_forall; intros b I; apply (proj1 (Forall_forall _ _) (g_buffer _ _ G)); rewrite <- (firstn_skipn n (buffer K D m)); apply in_or_app; auto|].
    apply Forall_forall. intros b I. apply repeat_spec in I. auto.
  - unfold reset. rewrite (has_known _ _ _ G). destruct (known k h) eqn:KN.
    + constructor; cbn [known recorded started_at recorded_doubles]; intros.
      * unfold start_timer, set_data. cbn [data]. rewrite (a_find_set eqb E). destruct (E k0 k) as [ -> |N]; [rewrite KN; auto|apply (g_data _ _ G)].
      * rewrite (g_unknown _ _ G) by auto. destruct (eqb k0 k); auto.
      * rewrite start_timer_good by auto. cbn [set_data timers]. destruct (E k0 k) as [ -> |N]; [rewrite KN; auto|apply (g_timers _ _ G)].
      * apply (g_timed _ _ G).
      * apply (g_buffer _ _ G).
    + constructor; cbn [known recorded started_at recorded_doubles]; intros; base G.
      * rewrite (g_data _ _ G). destruct (E k0 k) as [ -> |N]; auto. rewrite KN. auto.
      * rewrite (g_unknown _ _ G) by auto. destruct (eqb k0 k); auto.
      * rewrite (g_timers _ _ G). destruct (E k0 k) as [ -> |N]; auto. rewrite KN. auto.
  - destruct (add_data_spec m k d (g_buffer _ _ G)) as (A1 & A2 & A3 & A4). constructor; cbn [known recorded started_at recorded_doubles]; intros.
    + rewrite A1, !(g_data _ _ G). destruct (E k0 k) as [ -> |N]; auto. cbn [orb]. destruct (known k h) eqn:KN; auto. rewrite (g_unknown _ _ G) by auto. auto.
    + destruct (E k0 k); [discriminate|]. apply (g_unknown _ _ G); auto.
    + rewrite A2. apply (g_timers _ _ G).
    + rewrite A3. apply (g_timed _ _ G).
    + auto.
  - constructor; cbn [known recorded started_at recorded_doubles]; intros; base G.
    rewrite start_timer_good by auto. rewrite (g_timers _ _ G). auto.
  - unfold record_. rewrite (g_timers _ _ G). destruct (started_at k h) as [s|] eqn:ST.
    + cbn [stopwatch_call fst]. set (m' := Build_profiler _ _ _ _ _ _). destruct (add_data_spec m' k (secs (now - s)) (g_buffer _ _ G)) as (A1 & A2 & A3 & A4).
      constructor; cbn [known recorded started_at recorded_doubles]; intros.
      * rewrite A1. cbn [m' data]. rewrite !(g_data _ _ G). destruct (E k0 k) as [ -> |N]; cbn [andb orb]; auto. rewrite ST. cbn [orb]. destruct (known k h) eqn:KN; auto. rewrite (g_unknown _ _ G) by auto. auto.
      * rename H into HK. destruct (E k0 k) as [EQ|N]; [subst k0; rewrite ST in HK; discriminate|]. apply (g_unknown _ _ G); auto.
      * rewrite A2. cbn [m' timers]. rewrite (a_find_set eqb E). destruct (E k0 k) as [ -> |N]; [auto|apply (g_timers _ _ G)].
      * rewrite A3. apply (g_timed _ _ G).
      * auto.
    + constructor; cbn [known recorded started_at recorded_doubles fst]; intros; base G.
      * rewrite (g_data _ _ G). destruct (E k0 k) as [ -> |N]; auto. rewrite ST. auto.
      * rename H into HK. destruct (E k0 k) as [EQ|N]; [subst k0; rewrite ST in *|]; apply (g_unknown _ _ G); auto.
  - unfold record_double. rewrite (g_timers _ _ G). set (el := match started_at k h with Some _ => _ | None => _ end).
    assert (F : at_ K eqb k (if has K eqb k (timed K D m) then timed K D m else a_set eqb k [] (timed K D m)) = (recorded_doubles k h, if has K eqb k (timed K D m) then timed K D m else a_set eqb k [] (timed K D m))).
    { unfold at_, has. rewrite (g_timed _ _ G). destruct (recorded_doubles k h) eqn:R; [rewrite (a_find_set eqb E); destruct (E k k); [auto|congruence]|rewrite (g_timed _ _ G), R; auto]. }
    rewrite F. constructor; cbn [known recorded started_at recorded_doubles fst data timers buffer]; intros; base G.
    cbn [timed]. rewrite (a_find_set eqb E). destruct (E k0 k) as [ -> |N].
    + change (match started_at k h with Some s => secs (now - s) | None => dzero end) with el. destruct (recorded_doubles k h); auto.
    + unfold has. destruct (a_find eqb k (timed K D m)); [apply (g_timed _ _ G)|]. rewrite (a_find_set eqb E). destruct (E k0 k); [contradiction|]. apply (g_timed _ _ G).
  - unfold get_data, at_. rewrite (g_data _ _ G). destruct (known k h) eqn:KN; constructor; cbn [known recorded started_at recorded_doubles fst set_data data timers timed buffer]; intros; base G.
    + rewrite (g_data _ _ G). destruct (E k0 k) as [ -> |N]; auto. rewrite KN. auto.
    + apply (g_unknown _ _ G). destruct (eqb k0 k); [discriminate|auto].
    + rewrite (a_find_set eqb E), (g_data _ _ G). destruct (E k0 k) as [ -> |N]; auto. cbn [orb]. rewrite (g_unknown _ _ G) by auto. auto.
    + apply (g_unknown _ _ G). destruct (eqb k0 k); [discriminate|auto].
  - unfold print_single, get_data, at_. rewrite (has_known _ _ _ G). destruct (known k h) eqn:KN; cbn [negb].
    + rewrite (g_data _ _ G), KN. constructor; cbn [known recorded started_at recorded_doubles fst set_data data timers timed buffer]; intros; base G.
    + constructor; cbn [known recorded started_at recorded_doubles fst]; intros; base G.
Qed.
Lemma run_good h : good (run h) h.
Proof. induction h as [|[o now] h IH]; [|apply step_good; auto]. constructor; cbn; auto. Qed.

(** C53: getData returns the values recorded since the last reset, for every history. *)
Theorem C53_get_data : forall h now k, snd (step (run h) (GetData K D k) now) = Ok (RData D (recorded k h)).
Proof.
  intros h now k. pose proof (run_good h) as G. cbn [step]. unfold get_data, at_. rewrite (g_data _ _ G). destruct (known k h) eqn:KN; cbn; auto. rewrite (g_unknown _ _ G); auto.
Qed.
(** record returns the time since the timer was started, by startTimer or by a reset of a name with data, records it, and
    throws without effect when it was not; recordDouble falls back to 0. *)
Theorem C53_record_partial : forall h now k,
  (forall s, started_at k h = Some s -> snd (step (run h) (Record_ K D k) now) = Ok (RTime D (secs (now - s)))) /\
  (started_at k h = None -> step (run h) (Record_ K D k) now = (run h, Throw LogicError)) /\
  (forall d, snd (step (run h) (RecordDouble K D k d) now) = Ok (RTime D (match started_at k h with Some s => secs (now - s) | None => dzero end))).
Proof.
  intros h now k. pose proof (run_good h) as G. cbn [step]. unfold record_, record_double. rewrite (g_timers _ _ G). split; [|split].
  - intros s ->. reflexivity.
  - intros ->. reflexivity.
  - intros d. destruct (at_ _ _ _ _). destruct (started_at k h); reflexivity.
Qed.
(** Operations on other names make no difference. *)
Definition concerns (k : K) (e : op * Z) : bool :=
  match fst e with
  | ResetAll _ _ _ => true
  | Reset _ _ k' | AddData _ _ k' _ | StartTimer _ _ k' | Record_ _ _ k' | RecordDouble _ _ k' _ | GetData _ _ k' | PrintSingle _ _ k' => eqb k k'
  end.
Lemma concerns_spec k h : known k (filter (concerns k) h) = known k h /\ started_at k (filter (concerns k) h) = started_at k h /\ recorded k (filter (concerns k) h) = recorded k h /\ recorded_doubles k (filter (concerns k) h) = recorded_doubles k h.
Proof.
  set (f := concerns k). assert (F : forall e, f e = concerns k e) by reflexivity. clearbody f.
  induction h as [|[o t] h (H1 & H2 & H3 & H4)]; [cbn; auto|]. cbn [filter]. rewrite F. unfold concerns. cbn [fst].
  destruct o as [n|k'|k' d|k'|k'|k' d|k'|k']; [cbn; auto|..]; destruct (eqb k k') eqn:Q; cbn [known started_at recorded recorded_doubles andb orb]; rewrite ?Q; cbn [andb orb]; rewrite ?H1, ?H2, ?H3, ?H4; auto.
Qed.
Theorem C53_other_names : forall h now k o, concerns k (o, now) = true -> (forall n, o <> ResetAll K D n) ->
  snd (step (run h) o now) = snd (step (run (filter (concerns k) h)) o now).
Proof.
  intros h now k o C NR. pose proof (run_good h) as G. pose proof (run_good (filter (concerns k) h)) as G'. destruct (concerns_spec k h) as (H1 & H2 & H3 & H4).
  destruct o as [n|k'|k' d|k'|k'|k' d|k'|k']; cbn in C; [congruence|..]; destruct (E k k'); try discriminate; subst k'; cbn [step]; auto.
  - unfold record_. rewrite (g_timers _ _ G), (g_timers _ _ G'), H2. destruct (started_at k h); auto.
  - unfold record_double. rewrite (g_timers _ _ G), (g_timers _ _ G'), H2. destruct (at_ _ _ _ _), (at_ _ _ _ _). reflexivity.
  - pose proof (C53_get_data h now k) as A. pose proof (C53_get_data (filter (concerns k) h) now k) as A'. cbn [step] in A, A'. rewrite A, A', H3. auto.
  - unfold print_single. rewrite (has_known _ _ _ G), (has_known _ _ _ G'), H1. destruct (known k h) eqn:KN; auto. cbn [negb].
    unfold get_data, at_. rewrite (g_data _ _ G), (g_data _ _ G'), H1, KN, H3. reflexivity.
Qed.

(** C71: the summary printed for a name is its number of values, their sum (from the first on), least, greatest and mean. *)
Definition least (l : list D) (x : D) : Prop := In x l /\ forall y, In y l -> dltb y x = false.
Definition greatest (l : list D) (x : D) : Prop := In x l /\ forall y, In y l -> dltb x y = false.
Hypothesis asym : forall x y, dltb x y = true -> dltb y x = false.
Hypothesis negtrans : forall x y z, dltb x y = false -> dltb y z = false -> dltb x z = false.
Lemma irrefl x : dltb x x = false.
Proof. destruct (dltb x x) eqn:Q; auto. rewrite (asym _ _ Q) in Q. auto. Qed.
Lemma min_loop : forall l x, let b := fold_left (fun b y => if dltb y b then y else b) l x in (b = x \/ In b l) /\ dltb x b = false /\ forall y, In y l -> dltb y b = false.
Proof.
  induction l as [|z l IH]; intros x; cbn; [split; [auto|split; [apply irrefl|intros _ []]]|].
  destruct (dltb z x) eqn:Q; [destruct (IH z) as (A & B & C)|destruct (IH x) as (A & B & C)]; cbn in A, B, C; set (b := fold_left _ _ _) in *.
  - split; [destruct A; auto|]. split; [apply (negtrans _ z); auto|]. intros y [ <- |I]; auto.
  - split; [destruct A; auto|]. split; auto. intros y [ <- |I]; auto. apply (negtrans _ x); auto.
Qed.
Lemma max_loop : forall l x, let b := fold_left (fun b y => if dltb b y then y else b) l x in (b = x \/ In b l) /\ dltb b x = false /\ forall y, In y l -> dltb b y = false.
Proof.
  induction l as [|z l IH]; intros x; cbn; [split; [auto|split; [apply irrefl|intros _ []]]|].
  destruct (dltb x z) eqn:Q; [destruct (IH z) as (A & B & C)|destruct (IH x) as (A & B & C)]; cbn in A, B, C; set (b := fold_left _ _ _) in *.
  - split; [destruct A; auto|]. split; [apply (negtrans _ z); auto|]. intros y [ <- |I]; auto.
  - split; [destruct A; auto|]. split; auto. intros y [ <- |I]; auto. apply (negtrans _ x); auto.
Qed.
Theorem C71_summary_partial : forall h now k, recorded k h <> [] -> exists s,
  snd (step (run h) (PrintSingle K D k) now) = Ok (RSummary D (Some s)) /\ s_count D s = length (recorded k h) /\
  s_total D s = fold_left dadd (recorded k h) dzero /\ s_avg D s = ddiv (s_total D s) (s_count D s) /\ least (recorded k h) (s_min D s) /\ greatest (recorded k h) (s_max D s).
Proof.
  intros h now k NE. pose proof (run_good h) as G. cbn [step]. unfold print_single. rewrite (has_known _ _ _ G). destruct (known k h) eqn:KN; [|elim NE; apply (g_unknown _ _ G); auto].
  cbn [negb]. unfold get_data, at_. rewrite (g_data _ _ G), KN. destruct (recorded k h) as [|x l]; [congruence|]. cbn [min_element max_element obind].
  eexists. split; [reflexivity|]. cbn [s_count s_total s_avg s_min s_max]. split; auto. split; auto. split; auto.
  destruct (min_loop l x) as (A & B & C). destruct (max_loop l x) as (A' & B' & C'). cbn zeta in *. split; (split; [destruct A, A'; cbn; auto|]); intros y [ <- |I]; auto.
Qed.
Theorem C71_unknown : forall h now k, known k h = false -> snd (step (run h) (PrintSingle K D k) now) = Ok (RSummary D None).
Proof. intros h now k H. pose proof (run_good h) as G. cbn [step]. unfold print_single. rewrite (has_known _ _ _ G), H. reflexivity. Qed.

(** C72: writeAll writes, for every name, its values and its (time, value) pairs in order, each kind only when there are
    fewer than the limit; partial: no name may carry both kinds, and there must be some name. *)
Variable sort : list K -> list K.
Hypothesis sort_perm : forall l, Permutation (sort l) l.
Definition lines_of (k : K) (l : list (K * D * option D)) : list (K * D * option D) := filter (fun r => eqb (fst (fst r)) k) l.
Definition expected_lines (h : list (op * Z)) (limit : nat) (k : K) : list (K * D * option D) :=
  (if (length (recorded k h) <? limit)%nat then map (fun v => (k, v, None)) (recorded k h) else []) ++
  (if (length (recorded_doubles k h) <? limit)%nat then map (fun v => (k, fst v, Some (snd v))) (recorded_doubles k h) else []).
Lemma step_nodup m o now : NoDup (map fst (data K D m)) -> NoDup (map fst (timed K D m)) -> NoDup (map fst (data K D (fst (step m o now)))) /\ NoDup (map fst (timed K D (fst (step m o now)))).
Proof.
  intros N1 N2. assert (AD : forall m k d, NoDup (map fst (data K D m)) -> NoDup (map fst (data K D (add_data K eqb D m k d))) /\ timed K D (add_data K eqb D m k d) = timed K D m).
  { intros m' k d N. unfold add_data. assert (X : forall m'', NoDup (map fst (data K D m'')) -> NoDup (map fst (data K D (let (v, e) := at_ K eqb k (data K D m'') in set_data K D m'' (a_set eqb k (v ++ [d]) e)))) /\ timed K D (let (v, e) := at_ K eqb k (data K D m'') in set_data K D m'' (a_set eqb k (v ++ [d]) e)) = timed K D m'').
    { intros m'' N''. unfold at_. destruct (a_find eqb k (data K D m'')); cbn [set_data data timed]; split; auto; repeat apply (a_set_nodup eqb E); auto. }
    destruct (has K eqb k (data K D m')); [apply X; auto|]. destruct (rev (buffer K D m')); match goal with |- context [at_ K eqb k (data K D ?mm)] => destruct (X mm) as [X1 X2] end; auto; cbn [set_data data]; apply (a_set_nodup eqb E); auto. }
  destruct o as [n|k|k d|k|k|k d|k|k]; cbn [step fst].
  - cbn. split; constructor.
  - unfold reset. destruct (has K eqb k (data K D m)); auto. cbn [start_timer set_data data timed]. split; auto. apply (a_set_nodup eqb E); auto.
  - destruct (AD m k d N1) as [X1 X2]. rewrite X2. auto.
  - auto.
  - unfold record_. destruct (a_find eqb k (timers K D m)) as [s|]; auto. cbn [stopwatch_call fst]. match goal with |- context [add_data K eqb D ?mm k ?d] => destruct (AD mm k d N1) as [X1 X2] end. rewrite X2. auto.
  - unfold record_double, at_, has. destruct (a_find eqb k (timed K D m)) eqn:F; [rewrite F|rewrite (a_find_set eqb E); destruct (E k k); [|congruence]]; cbn [fst data timed]; split; auto; repeat apply (a_set_nodup eqb E); auto.
  - unfold get_data, at_. destruct (a_find eqb k (data K D m)); cbn [fst set_data data timed]; split; auto. apply (a_set_nodup eqb E); auto.
  - unfold print_single. destruct (has K eqb k (data K D m)); auto. cbn [negb]. unfold get_data, at_. destruct (a_find eqb k (data K D m)); cbn [fst set_data data timed]; split; auto. apply (a_set_nodup eqb E); auto.
Qed.
Lemma run_nodup h : NoDup (map fst (data K D (run h))) /\ NoDup (map fst (timed K D (run h))).
Proof. induction h as [|[o now] h [H1 H2]]; [cbn; split; constructor|]. apply step_nodup; auto. Qed.
Lemma lines_of_flat (f : K -> list (K * D * option D)) k : (forall k' r, In r (f k') -> fst (fst r) = k') -> forall names, NoDup names ->
  lines_of k (flat_map f names) = if existsb (eqb k) names then f k else [].
Proof.
  intros F. unfold lines_of. assert (A : forall k', filter (fun r => eqb (fst (fst r)) k) (f k') = if eqb k k' then f k' else []).
  { intros k'. specialize (F k'). induction (f k') as [|r l IH]; [destruct (eqb k k'); auto|]. cbn [filter]. rewrite IH by (intros; apply F; right; auto). rewrite (F r) by (left; auto). destruct (E k' k), (E k k'); auto; congruence. }
  induction names as [|k' names IH]; intros ND; auto. inversion ND. subst. cbn [flat_map existsb]. rewrite filter_app, A, IH by auto. destruct (E k k') as [ -> |N]; cbn [orb]; auto.
  destruct (existsb (eqb k') names) eqn:X; [|apply app_nil_r]. exfalso. apply existsb_exists in X. destruct X as (x & I & Q). destruct (E k' x); [subst; contradiction|discriminate].
Qed.
Theorem C72_write_all_partial : forall h limit, (forall k, known k h = true -> recorded_doubles k h = []) -> (exists k, known k h = true \/ recorded_doubles k h <> []) ->
  exists lines, write_all K eqb D sort (run h) limit = Ok lines /\ forall k, lines_of k lines = expected_lines h limit k.
Proof.
  intros h limit DISJ (k1 & K1). pose proof (run_good h) as G. destruct (run_nodup h) as [N1 N2]. unfold write_all, all_names.
  set (names := sort _). assert (P : Permutation names (map fst (data K D (run h)) ++ map fst (timed K D (run h)))) by apply sort_perm.
  assert (IN : forall k, In k names <-> known k h = true \/ recorded_doubles k h <> []).
  { intros k. rewrite (Permutation_in' (eq_refl k) P), in_app_iff, <- !(a_find_key eqb E), (g_data _ _ G), (g_timed _ _ G). destruct (known k h), (recorded_doubles k h); split; intros; eauto; try (left; eauto; fail); try (right; eauto; fail); destruct H as [H|H]; try (destruct H; discriminate); try discriminate; try congruence; try (left; eauto; fail); try (right; congruence). }
  assert (ND : NoDup names).
  { apply (Permutation_NoDup (Permutation_sym P)). clear P IN. assert (DJ : forall k, In k (map fst (data K D (run h))) -> ~ In k (map fst (timed K D (run h)))).
    { intros k I1 I2. apply (a_find_key eqb E) in I1, I2. rewrite (g_data _ _ G) in I1. rewrite (g_timed _ _ G) in I2. destruct (known k h) eqn:KN; [rewrite (DISJ k KN) in I2|]; [destruct I2|destruct I1]; discriminate. }
    induction (map fst (data K D (run h))) as [|a l IH]; auto. inversion N1. subst. cbn. constructor; [rewrite in_app_iff; intros [I|I]; [contradiction|apply (DJ a); auto; left; auto]|apply IH; auto; intros; apply DJ; right; auto]. }
  destruct names as [|a names'] eqn:EN; [exfalso; apply (IN k1); auto|]. rewrite <- EN in *. eexists. split; [reflexivity|]. intros k. rewrite lines_of_flat; auto.
  - unfold write_name, expected_lines. rewrite (g_data _ _ G), (g_timed _ _ G). destruct (existsb (eqb k) names) eqn:X.
    + f_equal; [destruct (known k h) eqn:KN; auto; rewrite (g_unknown _ _ G) by auto; destruct limit; auto|]. destruct (recorded_doubles k h); auto. destruct limit; auto.
    + assert (NI : ~ In k names). { intros I. assert (existsb (eqb k) names = true); [|congruence]. apply existsb_exists. exists k. split; auto. destruct (E k k); auto. }
      rewrite IN in NI. destruct (known k h) eqn:KN; [elim NI; auto|]. destruct (recorded_doubles k h); [|elim NI; right; discriminate]. rewrite (g_unknown _ _ G) by auto. destruct limit; auto.
  - intros k' r I. unfold write_name in I. apply in_app_iff in I. destruct I as [I|I]; [destruct (a_find eqb k' (data K D (run h))) as [d|]|destruct (a_find eqb k' (timed K D (run h))) as [d|]]; try destruct I;
    (destruct (length d <? limit)%nat; [|destruct I]); apply in_map_iff in I; destruct I as (v & <- & _); auto.
Qed.
End P.
Print Assumptions C53_get_data.
Print Assumptions C53_record_partial.
Print Assumptions C53_other_names.
Print Assumptions C71_summary_partial.
Print Assumptions C71_unknown.
Print Assumptions C72_write_all_partial.

(** ** Concrete histories: names are numbers, values are ticks *)
Notation nrun := (run nat Nat.eqb Z 0%Z Z.add (fun a n => Z.div a (Z.of_nat n)) Z.ltb (fun t => t)).
Notation nstep := (step nat Nat.eqb Z 0%Z Z.add (fun a n => Z.div a (Z.of_nat n)) Z.ltb (fun t => t)).
Definition h1 : list (op nat Z * Z) :=
  [(Record_ nat Z 1, 30%Z); (AddData nat Z 2 5%Z, 25%Z); (StartTimer nat Z 1, 20%Z); (Record_ nat Z 1, 14%Z); (StartTimer nat Z 1, 10%Z); (ResetAll nat Z 2, 0%Z)].
Example C53_example : recorded Nat.eqb (fun t => t) 1 h1 = [4; 10]%Z /\ snd (nstep (nrun h1) (GetData nat Z 1) 40) = Ok (RData Z [4; 10]%Z).
Proof. split; reflexivity. Qed.
Example C71_example : snd (nstep (nrun h1) (PrintSingle nat Z 1) 40) = Ok (RSummary Z (Some {| s_total := 14; s_count := 2; s_min := 4; s_max := 10; s_avg := 7 |}%Z)).
Proof. reflexivity. Qed.
Example C72_example : write_all nat Nat.eqb Z (fun l => l) (nrun ((RecordDouble nat Z 3 7%Z, 50%Z) :: h1)) 9 = Ok [(1, 4%Z, None); (1, 10%Z, None); (2, 5%Z, None); (3, 0%Z, Some 7%Z)].
Proof. reflexivity. Qed.
(** C53 is false for timers: a reset restarts the timer (so record does not return the time since the last start), and lets
    record succeed on a timer that was never started. *)
Fixpoint last_start (k : nat) (h : list (op nat Z * Z)) : option Z :=
  match h with [] => None | (StartTimer _ _ k', t) :: h => if Nat.eqb k k' then Some t else last_start k h | _ :: h => last_start k h end.
Theorem C53_start_refuted :
  (exists h now s t, last_start 1 h = Some s /\ snd (nstep (nrun h) (Record_ nat Z 1) now) = Ok (RTime Z t) /\ t <> (now - s)%Z) /\
  (exists h now t, last_start 1 h = None /\ snd (nstep (nrun h) (Record_ nat Z 1) now) = Ok (RTime Z t)).
Proof.
  split.
  - exists [(Reset nat Z 1, 5%Z); (AddData nat Z 1 3%Z, 2%Z); (StartTimer nat Z 1, 0%Z)], 10%Z, 0%Z, 5%Z. repeat split; discriminate.
  - exists [(Reset nat Z 1, 5%Z); (GetData nat Z 1, 2%Z)], 10%Z, 5%Z. split; reflexivity.
Qed.
Print Assumptions C53_start_refuted.
(** Resetting a name does not clear the values recorded by recordDouble under it. *)
Theorem C53_doubles_refuted : exists h k, a_find Nat.eqb k (timed nat Z (nrun ((Reset nat Z k, 9%Z) :: h))) = Some [(0%Z, 7%Z)].
Proof. exists [(AddData nat Z 1 2%Z, 4%Z); (RecordDouble nat Z 1 7%Z, 3%Z)], 1. reflexivity. Qed.
Print Assumptions C53_doubles_refuted.
(** C71 is false once the name was reset, or merely asked for: least and greatest of no values. *)
Theorem C71_empty_refuted : exists h now, snd (nstep (nrun h) (PrintSingle nat Z 1) now) = UB /\ recorded Nat.eqb (fun t => t) 1 h = [].
Proof. exists [(GetData nat Z 1, 2%Z)], 10%Z. split; reflexivity. Qed.
Print Assumptions C71_empty_refuted.
(** C72 is false for a name with both kinds of data, whose lines are written twice, and for a profiler without data. *)
Theorem C72_twice_refuted : exists h, write_all nat Nat.eqb Z (fun l => l) (nrun h) 9 = Ok [(1, 2%Z, None); (1, 0%Z, Some 7%Z); (1, 2%Z, None); (1, 0%Z, Some 7%Z)].
Proof. exists [(AddData nat Z 1 2%Z, 4%Z); (RecordDouble nat Z 1 7%Z, 3%Z)]. reflexivity. Qed.
Print Assumptions C72_twice_refuted.
Theorem C72_empty_refuted : write_all nat Nat.eqb Z (fun l => l) (nrun []) 9 = UB.
Proof. reflexivity. Qed.
Print Assumptions C72_empty_refuted.
