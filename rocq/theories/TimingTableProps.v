(** C151: the tables of the Profiler. *)
From Coq Require Import String Ascii Permutation.
From Verif Require Import Base Assoc TimingModel TimingProps PrintModel TimingTableModel.
Open Scope string_scope.

Section P.
Context {D : Type} (dzero : D) (dadd : D -> D -> D) (ddiv : D -> nat -> D) (dltb : D -> D -> bool) (secs : Z -> D) (fmt : D -> string).
Notation hist := (list (op string D * Z)).
Notation run := (run string String.eqb D dzero dadd ddiv dltb secs).
Notation known := (known (D := D) String.eqb).
Notation recorded := (recorded (D := D) String.eqb secs).
Notation doubles := (recorded_doubles (D := D) String.eqb dzero secs).
Notation started := (started_at (D := D) String.eqb).
Notation total l := (fold_left dadd l dzero).
Notation print_group := (print_group D dzero dadd ddiv fmt).
Notation write_group := (write_group D dzero dadd ddiv fmt).

(** A line of a table: the name in a column of width [w], then the numbers, each in a column of width 16. *)
Definition cell (text : string) : string := rep " " (15 - String.length text) ++ text.
Definition line (w : nat) (name : string) (cells : list string) : string :=
  (name ++ rep " " (w - String.length name)) ++ fold_right (fun c s => " " ++ cell c ++ s) "" cells.
(** The name asks for a separating line. *)
Definition separates (name : string) : Prop := exists rest, name = "~~~~~" ++ rest.
(** What the table should say about a name: its total, number of calls and mean, 0 for each without calls. *)
Definition mean (l : list D) : D := match l with [] => dzero | _ => ddiv (total l) (length l) end.
Definition number (n : nat) : string := decimal (Z.of_nat n).
Definition times_cells (l : list D) : list string := [fmt (total l); number (length l); fmt (mean l)].

Lemma E : forall a b, reflect (a = b) (String.eqb a b).
Proof. apply String.eqb_spec. Qed.
Notation good_run h := (run_good String.eqb E dzero dadd ddiv dltb secs h).

Lemma sapp_assoc : forall a b c : string, (a ++ b) ++ c = a ++ b ++ c.
Proof. induction a; cbn; intros; f_equal; auto. Qed.
Lemma sapp_nil : forall a : string, a ++ "" = a.
Proof. induction a; cbn; f_equal; auto. Qed.
Lemma slen_app : forall a b, String.length (a ++ b) = String.length a + String.length b.
Proof. induction a; cbn; intros; auto. Qed.
Lemma slen_rep c n : String.length (rep c n) = n.
Proof. induction n; cbn; auto. Qed.

Lemma is_separator_spec name : reflect (separates name) (is_separator name).
Proof.
  unfold is_separator, separates.
  assert (P : forall p s : string, prefix p s = true <-> exists r, s = p ++ r).
  { induction p as [|c p IH]; intros s; [split; [exists s; auto|destruct s; auto]|]. destruct s as [|c' s]; [split; [discriminate|intros (r & X); discriminate]|].
    simpl. destruct (ascii_dec c c') as [ -> |N]; [rewrite IH; split; intros (r & X); exists r; [congruence|injection X; auto]|split; [discriminate|intros (r & X); congruence]]. }
  destruct (prefix "~~~~~" name) eqn:Q; constructor; rewrite <- P; [auto|congruence].
Qed.
Lemma fold_max_ge l : forall b, b <= fold_left (fun b s => Nat.max b (String.length s)) l b /\ forall s, In s l -> String.length s <= fold_left (fun b s => Nat.max b (String.length s)) l b.
Proof.
  induction l as [|x l IH]; intros b; cbn; [split; [lia|intros _ []]|]. destruct (IH (Nat.max b (String.length x))) as [A B]. split; [lia|]. intros s [ <- |I]; [lia|auto].
Qed.
Lemma fold_max_in l : forall b, fold_left (fun b s => Nat.max b (String.length s)) l b = b \/ exists s, In s l /\ fold_left (fun b s => Nat.max b (String.length s)) l b = String.length s.
Proof.
  induction l as [|x l IH]; intros b; cbn; auto. destruct (IH (Nat.max b (String.length x))) as [Q|(s & I & Q)]; [|right; exists s; auto].
  rewrite Q. destruct (Nat.max_spec b (String.length x)) as [[_ ->]|[_ ->]]; [right; exists x; auto|left; auto].
Qed.
(** The width of the first column: two blanks after the longest name, and 8 at least. *)
Definition width_for (names : list string) (w : nat) : Prop :=
  8 <= w /\ (forall n, In n names -> String.length n + 2 <= w) /\ (w = 8 \/ exists n, In n names /\ w = String.length n + 2).
Lemma label_len_spec names : names <> [] -> exists w, label_len names = Ok w /\ width_for names w.
Proof.
  destruct names as [|n names]; [congruence|]. intros _. eexists. split; [reflexivity|]. destruct (fold_max_ge names (String.length n)) as [A B]. split; [lia|]. split.
  - intros s [ <- |I]; [lia|]. specialize (B s I). lia.
  - set (f := fold_left _ _ _) in *. destruct (le_lt_dec 6 f); [right|left; lia]. destruct (fold_max_in names (String.length n)) as [Q|(s & I & Q)]; fold f in Q.
    + exists n. split; [left; auto|lia].
    + exists s. split; [right; auto|lia].
Qed.

(** printGroupSummary: a box, the head of the table and a line for every name, in order.  Partial: for names without calls that are known to the
    profiler (they were reset, or merely asked for) the mean is the quotient 0 / 0. *)
Definition head_cells : list string := ["tot time (s)"; "num_calls"; "avg time (s)"].
Theorem C151_print_partial : forall (h : hist) names, names <> [] -> (forall n, In n names -> known n h = true -> recorded n h <> []) ->
  exists w lines, print_group (run h) names = Ok (box ++ lines)%list /\ width_for names w /\
    hd_error lines = Some (line w "Label" head_cells) /\
    Forall2 (fun n l => (separates n -> l = separator w) /\ (~ separates n -> l = line w n (times_cells (recorded n h)))) names (tl lines).
Proof.
  intros h names NE K. destruct (label_len_spec names NE) as (w & L & W). unfold TimingTableModel.print_group. rewrite L. cbn [obind].
  exists w. eexists. split; [reflexivity|]. split; auto. split.
  - reflexivity.
  - cbn [tl]. clear L W NE. induction names as [|n names IH]; constructor; [|apply IH; intros; apply K; auto; right; auto].
    unfold print_row. destruct (is_separator_spec n) as [S|S]; split; intros; try contradiction; auto.
    pose proof (good_run h) as G. rewrite (g_data _ _ _ _ _ G). specialize (K n (or_introl eq_refl)).
    destruct (known n h) eqn:KN; [|rewrite (g_unknown _ _ _ _ _ G n KN) in *]; unfold sum, mean, times_cells, line, rpad, f15, n15, lpad; cbn [fold_right]; unfold cell, number, mean;
    [destruct (recorded n h); [elim K; auto|]|]; rewrite !sapp_assoc, sapp_nil; reflexivity.
Qed.

(** The table is straight: when every number takes at most 15 characters, all lines below the box have the same length. *)
Definition fits (l : list D) : Prop := String.length (fmt (total l)) <= 15 /\ String.length (number (length l)) <= 15 /\ String.length (fmt (mean l)) <= 15.
Lemma line_length w name cells : String.length name <= w -> Forall (fun c => String.length c <= 15) cells -> String.length (line w name cells) = w + 16 * length cells.
Proof.
  intros H F. assert (L : forall cs, Forall (fun c => String.length c <= 15) cs -> String.length (fold_right (fun c s => " " ++ cell c ++ s) "" cs) = 16 * length cs).
  { induction 1 as [|c cs C F' IH]; auto. cbn [fold_right]. rewrite !slen_app, IH. unfold cell. rewrite slen_app, slen_rep. cbn [String.length length]. lia. }
  destruct cells; unfold line; rewrite slen_app, L by auto; rewrite slen_app, slen_rep; lia.
Qed.
Lemma separator_length w : 2 <= w -> String.length (separator w) = w + 48.
Proof. intros. unfold separator. rewrite !slen_app, !slen_rep. cbn [String.length]. lia. Qed.
Theorem C151_straight_partial : forall (h : hist) names, names <> [] -> (forall n, In n names -> known n h = true -> recorded n h <> []) ->
  (forall n, In n names -> fits (recorded n h)) ->
  exists w lines, print_group (run h) names = Ok (box ++ lines)%list /\ length lines = S (length names) /\ forall l, In l lines -> String.length l = w.
Proof.
  intros h names NE K F. destruct (C151_print_partial h names NE K) as (w & lines & P & (W8 & WN & _) & H & R). destruct lines as [|l0 lines]; [discriminate|]. injection H as ->. cbn [tl] in R.
  exists (w + 48), (line w "Label" head_cells :: lines). split; auto. split; [cbn; f_equal; clear -R; induction R; cbn; auto|].
  intros l [ <- |I].
  - rewrite line_length; [reflexivity|cbn; lia|]. repeat constructor; cbn; lia.
  - clear P NE K. induction R as [|n l' names lines [R1 R2] R IH]; [destruct I|]. destruct I as [ <- |I].
    + destruct (is_separator_spec n) as [S|S]; [rewrite (R1 S); apply separator_length; lia|]. rewrite (R2 S), line_length; [reflexivity|specialize (WN n (or_introl eq_refl)); lia|].
      destruct (F n (or_introl eq_refl)) as (F1 & F2 & F3). apply Forall_cons; [exact F1|]. apply Forall_cons; [exact F2|]. apply Forall_cons; [exact F3|apply Forall_nil].
    + apply IH; auto; intros; [apply F|apply WN]; right; auto.
Qed.

(** writeGroupSummary adds to the end of the file: the date, the head, a line for every name and an empty line; a name of recordDouble also gets the
    sums and means of its values, and names of both kinds are warned about. *)
Definition doubles_cells (l : list (D * D)) : list string :=
  [fmt (total (map fst l)); number (length l); fmt (ddiv (total (map fst l)) (length l)); fmt (total (map snd l)); fmt (ddiv (total (map snd l)) (length l))].
Theorem C151_write_partial : forall date (h : hist) names old, names <> [] -> (forall n, In n names -> known n h = true -> recorded n h <> []) ->
  exists w lines warned, write_group date (run h) names (Some old) = Ok ((old ++ [date; ""; line w "Label" (head_cells ++ ["total value"; "avg value"])] ++ lines ++ [""])%list, warned) /\
    width_for names w /\
    Forall2 (fun n l => (separates n -> l = separator w) /\
      (~ separates n -> l = line w n (if known n h then times_cells (recorded n h) else match doubles n h with [] => times_cells [] | d => doubles_cells d end))) names lines /\
    forall n, In n warned <-> In n names /\ ~ separates n /\ known n h = true /\ doubles n h <> [].
Proof.
  intros date h names old NE K. destruct (label_len_spec names NE) as (w & L & W). unfold TimingTableModel.write_group. rewrite L. cbn [obind].
  assert (WH : write_header w = line w "Label" (head_cells ++ ["total value"; "avg value"])).
  { unfold write_header, header, line. rewrite !sapp_assoc. reflexivity. }
  rewrite WH. exists w. do 2 eexists. split; [reflexivity|]. pose proof (good_run h) as G. split; [auto|]. split.
  - clear L W NE. induction names as [|n names IH]; constructor; [|apply IH; intros; apply K; auto; right; auto].
    unfold write_row. destruct (is_separator_spec n) as [S|S]; split; intros; try contradiction; auto.
    rewrite (g_data _ _ _ _ _ G), (g_timed _ _ _ _ _ G). specialize (K n (or_introl eq_refl)). destruct (known n h) eqn:KN.
    + cbn [fst]. unfold sum, times_cells, mean. destruct (recorded n h); [elim K; auto|]. unfold line, rpad, f15, n15, lpad. cbn [fold_right]. unfold cell, number. rewrite !sapp_assoc, sapp_nil. reflexivity.
    + assert (FM : forall (f : D * D -> D) l x, fold_left (fun s v => dadd s (f v)) l x = fold_left dadd (map f l) x) by (intros f; induction l; cbn; auto).
      destruct (doubles n h) as [|d ds] eqn:DD; cbn [fst].
      * unfold times_cells, line, rpad, f15, n15, lpad. cbn [fold_right]. unfold cell, number, mean. cbn [length fold_left]. rewrite !sapp_assoc, sapp_nil. reflexivity.
      * rewrite !FM. unfold doubles_cells, line, rpad, f15, n15, lpad. cbn [fold_right]. unfold cell, number. rewrite !sapp_assoc, sapp_nil. reflexivity.
  - intros n. rewrite filter_In. unfold write_row. destruct (is_separator_spec n) as [S|S]; cbn [snd]; [intuition discriminate|].
    rewrite (g_data _ _ _ _ _ G), (g_timed _ _ _ _ _ G). destruct (known n h); cbn [snd].
    + destruct (doubles n h); split; intros H; intuition (try discriminate; try congruence).
    + destruct (doubles n h); cbn [snd]; split; intros H; intuition discriminate.
Qed.
(** isTimerStarted: the timer was started, by startTimer or by a reset of a name with data. *)
Theorem C151_is_started : forall (h : hist) n, is_timer_started D (run h) n = true <-> exists t, started n h = Some t.
Proof. intros h n. unfold is_timer_started. rewrite (g_timers _ _ _ _ _ (good_run h)). destruct (started n h); split; eauto; intros H; try discriminate; destruct H; discriminate. Qed.

(** The box around the title: as wide as the title with four blanks on either side and two bars, with corners above and below. *)
Definition framed (title : string) : list string :=
  let n := String.length title + 8 in
  [" ." ++ rep "=" n ++ ". "; "||" ++ rep " " 4 ++ title ++ rep " " 4 ++ "||"; " '" ++ rep "=" n ++ "' "].
Theorem C151_box : forall (h : hist) names lines, print_group (run h) names = Ok lines -> firstn 3 lines = framed "Profile Summary" /\ length lines = length names + 4.
Proof.
  intros h names lines H. unfold TimingTableModel.print_group in H. destruct (label_len names); try discriminate. cbn [obind] in H. injection H as <-. split; [reflexivity|].
  cbn [length box app]. rewrite map_length. lia.
Qed.
(** A separating line: the columns of the table filled with tildes and dots. *)
Theorem C151_separator : forall w, 2 <= w -> separator w = line w (rep "~" (w - 2)) [rep "." 12; rep "~" 9; rep "." 12].
Proof.
  intros w W. unfold separator, line. rewrite slen_rep. replace (w - (w - 2)) with 2 by lia. rewrite !sapp_assoc. reflexivity.
Qed.
End P.
Print Assumptions C151_box.
Print Assumptions C151_separator.
Print Assumptions C151_print_partial.
Print Assumptions C151_straight_partial.
Print Assumptions C151_write_partial.
Print Assumptions C151_is_started.

(** ** Concrete histories: whole numbers of seconds, [None] is not a number *)
Definition nn_add (a b : option Z) : option Z := match a, b with Some a, Some b => Some (a + b)%Z | _, _ => None end.
Definition nn_div (a : option Z) (n : nat) : option Z := match a, n with Some _, O => None | Some a, _ => Some (a / Z.of_nat n)%Z | None, _ => None end.
Definition nn_fmt (a : option Z) : string := match a with Some z => decimal z ++ ".000000" | None => "-nan" end.
Definition nn_lt (a b : option Z) : bool := match a, b with Some a, Some b => (a <? b)%Z | _, _ => false end.
Notation nrun := (run string String.eqb (option Z) (Some 0%Z) nn_add nn_div nn_lt (fun t => Some t)).
Notation nprint := (print_group (option Z) (Some 0%Z) nn_add nn_div nn_fmt).
Notation nwrite := (write_group (option Z) (Some 0%Z) nn_add nn_div nn_fmt).
Definition h2 : list (op string (option Z) * Z) :=
  [(RecordDouble string _ "cost" (Some 7%Z), 9%Z); (AddData string _ "planning" (Some 4%Z), 5%Z); (AddData string _ "planning" (Some 2%Z), 3%Z)].
Example C151_example :
  nprint (nrun h2) ["planning"; "~~~~~"; "other"] = Ok (box ++
   ["Label         tot time (s)       num_calls    avg time (s)";
    "planning          6.000000               2        3.000000";
    "~~~~~~~~      ............       ~~~~~~~~~    ............";
    "other             0.000000               0        0.000000"])%list /\
  (forall n, In n ["planning"; "~~~~~"; "other"] -> known String.eqb n h2 = true -> recorded String.eqb (fun t => Some t) n h2 <> []) /\
  (forall n, In n ["planning"; "~~~~~"; "other"] -> fits (Some 0%Z) nn_add nn_div nn_fmt (recorded String.eqb (fun t => Some t) n h2)) /\
  nwrite "today" (nrun h2) ["cost"; "planning"] (Some ["old"]) = Ok (
   ["old"; "today"; "";
    "Label         tot time (s)       num_calls    avg time (s)     total value       avg value";
    "cost              0.000000               1        0.000000        7.000000        7.000000";
    "planning          6.000000               2        3.000000"; ""], []).
Proof.
  split; [reflexivity|]. split; [intros n [ <- |[ <- |[ <- |[]]]]; cbn; discriminate|]. split; [|reflexivity].
  intros n [ <- |[ <- |[ <- |[]]]]; unfold fits; cbn; lia.
Qed.
(** A name that was reset has no mean: the table says that it is not a number. *)
Theorem C151_mean_refuted : exists h, recorded String.eqb (fun t => Some t) "a" h = [] /\ nprint (nrun h) ["a"] = Ok (box ++
   ["Label       tot time (s)       num_calls    avg time (s)";
    "a               0.000000               0            -nan"])%list.
Proof. exists [(Reset string _ "a", 9%Z); (AddData string _ "a" (Some 4%Z), 5%Z)]. split; reflexivity. Qed.
(** printAllSummary lists the names of recordDouble, with no time and no calls. *)
Theorem C151_print_all_refuted : exists h, recorded_doubles String.eqb (Some 0%Z) (fun t => Some t) "a" h = [(Some 4%Z, Some 7%Z); (Some 9%Z, Some 8%Z)] /\
  print_all (option Z) (Some 0%Z) nn_add nn_div nn_fmt (fun l => l) (nrun h) = Ok (box ++
   ["Label       tot time (s)       num_calls    avg time (s)";
    "a               0.000000               0        0.000000"])%list.
Proof. exists [(RecordDouble string _ "a" (Some 8%Z), 10%Z); (RecordDouble string _ "a" (Some 7%Z), 5%Z); (StartTimer string _ "a", 1%Z)]. split; reflexivity. Qed.
(** A name of both kinds is listed twice, and its values are missing from the file. *)
Theorem C151_both_refuted : exists h, recorded_doubles String.eqb (Some 0%Z) (fun t => Some t) "a" h = [(Some 0%Z, Some 8%Z)] /\
  write_all_summary (option Z) (Some 0%Z) nn_add nn_div nn_fmt (fun l => l) "today" (nrun h) (Some []) = Ok (
   ["today"; "";
    "Label       tot time (s)       num_calls    avg time (s)     total value       avg value";
    "a               3.000000               1        3.000000";
    "a               3.000000               1        3.000000"; ""], ["a"; "a"]).
Proof. exists [(RecordDouble string _ "a" (Some 8%Z), 10%Z); (AddData string _ "a" (Some 3%Z), 5%Z)]. split; reflexivity. Qed.
(** Without names, or a file that can be opened, nothing is guaranteed. *)
Theorem C151_empty_refuted : print_all (option Z) (Some 0%Z) nn_add nn_div nn_fmt (fun l => l) (nrun []) = UB /\ forall date m names, nwrite date m names None = UB.
Proof. split; reflexivity. Qed.
Print Assumptions C151_mean_refuted.
Print Assumptions C151_print_all_refuted.
Print Assumptions C151_both_refuted.
Print Assumptions C151_empty_refuted.
