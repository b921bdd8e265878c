(** C153: helpers for console programs. *)
From Coq Require Import Ascii String Decimal DecimalString DecimalNat DecimalPos DecimalZ.
From Verif Require Import Base ConsoleModel.
Open Scope list_scope.

(** ** The debugger *)
Definition tag : string := "TracerPid:".
Definition tab : string := String "009" EmptyString.
(** The status file of a process traced by [pid] (0 if it is not traced): something, the line of the tracer, something. *)
Definition status_text (before : string) (pid : uint) (behind : string) : string :=
  (before ++ tag ++ tab ++ NilEmpty.string_of_uint pid ++ nl ++ behind)%string.
(** The tag of the line is the first one in the file. *)
Definition first_tag (before : string) : Prop := forall a b, (before ++ tag)%string = (a ++ tag ++ b)%string -> a = before.
Definition no_zero (s : string) : Prop := forall a b, s <> (a ++ String Ascii.zero b)%string.

Lemma sapp_assoc : forall a b c : string, ((a ++ b) ++ c = a ++ b ++ c)%string.
Proof. induction a; cbn; intros; f_equal; auto. Qed.
Lemma sapp_nil : forall a : string, (a ++ "" = a)%string.
Proof. induction a; cbn; f_equal; auto. Qed.
Lemma slen_app : forall a b, String.length (a ++ b) = String.length a + String.length b.
Proof. induction a; cbn; intros; auto. Qed.
Lemma sapp_inj : forall a b c, (a ++ b = a ++ c)%string -> b = c.
Proof. induction a; cbn; intros; auto. injection H. auto. Qed.
Lemma prefix_spec a : forall s, String.prefix a s = true <-> exists b, s = (a ++ b)%string.
Proof.
  induction a as [|x a IH]; intros s; [split; [exists s; auto|destruct s; auto]|]. destruct s as [|y s]; [split; [discriminate|intros (b & E); discriminate]|].
  cbn. destruct (ascii_dec x y) as [->|N]; [|split; [discriminate|intros (b & E); injection E as <- _; congruence]]. rewrite IH. split; intros (b & E); exists b; [rewrite E; auto|injection E as E; auto].
Qed.
Lemma substring_app a : forall b, substring (String.length a) (String.length (a ++ b) - String.length a) (a ++ b) = b.
Proof.
  induction a as [|x a IH]; intros b; cbn [String.length append Nat.sub substring].
  - rewrite Nat.sub_0_r. induction b; cbn; f_equal; auto.
  - apply IH.
Qed.
(** If two beginnings of a text are given, one is a beginning of the other. *)
Lemma split_app a : forall b c d, (a ++ b = c ++ d)%string -> String.length a <= String.length c -> exists e, c = (a ++ e)%string.
Proof.
  induction a as [|x a IH]; intros b c d E L; [exists c; auto|]. destruct c as [|y c]; [cbn in L; lia|]. cbn in E. injection E as <- E. cbn in L.
  destruct (IH b c d E) as (e & ->); [lia|]. exists e. auto.
Qed.
Lemma after_eq n s : after n s = if String.prefix n s then Some (substring (String.length n) (String.length s - String.length n) s) else match s with EmptyString => None | String _ s' => after n s' end.
Proof. destruct s; reflexivity. Qed.
Lemma after_first before : forall z, first_tag before -> after tag (before ++ tag ++ z) = Some z.
Proof.
  induction before as [|c before IH]; intros z F.
  - cbn [append]. assert (P : String.prefix tag (tag ++ z) = true) by (apply prefix_spec; eauto). rewrite after_eq, P. f_equal. apply substring_app.
  - cbn [append after]. destruct (String.prefix tag (String c (before ++ tag ++ z))) eqn:P.
    + exfalso. apply prefix_spec in P as (b & P). change (String c (before ++ tag ++ z)) with (String c before ++ tag ++ z)%string in P. rewrite <- sapp_assoc in P. symmetry in P.
      apply split_app in P as (e & E); [|rewrite slen_app; lia]. specialize (F EmptyString e E). discriminate.
    + apply IH. intros a b E. specialize (F (String c a) b). cbn in F. rewrite E in F. specialize (F eq_refl). congruence.
Qed.
Lemma cstr_app a : forall b, no_zero a -> cstr (a ++ b) = (a ++ cstr b)%string.
Proof.
  induction a as [|c a IH]; intros b N; [reflexivity|]. cbn [append cstr]. destruct (Ascii.eqb c Ascii.zero) eqn:E.
  - apply Ascii.eqb_eq in E as ->. exfalso. apply (N EmptyString a). reflexivity.
  - rewrite IH; auto. intros x y ->. apply (N (String c x) y). reflexivity.
Qed.
Lemma take_app a : forall b n, String.length a <= n -> substring 0 n (a ++ b) = (a ++ substring 0 (n - String.length a) b)%string.
Proof. induction a as [|c a IH]; intros b n L; cbn [append String.length]; [rewrite Nat.sub_0_r; auto|]. cbn in L. destruct n; [lia|]. cbn. f_equal. apply IH. lia. Qed.
Definition nodigit (r : string) : Prop := match r with String c _ => ((48 <=? nat_of_ascii c)%nat && (nat_of_ascii c <=? 57)%nat) = false | EmptyString => True end.
Lemma leading_digit c s acc : ((48 <=? nat_of_ascii c)%nat && (nat_of_ascii c <=? 57)%nat) = true -> leading acc (String c s) = leading (acc * 10 + (Z.of_nat (nat_of_ascii c) - 48)) s.
Proof. intros H. cbn [leading]. rewrite H. reflexivity. Qed.
Lemma leading_uint u r : nodigit r -> forall n, leading (Z.of_nat n) (NilEmpty.string_of_uint u ++ r) = Z.of_nat (Nat.of_uint_acc u n).
Proof.
  intros F. assert (T : forall n, Nat.tail_mul 10 n = (10 * n)%nat) by (intros; apply Nat.tail_mul_spec).
  induction u; intros n.
  1: { cbn [NilEmpty.string_of_uint append Nat.of_uint_acc]. destruct r as [|c r]; [reflexivity|]. cbn [nodigit] in F. cbn [leading]. rewrite F. reflexivity. }
  all: cbn [NilEmpty.string_of_uint append Nat.of_uint_acc]; match goal with |- leading _ (String ?c ?s) = _ => rewrite (leading_digit c s (Z.of_nat n) ltac:(reflexivity)) end; rewrite <- IHu; f_equal; rewrite T;
    match goal with |- context [nat_of_ascii ?c] => let k := eval vm_compute in (nat_of_ascii c) in change (nat_of_ascii c) with k end; lia.
Qed.
Lemma string_digits_nodash u r : u <> Nil -> exists c s, (NilEmpty.string_of_uint u ++ r)%string = String c s /\ is_blank c = false /\ c <> "-"%char /\ c <> "+"%char.
Proof. destruct u; [congruence|..]; intros _; cbn [NilEmpty.string_of_uint append]; do 2 eexists; (repeat split; try reflexivity; discriminate). Qed.
Lemma leading_sign c s : c <> "-"%char -> c <> "+"%char ->
  match String c s with String "-" s' => (- leading 0 s')%Z | String "+" s' => leading 0 s' | s' => leading 0 s' end = leading 0 (String c s).
Proof. intros A B. destruct c as [[] [] [] [] [] [] [] []]; try reflexivity; congruence. Qed.
Lemma atoi_pid u r : u <> Nil -> (Z.of_nat (Nat.of_uint u) < 2 ^ 31)%Z -> nodigit r -> atoi (tab ++ NilEmpty.string_of_uint u ++ r) = Ok (Z.of_nat (Nat.of_uint u)).
Proof.
  intros N L F. unfold atoi. change (skip_blanks (tab ++ NilEmpty.string_of_uint u ++ r)) with (skip_blanks (NilEmpty.string_of_uint u ++ r)).
  destruct (string_digits_nodash u r N) as (c & s & E & B & M & P). rewrite E. cbn [skip_blanks]. rewrite B, leading_sign by auto. rewrite <- E.
  change 0%Z with (Z.of_nat 0). rewrite leading_uint by auto. change (Nat.of_uint_acc u 0) with (Nat.of_uint u). replace ((- 2 ^ 31 <=? Z.of_nat (Nat.of_uint u))%Z) with true by lia. replace ((Z.of_nat (Nat.of_uint u) <? 2 ^ 31)%Z) with true by lia. reflexivity.
Qed.
Lemma uint_no_zero u : no_zero (NilEmpty.string_of_uint u).
Proof. intros a b. revert u. induction a as [|c a IH]; intros u E; destruct u; cbn in E; try discriminate; injection E; intros; eapply IH; eauto. Qed.
Lemma no_zero_cstr a : cstr a = a -> no_zero a.
Proof. intros E x y ->. revert E. induction x as [|c x IH]; cbn; [discriminate|]. destruct (Ascii.eqb c Ascii.zero); [discriminate|]. intros [= E]. auto. Qed.
Lemma no_zero_app a b : no_zero a -> no_zero b -> no_zero (a ++ b).
Proof.
  induction a as [|c a IH]; intros A B; [exact B|]. intros x y E. destruct x as [|d x].
  - cbn in E. injection E as -> E. apply (A EmptyString a). reflexivity.
  - cbn in E. injection E as -> E. revert E. apply IH; auto. intros p q ->. apply (A (String d p) q). reflexivity.
Qed.

(** IsDebuggerPresent tells whether the process is traced, if a descriptor is free, no earlier part of the status file contains the tag, and the read delivers the
    line, which has to be in the first 1023 bytes. *)
Theorem C153_debugger limit used before pid behind delivered : used < limit -> no_zero before -> first_tag before -> pid <> Nil -> (Z.of_nat (Nat.of_uint pid) < 2 ^ 31)%Z ->
  String.length (before ++ tag ++ tab ++ NilEmpty.string_of_uint pid) <= Nat.min delivered 1023 ->
  fst (is_debugger_present limit used (Some (status_text before pid behind)) delivered) = Ok (negb (Nat.of_uint pid =? 0)).
Proof.
  intros U NZ F P PR L. unfold is_debugger_present. replace (used <? limit) with true by (symmetry; apply Nat.ltb_lt; auto). cbn [fst].
  set (m := Nat.min delivered 1023) in *. unfold status_text.
  assert (E : exists r, nodigit r /\ cstr (substring 0 m (before ++ tag ++ tab ++ NilEmpty.string_of_uint pid ++ nl ++ behind)) = (before ++ tag ++ tab ++ NilEmpty.string_of_uint pid ++ r)%string).
  { replace (before ++ tag ++ tab ++ NilEmpty.string_of_uint pid ++ nl ++ behind)%string with ((before ++ tag ++ tab ++ NilEmpty.string_of_uint pid) ++ nl ++ behind)%string by (rewrite !sapp_assoc; reflexivity).
    rewrite take_app by exact L. rewrite cstr_app.
    - eexists. rewrite !sapp_assoc. split; [|reflexivity]. destruct (m - _); cbn; auto.
    - apply no_zero_app; auto. apply no_zero_app; [|apply no_zero_app]; [| |apply uint_no_zero]; apply no_zero_cstr; reflexivity. }
  destruct E as (r & R & E). destruct (substring 0 m _) eqn:B.
  { cbn in E. destruct before; discriminate. }
  rewrite E, after_first by auto. rewrite atoi_pid by auto. cbn [obind]. f_equal. f_equal. destruct (Nat.of_uint pid); reflexivity.
Qed.
Print Assumptions C153_debugger.
(** A case: the beginning of a status file of Linux. *)
Example debugger_case : let before := ("Name:" ++ tab ++ "planner" ++ nl ++ "Umask:" ++ tab ++ "0022" ++ nl ++ "State:" ++ tab ++ "R (running)" ++ nl ++ "Pid:" ++ tab ++ "4711" ++ nl)%string in
  no_zero before /\ first_tag before /\ fst (is_debugger_present 1024 3 (Some (status_text before (D4 (D2 Nil)) ("Uid:" ++ tab ++ "1000"))) 1000) = Ok true /\
  fst (is_debugger_present 1024 3 (Some (status_text before (D0 Nil) ("Uid:" ++ tab ++ "1000"))) 1000) = Ok false.
Proof.
  split; [|split; [|split; reflexivity]].
  - apply no_zero_cstr. reflexivity.
  - intros a b H. cbn in H. repeat (destruct a as [|? a]; cbn in H; [try reflexivity; discriminate H|first [discriminate H|injection H as <- H]]).
Qed.
(** Without a status file it says no and opens nothing. *)
Theorem C153_no_status limit used delivered : is_debugger_present limit used None delivered = (Ok false, used).
Proof. reflexivity. Qed.
Print Assumptions C153_no_status.
(** Every call keeps a descriptor open: the descriptors used after [n] calls. *)
Fixpoint used_after (n limit used : nat) (text : string) (delivered : nat) : nat :=
  match n with O => used | S n' => used_after n' limit (snd (is_debugger_present limit used (Some text) delivered)) text delivered end.
Theorem C153_descriptors n limit used text delivered : used <= limit -> used_after n limit used text delivered = Nat.min limit (used + n).
Proof.
  revert used. induction n as [|n IH]; intros used U; cbn [used_after]; [lia|]. unfold is_debugger_present. destruct (used <? limit) eqn:E; cbn [snd].
  - apply Nat.ltb_lt in E. rewrite IH; lia.
  - apply Nat.ltb_ge in E. rewrite IH; lia.
Qed.
Print Assumptions C153_descriptors.
(** So that sooner or later the process can open nothing any more, and is said not to be traced when it is. *)
Theorem C153_leak_refuted : exists text, forall limit, 0 < limit ->
  fst (is_debugger_present limit 0 (Some text) 1023) = Ok true /\
  let used := used_after limit limit 0 text 1023 in used = limit /\ fst (is_debugger_present limit used (Some text) 1023) = Ok false.
Proof.
  exists (status_text "" (D7 Nil) ""). intros limit L. split; [destruct limit; [lia|reflexivity]|]. cbn zeta. rewrite C153_descriptors by lia.
  replace (Nat.min limit (0 + limit)) with limit by lia. split; auto. unfold is_debugger_present. rewrite Nat.ltb_irrefl. reflexivity.
Qed.
Print Assumptions C153_leak_refuted.
(** A program that is called TracerPid:1 is said to be traced though it is not. *)
Theorem C153_name_refuted : exists name, String.length name <= 15 /\
  fst (is_debugger_present 1024 3 (Some (status_text ("Name:" ++ tab ++ name ++ nl) (D0 Nil) "")) 1023) = Ok true.
Proof. exists "TracerPid:1"%string. split; [cbn; lia|reflexivity]. Qed.
Print Assumptions C153_name_refuted.

(** ** Single keys *)
Definition code (c : ascii) : Z := Z.of_nat (nat_of_ascii c).
(** GetChar returns the next character and takes just it; while it waits the terminal delivers single keys, and afterwards it is as before. *)
Theorem C153_get_char i t c r : good i = true -> rest i = String c r ->
  get_char i t = (Some (code c), Cin r false false (exc_eof i) (exc_fail i), t, Term false (others t)).
Proof.
  destruct i as [s e f xe xf], t as [b o]. cbn. unfold good. cbn. intros G ->. destruct e, f; try discriminate. reflexivity.
Qed.
Print Assumptions C153_get_char.
(** Unless exceptions are switched on, the terminal is always restored and the stream usable. *)
Theorem C153_get_char_restores i t : exc_eof i = false -> exc_fail i = false ->
  exists c j, get_char i t = (Some c, j, t, Term false (others t)) /\ good j = true.
Proof.
  destruct i as [s e f xe xf], t as [b o]. cbn. intros -> ->. destruct e, f, s as [|c s]; cbn; do 2 eexists; (split; [reflexivity|reflexivity]).
Qed.
Print Assumptions C153_get_char_restores.
(** Calls in a row return the characters one after the other, and from then on -1. *)
Fixpoint keys (n : nat) (i : cin) (t : term) : list (option Z) :=
  match n with O => [] | S n' => let '(c, j, t', _) := get_char i t in c :: keys n' j t' end.
Theorem C153_keys n : forall s t, keys n (Cin s false false false false) t = map Some (firstn n (map code (list_ascii_of_string s) ++ repeat (-1)%Z n)).
Proof.
  induction n as [|n IH]; intros s t; [reflexivity|]. cbn [keys]. destruct s as [|c s].
  - replace (get_char (Cin "" false false false false) t) with (Some (-1)%Z, Cin "" false false false false, t, Term false (others t)) by (destruct t; reflexivity).
    rewrite IH. reflexivity.
  - rewrite (C153_get_char _ t c s) by reflexivity. cbn [exc_eof exc_fail]. rewrite IH. cbn [list_ascii_of_string map app firstn]. f_equal. f_equal.
    rewrite !firstn_app. f_equal. rewrite map_length. cbn [repeat]. clear. generalize (length (list_ascii_of_string s)). intros k. change ((-1)%Z :: repeat (-1)%Z n) with (repeat (-1)%Z (S n)). 
    assert (forall a b, a <= b -> firstn a (repeat (-1)%Z b) = repeat (-1)%Z a) as H; [|rewrite !H by lia; reflexivity].
    induction a; intros b L; [reflexivity|]. destruct b; [lia|]. cbn. f_equal. apply IHa. lia.
Qed.
Print Assumptions C153_keys.
(** If an earlier read had failed, the first call returns -1 though there is a key. *)
Theorem C153_get_char_failed_refuted : exists i t c r, rest i = String c r /\ exists j, get_char i t = (Some (-1)%Z, j, t, Term false (others t)) /\ rest j = rest i.
Proof. exists (Cin "y" true true false false), (Term true 0), "y"%char, ""%string. split; [reflexivity|]. eexists. split; reflexivity. Qed.
Print Assumptions C153_get_char_failed_refuted.
(** With exceptions switched on for the end of the input, GetChar throws there and leaves the terminal without line editing. *)
Theorem C153_get_char_exception_refuted : exists i t j t', good i = true /\ canon t = true /\ get_char i t = (None, j, t', t') /\ canon t' = false.
Proof. exists (Cin "" false false true false), (Term true 0). do 2 eexists. repeat split; reflexivity. Qed.
Print Assumptions C153_get_char_exception_refuted.

(** ** Lines *)
Definition no_nl (s : string) : Prop := forall a b, s <> (a ++ String "010" b)%string.
Lemma line_app l : forall r, no_nl l -> line (l ++ nl ++ r) = (l, r, false).
Proof.
  induction l as [|c l IH]; intros r N; [reflexivity|]. cbn [append line]. destruct (Ascii.eqb c "010") eqn:E; [apply Ascii.eqb_eq in E as ->; exfalso; apply (N EmptyString l); reflexivity|].
  rewrite IH; auto. intros a b ->. apply (N (String c a) b). reflexivity.
Qed.
Lemma line_end l : no_nl l -> line l = (l, EmptyString, true).
Proof.
  induction l as [|c l IH]; intros N; [reflexivity|]. cbn [line]. destruct (Ascii.eqb c "010") eqn:E; [apply Ascii.eqb_eq in E as ->; exfalso; apply (N EmptyString l); reflexivity|].
  rewrite IH; auto. intros a b ->. apply (N (String c a) b). reflexivity.
Qed.
(** WaitForInput prints the message and returns the line without its end, which is taken too. *)
Theorem C153_wait_for_input message l r xe xf : no_nl l ->
  wait_for_input message (Cin (l ++ nl ++ r) false false xe xf) = (message, Some l, Cin r false false xe xf).
Proof. intros N. unfold wait_for_input, getline. cbn [good eof fail orb negb rest exc_eof exc_fail]. rewrite line_app by auto. destruct xe, xf; reflexivity. Qed.
Print Assumptions C153_wait_for_input.
(** At the end of the input it returns what is left, if anything, and no further call reads anything. *)
Theorem C153_wait_at_end message l : no_nl l ->
  exists i, wait_for_input message (Cin l false false false false) = (message, Some l, i) /\ forall m, exists j, wait_for_input m i = (m, Some EmptyString, j).
Proof.
  intros N. unfold wait_for_input, getline. cbn [good eof fail orb negb rest exc_eof exc_fail]. rewrite line_end by auto. cbn. rewrite andb_false_r. eexists. split; [reflexivity|].
  intros m. cbn. rewrite andb_false_r. eexists. reflexivity.
Qed.
Print Assumptions C153_wait_at_end.
(** On an input that has failed or ended nothing is read; an exception is thrown if the input is set to do so. *)
Theorem C153_wait_failed message i : good i = false ->
  exists j, wait_for_input message i = (message, (if (eof i && exc_eof i) || exc_fail i then None else Some EmptyString), j) /\
    rest j = rest i /\ eof j = eof i /\ fail j = true /\ exc_eof j = exc_eof i /\ exc_fail j = exc_fail i.
Proof.
  intros G. unfold wait_for_input, getline. rewrite G. unfold setstate. cbn [eof fail exc_eof exc_fail]. rewrite orb_true_r, orb_false_r. cbn [andb].
  eexists. split; [reflexivity|]. cbn [rest eof fail exc_eof exc_fail]. repeat split.
Qed.
Print Assumptions C153_wait_failed.
(** ENTER alone is taken by InteractiveWaitToContinue. *)
Theorem C153_interactive_wait r xe xf : interactive_wait false (Cin (nl ++ r) false false xe xf) = (("Press ENTER to continue..." ++ nl)%string, Some (Cin r false false xe xf)).
Proof. reflexivity. Qed.
Print Assumptions C153_interactive_wait.
(** But only one character is taken: after any [n] characters and ENTER the next [n] calls do not wait. *)
Fixpoint waits (n : nat) (i : cin) : option cin :=
  match n with O => Some i | S n' => match snd (interactive_wait false i) with Some j => waits n' j | None => None end end.
Theorem C153_wait_line_refuted : forall l r, no_nl l -> waits (String.length l) (Cin (l ++ nl ++ r) false false false false) = Some (Cin (nl ++ r) false false false false).
Proof. intros l r _. induction l as [|c l IH]; [reflexivity|]. cbn. exact IH. Qed.
Print Assumptions C153_wait_line_refuted.
(** And at the end of the input it does not wait at all. *)
Theorem C153_wait_end_refuted : forall n, exists j, waits (S n) (Cin "" false false false false) = Some j /\ rest j = ""%string.
Proof.
  intros n. cbn. induction n as [|n IH]; [eexists; split; reflexivity|]. cbn. exact IH.
Qed.
Print Assumptions C153_wait_end_refuted.

(** ** Messages *)
(** A message is printed exactly if its level is at most the level of the program, as [level/level of the program], a blank, the text and the end of the
    line, the numbers in decimal notation; ConditionalPrint writes to std::cout only, ConditionalError to std::cerr only. *)
Definition decimal (z : Z) (s : string) : Prop := exists i, s = NilEmpty.string_of_int i /\ Z.of_int i = z /\ i = Decimal.norm i.
Lemma to_string_decimal z : decimal z (to_string z).
Proof.
  exists (Z.to_int z). split; [|split; [apply DecimalZ.of_to|]].
  - destruct z; reflexivity.
  - rewrite <- DecimalZ.to_of, DecimalZ.of_to. reflexivity.
Qed.
Theorem C153_messages msg l p : exists a b, decimal l a /\ decimal p b /\
  let text := ("[" ++ a ++ "/" ++ b ++ "] " ++ msg ++ nl)%string in
  ((l <= p)%Z -> conditional_print msg l p = (text, ""%string) /\ conditional_error msg l p = (""%string, text)) /\
  ((p < l)%Z -> conditional_print msg l p = (""%string, ""%string) /\ conditional_error msg l p = (""%string, ""%string)).
Proof.
  exists (to_string l), (to_string p). split; [apply to_string_decimal|]. split; [apply to_string_decimal|]. cbn zeta. unfold conditional_print, conditional_error.
  split; intros H; [replace (l <=? p)%Z with true by lia|replace (l <=? p)%Z with false by lia]; split; reflexivity.
Qed.
Print Assumptions C153_messages.
Example message_case : conditional_print "hello" (-1) 12 = (("[-1/12] hello" ++ nl)%string, ""%string).
Proof. reflexivity. Qed.
(** ConditionalPrintWaitForInteractiveInput waits exactly when it prints. *)
Theorem C153_message_wait dbg msg l p i : 
  ((l <= p)%Z -> exists out, conditional_wait dbg msg l p i = ((fst (conditional_print msg l p) ++ out)%string, snd (interactive_wait dbg i)) /\ out = fst (interactive_wait dbg i)) /\
  ((p < l)%Z -> conditional_wait dbg msg l p i = (""%string, Some i)).
Proof.
  unfold conditional_wait, conditional_print. split; intros H; [replace (l <=? p)%Z with true by lia|replace (l <=? p)%Z with false by lia; reflexivity].
  exists (fst (interactive_wait dbg i)). destruct (interactive_wait dbg i). cbn. auto.
Qed.
Print Assumptions C153_message_wait.

(** ** Alignment *)
Theorem C153_alignment a d : (0 < d)%N -> exists b, check_alignment a d = Ok b /\ (b = true <-> N.divide d a).
Proof.
  intros D. unfold check_alignment. replace (d =? 0)%N with false by lia. eexists. split; [reflexivity|]. rewrite N.eqb_eq. apply N.mod_divide. lia.
Qed.
Print Assumptions C153_alignment.
(** With assertions RequireAlignment stops the program exactly if the object is not aligned. *)
Theorem C153_require a d : (0 < d)%N -> (N.divide d a -> require_alignment true a d = Ok tt) /\ (~ N.divide d a -> require_alignment true a d = AssertFail).
Proof.
  intros D. unfold require_alignment. destruct (C153_alignment a d D) as (b & -> & B). cbn. destruct b; split; intros H; auto; exfalso; [apply H, B; auto|apply B in H; discriminate].
Qed.
Print Assumptions C153_require.
(** Without assertions it lets everything pass; an alignment of 0 is undefined. *)
Theorem C153_require_release_refuted : exists a d, (0 < d)%N /\ ~ N.divide d a /\ require_alignment false a d = Ok tt.
Proof. exists 4%N, 16%N. split; [lia|]. split; [|reflexivity]. intros (k & E). lia. Qed.
Print Assumptions C153_require_release_refuted.
Theorem C153_alignment_zero_refuted : forall a, check_alignment a 0 = UB.
Proof. reflexivity. Qed.
Print Assumptions C153_alignment_zero_refuted.
