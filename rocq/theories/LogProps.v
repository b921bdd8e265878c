(** Log files (C131) and CreateDirectory (C132). *)
From Coq Require Import String Ascii.
From Verif Require Import Base LogModel.

Lemma path_eqb_refl p : path_eqb p p = true.
Proof. unfold path_eqb. destruct (list_eq_dec string_dec p p); congruence. Qed.
Lemma path_eqb_spec p q : reflect (p = q) (path_eqb p q).
Proof. unfold path_eqb. destruct (list_eq_dec string_dec p q); constructor; assumption. Qed.
Lemma put_same d p x : nodes (put d p x) p = Some x.
Proof. cbn. rewrite path_eqb_refl. reflexivity. Qed.
Lemma put_other d p x q : q <> p -> nodes (put d p x) q = nodes d q.
Proof. intros N. cbn. destruct (path_eqb_spec q p); congruence. Qed.
Lemma is_directory_spec d p : is_directory d p = true <-> p <> [] /\ nodes d p = Some Dir.
Proof. unfold is_directory. destruct p as [|a p]; [intuition discriminate|]. destruct (nodes d (a :: p)) as [[]|]; intuition congruence. Qed.

(** ** CreateDirectory *)
(** Whatever is there is inside directories. *)
Definition tree (d : disk) : Prop := forall p c, p <> [] -> nodes d (p ++ [c]) <> None -> nodes d p = Some Dir.
Definition prefix (q p : path) : Prop := exists r, p = q ++ r.
Definition makeable (d : disk) (q : path) : Prop := nodes d q = Some Dir \/ nodes d q = None /\ allowed d q = true.

Lemma mkdirs_ok rest : forall d made d', create_directories d made rest = Ok d' ->
  allowed d' = allowed d /\ (forall q, nodes d' q = nodes d q \/ nodes d q = None /\ nodes d' q = Some Dir /\ (exists r1 r2, r1 <> [] /\ rest = r1 ++ r2 /\ q = made ++ r1)) /\
  (forall r1 r2, r1 <> [] -> rest = r1 ++ r2 -> nodes d' (made ++ r1) = Some Dir /\ makeable d (made ++ r1)).
Proof.
  induction rest as [|c rest IH]; intros d made d' E; cbn in E.
  - injection E as <-. split; [reflexivity|]. split; [auto|]. intros r1 r2 N F. destruct r1; [congruence|discriminate].
  - assert (X : exists d1, create_directories d1 (made ++ [c]) rest = Ok d' /\ nodes d1 (made ++ [c]) = Some Dir /\ allowed d1 = allowed d /\ makeable d (made ++ [c]) /\ (forall q, nodes d1 q = nodes d q \/ nodes d q = None /\ nodes d1 q = Some Dir /\ q = made ++ [c])).
    { destruct (nodes d (made ++ [c])) as [[]|] eqn:N; try discriminate.
      - exists d. unfold makeable. rewrite N. repeat split; auto.
      - destruct (allowed d (made ++ [c])) eqn:A; [|discriminate]. exists (put d (made ++ [c]) Dir). rewrite put_same. unfold makeable. rewrite N, A. repeat split; auto. intros q. cbn. destruct (path_eqb_spec q (made ++ [c])) as [->|]; auto. }
    destruct X as (d1 & E1 & N1 & A1 & M1 & Q1). destruct (IH _ _ _ E1) as (A & Q & R). split; [congruence|]. split.
    + intros q. assert (W : forall r1 r2, rest = r1 ++ r2 -> q = (made ++ [c]) ++ r1 -> exists r1 r2, r1 <> [] /\ c :: rest = r1 ++ r2 /\ q = made ++ r1) by (intros r1 r2 -> ->; exists (c :: r1), r2; split; [discriminate|]; split; [reflexivity|]; rewrite <- app_assoc; reflexivity).
      destruct (Q q) as [H|(H & H' & r1 & r2 & NE & F & F')]; destruct (Q1 q) as [K|(K & K' & F1)].
      * left. congruence.
      * right. split; [exact K|]. split; [congruence|]. apply (W [] rest eq_refl). rewrite app_nil_r. exact F1.
      * right. split; [congruence|]. split; [exact H'|]. apply (W r1 r2); assumption.
      * right. split; [exact K|]. split; [exact H'|]. apply (W r1 r2); assumption.
    + intros [|c' r1] r2 NE F; [congruence|]. injection F as <- F. destruct r1 as [|x r1].
      * split; [|exact M1]. destruct (Q (made ++ [c])) as [H|(H & _)]; [rewrite H; exact N1|congruence].
      * replace (made ++ c :: x :: r1) with ((made ++ [c]) ++ x :: r1) by (rewrite <- app_assoc; reflexivity). destruct (R (x :: r1) r2 ltac:(discriminate) F) as [H M]. split; [exact H|]. destruct (Q1 ((made ++ [c]) ++ x :: r1)) as [K|(_ & _ & K)].
        -- unfold makeable in *. rewrite <- K, <- A1. exact M.
        -- exfalso. rewrite <- (app_nil_r (made ++ [c])) in K at 2. apply app_inv_head in K. discriminate.
Qed.
Lemma mkdirs_total rest : forall d made, (forall r1 r2, r1 <> [] -> rest = r1 ++ r2 -> makeable d (made ++ r1)) -> exists d', create_directories d made rest = Ok d'.
Proof.
  induction rest as [|c rest IH]; intros d made M; cbn; [eauto|]. assert (D : forall d1, allowed d1 = allowed d -> (forall q, q <> made ++ [c] -> nodes d1 q = nodes d q) -> exists d', create_directories d1 (made ++ [c]) rest = Ok d').
  { intros d1 A N. apply IH. intros r1 r2 NE ->. specialize (M (c :: r1) r2 ltac:(discriminate) eq_refl). rewrite <- app_assoc. cbn. unfold makeable in *. rewrite A, N; [exact M|]. intros F. apply app_inv_head in F. destruct r1; [congruence|discriminate]. }
  destruct (M [c] rest ltac:(discriminate) eq_refl) as [H|[H H']]; rewrite H; [apply D; auto|]. rewrite H'. apply D; [reflexivity|]. intros q Q. apply put_other. exact Q.
Qed.
Lemma mkdirs_throw rest : forall d made, (exists d', create_directories d made rest = Ok d') \/ create_directories d made rest = Throw RuntimeError.
Proof. induction rest as [|c rest IH]; intros d made; cbn; [eauto|]. destruct (nodes d (made ++ [c])) as [[]|]; auto. destruct (allowed d (made ++ [c])); auto. Qed.
(** It returns exactly when every leading part is a directory or can become one, and otherwise throws std::runtime_error; the empty path is never one. *)
Theorem C132_when : forall d p, tree d ->
  ((exists d', create_directory d p = Ok d') <-> p <> [] /\ forall q, q <> [] -> prefix q p -> makeable d q) /\
  ((exists d', create_directory d p = Ok d') \/ create_directory d p = Throw RuntimeError).
Proof.
  intros d p T. assert (DEC : (exists d', create_directory d p = Ok d') \/ create_directory d p = Throw RuntimeError).
  { unfold create_directory. destruct (is_directory d p); [eauto|]. destruct (mkdirs_throw p d []) as [[d' E]|E]; rewrite E; [|right; reflexivity]. cbn. destruct (is_directory d' p); eauto. }
  split; [|exact DEC]. split.
  - intros [d' E]. unfold create_directory in E. destruct (is_directory d p) eqn:I.
    + apply is_directory_spec in I. destruct I as [NE I]. split; [exact NE|]. intros q Q [r ->]. left. clear E NE DEC d'. induction r as [|c r IH] using rev_ind; [rewrite app_nil_r in I; exact I|]. apply IH. apply (T _ c); [destruct q; [congruence|discriminate]|]. rewrite <- app_assoc. rewrite I. discriminate.
    + apply obind_ok in E. destruct E as (d1 & E & F). destruct (is_directory d1 p) eqn:I1; [|discriminate]. apply is_directory_spec in I1. split; [tauto|]. intros q Q [r R]. apply (proj2 (proj2 (mkdirs_ok _ _ _ _ E)) q r Q R).
  - intros [NE M]. destruct DEC as [H|H]; [exact H|exfalso]. unfold create_directory in H. destruct (is_directory d p) eqn:I; [discriminate|]. destruct (mkdirs_total p d []) as [d' E]; [intros r1 r2 N F; apply M; [exact N|exists r2; exact F]|]. rewrite E in H. cbn in H.
    assert (I' : is_directory d' p = true); [|rewrite I' in H; discriminate]. apply is_directory_spec. split; [exact NE|]. apply (proj2 (proj2 (mkdirs_ok _ _ _ _ E)) p [] NE). rewrite app_nil_r. reflexivity.
Qed.
(** Then the directory is there, and nothing has changed but that missing leading parts have become directories. *)
Theorem C132_effect : forall d p d', create_directory d p = Ok d' ->
  is_directory d' p = true /\ allowed d' = allowed d /\ (forall q, nodes d' q = nodes d q \/ nodes d q = None /\ nodes d' q = Some Dir /\ q <> [] /\ prefix q p) /\ create_directory d' p = Ok d'.
Proof.
  intros d p d' E. unfold create_directory in *. destruct (is_directory d p) eqn:I; [injection E as <-; rewrite I; auto|]. apply obind_ok in E. destruct E as (d1 & E & F). destruct (is_directory d1 p) eqn:I1; [|discriminate]. injection F as <-. rewrite I1.
  destruct (mkdirs_ok _ _ _ _ E) as (A & Q & _). split; [reflexivity|]. split; [exact A|]. split; [|reflexivity]. intros q. destruct (Q q) as [H|(H & H' & r1 & r2 & N & -> & ->)]; [auto|right]. repeat split; auto. exists r2. reflexivity.
Qed.
Theorem C132_tree : forall d p d', tree d -> create_directory d p = Ok d' -> tree d'.
Proof.
  intros d p d' T E q c NE N. unfold create_directory in E. destruct (is_directory d p); [injection E as <-; apply (T q c NE N)|]. apply obind_ok in E. destruct E as (d1 & E & F). destruct (is_directory d1 p); [|discriminate]. injection F as <-. destruct (mkdirs_ok _ _ _ _ E) as (_ & Q & R).
  destruct (Q (q ++ [c])) as [H|(_ & _ & r1 & r2 & N1 & F1 & F2)].
  - destruct (Q q) as [K|(_ & K & _)]; [|exact K]. rewrite K. apply (T q c NE). rewrite <- H. exact N.
  - apply (R q ([c] ++ r2) NE). rewrite F1. cbn in F2. rewrite <- F2, <- app_assoc. reflexivity.
Qed.
Local Open Scope string_scope.
Definition root_disk : disk := mkDisk (fun p => match p with ["/"] => Some Dir | ["/"; "tmp"] => Some Dir | ["/"; "etc"] => Some (File []) | _ => None end) (fun _ => true).
Example create_case : tree root_disk /\ (exists d, create_directory root_disk ["/"; "tmp"; "a"; "b"] = Ok d /\ nodes d ["/"; "tmp"; "a"] = Some Dir) /\ create_directory root_disk ["/"; "etc"; "x"] = Throw RuntimeError /\ create_directory root_disk [] = Throw RuntimeError.
Proof.
  split; [|split; [eexists; split; [vm_compute; reflexivity|reflexivity]|split; reflexivity]]. intros p c NE N. assert (X : forall q, nodes root_disk q <> None -> q = ["/"] \/ q = ["/"; "tmp"] \/ q = ["/"; "etc"]).
  { clear. intros q H. cbn in H. repeat (match type of H with context [match ?x with _ => _ end] => is_var x; destruct x end; try congruence; auto). }
  destruct (X _ N) as [H|[H|H]].
  - destruct p as [|a [|]]; [congruence|discriminate|discriminate].
  - destruct p as [|a [|b [|]]]; try discriminate. injection H as -> ->. reflexivity.
  - destruct p as [|a [|b [|]]]; try discriminate. injection H as -> ->. reflexivity.
Qed.
Local Close Scope string_scope.

(** ** Log files *)
(** What a program asks for: which file each log is for, whether it is the one that made the file, whether it is still good for writing; and
    for each file who made it last and the lines given to it since. *)
Record slog := mkSlog { s_name : path; s_first : bool; s_live : bool }.
Record sfile := mkSfile { s_owner : nat; s_head : text; s_lines : list (nat * text) }.
Record asked := mkAsked { s_logs : nat -> option slog; s_files : path -> option sfile; s_may : path -> bool }.
Definition with_log (s : asked) (i : nat) (l : option slog) : asked := mkAsked (fun j => if (j =? i)%nat then l else s_logs s j) (s_files s) (s_may s).
Definition with_file (s : asked) (p : path) (f : sfile) : asked := mkAsked (s_logs s) (fun q => if path_eqb q p then Some f else s_files s q) (s_may s).
Definition line (t : text) : text := t ++ newline.
Definition ask (s : asked) (o : op) : asked :=
  match o with
  | New i p h => with_log (with_file s p (mkSfile i (match h with Some t => line t | None => [] end) [])) i (Some (mkSlog p true true))
  | Copy i from | AssignCopy i from => match s_logs s from with Some l => with_log s i (Some (mkSlog (s_name l) false (s_may s (s_name l)))) | None => s end
  | Move i from => match s_logs s from with Some l => with_log (with_log s i (Some (mkSlog (s_name l) false (s_may s (s_name l))))) from (Some (mkSlog (s_name l) false false)) | None => s end
  | AssignMove i from =>
      match s_logs s i, s_logs s from with
      | Some t, Some l =>
          if (i =? from)%nat then with_log s i (Some (mkSlog (s_name t) false (s_may s (s_name t))))
          else with_log (with_log s i (Some (mkSlog (s_name l) false (s_may s (s_name l))))) from (Some (mkSlog (s_name t) false false))
      | _, _ => s
      end
  | Destroy i => with_log s i None
  | Say i m =>
      match s_logs s i with
      | Some l => match s_live l, s_files s (s_name l) with
                  | true, Some f => with_file s (s_name l) (mkSfile (s_owner f) (s_head f) (s_lines f ++ [(i, m)]))
                  | _, _ => s
                  end
      | None => s
      end
  | Allow p b => mkAsked (s_logs s) (s_files s) (fun q => if path_eqb q p then b else s_may s q)
  end.
(** The log that made a file is not written to once the file has been written to by another, or made anew. *)
Definition fair (s : asked) (o : op) : Prop :=
  match o with
  | Say i m => match s_logs s i with
               | Some l => s_first l = true -> s_live l = true -> exists f, s_files s (s_name l) = Some f /\ s_owner f = i /\ Forall (fun x => fst x = i) (s_lines f)
               | None => True
               end
  | _ => True
  end.
Fixpoint all_fair (s : asked) (ops : list op) : Prop := match ops with [] => True | o :: ops => fair s o /\ all_fair (ask s o) ops end.
Definition nothing (d : disk) : asked := mkAsked (fun _ => None) (fun _ => None) (allowed d).
Definition contents (f : sfile) : text := s_head f ++ concat (map (fun x => line (snd x)) (s_lines f)).

Lemma write_end new old : write_at (length old) new old = old ++ new.
Proof. unfold write_at. rewrite firstn_all, Nat.sub_diag, skipn_all2 by lia. cbn. rewrite app_nil_r. reflexivity. Qed.
Lemma contents_snoc f i m : contents (mkSfile (s_owner f) (s_head f) (s_lines f ++ [(i, m)])) = contents f ++ line m.
Proof. unfold contents. cbn. rewrite map_app, concat_app. cbn. rewrite app_nil_r, app_assoc. reflexivity. Qed.

(** The streams are where they should be. *)
Definition log_inv (s : asked) (i : nat) (l : log) (a : slog) : Prop :=
  filename_ l = s_name a /\ (exists f, s_files s (s_name a) = Some f) /\
  if s_live a then exists pos, out_file_ l = Opened (negb (s_first a)) (s_name a) pos /\
    (s_first a = true -> forall f, s_files s (s_name a) = Some f -> s_owner f = i -> Forall (fun x => fst x = i) (s_lines f) -> pos = length (contents f))
  else out_file_ l = Closed.
Record inv (d0 d : disk) (v : vars) (s : asked) : Prop := {
  i_may : allowed d = s_may s;
  i_logs : forall i, match v i, s_logs s i with Some l, Some a => log_inv s i l a | None, None => True | _, _ => False end;
  i_files : forall p f, s_files s p = Some f -> nodes d p = Some (File (contents f)) /\ is_directory d (removelast p) = true;
  i_rest : forall p, s_files s p = None -> nodes d p = nodes d0 p \/ nodes d0 p = None /\ nodes d p = Some Dir }.

Lemma inv_log d0 d v s i l a : inv d0 d v s -> log_inv s i l a -> inv d0 d (setv v i (Some l)) (with_log s i (Some a)).
Proof.
  intros [M L F Q] H. constructor; cbn; auto. intros j. unfold setv. destruct (Nat.eqb_spec j i) as [->|]; [exact H|]. specialize (L j). destruct (v j), (s_logs s j); auto.
Qed.
Lemma open_app d p c : nodes d p = Some (File c) -> is_directory d (removelast p) = true -> open_stream d p true = (d, if allowed d p then Opened true p (length c) else Closed).
Proof. intros N I. unfold open_stream. rewrite I, N. destruct (allowed d p); reflexivity. Qed.
(** Opening once more. *)
Lemma reopen d0 d v s a l i : inv d0 d v s -> log_inv s i l a -> exists st, open_stream d (s_name a) true = (d, st) /\ forall j, log_inv s j (mkLog (s_name a) st) (mkSlog (s_name a) false (s_may s (s_name a))).
Proof.
  intros V (_ & (f & F) & _). destruct (i_files _ _ _ _ V _ _ F) as [N I]. rewrite (open_app _ _ _ N I), (i_may _ _ _ _ V). eexists. split; [reflexivity|]. intros j. unfold log_inv. cbn. split; [reflexivity|]. split; [eauto|]. destruct (s_may s (s_name a)); [|reflexivity]. eexists. split; [reflexivity|discriminate].
Qed.
Lemma log_inv_ext s s' j l a : (forall p, s_files s p = s_files s' p) -> log_inv s j l a -> log_inv s' j l a.
Proof. intros E. unfold log_inv. rewrite (E (s_name a)). auto. Qed.
Lemma closed_inv s j p f : s_files s p = Some f -> log_inv s j (mkLog p Closed) (mkSlog p false false).
Proof. intros F. unfold log_inv. cbn. eauto. Qed.
Lemma open_trunc d p : open_stream d p false = (d, Closed) \/ open_stream d p false = (put d p (File []), Opened false p 0) /\ nodes d p <> Some Dir.
Proof. unfold open_stream. destruct (is_directory d (removelast p) && allowed d p); cbn; [|auto]. destruct (nodes d p) as [[]|]; [left; reflexivity|right; split; [reflexivity|discriminate]|right; split; [reflexivity|discriminate]]. Qed.
Lemma new_effect d p h d' l : log_open d p h = Ok (d', l) -> exists d1, create_directory d (removelast p) = Ok d1 /\ nodes d1 p <> Some Dir /\ allowed d' = allowed d1 /\
  let c := match h with Some t => line t | None => [] end in nodes d' p = Some (File c) /\ (forall q, q <> p -> nodes d' q = nodes d1 q) /\ l = mkLog p (Opened false p (length c)).
Proof.
  intros E. unfold log_open in E. apply obind_ok in E. destruct E as (d1 & CD & E). exists d1. split; [exact CD|]. destruct (open_trunc d1 p) as [X|[X ND]]; rewrite X in E; cbn [snd] in E; [discriminate|]. split; [exact ND|].
  destruct h as [t|].
  - unfold write in E. rewrite put_same in E. injection E as <- <-. split; [reflexivity|]. cbv zeta. split; [rewrite put_same; unfold write_at; rewrite skipn_nil, app_nil_r; reflexivity|]. split; [|reflexivity]. intros q Q. rewrite !put_other by exact Q. reflexivity.
  - injection E as <- <-. split; [reflexivity|]. cbv zeta. split; [apply put_same|]. split; [|reflexivity]. intros q Q. apply put_other. exact Q.
Qed.
Lemma dir_file d p c : is_directory d p = true -> nodes d p = Some (File c) -> False.
Proof. intros H N. apply is_directory_spec in H. destruct H. congruence. Qed.
Lemma new_inv d0 d v s i p h d' l : v i = None -> inv d0 d v s -> log_open d p h = Ok (d', l) -> inv d0 d' (setv v i (Some l)) (ask s (New i p h)).
Proof.
  intros VN V E. destruct (new_effect _ _ _ _ _ E) as (d1 & CD & ND & AL & N1 & N2 & ->). destruct (C132_effect _ _ _ CD) as (I1 & A1 & Q1 & _). set (c := match h with Some t => line t | None => [] end) in *.
  assert (KD : forall q, is_directory d q = true -> is_directory d' q = true).
  { intros q H. apply is_directory_spec in H. destruct H as [NE H]. apply is_directory_spec. split; [exact NE|]. destruct (path_eqb_spec q p) as [->|NQ]; [exfalso; destruct (Q1 p) as [K|(K & _)]; congruence|]. rewrite N2 by exact NQ. destruct (Q1 q) as [K|(K & _)]; congruence. }
  assert (ID : is_directory d' (removelast p) = true).
  { apply is_directory_spec in I1. destruct I1 as [NE I1]. apply is_directory_spec. split; [exact NE|]. rewrite N2; [exact I1|]. intros F. rewrite F in I1. congruence. }
  constructor.
  - cbn. rewrite AL, A1. apply (i_may _ _ _ _ V).
  - intros j. cbn [ask with_log with_file s_logs]. unfold setv. destruct (Nat.eqb_spec j i) as [->|NJ].
    + split; [reflexivity|]. cbn. rewrite path_eqb_refl. split; [eauto|]. eexists. split; [reflexivity|]. intros _ f F _ _. injection F as <-. unfold contents. cbn. rewrite app_nil_r. reflexivity.
    + pose proof (i_logs _ _ _ _ V j) as L. destruct (v j) as [lj|], (s_logs s j) as [a|]; auto. destruct L as (L1 & (f & L2) & L3). split; [exact L1|]. cbn. destruct (path_eqb_spec (s_name a) p) as [NP|NP].
      * split; [eauto|]. destruct (s_live a); [|exact L3]. destruct L3 as (pos & L3 & L4). exists pos. split; [exact L3|]. intros _ f' F' O. injection F' as <-. cbn in O. congruence.
      * split; [eauto|exact L3].
  - intros q f. cbn. destruct (path_eqb_spec q p) as [->|NQ].
    + intros F. injection F as <-. split; [|exact ID]. rewrite N1. unfold contents. cbn. rewrite app_nil_r. reflexivity.
    + intros F. destruct (i_files _ _ _ _ V _ _ F) as [H1 H2]. split; [|apply KD; exact H2]. rewrite N2 by exact NQ. destruct (Q1 q) as [K|(K & _)]; congruence.
  - intros q. cbn. destruct (path_eqb_spec q p) as [->|NQ]; [discriminate|]. intros F. destruct (i_rest _ _ _ _ V q F) as [H|[H H']]; rewrite N2 by exact NQ; destruct (Q1 q) as [K|(K & K' & _)]; [left; congruence|right; split; congruence|right; split; congruence|congruence].
Qed.
Lemma say_inv d0 d v s i m l : inv d0 d v s -> v i = Some l -> fair s (Say i m) -> let '(d', l') := log_message d l m in inv d0 d' (setv v i (Some l')) (ask s (Say i m)).
Proof.
  intros V VI FA. pose proof (i_logs _ _ _ _ V i) as L. rewrite VI in L. cbn [fair ask] in *. destruct (s_logs s i) as [a|] eqn:SA; [|contradiction]. pose proof L as L0. destruct L as (L1 & (f & F) & L3). unfold log_message. destruct (s_live a) eqn:LV.
  - destruct L3 as (pos & ST & TL). rewrite ST. cbn [write]. destruct (i_files _ _ _ _ V _ _ F) as [N I]. rewrite N, F. set (pos' := if negb (s_first a) then length (contents f) else pos).
    assert (P : pos' = length (contents f)). { subst pos'. destruct (s_first a) eqn:FI; [|reflexivity]. cbn. destruct (FA eq_refl eq_refl) as (f' & F' & O & AF). rewrite F in F'. injection F' as <-. apply (TL eq_refl f F O AF). }
    rewrite P, write_end. change (m ++ newline) with (line m). rewrite <- (contents_snoc f i m). set (f' := mkSfile _ _ _). clear pos' P.
    constructor.
    + apply (i_may _ _ _ _ V).
    + intros j. unfold setv. cbn [with_file s_logs]. destruct (Nat.eqb_spec j i) as [->|NJ].
      * rewrite SA. split; [exact L1|]. rewrite LV. cbn. rewrite path_eqb_refl. split; [eauto|]. eexists. split; [reflexivity|]. intros FI g G _ _. injection G as <-. unfold f'. rewrite contents_snoc, app_length. reflexivity.
      * pose proof (i_logs _ _ _ _ V j) as L. destruct (v j) as [lj|], (s_logs s j) as [b|]; auto. destruct L as (K1 & (g & K2) & K3). split; [exact K1|]. cbn. destruct (path_eqb_spec (s_name b) (s_name a)) as [NP|NP].
        -- split; [eauto|]. destruct (s_live b); [|exact K3]. destruct K3 as (pj & K3 & K4). exists pj. split; [exact K3|]. intros _ g' G' _ AF. injection G' as <-. cbn in AF. apply Forall_app in AF. destruct AF as [_ AF]. apply Forall_inv in AF. cbn in AF. congruence.
        -- split; [eauto|exact K3].
    + assert (KD : forall q, is_directory d q = true -> is_directory (put d (s_name a) (File (contents f'))) q = true).
      { intros q H. apply is_directory_spec in H. destruct H as [NE H]. apply is_directory_spec. split; [exact NE|]. rewrite put_other; [exact H|]. congruence. }
      intros q g. cbn [with_file s_files]. destruct (path_eqb_spec q (s_name a)) as [->|NQ]; [intros G; injection G as <-; split; [apply put_same|apply KD; exact I]|]. intros G. destruct (i_files _ _ _ _ V _ _ G) as [H1 H2]. split; [rewrite put_other by exact NQ; exact H1|apply KD; exact H2].
    + intros q. cbn [with_file s_files]. destruct (path_eqb_spec q (s_name a)) as [->|NQ]; [discriminate|]. intros G. rewrite put_other by exact NQ. apply (i_rest _ _ _ _ V q G).
  - rewrite L3. cbn [write]. assert (E : s_files s (s_name a) = Some f) by exact F. replace (match s_files s (s_name a) with Some _ => s | None => s end) with s by (rewrite E; reflexivity).
    constructor; try apply V. intros j. unfold setv. destruct (Nat.eqb_spec j i) as [->|NJ]; [|apply (i_logs _ _ _ _ V j)]. rewrite SA. split; [exact L1|]. split; [eauto|]. rewrite LV. reflexivity.
Qed.
Lemma step_inv d0 d v s o d' v' : inv d0 d v s -> fair s o -> step d v o = Ok (d', v') -> inv d0 d' v' (ask s o).
Proof.
  intros V FA E. destruct o as [i p h|i from|i from|i from|i from|i|i m|p b]; cbn [step] in E.
  - destruct (v i) eqn:VI; [discriminate|]. apply obind_ok in E. destruct E as ((d1 & l) & E & X). injection X as <- <-. apply (new_inv _ d); assumption.
  - destruct (v i) eqn:VI; [discriminate|]. destruct (v from) as [l|] eqn:VF; [|discriminate]. pose proof (i_logs _ _ _ _ V from) as L. rewrite VF in L. cbn [ask]. destruct (s_logs s from) as [a|]; [|contradiction]. unfold log_copy in E. rewrite (proj1 L) in E. destruct (reopen _ _ _ _ _ _ _ V L) as (st & O & K). rewrite O in E. injection E as <- <-. apply inv_log; auto.
  - destruct (v i) eqn:VI; [discriminate|]. destruct (v from) as [l|] eqn:VF; [|discriminate]. pose proof (i_logs _ _ _ _ V from) as L. rewrite VF in L. cbn [ask]. destruct (s_logs s from) as [a|]; [|contradiction]. unfold log_move, log_copy in E. rewrite (proj1 L) in E. destruct (reopen _ _ _ _ _ _ _ V L) as (st & O & K). rewrite O in E. injection E as <- <-.
    destruct L as (_ & (f & F) & _). apply inv_log; [apply inv_log; auto|]. apply (closed_inv _ _ _ f). exact F.
  - destruct (v i) as [t|] eqn:VI; [|discriminate]. destruct (v from) as [l|] eqn:VF; [|discriminate]. pose proof (i_logs _ _ _ _ V from) as L. rewrite VF in L. cbn [ask]. destruct (s_logs s from) as [a|]; [|contradiction]. unfold log_assign_copy, log_copy, log_assign_move in E. rewrite (proj1 L) in E. destruct (reopen _ _ _ _ _ _ _ V L) as (st & O & K). rewrite O in E. cbn [filename_] in E. rewrite O in E. injection E as <- <-. apply inv_log; auto.
  - destruct (v i) as [t|] eqn:VI; [|discriminate]. destruct (v from) as [l|] eqn:VF; [|discriminate]. pose proof (i_logs _ _ _ _ V from) as L. rewrite VF in L. pose proof (i_logs _ _ _ _ V i) as LI. rewrite VI in LI. cbn [ask]. destruct (s_logs s from) as [a|] eqn:SF; [|contradiction]. destruct (s_logs s i) as [b|]; [|contradiction].
    destruct (Nat.eqb_spec i from) as [->|NE].
    + unfold log_assign_self in E. rewrite (proj1 LI) in E. destruct (reopen _ _ _ _ _ _ _ V LI) as (st & O & K). rewrite O in E. injection E as <- <-. apply inv_log; auto.
    + unfold log_assign_move in E. rewrite (proj1 L) in E. destruct (reopen _ _ _ _ _ _ _ V L) as (st & O & K). rewrite O in E. injection E as <- <-. apply inv_log; [apply inv_log; auto|]. rewrite (proj1 LI). destruct LI as (_ & (f & F) & _). apply (closed_inv _ _ _ f). exact F.
  - destruct (v i) as [t|] eqn:VI; [|discriminate]. injection E as <- <-. constructor; try apply V. intros j. cbn. unfold setv. destruct (Nat.eqb_spec j i); [exact I|]. apply (i_logs _ _ _ _ V j).
  - destruct (v i) as [l|] eqn:VI; [|discriminate]. pose proof (say_inv d0 d v s i m l V VI FA) as K. destruct (log_message d l m) as [d1 l1]. injection E as <- <-. exact K.
  - injection E as <- <-. constructor; try apply V. cbn. rewrite (i_may _ _ _ _ V). reflexivity.
Qed.
Lemma run_inv d0 ops : forall d1 v1 s d v, inv d0 d1 v1 s -> all_fair s ops -> run d1 v1 ops = Ok (d, v) -> inv d0 d v (fold_left ask ops s).
Proof.
  induction ops as [|o ops IH]; intros d1 v1 s d v I0 FA R; cbn in R, FA |- *.
  - injection R as <- <-. exact I0.
  - apply obind_ok in R. destruct R as ((d2 & v2) & E & R). destruct FA as [F1 F2]. apply (IH d2 v2); [|exact F2|exact R]. apply (step_inv _ _ _ _ _ _ _ I0 F1 E).
Qed.
(** ** The property *)
(** As long as no log writes to a file of its making after another log has: every file holds its header and every message given to a log that
    was good for writing, one per line, in the order given; other files are left alone, but for directories made. *)
Theorem C131_program_partial : forall d0 ops d v, run d0 (fun _ => None) ops = Ok (d, v) -> all_fair (nothing d0) ops ->
  let s := fold_left ask ops (nothing d0) in
  (forall p f, s_files s p = Some f -> nodes d p = Some (File (s_head f ++ concat (map (fun x => snd x ++ newline) (s_lines f))))) /\
  (forall p, s_files s p = None -> nodes d p = nodes d0 p \/ nodes d0 p = None /\ nodes d p = Some Dir).
Proof.
  intros d0 ops d v R FA s. assert (H : inv d0 d v s).
  { apply (run_inv d0 ops d0 (fun _ => None) (nothing d0)); [constructor; cbn; auto; discriminate|exact FA|exact R]. }
  split; [intros p f F; apply (i_files _ _ _ _ H p f F)|apply (i_rest _ _ _ _ H)].
Qed.
(** A log that was copied or moved into place always adds to the end, whatever happened to the file. *)
Theorem C131_appends : forall d l p pos m c, out_file_ l = Opened true p pos -> nodes d p = Some (File c) ->
  let '(d', l') := log_message d l m in nodes d' p = Some (File (c ++ m ++ newline)) /\ (forall q, q <> p -> nodes d' q = nodes d q) /\ exists pos', out_file_ l' = Opened true p pos'.
Proof.
  intros d l p pos m c O N. unfold log_message. rewrite O. cbn [write]. rewrite N, write_end. split; [apply put_same|]. split; [intros q Q; apply put_other; exact Q|]. eexists. reflexivity.
Qed.
(** A name without a directory is never accepted. *)
Theorem C131_bare_name : forall d name header, log_open d [name] header = Throw RuntimeError.
Proof. reflexivity. Qed.
(** Without that condition messages are lost: the first log writes over what its copy has written. *)
Local Open Scope string_scope.
Local Open Scope list_scope.
Definition txt (s : string) : text := list_ascii_of_string s.
Definition overwriting : list op := [New 0 ["/"; "tmp"; "log"] None; Copy 1 0; Say 1 (txt "hello world"); Say 0 (txt "x")].
Theorem C131_copy_refuted : exists d v c, run root_disk (fun _ => None) overwriting = Ok (d, v) /\ nodes d ["/"; "tmp"; "log"] = Some (File c) /\
  c = txt "x" ++ newline ++ txt "llo world" ++ newline /\
  c <> txt "hello world" ++ newline ++ txt "x" ++ newline /\ ~ exists a b, c = a ++ txt "hello world" ++ b.
Proof.
  eexists _, _, _. split; [vm_compute; reflexivity|]. split; [vm_compute; reflexivity|]. split; [vm_compute; reflexivity|]. split; [vm_compute; discriminate|]. intros (a & b & E). apply (f_equal (count_occ ascii_dec)) in E. apply (f_equal (fun g => g "h"%char)) in E. rewrite !count_occ_app in E. change (count_occ ascii_dec (txt "hello world") "h"%char) with 1 in E. match type of E with ?L = _ => let v := eval vm_compute in L in change L with v in E end. lia.
Qed.
(** A copy that cannot open the file says nothing and drops every message; and so does a log that was moved from. *)
Theorem C131_silent : forall d l, (allowed d (filename_ l) = false -> out_file_ (snd (log_copy d l)) = Closed) /\ out_file_ (snd (snd (log_move d l))) = Closed /\
  forall d l m, out_file_ l = Closed -> log_message d l m = (d, l).
Proof.
  intros d l. split; [|split].
  - intros A. unfold log_copy, open_stream. rewrite A, andb_false_r. reflexivity.
  - unfold log_move. destruct (log_copy d l). reflexivity.
  - intros d' [n st] m E. cbn in E. subst st. reflexivity.
Qed.
(** A log made, copied, moved and assigned: everything is there. *)
Definition good_program : list op :=
  [New 0 ["/"; "tmp"; "a"; "log"] (Some (txt "time")); Say 0 (txt "one"); Move 1 0; Say 1 (txt "two"); Copy 2 1; Say 2 (txt "three"); Say 1 (txt "four"); AssignMove 0 2; Say 0 (txt "five"); Say 2 (txt "lost"); Destroy 2; AssignCopy 1 1; Say 1 (txt "six")].
Example log_case : all_fair (nothing root_disk) good_program /\ exists d v, run root_disk (fun _ => None) good_program = Ok (d, v) /\
  nodes d ["/"; "tmp"; "a"; "log"] = Some (File (concat (map (fun m => txt m ++ newline) ["time"; "one"; "two"; "three"; "four"; "five"; "six"]))).
Proof.
  split; [|eexists _, _; split; vm_compute; reflexivity]. vm_compute. repeat split; auto; try (intros; discriminate). intros _ _. eexists. split; [reflexivity|]. split; [reflexivity|constructor].
Qed.
Local Close Scope string_scope.
Print Assumptions C132_when. Print Assumptions C132_effect. Print Assumptions C132_tree.
Print Assumptions C131_program_partial. Print Assumptions C131_appends. Print Assumptions C131_bare_name. Print Assumptions C131_copy_refuted. Print Assumptions C131_silent.
