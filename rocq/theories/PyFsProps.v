(** C143: deleting, counting and naming in filesystem_utils.py. *)
From Coq Require Import Ascii String DecimalString DecimalNat FinFun.
From Verif Require Import PyBase PyFsModel.
Open Scope list_scope.

(** ** Vocabulary *)
(** [q] is [p] or something below it. *)
Definition under (p q : path) : Prop := exists l, q = l ++ p.
(** A file system: no two entries in the same place, and every entry is in a directory. *)
Definition wf (s : fs) : Prop :=
  NoDup (map fst s) /\ forall x p n, In (x :: p, n) s -> In (p, NDir) s.
(** All links below [p] lead to files elsewhere. *)
Definition links_ok (s : fs) (p : path) : Prop :=
  forall q t, under p q -> In (q, NLink t) s -> ~ under p t /\ exists n, In (t, NFile n) s.
Definition no_links (s : fs) (p : path) : Prop := forall q t, under p q -> ~ In (q, NLink t) s.

Lemma path_eqb_spec p q : path_eqb p q = true <-> p = q.
Proof. unfold path_eqb. destruct (list_eq_dec string_dec p q); split; congruence. Qed.
Lemma path_eqb_refl p : path_eqb p p = true. Proof. apply path_eqb_spec. auto. Qed.
Lemma path_eqb_neq p q : p <> q -> path_eqb p q = false.
Proof. intros H. destruct (path_eqb p q) eqn:E; auto. apply path_eqb_spec in E. congruence. Qed.
Lemma under_spec p q : underb p q = true <-> under p q.
Proof.
  induction q as [|x q IH]; cbn [underb]; rewrite orb_true_iff, path_eqb_spec.
  - split; [intros [E|E]; [exists []; auto|discriminate]|]. intros ([|y l] & E); [left; auto|discriminate].
  - rewrite IH. split.
    + intros [<-|(l & ->)]; [exists []; auto|exists (x :: l); auto].
    + intros ([|y l] & E); [left; auto|right]. injection E as -> ->. exists l. auto.
Qed.
Lemma under_false p q : underb p q = false <-> ~ under p q.
Proof. rewrite <- under_spec. destruct (underb p q); split; congruence. Qed.
Lemma under_refl p : under p p. Proof. exists []. auto. Qed.
Lemma under_trans p q r : under p q -> under q r -> under p r.
Proof. intros (l & ->) (m & ->). exists (m ++ l). apply app_assoc. Qed.
Lemma under_cons x p : under p (x :: p). Proof. exists [x]. auto. Qed.
Lemma not_under_child x p : ~ under (x :: p) p.
Proof. intros (l & E). apply (f_equal (@length _)) in E. rewrite app_length in E. cbn in E. lia. Qed.
(** Two different children of a directory have nothing below in common. *)
Lemma siblings x y p q : under (x :: p) q -> under (y :: p) q -> x = y.
Proof.
  intros (l & ->) (m & E). assert (L : length l = length m) by (apply (f_equal (@length _)) in E; rewrite !app_length in E; cbn in E; lia).
  revert m E L. induction l as [|a l IH]; intros [|b m] E L; try discriminate; cbn in E.
  - injection E as E. auto.
  - injection E as _ E. apply (IH m); auto.
Qed.

Lemma lookup_in s p n : NoDup (map fst s) -> (lookup s p = Some n <-> In (p, n) s).
Proof.
  induction s as [|[q m] s IH]; cbn; intros ND; [split; [discriminate|tauto]|]. inversion_clear ND as [|? ? NI ND']. destruct (path_eqb q p) eqn:E.
  - apply path_eqb_spec in E. subst. split; [intros [= ->]; auto|]. intros [[= ->]|I]; auto. exfalso. apply NI. apply in_map_iff. exists (p, n). auto.
  - rewrite IH by auto. split; auto. intros [[= -> ->]|]; auto. rewrite path_eqb_refl in E. discriminate.
Qed.
Lemma lookup_none s p : lookup s p = None <-> ~ In p (map fst s).
Proof.
  induction s as [|[q m] s IH]; cbn; [tauto|]. destruct (path_eqb q p) eqn:E.
  - apply path_eqb_spec in E. split; [discriminate|]. tauto.
  - rewrite IH. split; [|tauto]. intros H [->|]; auto. rewrite path_eqb_refl in E. discriminate.
Qed.
Lemma map_filter_fst (f : path -> bool) s : map fst (filter (fun e : path * node => f (fst e)) s) = filter f (map fst s).
Proof. induction s as [|[q n] s IH]; cbn; auto. destruct (f q); cbn; rewrite IH; auto. Qed.
Lemma nodup_filter {A} (f : A -> bool) l : NoDup l -> NoDup (filter f l).
Proof. induction 1; cbn; [constructor|]. destruct (f x); auto. constructor; auto. rewrite filter_In. tauto. Qed.
Lemma filter_filter {A} (f g : A -> bool) l : filter f (filter g l) = filter (fun x => g x && f x) l.
Proof. induction l as [|a l IH]; cbn; auto. destruct (g a); cbn; rewrite IH; auto. Qed.
Lemma filter_len {A} (f : A -> bool) l : length (filter f l) <= length l.
Proof. induction l as [|a l IH]; cbn; auto. destruct (f a); cbn; lia. Qed.
Lemma filter_le {A} (f g : A -> bool) l : length (filter f (filter g l)) <= length (filter f l).
Proof. induction l as [|a l IH]; cbn; auto. destruct (g a); cbn; destruct (f a); cbn; lia. Qed.

(** What is left after everything under the given places is gone. *)
Definition keep (ps : list path) (s : fs) : fs := filter (fun e => negb (existsb (fun p => underb p (fst e)) ps)) s.
Lemma keep_in ps s q n : In (q, n) (keep ps s) <-> In (q, n) s /\ forall p, In p ps -> ~ under p q.
Proof.
  unfold keep. rewrite filter_In. cbn [fst]. rewrite negb_true_iff. split; intros [A B]; split; auto.
  - intros p P U. apply under_spec in U. assert (existsb (fun p => underb p q) ps = true) by (apply existsb_exists; eauto). congruence.
  - destruct (existsb _ ps) eqn:E; auto. apply existsb_exists in E as (p & P & U). apply under_spec in U. exfalso. eapply B; eauto.
Qed.
Lemma keep_nil s : keep [] s = s.
Proof. unfold keep. cbn. induction s as [|e s IH]; cbn; congruence. Qed.
Lemma keep_cons p ps s : keep ps (keep [p] s) = keep (p :: ps) s.
Proof. unfold keep. rewrite filter_filter. apply filter_ext. intros e. cbn. rewrite orb_false_r, negb_orb. reflexivity. Qed.
Lemma keep_wf ps s : wf s -> wf (keep ps s).
Proof.
  intros (ND & CL). split.
  - unfold keep. rewrite (map_filter_fst (fun q => negb (existsb (fun p => underb p q) ps))). apply nodup_filter. auto.
  - intros x p n I. apply keep_in in I as (I & N). apply keep_in. split; [eapply CL; eauto|]. intros r R U. apply (N r R). eapply under_trans; [exact U|apply under_cons].
Qed.
Lemma keep_links s p e : links_ok s e -> under e p -> links_ok (keep [p] s) e.
Proof.
  intros L U q t Q I. apply keep_in in I as (I & N). destruct (L q t Q I) as (NU & n & F). split; auto. exists n. apply keep_in. split; auto.
  intros r [<-|[]] V. apply NU. exact (under_trans _ _ _ U V).
Qed.
Lemma remove_leaf s c : wf s -> (forall n, In (c, n) s -> n <> NDir) -> remove s c = keep [c] s.
Proof.
  intros (ND & CL) H. apply filter_ext_in. intros [q n] I. cbn. rewrite orb_false_r. f_equal.
  destruct (path_eqb q c) eqn:E; symmetry; [apply path_eqb_spec in E as ->; apply under_spec, under_refl|]. apply under_false. intros (l & ->).
  assert (forall l n, In (l ++ c, n) s -> l <> [] -> False) as G.
  { clear - CL H. induction l as [|x l IH]; intros n I N; [congruence|]. cbn in I. apply CL in I. destruct l as [|y l]; [apply (H _ I); auto|]. apply (IH _ I). discriminate. }
  apply (G l n I). intros ->. cbn in E. rewrite path_eqb_refl in E. discriminate.
Qed.
Lemma children_in s d q : In q (children s d) <-> exists x, q = x :: d /\ exists n, In (q, n) s.
Proof.
  unfold children. rewrite filter_In, in_map_iff. split.
  - intros (([q' n] & E & I) & C). cbn in E. subst q'. destruct q as [|x p]; [discriminate|]. cbn in C. apply path_eqb_spec in C. subst. eauto.
  - intros (x & -> & n & I). split; [exists (x :: d, n); auto|]. cbn. apply path_eqb_refl.
Qed.

(** ** Deleting *)
Definition weight (s : fs) (p : path) : nat := length (filter (fun e : path * node => underb p (fst e)) s).
Lemma weight_child s x p n : NoDup (map fst s) -> In (p, n) s -> weight s (x :: p) < weight s p.
Proof.
  intros ND I. unfold weight. apply in_split in I as (l1 & l2 & ->). rewrite !filter_app, !app_length. cbn [filter fst].
  assert (underb (x :: p) p = false) as -> by (apply under_false, not_under_child).
  assert (underb p p = true) as -> by (apply under_spec, under_refl). cbn [length].
  assert (forall l : fs, length (filter (fun e : path * node => underb (x :: p) (fst e)) l) <= length (filter (fun e : path * node => underb p (fst e)) l)) as G.
  { clear. induction l as [|[q m] l IH]; cbn; auto. destruct (underb (x :: p) q) eqn:E.
    - assert (underb p q = true) as -> by (apply under_spec; apply under_spec in E; eapply under_trans; [apply under_cons|exact E]). cbn. lia.
    - destruct (underb p q); cbn; lia. }
  pose proof (G l1). pose proof (G l2). lia.
Qed.
Lemma weight_keep s p ps : weight (keep ps s) p <= weight s p. Proof. apply filter_le. Qed.

(** The loop of rm_tree. *)
Definition rm_loop (f : nat) := fix loop (s : fs) (cs : list path) : fs * py unit :=
  match cs with
  | [] => (s, Ret tt)
  | c :: cs' => if is_file s c then loop (remove s c) cs' else let (s', r) := rm_tree f s c in match r with Ret _ => loop s' cs' | _ => (s', r) end
  end.
Lemma rm_loop_cons f s c cs : rm_loop f s (c :: cs) =
  if is_file s c then rm_loop f (remove s c) cs else let (s', r) := rm_tree f s c in match r with Ret _ => rm_loop f s' cs | _ => (s', r) end.
Proof. reflexivity. Qed.
Lemma rm_tree_unfold f s p : rm_tree (S f) s p =
  let d := follow s p in
  let listed := match lookup s d with Some NDir => children s d | _ => [] end in
  let (s1, r) := rm_loop f s listed in match r with Ret _ => rmdir s1 p | _ => (s1, r) end.
Proof.
  reflexivity.
Qed.

Lemma rm_tree_spec fuel : forall s e, wf s -> e <> [] -> In (e, NDir) s -> links_ok s e -> weight s e <= fuel -> rm_tree fuel s e = (keep [e] s, Ret tt).
Proof.
  induction fuel as [|f IH]; intros s e W NE I L F.
  { exfalso. unfold weight in F. assert (In (e, NDir) (filter (fun x : path * node => underb e (fst x)) s)) as J by (apply filter_In; split; auto; apply under_spec, under_refl).
    destruct (filter _ s); [exact J|cbn in F; lia]. }
  rewrite rm_tree_unfold. cbv zeta. assert (LE : lookup s e = Some NDir) by (apply lookup_in; [apply W|auto]).
  unfold follow. rewrite LE, LE.
  assert (LOOP : forall cs s, wf s -> In (e, NDir) s -> links_ok s e -> NoDup cs -> (forall c, In c cs -> In c (children s e)) -> (forall c, In c cs -> weight s c <= f) ->
    rm_loop f s cs = (keep cs s, Ret tt)).
  { clear s W I L F LE. induction cs as [|c cs IHc]; intros s W I L ND CH WT; [rewrite keep_nil; reflexivity|]; rewrite rm_loop_cons.
    inversion_clear ND as [|? ? NI ND']. destruct (proj1 (children_in s e c) (CH c (or_introl eq_refl))) as (x & -> & n & IN).
    assert (STEP : (if is_file s (x :: e) then rm_loop f (remove s (x :: e)) cs else let (s', r) := rm_tree f s (x :: e) in match r with Ret _ => rm_loop f s' cs | _ => (s', r) end)
      = rm_loop f (keep [x :: e] s) cs).
    { assert (LK : lookup s (x :: e) = Some n) by (apply lookup_in; [apply W|auto]). unfold is_file, stat. rewrite LK. destruct n as [z| |t].
      - rewrite remove_leaf; auto. intros m M. assert (lookup s (x :: e) = Some m) by (apply lookup_in; [apply W|auto]). congruence.
      - rewrite IH; auto; [discriminate| |apply WT; left; auto].
        intros q t U Q. assert (under e q) by (eapply under_trans; [apply under_cons|exact U]). destruct (L q t H Q) as (NU & G). split; auto.
        intros V. apply NU. eapply under_trans; [apply under_cons|exact V].
      - destruct (L (x :: e) t (under_cons x e) IN) as (NU & z & Z). assert (lookup s t = Some (NFile z)) as -> by (apply lookup_in; [apply W|auto]).
        rewrite remove_leaf; auto. intros m M. assert (lookup s (x :: e) = Some m) by (apply lookup_in; [apply W|auto]). congruence. }
    rewrite STEP. rewrite IHc.
    - rewrite keep_cons. reflexivity.
    - apply keep_wf; auto.
    - apply keep_in. split; auto. intros p [<-|[]] U. revert U. apply not_under_child.
    - apply keep_links; auto. apply under_cons.
    - auto.
    - intros c C. destruct (proj1 (children_in s e c) (CH c (or_intror C))) as (y & -> & m & M). apply children_in. exists y. split; auto. exists m. apply keep_in. split; auto.
      intros p [<-|[]] U. assert (x = y) as -> by (eapply siblings; [exact U|apply under_refl]). auto.
    - intros c C. etransitivity; [apply weight_keep|apply WT; right; auto]. }
  rewrite LOOP; auto.
  - unfold rmdir. set (s1 := keep (children s e) s).
    assert (ND1 : NoDup (map fst s1)) by (apply (keep_wf (children s e) s W)).
    assert (E1 : In (e, NDir) s1). { apply keep_in. split; auto. intros p P U. apply children_in in P as (x & -> & _). revert U. apply not_under_child. }
    rewrite (proj2 (lookup_in s1 e NDir ND1) E1).
    assert (C1 : children s1 e = []).
    { destruct (children s1 e) as [|c r] eqn:C; auto. exfalso. assert (In c (children s1 e)) as J by (rewrite C; left; auto). apply children_in in J as (x & -> & n & J). apply keep_in in J as (J & N).
      apply (N (x :: e)); [apply children_in; eauto|apply under_refl]. }
    rewrite C1. f_equal. unfold remove, s1, keep. rewrite filter_filter. apply filter_ext_in. intros [q n] Q. cbn [fst existsb]. rewrite orb_false_r.
    destruct (underb e q) eqn:U.
    + destruct (path_eqb q e) eqn:PE; [rewrite andb_false_r; auto|]. rewrite andb_true_r. cbn. apply under_spec in U as (l & ->).
      apply negb_false_iff. apply existsb_exists. destruct (@exists_last _ l) as (l' & x & ->); [intros ->; cbn in PE; rewrite path_eqb_refl in PE; discriminate|].
      exists (x :: e). split; [|apply under_spec; exists l'; rewrite <- app_assoc; auto]. apply children_in. exists x. split; auto. rewrite <- app_assoc in Q. cbn in Q.
      clear - W Q. destruct W as (_ & CL). revert n Q. induction l' as [|y l' IH]; intros n Q; [eauto|]. cbn in Q. apply CL in Q. eauto.
    + cbn. assert (path_eqb q e = false) as ->. { apply path_eqb_neq. intros ->. apply under_false in U. apply U, under_refl. }
      rewrite andb_true_r. apply negb_true_iff. destruct (existsb _ _) eqn:EX; auto. apply existsb_exists in EX as (c & C & V). apply children_in in C as (x & -> & _).
      apply under_spec in V. apply under_false in U. exfalso. apply U. eapply under_trans; [apply under_cons|exact V].
  - apply nodup_filter. apply W.
  - intros c C. apply children_in in C as (x & -> & n & C). pose proof (weight_child s x e NDir (proj1 W) I). lia.
Qed.

(** rm_tree of a directory all whose links lead to files elsewhere deletes exactly the directory and everything below it. *)
Theorem C143_rm_tree s e : wf s -> e <> [] -> In (e, NDir) s -> links_ok s e ->
  exists enough s', (forall fuel, enough <= fuel -> rm_tree fuel s e = (s', Ret tt)) /\ forall q n, In (q, n) s' <-> In (q, n) s /\ ~ under e q.
Proof.
  intros W NE I L. exists (weight s e), (keep [e] s). split; [intros; apply rm_tree_spec; auto|]. intros q n. rewrite keep_in. split; intros [A B]; split; auto. apply B. left; auto.
  intros p [<-|[]]. auto.
Qed.
Print Assumptions C143_rm_tree.

(** A link to a directory: everything in the directory it leads to is deleted, wherever that is, and then an exception leaves the rest. *)
Theorem C143_rm_tree_link_refuted : exists s e q s', wf s /\ In (e, NDir) s /\ ~ under e q /\ In (q, NFile 1) s /\
  (forall fuel, 3 <= fuel -> rm_tree fuel s e = (s', Raise NotADirectoryError)) /\ ~ In q (map fst s') /\ In (e, NDir) s'.
Proof.
  exists [([], NDir); (["old"]%string, NDir); (["link"; "old"]%string, NLink ["data"]%string); (["data"]%string, NDir); (["f"; "data"]%string, NFile 1)], ["old"]%string, ["f"; "data"]%string.
  eexists. split; [|split; [|split; [|split; [|split; [|split]]]]].
  - split; [cbn; repeat constructor; cbn; intuition discriminate|]. intros x p n H. cbn in H. repeat destruct H as [H|H]; try contradiction; inversion H; subst; cbn; auto 8.
  - cbn. auto.
  - intros (l & E). apply (f_equal (fun l => last l EmptyString)) in E. rewrite last_last in E. discriminate.
  - cbn. auto 8.
  - intros [|[|[|fuel]]] H; try lia. cbn. reflexivity.
  - cbn. intuition discriminate.
  - cbn. auto.
Qed.
Print Assumptions C143_rm_tree_link_refuted.
(** A link to a file of the same directory that is listed earlier: the link is broken when its turn comes, and an exception leaves the rest. *)
Theorem C143_rm_tree_file_link_refuted : exists s e s', wf s /\ In (e, NDir) s /\ (forall q t, In (q, NLink t) s -> exists n, In (t, NFile n) s) /\
  (forall fuel, 3 <= fuel -> rm_tree fuel s e = (s', Raise NotADirectoryError)) /\ In (e, NDir) s'.
Proof.
  exists [([], NDir); (["run"]%string, NDir); (["1.log"; "run"]%string, NFile 1); (["latest.log"; "run"]%string, NLink ["1.log"; "run"]%string)], ["run"]%string.
  eexists. split; [|split; [|split; [|split]]].
  - split; [cbn; repeat constructor; cbn; intuition discriminate|]. intros x p n H. cbn in H. repeat destruct H as [H|H]; try contradiction; inversion H; subst; cbn; auto 8.
  - cbn. auto.
  - intros q t H. cbn in H. repeat destruct H as [H|H]; try contradiction; inversion H; subst. exists 1%Z. cbn. auto 8.
  - intros [|[|[|fuel]]] H; try lia. cbn. reflexivity.
  - cbn. auto.
Qed.
Print Assumptions C143_rm_tree_file_link_refuted.

(** ** Asking *)
(** With the answer yes, and a list of directories none of which contains another, exactly these are deleted; with any other answer nothing. *)
Theorem C143_ask s ds answer : wf s -> NoDup ds -> (forall d, In d ds -> d <> [] /\ In (d, NDir) s) -> (forall d d', In d ds -> In d' ds -> under d d' -> d = d') ->
  (forall d q t, In d ds -> under d q -> In (q, NLink t) s -> (forall d', In d' ds -> ~ under d' t) /\ exists n, In (t, NFile n) s) ->
  exists enough s', (forall fuel, enough <= fuel -> ask_to_remove fuel s true ds answer = (s', Ret tt)) /\
    forall q n, In (q, n) s' <-> In (q, n) s /\ ((answer = "y" \/ answer = "Y" \/ answer = "")%string -> forall d, In d ds -> ~ under d q).
Proof.
  intros W ND DS DISJ LK. unfold ask_to_remove. destruct (is_yes answer) eqn:Y.
  - assert (YES : (answer = "y" \/ answer = "Y" \/ answer = "")%string).
    { unfold is_yes in Y. rewrite !orb_true_iff, !String.eqb_eq in Y. tauto. }
    exists (length s), (keep ds s). split; [|intros q n; rewrite keep_in; split; intros [A B]; split; auto].
    intros fuel F. clear Y YES. revert s W DS LK F. induction ds as [|d ds IH]; intros s W DS LK F; cbn [rm_all]; [rewrite keep_nil; auto|].
    inversion_clear ND as [|? ? NI ND']. destruct (DS d (or_introl eq_refl)) as (NE & I).
    rewrite rm_tree_spec; auto.
    + rewrite IH; auto.
      * rewrite keep_cons. reflexivity.
      * intros a b A B. apply DISJ; right; auto.
      * apply keep_wf; auto.
      * intros d' D'. destruct (DS d' (or_intror D')) as (NE' & I'). split; auto. apply keep_in. split; auto. intros p [<-|[]] U. assert (d = d') as -> by (apply DISJ; auto; [left|right]; auto). auto.
      * intros d' q t D' U Q. apply keep_in in Q as (Q & _). destruct (LK d' q t (or_intror D') U Q) as (A & n & B). split; [intros; apply A; right; auto|]. exists n. apply keep_in. split; auto.
        intros p [<-|[]]. apply A. left; auto.
      * etransitivity; [|exact F]. apply filter_len.
    + intros q t U Q. destruct (LK d q t (or_introl eq_refl) U Q) as (A & B). split; auto. apply A. left; auto.
    + etransitivity; [|exact F]. apply filter_len.
  - exists 0, s. split; auto. intros q n. split; [|tauto]. intros Q. split; auto. intros A. exfalso. unfold is_yes in Y. rewrite !orb_false_iff, !String.eqb_neq in Y. tauto.
Qed.
Print Assumptions C143_ask.
(** Of directories that can be iterated only once, such as those of a generator, none is deleted. *)
Theorem C143_ask_generator_refuted : forall fuel s ds, ask_to_remove fuel s false ds "y" = (s, Ret tt).
Proof. reflexivity. Qed.
Print Assumptions C143_ask_generator_refuted.

(** ** Counting *)
(** The number of entries below a directory that are not directories, if no link below leads to a directory. *)
Definition leaf (e : path * node) : bool := match snd e with NDir => false | _ => true end.
Definition files_below (s : fs) (p : path) : nat := length (filter (fun e => underb p (fst e) && leaf e) s).
Definition no_dir_links (s : fs) (p : path) : Prop := forall q t, under p q -> In (q, NLink t) s -> ~ In (t, NDir) s.

Definition count_loop (f : nat) (s : fs) := fix loop (cs : list path) (count : nat) : py nat :=
  match cs with
  | [] => Ret count
  | c :: cs' => if is_dir s c then let? n := count_files f s c in loop cs' (count + n) else loop cs' (S count)
  end.
Lemma count_loop_cons f s c cs k : count_loop f s (c :: cs) k = if is_dir s c then let? n := count_files f s c in count_loop f s cs (k + n) else count_loop f s cs (S k).
Proof. reflexivity. Qed.
Lemma count_unfold f s p : count_files (S f) s p =
  match lookup s (follow s p) with None => Raise FileNotFoundError | Some NDir => count_loop f s (children s (follow s p)) 0 | Some _ => Raise NotADirectoryError end.
Proof.
  reflexivity.
Qed.
(** Files below any of several places. *)
Definition files_any (s : fs) (cs : list path) : nat := length (filter (fun e => existsb (fun p => underb p (fst e)) cs && leaf e) s).
Lemma files_split s c cs : (forall q n, In (q, n) s -> underb c q = true -> existsb (fun p => underb p q) cs = false) -> files_any s (c :: cs) = files_below s c + files_any s cs.
Proof.
  unfold files_any, files_below. induction s as [|[q n] s IH]; intros H; [reflexivity|].
  specialize (IH (fun q' n' I => H q' n' (or_intror I))). specialize (H q n (or_introl eq_refl)). cbn [filter fst existsb] in *. destruct (underb c q).
  - rewrite H by auto. cbn [orb andb]. destruct (leaf (q, n)); cbn [length]; lia.
  - cbn [orb andb]. destruct (_ && _); cbn [length]; lia.
Qed.
Lemma count_spec fuel : forall s e, wf s -> In (e, NDir) s -> no_dir_links s e -> weight s e <= fuel -> count_files fuel s e = Ret (files_below s e).
Proof.
  induction fuel as [|f IH]; intros s e W I L F.
  { exfalso. unfold weight in F. assert (In (e, NDir) (filter (fun x : path * node => underb e (fst x)) s)) as J by (apply filter_In; split; auto; apply under_spec, under_refl).
    destruct (filter _ s); [exact J|cbn in F; lia]. }
  rewrite count_unfold. assert (LE : lookup s e = Some NDir) by (apply lookup_in; [apply W|auto]). unfold follow. rewrite LE, LE.
  assert (LOOP : forall cs k, NoDup cs -> (forall c, In c cs -> In c (children s e)) -> count_loop f s cs k = Ret (k + files_any s cs)).
  { induction cs as [|c cs IHc]; intros k ND CH.
    - unfold files_any. cbn. f_equal. replace (length (filter (fun _ : path * node => false) s)) with 0; [lia|]. clear. induction s; cbn; auto.
    - rewrite count_loop_cons. inversion_clear ND as [|? ? NI ND']. destruct (proj1 (children_in s e c) (CH c (or_introl eq_refl))) as (x & -> & n & IN).
      assert (SPLIT : files_any s (@cons path (x :: e) cs) = files_below s (x :: e) + files_any s cs).
      { apply files_split. intros q m _ U. apply under_spec in U. destruct (existsb _ cs) eqn:E; auto. exfalso. apply existsb_exists in E as (c & C & V). apply under_spec in V.
        destruct (proj1 (children_in s e c) (CH c (or_intror C))) as (y & -> & _). rewrite (siblings _ _ _ _ U V) in NI. auto. }
      assert (LK : lookup s (x :: e) = Some n) by (apply lookup_in; [apply W|auto]).
      assert (CHs : forall c, In c cs -> In c (children s e)) by (intros; apply CH; right; auto).
      assert (LEAF : n <> NDir -> files_below s (x :: e) = 1).
      { intros ND2. unfold files_below. assert (filter (fun e0 => underb (x :: e) (fst e0) && leaf e0) s = filter (fun e0 : path * node => path_eqb (fst e0) (x :: e)) s) as ->.
        { apply filter_ext_in. intros [q m] Q. cbn [fst]. destruct (path_eqb q (x :: e)) eqn:E.
          - apply path_eqb_spec in E as ->. assert (lookup s (x :: e) = Some m) by (apply lookup_in; [apply W|auto]). assert (m = n) as -> by congruence.
            rewrite (proj2 (under_spec _ _) (under_refl _)). unfold leaf. cbn. destruct n; congruence.
          - destruct (underb (x :: e) q) eqn:U; auto. exfalso. apply under_spec in U as (l & ->).
            assert (forall l m, In (l ++ x :: e, m) s -> l <> [] -> False) as G.
            { clear - W LK ND2. destruct W as (NDP & CL). induction l as [|y l IH]; intros m Q N; [congruence|]. cbn in Q. apply CL in Q. destruct l as [|z l].
              - cbn in Q. apply (lookup_in s (x :: e) NDir NDP) in Q. congruence.
              - apply (IH _ Q). discriminate. }
            apply (G l m Q). intros ->. cbn in E. rewrite path_eqb_refl in E. discriminate. }
        clear - W IN. destruct W as (NDP & _). apply in_split in IN as (l1 & l2 & ->). rewrite filter_app, app_length. cbn [filter fst]. rewrite path_eqb_refl. cbn [length].
        rewrite map_app in NDP. cbn in NDP. apply NoDup_remove_2 in NDP. rewrite in_app_iff in NDP.
        assert (forall l : fs, ~ In (x :: e) (map fst l) -> length (filter (fun e0 : path * node => path_eqb (fst e0) (x :: e)) l) = 0) as Z.
        { clear. induction l as [|[q m] l IH]; cbn; auto. intros N. rewrite path_eqb_neq by tauto. apply IH. tauto. }
        rewrite !Z; [reflexivity|tauto|tauto]. }
      unfold is_dir, stat. rewrite LK. destruct n as [z| |t].
      + rewrite IHc by auto. rewrite SPLIT, LEAF by discriminate. f_equal. lia.
      + rewrite IH; auto.
        * cbn [pbind]. rewrite IHc by auto. rewrite SPLIT. f_equal. lia.
        * intros q t U. apply L. eapply under_trans; [apply under_cons|exact U].
        * pose proof (weight_child s x e NDir (proj1 W) I). lia.
      + assert (ND2 : match lookup s t with Some (NLink _) => None | r => r end <> Some NDir).
        { destruct (lookup s t) as [[| |]|] eqn:E; try discriminate. intros _. apply (L (x :: e) t (under_cons x e) IN). apply lookup_in; [apply W|auto]. }
        destruct (match lookup s t with Some (NLink _) => None | r => r end) as [[| |]|]; try congruence; rewrite IHc by auto; rewrite SPLIT, LEAF by discriminate; f_equal; lia. }
  rewrite LOOP; [|apply nodup_filter; apply W|auto]. cbn. f_equal. unfold files_any, files_below. f_equal. apply filter_ext_in. intros [q n] Q. cbn [fst].
  destruct (underb e q) eqn:U.
  - cbn. destruct (leaf (q, n)) eqn:LF; [|apply andb_false_r]. rewrite andb_true_r. apply existsb_exists. apply under_spec in U as (l & ->).
    destruct (list_eq_dec string_dec l []) as [->|NN].
    + cbn in Q. assert (lookup s e = Some n) by (apply lookup_in; [apply W|auto]). assert (n = NDir) as -> by congruence. discriminate.
    + destruct (@exists_last _ l NN) as (l' & x & ->). exists (x :: e). split; [|apply under_spec; exists l'; rewrite <- app_assoc; auto]. apply children_in. exists x. split; auto. rewrite <- app_assoc in Q. cbn in Q.
      clear - W Q. destruct W as (_ & CL). revert n Q. induction l' as [|y l' IH]; intros n Q; [eauto|]. cbn in Q. apply CL in Q. eauto.
  - cbn. destruct (existsb _ _) eqn:EX; auto. apply existsb_exists in EX as (c & C & V). apply children_in in C as (x & -> & _).
    apply under_spec in V. apply under_false in U. exfalso. apply U. eapply under_trans; [apply under_cons|exact V].
Qed.
Theorem C143_count s e : wf s -> In (e, NDir) s -> no_dir_links s e ->
  exists enough, forall fuel, enough <= fuel -> count_files fuel s e = Ret (length (filter (fun x => underb e (fst x) && leaf x) s)).
Proof. intros W I L. exists (weight s e). intros. apply count_spec; auto. Qed.
Print Assumptions C143_count.

(** directory_size is the sum of the sizes of the files below, if there are no links. *)
Definition size_of (e : path * node) : Z := match snd e with NFile n => n | _ => 0%Z end.
Theorem C143_size s e : wf s -> In (e, NDir) s -> no_links s e ->
  directory_size s e = fold_right Z.add 0%Z (map size_of (filter (fun x => underb e (fst x)) s)).
Proof.
  intros W I L. unfold directory_size. assert (LE : lookup s e = Some NDir) by (apply lookup_in; [apply W|auto]). unfold follow. rewrite LE.
  assert (G : forall l : fs, (forall x, In x l -> In x s) ->
    fold_right Z.add 0%Z (map (fun q => match stat s q with Some (NFile n) => n | _ => 0%Z end) (filter (fun q => underb e q && negb (path_eqb q e)) (map fst l))) =
    fold_right Z.add 0%Z (map size_of (filter (fun x => underb e (fst x)) l))); [|apply G; auto].
  induction l as [|[q n] l IH]; intros SUB; [reflexivity|]. cbn [map filter fst]. specialize (IH (fun x X => SUB x (or_intror X))).
  assert (IN : In (q, n) s) by (apply SUB; left; auto). assert (LQ : lookup s q = Some n) by (apply lookup_in; [apply W|auto]).
  destruct (underb e q) eqn:U; cbn [andb]; [|exact IH]. destruct (path_eqb q e) eqn:E; cbn [negb].
  - apply path_eqb_spec in E as ->. assert (n = NDir) as -> by congruence. cbn. exact IH.
  - cbn [map fold_right]. rewrite IH. f_equal. unfold stat. rewrite LQ. unfold size_of. cbn. destruct n; auto. exfalso. apply under_spec in U. eapply L; eauto.
Qed.
Print Assumptions C143_size.

(** The direct subdirectories. *)
Theorem C143_subdirs s ds q : wf s -> (forall d, In d ds -> In (d, NDir) s) ->
  (In q (get_all_subdirs s ds) <-> exists d x n, In d ds /\ q = x :: d /\ In (q, n) s /\ (n = NDir \/ exists t, n = NLink t /\ In (t, NDir) s)).
Proof.
  intros W DS. unfold get_all_subdirs. rewrite in_flat_map. split.
  - intros (d & D & H). apply filter_In in H as (C & ID). assert (LD : lookup s d = Some NDir) by (apply lookup_in; [apply W|auto]). unfold follow in C. rewrite LD in C.
    apply children_in in C as (x & -> & n & N). exists d, x, n. repeat split; auto. unfold is_dir, stat in ID. rewrite (proj2 (lookup_in s _ n (proj1 W)) N) in ID.
    destruct n as [z| |t]; [discriminate|auto|]. right. exists t. split; auto. apply lookup_in; [apply W|]. destruct (lookup s t) as [[| |]|]; try discriminate; auto.
  - intros (d & x & n & D & -> & N & K). exists d. split; auto. apply filter_In. assert (LD : lookup s d = Some NDir) by (apply lookup_in; [apply W|auto]). unfold follow. rewrite LD.
    split; [apply children_in; eauto|]. unfold is_dir, stat. rewrite (proj2 (lookup_in s _ n (proj1 W)) N). destruct K as [->|(t & -> & T)]; auto.
    rewrite (proj2 (lookup_in s t NDir (proj1 W)) T). reflexivity.
Qed.
Print Assumptions C143_subdirs.

(** ** Making directories *)
(** mkdir_and_ask says True only if afterwards there is something at the path, and False only after an answer other than yes and without changing
    anything; it only adds directories, and only on the way to the path. *)
Lemma lookup_app s t p : lookup (s ++ t) p = match lookup s p with Some n => Some n | None => lookup t p end.
Proof. induction s as [|[q n] s IH]; cbn; auto. destruct (path_eqb q p); auto. Qed.
Lemma mkdir_spec s p parents s' r : mkdir s p parents = (s', r) ->
  (exists new, s' = s ++ new /\ (forall q n, In (q, n) new -> n = NDir /\ under q p /\ lookup s q = None) /\ (r <> Ret tt -> parents = false -> new = [])) /\ (r = Ret tt -> lookup s' p = Some NDir).
Proof.
  revert s s' r. induction p as [|x p IH]; intros s s' r; cbn [mkdir].
  - assert (forall e, (s, Raise e) = (s', r) -> (exists new, s' = s ++ new /\ (forall q n, In (q, n) new -> n = NDir /\ under q [] /\ lookup s q = None) /\ (r <> Ret tt -> parents = false -> new = [])) /\ (r = Ret tt -> lookup s' [] = Some NDir)) as G.
    { intros e [= <- <-]. split; [|discriminate]. exists []. rewrite app_nil_r. repeat split; try contradiction. }
    destruct (lookup s []) as [[| |]|]; apply G.
  - assert (forall e, (s, Raise e) = (s', r) -> (exists new, s' = s ++ new /\ (forall q n, In (q, n) new -> n = NDir /\ under q (x :: p) /\ lookup s q = None) /\ (r <> Ret tt -> parents = false -> new = [])) /\ (r = Ret tt -> lookup s' (x :: p) = Some NDir)) as G.
    { intros e [= <- <-]. split; [|discriminate]. exists []. rewrite app_nil_r. repeat split; try contradiction. }
    destruct (lookup s (x :: p)) eqn:LP; [apply G|]. destruct (lookup s p) as [[| |]|] eqn:LPAR; try apply G.
    + intros [= <- <-]. split.
      * exists [(x :: p, NDir)]. split; auto. split; [|congruence]. intros q n [[= <- <-]|[]]. repeat split; auto. apply under_refl.
      * intros _. rewrite lookup_app, LP. cbn. rewrite path_eqb_refl. auto.
    + destruct parents; [|apply G]. destruct (mkdir s p true) as [s1 r1] eqn:M. destruct (IH _ _ _ M) as ((new & -> & N & _) & D).
      destruct r1 as [[]|e|]; intros [= <- <-]; (split; [|try discriminate]).
      * exists (new ++ [(x :: p, NDir)]). rewrite app_assoc. split; auto. split; [|congruence]. intros q n I. apply in_app_iff in I as [I|[[= <- <-]|[]]].
        -- destruct (N q n I) as (A & B & C). repeat split; auto. eapply under_trans; [exact B|apply under_cons].
        -- repeat split; auto. apply under_refl.
      * intros _. rewrite !lookup_app, LP. destruct (lookup new (x :: p)) eqn:LN.
        -- exfalso. assert (In (x :: p) (map fst new)) as J. { destruct (in_dec (list_eq_dec string_dec) (x :: p) (map fst new)) as [|NI]; auto. apply lookup_none in NI. congruence. }
           apply in_map_iff in J as ([q m] & E & J). cbn in E. subst q. destruct (N _ _ J) as (_ & U & _). revert U. apply not_under_child.
        -- cbn. rewrite path_eqb_refl. auto.
      * exists new. split; auto. split; [|discriminate]. intros q n I. destruct (N q n I) as (A & B & C). repeat split; auto. eapply under_trans; [exact B|apply under_cons].
      * exists new. split; auto. split; [|discriminate]. intros q n I. destruct (N q n I) as (A & B & C). repeat split; auto. eapply under_trans; [exact B|apply under_cons].
Qed.
Theorem C143_mkdir_and_ask s p parents yes answer s' r : mkdir_and_ask s p parents yes answer = (s', r) ->
  (r = Ret true -> exists_ s' p = true) /\
  (r = Ret false -> s' = s /\ exists_ s p = true /\ yes = false /\ answer <> "y"%string /\ answer <> "Y"%string /\ answer <> ""%string) /\
  (exists_ s p = true -> s' = s /\ exists b, r = Ret b) /\
  exists new, s' = s ++ new /\ forall q n, In (q, n) new -> n = NDir /\ under q p /\ lookup s q = None.
Proof.
  unfold mkdir_and_ask. destruct (exists_ s p) eqn:E.
  - assert (NEW : exists new, s = s ++ new /\ forall q n, In (q, n) new -> n = NDir /\ under q p /\ lookup s q = None) by (exists []; rewrite app_nil_r; split; auto; contradiction).
    destruct yes; [intros [= <- <-]; repeat split; try discriminate; eauto|].
    destruct ((answer =? "y")%string || (answer =? "Y")%string || (answer =? "")%string) eqn:Y; intros [= <- <-]; (split; [intros; auto; discriminate|split; [|split; eauto]]); try discriminate.
    intros _. rewrite !orb_false_iff, !String.eqb_neq in Y. tauto.
  - destruct (mkdir s p parents) as [s1 r1] eqn:M. destruct (mkdir_spec _ _ _ _ _ M) as ((new & -> & N & _) & D).
    destruct r1 as [[]|e|]; intros [= <- <-]; (split; [|split; [discriminate|split; [discriminate|eauto]]]); try discriminate.
    intros _. unfold exists_, stat. rewrite D; auto.
Qed.
Print Assumptions C143_mkdir_and_ask.
(** True does not mean that there is a directory: a file there is reused as well. *)
Theorem C143_mkdir_file_refuted : exists s p, wf s /\ mkdir_and_ask s p true true "" = (s, Ret true) /\ is_dir s p = false.
Proof.
  exists [([], NDir); (["f"]%string, NFile 1)], ["f"]%string. split; [|split; reflexivity].
  split; [cbn; repeat constructor; cbn; intuition discriminate|]. intros x p n H. cbn in H. repeat destruct H as [H|H]; try contradiction; inversion H; subst; cbn; auto 8.
Qed.
Print Assumptions C143_mkdir_file_refuted.

(** ** Names *)
Lemma show_inj m n : show m = show n -> m = n.
Proof.
  unfold show. intros E. apply (f_equal NilEmpty.uint_of_string) in E. rewrite !NilEmpty.usu in E. injection E as E. apply Unsigned.to_uint_inj. auto.
Qed.
Lemma app_inj_l a b c : (a ++ b = a ++ c)%string -> b = c.
Proof. induction a as [|x a IH]; cbn; auto. intros [= E]. auto. Qed.
Lemma length_app a b : String.length (a ++ b)%string = String.length a + String.length b.
Proof. induction a; cbn; auto. Qed.
Lemma app_inj_r a b c : (a ++ c = b ++ c)%string -> a = b.
Proof.
  intros E. assert (L : String.length a = String.length b) by (apply (f_equal String.length) in E; rewrite !length_app in E; lia).
  revert b E L. induction a as [|x a IH]; intros [|y b] E L; try discriminate; auto. cbn in E. injection E as -> E. f_equal. apply IH; auto.
Qed.
Lemma version_inj name m n : version name m = version name n -> m = n.
Proof. unfold version. intros E. do 2 apply app_inj_l in E. apply app_inj_r in E. apply show_inj. auto. Qed.

Lemma exists_in s p : exists_ s p = true -> In p (map fst s).
Proof. unfold exists_, stat. destruct (lookup s p) eqn:E; [|discriminate]. intros _. destruct (in_dec (list_eq_dec string_dec) p (map fst s)) as [|N]; auto. apply lookup_none in N. congruence. Qed.
(** A version that does not exist can be found among the first ones: there are only finitely many entries. *)
Lemma some_free s name parent : exists n, 1 <= n <= S (length s) /\ exists_ s (version name n :: parent) = false /\ forall m, 1 <= m < n -> exists_ s (version name m :: parent) = true.
Proof.
  assert (LEAST : forall N, (exists n, 1 <= n <= N /\ exists_ s (version name n :: parent) = false /\ forall m, 1 <= m < n -> exists_ s (version name m :: parent) = true) \/
    (forall m, 1 <= m <= N -> exists_ s (version name m :: parent) = true)).
  { induction N as [|N IH]; [right; lia|]. destruct IH as [(n & B & R)|R]; [left; exists n; split; auto; lia|]. destruct (exists_ s (version name (S N) :: parent)) eqn:E.
    - right. intros m M. destruct (Nat.eq_dec m (S N)) as [->|]; auto. apply R. lia.
    - left. exists (S N). repeat split; auto; try lia. intros m M. apply R. lia. }
  destruct (LEAST (S (length s))) as [H|H]; auto. exfalso.
  assert (ND : NoDup (map (fun n => version name n :: parent) (seq 1 (S (length s))))).
  { apply Injective_map_NoDup; [|apply seq_NoDup]. intros a b E. injection E as E. eapply version_inj; eauto. }
  assert (INC : incl (map (fun n => version name n :: parent) (seq 1 (S (length s)))) (map fst s)).
  { intros q Q. apply in_map_iff in Q as (n & <- & N). apply in_seq in N. apply exists_in. apply H. lia. }
  pose proof (NoDup_incl_length ND INC) as L. rewrite !map_length, seq_length in L. lia.
Qed.
(** no_overwrite_path ends with a path that does not exist: the one given, or else its first version that does not exist, in the same directory. *)
Theorem C143_no_overwrite s name parent :
  exists enough r, (forall fuel, enough <= fuel -> no_overwrite_path fuel s name parent = Ret r) /\ exists_ s r = false /\
    (exists_ s (name :: parent) = false -> r = name :: parent) /\
    (exists_ s (name :: parent) = true -> exists n, 1 <= n /\ r = version name n :: parent /\ forall m, 1 <= m < n -> exists_ s (version name m :: parent) = true).
Proof.
  destruct (exists_ s (name :: parent)) eqn:E.
  - destruct (some_free s name parent) as (n & B & F & LT). exists (S n), (version name n :: parent). split; [|split; auto; split; [discriminate|]].
    + intros fuel FU. unfold no_overwrite_path. destruct fuel as [|fuel]; [lia|]. cbn [overwrite_loop]. rewrite E.
      assert (G : forall d k fuel, k + d = n -> 1 <= k -> d < fuel -> overwrite_loop fuel s name parent (version name k :: parent) (S k) = Ret (version name n :: parent)).
      { clear fuel FU. induction d as [|d IH]; intros k [|fuel] K K1 FU; try lia; cbn [overwrite_loop].
        - replace k with n by lia. rewrite F. auto.
        - rewrite LT by lia. apply IH; lia. }
      apply (G (n - 1) 1); lia.
    + intros _. exists n. repeat split; auto; lia.
  - exists 1, (name :: parent). split; [|split; [auto|split; [auto|discriminate]]]. intros [|fuel] FU; [lia|]. unfold no_overwrite_path. cbn. rewrite E. auto.
Qed.
Print Assumptions C143_no_overwrite.
(** Something can be there nevertheless: a broken link, through which writing makes a file elsewhere. *)
Theorem C143_no_overwrite_link_refuted : exists s name t, wf s /\ no_overwrite_path 1 s name [] = Ret [name] /\ In ([name], NLink t) s.
Proof.
  exists [([], NDir); (["l"]%string, NLink ["gone"]%string)], "l"%string, ["gone"]%string. split; [|split; [reflexivity|cbn; auto]].
  split; [cbn; repeat constructor; cbn; intuition discriminate|]. intros x p n H. cbn in H. repeat destruct H as [H|H]; try contradiction; inversion H; subst; cbn; auto 8.
Qed.
Print Assumptions C143_no_overwrite_link_refuted.

Lemma split_ne s : split s <> [].
Proof. destruct s as [|c s]; cbn; [discriminate|]. destruct (Ascii.eqb c dot); [discriminate|]. destruct (split s); discriminate. Qed.
Lemma join_split s : join (split s) = s.
Proof.
  induction s as [|c s IH]; auto. cbn [split]. destruct (Ascii.eqb c dot) eqn:E.
  - apply Ascii.eqb_eq in E as ->. pose proof (split_ne s). cbn. destruct (split s); [congruence|]. rewrite IH. auto.
  - pose proof (split_ne s). destruct (split s) as [|x [|y r]]; [congruence| |]; cbn in *; rewrite <- IH; auto.
Qed.
Definition dotless (s : string) : Prop := split s = [s].
Lemma dotless_cons c s : dotless (String c s) -> Ascii.eqb c dot = false /\ dotless s.
Proof.
  unfold dotless. cbn. destruct (Ascii.eqb c dot); [discriminate|]. pose proof (split_ne s). destruct (split s) as [|x [|y r]]; try congruence. intros [= ->]. auto.
Qed.
Lemma split_dotless a r : dotless a -> split (a ++ String dot r)%string = a :: split r.
Proof.
  induction a as [|c a IH]; intros D; [reflexivity|]. apply dotless_cons in D as (C & D). cbn [append split]. rewrite C, (IH D). auto.
Qed.
Lemma split_join l : l <> [] -> Forall dotless l -> split (join l) = l.
Proof.
  induction l as [|x l IH]; intros NE F; [congruence|]. inversion_clear F as [|? ? D F']. destruct l as [|y r]; [exact D|].
  change (join (x :: y :: r)) with (x ++ String dot (join (y :: r)))%string. rewrite split_dotless by auto. f_equal. apply IH; [discriminate|auto].
Qed.
Lemma concat_dots l : String.concat "" (map (String dot) l) = match l with [] => EmptyString | _ => String dot (join l) end.
Proof.
  induction l as [|x l IH]; auto. destruct l as [|y r]; auto. change (map (String dot) (x :: y :: r)) with (String dot x :: map (String dot) (y :: r)).
  change (String.concat "" (String dot x :: map (String dot) (y :: r))) with (String dot x ++ "" ++ String.concat "" (map (String dot) (y :: r)))%string. rewrite IH. reflexivity.
Qed.
Lemma removelast_in {A} (x : A) l : In x (removelast l) -> In x l.
Proof. induction l as [|u [|v l] IH]; cbn [removelast]; [auto|intros []|]. intros [<-|X]; [left; auto|right; auto]. Qed.
(** The version of a name made of a first part, without dots and not empty, and extensions, none of which ends the name with a dot: the first part,
    _v, the number, and the extensions. *)
Theorem C143_version a exts n : a <> EmptyString -> dotless a -> Forall dotless exts -> last exts "x"%string <> EmptyString ->
  version (join (a :: exts)) n = (a ++ "_v" ++ show n ++ match exts with [] => "" | _ => String dot (join exts) end)%string.
Proof.
  intros NE D F LA. unfold version. assert (SP : split (join (a :: exts)) = a :: exts) by (apply split_join; [discriminate|constructor; auto]).
  destruct a as [|c a]; [congruence|]. pose proof (dotless_cons _ _ D) as (CD & _).
  assert (LS : lstrip (join (String c a :: exts)) = join (String c a :: exts)) by (destruct exts; cbn; rewrite CD; reflexivity).
  assert (LAST : exts <> [] -> last (String c a :: exts) EmptyString <> EmptyString).
  { intros E. destruct exts as [|y r]; [congruence|]. change (last (String c a :: y :: r) EmptyString) with (last (y :: r) EmptyString).
    assert (last (y :: r) EmptyString = last (y :: r) "x"%string) as -> by (clear; revert y; induction r as [|z r IH]; intros y; auto; apply (IH z)). auto. }
  assert (HEAD : hd EmptyString (split (stem (join (String c a :: exts)))) = String c a).
  { unfold stem. rewrite SP. destruct exts as [|y r].
    - cbn [length]. cbn -[split]. change (split (join [String c a])) with (split (String c a)). rewrite D. auto.
    - destruct (_ && _ && _); [|rewrite SP; auto]. rewrite split_join; [reflexivity|discriminate|]. apply Forall_forall. intros x X.
      pose proof (removelast_in _ _ X) as J.
      destruct J as [<-|J]; auto. eapply Forall_forall in F; eauto. }
  rewrite HEAD. unfold suffixes. rewrite LS, SP. cbn [tl]. replace ((1 <? length (String c a :: exts)) && (last (String c a :: exts) EmptyString =? "")%string) with false.
  - rewrite concat_dots. reflexivity.
  - symmetry. destruct exts as [|y r]; [reflexivity|]. apply andb_false_iff. right. apply String.eqb_neq. apply LAST. discriminate.
Qed.
Print Assumptions C143_version.
(** A name after one or more dots, with the same extensions: nothing is left of the dots and the first part. *)
Fixpoint dots (k : nat) : string := match k with O => EmptyString | S k => String dot (dots k) end.
Lemma split_dots k s : split (dots k ++ s)%string = repeat EmptyString k ++ split s.
Proof. induction k as [|k IH]; [reflexivity|]. cbn [dots append split repeat app]. change (Ascii.eqb dot dot) with true. cbn iota. rewrite IH. reflexivity. Qed.
Lemma lstrip_dots k s : lstrip (dots k ++ s)%string = lstrip s.
Proof. induction k as [|k IH]; [reflexivity|]. cbn [dots append lstrip]. change (Ascii.eqb dot dot) with true. cbn iota. exact IH. Qed.
Lemma last_repeat k l : l <> [] -> last (repeat EmptyString k ++ l) EmptyString = last l EmptyString.
Proof.
  intros N. induction k as [|k IH]; [reflexivity|]. cbn [repeat app]. rewrite <- IH. destruct (repeat EmptyString k ++ l) eqn:E; [|reflexivity]. apply app_eq_nil in E. tauto.
Qed.
Lemma hidden_stem name r : split name = EmptyString :: r -> hd EmptyString (split (stem name)) = EmptyString.
Proof.
  intros S. unfold stem. rewrite S. destruct (_ && _ && _); [|rewrite S; reflexivity].
  destruct r as [|x [|y r]]; [reflexivity|reflexivity|]. cbn [removelast]. destruct (removelast (y :: r)); reflexivity.
Qed.
Theorem C143_version_hidden k a exts n : a <> EmptyString -> dotless a -> Forall dotless exts -> last exts "x"%string <> EmptyString ->
  version (dots (S k) ++ join (a :: exts)) n = ("_v" ++ show n ++ match exts with [] => "" | _ => String dot (join exts) end)%string.
Proof.
  intros NE D F LA. unfold version. assert (SP : split (join (a :: exts)) = a :: exts) by (apply split_join; [discriminate|constructor; auto]).
  rewrite (hidden_stem _ (repeat EmptyString k ++ a :: exts)) by (rewrite split_dots, SP; reflexivity). cbn [append].
  assert (LS : lstrip (join (a :: exts)) = join (a :: exts)) by (destruct a as [|c a]; [congruence|]; pose proof (dotless_cons _ _ D) as (CD & _); destruct exts; cbn; rewrite CD; reflexivity).
  unfold suffixes. rewrite split_dots, lstrip_dots, LS, SP, last_repeat by discriminate. replace (last (a :: exts) EmptyString =? "")%string with false.
  - rewrite Bool.andb_false_r. cbn [tl]. rewrite concat_dots. reflexivity.
  - symmetry. apply String.eqb_neq. destruct exts as [|y r]; [exact NE|]. change (last (a :: y :: r) EmptyString) with (last (y :: r) EmptyString).
    assert (last (y :: r) EmptyString = last (y :: r) "x"%string) as -> by (clear; revert y; induction r as [|z r IH]; intros y; auto; apply (IH z)). exact LA.
Qed.
Print Assumptions C143_version_hidden.
Example hidden_case : version "..a.txt" 3 = "_v3.txt"%string.
Proof. reflexivity. Qed.
(** append_str_to_path stays in the directory; the name is the old one followed by the string. *)
Lemma substring_front a b : substring 0 (String.length a) (a ++ b) = a.
Proof. induction a as [|c a IH]; cbn; [destruct b; reflexivity|]. rewrite IH. reflexivity. Qed.
Lemma substring_back a b : substring (String.length a) (String.length b) (a ++ b) = b.
Proof. induction a as [|c a IH]; cbn; [|exact IH]. induction b as [|c b IH]; cbn; [reflexivity|]. rewrite IH. reflexivity. Qed.
Theorem C143_append name parent s : exists n, append_str_to_path name parent s = n :: parent /\
  String.length n = String.length name + String.length s /\
  substring 0 (String.length name) n = name /\ substring (String.length name) (String.length s) n = s.
Proof.
  exists (name ++ s)%string. refine (conj eq_refl (conj _ (conj (substring_front _ _) (substring_back _ _)))).
  induction name as [|c a IH]; cbn; auto.
Qed.
Print Assumptions C143_append.
(** A hidden file loses its name. *)
Theorem C143_version_hidden_refuted : version ".bashrc" 1 = "_v1"%string /\ version ".bashrc" 1 = version ".profile" 1.
Proof. split; reflexivity. Qed.
Print Assumptions C143_version_hidden_refuted.

(** A case: a directory with a subdirectory, a file and a link to a file elsewhere. *)
Definition case_fs : fs :=
  [([], NDir); (["a"]%string, NDir); (["b"; "a"]%string, NDir); (["f"; "b"; "a"]%string, NFile 7); (["l"; "a"]%string, NLink ["g"]%string); (["g"]%string, NFile 3)].
Example rm_case : wf case_fs /\ links_ok case_fs ["a"]%string /\ rm_tree 6 case_fs ["a"]%string = ([([], NDir); (["g"]%string, NFile 3)], Ret tt).
Proof.
  split; [|split; [|reflexivity]].
  - split; [cbn; repeat constructor; cbn; intuition discriminate|]. intros x p n H. cbn in H. repeat destruct H as [H|H]; try contradiction; inversion H; subst; cbn; auto 8.
  - intros q t _ H. cbn in H. repeat destruct H as [H|H]; try contradiction; inversion H; subst. split.
    + intros (l & E). apply (f_equal (fun l => last l EmptyString)) in E. rewrite last_last in E. discriminate.
    + exists 3%Z. cbn. auto 8.
Qed.
Example version_case : version "a.tar.gz" 2 = "a_v2.tar.gz"%string.
Proof. reflexivity. Qed.
