(** C152: the scripts that delete directories. *)
From Coq Require Import Ascii String Reals Lra Decimal.
From Verif Require Import PyBase PyFsModel PyFsProps PyConvModel PyConvProps PyScriptModel.
Close Scope R_scope.
Open Scope nat_scope.
Open Scope list_scope.

(** ** Specification *)
Definition yes (answer : string) : Prop := (answer = "y" \/ answer = "Y" \/ answer = "")%string.
(** The files below a place, and their size together. *)
Definition files (s : fs) (p : path) : list (path * node) := filter (fun e => underb p (fst e) && leaf e) s.
Definition file_count (s : fs) (p : path) : Z := Z.of_nat (length (files s p)).
Definition file_bytes (s : fs) (p : path) : Z := fold_right Z.add 0%Z (map size_of (files s p)).
(** A directory directly in one of the roots that measures less than the threshold. *)
Definition chosen (s : fs) (roots : list path) (measure : path -> Z) (threshold : Z) (d : path) : Prop :=
  exists r x, In r roots /\ d = x :: r /\ In (d, NDir) s /\ (measure d < threshold)%Z.
(** Different roots that are directories, none inside another. *)
Definition good_roots (s : fs) (roots : list path) : Prop :=
  NoDup roots /\ (forall r, In r roots -> In (r, NDir) s) /\ forall r r', In r roots -> In r' roots -> under r r' -> r = r'.

(** ** Proofs *)
Ltac wf_tac := split; [cbn; repeat constructor; cbn; intuition discriminate|intros x p n H; cbn in H; repeat destruct H as [H|H]; try contradiction; inversion H; subst; cbn; auto 12].
Lemma is_dir_dir s d : wf s -> In (d, NDir) s -> is_dir s d = true.
Proof. intros W I. unfold is_dir, stat. rewrite (proj2 (lookup_in s d NDir (proj1 W)) I). reflexivity. Qed.
Lemma select_spec s measure m th ds :
  (forall d, In d ds -> is_dir s d = true -> measure d = Ret (m d)) ->
  select s measure th ds = Ret (filter (fun d => is_dir s d && (m d <? th)%Z) ds).
Proof.
  induction ds as [|d ds IH]; intros M; [reflexivity|]. cbn [select filter]. specialize (IH (fun d' D => M d' (or_intror D))). destruct (is_dir s d) eqn:E; cbn [andb]; [|exact IH].
  rewrite M by (auto; left; auto). cbn [pbind]. rewrite IH. cbn [pbind]. destruct (m d <? th)%Z; reflexivity.
Qed.
Lemma collect_spec s measure m th roots : wf s -> (forall r, In r roots -> In (r, NDir) s) ->
  (forall r x, In r roots -> is_dir s (x :: r) = true -> measure (x :: r) = Ret (m (x :: r))) ->
  collect s measure th roots = Ret (flat_map (fun r => filter (fun d => is_dir s d && (m d <? th)%Z) (children s r)) roots).
Proof.
  intros W. induction roots as [|r roots IH]; intros D M; [reflexivity|]. cbn [collect flat_map]. unfold iterdir.
  assert (L : lookup s r = Some NDir) by (apply lookup_in; [apply W|apply D; left; auto]). unfold follow. rewrite L, L. cbn [pbind].
  rewrite (select_spec s measure m).
  - cbn [pbind]. rewrite IH; [reflexivity| |]; intros; [apply D|apply M]; auto; right; auto.
  - intros d C. apply children_in in C as (x & -> & _). apply M. left; auto.
Qed.
Lemma collected_nodup s f roots : wf s -> NoDup roots -> NoDup (flat_map (fun r => filter f (children s r)) roots).
Proof.
  intros W ND. induction ND as [|r roots NI ND IH]; cbn; [constructor|].
  assert (G : forall l l' : list path, NoDup l -> NoDup l' -> (forall x, In x l -> ~ In x l') -> NoDup (l ++ l')).
  { clear. induction 1 as [|a l NI ND IH]; cbn; auto. intros ND' DJ. constructor; [rewrite in_app_iff; intros [A|A]; [auto|revert A; apply DJ; left; auto]|]. apply IH; auto. }
  apply G; auto; [apply nodup_filter, nodup_filter; apply W|].
  intros d A B. apply filter_In in A as (A & _). apply children_in in A as (x & -> & _). apply in_flat_map in B as (r' & R' & B). apply filter_In in B as (B & _).
  apply children_in in B as (y & [= -> ->] & _). auto.
Qed.
(** Two directories of which one is below the other, each directly in a root, are the same. *)
Lemma chosen_disjoint s roots (r r' : path) x x' : good_roots s roots -> In r roots -> In r' roots -> under (x :: r) (x' :: r') -> x :: r = x' :: r'.
Proof.
  intros (_ & _ & DJ) R R' ([|y l] & E); [auto|]. cbn in E. injection E as -> E. assert (U : under r r') by (exists (l ++ [x]); rewrite <- app_assoc; auto).
  assert (r = r') as <- by (apply DJ; auto). exfalso. apply (f_equal (@length _)) in E. rewrite app_length in E. cbn in E. lia.
Qed.

Lemma remove_spec s roots measure m th answer : wf s -> good_roots s roots ->
  (forall r q t, In r roots -> under r q -> In (q, NLink t) s -> (forall r', In r' roots -> ~ under r' t) /\ exists n, In (t, NFile n) s) ->
  (exists enough, forall fuel, enough <= fuel -> forall r x, In r roots -> In (x :: r, NDir) s -> measure fuel (x :: r) = Ret (m (x :: r))) ->
  exists enough s', (forall fuel, enough <= fuel -> remove_collected fuel s (collect s (measure fuel) th roots) answer = (s', Ret tt)) /\
    forall q n, In (q, n) s' <-> In (q, n) s /\ (yes answer -> forall d, chosen s roots m th d -> ~ under d q).
Proof.
  intros W G LK (e1 & M). set (ds := flat_map (fun r => filter (fun d => is_dir s d && (m d <? th)%Z) (children s r)) roots).
  assert (DIR : forall r x, In r roots -> is_dir s (x :: r) = true -> In (x :: r, NDir) s).
  { intros r x R D. unfold is_dir, stat in D. destruct (lookup s (x :: r)) as [[| |t]|] eqn:L; try discriminate; [apply lookup_in; [apply W|auto]|].
    apply (lookup_in s _ _ (proj1 W)) in L. destruct (LK r (x :: r) t R (under_cons x r) L) as (_ & n & F). rewrite (proj2 (lookup_in s t _ (proj1 W)) F) in D. discriminate. }
  assert (IN : forall d, In d ds <-> chosen s roots m th d).
  { intros d. unfold ds. rewrite in_flat_map. split.
    - intros (r & R & H). apply filter_In in H as (C & H). apply andb_true_iff in H as (D & T). apply children_in in C as (x & -> & _). exists r, x. repeat split; auto. apply Z.ltb_lt. auto.
    - intros (r & x & R & -> & D & T). exists r. split; auto. apply filter_In. split; [apply children_in; eauto|]. apply andb_true_iff. split; [apply is_dir_dir; auto|apply Z.ltb_lt; auto]. }
  destruct (C143_ask s ds answer) as (e2 & s' & A & B); auto.
  - apply collected_nodup; auto. apply G.
  - intros d D. apply IN in D as (r & x & _ & -> & D & _). split; [discriminate|auto].
  - intros d d' D D'. apply IN in D as (r & x & R & -> & _ & _). apply IN in D' as (r' & x' & R' & -> & _ & _). eapply chosen_disjoint; eauto.
  - intros d q t D U Q. apply IN in D as (r & x & R & -> & _ & _). destruct (LK r q t R) as (N & F); auto; [eapply under_trans; [apply under_cons|exact U]|]. split; auto.
    intros d' D' V. apply IN in D' as (r' & x' & R' & -> & _ & _). apply (N r' R'). eapply under_trans; [apply under_cons|exact V].
  - exists (Nat.max e1 e2), s'. split.
    + intros fuel F. rewrite (collect_spec s (measure fuel) m); auto; [cbn [remove_collected]; apply A; lia|apply G|]. intros r x R D. apply M; auto. lia.
    + intros q n. rewrite B. split; intros (P & Q); split; auto; intros Y d D; apply Q; auto; apply IN; auto.
Qed.

(** remove_directories_with_few_files: after yes, exactly the directories directly in the roots with fewer files than the count are gone, with all that is
    below them; after anything else nothing is.  The roots are different directories, none inside another; all links below lead to files outside. *)
Theorem C152_few_files s roots count answer : wf s -> good_roots s roots ->
  (forall r q t, In r roots -> under r q -> In (q, NLink t) s -> (forall r', In r' roots -> ~ under r' t) /\ exists n, In (t, NFile n) s) ->
  exists enough s', (forall fuel, enough <= fuel -> few_files fuel s roots count answer = (s', Ret tt)) /\
    forall q n, In (q, n) s' <-> In (q, n) s /\ (yes answer -> forall d, chosen s roots (file_count s) count d -> ~ under d q).
Proof.
  intros W G LK. apply (remove_spec s roots (fun fuel d => let? n := count_files fuel s d in Ret (Z.of_nat n))); auto.
  exists (length s). intros fuel F r x R D. rewrite count_spec; auto.
  - intros q t U Q T. destruct (LK r q t R) as (_ & n & FI); auto; [eapply under_trans; [apply under_cons|exact U]|].
    apply (lookup_in s _ _ (proj1 W)) in FI, T. congruence.
  - etransitivity; [apply filter_len|exact F].
Qed.
Print Assumptions C152_few_files.

Lemma bytes_eq s p : fold_right Z.add 0%Z (map size_of (filter (fun x => underb p (fst x)) s)) = file_bytes s p.
Proof.
  unfold file_bytes, files. induction s as [|[q n] s IH]; [reflexivity|]. cbn [filter fst]. destruct (underb p q); cbn [andb]; [|exact IH]. cbn [map fold_right]. rewrite IH.
  unfold leaf. cbn [snd]. destruct n; reflexivity.
Qed.
(** remove_small_directories: the same with the size of the files in bytes; there are no links below the roots. *)
Theorem C152_small_directories s roots size threshold answer : wf s -> good_roots s roots -> (forall r, In r roots -> no_links s r) ->
  parse_file_size size = Ret threshold ->
  exists enough s', (forall fuel, enough <= fuel -> small_dirs fuel s roots size answer = (s', Ret tt)) /\
    forall q n, In (q, n) s' <-> In (q, n) s /\ (yes answer -> forall d, chosen s roots (file_bytes s) threshold d -> ~ under d q).
Proof.
  intros W G LK P. unfold small_dirs. rewrite P. cbn [pbind]. apply (remove_spec s roots (fun _ d => Ret (directory_size s d))); auto.
  - intros r q t R U Q. exfalso. eapply LK; eauto.
  - exists 0. intros fuel _ r x R D. f_equal. rewrite C143_size; auto; [apply bytes_eq|]. intros q t U Q. apply (LK r R q t); auto. eapply under_trans; [apply under_cons|exact U].
Qed.
Print Assumptions C152_small_directories.

(** A case: of the two directories in the root, the one with 1 file of 1 byte is deleted, the one with 2 files of 2 bytes is not; neither is the file. *)
Example cases :
  let s := [([], NDir); (["r"]%string, NDir); (["a"; "r"]%string, NDir); (["f"; "a"; "r"]%string, NFile 1); (["b"; "r"]%string, NDir); (["sub"; "b"; "r"]%string, NDir); (["f"; "sub"; "b"; "r"]%string, NFile 1); (["g"; "b"; "r"]%string, NFile 1); (["h"; "r"]%string, NFile 0)] in
  wf s /\ good_roots s [["r"]%string] /\ (forall r, In r [["r"]%string] -> no_links s r) /\ chosen s [["r"]%string] (file_count s) 2 ["a"; "r"]%string /\ ~ chosen s [["r"]%string] (file_count s) 2 ["b"; "r"]%string /\
  few_files 9 s [["r"]%string] 2 "y" = ([([], NDir); (["r"]%string, NDir); (["b"; "r"]%string, NDir); (["sub"; "b"; "r"]%string, NDir); (["f"; "sub"; "b"; "r"]%string, NFile 1); (["g"; "b"; "r"]%string, NFile 1); (["h"; "r"]%string, NFile 0)], Ret tt).
Proof.
  intros s. split; [|split; [|split; [|split; [|split]]]].
  - wf_tac.
  - split; [repeat constructor; cbn; tauto|]. split; [intros r [<-|[]]; cbn; auto|]. intros r r' [<-|[]] [<-|[]]; auto.
  - intros r _ q t _ H. cbn in H. repeat destruct H as [H|H]; try contradiction; discriminate.
  - exists ["r"]%string, "a"%string. repeat split; cbn; auto.
  - intros (r & x & _ & _ & _ & L). cbn in L. lia.
  - reflexivity.
Qed.

(** Whatever there is in the roots, an answer other than yes changes nothing, and neither does a root that is missing or not a directory, or a size that cannot
    be read: the script fails before it asks. *)
Theorem C152_nothing_without_yes fuel s roots count size answer : ~ yes answer -> fst (few_files fuel s roots count answer) = s /\ fst (small_dirs fuel s roots size answer) = s.
Proof.
  intros N. assert (G : forall l, fst (remove_collected fuel s l answer) = s).
  { intros [ds|e|]; cbn; auto. unfold ask_to_remove. destruct (is_yes answer) eqn:Y; auto. exfalso. apply N. unfold is_yes in Y. rewrite !orb_true_iff, !String.eqb_eq in Y. unfold yes. tauto. }
  split; apply G.
Qed.
Print Assumptions C152_nothing_without_yes.
Lemma collect_bad s measure th roots : (exists r, In r roots /\ is_dir s r = false) -> forall ds, collect s measure th roots <> Ret ds.
Proof.
  intros (r & R & D). induction roots as [|r0 roots IH]; [contradiction|]. intros ds. cbn [collect]. destruct (iterdir s r0) as [cs| |] eqn:E; try discriminate. cbn [pbind].
  destruct (select s measure th cs) as [l| |]; try discriminate. cbn [pbind]. destruct (collect s measure th roots) as [l'| |] eqn:C; try discriminate. exfalso.
  destruct R as [->|R]; [|apply (IH R l'); auto]. unfold iterdir, follow in E. unfold is_dir, stat in D. destruct (lookup s r) as [[| |t]|] eqn:L.
  - rewrite L in E. discriminate.
  - discriminate.
  - destruct (lookup s t) as [[| |]|]; discriminate.
  - rewrite L in E. discriminate.
Qed.
Theorem C152_bad_arguments fuel s roots count size answer : 
  ((exists r, In r roots /\ is_dir s r = false) -> fst (few_files fuel s roots count answer) = s /\ snd (few_files fuel s roots count answer) <> Ret tt) /\
  ((exists r, In r roots /\ is_dir s r = false) \/ (forall t, parse_file_size size <> Ret t) -> fst (small_dirs fuel s roots size answer) = s /\ snd (small_dirs fuel s roots size answer) <> Ret tt).
Proof.
  assert (G : forall l, (forall ds, l <> Ret ds) -> fst (remove_collected fuel s l answer) = s /\ snd (remove_collected fuel s l answer) <> Ret tt).
  { intros [ds|e|] N; [destruct (N ds eq_refl)| |]; cbn; split; auto; discriminate. }
  split; intros B; apply G.
  - apply collect_bad. exact B.
  - intros ds. destruct (parse_file_size size) as [t| |] eqn:P; try discriminate. cbn [pbind]. destruct B as [B|B]; [apply collect_bad; exact B|destruct (B t eq_refl)].
Qed.
Print Assumptions C152_bad_arguments.

(** ** What a user might expect and does not get *)
(** The same root given twice: the first small directory is deleted, and then the script fails, at its second turn or before, leaving the other small
    directories of later roots. *)
Theorem C152_root_twice_refuted : exists s a b s', wf s /\ chosen s [a; b] (file_count s) 1 ["x"; "a"]%string /\ chosen s [a; b] (file_count s) 1 ["y"; "b"]%string /\
  (forall fuel, 3 <= fuel -> few_files fuel s [a; a; b] 1 "y" = (s', Raise FileNotFoundError)) /\ ~ In ["x"; "a"]%string (map fst s') /\ In (["y"; "b"]%string, NDir) s'.
Proof.
  exists [([], NDir); (["a"]%string, NDir); (["x"; "a"]%string, NDir); (["b"]%string, NDir); (["y"; "b"]%string, NDir)], ["a"]%string, ["b"]%string. eexists.
  split; [|split; [|split; [|split; [|split]]]].
  - wf_tac.
  - exists ["a"]%string, "x"%string. repeat split; cbn; auto.
  - exists ["b"]%string, "y"%string. repeat split; cbn; auto 8.
  - intros [|[|[|fuel]]] H; try lia. cbn. reflexivity.
  - cbn. intuition discriminate.
  - cbn. auto.
Qed.
Print Assumptions C152_root_twice_refuted.
(** A root inside a small directory of another: the same. *)
Theorem C152_nested_roots_refuted : exists s a b s', wf s /\ NoDup [a; b] /\ In (a, NDir) s /\ In (b, NDir) s /\
  (forall fuel, 4 <= fuel -> few_files fuel s [a; b] 1 "y" = (s', Raise FileNotFoundError)).
Proof.
  exists [([], NDir); (["a"]%string, NDir); (["x"; "a"]%string, NDir); (["z"; "x"; "a"]%string, NDir)], ["a"]%string, ["x"; "a"]%string. eexists.
  split; [|split; [|split; [|split]]].
  - wf_tac.
  - repeat constructor; cbn; intuition discriminate.
  - cbn. auto.
  - cbn. auto.
  - intros [|[|[|[|fuel]]]] H; try lia. cbn. reflexivity.
Qed.
Print Assumptions C152_nested_roots_refuted.
Lemma two : parse_file_size "2" = Ret 2%Z.
Proof. apply (C144_size_exact (D2 Nil) None "" 0 "" 2); cbn; auto 10; [left; discriminate|unfold said; cbn; lra|lia]. Qed.
(** A link in a root to a directory elsewhere with few files: the files of that directory are deleted though it is not in a root, the link stays, and the
    script fails. *)
Theorem C152_link_refuted : exists s r q s', wf s /\ In (r, NDir) s /\ ~ under r q /\ In (q, NFile 1) s /\
  (forall fuel, 3 <= fuel -> few_files fuel s [r] 2 "y" = (s', Raise NotADirectoryError)) /\ ~ In q (map fst s') /\
  (forall fuel, 3 <= fuel -> small_dirs fuel s [r] "2" "y" = (s', Raise NotADirectoryError)).
Proof.
  exists [([], NDir); (["r"]%string, NDir); (["link"; "r"]%string, NLink ["data"]%string); (["data"]%string, NDir); (["f"; "data"]%string, NFile 1)], ["r"]%string, ["f"; "data"]%string.
  eexists. split; [|split; [|split; [|split; [|split; [|split]]]]].
  - wf_tac.
  - cbn. auto.
  - intros (l & E). apply (f_equal (fun l => last l EmptyString)) in E. rewrite last_last in E. discriminate.
  - cbn. auto 8.
  - intros [|[|[|fuel]]] H; try lia. cbn. reflexivity.
  - cbn. intuition discriminate.
  - intros [|[|[|fuel]]] H; try lia. unfold small_dirs.
    rewrite two. cbn. reflexivity.
Qed.
Print Assumptions C152_link_refuted.
(** The help of remove_directories_with_few_files speaks of files and subfolders, but only files count: a directory of any number of empty subfolders, below
    the count or not, is deleted. *)
Theorem C152_subfolders_refuted : forall names : list string, NoDup names ->
  let s := ([], NDir) :: (["r"]%string, NDir) :: (["d"; "r"]%string, NDir) :: map (fun x => ([x; "d"; "r"]%string, NDir)) names in
  wf s /\ exists enough s', (forall fuel, enough <= fuel -> few_files fuel s [["r"]%string] 1 "y" = (s', Ret tt)) /\ ~ In (["d"; "r"]%string) (map fst s').
Proof.
  intros names ND s.
  assert (NL : forall q n, In (q, n) s -> n = NDir).
  { intros q n [[= _ <-]|[[= _ <-]|[[= _ <-]|H]]]; auto. apply in_map_iff in H as (x & [= _ <-] & _). auto. }
  assert (W : wf s).
  { split.
    - unfold s. cbn [map fst]. rewrite map_map. cbn [fst]. repeat (constructor; [intros H; repeat (destruct H as [H|H]; [discriminate|]); apply in_map_iff in H as (x & [=] & _)|]).
      apply FinFun.Injective_map_NoDup; auto. intros a b [=]; auto.
    - intros x p n [[= E]|[[= <- <- <-]|[[= <- <- <-]|H]]]; [cbn; auto|cbn; auto|]. apply in_map_iff in H as (y & [= <- <- <-] & _). cbn. auto. }
  split; auto. destruct (C152_few_files s [["r"]%string] 1 "y" W) as (e & s' & A & B).
  - split; [repeat constructor; cbn; tauto|]. split; [intros r [<-|[]]; cbn; auto|]. intros r r' [<-|[]] [<-|[]]; auto.
  - intros r q t _ _ Q. apply NL in Q. discriminate.
  - exists e, s'. split; auto. intros H. apply in_map_iff in H as ([q n] & E & H). cbn in E. subst q. apply B in H as (I & N). apply (N (or_introl eq_refl) ["d"; "r"]%string); [|apply under_refl].
    exists ["r"]%string, "d"%string. repeat split; cbn [In]; auto; [unfold s; cbn [In]; auto|]. unfold file_count, files.
    assert (filter (fun e0 => underb ["d"; "r"]%string (fst e0) && leaf e0) s = []) as ->; [|cbn; lia].
    assert (G : forall l : fs, (forall q n, In (q, n) l -> n = NDir) -> filter (fun e0 => underb ["d"; "r"]%string (fst e0) && leaf e0) l = []); [|apply G; auto].
    clear. induction l as [|[q n] l IH]; intros L; [reflexivity|]. cbn [filter fst]. rewrite (L q n) by (left; auto). cbn [leaf snd]. rewrite andb_false_r. apply IH. intros. eapply L. right; eauto.
Qed.
Print Assumptions C152_subfolders_refuted.
