(** C45, C47: shortcutting and upsampling paths. *)
From Coq Require Import Permutation QArith Reals.
From Flocq Require Import IEEE754.Bits IEEE754.Binary.
From Verif Require Import Base Cost CostFloat HelpersModel PathModel PathFloat.
Open Scope nat_scope.

(** ** Specification *)
(** [p] is what is left of [l] after leaving out some elements. *)
Inductive sublist {V} : list V -> list V -> Prop :=
| sl_nil : sublist [] []
| sl_keep x p l : sublist p l -> sublist (x :: p) (x :: l)
| sl_skip x p l : sublist p l -> sublist p (x :: l).
(** [y] comes right after [x] somewhere in [l]. *)
Definition adjacent {V} (l : list V) (x y : V) : Prop := exists i, nth_error l i = Some x /\ nth_error l (S i) = Some y.
Definition ends_with {V} (l : list V) (x : V) : Prop := nth_error l (length l - 1) = Some x.

(** What the standard distributions promise: a base index in the path and, for a shortcut fraction that is not
    astronomical, a representable offset. *)
Definition draw_contract (d : draw) : Prop := forall n, 0 < n ->
  d_base d n < n /\ exists off, d_offset d n = Some off /\ (- 2 ^ 62 < off < 2 ^ 62)%Z.

Lemma nth_skipn {V} (l : list V) s k : nth_error (skipn s l) k = nth_error l (s + k).
Proof. revert l. induction s as [|s IH]; intros l; auto. destruct l; cbn; auto. destruct k; auto. Qed.
Lemma nth_firstn {V} (l : list V) n k : k < n -> nth_error (firstn n l) k = nth_error l k.
Proof. revert n k. induction l as [|x l IH]; intros [|n] [|k] H; cbn; auto; try lia. apply IH. lia. Qed.

(** ** Shortcutting *)
Lemma sublist_refl {V} (l : list V) : sublist l l.
Proof. induction l; constructor; auto. Qed.
Lemma sublist_trans {V} (c b a : list V) : sublist c b -> sublist b a -> sublist c a.
Proof.
  intros H1 H2. revert c H1. induction H2 as [|x b a H IH|x b a H IH]; intros c H1; auto.
  - inversion H1; subst; constructor; auto.
  - constructor; auto.
Qed.
Lemma sublist_cut {V} : forall (path : list V) s e, s < e -> sublist (firstn (s + 1) path ++ skipn e path) path.
Proof.
  assert (K : forall (path : list V) k, sublist (skipn k path) path).
  { induction path as [|x path IH]; intros [|k]; cbn; try constructor; auto. apply sublist_refl. }
  induction path as [|x path IH]; intros s e He.
  - rewrite firstn_nil, skipn_nil. constructor.
  - destruct e as [|e]; [lia|]. rewrite Nat.add_1_r. cbn [firstn skipn app]. constructor. destruct s as [|s].
    + cbn [firstn app]. apply K.
    + rewrite <- Nat.add_1_r. apply IH. lia.
Qed.
Lemma nth_cut {V} (path : list V) s e i : s < e -> e < length path ->
  nth_error (firstn (s + 1) path ++ skipn e path) i = if i <=? s then nth_error path i else nth_error path (e + (i - (s + 1))).
Proof.
  intros S E. assert (LF : length (firstn (s + 1) path) = s + 1) by (rewrite firstn_length; lia).
  destruct (Nat.leb_spec i s).
  - rewrite nth_error_app1 by lia. revert i s S E H LF. clear. revert e. induction path as [|x path IH]; intros e i s S E H LF; [cbn in E; lia|].
    rewrite Nat.add_1_r. cbn [firstn]. destruct i; auto. cbn [nth_error]. destruct s; [lia|]. rewrite <- Nat.add_1_r. cbn in E. apply (IH (e - 1)); try lia. rewrite firstn_length. lia.
  - rewrite nth_error_app2 by lia. rewrite LF. clear. revert e. generalize (i - (s + 1)). clear. intros k e. revert path. induction e as [|e IH]; intros path; auto.
    destruct path; cbn; auto. destruct k; auto.
Qed.
Lemma cut_length {V} (path : list V) s e : s < e -> e < length path -> length (firstn (s + 1) path ++ skipn e path) = s + 1 + (length path - e).
Proof. intros. rewrite app_length, firstn_length, skipn_length. lia. Qed.
Lemma clamp_Z dbg v n : (0 < n)%Z -> exists c, clamp_value Z.ltb Z.leb dbg v 0%Z (n - 1)%Z = Ok c /\ (0 <= c < n)%Z.
Proof.
  intros Hn. unfold clamp_value, cassert. replace (0 <=? n - 1)%Z with true by lia. rewrite andb_false_r. eexists. split; [reflexivity|]. unfold std_min, std_max.
  destruct (0 <? v)%Z eqn:?; [destruct (v <? n - 1)%Z eqn:?|destruct (0 <? n - 1)%Z eqn:?]; lia.
Qed.

Section S.
Context {V : Type}.
Variable valid : V -> V -> bool.

(** Everything the property says about a result. *)
Definition shortcut_of (path p : list V) (checks : list (V * V)) : Prop :=
  sublist p path /\ nth_error p 0 = nth_error path 0 /\ (forall x, ends_with p x <-> ends_with path x) /\
  length p + length (filter (fun c => valid (fst c) (snd c)) checks) <= length path /\
  (forall x y, adjacent p x y -> adjacent path x y \/ (valid x y = true /\ In (x, y) checks)).

Lemma shortcut_spec dbg draws : Forall draw_contract draws -> forall iters failed path p checks, shortcut dbg valid draws iters failed path = Ok (p, checks) ->
  shortcut_of path p checks /\ length checks <= iters /\ length (filter (fun c => negb (valid (fst c) (snd c))) checks) <= failed.
Proof.
  assert (BASE : forall path : list V, shortcut_of path path []).
  { intros path. repeat split; auto. apply sublist_refl. cbn. lia. }
  induction 1 as [|d draws Hd _ IH]; intros iters failed path p checks E; cbn [shortcut] in E.
  - destruct (_ && _) in E; [discriminate|]. injection E as <- <-. split; auto. cbn. lia.
  - destruct (_ && _) eqn:G in E; [|injection E as <- <-; split; auto; cbn; lia].
    apply andb_true_iff in G as [G G3]. apply andb_true_iff in G as [G1 G2]. apply Nat.ltb_lt in G1, G2, G3.
    destruct (Hd (length path) ltac:(lia)) as (Bd & off & Ho & Ob). rewrite Ho in E. destruct (int64_fits _) in E; [|discriminate].
    destruct (clamp_Z dbg (Z.of_nat (d_base d (length path)) + off)%Z (Z.of_nat (length path)) ltac:(lia)) as (c & Ec & Bc). rewrite Ec in E. cbn [obind] in E.
    set (s := Z.to_nat (Z.min _ c)) in E. set (e := Z.to_nat (Z.max _ c)) in E. assert (Hse : s <= e < length path) by lia. clearbody s e.
    destruct (Nat.leb_spec e (s + 1)); [apply IH in E as (E1 & E2 & E3); split; auto; split; auto; lia|].
    destruct (nth_error path s) as [x|] eqn:Nx; [|discriminate]. destruct (nth_error path e) as [y|] eqn:Ny; [|discriminate].
    destruct (valid x y) eqn:VXY; apply obind_ok in E as ((p' & checks') & E & E'); injection E' as -> <-; apply IH in E as ((E1 & E2 & E3 & E4 & E5) & E6 & E7); cbn [filter fst snd]; rewrite VXY; cbn [negb length].
    + pose proof (cut_length path s e ltac:(lia) ltac:(lia)) as CL. split; [|split; [lia|auto]]. split; [|split; [|split; [|split]]].
      * eapply sublist_trans; [exact E1|]. apply sublist_cut. lia.
      * rewrite E2, nth_cut by lia. reflexivity.
      * intros z. rewrite E3. unfold ends_with. rewrite CL, nth_cut by lia. destruct (Nat.leb_spec (s + 1 + (length path - e) - 1) s); [lia|].
        replace (e + (s + 1 + (length path - e) - 1 - (s + 1))) with (length path - 1) by lia. reflexivity.
      * cbn [filter fst snd]. rewrite VXY. cbn [length]. lia.
      * intros u v A. apply E5 in A as [(i & A1 & A2)|[A1 A2]]; [|right; split; auto; right; auto].
        rewrite nth_cut in A1 by lia. rewrite nth_cut in A2 by lia. destruct (Nat.leb_spec i s), (Nat.leb_spec (S i) s); try lia.
        -- left. exists i. auto.
        -- replace i with s in * by lia. replace (e + (S s - (s + 1))) with e in A2 by lia. right. rewrite Nx in A1. rewrite Ny in A2. injection A1 as <-. injection A2 as <-. split; auto. left. reflexivity.
        -- left. exists (e + (i - (s + 1))). split; auto. rewrite <- A2. f_equal. lia.
    + split; [|split; lia]. split; auto. split; auto. split; auto. split; [cbn [filter fst snd]; rewrite VXY; auto|].
      intros u v A. apply E5 in A as [A|[A1 A2]]; auto. right. split; auto. right. auto.
Qed.
Lemma shortcut_total dbg draws : Forall draw_contract draws -> forall iters failed path, iters <= length draws -> (Z.of_nat (length path) < 2 ^ 62)%Z ->
  exists p checks, shortcut dbg valid draws iters failed path = Ok (p, checks).
Proof.
  induction 1 as [|d draws Hd _ IH]; intros iters failed path Hl Hp; cbn [shortcut].
  - cbn in Hl. replace iters with 0 by lia. cbn. eauto.
  - destruct (_ && _) eqn:G; [|eauto]. apply andb_true_iff in G as [G G3]. apply andb_true_iff in G as [G1 G2]. apply Nat.ltb_lt in G1, G2, G3. cbn [length] in Hl.
    destruct (Hd (length path) ltac:(lia)) as (Bd & off & Ho & Ob). rewrite Ho. replace (int64_fits _) with true by (symmetry; unfold int64_fits; apply andb_true_iff; lia).
    destruct (clamp_Z dbg (Z.of_nat (d_base d (length path)) + off)%Z (Z.of_nat (length path)) ltac:(lia)) as (c & Ec & Bc). rewrite Ec. cbn [obind].
    set (s := Z.to_nat (Z.min _ c)). set (e := Z.to_nat (Z.max _ c)). assert (Hse : s <= e < length path) by lia. clearbody s e.
    destruct (Nat.leb_spec e (s + 1)); [apply IH; lia|].
    destruct (nth_error path s) as [x|] eqn:Nx; [|apply nth_error_None in Nx; lia]. destruct (nth_error path e) as [y|] eqn:Ny; [|apply nth_error_None in Ny; lia].
    destruct (valid x y).
    + destruct (IH (iters - 1) failed (firstn (s + 1) path ++ skipn e path)) as (p & ch & E); [lia|rewrite cut_length; lia|]. rewrite E. cbn. eauto.
    + destruct (IH (iters - 1) (failed - 1) path) as (p & ch & E); [lia|lia|]. rewrite E. cbn. eauto.
Qed.
End S.

(** C45: for every sequence of random draws the loop ends within max_iterations iterations and checks; the result is a
    sublist of the path with the same ends; neighbours in it are neighbours in the path or were accepted by the edge
    check; each accepted check shortened the path; at most max_failed_iterations checks failed. *)
Theorem C45_shortcut : forall (V : Type) (valid : V -> V -> bool) dbg draws max_iterations max_failed path,
  Forall draw_contract draws -> max_iterations <= length draws -> (Z.of_nat (length path) < 2 ^ 62)%Z ->
  exists p checks, shortcut dbg valid draws max_iterations max_failed path = Ok (p, checks) /\
    sublist p path /\ nth_error p 0 = nth_error path 0 /\ (forall x, ends_with p x <-> ends_with path x) /\
    (forall x y, adjacent p x y -> adjacent path x y \/ (valid x y = true /\ In (x, y) checks)) /\
    length p + length (filter (fun c => valid (fst c) (snd c)) checks) <= length path /\
    length checks <= max_iterations /\ length (filter (fun c => negb (valid (fst c) (snd c))) checks) <= max_failed.
Proof.
  intros V valid dbg draws mi mf path H1 H2 H3. destruct (shortcut_total valid dbg draws H1 mi mf path H2 H3) as (p & ch & E). exists p, ch. split; auto.
  destruct (shortcut_spec valid dbg draws H1 mi mf path p ch E) as ((S1 & S2 & S3 & S4 & S5) & S6 & S7). auto 10.
Qed.
Print Assumptions C45_shortcut.

Example C45_example : let d b o := mkDraw (fun n => Nat.min b (n - 1)) (fun _ => Some o) in
  let draws := [d 4 (-2)%Z; d 0 9%Z; d 0 3%Z; d 0 7%Z] in
  Forall draw_contract draws /\
  shortcut true (fun x y => y - x <? 4) draws 4 3 [1; 2; 3; 4; 5; 6] = Ok ([1; 2; 3; 5; 6], [(3, 5); (1, 6); (1, 5); (1, 6)]).
Proof.
  cbn zeta. split; [|reflexivity]. repeat constructor; cbn [d_base]; try lia; cbn [d_offset]; eexists; (split; [reflexivity|]); lia.
Qed.

(** ** Upsampling *)
(** Doubles without NaN, ordered; dividing by more gives no more. *)
Record length_laws {T} (ok : T -> Prop) (ltb : T -> T -> bool) (part : T -> nat -> T) : Prop := {
  ll_irrefl : forall a, ok a -> ltb a a = false;
  ll_trans : forall a b c, ok a -> ok b -> ok c -> ltb a b = true -> ltb b c = true -> ltb a c = true;
  ll_negtrans : forall a b c, ok a -> ok b -> ok c -> ltb a b = false -> ltb b c = false -> ltb a c = false;
  ll_part : forall a n, ok a -> 1 <= n -> ok (part a n);
  ll_one : forall a, ok a -> part a 1 = a;
  ll_less : forall a n, ok a -> 1 <= n -> ltb (part a n) (part a (n + 1)) = false
}.

Section U.
Context {T : Type} {ok : T -> Prop} {ltb : T -> T -> bool} {part : T -> nat -> T}.
Variable L : length_laws ok ltb part.

Lemma ll_less' a n m : ok a -> 1 <= n <= m -> ltb (part a n) (part a m) = false.
Proof.
  intros O [H1 H2]. induction H2 as [|m H2 IH]; [apply (ll_irrefl _ _ _ L), (ll_part _ _ _ L); auto|].
  apply (ll_negtrans _ _ _ L _ (part a m)); auto; try (apply (ll_part _ _ _ L); auto; lia). rewrite <- Nat.add_1_r. apply (ll_less _ _ _ L); auto; lia.
Qed.
Lemma q_top_in q p : q_top ltb q = Some p -> Permutation q (p :: q_pop ltb q).
Proof.
  revert p. induction q as [|a q IH]; intros p H; cbn [q_top q_pop] in *; [discriminate|].
  destruct (q_top ltb q) as [r|] eqn:E.
  - specialize (IH r eq_refl). destruct (pair_lt ltb a r); injection H as <-; auto. rewrite IH at 1. apply perm_swap.
  - injection H as <-. destruct q as [|b q]; [auto|]. cbn in E. destruct (q_top ltb q); [destruct (pair_lt ltb b p)|]; discriminate.
Qed.
Lemma q_top_max q p : Forall (fun r => ok (fst r)) q -> q_top ltb q = Some p -> Forall (fun r => ltb (fst p) (fst r) = false) q.
Proof.
  revert p. induction q as [|a q IH]; intros p F H; [constructor|]. inversion F as [|? ? Fa Fq]; subst. cbn [q_top] in H. destruct (q_top ltb q) as [r|] eqn:E.
  - specialize (IH r Fq eq_refl). assert (Or : ok (fst r)). { apply q_top_in in E. assert (I : In r q) by (eapply Permutation_in; [symmetry; exact E|left; auto]). rewrite Forall_forall in Fq. apply (Fq r I). }
    destruct (pair_lt ltb a r) eqn:P; injection H as <-.
    + constructor; auto. unfold pair_lt in P. destruct (ltb (fst a) (fst r)) eqn:X; cbn in P.
      * destruct (ltb (fst r) (fst a)) eqn:Y; auto. assert (Z : ltb (fst r) (fst r) = true) by (apply (ll_trans _ _ _ L _ (fst a)); auto). rewrite (ll_irrefl _ _ _ L) in Z by auto. discriminate.
      * destruct (ltb (fst r) (fst a)); auto.
    + constructor; [apply (ll_irrefl _ _ _ L); auto|]. rewrite Forall_forall in *. intros s I.
      apply (ll_negtrans _ _ _ L _ (fst r)); auto. unfold pair_lt in P. apply orb_false_iff in P. apply P.
  - injection H as <-. constructor; [apply (ll_irrefl _ _ _ L); auto|]. destruct q as [|b q]; [constructor|]. cbn in E. destruct (q_top ltb q); [destruct (pair_lt ltb b p)|]; discriminate.
Qed.

(** The queue holds the sub-segment length of every segment. *)
Definition entries (lengths : list T) (counts : list nat) : list (T * nat) :=
  combine (map (fun p => part (fst p) (snd p)) (combine lengths counts)) (seq 0 (length lengths)).
Lemma nth_error_map2 lengths counts : length counts = length lengths -> forall i, nth_error (map (fun p => part (fst p) (snd p)) (combine lengths counts)) i =
  match nth_error lengths i, nth_error counts i with Some l, Some c => Some (part l c) | _, _ => None end.
Proof.
  revert counts. induction lengths as [|l lengths IH]; intros [|c counts] Hl [|i]; cbn in *; try lia; auto.
Qed.
Lemma nth_entries lengths counts i : length counts = length lengths ->
  nth_error (entries lengths counts) i = match nth_error lengths i, nth_error counts i with Some l, Some c => Some (part l c, i) | _, _ => None end.
Proof.
  intros Hl. unfold entries. assert (G : forall {A} (l : list A) a k, nth_error (combine l (seq a (length l))) k = match nth_error l k with Some x => Some (x, a + k) | None => None end).
  { intros A l. induction l as [|x l IH]; intros a [|k]; cbn; auto; [rewrite Nat.add_0_r; auto|]. rewrite IH. rewrite Nat.add_succ_comm. reflexivity. }
  replace (length lengths) with (length (map (fun p => part (fst p) (snd p)) (combine lengths counts))) by (rewrite map_length, combine_length; lia).
  rewrite G, nth_error_map2 by auto. destruct (nth_error lengths i); auto. destruct (nth_error counts i); auto.
Qed.
Lemma nth_split_perm {A} (l : list A) i x : nth_error l i = Some x -> exists r, Permutation l (x :: r) /\ forall y, Permutation (upd l i y) (y :: r).
Proof.
  revert i. induction l as [|a l IH]; intros [|i] H; cbn in H; try discriminate.
  - injection H as <-. exists l. split; [|intros y]; reflexivity.
  - apply IH in H as (r & P & Q). exists (a :: r). split; [rewrite P; apply perm_swap|]. intros y. cbn. rewrite Q. apply perm_swap.
Qed.

(** No sub-segment is longer than a split segment was before its last split. *)
Definition balanced (lengths : list T) (counts : list nat) : Prop := forall i j li ci lj cj,
  nth_error lengths i = Some li -> nth_error counts i = Some ci -> nth_error lengths j = Some lj -> nth_error counts j = Some cj -> 2 <= cj ->
  ltb (part lj (cj - 1)) (part li ci) = false.

Lemma sum_upd l i c v : nth_error l i = Some c -> c <= v -> list_sum (upd l i v) = list_sum l + (v - c).
Proof.
  revert i. induction l as [|a l IH]; intros [|i] H Hv; cbn [nth_error upd list_sum fold_right] in *; try discriminate.
  - injection H as ->. change (fold_right Nat.add 0 l) with (list_sum l). lia.
  - change (fold_right Nat.add 0 l) with (list_sum l). specialize (IH i H Hv). unfold list_sum in *. lia.
Qed.
Lemma split_spec : forall k lengths q counts, lengths <> [] -> Forall ok lengths -> length counts = length lengths -> Forall (fun c => 1 <= c) counts ->
  Permutation q (entries lengths counts) -> balanced lengths counts ->
  exists counts', split_loop ltb part k lengths q counts = Ok counts' /\ length counts' = length lengths /\ Forall (fun c => 1 <= c) counts' /\
    list_sum counts' = list_sum counts + k /\ balanced lengths counts'.
Proof.
  induction k as [|k IH]; intros lengths q counts NE FO Hl Hc P B; cbn [split_loop]; [exists counts; rewrite Nat.add_0_r; auto|].
  assert (IN : forall t i, In (t, i) q <-> exists l c, nth_error lengths i = Some l /\ nth_error counts i = Some c /\ t = part l c).
  { intros t i. split; [intros I|intros (l & c & X & Y & ->)].
    - apply (Permutation_in _ P) in I. apply In_nth_error in I as [j I]. rewrite nth_entries in I by auto.
      destruct (nth_error lengths j) as [l|] eqn:X; [|discriminate]. destruct (nth_error counts j) as [c|] eqn:Y; [|discriminate]. injection I as <- <-. exists l, c. auto.
    - apply (Permutation_in _ (Permutation_sym P)). apply (nth_error_In _ i). rewrite nth_entries, X, Y; auto. }
  assert (QO : Forall (fun r => ok (fst r)) q).
  { rewrite Forall_forall in *. intros [t i] I. apply IN in I as (l & c & X & Y & ->). apply (ll_part _ _ _ L); [apply FO; eapply nth_error_In; eauto|apply Hc; eapply nth_error_In; eauto]. }
  destruct (q_top ltb q) as [[t i]|] eqn:E.
  2:{ exfalso. assert (q = []) as ->. { destruct q as [|a q]; auto. cbn in E. destruct (q_top ltb q); [destruct (pair_lt ltb a p)|]; discriminate. }
      destruct lengths as [|l lengths]; [congruence|]. destruct counts as [|c counts]; [cbn in Hl; lia|]. destruct (proj2 (IN (part l c) 0)). exists l, c. auto. }
  pose proof (q_top_max q _ QO E) as MX. pose proof (q_top_in q _ E) as PP.
  assert (I : In (t, i) q) by (eapply Permutation_in; [symmetry; exact PP|left; auto]). apply IN in I as (l & c & X & Y & ->). rewrite X, Y.
  assert (Ol : ok l) by (rewrite Forall_forall in FO; apply FO; eapply nth_error_In; eauto). assert (C1 : 1 <= c) by (rewrite Forall_forall in Hc; apply Hc; eapply nth_error_In; eauto).
  assert (Ic : i < length counts) by (apply nth_error_Some; congruence).
  destruct (IH lengths ((part l (c + 1), i) :: q_pop ltb q) (upd counts i (c + 1))) as (counts' & R & R1 & R2 & R3 & R4); auto.
  - rewrite upd_length. auto.
  - rewrite Forall_forall in *. intros z Iz. apply In_nth_error in Iz as [j Iz]. rewrite nth_error_upd in Iz. destruct (Nat.eqb_spec i j); [|apply Hc; eapply nth_error_In; eauto].
    destruct (Nat.ltb i (length counts)); [|discriminate]. injection Iz as <-. lia.
  - assert (EE : entries lengths (upd counts i (c + 1)) = upd (entries lengths counts) i (part l (c + 1), i)).
    { apply nth_error_ext. intros j. rewrite nth_entries by (rewrite upd_length; auto). rewrite nth_error_upd, !nth_error_upd, nth_entries by auto.
      destruct (Nat.eqb_spec i j) as [<-|N]; auto. rewrite X. replace (i <? length counts) with true by (symmetry; apply Nat.ltb_lt; auto).
      replace (i <? length (entries lengths counts)) with true; auto. symmetry. apply Nat.ltb_lt, nth_error_Some. rewrite nth_entries, X, Y by auto. discriminate. }
    rewrite EE. destruct (nth_split_perm (entries lengths counts) i (part l c, i)) as (r & P1 & P2); [rewrite nth_entries, X, Y by auto; reflexivity|].
    rewrite P2. constructor. apply (Permutation_cons_inv (a := (part l c, i))). rewrite <- P1, <- P, <- PP. reflexivity.
  - intros a b la ca lb cb A1 A2 B1 B2 B3. rewrite nth_error_upd in A2, B2.
    assert (Oa : ok la) by (rewrite Forall_forall in FO; apply FO; eapply nth_error_In; eauto). assert (Ob : ok lb) by (rewrite Forall_forall in FO; apply FO; eapply nth_error_In; eauto).
    (* the new length of [a] is no more than the old one *)
    assert (OLD : exists c0, nth_error counts a = Some c0 /\ 1 <= c0 <= ca).
    { destruct (Nat.eqb_spec i a) as [->|N]; [|exists ca; split; auto; split; auto; rewrite Forall_forall in Hc; apply Hc; eapply nth_error_In; eauto].
      exists c. split; auto. destruct (Nat.ltb a (length counts)); [|discriminate]. injection A2 as <-. lia. }
    destruct OLD as (c0 & A0 & A3).
    apply (ll_negtrans _ _ _ L _ (part la c0)); [|apply (ll_part _ _ _ L); auto; lia|apply (ll_part _ _ _ L); auto; lia| |apply ll_less'; auto; lia].
    + apply (ll_part _ _ _ L); auto. lia.
    + destruct (Nat.eqb_spec i b) as [->|N].
      * destruct (Nat.ltb b (length counts)); [|discriminate]. injection B2 as <-. rewrite X in B1. injection B1 as <-. replace (c + 1 - 1) with c by lia.
        rewrite Forall_forall in MX. apply (MX (part la c0, a)). apply IN. exists la, c0. auto.
      * apply (B a b la c0 lb cb); auto.
  - exists counts'. split; auto. split; auto. split; auto. split; auto. rewrite R3, (sum_upd counts i c); auto; lia.
Qed.

(** No other way of splitting has a shorter longest sub-segment. *)
Lemma balanced_best lengths counts counts' : Forall ok lengths -> length counts = length lengths -> length counts' = length lengths ->
  Forall (fun c => 1 <= c) counts -> Forall (fun c => 1 <= c) counts' -> list_sum counts' = list_sum counts -> balanced lengths counts ->
  forall i li ci, nth_error lengths i = Some li -> nth_error counts i = Some ci ->
  exists j lj cj, nth_error lengths j = Some lj /\ nth_error counts' j = Some cj /\ ltb (part lj cj) (part li ci) = false.
Proof.
  intros FO H1 H2 P1 P2 SM B i li ci X Y. assert (Oi : ok li) by (rewrite Forall_forall in FO; apply FO; eapply nth_error_In; eauto).
  assert (Ii : i < length counts') by (rewrite H2; apply nth_error_Some; congruence). destruct (nth_error counts' i) as [ci'|] eqn:Y'; [|apply nth_error_None in Y'; lia].
  assert (C1 : 1 <= ci) by (rewrite Forall_forall in P1; apply P1; eapply nth_error_In; eauto). assert (C2 : 1 <= ci') by (rewrite Forall_forall in P2; apply P2; eapply nth_error_In; eauto).
  destruct (Nat.le_gt_cases ci' ci) as [LE|GT]; [exists i, li, ci'; split; auto; split; auto; apply ll_less'; auto|].
  assert (EX : exists j c c', nth_error counts j = Some c /\ nth_error counts' j = Some c' /\ c' < c).
  { clear -H1 H2 SM Y Y' GT. rewrite <- H1 in H2. clear H1. revert counts' i H2 SM Y Y'. induction counts as [|c counts IH]; intros [|c' counts'] i H2 SM Y Y'; cbn in H2; try lia; [destruct i; discriminate|].
    cbn [list_sum fold_right] in SM. change (fold_right Nat.add 0 counts) with (list_sum counts) in SM. change (fold_right Nat.add 0 counts') with (list_sum counts') in SM. unfold list_sum in SM at 1. cbn [fold_right] in SM. change (fold_right Nat.add 0 counts') with (list_sum counts') in SM.
    destruct (Nat.lt_ge_cases c' c) as [LT|GE]; [exists 0, c, c'; auto|].
    assert (W : forall l l' : list nat, length l' = length l -> list_sum l' < list_sum l -> exists j a b, nth_error l j = Some a /\ nth_error l' j = Some b /\ b < a).
    { clear. induction l as [|a l IH]; intros [|b l'] H SM; cbn [length list_sum fold_right] in *; try lia. change (fold_right Nat.add 0 l) with (list_sum l) in SM. change (fold_right Nat.add 0 l') with (list_sum l') in SM. unfold list_sum in SM at 1. cbn [fold_right] in SM. change (fold_right Nat.add 0 l') with (list_sum l') in SM.
      destruct (Nat.lt_ge_cases b a); [exists 0, a, b; auto|]. destruct (IH l') as (j & x & y & E); [lia|lia|]. exists (S j), x, y. auto. }
    destruct i as [|i]; cbn in Y, Y'.
    - injection Y as ->. injection Y' as ->. destruct (W counts counts') as (j & a & b & E); [lia|lia|]. exists (S j), a, b. auto.
    - destruct (Nat.eq_dec c c') as [->|N].
      + destruct (IH counts' i) as (j & a & b & E); [lia|lia|auto|auto|]. exists (S j), a, b. auto.
      + destruct (W counts counts') as (j & a & b & E); [lia|lia|]. exists (S j), a, b. auto. }
  destruct EX as (j & c & c' & J1 & J2 & J3). assert (Ij : j < length lengths) by (rewrite <- H1; apply nth_error_Some; congruence). destruct (nth_error lengths j) as [lj|] eqn:J; [|apply nth_error_None in J; lia].
  assert (Oj : ok lj) by (rewrite Forall_forall in FO; apply FO; eapply nth_error_In; eauto). assert (C3 : 1 <= c') by (rewrite Forall_forall in P2; apply P2; eapply nth_error_In; eauto).
  exists j, lj, c'. split; auto. split; auto. apply (ll_negtrans _ _ _ L _ (part lj (c - 1))); try (apply (ll_part _ _ _ L); auto; lia).
  - apply ll_less'; auto. lia.
  - apply (B i j li ci lj c); auto. lia.
Qed.

End U.

(** ** The points written *)
Section W.
Context {V Rt : Type}.
Variable ratio : nat -> nat -> Rt.
Variable interp : V -> V -> Rt -> V.
Fixpoint seg_points (pts : list V) (counts : list nat) : list V :=
  match counts, pts with
  | c :: counts, x :: ((y :: _) as rest) => map (fun i => interp x y (ratio i c)) (seq 0 c) ++ seg_points rest counts
  | _, _ => []
  end.
Lemma write_all_spec (vs : list V) : forall out k, k + length vs <= length out -> write_all out k vs = Ok (firstn k out ++ vs ++ skipn (k + length vs) out, k + length vs).
Proof.
  induction vs as [|v vs IH]; intros out k H; cbn [write_all length app] in *.
  - rewrite Nat.add_0_r, firstn_skipn. reflexivity.
  - replace (k <? length out) with true by (symmetry; apply Nat.ltb_lt; lia). rewrite IH by (rewrite upd_length; lia). f_equal. f_equal; [|lia].
    assert (G : forall (out : list V) k v, k < length out -> firstn (k + 1) (upd out k v) = firstn k out ++ [v] /\ forall m, k < m -> skipn m (upd out k v) = skipn m out).
    { clear. induction out as [|x out IH]; intros [|k] v H; cbn [length] in H; try lia.
      - split; [reflexivity|]. intros [|m] Hm; [lia|reflexivity].
      - destruct (IH k v ltac:(lia)) as [A B]. split; [cbn; f_equal; exact A|]. intros [|m] Hm; [lia|]. cbn. apply B. lia. }
    destruct (G out k v ltac:(lia)) as [A B]. rewrite A, <- app_assoc. cbn [app]. rewrite B by lia. do 3 f_equal. f_equal. lia.
Qed.
Lemma write_segments_spec : forall counts (pts out : list V) k, length pts = S (length counts) -> k + list_sum counts <= length out ->
  write_segments ratio interp out k pts counts = Ok (firstn k out ++ seg_points pts counts ++ skipn (k + list_sum counts) out, k + list_sum counts) /\ length (seg_points pts counts) = list_sum counts.
Proof.
  induction counts as [|c counts IH]; intros pts out k Hl Hs.
  - change (list_sum []) with 0. rewrite Nat.add_0_r. replace (seg_points pts []) with (@nil V) by (destruct pts as [|? [|? ?]]; reflexivity). replace (write_segments ratio interp out k pts []) with (Ok (out, k)) by (destruct pts as [|? [|? ?]]; reflexivity). cbn [app]. rewrite firstn_skipn. auto.
  - destruct pts as [|x [|y rest]]; cbn [length] in Hl; try lia. change (list_sum (c :: counts)) with (c + list_sum counts) in *.
    change (write_segments ratio interp out k (x :: y :: rest) (c :: counts)) with
      (let! (out, at_) := write_all out k (map (fun i => interp x y (ratio i c)) (seq 0 c)) in write_segments ratio interp out at_ (y :: rest) counts).
    change (seg_points (x :: y :: rest) (c :: counts)) with (map (fun i => interp x y (ratio i c)) (seq 0 c) ++ seg_points (y :: rest) counts).
    rewrite write_all_spec by (rewrite map_length, seq_length; lia). cbn [obind]. rewrite map_length, seq_length. set (vs := map _ _). assert (Lv : length vs = c) by (unfold vs; rewrite map_length, seq_length; auto).
    set (out1 := firstn k out ++ vs ++ skipn (k + c) out). assert (L1 : length out1 = length out) by (unfold out1; rewrite !app_length, firstn_length, skipn_length; lia).
    destruct (IH (y :: rest) out1 (k + c) ltac:(cbn; lia) ltac:(lia)) as [E1 E2]. rewrite E1. split; [|rewrite app_length; lia]. f_equal. f_equal; [|lia].
    assert (LF : length (firstn k out) = k) by (rewrite firstn_length; lia).
    assert (F1 : firstn (k + c) out1 = firstn k out ++ vs). { unfold out1. rewrite app_assoc. rewrite firstn_app. rewrite app_length, LF, Lv. replace (k + c - (k + c)) with 0 by lia. cbn [firstn]. rewrite app_nil_r. apply firstn_all2. rewrite app_length. lia. }
    assert (F2 : skipn (k + c + list_sum counts) out1 = skipn (k + (c + list_sum counts)) out).
    { unfold out1. rewrite app_assoc, skipn_app, app_length, LF, Lv. rewrite skipn_all2 by (rewrite app_length; lia). cbn [app].
      assert (SS : forall {A} a b (l : list A), skipn a (skipn b l) = skipn (a + b) l). { clear. intros A a b. induction b as [|b IH]; intros l; [rewrite Nat.add_0_r; auto|]. destruct l; [rewrite !skipn_nil; auto|]. rewrite Nat.add_succ_r. cbn. apply IH. }
      rewrite SS. f_equal. lia. }
    rewrite F1, F2, <- !app_assoc. reflexivity.
Qed.
Lemma seg_lengths_ok {T} (ok : T -> Prop) (dist : V -> V -> T) pts : (forall x y, ok (dist x y)) -> Forall ok (seg_lengths dist pts).
Proof. intros Hdist. induction pts as [|x [|y pts] IH]; cbn [seg_lengths]; try constructor; auto. Qed.
End W.
Lemma seg_lengths_length {V T} (dist : V -> V -> T) pts : length (seg_lengths dist pts) = length pts - 1.
Proof. induction pts as [|x [|y pts] IH]; auto. cbn [seg_lengths length] in *. lia. Qed.

(** [counts] splits the segments of [pts] into sub-segments, adding up to [n] points. *)
Definition splits (segments n : nat) (counts : list nat) : Prop := length counts = segments /\ Forall (fun c => 1 <= c) counts /\ list_sum counts + 1 = n.

(** The distances of neighbouring points. *)
Definition gaps {V T} (dist : V -> V -> T) (pts : list V) : list T := map (fun p => dist (fst p) (snd p)) (combine pts (tl pts)).
Lemma seg_lengths_gaps {V T} (dist : V -> V -> T) pts : seg_lengths dist pts = gaps dist pts.
Proof. induction pts as [|x [|y pts] IH]; auto. change (seg_lengths dist (x :: y :: pts)) with (dist x y :: seg_lengths dist (y :: pts)). rewrite IH. reflexivity. Qed.

(** C47 (partial): asked for more points than the portion [s, e) has, and that being at least 2, UpsamplePathPartial
    returns exactly n points: path[s], the segments of the portion split evenly, and path[e-1]; and no way of splitting
    the segments into that many points has a shorter longest sub-segment.  Missing: n no more than the portion has, where
    the whole path is returned, and portions of one point. *)
Theorem C47_upsample_partial : forall (V T Rt : Type) ok ltb part (L : length_laws ok ltb part) (dist : V -> V -> T) (ratio : nat -> nat -> Rt) interp dflt dbg path s e n zero,
  (forall x y, ok (dist x y)) -> (forall c, 1 <= c -> ratio 0 c = zero) -> (forall x y, interp x y zero = x) ->
  s + 2 <= e -> e <= length path -> e - s < n ->
  let pts := firstn (e - s) (skipn s path) in
  exists out counts, upsample_partial ltb dist part ratio interp dflt dbg path (Z.of_nat s) (Z.of_nat e) (Z.of_nat n) = Ok out /\
    length out = n /\ nth_error out 0 = nth_error path s /\ nth_error out (n - 1) = nth_error path (e - 1) /\
    splits (e - s - 1) n counts /\ (exists x, nth_error path (e - 1) = Some x /\ out = seg_points ratio interp pts counts ++ [x]) /\
    (forall counts', splits (e - s - 1) n counts' -> forall i li ci, nth_error (gaps dist pts) i = Some li -> nth_error counts i = Some ci ->
      exists j lj cj, nth_error (gaps dist pts) j = Some lj /\ nth_error counts' j = Some cj /\ ltb (part lj cj) (part li ci) = false).
Proof.
  intros V T Rt ok ltb part L dist ratio interp dflt dbg path s e n zero Hd Hz Hi H1 H2 H3 pts. rewrite <- (seg_lengths_gaps dist pts).
  assert (LP : length pts = e - s) by (unfold pts; rewrite firstn_length, skipn_length; lia).
  set (lengths := seg_lengths dist pts). assert (LL : length lengths = e - s - 1) by (unfold lengths; rewrite seg_lengths_length; lia).
  assert (LO : Forall ok lengths) by (apply seg_lengths_ok; auto).
  assert (RP : forall k i, nth_error (repeat 1 k) i = if i <? k then Some 1 else None).
  { induction k as [|k IH]; intros [|i]; cbn; auto. rewrite IH. reflexivity. }
  destruct (split_spec L (n - (e - s)) lengths (combine lengths (seq 0 (length lengths))) (repeat 1 (length lengths))) as (counts & E & C1 & C2 & C3 & C4); auto.
  { intros X. rewrite X in LL. cbn in LL. lia. }
  { apply repeat_length. }
  { apply Forall_forall. intros c I. apply repeat_spec in I. lia. }
  { unfold entries. replace (map (fun p => part (fst p) (snd p)) (combine lengths (repeat 1 (length lengths)))) with lengths; auto.
    clear -L LO. induction lengths as [|l lengths IH]; cbn; auto. inversion LO; subst. rewrite (ll_one _ _ _ L) by auto. f_equal. auto. }
  { intros i j li ci lj cj _ _ _ X Y. rewrite RP in X. destruct (j <? length lengths); [|discriminate]. injection X as <-. lia. }
  assert (SR : forall k, list_sum (repeat 1 k) = k). { induction k as [|k IH]; auto. change (list_sum (repeat 1 (S k))) with (1 + list_sum (repeat 1 k)). lia. }
  rewrite SR in C3.
  destruct (write_segments_spec ratio interp counts pts (repeat dflt n) 0) as [W1 W2]; [lia|rewrite repeat_length; lia|].
  destruct (nth_error path (e - 1)) as [x|] eqn:NX; [|apply nth_error_None in NX; lia].
  set (sp := seg_points ratio interp pts counts) in *.
  exists (sp ++ [x]), counts. assert (EO : upd (sp ++ skipn (list_sum counts) (repeat dflt n)) (n - 1) x = sp ++ [x]).
  { assert (LS : length (skipn (list_sum counts) (repeat dflt n)) = 1) by (rewrite skipn_length, repeat_length; lia). destruct (skipn (list_sum counts) (repeat dflt n)) as [|z [|]]; try discriminate LS.
    assert (H : length sp = n - 1) by lia. clearbody sp. clear -H. revert n H. induction sp as [|a sp IH]; intros n H; cbn in H.
    - replace (n - 1) with 0 by lia. reflexivity.
    - destruct (n - 1) as [|k] eqn:K; [lia|]. cbn. f_equal. specialize (IH (S k)). replace (S k - 1) with k in IH by lia. apply IH. lia. }
  split.
  { unfold upsample_partial, cassert. replace (Z.of_nat s <? Z.of_nat e)%Z with true by lia. replace (0 <=? Z.of_nat e)%Z with true by lia. replace (Z.of_nat e <=? Z.of_nat (length path))%Z with true by lia.
    cbn [andb negb]. rewrite andb_false_r. replace (Z.of_nat e - Z.of_nat s =? Z.of_nat n)%Z with false by lia. replace (Z.of_nat n <? Z.of_nat e - Z.of_nat s)%Z with false by lia.
    replace (0 <? Z.of_nat e - Z.of_nat s - 1)%Z with true by lia. cbn [andb negb]. rewrite andb_false_r. replace (Z.of_nat e - Z.of_nat s - 1 <? 0)%Z with false by lia.
    replace (Z.of_nat s <? 0)%Z with false by lia. replace (Z.of_nat (length path) <? Z.of_nat e)%Z with false by lia. cbn [orb].
    replace (Z.to_nat (Z.of_nat e - Z.of_nat s)) with (e - s) by lia. rewrite !Nat2Z.id. replace (Z.to_nat (Z.of_nat n - (Z.of_nat e - Z.of_nat s))) with (n - (e - s)) by lia.
    fold pts. fold lengths. rewrite E. cbn [obind]. rewrite W1. cbn [obind]. replace (Z.to_nat (Z.of_nat e - 1)) with (e - 1) by lia. rewrite NX.
    replace (0 + list_sum counts =? n - 1) with true by (symmetry; apply Nat.eqb_eq; lia). cbn [negb]. rewrite andb_false_r. cbn [firstn app Nat.add]. rewrite EO. reflexivity. }
  split; [rewrite app_length; cbn; lia|]. split; [|split; [|split; [|split]]].
  - assert (PS : nth_error pts 0 = nth_error path s) by (unfold pts; rewrite nth_firstn by lia; rewrite nth_skipn; f_equal; lia). rewrite <- PS. unfold sp.
    destruct counts as [|c counts]; [cbn in C1; lia|]. destruct pts as [|u [|v rest]]; cbn [length] in LP; try lia. cbn [seg_points nth_error].
    inversion C2 as [|? ? C5 C6]; subst. destruct c as [|c]; [lia|]. cbn [seq map app nth_error]. rewrite Hz, Hi by lia. reflexivity.
  - rewrite nth_error_app2 by lia. replace (n - 1 - length sp) with 0 by lia. reflexivity.
  - split; [lia|]. split; auto. lia.
  - exists x. auto.
  - intros counts' (S1 & S2 & S3) i li ci X Y. apply (balanced_best L lengths counts counts') with (i := i); auto; lia.
Qed.
Print Assumptions C47_upsample_partial.


(** UpsamplePath asked for no more points than the path has returns the path. *)
Theorem C47_no_fewer : forall (V T Rt : Type) ltb (part : T -> nat -> T) (dist : V -> V -> T) (ratio : nat -> nat -> Rt) interp dflt dbg path n,
  path <> [] -> n <= length path -> upsample ltb dist part ratio interp dflt dbg path (Z.of_nat n) = Ok path.
Proof.
  intros V T Rt ltb part dist ratio interp dflt dbg path n NE H. unfold upsample, upsample_partial, cassert. assert (0 < length path) by (destruct path; [congruence|cbn; lia]).
  replace (0 <? Z.of_nat (length path))%Z with true by lia. replace (0 <=? Z.of_nat (length path))%Z with true by lia. rewrite Z.leb_refl. cbn [andb negb]. rewrite andb_false_r.
  destruct (Z.eqb_spec (Z.of_nat (length path) - 0) (Z.of_nat n)); auto. replace (Z.of_nat n <? Z.of_nat (length path) - 0)%Z with true by lia. reflexivity.
Qed.
Print Assumptions C47_no_fewer.

(** The laws hold for doubles that are neither negative nor NaN. *)
Lemma b64_lengths : length_laws b64_ok (@cltb b64_cost) b64_part.
Proof.
  split; try (intros; apply (cl_irrefl _ _ b64_laws); auto; fail).
  - intros a b c A B D. apply (cl_trans _ _ b64_laws); auto.
  - intros a b c A B D. apply (cl_negtrans _ _ b64_laws); auto.
  - intros a n A N. apply part_spec; auto.
  - apply b64_part_one.
  - apply b64_part_less.
Qed.
Theorem C47_upsample_doubles_partial : forall (V Rt : Type) (dist : V -> V -> binary64) (ratio : nat -> nat -> Rt) interp dflt dbg path s e n zero,
  (forall x y, b64_ok (dist x y)) -> (forall c, 1 <= c -> ratio 0 c = zero) -> (forall x y, interp x y zero = x) ->
  s + 2 <= e -> e <= length path -> e - s < n ->
  let pts := firstn (e - s) (skipn s path) in
  exists out counts, upsample_partial (@cltb b64_cost) dist b64_part ratio interp dflt dbg path (Z.of_nat s) (Z.of_nat e) (Z.of_nat n) = Ok out /\
    length out = n /\ nth_error out 0 = nth_error path s /\ nth_error out (n - 1) = nth_error path (e - 1) /\
    splits (e - s - 1) n counts /\ (exists x, nth_error path (e - 1) = Some x /\ out = seg_points ratio interp pts counts ++ [x]) /\
    (forall counts', splits (e - s - 1) n counts' -> forall i li ci, nth_error (gaps dist pts) i = Some li -> nth_error counts i = Some ci ->
      exists j lj cj, nth_error (gaps dist pts) j = Some lj /\ nth_error counts' j = Some cj /\ @cltb b64_cost (b64_part lj cj) (b64_part li ci) = false).
Proof. intros V Rt dist. apply (C47_upsample_partial V binary64 Rt b64_ok (@cltb b64_cost) b64_part b64_lengths dist). Qed.
Print Assumptions C47_upsample_doubles_partial.

(** Points 0, 3, 4, 10 on a line, a point being written as left end, right end and fraction. *)
Definition upt := (nat * nat * (nat * nat))%type.
Definition at_ (x : nat) : upt := (x, x, (0, 1)).
Definition udist (p q : upt) : binary64 := binary_normalize 53 1024 eq_refl eq_refl BinarySingleNaN.mode_NE (Z.of_nat (fst (fst q)) - Z.of_nat (fst (fst p)))%Z 0 false.
Definition uratio (i n : nat) : nat * nat := (i, if i =? 0 then 1 else n).
Definition uinterp (p q : upt) (r : nat * nat) : upt := if fst r =? 0 then p else (fst (fst p), fst (fst q), r).
Example C47_example : upsample_partial (@cltb b64_cost) udist b64_part uratio uinterp (at_ 99) true [at_ 0; at_ 3; at_ 4; at_ 10] 1 4 6
  = Ok [at_ 3; at_ 4; (4, 10, (1, 4)); (4, 10, (2, 4)); (4, 10, (3, 4)); at_ 10].
Proof. vm_compute. reflexivity. Qed.

(** C47 is false when the portion already has the requested number of points, or more: the whole path is returned. *)
Theorem C47_whole_path_refuted : exists path s e n n',
  e - s = n /\ n' < e - s /\ 2 <= n' /\ length path <> n /\
  upsample_partial (@cltb b64_cost) udist b64_part uratio uinterp (at_ 99) true path (Z.of_nat s) (Z.of_nat e) (Z.of_nat n) = Ok path /\
  upsample_partial (@cltb b64_cost) udist b64_part uratio uinterp (at_ 99) true path (Z.of_nat s) (Z.of_nat e) (Z.of_nat n') = Ok path.
Proof.
  exists [at_ 0; at_ 3; at_ 4; at_ 10; at_ 12], 1, 4, 3, 2. cbn [length]. repeat (split; [lia|]). split; vm_compute; reflexivity.
Qed.
Print Assumptions C47_whole_path_refuted.
(** A portion of one point cannot be upsampled: an assertion fails, or an empty queue is read. *)
Theorem C47_single_point_refuted : exists path,
  upsample (@cltb b64_cost) udist b64_part uratio uinterp (at_ 99) true path 2 = AssertFail /\ upsample (@cltb b64_cost) udist b64_part uratio uinterp (at_ 99) false path 2 = UB.
Proof. exists [at_ 5]. split; vm_compute; reflexivity. Qed.
Print Assumptions C47_single_point_refuted.
