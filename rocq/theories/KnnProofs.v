(** Lemmas about nearest-neighbour selection. *)
From Verif Require Import Base Cost KnnModel.
From Coq Require Import Permutation.

Section P.
Context {C : cost} {ok : C -> Prop}.
Variable L : cost_laws C ok.
Notation entry := (Z * C)%type.
Notation okl l := (Forall (fun e : entry => ok (snd e)) l).

(** [taken] is a best part of [all]: the rest is nowhere strictly closer. *)
Definition best_part (taken all : list entry) : Prop :=
  exists rest, Permutation (taken ++ rest) all /\
    forall b r, In b taken -> In r rest -> cltb (snd r) (snd b) = false.

Lemma max_from_spec l : forall best bd i full,
  okl full -> (forall j e, nth_error l j = Some e -> nth_error full (i + j) = Some e) -> length full = i + length l ->
  best < length full -> (exists w, nth_error full best = Some w /\ snd w = bd) ->
  (forall j e, j < i -> nth_error full j = Some e -> cltb bd (snd e) = false) ->
  exists w, nth_error full (max_from best bd i l) = Some w /\
    forall j e, nth_error full j = Some e -> cltb (snd w) (snd e) = false.
Proof.
  induction l as [|e l IH]; intros best bd i full O Hl Hlen Hb (w & Hw & Ew) Hs; cbn [max_from].
  - exists w. split; auto. intros j e Hj. rewrite Ew. apply (Hs j); auto.
    assert (j < length full) by (apply nth_error_Some; congruence). cbn in Hlen. lia.
  - cbn in Hlen. pose proof (Hl 0 e eq_refl) as He. rewrite Nat.add_0_r in He.
    assert (OE : ok (snd e)) by (rewrite Forall_forall in O; apply O; eapply nth_error_In; eauto).
    assert (OB : ok bd) by (rewrite <- Ew; rewrite Forall_forall in O; apply O; eapply nth_error_In; eauto).
    destruct (cltb bd (snd e)) eqn:Q; apply IH; auto; try lia.
    + intros j e' Hj. replace (S i + j) with (i + S j) by lia. apply Hl. exact Hj.
    + eauto.
    + intros j e' Hj Hn. assert (j < i \/ j = i) as [Hlt| ->] by lia.
      * pose proof (Hs j e' Hlt Hn). assert (OE' : ok (snd e')) by (rewrite Forall_forall in O; apply O; eapply nth_error_In; eauto).
        apply (cle_trans L (snd e') bd (snd e)); auto. apply (clt_le L); auto.
      * rewrite He in Hn. injection Hn as <-. apply (cl_irrefl _ _ L); auto.
    + intros j e' Hj. replace (S i + j) with (i + S j) by lia. apply Hl. exact Hj.
    + eauto.
    + intros j e' Hj Hn. assert (j < i \/ j = i) as [Hlt| ->] by lia; eauto. rewrite He in Hn. injection Hn as <-. exact Q.
Qed.

Lemma max_pos_spec l : okl l -> l <> [] -> exists w, nth_error l (max_pos l) = Some w /\
  forall e, In e l -> cltb (snd w) (snd e) = false.
Proof.
  intros O N. destruct l as [|e l]; [congruence|]. cbn [max_pos].
  destruct (max_from_spec l 0 (snd e) 1 (e :: l)) as (w & A & B); auto.
  - cbn. lia.
  - exists e. auto.
  - intros j e' Hj. assert (j = 0) as -> by lia. cbn. intros [= <-]. apply (cl_irrefl _ _ L). inversion O; auto.
  - exists w. split; auto. intros e' I. apply In_nth_error in I. destruct I as (j & I). eauto.
Qed.

Lemma upd_perm {A} (l : list A) p w e : nth_error l p = Some w -> Permutation (w :: upd l p e) (e :: l).
Proof.
  revert p. induction l as [|x l IH]; intros [|p] H; cbn in *; try discriminate.
  - injection H as ->. apply perm_swap.
  - rewrite perm_swap, (IH _ H). apply perm_swap.
Qed.

Lemma offer_len l (e : entry) : length (offer l e) = length l.
Proof. unfold offer. destruct (nth_error l (max_pos l)); auto. destruct (cltb (snd e) (snd p)); auto. apply upd_length. Qed.

Lemma perm_okl (a b : list entry) : Permutation a b -> okl a -> okl b.
Proof. intros P. apply Permutation_Forall. exact P. Qed.

Lemma offer_best taken all e : okl all -> ok (snd e) -> taken <> [] -> best_part taken all ->
  best_part (offer taken e) (e :: all) /\ length (offer taken e) = length taken.
Proof.
  intros O OE N (rest & P & D). split; [|apply offer_len].
  assert (OT : okl (taken ++ rest)) by (eapply perm_okl; [symmetry; exact P|exact O]).
  apply Forall_app in OT as [OT OR].
  destruct (max_pos_spec taken OT N) as (w & W & M). unfold offer. rewrite W.
  assert (IW : In w taken) by (eapply nth_error_In; eauto).
  assert (OW : ok (snd w)) by (rewrite Forall_forall in OT; auto).
  rewrite Forall_forall in OT, OR.
  destruct (cltb (snd e) (snd w)) eqn:Q.
  - exists (w :: rest). pose proof (upd_perm taken _ w e W) as U. split.
    + rewrite <- Permutation_middle. change (w :: upd taken (max_pos taken) e ++ rest) with ((w :: upd taken (max_pos taken) e) ++ rest).
      rewrite U. cbn. constructor. exact P.
    + assert (S : forall b, In b (upd taken (max_pos taken) e) -> b = e \/ In b taken).
      { intros b IB. assert (IB' : In b (e :: taken)) by (apply (Permutation_in _ U); right; auto). destruct IB'; auto. }
      intros b r IB IR. destruct IR as [<-|IR]; destruct (S b IB) as [->|IB'].
      * apply (clt_le L); auto.
      * apply M; auto.
      * pose proof (D w r IW IR). apply (cle_trans L (snd e) (snd w) (snd r)); auto. apply (clt_le L); auto.
      * apply D; auto.
  - exists (e :: rest). split.
    + rewrite <- Permutation_middle. constructor. exact P.
    + intros b r IB [<-|IR]; [|apply D; auto].
      apply (cle_trans L (snd b) (snd w) (snd e)); auto. apply M; auto.
Qed.

Lemma fold_offer es : forall taken all, okl all -> okl es -> taken <> [] -> best_part taken all ->
  best_part (fold_left offer es taken) (all ++ es) /\ length (fold_left offer es taken) = length taken.
Proof.
  induction es as [|e es IH]; intros taken all O OE N B; cbn [fold_left].
  - rewrite app_nil_r. auto.
  - inversion OE; subst. destruct (offer_best taken all e) as [B' EL]; auto.
    destruct (IH (offer taken e) (e :: all)) as [B2 L2]; auto.
    + intros Z. apply N. apply length_zero_iff_nil. rewrite <- EL, Z. reflexivity.
    + split; [|lia]. destruct B2 as (rest & P & D). exists rest. split; auto.
      rewrite P. cbn. apply Permutation_middle.
Qed.

Lemma best_refl l : best_part l l.
Proof. exists []. split; [rewrite app_nil_r; auto|]. intros b r _ []. Qed.

(** Counting. *)
Definition closer (t : C) (l : list entry) : nat := length (filter (fun e => cltb (snd e) t) l).
Lemma closer_app t a b : closer t (a ++ b) = closer t a + closer t b.
Proof. unfold closer. rewrite filter_app, app_length. reflexivity. Qed.
Lemma closer_perm t a b : Permutation a b -> closer t a = closer t b.
Proof.
  intros P. unfold closer. induction P; cbn; auto; try lia.
  - destruct (cltb (snd x) t); cbn; lia.
  - destruct (cltb (snd x) t), (cltb (snd y) t); cbn; lia.
Qed.
Lemma closer_le t a : closer t a <= length a.
Proof. unfold closer. induction a as [|x a IH]; cbn; auto. destruct (cltb (snd x) t); cbn; lia. Qed.
Lemma closer_all t a : closer t a = length a -> forall e, In e a -> cltb (snd e) t = true.
Proof.
  induction a as [|x a IH]; cbn; [intros _ e []|]. unfold closer in *. cbn. intros H e [<-|I].
  - destruct (cltb (snd x) t) eqn:Q; auto. pose proof (closer_le t a). unfold closer in *. lia.
  - apply IH; auto. destruct (cltb (snd x) t); cbn in H; [lia|]. pose proof (closer_le t a). unfold closer in *. lia.
Qed.
Lemma closer_every t a : (forall e, In e a -> cltb (snd e) t = true) -> closer t a = length a.
Proof.
  unfold closer. induction a as [|x a IH]; cbn; auto. intros H. rewrite (H x) by auto. cbn. rewrite IH; auto.
Qed.
Lemma closer_none t a : (forall e, In e a -> cltb (snd e) t = false) -> closer t a = 0.
Proof. unfold closer. induction a as [|x a IH]; cbn; auto. intros H. rewrite (H x) by auto. apply IH; auto. Qed.
Lemma closer_some t a : closer t a <> 0 -> exists e, In e a /\ cltb (snd e) t = true.
Proof.
  unfold closer. induction a as [|x a IH]; cbn; [lia|]. destruct (cltb (snd x) t) eqn:Q; [eauto|].
  intros H. destruct (IH H) as (e & I & E). eauto.
Qed.

Lemma best_count t taken all : okl all -> ok t -> best_part taken all ->
  closer t taken = Nat.min (length taken) (closer t all).
Proof.
  intros O OT (rest & P & D). rewrite <- (closer_perm t _ _ P), closer_app.
  assert (O' : okl (taken ++ rest)) by (eapply perm_okl; [symmetry; exact P|exact O]).
  apply Forall_app in O' as [O1 O2]. rewrite Forall_forall in O1, O2.
  pose proof (closer_le t taken).
  destruct (Nat.eq_dec (closer t rest) 0) as [Z|N]; [lia|].
  destruct (closer_some t rest N) as (r & IR & E).
  assert (closer t taken = length taken); [|lia].
  apply closer_every. intros b IB. apply (cle_lt_trans L (snd b) (snd r) t); auto. apply D; auto.
Qed.

(** Merging. *)
Variable isinf : C -> bool.
Definition real_entry (e : entry) : bool := negb (isinf (snd e)) && negb (fst e =? -1)%Z.

Lemma merge_best K es : 0 < K -> forall acc all, okl all -> okl es ->
  length acc = Nat.min K (length all) -> best_part acc all ->
  best_part (fold_left (merge_one isinf K) es acc) (all ++ filter real_entry es) /\
  length (fold_left (merge_one isinf K) es acc) = Nat.min K (length (all ++ filter real_entry es)).
Proof.
  intros HK. induction es as [|e es IH]; intros acc all O OE Len B; cbn [fold_left filter].
  - rewrite app_nil_r. auto.
  - inversion OE as [|? ? OE1 OE2]; subst. 
    assert (M : merge_one isinf K acc e = if real_entry e then if length acc <? K then acc ++ [e] else offer acc e else acc) by reflexivity.
    rewrite M. destruct (real_entry e).
    2:{ apply IH; auto. }
    assert (X : forall acc', best_part acc' (e :: all) -> length acc' = Nat.min K (S (length all)) ->
      best_part (fold_left (merge_one isinf K) es acc') (all ++ e :: filter real_entry es) /\
      length (fold_left (merge_one isinf K) es acc') = Nat.min K (length (all ++ e :: filter real_entry es))).
    { intros acc' B' L'. destruct (IH acc' (e :: all)) as [(rest & P & D) L2]; auto.
      split; [|rewrite L2; cbn; rewrite !app_length; cbn; lia].
      exists rest. split; auto. rewrite P. cbn. apply Permutation_middle. }
    destruct (Nat.ltb_spec (length acc) K).
    + apply X; [|rewrite app_length; cbn; lia].
      destruct B as (rest & P & D).
      assert (rest = []) as -> by (apply Permutation_length in P; rewrite app_length in P; apply length_zero_iff_nil; lia).
      exists []. rewrite app_nil_r in *. split; [|intros b r _ []].
      rewrite Permutation_app_comm. cbn. constructor. exact P.
    + destruct (offer_best acc all e) as [B' L']; auto.
      { intros ->. cbn in *. lia. }
      apply X; auto. lia.
Qed.

Hypothesis Hinf : forall d, ok d -> isinf d = negb (cltb d cinf).

Notation F := (filter real_entry).
Definition from_data (l : list entry) : Prop := Forall (fun e => (0 <= fst e)%Z /\ ok (snd e)) l.

Lemma from_data_ok l : from_data l -> okl l.
Proof. apply Forall_impl. intros ? [? ?]; auto. Qed.
Lemma sentinels_ok K : okl (repeat (@sentinel C) K).
Proof. apply Forall_forall. intros e I. apply repeat_spec in I as ->. apply (cl_inf _ _ L). Qed.
Lemma real_inf e : (0 <= fst e)%Z -> ok (snd e) -> real_entry e = cltb (snd e) cinf.
Proof.
  intros A O. unfold real_entry. rewrite (Hinf _ O), negb_involutive.
  destruct (Z.eqb_spec (fst e) (-1)); [lia|]. apply andb_true_r.
Qed.
Lemma F_sentinels K : F (repeat (@sentinel C) K) = [].
Proof. induction K; cbn; auto. unfold real_entry at 1. cbn. rewrite andb_false_r. auto. Qed.
Lemma perm_filter {A} (f : A -> bool) l l' : Permutation l l' -> Permutation (filter f l) (filter f l').
Proof.
  induction 1; cbn; auto; try (econstructor; eauto; fail).
  - destruct (f x); auto.
  - destruct (f x), (f y); auto. apply perm_swap.
Qed.
Lemma filter_all {A} (f : A -> bool) l : (forall x, In x l -> f x = true) -> filter f l = l.
Proof. induction l as [|x l IH]; cbn; auto. intros H. rewrite (H x) by auto. rewrite IH; auto. Qed.

(** One thread's entries after its iterations. *)
Lemma thread_entries K es : 0 < K -> from_data es ->
  best_part (fold_left offer es (repeat sentinel K)) (repeat sentinel K ++ es) /\
  length (fold_left offer es (repeat (@sentinel C) K)) = K.
Proof.
  intros HK D. destruct (fold_offer es (repeat sentinel K) (repeat sentinel K)) as [A B].
  - apply sentinels_ok.
  - apply from_data_ok; auto.
  - destruct K; [lia|discriminate].
  - apply best_refl.
  - rewrite repeat_length in B. auto.
Qed.

Lemma threads_entries K ess : 0 < K -> Forall from_data ess ->
  let bufs := map (fun es => fold_left offer es (repeat sentinel K)) ess in
  exists rests, Permutation (F (concat bufs) ++ rests) (F (concat ess)) /\ okl (concat bufs) /\
    forall r, In r rests -> exists A T B, F (concat bufs) = A ++ T ++ B /\ length T = K /\
      forall c, In c T -> cltb (snd r) (snd c) = false.
Proof.
  intros HK D. cbn zeta. induction D as [|es ess D1 D2 IH]; cbn [map concat].
  - exists []. split; [constructor|]. split; [constructor|]. intros r [].
  - destruct IH as (rests & P & O & R). destruct (thread_entries K es HK D1) as [(rest & P1 & Dom) Len].
    set (buf := fold_left offer es (repeat sentinel K)) in *. set (bufs := concat (map _ ess)) in *.
    assert (OA : okl (repeat sentinel K ++ es)) by (apply Forall_app; split; [apply sentinels_ok|apply from_data_ok; auto]).
    assert (OB : okl (buf ++ rest)) by (eapply perm_okl; [symmetry; exact P1|exact OA]).
    apply Forall_app in OB as [OB OR].
    exists (F rest ++ rests). rewrite !filter_app. split; [|split].
    + apply perm_filter with (f := real_entry) in P1. rewrite !filter_app, F_sentinels in P1. cbn [app] in P1.
      rewrite <- app_assoc, (Permutation_app_swap_app (F bufs) (F rest) rests), app_assoc, P1, P. reflexivity.
    + apply Forall_app; auto.
    + intros r I. apply in_app_iff in I as [I|I].
      * apply filter_In in I as [I RE]. exists [], buf, (F bufs).
        assert (OKr : ok (snd r)) by (rewrite Forall_forall in OR; auto).
        assert (Lr : cltb (snd r) cinf = true).
        { unfold real_entry in RE. apply andb_true_iff in RE as [RE _]. rewrite (Hinf _ OKr), negb_involutive in RE. exact RE. }
        assert (Real : forall c, In c buf -> real_entry c = true).
        { intros c IC. assert (IC' : In c (repeat sentinel K ++ es)) by (apply (Permutation_in _ P1); apply in_app_iff; auto).
          assert (OKc : ok (snd c)) by (rewrite Forall_forall in OB; auto).
          assert (Lc : cltb (snd c) cinf = true).
          { destruct (cltb (snd c) cinf) eqn:Q; auto.
            pose proof (clt_le_trans L (snd r) cinf (snd c) OKr (cl_inf _ _ L) OKc Lr Q) as X.
            rewrite (Dom c r IC I) in X. discriminate. }
          apply in_app_iff in IC' as [IC'|IC'].
          - apply repeat_spec in IC' as ->. cbn in Lc. rewrite (cl_irrefl _ _ L) in Lc by apply (cl_inf _ _ L). discriminate.
          - unfold from_data in D1. rewrite Forall_forall in D1. destruct (D1 c IC') as [D1a D1b]. rewrite real_inf; auto. }
        rewrite (filter_all _ buf Real). cbn. split; auto.
      * destruct (R r I) as (A & T & B & E1 & E2 & E3). exists (F buf ++ A), T, B.
        rewrite E1, <- app_assoc. auto.
Qed.

Lemma parallel_best K ess : 0 < K -> Forall from_data ess ->
  let res := fold_left (merge_one isinf K) (concat (map (fun es => fold_left offer es (repeat sentinel K)) ess)) [] in
  best_part res (F (concat ess)) /\ length res = Nat.min K (length (F (concat ess))).
Proof.
  intros HK D. cbn zeta. destruct (threads_entries K ess HK D) as (rests & P & O & R).
  set (bufs := concat (map _ ess)) in *.
  destruct (merge_best K bufs HK [] []) as [(rm & Pm & Dm) Lm]; auto; [cbn; lia|apply best_refl|].
  cbn [app] in *. set (res := fold_left (merge_one isinf K) bufs []) in *.
  assert (OF : okl (F bufs)).
  { rewrite Forall_forall in *. intros x I. apply filter_In in I as [I _]. auto. }
  assert (Ores : okl (res ++ rm)) by (eapply perm_okl; [symmetry; exact Pm|exact OF]).
  apply Forall_app in Ores as [Ores Orm].
  assert (Oall : okl (F (concat ess))).
  { apply Forall_forall. intros x I. apply filter_In in I as [I _]. apply in_concat in I as (es & I1 & I2).
    rewrite Forall_forall in D. specialize (D _ I1). unfold from_data in D. rewrite Forall_forall in D. apply D; auto. }
  assert (Or : okl rests).
  { assert (X : okl (F bufs ++ rests)) by (eapply perm_okl; [symmetry; exact P|exact Oall]). apply Forall_app in X; tauto. }
  split.
  - exists (rm ++ rests). split; [rewrite app_assoc, Pm; exact P|].
    intros b r IB IR. apply in_app_iff in IR as [IR|IR]; [auto|].
    destruct (R r IR) as (A & T & B & E & LT & DT).
    destruct (cltb (snd r) (snd b)) eqn:Q; auto. exfalso.
    assert (OKb : ok (snd b)) by (rewrite Forall_forall in Ores; auto).
    assert (OKr : ok (snd r)) by (rewrite Forall_forall in Or; auto).
    assert (CT : closer (snd b) T = K).
    { rewrite <- LT. apply closer_every. intros c IC.
      assert (OKc : ok (snd c)) by (rewrite Forall_forall in OF; apply OF; rewrite E; apply in_app_iff; right; apply in_app_iff; auto).
      apply (cle_lt_trans L (snd c) (snd r) (snd b)); auto. apply DT; auto. }
    assert (C1 : closer (snd b) (F bufs) >= K) by (rewrite E, !closer_app; lia).
    rewrite <- (closer_perm _ _ _ Pm), closer_app in C1.
    rewrite (closer_none (snd b) rm) in C1 by (intros e IE; apply Dm; auto).
    pose proof (closer_le (snd b) res).
    assert (X : cltb (snd b) (snd b) = true) by (apply (closer_all (snd b) res); auto; lia).
    rewrite (cl_irrefl _ _ L) in X; auto. discriminate.
  - rewrite Lm. apply Permutation_length in P. rewrite app_length in P.
    destruct rests as [|r rests]; [cbn in P; lia|].
    destruct (R r (or_introl eq_refl)) as (A & T & B & E & LT & _).
    apply (f_equal (@length _)) in E. rewrite !app_length in E. lia.
Qed.

(** All entries of the data. *)
Context {Item : Type}.
Variable dist : Item -> C.
Lemma entry_in items is e : In e (flat_map (entry_of dist items) is) <->
  exists i x, In i is /\ nth_error items i = Some x /\ e = (Z.of_nat i, dist x).
Proof.
  rewrite in_flat_map. split.
  - intros (i & I & H). unfold entry_of in H. destruct (nth_error items i) eqn:E; [|destruct H]. destruct H as [<-|[]]. eauto.
  - intros (i & x & I & H & ->). exists i. split; auto. unfold entry_of. rewrite H. cbn; auto.
Qed.

Lemma entry_keys items is : Forall (fun i => i < length items) is ->
  map fst (flat_map (entry_of dist items) is) = map Z.of_nat is.
Proof.
  induction 1 as [|i is H1 H2 IH]; cbn; auto. rewrite map_app, IH. unfold entry_of.
  destruct (nth_error items i) eqn:E; [reflexivity|]. apply nth_error_None in E. lia.
Qed.

Lemma entries_from_data items is : (forall x, In x items -> ok (dist x)) -> from_data (flat_map (entry_of dist items) is).
Proof.
  intros O. apply Forall_forall. intros e I. apply entry_in in I as (i & x & I & H & ->). cbn. split; [lia|].
  apply O. eapply nth_error_In; eauto.
Qed.
End P.
