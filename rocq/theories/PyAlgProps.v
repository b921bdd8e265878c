(** C138: nested updates, chunks and zips of algorithms.py. *)
From Verif Require Import PyBase PyAlgModel.

Section Update.
  Context {K A : Type} (keq : K -> K -> bool) (keq_ok : forall a b, keq a b = true <-> a = b).
  Notation pv := (pv K A).
  Notation nested_update := (@PyAlgModel.nested_update K A keq).
  Notation dget := (@PyAlgModel.dget K A keq).
  Notation dset := (@PyAlgModel.dset K A keq).

  (** The value reached by indexing with the keys [p] one after the other. *)
  Fixpoint at_path (v : pv) (p : list K) : option pv :=
    match p with
    | [] => Some v
    | k :: p' => match v with PLeaf _ => None | PDict d => match dget d k with Some v' => at_path v' p' | None => None end end
    end.
  (** Every dictionary within [v] has each key once. *)
  Definition wf (v : pv) : Prop := forall p d, at_path v p = Some (PDict d) -> NoDup (map fst d).
  (** Where the update has a non-empty mapping, the base has no other object. *)
  Definition fits (base update : pv) : Prop :=
    forall p d b, at_path update p = Some (PDict d) -> d <> [] -> at_path base p <> Some (PLeaf b).

  Definition sub (d : list (K * pv)) (k : K) : pv := match dget d k with Some x => x | None => PDict [] end.

  Fixpoint upd_list (base : pv) (u : list (K * pv)) : pv * option pyexn :=
    match u with
    | [] => (base, None)
    | (k, v) :: u' =>
        match v with
        | PDict _ =>
            match base with
            | PLeaf _ => (base, Some AttributeError)
            | PDict d =>
                let (r, e) := nested_update (sub d k) v in
                match e with None => upd_list (PDict (dset d k r)) u' | Some _ => (PDict (dset d k r), e) end
            end
        | PLeaf _ =>
            match base with
            | PLeaf _ => (base, Some TypeError)
            | PDict d => upd_list (PDict (dset d k v)) u'
            end
        end
    end.
  Lemma nested_dict base u : nested_update base (PDict u) = upd_list base u.
  Proof.
    cbn [PyAlgModel.nested_update]. revert base. induction u as [|[k v] u IH]; intros base; [reflexivity|].
    cbn [upd_list]. destruct v as [a|x].
    - destruct base; auto.
    - destruct base as [b|d]; [reflexivity|]. unfold sub.
      change ((fix go (base : pv) (u0 : list (K * pv)) {struct u0} : pv * option pyexn := _) (match dget d k with Some x0 => x0 | None => PDict [] end) x)
        with (nested_update (match dget d k with Some x0 => x0 | None => PDict [] end) (PDict x)).
      destruct (nested_update _ (PDict x)) as [r [e|]]; [reflexivity|apply IH].
  Qed.

  Lemma keq_refl k : keq k k = true.
  Proof. apply keq_ok. reflexivity. Qed.
  Lemma keq_neq a b : a <> b -> keq a b = false.
  Proof. intros H. destruct (keq a b) eqn:E; auto. apply keq_ok in E. contradiction. Qed.

  Lemma dget_set_same d k v : dget (dset d k v) k = Some v.
  Proof.
    induction d as [|[k' v'] d IH]; cbn; [rewrite keq_refl; auto|]. destruct (keq k' k) eqn:E; cbn; rewrite E; auto.
  Qed.
  Lemma dget_set_other d k v k' : k' <> k -> dget (dset d k v) k' = dget d k'.
  Proof.
    intros H. induction d as [|[k0 v0] d IH]; cbn; [rewrite keq_neq by auto; auto|].
    destruct (keq k0 k) eqn:E; cbn.
    - apply keq_ok in E. subst k0. rewrite !(keq_neq k k') by auto. reflexivity.
    - destruct (keq k0 k'); auto.
  Qed.
  Lemma dget_in d k v : NoDup (map fst d) -> (In (k, v) d <-> dget d k = Some v).
  Proof.
    induction d as [|[k' v'] d IH]; cbn; intros N; [split; [contradiction|discriminate]|].
    inversion N as [|? ? NI N']; subst. destruct (keq k' k) eqn:E.
    - apply keq_ok in E. subst k'. split; [|intros [= ->]; auto]. intros [[= ->]|I]; auto.
      elim NI. apply in_map_iff. exists (k, v). auto.
    - rewrite <- IH by auto. split; [|auto]. intros [[= -> _]|]; auto. rewrite keq_refl in E. discriminate.
  Qed.
  Lemma dget_none d k : ~ In k (map fst d) -> dget d k = None.
  Proof.
    induction d as [|[k' v'] d IH]; cbn; intros N; auto. rewrite keq_neq by auto. auto.
  Qed.

  (** One level of the update: what is found at a key afterwards. *)
  Definition level (d : list (K * pv)) (u : list (K * pv)) (k : K) : option pv :=
    match dget u k with
    | None => dget d k
    | Some (PLeaf a) => Some (PLeaf a)
    | Some (PDict x) => Some (fst (nested_update (sub d k) (PDict x)))
    end.
  Definition mem (d : list (K * pv)) (k : K) : bool := existsb (fun e => keq (fst e) k) d.

  Lemma set_keys d k v : map fst (dset d k v) = map fst d ++ (if mem d k then [] else [k]).
  Proof.
    induction d as [|[k' v'] d IH]; cbn; auto. destruct (keq k' k); cbn; [rewrite app_nil_r; auto|]. f_equal. exact IH.
  Qed.
  Lemma mem_set d k v k' : k' <> k -> mem (dset d k v) k' = mem d k'.
  Proof.
    intros H. unfold mem. induction d as [|[k0 v0] d IH]; cbn; [rewrite keq_neq by auto; auto|].
    destruct (keq k0 k) eqn:E; cbn; [auto|]. rewrite IH. auto.
  Qed.

  Lemma upd_level u : forall d, NoDup (map fst u) ->
    (forall k x, In (k, PDict x) u -> snd (nested_update (sub d k) (PDict x)) = None) ->
    exists d', upd_list (PDict d) u = (PDict d', None) /\ (forall k, dget d' k = level d u k) /\
      map fst d' = map fst d ++ filter (fun k => negb (mem d k)) (map fst u).
  Proof.
    induction u as [|[k v] u IH]; intros d N H; cbn [upd_list].
    - exists d. split; auto. split; [intros k; reflexivity|]. cbn. rewrite app_nil_r. auto.
    - inversion N as [|? ? NI N']; subst. cbn [map fst] in NI.
      assert (STEP : forall r, (match v with PLeaf a => r = v | PDict x => r = fst (nested_update (sub d k) v) end) ->
        exists d', upd_list (PDict (dset d k r)) u = (PDict d', None) /\ (forall k0, dget d' k0 = level d ((k, v) :: u) k0) /\
          map fst d' = map fst d ++ filter (fun k0 => negb (mem d k0)) (map fst ((k, v) :: u))).
      { intros r R.
        assert (SUB : forall k0, k0 <> k -> sub (dset d k r) k0 = sub d k0).
        { intros k0 HK. unfold sub. rewrite dget_set_other by auto. auto. }
        assert (INN : forall k0 x, In (k0, PDict x) u -> k0 <> k).
        { intros k0 x I ->. apply NI. apply in_map_iff. exists (k, PDict x). auto. }
        destruct (IH (dset d k r) N') as (d' & -> & L & KS).
        { intros k0 x I. rewrite SUB by eauto. apply H. right. auto. }
        exists d'. split; auto. split.
        - intros k0. rewrite L. unfold level. cbn [PyAlgModel.dget]. destruct (keq k k0) eqn:E.
          + apply keq_ok in E. subst k0. rewrite dget_none by auto. rewrite dget_set_same. destruct v; rewrite R; auto.
          + assert (k0 <> k). { intros ->. rewrite keq_refl in E. discriminate. }
            rewrite SUB, dget_set_other by auto. auto.
        - rewrite KS, set_keys, <- app_assoc. f_equal. cbn [map fst filter].
          assert (filter (fun k0 => negb (mem (dset d k r) k0)) (map fst u) = filter (fun k0 => negb (mem d k0)) (map fst u)) as ->.
          { apply filter_ext_in. intros k0 I. rewrite mem_set; auto. intros ->. contradiction. }
          destruct (mem d k); auto. }
      destruct v as [a|x].
      + apply STEP. auto.
      + pose proof (H k x (or_introl eq_refl)) as E. destruct (nested_update (sub d k) (PDict x)) as [r e] eqn:EN. cbn in E. subst e.
        apply STEP. auto.
  Qed.

  Lemma upd_raises u : forall d k x, NoDup (map fst u) -> In (k, PDict x) u -> snd (nested_update (sub d k) (PDict x)) <> None ->
    snd (upd_list (PDict d) u) <> None.
  Proof.
    induction u as [|[k0 v] u IH]; intros d k x N I E; [contradiction|]. inversion N as [|? ? NI N']; subst. cbn [map fst] in NI.
    cbn [upd_list]. destruct I as [[= -> ->]|I].
    - destruct (nested_update (sub d k) (PDict x)) as [r [e|]]; cbn in *; congruence.
    - assert (HK : k <> k0). { intros ->. apply NI. apply in_map_iff. exists (k0, PDict x). auto. }
      assert (SUB : forall r, sub (dset d k0 r) k = sub d k). { intros r. unfold sub. rewrite dget_set_other by auto. auto. }
      destruct v as [a|y].
      + apply (IH _ k x); auto. rewrite SUB. auto.
      + destruct (nested_update (sub d k0) (PDict y)) as [r [e|]]; cbn; [congruence|]. apply (IH _ k x); auto. rewrite SUB. auto.
  Qed.

  Fixpoint size (v : pv) : nat :=
    match v with PLeaf _ => 1 | PDict d => S (fold_right (fun e n => size (snd e) + n) 0 d) end.
  Lemma size_in d k v : In (k, v) d -> size v < size (PDict d).
  Proof.
    cbn. induction d as [|[k' v'] d IH]; intros []; cbn [fold_right snd].
    - injection H as -> ->. lia.
    - specialize (IH H). lia.
  Qed.

  Lemma wf_sub u k v : wf (PDict u) -> In (k, v) u -> wf v.
  Proof.
    intros W I p d E. apply (W (k :: p)). cbn. destruct (dget_in u k v (W [] u eq_refl)) as [G _]. rewrite (G I). auto.
  Qed.
  Lemma fits_sub d u k x : wf (PDict u) -> fits (PDict d) (PDict u) -> In (k, PDict x) u -> fits (sub d k) (PDict x).
  Proof.
    intros W F I p e b E NE B. apply (F (k :: p) e b); cbn.
    - destruct (dget_in u k (PDict x) (W [] u eq_refl)) as [G _]. rewrite (G I). auto.
    - auto.
    - unfold sub in B. destruct (dget d k); auto. destruct p; cbn in B; discriminate.
  Qed.

  Lemma no_raise n : forall base u, size (PDict u) <= n -> wf (PDict u) -> fits base (PDict u) -> snd (nested_update base (PDict u)) = None.
  Proof.
    induction n as [|n IH]; intros base u SZ W F; [cbn in SZ; lia|]. rewrite nested_dict.
    destruct u as [|e u]; [reflexivity|]. set (u' := e :: u) in *. destruct base as [b|d].
    { exfalso. apply (F [] u' b); cbn; auto. discriminate. }
    destruct (upd_level u' d) as (d' & -> & _); auto.
    - apply (W [] u' eq_refl).
    - intros k x I. apply IH; [pose proof (size_in _ _ _ I); lia|eapply wf_sub; eauto|eapply fits_sub; eauto].
  Qed.

  (** The update, path by path: when the base fits, nothing is raised and
      - a leaf of the update, and nothing below it, is found at its path;
      - where the update has a mapping, the base's value stays a mapping, or stays as it is if the mapping of the update is empty, and if the
        base had nothing there a mapping is found;
      - every other path leads to what it led to before;
      - the keys of a mapping keep their order, and new keys follow in the order of the update. *)
  Theorem C138_nested_update base u : wf (PDict u) -> fits base (PDict u) ->
    exists r, nested_update base (PDict u) = (r, None) /\
      (forall p q a, p <> [] -> at_path (PDict u) p = Some (PLeaf a) -> at_path r (p ++ q) = at_path (PLeaf a) q) /\
      (forall p d, at_path (PDict u) p = Some (PDict d) ->
         match at_path base p with
         | None => exists e, at_path r p = Some (PDict e)
         | Some (PLeaf b) => d = [] /\ at_path r p = Some (PLeaf b)
         | Some (PDict b) => exists e, at_path r p = Some (PDict e) /\ map fst e = map fst b ++ filter (fun k => negb (mem b k)) (map fst d)
         end) /\
      (forall p, at_path (PDict u) p = None -> (forall q q' a, p = q ++ q' -> at_path (PDict u) q <> Some (PLeaf a)) ->
         at_path r p = at_path base p).
  Proof.
    intros W F. pose proof (no_raise _ base u (le_n _) W F) as E.
    destruct (nested_update base (PDict u)) as [r e] eqn:R. cbn in E. subst e. exists r. split; auto.
    assert (REC : forall n p u base r, length p <= n -> wf (PDict u) -> fits base (PDict u) -> nested_update base (PDict u) = (r, None) ->
      (forall q a, p <> [] -> at_path (PDict u) p = Some (PLeaf a) -> at_path r (p ++ q) = at_path (PLeaf a) q) /\
      (forall d, at_path (PDict u) p = Some (PDict d) ->
         match at_path base p with
         | None => exists e, at_path r p = Some (PDict e)
         | Some (PLeaf b) => d = [] /\ at_path r p = Some (PLeaf b)
         | Some (PDict b) => exists e, at_path r p = Some (PDict e) /\ map fst e = map fst b ++ filter (fun k => negb (mem b k)) (map fst d)
         end) /\
      (at_path (PDict u) p = None -> (forall q q' a, p = q ++ q' -> at_path (PDict u) q <> Some (PLeaf a)) ->
         at_path r p = at_path base p)).
    { clear - keq_ok. induction n as [|n IH]; intros p u base r LP W F R.
      all: assert (LEV : u <> [] -> exists d d', base = PDict d /\ r = PDict d' /\ (forall k, dget d' k = level d u k) /\
        map fst d' = map fst d ++ filter (fun k => negb (mem d k)) (map fst u))
        by (intros NE; destruct base as [b|d]; [exfalso; apply (F [] u b); cbn; auto|]; rewrite nested_dict in R;
            destruct (upd_level u d) as (d' & R' & L & KS); [apply (W [] u eq_refl)|intros k x I; eapply no_raise; eauto; [eapply wf_sub; eauto|eapply fits_sub; eauto]|];
            exists d, d'; rewrite R in R'; injection R' as ->; auto).
      all: assert (NIL : u = [] -> r = base) by (intros ->; cbn in R; congruence).
      all: destruct p as [|k p]; [|].
      2: cbn in LP; lia.
      1,2: split; [congruence|]; split; [|discriminate]; intros d [= <-]; cbn; destruct u as [|eu u'];
        [rewrite NIL by auto; destruct base as [b|b]; [auto|]; exists b; split; [auto|cbn; rewrite app_nil_r; auto]
        |destruct LEV as (b & b' & -> & -> & _ & KS); [discriminate|]; exists b'; auto].
      cbn in LP. cbn [at_path]. destruct u as [|eu u'].
      { rewrite NIL by auto. cbn. split; [discriminate|]. split; [discriminate|]. auto. }
      set (u := eu :: u') in *. destruct LEV as (d & d' & -> & -> & L & KS); [discriminate|]. clear NIL. clearbody u.
      cbn [app at_path]. rewrite L. unfold level. destruct (dget u k) as [[a|x]|] eqn:G.
      - split; [|split].
        + intros q b _ E. destruct p; [injection E as ->; reflexivity|discriminate].
        + intros e E. destruct p; discriminate.
        + intros E H. exfalso. apply (H [k] p a); [reflexivity|]. cbn. rewrite G. reflexivity.
      - assert (I : In (k, PDict x) u). { apply dget_in; auto. apply (W [] u eq_refl). }
        destruct (nested_update (sub d k) (PDict x)) as [rk ek] eqn:RK. cbn [fst].
        assert (ek = None).
        { pose proof (no_raise _ (sub d k) x (le_n _) (wf_sub _ _ _ W I) (fits_sub _ _ _ _ W F I)) as E. rewrite RK in E. exact E. }
        subst ek. destruct (IH p x (sub d k) rk) as (H1 & H2 & H3); auto; [lia|eapply wf_sub; eauto|eapply fits_sub; eauto|].
        split; [|split].
        + intros q a _ E. destruct p as [|k' p']; [discriminate|]. apply H1; [discriminate|auto].
        + intros e E. specialize (H2 e E). unfold sub in H2. destruct (dget d k); auto.
          destruct p as [|k' p']; cbn in H2; auto. destruct H2 as (e' & H2 & _). eauto.
        + intros E H. rewrite H3; auto.
          * unfold sub. destruct (dget d k); auto. destruct p; [discriminate|]. reflexivity.
          * intros q q' a -> Q. apply (H (k :: q) q' a); [reflexivity|]. cbn. rewrite G. auto.
      - split; [discriminate|]. split; [discriminate|]. auto. }
    split; [intros p q a; apply (REC _ p u base r (le_n _) W F R)|].
    split; [intros p d; apply (REC _ p u base r (le_n _) W F R)|intros p; apply (REC _ p u base r (le_n _) W F R)].
  Qed.

  (** When the base does not fit, an exception is raised. *)
  Theorem C138_nested_update_conflict base u : wf (PDict u) -> ~ fits base (PDict u) -> snd (nested_update base (PDict u)) <> None.
  Proof.
    intros W NF E. apply NF. clear NF. intros p. revert base u W E.
    induction p as [|k p IH]; intros base u W E d b.
    - intros [= <-] NE [= ->]. rewrite nested_dict in E. destruct u as [|[k v] u]; [congruence|]. cbn in E. destruct v; discriminate.
    - cbn. intros U NE B. destruct base as [?|bd]; [discriminate|]. destruct (dget u k) as [v|] eqn:G; [|discriminate].
      assert (I : In (k, v) u). { apply dget_in; auto. apply (W [] u eq_refl). }
      destruct v as [a|x]; [destruct p; discriminate|].
      assert (E' : snd (nested_update (sub bd k) (PDict x)) = None).
      { destruct (snd (nested_update (sub bd k) (PDict x))) eqn:N; auto. exfalso.
        rewrite nested_dict in E. revert E. apply (upd_raises u bd k x); auto; [apply (W [] u eq_refl)|congruence]. }
      destruct (dget bd k) as [y|] eqn:GB; [|discriminate]. unfold sub in E'. rewrite GB in E'.
      apply (IH _ x (wf_sub _ _ _ W I) E' d b); auto.
  Qed.
End Update.
Print Assumptions C138_nested_update.
Print Assumptions C138_nested_update_conflict.

(** An update with None changes nothing and raises nothing; any other is as above. *)
Theorem C138_nested_update_none {K A} (keq : K -> K -> bool) (base : pv K A) :
  nested_update_opt keq base None = (base, None) /\ forall u, nested_update_opt keq base (Some u) = nested_update keq base u.
Proof. split; reflexivity. Qed.
Print Assumptions C138_nested_update_none.

(** The update that fails has already changed the base. *)
Theorem C138_nested_update_atomic_refuted :
  exists (base u : pv nat nat) r e, nested_update Nat.eqb base u = (r, Some e) /\ r <> base.
Proof.
  exists (PDict [(1, PLeaf 1); (2, PLeaf 2)]), (PDict [(1, PLeaf 5); (2, PDict [(3, PLeaf 1)])]).
  eexists _, _. split; [vm_compute; reflexivity|discriminate].
Qed.

Example update_case :
  nested_update Nat.eqb (PDict [(1, PLeaf 10); (2, PDict [(3, PLeaf 30); (4, PLeaf 40)])]) (PDict [(2, PDict [(4, PLeaf 41); (5, PLeaf 50)]); (6, PDict [])])
  = (PDict [(1, PLeaf 10); (2, PDict [(3, PLeaf 30); (4, PLeaf 41); (5, PLeaf 50)]); (6, PDict [])], None).
Proof. reflexivity. Qed.

Section Lists.
  Context {A : Type}.
  Implicit Types x it seq : list A.

  Theorem C138_unique (eqb : A -> A -> bool) x : (forall a b, eqb a b = true <-> a = b) -> (is_list_unique eqb x = true <-> NoDup x).
  Proof.
    intros EQ. unfold is_list_unique. rewrite Nat.eqb_eq.
    assert (IN : forall x a, existsb (eqb a) (to_set eqb x) = true <-> In a x).
    { clear x. induction x as [|b x IH]; intros a; cbn; [split; [discriminate|contradiction]|].
      destruct (existsb (eqb b) (to_set eqb x)) eqn:E.
      - rewrite IH. split; auto. intros [<-|]; auto. apply IH. auto.
      - cbn. rewrite orb_true_iff, IH, EQ. split; intros [->|]; auto. }
    assert (LE : forall x, length (to_set eqb x) <= length x).
    { clear. induction x as [|b x IH]; cbn; auto. destruct (existsb _ _); cbn; lia. }
    induction x as [|b x IH]; cbn.
    - split; auto. constructor.
    - destruct (existsb (eqb b) (to_set eqb x)) eqn:E.
      + split.
        * pose proof (LE x). lia.
        * intros N. inversion N; subst. apply IN in E. contradiction.
      + cbn. split.
        * intros [= L]. constructor; [rewrite <- IN; congruence|]. apply IH. auto.
        * intros N. inversion N; subst. f_equal. apply IH. auto.
  Qed.

  Lemma last_nth (l : list A) d : last l d = nth (length l - 1) l d.
  Proof.
    induction l as [|a l IH]; auto. destruct l as [|b l]; auto. change (last (a :: b :: l) d) with (last (b :: l) d). rewrite IH. cbn. rewrite !Nat.sub_0_r. reflexivity.
  Qed.
  Lemma skip_skip a b (l : list A) : skipn a (skipn b l) = skipn (b + a) l.
  Proof. revert l. induction b as [|b IH]; intros [|c l]; cbn; auto. apply skipn_nil. Qed.

  Lemma concat_len (n : nat) (l : list (list A)) : Forall (fun c => length c = n) l -> length (concat l) = length l * n.
  Proof. induction 1 as [|c l E F IH]; cbn; auto. rewrite app_length. lia. Qed.

  (** Chunks of [size] elements, in order from the beginning, as many as there are, the rest dropped. *)
  Theorem C138_chunks it size : (0 < size)%Z ->
    exists chunks, chunked_drop_last it size = (chunks, None) /\
      Forall (fun c => Z.of_nat (length c) = size) chunks /\
      exists rest, it = concat chunks ++ rest /\ (Z.of_nat (length rest) < size)%Z.
  Proof.
    intros P. unfold chunked_drop_last. destruct (Z.ltb_spec size 0); [lia|]. set (n := Z.to_nat size).
    assert (NP : 0 < n) by (unfold n; lia).
    eexists. split; [reflexivity|].
    assert (G : forall f it, length it < f -> Forall (fun c => length c = n) (chunk_loop f it n) /\
      exists rest, it = concat (chunk_loop f it n) ++ rest /\ length rest < n).
    { clear - NP. induction f as [|f IH]; intros it L; [lia|]. cbn [chunk_loop].
      destruct (firstn n it) as [|c0 c] eqn:E.
      - split; auto. exists it. split; auto. apply (f_equal (@length A)) in E. rewrite firstn_length in E. cbn in E. lia.
      - rewrite <- E. clear c0 c E. rewrite firstn_length. destruct (Nat.eqb_spec (Nat.min n (length it)) n) as [EQ|NE].
        + destruct (IH (skipn n it)) as (F & rest & R & LR); [rewrite skipn_length; lia|].
          split; [constructor; [rewrite firstn_length; lia|auto]|]. exists rest. split; auto. cbn [concat]. rewrite <- app_assoc, <- R.
          rewrite firstn_skipn. auto.
        + split; auto. exists it. split; auto. lia. }
    destruct (G (S (length it)) it) as (F & rest & R & LR); [lia|]. split.
    - eapply Forall_impl; [|exact F]. cbn. unfold n. lia.
    - exists rest. split; auto. unfold n in LR. lia.
  Qed.

  (** The same from the end: the rest dropped is at the beginning. *)
  Theorem C138_reversed_chunks seq n : (0 < n)%Z ->
    exists chunks, reversed_chunked seq n = Ret chunks /\
      Forall (fun c => Z.of_nat (length c) = n) chunks /\
      exists rest, seq = rest ++ concat chunks /\ (Z.of_nat (length rest) < n)%Z.
  Proof.
    intros P. unfold reversed_chunked. destruct (Z.eqb_spec n 0); [lia|]. destruct (Z.ltb_spec n 0); [lia|]. set (m := Z.to_nat n).
    assert (NP : 0 < m) by (unfold m; lia).
    eexists. split; [reflexivity|].
    assert (G : forall f stop cs, stop < f -> stop <= length seq -> Forall (fun c => length c = m) cs -> skipn stop seq = concat cs ->
      Forall (fun c => length c = m) (rev_chunk_loop f seq m stop cs) /\
      exists k, k < m /\ k <= length seq /\ skipn k seq = concat (rev_chunk_loop f seq m stop cs)).
    { clear - NP. induction f as [|f IH]; intros stop cs L LE F E; [lia|]. cbn [rev_chunk_loop].
      destruct (Nat.ltb_spec (m - 1) stop).
      - apply IH; [lia|lia| |].
        + constructor; auto. unfold slice. rewrite firstn_length, skipn_length. lia.
        + cbn [concat]. rewrite <- E. unfold slice. replace (stop - (stop - m)) with m by lia.
          rewrite <- (firstn_skipn m (skipn (stop - m) seq)) at 1. f_equal.
          rewrite skip_skip. f_equal. lia.
      - split; auto. exists stop. split; [lia|]. auto. }
    destruct (G (S (length seq)) (length seq) []) as (F & k & K1 & K2 & K3); auto.
    { rewrite skipn_all. reflexivity. }
    split.
    - eapply Forall_impl; [|exact F]. cbn. unfold m. lia.
    - exists (firstn k seq). rewrite <- K3, firstn_skipn. split; auto. rewrite firstn_length. unfold m in K1. lia.
  Qed.

  (** At least two lists, none empty: as many rows as the longest has elements; the [j]-th entry of row [i] is the [i]-th element of the
      [j]-th list, or its last one when it is shorter. *)
  Theorem C138_zip_partial (args : list (list A)) : 2 <= length args -> (forall x, In x args -> x <> []) ->
    exists rows, zip_repeat_shorter args = (rows, None) /\
      (forall x, In x args -> length x <= length rows) /\ (exists x, In x args /\ length x = length rows) /\
      forall i row, nth_error rows i = Some row -> length row = length args /\
        forall j x, nth_error args j = Some x -> nth_error row j = nth_error x (Nat.min i (length x - 1)).
  Proof.
    intros L2 NE.
    assert (Z : forall i, exists row, zip_next args i = Ret row /\ length row = length args /\
      forall j x, nth_error args j = Some x -> nth_error row j = nth_error x (Nat.min i (length x - 1))).
    { intros i. clear L2. induction args as [|x args IH]; cbn [zip_next]; [exists []; split; auto; split; auto; intros [|j] x; discriminate|].
      destruct IH as (row & -> & LR & N); [intros; apply NE; right; auto|].
      destruct x as [|x0 x']; [elim (NE []); [left|]; auto|]. set (x := x0 :: x') in *. cbn [repeat_last pbind].
      eexists. split; [reflexivity|]. split; [cbn; lia|]. intros [|j] y Y; cbn [nth_error] in *; [|auto]. injection Y as <-.
      destruct (Nat.lt_ge_cases i (length x)) as [H|H].
      - rewrite Nat.min_l by lia. symmetry. apply nth_error_nth'. auto.
      - rewrite Nat.min_r by lia. rewrite nth_overflow by auto. rewrite (nth_error_nth' x x0) by (cbn; lia).
        rewrite last_nth. reflexivity. }
    assert (Y : forall n i, exists rows, yield_rows args i n = (rows, None) /\ length rows = n /\
      forall k row, nth_error rows k = Some row -> length row = length args /\
        forall j x, nth_error args j = Some x -> nth_error row j = nth_error x (Nat.min (i + k) (length x - 1))).
    { induction n as [|n IH]; intros i; cbn [yield_rows]; [exists []; split; auto; split; auto; intros [|k] ? [=]|].
      destruct (Z i) as (row & -> & LR & N). destruct (IH (S i)) as (rows & -> & L & H).
      eexists. split; [reflexivity|]. split; [cbn; lia|]. intros [|k] row' E; cbn in E.
      - injection E as <-. split; auto. intros j x J. rewrite Nat.add_0_r. auto.
      - destruct (H k row' E) as [H1 H2]. split; auto. intros j x J. rewrite (H2 j x J). do 2 f_equal. lia. }
    destruct args as [|x1 [|x2 args']]; cbn in L2; try lia. set (args := x1 :: x2 :: args') in *.
    change (zip_repeat_shorter args) with (yield_rows args 0 (fold_right Nat.max 0 (map (@length A) args))).
    set (M := fold_right Nat.max 0 (map (@length A) args)).
    destruct (Y M 0) as (rows & -> & L & H). exists rows. split; auto.
    assert (MX : forall l : list (list A), (forall x, In x l -> length x <= fold_right Nat.max 0 (map (@length A) l)) /\
      (l <> [] -> exists x, In x l /\ length x = fold_right Nat.max 0 (map (@length A) l))).
    { clear. induction l as [|x l [I1 I2]]; cbn; [split; [contradiction|congruence]|]. split.
      - intros y [->|Y]; [lia|]. specialize (I1 y Y). lia.
      - intros _. destruct l as [|z l]; [exists x; cbn; split; [auto|lia]|]. destruct I2 as (y & Y & E); [discriminate|].
        destruct (Nat.max_spec (length x) (fold_right Nat.max 0 (map (@length A) (z :: l)))) as [[_ ->]|[_ ->]]; eauto. }
    destruct (MX args) as [M1 M2]. split; [rewrite L; auto|]. split; [rewrite L; apply M2; discriminate|].
    intros i row E. destruct (H i row E) as [H1 H2]. split; auto.
  Qed.
End Lists.
Print Assumptions C138_unique.
Print Assumptions C138_chunks.
Print Assumptions C138_reversed_chunks.
Print Assumptions C138_zip_partial.

(** With a single list the function raises instead of yielding its elements; with an empty list beside a non-empty one it raises, and with two
    empty lists it yields nothing. *)
Theorem C138_zip_refuted :
  (forall x : list nat, zip_repeat_shorter [x] = ([], Some TypeError)) /\
  (forall (a : nat) x, zip_repeat_shorter [[]; a :: x] = ([], Some PyRuntimeError) /\ zip_repeat_shorter [a :: x; []] = ([], Some PyRuntimeError)) /\
  zip_repeat_shorter [[]; @nil nat] = ([], None).
Proof. split; [reflexivity|]. split; [intros a x; split; reflexivity|reflexivity]. Qed.

Example zip_case : zip_repeat_shorter [[1; 2; 3]; [7]; [8; 9]] = ([[1; 7; 8]; [2; 7; 9]; [3; 7; 9]], None).
Proof. reflexivity. Qed.
Example chunk_case : chunked_drop_last [1; 2; 3; 4; 5] 2 = ([[1; 2]; [3; 4]], None) /\ reversed_chunked [1; 2; 3; 4; 5] 2 = Ret [[2; 3]; [4; 5]].
Proof. split; reflexivity. Qed.
