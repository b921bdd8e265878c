(** Proofs about connected components. *)
From Verif Require Import Base GraphModel GraphSpec GraphProofs.

Section C.
Context {V W : Type}.
Variable g : graph V W.

Notation adj := (adj g).
Notation connected := (connected g).

Lemma conn_trans i j k : connected i j -> connected j k -> connected i k.
Proof. induction 1; auto. intros. econstructor; eauto. Qed.

Lemma conn_snoc i j k : connected i j -> adj j k -> connected i k.
Proof. intros H A. apply (conn_trans _ _ _ H). econstructor; [exact A|constructor]. Qed.

Lemma conn_sym : undirected g -> forall i j, connected i j -> connected j i.
Proof.
  intros S i j H. induction H as [|i j k A _ IH]; [constructor|].
  apply (conn_snoc _ _ _ IH). apply S, A.
Qed.

Definition zeros (c : list nat) : nat := count_occ Nat.eq_dec c 0.

Lemma zeros_upd c k id : nth_error c k = Some 0 -> id <> 0 -> zeros c = S (zeros (upd c k id)).
Proof.
  unfold zeros. revert k; induction c as [|x c IH]; intros [|k] H I; cbn [nth_error] in H; try discriminate.
  - injection H as ->. cbn [upd]. rewrite count_occ_cons_eq by auto. rewrite count_occ_cons_neq; auto.
  - cbn [upd]. specialize (IH k H I). destruct (Nat.eq_dec x 0) as [->|Z].
    + rewrite !count_occ_cons_eq by auto. lia.
    + rewrite !count_occ_cons_neq by auto. exact IH.
Qed.

Lemma zeros_le c : zeros c <= length c.
Proof. unfold zeros. apply count_occ_bound. Qed.

(** One node's edges. *)
Lemma mark_edges_spec id : id <> 0 -> forall es comps queue num,
  (forall e, In e es -> (0 <= e_to e < Z.of_nat (length comps))%Z) ->
  exists comps' newq,
    mark_edges (W := W) es id comps queue num = Ok (comps', queue ++ map Z.of_nat newq, num + length newq) /\
    length comps' = length comps /\
    zeros comps = zeros comps' + length newq /\
    (forall k, In k newq -> exists e, In e es /\ e_to e = Z.of_nat k) /\
    (forall k, In k newq -> nth_error comps k = Some 0 /\ nth_error comps' k = Some id) /\
    (forall k, ~ In k newq -> nth_error comps' k = nth_error comps k) /\
    (forall e, In e es -> nth_error comps' (Z.to_nat (e_to e)) <> Some 0).
Proof.
  intros HI. induction es as [|e es IH]; intros comps queue num R; cbn [mark_edges].
  - exists comps, []. cbn. rewrite app_nil_r, Nat.add_0_r. split; [reflexivity|].
    repeat split; auto; try (intros ? []); tauto.
  - pose proof (R e (or_introl eq_refl)) as Re.
    destruct (Z.leb_spec 0 (e_to e)); [|lia]. destruct (Z.ltb_spec (e_to e) (Z.of_nat (length comps))); [|lia].
    cbn [andb].
    destruct (nth_error comps (Z.to_nat (e_to e))) as [[|c]|] eqn:E.
    + set (k0 := Z.to_nat (e_to e)) in *.
      destruct (IH (upd comps k0 id) (queue ++ [e_to e]) (S num)) as (comps' & nq & EQ & L & ZC & T & Q1 & Q2 & Q3).
      { rewrite upd_length. intros; apply R; right; auto. }
      exists comps', (k0 :: nq). rewrite EQ.
      assert (K : Z.of_nat k0 = e_to e) by (unfold k0; lia).
      assert (NI : ~ In k0 nq).
      { intros I. destruct (Q1 _ I) as [X _]. rewrite upd_same in X by (unfold k0; lia). congruence. }
      split; [|split; [|split; [|split; [|split; [|split]]]]].
      * rewrite <- app_assoc. cbn [map app length]. rewrite K. do 2 f_equal. lia.
      * rewrite L. apply upd_length.
      * rewrite (zeros_upd _ _ id E HI), ZC. cbn [length]. lia.
      * intros k [<-|I]; [exists e; split; [left|]; auto|]. destruct (T k I) as (x & X1 & X2). exists x. split; [right|]; auto.
      * intros k [<-|I].
        -- split; auto. rewrite Q2 by auto. apply upd_same. unfold k0; lia.
        -- destruct (Q1 k I) as [X Y]. split; auto. rewrite upd_other in X; auto. intros <-. contradiction.
      * intros k NK. cbn in NK. rewrite Q2 by tauto. apply upd_other. tauto.
      * intros x [<-|I]; [|apply Q3; auto]. fold k0. rewrite Q2 by auto. rewrite upd_same by (unfold k0; lia). congruence.
    + destruct (IH comps queue num) as (comps' & nq & EQ & L & ZC & T & Q1 & Q2 & Q3).
      { intros; apply R; right; auto. }
      exists comps', nq. repeat split; auto.
      * intros k I. destruct (T k I) as (x & X1 & X2). exists x. split; [right|]; auto.
      * apply Q1; auto.
      * apply Q1; auto.
      * intros x [<-|I]; [|apply Q3; auto].
        destruct (in_dec Nat.eq_dec (Z.to_nat (e_to e)) nq) as [I|NI].
        -- rewrite (proj2 (Q1 _ I)). congruence.
        -- rewrite Q2 by auto. congruence.
    + apply nth_error_None in E. lia.
Qed.

Hypothesis RNG : edges_in_range g.

Definition newly (c0 comps : list nat) (id k : nat) : Prop :=
  nth_error c0 k = Some 0 /\ nth_error comps k = Some id.

Definition mark_inv (c0 : list nat) (id s : nat) (comps : list nat) (queue : list nat) (num : nat) : Prop :=
  length comps = length g /\
  (forall k, nth_error comps k = nth_error c0 k \/ newly c0 comps id k /\ connected s k) /\
  (forall q, In q queue -> q < length g /\ (q = s \/ newly c0 comps id q)) /\
  (forall k j, (k = s \/ newly c0 comps id k) -> ~ In k queue -> adj k j -> nth_error comps j <> Some 0) /\
  num + zeros comps = 1 + zeros c0.

Lemma mark_loop_spec c0 id s : id <> 0 ->
  forall fuel comps queue num,
  mark_inv c0 id s comps queue num ->
  length queue + zeros comps <= fuel ->
  exists comps' num', mark_loop fuel g id comps (map Z.of_nat queue) num = Ok (comps', num') /\
                      mark_inv c0 id s comps' [] num'.
Proof.
  intros HI. induction fuel as [|fuel IH]; intros comps queue num INV HF.
  - destruct queue as [|q queue]; [|cbn in HF; lia]. exists comps, num. auto.
  - destruct queue as [|q queue].
    { exists comps, num. auto. }
    destruct INV as (I1 & I2 & I3 & I4 & I5).
    cbn [map mark_loop]. rewrite Nat2Z.id.
    destruct (I3 q (or_introl eq_refl)) as [QL QS].
    destruct (nth_error g q) as [n|] eqn:N; [|apply nth_error_None in N; lia].
    destruct (mark_edges_spec id HI (n_out n) comps (map Z.of_nat queue) num)
      as (comps' & nq & EQ & L & ZC & T & Q1 & Q2 & Q3).
    { intros e I. rewrite I1. apply (RNG q n e N I). }
    rewrite EQ. cbn [obind]. rewrite <- map_app.
    assert (NEW : forall k, In k nq -> newly c0 comps' id k /\ connected s k).
    { intros k I. destruct (Q1 k I) as [A B]. split.
      - split; auto. destruct (I2 k) as [X|[[_ X] _]]; congruence.
      - destruct (T k I) as (e & Ie & Te).
        assert (AJ : adj q k) by (exists n, e; auto).
        apply (conn_snoc s q k); auto. destruct QS as [->|QN]; [constructor|].
        destruct (I2 q) as [X|[_ X]]; auto. destruct QN as [Y1 Y2]. congruence. }
    assert (KEEP : forall k, newly c0 comps id k -> newly c0 comps' id k).
    { intros k [A B]. split; auto. destruct (in_dec Nat.eq_dec k nq) as [I|NI]; [apply Q1; auto|]. rewrite Q2; auto. }
    apply IH.
    + split; [congruence|]. split; [|split; [|split]].
      * intros k. destruct (in_dec Nat.eq_dec k nq) as [I|NI]; [right; auto|].
        rewrite Q2 by auto. destruct (I2 k) as [X|[X Y]]; auto.
      * intros k I. apply in_app_or in I. destruct I as [I|I].
        -- destruct (I3 k (or_intror I)) as [A [B|B]]; auto.
        -- split; [|right; apply NEW; auto]. destruct (Q1 k I) as [A _].
           rewrite <- I1. apply nth_error_Some. congruence.
      * intros k j K NI AJ. destruct (Nat.eq_dec k q) as [->|NE].
        -- destruct AJ as (n' & e & N' & Ie & Te). rewrite N in N'. injection N' as <-.
           specialize (Q3 e Ie). rewrite Te, Nat2Z.id in Q3. exact Q3.
        -- assert (nth_error comps j <> Some 0) as Z.
           { apply (I4 k j); auto.
             - destruct K as [K|[K1 K2]]; auto.
               destruct (in_dec Nat.eq_dec k nq) as [I|NI']; [exfalso; apply NI, in_or_app; auto|].
               rewrite Q2 in K2 by auto. right. split; auto.
             - intros [X|X]; [congruence|]. apply NI, in_or_app. auto. }
           destruct (in_dec Nat.eq_dec j nq) as [I|NI']; [rewrite (proj2 (Q1 _ I)); congruence|].
           rewrite Q2; auto.
      * lia.
    + rewrite app_length. cbn [length] in HF. lia.
Qed.

(** The outer loop. *)
Definition comp_inv (comps : list nat) (count : nat) : Prop :=
  length comps = length g /\
  (forall k c, nth_error comps k = Some c -> c <= count) /\
  (forall i j, adj i j -> nth_error comps i = nth_error comps j) /\
  (forall i j c, nth_error comps i = Some (S c) -> nth_error comps j = Some (S c) -> connected i j).

Hypothesis SYM : undirected g.

Lemma adj_lt i j : adj i j -> i < length g /\ j < length g.
Proof.
  intros (n & e & N & I & T). split; [apply nth_error_Some; congruence|].
  pose proof (RNG i n e N I) as [_ X]. rewrite T in X. lia.
Qed.

Lemma mark_comp_inv c0 count s :
  comp_inv c0 count -> nth_error c0 s = Some 0 ->
  exists comps' num', mark_component (S (length g)) g (Z.of_nat s) c0 (S count) = Ok (comps', num') /\
    comp_inv comps' (S count) /\ mark_inv c0 (S count) s comps' [] num'.
Proof.
  intros (T1 & T2 & T3 & T4) HS. unfold mark_component.
  assert (SL : s < length g) by (rewrite <- T1; apply nth_error_Some; congruence).
  destruct (mark_loop_spec c0 (S count) s ltac:(lia) (S (length g)) c0 [s] 1) as (c' & num' & E & M).
  { split; auto. split; [auto|]. split; [|split].
    - intros q [<-|[]]. auto.
    - intros k j [->|[A B]] NI AJ; [exfalso; apply NI; left; auto|]. congruence.
    - reflexivity. }
  { pose proof (zeros_le c0). cbn [length]. lia. }
  exists c', num'. split; [exact E|]. split; [|exact M].
  destruct M as (I1 & I2 & _ & I4 & _).
  assert (NZ : forall k, newly c0 c' (S count) k \/ nth_error c' k = nth_error c0 k /\ ~ newly c0 c' (S count) k).
  { intros k. destruct (I2 k) as [X|[X _]]; auto. right. split; auto. intros [A B].
    rewrite X in B. congruence. }
  assert (CL : forall i j, newly c0 c' (S count) i -> adj i j -> newly c0 c' (S count) j).
  { intros i j NI AJ. destruct (NZ j) as [|[X Y]]; auto. exfalso.
    pose proof (I4 i j (or_intror NI) (fun x => x) AJ) as Z.
    rewrite X, <- (T3 i j AJ), (proj1 NI) in Z. congruence. }
  split; auto. split; [|split].
  - intros k c H. destruct (NZ k) as [[_ X]|[X _]].
    + rewrite X in H. injection H as <-. lia.
    + rewrite X in H. apply T2 in H. lia.
  - intros i j AJ. destruct (NZ i) as [A|[A1 A2]].
    + pose proof (CL i j A AJ) as B. rewrite (proj2 A), (proj2 B). reflexivity.
    + destruct (NZ j) as [B|[B1 B2]].
      * exfalso. apply A2. apply (CL j i B). apply SYM, AJ.
      * rewrite A1, B1. apply T3, AJ.
  - intros i j c Hi Hj.
    destruct (Nat.eq_dec c count) as [->|NE].
    + assert (P : forall k, nth_error c' k = Some (S count) -> connected s k).
      { intros k Hk. destruct (I2 k) as [X|[_ X]]; auto. rewrite X in Hk. apply T2 in Hk. lia. }
      apply (conn_trans _ s); [apply conn_sym; auto|auto].
    + assert (P : forall k, nth_error c' k = Some (S c) -> nth_error c0 k = Some (S c)).
      { intros k Hk. destruct (I2 k) as [X|[[_ X] _]]; congruence. }
      apply (T4 i j c); auto.
Qed.

Lemma components_loop_spec : forall todo comps count total,
  (forall i, In i todo -> i < length g) ->
  comp_inv comps count ->
  exists comps' count', components_loop (S (length g)) g todo comps count total = Ok (comps', count') /\
                        comp_inv comps' count'.
Proof.
  induction todo as [|i todo IH]; intros comps count total R INV; cbn [components_loop]; [eauto|].
  destruct (total <? length g); [|eauto].
  destruct (nth_error comps i) as [[|c]|] eqn:E.
  - destruct (mark_comp_inv comps count i INV E) as (c' & num' & -> & INV' & _). cbn [obind fst snd].
    apply IH; auto. intros; apply R; right; auto.
  - apply IH; auto. intros; apply R; right; auto.
  - apply nth_error_None in E. destruct INV as (L & _). specialize (R i (or_introl eq_refl)). lia.
Qed.

Lemma comp_inv_init : comp_inv (repeat 0 (length g)) 0.
Proof.
  assert (Z : forall k c, nth_error (repeat 0 (length g)) k = Some c -> c = 0).
  { intros k c H. apply nth_error_In, repeat_spec in H. auto. }
  split; [apply repeat_length|]. split; [|split].
  - intros k c H. rewrite (Z _ _ H). lia.
  - intros i j AJ. destruct (adj_lt i j AJ). rewrite !nth_error_repeat; auto.
  - intros i j c H. apply Z in H. discriminate.
Qed.

Lemma connected_components_spec :
  exists ids count, connected_components g = Ok (ids, count) /\ comp_inv ids count.
Proof.
  unfold connected_components. apply components_loop_spec; [|apply comp_inv_init].
  intros i H. apply in_seq in H. lia.
Qed.

Lemma connected_graph_one_component :
  2 <= length g -> (forall k, k < length g -> connected 0 k) ->
  connected_components g = Ok (repeat 1 (length g), 1).
Proof.
  intros H2 HC. unfold connected_components.
  destruct (length g) as [|m] eqn:EL; [lia|]. cbn [seq components_loop]. rewrite EL.
  change (0 <? S m) with true. cbn [repeat nth_error].
  change (0 :: repeat 0 m) with (repeat 0 (S m)). rewrite <- EL.
  destruct (mark_comp_inv (repeat 0 (length g)) 0 0 comp_inv_init) as (c' & num' & E & INV & M).
  { apply nth_error_repeat. lia. }
  rewrite E. cbn [obind fst snd Nat.add].
  destruct M as (I1 & I2 & _ & I4 & I5).
  assert (ZR : zeros (repeat 0 (length g)) = length g).
  { unfold zeros. clear. induction (length g) as [|k IH]; auto. cbn [repeat]. rewrite count_occ_cons_eq by auto. auto. }
  rewrite ZR in I5.
  assert (C0 : forall k, k < length g -> nth_error (repeat 0 (length g)) k = Some 0).
  { intros k K. apply nth_error_repeat, K. }
  assert (NZ : forall k, k < length g -> nth_error c' k <> Some 0 -> nth_error c' k = Some 1).
  { intros k K X. destruct (I2 k) as [Y|[[_ Y] _]]; auto. rewrite Y, C0 in X by auto. congruence. }
  assert (S1 : exists j, adj 0 j).
  { specialize (HC 1 ltac:(lia)). inversion HC; subst; eauto. }
  assert (A0 : nth_error c' 0 = Some 1).
  { destruct S1 as [j AJ]. destruct (adj_lt _ _ AJ) as [_ J].
    pose proof (I4 0 j (or_introl eq_refl) (fun x => x) AJ) as P. apply NZ in P; auto.
    apply NZ; [lia|]. apply (I4 j 0); [right; split; auto|auto|apply SYM, AJ]. }
  assert (ALL : forall k, k < length g -> nth_error c' k = Some 1).
  { assert (P : forall i k, connected i k -> nth_error c' i = Some 1 -> nth_error c' k = Some 1).
    { intros i k C. induction C as [|i j k A C IH]; auto. intros X. apply IH.
      destruct (adj_lt _ _ A). apply NZ; auto. apply (I4 i j); auto. right. split; auto. }
    intros k K. apply (P 0 k); auto. apply HC. lia. }
  assert (EC : c' = repeat 1 (length g)).
  { apply nth_error_ext. intros i. destruct (Nat.lt_ge_cases i (length g)).
    - rewrite ALL by auto. symmetry. apply nth_error_repeat. auto.
    - rewrite (proj2 (nth_error_None c' i)) by lia. symmetry. apply nth_error_None. rewrite repeat_length. lia. }
  assert (ZC : zeros c' = 0).
  { rewrite EC. unfold zeros. clear. induction (length g); auto. }
  destruct (seq 1 m) as [|x l] eqn:EQ; cbn [components_loop].
  - rewrite EC, EL. reflexivity.
  - destruct (Nat.ltb_spec num' (length g)); [lia|]. rewrite EC, EL. reflexivity.
Qed.

End C.
