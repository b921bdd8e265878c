(** Proofs about Dijkstra's algorithm. *)
From Verif Require Import Base Cost GraphModel GraphSpec GraphProofs DijkstraModel DijkstraSpec.
From Coq Require Import Permutation.

Lemma lt_some {A} (l : list A) i : i < length l -> exists x, nth_error l i = Some x.
Proof. intros H. destruct (nth_error l i) eqn:X; eauto. apply nth_error_None in X. lia. Qed.

Section D.
Context {V : Type} {C : cost} {ok : C -> Prop}.
Variable L : cost_laws C ok.
Variable Q : pqueue (Z * C).
Hypothesis QS : pq_sane Q.
Hypothesis QO : pq_ordered Q entry_before (fun x => ok (snd x)).
Variable g : graph V C.
Hypothesis GI : forall i n e, nth_error g i = Some n -> In e (n_in n) -> is_index g (e_from e) /\ ok (e_weight e).
Variable start : nat.
Hypothesis HS : start < length g.

Implicit Types s : @dstate C.
Definition D s (i : nat) : option C := nth_error (d_dist s) i.
Definition E s (i : nat) : option bool := nth_error (d_expl s) i.
Definition P s (i : nat) : option Z := nth_error (d_prev s) i.

Record base (s : @dstate C) : Prop := {
  b_work : d_work s = d_dist s;
  b_ldist : length (d_dist s) = length g;
  b_lprev : length (d_prev s) = length g;
  b_lexpl : length (d_expl s) = length g;
  b_ok : forall i d, D s i = Some d -> ok d;
  b_inv : pq_inv Q (d_queue s);
  b_q : forall k c, In (k, c) (d_queue s) ->
        exists i d, k = Z.of_nat i /\ ok c /\ D s i = Some d /\ (c = d \/ cltb d c = true);
  b_un : forall i d, E s i = Some false -> D s i = Some d -> In (Z.of_nat i, d) (d_queue s)
}.

Lemma push_in x q y : In y (pq_push Q x q) <-> y = x \/ In y q.
Proof.
  pose proof (pq_push_perm _ QS x q) as PP. split.
  - intros H. apply (Permutation_in _ PP) in H. destruct H; auto.
  - intros H. apply (Permutation_in _ (Permutation_sym PP)). destruct H; [left|right]; auto.
Qed.

Lemma push_length x q : length (pq_push Q x q) = S (length q).
Proof. rewrite (Permutation_length (pq_push_perm _ QS x q)). reflexivity. Qed.

(** Effect of relaxing the edges [es] of the node [t] at distance [c]. *)
Lemma relax_spec t c : ok c -> forall es s,
  base s ->
  (forall e, In e es -> is_index g (e_from e) /\ ok (e_weight e)) ->
  (forall i d, E s i = Some true -> D s i = Some d -> cle d c) ->
  exists s', relax_edges Q (length g) (Z.of_nat t) c es s = Ok s' /\
    base s' /\ d_expl s' = d_expl s /\
    length (d_queue s') <= length (d_queue s) + length es /\
    (forall i, (D s' i = D s i /\ P s' i = P s i) \/
               (E s i = Some false /\ P s' i = Some (Z.of_nat t) /\
                exists d d' e, D s i = Some d /\ D s' i = Some d' /\ In e es /\ e_from e = Z.of_nat i /\
                               d' = cadd c (e_weight e) /\ cltb d' d = true)) /\
    (forall e d, In e es -> D s' (Z.to_nat (e_from e)) = Some d -> cle d (cadd c (e_weight e))).
Proof.
  intros OC. induction es as [|e es IH]; intros s B R X; cbn [relax_edges].
  - exists s. repeat split; auto; try apply B. + cbn. lia. + intros e d [].
  - destruct (R e (or_introl eq_refl)) as [[R1 R2] OW].
    assert (OWC : ok (cadd c (e_weight e))) by (apply (cl_add _ _ L); auto).
    destruct (Z.leb_spec 0 (e_from e)); [|lia]. destruct (Z.ltb_spec (e_from e) (Z.of_nat (length g))); [|lia].
    cbn [andb]. set (k := Z.to_nat (e_from e)).
    assert (KL : k < length g) by (unfold k; lia).
    assert (KZ : Z.of_nat k = e_from e) by (unfold k; lia).
    destruct (lt_some (d_dist s) k) as [d Dk]; [rewrite (b_ldist _ B); auto|].
    destruct (lt_some (d_expl s) k) as [b Ek]; [rewrite (b_lexpl _ B); auto|].
    rewrite (b_work _ B), Dk, Ek.
    pose proof (b_ok _ B k d Dk) as OD.
    destruct (cltb (cadd c (e_weight e)) d) eqn:CMP.
    + (* improved: the neighbour cannot be explored *)
      assert (b = false) as ->.
      { destruct b; auto. pose proof (X k d Ek Dk) as Le.
        assert (cle d (cadd c (e_weight e))) as N.
        { apply (cle_trans L d c); auto. apply (cle_add L); auto. }
        unfold cle in N. congruence. }
      set (nd := cadd c (e_weight e)) in *.
      set (s1 := mkD _ _ _ _ _).
      assert (D1 : forall i, D s1 i = if i =? k then Some nd else D s i).
      { intros i. unfold D, s1. cbn [d_dist]. rewrite nth_error_upd, (b_ldist _ B).
        rewrite Nat.eqb_sym. destruct (Nat.eqb_spec i k) as [->|]; auto.
        destruct (Nat.ltb_spec k (length g)); [auto|lia]. }
      assert (P1 : forall i, P s1 i = if i =? k then Some (Z.of_nat t) else P s i).
      { intros i. unfold P, s1. cbn [d_prev]. rewrite nth_error_upd, (b_lprev _ B).
        rewrite Nat.eqb_sym. destruct (Nat.eqb_spec i k) as [->|]; auto.
        destruct (Nat.ltb_spec k (length g)); [auto|lia]. }
      assert (E1 : forall i, E s1 i = E s i) by reflexivity.
      assert (B1 : base s1).
      { split.
        - reflexivity.
        - cbn. rewrite upd_length. apply B.
        - cbn. rewrite upd_length. apply B.
        - cbn. apply B.
        - intros i x. rewrite D1. destruct (Nat.eqb_spec i k); [intros [= <-]; auto|]. apply B.
        - cbn [d_queue s1]. apply (pq_push_inv _ QS), B.
        - intros kk cc I. cbn [d_queue s1] in I. apply push_in in I. destruct I as [[= -> ->]|I].
          + exists k, nd. rewrite D1, Nat.eqb_refl. repeat split; auto.
          + destruct (b_q _ B kk cc I) as (i & d0 & -> & OCC & Di & CD).
            destruct (Nat.eqb_spec i k) as [->|NE].
            * exists k, nd. rewrite D1, Nat.eqb_refl. repeat split; auto. right.
              unfold D in Di. rewrite Dk in Di. injection Di as <-.
              destruct CD as [->|CD]; auto. apply (cl_trans _ _ L nd d cc); auto.
            * exists i, d0. rewrite D1. destruct (Nat.eqb_spec i k); [contradiction|]. auto.
        - intros i x Ei. rewrite D1. cbn [d_queue s1]. rewrite push_in. rewrite E1 in Ei.
          destruct (Nat.eqb_spec i k) as [->|NE].
          + intros [= <-]. left. rewrite KZ. reflexivity.
          + intros Dx. right. apply (b_un _ B); auto. }
      destruct (IH s1 B1) as (s' & EQ & B' & EX & LQ & CH & LE).
      { intros; apply R; right; auto. }
      { intros i x Ei. rewrite E1 in Ei. rewrite D1. destruct (Nat.eqb_spec i k) as [->|]; [|apply X; auto].
        unfold E in Ei. congruence. }
      exists s'. split; [exact EQ|]. split; [exact B'|]. split; [rewrite EX; reflexivity|]. split; [|split].
      * cbn [d_queue s1 length] in *. rewrite push_length in LQ. lia.
      * intros i. destruct (CH i) as [[A1 A2]|(A1 & A2 & d0 & d' & e' & A3 & A4 & A5 & A6 & A7 & A8)].
        -- rewrite A1, A2, D1, P1. destruct (Nat.eqb_spec i k) as [->|NE]; [|left; auto].
           right. split; [exact Ek|]. split; auto. exists d, nd, e. repeat split; auto. left. auto.
        -- right. rewrite E1 in A1. split; auto. split; auto. rewrite D1 in A3.
           destruct (Nat.eqb_spec i k) as [->|NE].
           ++ injection A3 as <-. exists d, d', e'. repeat split; auto. { right. auto. }
              apply (cl_trans _ _ L d' nd d); auto. apply (b_ok _ B' k); auto.
           ++ exists d0, d', e'. repeat split; auto. right. auto.
      * intros e' x [<-|I] Dx; [|apply (LE e' x); auto]. fold k in Dx.
        destruct (CH k) as [[A1 _]|(_ & _ & d0 & d' & e' & A3 & A4 & _ & _ & _ & A8)].
        -- rewrite A1, D1, Nat.eqb_refl in Dx. injection Dx as <-. apply (cle_refl L); auto.
        -- rewrite D1, Nat.eqb_refl in A3. injection A3 as <-. rewrite A4 in Dx. injection Dx as <-.
           apply (clt_le L); auto. apply (b_ok _ B' k); auto.
    + (* not improved *)
      destruct (IH s B) as (s' & EQ & B' & EX & LQ & CH & LE).
      { intros; apply R; right; auto. }
      { exact X. }
      exists s'. split; [exact EQ|]. split; [exact B'|]. split; [exact EX|]. split; [|split].
      * cbn [length]. lia.
      * intros i. destruct (CH i) as [A|(A1 & A2 & d0 & d' & e' & A3 & A4 & A5 & A6 & A7 & A8)]; [left; auto|].
        right. repeat split; auto. exists d0, d', e'. repeat split; auto. right. auto.
      * intros e' x [<-|I] Dx; [|apply (LE e' x); auto]. fold k in Dx.
        destruct (CH k) as [[A1 _]|(_ & _ & d0 & d' & e' & A3 & A4 & _ & _ & _ & A8)].
        -- rewrite A1 in Dx. unfold D in Dx. rewrite Dk in Dx. injection Dx as <-. exact CMP.
        -- unfold D in A3. rewrite Dk in A3. injection A3 as <-. rewrite A4 in Dx. injection Dx as <-.
           pose proof (b_ok _ B' k d' A4). apply (cle_trans L d' d); auto. apply (clt_le L); auto.
Qed.

(** ** The main loop *)

Record inv (s : @dstate C) (ord : list nat) : Prop := {
  i_base : base s;
  i_nodup : NoDup ord;
  i_expl : forall i, E s i = Some true <-> In i ord;
  i_sep : forall u v du dv, In u ord -> E s v = Some false -> D s u = Some du -> D s v = Some dv -> cle du dv;
  i_relax : forall u nu e du dv, In u ord -> nth_error g u = Some nu -> In e (n_in nu) ->
            D s u = Some du -> D s (Z.to_nat (e_from e)) = Some dv -> cle dv (cadd du (e_weight e));
  i_start : D s start = Some czero /\ P s start = Some (Z.of_nat start);
  i_prev : forall k, k <> start -> k < length g ->
           (D s k = Some cinf /\ P s k = Some (-1)%Z) \/
           exists p np e dp, In p ord /\ P s k = Some (Z.of_nat p) /\ nth_error g p = Some np /\
             In e (n_in np) /\ e_from e = Z.of_nat k /\ D s p = Some dp /\ D s k = Some (cadd dp (e_weight e)) /\
             cltb (cadd dp (e_weight e)) cinf = true;
  i_tree : forall l1 k l2 p, ord = l1 ++ k :: l2 -> k <> start -> P s k = Some (Z.of_nat p) -> In p l2
}.

Definition pending (s : @dstate C) : nat :=
  list_sum (map (fun nb => if snd nb : bool then 0 else length (n_in (fst nb))) (combine g (d_expl s))).

Lemma pending_mark : forall (gg : list (node V C)) ex t nt,
  length ex = length gg -> nth_error gg t = Some nt -> nth_error ex t = Some false ->
  list_sum (map (fun nb => if snd nb : bool then 0 else length (n_in (fst nb))) (combine gg ex))
  = length (n_in nt) +
    list_sum (map (fun nb => if snd nb : bool then 0 else length (n_in (fst nb))) (combine gg (upd ex t true))).
Proof.
  induction gg as [|a gg IH]; intros [|b ex] [|t] nt HL N X; cbn in *; try discriminate.
  - injection N as ->. injection X as ->. reflexivity.
  - injection HL as HL. pose proof (IH ex t nt HL N X) as Y. cbn in Y |- *. unfold list_sum in *. lia.
Qed.

Lemma dijkstra_loop_spec : forall fuel s ord,
  inv s ord -> length (d_queue s) + pending s <= fuel ->
  exists s' ord', dijkstra_loop Q fuel g s = Ok s' /\ inv s' ord' /\ d_queue s' = [].
Proof.
  induction fuel as [|fuel IH]; intros s ord I HF.
  - destruct (d_queue s) eqn:EQ; [|cbn in HF; lia].
    cbn [dijkstra_loop]. rewrite EQ, (pq_pop_nil _ QS). exists s, ord. auto.
  - destruct (d_queue s) as [|q0 q] eqn:EQ.
    { cbn [dijkstra_loop]. rewrite EQ, (pq_pop_nil _ QS). exists s, ord. auto. }
    pose proof (i_base _ _ I) as B.
    assert (QG : Forall (fun x => ok (snd x)) (d_queue s)).
    { apply Forall_forall. intros [k c] IN. destruct (b_q _ B k c IN) as (_ & _ & _ & OC & _). exact OC. }
    destruct (pq_pop_some _ QS (d_queue s) (b_inv _ B)) as ([top c] & q' & PO & PM & PI).
    { rewrite EQ. discriminate. }
    cbn [dijkstra_loop]. rewrite PO. cbn [d_expl d_work d_dist d_prev d_queue].
    assert (TI : In (top, c) (d_queue s)).
    { apply (Permutation_in _ (Permutation_sym PM)). left. auto. }
    destruct (b_q _ B top c TI) as (t & d & -> & OC & Dt & CD). rewrite Nat2Z.id.
    assert (TL : t < length g).
    { rewrite <- (b_ldist _ B). apply nth_error_Some. unfold D in Dt. congruence. }
    destruct (lt_some (d_expl s) t) as [b Et]; [rewrite (b_lexpl _ B); auto|]. rewrite Et.
    assert (LQ : length (d_queue s) = S (length q')).
    { rewrite (Permutation_length PM). reflexivity. }
    assert (SUB : forall x, In x q' -> In x (d_queue s)).
    { intros x IN. apply (Permutation_in _ (Permutation_sym PM)). right. auto. }
    destruct b.
    + (* already explored *)
      set (s1 := mkD (d_work s) (d_dist s) (d_prev s) (d_expl s) q').
      assert (I1 : inv s1 ord).
      { destruct I as [_ X1 X2 X3 X4 X5 X6 X7]. split; auto.
        split; try apply B; auto.
        - intros k cc IN. apply (b_q _ B k cc). apply SUB. exact IN.
        - intros i x Ei Di. pose proof (b_un _ B i x Ei Di) as IN. cbn [d_queue s1].
          apply (Permutation_in _ PM) in IN. destruct IN as [[= X Y]|IN]; auto.
          apply Nat2Z.inj in X. subst i. unfold E in Ei. cbn [s1 d_expl] in Ei. congruence. }
      apply (IH s1 ord I1). cbn [d_queue s1]. unfold pending in *. cbn [d_expl s1]. rewrite EQ in *. cbn [length] in *. lia.
    + (* explore t *)
      assert (MIN : forall i di, E s i = Some false -> D s i = Some di -> cle c di).
      { intros i di Ei Di. pose proof (b_un _ B i di Ei Di) as IN.
        apply (Permutation_in _ PM) in IN. destruct IN as [[= X Y]|IN].
        - subst. apply (cle_refl L). auto.
        - exact (QO _ _ _ (b_inv _ B) QG PO _ IN). }
      assert (c = d) as <-.
      { destruct CD as [|CD]; auto. pose proof (MIN t d Et Dt) as X. unfold cle in X. congruence. }
      destruct (lt_some g t TL) as [nt Nt].
      assert (GN : get_node g (Z.of_nat t) = Ok nt).
      { apply get_node_ok. split; [lia|]. rewrite Nat2Z.id. exact Nt. }
      rewrite GN. cbn [obind].
      set (s1 := mkD (d_work s) (d_dist s) (d_prev s) (upd (d_expl s) t true) q').
      assert (E1 : forall i, E s1 i = if i =? t then Some true else E s i).
      { intros i. unfold E. cbn [d_expl s1]. rewrite nth_error_upd, (b_lexpl _ B), Nat.eqb_sym.
        destruct (Nat.eqb_spec i t) as [->|]; auto. destruct (Nat.ltb_spec t (length g)); [auto|lia]. }
      assert (B1 : base s1).
      { split; try apply B; auto.
        - cbn. rewrite upd_length. apply B.
        - intros k cc IN. apply (b_q _ B k cc). apply SUB. exact IN.
        - intros i x Ei Di. rewrite E1 in Ei. destruct (Nat.eqb_spec i t) as [->|NE]; [discriminate|].
          pose proof (b_un _ B i x Ei Di) as IN. cbn [d_queue s1].
          apply (Permutation_in _ PM) in IN. destruct IN as [[= X Y]|IN]; auto.
          apply Nat2Z.inj in X. congruence. }
      assert (TORD : ~ In t ord).
      { intros X. apply (i_expl _ _ I) in X. unfold E in X. congruence. }
      destruct (relax_spec t c OC (n_in nt) s1 B1) as (s' & RE & B' & EX & LQ' & CH & LE).
      { intros e IN. apply (GI t nt e Nt IN). }
      { intros i x Ei Di. rewrite E1 in Ei. destruct (Nat.eqb_spec i t) as [->|NE].
        - change (D s1 t) with (D s t) in Di. rewrite Dt in Di. injection Di as <-. apply (cle_refl L); auto.
        - apply (i_expl _ _ I) in Ei. apply (i_sep _ _ I i t x c); auto. }
      rewrite RE. cbn [obind].
      assert (EX' : forall i, E s' i = if i =? t then Some true else E s i).
      { intros i. unfold E at 1. rewrite EX. apply E1. }
      (* explored distances do not change *)
      assert (FRZ : forall i, i = t \/ In i ord -> D s' i = D s i /\ P s' i = P s i).
      { intros i X. destruct (CH i) as [A|(A & _)]; [exact A|]. exfalso. rewrite E1 in A.
        destruct (Nat.eqb_spec i t); [discriminate|]. destruct X as [X|X]; [contradiction|].
        apply (i_expl _ _ I) in X. congruence. }
      assert (ST : start = t \/ In start ord \/ E s start = Some false).
      { destruct (lt_some (d_expl s) start) as [bb Es]; [rewrite (b_lexpl _ B); auto|].
        destruct bb; auto. right. left. apply (i_expl _ _ I). exact Es. }
      destruct (i_start _ _ I) as [S1 S2].
      assert (S' : D s' start = Some czero /\ P s' start = Some (Z.of_nat start)).
      { destruct (CH start) as [[A1 A2]|(_ & _ & d0 & d' & e' & A3 & A4 & A5 & A6 & A7 & A8)].
        - rewrite A1, A2. auto.
        - exfalso. change (D s1 start) with (D s start) in A3. rewrite S1 in A3. injection A3 as <-.
          rewrite (cl_zero_min _ _ L) in A8; [discriminate|]. apply (b_ok _ B' start). exact A4. }
      assert (I' : inv s' (t :: ord)).
      { split.
        - exact B'.
        - constructor; auto. apply I.
        - intros i. rewrite EX'. destruct (Nat.eqb_spec i t) as [->|NE].
          + split; auto. intros _. left. auto.
          + rewrite (i_expl _ _ I). cbn. split; [right; auto|]. intros [X|X]; [congruence|auto].
        - intros u v du dv U Ev Du Dv. rewrite EX' in Ev.
          destruct (Nat.eqb_spec v t) as [|NE]; [discriminate|].
          assert (DU : D s u = Some du).
          { rewrite <- (proj1 (FRZ u ltac:(destruct U; [left|right]; auto))). exact Du. }
          assert (CUC : cle du c).
          { destruct U as [<-|U].
            - rewrite Dt in DU. injection DU as <-. apply (cle_refl L); auto.
            - apply (i_sep _ _ I u t du c); auto. }
          pose proof (b_ok _ B u du DU) as ODU. pose proof (b_ok _ B' v dv Dv) as ODV.
          apply (cle_trans L du c); auto.
          destruct (CH v) as [[A1 _]|(_ & _ & d0 & d' & e' & A3 & A4 & A5 & A6 & A7 & A8)].
          + rewrite A1 in Dv. apply (MIN v dv Ev Dv).
          + rewrite A4 in Dv. injection Dv as <-. rewrite A7. apply (cle_add L); auto. apply (GI t nt e' Nt A5).
        - intros u nu e du dv U Nu Ie Du Dv.
          assert (DU : D s u = Some du).
          { rewrite <- (proj1 (FRZ u ltac:(destruct U; [left|right]; auto))). exact Du. }
          destruct U as [<-|U].
          + rewrite Dt in DU. injection DU as <-. rewrite Nt in Nu. injection Nu as <-. apply (LE e dv Ie Dv).
          + destruct (GI u nu e Nu Ie) as [[G1 G2] OW].
            destruct (lt_some (d_dist s) (Z.to_nat (e_from e))) as [dv0 Dv0]; [rewrite (b_ldist _ B); lia|].
            pose proof (i_relax _ _ I u nu e du dv0 U Nu Ie DU Dv0) as X.
            destruct (CH (Z.to_nat (e_from e))) as [[A1 _]|(_ & _ & d0 & d' & e' & A3 & A4 & A5 & A6 & A7 & A8)].
            * rewrite A1 in Dv. change (D s1 (Z.to_nat (e_from e))) with (D s (Z.to_nat (e_from e))) in Dv.
              unfold D in Dv. rewrite Dv0 in Dv. injection Dv as <-. exact X.
            * rewrite A4 in Dv. injection Dv as <-.
              change (D s1 (Z.to_nat (e_from e))) with (D s (Z.to_nat (e_from e))) in A3.
              unfold D in A3. rewrite Dv0 in A3. injection A3 as <-.
              pose proof (b_ok _ B _ dv0 Dv0). pose proof (b_ok _ B' _ d' A4). pose proof (b_ok _ B u du DU).
              apply (cle_trans L d' dv0); auto; [apply (cl_add _ _ L); auto|]. apply (clt_le L); auto.
        - exact S'.
        - intros k NS KL. destruct (CH k) as [[A1 A2]|(A0 & A2 & d0 & d' & e' & A3 & A4 & A5 & A6 & A7 & A8)].
          + change (D s1 k) with (D s k) in A1. change (P s1 k) with (P s k) in A2. rewrite A1, A2.
            destruct (i_prev _ _ I k NS KL) as [|(p & np & e & dp & X1 & X2 & X3 & X4 & X5 & X6 & X7 & X8)]; auto.
            right. exists p, np, e, dp. repeat split; auto; [right; auto|].
            rewrite (proj1 (FRZ p (or_intror X1))). exact X6.
          + right. exists t, nt, e', c. repeat split; auto; [left; auto| |congruence|].
            { rewrite (proj1 (FRZ t (or_introl eq_refl))). exact Dt. }
            pose proof (b_ok _ B' k d' A4). pose proof (b_ok _ B1 k d0 A3). pose proof (cl_inf _ _ L).
            rewrite <- A7. apply (clt_le_trans L d' d0); auto. apply (cl_inf_max _ _ L); auto.
        - intros l1 k l2 p OR NS Pk. destruct l1 as [|x l1]; cbn in OR.
          + injection OR as <- <-. rewrite (proj2 (FRZ t (or_introl eq_refl))) in Pk.
            destruct (i_prev _ _ I t NS TL) as [[_ X]|(p' & np & e & dp & X1 & X2 & _)].
            * rewrite X in Pk. injection Pk as Pk. lia.
            * rewrite X2 in Pk. injection Pk as Pk. apply Nat2Z.inj in Pk. subst p'. exact X1.
          + injection OR as <- OR.
            assert (In k ord) by (rewrite OR; apply in_or_app; right; left; auto).
            rewrite (proj2 (FRZ k (or_intror H))) in Pk.
            apply (i_tree _ _ I l1 k l2 p OR NS Pk). }
      apply (IH s' (t :: ord) I').
      cbn [d_queue s1] in LQ'.
      assert (PEND : pending s = length (n_in nt) + pending s').
      { unfold pending. rewrite EX. cbn [d_expl s1]. apply pending_mark; auto. apply B. }
      cbn [length] in HF. rewrite EQ in LQ. cbn [length] in LQ. lia.
Qed.

(** ** Initial state *)
Lemma init_queue n : forall a,
  pq_inv Q (fold_left (fun q i => pq_push Q (Z.of_nat i, cinf) q) (seq a n) []) /\
  (forall x, In x (fold_left (fun q i => pq_push Q (Z.of_nat i, cinf : C) q) (seq a n) []) <->
             exists i, a <= i < a + n /\ x = (Z.of_nat i, cinf)) /\
  length (fold_left (fun q i => pq_push Q (Z.of_nat i, cinf : C) q) (seq a n) []) = n.
Proof.
  induction n as [|n IH]; intros a.
  - cbn. split; [apply (pq_inv_nil _ QS)|]. split; auto. intros x. split; [intros []|]. intros (i & H & _). lia.
  - rewrite seq_S, fold_left_app. cbn [fold_left]. destruct (IH a) as (H1 & H2 & H3). split; [|split].
    + apply (pq_push_inv _ QS). exact H1.
    + intros x. rewrite push_in, H2. split.
      * intros [->|(i & Hi & ->)]; [exists (a + n)|exists i]; split; auto; lia.
      * intros (i & Hi & ->). destruct (Nat.eq_dec i (a + n)) as [->|]; auto. right. exists i. split; auto. lia.
    + rewrite push_length, H3. reflexivity.
Qed.

Definition s_init : @dstate C :=
  let n := length g in
  let infs := repeat (cinf : C) n in
  mkD (upd infs start czero) (upd infs start czero) (upd (repeat (-1)%Z n) start (Z.of_nat start)) (repeat false n)
      (pq_push Q (Z.of_nat start, czero) (fold_left (fun q i => pq_push Q (Z.of_nat i, cinf) q) (seq 0 n) [])).

Lemma nth_error_upd_repeat {A} (a b : A) n k i :
  nth_error (upd (repeat a n) k b) i = if i <? n then Some (if i =? k then b else a) else None.
Proof.
  rewrite nth_error_upd, repeat_length, Nat.eqb_sym.
  destruct (Nat.ltb_spec i n).
  - destruct (Nat.eqb_spec i k) as [<-|].
    + destruct (Nat.ltb_spec i n); [auto|lia].
    + apply nth_error_repeat; auto.
  - destruct (Nat.eqb_spec i k) as [<-|].
    + destruct (Nat.ltb_spec i n); [lia|auto].
    + apply nth_error_None. rewrite repeat_length. auto.
Qed.

Lemma inv_init : inv s_init [].
Proof.
  destruct (init_queue (length g) 0) as (H1 & H2 & H3).
  assert (D0 : forall i, D s_init i = if i <? length g then Some (if i =? start then czero else cinf) else None).
  { intros i. apply nth_error_upd_repeat. }
  assert (P0 : forall i, P s_init i = if i <? length g then Some (if i =? start then Z.of_nat start else (-1)%Z) else None).
  { intros i. apply nth_error_upd_repeat. }
  assert (E0 : forall i, E s_init i = Some true -> False).
  { intros i H. unfold E in H. apply nth_error_In, repeat_spec in H. discriminate. }
  split.
  - split.
    + reflexivity.
    + cbn. rewrite upd_length, repeat_length. auto.
    + cbn. rewrite upd_length, repeat_length. auto.
    + cbn. apply repeat_length.
    + intros i d. rewrite D0. destruct (i <? length g); [|discriminate].
      destruct (i =? start); intros [= <-]; [apply L|apply L].
    + cbn [d_queue s_init]. apply (pq_push_inv _ QS). exact H1.
    + intros k c IN. cbn [d_queue s_init] in IN. apply push_in in IN. destruct IN as [[= -> ->]|IN].
      * exists start, czero. rewrite D0, Nat.eqb_refl. destruct (Nat.ltb_spec start (length g)); [|lia].
        repeat split; auto. apply L.
      * apply H2 in IN. destruct IN as (i & Hi & [= -> ->]).
        exists i. rewrite D0. destruct (Nat.ltb_spec i (length g)); [|lia].
        destruct (Nat.eqb_spec i start) as [->|].
        -- exists czero. repeat split; auto; [apply L|].
           right. apply L.
        -- exists cinf. repeat split; auto. apply L.
    + intros i d Ei. rewrite D0. cbn [d_queue s_init]. rewrite push_in, H2.
      destruct (Nat.ltb_spec i (length g)); [|discriminate].
      destruct (Nat.eqb_spec i start) as [->|]; intros [= <-]; [left; auto|].
      right. exists i. split; auto. lia.
  - constructor.
  - intros i. split; [intros X; destruct (E0 i X)|intros []].
  - intros u v du dv [].
  - intros u nu e du dv [].
  - rewrite D0, P0, Nat.eqb_refl. destruct (Nat.ltb_spec start (length g)); [auto|lia].
  - intros k NS KL. left. rewrite D0, P0. destruct (Nat.ltb_spec k (length g)); [|lia].
    destruct (Nat.eqb_spec k start); [contradiction|]. auto.
  - intros l1 k l2 p X. destruct l1; discriminate.
Qed.

Lemma pending_init : forall (gg : list (node V C)),
  list_sum (map (fun nb => if snd nb : bool then 0 else length (n_in (fst nb))) (combine gg (repeat false (length gg))))
  = in_degree_sum gg.
Proof. unfold in_degree_sum. induction gg; cbn in *; auto. Qed.

Lemma dijkstra_run :
  exists s ord, inv s ord /\ (forall i, i < length g -> In i ord) /\
    dijkstra Q g (Z.of_nat start) =
    Ok (map (fun nd => mkNode (n_value (fst nd)) (snd nd) (n_in (fst nd)) (n_out (fst nd))) (combine g (d_dist s)),
        (d_prev s, d_dist s)).
Proof.
  destruct (dijkstra_loop_spec (length g + 1 + in_degree_sum g) s_init []) as (s & ord & EQ & I & QE).
  { apply inv_init. }
  { unfold pending. cbn [s_init d_queue d_expl]. rewrite push_length, pending_init.
    destruct (init_queue (length g) 0) as (_ & _ & H3). rewrite H3. lia. }
  exists s, ord. split; [exact I|]. split.
  - intros i Hi. apply (i_expl _ _ I). pose proof (i_base _ _ I) as B.
    destruct (lt_some (d_expl s) i) as [b Eb]; [rewrite (b_lexpl _ B); auto|].
    destruct b; auto. destruct (lt_some (d_dist s) i) as [d Ed]; [rewrite (b_ldist _ B); auto|].
    pose proof (b_un _ B i d Eb Ed) as X. rewrite QE in X. destruct X.
  - unfold dijkstra, gsize. rewrite Nat2Z.id.
    destruct (Z.ltb_spec (Z.of_nat start) 0); [lia|].
    destruct (Z.leb_spec (Z.of_nat (length g)) (Z.of_nat start)); [lia|]. cbn [orb].
    change (mkD _ _ _ _ _) with s_init. rewrite EQ. cbn [obind].
    rewrite (b_work _ (i_base _ _ I)). reflexivity.
Qed.

(** Optimality: no walk is cheaper. *)
Lemma no_cheaper_walk s ord (WL : well_linked g) (WO : weights_ok g ok) :
  inv s ord -> (forall i, i < length g -> In i ord) ->
  forall v c, walk g (Z.of_nat start) v c -> ok c /\ forall d, D s (Z.to_nat v) = Some d -> cle d c.
Proof.
  intros I ALL v c W. pose proof (i_base _ _ I) as B. induction W as [|v n e c HN IE W [OC IH]].
  - split; [apply L|]. intros d. rewrite Nat2Z.id. rewrite (proj1 (i_start _ _ I)). intros [= <-].
    apply (cle_refl L). apply L.
  - destruct WL as (WL1 & WL2 & WL3). destruct (WL1 v n e HN IE) as (F & T & NE).
    assert (OW : ok (e_weight e)) by (eapply WO; [exact HN|left; exact IE]).
    split; [apply (cl_add _ _ L); auto|]. intros d Dv.
    destruct (get_node_total g _ T) as (m & _ & Nm).
    assert (HM : has_node g (e_to e) m) by (split; [apply T|exact Nm]).
    assert (IN : In e (n_in m)).
    { assert (In e (outs_to n (e_to e))) as X by (apply filter_In; split; auto; lia).
      rewrite (WL3 v (e_to e) n m HN HM) in X. apply filter_In in X. apply X. }
    destruct (lt_some (d_dist s) (Z.to_nat (e_to e))) as [dt Dt]; [rewrite (b_ldist _ B); unfold is_index in T; lia|].
    assert (cle dt c) by (apply IH; exact Dt).
    assert (cle d (cadd dt (e_weight e))).
    { apply (i_relax _ _ I (Z.to_nat (e_to e)) m e dt d); auto; [apply ALL; unfold is_index in T; lia|].
      rewrite F. exact Dv. }
    pose proof (b_ok _ B _ _ Dt). pose proof (b_ok _ B _ _ Dv).
    apply (cle_trans L d (cadd dt (e_weight e))); auto; try (apply (cl_add _ _ L); auto).
    apply (cle_add_mono L); auto.
Qed.

(** The back-pointers. *)
Lemma chain_of_suffix s ord (WL : well_linked g) : inv s ord -> (forall i, i < length g -> In i ord) ->
  forall m l1 k l2, length l2 <= m -> ord = l1 ++ k :: l2 -> forall d, D s k = Some d ->
  (k = start \/ cltb d cinf = true) ->
  exists st, st <= length l2 /\ chain g (d_prev s) (Z.of_nat start) (Z.of_nat k) st d.
Proof.
  intros I ALL. pose proof (i_base _ _ I) as B. destruct WL as (WL1 & WL2 & WL3).
  induction m as [m IH] using lt_wf_ind. intros l1 k l2 HL OR d Dk H.
  destruct (Nat.eq_dec k start) as [->|NS].
  - rewrite (proj1 (i_start _ _ I)) in Dk. injection Dk as <-. exists 0. split; [lia|constructor].
  - assert (KL : k < length g). { rewrite <- (b_ldist _ B). apply nth_error_Some. unfold D in Dk. congruence. }
    destruct (i_prev _ _ I k NS KL) as [[X _]|(p & np & e & dp & X1 & X2 & X3 & X4 & X5 & X6 & X7 & X8)].
    { rewrite X in Dk. injection Dk as <-. destruct H as [|H]; [contradiction|].
      rewrite (cl_inf_max _ _ L) in H; [discriminate|apply L]. }
    rewrite X7 in Dk. injection Dk as <-.
    pose proof (i_tree _ _ I l1 k l2 p OR NS X2) as PI. apply in_split in PI. destruct PI as (a & b & ->).
    destruct (GI p np e X3 X4) as [G OW]. pose proof (b_ok _ B p dp X6) as ODP.
    destruct (IH (length b)) with (l1 := l1 ++ k :: a) (k := p) (l2 := b) (d := dp) as (st & S1 & S2); auto.
    { rewrite app_length in HL. cbn in HL. lia. }
    { rewrite OR, <- app_assoc. reflexivity. }
    { right. apply (cle_lt_trans L dp (cadd dp (e_weight e))); auto; [apply (cl_add _ _ L); auto|apply L|apply (cle_add L); auto]. }
    exists (S st). split; [rewrite app_length; cbn; lia|].
    assert (HP : has_node g (Z.of_nat p) np) by (split; [lia|rewrite Nat2Z.id; auto]).
    destruct (WL2 _ np e HP X4) as (T & F & NE).
    destruct (lt_some g k KL) as [nk Nk].
    assert (HK : has_node g (Z.of_nat k) nk) by (split; [lia|rewrite Nat2Z.id; auto]).
    apply (chain_edge g _ _ _ nk e); auto.
    + lia.
    + assert (In e (ins_from np (Z.of_nat k))) as Y by (apply filter_In; split; auto; lia).
      rewrite <- (WL3 _ _ nk np HK HP) in Y. apply filter_In in Y. apply Y.
    + rewrite Nat2Z.id, T. exact X2.
    + rewrite T. exact S2.
Qed.
End D.

Section Result.
Context {V : Type} {C : cost} {ok : C -> Prop}.

Lemma chain_walk (g : graph V C) prev s v k c : chain g prev s v k c -> walk g s v c.
Proof. induction 1; [constructor|]. eapply walk_edge; eauto. Qed.

Lemma dijkstra_correct (L : cost_laws C ok) (Q : pqueue (Z * C)) (g : graph V C) (start : Z) :
  pq_sane Q -> pq_ordered Q entry_before (fun x => ok (snd x)) ->
  well_linked g -> weights_ok g ok -> is_index g start ->
  exists g' prev dist, dijkstra Q g start = Ok (g', (prev, dist)) /\
    length g' = length g /\ length prev = length g /\ length dist = length g /\
    (forall i n, nth_error g i = Some n -> exists d, nth_error dist i = Some d /\
       nth_error g' i = Some (mkNode (n_value n) d (n_in n) (n_out n))) /\
    (forall v d p, is_index g v -> nth_error dist (Z.to_nat v) = Some d -> nth_error prev (Z.to_nat v) = Some p ->
       (v = start -> d = czero /\ p = start) /\
       (d = cinf /\ p = (-1)%Z \/ exists k, k < length g /\ chain g prev start v k d) /\
       (cltb d cinf = true \/ d = cinf /\ p = (-1)%Z) /\
       (forall c, walk g start v c -> cltb c d = false)).
Proof.
  intros QS QO WL WO [S1 S2].
  assert (GI : forall i n e, nth_error g i = Some n -> In e (n_in n) -> is_index g (e_from e) /\ ok (e_weight e)).
  { intros i n e H IE. assert (HN : has_node g (Z.of_nat i) n) by (split; [lia|rewrite Nat2Z.id; auto]).
    split; [apply (proj1 (proj2 WL) _ _ _ HN IE)|]. eapply WO; [exact HN|right; exact IE]. }
  assert (HS : Z.to_nat start < length g) by lia.
  destruct (dijkstra_run L Q QS QO g GI (Z.to_nat start) HS) as (s & ord & I & ALL & EQ).
  rewrite Z2Nat.id in EQ by auto.
  pose proof (i_base _ _ _ _ _ I) as B.
  eexists _, _, _. split; [exact EQ|].
  assert (LD := b_ldist _ _ _ B). assert (LP := b_lprev _ _ _ B).
  split; [rewrite map_length, combine_length; lia|]. split; [auto|]. split; [auto|]. split.
  - intros i n Hn. assert (i < length g) by (apply nth_error_Some; congruence).
    destruct (lt_some (d_dist s) i) as [d Hd]; [lia|]. exists d. split; auto.
    rewrite nth_error_map.
    assert (X : nth_error (combine g (d_dist s)) i = Some (n, d)).
    { clear - Hn Hd. revert i Hn Hd. generalize (d_dist s) as l. induction g as [|a gg IH]; intros [|b l] [|i] H1 H2; cbn in *; try discriminate.
      - congruence. - apply IH; auto. }
    rewrite X. reflexivity.
  - intros v d p [V1 V2] Dv Pv.
    assert (VS : v = start <-> Z.to_nat v = Z.to_nat start) by lia.
    destruct (i_start _ _ _ _ _ I) as [ST1 ST2].
    assert (START : v = start -> d = czero /\ p = start).
    { intros ->. unfold D in ST1. unfold P in ST2. rewrite Dv in ST1. rewrite Pv in ST2. split; [congruence|].
      injection ST2 as ->. lia. }
    assert (CH : v = start \/ cltb d cinf = true -> exists k, k < length g /\ chain g (d_prev s) start v k d).
    { intros H. pose proof (ALL (Z.to_nat v) ltac:(lia)) as IN. apply in_split in IN. destruct IN as (l1 & l2 & OR).
      destruct (chain_of_suffix L Q g GI (Z.to_nat start) HS s ord WL I ALL (length l2) l1 (Z.to_nat v) l2 (le_n _) OR d Dv) as (k & K1 & K2).
      { destruct H; [left; apply VS; auto|right; auto]. }
      exists k. rewrite !Z2Nat.id in K2 by auto. split; auto.
      assert (NI : incl ord (seq 0 (length g))).
      { intros x Hx. apply in_seq. apply (i_expl _ _ _ _ _ I) in Hx.
        assert (x < length (d_expl s)) by (apply nth_error_Some; unfold E in Hx; congruence).
        rewrite (b_lexpl _ _ _ B) in H0. lia. }
      pose proof (NoDup_incl_length (i_nodup _ _ _ _ _ I) NI) as Z. rewrite seq_length, OR, app_length in Z. cbn in Z. lia. }
    assert (FIN : v = start \/ cltb d cinf = true \/ d = cinf /\ p = (-1)%Z).
    { destruct (Z.eq_dec v start) as [|NS]; auto. right.
      destruct (i_prev _ _ _ _ _ I (Z.to_nat v)) as [[X1 X2]|(q & np & e & dp & _ & _ & _ & _ & _ & _ & X7 & X8)]; [lia|lia| |].
      - right. unfold D in X1. unfold P in X2. split; congruence.
      - left. unfold D in X7. congruence. }
    split; [exact START|]. split; [|split].
    + destruct FIN as [F|[F|F]]; auto.
    + destruct FIN as [F|[F|F]]; auto. left. destruct (START F) as [-> _]. apply L.
    + intros c W. destruct (no_cheaper_walk L Q g GI (Z.to_nat start) HS s ord WL WO I ALL v c) as [OC X].
      { rewrite Z2Nat.id; auto. }
      apply (X d Dv).
Qed.
End Result.
