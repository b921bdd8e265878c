(** Proofs about the A* searches. *)
From Verif Require Import Base Cost GraphModel GraphSpec GraphProofs AstarModel AstarSpec.
From Coq Require Import Permutation.

(** ** Maps *)
Section MapLemmas.
Context {T : Type}.
Implicit Types m : list (Z * T).
Lemma m_find_erase k k' m : m_find k (m_erase k' m) = if (k =? k')%Z then None else m_find k m.
Proof.
  induction m as [|[a v] m IH]; cbn [m_erase filter m_find fst].
  - destruct (k =? k')%Z; auto.
  - fold (m_erase k' m). destruct (Z.eqb_spec a k') as [->|N]; cbn [negb].
    + rewrite IH. rewrite (Z.eqb_sym k' k). destruct (k =? k')%Z; auto.
    + cbn [m_find]. rewrite IH. destruct (Z.eqb_spec a k) as [->|]; auto.
      destruct (Z.eqb_spec k k'); [contradiction|auto].
Qed.
Lemma m_find_set k k' v m : m_find k (m_set k' v m) = if (k =? k')%Z then Some v else m_find k m.
Proof.
  unfold m_set. cbn [m_find]. rewrite Z.eqb_sym. destruct (k =? k')%Z eqn:E; auto.
  rewrite m_find_erase, E. auto.
Qed.
Lemma m_find_key k m v : m_find k m = Some v -> In k (map fst m).
Proof.
  induction m as [|[a x] m IH]; cbn; [discriminate|]. destruct (Z.eqb_spec a k); auto.
Qed.
Lemma m_set_nodup k v m : NoDup (map fst m) -> NoDup (map fst (m_set k v m)).
Proof.
  intros H. cbn. constructor.
  - intros X. apply in_map_iff in X. destruct X as ([a y] & <- & X). apply filter_In in X. cbn in X. lia.
  - unfold m_erase. induction m as [|[a x] m IH]; cbn; [constructor|]. inversion H as [|? ? N D]; subst.
    destruct (negb (a =? k)%Z); cbn; [constructor|]; auto.
    intros X. apply N. apply in_map_iff in X. destruct X as (y & <- & X). apply filter_In in X. apply in_map. apply X.
Qed.
End MapLemmas.

Section Search.
Context {C : cost} {ok : C -> Prop}.
Variable L : cost_laws C ok.
Variable Q : pqueue (elem C).
Hypothesis QS : pq_sane Q.
Variable children : Z -> outcome (list (Z * C)).
Variable h : Z -> outcome C.
Variable NS : list Z.
Variables start goal : Z.
Hypothesis SN : In start NS.
Hypothesis SG : start <> goal.
Hypothesis closed : forall u, In u NS -> exists cs, children u = Ok cs /\ forall x w, In (x, w) cs -> In x NS /\ ok w.
Hypothesis htot : forall u, In u NS -> exists hv, h u = Ok hv.

Definition step (u x : Z) (w : C) : Prop := In u NS /\ exists cs, children u = Ok cs /\ In (x, w) cs.

Lemma step_ok u x w : step u x w -> In u NS /\ In x NS /\ ok w.
Proof.
  intros (U & cs & E & I). destruct (closed u U) as (cs' & E' & H). rewrite E in E'. injection E' as <-.
  split; auto.
Qed.

Lemma push_in (x : elem C) q y : In y (pq_push Q x q) <-> y = x \/ In y q.
Proof.
  pose proof (pq_push_perm _ QS x q) as PP. split.
  - intros H. apply (Permutation_in _ PP) in H. destruct H; auto.
  - intros H. apply (Permutation_in _ (Permutation_sym PP)). destruct H; [left|right]; auto.
Qed.
Lemma push_length (x : elem C) q : length (pq_push Q x q) = S (length q).
Proof. rewrite (Permutation_length (pq_push_perm _ QS x q)). reflexivity. Qed.

Implicit Types ex : explored_map C.

(** Histories of queue entries. *)
Inductive hist : Z -> C -> list (Z * C) -> Prop :=
| hist_start : hist start czero []
| hist_step p cp l v w : hist p cp l -> step p v w -> hist v (cadd cp w) ((p, cp) :: l).

Lemma hist_ok v c l : hist v c l -> In v NS /\ ok c /\ (forall u cu, In (u, cu) l -> In u NS /\ ok cu /\ cle cu c).
Proof.
  induction 1 as [|p cp l v w H (P & OC & IH) ST].
  - split; auto. split; [apply L|]. intros u cu [].
  - destruct (step_ok _ _ _ ST) as (_ & V & OW). split; auto. split; [apply (cl_add _ _ L); auto|].
    assert (X : cle cp (cadd cp w)) by (apply (cle_add L); auto).
    intros u cu [[= <- <-]|I]; [auto|]. destruct (IH u cu I) as (A & B & D). split; auto. split; auto.
    apply (cle_trans L cu cp); auto. apply (cl_add _ _ L); auto.
Qed.

Lemma hist_inv_nil v c : hist v c [] -> v = start /\ c = czero.
Proof. inversion 1; auto. Qed.
Lemma hist_inv_cons v c p cp l : hist v c ((p, cp) :: l) -> exists w, hist p cp l /\ step p v w /\ c = cadd cp w.
Proof. inversion 1; subst. eauto. Qed.

(** [u] is explored at cost at most [c]. *)
Definition ex_le ex u c : Prop := exists p cu, m_find u ex = Some (p, cu) /\ cle cu c.

Definition entry_ok ex (e : elem C) : Prop :=
  exists l, hist (q_id e) (q_cost e) l /\
    (l = [] /\ q_back e = (-1)%Z \/ exists cp l', l = (q_back e, cp) :: l') /\
    NoDup (map fst l) /\ (forall u cu, In (u, cu) l -> ex_le ex u cu) /\
    exists hv, h (q_id e) = Ok hv /\ (q_value e = cadd (q_cost e) hv \/ q_cost e = czero /\ q_value e = hv).

(** Following the back-pointers from [v] to the start: nodes, last first. *)
Inductive bchain ex : Z -> list Z -> Prop :=
| bc_start : m_find start ex = Some ((-1)%Z, czero) -> bchain ex start [start]
| bc_step v p c path : v <> start -> m_find v ex = Some (p, c) -> bchain ex p path -> bchain ex v (v :: path).

Record J ex (q : list (elem C)) : Prop := {
  j_inv : pq_inv Q q;
  j_nodup : NoDup (map fst ex);
  j_ex : forall v p c, m_find v ex = Some (p, c) -> In v NS /\ ok c /\
         (v = start /\ p = (-1)%Z /\ c = czero \/
          v <> start /\ exists pp cp w, m_find p ex = Some (pp, cp) /\ step p v w /\ cle (cadd cp w) c);
  j_goal : m_find goal ex = None;
  j_chain : forall v pc, m_find v ex = Some pc -> exists path, bchain ex v path;
  j_q : forall e, In e q -> entry_ok ex e;
  j_succ : forall v p c u w, m_find v ex = Some (p, c) -> step v u w ->
           ex_le ex u (cadd c w) \/ exists e, In e q /\ q_id e = u /\ cle (q_cost e) (cadd c w);
  j_start : ex_le ex start czero \/ exists e, In e q /\ q_id e = start /\ cle (q_cost e) czero
}.

Lemma explored_better_iff ex v c : (forall p cv, m_find v ex = Some (p, cv) -> ok cv) -> ok c ->
  explored_better ex v c = true <-> ex_le ex v c.
Proof.
  intros O OC. unfold explored_better, ex_le. destruct (m_find v ex) as [[p cv]|] eqn:F.
  - pose proof (O p cv eq_refl) as OV. rewrite (cl_geb _ _ L) by auto. unfold cle. split.
    + intros H. exists p, cv. destruct (cltb c cv); [discriminate|auto].
    + intros (p' & cu & [= <- <-] & H). rewrite H. auto.
  - split; [discriminate|]. intros (p & cu & X & _). discriminate.
Qed.

(** Along the back-pointers costs do not increase. *)
Lemma bchain_cost ex q v path : J ex q -> bchain ex v path ->
  forall u pu cu p c, In u path -> m_find u ex = Some (pu, cu) -> m_find v ex = Some (p, c) -> cle cu c.
Proof.
  intros HJ. induction 1 as [S1|v p c path NE F B IH]; intros u pu cu p' c' I FU FV.
  - destruct I as [<-|[]]. rewrite FU in FV. injection FV as <- <-. apply (cle_refl L). apply (j_ex _ _ HJ _ _ _ FU).
  - rewrite F in FV. injection FV as <- <-. destruct (j_ex _ _ HJ _ _ _ F) as (V & OC & [(X & _)|(_ & pp & cp & w & FP & ST & LE)]); [contradiction|].
    destruct I as [<-|I].
    + rewrite FU in F. injection F as -> ->. apply (cle_refl L); auto.
    + destruct (step_ok _ _ _ ST) as (_ & _ & OW). destruct (j_ex _ _ HJ _ _ _ FP) as (_ & OP & _).
      destruct (j_ex _ _ HJ _ _ _ FU) as (_ & OU & _).
      pose proof (IH u pu cu pp cp I FU FP) as X.
      apply (cle_trans L cu cp); auto. apply (cle_trans L cp (cadd cp w)); auto; try (apply (cl_add _ _ L); auto).
      apply (cle_add L); auto.
Qed.

Lemma bchain_keys ex v path : bchain ex v path -> forall u, In u path -> exists pc, m_find u ex = Some pc.
Proof.
  induction 1; intros u [<-|I]; eauto. destruct I.
Qed.

Lemma bchain_fun ex v p1 : bchain ex v p1 -> forall p2, bchain ex v p2 -> p1 = p2.
Proof.
  induction 1 as [S1|v p c path NE F B IH]; intros p2 B2; inversion B2 as [S2|? p' c' path' NE' F' B']; subst; auto; try contradiction.
  rewrite F in F'. injection F' as <- <-. f_equal. apply IH. auto.
Qed.

Lemma bchain_suffix ex v path : bchain ex v path -> forall u, In u path -> exists l, bchain ex u l /\ length l <= length path.
Proof.
  induction 1 as [S1|v p c path NE F B IH]; intros u [<-|I].
  - exists [start]. split; [constructor; auto|auto].
  - destruct I.
  - exists (v :: path). split; [econstructor; eauto|auto].
  - destruct (IH u I) as (l & A & D). exists l. split; auto. cbn. lia.
Qed.

Lemma bchain_nodup ex v path : bchain ex v path -> NoDup path.
Proof.
  induction 1 as [S1|v p c path NE F B IH].
  - constructor; [intros []|constructor].
  - constructor; auto. intros I. destruct (bchain_suffix _ _ _ B v I) as (l & B' & LE).
    assert (v :: path = l) as <- by (apply (bchain_fun ex v); auto; econstructor; eauto). cbn in LE. lia.
Qed.

(** Exploring [v] keeps chains. *)
Lemma bchain_avoid ex v path x : bchain ex v path -> forall k, ~ In k path -> bchain (m_set k x ex) v path.
Proof.
  induction 1 as [S1|v p c path NE F B IH]; intros k N; cbn in N.
  - constructor. rewrite m_find_set. destruct (Z.eqb_spec start k); auto. elim N. auto.
  - apply bc_step with (p := p) (c := c); auto. rewrite m_find_set. destruct (Z.eqb_spec v k); auto. elim N. auto.
Qed.

Lemma bchain_after ex u path x k pathk : bchain ex u path -> bchain (m_set k x ex) k pathk ->
  exists path', bchain (m_set k x ex) u path'.
Proof.
  intros B Bk. induction B as [S1|v p c path NE F B (path' & IH)].
  - destruct (Z.eq_dec start k) as [->|N]; [eauto|]. exists [start]. constructor. rewrite m_find_set.
    destruct (Z.eqb_spec start k); [contradiction|auto].
  - destruct (Z.eq_dec v k) as [->|N]; [eauto|]. exists (v :: path'). apply bc_step with (p := p) (c := c); auto.
    rewrite m_find_set. destruct (Z.eqb_spec v k); [contradiction|auto].
Qed.

(** ** One expansion *)
Lemma ex_le_mono ex k p c u cu : ok cu -> ok c -> (forall pp cc, m_find k ex = Some (pp, cc) -> ok cc /\ cle c cc) ->
  ex_le ex u cu -> ex_le (m_set k (p, c) ex) u cu.
Proof.
  intros O1 O2 H (p' & c' & F & LE). unfold ex_le. rewrite m_find_set. destruct (Z.eqb_spec u k) as [->|]; eauto.
  destruct (H _ _ F) as [O3 X]. exists p, c. split; auto. apply (cle_trans L c c'); auto.
Qed.

Lemma push_children_spec ex nid nc : forall cs q,
  pq_inv Q q -> (forall v p c, m_find v ex = Some (p, c) -> ok c) -> ok nc ->
  (forall x w, In (x, w) cs -> In x NS /\ ok w) ->
  exists q', push_children Q false h ex [] nid nc cs q = Ok q' /\ pq_inv Q q' /\
    length q' <= length q + length cs /\
    (forall e, In e q -> In e q') /\
    (forall e, In e q' -> In e q \/ exists w hv, In (q_id e, w) cs /\ q_back e = nid /\ q_cost e = cadd nc w /\
                                     h (q_id e) = Ok hv /\ q_value e = cadd (cadd nc w) hv) /\
    (forall x w, In (x, w) cs -> ex_le ex x (cadd nc w) \/ exists e, In e q' /\ q_id e = x /\ q_cost e = cadd nc w).
Proof.
  induction cs as [|[x w] cs IH]; intros q HI OE ON HC; cbn [push_children].
  - exists q. repeat split; auto. + cbn; lia. + intros x w [].
  - destruct (HC x w (or_introl eq_refl)) as [XN OW].
    assert (OCW : ok (cadd nc w)) by (apply (cl_add _ _ L); auto).
    destruct (explored_better ex x (cadd nc w)) eqn:EB.
    + apply explored_better_iff in EB; auto; [|intros; eapply OE; eauto].
      destruct (IH q HI OE ON) as (q' & E & A & B & D & F & G). { intros; apply HC; right; auto. }
      exists q'. split; auto. split; auto. split; [cbn; lia|]. split; auto. split.
      * intros e I. destruct (F e I) as [|(w0 & hv & X1 & X2)]; auto. right. exists w0, hv. split; [right; auto|auto].
      * intros x0 w0 [[= <- <-]|I]; auto.
    + cbn [member_better]. destruct (htot x XN) as [hv Hv]. rewrite Hv. cbn [obind].
      set (e0 := mkElem x nid (cadd nc w) (cadd (cadd nc w) hv)).
      destruct (IH (pq_push Q e0 q)) as (q' & E & A & B & D & F & G); auto.
      { apply (pq_push_inv _ QS). auto. } { intros; apply HC; right; auto. }
      rewrite push_length in B.
      exists q'. split; auto. split; auto. split; [cbn; lia|]. split; [|split].
      * intros e I. apply D. apply push_in. auto.
      * intros e I. destruct (F e I) as [I0|(w0 & hv0 & X1 & X2)].
        -- apply push_in in I0. destruct I0 as [->|I0]; auto. right. exists w, hv. repeat split; auto. left. auto.
        -- right. exists w0, hv0. split; [right; auto|auto].
      * intros x0 w0 [[= <- <-]|I]; auto. right. exists e0. split; auto. apply D. apply push_in. auto.
Qed.

Lemma expand_J ex q n q' cs qq :
  J ex q -> pq_pop Q q = Some (n, q') -> Permutation q (n :: q') -> pq_inv Q q' ->
  q_id n <> goal -> explored_better ex (q_id n) (q_cost n) = false ->
  children (q_id n) = Ok cs ->
  push_children Q false h (m_set (q_id n) (q_back n, q_cost n) ex) [] (q_id n) (q_cost n) cs q' = Ok qq ->
  J (m_set (q_id n) (q_back n, q_cost n) ex) qq /\ length qq <= length q' + length cs.
Proof.
  intros HJ PO PM PI NG EB CH PC.
  assert (IN : In n q) by (apply (Permutation_in _ (Permutation_sym PM)); left; auto).
  assert (SUB : forall e, In e q' -> In e q) by (intros e I; apply (Permutation_in _ (Permutation_sym PM)); right; auto).
  destruct (j_q _ _ HJ n IN) as (l & HH & BK & ND & EL & hv & HV & VAL).
  destruct (hist_ok _ _ _ HH) as (VN & OC & HL).
  set (v := q_id n) in *. set (c := q_cost n) in *. set (p := q_back n) in *.
  set (ex1 := m_set v (p, c) ex) in *.
  assert (EOK : forall u pu cu, m_find u ex = Some (pu, cu) -> ok cu) by (intros u pu cu F; apply (j_ex _ _ HJ _ _ _ F)).
  assert (NLE : ~ ex_le ex v c).
  { intros X. apply explored_better_iff in X; auto; [congruence|]. intros; eapply EOK; eauto. }
  assert (DEC : forall pp cc, m_find v ex = Some (pp, cc) -> ok cc /\ cltb c cc = true).
  { intros pp cc F. split; [eapply EOK; eauto|]. destruct (cltb c cc) eqn:X; auto. elim NLE. exists pp, cc. auto. }
  assert (DEC' : forall pp cc, m_find v ex = Some (pp, cc) -> ok cc /\ cle c cc).
  { intros pp cc F. destruct (DEC _ _ F). split; auto. apply (clt_le L); auto. }
  assert (F1 : forall u, m_find u ex1 = if (u =? v)%Z then Some (p, c) else m_find u ex) by (intros; apply m_find_set).
  assert (EOK1 : forall u pu cu, m_find u ex1 = Some (pu, cu) -> ok cu).
  { intros u pu cu. rewrite F1. destruct (u =? v)%Z; [intros [= <- <-]; auto|apply EOK]. }
  destruct (closed v VN) as (cs' & CH' & HCS). rewrite CH in CH'. injection CH' as <-.
  destruct (push_children_spec ex1 v c cs q' PI EOK1 OC HCS) as (qq' & E & A & B & D & F & G).
  rewrite PC in E. injection E as <-. split; [|exact B].
  (* v is not on its own history *)
  assert (VL : ~ In v (map fst l)).
  { intros X. apply in_map_iff in X. destruct X as ([u cu] & Eu & I). cbn in Eu. subst u.
    destruct (EL v cu I) as (pp & cc & FV & LE). destruct (HL v cu I) as (_ & OU & LE2).
    apply NLE. exists pp, cc. split; auto. apply (cle_trans L cc cu); auto. eapply EOK; eauto. }
  (* parent of v *)
  assert (PAR : v = start /\ p = (-1)%Z /\ c = czero \/
          v <> start /\ exists pp cp w, m_find p ex1 = Some (pp, cp) /\ step p v w /\ cle (cadd cp w) c /\
             exists path, bchain ex p path /\ ~ In v path).
  { destruct BK as [[-> BK]|(cp0 & l' & ->)].
    - left. destruct (hist_inv_nil _ _ HH). auto.
    - right. destruct (hist_inv_cons _ _ _ _ _ HH) as (w & HP & ST & EC).
      destruct (EL p cp0 (or_introl eq_refl)) as (pp & cp & FP & LE).
      destruct (hist_ok _ _ _ HP) as (_ & OCP0 & _). destruct (step_ok _ _ _ ST) as (_ & _ & OW).
      pose proof (EOK _ _ _ FP) as OCP.
      assert (PV : p <> v). { intros X. apply VL. left. exact X. }
      assert (LEc : cle (cadd cp w) c) by (rewrite EC; apply (cle_add_mono L); auto).
      assert (LEp : cle cp c).
      { apply (cle_trans L cp (cadd cp w)); auto; [apply (cl_add _ _ L); auto|apply (cle_add L); auto]. }
      split.
      { (* the start is never improved *)
        intros VS. apply NLE. exists (-1)%Z, czero.
        (* start explored: the chain of p ends there *)
        destruct (j_chain _ _ HJ _ _ FP) as [path BC].
        assert (m_find start ex = Some ((-1)%Z, czero)) as FS by (clear - BC; induction BC; auto).
        rewrite VS. split; auto. apply (cl_zero_min _ _ L). auto. }
      exists pp, cp, w. rewrite F1. destruct (Z.eqb_spec p v); [contradiction|].
      split; [exact FP|]. split; [exact ST|]. split; [exact LEc|].
      destruct (j_chain _ _ HJ _ _ FP) as [path BC]. exists path. split; auto. intros I.
      destruct (bchain_keys _ _ _ BC v I) as ([pv cv] & FV).
      pose proof (bchain_cost _ _ _ _ HJ BC v pv cv pp cp I FV FP) as X.
      apply NLE. exists pv, cv. split; auto. apply (cle_trans L cv cp); auto. eapply EOK; eauto. }
  assert (BV : exists path, bchain ex1 v path).
  { destruct PAR as [(-> & -> & ->)|(NE & pp & cp & w & FP & ST & LE & path & BC & NI)].
    - exists [start]. constructor. rewrite F1, Z.eqb_refl. auto.
    - exists (v :: path). apply bc_step with (p := p) (c := c); auto; [rewrite F1, Z.eqb_refl; auto|].
      apply bchain_avoid; auto. }
  split.
  - exact A.
  - apply m_set_nodup. apply HJ.
  - intros u pu cu. rewrite F1. destruct (Z.eqb_spec u v) as [->|NE].
    + intros [= <- <-]. split; auto. split; auto.
      destruct PAR as [X|(NE & pp & cp & w & FP & ST & LE & _)]; [left; auto|right]. split; auto. exists pp, cp, w. auto.
    + intros FU. destruct (j_ex _ _ HJ _ _ _ FU) as (X1 & X2 & X3). split; auto. split; auto.
      destruct X3 as [X3|(NS' & pp & cp & w & FP & ST & LE)]; [left; auto|right]. split; auto.
      rewrite F1. destruct (Z.eqb_spec pu v) as [->|]; [|eauto 8].
      exists p, c, w. split; auto. split; auto. destruct (DEC' _ _ FP) as [OCP LEC].
      destruct (step_ok _ _ _ ST) as (_ & _ & OW).
      apply (cle_trans L (cadd c w) (cadd cp w)); auto; try (apply (cl_add _ _ L); auto). apply (cle_add_mono L); auto.
  - rewrite F1. destruct (Z.eqb_spec goal v); [congruence|]. apply HJ.
  - intros u pc FU. rewrite F1 in FU. destruct (Z.eqb_spec u v) as [->|NE]; auto.
    destruct (j_chain _ _ HJ _ _ FU) as [path BC]. destruct BV as [pathv BV]. eapply bchain_after; eauto.
  - intros e I. destruct (F e I) as [I0|(w & hv0 & X1 & X2 & X3 & X4 & X5)].
    + destruct (j_q _ _ HJ e (SUB e I0)) as (l0 & Y1 & Y2 & Y3 & Y4 & Y5). exists l0. repeat split; auto.
      intros u cu IU. destruct (hist_ok _ _ _ Y1) as (_ & _ & Y6). apply (ex_le_mono ex v p c u cu); auto. apply (Y6 u cu IU).
    + exists ((v, c) :: l). split; [rewrite X3; apply hist_step; auto; split; auto; exists cs; auto|].
      split; [right; rewrite X2; eauto|]. split; [cbn; constructor; auto|]. split.
      * intros u cu [[= <- <-]|IU].
        -- exists p, c. rewrite F1, Z.eqb_refl. split; auto. apply (cle_refl L); auto.
        -- apply (ex_le_mono ex v p c u cu); auto. apply (HL u cu IU).
      * exists hv0. split; auto. left. rewrite X3. auto.
  - intros u pu cu x w FU ST. rewrite F1 in FU. destruct (Z.eqb_spec u v) as [->|NE].
    + injection FU as <- <-. destruct ST as (_ & cs0 & CE & IX). rewrite CH in CE. injection CE as <-.
      destruct (G x w IX) as [|(e & I & X1 & X2)]; auto. right. exists e. repeat split; auto. rewrite X2.
      apply (cle_refl L). apply (cl_add _ _ L); auto. apply (HCS x w IX).
    + destruct (step_ok _ _ _ ST) as (_ & _ & OW). pose proof (EOK _ _ _ FU) as OU.
      assert (ok (cadd cu w)) by (apply (cl_add _ _ L); auto).
      destruct (j_succ _ _ HJ _ _ _ _ _ FU ST) as [X|(e & I & X1 & X2)].
      * left. apply (ex_le_mono ex v p c); auto.
      * apply (Permutation_in _ PM) in I. destruct I as [<-|I].
        -- left. exists p, c. rewrite F1. fold v in X1. rewrite <- X1, Z.eqb_refl. split; auto.
        -- right. exists e. split; auto.
  - destruct (j_start _ _ HJ) as [X|(e & I & X1 & X2)].
    + left. apply (ex_le_mono ex v p c); auto. apply L.
    + apply (Permutation_in _ PM) in I. destruct I as [<-|I].
      * left. exists p, c. rewrite F1. fold v in X1. rewrite <- X1, Z.eqb_refl. split; auto.
      * right. exists e. split; auto.
Qed.

Lemma skip_J ex q n q' :
  J ex q -> Permutation q (n :: q') -> pq_inv Q q' ->
  explored_better ex (q_id n) (q_cost n) = true -> J ex q'.
Proof.
  intros HJ PM PI EB.
  assert (IN : In n q) by (apply (Permutation_in _ (Permutation_sym PM)); left; auto).
  destruct (j_q _ _ HJ n IN) as (l & HH & _). destruct (hist_ok _ _ _ HH) as (_ & OC & _).
  assert (EOK : forall u pu cu, m_find u ex = Some (pu, cu) -> ok cu) by (intros u pu cu F; apply (j_ex _ _ HJ _ _ _ F)).
  apply explored_better_iff in EB; auto; [|intros; eapply EOK; eauto].
  destruct EB as (pe & ce & FE & LE).
  assert (LIFT : forall u c, ok c -> ex_le ex u c \/ (exists e, In e q /\ q_id e = u /\ cle (q_cost e) c) ->
                 ex_le ex u c \/ (exists e, In e q' /\ q_id e = u /\ cle (q_cost e) c)).
  { intros u c O [X|(e & I & X1 & X2)]; auto. apply (Permutation_in _ PM) in I. destruct I as [<-|I].
    - left. rewrite <- X1. exists pe, ce. split; auto. apply (cle_trans L ce (q_cost n)); auto. eapply EOK; eauto.
    - right. eauto. }
  split; try apply HJ; auto.
  - intros e I. apply (j_q _ _ HJ). apply (Permutation_in _ (Permutation_sym PM)). right. auto.
  - intros v p c u w F ST. apply LIFT; [|eapply (j_succ _ _ HJ); eauto].
    apply (cl_add _ _ L); [eapply EOK; eauto|apply (step_ok _ _ _ ST)].
  - apply LIFT; [apply L|apply HJ].
Qed.

(** ** Termination *)
Fixpoint level (k : nat) : list (Z * C) :=
  match k with
  | O => [(start, czero)]
  | S k' => flat_map (fun vc => match children (fst vc) with
                                | Ok cs => map (fun xw => (fst xw, cadd (snd vc) (snd xw))) cs
                                | _ => [] end) (level k')
  end.
Definition cands : list (Z * C) := flat_map level (seq 0 (length NS)).

Lemma hist_level v c l : hist v c l -> In (v, c) (level (length l)).
Proof.
  induction 1 as [|p cp l v w H IH (PN & cs & CE & I)]; [left; auto|].
  cbn [length level]. apply in_flat_map. exists (p, cp). split; auto. cbn [fst snd]. rewrite CE.
  apply in_map_iff. exists (v, w). auto.
Qed.

Lemma hist_cands v c l : hist v c l -> NoDup (map fst l) -> ~ In v (map fst l) -> In (v, c) cands.
Proof.
  intros H ND NI. apply in_flat_map. exists (length l). split; [|apply hist_level; auto].
  apply in_seq. split; [lia|]. destruct (hist_ok _ _ _ H) as (V & _ & HL).
  assert (NoDup (v :: map fst l)) by (constructor; auto).
  assert (incl (v :: map fst l) NS).
  { intros x [<-|X]; auto. apply in_map_iff in X. destruct X as ([u cu] & <- & I). apply (HL u cu I). }
  pose proof (NoDup_incl_length H0 H1) as X. cbn in X. rewrite map_length in X. lia.
Qed.

Definition mu ex : nat := length (filter (fun vc => negb (explored_better ex (fst vc) (snd vc))) cands).
Definition maxdeg : nat := list_sum (map (fun u => match children u with Ok cs => length cs | _ => 0 end) NS).

Lemma maxdeg_le u cs : In u NS -> children u = Ok cs -> length cs <= maxdeg.
Proof.
  unfold maxdeg. intros I E. clear - I E. induction NS as [|a l IH]; [destruct I|]. cbn [map list_sum fold_right]. destruct I as [->|I].
  - rewrite E. lia.
  - pose proof (IH I). unfold list_sum in H. lia.
Qed.

Lemma filter_length_le {A} (f g : A -> bool) l : (forall x, In x l -> g x = true -> f x = true) ->
  length (filter g l) <= length (filter f l).
Proof.
  induction l as [|a l IH]; intros H; cbn; auto. pose proof (IH (fun x I => H x (or_intror I))).
  pose proof (H a (or_introl eq_refl)). destruct (g a); [rewrite H1 by auto; cbn; lia|destruct (f a); cbn; lia].
Qed.
Lemma filter_length_lt {A} (f g : A -> bool) l x : (forall x, In x l -> g x = true -> f x = true) ->
  In x l -> f x = true -> g x = false -> length (filter g l) < length (filter f l).
Proof.
  induction l as [|a l IH]; intros H I F G; [destruct I|]. cbn.
  pose proof (H a (or_introl eq_refl)). assert (H' : forall x, In x l -> g x = true -> f x = true) by (intros; apply H; auto; right; auto).
  pose proof (filter_length_le f g l H').
  destruct I as [->|I].
  - rewrite F, G. cbn. lia.
  - pose proof (IH H' I F G). destruct (g a); [rewrite H0 by auto; cbn; lia|destruct (f a); cbn; lia].
Qed.

Lemma cands_ok v c : In (v, c) cands -> ok c.
Proof.
  intros I. apply in_flat_map in I. destruct I as (k & _ & I). revert v c I.
  assert (X : forall k v c, In (v, c) (level k) -> In v NS /\ ok c).
  { induction k0 as [|k0 IH]; intros v c I; cbn [level] in I.
    - destruct I as [[= <- <-]|[]]. split; auto. apply L.
    - apply in_flat_map in I. destruct I as ([u cu] & I & X). destruct (IH u cu I) as [UN OU]. cbn [fst snd] in X.
      destruct (closed u UN) as (cs & CE & HC). rewrite CE in X. apply in_map_iff in X. destruct X as ([x w] & [= <- <-] & X).
      destruct (HC x w X). split; auto. apply (cl_add _ _ L); auto. }
  intros v c I. apply (X k v c I).
Qed.

Lemma mu_expand ex q n : J ex q -> In n q -> explored_better ex (q_id n) (q_cost n) = false ->
  mu (m_set (q_id n) (q_back n, q_cost n) ex) < mu ex.
Proof.
  intros HJ IN EB. destruct (j_q _ _ HJ n IN) as (l & HH & _ & ND & EL & _).
  destruct (hist_ok _ _ _ HH) as (VN & OC & HL).
  assert (EOK : forall u pu cu, m_find u ex = Some (pu, cu) -> ok cu) by (intros u pu cu F; apply (j_ex _ _ HJ _ _ _ F)).
  assert (NLE : ~ ex_le ex (q_id n) (q_cost n)).
  { intros X. apply explored_better_iff in X; auto; [congruence|]. intros; eapply EOK; eauto. }
  assert (VL : ~ In (q_id n) (map fst l)).
  { intros X. apply in_map_iff in X. destruct X as ([u cu] & Eu & I). cbn in Eu. subst u.
    destruct (EL _ cu I) as (pp & cc & FV & LE). destruct (HL _ cu I) as (_ & OU & LE2).
    apply NLE. exists pp, cc. split; auto. apply (cle_trans L cc cu); auto. eapply EOK; eauto. }
  unfold mu. apply (filter_length_lt _ _ _ (q_id n, q_cost n)).
  - intros [u cu] I. cbn [fst snd]. pose proof (cands_ok u cu I) as OU.
    destruct (explored_better ex u cu) eqn:X; auto. intros Y. exfalso.
    apply explored_better_iff in X; auto; [|intros; eapply EOK; eauto].
    assert (ex_le (m_set (q_id n) (q_back n, q_cost n) ex) u cu) as Z.
    { apply (ex_le_mono ex); auto. intros pp cc F. split; [eapply EOK; eauto|].
      destruct (cltb (q_cost n) cc) eqn:X2; [apply (clt_le L); auto; eapply EOK; eauto|].
      elim NLE. exists pp, cc. auto. }
    apply explored_better_iff in Z; auto; [rewrite Z in Y; discriminate|].
    intros p cv. rewrite m_find_set. destruct (u =? q_id n)%Z; [intros [= <- <-]; auto|intros; eapply EOK; eauto].
  - eapply hist_cands; eauto.
  - cbn [fst snd]. rewrite EB. auto.
  - cbn [fst snd]. unfold explored_better. rewrite m_find_set, Z.eqb_refl, (cl_geb _ _ L), (cl_irrefl _ _ L) by auto. auto.
Qed.

(** What the search loop ends with. *)
Definition final (r : explored_map C) : Prop :=
  exists ex q, J ex q /\
    (q = [] /\ r = ex \/
     exists n q', pq_pop Q q = Some (n, q') /\ In n q /\ q_id n = goal /\ r = m_set (q_id n) (q_back n, q_cost n) ex).

Lemma lazy_loop_spec : forall fuel ex q,
  J ex q -> mu ex * S maxdeg + length q <= fuel ->
  exists r, lazy_loop Q fuel false children h goal ex [] q = Ok r /\ final r.
Proof.
  induction fuel as [|fuel IH]; intros ex q HJ HF.
  - destruct q; [|cbn in HF; lia]. exists ex. split; [cbn [lazy_loop]; rewrite (pq_pop_nil _ QS); auto|].
    exists ex, []. auto.
  - destruct q as [|x q0]. { exists ex. split; [cbn [lazy_loop]; rewrite (pq_pop_nil _ QS); auto|]. exists ex, []. auto. }
    set (q := x :: q0) in *.
    destruct (pq_pop_some _ QS q (j_inv _ _ HJ)) as (n & q' & PO & PM & PI); [discriminate|].
    assert (IN : In n q) by (apply (Permutation_in _ (Permutation_sym PM)); left; auto).
    assert (LQ : length q = S (length q')) by (rewrite (Permutation_length PM); reflexivity).
    cbn [lazy_loop]. rewrite PO. destruct (Z.eqb_spec (q_id n) goal) as [EG|NG].
    + eexists. split; [reflexivity|]. exists ex, q. split; auto. right. exists n, q'. auto.
    + destruct (explored_better ex (q_id n) (q_cost n)) eqn:EB.
      * apply (IH ex q'); [eapply skip_J; eauto|]. lia.
      * destruct (j_q _ _ HJ n IN) as (l & HH & _). destruct (hist_ok _ _ _ HH) as (VN & OC & HL).
        destruct (closed _ VN) as (cs & CE & HCS). rewrite CE. cbn [obind].
        pose proof (mu_expand _ _ _ HJ IN EB) as MU.
        destruct (push_children_spec (m_set (q_id n) (q_back n, q_cost n) ex) (q_id n) (q_cost n) cs q' PI) as (qq & PC & _); auto.
        { intros u pu cu. rewrite m_find_set. destruct (u =? q_id n)%Z; [intros [= <- <-]; auto|].
          intros F. apply (j_ex _ _ HJ _ _ _ F). }
        destruct (expand_J ex q n q' cs qq HJ PO PM PI NG EB CE PC) as [HJ' LE].
        rewrite PC. cbn [obind]. apply IH; auto.
        pose proof (maxdeg_le _ _ VN CE).
        assert (mu (m_set (q_id n) (q_back n, q_cost n) ex) * S maxdeg + S maxdeg <= mu ex * S maxdeg) by nia.
        lia.
Qed.

Lemma lazy_loop_fuel limit : forall fuel ex mem q r,
  lazy_loop Q fuel limit children h goal ex mem q = Ok r ->
  forall fuel', fuel <= fuel' -> lazy_loop Q fuel' limit children h goal ex mem q = Ok r.
Proof.
  induction fuel as [|fuel IH]; intros ex mem q r H fuel' LE.
  - cbn [lazy_loop] in H. destruct (pq_pop Q q) as [[n q']|] eqn:PO; [discriminate|].
    destruct fuel'; cbn [lazy_loop]; rewrite PO; auto.
  - destruct fuel' as [|fuel']; [lia|]. cbn [lazy_loop] in *. destruct (pq_pop Q q) as [[n q']|]; auto.
    destruct (q_id n =? goal)%Z; auto.
    destruct (explored_better ex (q_id n) (q_cost n)); [apply IH; auto; lia|].
    destruct (children (q_id n)); try discriminate. cbn [obind] in *.
    destruct (push_children _ _ _ _ _ _ _ _ _); try discriminate. cbn [obind] in *. apply IH; auto. lia.
Qed.

(** With nothing in queue_members_map the limit makes no difference. *)
Lemma push_children_limit limit ex nid nc : forall cs q,
  push_children Q limit h ex [] nid nc cs q = push_children Q false h ex [] nid nc cs q.
Proof.
  induction cs as [|[x w] cs IH]; intros q; cbn [push_children]; auto.
  replace (member_better limit [] x (cadd nc w)) with false by (destruct limit; auto). cbn [member_better].
  destruct (explored_better ex x (cadd nc w)); auto. destruct (h x); cbn [obind]; auto.
Qed.
Lemma lazy_loop_limit limit : forall fuel ex q,
  lazy_loop Q fuel limit children h goal ex [] q = lazy_loop Q fuel false children h goal ex [] q.
Proof.
  induction fuel as [|fuel IH]; intros ex q; cbn [lazy_loop]; auto.
  destruct (pq_pop Q q) as [[n q']|]; auto. destruct (q_id n =? goal)%Z; auto.
  replace (if limit then m_erase (q_id n) [] else []) with (@nil (Z * C)) by (destruct limit; auto).
  destruct (explored_better ex (q_id n) (q_cost n)); auto.
  destruct (children (q_id n)); cbn [obind]; auto. rewrite push_children_limit.
  destruct (push_children _ _ _ _ _ _ _ _ _); cbn [obind]; auto.
Qed.

(** GenericAstarSearch's loop does the same as PerformLazyAstar's as long as the goal is unexplored. *)
Lemma generic_loop_same limit : forall fuel ex mem q,
  m_find goal ex = None ->
  generic_loop Q fuel limit children h goal ex mem q = lazy_loop Q fuel limit children h goal ex mem q.
Proof.
  induction fuel as [|fuel IH]; intros ex mem q F; cbn [generic_loop lazy_loop]; auto.
  destruct (pq_pop Q q) as [[n q']|]; auto. destruct (Z.eqb_spec (q_id n) goal) as [EG|NG].
  - unfold explored_better. rewrite EG, F. cbn [negb]. reflexivity.
  - destruct (explored_better ex (q_id n) (q_cost n)); cbn [negb]; auto.
    destruct (children (q_id n)); cbn [obind]; auto.
    destruct (push_children _ _ _ _ _ _ _ _ _); cbn [obind]; auto. apply IH.
    rewrite m_find_set. destruct (Z.eqb_spec goal (q_id n)); [congruence|auto].
Qed.

(** ** The whole search *)
Definition q0 (h0 : C) : list (elem C) := pq_push Q (mkElem start (-1) czero h0) [].
Definition mem0 (limit : bool) : list (Z * C) := if limit then m_set start czero [] else [].

Lemma J_init h0 : h start = Ok h0 -> J [] (q0 h0).
Proof.
  intros H0. unfold q0. split.
  - apply (pq_push_inv _ QS), (pq_inv_nil _ QS).
  - constructor.
  - intros v p c H; discriminate.
  - reflexivity.
  - intros v pc H; discriminate.
  - intros e I. rewrite push_in in I. destruct I as [->|[]]. exists []. cbn.
    split; [constructor|]. split; [left; auto|]. split; [constructor|]. split; [intros u cu []|]. exists h0. auto.
  - intros v p c u w H; discriminate.
  - right. eexists. split; [apply push_in; left; reflexivity|]. cbn. split; auto. apply (cle_refl L). apply L.
Qed.

Lemma search_limit limit fuel h0 :
  lazy_loop Q fuel limit children h goal [] (mem0 limit) (q0 h0) = lazy_loop Q fuel false children h goal [] [] (q0 h0).
Proof.
  destruct limit; [|reflexivity].
  destruct (pq_pop_some _ QS (q0 h0)) as (n & q' & PO & PM & PI).
  { apply (pq_push_inv _ QS), (pq_inv_nil _ QS). }
  { unfold q0. intros X. pose proof (push_length (mkElem start (-1) czero h0) []) as Y. rewrite X in Y. discriminate. }
  assert (N : n = mkElem start (-1) czero h0).
  { assert (In n (q0 h0)) as I by (apply (Permutation_in _ (Permutation_sym PM)); left; auto).
    apply push_in in I. destruct I as [|[]]. auto. }
  destruct fuel as [|fuel]; cbn [lazy_loop]; rewrite PO; [reflexivity|]. rewrite N. cbn [q_id q_cost q_back].
  destruct (start =? goal)%Z; auto.
  replace (m_erase start (mem0 true)) with (@nil (Z * C)) by (cbn; rewrite Z.eqb_refl; reflexivity).
  cbn [explored_better m_find].
  destruct (children start); cbn [obind]; auto. rewrite push_children_limit.
  destruct (push_children _ _ _ _ _ _ _ _ _); cbn [obind]; auto. apply lazy_loop_limit.
Qed.

Lemma search_ends limit h0 : h start = Ok h0 ->
  exists fuel0 r, final r /\ forall fuel, fuel0 <= fuel -> lazy_loop Q fuel limit children h goal [] (mem0 limit) (q0 h0) = Ok r.
Proof.
  intros H0. exists (mu [] * S maxdeg + length (q0 h0)).
  destruct (lazy_loop_spec _ [] (q0 h0) (J_init h0 H0) (le_n _)) as (r & E & F). exists r. split; auto.
  intros fuel LE. rewrite search_limit. eapply lazy_loop_fuel; eauto.
Qed.

(** ** Extraction *)
Hypothesis NSpos : forall u, In u NS -> (0 <= u)%Z.

Lemma start_route ex q : J ex q -> forall v p c path, m_find v ex = Some (p, c) -> bchain ex v path ->
  exists ws, route step start v (rev path) ws /\ cle (total ws) c /\ ok (total ws).
Proof.
  intros HJ v p c path F B. revert p c F. induction B as [S1|v p c path NE F B IH]; intros p' c' F'.
  - exists []. rewrite S1 in F'. injection F' as <- <-. split; [constructor|]. cbn. split; [apply (cle_refl L)|]; apply L.
  - rewrite F in F'. injection F' as <- <-. destruct (j_ex _ _ HJ _ _ _ F) as (V & OC & [(X & _)|(_ & pp & cp & w & FP & ST & LE)]); [contradiction|].
    destruct (IH pp cp FP) as (ws & R & TL & TO). destruct (j_ex _ _ HJ _ _ _ FP) as (_ & OP & _).
    destruct (step_ok _ _ _ ST) as (_ & _ & OW).
    exists (ws ++ [w]). cbn [rev]. unfold total. rewrite fold_left_app. cbn [fold_left].
    change (fold_left cadd ws czero) with (total ws). split; [|split].
    + clear - R ST. remember (rev path) as l. clear Heql. induction R as [u|u x v0 w0 pl ws0 S0 R IH]; cbn.
      * eapply route_cons; [exact ST|constructor].
      * eapply route_cons; [exact S0|]. apply IH. auto.
    + apply (cle_trans L _ (cadd cp w)); auto; try (apply (cl_add _ _ L); auto). apply (cle_add_mono L); auto.
    + apply (cl_add _ _ L); auto.
Qed.

Lemma extract_chain ex x : forall v path, bchain ex v path -> (forall u, In u path -> In u NS) -> ~ In goal path ->
  forall fuel, length path <= fuel -> extract_loop fuel (m_set goal x ex) start v = Ok path.
Proof.
  induction 1 as [S1|v p c path NE F B IH]; intros HN NG fuel LE.
  - pose proof (NSpos start SN). destruct fuel; cbn [extract_loop]; destruct (Z.ltb_spec start 0); try lia; rewrite Z.eqb_refl; auto.
  - pose proof (NSpos v (HN v (or_introl eq_refl))). destruct fuel as [|fuel]; [cbn in LE; lia|]. cbn [extract_loop].
    destruct (Z.ltb_spec v 0); [lia|]. destruct (Z.eqb_spec v start); [contradiction|].
    rewrite m_find_set. destruct (Z.eqb_spec v goal) as [->|]; [elim NG; left; auto|]. rewrite F.
    rewrite IH; auto; [intros u I; apply HN; right; auto|intros I; apply NG; right; auto|cbn in LE; lia].
Qed.

(** Final outcome of a search. *)
Lemma final_result r : final r ->
  (exists path c ws, extract_result r start goal = Ok (path, c) /\ route step start goal path ws /\ NoDup path /\
     cle (total ws) c /\ ok c /\ ok (total ws) /\
     exists ex q n q', J ex q /\ pq_pop Q q = Some (n, q') /\ In n q /\ q_id n = goal /\ q_cost n = c) \/
  (extract_result r start goal = Ok ([], cinf) /\ forall path ws, ~ route step start goal path ws).
Proof.
  intros (ex & q & HJ & [[-> ->]|(n & q' & PO & IN & EG & ->)]).
  - right. unfold extract_result. rewrite (j_goal _ _ HJ). split; auto.
    intros path ws R.
    assert (X : forall u v path ws, route step u v path ws -> (exists pc, m_find u ex = Some pc) -> exists pc, m_find v ex = Some pc).
    { clear - HJ. induction 1 as [u|u x v w p ws S0 R IH]; auto. intros [[pu cu] F]. apply IH.
      destruct (j_succ _ _ HJ _ _ _ _ _ F S0) as [(pp & cc & E & _)|(e & [] & _)]. eauto. }
    destruct (X _ _ _ _ R) as [pc E].
    + destruct (j_start _ _ HJ) as [(pp & cc & E & _)|(e & [] & _)]. eauto.
    + rewrite (j_goal _ _ HJ) in E. discriminate.
  - left. destruct (j_q _ _ HJ n IN) as (l & HH & BK & ND & EL & hv & HV & VAL).
    destruct (hist_ok _ _ _ HH) as (VN & OC & HL).
    assert (exists cp0 l', l = (q_back n, cp0) :: l') as (cp0 & l' & ->).
    { destruct BK as [[-> _]|]; auto. destruct (hist_inv_nil _ _ HH). congruence. }
    destruct (hist_inv_cons _ _ _ _ _ HH) as (w & HP & ST & EC).
    destruct (EL _ cp0 (or_introl eq_refl)) as (pp & cp & FP & LE).
    destruct (hist_ok _ _ _ HP) as (_ & OCP0 & _). destruct (step_ok _ _ _ ST) as (_ & _ & OW).
    destruct (j_ex _ _ HJ _ _ _ FP) as (PN & OCP & _).
    destruct (j_chain _ _ HJ _ _ FP) as [path BC].
    destruct (start_route _ _ HJ _ _ _ _ FP BC) as (ws & R & TL & TO).
    assert (NGP : ~ In goal path).
    { intros I. destruct (bchain_keys _ _ _ BC _ I) as [pc X]. rewrite (j_goal _ _ HJ) in X. discriminate. }
    rewrite EG in *.
    exists (rev (goal :: path)), (q_cost n), (ws ++ [w]). rewrite EC.
    split; [|split; [|split; [|split; [|split; [|split]]]]].
    + unfold extract_result. rewrite m_find_set, Z.eqb_refl.
      assert (KEYS : forall u, In u path -> In u NS).
      { intros u I. destruct (bchain_keys _ _ _ BC _ I) as [[pu cu] X]. apply (j_ex _ _ HJ _ _ _ X). }
      rewrite extract_chain with (path := path); auto.
      pose proof (bchain_nodup _ _ _ BC) as NDP.
      assert (incl path (map fst (m_set goal (q_back n, cadd cp0 w) ex))) as INC.
      { intros u I. destruct (bchain_keys _ _ _ BC _ I) as [pc X]. apply (m_find_key u _ pc).
        rewrite m_find_set. destruct (Z.eqb_spec u goal) as [->|]; auto. contradiction. }
      pose proof (NoDup_incl_length NDP INC) as Y. rewrite map_length in Y. exact Y.
    + cbn [rev]. clear - R ST. remember (rev path) as pl. clear Heqpl. induction R as [u|u x v0 w0 pl ws0 S0 R IH]; cbn.
      * eapply route_cons; [exact ST|constructor].
      * eapply route_cons; [exact S0|]. apply IH. auto.
    + apply NoDup_rev. constructor; auto. eapply bchain_nodup; eauto.
    + unfold total. rewrite fold_left_app. cbn [fold_left]. fold (total ws).
      apply (cle_trans L _ (cadd cp w)); try (apply (cl_add _ _ L); auto); apply (cle_add_mono L); auto.
    + apply (cl_add _ _ L); auto.
    + unfold total. rewrite fold_left_app. apply (cl_add _ _ L); auto.
    + exists ex, q, n, q'. auto.
Qed.

(** ** Optimality with an admissible heuristic, exact arithmetic *)
Section Optimal.
Hypothesis X : exact_laws C ok.
Hypothesis QO : pq_ordered Q elem_before (fun e => ok (q_value e)).
Hypothesis hok : forall u hv, In u NS -> h u = Ok hv -> ok hv.
Hypothesis admissible : forall u hv path ws, In u NS -> h u = Ok hv -> route step u goal path ws -> cle hv (total ws).

Lemma fold_add_ok ws : (forall w, In w ws -> ok w) -> forall a, ok a -> ok (fold_left cadd ws a).
Proof.
  induction ws as [|w ws IH]; intros H a A; cbn; auto. apply IH; [intros; apply H; right; auto|].
  apply (cl_add _ _ L); auto. apply H; left; auto.
Qed.
Lemma fold_add ws : (forall w, In w ws -> ok w) -> forall a, ok a -> fold_left cadd ws a = cadd a (total ws).
Proof.
  unfold total. induction ws as [|w ws IH]; intros H a A; cbn [fold_left].
  - symmetry. apply (ex_zero_r _ _ X); auto.
  - assert (OW : ok w) by (apply H; left; auto).
    assert (HW : forall w, In w ws -> ok w) by (intros; apply H; right; auto).
    rewrite (IH HW (cadd a w)), (IH HW (cadd czero w)); try (apply (cl_add _ _ L); auto; apply L).
    rewrite (ex_zero_l _ _ X) by auto. apply (ex_assoc _ _ X); auto. apply fold_add_ok; auto. apply L.
Qed.
Lemma route_ok u v path ws : route step u v path ws -> forall w, In w ws -> ok w.
Proof.
  induction 1 as [|u x v w p ws S0 R IH]; intros w' I; [destruct I|]. destruct I as [<-|I]; auto. apply (step_ok _ _ _ S0).
Qed.

Lemma value_eq e hv : ok hv -> q_value e = cadd (q_cost e) hv \/ q_cost e = czero /\ q_value e = hv ->
  q_value e = cadd (q_cost e) hv.
Proof. intros O [|[E1 E2]]; auto. rewrite E1, E2. symmetry. apply (ex_zero_l _ _ X). auto. Qed.

(** Some queue entry is at least as good as the given route. *)
Lemma frontier ex q : J ex q -> forall u path ws, route step u goal path ws ->
  forall a, ok a -> In u NS ->
  ex_le ex u a \/ (exists e, In e q /\ q_id e = u /\ cle (q_cost e) a) ->
  exists e, In e q /\ cle (q_value e) (cadd a (total ws)) /\ ok (q_value e).
Proof.
  intros HJ u path ws R.
  assert (ENT : forall u path ws e a, route step u goal path ws -> ok a -> In u NS -> In e q -> q_id e = u -> cle (q_cost e) a ->
          exists e, In e q /\ cle (q_value e) (cadd a (total ws)) /\ ok (q_value e)).
  { intros u0 path0 ws0 e a R0 A UN I E1 E2. exists e.
    destruct (j_q _ _ HJ e I) as (l & HH & _ & _ & _ & hv & HV & VAL). destruct (hist_ok _ _ _ HH) as (VN & OC & _).
    rewrite E1 in HV. pose proof (hok _ _ UN HV) as OH. apply value_eq in VAL; auto. rewrite VAL.
    assert (ok (total ws0)) by (apply fold_add_ok; [apply (route_ok _ _ _ _ R0)|apply L]).
    split; auto. split; [|apply (cl_add _ _ L); auto].
    apply (cle_trans L _ (cadd a hv)); try (apply (cl_add _ _ L); auto); [apply (cle_add_mono L); auto|].
    apply (ex_mono_r _ _ X); auto. apply (admissible _ _ _ _ UN HV R0). }
  assert (GEN : forall v, route step u v path ws -> v = goal -> forall a, ok a -> In u NS ->
    ex_le ex u a \/ (exists e, In e q /\ q_id e = u /\ cle (q_cost e) a) ->
    exists e, In e q /\ cle (q_value e) (cadd a (total ws)) /\ ok (q_value e)).
  2:{ apply (GEN goal R eq_refl). }
  clear R. intros v R. induction R as [u|u x v w p ws S0 R IH]; intros EG a A UN [H|(e & I & E1 & E2)].
  - destruct H as (pp & cc & F & _). subst u. rewrite (j_goal _ _ HJ) in F. discriminate.
  - subst u. apply (ENT goal [goal] [] e a); auto. constructor.
  - subst v. destruct H as (pu & cu & F & LE). destruct (step_ok _ _ _ S0) as (_ & XN & OW).
    destruct (j_ex _ _ HJ _ _ _ F) as (_ & OU & _).
    assert (ok (cadd cu w)) by (apply (cl_add _ _ L); auto). assert (ok (cadd a w)) by (apply (cl_add _ _ L); auto).
    assert (M : cle (cadd cu w) (cadd a w)) by (apply (cle_add_mono L); auto).
    destruct (IH eq_refl (cadd a w)) as (e & I & V1 & V2); auto.
    + destruct (j_succ _ _ HJ _ _ _ _ _ F S0) as [(pp & cc & FX & LX)|(e & I & E1 & E2)].
      * left. exists pp, cc. split; auto. apply (cle_trans L cc (cadd cu w)); auto. apply (j_ex _ _ HJ _ _ _ FX).
      * right. exists e. split; auto. split; auto. apply (cle_trans L _ (cadd cu w)); auto.
        destruct (j_q _ _ HJ e I) as (l & HH & _). apply (hist_ok _ _ _ HH).
    + exists e. split; auto. split; auto.
      pose proof (route_ok _ _ _ _ R) as OWS.
      replace (cadd a (total (w :: ws))) with (cadd (cadd a w) (total ws)); auto.
      assert (ok (total ws)) by (apply fold_add_ok; auto; apply L).
      rewrite (ex_assoc _ _ X) by auto. f_equal. unfold total at 2. cbn [fold_left].
      rewrite (ex_zero_l _ _ X) by auto. symmetry. apply fold_add; auto.
  - subst v. apply (ENT u (u :: p) (w :: ws) e a); auto. eapply route_cons; eauto.
Qed.

Lemma goal_popped_optimal ex q n q' : J ex q -> pq_pop Q q = Some (n, q') -> In n q -> q_id n = goal ->
  forall path ws, route step start goal path ws -> cle (q_cost n) (total ws).
Proof.
  intros HJ PO IN EG path ws R.
  destruct (frontier ex q HJ start path ws R czero) as (e & I & V1 & V2); auto.
  { apply L. } { destruct (j_start _ _ HJ); auto. }
  assert (OT : ok (total ws)) by (apply fold_add_ok; [apply (route_ok _ _ _ _ R)|apply L]).
  rewrite (ex_zero_l _ _ X) in V1 by auto.
  destruct (j_q _ _ HJ n IN) as (l & HH & _ & _ & _ & hv & HV & VAL). destruct (hist_ok _ _ _ HH) as (VN & OC & _).
  pose proof (hok _ _ VN HV) as OH. apply value_eq in VAL; auto.
  assert (OV : ok (q_value n)) by (rewrite VAL; apply (cl_add _ _ L); auto).
  assert (cle (q_value n) (q_value e)).
  { assert (FA : Forall (fun e => ok (q_value e)) q).
    { apply Forall_forall. intros e' I'. destruct (j_q _ _ HJ e' I') as (l' & HH' & _ & _ & _ & hv' & HV' & VAL').
      destruct (hist_ok _ _ _ HH') as (VN' & OC' & _). apply value_eq in VAL'; [|apply (hok _ _ VN' HV')]. rewrite VAL'.
      apply (cl_add _ _ L); auto. apply (hok _ _ VN' HV'). }
    pose proof (QO _ _ _ (j_inv _ _ HJ) FA PO) as Y.
    destruct (pq_pop_some _ QS q (j_inv _ _ HJ)) as (n1 & q1 & PO1 & PM & _); [intros Z; rewrite Z in IN; destruct IN|].
    rewrite PO in PO1. injection PO1 as <- <-. apply (Permutation_in _ PM) in I. destruct I as [<-|I].
    - apply (cle_refl L); auto. - exact (Y e I). }
  apply (cle_trans L _ (q_value n)); auto; [rewrite VAL; apply (cle_add L); auto|].
  apply (cle_trans L _ (q_value e)); auto.
Qed.
End Optimal.
End Search.
