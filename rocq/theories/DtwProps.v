(** C42, C43: dynamic time warping. *)
From Verif Require Import Base Cost DtwModel.

Section P.
Context {C : cost} {ok : C -> Prop}.
Variable L : cost_laws C ok.
Context {A B : Type}.
Implicit Types (a : list A) (b : list B) (dist : A -> B -> C).

(** ** Specification *)
(** The cost [c] of an alignment of the first [i] items of [a] with the first [j] of [b]: it starts by pairing the first
    items, ends by pairing items [i] and [j], and each step advances in one sequence or in both; the distances are added
    up in order. *)
Inductive warp a b dist : nat -> nat -> C -> Prop :=
| w_start x y : nth_error a 0 = Some x -> nth_error b 0 = Some y -> warp a b dist 1 1 (cadd czero (dist x y))
| w_step i j i' j' c x y : warp a b dist i j c -> (i', j') = (S i, j) \/ (i', j') = (i, S j) \/ (i', j') = (S i, S j) ->
    nth_error a (i' - 1) = Some x -> nth_error b (j' - 1) = Some y -> warp a b dist i' j' (cadd c (dist x y)).
(** [c] is the least cost of such an alignment; it may be infinite if no alignment has a finite cost. *)
Definition least_warp a b dist i j (c : C) : Prop :=
  (cltb c cinf = true -> warp a b dist i j c) /\ forall c', warp a b dist i j c' -> cltb c' c = false.

(** ** The table the loops fill *)
Fixpoint drow (dist : B -> C) (prev : nat -> C) b (j : nat) : C :=
  match j with
  | 0 => cinf
  | S j' => match nth_error b j' with None => cinf | Some y => cadd (pick (prev j) (prev j') (drow dist prev b j')) (dist y) end
  end.
Fixpoint dtab a b dist (i j : nat) : C :=
  match i with
  | 0 => match j with 0 => czero | _ => cinf end
  | S i' => match nth_error a i' with None => cinf | Some x => drow (dist x) (dtab a b dist i') b j end
  end.

(** The first [i] rows hold the table, and so do the entries of row [i] before [j]. *)
Definition filled a b dist (m : mat C) i j : Prop :=
  length a < m_rows m /\ length b < m_cols m /\
  (forall i' j', i' <= length a -> j' <= length b -> i' < i \/ (i' = i /\ j' < j) \/ i' = 0 \/ j' = 0 -> m_at m i' j' = dtab a b dist i' j').

Lemma row_loop_ok a b dist i x : 1 <= i -> nth_error a (i - 1) = Some x -> forall rest j m, 1 <= j -> j + length rest = S (length b) ->
  (forall k, nth_error rest k = nth_error b (j - 1 + k)) -> filled a b dist m i j ->
  exists m', row_loop (dist x) m i j rest = Ok m' /\ filled a b dist m' (S i) 1 /\ m_rows m' = m_rows m /\ m_cols m' = m_cols m /\
    (forall p q, p = 0 \/ q = 0 -> m_at m' p q = m_at m p q).
Proof.
  intros Hi Hx. assert (Li : i <= length a) by (assert (i - 1 < length a) by (apply nth_error_Some; congruence); lia).
  induction rest as [|y rest IH]; intros j m Hj Hl Hr F; cbn [row_loop].
  - exists m. split; auto. split; [|auto]. destruct F as (F1 & F2 & F3). split; auto. split; auto. intros i' j' I J X. apply F3; auto. cbn in Hl. lia.
  - destruct F as (F1 & F2 & F3). cbn [length] in Hl.
    assert (IM : forall p q, p <= i -> q <= j -> in_mat m p q = true). { intros p q P Q. unfold in_mat. apply andb_true_iff. split; apply Nat.ltb_lt; lia. }
    unfold mget, mset. rewrite !IM by lia. cbn [obind]. rewrite ?IM by lia. cbn [obind]. rewrite !F3 by lia.
    set (m1 := mkMat _ _ _). specialize (IH (j + 1) m1 ltac:(lia) ltac:(lia)).
    assert (E : nth_error b (j - 1) = Some y). { specialize (Hr 0). cbn in Hr. rewrite Nat.add_0_r in Hr. auto. }
    destruct IH as (m' & R & F' & M1 & M2 & M3).
    { intros k. specialize (Hr (S k)). cbn in Hr. rewrite Hr. f_equal. lia. }
    { split; [exact F1|]. split; [exact F2|]. intros i' j' I J X. unfold m1. cbn [m_at].
      destruct (Nat.eqb_spec i' i) as [Ei|Ni]; cbn [andb]; [|apply F3; lia]. destruct (Nat.eqb_spec j' j) as [Ej|Nj]; [|apply F3; lia].
      subst i' j'. destruct i as [|i0]; [lia|]. destruct j as [|j0]; [lia|]. cbn [dtab]. replace (S i0 - 1) with i0 in * by lia. rewrite Hx. cbn [drow].
      replace (S j0 - 1) with j0 in * by lia. rewrite E. reflexivity. }
    exists m'. split; auto. split; auto. split; [exact M1|]. split; [exact M2|]. intros p q X. rewrite M3 by auto. unfold m1. cbn [m_at].
    destruct (Nat.eqb_spec p i), (Nat.eqb_spec q j); cbn [andb]; auto. lia.
Qed.
Lemma rows_loop_ok a b dist : forall rest i m, 1 <= i -> i + length rest = S (length a) -> (forall k, nth_error rest k = nth_error a (i - 1 + k)) -> filled a b dist m i 1 ->
  exists m', rows_loop dist m i rest b = Ok m' /\ filled a b dist m' (S (length a)) 1 /\ m_rows m' = m_rows m /\ m_cols m' = m_cols m /\
    (forall p q, p = 0 \/ q = 0 -> m_at m' p q = m_at m p q).
Proof.
  induction rest as [|x rest IH]; intros i m Hi Hl Hr F; cbn [rows_loop length] in *.
  - exists m. replace (S (length a)) with i by lia. auto.
  - assert (E : nth_error a (i - 1) = Some x). { specialize (Hr 0). cbn in Hr. rewrite Nat.add_0_r in Hr. auto. }
    destruct (row_loop_ok a b dist i x Hi E b 1 m ltac:(lia) ltac:(lia) (fun k => eq_refl) F) as (m1 & R1 & F1 & M1 & M2 & M3). rewrite R1. cbn [obind].
    replace (S i) with (i + 1) in F1 by lia. destruct (IH (i + 1) m1 ltac:(lia) ltac:(lia)) as (m2 & R2 & F2 & K1 & K2 & K3); auto.
    { intros k. specialize (Hr (S k)). cbn in Hr. rewrite Hr. f_equal. lia. }
    exists m2. split; auto. split; auto. split; [congruence|]. split; [congruence|]. intros p q X. rewrite K3, M3; auto.
Qed.

(** The matrices an evaluator can hold: zero in the corner; on the borders infinity, if it has inner entries, else zero. *)
Definition bordered (m : mat C) : Prop :=
  m_at m 0 0 = czero /\
  forall i j, i < m_rows m -> j < m_cols m -> i = 0 \/ j = 0 -> i <> j -> m_at m i j = if (1 <? m_rows m) && (1 <? m_cols m) then cinf else czero.
Lemma initialize_bordered m n1 n2 : bordered m -> bordered (initialize_matrix m n1 n2) /\ n1 < m_rows (initialize_matrix m n1 n2) /\ n2 < m_cols (initialize_matrix m n1 n2).
Proof.
  intros Bm. unfold initialize_matrix. destruct (Nat.ltb_spec (m_rows m) (n1 + 1)), (Nat.ltb_spec (m_cols m) (n2 + 1)); cbn [orb];
    try (split; [auto|]; split; lia);
    (destruct ((1 <? n1 + 1) && (1 <? n2 + 1)) eqn:G; cbn [m_rows m_cols]; (split; [|split; lia]); split; cbn [m_at m_rows m_cols]; auto; intros i j I J X N; rewrite G; auto;
     match goal with |- (if ?c then _ else _) = _ => replace c with true; [reflexivity|] end; symmetry; apply orb_true_iff;
     rewrite !andb_true_iff, ?Nat.leb_le, ?Nat.ltb_lt, ?Nat.eqb_eq; destruct X as [X|X]; subst; [right|left]; lia).
Qed.
Lemma new_bordered n1 n2 : bordered (new_dtw n1 n2).
Proof. apply initialize_bordered. split; [reflexivity|]. cbn. lia. Qed.

Lemma evaluate_spec m a b dist : bordered m -> exists m' c, evaluate m a b dist = Ok (m', c) /\ bordered m' /\ (a <> [] -> b <> [] -> c = dtab a b dist (length a) (length b)) /\
  (a = [] \/ b = [] -> c = m_at (initialize_matrix m (length a) (length b)) (length a) (length b)).
Proof.
  intros Bm. unfold evaluate. destruct (initialize_bordered m (length a) (length b) Bm) as (B1 & R1 & C1). set (m1 := initialize_matrix m (length a) (length b)) in *.
  destruct a as [|x a].
  - cbn [rows_loop obind]. unfold mget. replace (in_mat m1 (length (@nil A)) (length b)) with true by (symmetry; unfold in_mat; apply andb_true_iff; split; apply Nat.ltb_lt; cbn in *; lia).
    cbn [obind]. eexists. eexists. split; [reflexivity|]. split; auto. split; [congruence|auto].
  - destruct b as [|y b].
    + assert (E : forall i rest, rows_loop dist m1 i rest [] = Ok m1). { intros i rest. revert i. induction rest as [|z rest IH]; intros i; cbn; auto. }
      rewrite E. cbn [obind]. unfold mget. replace (in_mat m1 (length (x :: a)) (length (@nil B))) with true by (symmetry; unfold in_mat; apply andb_true_iff; split; apply Nat.ltb_lt; cbn in *; lia).
      cbn [obind]. eexists. eexists. split; [reflexivity|]. split; auto. split; [congruence|auto].
    + set (a' := x :: a) in *. set (b' := y :: b) in *. assert (La : 1 <= length a') by (cbn; lia). assert (Lb : 1 <= length b') by (cbn; lia).
      assert (F : filled a' b' dist m1 1 1).
      { split; auto. split; auto. intros i j I J X. destruct B1 as [B0 B1].
        assert (G : (1 <? m_rows m1) && (1 <? m_cols m1) = true) by (apply andb_true_iff; split; apply Nat.ltb_lt; lia). rewrite G in B1.
        destruct i as [|i]; [destruct j as [|j]; [exact B0|]; cbn [dtab]; apply B1; lia|]. assert (j = 0) by lia. subst j. cbn [dtab]. rewrite B1 by lia.
        destruct (nth_error a' i); reflexivity. }
      destruct (rows_loop_ok a' b' dist a' 1 m1 ltac:(lia) ltac:(lia) (fun k => eq_refl) F) as (m2 & R & (F1 & F2 & F3) & M1 & M2 & M3). rewrite R. cbn [obind].
      unfold mget. replace (in_mat m2 (length a') (length b')) with true by (symmetry; unfold in_mat; apply andb_true_iff; split; apply Nat.ltb_lt; lia). cbn [obind].
      eexists. eexists. split; [reflexivity|]. split; [|split; [intros _ _; apply F3; lia|intros [E|E]; discriminate]].
      destruct B1 as [B0 B1]. split; [rewrite M3; auto|]. intros i j I J X N. rewrite M3 by auto. rewrite M1, M2 in *. apply B1; auto.
Qed.

(** ** What the table means *)

Lemma pick_cases (x y z : C) : pick x y z = x \/ pick x y z = y \/ pick x y z = z.
Proof. unfold pick. destruct (cltb x y && cltb x z); auto. destruct (cltb z x && cltb z y); auto. Qed.
Variable dist : A -> B -> C.
Hypothesis Hdist : forall x y, ok (dist x y).
Lemma pick_ok' (x y z : C) : ok x -> ok y -> ok z -> ok (pick x y z).
Proof. intros X Y Z. destruct (pick_cases x y z) as [ -> | [ -> | -> ] ]; auto. Qed.
Lemma dtab_ok a b : forall i j, ok (dtab a b dist i j).
Proof.
  induction i as [|i IH]; intros j; cbn [dtab]; [destruct j; [apply (cl_zero _ _ L)|apply (cl_inf _ _ L)]|].
  destruct (nth_error a i) as [x|]; [|apply (cl_inf _ _ L)]. induction j as [|j IHj]; cbn [drow]; [apply (cl_inf _ _ L)|]. destruct (nth_error b j); [|apply (cl_inf _ _ L)].
  apply (cl_add _ _ L); auto. apply pick_ok'; auto.
Qed.
Lemma dtab_step a b i j x y : nth_error a i = Some x -> nth_error b j = Some y ->
  dtab a b dist (S i) (S j) = cadd (pick (dtab a b dist i (S j)) (dtab a b dist i j) (dtab a b dist (S i) j)) (dist x y).
Proof. intros X Y. cbn [dtab]. rewrite X. cbn [drow]. rewrite Y. reflexivity. Qed.
Lemma dtab_border a b i j : i = 0 \/ j = 0 -> dtab a b dist i j = if (i =? 0) && (j =? 0) then czero else cinf.
Proof. intros [ -> | -> ]; [destruct j; reflexivity|]. destruct i; cbn [dtab]; [reflexivity|]. destruct (nth_error a i); reflexivity. Qed.

Lemma finite_add c w : ok c -> ok w -> cltb (cadd c w) cinf = true -> cltb c cinf = true.
Proof.
  intros Oc Ow F. destruct (cltb c cinf) eqn:E; auto. assert (X : cltb (cadd c w) cinf = false); [|congruence].
  apply (cl_negtrans _ _ L _ c); auto; [apply (cl_add _ _ L); auto|apply (cl_inf _ _ L)|apply (cl_infl _ _ L); auto].
Qed.
(** A finite entry is the cost of an alignment. *)
Lemma dtab_warp a b : forall i j, 1 <= i <= length a -> 1 <= j <= length b -> cltb (dtab a b dist i j) cinf = true -> warp a b dist i j (dtab a b dist i j).
Proof.
  induction i as [i IHi] using lt_wf_ind. induction j as [j IHj] using lt_wf_ind. intros Hi Hj.
  destruct i as [|i]; [lia|]. destruct j as [|j]; [lia|]. destruct (nth_error a i) as [x|] eqn:X; [|apply nth_error_None in X; lia]. destruct (nth_error b j) as [y|] eqn:Y; [|apply nth_error_None in Y; lia].
  rewrite (dtab_step a b i j x y X Y).
  set (u := dtab a b dist i (S j)). set (d := dtab a b dist i j). set (l := dtab a b dist (S i) j). intros F.
  assert (Ou : ok u) by apply dtab_ok. assert (Od : ok d) by apply dtab_ok. assert (Ol : ok l) by apply dtab_ok.
  apply finite_add in F; auto; [|apply pick_ok'; auto].
  assert (IFI : cltb (cinf : C) cinf = false) by (apply (cl_irrefl _ _ L), (cl_inf _ _ L)).
  assert (Xi : nth_error a (S i - 1) = Some x) by (replace (S i - 1) with i by lia; auto). assert (Yj : nth_error b (S j - 1) = Some y) by (replace (S j - 1) with j by lia; auto).
  destruct (pick_cases u d l) as [P|[P|P]]; rewrite P in *.
  - destruct (Nat.eq_dec i 0) as [ -> |I0]; [unfold u in F; rewrite dtab_border in F by auto; cbn in F; congruence|].
    eapply (w_step a b dist i (S j)); eauto. apply IHi; auto; lia.
  - destruct (Nat.eq_dec i 0) as [ -> |I0]; [|destruct (Nat.eq_dec j 0) as [ -> |J0]].
    + destruct j; [apply (w_start a b dist x y X Y)|]. unfold d in F. rewrite dtab_border in F by auto. cbn in F. congruence.
    + destruct i; [lia|]. unfold d in F. rewrite dtab_border in F by auto. cbn [Nat.eqb andb] in F. congruence.
    + eapply (w_step a b dist i j); eauto. apply IHi; auto; lia.
  - destruct (Nat.eq_dec j 0) as [ -> |J0]; [unfold l in F; rewrite dtab_border in F by auto; cbn [Nat.eqb andb] in F; congruence|].
    eapply (w_step a b dist (S i) j); eauto. apply IHj; auto; lia.
Qed.
Lemma warp_range a b i j c : warp a b dist i j c -> 1 <= i <= length a /\ 1 <= j <= length b.
Proof.
  clear Hdist. induction 1 as [x y X Y|i j i' j' c x y W IH S X Y].
  - assert (0 < length a) by (apply nth_error_Some; congruence). assert (0 < length b) by (apply nth_error_Some; congruence). lia.
  - assert (i' - 1 < length a) by (apply nth_error_Some; congruence). assert (j' - 1 < length b) by (apply nth_error_Some; congruence).
    destruct S as [S|[S|S]]; injection S as -> ->; lia.
Qed.
Lemma warp_ok a b i j c : warp a b dist i j c -> ok c.
Proof. induction 1; apply (cl_add _ _ L); auto. apply (cl_zero _ _ L). Qed.

(** The tie the code gets wrong: the two neighbours next to a cell are equally cheap and cheaper than the diagonal one. *)
Definition no_bad_tie a b : Prop := forall i j u d l, least_warp a b dist i (S j) u -> least_warp a b dist i j d -> least_warp a b dist (S i) j l ->
  cltb u d = true -> cltb l d = true -> cltb u l = true \/ cltb l u = true.

Lemma pick_min (u d l : C) : ok u -> ok d -> ok l -> (cltb u d = true -> cltb l d = true -> cltb u l = true \/ cltb l u = true) ->
  cltb u (pick u d l) = false /\ cltb d (pick u d l) = false /\ cltb l (pick u d l) = false.
Proof.
  intros U D Lk T. unfold pick. destruct (cltb u d) eqn:UD; cbn [andb].
  - destruct (cltb u l) eqn:UL.
    + split; [apply (cl_irrefl _ _ L); auto|]. split; apply (clt_le L); auto.
    + destruct (cltb l u) eqn:LU; cbn [andb].
      * destruct (cltb l d) eqn:LD.
        -- split; auto. split; [apply (clt_le L); auto|]. apply (cl_irrefl _ _ L); auto.
        -- exfalso. rewrite (cl_trans _ _ L l u d) in LD; auto. discriminate.
      * destruct (cltb l d) eqn:LD; [destruct (T eq_refl eq_refl); congruence|].
        exfalso. assert (X : cltb u d = false) by (apply (cl_negtrans _ _ L u l d); auto). congruence.
  - destruct (cltb l u) eqn:LU; cbn [andb].
    + destruct (cltb l d) eqn:LD.
      * split; [apply (clt_le L); auto|]. split; [apply (clt_le L); auto|]. apply (cl_irrefl _ _ L); auto.
      * split; auto. split; [apply (cl_irrefl _ _ L); auto|auto].
    + split; auto. split; [apply (cl_irrefl _ _ L); auto|]. apply (cl_negtrans _ _ L l u d); auto.
Qed.
Lemma dtab_least a b : no_bad_tie a b -> forall i j, 1 <= i <= length a -> 1 <= j <= length b -> least_warp a b dist i j (dtab a b dist i j).
Proof.
  intros NT. induction i as [i IHi] using lt_wf_ind. induction j as [j IHj] using lt_wf_ind. intros Hi Hj.
  split; [apply dtab_warp; auto|]. intros c W.
  assert (IMX : forall c : C, ok c -> cltb cinf c = false) by apply (cl_inf_max _ _ L).
  assert (IFI : cltb (cinf : C) cinf = false) by (apply (cl_irrefl _ _ L), (cl_inf _ _ L)).
  destruct i as [|i]; [lia|]. destruct j as [|j]; [lia|]. destruct (nth_error a i) as [x|] eqn:X; [|apply nth_error_None in X; lia]. destruct (nth_error b j) as [y|] eqn:Y; [|apply nth_error_None in Y; lia].
  rewrite (dtab_step a b i j x y X Y).
  set (u := dtab a b dist i (S j)). set (d := dtab a b dist i j). set (l := dtab a b dist (S i) j).
  assert (Ou : ok u) by apply dtab_ok. assert (Od : ok d) by apply dtab_ok. assert (Ol : ok l) by apply dtab_ok.
  assert (PM : cltb u (pick u d l) = false /\ cltb d (pick u d l) = false /\ cltb l (pick u d l) = false).
  { apply pick_min; auto. intros UD LD. destruct i as [|i]; [exfalso; unfold u in UD; rewrite dtab_border in UD by auto; cbn in UD; rewrite IMX in UD by auto; discriminate|].
    destruct j as [|j]; [exfalso; unfold l in LD; rewrite dtab_border in LD by auto; cbn in LD; rewrite IMX in LD by auto; discriminate|].
    apply (NT (S i) (S j) u d l); auto; [apply IHi|apply IHi|apply IHj]; lia. }
  destruct PM as (PU & PD & PL). assert (Op : ok (pick u d l)) by (apply pick_ok'; auto).
  inversion W as [x' y' X' Y' E1 E2|i0 j0 i' j' c0 x' y' W0 ST X' Y' E1 E2]; subst.
  - rewrite X in X'. rewrite Y in Y'. injection X' as <-. injection Y' as <-. apply (cl_mono _ _ L); auto; try apply (cl_zero _ _ L).
  - replace (S i - 1) with i in X' by lia. replace (S j - 1) with j in Y' by lia. rewrite X in X'. rewrite Y in Y'. injection X' as <-. injection Y' as <-.
    assert (Oc : ok c0) by (eapply warp_ok; eauto). apply (cl_mono _ _ L); auto. apply warp_range in W0 as RG.
    destruct ST as [S1|[S1|S1]]; injection S1 as S1 S2; subst i0 j0.
    + apply (cle_trans L (pick u d l) u c0); auto. apply (IHi i ltac:(lia) (S j) ltac:(lia) ltac:(lia)); auto.
    + apply (cle_trans L (pick u d l) l c0); auto. apply (IHj j ltac:(lia) ltac:(lia) ltac:(lia)); auto.
    + apply (cle_trans L (pick u d l) d c0); auto. apply (IHi i ltac:(lia) j ltac:(lia) ltac:(lia)); auto.
Qed.
End P.

(** The states of an evaluator: a new one (41-45), and one that has been used on sequences of any types. *)
Inductive reachable {C : cost} : mat C -> Prop :=
| r_new n1 n2 : reachable (new_dtw n1 n2)
| r_used (m m' : mat C) (A B : Type) (a : list A) (b : list B) dist c : reachable m -> evaluate m a b dist = Ok (m', c) -> reachable m'.
Lemma reachable_bordered {C : cost} (m : mat C) : reachable m -> bordered m.
Proof.
  induction 1 as [n1 n2|m m' A B a b dist c R IH E]; [apply new_bordered|].
  destruct (evaluate_spec m a b dist IH) as (m1 & c1 & E1 & B1 & _). rewrite E in E1. injection E1 as -> _. auto.
Qed.

(** C42 (partial): on non-empty sequences every evaluator returns a cost that, if finite, is the cost of an alignment;
    and if no two equally cheap neighbours beat the diagonal one, it is the least cost.  Missing: that case ([pick] then
    takes the dearer diagonal entry), where the claim is false. *)
Theorem C42_dtw_partial : forall (C : cost) ok (L : cost_laws C ok) (A B : Type) (dist : A -> B -> C) a b m,
  (forall x y, ok (dist x y)) -> a <> [] -> b <> [] -> reachable m ->
  exists m' c, evaluate m a b dist = Ok (m', c) /\
    (cltb c cinf = true -> warp a b dist (length a) (length b) c) /\
    (no_bad_tie dist a b -> least_warp a b dist (length a) (length b) c).
Proof.
  intros C ok L A B dist a b m D Na Nb R. destruct (evaluate_spec m a b dist (reachable_bordered m R)) as (m' & c & E & _ & S & _).
  specialize (S Na Nb). subst c. exists m', (dtab a b dist (length a) (length b)). split; auto.
  assert (1 <= length a <= length a) by (destruct a; [congruence|cbn; lia]). assert (1 <= length b <= length b) by (destruct b; [congruence|cbn; lia]).
  split; [apply (dtab_warp L); auto|]. intros NT. apply (dtab_least L); auto.
Qed.
Print Assumptions C42_dtw_partial.

(** The hypotheses are met, without bad ties, by sequences 0, 5 and 0, 5 under |x - y|. *)
Definition gap (x y : nat) : ninf := Some (N.of_nat (x - y + (y - x))).
Example C42_example : evaluate (new_dtw 0 0) [0; 5] [0; 5] gap = evaluate (new_dtw 2 2) [0; 5] [0; 5] gap /\
  (exists m, evaluate (new_dtw 0 0) [0; 5; 5] [0; 5] gap = Ok (m, Some 0%N : ninf)) /\ no_bad_tie gap [0; 5] [0; 5].
Proof.
  split; [reflexivity|]. split; [eexists; reflexivity|]. intros i j u d l U D Lw UD LD.
  assert (W : forall i j (c : ninf), least_warp [0; 5] [0; 5] gap i j c -> cltb c cinf = true -> 1 <= i <= 2 /\ 1 <= j <= 2).
  { intros p q c [LW _] F. apply (warp_range gap [0; 5] [0; 5] p q c (LW F)). }
  assert (Fu : cltb u cinf = true) by (destruct u; auto; destruct d; discriminate UD). assert (Fl : cltb l cinf = true) by (destruct l; auto; destruct d; discriminate LD).
  apply W in U; auto. apply W in Lw; auto. assert (i = 1 /\ j = 1) as [-> ->] by lia.
  destruct D as [_ D]. specialize (D (Some 0%N) (w_start [0; 5] [0; 5] gap 0 0 eq_refl eq_refl)).
  destruct d as [[|d]|]; try discriminate D. destruct u as [[|u]|]; discriminate UD.
Qed.

(** C42 is false: comparing 0, 1, 0 with 1, 0, 1 the evaluator returns 3, but there is an alignment of cost 2. *)
Theorem C42_optimal_refuted : exists a b m, evaluate (new_dtw 0 0) a b gap = Ok (m, Some 3%N : ninf) /\ warp a b gap (length a) (length b) (Some 2%N : ninf).
Proof.
  exists [0; 1; 0], [1; 0; 1]. eexists. split; [vm_compute; reflexivity|].
  change (Some 2%N : ninf) with (cadd (cadd (cadd (cadd (czero : ninf) (gap 0 1)) (gap 1 1)) (gap 0 0)) (gap 0 1)).
  apply (w_step _ _ _ 3 2 3 3); auto. apply (w_step _ _ _ 2 1 3 2); auto. apply (w_step _ _ _ 1 1 2 1); auto. apply w_start; reflexivity.
Qed.
Print Assumptions C42_optimal_refuted.

(** C43 (partial): on non-empty sequences, or two empty ones, what an evaluator returns does not depend on how it was made and used
    before: it is what ComputeDTWDistance returns.  Missing: one empty sequence, where the claim is false. *)
Theorem C43_reuse_partial : forall (C : cost) (A B : Type) (dist : A -> B -> C) a b m, reachable m -> (a = [] <-> b = []) ->
  exists m' c, evaluate m a b dist = Ok (m', c) /\ compute_dtw_distance a b dist = Ok c.
Proof.
  intros C A B dist a b m R NE. unfold compute_dtw_distance.
  destruct (evaluate_spec m a b dist (reachable_bordered m R)) as (m1 & c1 & E1 & _ & S1 & T1).
  destruct (evaluate_spec (new_dtw 0 0) a b dist (new_bordered 0 0)) as (m2 & c2 & E2 & _ & S2 & T2).
  exists m1, c1. split; auto. rewrite E2. cbn [obind]. f_equal. destruct a as [|x a].
  - destruct b as [|y b]; [|destruct NE as [NE _]; specialize (NE eq_refl); discriminate]. rewrite T1, T2 by auto.
    destruct (initialize_bordered m 0 0 (reachable_bordered m R)) as [[X _] _]. cbn [length]. rewrite X. reflexivity.
  - destruct b as [|y b]; [destruct NE as [_ NE]; specialize (NE eq_refl); discriminate|]. rewrite S1, S2 by discriminate. reflexivity.
Qed.
Print Assumptions C43_reuse_partial.

(** No call fails, whatever the history. *)
Theorem C43_total : forall (C : cost) (A B : Type) (dist : A -> B -> C) a b m, reachable m -> exists m' c, evaluate m a b dist = Ok (m', c) /\ reachable m'.
Proof.
  intros C A B dist a b m R. destruct (evaluate_spec m a b dist (reachable_bordered m R)) as (m1 & c1 & E1 & _). exists m1, c1. split; auto. econstructor; eauto.
Qed.
Print Assumptions C43_total.

Example C43_example : exists m, evaluate (new_dtw 1 0) [1] [2; 4] gap = Ok (m, Some 4%N : ninf) /\ reachable m /\ m_rows m = 2 /\ m_cols m = 3 /\
  exists m', evaluate m [0; 1; 0] [1] gap = Ok (m', Some 2%N : ninf) /\ m_rows m' = 4.
Proof.
  eexists. split; [vm_compute; reflexivity|]. split; [eapply r_used with (a := [1]) (b := [2; 4]) (dist := gap); [apply (r_new 1 0)|vm_compute; reflexivity]|].
  split; [reflexivity|]. split; [reflexivity|]. eexists. split; [vm_compute; reflexivity|reflexivity].
Qed.

(** C43 is false for one empty sequence: 0 from a new evaluator, infinity from one used on longer sequences. *)
Theorem C43_empty_refuted : exists (m : mat ninf) (b : list nat), reachable m /\ b <> [] /\ compute_dtw_distance [] b gap = Ok (Some 0%N : ninf) /\
  exists m', evaluate m [] b gap = Ok (m', None : ninf).
Proof.
  exists (new_dtw 1 1), [7]. split; [constructor|]. split; [discriminate|]. split; [reflexivity|]. eexists. vm_compute. reflexivity.
Qed.
Print Assumptions C43_empty_refuted.
