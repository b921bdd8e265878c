(** The check of the kinematic tree in simple_linked_robot_model.hpp: C116. *)
From Coq Require Import String Reals Lra Lia Permutation.
From Verif Require Import Base MathModel GeoModel RotModel LinkModel.
Open Scope R_scope.

(** ** Specification *)
(** Links that can be reached from link [i] by going along joints from parent to child. *)
Inductive reach (joints : list rjoint) (i : Z) : Z -> Prop :=
| reach_here : reach joints i i
| reach_next : forall j, In j joints -> reach joints i (rj_parent j) -> reach joints i (rj_child j).
(** Every joint connects two of [n] links. *)
Definition in_range (n : nat) (joints : list rjoint) : Prop :=
  forall j, In j joints -> (0 <= rj_parent j < Z.of_nat n)%Z /\ (0 <= rj_child j < Z.of_nat n)%Z.
(** A robot the constructor is meant to accept: names without repeats, axes of length 1, and a tree rooted at link 0. *)
Definition acceptable (links : list rlink) (joints : list rjoint) : Prop :=
  NoDup (map rl_name links) /\ NoDup (map rj_name joints) /\ Forall (fun j => Rabs (vnorm (rj_axis j) - 1) <= epsilon) joints /\
  length links = S (length joints) /\ forall i, (0 <= i < Z.of_nat (length links))%Z -> reach joints 0 i.

(** ** Lists *)
Lemma unique_names_spec names : forall seen, unique_names seen names = true <-> NoDup names /\ forall n, In n names -> ~ In n seen.
Proof.
  induction names as [|n names IH]; intros seen; cbn [unique_names].
  - split; [intros _; split; [constructor | intros n []] | reflexivity].
  - destruct (existsb (String.eqb n) seen) eqn:E.
    + split; [discriminate|]. intros [_ H]. apply existsb_exists in E. destruct E as (m & I & E). apply String.eqb_eq in E. subst m. exfalso. apply (H n); [left; reflexivity | exact I].
    + rewrite IH. assert (NS : ~ In n seen) by (intros I; assert (existsb (String.eqb n) seen = true) by (apply existsb_exists; exists n; split; [exact I | apply String.eqb_refl]); congruence). split.
      * intros [ND H]. split; [constructor; [|exact ND]; intros I; apply (H n I); left; reflexivity|]. intros m [<-|I]; [exact NS|]. intros S. apply (H m I). right. exact S.
      * intros [ND H]. inversion ND as [|? ? N1 N2]; subst. split; [exact N2|]. intros m I [<-|S]; [contradiction|]. apply (H m); [right; exact I | exact S].
Qed.
Lemma zget_lt {A} (l : list A) i : (0 <= i < Z.of_nat (length l))%Z <-> exists x, zget l i = Some x.
Proof.
  unfold zget. destruct (Z.ltb_spec i 0).
  - split; [lia | intros (x & X); discriminate].
  - split; [intros H1; destruct (nth_error l (Z.to_nat i)) eqn:E; [eexists; reflexivity | apply nth_error_None in E; lia] | intros (x & X); assert (Z.to_nat i < length l)%nat by (apply nth_error_Some; rewrite X; discriminate); lia].
Qed.
Lemma zget_upd {A} (l : list A) i k x : (0 <= i)%Z -> (i < Z.of_nat (length l))%Z -> zget (upd l (Z.to_nat i) x) k = if (k =? i)%Z then Some x else zget l k.
Proof.
  intros I L. unfold zget. destruct (Z.eqb_spec k i) as [->|N].
  - destruct (Z.ltb_spec i 0); [lia|]. rewrite nth_error_upd. rewrite Nat.eqb_refl. destruct (Nat.ltb_spec (Z.to_nat i) (length l)); [reflexivity | lia].
  - destruct (Z.ltb_spec k 0); [reflexivity|]. rewrite nth_error_upd. destruct (Nat.eqb_spec (Z.to_nat i) (Z.to_nat k)); [lia | reflexivity].
Qed.

(** ** The skeleton that is built *)
Definition parent_of (l : Z) (p : Z) (joints : list rjoint) : Z := fold_left (fun p j => if (rj_child j =? l)%Z then rj_parent j else p) joints p.
Fixpoint joint_of (l : Z) (q : Z) (k : nat) (joints : list rjoint) : Z :=
  match joints with [] => q | j :: joints => joint_of l (if (rj_child j =? l)%Z then Z.of_nat k else q) (S k) joints end.
Definition children_of (l : Z) (joints : list rjoint) : list Z := map rj_child (filter (fun j => (rj_parent j =? l)%Z) joints).
Lemma add_edges_spec joints : forall sk k, in_range (length sk) joints -> Forall (fun j => axis_ok j = true) joints ->
  exists sk', add_edges sk k joints = Ok (Some sk') /\ length sk' = length sk /\
    forall l e, zget sk l = Some e -> exists e', zget sk' l = Some e' /\ e_parent e' = parent_of l (e_parent e) joints /\ e_parent_joint e' = joint_of l (e_parent_joint e) k joints /\ e_children e' = e_children e ++ children_of l joints.
Proof.
  induction joints as [|j joints IH]; intros sk k R A; cbn [add_edges].
  - exists sk. split; [reflexivity|]. split; [reflexivity|]. intros l e E. exists e. cbn. rewrite app_nil_r. auto.
  - inversion A as [|? ? A1 A2]; subst. rewrite A1. destruct (R j (or_introl eq_refl)) as [[P1 P2] [C1 C2]]. destruct (proj1 (zget_lt sk (rj_child j)) (conj C1 C2)) as [c EC]. unfold add_edge. rewrite EC.
    set (c' := mkE (rj_parent j) (Z.of_nat k) (e_children c) (e_child_joints c)). set (sk1 := upd sk (Z.to_nat (rj_child j)) c'). assert (L1 : length sk1 = length sk) by apply upd_length.
    assert (G1 : forall l, zget sk1 l = if (l =? rj_child j)%Z then Some c' else zget sk l) by (intros l; apply zget_upd; assumption).
    destruct (proj1 (zget_lt sk1 (rj_parent j)) ltac:(rewrite L1; split; assumption)) as [p EP]. rewrite EP. cbn [obind].
    set (p' := mkE (e_parent p) (e_parent_joint p) (e_children p ++ [rj_child j]) (e_child_joints p ++ [Z.of_nat k])). set (sk2 := upd sk1 (Z.to_nat (rj_parent j)) p'). assert (L2 : length sk2 = length sk) by (rewrite <- L1; apply upd_length).
    assert (G2 : forall l, zget sk2 l = if (l =? rj_parent j)%Z then Some p' else zget sk1 l) by (intros l; apply zget_upd; lia).
    destruct (IH sk2 (S k)) as (sk' & E & L & G); [rewrite L2; intros x I; apply R; right; exact I | exact A2|]. exists sk'. split; [exact E|]. split; [rewrite L; exact L2|].
    intros l e EL. unfold parent_of, children_of. cbn [fold_left joint_of filter].
    assert (S1 : exists e1, zget sk1 l = Some e1 /\ e_parent e1 = (if (rj_child j =? l)%Z then rj_parent j else e_parent e) /\ e_parent_joint e1 = (if (rj_child j =? l)%Z then Z.of_nat k else e_parent_joint e) /\ e_children e1 = e_children e).
    { rewrite G1. rewrite (Z.eqb_sym l). destruct (Z.eqb_spec (rj_child j) l) as [<-|N]; [exists c'; split; [reflexivity|]; rewrite EC in EL; injection EL as <-; auto | exists e; auto]. }
    destruct S1 as (e1 & X1 & Y1 & Z1 & W1).
    assert (S2 : exists e2, zget sk2 l = Some e2 /\ e_parent e2 = e_parent e1 /\ e_parent_joint e2 = e_parent_joint e1 /\ e_children e2 = e_children e1 ++ (if (rj_parent j =? l)%Z then [rj_child j] else [])).
    { rewrite G2. rewrite (Z.eqb_sym l). destruct (Z.eqb_spec (rj_parent j) l) as [<-|N]; [exists p'; split; [reflexivity|]; rewrite EP in X1; injection X1 as <-; auto | exists e1; rewrite app_nil_r; auto]. }
    destruct S2 as (e2 & X2 & Y2 & Z2 & W2). destruct (G l e2 X2) as (e' & X' & Y' & Z' & W'). exists e'. split; [exact X'|]. rewrite Y', Y2, Y1, Z', Z2, Z1, W', W2, W1. split; [reflexivity|]. split; [reflexivity|].
    unfold children_of. destruct (rj_parent j =? l)%Z; cbn [map]; rewrite <- app_assoc; reflexivity.
Qed.
Lemma add_edges_axis joints : forall sk k, in_range (length sk) joints -> ~ Forall (fun j => axis_ok j = true) joints -> add_edges sk k joints = Ok None.
Proof.
  induction joints as [|j joints IH]; intros sk k R A; [exfalso; apply A; constructor|]. cbn [add_edges]. destruct (axis_ok j) eqn:E; [|reflexivity].
  destruct (R j (or_introl eq_refl)) as [[P1 P2] [C1 C2]]. destruct (proj1 (zget_lt sk (rj_child j)) (conj C1 C2)) as [c EC]. unfold add_edge. rewrite EC.
  match goal with |- context [zget (upd sk ?i ?x) _] => pose proof (upd_length sk i x) as L1; set (sk1 := upd sk i x) in * end.
  destruct (proj1 (zget_lt sk1 (rj_parent j)) ltac:(rewrite L1; split; assumption)) as [p EP]. rewrite EP. cbn [obind]. apply IH; [rewrite upd_length, L1; intros x I; apply R; right; exact I|]. intros F. apply A. constructor; assumption.
Qed.
Lemma parent_of_none l p joints : ~ In l (map rj_child joints) -> parent_of l p joints = p /\ forall q k, joint_of l q k joints = q.
Proof.
  revert p. induction joints as [|j joints IH]; intros p N; [split; reflexivity|]. cbn [map In] in N. unfold parent_of. cbn [fold_left joint_of]. destruct (Z.eqb_spec (rj_child j) l) as [E|E]; [exfalso; apply N; left; exact E|].
  destruct (IH p) as [H1 H2]; [intros I; apply N; right; exact I|]. split; [exact H1 | intros q k; apply H2].
Qed.
Lemma parent_of_some joints : NoDup (map rj_child joints) -> forall i j p q k, nth_error joints i = Some j -> parent_of (rj_child j) p joints = rj_parent j /\ joint_of (rj_child j) q k joints = Z.of_nat (k + i).
Proof.
  induction joints as [|x joints IH]; intros ND i j p q k E; [destruct i; discriminate|]. cbn [map] in ND. inversion ND as [|? ? N1 N2]; subst. unfold parent_of. cbn [fold_left joint_of]. destruct i as [|i]; cbn in E.
  - injection E as <-. rewrite Z.eqb_refl. destruct (parent_of_none (rj_child x) (rj_parent x) joints N1) as [H1 H2]. split; [exact H1 | rewrite H2, Nat.add_0_r; reflexivity].
  - destruct (Z.eqb_spec (rj_child x) (rj_child j)) as [EC|EC]; [exfalso; apply N1; rewrite EC; apply in_map, nth_error_In with i; exact E|]. destruct (IH N2 i j p q (S k) E) as [H1 H2]. split; [exact H1|]. rewrite H2. f_equal. lia.
Qed.

(** ** Exploring *)
Definition unvisited (n : nat) (m : Z -> N) : nat := length (filter (fun i => (m (Z.of_nat i) =? 0)%N) (seq 0 n)).
Lemma filter_length_le {A} (f g : A -> bool) l : (forall x, In x l -> g x = true -> f x = true) -> (length (filter g l) <= length (filter f l))%nat.
Proof.
  induction l as [|a l IH]; intros H; [reflexivity|]. cbn. specialize (IH (fun x I => H x (or_intror I))). pose proof (H a (or_introl eq_refl)). destruct (g a); destruct (f a); cbn; try lia; specialize (H0 eq_refl); discriminate.
Qed.
Lemma filter_length_lt {A} (f g : A -> bool) l a : (forall x, In x l -> g x = true -> f x = true) -> In a l -> f a = true -> g a = false -> (length (filter g l) < length (filter f l))%nat.
Proof.
  induction l as [|b l IH]; intros H I F G; [contradiction|]. cbn. pose proof (H b (or_introl eq_refl)) as HB. destruct I as [->|I].
  - rewrite F, G. pose proof (filter_length_le f g l (fun x I => H x (or_intror I))). cbn. lia.
  - specialize (IH (fun x I => H x (or_intror I)) I F G). destruct (g b); destruct (f b); cbn; try lia; specialize (HB eq_refl); discriminate.
Qed.
Lemma filter_len {A} (f : A -> bool) l : (length (filter f l) <= length l)%nat.
Proof. induction l as [|a l IH]; cbn; [lia | destruct (f a); cbn; lia]. Qed.
Definition below (m : Z -> N) : Prop := forall k, (m k <= 1)%N.
Lemma bump_fresh m i : m i = 0%N -> bump m i i = 1%N.
Proof. intros H. unfold bump. rewrite Z.eqb_refl, H. reflexivity. Qed.
Lemma bump_again m i : m i = 1%N -> bump m i i = 2%N.
Proof. intros H. unfold bump. rewrite Z.eqb_refl, H. reflexivity. Qed.
Lemma bump_other m i k : k <> i -> bump m i k = m k.
Proof. intros H. unfold bump. destruct (Z.eqb_spec k i); [contradiction | reflexivity]. Qed.
Lemma unvisited_bump n m i : below m -> (0 <= i < Z.of_nat n)%Z -> m i = 0%N -> (unvisited n (bump m i) < unvisited n m)%nat.
Proof.
  intros B I M. unfold unvisited. apply filter_length_lt with (Z.to_nat i).
  - intros x _ H. apply N.eqb_eq in H. apply N.eqb_eq. unfold bump in H. destruct (Z.eqb_spec (Z.of_nat x) i) as [E|E]; [rewrite E; exact M | exact H].
  - apply in_seq. lia.
  - rewrite Z2Nat.id by lia. rewrite M. reflexivity.
  - rewrite Z2Nat.id by lia. rewrite bump_fresh by exact M. reflexivity.
Qed.
Lemma unvisited_le n m m' : (forall k, (m k <= m' k)%N) -> (unvisited n m' <= unvisited n m)%nat.
Proof. intros H. apply filter_length_le. intros x _ E. apply N.eqb_eq in E. apply N.eqb_eq. specialize (H (Z.of_nat x)). lia. Qed.
(** The loop over the children, as a function of its own. *)
Fixpoint explore_all (fuel : nat) (sk : list element) (cs : list Z) (m : Z -> N) : outcome (bool * (Z -> N)) :=
  match cs with
  | [] => Ok (false, m)
  | c :: cs => let! bm := explore fuel sk c m in if fst bm then Ok (true, snd bm) else explore_all fuel sk cs (snd bm)
  end.
Lemma explore_S fuel sk i m : explore (S fuel) sk i m = (let m := bump m i in if negb (m i =? 1)%N then Ok (true, m) else match zget sk i with None => UB | Some e => explore_all fuel sk (e_children e) m end).
Proof.
  cbn [explore]. cbn zeta. destruct (negb (bump m i i =? 1)%N); [reflexivity|]. destruct (zget sk i) as [e|]; [|reflexivity]. generalize (bump m i). induction (e_children e) as [|c cs IH]; intros m1; [reflexivity|]. cbn [explore_all].
  destruct (explore fuel sk c m1) as [bm| | | |]; cbn [obind]; try reflexivity. destruct (fst bm); [reflexivity | apply IH].
Qed.
Section Explore.
Variables (sk : list element) (joints : list rjoint).
Hypothesis R : in_range (length sk) joints.
Hypothesis CH : forall l e, zget sk l = Some e -> e_children e = children_of l joints.
Lemma children_in l c : In c (children_of l joints) <-> exists j, In j joints /\ rj_parent j = l /\ rj_child j = c.
Proof.
  unfold children_of. rewrite in_map_iff. split.
  - intros (j & E & I). apply filter_In in I. destruct I as [I P]. apply Z.eqb_eq in P. exists j. auto.
  - intros (j & I & P & E). exists j. split; [exact E|]. apply filter_In. split; [exact I | apply Z.eqb_eq; exact P].
Qed.
Lemma reach_trans a b c : reach joints a b -> reach joints b c -> reach joints a c.
Proof. intros H1 H2. induction H2 as [|j I _ IH]; [exact H1 | apply reach_next; assumption]. Qed.
Lemma explore_ok fuel : forall i m, (0 <= i < Z.of_nat (length sk))%Z -> below m -> (unvisited (length sk) m < fuel)%nat ->
  exists b m', explore fuel sk i m = Ok (b, m') /\ (b = false -> below m' /\ (forall k, (m k <= m' k)%N) /\ m i = 0%N) /\ (forall k, m' k <> 0%N -> m k <> 0%N \/ reach joints i k).
Proof.
  induction fuel as [|fuel IH]; intros i m I B U; [lia|]. rewrite explore_S. cbn zeta. assert (Q : m i = 0%N \/ m i = 1%N) by (specialize (B i); lia). destruct Q as [Q|Q].
  - rewrite (bump_fresh m i Q). cbn [N.eqb Pos.eqb negb]. destruct (proj1 (zget_lt sk i) I) as [e E]. rewrite E. rewrite (CH i e E).
    assert (B1 : below (bump m i)) by (intros k; unfold bump; destruct (Z.eqb_spec k i) as [->|N]; [rewrite Q; cbn; lia | apply B]).
    assert (M1 : forall k, (m k <= bump m i k)%N) by (intros k; unfold bump; destruct (Z.eqb_spec k i) as [->|N]; [rewrite Q; cbn; lia | lia]).
    assert (V1 : forall k, bump m i k <> 0%N -> m k <> 0%N \/ reach joints i k) by (intros k; unfold bump; destruct (Z.eqb_spec k i) as [->|N]; [right; constructor | left; assumption]).
    pose proof (unvisited_bump (length sk) m i B I Q) as U1. revert B1 M1 V1 U1. generalize (bump m i).
    assert (SUB : forall c, In c (children_of i joints) -> (0 <= c < Z.of_nat (length sk))%Z /\ reach joints i c).
    { intros c IC. apply children_in in IC. destruct IC as (j & IJ & P & C). destruct (R j IJ) as [_ RC]. rewrite <- C. split; [exact RC|]. apply reach_next; [exact IJ|]. rewrite P. constructor. }
    revert SUB. generalize (children_of i joints) as cs. induction cs as [|c cs IHC]; intros SUB m1 B1 M1 V1 U1; cbn [explore_all].
    + exists false, m1. split; [reflexivity|]. split; [intros _; auto | exact V1].
    + destruct (SUB c (or_introl eq_refl)) as [RC RR]. destruct (IH c m1 RC B1 ltac:(lia)) as (b & m2 & E2 & F2 & V2). rewrite E2. cbn [obind fst snd].
      assert (V3 : forall k, m2 k <> 0%N -> m k <> 0%N \/ reach joints i k) by (intros k K; destruct (V2 k K) as [K1|K1]; [apply V1; exact K1 | right; apply reach_trans with c; assumption]).
      destruct b; [exists true, m2; split; [reflexivity|]; split; [discriminate | exact V3]|]. destruct (F2 eq_refl) as (B2 & M2 & _). apply IHC; [intros x IX; apply SUB; right; exact IX | exact B2 | intros k; specialize (M1 k); specialize (M2 k); lia | exact V3|].
      pose proof (unvisited_le (length sk) m1 m2 M2). lia.
  - rewrite (bump_again m i Q). cbn [N.eqb Pos.eqb negb]. exists true, (bump m i). split; [reflexivity|]. split; [discriminate|]. intros k. unfold bump. destruct (Z.eqb_spec k i) as [->|N]; [right; constructor | left; assumption].
Qed.
(** On a tree nothing is met twice. *)
Hypothesis ND : NoDup (map rj_child joints).
Hypothesis ROOT : ~ In 0%Z (map rj_child joints).
Hypothesis ALL : forall i, (0 <= i < Z.of_nat (length sk))%Z -> reach joints 0 i.
Lemma same_joint j1 j2 : In j1 joints -> In j2 joints -> rj_child j1 = rj_child j2 -> j1 = j2.
Proof.
  clear R CH ROOT ALL. revert ND. induction joints as [|j js IH]; intros ND I1 I2 E; [contradiction|]. cbn in ND. inversion ND as [|? ? N1 N2]; subst. destruct I1 as [<-|I1], I2 as [<-|I2]; try reflexivity; [exfalso; apply N1; rewrite E; apply in_map; exact I2 | exfalso; apply N1; rewrite <- E; apply in_map; exact I1 | apply IH; assumption].
Qed.
Inductive depth : nat -> Z -> Prop := depth_0 : depth 0 0 | depth_S : forall d j, In j joints -> depth d (rj_parent j) -> depth (S d) (rj_child j).
Lemma depth_unique d k : depth d k -> forall d', depth d' k -> d = d'.
Proof.
  induction 1 as [|d j I D IH]; intros d' D'.
  - inversion D' as [|? j I _ E]; [reflexivity|]. exfalso. apply ROOT. rewrite <- H. apply in_map. exact I.
  - inversion D' as [E1 E2|d2 j2 I2 D2 E1 E2].
    + exfalso. apply ROOT. rewrite E2. apply in_map. exact I.
    + pose proof (same_joint j2 j I2 I E2). subst j2. f_equal. apply IH. exact D2.
Qed.
Lemma reach_depth i k d : reach joints i k -> depth d i -> exists d', (d <= d')%nat /\ depth d' k.
Proof. intros H D. induction H as [|j I _ IH]; [exists d; split; [lia | exact D]|]. destruct IH as (d' & L & D'). exists (S d'). split; [lia | apply depth_S; assumption]. Qed.
Lemma acyclic j : In j joints -> ~ reach joints (rj_child j) (rj_parent j).
Proof.
  intros I H. destruct (R j I) as [RP _]. destruct (reach_depth 0 (rj_parent j) 0 (ALL _ RP) depth_0) as (d & _ & D). pose proof (depth_S d j I D) as D1. destruct (reach_depth _ _ _ H D1) as (d' & L & D'). pose proof (depth_unique _ _ D _ D'). lia.
Qed.
Lemma reach_front i k : reach joints i k -> k = i \/ exists j, In j joints /\ rj_parent j = i /\ reach joints (rj_child j) k.
Proof.
  induction 1 as [|j I _ IH]; [left; reflexivity|]. right. destruct IH as [E|(j' & I' & P & H)]; [exists j; split; [exact I|]; split; [exact E | constructor] | exists j'; split; [exact I'|]; split; [exact P | apply reach_next; assumption]].
Qed.
Lemma reach_compare a b k : reach joints a k -> reach joints b k -> reach joints a b \/ reach joints b a.
Proof.
  induction 1 as [|j I H IH]; intros HB; [right; exact HB|]. inversion HB as [E|j2 I2 H2 E].
  - left. apply reach_next; assumption.
  - pose proof (same_joint j2 j I2 I E). subst j2. apply IH. exact H2.
Qed.
Lemma siblings_apart j1 j2 k : In j1 joints -> In j2 joints -> rj_parent j1 = rj_parent j2 -> rj_child j1 <> rj_child j2 -> reach joints (rj_child j1) k -> reach joints (rj_child j2) k -> False.
Proof.
  assert (W : forall j1 j2, In j1 joints -> In j2 joints -> rj_parent j1 = rj_parent j2 -> rj_child j1 <> rj_child j2 -> reach joints (rj_child j1) (rj_child j2) -> False).
  { clear j1 j2 k. intros j1 j2 I1 I2 P N H. inversion H as [E|j I H' E]; [congruence|]. pose proof (same_joint j j2 I I2 E). subst j. apply (acyclic j1 I1). rewrite P. exact H'. }
  intros I1 I2 P N H1 H2. destruct (reach_compare _ _ _ H1 H2) as [H|H]; [exact (W j1 j2 I1 I2 P N H) | exact (W j2 j1 I2 I1 (eq_sym P) (not_eq_sym N) H)].
Qed.
Lemma children_nodup l : NoDup (children_of l joints).
Proof.
  unfold children_of. clear R CH ROOT ALL. revert ND. induction joints as [|j js IH]; intros ND; [constructor|]. cbn in ND. inversion ND as [|? ? N1 N2]; subst. cbn. destruct (rj_parent j =? l)%Z; [|apply IH; exact N2]. cbn. constructor; [|apply IH; exact N2].
  intros I. apply N1. apply in_map_iff in I. destruct I as (x & E & I). apply filter_In in I. rewrite <- E. apply in_map. exact (proj1 I).
Qed.
Lemma explore_tree fuel : forall i m, (0 <= i < Z.of_nat (length sk))%Z -> below m -> (unvisited (length sk) m < fuel)%nat -> (forall k, reach joints i k -> m k = 0%N) ->
  exists m', explore fuel sk i m = Ok (false, m') /\ (forall k, reach joints i k -> m' k = 1%N) /\ (forall k, ~ reach joints i k -> m' k = m k).
Proof.
  induction fuel as [|fuel IH]; intros i m I B U Z; [lia|]. rewrite explore_S. cbn zeta. pose proof (Z i (reach_here _ _)) as Q. rewrite (bump_fresh m i Q). cbn [N.eqb Pos.eqb negb]. destruct (proj1 (zget_lt sk i) I) as [e E]. rewrite E. rewrite (CH i e E).
  assert (B1 : below (bump m i)) by (intros k; unfold bump; destruct (Z.eqb_spec k i) as [->|N]; [rewrite Q; cbn; lia | apply B]).
  pose proof (unvisited_bump (length sk) m i B I Q) as U1.
  assert (SUB : forall c, In c (children_of i joints) -> exists j, In j joints /\ rj_parent j = i /\ rj_child j = c) by (intros c; apply children_in).
  pose proof (children_nodup i) as NDC.
  assert (K : exists m', explore_all fuel sk (children_of i joints) (bump m i) = Ok (false, m') /\ (forall k, (exists c, In c (children_of i joints) /\ reach joints c k) -> m' k = 1%N) /\ (forall k, (forall c, In c (children_of i joints) -> ~ reach joints c k) -> m' k = bump m i k)).
  { assert (Z1 : forall c k, In c (children_of i joints) -> reach joints c k -> bump m i k = 0%N).
    { intros c k IC H. destruct (SUB c IC) as (j & IJ & P & C). rewrite bump_other; [apply Z; apply reach_trans with c; [rewrite <- C; apply reach_next; [exact IJ | rewrite P; constructor] | exact H]|]. intros ->. apply (acyclic j IJ). rewrite C, P. exact H. }
    revert B1 U1 Z1. generalize (bump m i). revert SUB NDC. generalize (children_of i joints) as cs. induction cs as [|c cs IHC]; intros SUB NDC m1 B1 U1 Z1; cbn [explore_all].
    - exists m1. split; [reflexivity|]. split; [intros k (c & [] & _) | reflexivity].
    - inversion NDC as [|? ? NC1 NC2]; subst. destruct (SUB c (or_introl eq_refl)) as (j & IJ & P & C). destruct (R j IJ) as [_ RC]. rewrite C in RC.
      destruct (IH c m1 RC B1 ltac:(lia)) as (m2 & E2 & F2 & G2); [intros k; apply Z1; left; reflexivity|]. rewrite E2. cbn [obind fst snd].
      assert (AP : forall c' k, In c' cs -> reach joints c' k -> ~ reach joints c k).
      { intros c' k IC' H' H. destruct (SUB c' (or_intror IC')) as (j' & IJ' & P' & C'). apply (siblings_apart j j' k IJ IJ'); [congruence | rewrite C, C'; intros ->; contradiction | rewrite C; exact H | rewrite C'; exact H']. }
      destruct (explore_ok fuel c m1 RC B1 ltac:(lia)) as (b & m2' & E2' & F2' & _). rewrite E2 in E2'. injection E2' as <- <-. destruct (F2' eq_refl) as (B2 & M2 & _).
      destruct (IHC (fun x IX => SUB x (or_intror IX)) NC2 m2 B2) as (m3 & E3 & F3 & G3).
      { pose proof (unvisited_le (length sk) m1 m2 M2). lia. }
      { intros c' k IC' H'. rewrite G2; [apply Z1 with c'; [right; exact IC' | exact H'] | apply AP with c'; assumption]. }
      exists m3. split; [exact E3|]. split.
      + intros k (c' & [<-|IC'] & H'); [|apply F3; exists c'; split; assumption]. rewrite G3; [apply F2; exact H'|]. intros c' IC' H''. exact (AP c' k IC' H'' H').
      + intros k N. rewrite G3 by (intros c' IC'; apply N; right; exact IC'). apply G2. apply N. left. reflexivity. }
  destruct K as (m' & E' & F' & G'). exists m'. split; [exact E'|]. split.
  - intros k H. destruct (reach_front i k H) as [->|(j & IJ & P & H')].
    + rewrite G'; [apply bump_fresh; exact Q|]. intros c IC H'. destruct (SUB c IC) as (j & IJ & P & C). apply (acyclic j IJ). rewrite C, P. exact H'.
    + apply F'. exists (rj_child j). split; [apply children_in; exists j; auto | exact H'].
  - intros k N. rewrite G'; [apply bump_other; intros ->; apply N; constructor|]. intros c IC H. apply N. destruct (SUB c IC) as (j & IJ & P & C). apply reach_trans with c; [rewrite <- C; apply reach_next; [exact IJ | rewrite P; constructor] | exact H].
Qed.
End Explore.

(** ** The check as a whole *)
Lemma tree_facts n joints : in_range n joints -> n = S (length joints) -> (forall i, (0 <= i < Z.of_nat n)%Z -> reach joints 0 i) -> NoDup (map rj_child joints) /\ ~ In 0%Z (map rj_child joints).
Proof.
  intros R L A. set (l := map Z.of_nat (seq 1 (length joints))).
  assert (NDl : NoDup l) by (apply FinFun.Injective_map_NoDup; [intros x y; lia | apply seq_NoDup]).
  assert (LL : (length (map rj_child joints) <= length l)%nat) by (unfold l; rewrite !map_length, seq_length; lia).
  assert (IN : incl l (map rj_child joints)).
  { intros x X. apply in_map_iff in X. destruct X as (k & <- & K). apply in_seq in K. assert (H : reach joints 0 (Z.of_nat k)) by (apply A; lia). inversion H as [E|j I H' E]; [lia | apply in_map; exact I]. }
  split; [apply NoDup_incl_NoDup with l; assumption|]. intros I. apply (NoDup_length_incl NDl LL IN) in I. apply in_map_iff in I. destruct I as (k & E & K). apply in_seq in K. lia.
Qed.
Lemma linkage_ok_intro sk es : forall i, (forall k e, nth_error es k = Some e -> parent_ok sk (i + k) e = true /\ forallb (child_ok sk (i + k)) (e_children e) = true) -> linkage_ok sk i es = true.
Proof.
  induction es as [|e es IH]; intros i H; [reflexivity|]. cbn [linkage_ok]. destruct (H 0%nat e eq_refl) as [H1 H2]. rewrite Nat.add_0_r in H1, H2. rewrite H1, H2. cbn [andb]. apply IH. intros k x E. replace (S i + k)%nat with (i + S k)%nat by lia. apply H. exact E.
Qed.
Lemma axis_ok_spec j : axis_ok j = true <-> Rabs (vnorm (rj_axis j) - 1) <= epsilon.
Proof. unfold axis_ok, Rltb. destruct (Rlt_dec epsilon (Rabs (vnorm (rj_axis j) - 1))); cbn; split; intros H; try discriminate; try reflexivity; lra. Qed.
Lemma zget_repeat n l e : zget (repeat empty_element n) l = Some e -> e = empty_element.
Proof. unfold zget. destruct (l <? 0)%Z; [discriminate|]. intros E. apply nth_error_In in E. apply repeat_spec in E. exact E. Qed.
(** What the check computes when all but the shape has passed. *)
Lemma sanity_check_shape links joints : in_range (length links) joints -> length links = S (length joints) -> NoDup (map rl_name links) -> NoDup (map rj_name joints) -> Forall (fun j => axis_ok j = true) joints ->
  exists sk, length sk = length links /\
    (forall l, (0 <= l < Z.of_nat (length sk))%Z -> exists e, zget sk l = Some e /\ e_parent e = parent_of l (-1) joints /\ e_parent_joint e = joint_of l (-1) 0 joints /\ e_children e = children_of l joints) /\
    sanity_check links joints = (if negb (joint_of 0 (-1) 0 joints =? -1)%Z || negb (parent_of 0 (-1) joints =? -1)%Z then Ok ([], false) else let! b := check_skeleton sk in Ok (sk, b)).
Proof.
  intros R L N1 N2 A. destruct (add_edges_spec joints (repeat empty_element (length links)) 0) as (sk & E & LS & G); [rewrite repeat_length; exact R | exact A|]. rewrite repeat_length in LS. exists sk. split; [exact LS|].
  assert (G' : forall l, (0 <= l < Z.of_nat (length sk))%Z -> exists e, zget sk l = Some e /\ e_parent e = parent_of l (-1) joints /\ e_parent_joint e = joint_of l (-1) 0 joints /\ e_children e = children_of l joints).
  { intros l I. destruct (proj1 (zget_lt (repeat empty_element (length links)) l)) as [x X]; [rewrite repeat_length, <- LS; exact I|]. pose proof (zget_repeat _ _ _ X). subst x. exact (G l _ X). }
  split; [exact G'|]. unfold sanity_check. rewrite L at 1. rewrite Nat.eqb_refl. cbn [negb]. rewrite (proj2 (unique_names_spec (map rl_name links) [])) by (split; [exact N1 | intros n _ []]). cbn [negb]. rewrite (proj2 (unique_names_spec (map rj_name joints) [])) by (split; [exact N2 | intros n _ []]). cbn [negb].
  rewrite E. cbn [obind]. destruct (G' 0%Z) as (e & X & P & J & _); [lia|]. destruct sk as [|root rest]; [discriminate|]. cbn in X. injection X as ->. rewrite P, J. reflexivity.
Qed.
(** C116: for joints that connect existing links, the check comes to an answer, and it is yes exactly for acceptable robots. *)
Theorem C116_check : forall links joints, in_range (length links) joints ->
  exists sk b, sanity_check links joints = Ok (sk, b) /\ (b = true <-> acceptable links joints).
Proof.
  intros links joints R. unfold acceptable.
  assert (NO : forall sk (P : Prop), sanity_check links joints = Ok (sk, false) -> ~ P -> exists sk b, sanity_check links joints = Ok (sk, b) /\ (b = true <-> P)) by (intros sk P E N; exists sk, false; split; [exact E | split; [discriminate | contradiction]]).
  destruct (Nat.eq_dec (length links) (S (length joints))) as [L|L]; [|apply NO with []; [unfold sanity_check; destruct (Nat.eqb_spec (length links) (S (length joints))); [contradiction | reflexivity] | tauto]].
  destruct (unique_names [] (map rl_name links)) eqn:U1; [|apply NO with []; [unfold sanity_check; rewrite L at 1; rewrite Nat.eqb_refl, U1; reflexivity|]; intros [H _]; assert (unique_names [] (map rl_name links) = true) by (apply unique_names_spec; split; [exact H | intros n _ []]); congruence].
  apply unique_names_spec in U1. destruct U1 as [U1 _].
  destruct (unique_names [] (map rj_name joints)) eqn:U2; [|apply NO with []; [unfold sanity_check; rewrite L at 1; rewrite Nat.eqb_refl, (proj2 (unique_names_spec (map rl_name links) [])) by (split; [exact U1 | intros n _ []]); rewrite U2; reflexivity|]; intros (_ & H & _); assert (unique_names [] (map rj_name joints) = true) by (apply unique_names_spec; split; [exact H | intros n _ []]); congruence].
  apply unique_names_spec in U2. destruct U2 as [U2 _].
  assert (AX : Forall (fun j => axis_ok j = true) joints <-> Forall (fun j => Rabs (vnorm (rj_axis j) - 1) <= epsilon) joints) by (rewrite !Forall_forall; split; intros H j I; apply axis_ok_spec, H, I).
  destruct (Forall_dec (fun j => axis_ok j = true) (fun j => Bool.bool_dec (axis_ok j) true) joints) as [A|A].
  2: { apply NO with []; [|rewrite <- AX; tauto]. unfold sanity_check. rewrite L at 1. rewrite Nat.eqb_refl. cbn [negb]. rewrite (proj2 (unique_names_spec (map rl_name links) [])) by (split; [exact U1 | intros n _ []]). rewrite (proj2 (unique_names_spec (map rj_name joints) [])) by (split; [exact U2 | intros n _ []]). cbn [negb]. rewrite add_edges_axis; [reflexivity | rewrite repeat_length; exact R | exact A]. }
  destruct (sanity_check_shape links joints R L U1 U2 A) as (sk & LS & G & E).
  destruct (negb (joint_of 0 (-1) 0 joints =? -1)%Z || negb (parent_of 0 (-1) joints =? -1)%Z) eqn:RT.
  - apply NO with []; [exact E|]. intros (_ & _ & _ & _ & ALL). destruct (tree_facts _ _ R L ALL) as [_ N0]. destruct (parent_of_none 0 (-1) joints N0) as [P J]. rewrite P, J in RT. discriminate.
  - assert (CH : forall l e, zget sk l = Some e -> e_children e = children_of l joints) by (intros l e X; destruct (G l (proj2 (zget_lt sk l) (ex_intro _ e X))) as (e' & X' & _ & _ & C'); congruence).
    assert (RS : in_range (length sk) joints) by (rewrite LS; exact R). assert (I0 : (0 <= 0 < Z.of_nat (length sk))%Z) by lia.
    assert (U0 : (unvisited (length sk) (fun _ => 0%N) < S (length sk))%nat) by (unfold unvisited; pose proof (filter_len (fun i : nat => (0 =? 0)%N) (seq 0 (length sk))) as F; rewrite seq_length in F; lia).
    assert (BZ : below (fun _ => 0%N)) by (intros k; lia).
    destruct (explore_ok sk joints RS CH (S (length sk)) 0 _ I0 BZ U0) as (b & m' & EX & F & V).
    unfold check_skeleton in E. rewrite EX in E. cbn [obind fst snd] in E. destruct (linkage_ok sk 0 sk) eqn:LK.
    + destruct b; cbn [obind] in E.
      * apply NO with sk; [exact E|]. intros (_ & _ & _ & _ & ALL). destruct (tree_facts _ _ R L ALL) as [ND N0]. rewrite <- LS in ALL. destruct (explore_tree sk joints RS CH ND N0 ALL (S (length sk)) 0 _ I0 BZ U0) as (m2 & EX2 & _); [reflexivity|]. congruence.
      * eexists. eexists. split; [exact E|]. split.
        -- intros T. rewrite <- AX. repeat split; try assumption. intros i I. rewrite <- LS in I. rewrite forallb_forall in T. specialize (T (Z.to_nat i) ltac:(apply in_seq; lia)). apply N.eqb_eq in T. rewrite Z2Nat.id in T by lia. destruct (V i) as [X|X]; [rewrite T; discriminate | contradiction | exact X].
        -- intros (_ & _ & _ & _ & ALL). destruct (tree_facts _ _ R L ALL) as [ND N0]. rewrite <- LS in ALL. destruct (explore_tree sk joints RS CH ND N0 ALL (S (length sk)) 0 _ I0 BZ U0) as (m2 & EX2 & F2 & _); [reflexivity|]. assert (m2 = m') by congruence. subst m2. apply forallb_forall. intros i I. apply in_seq in I. apply N.eqb_eq. apply F2. apply ALL. lia.
    + cbn [obind] in E. apply NO with sk; [exact E|]. intros (_ & _ & _ & _ & ALL). destruct (tree_facts _ _ R L ALL) as [ND N0]. rewrite <- LS in ALL. enough (linkage_ok sk 0 sk = true) by congruence.
      apply linkage_ok_intro. intros k e K. cbn [Nat.add]. assert (K' : zget sk (Z.of_nat k) = Some e) by (unfold zget; destruct (Z.ltb_spec (Z.of_nat k) 0); [lia | rewrite Nat2Z.id; exact K]).
      assert (KI : (0 <= Z.of_nat k < Z.of_nat (length sk))%Z) by (apply zget_lt; exists e; exact K').
      assert (JP : forall j, In j joints -> exists ce, zget sk (rj_child j) = Some ce /\ e_parent ce = rj_parent j).
      { intros j IJ. destruct (RS j IJ) as [_ RC]. destruct (G _ RC) as (ce & X & P & _). exists ce. split; [exact X|]. rewrite P. apply In_nth_error in IJ. destruct IJ as [n IJ]. exact (proj1 (parent_of_some joints ND n j (-1) 0 0 IJ)). }
      split.
      * destruct (Z.eq_dec (Z.of_nat k) 0) as [Z0|Z0].
        -- destruct (G _ KI) as (e' & X & P & _). rewrite K' in X. injection X as <-. unfold parent_ok. rewrite P, Z0. rewrite (proj1 (parent_of_none 0 (-1) joints N0)). reflexivity.
        -- pose proof (ALL _ KI) as H. inversion H as [Q|j IJ H' Q]; [lia|]. destruct (JP j IJ) as (ce & X & P). rewrite Q, K' in X. injection X as <-. destruct (RS j IJ) as [RP _]. unfold parent_ok. rewrite P.
           rewrite (proj2 (Z.leb_le 0 (rj_parent j))), (proj2 (Z.ltb_lt (rj_parent j) (Z.of_nat (length sk)))) by lia. cbn [andb].
           destruct (Z.eqb_spec (rj_parent j) (Z.of_nat k)) as [S|S]; [exfalso; apply (acyclic sk joints RS CH ND N0 ALL j IJ); rewrite Q, S; constructor|]. cbn [negb]. destruct (G _ RP) as (pe & XP & _ & _ & CP). rewrite XP, CP.
           apply existsb_exists. exists (Z.of_nat k). split; [apply children_in; exists j; auto | apply Z.eqb_refl].
      * rewrite (CH _ _ K'). apply forallb_forall. intros c IC. apply children_in in IC. destruct IC as (j & IJ & P & C). destruct (RS j IJ) as [_ RC]. destruct (JP j IJ) as (ce & X & PE). rewrite C in X, RC. unfold child_ok.
        assert (C0 : c <> 0%Z) by (intros ->; apply N0; rewrite <- C; apply in_map; exact IJ). rewrite (proj2 (Z.ltb_lt 0 c)), (proj2 (Z.ltb_lt c (Z.of_nat (length sk)))) by lia. cbn [andb].
        destruct (Z.eqb_spec c (Z.of_nat k)) as [S|S]; [exfalso; apply (acyclic sk joints RS CH ND N0 ALL j IJ); rewrite C, P, S; constructor|]. cbn [negb]. rewrite X, PE. apply Z.eqb_eq. exact P.
Qed.
Print Assumptions C116_check.
(** An accepted robot's skeleton: each joint is the one way into its child, the root has none, and the children of a link are those of its joints. *)
Theorem C116_skeleton : forall links joints sk, in_range (length links) joints -> sanity_check links joints = Ok (sk, true) ->
  length sk = length links /\ NoDup (map rj_child joints) /\ ~ In 0%Z (map rj_child joints) /\
  (forall k j, nth_error joints k = Some j -> exists e, zget sk (rj_child j) = Some e /\ e_parent e = rj_parent j /\ e_parent_joint e = Z.of_nat k) /\
  (forall i e, zget sk i = Some e -> e_children e = map rj_child (filter (fun j => (rj_parent j =? i)%Z) joints)).
Proof.
  intros links joints sk R E. destruct (C116_check links joints R) as (sk' & b & E' & IFF). rewrite E in E'. injection E' as <- <-. destruct (proj1 IFF eq_refl) as (N1 & N2 & A & L & ALL).
  assert (A' : Forall (fun j => axis_ok j = true) joints) by (rewrite Forall_forall in *; intros j I; apply axis_ok_spec, A, I).
  destruct (sanity_check_shape links joints R L N1 N2 A') as (sk' & LS & G & E'). destruct (tree_facts _ _ R L ALL) as [ND N0]. destruct (parent_of_none 0 (-1) joints N0) as [P J]. rewrite P, J in E'. cbn [Z.eqb Pos.eqb negb orb] in E'. rewrite E in E'.
  destruct (check_skeleton sk') as [b| | | |]; cbn [obind] in E'; try discriminate. injection E' as -> _. split; [exact LS|]. split; [exact ND|]. split; [exact N0|]. split.
  - intros k j K. destruct (R j (nth_error_In _ _ K)) as [_ RC]. rewrite <- LS in RC. destruct (G _ RC) as (e & X & PE & JE & _). exists e. split; [exact X|]. destruct (parent_of_some joints ND k j (-1) (-1) 0 K) as [H1 H2]. rewrite PE, JE, H1, H2. split; reflexivity.
  - intros i e X. destruct (G i (proj2 (zget_lt sk' i) (ex_intro _ e X))) as (e' & X' & _ & _ & C). rewrite X in X'. injection X' as <-. exact C.
Qed.
Print Assumptions C116_skeleton.
(** A joint with an index that is no link's is not refused: the array is indexed with it. *)
Theorem C116_index_refuted : exists links joints, length links = S (length joints) /\ NoDup (map rl_name links) /\ NoDup (map rj_name joints) /\
  Forall (fun j => Rabs (vnorm (rj_axis j) - 1) <= epsilon) joints /\ ~ in_range (length links) joints /\ sanity_check links joints = UB.
Proof.
  assert (A : vnorm (mkV 0 0 1) = 1) by (unfold vnorm, vdot; cbn; replace (0 * 0 + 0 * 0 + 1 * 1) with 1 by ring; apply sqrt_1).
  assert (B : Rabs (vnorm (mkV 0 0 1) - 1) <= epsilon) by (rewrite A, Rminus_diag_eq, Rabs_R0 by reflexivity; unfold epsilon; apply Rlt_le, Rinv_0_lt_compat, pow_lt; lra).
  exists [mkRL Unset "a"; mkRL Unset "b"], [mkRJ iid (mkV 0 0 1) 0 2 default_joint "j"]. split; [reflexivity|]. split; [repeat constructor; cbn; intuition discriminate|]. split; [repeat constructor; cbn; intuition discriminate|].
  split; [constructor; [exact B | constructor]|]. split; [intros R; destruct (R _ (or_introl eq_refl)) as [_ C]; cbn in C; lia|].
  unfold sanity_check. cbn [length Nat.eqb negb map rl_name rj_name]. cbn [unique_names existsb String.eqb Ascii.eqb Bool.eqb negb orb repeat add_edges].
  rewrite (proj2 (axis_ok_spec _)) by exact B. reflexivity.
Qed.
Print Assumptions C116_index_refuted.
(** A robot that is acceptable: three links in a row and a branch. *)
Example acceptable_case : let J := fun p c n => mkRJ iid (mkV 0 0 1) p c default_joint n in let L := fun n => mkRL Unset n in
  in_range 4 [J 0 1 "j"; J 1 2 "k"; J 1 3 "l"]%Z%string /\ acceptable [L "a"; L "b"; L "c"; L "d"]%string [J 0 1 "j"; J 1 2 "k"; J 1 3 "l"]%Z%string.
Proof.
  cbv zeta. set (J1 := mkRJ iid (mkV 0 0 1) 0 1 default_joint "j"). set (J2 := mkRJ iid (mkV 0 0 1) 1 2 default_joint "k"). set (J3 := mkRJ iid (mkV 0 0 1) 1 3 default_joint "l").
  split; [intros j [<-|[<-|[<-|[]]]]; cbn; lia|].
  assert (A : Rabs (vnorm (mkV 0 0 1) - 1) <= epsilon) by (unfold vnorm, vdot; cbn; replace (0 * 0 + 0 * 0 + 1 * 1) with 1 by ring; rewrite sqrt_1, Rminus_diag_eq, Rabs_R0 by reflexivity; unfold epsilon; apply Rlt_le, Rinv_0_lt_compat, pow_lt; lra).
  split; [repeat constructor; cbn; intuition discriminate|]. split; [repeat constructor; cbn; intuition discriminate|]. split; [repeat (constructor; [exact A|]); constructor|]. split; [reflexivity|].
  assert (R1 : reach [J1; J2; J3] 0 1) by (apply (reach_next [J1; J2; J3] 0%Z J1); [left; reflexivity | constructor]).
  intros i I. cbn in I. assert (i = 0 \/ i = 1 \/ i = 2 \/ i = 3)%Z as [->|[->|[->| ->]]] by lia; [constructor | exact R1 | apply (reach_next [J1; J2; J3] 0%Z J2); [right; left; reflexivity | exact R1] | apply (reach_next [J1; J2; J3] 0%Z J3); [right; right; left; reflexivity | exact R1]].
Qed.
