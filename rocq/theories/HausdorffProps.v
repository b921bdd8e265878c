(** C44: the Hausdorff distance. *)
From Coq Require Import Permutation.
From Verif Require Import Base Cost CostFloat KnnProps HausdorffModel.

(** ** Specification *)
(** [d] is the largest, over the items of the first set, of the smallest distance to an item of the second: from every
    first item some second item is no further than [d], and from some first item no second item is closer than [d]. *)
Definition hausdorff_of {C : cost} {A B} (dist : A -> B -> C) (first : list A) (second : list B) (d : C) : Prop :=
  (forall x, In x first -> exists y, In y second /\ cltb d (dist x y) = false) /\
  (exists x, In x first /\ forall y, In y second -> cltb (dist x y) d = false).
(** Neither is less than the other: what == says for doubles that are not NaN. *)
Definition same {C : cost} (c d : C) : Prop := cltb c d = false /\ cltb d c = false.

Section P.
Context {C : cost} {ok : C -> Prop}.
Variable L : cost_laws C ok.
Context {A B : Type}.
Variable dist : A -> B -> C.
Hypothesis Hdist : forall x y, ok (dist x y).

Lemma min_fold x second : forall acc, ok acc ->
  let m := fold_left (fun m y => if cltb (dist x y) m then dist x y else m) second acc in
  ok m /\ cltb acc m = false /\ (forall y, In y second -> cltb (dist x y) m = false) /\ (m = acc \/ exists y, In y second /\ m = dist x y).
Proof.
  induction second as [|y second IH]; intros acc Oa; cbn [fold_left].
  - split; auto. split; [apply (cle_refl L); auto|]. split; [intros y []|auto].
  - destruct (IH (if cltb (dist x y) acc then dist x y else acc)) as (O & M & F & E); [destruct (cltb (dist x y) acc); auto|].
    set (m := fold_left _ _ _) in *. cbn zeta. split; auto. destruct (cltb (dist x y) acc) eqn:G.
    + split; [apply (cle_trans L m (dist x y) acc); auto; apply (clt_le L); auto|]. split.
      * intros y' [<-|I]; auto.
      * destruct E as [E|(y' & I & E)]; right; [exists y|exists y']; split; auto; [left; auto|right; auto].
    + split; auto. split.
      * intros y' [<-|I]; auto. apply (cle_trans L m acc (dist x y)); auto.
      * destruct E as [E|(y' & I & E)]; auto. right. exists y'. split; [right|]; auto.
Qed.
Lemma min_ok x second : ok (min_distance dist x second).
Proof. apply (min_fold x second cinf (cl_inf _ _ L)). Qed.
Lemma max_fold l : forall acc, ok acc -> Forall ok l ->
  let m := fold_left keep_max l acc in ok m /\ cltb m acc = false /\ (forall v, In v l -> cltb m v = false) /\ (m = acc \/ In m l).
Proof.
  induction l as [|v l IH]; intros acc Oa F; cbn [fold_left].
  - split; auto. split; [apply (cle_refl L); auto|]. split; [intros y []|auto].
  - inversion F as [|? ? Ov Fl]; subst. destruct (IH (keep_max acc v)) as (O & M & G & E); auto; [unfold keep_max; destruct (cltb acc v); auto|].
    set (m := fold_left keep_max l (keep_max acc v)) in *. cbn zeta. split; auto. unfold keep_max in *. destruct (cltb acc v) eqn:K.
    + split; [apply (cle_trans L acc v m); auto; apply (clt_le L); auto|]. split; [intros w [<-|I]; auto|]. destruct E as [E|E]; right; [left|right]; auto.
    + split; auto. split; [intros w [<-|I]; auto; apply (cle_trans L v acc m); auto|]. destruct E as [E|E]; [left|right; right]; auto.
Qed.

(** The value is the largest of the smallest distances. *)
Lemma hausdorff_max schedule first second : schedule_of (length first) schedule ->
  let d := hausdorff dist schedule first second in
  ok d /\ (forall x, In x first -> cltb d (min_distance dist x second) = false) /\ (d = czero \/ exists x, In x first /\ d = min_distance dist x second).
Proof.
  intros S. unfold hausdorff. set (vals := fun its => flat_map (fun idx => match nth_error first idx with Some x => [min_distance dist x second] | None => [] end) its).
  set (per := map _ schedule).
  assert (V : forall its v, In v (vals its) <-> exists idx x, In idx its /\ nth_error first idx = Some x /\ v = min_distance dist x second).
  { intros its v. unfold vals. rewrite in_flat_map. split.
    - intros (idx & I & X). destruct (nth_error first idx) as [x|] eqn:N; [|destruct X]. destruct X as [<-|[]]. exists idx, x. auto.
    - intros (idx & x & I & N & ->). exists idx. split; auto. rewrite N. left. reflexivity. }
  assert (VO : forall its, Forall ok (vals its)). { intros its. apply Forall_forall. intros v I. apply V in I as (idx & x & _ & _ & ->). apply min_ok. }
  assert (T : forall its, let t := fold_left keep_max (vals its) czero in ok t /\ (forall v, In v (vals its) -> cltb t v = false) /\ (t = czero \/ In t (vals its))).
  { intros its. destruct (max_fold (vals its) czero (cl_zero _ _ L) (VO its)) as (O & _ & G & E). auto. }
  assert (PO : Forall ok per). { apply Forall_forall. intros v I. unfold per in I. apply in_map_iff in I as (its & <- & _). apply T. }
  destruct (max_fold per czero (cl_zero _ _ L) PO) as (O & _ & G & E). cbn zeta. split; auto. split.
  - intros x I. apply In_nth_error in I as [idx N]. assert (Ii : In idx (concat schedule)).
    { apply (Permutation_in idx (Permutation_sym S)). apply in_seq. split; [lia|]. cbn. apply nth_error_Some. congruence. }
    apply in_concat in Ii as (its & I1 & I2). destruct (T its) as (TO & TG & _).
    apply (cle_trans L _ (fold_left keep_max (vals its) czero)); auto; [apply min_ok|apply TG, V; exists idx, x; auto|].
    apply G. unfold per. apply in_map_iff. exists its. split; [reflexivity|auto].
  - destruct E as [E|E]; auto. unfold per in E at 2. apply in_map_iff in E as (its & E & I). destruct (T its) as (_ & _ & [Z|X]).
    + left. rewrite <- E. exact Z.
    + apply V in X as (idx & x & _ & N & X). right. exists x. split; [eapply nth_error_In; eauto|]. rewrite <- E. exact X.
Qed.
End P.

(** C44: with neither set empty, the Hausdorff distance, under every schedule. *)
Theorem C44_hausdorff : forall (C : cost) ok (L : cost_laws C ok) (A B : Type) (dist : A -> B -> C) schedule first second,
  (forall x y, ok (dist x y)) -> first <> [] -> second <> [] -> schedule_of (length first) schedule ->
  hausdorff_of dist first second (hausdorff dist schedule first second).
Proof.
  intros C ok L A B dist schedule first second D N1 N2 S. destruct (hausdorff_max L dist D schedule first second S) as (O & G & E).
  set (d := hausdorff dist schedule first second) in *.
  assert (M : forall x, ok (min_distance dist x second) /\ (forall y, In y second -> cltb (dist x y) (min_distance dist x second) = false) /\
    exists y, In y second /\ cltb (min_distance dist x second) (dist x y) = false).
  { intros x. destruct (min_fold L dist D x second cinf (cl_inf _ _ L)) as (MO & _ & MF & ME). fold (min_distance dist x second) in *. split; auto. split; auto.
    destruct ME as [ME|(y & I & ME)]; [|exists y; split; auto; rewrite ME; apply (cle_refl L); auto].
    destruct second as [|y second]; [congruence|]. exists y. split; [left; auto|]. rewrite ME. apply (cl_inf_max _ _ L); auto. }
  split.
  - intros x I. destruct (M x) as (MO & _ & y & Iy & ME). exists y. split; auto. apply (cle_trans L (dist x y) (min_distance dist x second) d); auto. apply G; auto.
  - destruct E as [E|(x & I & E)]; [|exists x; split; auto; rewrite E; apply M]. destruct first as [|x first]; [congruence|]. exists x. split; [left; auto|].
    intros y Iy. rewrite E. apply (cl_zero_min _ _ L); auto.
Qed.
Print Assumptions C44_hausdorff.

(** The value does not depend on the threads: that specification has one value up to ==. *)
Theorem C44_schedules_agree : forall (C : cost) ok (L : cost_laws C ok) (A B : Type) (dist : A -> B -> C) s1 s2 first second,
  (forall x y, ok (dist x y)) -> schedule_of (length first) s1 -> schedule_of (length first) s2 ->
  same (hausdorff dist s1 first second) (hausdorff dist s2 first second).
Proof.
  intros C ok L A B dist s1 s2 first second D S1 S2.
  assert (H : forall s s', schedule_of (length first) s -> schedule_of (length first) s' -> cltb (hausdorff dist s first second) (hausdorff dist s' first second) = false).
  { intros s s' S S'. destruct (hausdorff_max L dist D s first second S) as (O & G & _). destruct (hausdorff_max L dist D s' first second S') as (_ & _ & [ -> | (x & I & ->) ]); [|apply G; auto].
    apply (cl_zero_min _ _ L); auto. }
  split; apply H; auto.
Qed.
Print Assumptions C44_schedules_agree.

(** The degenerate cases: nothing to cover costs 0, an empty set covers nothing. *)
Theorem C44_empty : forall (C : cost) (A B : Type) (dist : A -> B -> C) ok (L : cost_laws C ok) schedule (first : list A) (second : list B),
  (forall x y, ok (dist x y)) -> schedule_of (length first) schedule ->
  (first = [] -> hausdorff dist schedule first second = czero) /\ (first <> [] -> second = [] -> hausdorff dist schedule first second = cinf).
Proof.
  intros C A B dist ok L schedule first second D S. destruct (hausdorff_max L dist D schedule first second S) as (O & G & E). split.
  - intros ->. destruct E as [E|(x & [] & _)]. exact E.
  - intros N ->. destruct E as [E|(x & I & E)]; [|exact E]. destruct first as [|x first]; [congruence|]. specialize (G x (or_introl eq_refl)). rewrite E in G. cbn in G.
    rewrite (cl_zero_inf _ _ L) in G. discriminate.
Qed.
Print Assumptions C44_empty.

(** C44 for doubles. *)
Theorem C44_doubles : forall (A B : Type) (dist : A -> B -> b64_cost) schedule first second, (forall x y, b64_ok (dist x y)) -> first <> [] -> second <> [] ->
  schedule_of (length first) schedule -> hausdorff_of dist first second (hausdorff dist schedule first second).
Proof. intros A B dist. apply (C44_hausdorff b64_cost b64_ok b64_laws). Qed.
Print Assumptions C44_doubles.

Definition hgap (x y : N) : ninf := Some (x - y + (y - x))%N.
Example C44_example : schedule_of 3 [[2]; []; [0; 1]] /\ hausdorff hgap [[2]; []; [0; 1]] [0; 10; 4]%N [1; 8]%N = (Some 3%N : ninf).
Proof. split; [apply (Permutation_app_comm [2] [0; 1])|reflexivity]. Qed.
