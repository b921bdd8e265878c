(** Path costs and priority queues, as the search code sees them. *)
From Verif Require Import Base.
From Coq Require Import Permutation.

(** The operations the code performs on its [double] costs: [0.0], infinity, [+], [<], [>=]. *)
Record cost := {
  cval :> Type;
  czero : cval;
  cinf : cval;
  cadd : cval -> cval -> cval;
  cltb : cval -> cval -> bool;
  cgeb : cval -> cval -> bool
}.
Arguments czero {c}. Arguments cinf {c}. Arguments cadd {c}. Arguments cltb {c}. Arguments cgeb {c}.

(** Laws of non-negative costs [ok].  They hold for IEEE doubles with rounding (see [CostFloat.v]): addition
    need be neither associative nor strictly monotone. *)
Record cost_laws (C : cost) (ok : C -> Prop) : Prop := {
  cl_zero : ok czero;
  cl_inf : ok cinf;
  cl_add : forall a w, ok a -> ok w -> ok (cadd a w);
  cl_irrefl : forall a, ok a -> cltb a a = false;
  cl_trans : forall a b c, ok a -> ok b -> ok c -> cltb a b = true -> cltb b c = true -> cltb a c = true;
  cl_negtrans : forall a b c, ok a -> ok b -> ok c -> cltb a b = false -> cltb b c = false -> cltb a c = false;
  cl_geb : forall a b, ok a -> ok b -> cgeb a b = negb (cltb a b);
  cl_zero_min : forall a, ok a -> cltb a czero = false;
  cl_zero_inf : cltb (czero : C) cinf = true;
  cl_inf_max : forall a, ok a -> cltb cinf a = false;
  cl_infl : forall a w, ok a -> ok w -> cltb (cadd a w) a = false;
  cl_mono : forall a b w, ok a -> ok b -> ok w -> cltb b a = false -> cltb (cadd b w) (cadd a w) = false
}.

(** Additional laws of exact arithmetic. *)
Record exact_laws (C : cost) (ok : C -> Prop) : Prop := {
  ex_zero_l : forall a, ok a -> cadd czero a = a;
  ex_zero_r : forall a, ok a -> cadd a czero = a;
  ex_assoc : forall a b c, ok a -> ok b -> ok c -> cadd (cadd a b) c = cadd a (cadd b c);
  ex_mono_r : forall a b w, ok a -> ok b -> ok w -> cltb b a = false -> cltb (cadd w b) (cadd w a) = false;
  ex_antisym : forall a b, ok a -> ok b -> cltb a b = false -> cltb b a = false -> a = b
}.

Section Order.
Context {C : cost} {ok : C -> Prop}.
Variable L : cost_laws C ok.

(** [a <= b] *)
Definition cle (a b : C) : Prop := cltb b a = false.

Lemma cle_refl a : ok a -> cle a a.
Proof. apply (cl_irrefl _ _ L). Qed.
Lemma cle_trans a b c : ok a -> ok b -> ok c -> cle a b -> cle b c -> cle a c.
Proof. unfold cle. intros A B D H1 H2. apply (cl_negtrans _ _ L c b a); auto. Qed.
Lemma clt_le a b : ok a -> ok b -> cltb a b = true -> cle a b.
Proof.
  unfold cle. intros A B H. destruct (cltb b a) eqn:E; auto.
  pose proof (cl_trans _ _ L a b a A B A H E) as X. rewrite (cl_irrefl _ _ L a A) in X. discriminate.
Qed.
Lemma clt_le_trans a b c : ok a -> ok b -> ok c -> cltb a b = true -> cle b c -> cltb a c = true.
Proof.
  unfold cle. intros A B D H1 H2. destruct (cltb a c) eqn:E; auto.
  rewrite (cl_negtrans _ _ L a c b) in H1; auto.
Qed.
Lemma cle_lt_trans a b c : ok a -> ok b -> ok c -> cle a b -> cltb b c = true -> cltb a c = true.
Proof.
  unfold cle. intros A B D H1 H2. destruct (cltb a c) eqn:E; auto.
  rewrite (cl_negtrans _ _ L b a c) in H2; auto.
Qed.
Lemma cle_add_mono a b w : ok a -> ok b -> ok w -> cle a b -> cle (cadd a w) (cadd b w).
Proof. apply (cl_mono _ _ L). Qed.
Lemma cle_add a w : ok a -> ok w -> cle a (cadd a w).
Proof. apply (cl_infl _ _ L). Qed.
Lemma cltb_false_le a b : cltb a b = false -> cle b a.
Proof. auto. Qed.
End Order.

(** ** Priority queues

    std::priority_queue keeps its elements in a vector as a heap; the code can only push, and take the top.
    [pq_inv] is the heap invariant, [pq_push] and [pq_pop] are any functions on the vector that keep it, lose
    no element, and deliver an element that no other element precedes.  Which of several such elements is
    delivered is unspecified, and theorems quantify over all implementations.  [before x y] is "x must come out
    before y"; std::priority_queue only promises the order when the comparison is a strict weak order on the
    elements present, here when they satisfy [good]. *)
Record pqueue (A : Type) := {
  pq_inv : list A -> Prop;
  pq_push : A -> list A -> list A;
  pq_pop : list A -> option (A * list A)
}.
Arguments pq_inv {A}. Arguments pq_push {A}. Arguments pq_pop {A}.

(** Nothing is lost or invented. *)
Record pq_sane {A} (Q : pqueue A) : Prop := {
  pq_inv_nil : pq_inv Q [];
  pq_push_inv : forall x q, pq_inv Q q -> pq_inv Q (pq_push Q x q);
  pq_push_perm : forall x q, Permutation (pq_push Q x q) (x :: q);
  pq_pop_nil : pq_pop Q [] = None;
  pq_pop_some : forall q, pq_inv Q q -> q <> [] ->
    exists x q', pq_pop Q q = Some (x, q') /\ Permutation q (x :: q') /\ pq_inv Q q'
}.

(** The order is respected. *)
Definition pq_ordered {A} (Q : pqueue A) (before : A -> A -> bool) (good : A -> Prop) : Prop :=
  forall q x q', pq_inv Q q -> Forall good q -> pq_pop Q q = Some (x, q') ->
  forall y, In y q' -> before y x = false.

(** A reference implementation: an unsorted list from which the first least element is taken. *)
Section ListQueue.
Context {A : Type} (before : A -> A -> bool).
Fixpoint take_min (x : A) (q : list A) : A * list A :=
  match q with
  | [] => (x, [])
  | y :: q' => if before y x then let '(m, r) := take_min y q' in (m, x :: r)
               else let '(m, r) := take_min x q' in (m, y :: r)
  end.
Definition list_queue : pqueue A :=
  {| pq_inv := fun _ => True;
     pq_push := fun x q => q ++ [x];
     pq_pop := fun q => match q with [] => None | x :: q' => Some (take_min x q') end |}.

Lemma take_min_perm x q : Permutation (x :: q) (fst (take_min x q) :: snd (take_min x q)).
Proof.
  revert x; induction q as [|y q IH]; intros x; cbn [take_min]; auto.
  destruct (before y x).
  - specialize (IH y). destruct (take_min y q) as [m r]. cbn [fst snd] in *.
    transitivity (x :: m :: r); [constructor; exact IH|constructor].
  - specialize (IH x). destruct (take_min x q) as [m r]. cbn [fst snd] in *.
    transitivity (y :: x :: q); [constructor|]. transitivity (y :: m :: r); [constructor; exact IH|constructor].
Qed.

Lemma list_queue_sane : pq_sane list_queue.
Proof.
  split; cbn; auto.
  - intros x q. symmetry. apply Permutation_cons_append.
  - intros [|x q] _ H; [congruence|]. pose proof (take_min_perm x q).
    destruct (take_min x q) as [m r]. exists m, r. auto.
Qed.

Variable good : A -> Prop.
Hypothesis B_irrefl : forall a, good a -> before a a = false.
Hypothesis B_trans : forall a b c, good a -> good b -> good c -> before a b = true -> before b c = true -> before a c = true.
Hypothesis B_negtrans : forall a b c, good a -> good b -> good c -> before a b = false -> before b c = false -> before a c = false.

Lemma take_min_least x q : good x -> Forall good q ->
  good (fst (take_min x q)) /\ before x (fst (take_min x q)) = false /\
  forall y, In y (snd (take_min x q)) -> before y (fst (take_min x q)) = false.
Proof.
  revert x; induction q as [|z q IH]; intros x Gx Gq; cbn [take_min].
  - cbn. repeat split; auto. intros y [].
  - inversion Gq as [|? ? Gz Gq']; subst. destruct (before z x) eqn:E.
    + destruct (IH z Gz Gq') as (G & H1 & H2). destruct (take_min z q) as [m r]. cbn [fst snd] in *.
      assert (before x m = false).
      { apply (B_negtrans x z m); auto. destruct (before x z) eqn:F; auto.
        rewrite <- (B_irrefl x Gx). symmetry. apply (B_trans x z x); auto. }
      repeat split; auto. intros y [<-|I]; auto.
    + destruct (IH x Gx Gq') as (G & H1 & H2). destruct (take_min x q) as [m r]. cbn [fst snd] in *.
      repeat split; auto. intros y [<-|I]; auto. apply (B_negtrans z x m); auto.
Qed.

Lemma list_queue_ordered : pq_ordered list_queue before good.
Proof.
  intros [|x q] m r _ G H; cbn in H; [discriminate|]. injection H as H. inversion G; subst.
  pose proof (take_min_least x q ltac:(assumption) ltac:(assumption)) as (_ & _ & X). rewrite H in X. exact X.
Qed.
End ListQueue.

(** ** Exact costs: natural numbers with infinity *)
Definition ninf : cost :=
  {| cval := option N;
     czero := Some 0%N;
     cinf := None;
     cadd := fun a b => match a, b with Some x, Some y => Some (x + y)%N | _, _ => None end;
     cltb := fun a b => match a, b with
                        | Some x, Some y => (x <? y)%N
                        | Some _, None => true
                        | None, _ => false end;
     cgeb := fun a b => match a, b with
                        | Some x, Some y => (y <=? x)%N
                        | None, _ => true
                        | Some _, None => false end |}.

Lemma ninf_laws : cost_laws ninf (fun _ => True).
Proof.
  split; cbn; auto; intros; repeat match goal with x : option N |- _ => destruct x end; auto; try discriminate; try lia.
Qed.
Lemma ninf_exact : exact_laws ninf (fun _ => True).
Proof.
  split; cbn; auto; intros; repeat match goal with x : option N |- _ => destruct x end; auto; try discriminate; try lia;
  f_equal; lia.
Qed.
