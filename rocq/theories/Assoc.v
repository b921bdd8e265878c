(** Hash maps and ordered maps of the standard library as association lists over keys with decidable equality. *)
From Verif Require Import Base.

Section Assoc.
Context {K T : Type}.
Variable eqb : K -> K -> bool.

(** find *)
Fixpoint a_find (k : K) (m : list (K * T)) : option T :=
  match m with [] => None | (k', v) :: m' => if eqb k' k then Some v else a_find k m' end.
(** erase *)
Definition a_erase (k : K) (m : list (K * T)) : list (K * T) := filter (fun kv => negb (eqb (fst kv) k)) m.
(** assignment through operator[] *)
Definition a_set (k : K) (v : T) (m : list (K * T)) : list (K * T) := (k, v) :: a_erase k m.

Hypothesis E : forall a b, reflect (a = b) (eqb a b).
Lemma a_find_erase k k' m : a_find k (a_erase k' m) = if eqb k k' then None else a_find k m.
Proof.
  unfold a_erase. induction m as [|[k0 v] m IH]; cbn; [destruct (eqb k k'); auto|].
  destruct (E k0 k'); cbn.
  - subst k0. rewrite IH. destruct (E k k'); auto. destruct (E k' k); auto. congruence.
  - destruct (E k0 k); [|apply IH]. subst k0. destruct (E k k'); auto. contradiction.
Qed.
Lemma a_find_set k k' v m : a_find k (a_set k' v m) = if eqb k k' then Some v else a_find k m.
Proof.
  unfold a_set. cbn [a_find]. rewrite a_find_erase. destruct (E k' k), (E k k'); auto; congruence.
Qed.
Lemma a_find_in k m v : a_find k m = Some v -> In (k, v) m.
Proof. induction m as [|[k0 v0] m IH]; cbn; [discriminate|]. destruct (E k0 k); [intros [= ->]; subst; auto|auto]. Qed.
Lemma a_find_key k m : (exists v, a_find k m = Some v) <-> In k (map fst m).
Proof.
  induction m as [|[k0 v0] m IH]; cbn; [split; [intros [v [=]]|intros []]|].
  destruct (E k0 k) as [->|N]; [split; eauto|]. rewrite IH. split; auto. intros [->|]; auto. contradiction.
Qed.
Lemma a_find_none k m : a_find k m = None <-> ~ In k (map fst m).
Proof.
  rewrite <- a_find_key. destruct (a_find k m); split; auto; try discriminate.
  - intros H. elim H. eauto.
  - intros _ [v [=]].
Qed.
Lemma a_set_nodup k v m : NoDup (map fst m) -> NoDup (map fst (a_set k v m)).
Proof.
  intros N. cbn. constructor.
  - intros I. apply in_map_iff in I. destruct I as ((k' & v') & <- & I). apply filter_In in I. cbn in I.
    destruct (E k' k'); [destruct I; discriminate|congruence].
  - induction m as [|[k0 v0] m IH]; cbn; [constructor|]. inversion N as [|? ? NI N']. subst.
    destruct (eqb k0 k); cbn; auto. constructor; auto.
    intros I. apply NI. apply in_map_iff in I. destruct I as (x & <- & I). apply filter_In in I. apply in_map, I.
Qed.
Definition a_mem (k : K) (l : list K) : bool := existsb (fun x => eqb x k) l.
Lemma a_mem_iff k l : a_mem k l = true <-> In k l.
Proof.
  unfold a_mem. rewrite existsb_exists. split.
  - intros (x & I & H). destruct (E x k); [subst; auto|discriminate].
  - intros I. exists k. split; auto. destruct (E k k); auto.
Qed.
Lemma a_mem_false k l : a_mem k l = false <-> ~ In k l.
Proof. rewrite <- a_mem_iff. destruct (a_mem k l); split; auto; try discriminate. intros H. elim H. auto. Qed.
End Assoc.
