(** Properties of the pseudo-random generators: C30, C62, C63. *)
From Verif Require Import Base PrngModel.
From Coq Require Import ZArith.
Local Open Scope N_scope.

Definition word (x : N) : Prop := x < 2 ^ 64.

(** ** C30 *)
Section R.
Context {St : Type}.
Variable next : St -> N * St.
Variable seed : N -> St -> St.
Variable make : N -> St.

Lemma rrun_app st h h' : rrun next seed st (h ++ h') =
  let '(xs, st') := rrun next seed st h in let '(ys, st'') := rrun next seed st' h' in (xs ++ ys, st'').
Proof.
  revert st. induction h as [|o h IH]; intros st; cbn [rrun app].
  - destruct (rrun _ _ st h'); reflexivity.
  - destruct o as [|n|s]; [|apply IH|apply IH].
    destruct (next st) as [x st1]. rewrite IH. destruct (rrun _ _ st1 h) as [xs st2].
    destruct (rrun _ _ st2 h') as [ys st3]. reflexivity.
Qed.

(** discard(n) leaves the generator as n draws do. *)
Lemma discard_is_draws n st : discard next n st = snd (rrun next seed st (repeat Draw n)).
Proof.
  revert st. induction n as [|n IH]; intros st; cbn [discard repeat rrun]; auto.
  rewrite IH. destruct (next st) as [x st1]. cbn [snd]. destruct (rrun _ _ st1 _); reflexivity.
Qed.

(** Reseeding makes a used generator a fresh one, whatever happened before; hence whatever happens after produces
    what the fresh one produces. *)
Definition reseed_is_fresh : Prop := forall st h s after,
  let used := snd (rrun next seed st (h ++ [Seed s])) in
  used = make s /\ rrun next seed used after = rrun next seed (make s) after.
End R.

Definition sm_seed (s : N) (_ : N) : N := s.
Definition xs_reseed (s : N) (_ : N * N) : N * N := xs_seed s.

(** C30 for SplitMix64 and XorShift128+. *)
Theorem C30_splitmix : reseed_is_fresh sm_next sm_seed (fun s => s) /\
  forall n st, discard sm_next n st = snd (rrun sm_next sm_seed st (repeat Draw n)).
Proof.
  split; [|intros; apply discard_is_draws].
  intros st h s after. cbv zeta. rewrite rrun_app. destruct (rrun sm_next sm_seed st h) as [xs st']. split; reflexivity.
Qed.
Theorem C30_xorshift128 : reseed_is_fresh xs_next xs_reseed xs_seed /\
  forall n st, discard xs_next n st = snd (rrun xs_next xs_reseed st (repeat Draw n)).
Proof.
  split; [|intros; apply discard_is_draws].
  intros st h s after. cbv zeta. rewrite rrun_app. destruct (rrun xs_next xs_reseed st h) as [xs st']. split; reflexivity.
Qed.
Print Assumptions C30_splitmix.
Print Assumptions C30_xorshift128.

(** C30 is false for XorShift1024*: seed leaves the position p, so a generator that drew one number and is then
    reseeded produces other numbers than a fresh one with the same seed. *)
Theorem C30_xorshift1024_refuted : exists s0 s,
  fst (rrun big_next big_seed (big_make s0) [Draw; Seed s; Draw; Draw]) <>
  fst (rrun big_next big_seed (big_make s0) [Draw]) ++ fst (rrun big_next big_seed (big_make s) [Draw; Draw]).
Proof. exists 1, 2. intro H. vm_compute in H. discriminate. Qed.
Print Assumptions C30_xorshift1024_refuted.

(** Number of draws of a history, counted modulo nothing. *)
Fixpoint draws (h : list rop) : nat :=
  match h with [] => 0 | Draw :: h' => S (draws h') | Discard n :: h' => n + draws h' | Seed _ :: h' => draws h' end.

Lemma big_pos st : snd (snd (big_next st)) = (S (snd st) mod 16)%nat.
Proof. destruct st as [a p]. reflexivity. Qed.
Lemma mod16 a n : ((S a mod 16 + n) mod 16 = (S n + a) mod 16)%nat.
Proof. rewrite Nat.add_mod_idemp_l by lia. f_equal. lia. Qed.
Lemma discard_pos n : forall st, (snd st < 16)%nat -> snd (discard big_next n st) = ((n + snd st) mod 16)%nat.
Proof.
  induction n as [|n IH]; intros st H; cbn [discard].
  - cbn [Nat.add]. rewrite Nat.mod_small; auto.
  - rewrite IH; rewrite big_pos; [|apply Nat.mod_upper_bound; lia].
    rewrite Nat.add_comm. apply mod16.
Qed.
Lemma run_pos h : forall st, (snd st < 16)%nat ->
  snd (snd (rrun big_next big_seed st h)) = ((draws h + snd st) mod 16)%nat.
Proof.
  induction h as [|[|n|s] h IH]; intros st H; cbn [rrun draws].
  - cbn [snd Nat.add]. rewrite Nat.mod_small; auto.
  - pose proof (big_pos st) as P. destruct (big_next st) as [x st1]. cbn [snd] in P.
    assert (L : (snd st1 < 16)%nat) by (rewrite P; apply Nat.mod_upper_bound; lia).
    specialize (IH st1 L). destruct (rrun big_next big_seed st1 h) as [xs st2]. cbn [snd] in *. rewrite IH, P.
    rewrite Nat.add_comm. apply mod16.
  - rewrite IH; rewrite discard_pos by auto; [|apply Nat.mod_upper_bound; lia].
    rewrite Nat.add_comm, Nat.add_mod_idemp_l by lia. f_equal. lia.
  - rewrite IH; auto.
Qed.

(** C30 for XorShift1024*: reseeding gives a fresh generator exactly when the draws so far are a multiple of 16.
    Missing: every other number of draws, where it is false (previous theorem). *)
Theorem C30_xorshift1024_partial : forall s0 h s,
  (snd (rrun big_next big_seed (big_make s0) (h ++ [Seed s])) = big_make s <-> (draws h mod 16 = 0)%nat) /\
  forall n st, discard big_next n st = snd (rrun big_next big_seed st (repeat Draw n)).
Proof.
  intros s0 h s. split; [|intros; apply discard_is_draws].
  rewrite rrun_app. assert (L : (snd (big_make s0) < 16)%nat) by (cbn; lia).
  pose proof (run_pos h _ L) as P. destruct (rrun big_next big_seed (big_make s0) h) as [xs st'].
  cbn [rrun snd] in *. unfold big_seed, big_make. cbn [snd] in *. rewrite P. unfold big_make. cbn [snd]. rewrite Nat.add_0_r.
  split; intros E; [injection E; auto|rewrite E; reflexivity].
Qed.
Print Assumptions C30_xorshift1024_partial.

(** ** Bit facts *)
Lemma w64_word x : word (w64 x).
Proof. apply N.mod_lt. vm_compute. discriminate. Qed.
Lemma w64_id x : word x -> w64 x = x.
Proof. apply N.mod_small. Qed.

Lemma shr_fixed c k : 0 < k -> shr c k = c -> c = 0.
Proof.
  intros K H. destruct (N.eq_dec c 0) as [|NZ]; auto. exfalso. unfold shr in H. rewrite N.shiftr_div_pow2 in H.
  assert (c / 2 ^ k < c); [|lia]. apply N.div_lt; [lia|].
  change 1 with (2 ^ 0). apply N.pow_lt_mono_r; lia.
Qed.

Lemma lxor_shr_inj a b k : 0 < k -> N.lxor a (shr a k) = N.lxor b (shr b k) -> a = b.
Proof.
  intros K H. apply N.lxor_eq. apply (shr_fixed _ k K). unfold shr in *. rewrite N.shiftr_lxor.
  apply (f_equal (N.lxor (N.lxor b (N.shiftr a k)))) in H.
  apply N.bits_inj. intro i. apply (f_equal (fun x => N.testbit x i)) in H. rewrite !N.lxor_spec in *.
  destruct (N.testbit a i), (N.testbit b i), (N.testbit (N.shiftr a k) i), (N.testbit (N.shiftr b k) i); cbn in *; congruence.
Qed.

Lemma shl_bit x k i : N.testbit (shl x k) i = if (i <? 64) && (k <=? i) then N.testbit x (i - k) else false.
Proof.
  unfold shl, w64. destruct (N.ltb_spec i 64) as [L|L]; cbn [andb].
  - rewrite N.mod_pow2_bits_low by auto. destruct (N.leb_spec k i) as [G|G].
    + apply N.shiftl_spec_high'; auto.
    + apply N.shiftl_spec_low; auto.
  - apply N.mod_pow2_bits_high; auto.
Qed.

Lemma lxor_shl_inj a b k : 0 < k -> N.lxor a (shl a k) = N.lxor b (shl b k) -> a = b.
Proof.
  intros K H. apply N.bits_inj. intro i. induction i as [i IH] using (well_founded_induction N.lt_wf_0).
  apply (f_equal (fun x => N.testbit x i)) in H. rewrite !N.lxor_spec, !shl_bit in H.
  destruct ((i <? 64) && (k <=? i)) eqn:E.
  - apply andb_true_iff in E. destruct E as [_ E]. apply N.leb_le in E. rewrite (IH (i - k)) in H by lia.
    destruct (N.testbit a i), (N.testbit b i), (N.testbit b (i - k)); cbn in H; congruence.
  - rewrite !xorb_false_r in H. exact H.
Qed.

Lemma mul_inj m u a b : w64 (m * u) = 1 -> word a -> word b -> w64 (a * m) = w64 (b * m) -> a = b.
Proof.
  unfold w64, word. intros U A B H.
  assert (G : forall x, x < 2 ^ 64 -> ((x * m) mod 2 ^ 64 * u) mod 2 ^ 64 = x).
  { intros x X. rewrite N.mul_mod_idemp_l by (vm_compute; discriminate). rewrite <- N.mul_assoc.
    rewrite <- N.mul_mod_idemp_r by (vm_compute; discriminate). rewrite U, N.mul_1_r. apply N.mod_small; auto. }
  rewrite <- (G a A), <- (G b B), H. reflexivity.
Qed.

Lemma word_bits x : word x <-> forall i, 64 <= i -> N.testbit x i = false.
Proof.
  split.
  - intros H i I. rewrite <- (w64_id x H). unfold w64. apply N.mod_pow2_bits_high; auto.
  - intros H. assert (x = w64 x) as ->; [|apply w64_word]. apply N.bits_inj. intro i. unfold w64.
    destruct (N.lt_ge_cases i 64) as [L|L].
    + rewrite N.mod_pow2_bits_low; auto.
    + rewrite N.mod_pow2_bits_high, H; auto.
Qed.
Lemma word_lxor a b : word a -> word b -> word (N.lxor a b).
Proof. rewrite !word_bits. intros A B i I. rewrite N.lxor_spec, A, B; auto. Qed.
Lemma word_shr a k : word a -> word (shr a k).
Proof.
  rewrite !word_bits. intros A i I. unfold shr. rewrite N.shiftr_spec by apply N.le_0_l. apply A. lia.
Qed.
Lemma word_shl a k : word (shl a k).
Proof. apply w64_word. Qed.

Lemma mix_word z : word (sm_mix z).
Proof. unfold sm_mix. apply word_lxor; [|apply word_shr]; apply w64_word. Qed.
Lemma mix_inj a b : word a -> word b -> sm_mix a = sm_mix b -> a = b.
Proof.
  intros A B H. unfold sm_mix in H.
  apply lxor_shr_inj in H; [|lia].
  apply (mul_inj _ 3573116690164977347) in H; [|vm_compute; reflexivity|..];
    try (apply word_lxor; [|apply word_shr]; apply w64_word).
  apply lxor_shr_inj in H; [|lia].
  apply (mul_inj _ 10871156337175269513) in H; [|vm_compute; reflexivity|..];
    try (apply word_lxor; [|apply word_shr]; assumption).
  apply lxor_shr_inj in H; [auto|lia].
Qed.

(** ** C62 *)
Lemma nodup_map_inj_in {A B} (f : A -> B) l :
  (forall x y, In x l -> In y l -> f x = f y -> x = y) -> NoDup l -> NoDup (map f l).
Proof.
  intros I N. induction N as [|a l A0 N IH]; cbn [map]; constructor.
  - intros X. apply in_map_iff in X. destruct X as (y & E & Y). apply A0. rewrite <- (I y a); auto; [right|left]; auto.
  - apply IH. intros x y X Y. apply I; right; auto.
Qed.
(** The number drawn after i earlier draws from a generator seeded with s. *)
Definition nth_draw (s : N) (i : nat) : N := fst (sm_next (discard sm_next i s)).

Lemma sm_discard i : forall s, word s -> discard sm_next i s = w64 (s + N.of_nat i * 11400714819323198485).
Proof.
  induction i as [|i IH]; intros s W; cbn [discard].
  - cbn [N.of_nat N.mul]. rewrite N.add_0_r, w64_id; auto.
  - rewrite IH by apply w64_word. unfold sm_next, sm_state. cbn [snd]. unfold w64.
    rewrite N.add_mod_idemp_l by (vm_compute; discriminate). f_equal. rewrite Nat2N.inj_succ. lia.
Qed.
Lemma nth_draw_eq s i : word s -> nth_draw s i = sm_mix (w64 (s + N.of_nat (S i) * 11400714819323198485)).
Proof.
  intros W. unfold nth_draw. rewrite sm_discard by auto. unfold sm_next, sm_state. cbn [fst]. f_equal. unfold w64.
  rewrite N.add_mod_idemp_l by (vm_compute; discriminate). f_equal. rewrite Nat2N.inj_succ. lia.
Qed.

Lemma add_inj s a b : word s -> word a -> word b -> w64 (s + a) = w64 (s + b) -> a = b.
Proof.
  unfold w64, word. intros W A B H.
  assert (G : forall x, x < 2 ^ 64 -> ((s + x) mod 2 ^ 64 + (2 ^ 64 - s)) mod 2 ^ 64 = x).
  { intros x X. rewrite N.add_mod_idemp_l by (vm_compute; discriminate).
    replace (s + x + (2 ^ 64 - s)) with (x + 1 * 2 ^ 64) by lia. rewrite N.mod_add by (vm_compute; discriminate).
    apply N.mod_small; auto. }
  rewrite <- (G a A), <- (G b B), H. reflexivity.
Qed.

Lemma draws_distinct s i j : word s -> N.of_nat i < 2 ^ 64 -> N.of_nat j < 2 ^ 64 ->
  nth_draw s i = nth_draw s j -> i = j.
Proof.
  intros W I J H. rewrite !nth_draw_eq in H by auto.
  apply mix_inj in H; try apply w64_word.
  assert (X : forall k, w64 (s + N.of_nat (S k) * 11400714819323198485)
                        = w64 (s + w64 (11400714819323198485 + w64 (N.of_nat k * 11400714819323198485)))).
  { intro k. unfold w64. rewrite N.add_mod_idemp_r by (vm_compute; discriminate).
    rewrite (N.add_assoc s), N.add_mod_idemp_r by (vm_compute; discriminate). f_equal. rewrite Nat2N.inj_succ. lia. }
  rewrite !X in H. apply add_inj in H; try apply w64_word; auto.
  apply add_inj in H; try apply w64_word; try (vm_compute; reflexivity).
  apply (mul_inj _ 17428512612931826493) in H; auto; try (vm_compute; reflexivity).
  apply Nat2N.inj; auto.
Qed.

(** C62: no number occurs twice among 2^64 consecutive draws, every 64-bit number occurs among them, and the
    generator is then back where it started. *)
Theorem C62_each_word_once_per_period : forall s period, word s -> N.of_nat period = 2 ^ 64 ->
  (forall i j, (i < period)%nat -> (j < period)%nat -> nth_draw s i = nth_draw s j -> i = j) /\
  (forall x, word x -> exists i, (i < period)%nat /\ nth_draw s i = x) /\
  discard sm_next period s = s.
Proof.
  intros s n W P.
  assert (D : forall i j, (i < n)%nat -> (j < n)%nat -> nth_draw s i = nth_draw s j -> i = j).
  { intros i j I J. apply draws_distinct; auto; rewrite <- P; lia. }
  split; [exact D|]. split.
  - intros x X.
    set (seen := map (nth_draw s) (seq 0 n)). set (all := map N.of_nat (seq 0 n)).
    assert (ND : NoDup seen).
    { unfold seen. apply nodup_map_inj_in; [|apply seq_NoDup]. intros i j I J. apply in_seq in I, J. apply D; lia. }
    assert (IN : incl all seen).
    { apply NoDup_length_incl; auto.
      - unfold all, seen. rewrite !map_length. reflexivity.
      - intros y Y. unfold seen in Y. apply in_map_iff in Y. destruct Y as (i & <- & _).
        unfold all. apply in_map_iff. exists (N.to_nat (nth_draw s i)). rewrite N2Nat.id. split; auto.
        apply in_seq. assert (Y : word (nth_draw s i)) by (apply mix_word). unfold word in Y. rewrite <- P in Y. lia. }
    assert (Y : In x seen).
    { apply IN. unfold all. apply in_map_iff. exists (N.to_nat x). rewrite N2Nat.id. split; auto. apply in_seq.
      unfold word in X. rewrite <- P in X. lia. }
    unfold seen in Y. apply in_map_iff in Y. destruct Y as (i & E & I). apply in_seq in I. exists i. split; [lia|auto].
  - rewrite sm_discard, P by auto. unfold w64. rewrite N.mul_comm, N.mod_add by (vm_compute; discriminate).
    apply N.mod_small; auto.
Qed.
Print Assumptions C62_each_word_once_per_period.

(** ** C63 *)
Definition xs_word (st : N * N) : Prop := word (fst st) /\ word (snd st).
Lemma xs_next_word st : xs_word st -> xs_word (snd (xs_next st)).
Proof.
  destruct st as [s1 s0]. intros [A B]. unfold xs_next. cbn [snd]. split; cbn [fst snd] in *; auto.
  repeat (apply word_lxor || apply word_shr || apply word_shl); auto.
Qed.
Lemma lxor_cancel a b c : N.lxor a c = N.lxor b c -> a = b.
Proof.
  intros H. apply (f_equal (fun x => N.lxor x c)) in H. rewrite !N.lxor_assoc, N.lxor_nilpotent, !N.lxor_0_r in H. exact H.
Qed.
(** The word computed by the two xorshift generators determines s1 when s0 is known. *)
Lemma step_inj k a b s0 x y : 0 < k -> 0 < a ->
  (let x' := N.lxor x (shl x k) in N.lxor (N.lxor (N.lxor x' s0) (shr x' a)) (shr s0 b)) =
  (let y' := N.lxor y (shl y k) in N.lxor (N.lxor (N.lxor y' s0) (shr y' a)) (shr s0 b)) -> x = y.
Proof.
  cbv zeta. intros K A H. apply lxor_cancel in H.
  rewrite !N.lxor_assoc, !(N.lxor_comm s0), <- !N.lxor_assoc in H. apply lxor_cancel in H.
  apply lxor_shr_inj in H; auto. apply lxor_shl_inj in H; auto.
Qed.

Lemma xs_next_inj s t : snd (xs_next s) = snd (xs_next t) -> s = t.
Proof.
  destruct s as [a b], t as [c d]. unfold xs_next. cbn [snd]. intros H. injection H as E1 E2. subst d. f_equal.
  revert E2. apply (step_inj 23 18 5 b a c); lia.
Qed.

(** C63 for XorShift128+: from any seed and after any history of draws, discards and reseeds the state is not the
    all-zero state, from which only zeros would be drawn; and different states never merge, so no seed loses period to
    another. *)
Theorem C63_xorshift128_never_zero : forall s h,
  snd (rrun xs_next xs_reseed (xs_seed s) h) <> (0, 0).
Proof.
  assert (N0 : forall s, xs_seed s <> (0, 0)).
  { intros s E. unfold xs_seed, sm_next in E. injection E as E1 E2.
    assert (Q : sm_state s = sm_state (sm_state s)) by (apply mix_inj; try apply w64_word; congruence).
    unfold sm_state in Q at 1 2. unfold w64 in Q. 
    assert (W : word (sm_state s)) by apply w64_word. revert Q W. unfold sm_state, w64, word.
    generalize ((s + 11400714819323198485) mod 2 ^ 64). intros z Q W.
    apply (add_inj z 0 11400714819323198485) in W; [discriminate| | |]; try (vm_compute; reflexivity).
    rewrite N.add_0_r. unfold w64. rewrite (N.mod_small z) by auto. exact Q. }
  assert (D : forall st, st <> (0, 0) -> snd (xs_next st) <> (0, 0)).
  { intros st A E. apply A. apply xs_next_inj. rewrite E. reflexivity. }
  assert (DD : forall n st, st <> (0, 0) -> discard xs_next n st <> (0, 0)).
  { induction n as [|n IH]; intros st A; cbn [discard]; auto. }
  intros s h. assert (A := N0 s). revert A. generalize (xs_seed s).
  induction h as [|[|n|s'] h IH]; intros st A; cbn [rrun].
  - exact A.
  - specialize (D _ A). destruct (xs_next st) as [x st1]. specialize (IH st1 D). destruct (rrun _ _ st1 h). exact IH.
  - apply IH. auto.
  - apply IH. apply N0.
Qed.
Theorem C63_xorshift128_states_never_merge : forall a b, snd (xs_next a) = snd (xs_next b) -> a = b.
Proof. exact xs_next_inj. Qed.
Print Assumptions C63_xorshift128_never_zero.
Print Assumptions C63_xorshift128_states_never_merge.

Definition big_wf (st : big) : Prop := length (fst st) = 16%nat /\ (snd st < 16)%nat.
Lemma big_next_wf st : big_wf st -> big_wf (snd (big_next st)).
Proof.
  destruct st as [a p]. intros [L P]. unfold big_next. split; cbn [fst snd] in *.
  - rewrite upd_length. auto.
  - apply Nat.mod_upper_bound. lia.
Qed.
Lemma seed_words_length n s : length (seed_words n s) = n.
Proof. revert s. induction n as [|n IH]; intros s; cbn; auto. Qed.

Lemma nth_ext_default (a b : list N) : length a = length b -> (forall i, (i < length a)%nat -> nth i a 0 = nth i b 0) -> a = b.
Proof. intros L H. apply (nth_ext _ _ 0 0); auto. Qed.
Lemma nth_upd_n (l : list N) i j v : (i < length l)%nat -> nth j (upd l i v) 0 = if Nat.eqb i j then v else nth j l 0.
Proof.
  revert l j. induction i as [|i IH]; intros [|x l] j H; cbn [length] in H; try lia; destruct j as [|j]; cbn; auto.
  apply IH. lia.
Qed.

Lemma succ16_inj p q : (p < 16)%nat -> (q < 16)%nat -> (S p mod 16 = S q mod 16)%nat -> p = q.
Proof.
  intros P Q H. assert (D : forall r, (r < 16)%nat -> (S r mod 16 = if Nat.eqb r 15 then 0 else S r)%nat).
  { intros r R. destruct (Nat.eqb_spec r 15) as [->|]; [reflexivity|apply Nat.mod_small; lia]. }
  rewrite !D in H by auto. destruct (Nat.eqb_spec p 15), (Nat.eqb_spec q 15); lia.
Qed.
Lemma succ16_ne p : (p < 16)%nat -> (S p mod 16 <> p)%nat.
Proof.
  intros P. destruct (Nat.eq_dec p 15) as [->|]; [discriminate|]. rewrite Nat.mod_small; lia.
Qed.

Lemma big_next_inj s t : big_wf s -> big_wf t -> snd (big_next s) = snd (big_next t) -> s = t.
Proof.
  destruct s as [a p], t as [b q]. intros [LA P] [LB Q]. cbn [fst snd] in *. unfold big_next. cbn [snd]. intros H.
  pose proof (f_equal fst H) as E1. pose proof (f_equal snd H) as E2. cbn [fst snd] in E1, E2. clear H. apply succ16_inj in E2; auto. subst q. f_equal.
  assert (U : (S p mod 16 < 16)%nat) by (apply Nat.mod_upper_bound; lia).
  assert (O : forall j, j <> (S p mod 16)%nat -> nth j a 0 = nth j b 0).
  { intros j J. apply (f_equal (fun l => nth j l 0)) in E1. rewrite !nth_upd_n in E1 by lia.
    destruct (Nat.eqb_spec (S p mod 16) j); congruence. }
  assert (V := f_equal (fun l => nth (S p mod 16) l 0) E1). cbv beta in V. rewrite !nth_upd_n, Nat.eqb_refl in V by lia.
  rewrite (O p) in V by (intro; apply (succ16_ne p); auto).
  apply (step_inj 31 11 30) in V; try lia.
  apply nth_ext_default; [congruence|]. intros i _.
  destruct (Nat.eq_dec i (S p mod 16)) as [->|]; auto.
Qed.

Lemma repeat0_next p : (p < 16)%nat -> snd (big_next (repeat 0 16, p)) = (repeat 0 16, (S p mod 16)%nat).
Proof. intros P. do 16 (destruct p as [|p]; [vm_compute; reflexivity|]). lia. Qed.

(** C63 for XorShift1024*, likewise. *)
Theorem C63_xorshift1024_never_zero : forall s h, fst (snd (rrun big_next big_seed (big_make s) h)) <> repeat 0 16.
Proof.
  assert (N0 : forall s, seed_words 16 s <> repeat 0 16).
  { intros s E. apply (C63_xorshift128_never_zero s []). cbn [rrun snd].
    unfold xs_seed, sm_next. cbn [seed_words] in E. unfold sm_next in E. pose proof (f_equal (fun l => nth 0 l 0) E) as E1. pose proof (f_equal (fun l => nth 1 l 0) E) as E2.
    clear E. cbn [nth repeat] in E1, E2. rewrite E1, E2. reflexivity. }
  assert (D : forall st, big_wf st -> fst st <> repeat 0 16 -> fst (snd (big_next st)) <> repeat 0 16).
  { intros st W A E. apply A.
    assert (Z : big_wf (repeat 0 16, snd st)) by (split; [reflexivity|apply W]).
    rewrite <- (f_equal fst (big_next_inj _ _ Z W ltac:(rewrite repeat0_next by apply W;
      pose proof (big_pos st) as BP; destruct (snd (big_next st)) as [u v]; cbn [fst snd] in *; congruence))). reflexivity. }
  assert (DD : forall n st, big_wf st -> fst st <> repeat 0 16 -> big_wf (discard big_next n st) /\ fst (discard big_next n st) <> repeat 0 16).
  { induction n as [|n IH]; intros st W A; cbn [discard]; auto. apply IH; auto. apply big_next_wf; auto. }
  intros s h. assert (W : big_wf (big_make s)) by (split; [apply seed_words_length|cbn; lia]).
  assert (A : fst (big_make s) <> repeat 0 16) by apply N0. revert W A. generalize (big_make s).
  induction h as [|[|n|s'] h IH]; intros st W A; cbn [rrun].
  - exact A.
  - specialize (D _ W A). apply big_next_wf in W. destruct (big_next st) as [x st1]. specialize (IH st1 W D). destruct (rrun _ _ st1 h). exact IH.
  - apply IH; apply DD; auto.
  - apply IH; [split; [apply seed_words_length|apply W]|apply N0].
Qed.
Theorem C63_xorshift1024_states_never_merge : forall a b, big_wf a -> big_wf b -> snd (big_next a) = snd (big_next b) -> a = b.
Proof. exact big_next_inj. Qed.
Print Assumptions C63_xorshift1024_never_zero.
Print Assumptions C63_xorshift1024_states_never_merge.

(** The published first outputs of SplitMix64 for seed 1234567, and a run of each generator. *)
Example splitmix_reference : fst (rrun sm_next sm_seed 1234567 (repeat Draw 5)) =
  [6457827717110365317; 3203168211198807973; 9817491932198370423; 4593380528125082431; 16408922859458223821].
Proof. vm_compute. reflexivity. Qed.
Example xs_example : length (fst (rrun xs_next xs_reseed (xs_seed 7) [Draw; Discard 3; Draw; Seed 7; Draw])) = 3%nat /\
  (let l := fst (rrun xs_next xs_reseed (xs_seed 7) [Draw; Discard 3; Draw; Seed 7; Draw]) in nth 0 l 0 = nth 2 l 1).
Proof. vm_compute. auto. Qed.
Example big_example : draws [Draw; Discard 15; Seed 4] = 16%nat /\ big_wf (big_make 3).
Proof. vm_compute. split; [reflexivity|split; [reflexivity|]]. lia. Qed.
