(** Maybe, enumerate, find, hashes (C94) and time strings (C95). *)
From Coq Require Import List Bool ZArith NArith Lia.
From Verif Require Import Base SmallModel.
Import ListNotations.

(** ** Maybe *)
Definition op_value {T} (o : maybe_op T) : T := match o with OSet v => v | OWrite v => v end.
(** C94: over every history of assignments and writes through Get, a Maybe has a value exactly if it started with one or was assigned one; Get
    then returns the value last given and otherwise throws, and so does writing through Get before the first assignment. *)
Theorem C94_maybe {T} (init : option T) (os : list (maybe_op T)) :
  let m0 := match init with Some v => maybe_some v | None => maybe_none end in
  match maybe_run m0 os with
  | Ok m => maybe_is_valid m = negb (match init, os with None, [] => true | _, _ => false end) /\
            maybe_get m = match rev os, init with o :: _, _ => Ok (op_value o) | [], Some v => Ok v | [], None => Throw InvalidArgument end
  | Throw e => e = InvalidArgument /\ init = None /\ exists v os', os = OWrite v :: os'
  | _ => False
  end.
Proof.
  intros m0.
  assert (Run : forall (os : list (maybe_op T)) v, exists m, maybe_run (maybe_some v) os = Ok m /\ m_valid m = true /\ maybe_get m = match rev os with o :: _ => Ok (op_value o) | [] => Ok v end).
  { clear. induction os as [|o os IH]; intros v; [exists (maybe_some v); auto|].
    assert (E : maybe_step (maybe_some v) o = Ok (maybe_some (op_value o))) by (destruct o; reflexivity).
    cbn [maybe_run]. rewrite E. cbn [obind]. destruct (IH (op_value o)) as (m & A & B & C). exists m. split; [exact A|]. split; [exact B|]. rewrite C.
    cbn [rev]. destruct (rev os); reflexivity. }
  unfold m0. destruct init as [v|].
  - destruct (Run os v) as (m & -> & B & ->). split; [unfold maybe_is_valid; rewrite B; reflexivity|]. destruct (rev os); reflexivity.
  - destruct os as [|[v|v] os]; cbn [maybe_run maybe_step obind].
    + split; reflexivity.
    + unfold maybe_set. change (Maybe true (Some v)) with (maybe_some v). destruct (Run os v) as (m & -> & B & ->). split; [unfold maybe_is_valid; rewrite B; reflexivity|].
      cbn [rev]. destruct (rev os); reflexivity.
    + cbn. repeat split. exists v, os. reflexivity.
Qed.
Print Assumptions C94_maybe.

(** ** enumerate and find *)
Lemma enumerate_from_ok {T} (l : list T) i : (0 <= i)%Z -> (i + Z.of_nat (length l) <= int_max)%Z ->
  exists r, enumerate_from i l = Ok r /\ map snd r = l /\ forall k, (k < length l)%nat -> nth_error (map fst r) k = Some (i + Z.of_nat k)%Z.
Proof.
  revert i. induction l as [|x l IH]; intros i Hi H; cbn [enumerate_from].
  - exists []. repeat split. intros k Hk. cbn in Hk. lia.
  - cbn [length] in H. replace (i =? int_max)%Z with false by (symmetry; apply Z.eqb_neq; lia).
    destruct (IH (i + 1)%Z) as (r & -> & E & F); [lia | lia |]. cbn [obind]. exists ((i, x) :: r). cbn [map fst snd]. rewrite E. repeat split.
    intros [|k] Hk; cbn [nth_error]; [f_equal; lia|]. cbn [length] in Hk. rewrite F by lia. f_equal. lia.
Qed.
Lemma enumerate_from_ub {T} (l : list T) i : (0 <= i <= int_max)%Z -> (int_max < i + Z.of_nat (length l))%Z -> enumerate_from i l = UB.
Proof.
  revert i. induction l as [|x l IH]; intros i Hi H; cbn [length enumerate_from] in *; [lia|].
  destruct (i =? int_max)%Z eqn:E; [reflexivity|]. apply Z.eqb_neq in E. rewrite IH by lia. reflexivity.
Qed.
(** Enumerating fewer than 2^31 items pairs each with its position, in order; from 2^31 items on the counter overflows. *)
Theorem C94_enumerate_partial {T} (l : list T) :
  if (Z.of_nat (length l) <? 2 ^ 31)%Z
  then exists r, enumerate l = Ok r /\ map snd r = l /\ forall k, (k < length l)%nat -> nth_error (map fst r) k = Some (Z.of_nat k)
  else enumerate l = UB.
Proof.
  assert (E : int_max = (2 ^ 31 - 1)%Z) by reflexivity. destruct (Z.of_nat (length l) <? 2 ^ 31)%Z eqn:L.
  - apply Z.ltb_lt in L. destruct (enumerate_from_ok l 0) as (r & A & B & C); [lia | rewrite E; lia |]. exists r. auto.
  - apply Z.ltb_ge in L. apply enumerate_from_ub; rewrite E; lia.
Qed.
Print Assumptions C94_enumerate_partial.

Section Find.
Context {T : Type} (eqb : T -> T -> bool) (eqb_spec : forall a b, eqb a b = true <-> a = b).
Lemma find_from_spec l x i : match find_from eqb i l x with
  | None => ~ In x l
  | Some d => exists k, d = (i + Z.of_nat k)%Z /\ nth_error l k = Some x /\ forall j, (j < k)%nat -> nth_error l j <> Some x end.
Proof.
  revert i. induction l as [|y l IH]; intros i; cbn [find_from]; [auto|]. destruct (eqb y x) eqn:E.
  - apply eqb_spec in E. subst y. exists 0%nat. split; [lia|]. split; [reflexivity|]. intros; lia.
  - assert (N : y <> x) by (intros ->; rewrite (proj2 (eqb_spec x x) eq_refl) in E; discriminate). specialize (IH (i + 1)%Z). destruct (find_from eqb (i + 1) l x) as [d|].
    + destruct IH as (k & -> & A & B). exists (S k). split; [lia|]. split; [exact A|]. intros [|j] Hj; cbn; [congruence | apply B; lia].
    + intros [H|H]; auto.
Qed.
End Find.
Lemma to_int_id z : (0 <= z < 2 ^ 31)%Z -> to_int z = z.
Proof. intros H. unfold to_int. rewrite Z.mod_small by lia. lia. Qed.
(** In a vector of at most 2^31 elements find returns -1 for an absent element and otherwise the first index at which it occurs. *)
Theorem C94_find_partial {T} (eqb : T -> T -> bool) (l : list T) (x : T) :
  (forall a b, eqb a b = true <-> a = b) -> (Z.of_nat (length l) <= 2 ^ 31)%Z ->
  (find eqb l x = (-1)%Z /\ ~ In x l) \/
  (exists k, find eqb l x = Z.of_nat k /\ nth_error l k = Some x /\ forall j, (j < k)%nat -> nth_error l j <> Some x).
Proof.
  intros E L. unfold find. pose proof (find_from_spec eqb E l x 0) as H. destruct (find_from eqb 0 l x) as [d|]; [right | left; auto].
  destruct H as (k & -> & A & B). exists k. split; [|auto]. assert (k < length l)%nat by (apply nth_error_Some; congruence). rewrite to_int_id; lia.
Qed.
Print Assumptions C94_find_partial.

Lemma find_from_repeat {T} (eqb : T -> T -> bool) (a x : T) n i : eqb a x = false -> eqb x x = true -> find_from eqb i (repeat a n ++ [x]) x = Some (i + Z.of_nat n)%Z.
Proof.
  intros N R. revert i. induction n as [|n IH]; intros i; cbn [repeat app find_from].
  - rewrite R. f_equal. lia.
  - rewrite N, IH. f_equal. lia.
Qed.
(** Refuted for longer vectors: an element whose first index is 2^32 - 1 is reported as absent. *)
Theorem C94_find_narrowing_refuted : exists (l : list bool) (x : bool), In x l /\ find Bool.eqb l x = (-1)%Z.
Proof.
  exists (repeat false (Z.to_nat (2 ^ 32 - 1)) ++ [true]), true. split; [apply in_or_app; right; left; reflexivity|].
  unfold find. rewrite find_from_repeat by reflexivity. rewrite Z2Nat.id by lia. reflexivity.
Qed.
Print Assumptions C94_find_narrowing_refuted.

(** ** Hashes *)
Definition is_word (z : Z) : Prop := (0 <= z < word)%Z.
Lemma lxor_inj a b c : Z.lxor a b = Z.lxor a c -> b = c.
Proof. intros H. rewrite <- (Z.lxor_0_l b), <- (Z.lxor_0_l c), <- (Z.lxor_nilpotent a), !Z.lxor_assoc, H. reflexivity. Qed.
Lemma word_pow : word = (2 ^ 64)%Z.
Proof. reflexivity. Qed.
Lemma word_lxor a b : is_word a -> is_word b -> is_word (Z.lxor a b).
Proof.
  intros A B. unfold is_word in *. rewrite word_pow in *. assert (N : (0 <= Z.lxor a b)%Z) by (apply Z.lxor_nonneg; lia). split; [exact N|].
  destruct (Z.eq_dec (Z.lxor a b) 0) as [->|Ne]; [lia|]. apply Z.log2_lt_pow2; [lia|]. eapply Z.le_lt_trans; [apply Z.log2_lxor; lia|].
  assert (La : (Z.log2 a < 64)%Z) by (destruct (Z.eq_dec a 0) as [->|]; [reflexivity | apply Z.log2_lt_pow2; lia]).
  assert (Lb : (Z.log2 b < 64)%Z) by (destruct (Z.eq_dec b 0) as [->|]; [reflexivity | apply Z.log2_lt_pow2; lia]). lia.
Qed.
Lemma combine_word seed h : is_word seed -> is_word (hash_combine seed h).
Proof. intros S1. unfold hash_combine. apply word_lxor; [exact S1|]. apply Z.mod_pos_bound. reflexivity. Qed.
Lemma combine_inj seed h h' : is_word h -> is_word h' -> hash_combine seed h = hash_combine seed h' -> h = h'.
Proof.
  intros A B E. unfold hash_combine in E. apply lxor_inj in E.
  set (c := (0x9e3779b9 + Z.shiftl seed 6 mod word + Z.shiftr seed 2)%Z). rewrite <- !Z.add_assoc in E. rewrite !Z.add_assoc in E.
  replace (h + 0x9e3779b9 + Z.shiftl seed 6 mod word + Z.shiftr seed 2)%Z with (h + c)%Z in E by (unfold c; lia).
  replace (h' + 0x9e3779b9 + Z.shiftl seed 6 mod word + Z.shiftr seed 2)%Z with (h' + c)%Z in E by (unfold c; lia). clearbody c.
  assert (D : ((h - h') mod word = 0)%Z). { replace (h - h')%Z with ((h + c) - (h' + c))%Z by lia. rewrite Zminus_mod, E, Z.sub_diag. reflexivity. }
  apply Z.mod_divide in D; [|discriminate]. destruct D as (q & D). unfold is_word in *. unfold word in *. nia.
Qed.

(** Combining is injective in the new hash for any seed; so pairs with the same first hash collide exactly when their second hashes do, and
    vectors that differ in the last entry only collide exactly when the hashes of those entries do. *)
Theorem C94_hash_combine seed h h' : is_word h -> is_word h' -> hash_combine seed h = hash_combine seed h' <-> h = h'.
Proof. intros A B. split; [apply combine_inj; assumption | congruence]. Qed.
Print Assumptions C94_hash_combine.
(** Every hash is a 64-bit word. *)
Theorem C94_hash_word : (forall seed h, is_word seed -> is_word (hash_combine seed h)) /\ (forall hs, is_word (hash_vector hs)) /\ (forall a b, is_word (hash_pair a b)) /\
  (forall a b, is_word a -> is_word b -> is_word (hash_complex a b)) /\ (forall a b c, is_word a -> is_word b -> is_word (hash_vector3 a b c)).
Proof.
  assert (M : forall z, is_word (z mod word)) by (intros z; apply Z.mod_pos_bound; reflexivity).
  assert (H : forall z, is_word z -> is_word (Z.shiftr z 1)).
  { intros z [A B]. split; [apply Z.shiftr_nonneg; exact A|]. rewrite Z.shiftr_div_pow2 by lia. eapply Z.le_lt_trans; [apply Z.div_le_upper_bound with (q := z); lia | exact B]. }
  assert (Z0 : is_word 0) by (split; reflexivity || (unfold word; lia)).
  split; [exact combine_word|]. split; [|split; [|split]].
  - intros hs. unfold hash_vector. generalize dependent 0%Z. induction hs as [|h hs IH]; intros z Hz; cbn [fold_left]; [exact Hz|]. apply IH, combine_word, Hz.
  - intros a b. apply combine_word, combine_word, Z0.
  - intros a b A B. apply word_lxor; [exact A|]. apply H, M.
  - intros a b c A B. apply word_lxor; [apply word_lxor; [exact A | apply H, M] | apply M].
Qed.
Print Assumptions C94_hash_word.
Theorem C94_hash_pair a b b' : is_word b -> is_word b' -> hash_pair a b = hash_pair a b' <-> b = b'.
Proof. apply C94_hash_combine. Qed.
Print Assumptions C94_hash_pair.
Theorem C94_hash_vector hs h h' : is_word h -> is_word h' -> hash_vector (hs ++ [h]) = hash_vector (hs ++ [h']) <-> h = h'.
Proof. intros A B. unfold hash_vector. rewrite !fold_left_app. cbn [fold_left]. apply C94_hash_combine; assumption. Qed.
Print Assumptions C94_hash_vector.

Lemma drop_top im : is_word im -> Z.shiftr (Z.shiftl im 1 mod word) 1 = (im mod 2 ^ 63)%Z.
Proof.
  intros A. rewrite Z.shiftl_mul_pow2, Z.shiftr_div_pow2 by lia. change (2 ^ 1)%Z with 2%Z. unfold word. replace (2 ^ 64)%Z with (2 ^ 63 * 2)%Z by reflexivity.
  rewrite Zmult_mod_distr_r. apply Z.div_mul. discriminate.
Qed.
(** Refuted: that the hash of a complex number or of a Vector3d tells its parts apart.  It drops the top bit of the second part's hash, and
    exchanging two parts whose hashes have no top bit does not change it. *)
Theorem C94_mirror_refuted :
  (forall a b, (0 <= a < 2 ^ 63)%Z -> (0 <= b < 2 ^ 63)%Z -> hash_complex a b = hash_complex b a) /\
  (forall a b c, (0 <= a < 2 ^ 63)%Z -> (0 <= b < 2 ^ 63)%Z -> hash_vector3 a b c = hash_vector3 b a c) /\
  (forall a b, (0 <= b < 2 ^ 63)%Z -> hash_complex a b = hash_complex a (b + 2 ^ 63)) /\
  exists a b, is_word a /\ is_word b /\ a <> b /\ hash_complex a b = hash_complex b a.
Proof.
  assert (D : forall z, (0 <= z < 2 ^ 63)%Z -> Z.shiftr (Z.shiftl z 1 mod word) 1 = z).
  { intros z H. rewrite drop_top; [apply Z.mod_small; exact H | unfold is_word, word; lia]. }
  split; [|split; [|split]].
  - intros a b A B. unfold hash_complex. rewrite !D by assumption. apply Z.lxor_comm.
  - intros a b c A B. unfold hash_vector3. rewrite !D by assumption. f_equal. apply Z.lxor_comm.
  - intros a b B. unfold hash_complex. rewrite !drop_top by (unfold is_word, word; lia). f_equal. replace (b + 2 ^ 63)%Z with (b + 1 * 2 ^ 63)%Z by lia. rewrite Z_mod_plus_full. reflexivity.
  - exists 1%Z, 2%Z. unfold is_word, word. repeat split; try lia.
Qed.
Print Assumptions C94_mirror_refuted.
Example enumerate_case : enumerate [7; 8; 9]%Z = Ok [(0, 7); (1, 8); (2, 9)]%Z.
Proof. reflexivity. Qed.
Example hash_case : is_word 5 /\ is_word 6 /\ hash_pair 1 5 <> hash_pair 1 6.
Proof. repeat split; try (vm_compute; congruence). Qed.

(** ** Time strings *)
(** A calendar time with the ranges std::tm documents (seconds up to 60 for leap seconds) and a four digit year. *)
Definition calendar (t : tm) : Prop :=
  (1000 <= t_year t <= 9999 /\ 1 <= t_mon t <= 12 /\ 1 <= t_day t <= 31 /\ t_hour t <= 23 /\ t_min t <= 59 /\ t_sec t <= 60)%N.
(** Chronological order of calendar times. *)
Definition fields (t : tm) : list N := [t_year t; t_mon t; t_day t; t_hour t; t_min t; t_sec t].
Fixpoint lex (a b : list N) : bool :=
  match a, b with
  | [], _ :: _ => true
  | x :: a', y :: b' => (x <? y)%N || ((x =? y)%N && lex a' b')
  | _, [] => false
  end.
Definition before (s t : tm) : Prop := lex (fields s) (fields t) = true.
Lemma lex_app_eq p a b : lex (p ++ a) (p ++ b) = lex a b.
Proof. induction p as [|x p IH]; cbn; [reflexivity|]. rewrite N.ltb_irrefl, N.eqb_refl, IH. reflexivity. Qed.
Lemma lex_app_lt p q a b : length p = length q -> lex p q = true -> lex (p ++ a) (q ++ b) = true.
Proof.
  revert q. induction p as [|x p IH]; intros [|y q] L H; cbn in *; try discriminate. apply orb_true_iff in H as [H|H]; apply orb_true_iff; [left; exact H|].
  apply andb_true_iff in H as [H1 H2]. right. rewrite H1. cbn. apply IH; [lia | exact H2].
Qed.
Lemma lex_app_ne p q a b : length p = length q -> p <> q -> lex (p ++ a) (q ++ b) = lex p q.
Proof.
  revert q. induction p as [|x p IH]; intros [|y q] L H; cbn in *; try discriminate; [congruence|].
  destruct (x =? y)%N eqn:E; cbn; [|rewrite !orb_false_r; reflexivity]. apply N.eqb_eq in E. subst y. f_equal. apply IH; [lia | congruence].
Qed.
(** A fixed width encoding of a field that keeps its order. *)
Definition faithful (w : nat) (f : N -> list N) (ok : N -> Prop) : Prop :=
  (forall n, ok n -> length (f n) = w) /\ forall n m, ok n -> ok m -> lex (f n) (f m) = (n <? m)%N.
Lemma faithful_inj w f (ok : N -> Prop) n m : faithful w f ok -> ok n -> ok m -> f n = f m -> n = m.
Proof.
  intros [_ F] A B E. pose proof (F n m A B) as H1. pose proof (F m n B A) as H2. rewrite E in *.
  assert (L : lex (f m) (f m) = false) by (clear; induction (f m) as [|x l IH]; cbn; [reflexivity | rewrite N.ltb_irrefl, IH, andb_false_r; reflexivity]).
  rewrite L in *. symmetry in H1, H2. apply N.ltb_ge in H1, H2. lia.
Qed.
Lemma lex_step w f (ok : N -> Prop) n m a b : faithful w f ok -> ok n -> ok m -> lex (f n ++ a) (f m ++ b) = (n <? m)%N || ((n =? m)%N && lex a b).
Proof.
  intros F A B. destruct (N.eq_dec n m) as [->|Ne].
  - rewrite lex_app_eq, N.ltb_irrefl, N.eqb_refl. reflexivity.
  - rewrite (proj2 (N.eqb_neq n m) Ne). cbn [andb]. rewrite orb_false_r. destruct F as [L F]. rewrite lex_app_ne; [apply F; assumption | rewrite !L by assumption; reflexivity |].
    intros E. apply Ne. exact (faithful_inj w f ok n m (conj L F) A B E).
Qed.
Lemma two_faithful : faithful 2 two_digits (fun n => (n < 100)%N).
Proof.
  split; [reflexivity|]. intros n m A B. unfold two_digits. cbn [lex]. rewrite andb_false_r, orb_false_r.
  pose proof (N.div_mod n 10 ltac:(discriminate)) as Dn. pose proof (N.div_mod m 10 ltac:(discriminate)) as Dm.
  pose proof (N.mod_lt n 10 ltac:(discriminate)) as Mn. pose proof (N.mod_lt m 10 ltac:(discriminate)) as Mm. unfold char0.
  set (a := (n / 10)%N) in *. set (b := (n mod 10)%N) in *. set (c := (m / 10)%N) in *. set (d := (m mod 10)%N) in *. clearbody a b c d. subst n m.
  destruct (N.ltb_spec (48 + a) (48 + c)), (N.eqb_spec (48 + a) (48 + c)), (N.ltb_spec (48 + b) (48 + d)), (N.ltb_spec (10 * a + b) (10 * c + d)); cbn; try reflexivity; lia.
Qed.
Lemma decimal4 n : (1000 <= n <= 9999)%N -> decimal n = two_digits (n / 100) ++ two_digits (n mod 100).
Proof.
  intros H. unfold decimal. cbn [digits_fuel]. unfold two_digits. rewrite !N.div_div by discriminate. change (10 * 10)%N with 100%N. change (100 * 10)%N with 1000%N.
  assert (D1 : (n <? 10)%N = false) by (apply N.ltb_ge; lia). rewrite D1.
  assert (D2 : (n / 10 <? 10)%N = false) by (apply N.ltb_ge; apply N.div_le_lower_bound; lia). rewrite D2.
  assert (D3 : (n / 100 <? 10)%N = false) by (apply N.ltb_ge; apply N.div_le_lower_bound; lia). rewrite D3.
  assert (D4 : (n / 1000 <? 10)%N = true) by (apply N.ltb_lt; apply N.div_lt_upper_bound; lia). rewrite D4. cbn [app].
  assert (E1 : ((n mod 100) / 10 = (n / 10) mod 10)%N).
  { change 100%N with (10 * 10)%N. rewrite N.mod_mul_r by discriminate. rewrite N.mul_comm, N.div_add by discriminate. rewrite N.div_small by (apply N.mod_lt; discriminate). reflexivity. }
  assert (E2 : ((n mod 100) mod 10 = n mod 10)%N).
  { change 100%N with (10 * 10)%N. rewrite N.mod_mul_r by discriminate. rewrite N.mul_comm, N.mod_add by discriminate. apply N.mod_mod. discriminate. }
  rewrite E1, E2. reflexivity.
Qed.
Lemma year_faithful : faithful 4 decimal (fun n => (1000 <= n <= 9999)%N).
Proof.
  split; [intros n H; rewrite decimal4 by exact H; reflexivity|]. intros n m A B. rewrite !decimal4 by assumption.
  rewrite (lex_step 2 two_digits (fun n => (n < 100)%N)); [| exact two_faithful | apply N.div_lt_upper_bound; lia | apply N.div_lt_upper_bound; lia].
  destruct two_faithful as [_ F]. rewrite F by (apply N.mod_lt; discriminate).
  pose proof (N.div_mod n 100 ltac:(discriminate)) as Dn. pose proof (N.div_mod m 100 ltac:(discriminate)) as Dm.
  pose proof (N.mod_lt n 100 ltac:(discriminate)) as Mn. pose proof (N.mod_lt m 100 ltac:(discriminate)) as Mm.
  set (a := (n / 100)%N) in *. set (b := (n mod 100)%N) in *. set (c := (m / 100)%N) in *. set (d := (m mod 100)%N) in *. clearbody a b c d. subst n m.
  destruct (N.ltb_spec a c), (N.eqb_spec a c), (N.ltb_spec b d), (N.ltb_spec (100 * a + b) (100 * c + d)); cbn; try reflexivity; lia.
Qed.
Lemma lex_cons x a b : lex (x :: a) (x :: b) = lex a b.
Proof. exact (lex_app_eq [x] a b). Qed.
Lemma calendar_fields t : calendar t -> ((1000 <= t_year t <= 9999) /\ t_mon t < 100 /\ t_day t < 100 /\ t_hour t < 100 /\ t_min t < 100 /\ t_sec t < 100)%N.
Proof. unfold calendar. intros H. repeat split; lia. Qed.
Lemma time_lex s t a b : calendar s -> calendar t -> lex (time_string s ++ a) (time_string t ++ b) = lex (fields s ++ a) (fields t ++ b).
Proof.
  intros A B. apply calendar_fields in A as (A1 & A2 & A3 & A4 & A5 & A6). apply calendar_fields in B as (B1 & B2 & B3 & B4 & B5 & B6).
  unfold time_string, fields. rewrite <- !app_assoc. rewrite (lex_step 4 decimal _ _ _ _ _ year_faithful A1 B1). cbn [app lex]. f_equal. f_equal.
  repeat (rewrite ?N.ltb_irrefl, ?N.eqb_refl; cbn [orb andb]; rewrite <- ?app_assoc; rewrite (lex_step 2 two_digits _ _ _ _ _ two_faithful) by assumption; f_equal; f_equal; cbn [app lex]).
Qed.
Lemma time_length t : calendar t -> length (time_string t) = 20%nat.
Proof. intros H. unfold time_string. rewrite app_length. destruct year_faithful as [L _]. rewrite L by (apply calendar_fields in H; tauto). reflexivity. Qed.

(** C95: for years of four digits the time strings have 20 characters, differ for different times, and compare as strings as the times do. *)
Theorem C95_time_string s t : calendar s -> calendar t ->
  length (time_string s) = 20%nat /\ (time_string s = time_string t <-> s = t) /\ (lex (time_string s) (time_string t) = true <-> before s t).
Proof.
  intros A B. split; [apply time_length; exact A|].
  assert (H : lex (time_string s) (time_string t) = lex (fields s) (fields t)).
  { pose proof (time_lex s t [] [] A B) as H. rewrite !app_nil_r in H. exact H. }
  assert (H' : lex (time_string t) (time_string s) = lex (fields t) (fields s)).
  { pose proof (time_lex t s [] [] B A) as H'. rewrite !app_nil_r in H'. exact H'. }
  split; [|unfold before; rewrite H; tauto]. split; [|congruence]. intros E. rewrite E in H, H'. clear A B E.
  assert (L : forall l, lex l l = false) by (clear; induction l as [|x l IH]; cbn; [reflexivity | rewrite N.ltb_irrefl, IH, andb_false_r; reflexivity]). rewrite L in *.
  assert (T : forall a b, length a = length b -> lex a b = false -> lex b a = false -> a = b).
  { clear. induction a as [|x a IH]; intros [|y b] Le H1 H2; cbn in *; try discriminate; [reflexivity|].
    apply orb_false_iff in H1 as [P1 Q1]. apply orb_false_iff in H2 as [P2 Q2]. apply N.ltb_ge in P1, P2. assert (x = y) by lia. subst y. rewrite N.eqb_refl in *. cbn in *. f_equal. apply IH; [lia | assumption | assumption]. }
  symmetry in H, H'. assert (F : fields s = fields t) by (apply T; [reflexivity | assumption | assumption]). destruct s, t. unfold fields in F. cbn in F. congruence.
Qed.
Print Assumptions C95_time_string.

Lemma decimal_small_inj a b : (a < 1000)%N -> (b < 1000)%N -> decimal a = decimal b -> a = b.
Proof.
  assert (D : forall n, (n < 1000)%N -> decimal n = if (n <? 10)%N then [(48 + n)%N] else if (n <? 100)%N then [(48 + n / 10)%N; (48 + n mod 10)%N] else [(48 + n / 100)%N; (48 + (n / 10) mod 10)%N; (48 + n mod 10)%N]).
  { intros n H. unfold decimal. cbn [digits_fuel]. unfold char0. destruct (N.ltb_spec n 10) as [L|L]; [reflexivity|].
    destruct (N.ltb_spec n 100) as [L2|L2].
    - rewrite (proj2 (N.ltb_lt (n / 10) 10)) by (apply N.div_lt_upper_bound; lia). reflexivity.
    - rewrite (proj2 (N.ltb_ge (n / 10) 10)) by (apply N.div_le_lower_bound; lia). rewrite N.div_div by discriminate. change (10 * 10)%N with 100%N.
      rewrite (proj2 (N.ltb_lt (n / 100) 10)) by (apply N.div_lt_upper_bound; lia). reflexivity. }
  intros A B E. rewrite !D in E by assumption.
  pose proof (N.div_mod a 10 ltac:(discriminate)). pose proof (N.div_mod b 10 ltac:(discriminate)). pose proof (N.div_mod (a / 10) 10 ltac:(discriminate)) as Ha. pose proof (N.div_mod (b / 10) 10 ltac:(discriminate)) as Hb.
  rewrite N.div_div in Ha, Hb by discriminate. change (10 * 10)%N with 100%N in *.
  clear D. remember (a / 10)%N as a1. remember (b / 10)%N as b1. remember (a / 100)%N as a2. remember (b / 100)%N as b2. remember (a mod 10)%N as a3. remember (b mod 10)%N as b3.
  remember (a1 mod 10)%N as a4. remember (b1 mod 10)%N as b4. clear - E H H0 Ha Hb.
  revert E. generalize 48%N. intros k E. destruct (a <? 10)%N; destruct (b <? 10)%N; [| destruct (b <? 100)%N | destruct (a <? 100)%N | destruct (a <? 100)%N; destruct (b <? 100)%N]; try discriminate; injection E; intros; lia.
Qed.
(** With milliseconds the strings still differ for different times. *)
Theorem C95_milliseconds_distinct s t a b : calendar s -> calendar t -> (a < 1000)%N -> (b < 1000)%N ->
  time_string_ms s a = time_string_ms t b <-> s = t /\ a = b.
Proof.
  intros A B Ha Hb. split; [|intros [-> ->]; reflexivity]. unfold time_string_ms. intros E.
  assert (E1 : time_string s = time_string t /\ dash :: decimal a = dash :: decimal b).
  { assert (T : forall (p q a b : list N), length p = length q -> p ++ a = q ++ b -> p = q /\ a = b).
    { clear. induction p as [|x p IH]; intros [|y q] a b L E; cbn in *; try discriminate; [auto|]. injection E as -> E. destruct (IH q a b) as [-> ->]; [lia | exact E | auto]. }
    apply T; [rewrite !time_length by assumption; reflexivity | exact E]. }
  destruct E1 as [E1 E2]. split; [apply (C95_time_string s t A B); exact E1|]. apply decimal_small_inj; [assumption | assumption | congruence].
Qed.
Print Assumptions C95_milliseconds_distinct.
(** Refuted: that they sort by time.  The milliseconds are not padded: 9 ms sorts after 10 ms of the same second. *)
Theorem C95_sorted_refuted : exists t a b, calendar t /\ (a < b < 1000)%N /\ lex (time_string_ms t b) (time_string_ms t a) = true.
Proof. exists (TM 2020 1 2 3 4 5), 9%N, 10%N. vm_compute. repeat split; congruence. Qed.
Print Assumptions C95_sorted_refuted.
Example time_case : time_string (TM 2020 1 2 13 4 5) = [50; 48; 50; 48; 45; 48; 49; 45; 48; 50; 95; 95; 49; 51; 45; 48; 52; 45; 48; 53]%N /\ calendar (TM 2020 1 2 13 4 5).
Proof. vm_compute. repeat split; congruence. Qed.
