(** Properties of bits, clamping and colours: C28, C29, C31, C64, C65. *)
From Verif Require Import Base HelpersModel VoxelFloat Cost CostFloat.
From Flocq Require Import IEEE754.Bits IEEE754.Binary Core.
From Coq Require Import Reals Lra.
Open Scope nat_scope.

(** ** C28 *)
Definition word_type (w : N) : Prop := w = 8%N \/ w = 16%N \/ w = 32%N \/ w = 64%N.

Lemma mask_small w i : (i < w)%N -> (N.shiftl 1 i mod 2 ^ w = 2 ^ i)%N.
Proof.
  intros H. rewrite N.shiftl_1_l. apply N.mod_small. apply N.pow_lt_mono_r; lia.
Qed.

(** C28: SetBit changes the chosen bit and no other, for every type. *)
Theorem C28_set_bit : forall w v i b, word_type w -> (v < 2 ^ w)%N -> (i < w)%N ->
  exists r, set_bit w v i b = Ok r /\ (r < 2 ^ w)%N /\
    forall j, N.testbit r j = if (i =? j)%N then b else N.testbit v j.
Proof.
  intros w v i b Hw Hv Hi. unfold set_bit. destruct (N.leb_spec (N.max w 32) i); [lia|]. rewrite mask_small by lia.
  eexists. split; [reflexivity|].
  assert (T : forall j, N.testbit (if b then N.lor v (2 ^ i) else N.land v (N.lxor (2 ^ w - 1) (2 ^ i))) j
    = if (i =? j)%N then b else N.testbit v j).
  { intros j. assert (HB : N.testbit v j = true -> (j < w)%N).
    { intros T. destruct (N.lt_ge_cases j w); auto. rewrite N.bits_above_log2 in T; [discriminate|].
      destruct (N.eq_dec v 0) as [->|]; [cbn; pose proof (N.log2_nonpos 0); destruct Hw as [->|[->|[->| ->]]]; lia|].
      apply N.log2_lt_pow2 in Hv; lia. }
    destruct b.
    - rewrite N.lor_spec, N.pow2_bits_eqb. destruct (N.eqb_spec i j); [apply orb_true_r|apply orb_false_r].
    - rewrite N.land_spec, N.lxor_spec, N.pow2_bits_eqb. replace (2 ^ w - 1)%N with (N.ones w) by (rewrite N.ones_equiv; lia).
      destruct (N.eqb_spec i j) as [->|].
      + rewrite N.ones_spec_low by lia. cbn. rewrite andb_false_r. reflexivity.
      + rewrite xorb_false_r. destruct (N.testbit v j) eqn:E; auto. rewrite N.ones_spec_low by auto. reflexivity. }
  split; [|exact T].
  set (r := if b then _ else _) in *. destruct (N.eq_dec r 0) as [->|NZ].
  { apply N.neq_0_lt_0. apply N.pow_nonzero. lia. }
  apply N.log2_lt_pow2; [lia|]. pose proof (N.bit_log2 r NZ) as B. rewrite T in B.
  destruct (N.eqb_spec i (N.log2 r)) as [E|N]; [lia|].
  destruct (N.lt_ge_cases (N.log2 r) w); auto. exfalso.
  rewrite N.bits_above_log2 in B; [discriminate|].
  destruct (N.eq_dec v 0) as [->|]; [rewrite N.bits_0 in B; discriminate|]. apply N.log2_lt_pow2 in Hv; lia.
Qed.
Print Assumptions C28_set_bit.

Lemma get_bit_spec w v i : (i < w)%N -> (i < 32)%N -> get_bit w v i = Ok (N.testbit v i).
Proof.
  intros H H32. unfold get_bit, set_bit. destruct (N.leb_spec (N.max w 32) i); [lia|]. cbn [obind].
  rewrite mask_small by auto. rewrite N.lor_0_l, N.mod_small by (apply N.pow_lt_mono_r; lia). f_equal.
  assert (E : N.land (2 ^ i)%N v = (if N.testbit v i then 2 ^ i else 0)%N).
  { apply N.bits_inj. intros j. rewrite N.land_spec, N.pow2_bits_eqb. destruct (N.eqb_spec i j) as [->|].
    - destruct (N.testbit v j); [rewrite N.pow2_bits_true; auto|symmetry; apply N.bits_0].
    - destruct (N.testbit v i); [rewrite N.pow2_bits_false; auto|symmetry; apply N.bits_0]. }
  rewrite E. destruct (N.testbit v i); [|reflexivity]. apply N.ltb_lt. apply N.neq_0_lt_0. apply N.pow_nonzero. lia.
Qed.

(** C28 for the types of at most 32 bits, in full. *)
Theorem C28_get_after_set : forall w v i j b,
  w = 8%N \/ w = 16%N \/ w = 32%N -> (v < 2 ^ w)%N -> (i < w)%N -> (j < w)%N ->
  exists r old, set_bit w v i b = Ok r /\ get_bit w v j = Ok old /\
    get_bit w r j = Ok (if (i =? j)%N then b else old).
Proof.
  intros w v i j b Hw Hv Hi Hj. destruct (C28_set_bit w v i b) as (r & E & _ & T); auto; [unfold word_type; tauto|].
  exists r, (N.testbit v j). rewrite !get_bit_spec, T by lia. auto.
Qed.
Print Assumptions C28_get_after_set.

(** C28 for 64 bits: only the positions below 32 can be read back.  Missing: positions 32 to 63, which are refuted. *)
Theorem C28_get_after_set_64_partial : forall v i j b,
  (v < 2 ^ 64)%N -> (i < 64)%N -> (j < 32)%N ->
  exists r old, set_bit 64 v i b = Ok r /\ get_bit 64 v j = Ok old /\
    get_bit 64 r j = Ok (if (i =? j)%N then b else old).
Proof.
  intros v i j b Hv Hi Hj. destruct (C28_set_bit 64 v i b) as (r & E & _ & T); auto; [unfold word_type; tauto|].
  exists r, (N.testbit v j). rewrite !get_bit_spec, T by lia. auto.
Qed.
Print Assumptions C28_get_after_set_64_partial.

Theorem C28_high_bits_refuted : exists v i r, (i < 64)%N /\ set_bit 64 v i true = Ok r /\ get_bit 64 r i = Ok false.
Proof. exists 0%N, 40%N. eexists. split; [reflexivity|]. split; vm_compute; reflexivity. Qed.
Print Assumptions C28_high_bits_refuted.

(** Every set bit from 32 on is invisible. *)
Theorem C28_high_bits_never_seen : forall v i, (32 <= i < 64)%N -> get_bit 64 v i = Ok false.
Proof.
  intros v i H. unfold get_bit, set_bit. destruct (N.leb_spec (N.max 64 32) i); [lia|]. cbn [obind].
  rewrite mask_small by lia. rewrite N.lor_0_l.
  assert (E : (2 ^ i mod 2 ^ 32 = 0)%N).
  { replace i with (32 + (i - 32))%N by lia. rewrite N.pow_add_r, N.mul_comm. apply N.mod_mul. discriminate. }
  rewrite E. reflexivity.
Qed.
Print Assumptions C28_high_bits_never_seen.

Example C28_example : set_bit 8 0 7 true = Ok 128%N /\ get_bit 8 128 7 = Ok true /\ set_bit 64 (2 ^ 63) 63 false = Ok 0%N.
Proof. vm_compute. auto. Qed.

(** ** C29 *)
(** A type whose operator< is a strict weak order on the values [ok], with a matching operator<=. *)
Record order_laws {T} (ok : T -> Prop) (ltb leb : T -> T -> bool) : Prop := {
  ol_irrefl : forall a, ok a -> ltb a a = false;
  ol_trans : forall a b c, ok a -> ok b -> ok c -> ltb a b = true -> ltb b c = true -> ltb a c = true;
  ol_negtrans : forall a b c, ok a -> ok b -> ok c -> ltb a b = false -> ltb b c = false -> ltb a c = false;
  ol_leb : forall a b, ok a -> ok b -> leb a b = negb (ltb b a)
}.
(** Equal as far as the order can tell. *)
Definition same {T} (ltb : T -> T -> bool) (a b : T) : Prop := ltb a b = false /\ ltb b a = false.

Section C.
Context {T : Type} {ok : T -> Prop} {ltb leb : T -> T -> bool}.
Variable L : order_laws ok ltb leb.
Lemma asym a b : ok a -> ok b -> ltb a b = true -> ltb b a = false.
Proof.
  intros A B H. destruct (ltb b a) eqn:E; auto. pose proof (ol_trans _ _ _ L a b a A B A H E). rewrite (ol_irrefl _ _ _ L a A) in *. discriminate.
Qed.


Lemma same_refl a : ok a -> same ltb a a.
Proof. intros A. split; apply (ol_irrefl _ _ _ L); auto. Qed.

(** C29: with min <= max, both clamps return a value within the bounds: the argument if it is within them,
    otherwise the bound it violates (for ClampValue up to order-equality, exactly for ClampValueAndWarn). *)
Theorem C29_clamp : forall dbg v mn mx, ok v -> ok mn -> ok mx -> leb mn mx = true ->
  let expected := if ltb v mn then mn else if ltb mx v then mx else v in
  exists r, clamp_value ltb leb dbg v mn mx = Ok r /\ clamp_value_warn ltb leb dbg v mn mx = Ok expected /\
    same ltb r expected /\ (leb mn r = true /\ leb r mx = true) /\ (leb mn expected = true /\ leb expected mx = true).
Proof.
  intros dbg v mn mx V MN MX H expected. unfold clamp_value, clamp_value_warn, cassert. rewrite H, andb_false_r. fold expected.
  rewrite (ol_leb _ _ _ L) in H by auto. apply negb_true_iff in H.
  eexists. split; [reflexivity|]. split; [reflexivity|].
  assert (R : same ltb (std_min ltb mx (std_max ltb mn v)) expected).
  { unfold std_min, std_max, expected. destruct (ltb mn v) eqn:E1.
    - rewrite (asym mn v) by auto. destruct (ltb v mx) eqn:E2.
      + rewrite (asym v mx) by auto. apply same_refl; auto.
      + destruct (ltb mx v) eqn:E3; [apply same_refl; auto|split; auto].
    - assert (K : ltb mx v = false) by (apply (ol_negtrans _ _ _ L mx mn v); auto). rewrite K.
      destruct (ltb v mn) eqn:E2; destruct (ltb mn mx) eqn:E3; try (apply same_refl; auto); try (split; auto; fail).
      split; auto. apply (ol_negtrans _ _ _ L v mn mx); auto. }
  assert (OE : ok expected) by (unfold expected; destruct (ltb v mn), (ltb mx v); auto).
  assert (OR : ok (std_min ltb mx (std_max ltb mn v))) by (unfold std_min, std_max; destruct (ltb mn v); [destruct (ltb v mx)|destruct (ltb mn mx)]; auto).
  assert (B : ltb expected mn = false /\ ltb mx expected = false).
  { unfold expected. destruct (ltb v mn) eqn:E1; [split; [apply (ol_irrefl _ _ _ L)|]; auto|].
    destruct (ltb mx v) eqn:E2; [split; [|apply (ol_irrefl _ _ _ L)]; auto|auto]. }
  destruct R as [R1 R2], B as [B1 B2]. split; [split; auto|].
  rewrite !(ol_leb _ _ _ L) by auto. rewrite B1, B2. split; [|auto].
  split; apply negb_true_iff.
  - apply (ol_negtrans _ _ _ L _ expected); auto.
  - apply (ol_negtrans _ _ _ L _ expected); auto.
Qed.

(** C29: clamping twice changes nothing, and clamping keeps the order of values. *)
Theorem C29_idempotent_monotone : forall dbg v v' mn mx, ok v -> ok v' -> ok mn -> ok mx -> leb mn mx = true ->
  exists r r' rr, clamp_value ltb leb dbg v mn mx = Ok r /\ clamp_value ltb leb dbg v' mn mx = Ok r' /\
    clamp_value ltb leb dbg r mn mx = Ok rr /\ same ltb rr r /\ (leb v v' = true -> leb r r' = true).
Proof.
  intros dbg v v' mn mx V V' MN MX H.
  destruct (C29_clamp dbg v mn mx V MN MX H) as (r & E & _ & [S1 S2] & [B1 B2] & _).
  destruct (C29_clamp dbg v' mn mx V' MN MX H) as (r' & E' & _ & [S1' S2'] & [B1' B2'] & _).
  assert (OK2 : forall u w, ok u -> clamp_value ltb leb dbg u mn mx = Ok w -> ok w).
  { intros u w U. unfold clamp_value, cassert. rewrite H, andb_false_r. intros [= <-].
    unfold std_min, std_max. destruct (ltb mn u); [destruct (ltb u mx)|destruct (ltb mn mx)]; auto. }
  pose proof (OK2 _ _ V E) as OR. pose proof (OK2 _ _ V' E') as OR'.
  destruct (C29_clamp dbg r mn mx OR MN MX H) as (rr & E2 & _ & [S3 S4] & _).
  rewrite (ol_leb _ _ _ L) in B1, B2, B1', B2', H by auto. apply negb_true_iff in B1, B2, B1', B2', H.
  rewrite B1, B2 in S3, S4.
  exists r, r', rr. repeat (split; [assumption|]). split; [split; assumption|].
  rewrite !(ol_leb _ _ _ L) by auto. rewrite !negb_true_iff. intros VV.
  destruct (ltb v mn) eqn:Q1.
  - apply (ol_negtrans _ _ _ L r' mn r); auto.
  - destruct (ltb mx v) eqn:Q2.
    + assert (Q : ltb mx v' = true).
      { destruct (ltb mx v') eqn:X; auto. rewrite (ol_negtrans _ _ _ L mx v' v) in Q2; auto. }
      assert (ltb v' mn = false) as Q3 by (apply (ol_negtrans _ _ _ L v' v mn); auto).
      rewrite Q, Q3 in S1', S2'. apply (ol_negtrans _ _ _ L r' mx r); auto.
    + (* r ~ v, mn <= v <= v' *)
      assert (ltb v' mn = false) as Q3 by (apply (ol_negtrans _ _ _ L v' v mn); auto). rewrite Q3 in S1', S2'.
      destruct (ltb mx v') eqn:Q4.
      * apply (ol_negtrans _ _ _ L r' mx r); auto.
      * apply (ol_negtrans _ _ _ L r' v' r); auto. apply (ol_negtrans _ _ _ L v' v r); auto.
Qed.

(** C65: SpreadValue never returns a value strictly between the thresholds, returns values below the low or not
    below the high threshold unchanged, and values strictly between them as the threshold on their side of the
    midpoint. *)
Theorem C65_spread : forall dbg v low mid high, ok v -> ok low -> ok mid -> ok high -> leb low mid = true -> leb mid high = true ->
  exists r, spread_value ltb leb dbg v low mid high = Ok r /\ (leb r low = true \/ leb high r = true) /\
    ((ltb v low = true \/ leb high v = true) -> r = v) /\
    (ltb low v = true -> ltb v high = true -> r = if ltb v mid then low else high).
Proof.
  intros dbg v low mid high V LO M HI H1 H2. unfold spread_value, cassert. rewrite H1, H2, !andb_false_r.
  eexists. split; [reflexivity|].
  rewrite (ol_leb _ _ _ L) in H1, H2 by auto. apply negb_true_iff in H1, H2. rewrite !(ol_leb _ _ _ L mid v) by auto.
  destruct (ltb v mid) eqn:E1; cbn [negb andb].
  - assert (X : ltb v high = true).
    { destruct (ltb v high) eqn:X; auto. rewrite (ol_negtrans _ _ _ L v high mid) in E1; auto. }
    destruct (ltb low v) eqn:E2.
    + rewrite !(ol_leb _ _ _ L) by auto. rewrite (ol_irrefl _ _ _ L), X by auto. rewrite (asym low v) by auto. cbn. intuition congruence.
    + rewrite !(ol_leb _ _ _ L) by auto. rewrite E2, X. cbn. intuition congruence.
  - assert (X : ltb v low = false) by (apply (ol_negtrans _ _ _ L v mid low); auto).
    destruct (ltb v high) eqn:E2.
    + rewrite !(ol_leb _ _ _ L) by auto. rewrite (ol_irrefl _ _ _ L) by auto. rewrite E2, X. cbn. intuition congruence.
    + rewrite !(ol_leb _ _ _ L) by auto. rewrite E2, X. cbn. intuition congruence.
Qed.
End C.
Print Assumptions C65_spread.
Print Assumptions C29_clamp.
Print Assumptions C29_idempotent_monotone.

(** min > max is caught when assertions are on. *)
Theorem C29_bad_bounds : forall (T : Type) (ltb leb : T -> T -> bool) v mn mx, leb mn mx = false ->
  clamp_value ltb leb true v mn mx = AssertFail /\ clamp_value_warn ltb leb true v mn mx = AssertFail.
Proof. intros T ltb leb v mn mx H. unfold clamp_value, clamp_value_warn, cassert. rewrite H. auto. Qed.
Print Assumptions C29_bad_bounds.

(** The laws hold for doubles that are not NaN, and for integers. *)
Definition f64_lt (a b : fl) : bool := match b64_compare a b with Some Lt => true | _ => false end.
Definition f64_le (a b : fl) : bool := match b64_compare a b with Some Lt | Some Eq => true | _ => false end.
Definition f64_key (x : fl) : Z * R :=
  match x with
  | B754_infinity _ _ true => ((-1)%Z, 0%R)
  | B754_infinity _ _ false => (1%Z, 0%R)
  | _ => (0%Z, B2R 53 1024 x)
  end.
Definition key_lt (a b : Z * R) : Prop := (fst a < fst b)%Z \/ (fst a = fst b /\ (snd a < snd b)%R).
Lemma key_lt_dec a b : {key_lt a b} + {~ key_lt a b}.
Proof.
  unfold key_lt. destruct (Z_lt_dec (fst a) (fst b)); [auto|]. destruct (Z.eq_dec (fst a) (fst b)); [|right; tauto].
  destruct (Rlt_dec (snd a) (snd b)); [auto|right; tauto].
Qed.
Lemma f64_compare_key x y : is_nan 53 1024 x = false -> is_nan 53 1024 y = false ->
  b64_compare x y = Some (if key_lt_dec (f64_key x) (f64_key y) then Lt else if key_lt_dec (f64_key y) (f64_key x) then Gt else Eq).
Proof.
  intros NX NY. destruct (is_finite 53 1024 x) eqn:FX, (is_finite 53 1024 y) eqn:FY.
  - unfold b64_compare. rewrite Bcompare_correct by auto. f_equal.
    assert (f64_key x = (0%Z, B2R 53 1024 x)) as -> by (destruct x; try discriminate; reflexivity).
    assert (f64_key y = (0%Z, B2R 53 1024 y)) as -> by (destruct y; try discriminate; reflexivity).
    destruct (key_lt_dec _ _) as [[H|[_ H]]|H]; cbn [fst snd] in H; [lia|apply Rcompare_Lt; auto|].
    destruct (key_lt_dec _ _) as [[H'|[_ H']]|H']; cbn [fst snd] in H'; [lia|apply Rcompare_Gt; auto|].
    apply Rcompare_Eq. destruct (Rtotal_order (B2R 53 1024 x) (B2R 53 1024 y)) as [G|[G|G]]; auto; exfalso; [apply H|apply H']; right; auto.
  - destruct y as [|sy| |]; try discriminate; destruct x as [|sx| |sx]; try discriminate; destruct sy; try destruct sx; cbn;
    repeat (destruct (key_lt_dec _ _) as [?H|?H]; try reflexivity); unfold key_lt in *; cbn in *; exfalso; intuition (try lia; try lra).
  - destruct x as [|sx| |]; try discriminate; destruct y as [|sy| |sy]; try discriminate; destruct sx; try destruct sy; cbn;
    repeat (destruct (key_lt_dec _ _) as [?H|?H]; try reflexivity); unfold key_lt in *; cbn in *; exfalso; intuition (try lia; try lra).
  - destruct x as [|sx| |]; try discriminate; destruct y as [|sy| |]; try discriminate; destruct sx, sy; cbn;
    repeat (destruct (key_lt_dec _ _) as [?H|?H]; try reflexivity); unfold key_lt in *; cbn in *; exfalso; intuition (try lia; try lra).
Qed.
Lemma f64_lt_key x y : is_nan 53 1024 x = false -> is_nan 53 1024 y = false ->
  (f64_lt x y = true <-> key_lt (f64_key x) (f64_key y)).
Proof.
  intros NX NY. unfold f64_lt. rewrite f64_compare_key by auto.
  destruct (key_lt_dec (f64_key x) (f64_key y)); [tauto|]. destruct (key_lt_dec _ _); split; intros; try discriminate; tauto.
Qed.
Lemma f64_order : order_laws (fun x => is_nan 53 1024 x = false) f64_lt f64_le.
Proof.
  constructor.
  - intros a A. apply not_true_iff_false. rewrite f64_lt_key by auto. unfold key_lt. intros [H|[_ H]]; [lia|lra].
  - intros a b c A B C. rewrite !f64_lt_key by auto. unfold key_lt. intros [H|[H1 H2]] [H'|[H1' H2']]; [left; lia|left; lia|left; lia|right; split; [lia|lra]].
  - intros a b c A B C. rewrite <- !not_true_iff_false, !f64_lt_key by auto. unfold key_lt. intros N1 N2 [H|[H1 H2]].
    + destruct (Z.lt_trichotomy (fst (f64_key b)) (fst (f64_key a))) as [?|[?|?]]; [|apply N2; left; lia|apply N1; auto]. apply N2; left; lia.
    + destruct (Z.lt_trichotomy (fst (f64_key b)) (fst (f64_key a))) as [?|[?|?]]; [apply N2; left; lia| |apply N1; left; lia].
      destruct (Rlt_dec (snd (f64_key a)) (snd (f64_key b))); [apply N1; right; auto|apply N2; right; split; [lia|lra]].
  - intros a b A B. unfold f64_le, f64_lt. rewrite !f64_compare_key by auto.
    destruct (key_lt_dec (f64_key a) (f64_key b)) as [X|X], (key_lt_dec (f64_key b) (f64_key a)) as [Y|Y]; auto.
    exfalso. unfold key_lt in *. destruct X as [?|[? ?]], Y as [?|[? ?]]; try lia; try lra.
Qed.

Lemma Z_order : order_laws (fun _ => True) Z.ltb Z.leb.
Proof. constructor; intros; lia. Qed.

(** C29, finding: for NaN the two functions differ: ClampValue returns the lower bound, ClampValueAndWarn returns
    NaN, which is within no bounds. *)
Theorem C29_nan_refuted : exists v mn mx,
  f64_le mn mx = true /\ clamp_value f64_lt f64_le true v mn mx = Ok mn /\
  clamp_value_warn f64_lt f64_le true v mn mx = Ok v /\ f64_le mn v = false /\ f64_le v mx = false.
Proof.
  exists (proj1_sig default_nan_pl64), (f_of_Z 0), (f_of_Z 1). repeat split; vm_compute; reflexivity.
Qed.
Print Assumptions C29_nan_refuted.

Example C29_example : clamp_value Z.ltb Z.leb true (-3)%Z 0%Z 5%Z = Ok 0%Z /\ clamp_value Z.ltb Z.leb true 9%Z 0%Z 5%Z = Ok 5%Z
  /\ clamp_value Z.ltb Z.leb true 4%Z 0%Z 5%Z = Ok 4%Z.
Proof. vm_compute. auto. Qed.

Example C65_example : map (fun v => spread_value Z.ltb Z.leb true v (-2) 0 5)%Z [-3; -1; 0; 4; 6]%Z
  = [Ok (-3); Ok (-2); Ok 5; Ok 5; Ok 6]%Z.
Proof. reflexivity. Qed.

(** ** C31 *)
Theorem C31_unique_refuted : exists c c' alpha, (c < 2 ^ 32)%N /\ (c' < 2 ^ 32)%N /\ c <> c' /\
  unique_color c alpha = unique_color c' alpha.
Proof. exists 21%N, 22%N, (f32_of_Z 1). repeat split; vm_compute; congruence. Qed.
Print Assumptions C31_unique_refuted.

(** Every code past the table gives black. *)
Theorem C31_past_table : forall c c' alpha, (20 < c)%N -> (20 < c')%N -> unique_color c alpha = unique_color c' alpha.
Proof.
  assert (H : forall c, (20 < c)%N -> table_find c = None).
  { intros c Hc. unfold table_find. destruct (find _ color_table) as [[k v]|] eqn:E; auto. exfalso.
    apply find_some in E as [I E]. cbn [fst] in E. assert (k <= 20)%Z; [|lia].
    clear E. revert k v I. change (forall k v, In (k, v) color_table -> (k <= 20)%Z).
    assert (F : forallb (fun p => fst p <=? 20)%Z color_table = true) by (vm_compute; reflexivity).
    rewrite forallb_forall in F. intros k v I. specialize (F _ I). cbn in F. lia. }
  intros c c' alpha Hc Hc'. unfold unique_color. rewrite !H by auto.
  destruct (N.eqb_spec c 0); [lia|]. destruct (N.eqb_spec c' 0); [lia|]. reflexivity.
Qed.
Print Assumptions C31_past_table.

Definition f32_eqb (a b : f32) : bool := match b32_compare a b with Some Eq => true | _ => false end.
Definition rgb_differ (a b : color) : bool :=
  negb (f32_eqb (c_r a) (c_r b)) || negb (f32_eqb (c_g a) (c_g b)) || negb (f32_eqb (c_b a) (c_b b)).

(** C31, the part that holds: the first 22 codes (0 to 21) give colours that differ in a colour channel,
    whatever alpha. *)
Theorem C31_first_codes_partial : forall c c' alpha alpha', (c <= 21)%N -> (c' <= 21)%N -> c <> c' ->
  rgb_differ (unique_color c alpha) (unique_color c' alpha') = true.
Proof.
  intros c c' alpha alpha' Hc Hc' N.
  assert (RGB : forall c a, let x := unique_color c a in let y := unique_color c (f32_of_Z 1) in c_r x = c_r y /\ c_g x = c_g y /\ c_b x = c_b y).
  { intros k a. cbn zeta. unfold unique_color. destruct (k =? 0)%N; auto. destruct (table_find k) as [[[? ?] ?]|]; auto. }
  unfold rgb_differ. destruct (RGB c alpha) as (-> & -> & ->). destruct (RGB c' alpha') as (-> & -> & ->).
  assert (F : forallb (fun p => forallb (fun q => (p =? q) || rgb_differ (unique_color (N.of_nat p) (f32_of_Z 1)) (unique_color (N.of_nat q) (f32_of_Z 1)))
    (seq 0 22)) (seq 0 22) = true) by (vm_compute; reflexivity).
  assert (I1 : In (N.to_nat c) (seq 0 22)) by (apply in_seq; lia).
  assert (I2 : In (N.to_nat c') (seq 0 22)) by (apply in_seq; lia).
  rewrite forallb_forall in F. specialize (F _ I1). rewrite forallb_forall in F. specialize (F _ I2).
  rewrite !N2Nat.id in F. destruct (Nat.eqb_spec (N.to_nat c) (N.to_nat c')); [lia|]. exact F.
Qed.
Print Assumptions C31_first_codes_partial.

(** C31: which colours the codes 1 to 20 have, as 0xRRGGBB. *)
Definition palette : list Z :=
  [0xFF00B3; 0x80753E; 0xFF0068; 0xA6D7BD; 0xC12000; 0xCE62A2; 0x816670; 0x00347D; 0xF68E76; 0x008A53; 0xFF5C7A; 0x537A37; 0xFF008E; 0xB35128; 0xF400C8; 0x7F0D18; 0x9300AA; 0x591533; 0xF1133A; 0x23162C]%Z.
Definition rgb_bytes (c : color) : Z := (channel_to_hex (c_r c) * 0x10000 + channel_to_hex (c_g c) * 0x100 + channel_to_hex (c_b c))%Z.
Theorem C31_palette : forall k rgb alpha, nth_error palette k = Some rgb -> rgb_bytes (unique_color (N.of_nat k + 1) alpha) = rgb.
Proof.
  intros k rgb alpha E. assert (L : (k < 20)%nat) by (change 20%nat with (length palette); apply nth_error_Some; congruence).
  do 20 (destruct k as [|k]; [injection E as <-; vm_compute; reflexivity|]). lia.
Qed.
Print Assumptions C31_palette.

(** ** C64: a channel written as a byte reads back as that byte, for all 256 bytes. *)
Theorem C64_hex_round_trip : forall h, (0 <= h <= 255)%Z -> channel_to_hex (channel_from_hex h) = h.
Proof.
  intros h H.
  assert (F : forallb (fun n => (channel_to_hex (channel_from_hex (Z.of_nat n)) =? Z.of_nat n)%Z) (seq 0 256) = true) by (vm_compute; reflexivity).
  rewrite forallb_forall in F. assert (I : In (Z.to_nat h) (seq 0 256)) by (apply in_seq; lia).
  specialize (F _ I).
  rewrite Z2Nat.id in F by lia. apply Z.eqb_eq. exact F.
Qed.
Print Assumptions C64_hex_round_trip.

(** A channel becomes the nearest byte: for a value in [0,1] the byte is within 1/2 of 255 times the value, up to the
    rounding of that product (at most 2^-17); values below (and NaN) give 0, values above give 255. *)
Theorem C64_nearest_byte : forall v : f32,
  (f32_lt v (f32_of_Z 0) = true -> channel_to_hex v = 0%Z) /\ (is_nan _ _ v = true -> channel_to_hex v = 0%Z) /\
  (f32_lt (f32_of_Z 1) v = true -> channel_to_hex v = 255%Z) /\
  (is_finite _ _ v = true -> (0 <= B2R _ _ v <= 1)%R ->
   (Rabs (IZR (channel_to_hex v) - 255 * B2R _ _ v) <= / 2 + / 131072)%R /\ (0 <= channel_to_hex v <= 255)%Z).
Proof.
  intros v.
  assert (Z0 : B2R _ _ (f32_of_Z 0) = 0%R) by reflexivity.
  assert (Z1 : B2R _ _ (f32_of_Z 1) = 1%R) by (vm_compute; lra).
  assert (Z255 : B2R _ _ (f32_of_Z 255) = 255%R) by (vm_compute; lra).
  assert (CMP : forall a b : f32, is_finite _ _ a = true -> is_finite _ _ b = true -> f32_lt a b = match Rcompare (B2R _ _ a) (B2R _ _ b) with Lt => true | _ => false end).
  { intros a b A B. unfold f32_lt, b32_compare. rewrite Bcompare_correct by auto. reflexivity. }
  assert (HEX : forall t : f32, trim_color v = t -> is_finite _ _ t = true -> (0 <= B2R _ _ t <= 1)%R ->
    (Rabs (IZR (channel_to_hex v) - 255 * B2R _ _ t) <= / 2 + / 131072)%R).
  { intros t T F I. unfold channel_to_hex. rewrite T. clear T. set (p := b32_mult NE t (f32_of_Z 255)).
    assert (ROUND : (Rabs (B2R _ _ p - 255 * B2R _ _ t) <= / 131072)%R).
    { assert (M := Bmult_correct 24 128 eq_refl eq_refl binop_nan_pl32 NE t (f32_of_Z 255)). rewrite Z255 in M.
      assert (ERR : (Rabs (round radix2 (SpecFloat.fexp 24 128) (BinarySingleNaN.round_mode NE) (B2R 24 128 t * 255) - B2R 24 128 t * 255) <= / 131072)%R).
      { eapply Rle_trans; [apply error_le_half_ulp; apply (BinarySingleNaN.fexp_correct 24 128 eq_refl)|].
        destruct (Req_dec (B2R 24 128 t * 255) 0) as [E|E].
        - rewrite E. unfold ulp. rewrite Req_bool_true by auto. destruct (negligible_exp_spec (SpecFloat.fexp 24 128)) as [NX|n NX].
          + exfalso. specialize (NX (-1000)%Z). unfold SpecFloat.fexp, SpecFloat.emin in NX. lia.
          + assert (X : (bpow radix2 (SpecFloat.fexp 24 128 n) <= bpow radix2 (-16))%R).
            { apply bpow_le. unfold SpecFloat.fexp, SpecFloat.emin in *. lia. }
            change (bpow radix2 (-16)) with (/ IZR (Z.pow_pos 2 16))%R in X. cbn in X. lra.
        - rewrite ulp_neq_0 by auto. unfold cexp.
          assert (MG : (mag radix2 (B2R 24 128 t * 255) <= 8)%Z).
          { apply mag_le_bpow; auto. rewrite Rabs_pos_eq by lra. change (bpow radix2 8) with 256%R. lra. }
          assert (X : (bpow radix2 (SpecFloat.fexp 24 128 (mag radix2 (B2R 24 128 t * 255))) <= bpow radix2 (-16))%R).
          { apply bpow_le. unfold SpecFloat.fexp, SpecFloat.emin. lia. }
          change (bpow radix2 (-16)) with (/ IZR (Z.pow_pos 2 16))%R in X. cbn in X. lra. }
      rewrite Rlt_bool_true in M.
      - destruct M as (M & _). unfold p, b32_mult. rewrite M. replace (255 * B2R 24 128 t)%R with (B2R 24 128 t * 255)%R by ring. exact ERR.
      - apply Rle_lt_trans with 1000%R.
        + apply Rabs_le. split; unfold Rabs in ERR; destruct Rcase_abs in ERR; lra.
        + change (bpow radix2 128) with (IZR (Z.pow_pos 2 128)). apply IZR_lt. reflexivity. }
    assert (NEAR := Bnearbyint_correct 24 128 eq_refl unop_nan_pl32 BinarySingleNaN.mode_NA p). destruct NEAR as (NEAR & _).
    assert (TR := Btrunc_correct 24 128 eq_refl (Bnearbyint 24 128 eq_refl unop_nan_pl32 BinarySingleNaN.mode_NA p)).
    rewrite NEAR in TR. cbn [BinarySingleNaN.round_mode] in TR.
    rewrite round_generic in TR; [|typeclasses eauto|apply generic_format_round; typeclasses eauto].
    rewrite TR. assert (NE2 := error_le_half_ulp radix2 (FIX_exp 0) (Z.leb 0) (B2R 24 128 p)).
    rewrite ulp_FIX in NE2. change (bpow radix2 0) with 1%R in NE2. change (Znearest (Z.leb 0)) with ZnearestA in NE2.
    unfold Rabs in *. repeat destruct Rcase_abs; lra. }
  split; [|split; [|split]].
  - intros H. assert (T : trim_color v = f32_of_Z 0).
    { unfold trim_color, std_max, std_min. replace (f32_lt (f32_of_Z 0) v) with false; [reflexivity|].
      unfold f32_lt, b32_compare in *. rewrite Bcompare_swap. destruct (Bcompare 24 128 v (f32_of_Z 0)) as [[]|]; try discriminate; reflexivity. }
    unfold channel_to_hex. rewrite T. vm_compute. reflexivity.
  - intros H. assert (T : trim_color v = f32_of_Z 0) by (destruct v; try discriminate; reflexivity).
    unfold channel_to_hex. rewrite T. vm_compute. reflexivity.
  - intros H. assert (T : trim_color v = f32_of_Z 1).
    { unfold trim_color, std_max, std_min. destruct (f32_lt (f32_of_Z 0) v) eqn:E.
      - destruct (f32_lt v (f32_of_Z 1)) eqn:E1; auto. exfalso. unfold f32_lt, b32_compare in *. rewrite Bcompare_swap in H. destruct (Bcompare 24 128 v (f32_of_Z 1)) as [[]|]; discriminate.
      - exfalso. destruct (is_finite _ _ v) eqn:F.
        + rewrite CMP in H, E by auto. rewrite Z1 in H. rewrite Z0 in E. destruct (Rcompare_spec 1 (B2R 24 128 v)); try discriminate. destruct (Rcompare_spec 0 (B2R 24 128 v)); try discriminate; lra.
        + destruct v as [| [] | |]; try discriminate. }
    unfold channel_to_hex. rewrite T. vm_compute. reflexivity.
  - intros F I.
    assert (T : exists t, trim_color v = t /\ is_finite _ _ t = true /\ B2R _ _ t = B2R _ _ v).
    { eexists. split; [reflexivity|]. unfold trim_color, std_max, std_min. rewrite (CMP (f32_of_Z 0) v) by auto. rewrite Z0.
      destruct (Rcompare_spec 0 (B2R 24 128 v)); try lra.
      - rewrite CMP by auto. rewrite Z1. destruct (Rcompare_spec (B2R 24 128 v) 1); auto; try lra. split; auto. lra.
      - change (f32_lt (f32_of_Z 0) (f32_of_Z 1)) with true. cbn iota. split; [auto|]. rewrite <- H. reflexivity. }
    destruct T as (t & T & Ft & V). specialize (HEX t T Ft ltac:(rewrite V; auto)). rewrite V in HEX. split; auto.
    assert (A : (-1 < IZR (channel_to_hex v) < 256)%R) by (unfold Rabs in HEX; destruct Rcase_abs in HEX; lra).
    destruct A as [A1 A2]. apply lt_IZR in A1. apply lt_IZR in A2. lia.
Qed.
Print Assumptions C64_nearest_byte.
Example C64_nearest_example : channel_to_hex (b32_div NE (f32_of_Z 1) (f32_of_Z 3)) = 85%Z /\ channel_to_hex (b32_div NE (f32_of_Z 1) (f32_of_Z 2)) = 128%Z /\
  channel_to_hex (b32_div NE (f32_of_Z 9) (f32_of_Z 1000)) = 2%Z.
Proof. vm_compute. auto. Qed.

(** C31: UniqueColorGenerator gives the colours of the codes 1, 2, 3, ... and after 2^32 - 1 that of 0. *)
Theorem C31_generator : forall alpha n k, (k < n)%nat -> nth_error (generator 1 alpha n) k = Some (unique_color ((N.of_nat k + 1) mod 2 ^ 32) alpha).
Proof.
  assert (G : forall alpha n k i, (k < n)%nat -> (i < 2 ^ 32)%N -> nth_error (generator i alpha n) k = Some (unique_color ((N.of_nat k + i) mod 2 ^ 32) alpha)).
  { intros alpha n. induction n as [|n IH]; intros [|k] i L I; [lia|lia| |].
    - cbn [generator nth_error]. change (N.of_nat 0 + i)%N with i. rewrite N.mod_small by exact I. reflexivity.
    - cbn [generator nth_error]. rewrite IH by (try lia; apply N.mod_lt; discriminate). rewrite N.add_mod_idemp_r by discriminate. do 3 f_equal. lia. }
  intros alpha n k L. apply G; [exact L|reflexivity].
Qed.
Print Assumptions C31_generator.
Example C31_generator_case : map (fun c => nth_error (generator 1 (f32_of_Z 1) 25) c) [0%nat; 19%nat; 24%nat] = map (fun c => Some (unique_color c (f32_of_Z 1))) [1; 20; 25]%N.
Proof. reflexivity. Qed.
