(** Properties C05-C07: base64. *)
From Coq Require Import Strings.Byte Strings.String.
From Verif Require Import Base Base64Model Base64Spec Base64Proofs.

Lemma fits_text b : text_size_fits b -> (4 * ((N.of_nat (length b) + 2) / 3) < 2 ^ 64)%N.
Proof.
  unfold text_size_fits. change (2 ^ 62)%N with 4611686018427387904%N.
  change (2 ^ 64)%N with 18446744073709551616%N. lia.
Qed.

(** C05: decoding an encoded vector gives the vector back, whether char is signed or not. *)
Theorem C05_decode_inverts_encode :
  forall (char_signed : bool) (b : list byte), text_size_fits b ->
  exists s, encode b = Ok s /\ decode char_signed s = Ok b.
Proof.
  intros sg b H. apply fits_text in H. exists (enc_groups b). split.
  - apply encode_eq, H.
  - eapply round_trip; [apply encode_eq|]; exact H.
Qed.
Print Assumptions C05_decode_inverts_encode.

(** Hence two different vectors never have the same text. *)
Theorem C05_encode_injective :
  forall a b s, text_size_fits a -> text_size_fits b -> encode a = Ok s -> encode b = Ok s -> a = b.
Proof.
  intros a b s HA HB EA EB. apply fits_text in HA, HB.
  pose proof (round_trip true a s EA HA). pose proof (round_trip true b s EB HB). congruence.
Qed.
Print Assumptions C05_encode_injective.

(** ** C06 *)
Lemma chr_alphabet v : (v < 64)%N -> chr v = alphabet v.
Proof.
  intros H. apply Byte.byte_dec_bl. revert v H.
  apply (n64_sweep (fun v => Byte.eqb (chr v) (alphabet v))). vm_compute. reflexivity.
Qed.

Definition beqs (l1 l2 : list bool) : bool := if list_eq_dec Bool.bool_dec l1 l2 then true else false.
Lemma beqs_eq l1 l2 : beqs l1 l2 = true -> l1 = l2.
Proof. unfold beqs. destruct (list_eq_dec _ l1 l2); congruence. Qed.

Definition b8 (a : byte) := bits 8 (Byte.to_N a).
Lemma bits_sx0 a : bits 6 (sx0 (Byte.to_N a)) = firstn 6 (b8 a).
Proof.
  apply beqs_eq. revert a. apply (byte_sweep (fun a => beqs (bits 6 (sx0 (Byte.to_N a))) (firstn 6 (b8 a)))).
  vm_compute. reflexivity.
Qed.
Lemma bits_sx3 a : bits 6 (sx3 (Byte.to_N a)) = skipn 2 (b8 a).
Proof.
  apply beqs_eq. revert a. apply (byte_sweep (fun a => beqs (bits 6 (sx3 (Byte.to_N a))) (skipn 2 (b8 a)))).
  vm_compute. reflexivity.
Qed.
Lemma bits_sx1 a b : bits 6 (sx1 (Byte.to_N a) (Byte.to_N b)) = skipn 6 (b8 a) ++ firstn 4 (b8 b).
Proof.
  apply beqs_eq. revert b. apply byte_sweep. revert a. apply byte_sweep. vm_compute. reflexivity.
Qed.
Lemma bits_sx2 a b : bits 6 (sx2 (Byte.to_N a) (Byte.to_N b)) = skipn 4 (b8 a) ++ firstn 2 (b8 b).
Proof.
  apply beqs_eq. revert b. apply byte_sweep. revert a. apply byte_sweep. vm_compute. reflexivity.
Qed.

Lemma split8 a k : firstn k (b8 a) ++ skipn k (b8 a) = b8 a.
Proof. apply firstn_skipn. Qed.

Lemma pad_S3 n : (3 - S (S (S n)) mod 3) mod 3 = (3 - n mod 3) mod 3.
Proof. replace (S (S (S n))) with (n + 1 * 3) by lia. rewrite Nat.mod_add by lia. reflexivity. Qed.

Lemma enc_is_base64 b : is_base64_of b (enc_groups b).
Proof.
  unfold is_base64_of.
  induction b as [|a|a b|a b c r IH] using list_ind3.
  - exists []. repeat split; auto.
  - exists [sx0 (Byte.to_N a); sx1 (Byte.to_N a) (Byte.to_N x00)].
    change (Byte.to_N x00) with 0%N. bounds. repeat split.
    + repeat constructor; [apply sx0_lt | apply sx1_lt]; lia.
    + cbn [enc_groups map]. rewrite !chr_alphabet; auto; [apply sx1_lt | apply sx0_lt]; lia.
    + change 0%N with (Byte.to_N x00). cbn [flat_map]. rewrite bits_sx0, bits_sx1.
      fold (b8 a). rewrite <- (split8 a 6) at 3. rewrite <- !app_assoc. reflexivity.
  - exists [sx0 (Byte.to_N a); sx1 (Byte.to_N a) (Byte.to_N b); sx2 (Byte.to_N b) (Byte.to_N x00)].
    change (Byte.to_N x00) with 0%N. bounds. repeat split.
    + repeat constructor; [apply sx0_lt | apply sx1_lt | apply sx2_lt]; lia.
    + cbn [enc_groups map]. rewrite !chr_alphabet; auto; [apply sx2_lt | apply sx1_lt | apply sx0_lt]; lia.
    + change 0%N with (Byte.to_N x00). cbn [flat_map]. rewrite bits_sx0, bits_sx1, bits_sx2.
      fold (b8 a) (b8 b). rewrite <- (split8 a 6) at 3. rewrite <- (split8 b 4) at 3.
      rewrite <- !app_assoc. reflexivity.
  - destruct IH as (ds & D & E & L & B).
    exists (sx0 (Byte.to_N a) :: sx1 (Byte.to_N a) (Byte.to_N b) :: sx2 (Byte.to_N b) (Byte.to_N c)
            :: sx3 (Byte.to_N c) :: ds).
    cbv zeta. cbn [length]. rewrite pad_S3. bounds.
    repeat split.
    + repeat constructor; auto; [apply sx0_lt | apply sx1_lt | apply sx2_lt | apply sx3_lt]; lia.
    + cbn [enc_groups map]. rewrite E, !chr_alphabet; auto; [apply sx3_lt|apply sx2_lt|apply sx1_lt|apply sx0_lt]; lia.
    + cbn [enc_groups length]. rewrite L, groups_len_S. reflexivity.
    + cbn [flat_map]. rewrite B, bits_sx0, bits_sx1, bits_sx2, bits_sx3.
      fold (b8 a) (b8 b) (b8 c). rewrite <- (split8 a 6) at 3. rewrite <- (split8 b 4) at 3.
      rewrite <- (split8 c 2) at 3. rewrite <- !app_assoc. reflexivity.
Qed.

Theorem C06_encode_well_formed :
  forall b, text_size_fits b -> exists s, encode b = Ok s /\ is_base64_of b s.
Proof.
  intros b H. apply fits_text in H. exists (enc_groups b). split; [apply encode_eq, H | apply enc_is_base64].
Qed.
Print Assumptions C06_encode_well_formed.

(** [is_base64_of] determines the text, so the theorem pins the output down completely. *)
Lemma bits_testbit k x i : i < k -> nth_error (bits k x) i = Some (N.testbit_nat x (k - 1 - i)).
Proof.
  intros H. unfold bits. rewrite nth_error_map.
  assert (E : nth_error (seq 0 k) i = Some i).
  { rewrite (nth_error_nth' _ 0) by (rewrite seq_length; lia). rewrite seq_nth by lia. reflexivity. }
  rewrite E. reflexivity.
Qed.

Lemma bits6_inj u v : (u < 64)%N -> (v < 64)%N -> bits 6 u = bits 6 v -> u = v.
Proof.
  intros HU HV E.
  assert (S : forall u, (u < 64)%N -> forallb (fun v => negb (beqs (bits 6 u) (bits 6 (N.of_nat v))) ||
                                              (u =? N.of_nat v)%N) (seq 0 64) = true).
  { apply n64_sweep. vm_compute. reflexivity. }
  specialize (S u HU). rewrite forallb_forall in S. specialize (S (N.to_nat v)).
  rewrite N2Nat.id in S. rewrite E in S. unfold beqs in S.
  destruct (list_eq_dec _ (bits 6 v) (bits 6 v)) as [_|]; [|congruence]. cbn [negb orb] in S.
  apply N.eqb_eq, S, in_seq. lia.
Qed.

Lemma digits_inj : forall d1 d2, Forall (fun v => (v < 64)%N) d1 -> Forall (fun v => (v < 64)%N) d2 ->
  flat_map (bits 6) d1 = flat_map (bits 6) d2 -> d1 = d2.
Proof.
  induction d1 as [|u d1 IH]; intros [|v d2] F1 F2 E; auto; try discriminate.
  inversion F1; inversion F2; subst. cbn [flat_map] in E.
  apply (f_equal (firstn 6)) in E as E6. apply (f_equal (skipn 6)) in E as ES.
  change (bits 6 u = bits 6 v) in E6.
  change (flat_map (bits 6) d1 = flat_map (bits 6) d2) in ES.
  f_equal; [apply bits6_inj; auto | apply IH; auto].
Qed.

Theorem C06_text_is_unique :
  forall b s t, is_base64_of b s -> is_base64_of b t -> s = t.
Proof.
  intros b s t (ds & D1 & E1 & L1 & B1) (dt & D2 & E2 & L2 & B2). cbv zeta in *.
  rewrite <- B2 in B1. apply digits_inj in B1; auto. subst dt. congruence.
Qed.
Print Assumptions C06_text_is_unique.

Example C06_example :
  encode (list_byte_of_string "foobar!") = Ok (list_byte_of_string "Zm9vYmFyIQ==").
Proof. vm_compute. reflexivity. Qed.

(** ** C07 *)

(** On a platform with signed char, decoding any text with a character above 127 reads outside the table. *)
Theorem C07_decode_memory_safe_refuted :
  exists s, length s = 4 /\ decode true s = UB.
Proof. exists ["Z"; xe9; "=" ; "="]%byte. vm_compute. auto. Qed.
Print Assumptions C07_decode_memory_safe_refuted.

(** That is the only way to go wrong: for every other string (any length, any padding, any characters), and
    for every string where char is unsigned, decoding returns a vector. *)
Theorem C07_decode_memory_safe_partial :
  forall (char_signed : bool) (s : list byte),
  decode char_signed s = UB /\ char_signed = true /\ Exists (fun c => (128 <= Byte.to_N c)%N) s \/
  (exists b, decode char_signed s = Ok b) /\ (char_signed = true -> Forall (fun c => (Byte.to_N c < 128)%N) s).
Proof.
  intros sg s. rewrite decode_eq. destruct (existsb (big sg) s) eqn:E.
  - left. apply existsb_exists in E. destruct E as (c & I & B). unfold big in B. apply andb_true_iff in B.
    destruct B as [B1 B2]. repeat split; auto. apply Exists_exists. exists c. split; auto. lia.
  - right. split; [eauto|]. intros ->. apply Forall_forall. intros c I.
    destruct (N.ltb_spec (Byte.to_N c) 128); auto.
    assert (existsb (big true) s = true); [|congruence].
    apply existsb_exists. exists c. split; auto. unfold big. cbn [andb]. lia.
Qed.
Print Assumptions C07_decode_memory_safe_partial.

(** How many bytes come out: three for every four characters, and one or two for a short or padded tail. *)
Lemma dec_tail_length a b oc : length (dec_tail a b oc) <= 2.
Proof. destruct oc as [c|]; cbn; [destruct (Byte.eqb c c_eq)|]; cbn; lia. Qed.

Lemma dec_groups_length : forall n s, length s <= n -> length (dec_groups s) <= 3 * ((length s + 3) / 4).
Proof.
  induction n as [n IH] using lt_wf_ind. intros s H.
  destruct s as [|a [|b [|c [|d [|e r]]]]]; try (cbn; lia).
  - cbn [dec_groups]. etransitivity; [apply dec_tail_length|]. cbn. lia.
  - cbn [dec_groups]. destruct (Byte.eqb d c_eq); [etransitivity; [apply dec_tail_length|]|]; cbn; lia.
  - cbn [length] in H.
    assert (E : dec_groups (a :: b :: c :: d :: e :: r)
                = d0 (idx a) (idx b) :: d1 (idx b) (idx c) :: d2 (idx c) (idx d) :: dec_groups (e :: r)) by reflexivity.
    rewrite E. cbn [length].
    assert (I : length (dec_groups (e :: r)) <= 3 * ((length (e :: r) + 3) / 4)).
    { apply (IH (length (e :: r))); cbn [length]; lia. }
    cbn [length] in I.
    replace (S (S (S (S (S (length r))))) + 3) with (S (length r) + 3 + 1 * 4) by lia.
    rewrite Nat.div_add by lia. lia.
Qed.

Theorem C07_decode_output_bounded :
  forall char_signed s b, decode char_signed s = Ok b -> length b <= 3 * ((length s + 3) / 4).
Proof.
  intros sg s b H. rewrite decode_eq in H. destruct (existsb _ _); [discriminate|].
  injection H as <-. apply (dec_groups_length (length s)). lia.
Qed.
Print Assumptions C07_decode_output_bounded.

Example C07_example_odd_padding :
  decode true (list_byte_of_string "Zm9") = Ok (list_byte_of_string "fo") /\
  decode true (list_byte_of_string "Z") = Ok ["d"%byte].
Proof. vm_compute. auto. Qed.

(** ** C74: other base64 texts *)
(** Characters that stand for the same digit as a character of the standard alphabet: the URL-safe '-' and '_', and the
    '.' and ',' of other variants. *)
Definition same_digit (std c : byte) : Prop :=
  c = std \/ (std = "+"%byte /\ (c = "-"%byte \/ c = "."%byte)) \/ (std = "/"%byte /\ (c = "_"%byte \/ c = ","%byte)).
Lemma same_digit_idx std c : same_digit std c -> idx c = idx std.
Proof. intros [->|[[-> [->| ->]]|[-> [->| ->]]]]; reflexivity. Qed.
Lemma same_digit_pad std c : same_digit std c -> Byte.eqb c c_eq = Byte.eqb std c_eq.
Proof. intros [->|[[-> [->| ->]]|[-> [->| ->]]]]; reflexivity. Qed.
Lemma same_digit_big sg std c : same_digit std c -> big sg std = false -> big sg c = false.
Proof. intros [->|[[-> [->| ->]]|[-> [->| ->]]]]; auto; intros _; destruct sg; reflexivity. Qed.
Lemma dec_groups_same : forall n e s, length e <= n -> Forall2 same_digit e s -> dec_groups s = dec_groups e.
Proof.
  induction n as [n IH] using lt_wf_ind. intros e s L F.
  destruct F as [|a a' e s Ha F]; [reflexivity|]. destruct F as [|b b' e s Hb F].
  { cbn [dec_groups dec_tail]. rewrite (same_digit_idx _ _ Ha). reflexivity. }
  destruct F as [|c c' e s Hc F]. { cbn [dec_groups dec_tail]. rewrite (same_digit_idx _ _ Ha), (same_digit_idx _ _ Hb). reflexivity. }
  assert (T : dec_tail a' b' (Some c') = dec_tail a b (Some c)).
  { cbn [dec_tail]. rewrite (same_digit_pad _ _ Hc), (same_digit_idx _ _ Ha), (same_digit_idx _ _ Hb), (same_digit_idx _ _ Hc). reflexivity. }
  destruct F as [|d d' e s Hd F]; [exact T|].
  cbn [dec_groups]. cbn [length] in L. rewrite T, (same_digit_pad _ _ Hd), (same_digit_idx _ _ Ha), (same_digit_idx _ _ Hb), (same_digit_idx _ _ Hc), (same_digit_idx _ _ Hd).
  destruct F as [|x x' e s Hx F]; [reflexivity|]. rewrite (IH (length (x :: e)) ltac:(cbn [length] in *; lia) (x :: e) (x' :: s)); auto.
Qed.

Lemma dec_groups_unpadded b : forall t k, enc_groups b = t ++ repeat "="%byte k -> dec_groups t = b.
Proof.
  assert (NE : forall v, (v < 64)%N -> chr v <> "="%byte).
  { intros v H X. pose proof (chr_not_eq v H) as Y. rewrite X in Y. discriminate. }
  induction b as [|a|a b|a b c r IH] using list_ind3; intros t k H; bounds.
  - destruct t; [reflexivity|discriminate].
  - rewrite <- (dec_enc [a]). cbn [enc_groups] in *. cbv zeta in *.
    assert (N0 := NE (sx0 (Byte.to_N a)) ltac:(apply sx0_lt; lia)). assert (N1 := NE (sx1 (Byte.to_N a) 0) ltac:(apply sx1_lt; lia)).
    destruct t as [|t0 t]; [destruct k; [discriminate|]; injection H; intros; contradiction|]. injection H as <- H.
    destruct t as [|t1 t]; [destruct k; [discriminate|]; injection H; intros; contradiction|]. injection H as <- H.
    destruct t as [|t2 t]; [reflexivity|]. injection H as <- H. destruct t as [|t3 t]; [reflexivity|]. injection H as <- H. destruct t; [reflexivity|discriminate].
  - rewrite <- (dec_enc [a; b]). cbn [enc_groups] in *. cbv zeta in *.
    assert (N0 := NE (sx0 (Byte.to_N a)) ltac:(apply sx0_lt; lia)). assert (N1 := NE (sx1 (Byte.to_N a) (Byte.to_N b)) ltac:(apply sx1_lt; lia)).
    assert (N2 := NE (sx2 (Byte.to_N b) 0) ltac:(apply sx2_lt; lia)).
    destruct t as [|t0 t]; [destruct k; [discriminate|]; injection H; intros; contradiction|]. injection H as <- H.
    destruct t as [|t1 t]; [destruct k; [discriminate|]; injection H; intros; contradiction|]. injection H as <- H.
    destruct t as [|t2 t]; [destruct k; [discriminate|]; injection H; intros; contradiction|]. injection H as <- H.
    destruct t as [|t3 t]; [reflexivity|]. injection H as <- H. destruct t; [reflexivity|discriminate].
  - assert (N0 := NE (sx0 (Byte.to_N a)) ltac:(apply sx0_lt; lia)). assert (N1 := NE (sx1 (Byte.to_N a) (Byte.to_N b)) ltac:(apply sx1_lt; lia)).
    assert (N2 := NE (sx2 (Byte.to_N b) (Byte.to_N c)) ltac:(apply sx2_lt; lia)). assert (N3 := NE (sx3 (Byte.to_N c)) (sx3_lt _)).
    rewrite <- (dec_enc (a :: b :: c :: r)). cbn [enc_groups] in *. cbv zeta in *.
    destruct t as [|t0 t]; [destruct k; [discriminate|]; injection H; intros; contradiction|]. injection H as <- H.
    destruct t as [|t1 t]; [destruct k; [discriminate|]; injection H; intros; contradiction|]. injection H as <- H.
    destruct t as [|t2 t]; [destruct k; [discriminate|]; injection H; intros; contradiction|]. injection H as <- H.
    destruct t as [|t3 t]; [destruct k; [discriminate|]; injection H; intros; contradiction|]. injection H as <- H.
    specialize (IH t k H). cbn [dec_groups]. rewrite dec_enc, IH.
    destruct t as [|t4 t].
    + cbn in IH. subst r. reflexivity.
    + destruct (enc_groups r) eqn:E; [discriminate|reflexivity].
Qed.

(** C74: a text that differs from the encoding of a vector only by other characters for the digits 62 and 63, and by
    missing padding, decodes to the same vector. *)
Theorem C74_decode_variants :
  forall (char_signed : bool) (b e t : list byte) k, text_size_fits b -> encode b = Ok e ->
  Forall2 same_digit e (t ++ repeat "="%byte k) -> decode char_signed t = Ok b.
Proof.
  intros sg b e t k H E F. rewrite encode_eq in E by (apply fits_text, H). injection E as <-.
  apply Forall2_app_inv_r in F. destruct F as (e1 & e2 & F1 & F2 & E).
  assert (e2 = repeat "="%byte k).
  { clear -F2. remember (repeat "="%byte k) as r eqn:R. revert k R. induction F2 as [|x y l l' S F IH]; intros k R; auto. destruct k as [|k]; [discriminate|]. injection R as -> R.
    destruct S as [ <- |[[_ [X|X]]|[_ [X|X]]]]; try discriminate. f_equal. eapply IH; eauto. }
  subst e2. rewrite decode_eq, (dec_groups_same (length e1) e1 t), (dec_groups_unpadded b e1 k) by auto.
  assert (B : existsb (big sg) t = false).
  { assert (X := enc_not_big sg b). rewrite E, existsb_app in X. apply orb_false_iff in X. destruct X as [X _]. clear -F1 X.
    induction F1 as [|x y l l' S F IH]; auto. cbn [existsb] in *. apply orb_false_iff in X. destruct X as [X1 X2]. rewrite (same_digit_big sg _ _ S X1), IH; auto. }
  rewrite B. reflexivity.
Qed.
Print Assumptions C74_decode_variants.
Example C74_example : exists e, encode (list_byte_of_string "~~?>"%string) = Ok e /\ e = list_byte_of_string "fn4/Pg=="%string /\
  Forall2 same_digit e (list_byte_of_string "fn4_Pg"%string ++ repeat "="%byte 2) /\ decode true (list_byte_of_string "fn4_Pg"%string) = Ok (list_byte_of_string "~~?>"%string).
Proof. eexists. split; [vm_compute; reflexivity|]. split; [reflexivity|]. split; [|vm_compute; reflexivity]. cbn [app list_byte_of_string repeat]. unfold list_byte_of_string. cbn. repeat (apply Forall2_cons; [first [left; reflexivity|right; right; auto]|]). apply Forall2_nil. Qed.
