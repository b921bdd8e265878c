(** C144: sizes of files, poses, points and markers of the Python package. *)
From Coq Require Import Ascii String Reals List Bool ZArith Lia Lra Decimal DecimalString DecimalNat.
From Flocq Require Import Core Relative.
From Verif Require Import PyBase GeoModel GeoAlg RotProps PyConvModel.
Import ListNotations.
Open Scope R_scope.

(** ** Sizes of files *)
(** The text of a size: digits, possibly a dot and more digits, a unit or none, and b or B or nothing.  Decimal.uint are the strings of digits. *)
Definition units : list (string * nat) := [("", 0); ("k", 3); ("K", 3); ("m", 6); ("M", 6); ("g", 9); ("G", 9)]%string%nat.
Definition bytes : list string := [""; "b"; "B"]%string.
Definition size_text (ip : uint) (frac : option uint) (u b : string) : string :=
  (NilEmpty.string_of_uint ip ++ (match frac with None => "" | Some fp => "." ++ NilEmpty.string_of_uint fp end) ++ u ++ b)%string.
Definition some_digit (ip : uint) (frac : option uint) : Prop := ip <> Nil \/ exists fp, frac = Some fp /\ fp <> Nil.
(** The number of bytes it says. *)
Definition said (ip : uint) (frac : option uint) (e : nat) : R :=
  (INR (Nat.of_uint ip) + match frac with None => 0 | Some fp => INR (Nat.of_uint fp) / 10 ^ nb_digits fp end) * 10 ^ e.

Definition free (r : string) : Prop := match r with String c _ => is_digit c = false | EmptyString => True end.
Lemma digits_text u r : free r -> digits (NilEmpty.string_of_uint u ++ r) = (NilEmpty.string_of_uint u, r).
Proof.
  intros F. induction u; cbn [NilEmpty.string_of_uint append digits]; try (change (is_digit _) with true; cbn iota; rewrite IHu; reflexivity).
  destruct r as [|c r]; [reflexivity|]. cbn in F |- *. rewrite F. reflexivity.
Qed.
Lemma digit_cases c : is_digit c = true -> exists d, forall u, exists v, NilEmpty.string_of_uint v = String c (NilEmpty.string_of_uint u) /\ d = tt.
Proof.
  intros H. exists tt. intros u. destruct c as [b0 b1 b2 b3 b4 b5 b6 b7]. destruct b7, b6, b5, b4; try discriminate H; destruct b3, b2, b1, b0; try discriminate H;
  [exists (D9 u)|exists (D8 u)|exists (D7 u)|exists (D6 u)|exists (D5 u)|exists (D4 u)|exists (D3 u)|exists (D2 u)|exists (D1 u)|exists (D0 u)]; split; reflexivity.
Qed.
Lemma digits_split s : exists u r, digits s = (NilEmpty.string_of_uint u, r) /\ s = (NilEmpty.string_of_uint u ++ r)%string /\ free r.
Proof.
  induction s as [|c s (u & r & E & S & F)]; [exists Nil, ""%string; repeat split|]. cbn [digits]. destruct (is_digit c) eqn:D.
  - destruct (digit_cases c D) as (d & H). destruct (H u) as (v & V & _). exists v, r. rewrite E, V, S. repeat split. exact F.
  - exists Nil, (String c s). repeat split. exact D.
Qed.

Lemma number_acc s : forall acc, number acc s = (acc * 10 ^ Z.of_nat (String.length s) + number 0 s)%Z.
Proof.
  induction s as [|c s IH]; intros acc; cbn [number String.length]; [rewrite Z.pow_0_r; lia|]. rewrite IH, (IH (0 * 10 + _)%Z). rewrite Nat2Z.inj_succ, Z.pow_succ_r by lia. ring.
Qed.
Lemma number_app a b : number 0 (a ++ b) = (number 0 a * 10 ^ Z.of_nat (String.length b) + number 0 b)%Z.
Proof.
  rewrite <- number_acc. generalize 0%Z. induction a as [|c a IH]; intros z; cbn [append number]; auto.
Qed.
Lemma number_uint u : number 0 (NilEmpty.string_of_uint u) = Z.of_nat (Nat.of_uint u).
Proof.
  unfold Nat.of_uint. change 0%Z with (Z.of_nat 0). generalize 0%nat.
  assert (T : forall n, Nat.tail_mul 10 n = (10 * n)%nat) by (intros; apply Nat.tail_mul_spec).
  induction u; intros n; cbn [NilEmpty.string_of_uint number Nat.of_uint_acc]; auto; rewrite <- IHu; f_equal; rewrite T, ?Nat2Z.inj_succ, Nat2Z.inj_mul; cbn [nat_of_ascii]; cbv [nat_of_ascii N_of_ascii N_of_digits]; simpl Z.of_nat; lia.
Qed.
Lemma length_uint u : String.length (NilEmpty.string_of_uint u) = nb_digits u.
Proof. induction u; cbn; auto. Qed.

(** What happens with a recognized text. *)
Definition finish (x m : R) : py Z :=
  match double x with
  | None => Raise OverflowError
  | Some q => match double (q * m) with Some p => Ret (ZnearestE p) | None => Raise OverflowError end
  end.
Lemma units_mult u e : In (u, e) units -> exists o, (forall b, In b bytes -> optional ["k"; "K"; "m"; "M"; "g"; "G"]%char (u ++ b) = (o, b)) /\ multiplier o = 10 ^ e /\
  forall b, In b bytes -> free (u ++ b) /\ optional ["."]%char (u ++ b) = (None, (u ++ b)%string).
Proof.
  intros H. cbn in H. repeat destruct H as [[= <- <-]|H]; try contradiction;
  [exists None|exists (Some "k"%char)|exists (Some "K"%char)|exists (Some "m"%char)|exists (Some "M"%char)|exists (Some "g"%char)|exists (Some "G"%char)];
  (split; [intros b B; cbn in B; repeat destruct B as [<-|B]; try contradiction; reflexivity|split; [cbn; lra|intros b B; cbn in B; repeat destruct B as [<-|B]; try contradiction; split; reflexivity || exact I]]).
Qed.
Lemma parse_text ip frac u e b : In (u, e) units -> In b bytes -> some_digit ip frac -> parse_file_size (size_text ip frac u b) = finish (said ip frac 0) (10 ^ e).
Proof.
  intros U B SD. destruct (units_mult u e U) as (o & O & M & X). destruct (X b B) as (FR & NODOT). specialize (O b B).
  assert (LAST : exists ob, optional ["b"; "B"]%char b = (ob, ""%string)) by (cbn in B; repeat destruct B as [<-|B]; try contradiction; eexists; reflexivity). destruct LAST as (ob & LAST).
  unfold parse_file_size, size_text. destruct frac as [fp|].
  - rewrite digits_text by reflexivity. cbn [append optional]. change (one_of _ _) with true. cbn iota. rewrite digits_text by exact FR. rewrite O, LAST, M.
    assert (FL : float (NilEmpty.string_of_uint ip) (NilEmpty.string_of_uint fp) = Ret (double (said ip (Some fp) 0))).
    { assert (V : said ip (Some fp) 0 = IZR (number 0 (NilEmpty.string_of_uint ip ++ NilEmpty.string_of_uint fp)) / IZR (10 ^ Z.of_nat (String.length (NilEmpty.string_of_uint fp)))).
      { unfold said. rewrite number_app, !number_uint, length_uint, plus_IZR, mult_IZR, <- !INR_IZR_INZ, <- pow_IZR. field. apply pow_nonzero. lra. }
      rewrite V. unfold float. destruct SD as [N|(fp' & [= <-] & N)].
      - destruct ip; [congruence|reflexivity..].
      - destruct ip; try reflexivity. destruct fp; [congruence|reflexivity..]. }
    rewrite FL. reflexivity.
  - destruct SD as [N|(fp' & [=] & _)]. change ("" ++ u ++ b)%string with (u ++ b)%string. rewrite digits_text by exact FR. rewrite NODOT.
    rewrite <- (append_empty_l (u ++ b)) at 1 || idtac.
    change (u ++ b)%string with (NilEmpty.string_of_uint Nil ++ (u ++ b))%string at 1. rewrite digits_text by exact FR. rewrite O, LAST, M.
    assert (FL : float (NilEmpty.string_of_uint ip) (NilEmpty.string_of_uint Nil) = Ret (double (said ip None 0))).
    { assert (V : said ip None 0 = IZR (number 0 (NilEmpty.string_of_uint ip ++ "")) / IZR (10 ^ Z.of_nat (String.length ""))).
      { unfold said. rewrite number_app, number_uint. cbn [String.length number Z.of_nat Z.pow]. rewrite plus_IZR, mult_IZR, <- INR_IZR_INZ. cbn. field. }
      rewrite V. unfold float. destruct ip; [congruence|reflexivity..]. }
    rewrite FL. reflexivity.
Qed.

(** Exactly these texts are sizes: all others are a ValueError. *)
Theorem C144_size_accepted s :
  parse_file_size s <> Raise ValueError <-> exists ip frac u e b, In (u, e) units /\ In b bytes /\ some_digit ip frac /\ s = size_text ip frac u b.
Proof.
  split.
  - intros H. unfold parse_file_size in H. destruct (digits_split s) as (ip & s1 & D1 & -> & F1). rewrite D1 in H.
    assert (OPT : forall cs r, (exists c, one_of cs c = true /\ optional cs r = (Some c, snd (optional cs r)) /\ r = String c (snd (optional cs r))) \/ optional cs r = (None, r)).
    { intros cs [|c r]; [right; reflexivity|]. cbn. destruct (one_of cs c) eqn:E; [left; exists c; auto|right; reflexivity]. }
    assert (TAIL : forall frac ipx s3, (let (unit, s4) := optional ["k"; "K"; "m"; "M"; "g"; "G"]%char s3 in let (b0, s5) := optional ["b"; "B"]%char s4 in
        match s5 with
        | EmptyString => let? quantity := float (NilEmpty.string_of_uint ip) ipx in
            match quantity with None => Raise OverflowError | Some q => match double (q * multiplier unit) with Some p => Ret (ZnearestE p) | None => Raise OverflowError end end
        | _ => Raise ValueError end) <> Raise ValueError -> (ip = Nil -> ipx <> ""%string -> exists fp, frac = Some fp /\ fp <> Nil) ->
        exists u e b, In (u, e) units /\ In b bytes /\ some_digit ip frac /\ s3 = (u ++ b)%string).
    { intros frac ipx s3 Q SD.
      assert (U : exists u e, In (u, e) units /\ s3 = (u ++ snd (optional ["k"; "K"; "m"; "M"; "g"; "G"]%char s3))%string).
      { destruct (OPT ["k"; "K"; "m"; "M"; "g"; "G"]%char s3) as [(c & C & _ & E)|E].
        - cbn [one_of existsb] in C. rewrite !orb_true_iff, !Ascii.eqb_eq in C. revert E. generalize (snd (optional ["k"; "K"; "m"; "M"; "g"; "G"]%char s3)). intros t ->. repeat destruct C as [->|C]; try discriminate;
          [exists "k"%string, 3%nat|exists "K"%string, 3%nat|exists "m"%string, 6%nat|exists "M"%string, 6%nat|exists "g"%string, 9%nat|exists "G"%string, 9%nat]; (split; [cbn; auto 10|reflexivity]).
        - exists ""%string, 0%nat. split; [cbn; auto|rewrite E; reflexivity]. }
      destruct U as (u & e & U & S3). destruct (optional ["k"; "K"; "m"; "M"; "g"; "G"]%char s3) as [o s4]. cbn [snd] in S3. subst s3.
      assert (B : exists b, In b bytes /\ s4 = (b ++ snd (optional ["b"; "B"]%char s4))%string).
      { destruct (OPT ["b"; "B"]%char s4) as [(c & C & _ & E)|E].
        - cbn in C. rewrite !orb_true_iff, !Ascii.eqb_eq in C. revert E. generalize (snd (optional ["b"; "B"]%char s4)). intros t ->. repeat destruct C as [->|C]; try discriminate; [exists "b"%string|exists "B"%string]; (split; [cbn; auto|reflexivity]).
        - exists ""%string. split; [cbn; auto|rewrite E; reflexivity]. }
      destruct B as (b & B & S4). destruct (optional ["b"; "B"]%char s4) as [ob s5]. cbn [snd] in S4. subst s4. destruct s5 as [|c s5]; [|congruence].
      exists u, e, b. split; [exact U|split; [exact B|split]].
      - destruct ip eqn:IP; try (left; discriminate). right. apply SD; auto. intros ->. cbn in Q. congruence.
      - f_equal. clear. induction b; cbn; congruence. }
    destruct (OPT ["."]%char s1) as [(c & C & E & S1)|E].
    + cbn in C. rewrite orb_true_iff, Ascii.eqb_eq in C. destruct C as [->|C]; [|discriminate]. destruct (optional ["."]%char s1) as [od s2]. cbn [snd] in S1. subst s1.
      destruct (digits_split s2) as (fp & s3 & D2 & -> & F2). rewrite D2 in H. destruct (TAIL (Some fp) _ _ H) as (u & e & b & U & B & SD & ->).
      * intros _ N. exists fp. split; auto. intros ->. apply N. reflexivity.
      * exists ip, (Some fp), u, e, b. repeat split; auto.
    + rewrite E in H. assert (D2 : digits s1 = (""%string, s1)) by (destruct s1 as [|c s1]; [reflexivity|]; cbn in F1 |- *; rewrite F1; reflexivity). rewrite D2 in H.
      destruct (TAIL None _ _ H) as (u & e & b & U & B & SD & ->); [congruence|]. exists ip, None, u, e, b. repeat split; auto.
  - intros (ip & frac & u & e & b & U & B & SD & ->). rewrite (parse_text ip frac u e b U B SD). unfold finish. destruct (double _); [|discriminate]. destruct (double _); discriminate.
Qed.
Print Assumptions C144_size_accepted.

(** Rounding to a double. *)
Lemma bpow_le_ i j : (i <= j)%Z -> bpow radix2 i <= bpow radix2 j. Proof. apply bpow_le. Qed.
Lemma double_some x d : double x = Some d -> 0 <= x -> 0 <= d /\ Rabs (d - x) <= x * bpow radix2 (-53) + bpow radix2 (-100).
Proof.
  unfold double. destruct (Rlt_bool _ _); [|discriminate]. intros [= <-] P. split.
  - rewrite <- (round_0 radix2 (FLT_exp (-1074) 53) ZnearestE). apply round_le; [apply FLT_exp_valid; reflexivity|apply valid_rnd_N|exact P].
  - destruct (error_N_FLT radix2 (-1074) 53 eq_refl (fun z => negb (Z.even z)) x) as (eps & eta & E1 & E2 & _ & ->).
    replace (x * (1 + eps) + eta - x) with (x * eps + eta) by ring. eapply Rle_trans; [apply Rabs_triang|]. apply Rplus_le_compat.
    + rewrite Rabs_mult, (Rabs_pos_eq x) by exact P. apply Rmult_le_compat_l; [exact P|]. eapply Rle_trans; [exact E1|]. cbn. lra.
    + eapply Rle_trans; [exact E2|]. pose proof (bpow_le_ (-1074) (-100) ltac:(lia)). pose proof (bpow_gt_0 radix2 (-1074)). lra.
Qed.
Lemma double_small x : 0 <= x -> x <= bpow radix2 1002 -> exists d, double x = Some d /\ d <= bpow radix2 1002.
Proof.
  intros P H. unfold double. assert (L : round radix2 (FLT_exp (-1074) 53) ZnearestE x <= bpow radix2 1002).
  { rewrite <- (round_generic radix2 (FLT_exp (-1074) 53) ZnearestE (bpow radix2 1002)).
    - apply round_le; [apply FLT_exp_valid; reflexivity|apply valid_rnd_N|exact H].
    - apply generic_format_bpow. unfold FLT_exp. lia. }
  rewrite Rlt_bool_true; [eauto|]. eapply Rle_lt_trans; [exact L|]. apply bpow_lt. lia.
Qed.
Lemma finish_near x m z : 0 <= x -> 1 <= m <= 1000000000 -> finish x m = Ret z -> exists p, z = ZnearestE p /\ Rabs (p - x * m) <= (x * m + 1) * / 2 ^ 51.
Proof.
  intros X M. unfold finish. destruct (double x) as [q|] eqn:Q; [|discriminate]. destruct (double (q * m)) as [p|] eqn:P; [|discriminate]. intros [= <-]. exists p. split; auto.
  destruct (double_some _ _ Q X) as (Q0 & Q1). assert (QM : 0 <= q * m) by (apply Rmult_le_pos; lra). destruct (double_some _ _ P QM) as (_ & P1).
  set (u := bpow radix2 (-53)) in *. set (t := bpow radix2 (-100)) in *.
  assert (U : 0 < u /\ 4 * u = / 2 ^ 51) by (split; [apply bpow_gt_0|unfold u; cbn; lra]). assert (T : 0 < t /\ t * 4000000000 <= / 2 ^ 51) by (split; [apply bpow_gt_0|unfold t; cbn; lra]).
  destruct U as (U0 & U1). destruct T as (T0 & T1). assert (U2 : u <= 1 / 2) by (unfold u; cbn; lra).
  replace (p - x * m) with ((p - q * m) + (q - x) * m) by ring. eapply Rle_trans; [apply Rabs_triang|]. rewrite Rabs_mult, (Rabs_pos_eq m) by lra.
  assert (D : Rabs (q - x) * m <= (x * u + t) * m) by (apply Rmult_le_compat_r; lra).
  assert (QX : q <= x + (x * u + t)). { pose proof (Rle_abs (q - x)). lra. }
  assert (QMU : q * m * u <= (x + (x * u + t)) * m * u) by (apply Rmult_le_compat_r; [lra|]; apply Rmult_le_compat_r; lra).
  assert (XM : 0 <= x * m) by (apply Rmult_le_pos; lra).
  assert (TM : t * m <= t * 1000000000) by (apply Rmult_le_compat_l; lra).
  assert (A1 : x * m * (u * u) <= x * m * u). { apply Rmult_le_compat_l; auto. rewrite <- (Rmult_1_r u) at 3. apply Rmult_le_compat_l; lra. }
  assert (A2 : t * m * u <= t * m). { rewrite <- (Rmult_1_r (t * m)) at 2. apply Rmult_le_compat_l; [|lra]. apply Rmult_le_pos; lra. }
  rewrite <- U1. assert (0 <= x * m * u) by (apply Rmult_le_pos; lra). replace ((x + (x * u + t)) * m * u) with (x * m * u + x * m * (u * u) + t * m * u) in QMU by ring.
  replace ((x * u + t) * m) with (x * m * u + t * m) in D by ring. rewrite <- U1 in T1. replace ((x * m + 1) * (4 * u)) with (4 * (x * m * u) + 4 * u) by ring. lra.
Qed.
Lemma said_scale ip frac e : said ip frac 0 * 10 ^ e = said ip frac e. Proof. unfold said. cbn [pow]. ring. Qed.
Lemma said_pos ip frac e : 0 <= said ip frac e.
Proof.
  unfold said. pose proof (pos_INR (Nat.of_uint ip)). assert (0 < 10 ^ e) by (apply pow_lt; lra). apply Rmult_le_pos; [|lra].
  destruct frac as [fp|]; [|lra]. pose proof (pos_INR (Nat.of_uint fp)). assert (0 < 10 ^ nb_digits fp) by (apply pow_lt; lra).
  assert (0 <= INR (Nat.of_uint fp) / 10 ^ nb_digits fp) by (apply Rmult_le_pos; [lra|left; apply Rinv_0_lt_compat; lra]). lra.
Qed.
Lemma units_range u e : In (u, e) units -> 1 <= 10 ^ e <= 1000000000.
Proof. intros H. cbn in H. repeat destruct H as [[= <- <-]|H]; try contradiction; cbn; lra. Qed.

(** The result is at most half a byte off what the text says, and rounding adds less than the text's size times 2^-51. *)
Theorem C144_size_near ip frac u e b z : In (u, e) units -> In b bytes -> some_digit ip frac -> parse_file_size (size_text ip frac u b) = Ret z ->
  Rabs (IZR z - said ip frac e) <= / 2 + (said ip frac e + 1) * / 2 ^ 51.
Proof.
  intros U B SD. rewrite (parse_text _ _ _ _ _ U B SD). intros F. destruct (finish_near _ _ _ (said_pos ip frac 0) (units_range u e U) F) as (p & -> & N). rewrite said_scale in N.
  pose proof (Znearest_half (fun z => negb (Z.even z)) p) as Hh. rewrite Rabs_minus_sym in Hh.
  replace (IZR (ZnearestE p) - said ip frac e) with ((IZR (ZnearestE p) - p) + (p - said ip frac e)) by ring. eapply Rle_trans; [apply Rabs_triang|]. apply Rplus_le_compat; assumption.
Qed.
Print Assumptions C144_size_near.
(** There is a result if the text says less than 2^1000 bytes. *)
Theorem C144_size_result ip frac u e b : In (u, e) units -> In b bytes -> some_digit ip frac -> said ip frac e <= 2 ^ 1000 ->
  exists z, parse_file_size (size_text ip frac u b) = Ret z.
Proof.
  intros U B SD L. rewrite (parse_text _ _ _ _ _ U B SD). destruct (units_range u e U) as (M1 & M2). rewrite <- said_scale in L. set (x := said ip frac 0) in *. set (m := 10 ^ e) in *.
  assert (X : 0 <= x) by apply said_pos. assert (E : 2 ^ 1000 = bpow radix2 1000) by (change 2 with (IZR (radix_val radix2)); rewrite pow_powerRZ, <- bpow_powerRZ; f_equal).
  rewrite E in L. assert (B2 : bpow radix2 1002 = 4 * bpow radix2 1000) by (change 1002%Z with (2 + 1000)%Z; rewrite bpow_plus; cbn [bpow]; f_equal; cbn; lra).
  assert (B0 : 1 <= bpow radix2 1000) by (apply (bpow_le radix2 0 1000); lia).
  assert (XM : x <= x * m) by (rewrite <- (Rmult_1_r x) at 1; apply Rmult_le_compat_l; lra).
  destruct (double_small x X) as (q & Q & _); [lra|]. unfold finish. rewrite Q. destruct (double_some _ _ Q X) as (Q0 & Q1).
  destruct (double_small (q * m)) as (p & P & _).
  - apply Rmult_le_pos; lra.
  - assert (U1 : bpow radix2 (-53) <= 1) by (apply (bpow_le radix2 (-53) 0); lia). assert (T1 : bpow radix2 (-100) * 1000000000 <= 1) by (cbn; lra).
    pose proof (bpow_gt_0 radix2 (-100)) as T0. pose proof (Rle_abs (q - x)).
    assert (q * m <= (x + (x * bpow radix2 (-53) + bpow radix2 (-100))) * m) by (apply Rmult_le_compat_r; lra).
    assert (x * m * bpow radix2 (-53) <= x * m * 1) by (apply Rmult_le_compat_l; lra).
    assert (bpow radix2 (-100) * m <= bpow radix2 (-100) * 1000000000) by (apply Rmult_le_compat_l; lra).
    replace ((x + (x * bpow radix2 (-53) + bpow radix2 (-100))) * m) with (x * m + x * m * bpow radix2 (-53) + bpow radix2 (-100) * m) in H0 by ring. lra.
  - rewrite P. eauto.
Qed.
Print Assumptions C144_size_result.
(** A whole number of bytes below 2^49 comes out exactly, also if it is written with a fraction of a unit, as in 1.1k. *)
Theorem C144_size_exact ip frac u e b (n : Z) : In (u, e) units -> In b bytes -> some_digit ip frac -> said ip frac e = IZR n -> (n < 2 ^ 49)%Z ->
  parse_file_size (size_text ip frac u b) = Ret n.
Proof.
  intros U B SD N L.
  assert (PW : 2 ^ 49 = IZR (2 ^ 49)) by (change (2 ^ 49)%Z with (2 ^ Z.of_nat 49)%Z; apply pow_IZR).
  assert (N50 : IZR n + 1 <= 2 ^ 49) by (rewrite PW, <- plus_IZR; apply IZR_le; lia).
  destruct (C144_size_result ip frac u e b U B SD) as (z & Z).
  { rewrite N. apply Rle_trans with (2 ^ 49); [lra|]. apply Rle_pow; [lra|lia]. }
  rewrite Z. f_equal. rewrite (parse_text _ _ _ _ _ U B SD) in Z. destruct (finish_near _ _ _ (said_pos ip frac 0) (units_range u e U) Z) as (p & -> & H). rewrite said_scale, N in H.
  apply Znearest_imp. eapply Rle_lt_trans; [exact H|].
  apply Rle_lt_trans with (2 ^ 49 * / 2 ^ 51); [apply Rmult_le_compat_r; [left; apply Rinv_0_lt_compat, pow_lt; lra|exact N50]|].
  replace (2 ^ 51) with (2 ^ 49 * 4) by (change 51%nat with (49 + 2)%nat; rewrite pow_add; f_equal; cbn; lra). assert (0 < 2 ^ 49) by (apply pow_lt; lra). rewrite Rinv_mult_distr by lra. rewrite <- Rmult_assoc, Rinv_r by lra. lra.
Qed.
Print Assumptions C144_size_exact.

(** Cases: 1.5kb is 1500 bytes, 3g is 3000000000; a letter alone and a dot alone are not sizes. *)
Example size_cases : parse_file_size "1.5kb" = Ret 1500%Z /\ parse_file_size "3g" = Ret 3000000000%Z /\ parse_file_size "k" = Raise ValueError /\ parse_file_size "." = Raise ValueError.
Proof.
  repeat split.
  - apply (C144_size_exact (D1 Nil) (Some (D5 Nil)) "k" 3 "b" 1500); cbn; auto; [left; discriminate|unfold said; cbn; lra|lia].
  - apply (C144_size_exact (D3 Nil) None "g" 9 "" 3000000000); cbn; auto 10; [left; discriminate|unfold said; cbn; lra|lia].
Qed.

(** ** Quaternions and poses *)
Lemma norm4_pos w x y z : mkQ w x y z <> mkQ 0 0 0 0 -> 0 < sqrt (x ^ 2 + y ^ 2 + z ^ 2 + w ^ 2).
Proof.
  intros H. apply sqrt_lt_R0. destruct (Req_dec x 0) as [->|X]; [|pose proof (Rsqr_pos_lt _ X) as P; unfold Rsqr in P; nra].
  destruct (Req_dec y 0) as [->|Y]; [|pose proof (Rsqr_pos_lt _ Y) as P; unfold Rsqr in P; nra].
  destruct (Req_dec z 0) as [->|Z]; [|pose proof (Rsqr_pos_lt _ Z) as P; unfold Rsqr in P; nra].
  destruct (Req_dec w 0) as [->|W]; [congruence|pose proof (Rsqr_pos_lt _ W) as P; unfold Rsqr in P; nra].
Qed.
(** A quaternion message that is not 0 gets length 1 and keeps its direction. *)
Theorem C144_normalize q : q <> mkQ 0 0 0 0 ->
  exists k n, 0 < k /\ normalize_quaternion (QMsg q) = Ret n /\ n = mkQ (k * qw q) (k * qx q) (k * qy q) (k * qz q) /\ qw n ^ 2 + qx n ^ 2 + qy n ^ 2 + qz n ^ 2 = 1.
Proof.
  destruct q as [w x y z]. intros H. pose proof (norm4_pos w x y z H) as P. set (m := sqrt (x ^ 2 + y ^ 2 + z ^ 2 + w ^ 2)) in *.
  assert (M2 : m * m = x ^ 2 + y ^ 2 + z ^ 2 + w ^ 2) by (apply sqrt_sqrt; nra).
  exists (/ m), (mkQ (w / m) (x / m) (y / m) (z / m)). split; [apply Rinv_0_lt_compat; auto|]. split; [reflexivity|]. split; [cbn [qw qx qy qz]; f_equal; unfold Rdiv; ring|]. cbn [qw qx qy qz].
  replace ((w / m) ^ 2 + (x / m) ^ 2 + (y / m) ^ 2 + (z / m) ^ 2) with ((x ^ 2 + y ^ 2 + z ^ 2 + w ^ 2) / (m * m)) by (field; lra). rewrite <- M2. field. lra.
Qed.
Print Assumptions C144_normalize.
(** A list of numbers, which the signature allows, is never normalized. *)
Theorem C144_normalize_list_refuted : forall l, normalize_quaternion (QList l) = Raise AttributeError.
Proof. reflexivity. Qed.
Print Assumptions C144_normalize_list_refuted.

(** Rotations about the axes. *)
Definition about_x (a : R) : M3 := mkM 1 0 0 0 (cos a) (- sin a) 0 (sin a) (cos a).
Definition about_y (a : R) : M3 := mkM (cos a) 0 (sin a) 0 1 0 (- sin a) 0 (cos a).
Definition about_z (a : R) : M3 := mkM (cos a) (- sin a) 0 (sin a) (cos a) 0 0 0 1.
(** A list of six numbers is a position, and the rotation about x by roll, then about the fixed y by pitch, then about the fixed z by yaw. *)
Theorem C144_pose_six now x y z roll pitch yaw :
  exists p, convert_to_pose_msg now (PList [x; y; z; roll; pitch; yaw]) = Ret p /\ stamp p = now /\ frame p = ""%string /\ position (in_frame p) = mkV x y z /\
    qmat (orientation (in_frame p)) = mmul (about_z yaw) (mmul (about_y pitch) (about_x roll)) /\ qdot (orientation (in_frame p)) (orientation (in_frame p)) = 1.
Proof.
  eexists. split; [reflexivity|]. cbn [stamp frame in_frame position orientation]. repeat split; auto.
  - unfold quaternion_from_euler, about_x, about_y, about_z.
    assert (C : forall a, cos a = cos (a / 2) ^ 2 - sin (a / 2) ^ 2) by (intros a; replace a with (2 * (a / 2)) at 1 by field; rewrite cos_2a; ring).
    assert (S : forall a, sin a = 2 * sin (a / 2) * cos (a / 2)) by (intros a; replace a with (2 * (a / 2)) at 1 by field; rewrite sin_2a; ring).
    rewrite !(C roll), !(C pitch), !(C yaw), !(S roll), !(S pitch), !(S yaw).
    pose proof (sin2_cos2 (roll / 2)) as R1. pose proof (sin2_cos2 (pitch / 2)) as P1. pose proof (sin2_cos2 (yaw / 2)) as Y1. unfold Rsqr in *.
    set (a := cos (roll / 2)) in *. set (b := sin (roll / 2)) in *. set (c := cos (pitch / 2)) in *. set (d := sin (pitch / 2)) in *. set (e := cos (yaw / 2)) in *. set (f := sin (yaw / 2)) in *.
    assert (B2 : b * b = 1 - a * a) by lra. assert (D2 : d * d = 1 - c * c) by lra. assert (F2 : f * f = 1 - e * e) by lra. clear R1 P1 Y1. clearbody a b c d e f.
    unf. apply M3_eq; cbn; ring [B2 D2 F2].
  - unfold quaternion_from_euler, qdot. cbn [qw qx qy qz]. pose proof (sin2_cos2 (roll / 2)) as R1. pose proof (sin2_cos2 (pitch / 2)) as P1. pose proof (sin2_cos2 (yaw / 2)) as Y1. unfold Rsqr in *.
    set (a := cos (roll / 2)) in *. set (b := sin (roll / 2)) in *. set (c := cos (pitch / 2)) in *. set (d := sin (pitch / 2)) in *. set (e := cos (yaw / 2)) in *. set (f := sin (yaw / 2)) in *.
    assert (B2 : b * b = 1 - a * a) by lra. assert (D2 : d * d = 1 - c * c) by lra. assert (F2 : f * f = 1 - e * e) by lra. clear R1 P1 Y1. clearbody a b c d e f. ring [B2 D2 F2].
Qed.
Print Assumptions C144_pose_six.
(** A list of seven numbers is taken as it is; other lengths are refused; messages keep their pose, and stamped ones also time and frame. *)
Theorem C144_pose_other now :
  (forall x y z qx qy qz qw, convert_to_pose_msg now (PList [x; y; z; qx; qy; qz; qw]) = Ret (mkStamped now "" (mkPose (mkV x y z) (mkQ qw qx qy qz)))) /\
  (forall l, length l <> 6%nat -> length l <> 7%nat -> convert_to_pose_msg now (PList l) = Raise ValueError) /\
  (forall p, convert_to_pose_msg now (PPose p) = Ret (mkStamped now "" p)) /\ (forall p, convert_to_pose_msg now (PStamped p) = Ret p).
Proof.
  repeat split; auto. intros l N6 N7. do 6 (destruct l as [|? l]; [reflexivity|]). destruct l as [|? l]; [cbn in N6; congruence|]. destruct l as [|? l]; [cbn in N7; congruence|reflexivity].
Qed.
Print Assumptions C144_pose_other.
(** The seven numbers need not be a rotation: the orientation can have length 0. *)
Theorem C144_pose_unit_refuted : exists l p, convert_to_pose_msg 0 (PList l) = Ret p /\ qdot (orientation (in_frame p)) (orientation (in_frame p)) = 0.
Proof. exists [1; 2; 3; 0; 0; 0; 0]. eexists. split; [reflexivity|]. cbn. unfold qdot. cbn. ring. Qed.
Print Assumptions C144_pose_unit_refuted.

(** Positions: every key keeps its place and gets its position; a sequence that is too short makes the whole conversion fail, a longer one loses its end. *)
Theorem C144_positions {K} (d : list (K * point_arg)) :
  (forall r, convert_to_positions d = Ret r -> map fst r = map fst d /\ forall k a, In (k, a) d -> exists p, In (k, p) r /\ convert_to_position a = Ret p) /\
  (convert_to_positions d = Raise IndexError <-> exists k l, In (k, TSeq l) d /\ (length l < 3)%nat) /\
  (forall x y z l, convert_to_position (TSeq (x :: y :: z :: l)) = Ret (mkV x y z)).
Proof.
  assert (P : forall a, (exists p, convert_to_position a = Ret p /\ forall l, a = TSeq l -> (3 <= length l)%nat) \/ (convert_to_position a = Raise IndexError /\ exists l, a = TSeq l /\ (length l < 3)%nat)).
  { intros [p|h p|[|x [|y [|z l]]]]; cbn.
    - left. exists p. split; auto. discriminate.
    - left. exists p. split; auto. discriminate.
    - right. split; auto. exists []. cbn. split; [auto|lia].
    - right. split; auto. exists [x]. cbn. split; [auto|lia].
    - right. split; auto. exists [x; y]. cbn. split; [auto|lia].
    - left. eexists. split; [reflexivity|]. intros l' [= <-]. cbn. lia. }
  split; [|split; [|reflexivity]].
  - induction d as [|[k a] d IH]; cbn [convert_to_positions]; intros r; [intros [= <-]; split; [reflexivity|contradiction]|].
    destruct (convert_to_position a) as [p|e|] eqn:A; cbn [pbind]; try discriminate. destruct (convert_to_positions d) as [r'|e|]; cbn [pbind]; try discriminate. intros [= <-].
    destruct (IH r' eq_refl) as (F & G). split; [cbn; f_equal; auto|]. intros k' a' [[= <- <-]|I]; [exists p; split; [left|]; auto|]. destruct (G k' a' I) as (p' & X & Y). exists p'. split; [right|]; auto.
  - induction d as [|[k a] d IH]; cbn [convert_to_positions]; [split; [discriminate|intros (k & l & [] & _)]|].
    destruct (P a) as [(p & E & NL)|(E & l & -> & L)]; rewrite E; cbn [pbind].
    + split.
      * intros H. destruct IH as (IH & _). destruct (convert_to_positions d) as [r|e|]; cbn [pbind] in H; try discriminate. destruct (IH H) as (k' & l & I & L). exists k', l. split; [right|]; auto.
      * intros (k' & l & [[= -> ->]|I] & L); [specialize (NL l eq_refl); lia|]. destruct IH as (_ & IH). rewrite IH; [reflexivity|eauto].
    + split; [intros _; exists k, l; split; [left|]; auto|reflexivity].
Qed.
Print Assumptions C144_positions.

(** ** Points *)
Theorem C144_unit_point x y z : (x <> 0 \/ y <> 0 \/ z <> 0 ->
    exists k p, 0 < k /\ make_unit_point x y z = Ret p /\ p = mkV (k * x) (k * y) (k * z) /\ vx p ^ 2 + vy p ^ 2 + vz p ^ 2 = 1) /\
  (make_unit_point x y z = Raise PyAssertionError <-> x = 0 /\ y = 0 /\ z = 0).
Proof.
  assert (POS : x <> 0 \/ y <> 0 \/ z <> 0 -> 0 < x ^ 2 + y ^ 2 + z ^ 2) by (intros [N|[N|N]]; pose proof (Rsqr_pos_lt _ N) as P; unfold Rsqr in P; nra).
  assert (A : x <> 0 \/ y <> 0 \/ z <> 0 -> exists k p, 0 < k /\ make_unit_point x y z = Ret p /\ p = mkV (k * x) (k * y) (k * z) /\ vx p ^ 2 + vy p ^ 2 + vz p ^ 2 = 1).
  { intros H. specialize (POS H). unfold make_unit_point. pose proof (sqrt_lt_R0 _ POS) as S. set (m := sqrt (x ^ 2 + y ^ 2 + z ^ 2)) in *. rewrite Rlt_bool_true by auto.
    assert (M2 : m * m = x ^ 2 + y ^ 2 + z ^ 2) by (apply sqrt_sqrt; lra).
    exists (/ m). eexists. split; [apply Rinv_0_lt_compat; auto|]. split; [reflexivity|]. split; [f_equal; unfold Rdiv; ring|]. cbn [vx vy vz].
    replace ((x / m) ^ 2 + (y / m) ^ 2 + (z / m) ^ 2) with ((x ^ 2 + y ^ 2 + z ^ 2) / (m * m)) by (field; lra). rewrite <- M2. field. lra. }
  split; [exact A|]. split.
  - intros H. destruct (Req_dec x 0) as [X|X]; [|destruct A as (k & p & _ & E & _); [auto|congruence]]. destruct (Req_dec y 0) as [Y|Y]; [|destruct A as (k & p & _ & E & _); [auto|congruence]].
    destruct (Req_dec z 0) as [Z|Z]; [auto|destruct A as (k & p & _ & E & _); [auto|congruence]].
  - intros (-> & -> & ->). unfold make_unit_point. replace (0 ^ 2 + 0 ^ 2 + 0 ^ 2) with 0 by ring. rewrite sqrt_0, Rlt_bool_false by lra. reflexivity.
Qed.
Print Assumptions C144_unit_point.

(** Column i of the array is point i, transformed if a transformation is given; nothing of what was in the array is left. *)
Lemma set_column_nth arr i v : (i < length arr)%nat -> forall j, nth_error (set_column arr i v) j = if Nat.eqb j i then Some v else nth_error arr j.
Proof.
  revert i. induction arr as [|a arr IH]; intros i H j; [cbn in H; lia|]. destruct i as [|i]; destruct j as [|j]; cbn; auto. apply IH. cbn in H. lia.
Qed.
Lemma set_column_length arr i v : length (set_column arr i v) = length arr.
Proof. revert i. induction arr as [|a arr IH]; intros [|i]; cbn; auto. Qed.
Theorem C144_points empty points t : length empty = length points ->
  list_points_to_array empty points t = map (fun p => match t with Some t => iapp t p | None => p end) points.
Proof.
  intros L. unfold list_points_to_array.
  set (g := fun p => match t with Some t => iapp t p | None => p end).
  assert (G : forall p, (match t with Some t => mkV (m00 (irot t) * vx p + m01 (irot t) * vy p + m02 (irot t) * vz p + vx (itrans t) * 1)
                                                   (m10 (irot t) * vx p + m11 (irot t) * vy p + m12 (irot t) * vz p + vy (itrans t) * 1)
                                                   (m20 (irot t) * vx p + m21 (irot t) * vy p + m22 (irot t) * vz p + vz (itrans t) * 1)
                                   | None => mkV (vx p) (vy p) (vz p) end) = g p).
  { intros [x y z]. unfold g. destruct t as [t|]; [|reflexivity]. unfold iapp, vadd, mapp. cbn [vx vy vz]. f_equal; ring. }
  assert (F : forall n arr, (n <= length arr)%nat -> let r := fold_left (fun arr ind => set_column arr ind (g (nth ind points vzero))) (seq 0 n) arr in
    length r = length arr /\ forall j, nth_error r j = if Nat.ltb j n then Some (g (nth j points vzero)) else nth_error arr j).
  { induction n as [|n IH]; intros arr N; [split; [reflexivity|intros j; reflexivity]|]. rewrite seq_S, fold_left_app. cbn [fold_left plus]. destruct (IH arr) as (LR & NR); [lia|].
    split; [rewrite set_column_length; exact LR|]. intros j. rewrite set_column_nth by lia. rewrite NR. destruct (Nat.eqb_spec j n) as [->|NE].
    - rewrite (proj2 (Nat.ltb_lt n (S n))) by lia. reflexivity.
    - destruct (Nat.ltb_spec j n), (Nat.ltb_spec j (S n)); try lia; reflexivity. }
  destruct (F (length points) empty) as (_ & NR); [lia|].
  transitivity (fold_left (fun arr ind => set_column arr ind (g (nth ind points vzero))) (seq 0 (length points)) empty).
  - generalize (seq 0 (length points)). clear - G. intros l. revert empty. induction l as [|i l IH]; intros e; [reflexivity|]. cbn [fold_left]. rewrite G. apply IH.
  - apply nth_error_ext. intros j. rewrite NR, nth_error_map. destruct (Nat.ltb_spec j (length points)) as [J|J].
    + rewrite (nth_error_nth' points vzero J). reflexivity.
    + rewrite !(proj2 (nth_error_None _ _)); auto; lia.
Qed.
Print Assumptions C144_points.
(** Markers: every extent is multiplied and nothing else changes; scaling by one factor and then another is scaling by the product. *)
Theorem C144_markers {T} (ms : list (marker T)) a b :
  map m_rest (scale_marker_array ms a) = map m_rest ms /\ map m_scale (scale_marker_array ms a) = map (fun m => vscale a (m_scale m)) ms /\
  scale_marker_array (scale_marker_array ms a) b = scale_marker_array ms (a * b).
Proof.
  unfold scale_marker_array. rewrite !map_map. split; [|split]; apply map_ext; intros m.
  - reflexivity.
  - unfold vscale. cbn [m_scale]. f_equal; ring.
  - cbn [m_rest m_scale vx vy vz]. rewrite !Rmult_assoc. reflexivity.
Qed.
Print Assumptions C144_markers.
