(** C157: printing of doubles and Eigen types. *)
From Coq Require Import String Ascii Reals Lra Psatz.
From Verif Require Import Base VoxelFloat DynGridFloat FloatPrintModel FloatPrintProofs.
From Flocq Require Import IEEE754.Bits IEEE754.Binary Core.
Open Scope string_scope.
Open Scope R_scope.
Notation val := (B2R 53 1024).

(** ** How a text is read *)
(** [number] of FloatPrintProofs is the number that a list of decimal digits stands for, [ten] the base 10, [digit d] says 0 <= d <= 9. *)
Definition glyph (d : Z) : ascii := nth (Z.to_nat d) (list_ascii_of_string "0123456789") "?"%char.
Definition numeral (l : list Z) : string := string_of_list_ascii (map glyph l).
(** A number in decimal notation: sign, digits before and after the point, exponent with its sign. *)
Record notation := Notation { negative : bool; whole : list Z; frac : list Z; expo : option (bool * list Z) }.
Definition proper (t : notation) : Prop := whole t <> [] /\ Forall digit (whole t) /\ Forall digit (frac t) /\
  match expo t with Some (_, l) => l <> [] /\ Forall digit l | None => True end.
Definition spelled (t : notation) : string :=
  (if negative t then "-" else "") ++ numeral (whole t) ++ (match frac t with [] => "" | l => "." ++ numeral l end) ++
  (match expo t with None => "" | Some (s, l) => "e" ++ (if s then "-" else "+") ++ numeral l end).
Definition power (t : notation) : Z := match expo t with None => 0 | Some (s, l) => if s then - number l else number l end.
Definition meaning (t : notation) : R :=
  (if negative t then -1 else 1) * (IZR (number (whole t ++ frac t)) * bpow ten (power t - Z.of_nat (length (frac t)))).
Definition denotes (s : string) (r : R) : Prop := exists t, proper t /\ s = spelled t /\ r = meaning t.

(** ** Texts *)
Lemma digit_cases d : digit d -> (d = 0 \/ d = 1 \/ d = 2 \/ d = 3 \/ d = 4 \/ d = 5 \/ d = 6 \/ d = 7 \/ d = 8 \/ d = 9)%Z.
Proof. unfold digit. lia. Qed.
Ltac by_digit d H := destruct (digit_cases d H) as [->|[->|[->|[->|[->|[->|[->|[->|[->| ->]]]]]]]]].
Lemma glyph_char d : digit d -> digit_char d = glyph d. Proof. intros H. by_digit d H; reflexivity. Qed.
Lemma text_numeral l : Forall digit l -> text l = numeral l.
Proof. intros H. unfold text, numeral. f_equal. induction H; [reflexivity|]. cbn [map]. rewrite glyph_char by auto. f_equal. auto. Qed.
Lemma glyph_range d : digit d -> (48 <= nat_of_ascii (glyph d) <= 57)%nat. Proof. intros H. by_digit d H; vm_compute; lia. Qed.
Lemma glyph_inj c d : digit c -> digit d -> glyph c = glyph d -> c = d.
Proof. intros C D E. by_digit c C; by_digit d D; try reflexivity; vm_compute in E; discriminate E. Qed.
Definition stops (s : string) : Prop := match s with String c _ => ~ (48 <= nat_of_ascii c <= 57)%nat | EmptyString => True end.
Lemma numeral_cons d l s : (numeral (d :: l) ++ s)%string = String (glyph d) (numeral l ++ s). Proof. reflexivity. Qed.
Lemma numeral_peel a b s s' : Forall digit a -> Forall digit b -> stops s -> stops s' -> (numeral a ++ s = numeral b ++ s')%string -> a = b /\ s = s'.
Proof.
  intros A. revert b. induction A as [|x a X A IH]; intros b B S S' E; destruct B as [|y b Y B].
  - split; [reflexivity|exact E].
  - exfalso. rewrite numeral_cons in E. cbn in E. subst s. apply S. apply glyph_range. exact Y.
  - exfalso. rewrite numeral_cons in E. cbn in E. subst s'. apply S'. apply glyph_range. exact X.
  - rewrite !numeral_cons in E. injection E as E1 E2. apply glyph_inj in E1; auto. destruct (IH b B S S' E2) as (-> & ->). subst. auto.
Qed.
Definition ending (e : option (bool * list Z)) : string := match e with None => "" | Some (s, l) => "e" ++ (if s then "-" else "+") ++ numeral l end.
Definition middle (l : list Z) : string := match l with [] => "" | _ => "." ++ numeral l end.
Lemma spelled_eq t : spelled t = ((if negative t then "-" else "") ++ numeral (whole t) ++ middle (frac t) ++ ending (expo t))%string. Proof. destruct t as [n w [|d f] e]; reflexivity. Qed.
Lemma ending_stops e : stops (ending e). Proof. destruct e as [(s & l)|]; cbn; [lia|exact Logic.I]. Qed.
Lemma middle_stops l e : stops (middle l ++ ending e). Proof. destruct l; [apply ending_stops|cbn; lia]. Qed.
Lemma glyph_not_minus d : digit d -> glyph d <> "-"%char. Proof. intros H. by_digit d H; discriminate. Qed.
(** A text has one meaning. *)
Theorem C157_unambiguous s r r' : denotes s r -> denotes s r' -> r = r'.
Proof.
  intros ([n w f e] & (W1 & W2 & W3 & W4) & -> & ->) ([n' w' f' e'] & (V1 & V2 & V3 & V4) & E & ->). rewrite !spelled_eq in E. cbn [negative whole frac expo] in *.
  assert (NN : n = n' /\ (numeral w ++ middle f ++ ending e = numeral w' ++ middle f' ++ ending e')%string).
  { destruct w as [|x w]; [congruence|]. destruct w' as [|y w']; [congruence|]. inversion_clear W2. inversion_clear V2. destruct n, n'; cbn [append] in E; rewrite ?numeral_cons in E |- *.
    - split; [reflexivity|]. injection E as E1 E2. rewrite E1. f_equal. exact E2.
    - exfalso. injection E as E1 E2. symmetry in E1. revert E1. apply glyph_not_minus. assumption.
    - exfalso. injection E as E1 E2. revert E1. apply glyph_not_minus. assumption.
    - split; [reflexivity|exact E]. }
  destruct NN as (-> & E'). apply numeral_peel in E'; auto using middle_stops. destruct E' as (-> & E').
  assert (FF : f = f' /\ ending e = ending e').
  { destruct f as [|x f], f' as [|y f']; cbn [middle] in E'.
    - split; [reflexivity|exact E'].
    - exfalso. destruct e as [(? & ?)|]; cbn in E'; discriminate.
    - exfalso. destruct e' as [(? & ?)|]; cbn in E'; discriminate.
    - assert (E3 : (numeral (x :: f) ++ ending e = numeral (y :: f') ++ ending e')%string) by (change (String "." (numeral (x :: f) ++ ending e) = String "." (numeral (y :: f') ++ ending e')) in E'; congruence). apply numeral_peel in E3; auto using ending_stops. }
  destruct FF as (-> & E2). assert (X : e = e').
  { destruct e as [(s & l)|], e' as [(s' & l')|]; cbn [ending append] in E2; try discriminate; [|reflexivity]. injection E2 as E2.
    destruct W4 as (_ & W4), V4 as (_ & V4). assert (A : forall a : list Z, numeral a = (numeral a ++ "")%string) by (intros a; induction (numeral a) as [|c z IH]; [reflexivity|cbn; f_equal; exact IH]).
    destruct s, s'; cbn [append] in E2; try discriminate; injection E2 as E2; rewrite (A l), (A l') in E2; apply numeral_peel in E2; try exact Logic.I; auto; destruct E2 as (-> & _); reflexivity. }
  subst e'. reflexivity.
Qed.
Print Assumptions C157_unambiguous.

(** ** Layout *)
Lemma fraction_middle l : Forall digit l -> fraction l = middle l.
Proof. intros H. unfold fraction, middle. destruct l; [reflexivity|]. rewrite text_numeral by auto. reflexivity. Qed.
Lemma Forall_firstn' {A} (Q : A -> Prop) n l : Forall Q l -> Forall Q (firstn n l).
Proof. intros H. revert n. induction H; intros [|n]; cbn; auto. Qed.
Lemma Forall_skipn' {A} (Q : A -> Prop) n l : Forall Q l -> Forall Q (skipn n l).
Proof. intros H. revert n. induction H; intros [|n]; cbn; auto. Qed.
Lemma repeat_digit n : Forall digit (repeat 0%Z n). Proof. induction n; constructor; auto. unfold digit. lia. Qed.
(** The value with trailing zeros removed from the digits after the point. *)
Lemma stripped ip fp d p : number (ip ++ fp) = d -> IZR (number (ip ++ strip fp)) * bpow ten (p - Z.of_nat (length (strip fp))) = IZR d * bpow ten (p - Z.of_nat (length fp)).
Proof.
  intros <-. destruct (strip_split fp) as (k & E). set (s := strip fp) in *. clearbody s. subst fp. rewrite app_assoc, (number_app (ip ++ s)), number_repeat, Z.add_0_r, repeat_length.
  rewrite mult_IZR, p10n, Rmult_assoc, <- bpow_plus. do 2 f_equal. rewrite app_length, repeat_length. lia.
Qed.
Lemma layout_denotes P d X : (1 <= P)%Z -> (0 <= d < 10 ^ P)%Z -> (Z.abs X < 1000)%Z ->
  exists t, proper t /\ negative t = false /\ layout P d X = spelled t /\ meaning t = IZR d * bpow ten (X + 1 - P).
Proof.
  intros HP Hd HX. set (ds := digits (Z.to_nat P) d). assert (DN : number ds = d) by (apply digits_number; rewrite Z2Nat.id by lia; exact Hd).
  assert (DL : length ds = Z.to_nat P) by apply digits_length. assert (DD : Forall digit ds) by apply digits_digit. unfold layout. fold ds.
  destruct ((-4 <=? X)%Z && (X <? P)%Z) eqn:EX.
  - apply andb_true_iff in EX as (X1 & X2). apply Z.leb_le in X1. apply Z.ltb_lt in X2. destruct (Z.leb_spec 0 X) as [H|H].
    + set (n := Z.to_nat (X + 1)). exists (Notation false (firstn n ds) (strip (skipn n ds)) None). split; [|split; [reflexivity|split]].
      * unfold proper. cbn [whole frac expo]. split; [|split; [apply Forall_firstn'; exact DD|split; [apply strip_digit, Forall_skipn'; exact DD|exact Logic.I]]].
        intros EZ. apply (f_equal (@length Z)) in EZ. rewrite firstn_length, DL in EZ. cbn [length] in EZ. lia.
      * rewrite spelled_eq. cbn [negative whole frac expo ending append]. rewrite text_numeral by (apply Forall_firstn'; exact DD). rewrite fraction_middle by (apply strip_digit, Forall_skipn'; exact DD).
        assert (A : forall s, (s ++ "")%string = s) by (induction s as [|c s IH]; [reflexivity|cbn; f_equal; exact IH]). rewrite A. reflexivity.
      * unfold meaning, power. cbn [negative whole frac expo]. rewrite Rmult_1_l. rewrite (stripped _ _ d); [|rewrite firstn_skipn; exact DN]. f_equal. f_equal. rewrite skipn_length, DL. lia.
    + exists (Notation false [0%Z] (repeat 0%Z (Z.to_nat (- X - 1)) ++ strip ds) None). split; [|split; [reflexivity|split]].
      * unfold proper. cbn [whole frac expo]. split; [discriminate|]. split; [constructor; [unfold digit; lia|constructor]|]. split; [|exact Logic.I]. apply Forall_app. split; [apply repeat_digit|apply strip_digit; exact DD].
      * rewrite spelled_eq. cbn [negative whole frac expo ending append]. rewrite fraction_middle by (apply Forall_app; split; [apply repeat_digit|apply strip_digit; exact DD]).
        assert (A : forall s, (s ++ "")%string = s) by (induction s as [|c s IH]; [reflexivity|cbn; f_equal; exact IH]). rewrite A. reflexivity.
      * unfold meaning, power. cbn [negative whole frac expo]. rewrite Rmult_1_l. pose proof (stripped (0%Z :: repeat 0%Z (Z.to_nat (- X - 1))) ds d (- Z.of_nat (Z.to_nat (- X - 1)))) as SS.
        rewrite app_length, repeat_length. change ([0%Z] ++ repeat 0%Z (Z.to_nat (- X - 1)) ++ strip ds)%list with ((0%Z :: repeat 0%Z (Z.to_nat (- X - 1))) ++ strip ds)%list.
        replace (0 - Z.of_nat (Z.to_nat (- X - 1) + length (strip ds)))%Z with (- Z.of_nat (Z.to_nat (- X - 1)) - Z.of_nat (length (strip ds)))%Z by lia. rewrite SS.
        -- do 2 f_equal. rewrite DL. lia.
        -- change (0%Z :: repeat 0%Z (Z.to_nat (- X - 1)))%list with (repeat 0%Z (S (Z.to_nat (- X - 1)))). rewrite number_app, number_repeat. rewrite DN. lia.
  - set (xs := digits (if (Z.abs X <? 100)%Z then 2 else 3)%nat (Z.abs X)).
    assert (XN : number xs = Z.abs X) by (apply digits_number; destruct (Z.ltb_spec (Z.abs X) 100); [change (10 ^ Z.of_nat 2)%Z with 100%Z|change (10 ^ Z.of_nat 3)%Z with 1000%Z]; lia).
    exists (Notation false (firstn 1 ds) (strip (skipn 1 ds)) (Some ((X <? 0)%Z, xs))). split; [|split; [reflexivity|split]].
    + unfold proper. cbn [whole frac expo]. split; [|split; [apply Forall_firstn'; exact DD|split; [apply strip_digit, Forall_skipn'; exact DD|]]].
      * intros EZ. apply (f_equal (@length Z)) in EZ. rewrite firstn_length, DL in EZ. cbn [length] in EZ. lia.
      * split; [|apply digits_digit]. intros EZ. apply (f_equal (@length Z)) in EZ. unfold xs in EZ. rewrite digits_length in EZ. destruct (Z.abs X <? 100)%Z; discriminate.
    + rewrite spelled_eq. cbn [negative whole frac expo ending append]. rewrite text_numeral by (apply Forall_firstn'; exact DD). rewrite fraction_middle by (apply strip_digit, Forall_skipn'; exact DD).
      fold xs. rewrite (text_numeral xs) by apply digits_digit. reflexivity.
    + unfold meaning, power. cbn [negative whole frac expo]. rewrite Rmult_1_l, XN. rewrite (stripped _ _ d); [|rewrite firstn_skipn; exact DN]. f_equal. f_equal. rewrite skipn_length, DL.
      destruct (Z.ltb_spec X 0); lia.
Qed.

(** ** Doubles *)
Lemma value_parts (m : positive) (e : Z) : IZR (Zpos m * 2 ^ Z.max e 0) / IZR (2 ^ Z.max (- e) 0) = F2R (Float radix2 (Zpos m) e).
Proof.
  unfold F2R. cbn [Fnum Fexp]. destruct (Z.le_gt_cases 0 e) as [H|H].
  - rewrite Z.max_l, (Z.max_r (- e)) by lia. change (2 ^ 0)%Z with 1%Z. rewrite mult_IZR, <- (IZR_Zpower radix2) by lia. change (Zpower radix2 e) with (2 ^ e)%Z. field.
  - rewrite Z.max_r, (Z.max_l (- e)) by lia. change (2 ^ 0)%Z with 1%Z. rewrite Z.mul_1_r. replace e with (- (- e))%Z at 2 by lia. rewrite bpow_opp, <- (IZR_Zpower radix2) by lia. reflexivity.
Qed.
Lemma finite_bounds (m : positive) (e : Z) (H : SpecFloat.bounded 53 1024 m e = true) : bpow radix2 (-1074) <= F2R (Float radix2 (Zpos m) e) < bpow radix2 1024.
Proof.
  pose proof (abs_B2R_lt_emax 53 1024 (B754_finite 53 1024 false m e H)) as U. pose proof (abs_B2R_ge_emin 53 1024 (B754_finite 53 1024 false m e H) eq_refl) as L. cbn [B2R cond_Zopp] in U, L.
  rewrite Rabs_pos_eq in U, L by (left; apply F2R_gt_0; reflexivity). split; [exact L|exact U].
Qed.
Lemma print_finite P s m e H : (1 <= P)%Z -> let x := B754_finite 53 1024 s m e H in exists t, proper t /\ negative t = s /\ print P x = spelled t /\
  (forall q k, (Z.abs q < 10 ^ P)%Z -> Rabs (meaning t - val x) <= Rabs (IZR q * bpow ten k - val x)) /\ Rabs (meaning t - val x) <= / 2 * bpow ten (1 - P) * Rabs (val x).
Proof.
  intros HP x. unfold x, print. set (N := (Zpos m * 2 ^ Z.max e 0)%Z). set (D := (2 ^ Z.max (- e) 0)%Z). destruct (significant P N D) as (d, X) eqn:ES.
  assert (N0 : (0 < N)%Z) by (apply Z.mul_pos_pos; [reflexivity|apply Z.pow_pos_nonneg; lia]). assert (D0 : (0 < D)%Z) by (apply Z.pow_pos_nonneg; lia).
  pose proof (value_parts m e) as V. fold N D in V. pose proof (finite_bounds m e H) as B. rewrite <- V in B. destruct (significant_spec P N D d X HP N0 D0 B ES) as (Hd & HX & Best & Acc).
  set (v := IZR N / IZR D) in *. assert (V0 : 0 < v) by (apply Rlt_le_trans with (bpow radix2 (-1074)); [apply bpow_gt_0|apply B]).
  assert (B1 : bpow ten (-358) <= v).
  { apply Rle_trans with (bpow radix2 (-1074)); [|apply B]. change (-358)%Z with (- (358))%Z. change (-1074)%Z with (- (1074))%Z. rewrite !bpow_opp. apply Rinv_le; [apply bpow_gt_0|]. rewrite <- (IZR_Zpower radix2), <- (IZR_Zpower ten) by discriminate. apply IZR_le.
    change (Zpower ten 358) with (10 ^ 358)%Z. change (Zpower radix2 1074) with (2 ^ (3 * 358))%Z. rewrite Z.pow_mul_r by lia. apply Z.pow_le_mono_l. lia. }
  assert (B2 : 2 * v <= bpow ten 342).
  { apply Rle_trans with (2 * bpow radix2 1024); [lra|]. change 2 with (bpow radix2 1) at 1. rewrite <- bpow_plus. apply Rle_trans with (bpow radix2 1026); [apply bpow_le; lia|]. rewrite <- (IZR_Zpower radix2), <- (IZR_Zpower ten) by discriminate. apply IZR_le.
    change (Zpower ten 342) with (10 ^ 342)%Z. change (Zpower radix2 1026) with (2 ^ (3 * 342))%Z. rewrite Z.pow_mul_r by lia. apply Z.pow_le_mono_l. lia. }
  assert (AX : (Z.abs X < 1000)%Z).
  { destruct HX as [((X1 & X2) & _)|(X1 & ED)].
    - assert (X <= 342)%Z by (apply (le_bpow ten); lra). assert (-358 < X + 1)%Z by (apply (lt_bpow ten); lra). lia.
    - assert (-358 < X)%Z by (apply (lt_bpow ten); lra). assert (X <= 342)%Z; [|lia]. apply (le_bpow ten). apply Rle_trans with (2 * v); [|exact B2].
      rewrite ED, (p10 (P - 1)) in Acc by lia. rewrite <- bpow_plus in Acc. replace (P - 1 + (X + 1 - P))%Z with X in Acc by lia.
      assert (bpow ten (1 - P) <= 1) by (change 1 with (bpow ten 0); apply bpow_le; lia). assert (/ 2 * bpow ten (1 - P) * v <= 1 * v) by (apply Rmult_le_compat_r; lra). apply Rabs_le_inv in Acc. lra. }
  assert (P0 : (0 < 10 ^ (P - 1))%Z) by (apply Z.pow_pos_nonneg; lia).
  destruct (layout_denotes P d X HP ltac:(lia) AX) as ([n w f ex] & T1 & T2 & T3 & T4). cbn [negative] in T2. subst n.
  exists (Notation s w f ex). split; [exact T1|]. split; [reflexivity|]. split; [rewrite spelled_eq in T3 |- *; cbn [negative whole frac expo append] in T3 |- *; rewrite T3; destruct s; reflexivity|].
  assert (M : meaning (Notation s w f ex) = (if s then -1 else 1) * (IZR d * bpow ten (X + 1 - P))).
  { rewrite <- T4. unfold meaning, power. cbn [negative whole frac expo]. rewrite Rmult_1_l. reflexivity. }
  assert (VX : val (B754_finite 53 1024 s m e H) = (if s then -1 else 1) * v).
  { cbn [B2R cond_Zopp]. rewrite V. destruct s; cbn [cond_Zopp]; [|lra]. change (- Z.pos m)%Z with (Z.opp (Z.pos m)). unfold F2R. cbn [Fnum Fexp]. rewrite opp_IZR. ring. }
  rewrite M, VX. assert (SG : forall a, Rabs ((if s then -1 else 1) * a) = Rabs a) by (intros a; destruct s; [replace (-1 * a) with (- a) by ring; apply Rabs_Ropp|f_equal; ring]).
  rewrite <- Rmult_minus_distr_l, !SG. rewrite (Rabs_pos_eq v) by lra. split; [|exact Acc]. intros q k Q. specialize (Best (if s then - q else q)%Z k). 
  apply Rle_trans with (Rabs (IZR (if s then - q else q) * bpow ten k - v)); [apply Best; destruct s; lia|]. right. rewrite <- (SG (_ - v)). f_equal. destruct s; [rewrite opp_IZR|]; ring.
Qed.
Lemma print_zero P s : exists t, proper t /\ negative t = s /\ print P (B754_zero 53 1024 s) = spelled t /\ meaning t = 0.
Proof.
  exists (Notation s [0%Z] [] None). split; [split; [discriminate|split; [constructor; [unfold digit; lia|constructor]|split; [constructor|exact Logic.I]]]|]. split; [reflexivity|]. split; [destruct s; reflexivity|].
  unfold meaning. cbn [negative whole frac expo app]. change (number [0%Z]) with 0%Z. ring.
Qed.
(** What is printed for a finite double is a number in decimal notation that no other number with P significant digits is closer to. *)
Theorem C157_number P x : (1 <= P)%Z -> is_finite 53 1024 x = true -> exists r, denotes (print P x) r /\
  (forall q k, (Z.abs q < 10 ^ P)%Z -> Rabs (r - val x) <= Rabs (IZR q * bpow ten k - val x)) /\
  Rabs (r - val x) <= / 2 * bpow ten (1 - P) * Rabs (val x).
Proof.
  intros HP F. destruct x as [s|s|s pl H|s m e H]; try discriminate.
  - destruct (print_zero P s) as (t & A & B & C & D). exists (meaning t). split; [exists t; auto|]. rewrite D. cbn [B2R]. rewrite Rminus_0_r, Rabs_R0. split; [intros; apply Rabs_pos|lra].
  - destruct (print_finite P s m e H HP) as (t & A & B & C & D & G). exists (meaning t). split; [exists t; auto|]. split; assumption.
Qed.
Print Assumptions C157_number.
(** Numbers with at most P significant digits that doubles hold exactly, whole numbers below 10^P among them, are printed exactly. *)
Theorem C157_exact P x q k : (1 <= P)%Z -> is_finite 53 1024 x = true -> (Z.abs q < 10 ^ P)%Z -> val x = IZR q * bpow ten k -> denotes (print P x) (val x).
Proof.
  intros HP F Q E. destruct (C157_number P x HP F) as (r & R & B & _). specialize (B q k Q). rewrite <- E, (Rminus_diag_eq (val x) (val x) eq_refl), Rabs_R0 in B.
  assert (r = val x); [|congruence]. apply Rminus_diag_uniq. destruct (Req_dec (r - val x) 0) as [Z|N]; [exact Z|]. apply Rabs_pos_lt in N. lra.
Qed.
Print Assumptions C157_exact.
(** Doubles with the same text are close to each other. *)
Theorem C157_same P x y : (1 <= P)%Z -> is_finite 53 1024 x = true -> is_finite 53 1024 y = true -> print P x = print P y ->
  Rabs (val x - val y) <= / 2 * bpow ten (1 - P) * (Rabs (val x) + Rabs (val y)).
Proof.
  intros HP FX FY E. destruct (C157_number P x HP FX) as (r & R & _ & A). destruct (C157_number P y HP FY) as (r' & R' & _ & A'). rewrite E in R. rewrite <- (C157_unambiguous _ _ _ R R') in A'.
  pose proof (Rabs_triang (val x - r) (r - val y)) as T. replace (val x - r + (r - val y)) with (val x - val y) in T by ring. rewrite (Rabs_minus_sym (val x) r) in T. lra.
Qed.
Print Assumptions C157_same.

(** Whole numbers of at most P digits are printed as their digits. *)
Lemma scaled_exact N D k n : (0 < D)%Z -> IZR N / IZR D * bpow ten k = IZR n -> scaled N D k = n.
Proof.
  intros D0 E. destruct (scaled_spec N D k n D0) as (A & _). rewrite E in A. rewrite (Rminus_diag_eq (IZR n) (IZR n) eq_refl), Rabs_R0 in A.
  apply eq_IZR. apply Rminus_diag_uniq. destruct (Req_dec (IZR (scaled N D k) - IZR n) 0) as [Q|Q]; [exact Q|]. apply Rabs_pos_lt in Q. lra.
Qed.
Lemma digits_head n : forall d, (10 ^ Z.of_nat n <= d < 10 ^ Z.of_nat (S n))%Z -> exists c l, digits (S n) d = c :: l /\ c <> 0%Z.
Proof.
  induction n; intros d H.
  - cbn [digits app]. change (10 ^ Z.of_nat 0)%Z with 1%Z in H. change (10 ^ Z.of_nat 1)%Z with 10%Z in H. exists (d mod 10)%Z, []. split; [reflexivity|]. rewrite Z.mod_small by lia. lia.
  - destruct (IHn (d / 10)%Z) as (c & l & E & C).
    + rewrite !(Nat2Z.inj_succ), !Z.pow_succ_r in * by lia. split; [apply Z.div_le_lower_bound; lia|apply Z.div_lt_upper_bound; lia].
    + change (digits (S (S n)) d) with (digits (S n) (d / 10) ++ [d mod 10]%Z)%list. rewrite E. exists c, (l ++ [d mod 10]%Z)%list. split; [reflexivity|exact C].
Qed.
Theorem C157_whole P x n : (1 <= P)%Z -> is_finite 53 1024 x = true -> val x = IZR n -> n <> 0%Z -> (Z.abs n < 10 ^ P)%Z ->
  exists c l, print P x = ((if (n <? 0)%Z then "-" else "") ++ numeral (c :: l))%string /\ Forall digit (c :: l) /\ c <> 0%Z /\ number (c :: l) = Z.abs n.
Proof.
  intros HP F V NZ B. destruct x as [s|s|s pl H|s m e H]; try discriminate; [cbn in V; symmetry in V; apply eq_IZR in V; congruence|].
  unfold print. set (N := (Zpos m * 2 ^ Z.max e 0)%Z). set (D := (2 ^ Z.max (- e) 0)%Z). destruct (significant P N D) as (d, X) eqn:ES.
  assert (N0 : (0 < N)%Z) by (apply Z.mul_pos_pos; [reflexivity|apply Z.pow_pos_nonneg; lia]). assert (D0 : (0 < D)%Z) by (apply Z.pow_pos_nonneg; lia).
  pose proof (value_parts m e) as VP. fold N D in VP. pose proof (finite_bounds m e H) as BB. rewrite <- VP in BB. destruct (significant_spec P N D d X HP N0 D0 BB ES) as (Hd & HX & Best & _).
  set (v := IZR N / IZR D) in *. assert (V0 : 0 < v) by (apply Rlt_le_trans with (bpow radix2 (-1074)); [apply bpow_gt_0|apply BB]).
  assert (SV : (if s then - v else v) = IZR n).
  { rewrite <- V. cbn [B2R]. rewrite VP. destruct s; cbn [cond_Zopp]; [|reflexivity]. change (- Z.pos m)%Z with (Z.opp (Z.pos m)). unfold F2R. cbn [Fnum Fexp]. rewrite opp_IZR. ring. }
  assert (SN : s = (n <? 0)%Z /\ v = IZR (Z.abs n)).
  { destruct s; symmetry in SV.
    - assert (n < 0)%Z by (apply lt_IZR; lra). split; [symmetry; apply Z.ltb_lt; lia|]. rewrite Z.abs_neq, opp_IZR by lia. lra.
    - assert (0 < n)%Z by (apply lt_IZR; lra). split; [symmetry; apply Z.ltb_ge; lia|]. rewrite Z.abs_eq by lia. lra. }
  destruct SN as (-> & VN). set (a := Z.abs n) in *. assert (A0 : (0 < a)%Z) by (unfold a; lia).
  specialize (Best a 0%Z). rewrite VN in Best. change (bpow ten 0) with 1 in Best. rewrite Rmult_1_r, (Rminus_diag_eq (IZR a) (IZR a) eq_refl), Rabs_R0 in Best.
  assert (EX : IZR d * bpow ten (X + 1 - P) = IZR a).
  { apply Rminus_diag_uniq. destruct (Req_dec (IZR d * bpow ten (X + 1 - P) - IZR a) 0) as [Q|Q]; [exact Q|]. apply Rabs_pos_lt in Q. specialize (Best ltac:(lia)). lra. }
  destruct HX as [((X1 & X2) & _)|(X1 & ED)].
  2: { exfalso. rewrite ED, (p10 (P - 1)) in EX by lia. rewrite <- bpow_plus in EX. replace (P - 1 + (X + 1 - P))%Z with X in EX by lia. lra. }
  rewrite VN in X1, X2. assert (X0 : (0 <= X)%Z).
  { destruct (Z.le_gt_cases 0 X) as [Q|Q]; [exact Q|]. exfalso. assert (bpow ten (X + 1) <= bpow ten 0) by (apply bpow_le; lia). change (bpow ten 0) with 1 in *. assert (1 <= IZR a) by (apply IZR_le; lia). lra. }
  assert (XP : (X < P)%Z) by (apply (lt_bpow ten); apply Rle_lt_trans with (IZR a); [exact X1|]; rewrite <- (p10 P) by lia; apply IZR_lt; exact B).
  set (j := Z.to_nat (P - 1 - X)). assert (Ed : d = (a * 10 ^ Z.of_nat j)%Z).
  { apply eq_IZR. rewrite mult_IZR, p10n, <- EX, Rmult_assoc, <- bpow_plus. replace (X + 1 - P + Z.of_nat j)%Z with 0%Z by (unfold j; lia). cbn. ring. }
  assert (DS : digits (Z.to_nat P) d = (digits (S (Z.to_nat X)) a ++ repeat 0%Z j)%list).
  { rewrite Ed, <- digits_zeros. f_equal. unfold j. lia. }
  unfold layout. rewrite DS. destruct (Z.leb_spec (-4) X); [|lia]. destruct (Z.ltb_spec X P); [|lia]. cbn [andb]. destruct (Z.leb_spec 0 X); [|lia].
  assert (LL : Z.to_nat (X + 1) = length (digits (S (Z.to_nat X)) a)) by (rewrite digits_length; lia). rewrite LL.
  rewrite firstn_app, Nat.sub_diag, firstn_all, skipn_app, Nat.sub_diag, skipn_all. cbn [firstn skipn app]. rewrite app_nil_r, strip_zeros. cbn [fraction].
  assert (AB : (10 ^ Z.of_nat (Z.to_nat X) <= a < 10 ^ Z.of_nat (S (Z.to_nat X)))%Z).
  { rewrite Nat2Z.inj_succ, Z2Nat.id by lia. split; [apply le_IZR; rewrite (p10 X X0); exact X1|apply lt_IZR; rewrite (p10 (Z.succ X)) by lia; exact X2]. }
  destruct (digits_head (Z.to_nat X) a AB) as (c & l & E & C). exists c, l. rewrite <- E. rewrite text_numeral by apply digits_digit. split; [|split; [apply digits_digit|split; [exact C|apply digits_number; lia]]].
  assert (AP : forall z, (z ++ "")%string = z) by (induction z as [|y z IH]; [reflexivity|cbn; f_equal; exact IH]). rewrite AP. reflexivity.
Qed.
Print Assumptions C157_whole.

(** ** Vectors *)
(** Equal up to what is printed: finite numbers that differ by at most 10^(1-P)/2 of the sum of their sizes, or the same infinity, or two NaNs. *)
Definition alike (P : Z) (x y : fl) : Prop :=
  match x, y with
  | B754_infinity _ _ s, B754_infinity _ _ s' => s = s'
  | B754_nan _ _ _ _ _, B754_nan _ _ _ _ _ => True
  | _, _ => is_finite 53 1024 x = true /\ is_finite 53 1024 y = true /\ Rabs (val x - val y) <= / 2 * bpow ten (1 - P) * (Rabs (val x) + Rabs (val y))
  end.
Lemma finite_first P x : (1 <= P)%Z -> is_finite 53 1024 x = true -> exists s c r, print P x = (sign s ++ String c r)%string /\ (48 <= nat_of_ascii c <= 57)%nat.
Proof.
  intros HP F. assert (T : exists t, proper t /\ print P x = spelled t).
  { destruct x as [s|s|s pl H|s m e H]; try discriminate; [destruct (print_zero P s) as (t & A & _ & C & _)|destruct (print_finite P s m e H HP) as (t & A & _ & C & _)]; exists t; auto. }
  destruct T as ([n w f e] & (W1 & W2 & _) & ->). cbn [whole] in *. destruct w as [|d w]; [congruence|]. inversion_clear W2. rewrite spelled_eq. cbn [negative whole frac expo]. rewrite numeral_cons.
  exists n. do 2 eexists. split; [reflexivity|]. apply glyph_range. assumption.
Qed.
Theorem C157_alike P x y : (1 <= P)%Z -> print P x = print P y -> alike P x y.
Proof.
  intros HP E. destruct (is_finite 53 1024 x) eqn:FX, (is_finite 53 1024 y) eqn:FY.
  - pose proof (C157_same P x y HP FX FY E). destruct x as [?|?|? ? ?|? ? ? ?]; try discriminate; destruct y as [?|?|? ? ?|? ? ? ?]; try discriminate; cbn [alike]; auto.
  - exfalso. destruct (finite_first P x HP FX) as (s & c & r & EX & C). rewrite EX in E. destruct y as [?|s'|s' ? ?|? ? ? ?]; try discriminate; cbn [print] in E; destruct s, s'; cbn [sign append] in E; injection E as E1 E2; subst c; cbn in C; try lia;
      injection E2 as E2 E3; subst; cbn in C; lia.
  - exfalso. destruct (finite_first P y HP FY) as (s & c & r & EX & C). rewrite EX in E. destruct x as [?|s'|s' ? ?|? ? ? ?]; try discriminate; cbn [print] in E; destruct s, s'; cbn [sign append] in E; injection E as E1 E2; subst c; cbn in C; try lia;
      injection E2 as E2 E3; subst; cbn in C; lia.
  - destruct x as [?|s|s ? ?|? ? ? ?]; try discriminate; destruct y as [?|s'|s' ? ?|? ? ? ?]; try discriminate; cbn [alike print] in *; auto; destruct s, s'; try reflexivity; discriminate.
Qed.
Print Assumptions C157_alike.
(** The characters of numbers. *)
Fixpoint clean (s : string) : Prop := match s with EmptyString => True | String c s' => In c (list_ascii_of_string "0123456789+-.einfa") /\ clean s' end.
Lemma clean_app a b : clean a -> clean b -> clean (a ++ b).
Proof. induction a as [|c a IH]; cbn; [auto|]. intros (A & B) C. split; [exact A|auto]. Qed.
Lemma clean_text l : Forall digit l -> clean (text l).
Proof.
  intros H. rewrite (text_numeral l H). unfold numeral. induction H as [|d l D H IH]; [exact Logic.I|]. cbn [map string_of_list_ascii clean]. split; [|exact IH]. by_digit d D; cbn; tauto.
Qed.
Lemma clean_fraction l : Forall digit l -> clean (fraction l).
Proof. intros H. unfold fraction. destruct l; [exact Logic.I|]. apply clean_app; [cbn; tauto|apply clean_text; exact H]. Qed.
Lemma clean_sign s : clean (sign s). Proof. destruct s; cbn; tauto. Qed.
Lemma clean_print P x : clean (print P x).
Proof.
  assert (A : forall s m e, clean (let '(d, X) := significant P (Zpos m * 2 ^ Z.max e 0) (2 ^ Z.max (- e) 0) in sign s ++ layout P d X)).
  { intros s m e. destruct (significant _ _ _) as (d, X). apply clean_app; [apply clean_sign|]. unfold layout. pose proof (digits_digit (Z.to_nat P) d) as D. destruct (_ && _); [destruct (0 <=? X)%Z|].
    - apply clean_app; [apply clean_text, Forall_firstn'; exact D|apply clean_fraction, strip_digit, Forall_skipn'; exact D].
    - apply clean_app; [cbn; tauto|]. apply clean_fraction. apply Forall_app. split; [apply repeat_digit|apply strip_digit; exact D].
    - repeat apply clean_app; try (cbn; tauto); [apply clean_text, Forall_firstn'; exact D|apply clean_fraction, strip_digit, Forall_skipn'; exact D|destruct (X <? 0)%Z; cbn; tauto|apply clean_text, digits_digit]. }
  destruct x as [s|s|s pl H|s m e H]; cbn [print]; try (apply clean_app; [apply clean_sign|cbn; tauto]). apply A.
Qed.
Definition other (c : ascii) : Prop := ~ In c (list_ascii_of_string "0123456789+-.einfa").
Lemma clean_peel a b c c' s s' : clean a -> clean b -> other c -> other c' -> (a ++ String c s = b ++ String c' s')%string -> a = b /\ c = c' /\ s = s'.
Proof.
  revert b. induction a as [|x a IH]; intros [|y b] A B C C' E; cbn [append] in E; injection E as E1 E2.
  - auto.
  - exfalso. subst c. apply C. apply B.
  - exfalso. subst c'. apply C'. apply A.
  - subst y. destruct A, B. destruct (IH b) as (-> & ? & ?); auto.
Qed.
Lemma strip_prefix p a b : (p ++ a = p ++ b)%string -> a = b.
Proof. induction p as [|c p IH]; cbn; [auto|]. intros [= H]. auto. Qed.
Ltac no_member := unfold other; cbn; intuition discriminate.
Ltac next E H := apply clean_peel in E as (H & _ & E); [|apply clean_print|apply clean_print|no_member|no_member].
(** Texts that agree are those of vectors, quaternions and transforms that are alike in every coefficient. *)
Theorem C157_vectors ad x y z w x' y' z' w' :
  (pretty_2 ad x y = pretty_2 ad x' y' -> alike 12 x x' /\ alike 12 y y') /\
  (pretty_3 ad x y z = pretty_3 ad x' y' z' -> alike 12 x x' /\ alike 12 y y' /\ alike 12 z z') /\
  (pretty_4 ad x y z w = pretty_4 ad x' y' z' w' -> alike 12 x x' /\ alike 12 y y' /\ alike 12 z z' /\ alike 12 w w') /\
  (pretty_q ad x y z w = pretty_q ad x' y' z' w' -> alike 12 x x' /\ alike 12 y y' /\ alike 12 z z' /\ alike 12 w w').
Proof.
  assert (G : forall a b, c12 a = c12 b -> alike 12 a b) by (intros a b E; apply C157_alike; [lia|exact E]).
  assert (S2 : forall a b : string, (" " ++ a = " " ++ b)%string -> a = b) by (intros a b; apply strip_prefix).
  destruct ad; cbn [pretty_2 pretty_3 pretty_4 pretty_q]; (split; [|split; [|split]]); intros E.
  - apply (strip_prefix "Vector2d: <x: ") in E. next E H1. apply (strip_prefix "y: ") in E. next E H2. auto.
  - apply (strip_prefix "Vector3d: <x: ") in E. next E H1. apply (strip_prefix "y: ") in E. next E H2. apply (strip_prefix "z: ") in E. next E H3. auto.
  - apply (strip_prefix "Vector4d: <x: ") in E. next E H1. apply (strip_prefix "y: ") in E. next E H2. apply (strip_prefix "z: ") in E. next E H3. apply (strip_prefix "w: ") in E. next E H4. auto 6.
  - apply (strip_prefix "Quaterniond <x: ") in E. next E H1. apply (strip_prefix "y: ") in E. next E H2. apply (strip_prefix "z: ") in E. next E H3. apply (strip_prefix "w: ") in E. next E H4. auto 6.
  - next E H1. apply (strip_prefix " ") in E. auto.
  - next E H1. apply (strip_prefix " ") in E. next E H2. apply (strip_prefix " ") in E. auto.
  - next E H1. apply (strip_prefix " ") in E. next E H2. apply (strip_prefix " ") in E. next E H3. apply (strip_prefix " ") in E. auto 6.
  - next E H1. apply (strip_prefix " ") in E. next E H2. apply (strip_prefix " ") in E. next E H3. apply (strip_prefix " ") in E. auto 6.
Qed.
Print Assumptions C157_vectors.
Theorem C157_transform ad x y z a b c d x' y' z' a' b' c' d' :
  pretty_t ad x y z a b c d = pretty_t ad x' y' z' a' b' c' d' ->
  alike 12 x x' /\ alike 12 y y' /\ alike 12 z z' /\ alike 12 a a' /\ alike 12 b b' /\ alike 12 c c' /\ alike 12 d d'.
Proof.
  assert (G : forall a b, c12 a = c12 b -> alike 12 a b) by (intros p q E; apply C157_alike; [lia|exact E]).
  destruct ad; cbn [pretty_t]; intros E.
  - apply (strip_prefix "Isometry3d <x: ") in E. next E H1. apply (strip_prefix "y: ") in E. next E H2. apply (strip_prefix "z: ") in E. next E H3. apply (strip_prefix ", <x: ") in E. next E H4. apply (strip_prefix "y: ") in E. next E H5.
    apply (strip_prefix "z: ") in E. next E H6. apply (strip_prefix "w: ") in E. next E H7. auto 10.
  - next E H1. apply (strip_prefix " ") in E. next E H2. apply (strip_prefix " ") in E. next E H3. apply (strip_prefix ": ") in E. next E H4. apply (strip_prefix " ") in E. next E H5. apply (strip_prefix " ") in E. next E H6. apply (strip_prefix " ") in E. auto 10.
Qed.
Print Assumptions C157_transform.

(** ** Vectors of any size and matrices *)
Definition free (c : ascii) (s : string) : Prop := ~ In c (list_ascii_of_string s).
Lemma free_app c a b : free c a -> free c b -> free c (a ++ b).
Proof. unfold free. induction a as [|x a IH]; cbn; [auto|]. intros A B [E|E]; [apply A; auto|]. apply IH in E; auto. Qed.
Lemma free_peel a b c s s' : free c a -> free c b -> (a ++ String c s = b ++ String c s')%string -> a = b /\ s = s'.
Proof.
  revert b. induction a as [|x a IH]; intros [|y b] A B E; cbn [append] in E.
  - injection E as E. auto.
  - exfalso. injection E as E1 E2. subst. apply B. left. reflexivity.
  - exfalso. injection E as E1 E2. subst. apply A. left. reflexivity.
  - injection E as E1 E2. subst y. destruct (IH b) as (-> & ->); auto; [intros Q; apply A; right; exact Q|intros Q; apply B; right; exact Q].
Qed.
Lemma free_whole a b c s : free c b -> (a ++ String c s)%string <> b.
Proof. revert b. induction a as [|x a IH]; intros b B E; subst b; [apply B; left; reflexivity|]. refine (IH (a ++ String c s)%string _ eq_refl). intros Q. apply B. right. exact Q. Qed.
Lemma join_inj c sr l : forall l', Forall (free c) l -> Forall (free c) l' -> l <> [] -> l' <> [] -> join (String c sr) l = join (String c sr) l' -> l = l'.
Proof.
  induction l as [|x l IH]; intros l' L L' N N' E; [congruence|]. destruct l' as [|y l']; [congruence|]. inversion_clear L. inversion_clear L'.
  destruct l as [|x2 l], l' as [|y2 l']; [cbn in E; congruence| | |].
  - exfalso. symmetry in E. revert E. apply free_whole. assumption.
  - exfalso. revert E. apply free_whole. assumption.
  - change (join (String c sr) (x :: x2 :: l)) with (x ++ String c (sr ++ join (String c sr) (x2 :: l)))%string in E. change (join (String c sr) (y :: y2 :: l')) with (y ++ String c (sr ++ join (String c sr) (y2 :: l')))%string in E.
    apply free_peel in E as (-> & E); auto. apply strip_prefix in E. f_equal. apply IH; auto; discriminate.
Qed.
Lemma append_length a b : String.length (a ++ b) = (String.length a + String.length b)%nat.
Proof. induction a as [|c a IH]; cbn; [reflexivity|]. f_equal. exact IH. Qed.
Lemma append_suffix a b s : (a ++ s = b ++ s)%string -> a = b.
Proof.
  revert b. induction a as [|x a IH]; intros [|y b] E; auto.
  - apply (f_equal String.length) in E. rewrite !append_length in E. cbn in E. lia.
  - apply (f_equal String.length) in E. rewrite !append_length in E. cbn in E. lia.
  - cbn in E. injection E as -> E. f_equal. auto.
Qed.
Lemma blanks_peel a b : clean a -> clean b -> a <> "" -> b <> "" -> forall n m s s', (blanks n ++ a ++ s = blanks m ++ b ++ s')%string -> (a ++ s = b ++ s')%string.
Proof.
  intros A B NA NB. assert (X : forall c r, clean (String c r) -> c <> " "%char) by (intros c r (Q & _) ->; cbn in Q; intuition discriminate).
  induction n as [|n IH]; intros [|m] s s' E; auto.
  - exfalso. destruct a as [|c a]; [congruence|]. cbn in E. injection E as E _. subst c. apply (X " "%char a A). reflexivity.
  - exfalso. destruct b as [|c b]; [congruence|]. cbn in E. injection E as E _. subst c. apply (X " "%char b B). reflexivity.
  - cbn in E. injection E as E. apply (IH m s s' E).
Qed.
Definition good_text (t : string) : Prop := clean t /\ t <> "".
(** Coefficients with blanks before them and commas between them. *)
Inductive spaced : list string -> string -> Prop :=
| one_spaced k t : spaced [t] (blanks k ++ t)
| more_spaced k t r s : spaced r s -> spaced (t :: r) (blanks k ++ t ++ ", " ++ s).
Lemma append_nil s : (s ++ "")%string = s. Proof. induction s as [|c s IH]; [reflexivity|cbn; f_equal; exact IH]. Qed.
Lemma append_assoc a b c : ((a ++ b) ++ c = a ++ b ++ c)%string. Proof. induction a as [|x a IH]; [reflexivity|cbn; f_equal; exact IH]. Qed.
Lemma clean_free c s : other c -> clean s -> free c s.
Proof. intros O. induction s as [|x s IH]; cbn; [intros _ []|]. intros (A & B) [->|E]; [apply O; exact A|]. apply IH in B. apply B. exact E. Qed.
Lemma other_comma : other ",". Proof. no_member. Qed.
Lemma spaced_det r s : spaced r s -> forall r', spaced r' s -> Forall good_text r -> Forall good_text r' -> r = r'.
Proof.
  induction 1 as [k t|k t r s H IH]; intros r' H' G G'.
  - inversion H' as [k' t' E1 E2|k' t' r2 s2 H2 E1 E2]; subst; inversion_clear G as [|? ? (C & N) _]; inversion_clear G' as [|? ? (C' & N') G2].
    + rewrite <- (append_nil t), <- (append_nil t') in E2. apply blanks_peel in E2; auto. rewrite !append_nil in E2. congruence.
    + exfalso. rewrite <- (append_nil t) in E2. apply blanks_peel in E2; auto. rewrite append_nil in E2. revert E2. apply free_whole. apply clean_free; [apply other_comma|exact C].
  - inversion H' as [k' t' E1 E2|k' t' r2 s2 H2 E1 E2]; subst; inversion_clear G as [|? ? (C & N) G1]; inversion_clear G' as [|? ? (C' & N') G2].
    + exfalso. rewrite <- (append_nil t') in E2. apply blanks_peel in E2; auto. rewrite append_nil in E2. symmetry in E2. revert E2. apply free_whole. apply clean_free; [apply other_comma|exact C'].
    + apply blanks_peel in E2; auto. apply clean_peel in E2 as (-> & _ & E2); auto using other_comma. injection E2 as ->. f_equal. apply IH; auto.
Qed.
Lemma blanks_add n m : (blanks n ++ blanks m)%string = blanks (n + m).
Proof. induction n as [|n IH]; [reflexivity|]. cbn. f_equal. exact IH. Qed.
Lemma row_spaced w r : r <> [] -> forall n, spaced r (blanks n ++ join ", " (map (pad w) r)).
Proof.
  induction r as [|t r IH]; intros N n; [congruence|]. destruct r as [|t2 r].
  - cbn [map join]. unfold pad. rewrite <- append_assoc, blanks_add. constructor.
  - change (join ", " (map (pad w) (t :: t2 :: r))) with (pad w t ++ ", " ++ join ", " (map (pad w) (t2 :: r)))%string. unfold pad at 1. rewrite append_assoc, <- append_assoc, blanks_add. apply more_spaced. apply (IH ltac:(discriminate) 0%nat).
Qed.
Lemma c12_good x : good_text (c12 x).
Proof.
  split; [apply clean_print|]. unfold c12, print. destruct x as [s|s|s pl H|s m e H]; try (destruct s; discriminate). destruct (significant _ _ _) as (d, X). destruct s; [discriminate|]. unfold layout. cbn [sign append].
  destruct (_ && _); [destruct (Z.leb_spec 0 X) as [Q|Q]|discriminate].
  - pose proof (digits_length (Z.to_nat 12) d) as L. destruct (digits (Z.to_nat 12) d) as [|c l]; [discriminate|]. destruct (Z.to_nat (X + 1)) as [|n] eqn:E; [lia|]. discriminate.
  - discriminate.
Qed.
Lemma widest_pos l t : Forall good_text l -> In t l -> (widest l =? 0)%nat = false.
Proof.
  intros G I. apply Nat.eqb_neq. induction l as [|x l IH]; [destruct I|]. inversion_clear G as [|? ? (_ & N) G']. cbn [widest fold_right]. destruct x; [congruence|]. cbn [String.length]. lia.
Qed.
Definition rows_of (rows : list (list string)) (spacer w : nat) : list string :=
  match rows with [] => [] | r :: rs => join ", " (map (pad w) r) :: map (fun r => (blanks spacer ++ join ", " (map (pad w) r))%string) rs end.
Lemma rows_spaced sp w rows : Forall (fun r => r <> []) rows -> Forall2 spaced rows (rows_of rows sp w).
Proof.
  intros H. destruct H as [|r rs R RS]; [constructor|]. cbn [rows_of]. constructor; [apply (row_spaced w r R 0%nat)|]. induction RS; cbn [map]; constructor; auto. apply row_spaced. assumption.
Qed.
Lemma Forall2_det (R : list string -> string -> Prop) (Q : list string -> Prop) : (forall r s, R r s -> forall r', R r' s -> Q r -> Q r' -> r = r') ->
  forall a s, Forall2 R a s -> forall b, Forall2 R b s -> Forall Q a -> Forall Q b -> a = b.
Proof. intros D a s H. induction H; intros b B QA QB; inversion B; subst; [reflexivity|]. inversion_clear QA. inversion_clear QB. f_equal; [eapply D; eauto|auto]. Qed.
Lemma row_free c w l n : other c -> c <> " "%char -> (c <> ","%char \/ (length l <= 1)%nat) -> Forall good_text l -> free c (blanks n ++ join ", " (map (pad w) l)).
Proof.
  intros O S J G. assert (B : forall k, free c (blanks k)) by (intros k; induction k as [|k IH]; [intros []|]; intros [E|E]; [congruence|apply IH; exact E]).
  apply free_app; [apply B|]. assert (PF : forall t, good_text t -> free c (pad w t)) by (intros t (C & _); apply free_app; [apply B|apply clean_free; auto]).
  destruct J as [J|J].
  - induction G as [|t l T G IH]; [intros []|]. destruct l as [|t2 l]; [apply PF; exact T|]. change (join ", " (map (pad w) (t :: t2 :: l))) with (pad w t ++ ", " ++ join ", " (map (pad w) (t2 :: l)))%string.
    apply free_app; [apply PF; exact T|]. apply free_app; [|exact IH]. intros [E|[E|[]]]; congruence.
  - destruct l as [|t [|t2 l]]; [intros []| |cbn in J; lia]. apply PF. inversion_clear G. assumption.
Qed.
Lemma print_matrix_inj c sr sp pre suf rows rows' : other c -> c <> " "%char -> (c <> ","%char \/ Forall (fun r => (length r <= 1)%nat) rows /\ Forall (fun r => (length r <= 1)%nat) rows') ->
  Forall (fun r => r <> []) rows -> Forall (fun r => r <> []) rows' ->
  print_matrix sp (String c sr) pre suf rows = print_matrix sp (String c sr) pre suf rows' -> map (map c12) rows = map (map c12) rows'.
Proof.
  intros O S J N N' E. unfold print_matrix in E. cbv zeta in E. apply strip_prefix in E. apply append_suffix in E.
  assert (GG : forall rows : list (list fl), Forall (Forall good_text) (map (map c12) rows)).
  { intros q. induction q as [|r q IH]; constructor; auto. induction r; constructor; auto using c12_good. }
  assert (NN : forall rows : list (list fl), Forall (fun r => r <> []) rows -> Forall (fun r => r <> []) (map (map c12) rows)).
  { intros q Q. induction Q as [|r q R Q IH]; constructor; auto. destruct r; [congruence|discriminate]. }
  assert (LL : forall rows : list (list fl), Forall (fun r => (length r <= 1)%nat) rows -> Forall (fun r => (length r <= 1)%nat) (map (map c12) rows)).
  { intros q Q. induction Q as [|r q R Q IH]; constructor; auto. rewrite map_length. exact R. }
  assert (J' : c <> ","%char \/ Forall (fun r => (length r <= 1)%nat) (map (map c12) rows) /\ Forall (fun r => (length r <= 1)%nat) (map (map c12) rows')) by (destruct J as [J|(J1 & J2)]; [left; exact J|right; split; apply LL; assumption]).
  pose proof (GG rows) as G. pose proof (GG rows') as G'. pose proof (NN rows N) as M. pose proof (NN rows' N') as M'. clear J N N' GG NN LL. revert G G' M M' J' E.
  generalize (map (map c12) rows) (map (map c12) rows'). clear rows rows'. intros a b G G' M M' J E.
  assert (W : forall q, Forall (Forall good_text) q -> Forall (fun r => r <> []) q -> q <> [] -> (widest (concat q) =? 0)%nat = false).
  { intros q Q1 Q2 Q3. destruct q as [|[|t r] q]; [congruence|inversion_clear Q2; congruence|]. apply (widest_pos _ t); [|left; reflexivity]. clear - Q1. induction Q1; cbn [concat]; [constructor|]. apply Forall_app. split; assumption. }
  assert (FR : forall q w, Forall (Forall good_text) q -> (c <> ","%char \/ Forall (fun r => (length r <= 1)%nat) q) -> Forall (free c) (rows_of q sp w)).
  { intros q w Q1 Q2. destruct q as [|r q]; [constructor|]. cbn [rows_of]. inversion_clear Q1 as [|? ? Q3 Q4]. assert (Z : forall x, In x (r :: q) -> c <> ","%char \/ (length x <= 1)%nat) by (intros x X; destruct Q2 as [Q2|Q2]; [left; exact Q2|right; rewrite Forall_forall in Q2; auto]).
    constructor; [apply (row_free c w r 0%nat O S); [apply Z; left; reflexivity|exact Q3]|]. apply Forall_forall. intros y Y. apply in_map_iff in Y as (x & <- & X). apply row_free; auto; [apply Z; right; exact X|]. rewrite Forall_forall in Q4. auto. }
  assert (EM : forall q w, Forall (Forall good_text) q -> Forall (fun r => r <> []) q -> q <> [] -> join (String c sr) (rows_of q sp w) <> "").
  { intros q w Q1 Q2 Q3 Q. destruct q as [|[|t r] q]; [congruence|inversion_clear Q2; congruence|]. inversion_clear Q1 as [|? ? Q4 Q5]. inversion_clear Q4 as [|? ? (T1 & T2) Q6]. cbn [rows_of map] in Q. 
    assert (X : forall l s, s <> "" -> join (String c sr) (s :: l) <> "") by (intros [|y l] s SN; [exact SN|destruct s; [congruence|discriminate]]). revert Q. apply X.
    assert (X2 : pad w t <> "") by (unfold pad; destruct (blanks (w - String.length t)); [exact T2|discriminate]). destruct r as [|t2 r]; [exact X2|]. cbn [map join]. destruct (pad w t); [congruence|discriminate]. }
  destruct a as [|ra a], b as [|rb b]; [reflexivity| | |].
  - exfalso. pose proof (W _ G' M' ltac:(discriminate)) as W'. rewrite W' in E. symmetry in E. revert E. apply (EM (rb :: b)); auto. discriminate.
  - exfalso. pose proof (W _ G M ltac:(discriminate)) as W'. rewrite W' in E. revert E. apply (EM (ra :: a)); auto. discriminate.
  - pose proof (W _ G M ltac:(discriminate)) as WA. pose proof (W _ G' M' ltac:(discriminate)) as WB. rewrite WA, WB in E. change (join (String c sr) (rows_of (ra :: a) sp (widest (concat (ra :: a)))) = join (String c sr) (rows_of (rb :: b) sp (widest (concat (rb :: b))))) in E.
    apply join_inj in E; [|apply FR; [exact G|tauto]|apply FR; [exact G'|tauto]|discriminate|discriminate].
    apply (Forall2_det spaced (Forall good_text)) with (s := rows_of (ra :: a) sp (widest (concat (ra :: a)))); auto; [intros r s R r' R' Q Q'; eapply spaced_det; eauto|apply rows_spaced; exact M|]. rewrite E. apply rows_spaced. exact M'.
Qed.
Lemma texts_alike a b : map c12 a = map c12 b -> Forall2 (alike 12) a b.
Proof. revert b. induction a as [|x a IH]; intros [|y b] E; try discriminate; constructor; cbn in E; injection E as E1 E2; [apply C157_alike; [lia|exact E1]|auto]. Qed.
Theorem C157_dynamic spacer ad v w : pretty_vector spacer ad v = pretty_vector spacer ad w -> Forall2 (alike 12) v w.
Proof.
  intros E. assert (A : forall q : list fl, Forall (fun r => (length r <= 1)%nat) (map (fun x => [x]) q)) by (intros q; induction q; constructor; auto).
  assert (B : forall q : list fl, Forall (fun r => r <> []) (map (fun x => [x]) q)) by (intros q; induction q; constructor; auto; discriminate).
  assert (M : map (map c12) (map (fun x => [x]) v) = map (map c12) (map (fun x => [x]) w)).
  { unfold pretty_vector in E. destruct ad; eapply (print_matrix_inj ","); try exact E; auto using other_comma; discriminate. }
  apply texts_alike. rewrite !map_map in M. cbn [map] in M. clear - M. revert w M. induction v as [|x v IH]; intros [|y w] E; try discriminate; [reflexivity|]. cbn [map] in *. injection E as E1 E2. f_equal; auto.
Qed.
Print Assumptions C157_dynamic.
(** Matrices with at least one column. *)
Theorem C157_matrix spacer ad a b : Forall (fun r => r <> []) a -> Forall (fun r => r <> []) b -> pretty_matrix spacer ad a = pretty_matrix spacer ad b -> Forall2 (Forall2 (alike 12)) a b.
Proof.
  intros A B E. assert (O : other "010") by no_member. assert (M : map (map c12) a = map (map c12) b).
  { unfold pretty_matrix in E. destruct ad; eapply (print_matrix_inj "010"); try exact E; auto; try discriminate; left; discriminate. }
  clear - M. revert b M. induction a as [|x a IH]; intros [|y b] E; try discriminate; constructor; cbn in E; injection E as E1 E2; [apply texts_alike; exact E1|auto].
Qed.
Print Assumptions C157_matrix.

(** ** What stands where *)
(** The text stands for a number within 5 parts in 10^12 of x. *)
Definition reads (s : string) (x : fl) : Prop := exists r, denotes s r /\ Rabs (r - val x) <= 5 / 1000000000000 * Rabs (val x).
Lemma c12_reads x : is_finite 53 1024 x = true -> reads (c12 x) x.
Proof.
  intros F. destruct (C157_number 12 x ltac:(lia) F) as (r & D & _ & B). exists r. split; [exact D|]. replace (/ 2 * bpow ten (1 - 12)) with (5 / 1000000000000) in B; [exact B|].
  unfold bpow, ten. cbn. lra.
Qed.
Theorem C157_labels x y z w qx qy qz qw : Forall (fun v => is_finite 53 1024 v = true) [x; y; z; w; qx; qy; qz; qw] ->
  exists a b c d e f g h, Forall2 reads [a; b; c; d; e; f; g; h] [x; y; z; w; qx; qy; qz; qw] /\
  pretty_2 true x y = ("Vector2d: <x: " ++ a ++ " y: " ++ b ++ ">")%string /\ pretty_2 false x y = (a ++ ", " ++ b)%string /\
  pretty_3 true x y z = ("Vector3d: <x: " ++ a ++ " y: " ++ b ++ " z: " ++ c ++ ">")%string /\ pretty_3 false x y z = (a ++ ", " ++ b ++ ", " ++ c)%string /\
  pretty_4 true x y z w = ("Vector4d: <x: " ++ a ++ " y: " ++ b ++ " z: " ++ c ++ " w: " ++ d ++ ">")%string /\ pretty_4 false x y z w = (a ++ ", " ++ b ++ ", " ++ c ++ ", " ++ d)%string /\
  pretty_q true qx qy qz qw = ("Quaterniond <x: " ++ e ++ " y: " ++ f ++ " z: " ++ g ++ " w: " ++ h ++ ">")%string /\ pretty_q false qx qy qz qw = (e ++ ", " ++ f ++ ", " ++ g ++ ", " ++ h)%string /\
  pretty_t true x y z qx qy qz qw = ("Isometry3d <x: " ++ a ++ " y: " ++ b ++ " z: " ++ c ++ ">, <x: " ++ e ++ " y: " ++ f ++ " z: " ++ g ++ " w: " ++ h ++ ">")%string /\
  pretty_t false x y z qx qy qz qw = (a ++ ", " ++ b ++ ", " ++ c ++ " : " ++ e ++ ", " ++ f ++ ", " ++ g ++ ", " ++ h)%string.
Proof.
  intros F. exists (c12 x), (c12 y), (c12 z), (c12 w), (c12 qx), (c12 qy), (c12 qz), (c12 qw). split; [|repeat split; reflexivity].
  repeat match goal with H : Forall _ (_ :: _) |- _ => inversion_clear H end. repeat constructor; apply c12_reads; assumption.
Qed.
Print Assumptions C157_labels.
(** The rows of a matrix in order, one to a line, and the coefficients of a row in order. *)
Theorem C157_layout spacer (rows : list (list fl)) : Forall (fun r => r <> [] /\ Forall (fun v => is_finite 53 1024 v = true) r) rows ->
  exists texts lines, Forall2 (Forall2 reads) texts rows /\ Forall2 spaced texts lines /\
  pretty_matrix spacer true rows = ("MatrixXd:" ++ newline ++ "[" ++ join newline lines ++ "]")%string /\
  exists lines', Forall2 spaced texts lines' /\ pretty_matrix spacer false rows = join newline lines'.
Proof.
  intros H. exists (map (map c12) rows), (rows_of (map (map c12) rows) spacer (widest (concat (map (map c12) rows)))).
  assert (N : Forall (fun r => r <> []) (map (map c12) rows)).
  { induction H as [|r rows (R & _) H IH]; constructor; auto. destruct r; [congruence|discriminate]. }
  assert (E : forall sp p s, print_matrix sp newline p s rows = (p ++ join newline (rows_of (map (map c12) rows) sp (widest (concat (map (map c12) rows)))) ++ s)%string).
  { intros sp p s. unfold print_matrix. cbv zeta. destruct rows as [|[|t r] rows]; [reflexivity|inversion_clear H as [|? ? (R & _) _]; congruence|].
    assert (W : (widest (concat (map (map c12) ((t :: r) :: rows))) =? 0)%nat = false).
    { apply (widest_pos _ (c12 t)); [|left; reflexivity]. clear. induction ((t :: r) :: rows) as [|a l IH]; [constructor|]. cbn [map concat]. apply Forall_app. split; [|exact IH]. induction a; constructor; auto using c12_good. }
    rewrite W. reflexivity. }
  split; [|split; [|split]].
  - clear - H. induction H as [|r rows (_ & R) H IH]; constructor; auto. clear - R. induction R; constructor; auto using c12_reads.
  - apply rows_spaced. exact N.
  - unfold pretty_matrix. rewrite E. reflexivity.
  - exists (rows_of (map (map c12) rows) 0 (widest (concat (map (map c12) rows)))). split; [apply rows_spaced; exact N|]. unfold pretty_matrix. rewrite E. cbn [append]. apply append_nil.
Qed.
Print Assumptions C157_layout.
Theorem C157_list spacer (v : list fl) : Forall (fun x => is_finite 53 1024 x = true) v ->
  exists texts padded, Forall2 reads texts v /\ Forall2 (fun t p => exists k, p = (blanks k ++ t)%string) texts padded /\
  pretty_vector spacer true v = ("VectorXd: <" ++ join ", " padded ++ ">")%string /\
  exists padded', Forall2 (fun t p => exists k, p = (blanks k ++ t)%string) texts padded' /\ pretty_vector spacer false v = join ", " padded'.
Proof.
  intros H. assert (E : forall sp, exists padded, Forall2 (fun t p => exists k, p = (blanks k ++ t)%string) (map c12 v) padded /\
    forall p s, print_matrix sp ", " p s (map (fun x => [x]) v) = (p ++ join ", " padded ++ s)%string).
  { intros sp. unfold print_matrix. cbv zeta. set (w := widest _). destruct v as [|x v]; [exists []; split; [constructor|reflexivity]|].
    exists (pad w (c12 x) :: map (fun t => (blanks sp ++ pad w (c12 t))%string) v). split.
    - constructor; [eexists; reflexivity|]. clearbody w. clear. induction v as [|y v IH]; [constructor|]. cbn [map]. constructor; [|exact IH]. unfold pad. rewrite <- append_assoc, blanks_add. eexists. reflexivity.
    - intros p s. assert (W : (w =? 0)%nat = false).
      { apply (widest_pos _ (c12 x)); [|left; reflexivity]. clear. induction (x :: v) as [|a l IH]; [constructor|]. cbn [map concat app]. constructor; auto using c12_good. }
      cbn [map]. rewrite W, !map_map. reflexivity. }
  exists (map c12 v). destruct (E spacer) as (p & P1 & P2). exists p. split; [|split; [exact P1|split]].
  - clear - H. induction H; constructor; auto using c12_reads.
  - unfold pretty_vector. rewrite P2. reflexivity.
  - destruct (E 0%nat) as (p' & P3 & P4). exists p'. split; [exact P3|]. unfold pretty_vector. rewrite P4. cbn [append]. apply append_nil.
Qed.
Print Assumptions C157_list.

Lemma all_digits l : forallb (fun d => (0 <=? d)%Z && (d <=? 9)%Z) l = true -> Forall digit l.
Proof. intros H. apply Forall_forall. intros d D. rewrite forallb_forall in H. apply H in D. unfold digit. lia. Qed.

(** ** What does not hold *)
(** 1 + 2^-52. *)
Definition one_ulp : fl := b64_of_bits 4607182418800017409.
Definition one : fl := b64_of_bits 4607182418800017408.
(** A text does not determine the value: 12 digits are not 17. *)
Theorem C157_twelve_digits_refuted : exists x y, val x <> val y /\ is_finite 53 1024 x = true /\ is_finite 53 1024 y = true /\ c12 x = c12 y /\ forall ad z, pretty_3 ad x z z = pretty_3 ad y z z.
Proof.
  exists one, one_ulp. assert (E : c12 one = c12 one_ulp) by (vm_compute; reflexivity). split; [|split; [vm_compute; reflexivity|split; [vm_compute; reflexivity|split; [exact E|]]]].
  - apply Rlt_not_eq. assert (L : Bcompare 53 1024 one one_ulp = Some Lt) by (vm_compute; reflexivity). rewrite Bcompare_correct in L by (vm_compute; reflexivity). injection L as L. apply Rcompare_Lt_inv. exact L.
  - intros ad z. unfold pretty_3. rewrite E. reflexivity.
Qed.
Print Assumptions C157_twelve_digits_refuted.
(** 1234567. *)
Definition f_1234567 : fl := f_of_Z 1234567.
(** Six digits for a double by itself or in a container: whole numbers above 999999 change. *)
Theorem C157_six_digits_refuted : exists x n, val x = IZR n /\ (Z.abs n < 10 ^ 7)%Z /\ pretty_double x = "1.23457e+06" /\ ~ denotes (pretty_double x) (val x) /\ c12 x = "1234567".
Proof.
  exists f_1234567, 1234567%Z. assert (V : val f_1234567 = 1234567). { unfold f_1234567. destruct (of_Z_exact 1234567 ltac:(lia)) as (_ & A). exact A. }
  assert (D' : denotes "1.23457e+06" 1234570).
  { clear. exists (Notation false [1%Z] [2; 3; 4; 5; 7]%Z (Some (false, [0; 6]%Z))). split; [|split; [reflexivity|]].
    - unfold proper. cbn [whole frac expo]. repeat split; try discriminate; apply all_digits; reflexivity.
    - unfold meaning, power, number. cbn. lra. }
  assert (P : pretty_double f_1234567 = "1.23457e+06") by (vm_compute; reflexivity). split; [exact V|]. split; [reflexivity|]. split; [exact P|]. split; [|vm_compute; reflexivity].
  rewrite P, V. intros D. pose proof (C157_unambiguous _ _ _ D D') as X. apply eq_IZR in X. discriminate X.
Qed.
Print Assumptions C157_six_digits_refuted.

(** ** Cases *)
Definition bits (n : Z) : fl := b64_of_bits n.
(** 0.1, 2/3, the smallest double, 1e22, 123456789012345, -0, infinity, 999999.5 with six digits; as printf gives them. *)
Example C157_texts : c12 (bits 4591870180066957722) = "0.1" /\ c12 (bits 4604180019048437077) = "0.666666666667" /\ c12 (bits 1) = "4.94065645841e-324" /\
  c12 (f_of_Z 10000000000000000000000) = "1e+22" /\ c12 (f_of_Z 123456789012345) = "1.23456789012e+14" /\ c12 (bits (2 ^ 63)) = "-0" /\ c12 (bits 9218868437227405312) = "inf" /\ pretty_double (bits 4696837142389719040) = "1e+06".
Proof. vm_compute. repeat split; reflexivity. Qed.
Example C157_matrix_case : pretty_matrix 1 true [[bits 4591870180066957722; bits 4614838538166547251]; [f_of_Z 100; f_of_Z (-1)]] = ("MatrixXd:" ++ newline ++ "[0.1, 3.4" ++ newline ++ " 100,  -1]")%string /\
  pretty_vector 0 true [f_of_Z 100; f_of_Z (-1)] = "VectorXd: <100,  -1>" /\ pretty_2 true (f_of_Z 100) (f_of_Z (-1)) = "Vector2d: <x: 100 y: -1>".
Proof. vm_compute. repeat split; reflexivity. Qed.
Example C157_number_case : exists r, denotes (c12 (bits 4604180019048437077)) r /\ r = 666666666667 / 1000000000000.
Proof.
  eexists. split; [|reflexivity]. replace (c12 (bits 4604180019048437077)) with "0.666666666667" by (vm_compute; reflexivity). exists (Notation false [0%Z] [6;6;6;6;6;6;6;6;6;6;6;7]%Z None). split; [|split; [reflexivity|]].
  - unfold proper. cbn [whole frac expo]. repeat split; try discriminate; apply all_digits; reflexivity.
  - unfold meaning, power, number. cbn. lra.
Qed.
