(** IEEE 754 doubles as costs, with round-to-nearest addition.  The format and its operations are those of the
    Flocq library; [+], [<], [>=] on doubles in the code are IEEE operations, comparisons with NaN being false. *)
From Verif Require Import Base Cost.
From Flocq Require Import IEEE754.Bits IEEE754.Binary Core.
From Coq Require Import Reals Lra.

Notation fl := (binary_float 53 1024).
Definition b64_zero : fl := B754_zero 53 1024 false.
Definition b64_inf : fl := B754_infinity 53 1024 false.

Definition b64_cost : cost :=
  {| cval := binary64;
     czero := b64_zero;
     cinf := b64_inf;
     cadd := b64_plus BinarySingleNaN.mode_NE;
     cltb := fun a b => match b64_compare a b with Some Lt => true | _ => false end;
     cgeb := fun a b => match b64_compare a b with Some Gt | Some Eq => true | _ => false end |}.

(** Non-negative and not NaN: a zero of either sign, a positive number, or infinity. *)
Definition b64_ok (x : binary64) : Prop :=
  match x with
  | B754_zero _ _ _ => True
  | B754_infinity _ _ s => s = false
  | B754_nan _ _ _ _ _ => False
  | B754_finite _ _ s _ _ _ => s = false
  end.

(** Value in the reals with infinity ([None]). *)
Definition bval (x : fl) : option R := if is_finite 53 1024 x then Some (B2R 53 1024 x) else None.

Lemma bval_nonneg x r : b64_ok x -> bval x = Some r -> (0 <= r)%R.
Proof.
  unfold bval. destruct x; cbn; intros O [= <-]; try lra. subst s.
  apply F2R_ge_0. cbn. apply Pos2Z.is_nonneg.
Qed.

Definition vlt (a b : option R) : Prop :=
  match a, b with Some x, Some y => (x < y)%R | Some _, None => True | None, _ => False end.

Lemma vlt_dec a b : {vlt a b} + {~ vlt a b}.
Proof. destruct a, b; cbn; auto. apply Rlt_dec. Qed.

Lemma compare_spec x y : b64_ok x -> b64_ok y ->
  b64_compare x y = Some (if vlt_dec (bval x) (bval y) then Lt else if vlt_dec (bval y) (bval x) then Gt else Eq).
Proof.
  intros OX OY.
  destruct (is_finite 53 1024 x) eqn:FX, (is_finite 53 1024 y) eqn:FY.
  - unfold b64_compare. rewrite Bcompare_correct by auto. unfold bval. rewrite FX, FY. f_equal.
    set (a := B2R 53 1024 x). set (b := B2R 53 1024 y).
    destruct (vlt_dec (Some a) (Some b)) as [H|H]; cbn in H; [apply Rcompare_Lt; auto|].
    destruct (vlt_dec (Some b) (Some a)) as [H'|H']; cbn in H'; [apply Rcompare_Gt; auto|].
    apply Rcompare_Eq. lra.
  - unfold bval. rewrite FX, FY. destruct (vlt_dec _ None) as [|n]; [|elim n; exact I].
    destruct y; try discriminate; cbn in OY; [subst|contradiction]. destruct x; try discriminate; reflexivity.
  - unfold bval. rewrite FX, FY. destruct (vlt_dec None _) as [n|]; [destruct n|].
    destruct (vlt_dec _ None) as [|n']; [|elim n'; exact I].
    destruct x; try discriminate; cbn in OX; [subst|contradiction]. destruct y; try discriminate; reflexivity.
  - unfold bval. rewrite FX, FY. destruct (vlt_dec None None) as [n|]; [destruct n|].
    destruct x; try discriminate; cbn in OX; [subst|contradiction].
    destruct y; try discriminate; cbn in OY; [subst|contradiction]. reflexivity.
Qed.

Lemma ltb_spec x y : b64_ok x -> b64_ok y -> (@cltb b64_cost x y = true <-> vlt (bval x) (bval y)).
Proof.
  intros OX OY. cbn. rewrite compare_spec by auto.
  destruct (vlt_dec (bval x) (bval y)); [tauto|]. destruct (vlt_dec (bval y) (bval x)); split; intros; try discriminate; tauto.
Qed.
Lemma ltb_false_spec x y : b64_ok x -> b64_ok y -> (@cltb b64_cost x y = false <-> ~ vlt (bval x) (bval y)).
Proof.
  intros OX OY. rewrite <- ltb_spec by auto. destruct (@cltb b64_cost x y); split; intros; auto; try discriminate; congruence.
Qed.

Definition rnd (x : R) : R := round radix2 (SpecFloat.fexp 53 1024) ZnearestE x.
Definition fmax : R := bpow radix2 1024.
Definition vadd (a b : option R) : option R :=
  match a, b with
  | Some x, Some y => if Rlt_dec (rnd (x + y)) fmax then Some (rnd (x + y)) else None
  | _, _ => None
  end.

Local Instance P53 : Prec_gt_0 53 := eq_refl.
Local Instance VE : Valid_exp (SpecFloat.fexp 53 1024) := BinarySingleNaN.fexp_correct 53 1024 eq_refl.

Lemma rnd_le x y : (x <= y)%R -> (rnd x <= rnd y)%R.
Proof. apply round_le; [apply VE|apply valid_rnd_N]. Qed.
Lemma rnd_0 : rnd 0 = 0%R.
Proof. apply round_0. apply valid_rnd_N. Qed.

Lemma add_spec x y : b64_ok x -> b64_ok y ->
  b64_ok (@cadd b64_cost x y) /\ bval (@cadd b64_cost x y) = vadd (bval x) (bval y).
Proof.
  intros OX OY. change (@cadd b64_cost x y) with (b64_plus BinarySingleNaN.mode_NE x y).
  destruct (is_finite 53 1024 x) eqn:FX, (is_finite 53 1024 y) eqn:FY.
  - pose proof (bval_nonneg x _ OX ltac:(unfold bval; rewrite FX; reflexivity)) as PX.
    pose proof (bval_nonneg y _ OY ltac:(unfold bval; rewrite FY; reflexivity)) as PY.
    pose proof (Bplus_correct 53 1024 eq_refl eq_refl binop_nan_pl64 BinarySingleNaN.mode_NE x y FX FY) as H.
    unfold bval at 2 3. rewrite FX, FY. cbn [vadd].
    change (BinarySingleNaN.round_mode BinarySingleNaN.mode_NE) with ZnearestE in H.
    change (round radix2 (SpecFloat.fexp 53 1024) ZnearestE (B2R 53 1024 x + B2R 53 1024 y)%R) with (rnd (B2R 53 1024 x + B2R 53 1024 y)) in H.
    set (r := rnd (B2R 53 1024 x + B2R 53 1024 y)) in *.
    assert (PR : (0 <= r)%R). { rewrite <- rnd_0. apply rnd_le. lra. }
    rewrite Rabs_pos_eq in H by auto. change (bpow radix2 1024) with fmax in H.
    change (Bplus 53 1024 eq_refl eq_refl binop_nan_pl64 BinarySingleNaN.mode_NE x y) with (b64_plus BinarySingleNaN.mode_NE x y) in H.
    set (z := b64_plus BinarySingleNaN.mode_NE x y) in *.
    destruct (Rlt_bool_spec r fmax) as [HL|HL].
    + destruct H as (H1 & H2 & _). unfold bval. rewrite H2, H1. destruct (Rlt_dec r _); [|contradiction].
      split; auto.
      destruct z as [| | |s m e Hb]; cbn; auto; try discriminate. destruct s; auto. exfalso.
      assert (B2R 53 1024 (B754_finite 53 1024 true m e Hb) < 0)%R.
      { cbn. apply F2R_lt_0. reflexivity. }
      rewrite H1 in H. lra.
    + destruct H as (H1 & H2).
      assert (Bsign 53 1024 x = false) as SX.
      { destruct (Bsign 53 1024 x) eqn:SX; auto. exfalso. symmetry in H2.
        destruct x; try discriminate; cbn in OX, SX; subst; try discriminate.
        destruct y; try discriminate; cbn in OY, H2; subst; discriminate. }
      rewrite SX in H1. clearbody z r. destruct z as [|sz| |]; try discriminate. injection H1 as ->.
      split; [reflexivity|]. unfold bval; cbn [is_finite]. destruct (Rlt_dec r _) as [X|]; [|auto].
      exfalso. apply (Rlt_irrefl r). eapply Rlt_le_trans; [exact X|exact HL].
  - destruct y; try discriminate; cbn in OY; [subst|contradiction].
    replace (b64_plus _ _ _) with b64_inf by (destruct x as [|s| |]; cbn in OX; try discriminate; try contradiction; auto).
    split; [reflexivity|]. unfold bval. cbn. destruct (is_finite _ _ x); reflexivity.
  - destruct x; try discriminate; cbn in OX; [subst|contradiction].
    replace (b64_plus _ _ _) with b64_inf by (destruct y as [|s| |]; cbn in OY; try discriminate; try contradiction; auto).
    split; reflexivity.
  - destruct x; try discriminate; cbn in OX; [subst|contradiction].
    destruct y; try discriminate; cbn in OY; [subst|contradiction]. split; reflexivity.
Qed.

Lemma bval_rnd x r : bval x = Some r -> rnd r = r /\ (r < fmax)%R.
Proof.
  unfold bval. destruct (is_finite 53 1024 x) eqn:F; [|discriminate]. intros [= <-]. split.
  - apply round_generic; [apply valid_rnd_N|apply generic_format_B2R].
  - eapply Rle_lt_trans; [apply Rle_abs|]. apply abs_B2R_lt_emax.
Qed.

Lemma b64_laws : cost_laws b64_cost b64_ok.
Proof.
  split.
  - exact I.
  - reflexivity.
  - intros a w A W. apply (add_spec a w A W).
  - intros a A. apply ltb_false_spec; auto. destruct (bval a); cbn; auto. lra.
  - intros a b c A B D. rewrite !ltb_spec by auto. destruct (bval a), (bval b), (bval c); cbn; auto; try tauto. lra.
  - intros a b c A B D. rewrite !ltb_false_spec by auto. destruct (bval a), (bval b), (bval c); cbn; auto; try tauto. lra.
  - intros a b A B. cbn. rewrite compare_spec by auto.
    destruct (vlt_dec (bval a) (bval b)); auto. destruct (vlt_dec (bval b) (bval a)); auto.
  - intros a A. rewrite ltb_false_spec; auto; [|exact I]. destruct (bval a) eqn:E; [|cbn; auto].
    pose proof (bval_nonneg a r A E). cbn. lra.
  - reflexivity.
  - intros a A. rewrite ltb_false_spec; auto; reflexivity.
  - intros a w A W. destruct (add_spec a w A W) as [O EQ]. rewrite ltb_false_spec, EQ by auto.
    destruct (bval a) as [ra|] eqn:EA; [|cbn; auto]. destruct (bval w) as [rw|] eqn:EW; [|cbn; auto].
    cbn [vadd]. destruct (Rlt_dec _ _); [|cbn [vlt]; auto]. cbn [vlt].
    destruct (bval_rnd a ra EA) as [R1 _]. rewrite <- R1 at 2. pose proof (bval_nonneg w rw W EW).
    pose proof (rnd_le ra (ra + rw)). lra.
  - intros a b w A B W. destruct (add_spec a w A W) as [O1 E1]. destruct (add_spec b w B W) as [O2 E2].
    rewrite !ltb_false_spec, E1, E2 by auto.
    destruct (bval w) as [rw|]; [|destruct (bval a), (bval b); cbn; auto].
    destruct (bval a) as [ra|], (bval b) as [rb|]; cbn [vadd vlt]; try tauto.
    + cbn [vlt]. intros H. assert (ra <= rb)%R by lra. pose proof (rnd_le (ra + rw) (rb + rw)) as X.
      destruct (Rlt_dec (rnd (ra + rw)) _), (Rlt_dec (rnd (rb + rw)) _); cbn [vlt]; try lra; auto.
Qed.

(** Doubles from their 64 bits. *)
Definition d64 (bits : Z) : binary64 := b64_of_bits bits.
