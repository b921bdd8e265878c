(** C174: the lengths of paths of points with the rounding of doubles. *)
From Verif Require Import Base VoxelFloat DynGridFloat VoxelMakeModel ChunkFloat InterpFloatModel AvgFloatModel EigenFloatModel InterpFloatProps VecFloatProps AvgFloatProps EigenFloatProps PathLenFloatModel.
From Flocq Require Import IEEE754.Bits IEEE754.Binary Core Relative Plus_error.
From Coq Require Import Reals Lra Psatz.
Local Instance P53 : Prec_gt_0 53 := eq_refl.
Local Instance VE : Valid_exp (SpecFloat.fexp 53 1024) := BinarySingleNaN.fexp_correct 53 1024 eq_refl.
Open Scope R_scope.

(** ** For all doubles *)
(** One distance for every point, 0 for the first; each of the others is what the code computes for the point and the one before it; a cumulative distance is the
    rounded sum of the one before and the single distance; the total distance is the last cumulative one, bit by bit, and 0 without points. *)
Lemma from_lists l : forall d p, length (individual_from p l) = length l /\ length (cumulative_from d p l) = length l /\ last (d :: cumulative_from d p l) f_zero = total_from d p l.
Proof.
  induction l as [|q l IH]; intros d p; [repeat split|]. destruct (IH (b64_plus NE d (delta p q)) q) as (A & C & D). cbn [individual_from cumulative_from total_from length].
  split; [congruence|]. split; [congruence|]. exact D.
Qed.
Lemma from_nth l : forall d p i, (nth_error (p :: l) (S i) <> None -> exists v w c, nth_error (p :: l) i = Some v /\ nth_error (p :: l) (S i) = Some w /\
   nth_error (individual_from p l) i = Some (delta v w) /\ nth_error (d :: cumulative_from d p l) i = Some c /\ nth_error (cumulative_from d p l) i = Some (b64_plus NE c (delta v w))).
Proof.
  induction l as [|q l IH]; intros d p i H; [destruct i; exfalso; apply H; reflexivity|]. destruct i as [|i].
  - exists p, q, d. repeat split.
  - destruct (IH (b64_plus NE d (delta p q)) q i H) as (v & w & c & A1 & A2 & A3 & A4 & A5). exists v, w, c. repeat split; assumption.
Qed.
Theorem C174_lists points :
  length (individual_distances points) = length points /\ length (cumulative_distances points) = length points /\
  (points <> [] -> nth_error (individual_distances points) 0 = Some f_zero /\ nth_error (cumulative_distances points) 0 = Some f_zero) /\
  (forall i p q, nth_error points i = Some p -> nth_error points (S i) = Some q -> exists c,
     nth_error (individual_distances points) (S i) = Some (delta p q) /\
     nth_error (cumulative_distances points) i = Some c /\ nth_error (cumulative_distances points) (S i) = Some (b64_plus NE c (delta p q))) /\
  total_distance points = last (cumulative_distances points) f_zero.
Proof.
  destruct points as [|p l]; [repeat split; try congruence; intros [|i]; discriminate|]. destruct (from_lists l f_zero p) as (A & C & D).
  unfold individual_distances, cumulative_distances, total_distance. split; [cbn [length]; congruence|]. split; [cbn [length]; congruence|]. split; [split; reflexivity|]. split; [|symmetry; exact D].
  intros i v w V W. destruct (from_nth l f_zero p i ltac:(congruence)) as (v' & w' & c & A1 & A2 & A3 & A4 & A5). exists c.
  rewrite V in A1. rewrite W in A2. injection A1 as <-. injection A2 as <-. repeat split; assumption.
Qed.

(** ** Points with coordinates of at most 2^508 *)
Definition turned (v : t3 fl) : t3 fl := T3 (ay v) (az v) (ax v).
Lemma delta_val v w : bounded3 508 v -> bounded3 508 w -> fin (delta v w) = true /\ B (delta v w) = B (dist3 (turned v) (turned w)) /\ 0 <= B (delta v w) <= b 510.
Proof.
  intros (V1 & V2 & V3) (W1 & W2 & W3). unfold delta, norm3, minus3. cbn [ax ay az].
  assert (TV : bounded3 508 (turned v)) by (repeat split; cbn; first [apply V1|apply V2|apply V3]).
  assert (TW : bounded3 508 (turned w)) by (repeat split; cbn; first [apply W1|apply W2|apply W3]).
  destruct (sq3_val _ _ TV TW) as (FQ & EQ & BQ). cbn [turned ax ay az] in EQ. destruct (sqrt_val _ FQ (proj1 BQ)) as (FR & ER).
  destruct (coordinate _ _ V1 W1) as (F1 & E1 & L1), (coordinate _ _ V2 W2) as (F2 & E2 & L2), (coordinate _ _ V3 W3) as (F3 & E3 & L3). cbv zeta in *.
  destruct (add_pos _ _ 1018 F2 F3) as (FS & VS & BS); [rewrite E2; split; [apply sqR_pos | apply sqR_bound, L2] | rewrite E3; split; [apply sqR_pos | apply sqR_bound, L3] | lia |].
  destruct (add_pos _ _ 1019 F1 FS) as (FT & VT & BT); [rewrite E1; split; [apply sqR_pos | eapply Rle_trans; [apply sqR_bound, L1 | apply b_le; lia]] | exact BS | lia |].
  destruct (sqrt_val _ FT (proj1 BT)) as (FN & EN). split; [exact FN|].
  assert (E : B (b64_sqrt NE (b64_plus NE (b64_mult NE (b64_minus NE (ax w) (ax v)) (b64_minus NE (ax w) (ax v))) (b64_plus NE (b64_mult NE (b64_minus NE (ay w) (ay v)) (b64_minus NE (ay w) (ay v))) (b64_mult NE (b64_minus NE (az w) (az v)) (b64_minus NE (az w) (az v))))))
              = B (dist3 (turned v) (turned w))).
  { unfold dist3. rewrite EN, ER, EQ, VT, VS, E1, E2, E3. do 3 f_equal. apply Rplus_comm. }
  split; [exact E|]. rewrite EN. split; [apply rnd_pos, sqrt_pos|]. rewrite <- (rnd_fmt (b 510)) by (apply fmt_b; lia). apply rnd_le.
  change (1019 + 1)%Z with (510 + 510)%Z in BT. rewrite b_add in BT. rewrite <- (sqrt_square (b 510)) by (apply Rlt_le, b_pos). apply sqrt_le_1_alt. apply BT.
Qed.
Lemma fmt_times k : (0 <= k < 2 ^ 53)%Z -> fmt64 (IZR k * b 510).
Proof.
  intros K. apply (generic_format_FLT radix2 (-1074) 53). apply (FLT_spec radix2 (-1074) 53 _ (Float radix2 k 510)); cbn [Fnum Fexp]; [rewrite (b_opaque 510); reflexivity | rewrite Z.abs_eq by lia; change (radix2 ^ 53)%Z with (2 ^ 53)%Z; lia | lia].
Qed.
(** One more step of a sum of [k] distances. *)
Lemma sum_step d e k : fin d = true -> fin e = true -> 0 <= B e <= b 510 -> 0 <= B d <= IZR k * b 510 -> (0 <= k)%Z -> (k + 1 < 2 ^ 53)%Z ->
  let s := b64_plus NE d e in fin s = true /\ B s = rndN (B d + B e) /\ B d <= B s /\ B e <= B s /\ B s <= IZR (k + 1) * b 510.
Proof.
  intros FD FE LE LD K0 K s. assert (B0 := b_pos 510).
  assert (L : B d + B e <= IZR (k + 1) * b 510) by (rewrite plus_IZR; lra).
  assert (T : IZR (k + 1) * b 510 <= b 1000).
  { replace (b 1000) with (b 490 * b 510) by (rewrite <- b_add; reflexivity). apply Rmult_le_compat_r; [lra|]. apply Rle_trans with (b 53); [|apply b_le; lia].
    rewrite (b_opaque 53), <- IZR_Zpower by lia. apply IZR_le. change (Zpower radix2 53) with (2 ^ 53)%Z. lia. }
  destruct (near_num _ _ 1000 (near_plus d e FD FE)) as (F & V & _); [rewrite Rabs_pos_eq; lra | lia |]. fold s in F, V.
  split; [exact F|]. split; [exact V|]. rewrite V. split; [rewrite <- (rnd_fmt (B d) (fmt_B d)) at 1; apply rnd_le; lra|]. split; [rewrite <- (rnd_fmt (B e) (fmt_B e)) at 1; apply rnd_le; lra|].
  rewrite <- (rnd_fmt _ (fmt_times (k + 1) ltac:(lia))). apply rnd_le. exact L.
Qed.
Definition path (points : list (t3 fl)) : Prop := Forall (bounded3 508) points /\ (Z.of_nat (length points) <= 2 ^ 53)%Z.

Lemma cumulative_ok l : forall d p k, bounded3 508 p -> Forall (bounded3 508) l -> fin d = true -> 0 <= B d <= IZR k * b 510 -> (0 <= k)%Z -> (k + Z.of_nat (length l) < 2 ^ 53)%Z ->
  Forall (fun x => fin x = true) (cumulative_from d p l) /\
  forall i c e, nth_error (d :: cumulative_from d p l) i = Some c -> nth_error (cumulative_from d p l) i = Some e -> 0 <= B c <= B e /\ forall y, nth_error (individual_from p l) i = Some y -> fin y = true /\ 0 <= B y <= B e.
Proof.
  induction l as [|q l IH]; intros d p k P L FD LD K0 K; [split; [constructor|intros [|i] c e; discriminate]|].
  inversion L as [|? ? Q L']; subst. cbn [length] in K. rewrite Nat2Z.inj_succ in K. destruct (delta_val p q P Q) as (FE & _ & LE).
  destruct (sum_step d (delta p q) k FD FE LE LD K0 ltac:(lia)) as (FS & VS & S1 & S2 & S3).
  destruct (IH (b64_plus NE d (delta p q)) q (k + 1)%Z Q L' FS ltac:(lra) ltac:(lia) ltac:(lia)) as (A & C). cbn [cumulative_from individual_from]. cbv zeta. split; [constructor; assumption|].
  intros [|i] c e H1 H2; [|apply (C i c e H1 H2)]. cbn [nth_error] in *. injection H1 as <-. injection H2 as <-. split; [lra|]. intros y Y. injection Y as <-. split; [exact FE|lra].
Qed.
Lemma individual_ok l : forall p, bounded3 508 p -> Forall (bounded3 508) l -> forall x, In x (individual_from p l) -> fin x = true /\ 0 <= B x.
Proof.
  induction l as [|q l IH]; intros p P A x I; [destruct I|]. inversion A as [|? ? Q A']; subst. destruct I as [<-|I]; [|apply (IH q Q A' x I)].
  destruct (delta_val p q P Q) as (F & _ & G). split; [exact F | lra].
Qed.
Lemma last_in (c : list fl) : forall y z, In (last (y :: c) z) (y :: c).
Proof. induction c as [|x c IH]; intros y z; [left; reflexivity|]. right. apply IH. Qed.
(** All distances are numbers and not negative; the cumulative ones never decrease, and none is smaller than the last step. *)
Theorem C174_grow points : path points ->
  (forall x, In x (individual_distances points) -> fin x = true /\ 0 <= B x) /\ (forall x, In x (cumulative_distances points) -> fin x = true) /\
  fin (total_distance points) = true /\
  forall i c e, nth_error (cumulative_distances points) i = Some c -> nth_error (cumulative_distances points) (S i) = Some e ->
    0 <= B c <= B e /\ forall y, nth_error (individual_distances points) (S i) = Some y -> B y <= B e.
Proof.
  intros (A & L). destruct points as [|p l]; [repeat split; try contradiction; destruct i; discriminate|]. inversion A as [|? ? P A']; subst. cbn [length] in L. rewrite Nat2Z.inj_succ in L.
  destruct (cumulative_ok l f_zero p 0 P A' eq_refl) as (C & D); [change (B f_zero) with 0; lra | lia | lia |].
  assert (CF : forall x, In x (cumulative_distances (p :: l)) -> fin x = true) by (intros x [<-|I]; [reflexivity | rewrite Forall_forall in C; apply C; exact I]).
  split.
  - intros x [<-|I]; [split; [reflexivity | change (B f_zero) with 0; lra] | apply (individual_ok l p P A' x I)].
  - split; [exact CF|]. split.
    + rewrite (proj2 (proj2 (proj2 (proj2 (C174_lists (p :: l)))))). apply CF. apply last_in.
    + intros i c e H1 H2. destruct (D i c e H1 H2) as (E1 & E2). split; [exact E1|]. intros y Y. destruct (E2 y Y) as (_ & G). lra.
Qed.

(** The exact length of a step and of a path. *)
Fixpoint exact_from (p : t3 fl) (l : list (t3 fl)) : R := match l with [] => 0 | q :: l => sqrt (exact3 p q) + exact_from q l end.
Definition exact_length (points : list (t3 fl)) : R := match points with [] => 0 | p :: l => exact_from p l end.
(** Every step stays where it is, or is at least 2^-500 long. *)
Fixpoint steps_from (p : t3 fl) (l : list (t3 fl)) : Prop := match l with [] => True | q :: l => (exact3 p q = 0 \/ bpow radix2 (-500) <= sqrt (exact3 p q)) /\ steps_from q l end.
Definition steps_ok (points : list (t3 fl)) : Prop := match points with [] => True | p :: l => steps_from p l end.

Lemma exact_pos p q : 0 <= exact3 p q.
Proof. unfold exact3. repeat apply Rplus_le_le_0_compat; apply pow2_ge_0. Qed.
(** A single distance: wrong by 5 u of the exact one at most, and 0 for the same point. *)
Theorem C174_step p q : bounded3 508 p -> bounded3 508 q -> exact3 p q = 0 \/ bpow radix2 (-500) <= sqrt (exact3 p q) ->
  (1 - 5 * b (-53)) * sqrt (exact3 p q) <= B (delta p q) <= (1 + 5 * b (-53)) * sqrt (exact3 p q).
Proof.
  intros P Q H. destruct (delta_val p q P Q) as (F & E & L). destruct P as (P1 & P2 & P3), Q as (Q1 & Q2 & Q3).
  assert (TP : bounded3 508 (turned p)) by (repeat split; cbn; first [apply P1|apply P2|apply P3]). assert (TQ : bounded3 508 (turned q)) by (repeat split; cbn; first [apply Q1|apply Q2|apply Q3]).
  assert (T : exact3 (turned p) (turned q) = exact3 p q) by (unfold exact3; cbn [turned ax ay az]; ring). destruct H as [Z|H].
  - rewrite Z, sqrt_0. assert (B (delta p q) = 0); [|lra]. rewrite E.
    assert (SQ : forall x y z : R, x ^ 2 + y ^ 2 + z ^ 2 = 0 -> x = 0 /\ y = 0 /\ z = 0) by (intros x y z E0; pose proof (pow2_ge_0 x); pose proof (pow2_ge_0 y); pose proof (pow2_ge_0 z); repeat split; apply Rsqr_eq_0; unfold Rsqr; lra).
    destruct (SQ _ _ _ Z) as (Z1 & Z2 & Z3). destruct (C171_distance3 (turned p) (turned q) TP TQ) as (_ & _ & _ & N & _ & _ & _ & _ & M).
    destruct (C171_distance3 (turned p) (turned p) TP TP) as (_ & _ & _ & _ & _ & _ & _ & O & _).
    destruct (M (turned p) (turned p) TP TP) as (_ & G); cbn [turned ax ay az]; try (first [rewrite Z1|rewrite Z2|rewrite Z3]; rewrite Rabs_R0; apply Rabs_pos). rewrite O in G. lra.
  - destruct C171_distance_error as (D & _). rewrite <- T in H. specialize (D _ _ TP TQ H). rewrite T, <- E, <- (b_opaque (-53)) in D. apply two_sided in D. lra.
Qed.
Lemma total_err l : forall d p k m S, bounded3 508 p -> Forall (bounded3 508) l -> steps_from p l -> fin d = true -> 0 <= B d <= IZR k * b 510 -> (0 <= k)%Z -> (k + Z.of_nat (length l) < 2 ^ 53)%Z -> 0 <= S ->
  (1 - b (-53)) ^ m * (1 - 5 * b (-53)) * S <= B d <= (1 + b (-53)) ^ m * (1 + 5 * b (-53)) * S ->
  (1 - b (-53)) ^ (m + length l) * (1 - 5 * b (-53)) * (S + exact_from p l) <= B (total_from d p l) <= (1 + b (-53)) ^ (m + length l) * (1 + 5 * b (-53)) * (S + exact_from p l).
Proof.
  induction l as [|q l IH]; intros d p k m S P L H FD LD K0 K S0 E; [cbn [length exact_from total_from]; rewrite Nat.add_0_r, Rplus_0_r; exact E|].
  inversion L as [|? ? Q L']; subst. cbn [length] in K. rewrite Nat2Z.inj_succ in K. destruct H as (H & H'). destruct (delta_val p q P Q) as (FE & _ & LE). pose proof (C174_step p q P Q H) as DE.
  destruct (sum_step d (delta p q) k FD FE LE LD K0 ltac:(lia)) as (FS & VS & S1 & S2 & S3).
  cbn [total_from exact_from length]. rewrite <- Nat.add_succ_comm, <- Rplus_assoc. apply (IH _ q (k + 1)%Z (Datatypes.S m)); auto; [lra | lia | lia | pose proof (sqrt_pos (exact3 p q)); lra |].
  rewrite VS. destruct (sum_rel (B d) (B (delta p q)) (fmt_B d) (fmt_B _)) as (e & A & ->). apply two_sided in A.
  pose proof u_small as (U0 & U1). set (x := sqrt (exact3 p q)) in *. assert (X0 : 0 <= x) by apply sqrt_pos. set (u := b (-53)) in *.
  assert (HI : 1 <= (1 + u) ^ m) by (apply pow_R1_Rle; lra). assert (LO : 0 <= (1 - u) ^ m <= 1) by (split; [apply pow_le; lra | apply Rle_trans with (1 ^ m); [apply pow_incr; lra | rewrite pow1; lra]]).
  cbn [pow]. set (h := (1 + u) ^ m) in *. set (g := (1 - u) ^ m) in *. clearbody h g u x. set (s := B d) in *. set (t := B (delta p q)) in *. clearbody s t.
  assert (ST : 0 <= s + t) by lra.
  assert (G1 : g * (1 - 5 * u) * x <= (1 - 5 * u) * x) by (rewrite Rmult_assoc; rewrite <- (Rmult_1_l ((1 - 5 * u) * x)) at 2; apply Rmult_le_compat_r; [apply Rmult_le_pos; lra | lra]).
  assert (H1 : (1 + 5 * u) * x <= h * (1 + 5 * u) * x) by (rewrite (Rmult_assoc h); rewrite <- (Rmult_1_l ((1 + 5 * u) * x)) at 1; apply Rmult_le_compat_r; [apply Rmult_le_pos; lra | lra]).
  split.
  - apply Rle_trans with ((1 - u) * (s + t)); [|rewrite (Rmult_comm (1 - u)); apply Rmult_le_compat_l; lra].
    replace ((1 - u) * g * (1 - 5 * u) * (S + x)) with ((1 - u) * (g * (1 - 5 * u) * S + g * (1 - 5 * u) * x)) by ring. apply Rmult_le_compat_l; lra.
  - apply Rle_trans with ((1 + u) * (s + t)); [rewrite (Rmult_comm (1 + u)); apply Rmult_le_compat_l; lra|].
    replace ((1 + u) * h * (1 + 5 * u) * (S + x)) with ((1 + u) * (h * (1 + 5 * u) * S + h * (1 + 5 * u) * x)) by ring. apply Rmult_le_compat_l; lra.
Qed.
(** The total distance of n points is wrong by the factor (1 + u)^(n - 1) (1 + 5 u) at most, for u = 2^-53. *)
Theorem C174_error points : path points -> steps_ok points -> let u := bpow radix2 (-53) in let n := length points in
  (1 - u) ^ (n - 1) * (1 - 5 * u) * exact_length points <= B (total_distance points) <= (1 + u) ^ (n - 1) * (1 + 5 * u) * exact_length points.
Proof.
  intros (A & L) H u n. unfold u. rewrite <- (b_opaque (-53)). destruct points as [|p l]; [cbn [total_distance exact_length]; change (B f_zero) with 0; lra|]. inversion A as [|? ? P A']; subst.
  cbn [length] in L. rewrite Nat2Z.inj_succ in L. unfold n. cbn [length total_distance exact_length]. replace (S (length l) - 1)%nat with (0 + length l)%nat by lia. rewrite <- (Rplus_0_l (exact_from p l)).
  apply (total_err l f_zero p 0 0 0); auto; try lia; try (change (B f_zero) with 0; lra).
Qed.

(** Backwards the single distances are the same. *)
Theorem C174_backwards p q : bounded3 508 p -> bounded3 508 q -> B (delta p q) = B (delta q p) /\ B (delta p p) = 0.
Proof.
  intros P Q. rewrite (proj1 (proj2 (delta_val p q P Q))), (proj1 (proj2 (delta_val q p Q P))), (proj1 (proj2 (delta_val p p P P))). destruct P as (P1 & P2 & P3), Q as (Q1 & Q2 & Q3).
  assert (TP : bounded3 508 (turned p)) by (repeat split; cbn; first [apply P1|apply P2|apply P3]). assert (TQ : bounded3 508 (turned q)) by (repeat split; cbn; first [apply Q1|apply Q2|apply Q3]).
  destruct (C171_distance3 _ _ TP TQ) as (_ & _ & _ & _ & _ & S & _ & O & _). auto.
Qed.

(** ** What does not hold *)
Definition at_ (x y : Z) : t3 fl := T3 (b64_of_bits x) (b64_of_bits y) f_zero.
Definition bits_one : Z := (1023 * 2 ^ 52)%Z.
Definition bits_pow (e : Z) : Z := ((1023 + e) * 2 ^ 52)%Z.
Definition bits (l : list fl) : list Z := map bits_of_b64 l.
(** A step can leave the cumulative distance as it was: (0, 0), (1, 0), (1, 2^-60). *)
Theorem C174_same_refuted : exists p q r, bits (individual_distances [p; q; r]) = [0; bits_one; bits_pow (-60)]%Z /\ bits (cumulative_distances [p; q; r]) = [0; bits_one; bits_one]%Z.
Proof. exists (at_ 0 0), (at_ bits_one 0), (at_ bits_one (bits_pow (-60))). split; vm_compute; reflexivity. Qed.
(** Backwards the total can be another one: (0, 0), (1, 0), (1, 2^-53), (1, 2^-52) is 1 long, and the next double backwards. *)
Theorem C174_backwards_refuted : exists points, bits_of_b64 (total_distance points) = bits_one /\ bits_of_b64 (total_distance (rev points)) = (bits_one + 1)%Z.
Proof. exists [at_ 0 0; at_ bits_one 0; at_ bits_one (bits_pow (-53)); at_ bits_one (bits_pow (-52))]. split; vm_compute; reflexivity. Qed.

(** The path of the last example meets the hypotheses. *)
Example a_path : let points := [at_ 0 0; at_ bits_one 0; at_ bits_one (bits_pow (-53))] in path points /\ steps_ok points.
Proof.
  cbv zeta. assert (Z : EigenFloatProps.bounded 508 f_zero) by (split; [reflexivity | change (B f_zero) with 0; rewrite Rabs_R0; apply Rlt_le, b_pos]).
  assert (V1 : B (b64_of_bits bits_one) = 1).
  { rewrite (lit _ false 4503599627370496 (-52)) by (vm_compute; reflexivity). unfold F2R. cbn [Fnum Fexp cond_Zopp]. replace (IZR 4503599627370496) with (bpow radix2 52) by (rewrite <- IZR_Zpower by lia; reflexivity).
    rewrite <- bpow_plus. reflexivity. }
  assert (V2 : B (b64_of_bits (bits_pow (-53))) = bpow radix2 (-53)).
  { rewrite (lit _ false 4503599627370496 (-105)) by (vm_compute; reflexivity). unfold F2R. cbn [Fnum Fexp cond_Zopp]. replace (IZR 4503599627370496) with (bpow radix2 52) by (rewrite <- IZR_Zpower by lia; reflexivity).
    rewrite <- bpow_plus. reflexivity. }
  assert (V0 : B (b64_of_bits 0) = 0) by reflexivity.
  assert (O1 : EigenFloatProps.bounded 508 (b64_of_bits bits_one)) by (split; [vm_compute; reflexivity | rewrite V1, Rabs_R1, <- b_0; apply b_le; lia]).
  assert (O2 : EigenFloatProps.bounded 508 (b64_of_bits (bits_pow (-53)))) by (split; [vm_compute; reflexivity | rewrite V2, Rabs_pos_eq by apply bpow_ge_0; rewrite (b_opaque 508); apply bpow_le; lia]).
  assert (O0 : EigenFloatProps.bounded 508 (b64_of_bits 0)) by (split; [reflexivity | rewrite V0, Rabs_R0; apply Rlt_le, b_pos]).
  split; [split; [apply Forall_cons; [exact (conj O0 (conj O0 Z))|]; apply Forall_cons; [exact (conj O1 (conj O0 Z))|]; apply Forall_cons; [exact (conj O1 (conj O2 Z))|apply Forall_nil] | cbn; lia]|].
  pose proof (bpow_gt_0 radix2 (-53)) as P.
  assert (L : bpow radix2 (-500) <= 1) by (change 1 with (bpow radix2 0); apply bpow_le; lia). assert (L' : bpow radix2 (-500) <= bpow radix2 (-53)) by (apply bpow_le; lia).
  cbn [steps_ok steps_from]. split; [|split; [|exact I]]; right; unfold exact3, at_; cbn [ax ay az]; rewrite ?V1, ?V2, ?V0; change (B f_zero) with 0.
  - replace ((1 - 0) ^ 2 + (0 - 0) ^ 2 + (0 - 0) ^ 2) with 1 by ring. rewrite sqrt_1. exact L.
  - replace ((1 - 1) ^ 2 + (bpow radix2 (-53) - 0) ^ 2 + (0 - 0) ^ 2) with (bpow radix2 (-53) * bpow radix2 (-53)) by ring. rewrite sqrt_square by lra. exact L'.
Qed.

Print Assumptions C174_step.
Print Assumptions C174_lists.
Print Assumptions C174_grow.
Print Assumptions C174_error.
Print Assumptions C174_backwards.
Print Assumptions C174_same_refuted.
Print Assumptions C174_backwards_refuted.
