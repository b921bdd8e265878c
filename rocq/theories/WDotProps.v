(** C177: weighted norms and cosines with rounding, for every order of the additions. *)
From Verif Require Import Base VoxelFloat DynGridFloat VoxelMakeModel ChunkFloat InterpFloatProps VecFloatProps AvgFloatProps EigenFloatProps VecDistModel VecDistProps WDotModel.
From Flocq Require Import IEEE754.Bits IEEE754.Binary Core Relative.
From Coq Require Import Reals Lra Psatz Permutation.
Open Scope R_scope.
Local Instance P53r : Prec_gt_0 53 := eq_refl.
Local Instance VEr : Valid_exp (SpecFloat.fexp 53 1024) := BinarySingleNaN.fexp_correct 53 1024 eq_refl.

Notation f_one := VoxelFloat.f_one.
Lemma one_val : B f_one = 1 /\ fin f_one = true. Proof. split; [vm_compute; lra|reflexivity]. Qed.
Lemma minus_one_val : B (f_of_Z (-1)) = -1 /\ fin (f_of_Z (-1)) = true. Proof. split; [vm_compute; lra|reflexivity]. Qed.

(** The clamp: from -1 to 1 whatever is clamped, and -1 for a NaN. *)
Lemma clamp_val r : fin (clamp_cosine r) = true /\ -1 <= B (clamp_cosine r) <= 1 /\
  (fin r = true -> B (clamp_cosine r) = Rmax (-1) (Rmin (B r) 1)) /\ (is_nan 53 1024 r = true -> B (clamp_cosine r) = -1).
Proof.
  destruct one_val as [V1 F1], minus_one_val as [V2 F2]. destruct (fin r) eqn:F.
  - unfold clamp_cosine. cbv zeta.
    assert (M : fin (if f_lt f_one r then f_one else r) = true /\ B (if f_lt f_one r then f_one else r) = Rmin (B r) 1).
    { destruct (f_lt f_one r) eqn:L.
      - apply lt_spec in L; auto. rewrite V1 in *. split; [exact F1|]. rewrite Rmin_right; lra.
      - split; [exact F|]. rewrite Rmin_left; [reflexivity|]. destruct (Rle_or_lt (B r) 1) as [|G]; [assumption|]. assert (f_lt f_one r = true) by (apply lt_spec; auto; lra). congruence. }
    destruct M as [FM VM]. set (m := if f_lt f_one r then f_one else r) in *.
    assert (NN : is_nan 53 1024 r = true -> False) by (destruct r; discriminate).
    assert (MB : B m <= 1) by (rewrite VM; apply Rmin_r).
    destruct (f_lt (f_of_Z (-1)) m) eqn:L.
    + apply lt_spec in L; auto. rewrite V2 in L. split; [exact FM|]. split; [lra|]. split; [intros _; rewrite <- VM, Rmax_right; lra|]. intros N. destruct (NN N).
    + assert (B m <= -1). { destruct (Rle_or_lt (B m) (-1)) as [|G]; [assumption|]. assert (f_lt (f_of_Z (-1)) m = true) by (apply lt_spec; auto; lra). congruence. }
      rewrite V2. split; [exact F2|]. split; [lra|]. split; [intros _; rewrite <- VM, Rmax_left; lra|]. intros N. destruct (NN N).
  - destruct r as [s|s|s pl H|s m e H]; try discriminate F.
    + destruct s.
      * change (clamp_cosine (B754_infinity 53 1024 true)) with (f_of_Z (-1)). rewrite V2. split; [exact F2|]. split; [lra|]. split; intros N; discriminate N.
      * change (clamp_cosine (B754_infinity 53 1024 false)) with f_one. rewrite V1. split; [exact F1|]. split; [lra|]. split; intros N; discriminate N.
    + change (clamp_cosine (B754_nan 53 1024 s pl H)) with (f_of_Z (-1)). rewrite V2. split; [exact F2|]. split; [lra|]. split; [intros N; discriminate N|reflexivity].
Qed.

(** Numbers that are 0 or neither tiny nor huge. *)
Definition usable (x : fl) : Prop := fin x = true /\ (B x = 0 \/ bpow radix2 (-200) <= Rabs (B x) <= bpow radix2 200).
(** A vector with weights that are not negative, at most 2^20 coordinates. *)
Definition tame (v weights : list fl) : Prop :=
  length v = length weights /\ Forall usable v /\ Forall (fun w => usable w /\ 0 <= B w) weights /\ (Z.of_nat (length v) <= 2 ^ 20)%Z.
(** The exact weighted square. *)
Fixpoint exact_square (v weights : list fl) : R := match v, weights with x :: v', w :: r => B w * B x ^ 2 + exact_square v' r | _, _ => 0 end.

Lemma rel z : b (-1022) <= Rabs z -> exists e, Rabs e <= u /\ rndN z = z * (1 + e).
Proof.
  intros BIG. destruct (relative_error_N_FLT_ex radix2 (-1074) 53 eq_refl (fun x => negb (Z.even x)) z BIG) as (e & E & Q). exists e. split; [|exact Q].
  eapply Rle_trans; [exact E|]. right. rewrite bpow_plus. change (bpow radix2 (- (53))) with u. change (bpow radix2 1) with 2. field.
Qed.
(** A product that is 0 or neither tiny nor huge. *)
Lemma prod x y p q : fin x = true -> fin y = true -> (-1000 <= p)%Z -> (q <= 1000)%Z -> B x * B y = 0 \/ b p <= Rabs (B x * B y) <= b q ->
  fin (b64_mult NE x y) = true /\ exists e, Rabs e <= u /\ B (b64_mult NE x y) = B x * B y * (1 + e).
Proof.
  intros FX FY P Q H. assert (L : Rabs (B x * B y) <= b 1000).
  { destruct H as [-> | [_ H]]; [rewrite Rabs_R0; left; apply b_pos|]. eapply Rle_trans; [exact H|apply b_le; lia]. }
  destruct (near_num _ _ 1000 (near_mult x y FX FY) L ltac:(lia)) as (F & V & _). split; [exact F|]. rewrite V. destruct H as [Z | [H _]].
  - exists 0. rewrite Z, Rmult_0_l, Rabs_R0. split; [left; apply b_pos|apply rnd_fmt, fmt_0].
  - apply rel. eapply Rle_trans; [|exact H]. apply b_le. lia.
Qed.
Lemma leaf_ok x w : usable x -> usable w -> 0 <= B w -> square_ok (b64_mult NE (b64_mult NE x w) x) (B w * B x ^ 2).
Proof.
  intros (FX & UX) (FW & UW) W0. change (bpow radix2 (-200)) with (b (-200)) in *. change (bpow radix2 200) with (b 200) in *.
  pose proof u_small as (U0 & U1). pose proof tiny_pos as TP.
  assert (M : forall a c p q p' q', b p <= Rabs a <= b q -> b p' <= Rabs c <= b q' -> b (p + p') <= Rabs (a * c) <= b (q + q')).
  { intros a c p q p' q' [A1 A2] [C1 C2]. rewrite Rabs_mult, !b_add. pose proof (b_pos p). pose proof (b_pos p'). split; apply Rmult_le_compat; lra || apply Rabs_pos. }
  assert (H1 : B x * B w = 0 \/ b (-400) <= Rabs (B x * B w) <= b 400).
  { destruct UX as [->|UX]; [left; ring|]. destruct UW as [->|UW]; [left; ring|]. right. apply (M _ _ (-200)%Z 200%Z (-200)%Z 200%Z UX UW). }
  destruct (prod x w (-400) 400 FX FW ltac:(lia) ltac:(lia) H1) as (F1 & e & E & V1). apply two_sided in E.
  set (t := b64_mult NE x w) in *.
  assert (H2 : B t * B x = 0 \/ b (-601) <= Rabs (B t * B x) <= b 601).
  { destruct H1 as [Z|H1]; [left; rewrite V1, Z; ring|]. destruct UX as [Z|UX]; [left; rewrite Z; ring|]. right. apply (M _ _ (-401)%Z 401%Z (-200)%Z 200%Z); [|exact UX].
    rewrite V1, Rabs_mult, (Rabs_pos_eq (1 + e)) by lra. change 401%Z with (400 + 1)%Z. rewrite b_double.
    assert (HB : b (-400) = 2 * b (-401)) by (change (-400)%Z with (-401 + 1)%Z; apply b_double). pose proof (b_pos (-401)). pose proof (Rabs_pos (B x * B w)). split; nra. }
  destruct (prod t x (-601) 601 F1 FX ltac:(lia) ltac:(lia) H2) as (F2 & e' & E' & V2). apply two_sided in E'.
  set (g := B w * B x ^ 2). assert (G : 0 <= g) by (apply Rmult_le_pos; [exact W0|apply pow2_ge_0]).
  assert (V : B (b64_mult NE t x) = g * ((1 + e) * (1 + e'))) by (rewrite V2, V1; unfold g; ring).
  assert (LO : (1 - u) ^ 3 <= (1 + e) * (1 + e')).
  { apply Rle_trans with ((1 - u) * (1 - u)); [cbn [pow]; nra|]. apply Rmult_le_compat; lra. }
  assert (HI : (1 + e) * (1 + e') <= (1 + u) ^ 3).
  { apply Rle_trans with ((1 + u) * (1 + u)); [apply Rmult_le_compat; lra|cbn [pow]; nra]. }
  split; [exact F2|]. rewrite V. split; [split|split].
  - apply Rmult_le_pos; [exact G|]. apply Rmult_le_pos; lra.
  - rewrite <- V, V2. apply Rle_trans with (Rabs (B t * B x) * 2).
    + eapply Rle_trans; [apply Rle_abs|]. rewrite Rabs_mult, (Rabs_pos_eq (1 + e')) by lra. apply Rmult_le_compat_l; [apply Rabs_pos|lra].
    + assert (Q : Rabs (B t * B x) <= b 601) by (destruct H2 as [->|[_ H2]]; [rewrite Rabs_R0; left; apply b_pos|exact H2]). apply Rle_trans with (b (601 + 1)); [rewrite b_double; lra|apply b_le; lia].
  - rewrite (Rmult_comm _ g). pose proof (Rmult_le_compat_l g _ _ G LO). lra.
  - rewrite (Rmult_plus_distr_l ((1 + u) ^ 3)), (Rmult_comm ((1 + u) ^ 3) g). pose proof (Rmult_le_compat_l g _ _ G HI). assert (0 <= (1 + u) ^ 3 * tiny) by (apply Rmult_le_pos; [apply pow_le; lra|lra]). lra.
Qed.

Section Order.
Variable order : nat -> tree.
Hypothesis once : every_entry_once order.
Variable dbg : bool.

Lemma leaves_ok v : forall weights, length v = length weights -> Forall usable v -> Forall (fun w => usable w /\ 0 <= B w) weights ->
  Forall2 square_ok (products v v weights) (map (fun p => B (snd p) * B (fst p) ^ 2) (combine v weights)) /\
  sumR (map (fun p => B (snd p) * B (fst p) ^ 2) (combine v weights)) = exact_square v weights /\ Forall (fun g => 0 <= g) (map (fun p => B (snd p) * B (fst p) ^ 2) (combine v weights)).
Proof.
  unfold products. induction v as [|x v IH]; intros [|w r] L V W; try discriminate L; [split; [constructor|split; [reflexivity|constructor]]|].
  inversion V; subst. inversion W as [|? ? [W1 W0] W2]; subst. destruct (IH r) as (A & C & D); auto. cbn [combine map fst snd]. split; [constructor; [apply leaf_ok; assumption|exact A]|].
  split; [unfold sumR in *; cbn [fold_right exact_square]; rewrite C; reflexivity|]. constructor; [|exact D]. apply Rmult_le_pos; [exact W0|apply pow2_ge_0].
Qed.
Definition square_result (v weights : list fl) : fl := match products v v weights with [] => f_zero | l => add_up (order (length l)) l end.
Lemma square_runs v weights : length v = length weights -> weighted_squared order dbg v weights = Ok (square_result v weights).
Proof. intros L. unfold weighted_squared, weighted_dot. rewrite (proj2 (Nat.eqb_eq _ _) L), Nat.eqb_refl. reflexivity. Qed.
Lemma square_val v weights : tame v weights -> let n := length v in let s := square_result v weights in
  fin s = true /\ 0 <= B s <= b 1022 /\ (1 - u) ^ (n + 2) * exact_square v weights - INR n * tiny <= B s <= (1 + u) ^ (n + 2) * (exact_square v weights + INR n * tiny).
Proof.
  intros (L & V & W & N) n s. unfold s, square_result. destruct (leaves_ok v weights L V W) as (OK & SE & GP).
  assert (CL : length (products v v weights) = n) by (unfold products; rewrite map_length, !combine_length; lia).
  set (gs := map (fun p => B (snd p) * B (fst p) ^ 2) (combine v weights)) in *.
  assert (LG : length gs = n) by (unfold gs; rewrite map_length, combine_length; lia).
  destruct (products v v weights) as [|p l] eqn:C.
  - cbn in CL. rewrite <- CL. rewrite <- SE. destruct gs as [|g gs']; [|cbn in LG; lia]. cbn [sumR fold_right INR]. split; [reflexivity|]. change (B f_zero) with 0. split; [split; [lra|left; apply b_pos]|]. rewrite Rmult_0_r, Rmult_0_l. split; lra.
  - rewrite <- C in *. rewrite CL. assert (NP : (0 < n)%nat) by (rewrite <- CL, C; cbn; lia). pose proof (once n NP) as PM.
    assert (LN : length (entries_of (order n)) = n) by (rewrite (Permutation_length PM), seq_length; reflexivity).
    assert (SS : sumR (map (fun i => nth i gs 0) (entries_of (order n))) = exact_square v weights).
    { rewrite <- SE. rewrite (sumR_perm _ _ (Permutation_map _ PM)). rewrite <- LG, map_nth_seq. reflexivity. }
    destruct (add_up_ok (products v v weights) gs (order n)) as (F & P & _ & E).
    + lia.
    + exact OK.
    + intros i I. apply (Permutation_in _ PM) in I. apply in_seq in I. lia.
    + rewrite LN. exact N.
    + exact GP.
    + rewrite LN, SS in E. split; [exact F|]. split; [|exact E]. split; [apply P|]. eapply Rle_trans; [apply P|]. rewrite LN. change 1022%Z with (20 + 1002)%Z. rewrite b_add. apply Rmult_le_compat_r; [left; apply b_pos|].
      rewrite INR_IZR_INZ, (b_opaque 20), <- IZR_Zpower by lia. apply IZR_le. change (Zpower radix2 20) with (2 ^ 20)%Z. exact N.
Qed.

(** Weighted squares and norms are numbers, not negative; how far they can be from the exact ones. *)
Theorem C177_norm v weights : tame v weights -> let n := length v in
  exists s d, weighted_squared order dbg v weights = Ok s /\ weighted_norm order dbg v weights = Ok d /\ fin s = true /\ fin d = true /\ 0 <= B s /\ 0 <= B d /\
  (1 - bpow radix2 (-53)) ^ (n + 2) * exact_square v weights - INR n * bpow radix2 (-1075) <= B s <= (1 + bpow radix2 (-53)) ^ (n + 2) * (exact_square v weights + INR n * bpow radix2 (-1075)) /\
  (1 - bpow radix2 (-53)) ^ 2 * B s <= B d ^ 2 <= (1 + bpow radix2 (-53)) ^ 2 * B s.
Proof.
  intros T n. destruct (square_val v weights T) as (F & P & E). fold n in E. exists (square_result v weights), (b64_sqrt NE (square_result v weights)).
  assert (R := square_runs v weights (proj1 T)). destruct (sqrt_val _ F (proj1 P)) as [FS VS].
  split; [exact R|]. split; [unfold weighted_norm; rewrite R; reflexivity|]. split; [exact F|]. split; [exact FS|]. split; [apply P|]. split; [rewrite VS; apply rnd_pos, sqrt_pos|].
  split; [exact E|]. rewrite VS. apply root_rel; [apply fmt_B|apply P].
Qed.
Print Assumptions C177_norm.

(** Vectors of different sizes: an assertion of Eigen fails, and without assertions the behaviour is undefined. *)
Theorem C177_sizes v1 v2 weights : length v1 <> length weights \/ length v2 <> length weights -> weighted_cosine order dbg v1 v2 weights = if dbg then AssertFail else UB.
Proof.
  intros N. unfold weighted_cosine, weighted_norm, weighted_squared, weighted_dot. rewrite !Nat.eqb_refl, !andb_true_r.
  destruct (Nat.eqb_spec (length v1) (length weights)) as [E1|E1]; [|destruct dbg; reflexivity]. cbn [obind].
  destruct (Nat.eqb_spec (length v2) (length weights)) as [E2|E2]; [|destruct dbg; reflexivity]. destruct N; contradiction.
Qed.
(** A cosine that is returned is a number from -1 to 1, whatever the vectors and weights, infinities and NaN among them. *)
Theorem C177_range v1 v2 weights c : weighted_cosine order dbg v1 v2 weights = Ok c -> fin c = true /\ -1 <= B c <= 1.
Proof.
  unfold weighted_cosine. destruct (weighted_norm order dbg v1 weights); cbn [obind]; try discriminate. destruct (weighted_norm order dbg v2 weights); cbn [obind]; try discriminate.
  destruct (_ && _); try discriminate. destruct (weighted_dot order dbg v1 v2 weights); cbn [obind]; try discriminate. intros E. injection E as <-.
  destruct (clamp_val (b64_div NE a1 (b64_mult NE a a0))) as (F & L & _). auto.
Qed.
(** Above 0, as a double. *)
Definition above0 (n : fl) : Prop := n = B754_infinity 53 1024 false \/ (fin n = true /\ 0 < B n).
Lemma above_spec n : f_lt f_zero n = true <-> above0 n.
Proof.
  unfold above0. destruct (fin n) eqn:F.
  - rewrite lt_spec by (auto; reflexivity). change (B f_zero) with 0. split; [auto|]. intros [-> |[_ H]]; [discriminate F|exact H].
  - destruct n as [s|s|s pl H|s m e H]; try discriminate F.
    + destruct s; split; intros Q; try (left; reflexivity); try reflexivity; [discriminate Q|destruct Q as [Q|[Q _]]; discriminate Q].
    + split; intros Q; [discriminate Q|destruct Q as [Q|[Q _]]; discriminate Q].
Qed.
(** Both norms must be above 0: otherwise the assertion fails. *)
Theorem C177_assertion v1 v2 weights : length v1 = length weights -> length v2 = length weights -> exists n1 n2,
  weighted_norm order dbg v1 weights = Ok n1 /\ weighted_norm order dbg v2 weights = Ok n2 /\
  (weighted_cosine order dbg v1 v2 weights = AssertFail <-> dbg = true /\ ~ (above0 n1 /\ above0 n2)) /\
  (dbg = false \/ (above0 n1 /\ above0 n2) -> exists c, weighted_cosine order dbg v1 v2 weights = Ok c).
Proof.
  intros L1 L2. pose proof (square_runs v1 weights L1) as R1. pose proof (square_runs v2 weights L2) as R2. unfold weighted_cosine, weighted_norm. rewrite R1, R2. cbn [obind].
  set (n1 := b64_sqrt NE (square_result v1 weights)). set (n2 := b64_sqrt NE (square_result v2 weights)). exists n1, n2. split; [reflexivity|]. split; [reflexivity|].
  assert (D : exists d, weighted_dot order dbg v1 v2 weights = Ok d).
  { unfold weighted_dot. rewrite (proj2 (Nat.eqb_eq _ _) L1), (proj2 (Nat.eqb_eq (length v1) (length v2))) by congruence. cbn [andb]. eauto. }
  destruct D as [d ->]. cbn [obind]. pose proof (above_spec n1) as A1. pose proof (above_spec n2) as A2.
  destruct dbg; cbn [andb].
  - destruct (f_lt f_zero n1); destruct (f_lt f_zero n2); cbn [negb andb]; (split; [split; [intros Q; try discriminate Q|intros [_ Q]; try reflexivity]|intros [Q|[Q1 Q2]]; try discriminate Q; eauto]); try (split; [reflexivity|]); try tauto.
    all: try (exfalso; apply Q; split; tauto). all: try (intros [Q1 Q2]); try (apply A1 in Q1); try (apply A2 in Q2); discriminate.
  - split; [split; [discriminate|intros [Q _]; discriminate Q]|eauto].
Qed.

Lemma exact_big v : forall weights, length v = length weights -> Forall usable v -> Forall (fun w => usable w /\ 0 <= B w) weights -> 0 < exact_square v weights -> b (-600) <= exact_square v weights.
Proof.
  induction v as [|x v IH]; intros [|w r] L V W P; try discriminate L; [cbn in P; lra|]. inversion V as [|? ? X V']; subst. inversion W as [|? ? [W1 W0] W']; subst. cbn [exact_square] in *.
  assert (NN : 0 <= exact_square v r).
  { clear -W' L. injection L as L. revert r L W'. induction v as [|y v IH]; intros [|z r] L W'; cbn [exact_square]; try lra. inversion W' as [|? ? [_ Z0] Z']; subst. injection L as L. pose proof (IH r L Z'). pose proof (Rmult_le_pos _ _ Z0 (pow2_ge_0 (B y))). lra. }
  destruct (Req_dec (B w * B x ^ 2) 0) as [Z|NZ].
  - rewrite Z in *. rewrite Rplus_0_l in *. apply IH; auto.
  - assert (G : b (-600) <= B w * B x ^ 2); [|lra]. destruct X as (_ & X), W1 as (_ & W1). change (bpow radix2 (-200)) with (b (-200)) in *.
    assert (XN : b (-200) <= Rabs (B x)) by (destruct X as [X|X]; [exfalso; apply NZ; rewrite X; ring|apply X]).
    assert (WN : b (-200) <= B w) by (destruct W1 as [W1|W1]; [exfalso; apply NZ; rewrite W1; ring|rewrite Rabs_pos_eq in W1 by exact W0; apply W1]).
    rewrite <- (pow2_abs (B x)). change (-600)%Z with (-200 + (-200 + -200))%Z. rewrite !b_add. pose proof (b_pos (-200)). apply Rmult_le_compat; [lra|apply Rmult_le_pos; lra|exact WN|]. cbn [pow]. rewrite Rmult_1_r. apply Rmult_le_compat; lra.
Qed.

(** The cosine of a vector with itself is 1 to within 2^-51, whatever the size of the vector. *)
Theorem C177_self v weights : tame v weights -> 0 < exact_square v weights ->
  exists c, weighted_cosine order dbg v v weights = Ok c /\ 1 - bpow radix2 (-51) <= B c <= 1.
Proof.
  intros T S0. destruct (square_val v weights T) as (F & P & (LO & _)). destruct T as (L & V & W & N). pose proof (exact_big v weights L V W S0) as EX.
  pose proof (square_runs v weights L) as R. set (s := square_result v weights) in *. set (n := length v) in *.
  pose proof u_small as (U0 & U1).
  assert (NB : INR n <= b 20) by (rewrite INR_IZR_INZ, (b_opaque 20), <- IZR_Zpower by lia; apply IZR_le; exact N).
  assert (NT : INR n * tiny <= b (-1055)) by (change (-1055)%Z with (20 + -1075)%Z; rewrite b_add; apply Rmult_le_compat_r; [left; apply b_pos|exact NB]).
  assert (HALF : / 2 <= (1 - u) ^ (n + 2)).
  { assert (BN : 1 - INR (n + 2) * u <= (1 - u) ^ (n + 2)).
    { generalize (n + 2)%nat as m. induction m as [|m IH]; [cbn; lra|]. rewrite S_INR. cbn [pow]. assert (M0 := pos_INR m).
      apply Rle_trans with ((1 - u) * (1 - INR m * u)); [|apply Rmult_le_compat_l; lra]. assert (0 <= INR m * u * u) by (apply Rmult_le_pos; [apply Rmult_le_pos|]; lra). lra. }
    eapply Rle_trans; [|exact BN]. rewrite plus_INR. assert (Q : (INR n + INR 2) * u <= / 2).
    { apply Rle_trans with ((b 20 + b 20) * u).
      - apply Rmult_le_compat_r; [lra|]. change (INR 2) with (1 + 1). assert (4 <= b 20) by (replace 4 with (b 2) by (rewrite b_opaque; cbn; lra); apply b_le; lia). lra.
      - rewrite Rmult_plus_distr_r, <- !b_add. replace (/ 2) with (b (-2) + b (-2)) by (rewrite b_opaque; cbn; lra). assert (b (20 + -53) <= b (-2)) by (apply b_le; lia). lra. }
    lra. }
  assert (QB : b (-602) <= B s).
  { apply Rle_trans with (/ 2 * b (-600) - b (-1055)).
    - assert (H1 : b (-600) = 2 * (2 * b (-602))) by (change (-600)%Z with (-602 + 1 + 1)%Z; rewrite !b_double; reflexivity). assert (b (-1055) <= b (-602)) by (apply b_le; lia). lra.
    - assert (/ 2 * b (-600) <= (1 - u) ^ (n + 2) * exact_square v weights) by (apply Rmult_le_compat; [lra|left; apply b_pos|exact HALF|exact EX]). lra. }
  destruct (sqrt_val _ F (proj1 P)) as [FD VD]. set (d := b64_sqrt NE s) in *. pose proof (b_pos (-602)) as BP.
  destruct (root_rel _ (fmt_B s) (proj1 P)) as [RL RH]. rewrite <- VD in RL, RH. set (q := B s) in *.
  assert (D0 : 0 <= B d) by (rewrite VD; apply rnd_pos, sqrt_pos).
  assert (D2 : B d * B d = B d ^ 2) by ring.
  assert (C1 : (1 - u) ^ 2 >= / 2) by nra. assert (C2 : (1 + u) ^ 2 <= 2) by nra.
  assert (DL : / 2 * q <= B d ^ 2) by (eapply Rle_trans; [|exact RL]; apply Rmult_le_compat_r; lra).
  assert (DH : B d ^ 2 <= 2 * q) by (eapply Rle_trans; [exact RH|]; apply Rmult_le_compat_r; lra).
  assert (DP : 0 < B d) by (destruct (Req_dec (B d) 0) as [Z|Z]; [rewrite Z in DL; cbn [pow] in DL; lra|lra]).
  destruct (near_num _ _ 1023 (near_mult d d FD FD)) as (FN & VN & _); [rewrite D2, Rabs_pos_eq by apply pow2_ge_0; change 1023%Z with (1022 + 1)%Z; rewrite b_double; lra|lia|].
  destruct (rel (B d * B d)) as (e1 & E1 & Q1).
  { rewrite D2, Rabs_pos_eq by apply pow2_ge_0. apply Rle_trans with (/ 2 * q); [|exact DL]. apply Rle_trans with (b (-603)); [apply b_le; lia|]. assert (b (-602) = 2 * b (-603)) by (change (-602)%Z with (-603 + 1)%Z; apply b_double). lra. }
  rewrite Q1 in VN. apply two_sided in E1. set (nn := b64_mult NE d d) in *. rewrite D2 in VN.
  assert (NP : 0 < B nn) by (rewrite VN; apply Rmult_lt_0_compat; lra).
  assert (NL : B nn <= (1 + u) ^ 3 * q).
  { rewrite VN. apply Rle_trans with ((1 + u) ^ 2 * q * (1 + u)); [|right; ring]. apply Rmult_le_compat; lra || apply pow2_ge_0. }
  assert (NG : (1 - u) ^ 3 * q <= B nn).
  { rewrite VN. apply Rle_trans with ((1 - u) ^ 2 * q * (1 - u)); [right; ring|]. apply Rmult_le_compat; try lra. apply Rmult_le_pos; [apply pow2_ge_0|lra]. }
  assert (C3 : / 2 <= (1 - u) ^ 3) by (cbn [pow]; nra). assert (C4 : (1 + u) ^ 3 <= 2) by (cbn [pow]; nra).
  assert (QP : 0 < q / B nn) by (apply Rdiv_lt_0_compat; lra).
  assert (QH : q / B nn <= 2). { apply Rmult_le_reg_r with (B nn); [exact NP|]. unfold Rdiv. rewrite Rmult_assoc, Rinv_l, Rmult_1_r by lra. pose proof (Rmult_le_compat_r q _ _ (Rlt_le _ _ (Rlt_le_trans _ _ _ BP QB)) C3). lra. }
  assert (QL : 1 <= (1 + u) ^ 3 * (q / B nn)).
  { apply Rmult_le_reg_r with (B nn); [exact NP|]. unfold Rdiv. rewrite !Rmult_assoc, Rinv_l, Rmult_1_r, Rmult_1_l by lra. exact NL. }
  assert (QL2 : / 2 <= q / B nn) by (pose proof (Rmult_le_compat_r (q / B nn) _ _ (Rlt_le _ _ QP) C4); lra).
  destruct (near_num _ _ 1 (near_div s nn F (Rgt_not_eq _ _ NP))) as (FR & VR & _); [fold q; rewrite Rabs_pos_eq by lra; rewrite b_opaque; change (bpow radix2 1) with 2; exact QH|lia|].
  destruct (rel (q / B nn)) as (e2 & E2 & Q2).
  { rewrite Rabs_pos_eq by lra. apply Rle_trans with (/ 2); [|exact QL2]. replace (/ 2) with (b (-1)) by (rewrite b_opaque; cbn; lra). apply b_le. lia. }
  fold q in VR. rewrite Q2 in VR. apply two_sided in E2.
  exists (clamp_cosine (b64_div NE s nn)). split.
  - unfold weighted_cosine, weighted_norm. rewrite R. cbn [obind]. fold d. assert (PD : f_lt f_zero d = true) by (apply above_spec; right; auto). rewrite PD. cbn [andb negb]. rewrite andb_false_r.
    change (weighted_dot order dbg v v weights) with (weighted_squared order dbg v weights). rewrite R. cbn [obind]. fold nn. reflexivity.
  - destruct (clamp_val (b64_div NE s nn)) as (_ & LC & VC & _). split; [|apply LC]. rewrite (VC FR). eapply Rle_trans; [|apply Rmax_r]. apply Rmin_glb; [|pose proof (bpow_gt_0 radix2 (-51)); lra].
    rewrite VR. replace (bpow radix2 (-51)) with (4 * u) by (change (bpow radix2 (-51)) with (b (-53 + 1 + 1)); rewrite !b_double; ring).
    apply Rle_trans with (q / B nn * (1 - u)); [|apply Rmult_le_compat_l; lra].
    set (z := q / B nn) in *. assert (K : (1 - 4 * u) * (1 + u) ^ 3 <= 1 - u) by (cbn [pow]; nra).
    assert ((1 - 4 * u) * 1 <= (1 - 4 * u) * ((1 + u) ^ 3 * z)) by (apply Rmult_le_compat_l; lra).
    assert ((1 - 4 * u) * (1 + u) ^ 3 * z <= (1 - u) * z) by (apply Rmult_le_compat_r; lra). lra.
Qed.
Print Assumptions C177_self.
(** The exact weighted product of whole numbers. *)
Fixpoint exact_dot (a c w : list Z) : Z := match a, c, w with x :: a', y :: c', z :: w' => (x * y * z + exact_dot a' c' w')%Z | _, _, _ => 0%Z end.
Definition zsum (l : list Z) : Z := fold_right Z.add 0%Z l.
Lemma zsum_perm l m : Permutation l m -> zsum l = zsum m.
Proof. unfold zsum. induction 1; cbn [fold_right]; lia. Qed.
Lemma zsum_app l m : zsum (l ++ m) = (zsum l + zsum m)%Z.
Proof. unfold zsum. induction l as [|x l IH]; [reflexivity|]. cbn [app fold_right]. rewrite IH. ring. Qed.
Lemma znth_seq (zs : list Z) : map (fun i => nth i zs 0%Z) (seq 0 (length zs)) = zs.
Proof. induction zs as [|z zs IH]; [reflexivity|]. cbn [length seq map nth]. f_equal. rewrite <- seq_shift, map_map. exact IH. Qed.
Lemma whole_num f z : nearest f (IZR z) -> (Z.abs z <= 2 ^ 53)%Z -> fin f = true /\ B f = IZR z.
Proof.
  intros N L. destruct (near_num f (IZR z) 53 N) as (F & V & _).
  - rewrite <- abs_IZR, b_opaque, <- IZR_Zpower by lia. apply IZR_le. exact L.
  - lia.
  - split; [exact F|]. rewrite V. apply rnd_fmt, whole_format, L.
Qed.
Definition whole (f : fl) (z : Z) : Prop := fin f = true /\ B f = IZR z /\ (Z.abs z <= 2 ^ 30)%Z.
Lemma whole_leaf x y z : (Z.abs x <= 2 ^ 10)%Z -> (Z.abs y <= 2 ^ 10)%Z -> (Z.abs z <= 2 ^ 10)%Z ->
  whole (b64_mult NE (b64_mult NE (f_of_Z x) (f_of_Z z)) (f_of_Z y)) (x * y * z).
Proof.
  intros X Y Z. destruct (of_Z_whole x ltac:(lia)) as [FX VX]. destruct (of_Z_whole y ltac:(lia)) as [FY VY]. destruct (of_Z_whole z ltac:(lia)) as [FZ VZ].
  assert (P : (Z.abs (x * z) <= 2 ^ 20)%Z) by (rewrite Z.abs_mul; change (2 ^ 20)%Z with (2 ^ 10 * 2 ^ 10)%Z; apply Z.mul_le_mono_nonneg; lia).
  assert (Q : (Z.abs (x * y * z) <= 2 ^ 30)%Z) by (replace (x * y * z)%Z with (x * z * y)%Z by ring; rewrite Z.abs_mul; change (2 ^ 30)%Z with (2 ^ 20 * 2 ^ 10)%Z; apply Z.mul_le_mono_nonneg; lia).
  destruct (whole_num (b64_mult NE (f_of_Z x) (f_of_Z z)) (x * z)) as [F1 V1]; [rewrite mult_IZR, <- VX, <- VZ; apply near_mult; assumption|lia|].
  destruct (whole_num (b64_mult NE (b64_mult NE (f_of_Z x) (f_of_Z z)) (f_of_Z y)) (x * y * z)) as [F2 V2]; [replace (x * y * z)%Z with (x * z * y)%Z by ring; rewrite mult_IZR, <- V1, <- VY; apply near_mult; assumption|lia|].
  split; [exact F2|]. split; [exact V2|exact Q].
Qed.
Lemma whole_tree fs zs t : Forall2 whole fs zs -> (forall i, In i (entries_of t) -> (i < length fs)%nat) -> (Z.of_nat (length (entries_of t)) <= 2 ^ 20)%Z ->
  fin (add_up t fs) = true /\ B (add_up t fs) = IZR (zsum (map (fun i => nth i zs 0%Z) (entries_of t))) /\ (Z.abs (zsum (map (fun i => nth i zs 0%Z) (entries_of t))) <= Z.of_nat (length (entries_of t)) * 2 ^ 30)%Z.
Proof.
  intros OK. induction t as [i|x IHx y IHy]; cbn [entries_of add_up]; intros IN K.
  - assert (I : (i < length fs)%nat) by (apply IN; left; reflexivity). cbn [map zsum fold_right length]. rewrite Z.add_0_r.
    assert (Q : whole (nth i fs f_zero) (nth i zs 0%Z)).
    { clear -OK I. revert i I. induction OK as [|f g fs gs H OK IH]; intros i I; [cbn in I; lia|]. destruct i as [|i]; [exact H|]. cbn [nth]. apply IH. cbn in I. lia. }
    destruct Q as (F & V & L). split; [exact F|]. split; [exact V|]. lia.
  - rewrite app_length, Nat2Z.inj_add in *. rewrite map_app, zsum_app.
    destruct IHx as (F1 & V1 & L1); [intros i I; apply IN, in_or_app; left; exact I|lia|]. destruct IHy as (F2 & V2 & L2); [intros i I; apply IN, in_or_app; right; exact I|lia|].
    set (zx := zsum (map _ (entries_of x))) in *. set (zy := zsum (map _ (entries_of y))) in *.
    destruct (whole_num (b64_plus NE (add_up x fs) (add_up y fs)) (zx + zy)) as [F V]; [rewrite plus_IZR, <- V1, <- V2; apply near_plus; assumption|lia|].
    split; [exact F|]. split; [exact V|]. lia.
Qed.
Definition zproducts (a c w : list Z) : list Z := map (fun p => (fst (fst p) * snd (fst p) * snd p)%Z) (combine (combine a c) w).
Lemma zproducts_sum a : forall c w, zsum (zproducts a c w) = exact_dot a c w.
Proof. induction a as [|x a IH]; intros [|y c] [|z w]; try reflexivity. unfold zproducts, zsum in *. cbn [combine map fold_right exact_dot fst snd]. rewrite IH. reflexivity. Qed.
Definition modest (l : list Z) : Prop := Forall (fun z => (Z.abs z <= 2 ^ 10)%Z) l.
Lemma whole_products a : forall c w, modest a -> modest c -> modest w -> Forall2 whole (products (map f_of_Z a) (map f_of_Z c) (map f_of_Z w)) (zproducts a c w).
Proof.
  unfold modest, products, zproducts. induction a as [|x a IH]; intros [|y c] [|z w] A C W; cbn [combine map]; try constructor.
  - inversion A; inversion C; inversion W; subst. cbn [fst snd]. apply whole_leaf; assumption.
  - inversion A; inversion C; inversion W; subst. apply IH; assumption.
Qed.
(** Weighted products of vectors of whole numbers up to 1024 are exact: every coordinate counts once, with its own weight. *)
Theorem C177_whole_numbers a c w : length a = length w -> length c = length w -> modest a -> modest c -> modest w -> (Z.of_nat (length w) <= 2 ^ 20)%Z ->
  exists d, weighted_dot order dbg (map f_of_Z a) (map f_of_Z c) (map f_of_Z w) = Ok d /\ fin d = true /\ B d = IZR (exact_dot a c w).
Proof.
  intros L1 L2 A C W N. unfold weighted_dot. rewrite !map_length, L1, L2, !Nat.eqb_refl. cbn [andb]. eexists. split; [reflexivity|].
  pose proof (whole_products a c w A C W) as OK. pose proof (zproducts_sum a c w) as SE.
  assert (LZ : length (zproducts a c w) = length w) by (unfold zproducts; rewrite map_length, !combine_length; lia).
  assert (LP : length (products (map f_of_Z a) (map f_of_Z c) (map f_of_Z w)) = length w) by (unfold products; rewrite map_length, !combine_length, !map_length; lia).
  destruct (products (map f_of_Z a) (map f_of_Z c) (map f_of_Z w)) as [|p l] eqn:E.
  - inversion OK as [Q1 Q2|]. rewrite <- SE, <- Q2. split; reflexivity.
  - rewrite <- E in *. rewrite LP. assert (NP : (0 < length w)%nat) by (rewrite <- LP, E; cbn; lia). pose proof (once _ NP) as PM.
    assert (LN : length (entries_of (order (length w))) = length w) by (rewrite (Permutation_length PM), seq_length; reflexivity).
    destruct (whole_tree _ _ (order (length w)) OK) as (F & V & _).
    + intros i I. apply (Permutation_in _ PM) in I. apply in_seq in I. rewrite LP. lia.
    + rewrite LN. exact N.
    + split; [exact F|]. rewrite V, (zsum_perm _ _ (Permutation_map _ PM)), <- LZ, znth_seq, SE. reflexivity.
Qed.
Print Assumptions C177_whole_numbers.
(** The cosine is the weighted product over the product of the norms, clamped, to within 2^-50. *)
Theorem C177_cosine v1 v2 weights d n1 n2 : weighted_dot order dbg v1 v2 weights = Ok d -> weighted_norm order dbg v1 weights = Ok n1 -> weighted_norm order dbg v2 weights = Ok n2 ->
  fin d = true -> fin n1 = true -> fin n2 = true -> 0 < B n1 -> 0 < B n2 -> bpow radix2 (-1000) <= B n1 * B n2 <= bpow radix2 1000 -> Rabs (B d) <= 2 * (B n1 * B n2) ->
  exists c, weighted_cosine order dbg v1 v2 weights = Ok c /\ Rabs (B c - Rmax (-1) (Rmin (B d / (B n1 * B n2)) 1)) <= bpow radix2 (-50).
Proof.
  intros D N1 N2 FD F1 F2 P1 P2 [LO HI] SM. change (bpow radix2 (-1000)) with (b (-1000)) in LO. change (bpow radix2 1000) with (b 1000) in HI.
  pose proof u_small as (U0 & U1). set (z := B n1 * B n2) in *. assert (Z0 : 0 < z) by (apply Rmult_lt_0_compat; assumption).
  destruct (near_num _ _ 1000 (near_mult n1 n2 F1 F2)) as (FN & VN & _); [fold z; rewrite Rabs_pos_eq by lra; exact HI|lia|].
  destruct (rel z) as (e1 & E1 & Q1); [rewrite Rabs_pos_eq by lra; apply Rle_trans with (b (-1000)); [apply b_le; lia|exact LO]|].
  fold z in VN. rewrite Q1 in VN. set (nn := b64_mult NE n1 n2) in *. assert (E1' := E1). apply two_sided in E1'.
  assert (NP : 0 < B nn) by (rewrite VN; apply Rmult_lt_0_compat; lra).
  set (g := B d / z). assert (G : Rabs g <= 2). { unfold g, Rdiv. rewrite Rabs_mult, Rabs_inv, (Rabs_pos_eq z) by lra. apply Rmult_le_reg_r with z; [exact Z0|]. rewrite Rmult_assoc, Rinv_l, Rmult_1_r by lra. exact SM. }
  assert (QE : B d / B nn = g / (1 + e1)) by (rewrite VN; unfold g; field; lra).
  assert (IE : Rabs (/ (1 + e1)) <= 2). { rewrite Rabs_pos_eq by (left; apply Rinv_0_lt_compat; lra). replace 2 with (/ / 2) by lra. apply Rinv_le_contravar; lra. }
  assert (DE : Rabs (g / (1 + e1) - g) <= 4 * u).
  { replace (g / (1 + e1) - g) with (g * e1 * (- / (1 + e1))) by (field; lra). rewrite !Rabs_mult, Rabs_Ropp. apply Rle_trans with (2 * u * 2); [|lra].
    apply Rmult_le_compat; [apply Rmult_le_pos; apply Rabs_pos|apply Rabs_pos|apply Rmult_le_compat; try apply Rabs_pos; assumption|exact IE]. }
  assert (QB : Rabs (g / (1 + e1)) <= 2 + 4 * u) by (apply Rabs_le; apply two_sided in G; apply two_sided in DE; lra).
  destruct (near_num _ _ 2 (near_div d nn FD (Rgt_not_eq _ _ NP))) as (FR & VR & _); [rewrite QE; eapply Rle_trans; [exact QB|]; rewrite (b_opaque 2); change (bpow radix2 2) with 4; lra|lia|].
  assert (RE : Rabs (B (b64_div NE d nn) - g / (1 + e1)) <= 3 * u).
  { rewrite VR, QE. eapply Rle_trans; [apply rnd_err|]. assert (u * Rabs (g / (1 + e1)) <= u * (2 + 4 * u)) by (apply Rmult_le_compat_l; lra). assert (tiny <= u * u) by (rewrite <- b_add; apply b_le; lia). assert (u * u <= u * / 64) by (apply Rmult_le_compat_l; lra). lra. }
  exists (clamp_cosine (b64_div NE d nn)). split.
  - unfold weighted_cosine. rewrite N1, N2. cbn [obind]. rewrite (proj2 (above_spec n1)), (proj2 (above_spec n2)) by (right; auto). cbn [andb negb]. rewrite andb_false_r, D. reflexivity.
  - destruct (clamp_val (b64_div NE d nn)) as (_ & _ & VC & _). rewrite (VC FR). set (r := B (b64_div NE d nn)) in *.
    assert (RG : Rabs (r - g) <= 7 * u) by (apply two_sided in RE; apply two_sided in DE; apply Rabs_le; lra).
    replace (bpow radix2 (-50)) with (8 * u) by (change (bpow radix2 (-50)) with (b (-53 + 1 + 1 + 1)); rewrite !b_double; ring).
    apply two_sided in RG. apply Rabs_le. unfold Rmax, Rmin. destruct (Rle_dec r 1), (Rle_dec g 1); repeat (destruct (Rle_dec (-1) _)); lra.
Qed.
Print Assumptions C177_cosine.
(** Without assertions a vector of zeros has the cosine -1 with every vector whose weighted norm is a number. *)
Lemma zero_like (f : fl) : fin f = true -> B f = 0 -> exists s, f = B754_zero 53 1024 s.
Proof.
  destruct f as [s|s|s pl H|s m e H]; intros F V; try discriminate F; [eauto|]. exfalso. change (B (B754_finite 53 1024 s m e H)) with (F2R (Float radix2 (cond_Zopp s (Zpos m)) e)) in V.
  apply eq_0_F2R in V. destruct s; discriminate V.
Qed.
Lemma zero_products v : forall x weights, Forall (fun y => fin y = true /\ B y = 0) v -> Forall (fun y => fin y = true) x -> Forall (fun y => fin y = true) weights ->
  Forall (fun f => whole f 0) (products v x weights).
Proof.
  unfold products. induction v as [|y v IH]; intros [|c x] [|w r] V X W; cbn [combine map]; try constructor; inversion V as [|? ? [FY Y] V']; inversion X; inversion W; subst.
  - cbn [fst snd]. destruct (whole_num (b64_mult NE y w) 0) as [F1 V1]; [replace (IZR 0) with (B y * B w) by (rewrite Y; ring); apply near_mult; assumption|lia|].
    destruct (whole_num (b64_mult NE (b64_mult NE y w) c) 0) as [F2 V2]; [replace (IZR 0) with (B (b64_mult NE y w) * B c) by (rewrite V1; ring); apply near_mult; assumption|lia|]. split; [exact F2|]. split; [exact V2|cbn; lia].
  - apply IH; assumption.
Qed.
Lemma zero_dot v x weights : length v = length weights -> length x = length weights -> (Z.of_nat (length v) <= 2 ^ 20)%Z ->
  Forall (fun y => fin y = true /\ B y = 0) v -> Forall (fun y => fin y = true) x -> Forall (fun y => fin y = true) weights ->
  exists d, weighted_dot order dbg v x weights = Ok d /\ fin d = true /\ B d = 0.
Proof.
  intros L1 L2 N V X W. unfold weighted_dot. rewrite L1, L2, !Nat.eqb_refl. cbn [andb]. eexists. split; [reflexivity|].
  pose proof (zero_products v x weights V X W) as OK. assert (LP : length (products v x weights) = length weights) by (unfold products; rewrite map_length, !combine_length; lia).
  destruct (products v x weights) as [|p l] eqn:E; [split; reflexivity|]. rewrite <- E in *. rewrite LP. assert (NP : (0 < length weights)%nat) by (rewrite <- LP, E; cbn; lia). pose proof (once _ NP) as PM.
  assert (LN : length (entries_of (order (length weights))) = length weights) by (rewrite (Permutation_length PM), seq_length; reflexivity).
  assert (OK2 : Forall2 whole (products v x weights) (map (fun _ => 0%Z) (products v x weights))) by (clear -OK; induction OK; constructor; assumption).
  destruct (whole_tree _ _ (order (length weights)) OK2) as (F & Q & _).
  - intros i I. apply (Permutation_in _ PM) in I. apply in_seq in I. rewrite LP. lia.
  - rewrite LN, <- L1. exact N.
  - split; [exact F|]. rewrite Q. f_equal. clear. induction (entries_of (order (length weights))) as [|i l IH]; [reflexivity|]. cbn [map]. unfold zsum in *. cbn [fold_right]. rewrite IH, Z.add_0_r.
    generalize (products v x weights) as q. clear. induction i as [|i IH]; intros [|h q]; cbn [map nth]; auto.
Qed.
Theorem C177_zero_vector v x weights n : dbg = false -> length v = length weights -> length x = length weights -> (Z.of_nat (length v) <= 2 ^ 20)%Z ->
  Forall (fun y => fin y = true /\ B y = 0) v -> Forall (fun y => fin y = true) x -> Forall (fun y => fin y = true) weights ->
  weighted_norm order dbg x weights = Ok n -> fin n = true ->
  exists c, weighted_cosine order dbg v x weights = Ok c /\ B c = -1.
Proof.
  intros D L1 L2 N V X W NX FN. destruct (zero_dot v x weights L1 L2 N V X W) as (d & Q & FD & VD).
  assert (VF : Forall (fun y => fin y = true) v) by (eapply Forall_impl; [|exact V]; intros y [F _]; exact F).
  destruct (zero_dot v v weights L1 L1 N V VF W) as (s & Q2 & FS & VS). destruct (sqrt_val s FS ltac:(lra)) as [FR VR]. rewrite VS, sqrt_0, (rnd_fmt 0 fmt_0) in VR.
  destruct (whole_num (b64_mult NE (b64_sqrt NE s) n) 0) as [FP VP]; [replace (IZR 0) with (B (b64_sqrt NE s) * B n) by (rewrite VR; ring); apply near_mult; assumption|lia|].
  exists (clamp_cosine (b64_div NE d (b64_mult NE (b64_sqrt NE s) n))). split.
  - unfold weighted_cosine. unfold weighted_norm at 1, weighted_squared. rewrite Q2. cbn [obind]. rewrite NX. cbn [obind]. rewrite Q, D. reflexivity.
  - destruct (clamp_val (b64_div NE d (b64_mult NE (b64_sqrt NE s) n))) as (_ & _ & _ & C). apply C.
    destruct (zero_like _ FD VD) as [s1 ->]. destruct (zero_like _ FP VP) as [s2 ->]. destruct s1, s2; reflexivity.
Qed.
Print Assumptions C177_zero_vector.
End Order.
Print Assumptions C177_sizes.
Print Assumptions C177_range.
Print Assumptions C177_assertion.

Definition fz (n : Z) : fl := f_of_Z n.
Definition tenth (n : Z) : fl := b64_div NE (f_of_Z n) (f_of_Z 10).
Definition cos_bits (dbg : bool) (v1 v2 w : list fl) : Z := bits_of (weighted_cosine from_left dbg v1 v2 w).
(** The cosine of a vector with itself need not be 1: the vector (1) with the weight 2 gives the number below the number below 1. *)
Theorem C177_self_refuted : exists order v w, every_entry_once order /\ tame v w /\ 0 < exact_square v w /\ bits_of (weighted_cosine order true v v w) = (bits_of_b64 f_one - 2)%Z.
Proof.
  exists from_left, [fz 1], [fz 2]. split; [exact left_once|].
  assert (V1 : B (fz 1) = 1) by (vm_compute; lra). assert (V2 : B (fz 2) = 2) by (vm_compute; lra).
  assert (U : forall x, 1 <= x <= 2 -> bpow radix2 (-200) <= Rabs x <= bpow radix2 200).
  { intros x X. rewrite Rabs_pos_eq by lra. split; [apply Rle_trans with 1; [apply (bpow_le radix2 (-200) 0); lia|lra]|apply Rle_trans with 2; [lra|apply (bpow_le radix2 1 200); lia]]. }
  split; [|split; [cbn [exact_square]; rewrite V1, V2; lra|vm_compute; reflexivity]].
  split; [reflexivity|]. split; [|split; [|cbn; lia]]; (apply Forall_cons; [|apply Forall_nil]).
  - split; [reflexivity|]. right. rewrite V1. apply U. lra.
  - split; [split; [reflexivity|right; rewrite V2; apply U; lra]|rewrite V2; lra].
Qed.
Print Assumptions C177_self_refuted.
(** The two vectors cannot be exchanged: (-5, 9) and (-7, -1) with the weights 0.1 and 0.3. *)
Theorem C177_symmetric_refuted : exists order v1 v2 w, every_entry_once order /\ bits_of (weighted_cosine order true v1 v2 w) <> bits_of (weighted_cosine order true v2 v1 w).
Proof. exists from_left, [fz (-5); fz 9], [fz (-7); fz (-1)], [tenth 1; tenth 3]. split; [exact left_once|]. vm_compute. discriminate. Qed.
Print Assumptions C177_symmetric_refuted.
(** Without assertions a zero vector is opposite to every other: the cosine is -1. *)
Theorem C177_zero_refuted : exists order v1 v2 w, every_entry_once order /\ bits_of (weighted_cosine order true v1 v2 w) = (-1)%Z /\
  bits_of (weighted_cosine order false v1 v2 w) = bits_of_b64 (f_of_Z (-1)).
Proof. exists from_left, [fz 0], [fz 1], [fz 1]. split; [exact left_once|]. split; vm_compute; reflexivity. Qed.
Print Assumptions C177_zero_refuted.

(** A case of whole numbers, added from the right. *)
Example whole_case : modest [1; -2; 3]%Z /\ modest [4; 5; -6]%Z /\ modest [1; 2; 3]%Z /\ exact_dot [1; -2; 3]%Z [4; 5; -6]%Z [1; 2; 3]%Z = (-70)%Z /\ every_entry_once (fun n => from_right 0 (n - 1)) /\
  bits_of (weighted_dot (fun n => from_right 0 (n - 1)) true (map f_of_Z [1; -2; 3]%Z) (map f_of_Z [4; 5; -6]%Z) (map f_of_Z [1; 2; 3]%Z)) = bits_of_b64 (f_of_Z (-70)).
Proof. unfold modest. repeat (split; [first [exact right_once | reflexivity | repeat constructor; cbn; lia]|]). vm_compute. reflexivity. Qed.

(** (3, 4) and (4, 3) with the weights 1: both norms are 5, the product is 24, and the cosine is the double nearest to 24/25. *)
Example cosine_case : bits_of (weighted_norm from_left true [fz 3; fz 4] [fz 1; fz 1]) = bits_of_b64 (fz 5) /\ bits_of (weighted_norm from_left true [fz 4; fz 3] [fz 1; fz 1]) = bits_of_b64 (fz 5) /\
  bits_of (weighted_dot from_left true [fz 3; fz 4] [fz 4; fz 3] [fz 1; fz 1]) = bits_of_b64 (fz 24) /\
  cos_bits true [fz 3; fz 4] [fz 4; fz 3] [fz 1; fz 1] = bits_of_b64 (b64_div NE (fz 24) (fz 25)) /\ B (fz 5) = 5 /\ B (fz 24) = 24 /\
  bpow radix2 (-1000) <= 5 * 5 <= bpow radix2 1000 /\ Rabs 24 <= 2 * (5 * 5).
Proof.
  repeat (split; [vm_compute; reflexivity|]). split; [vm_compute; lra|]. split; [vm_compute; lra|]. split; [split|rewrite Rabs_pos_eq; lra].
  - apply Rle_trans with 1; [apply (bpow_le radix2 (-1000) 0); lia|lra].
  - apply Rle_trans with 32; [lra|apply (bpow_le radix2 5 1000); lia].
Qed.
