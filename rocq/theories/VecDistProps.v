(** C176: distances of vectors of any size with rounding, for every order of the additions. *)
From Verif Require Import Base VoxelFloat ChunkFloat VoxelMakeModel InterpFloatProps VecFloatProps AvgFloatProps EigenFloatProps VecDistModel.
From Flocq Require Import IEEE754.Bits IEEE754.Binary Core Relative.
From Coq Require Import Reals Lra Psatz Permutation.
Open Scope R_scope.
Local Instance P53q : Prec_gt_0 53 := eq_refl.
Local Instance VEq : Valid_exp (SpecFloat.fexp 53 1024) := BinarySingleNaN.fexp_correct 53 1024 eq_refl.
Notation u := (b (-53)).
Notation tiny := (b (-1075)).

Fixpoint entries_of (t : tree) : list nat := match t with Entry i => [i] | Plus a c => entries_of a ++ entries_of c end.
(** Every entry is added once. *)
Definition every_entry_once (order : nat -> tree) : Prop := forall n, (0 < n)%nat -> Permutation (entries_of (order n)) (seq 0 n).
(** The exact square of the distance. *)
Fixpoint exact (v w : list fl) : R := match v, w with x :: v', y :: w' => (B y - B x) ^ 2 + exact v' w' | _, _ => 0 end.
(** Coordinates of at most 2^500, and at most 2^20 of them. *)
Definition moderate (v : list fl) : Prop := Forall (fun x => fin x = true /\ Rabs (B x) <= bpow radix2 500) v /\ (Z.of_nat (length v) <= 2 ^ 20)%Z.

Definition sumR (l : list R) : R := fold_right Rplus 0 l.
Lemma sumR_app l m : sumR (l ++ m) = sumR l + sumR m.
Proof. unfold sumR. induction l as [|x l IH]; cbn [app fold_right]; [ring|]. rewrite IH. ring. Qed.
Lemma sumR_perm l m : Permutation l m -> sumR l = sumR m.
Proof. unfold sumR. induction 1; cbn [fold_right]; lra. Qed.
Lemma map_nth_seq {A} (l : list A) z : map (fun i => nth i l z) (seq 0 (length l)) = l.
Proof.
  induction l as [|x l IH]; [reflexivity|]. cbn [length seq map nth]. f_equal. rewrite <- seq_shift, map_map. exact IH.
Qed.

(** What is added up: squares [f] of the exact squares [g]. *)
Definition square_ok (f : fl) (g : R) : Prop := fin f = true /\ 0 <= B f <= b 1002 /\ (1 - u) ^ 3 * g - tiny <= B f <= (1 + u) ^ 3 * (g + tiny).
Lemma fmt_times k : (0 <= k < 2 ^ 53)%Z -> fmt64 (IZR k * b 1002).
Proof.
  intros K. apply (generic_format_FLT radix2 (-1074) 53). apply (FLT_spec radix2 (-1074) 53 _ (Float radix2 k 1002)); cbn [Fnum Fexp]; [rewrite (b_opaque 1002); reflexivity | rewrite Z.abs_eq by lia; change (radix2 ^ 53)%Z with (2 ^ 53)%Z; lia | lia].
Qed.
Lemma size_pos t : (0 < length (entries_of t))%nat.
Proof. induction t; cbn [entries_of]; [cbn; lia|]. rewrite app_length. lia. Qed.
Lemma add_up_ok fs gs t : length fs = length gs -> Forall2 square_ok fs gs -> (forall i, In i (entries_of t) -> (i < length fs)%nat) ->
  let k := length (entries_of t) in let S := sumR (map (fun i => nth i gs 0) (entries_of t)) in (Z.of_nat k <= 2 ^ 20)%Z -> Forall (fun g => 0 <= g) gs ->
  fin (add_up t fs) = true /\ 0 <= B (add_up t fs) <= INR k * b 1002 /\ 0 <= S /\
  (1 - u) ^ (k + 2) * S - INR k * tiny <= B (add_up t fs) <= (1 + u) ^ (k + 2) * (S + INR k * tiny).
Proof.
  intros LE OK. induction t as [i|a IHa c IHc]; cbn [entries_of add_up]; intros IN; cbv zeta; intros K GP.
  - cbn [length map sumR fold_right]. assert (I : (i < length fs)%nat) by (apply IN; left; reflexivity).
    assert (Q : square_ok (nth i fs f_zero) (nth i gs 0)).
    { clear -OK I LE. revert i I. induction OK as [|f g fs gs H OK IH]; intros i I; [cbn in I; lia|]. destruct i as [|i]; [exact H|]. cbn [nth]. apply IH; cbn in *; lia. }
    destruct Q as (F & P & E). assert (G : 0 <= nth i gs 0) by (rewrite Forall_forall in GP; apply GP, nth_In; lia).
    change (INR 1) with 1. rewrite !Rmult_1_l, Rplus_0_r. change (1 + 2)%nat with 3%nat. split; [exact F|]. repeat split; lra.
  - rewrite app_length in *. pose proof (size_pos a) as SA. pose proof (size_pos c) as SC.
    destruct IHa as (FA & PA & GA & EA); [intros i I; apply IN, in_or_app; left; exact I|lia|exact GP|].
    destruct IHc as (FC & PC & GC & EC); [intros i I; apply IN, in_or_app; right; exact I|lia|exact GP|].
    rewrite map_app, sumR_app. set (ka := length (entries_of a)) in *. set (kc := length (entries_of c)) in *.
    set (Sa := sumR (map (fun i => nth i gs 0) (entries_of a))) in *. set (Sc := sumR (map (fun i => nth i gs 0) (entries_of c))) in *.
    set (x := add_up a fs) in *. set (y := add_up c fs) in *. pose proof (b_pos 1002) as B0.
    assert (L : B x + B y <= INR (ka + kc) * b 1002) by (rewrite plus_INR; lra).
    assert (T : INR (ka + kc) * b 1002 <= b 1022).
    { change 1022%Z with (20 + 1002)%Z. rewrite b_add. apply Rmult_le_compat_r; [lra|]. rewrite INR_IZR_INZ, (b_opaque 20), <- IZR_Zpower by lia. apply IZR_le. change (Zpower radix2 20) with (2 ^ 20)%Z. lia. }
    destruct (near_num _ _ 1022 (near_plus x y FA FC)) as (F & V & _); [rewrite Rabs_pos_eq; lra|lia|].
    split; [exact F|]. rewrite V. split.
    { split; [apply rnd_pos; lra|]. rewrite INR_IZR_INZ in *. rewrite <- (rnd_fmt _ (fmt_times (Z.of_nat (ka + kc)) ltac:(lia))). apply rnd_le. exact L. }
    split; [lra|]. destruct (add_err (B x) (B y) (fmt_B x) (fmt_B y) ltac:(lra)) as [LO HI].
    pose proof u_small as (U0 & U1). pose proof tiny_pos as TP. rewrite plus_INR. assert (NA := pos_INR ka). assert (NC := pos_INR kc).
    split.
    + eapply Rle_trans; [|exact LO].
      assert (LA : (1 - u) ^ (ka + kc + 2) <= (1 - u) * (1 - u) ^ (ka + 2)).
      { change ((1 - u) * (1 - u) ^ (ka + 2)) with ((1 - u) ^ S (ka + 2)). replace (ka + kc + 2)%nat with ((kc - 1) + Datatypes.S (ka + 2))%nat by lia. rewrite pow_add. rewrite <- (Rmult_1_l ((1 - u) ^ S (ka + 2))) at 2.
        apply Rmult_le_compat_r; [apply pow_le; lra|]. apply Rle_trans with (1 ^ (kc - 1)); [apply pow_incr; lra|rewrite pow1; lra]. }
      assert (LC : (1 - u) ^ (ka + kc + 2) <= (1 - u) * (1 - u) ^ (kc + 2)).
      { change ((1 - u) * (1 - u) ^ (kc + 2)) with ((1 - u) ^ S (kc + 2)). replace (ka + kc + 2)%nat with ((ka - 1) + Datatypes.S (kc + 2))%nat by lia. rewrite pow_add. rewrite <- (Rmult_1_l ((1 - u) ^ S (kc + 2))) at 2.
        apply Rmult_le_compat_r; [apply pow_le; lra|]. apply Rle_trans with (1 ^ (ka - 1)); [apply pow_incr; lra|rewrite pow1; lra]. }
      apply Rle_trans with ((1 - u) * ((1 - u) ^ (ka + 2) * Sa - INR ka * tiny + ((1 - u) ^ (kc + 2) * Sc - INR kc * tiny))); [|apply Rmult_le_compat_l; lra].
      pose proof (Rmult_le_compat_r Sa _ _ GA LA). pose proof (Rmult_le_compat_r Sc _ _ GC LC).
      assert (0 <= INR ka * tiny) by (apply Rmult_le_pos; lra). assert (0 <= INR kc * tiny) by (apply Rmult_le_pos; lra). nra.
    + eapply Rle_trans; [exact HI|].
      assert (LA : (1 + u) * (1 + u) ^ (ka + 2) <= (1 + u) ^ (ka + kc + 2)).
      { change ((1 + u) * (1 + u) ^ (ka + 2)) with ((1 + u) ^ S (ka + 2)). apply Rle_pow; [lra|lia]. }
      assert (LC : (1 + u) * (1 + u) ^ (kc + 2) <= (1 + u) ^ (ka + kc + 2)).
      { change ((1 + u) * (1 + u) ^ (kc + 2)) with ((1 + u) ^ S (kc + 2)). apply Rle_pow; [lra|lia]. }
      apply Rle_trans with ((1 + u) * ((1 + u) ^ (ka + 2) * (Sa + INR ka * tiny) + (1 + u) ^ (kc + 2) * (Sc + INR kc * tiny))); [apply Rmult_le_compat_l; lra|].
      assert (0 <= INR ka * tiny) by (apply Rmult_le_pos; lra). assert (0 <= INR kc * tiny) by (apply Rmult_le_pos; lra).
      assert (PA' : 0 <= Sa + INR ka * tiny) by lra. assert (PC' : 0 <= Sc + INR kc * tiny) by lra.
      pose proof (Rmult_le_compat_r _ _ _ PA' LA). pose proof (Rmult_le_compat_r _ _ _ PC' LC). lra.
Qed.

Lemma sqR_bound' x : Rabs x <= b 501 -> sqR x <= b 1002.
Proof.
  intros H. unfold sqR. rewrite <- (rnd_fmt (b 1002)) by (apply fmt_b; lia). apply rnd_le. pose proof (rnd_abs x (b 501) ltac:(apply fmt_b; lia) H) as Q.
  apply two_sided in Q. replace (b 1002) with (b 501 * b 501) by (rewrite <- b_add; reflexivity). nra.
Qed.
Definition small (x : fl) : Prop := fin x = true /\ Rabs (B x) <= bpow radix2 500.
Definition square_of (p : fl * fl) : fl := let d := b64_minus NE (snd p) (fst p) in b64_mult NE d d.
Lemma square_val x y : small x -> small y -> square_ok (square_of (x, y)) ((B y - B x) ^ 2) /\ B (square_of (x, y)) = sqR (B y - B x).
Proof.
  intros (FX & LX) (FY & LY). change (bpow radix2 500) with (b 500) in LX, LY. assert (L5 : b 500 <= b 508) by (apply b_le; lia).
  destruct (coordinate x y) as (F & V & _); [split; [exact FX|lra]|split; [exact FY|lra]|]. cbv zeta in F, V. unfold square_of. cbn [fst snd].
  split; [|exact V]. split; [exact F|]. rewrite V. split.
  - split; [apply sqR_pos|]. apply sqR_bound'. change 501%Z with (500 + 1)%Z. rewrite b_double. unfold Rminus. eapply Rle_trans; [apply Rabs_triang|]. rewrite Rabs_Ropp. lra.
  - destruct (sqR_err (B x) (B y) (fmt_B x) (fmt_B y)) as [A C]. split; [exact A|]. pose proof u_small as (U0 & U1). pose proof tiny_pos as TP.
    assert (1 <= (1 + u) ^ 3) by (apply pow_R1_Rle; lra). rewrite Rmult_plus_distr_l. assert (1 * tiny <= (1 + u) ^ 3 * tiny) by (apply Rmult_le_compat_r; lra). lra.
Qed.
Lemma squares_ok v : forall w, length v = length w -> Forall small v -> Forall small w ->
  Forall2 square_ok (map square_of (combine v w)) (map (fun p => (B (snd p) - B (fst p)) ^ 2) (combine v w)) /\ sumR (map (fun p => (B (snd p) - B (fst p)) ^ 2) (combine v w)) = exact v w.
Proof.
  induction v as [|x v IH]; intros [|y w] L V W; try discriminate L; [split; [constructor|reflexivity]|].
  inversion V; subst. inversion W; subst. destruct (IH w) as [A C]; auto. cbn [combine map]. split; [constructor; [apply square_val; assumption|exact A]|].
  unfold sumR in *. cbn [fold_right exact fst snd]. rewrite C. reflexivity.
Qed.

Section Order.
Variable order : nat -> tree.
Hypothesis once : every_entry_once order.
Variable dbg : bool.

(** Vectors of different sizes: an assertion fails, and without assertions the behaviour is undefined. *)
Theorem C176_sizes v w : length v <> length w ->
  squared_distance order dbg v w = (if dbg then AssertFail else UB) /\ distance order dbg v w = (if dbg then AssertFail else UB).
Proof.
  intros N. unfold squared_distance, distance, difference. destruct (Nat.eqb_spec (length v) (length w)); [contradiction|]. destruct dbg; split; reflexivity.
Qed.

Lemma norm_map v w : squared_norm order (map (fun p => b64_minus NE (snd p) (fst p)) (combine v w)) = match combine v w with [] => f_zero | l => add_up (order (length l)) (map square_of l) end.
Proof. unfold squared_norm. destruct (combine v w) as [|p l]; [reflexivity|]. cbn [map]. rewrite map_map. cbn [length]. rewrite map_length. reflexivity. Qed.

Definition norm_of (v w : list fl) : fl := match combine v w with [] => f_zero | l => add_up (order (length l)) (map square_of l) end.
Lemma runs v w : length v = length w -> squared_distance order dbg v w = Ok (norm_of v w) /\ distance order dbg v w = Ok (b64_sqrt NE (norm_of v w)).
Proof.
  intros L. unfold squared_distance, distance, difference. rewrite (proj2 (Nat.eqb_eq _ _) L). cbn [negb andb obind]. rewrite norm_map. split; reflexivity.
Qed.
Lemma exact_pos v : forall w, 0 <= exact v w.
Proof. induction v as [|x v IH]; intros [|y w]; cbn [exact]; try lra. pose proof (pow2_ge_0 (B y - B x)). pose proof (IH w). lra. Qed.

Lemma norm_ok v w : length v = length w -> moderate v -> moderate w -> let n := length v in
  fin (norm_of v w) = true /\ 0 <= B (norm_of v w) /\
  (1 - u) ^ (n + 2) * exact v w - INR n * tiny <= B (norm_of v w) <= (1 + u) ^ (n + 2) * (exact v w + INR n * tiny).
Proof.
  intros L [V N] [W _] n. unfold norm_of. destruct (squares_ok v w L V W) as [OK SE].
  pose proof (combine_length v w) as CL. rewrite <- L, Nat.min_id in CL. fold n in CL.
  destruct (combine v w) as [|p l] eqn:C.
  - cbn in CL. rewrite <- CL. rewrite <- SE. cbn. split; [reflexivity|]. split; [lra|]. rewrite !Rmult_1_r. split; lra.
  - rewrite <- C in *. rewrite CL. assert (NP : (0 < n)%nat) by (rewrite <- CL, C; cbn; lia). pose proof (once n NP) as PM.
    assert (LN : length (entries_of (order n)) = n) by (rewrite (Permutation_length PM), seq_length; reflexivity).
    set (gs := map (fun p => (B (snd p) - B (fst p)) ^ 2) (combine v w)) in *.
    assert (LG : length gs = n) by (unfold gs; rewrite map_length; exact CL).
    assert (SS : sumR (map (fun i => nth i gs 0) (entries_of (order n))) = exact v w).
    { rewrite <- SE. rewrite (sumR_perm _ _ (Permutation_map _ PM)). rewrite <- LG, map_nth_seq. reflexivity. }
    destruct (add_up_ok (map square_of (combine v w)) gs (order n)) as (F & P & _ & E).
    + rewrite map_length. lia.
    + exact OK.
    + intros i I. apply (Permutation_in _ PM) in I. apply in_seq in I. rewrite map_length. lia.
    + rewrite LN. exact N.
    + unfold gs. apply Forall_forall. intros g I. apply in_map_iff in I as (q & <- & _). apply pow2_ge_0.
    + rewrite LN, SS in E. split; [exact F|]. split; [apply P|exact E].
Qed.

Lemma root_rel a : fmt64 a -> 0 <= a -> (1 - u) ^ 2 * a <= rndN (sqrt a) ^ 2 <= (1 + u) ^ 2 * a.
Proof.
  intros FA A. destruct (Req_dec a 0) as [->|NZ]; [rewrite sqrt_0, (rnd_fmt 0 fmt_0); lra|].
  assert (BIG : b (-1022) <= Rabs (sqrt a)).
  { rewrite Rabs_pos_eq by apply sqrt_pos. assert (G : b (-1074) <= a).
    { pose proof (generic_format_ge_bpow radix2 (SpecFloat.fexp 53 1024) (-1074)) as G. apply G; [|lra|exact FA]. intros e. unfold SpecFloat.fexp, SpecFloat.emin. lia. }
    apply Rle_trans with (sqrt (b (-1074))); [|apply sqrt_le_1_alt, G]. replace (b (-1074)) with (b (-537) * b (-537)) by (rewrite <- b_add; reflexivity).
    rewrite sqrt_square by (left; apply b_pos). apply b_le. lia. }
  destruct (relative_error_N_FLT_ex radix2 (-1074) 53 eq_refl (fun x => negb (Z.even x)) (sqrt a) BIG) as (e & E & Q).
  change (FLT_exp (-1074) 53) with (SpecFloat.fexp 53 1024) in Q. rewrite Q.
  assert (E' : Rabs e <= u).
  { eapply Rle_trans; [exact E|]. right. rewrite bpow_plus. change (bpow radix2 (- (53))) with u. change (bpow radix2 1) with 2. field. }
  apply two_sided in E'. pose proof u_small as (U0 & U1). rewrite Rpow_mult_distr, pow2_sqrt by exact A.
  assert ((1 - u) ^ 2 <= (1 + e) ^ 2 <= (1 + u) ^ 2) by nra. rewrite !(Rmult_comm _ a). split; apply Rmult_le_compat_l; lra.
Qed.

(** The results are numbers, not negative; how far they can be from the exact ones. *)
Theorem C176_error v w : length v = length w -> moderate v -> moderate w -> let n := length v in
  exists s d, squared_distance order dbg v w = Ok s /\ distance order dbg v w = Ok d /\ fin s = true /\ fin d = true /\ 0 <= B s /\ 0 <= B d /\
  (1 - bpow radix2 (-53)) ^ (n + 2) * exact v w - INR n * bpow radix2 (-1075) <= B s <= (1 + bpow radix2 (-53)) ^ (n + 2) * (exact v w + INR n * bpow radix2 (-1075)) /\
  (1 - bpow radix2 (-53)) ^ (n + 4) * exact v w - INR n * bpow radix2 (-1075) <= B d ^ 2 <= (1 + bpow radix2 (-53)) ^ (n + 4) * (exact v w + INR n * bpow radix2 (-1075)).
Proof.
  intros L V W n. destruct (runs v w L) as [E1 E2]. destruct (norm_ok v w L V W) as (F & P & LO & HI). fold n in LO, HI.
  exists (norm_of v w), (b64_sqrt NE (norm_of v w)). destruct (sqrt_val _ F P) as [FS VS].
  split; [exact E1|]. split; [exact E2|]. split; [exact F|]. split; [exact FS|]. split; [exact P|]. split; [rewrite VS; apply rnd_pos, sqrt_pos|].
  change (bpow radix2 (-53)) with u. change (bpow radix2 (-1075)) with tiny. split; [split; assumption|]. rewrite VS. destruct (root_rel _ (fmt_B (norm_of v w)) P) as [RL RH].
  pose proof u_small as (U0 & U1). pose proof tiny_pos as TP. assert (NT : 0 <= INR n * tiny) by (apply Rmult_le_pos; [apply pos_INR|lra]).
  replace (n + 4)%nat with (2 + (n + 2))%nat by lia. rewrite !pow_add. split.
  - eapply Rle_trans; [|exact RL]. apply Rle_trans with ((1 - u) ^ 2 * ((1 - u) ^ (n + 2) * exact v w - INR n * tiny)); [|apply Rmult_le_compat_l; [apply pow2_ge_0|exact LO]].
    assert (Q : (1 - u) ^ 2 <= 1) by nra. rewrite pow_add. set (z := INR n * tiny) in *. set (y := (1 - u) ^ n * (1 - u) ^ 2 * exact v w). set (q := (1 - u) ^ 2) in *.
    assert (q * z <= 1 * z) by (apply Rmult_le_compat_r; lra). replace (q * ((1 - u) ^ n * q) * exact v w) with (q * y) by (unfold y; ring). lra.
  - eapply Rle_trans; [exact RH|]. rewrite <- pow_add, Rmult_assoc. apply Rmult_le_compat_l; [apply pow2_ge_0|exact HI].
Qed.
Print Assumptions C176_error.

Lemma square_sign x y : small x -> small y -> Bsign 53 1024 (square_of (x, y)) = false.
Proof.
  intros X Y. destruct (square_val x y X Y) as ((F & _) & _). revert F. unfold square_of. cbn [fst snd]. set (d := b64_minus NE y x). intros F.
  destruct X as (FX & LX), Y as (FY & LY). change (bpow radix2 500) with (b 500) in LX, LY.
  destruct (near_num _ _ 501 (near_minus y x FY FX)) as (FD & _); [change 501%Z with (500 + 1)%Z; rewrite b_double; unfold Rminus; eapply Rle_trans; [apply Rabs_triang|]; rewrite Rabs_Ropp; lra|lia|]. fold d in FD.
  pose proof (Bmult_correct 53 1024 eq_refl eq_refl binop_nan_pl64 NE d d) as H. change (Bmult 53 1024 eq_refl eq_refl binop_nan_pl64 NE d d) with (b64_mult NE d d) in H.
  destruct (Rlt_bool _ _).
  - destruct H as (_ & _ & S). rewrite S; [destruct (Bsign _ _ d); reflexivity|]. destruct (b64_mult NE d d); try discriminate F; reflexivity.
  - destruct (b64_mult NE d d); try discriminate F; cbn in H; destruct (xorb _ _); discriminate H.
Qed.
Lemma square_swap x y : small x -> small y -> square_of (x, y) = square_of (y, x).
Proof.
  intros X Y. destruct (square_val x y X Y) as ((F & _) & V). destruct (square_val y x Y X) as ((F' & _) & V').
  apply B2R_Bsign_inj; auto; [|rewrite !square_sign by assumption; reflexivity]. rewrite V, V', (sqR_abs (B y - B x)), (sqR_abs (B x - B y)), Rabs_minus_sym. reflexivity.
Qed.
Lemma squares_swap v : forall w, length v = length w -> Forall small v -> Forall small w -> map square_of (combine v w) = map square_of (combine w v).
Proof.
  induction v as [|x v IH]; intros [|y w] L V W; try discriminate L; [reflexivity|]. inversion V; subst. inversion W; subst. cbn [combine map]. f_equal; [apply square_swap; assumption|apply IH; auto].
Qed.
(** The results are the same, bit by bit, in both directions. *)
Theorem C176_symmetric v w : length v = length w -> moderate v -> moderate w ->
  squared_distance order dbg v w = squared_distance order dbg w v /\ distance order dbg v w = distance order dbg w v.
Proof.
  intros L [V _] [W _]. destruct (runs v w L) as [-> ->]. destruct (runs w v (eq_sym L)) as [-> ->].
  assert (E : norm_of v w = norm_of w v).
  { unfold norm_of. pose proof (squares_swap v w L V W) as S. pose proof (f_equal (@length _) S) as SL. rewrite !map_length in SL.
    destruct (combine v w) as [|p l]; destruct (combine w v) as [|q m]; try discriminate SL; [reflexivity|]. rewrite S, SL. reflexivity. }
  rewrite E. split; reflexivity.
Qed.
Print Assumptions C176_symmetric.

Lemma add_zeros fs t : Forall (fun f => fin f = true /\ B f = 0) fs -> fin (add_up t fs) = true /\ B (add_up t fs) = 0.
Proof.
  intros Z. induction t as [i|a [FA VA] c [FC VC]]; cbn [add_up].
  - destruct (Nat.lt_ge_cases i (length fs)) as [I|I]; [rewrite Forall_forall in Z; apply Z, nth_In, I|]. rewrite nth_overflow by exact I. split; reflexivity.
  - destruct (near_num _ _ 0 (near_plus _ _ FA FC)) as (F & V & _); [rewrite VA, VC, Rplus_0_r, Rabs_R0; left; apply b_pos|lia|]. split; [exact F|].
    rewrite V, VA, VC, Rplus_0_r. apply rnd_fmt, fmt_0.
Qed.
(** A vector has distance 0 from itself. *)
Theorem C176_zero v : moderate v -> exists s d, squared_distance order dbg v v = Ok s /\ distance order dbg v v = Ok d /\ B s = 0 /\ B d = 0.
Proof.
  intros [V _]. destruct (runs v v eq_refl) as [E1 E2]. exists (norm_of v v), (b64_sqrt NE (norm_of v v)). split; [exact E1|]. split; [exact E2|].
  assert (Z : fin (norm_of v v) = true /\ B (norm_of v v) = 0).
  { unfold norm_of. assert (A : Forall (fun f => fin f = true /\ B f = 0) (map square_of (combine v v))).
    { clear -V. induction V as [|x v X V IH]; cbn [combine map]; constructor; [|exact IH]. destruct (square_val x x X X) as ((F & _) & E). split; [exact F|]. rewrite E. replace (B x - B x) with 0 by ring. apply sqR_0. }
    destruct (combine v v) as [|p l]; [split; reflexivity|]. apply add_zeros, A. }
  destruct Z as [F Z]. split; [exact Z|]. destruct (sqrt_val _ F) as [_ ->]; [lra|]. rewrite Z, sqrt_0. apply rnd_fmt, fmt_0.
Qed.
Print Assumptions C176_zero.
(** Vectors that are 2^-500 or more apart have a distance other than 0. *)
Theorem C176_apart v w : length v = length w -> moderate v -> moderate w -> bpow radix2 (-500) <= sqrt (exact v w) ->
  exists s d, squared_distance order dbg v w = Ok s /\ distance order dbg v w = Ok d /\ 0 < B s /\ 0 < B d.
Proof.
  intros L V W FAR. destruct (C176_error v w L V W) as (s & d & E1 & E2 & _ & _ & S0 & D0 & (LS & _) & (LD & _)). exists s, d. split; [exact E1|]. split; [exact E2|].
  set (n := length v) in *. change (bpow radix2 (-53)) with u in *. change (bpow radix2 (-1075)) with tiny in *. change (bpow radix2 (-500)) with (b (-500)) in *.
  assert (EX : b (-1000) <= exact v w).
  { rewrite <- (pow2_sqrt (exact v w)) by apply exact_pos. change (-1000)%Z with (-500 + -500)%Z. rewrite b_add. pose proof (b_pos (-500)). cbn [pow]. rewrite Rmult_1_r. apply Rmult_le_compat; lra. }
  assert (NB : INR n <= b 20).
  { rewrite INR_IZR_INZ, (b_opaque 20), <- IZR_Zpower by lia. apply IZR_le. change (Zpower radix2 20) with (2 ^ 20)%Z. apply V. }
  assert (NT : INR n * tiny <= b (-1055)).
  { change (-1055)%Z with (20 + -1075)%Z. rewrite b_add. apply Rmult_le_compat_r; [left; apply b_pos|exact NB]. }
  assert (HALF : forall k, (k <= 4)%nat -> / 2 <= (1 - u) ^ (n + k)).
  { intros k K4. pose proof u_small as (U0 & U1). assert (BN : 1 - INR (n + k) * u <= (1 - u) ^ (n + k)).
    { generalize (n + k)%nat as m. induction m as [|m IH]; [cbn; lra|]. rewrite S_INR. cbn [pow]. assert (M0 := pos_INR m).
      apply Rle_trans with ((1 - u) * (1 - INR m * u)); [|apply Rmult_le_compat_l; lra]. assert (0 <= INR m * u * u) by (apply Rmult_le_pos; [apply Rmult_le_pos|]; lra). lra. }
    eapply Rle_trans; [|exact BN]. rewrite plus_INR. assert (K5 : INR k <= 4) by (replace 4 with (INR 4) by (cbn; lra); apply le_INR; exact K4).
    assert (Q : (INR n + INR k) * u <= / 2).
    { apply Rle_trans with ((b 20 + b 20) * u).
      - apply Rmult_le_compat_r; [lra|]. assert (4 <= b 20) by (replace 4 with (b 2) by (rewrite b_opaque; cbn; lra); apply b_le; lia). lra.
      - rewrite Rmult_plus_distr_r, <- !b_add. replace (/ 2) with (b (-2) + b (-2)) by (rewrite b_opaque; cbn; lra). assert (b (20 + -53) <= b (-2)) by (apply b_le; lia). lra. }
    lra. }
  assert (GAP : b (-1055) < / 2 * b (-1000)).
  { replace (/ 2 * b (-1000)) with (b (-1 + -1000)) by (rewrite b_add; f_equal; rewrite b_opaque; cbn; lra). apply b_lt. lia. }
  assert (POS : forall k, (k <= 4)%nat -> 0 < (1 - u) ^ (n + k) * exact v w - INR n * tiny).
  { intros k K4. assert (/ 2 * b (-1000) <= (1 - u) ^ (n + k) * exact v w) by (apply Rmult_le_compat; [lra|left; apply b_pos|apply HALF, K4|exact EX]). lra. }
  split; [pose proof (POS 2%nat ltac:(lia)); lra|]. pose proof (POS 4%nat ltac:(lia)). destruct (Req_dec (B d) 0) as [Z|Z]; [rewrite Z in LD; cbn [pow] in LD; lra|lra].
Qed.
Print Assumptions C176_apart.
End Order.
Print Assumptions C176_sizes.

(** Two orders: from the left, and from the right. *)
Fixpoint from_left (n : nat) : tree := match n with O | 1%nat => Entry 0 | S m => Plus (from_left m) (Entry m) end.
Fixpoint from_right (i k : nat) : tree := match k with O => Entry i | S m => Plus (Entry i) (from_right (S i) m) end.
Lemma left_once : every_entry_once from_left.
Proof.
  intros n N. destruct n as [|n]; [lia|]. clear N. induction n as [|n IH]; [apply Permutation_refl|].
  change (from_left (S (S n))) with (Plus (from_left (S n)) (Entry (S n))). cbn [entries_of]. rewrite (seq_S (S n) 0). apply Permutation_app; [exact IH|apply Permutation_refl].
Qed.
Lemma right_once : every_entry_once (fun n => from_right 0 (n - 1)).
Proof.
  intros n N. assert (E : forall k i, entries_of (from_right i k) = seq i (S k)).
  { induction k as [|k IH]; intros i; [reflexivity|]. cbn [from_right entries_of]. rewrite IH. reflexivity. }
  rewrite E. replace (S (n - 1)) with n by lia. apply Permutation_refl.
Qed.
Definition fone : fl := b64_of_bits (1023 * 2 ^ 52)%Z.
Definition fm27 : fl := b64_of_bits (996 * 2 ^ 52)%Z.
Definition origin5 : list fl := [f_zero; f_zero; f_zero; f_zero; f_zero].
Definition point5 : list fl := [fone; fm27; fm27; fm27; fm27].
Definition bits_of (o : outcome fl) : Z := match o with Ok f => bits_of_b64 f | _ => (-1)%Z end.
Lemma of_bits5 : moderate origin5 /\ moderate point5.
Proof.
  assert (Z : small f_zero) by (split; [reflexivity|change (B f_zero) with 0; rewrite Rabs_R0; apply bpow_ge_0]).
  assert (O1 : small fone).
  { split; [reflexivity|]. rewrite (lit fone false (2 ^ 52)%positive (-52)) by (vm_compute; reflexivity). rewrite <- F2R_Zabs. unfold F2R. cbn [Fnum Fexp]. change (IZR (Z.abs _)) with (IZR (Zpower radix2 52)). rewrite IZR_Zpower, <- bpow_plus by lia. apply bpow_le. lia. }
  assert (M : small fm27).
  { split; [reflexivity|]. rewrite (lit fm27 false (2 ^ 52)%positive (-79)) by (vm_compute; reflexivity). rewrite <- F2R_Zabs. unfold F2R. cbn [Fnum Fexp]. change (IZR (Z.abs _)) with (IZR (Zpower radix2 52)). rewrite IZR_Zpower, <- bpow_plus by lia. apply bpow_le. lia. }
  unfold moderate, origin5, point5. split; (split; [repeat (apply Forall_cons; [assumption|]); apply Forall_nil|cbn [length]; lia]).
Qed.
(** The order of the additions shows in the last bit: 1, or the next double. *)
Theorem C176_order_refuted : exists o1 o2 v w, every_entry_once o1 /\ every_entry_once o2 /\ length v = length w /\ moderate v /\ moderate w /\
  bits_of (squared_distance o1 true v w) = bits_of_b64 fone /\ bits_of (squared_distance o2 true v w) = (bits_of_b64 fone + 1)%Z.
Proof.
  exists from_left, (fun n => from_right 0 (n - 1)), origin5, point5. split; [exact left_once|]. split; [exact right_once|]. split; [reflexivity|]. split; [apply of_bits5|]. split; [apply of_bits5|].
  split; vm_compute; reflexivity.
Qed.
Print Assumptions C176_order_refuted.
(** Hypotheses are met: orders that add every entry once (left_once, right_once), moderate vectors of 5 entries (of_bits5), at distance 1 or more. *)
Example far_apart : bpow radix2 (-500) <= sqrt (exact origin5 point5).
Proof.
  apply Rle_trans with (sqrt 1); [rewrite sqrt_1; apply (bpow_le radix2 (-500) 0); lia|]. apply sqrt_le_1_alt.
  assert (E : B fone = 1) by (rewrite (lit fone false (2 ^ 52)%positive (-52)) by (vm_compute; reflexivity); unfold F2R; cbn [Fnum Fexp cond_Zopp]; change (IZR (Z.pos (2 ^ 52))) with (IZR (Zpower radix2 52)); rewrite IZR_Zpower, <- bpow_plus by lia; reflexivity).
  unfold origin5, point5. cbn [exact]. rewrite E. change (B f_zero) with 0. pose proof (pow2_ge_0 (B fm27 - 0)). lra.
Qed.
