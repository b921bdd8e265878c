(** C172: the table of speed limits that OutputPhasePlaneTrajectory writes. *)
From Coq Require Import String Ascii.
From Verif Require Import Base VoxelFloat DynGridFloat VoxelMakeModel ChunkFloat InterpFloatModel AvgFloatModel InterpFloatProps VecFloatProps AvgFloatProps PhaseModel.
From Flocq Require Import IEEE754.Bits IEEE754.Binary Core Relative Plus_error.
From Coq Require Import Reals Lra Psatz.
Local Instance P53 : Prec_gt_0 53 := eq_refl.
Local Instance VE : Valid_exp (SpecFloat.fexp 53 1024) := BinarySingleNaN.fexp_correct 53 1024 eq_refl.
Open Scope R_scope.

(** ** Specification *)
(** A length of a path that is neither tiny nor huge. *)
Definition normal_length (len : fl) : Prop := fin len = true /\ bpow radix2 (-1000) <= B len <= bpow radix2 1000.
Definition position (r : fl * fl * fl) : fl := fst (fst r).

Notation u := (b (-53)).
(** The position of the row k, computed by adding. *)
Fixpoint pos_at (step : fl) (k : nat) : fl := match k with O => f_zero | S k => b64_plus NE (pos_at step k) step end.
Lemma step_val len : normal_length len -> fin (step_size len) = true /\ 0 < B (step_size len) <= b 1000 /\
  100000 * B (step_size len) * (1 - 2 * u) <= B len <= 100000 * B (step_size len) * (1 + 2 * u).
Proof.
  rewrite <- ?b_opaque. intros (F & L). unfold normal_length in L. rewrite <- (b_opaque (-1000)), <- (b_opaque 1000) in L.
  destruct (of_Z_whole 100000 ltac:(lia)) as (FZ & VZ). unfold step_size.
  assert (P1 : 0 < b (-1000)) by apply b_pos.
  assert (Q : b (-1022) <= Rabs (B len / B (f_of_Z 100000)) <= b 1023).
  { rewrite VZ, Rabs_pos_eq by (apply Rmult_le_pos; lra). split.
    - apply Rle_trans with (b (-1000) / 100000); [|apply Rmult_le_compat_r; lra].
      assert (E : b (-1000) = b 22 * b (-1022)) by (rewrite <- b_add; reflexivity). assert (V22 : b 22 = 4194304) by (rewrite (b_opaque 22), <- IZR_Zpower by lia; reflexivity).
      rewrite E, V22. pose proof (b_pos (-1022)). lra.
    - apply Rle_trans with (B len); [|apply Rle_trans with (b 1000); [lra | apply b_le; lia]]. lra. }
  destruct (div_rel len (f_of_Z 100000) F ltac:(rewrite VZ; lra) Q) as (e & A & FD & VD). rewrite VZ in VD. apply two_sided in A. pose proof u_small as (U0 & U1).
  split; [exact FD|]. rewrite VD. set (v := u) in *. clearbody v. set (x := B len) in *. clearbody x. assert (0 < x) by lra. split; [|split].
  - split; [apply Rmult_lt_0_compat; lra|]. apply Rle_trans with (x / 100000 * 2); [apply Rmult_le_compat_l; lra | lra].
  - replace (100000 * (x / 100000 * (1 + e)) * (1 - 2 * v)) with (x * ((1 + e) * (1 - 2 * v))) by field. rewrite <- (Rmult_1_r x) at 2. apply Rmult_le_compat_l; nra.
  - replace (100000 * (x / 100000 * (1 + e)) * (1 + 2 * v)) with (x * ((1 + e) * (1 + 2 * v))) by field. rewrite <- (Rmult_1_r x) at 1. apply Rmult_le_compat_l; nra.
Qed.
Lemma pos_val step k : fin step = true -> 0 < B step <= b 1000 -> INR k <= 131072 ->
  fin (pos_at step k) = true /\ INR k * B step * (1 - INR k * u) <= B (pos_at step k) <= INR k * B step * (1 + 2 * (INR k * u)).
Proof.
  intros FS (S0 & S1). induction k as [|k IH]; intros K.
  - cbn [pos_at INR]. split; [reflexivity|]. change (B f_zero) with 0. lra.
  - rewrite S_INR in K |- *. destruct IH as (F & L); [lra|]. pose proof (pos_INR k) as K0. cbn [pos_at]. set (x := B (pos_at step k)) in *. set (d := B step) in *. set (i := INR k) in *.
    pose proof u_small as (U0 & U1). assert (U36 : 131072 * u <= / 1000000000).
    { assert (E : b (-53) = b (-53 + 53) / 9007199254740992) by (rewrite b_add; replace (b 53) with 9007199254740992 by (rewrite (b_opaque 53), <- IZR_Zpower by lia; reflexivity); field).
      change (-53 + 53)%Z with 0%Z in E. rewrite b_0 in E. rewrite E. lra. }
    assert (IU : 0 <= i * u <= / 1000000000) by (split; [apply Rmult_le_pos; lra | apply Rle_trans with (131072 * u); [apply Rmult_le_compat_r; lra | exact U36]]).
    assert (ID : 0 <= i * d <= 131072 * b 1000) by (split; [apply Rmult_le_pos; lra | apply Rmult_le_compat; lra]).
    assert (X : 0 <= x) by (apply Rle_trans with (i * d * (1 - i * u)); [apply Rmult_le_pos; lra | apply L]).
    assert (X2 : x <= i * d * 2) by (apply Rle_trans with (i * d * (1 + 2 * (i * u))); [apply L | apply Rmult_le_compat_l; lra]).
    assert (B20 : b 1020 = 1048576 * b 1000) by (change 1020%Z with (20 + 1000)%Z; rewrite b_add; f_equal; rewrite (b_opaque 20), <- IZR_Zpower by lia; reflexivity).
    pose proof (b_pos 1000) as P1000.
    destruct (plus_rel (pos_at step k) step F FS) as (e & A & FP & VP); [fold x d; rewrite Rabs_pos_eq by lra; apply Rle_trans with (b 1020); [rewrite B20; lra | apply b_le; lia]|].
    split; [exact FP|]. rewrite VP. fold x d. apply two_sided in A. set (v := u) in *. clearbody v. clear U36. clear VP FP B20 P1000 X2 ID F K FS S1. destruct L as (L1 & L2).
    clearbody x d i. split.
    + apply Rle_trans with ((i + 1) * d * (1 - i * v) * (1 - v)).
      * replace ((i + 1) * d * (1 - i * v) * (1 - v)) with ((i + 1) * d * ((1 - i * v) * (1 - v))) by ring. apply Rmult_le_compat_l; [apply Rmult_le_pos; lra|]. nra.
      * apply Rmult_le_compat; [apply Rmult_le_pos; [apply Rmult_le_pos|]; lra | lra | | lra]. assert (0 <= i * v * d) by (apply Rmult_le_pos; lra). lra.
    + apply Rle_trans with ((i + 1) * d * (1 + 2 * (i * v)) * (1 + v)).
      * apply Rmult_le_compat; [lra | lra | | lra]. assert (0 <= i * v * d) by (apply Rmult_le_pos; lra). lra.
      * replace ((i + 1) * d * (1 + 2 * (i * v)) * (1 + v)) with ((i + 1) * d * ((1 + 2 * (i * v)) * (1 + v))) by ring. apply Rmult_le_compat_l; [apply Rmult_le_pos; lra|]. nra.
Qed.
Section Loop.
Variables acc_limit vel_limit : fl -> fl.
Notation rows := (rows acc_limit vel_limit).
Notation rows_from := (rows_from acc_limit vel_limit).
Notation row := (row acc_limit vel_limit).
Lemma rows_from_spec len step n : (forall k, (k < n)%nat -> f_lt (pos_at step k) len = true) -> f_lt (pos_at step n) len = false ->
  forall fuel k, (k <= n)%nat -> (n - k < fuel)%nat -> rows_from fuel len step (pos_at step k) = Ok (map (fun i => row (pos_at step i)) (seq k (n - k))).
Proof.
  intros Y N. induction fuel as [|fuel IH]; intros k K L; [lia|]. cbn [PhaseModel.rows_from]. destruct (Nat.eq_dec k n) as [->|E].
  - rewrite N, Nat.sub_diag. reflexivity.
  - rewrite Y by lia. change (b64_plus NE (pos_at step k) step) with (pos_at step (S k)). rewrite IH by lia. replace (n - k)%nat with (S (n - S k)) by lia. reflexivity.
Qed.

(** The number of rows: 100000 or 100001, and what they are: each the limits at its position; the first at 0, row k within a part in 10^9 of k hundredthousandths
    of the length, every position before the end, and after the one before it. *)
Theorem C172_rows len : normal_length len -> exists n, (Z.of_nat n = 100000 \/ Z.of_nat n = 100001)%Z /\
  forall fuel, (n < fuel)%nat -> exists l, rows fuel len = Ok l /\ length l = n /\
    forall k r, nth_error l k = Some r -> r = row (position r) /\ fin (position r) = true /\ B (position r) < B len /\
      Rabs (B (position r) - INR k * (B len / 100000)) <= / 1000000000 * (INR k * (B len / 100000)) /\
      forall r', nth_error l (S k) = Some r' -> B (position r) < B (position r').
Proof.
  intros NL. destruct (step_val len NL) as (FS & S0 & SL). set (d := step_size len) in *. destruct NL as (FL & L0). pose proof (bpow_gt_0 radix2 (-1000)) as B1000.
  assert (UV : u <= / 9000000000000000).
  { assert (E : b (-53) = b (-53 + 53) / 9007199254740992) by (rewrite b_add; replace (b 53) with 9007199254740992 by (rewrite (b_opaque 53), <- IZR_Zpower by lia; reflexivity); field).
    change (-53 + 53)%Z with 0%Z in E. rewrite b_0 in E. rewrite E. lra. }
  assert (UP : 0 < u) by apply b_pos.
  assert (P : forall k, INR k <= 100001 -> fin (pos_at d k) = true /\ INR k * B d * (1 - / 50000000000) <= B (pos_at d k) <= INR k * B d * (1 + / 40000000000)).
  { intros k K. destruct (pos_val d k FS S0 ltac:(lra)) as (F & A & C). split; [exact F|]. pose proof (pos_INR k) as K0.
    assert (KU : INR k * u <= 100001 * / 9000000000000000) by (apply Rmult_le_compat; lra). assert (KD : 0 <= INR k * B d) by (apply Rmult_le_pos; lra). split.
    - eapply Rle_trans; [|exact A]. apply Rmult_le_compat_l; lra.
    - eapply Rle_trans; [exact C|]. apply Rmult_le_compat_l; lra. }
  assert (IN : forall m : nat, INR m = IZR (Z.of_nat m)) by (intros; apply INR_IZR_INZ).
  assert (YES : forall k, (Z.of_nat k <= 99999)%Z -> f_lt (pos_at d k) len = true).
  { intros k K. apply IZR_le in K. rewrite <- IN in K. destruct (P k ltac:(lra)) as (F & A & C). apply lt_spec; auto. eapply Rle_lt_trans; [exact C|].
    eapply Rlt_le_trans; [|apply SL]. replace (INR k * B d * (1 + / 40000000000)) with (B d * (INR k * (1 + / 40000000000))) by ring. replace (100000 * B d * (1 - 2 * u)) with (B d * (100000 * (1 - 2 * u))) by ring.
    apply Rmult_lt_compat_l; [lra|]. lra. }
  assert (NO : forall k, Z.of_nat k = 100001%Z -> f_lt (pos_at d k) len = false).
  { intros k K. assert (KR : INR k = 100001) by (rewrite IN, K; reflexivity). destruct (P k ltac:(lra)) as (F & A & C). destruct (f_lt (pos_at d k) len) eqn:T; [|reflexivity]. apply lt_spec in T; auto. exfalso.
    rewrite KR in A. destruct SL as (_ & SL). assert (D : 100000 * B d * (1 + 2 * u) < 100001 * B d * (1 - / 50000000000)); [|lra].
    replace (100000 * B d * (1 + 2 * u)) with (B d * (100000 * (1 + 2 * u))) by ring. replace (100001 * B d * (1 - / 50000000000)) with (B d * (100001 * (1 - / 50000000000))) by ring. apply Rmult_lt_compat_l; lra. }
  assert (N : exists n, (Z.of_nat n = 100000 \/ Z.of_nat n = 100001)%Z /\ (forall k, (k < n)%nat -> f_lt (pos_at d k) len = true) /\ f_lt (pos_at d n) len = false).
  { destruct (f_lt (pos_at d (Z.to_nat 100000)) len) eqn:T.
    - exists (Z.to_nat 100001). split; [right; apply Z2Nat.id; lia|]. split; [|apply NO, Z2Nat.id; lia]. intros k K. destruct (Z.eq_dec (Z.of_nat k) 100000) as [E|E]; [rewrite <- E, Nat2Z.id in T; exact T | apply YES; lia].
    - exists (Z.to_nat 100000). split; [left; apply Z2Nat.id; lia|]. split; [|exact T]. intros k K. apply YES. lia. }
  destruct N as (n & NZ & Y & E). exists n. split; [exact NZ|]. intros fuel FU. exists (map (fun i => row (pos_at d i)) (seq 0 (n - 0))).
  split; [apply (rows_from_spec len d n Y E fuel 0%nat); lia|]. rewrite Nat.sub_0_r. split; [rewrite map_length, seq_length; reflexivity|].
  assert (AT : forall k r, nth_error (map (fun i => row (pos_at d i)) (seq 0 n)) k = Some r -> (k < n)%nat /\ r = row (pos_at d k)).
  { intros k r R. rewrite nth_error_map in R. destruct (nth_error (seq 0 n) k) as [i|] eqn:S; [|discriminate]. cbn in R. injection R as <-.
    assert (KN : (k < n)%nat) by (rewrite <- (seq_length n 0); apply nth_error_Some; congruence). split; [exact KN|].
    apply nth_error_nth with (d := 0%nat) in S. rewrite seq_nth in S by exact KN. rewrite <- S. reflexivity. }
  intros k r R. destruct (AT k r R) as (KN & ->).
  unfold position. cbn [PhaseModel.row fst]. split; [reflexivity|].
  assert (KZ : INR k <= 100001) by (rewrite IN; apply IZR_le; lia). destruct (P k KZ) as (F & A & C). split; [exact F|]. split; [apply lt_spec; auto|].
  refine ((fun G => conj G _) _).
  { intros r' R'. destruct (AT (S k) r' R') as (KN' & ->). cbn [PhaseModel.row fst]. assert (KZ' : INR (S k) <= 100001) by (rewrite IN; apply IZR_le; lia). destruct (P (S k) KZ') as (F' & A' & C').
    eapply Rle_lt_trans; [exact C|]. eapply Rlt_le_trans; [|exact A']. rewrite S_INR in KZ' |- *. pose proof (pos_INR k) as K0. replace (INR k * B d * (1 + / 40000000000)) with (B d * (INR k * (1 + / 40000000000))) by ring.
    replace ((INR k + 1) * B d * (1 - / 50000000000)) with (B d * ((INR k + 1) * (1 - / 50000000000))) by ring. apply Rmult_lt_compat_l; lra. }
  pose proof (pos_INR k) as K0. set (x := B (pos_at d k)) in *. set (i := INR k) in *. clearbody x i.
  replace (i * (B len / 100000)) with (i * B d * (B len / (100000 * B d))) by (field; lra). set (y := B len / (100000 * B d)).
  assert (YB : 1 - 2 * u <= y <= 1 + 2 * u).
  { assert (DP : 0 < 100000 * B d) by lra. unfold y. split; apply (Rmult_le_reg_r (100000 * B d)); auto; unfold Rdiv; rewrite Rmult_assoc, Rinv_l, Rmult_1_r by lra; lra. }
  assert (ID : 0 <= i * B d) by (apply Rmult_le_pos; lra). set (z := i * B d) in *. clearbody z y.
  assert (ZY : z * (1 - 2 * u) <= z * y <= z * (1 + 2 * u)) by (split; apply Rmult_le_compat_l; lra).
  assert (ZU : 0 <= z * u <= z * / 9000000000000000) by (split; [apply Rmult_le_pos; lra | apply Rmult_le_compat_l; lra]).
  apply Rabs_le. lra.
Qed.

(** The limit of the acceleration is 10 where it is infinite, and itself elsewhere; the limit of the velocity is itself. *)
Theorem C172_limits s : let '(p, m, v) := row s in p = s /\ v = vel_limit s /\ (acc_limit s = B754_infinity 53 1024 false -> fin m = true /\ B m = 10) /\
  (acc_limit s <> B754_infinity 53 1024 false -> m = acc_limit s).
Proof.
  unfold PhaseModel.row. split; [reflexivity|]. split; [reflexivity|]. split.
  - intros ->. change (f_eqb (B754_infinity 53 1024 false) f_inf) with true. cbv iota. destruct (of_Z_whole 10 ltac:(lia)) as (F & V). rewrite F, V. auto.
  - intros H. replace (f_eqb (acc_limit s) f_inf) with false; [reflexivity|]. symmetry. destruct (acc_limit s) as [sg|sg|sg pl P|sg m e P]; try reflexivity; destruct sg; try reflexivity. destruct (H eq_refl).
Qed.

(** *** Other lengths *)
Lemma tiny_step len : fin len = true -> 0 < B len <= bpow radix2 (-1060) -> fin (step_size len) = true /\ B (step_size len) = 0.
Proof.
  intros F L. rewrite <- (b_opaque (-1060)) in L. destruct (of_Z_whole 100000 ltac:(lia)) as (FZ & VZ). unfold step_size.
  assert (E : b (-1060) = 65536 * b (-1076)) by (change (-1060)%Z with (16 + -1076)%Z; rewrite b_add; f_equal; rewrite (b_opaque 16), <- IZR_Zpower by lia; reflexivity).
  pose proof (b_pos (-1076)) as P. assert (Q : 0 < B len / 100000 <= b (-1076)) by lra.
  destruct (near_num _ _ 0 (near_div len (f_of_Z 100000) F ltac:(rewrite VZ; lra))) as (FD & VD & _); [rewrite VZ, Rabs_pos_eq by lra; apply Rle_trans with (b (-1076)); [lra | apply b_le; lia] | lia |].
  split; [exact FD|]. rewrite VZ in VD. pose proof (rnd_err (B len / 100000)) as R. rewrite <- VD, (Rabs_pos_eq (B len / 100000)) in R by lra. apply two_sided in R.
  pose proof u_small as (U0 & U1). assert (b (-1074) = 4 * b (-1076) /\ b (-1075) = 2 * b (-1076)) as (E4 & E2).
  { change (-1074)%Z with (-1076 + 1 + 1)%Z. change (-1075)%Z with (-1076 + 1)%Z. rewrite !b_double. split; ring. }
  assert (D : 0 <= B (b64_div NE len (f_of_Z 100000))) by (rewrite VD; apply Rle_trans with (rndN 0); [rewrite (rnd_fmt 0 fmt_0); lra | apply rnd_le; lra]).
  assert (X : u * (B len / 100000) <= / 64 * b (-1076)) by (apply Rmult_le_compat; lra).
  destruct D as [D|D]; [|symmetry; exact D]. exfalso.
  pose proof (generic_format_ge_bpow radix2 (SpecFloat.fexp 53 1024) (-1074) ltac:(intros e; unfold SpecFloat.fexp, SpecFloat.emin; lia) _ D (fmt_B _)) as G. rewrite <- (b_opaque (-1074)) in G. lra.
Qed.
(** A path of a length of at most 2^-1060: the distance of the rows is rounded to 0, and the loop never ends. *)
Theorem C172_endless_refuted : (forall len, fin len = true -> 0 < B len <= bpow radix2 (-1060) -> forall fuel, rows fuel len = NoFuel) /\ exists len, fin len = true /\ 0 < B len <= bpow radix2 (-1060).
Proof.
  split.
  - intros len F L fuel. destruct (tiny_step len F L) as (FD & VD). unfold PhaseModel.rows.
    assert (G : forall s, fin s = true -> B s = 0 -> rows_from fuel len (step_size len) s = NoFuel).
    { induction fuel as [|fuel IH]; intros s FS VS; [reflexivity|]. cbn [PhaseModel.rows_from]. rewrite (proj2 (lt_spec s len FS F)) by lra.
      destruct (near_num _ _ 0 (near_plus s (step_size len) FS FD)) as (FP & VP & _); [rewrite VS, VD, Rplus_0_l, Rabs_R0; apply Rlt_le, b_pos | lia |].
      rewrite IH; [reflexivity | exact FP |]. rewrite VP, VS, VD, Rplus_0_l. apply rnd_fmt, fmt_0. }
    apply G; reflexivity.
  - exists (b64_of_bits 1). split; [reflexivity|]. assert (E : B (b64_of_bits 1) = bpow radix2 (-1074)).
    { assert (Q : B2FF 53 1024 (b64_of_bits 1) = F754_finite false 1 (-1074)) by (vm_compute; reflexivity). rewrite <- FF2R_B2FF, Q. unfold FF2R, F2R. cbn [Fnum Fexp cond_Zopp]. ring. }
    rewrite E. split; [apply bpow_gt_0 | apply bpow_le; lia].
Qed.
(** An infinite length gives one row, and a length that is not positive, or no number, none. *)
Theorem C172_other_lengths : (forall fuel, rows (S (S fuel)) (B754_infinity 53 1024 false) = Ok [row (B754_zero 53 1024 false)]) /\
  (forall fuel len, is_nan 53 1024 len = true \/ (fin len = true /\ B len <= 0) \/ len = B754_infinity 53 1024 true -> rows (S fuel) len = Ok []).
Proof.
  split; [intros fuel; reflexivity|]. intros fuel len H. unfold PhaseModel.rows. cbn [PhaseModel.rows_from].
  replace (f_lt f_zero len) with false; [reflexivity|]. symmetry. destruct H as [H|[(F & L)|H]].
  - destruct len; try discriminate H. reflexivity.
  - destruct (f_lt f_zero len) eqn:T; [|reflexivity]. apply lt_spec in T; auto. change (B f_zero) with 0 in T. lra.
  - subst len. reflexivity.
Qed.
End Loop.

(** ** The files *)
(** The lines of a text, each ended by a newline. *)
Fixpoint lines (t : string) (cur : string) : list string :=
  match t with
  | EmptyString => []
  | String c t => if Ascii.eqb c (ascii_of_nat 10) then cur :: lines t "" else lines t (cur ++ String c "")%string
  end.
Fixpoint one_line (t : string) : Prop := match t with EmptyString => True | String c t => c <> ascii_of_nat 10 /\ one_line t end.
Lemma app_assoc_s (x y z : string) : ((x ++ y) ++ z = x ++ (y ++ z))%string. Proof. induction x; cbn; congruence. Qed.
Lemma app_nil_s (x : string) : (x ++ "" = x)%string. Proof. induction x; cbn; congruence. Qed.
Lemma lines_line x rest cur : one_line x -> lines (x ++ newline ++ rest)%string cur = (cur ++ x)%string :: lines rest "".
Proof.
  revert cur. induction x as [|c x IH]; intros cur; cbn [one_line append lines].
  - intros _. unfold newline. cbn [append lines]. rewrite Ascii.eqb_refl, app_nil_s. reflexivity.
  - intros (N & H). destruct (Ascii.eqb_spec c (ascii_of_nat 10)); [contradiction|]. rewrite IH by exact H. rewrite app_assoc_s. reflexivity.
Qed.
Lemma one_line_app x y : one_line x -> one_line y -> one_line (x ++ y)%string.
Proof. induction x as [|c x IH]; cbn; [auto|]. intros (N & H) Y. split; auto. Qed.
Lemma lines_concat {A} (f : A -> string) (l : list A) : (forall x, one_line (f x)) -> lines (concat_all (map (fun x => f x ++ newline)%string l)) "" = map f l.
Proof. intros O. induction l as [|x l IH]; [reflexivity|]. cbn [map concat_all]. rewrite app_assoc_s, lines_line by apply O. rewrite IH. reflexivity. Qed.
(** A line for every row, with its three numbers, and a line for every step of the trajectory, with its two. *)
Theorem C172_files acc_limit vel_limit show : (forall x, one_line (show x)) ->
  (forall fuel len l, rows acc_limit vel_limit fuel len = Ok l -> exists t, max_velocity_file acc_limit vel_limit show fuel len = Ok t /\
     lines t "" = map (fun r => (show (fst (fst r)) ++ "  " ++ show (snd (fst r)) ++ "  " ++ show (snd r))%string) l) /\
  (forall steps, lines (trajectory_file show steps) "" = map (fun p => (show (fst p) ++ "  " ++ show (snd p))%string) steps).
Proof.
  intros O. assert (SP : one_line "  ") by (cbn; repeat split; discriminate). split.
  - intros fuel len l H. unfold max_velocity_file. rewrite H. cbn [obind]. eexists. split; [reflexivity|].
    rewrite (map_ext _ (fun r => (show (fst (fst r)) ++ "  " ++ show (snd (fst r)) ++ "  " ++ show (snd r)) ++ newline)%string) by (intros ((s & m) & v); cbn [row_text fst snd]; rewrite !app_assoc_s; reflexivity).
    apply lines_concat. intros r. repeat apply one_line_app; auto.
  - intros steps. unfold trajectory_file.
    rewrite (map_ext _ (fun p => (show (fst p) ++ "  " ++ show (snd p)) ++ newline)%string) by (intros p; rewrite !app_assoc_s; reflexivity).
    apply lines_concat. intros r. repeat apply one_line_app; auto.
Qed.

(** ** Examples *)
Example C172_example : normal_length (f_of_Z 3).
Proof. destruct (of_Z_whole 3 ltac:(lia)) as (F & V). split; [exact F|]. rewrite V. split; [apply Rle_trans with (bpow radix2 0); [apply bpow_le; lia | cbn; lra] | apply Rle_trans with (bpow radix2 2); [cbn; lra | apply bpow_le; lia]]. Qed.
Print Assumptions C172_rows.
Print Assumptions C172_limits.
Print Assumptions C172_endless_refuted.
Print Assumptions C172_other_lengths.
Print Assumptions C172_files.
