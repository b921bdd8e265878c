(** Grid neighbours (get_neighbours.hpp): C90. *)
From Coq Require Import Reals Lra List Bool ZArith Lia.
From Verif Require Import Base MathModel TotpVec NeighbourModel.
Import ListNotations.
Open Scope R_scope.

(** The point of the grid with spacing [step] at integer indices. *)
Definition at2 (step : R) (p : Z * Z) : R * R := (IZR (fst p) * step, IZR (snd p) * step).
Definition at3 (step : R) (p : Z * Z * Z) : R * R * R := let '(i, j, k) := p in (IZR i * step, IZR j * step, IZR k * step).
(** Cells that differ by at most one in every index and are not the same. *)
Definition touch2 (p q : Z * Z) : Prop := (Z.abs (fst p - fst q) <= 1 /\ Z.abs (snd p - snd q) <= 1 /\ p <> q)%Z.
Definition touch3 (p q : Z * Z * Z) : Prop :=
  let '(i, j, k) := p in let '(i', j', k') := q in (Z.abs (i - i') <= 1 /\ Z.abs (j - j') <= 1 /\ Z.abs (k - k') <= 1)%Z /\ p <> q.
Definition inside2 (lo hi p : Z * Z) : Prop := (fst lo <= fst p <= fst hi /\ snd lo <= snd p <= snd hi)%Z.
Definition inside3 (lo hi p : Z * Z * Z) : Prop :=
  let '(i, j, k) := p in let '(a, b, c) := lo in let '(a', b', c') := hi in (a <= i <= a' /\ b <= j <= b' /\ c <= k <= c')%Z.

Lemma IZR_mul_inj step i j : 0 < step -> IZR i * step = IZR j * step -> i = j.
Proof. intros P H. apply eq_IZR. apply Rmult_eq_reg_r with step; [exact H | lra]. Qed.
Lemma IZR_mul_le step i j : 0 < step -> IZR i * step <= IZR j * step <-> (i <= j)%Z.
Proof.
  intros P. split; intros H.
  - apply le_IZR. apply Rmult_le_reg_r with step; assumption.
  - apply Rmult_le_compat_r; [lra | apply IZR_le; exact H].
Qed.
Lemma max_grid step m i : 0 < step -> Rmax (IZR m * step) (IZR i * step - step) = IZR (Z.max m (i - 1)) * step.
Proof.
  intros P. replace (IZR i * step - step) with (IZR (i - 1) * step) by (rewrite minus_IZR; ring).
  destruct (Z_le_dec m (i - 1)).
  - rewrite Z.max_r, Rmax_right; [reflexivity | apply IZR_mul_le; assumption | assumption].
  - rewrite Z.max_l, Rmax_left; [reflexivity | apply IZR_mul_le; [assumption | lia] | lia].
Qed.
Lemma min_grid step m i : 0 < step -> Rmin (IZR m * step) (IZR i * step + step) = IZR (Z.min m (i + 1)) * step.
Proof.
  intros P. replace (IZR i * step + step) with (IZR (i + 1) * step) by (rewrite plus_IZR; ring).
  destruct (Z_le_dec m (i + 1)).
  - rewrite Z.min_l, Rmin_left; [reflexivity | apply IZR_mul_le; assumption | assumption].
  - rewrite Z.min_r, Rmin_right; [reflexivity | apply IZR_mul_le; [assumption | lia] | lia].
Qed.
Lemma offset_grid step i (o : Z) : IZR i * step + step * IZR o = IZR (i + o) * step.
Proof. rewrite plus_IZR. ring. Qed.
Lemma Rleb_grid step i j : 0 < step -> Rleb (IZR i * step) (IZR j * step) = (i <=? j)%Z.
Proof.
  intros P. unfold Rleb. destruct (Rle_dec _ _) as [H|H]; rewrite IZR_mul_le in H by exact P; symmetry; [apply Z.leb_le; exact H | apply Z.leb_gt; lia].
Qed.
Lemma Reqb_grid step i j : 0 < step -> Reqb (IZR i * step) (IZR j * step) = (i =? j)%Z.
Proof.
  intros P. unfold Reqb. destruct (Req_EM_T _ _) as [H|H]; symmetry.
  - apply Z.eqb_eq. apply (IZR_mul_inj step); assumption.
  - apply Z.eqb_neq. intros ->. contradiction.
Qed.
Definition zoffsets : list Z := [-1; 0; 1]%Z.
Lemma offsets_eq : offsets = map IZR zoffsets.
Proof. reflexivity. Qed.
Lemma in_zoffsets o : In o zoffsets <-> (-1 <= o <= 1)%Z.
Proof. unfold zoffsets; cbn; lia. Qed.
Lemma flat_map_map {A B C} (f : B -> list C) (g : A -> B) l : flat_map f (map g l) = flat_map (fun a => f (g a)) l.
Proof. induction l as [|a l IH]; cbn; [reflexivity | rewrite IH; reflexivity]. Qed.
Lemma flat_map_ext' {A B} (f g : A -> list B) l : (forall a, f a = g a) -> flat_map f l = flat_map g l.
Proof. intros H. induction l as [|a l IH]; cbn; [reflexivity | rewrite H, IH; reflexivity]. Qed.
Lemma flat_map_filter {A B} (g : A -> B) (p : A -> bool) l : flat_map (fun a => if p a then [g a] else []) l = map g (filter p l).
Proof. induction l as [|a l IH]; cbn; [reflexivity|]. destruct (p a); cbn; rewrite IH; reflexivity. Qed.
Definition nine : list (Z * Z) := flat_map (fun a => map (fun b => (a, b)) zoffsets) zoffsets.
Definition twenty_seven : list (Z * Z * Z) := flat_map (fun a => flat_map (fun b => map (fun c => (a, b, c)) zoffsets) zoffsets) zoffsets.
Lemma flat_nine {B} (f : Z * Z -> list B) : flat_map (fun a => flat_map (fun b => f (a, b)) zoffsets) zoffsets = flat_map f nine.
Proof. unfold nine, zoffsets; cbn. rewrite !app_nil_r, <- !app_assoc. reflexivity. Qed.
Lemma flat_27 {B} (f : Z * Z * Z -> list B) : flat_map (fun a => flat_map (fun b => flat_map (fun c => f (a, b, c)) zoffsets) zoffsets) zoffsets = flat_map f twenty_seven.
Proof. unfold twenty_seven, zoffsets; cbn. rewrite !app_nil_r, <- !app_assoc. reflexivity. Qed.
Lemma NoDup_dec_list {A} (dec : forall x y : A, {x = y} + {x <> y}) (l : list A) : nodup dec l = l -> NoDup l.
Proof. intros H. rewrite <- H. apply NoDup_nodup. Qed.
Definition z2_dec (x y : Z * Z) : {x = y} + {x <> y}.
Proof. repeat decide equality. Defined.
Definition z3_dec (x y : Z * Z * Z) : {x = y} + {x <> y}.
Proof. repeat decide equality. Defined.
Lemma nine_NoDup : NoDup nine.
Proof. apply (NoDup_dec_list z2_dec). vm_compute. reflexivity. Qed.
Lemma NoDup_27 : NoDup twenty_seven.
Proof. apply (NoDup_dec_list z3_dec). vm_compute. reflexivity. Qed.
Lemma in_nine a b : In (a, b) nine <-> (-1 <= a <= 1 /\ -1 <= b <= 1)%Z.
Proof.
  unfold nine. rewrite in_flat_map. split.
  - intros (x & Hx & Hb). apply in_map_iff in Hb as (y & E & Hy). injection E as <- <-. rewrite in_zoffsets in *. lia.
  - intros [Ha Hb]. exists a. rewrite in_zoffsets. split; [lia|]. apply in_map_iff. exists b. rewrite in_zoffsets. auto.
Qed.
Lemma in_27 a b c : In (a, b, c) twenty_seven <-> (-1 <= a <= 1 /\ -1 <= b <= 1 /\ -1 <= c <= 1)%Z.
Proof.
  unfold twenty_seven. rewrite in_flat_map. split.
  - intros (x & Hx & H). apply in_flat_map in H as (y & Hy & H). apply in_map_iff in H as (z & E & Hz). injection E as <- <- <-. rewrite in_zoffsets in *. lia.
  - intros (Ha & Hb & Hc). exists a. rewrite in_zoffsets. split; [lia|]. apply in_flat_map. exists b. rewrite in_zoffsets. split; [lia|]. apply in_map_iff. exists c. rewrite in_zoffsets. auto.
Qed.
Lemma NoDup_map_inj' {A B} (f : A -> B) l : (forall x y, f x = f y -> x = y) -> NoDup l -> NoDup (map f l).
Proof.
  intros I. induction 1 as [|a l N _ IH]; cbn; constructor; [|exact IH]. intros H. apply in_map_iff in H as (x & E & Hx). apply I in E. subst. contradiction.
Qed.
Lemma filter_len {A} (p : A -> bool) l : (length (filter p l) <= length l)%nat.
Proof. induction l as [|a l IH]; cbn; [lia|]. destruct (p a); cbn; lia. Qed.
Lemma filter_len_lt {A} (p : A -> bool) l x : In x l -> p x = false -> (length (filter p l) < length l)%nat.
Proof.
  induction l as [|a l IH]; cbn; [tauto|]. intros [-> | H] E.
  - rewrite E. pose proof (filter_len p l). lia.
  - destruct (p a); cbn; pose proof (IH H E); lia.
Qed.

Lemma neighbours2_grid round valid step c lo hi :
  0 < step -> (forall p, round (at2 step p) = at2 step p) ->
  neighbours2 round valid (at2 step c) (IZR (fst lo) * step) (IZR (fst hi) * step) (IZR (snd lo) * step) (IZR (snd hi) * step) step =
  map (fun o => at2 step (fst c + fst o, snd c + snd o)%Z)
    (filter (fun o => let p := (fst c + fst o, snd c + snd o)%Z in
       ((Z.max (fst lo) (fst c - 1) <=? fst p) && (fst p <=? Z.min (fst hi) (fst c + 1)) &&
        (Z.max (snd lo) (snd c - 1) <=? snd p) && (snd p <=? Z.min (snd hi) (snd c + 1)) &&
        (negb (fst p =? fst c) || negb (snd p =? snd c)))%Z && valid (at2 step p)) nine).
Proof.
  intros P Rd. unfold neighbours2, at2 at 1. rewrite !max_grid, !min_grid by exact P.
  change (IZR (Z.max (fst lo) (fst c - 1)) * step, IZR (Z.max (snd lo) (snd c - 1)) * step) with (at2 step (Z.max (fst lo) (fst c - 1), Z.max (snd lo) (snd c - 1))%Z).
  change (IZR (Z.min (fst hi) (fst c + 1)) * step, IZR (Z.min (snd hi) (snd c + 1)) * step) with (at2 step (Z.min (fst hi) (fst c + 1), Z.min (snd hi) (snd c + 1))%Z).
  rewrite !Rd. rewrite offsets_eq, flat_map_map. rewrite <- flat_map_filter, <- flat_nine. apply flat_map_ext'. intros a. rewrite flat_map_map. apply flat_map_ext'. intros b.
  rewrite !offset_grid. cbv zeta.
  change (IZR (fst c + a) * step, IZR (snd c + b) * step) with (at2 step (fst c + a, snd c + b)%Z). rewrite Rd. unfold at2. cbn [fst snd].
  rewrite !Rleb_grid, !Reqb_grid by exact P. reflexivity.
Qed.
Lemma neighbours3_grid round valid step ci cj ck li lj lk hi hj hk :
  0 < step -> (forall p, round (at3 step p) = at3 step p) ->
  neighbours3 round valid (at3 step (ci, cj, ck)) (IZR li * step) (IZR hi * step) (IZR lj * step) (IZR hj * step) (IZR lk * step) (IZR hk * step) step =
  map (fun o => let '(a, b, c) := o in at3 step (ci + a, cj + b, ck + c)%Z)
    (filter (fun o => let '(a, b, c) := o in
       ((Z.max li (ci - 1) <=? ci + a) && (ci + a <=? Z.min hi (ci + 1)) && (Z.max lj (cj - 1) <=? cj + b) && (cj + b <=? Z.min hj (cj + 1)) &&
        (Z.max lk (ck - 1) <=? ck + c) && (ck + c <=? Z.min hk (ck + 1)) &&
        (negb (ci + a =? ci) || negb (cj + b =? cj) || negb (ck + c =? ck)))%Z && valid (at3 step (ci + a, cj + b, ck + c)%Z)) twenty_seven).
Proof.
  intros P Rd. unfold neighbours3, at3 at 1. rewrite !max_grid, !min_grid by exact P.
  change (IZR (Z.max li (ci - 1)) * step, IZR (Z.max lj (cj - 1)) * step, IZR (Z.max lk (ck - 1)) * step) with (at3 step (Z.max li (ci - 1), Z.max lj (cj - 1), Z.max lk (ck - 1))%Z).
  change (IZR (Z.min hi (ci + 1)) * step, IZR (Z.min hj (cj + 1)) * step, IZR (Z.min hk (ck + 1)) * step) with (at3 step (Z.min hi (ci + 1), Z.min hj (cj + 1), Z.min hk (ck + 1))%Z).
  rewrite !Rd. unfold at3 at 1 2. rewrite offsets_eq, flat_map_map. rewrite <- flat_map_filter, <- flat_27.
  apply flat_map_ext'. intros a. rewrite flat_map_map. apply flat_map_ext'. intros b. rewrite flat_map_map. apply flat_map_ext'. intros c.
  rewrite !offset_grid. cbv zeta.
  change (IZR (ci + a) * step, IZR (cj + b) * step, IZR (ck + c) * step) with (at3 step (ci + a, cj + b, ck + c)%Z). rewrite Rd. unfold at3 at 1.
  rewrite !Rleb_grid, !Reqb_grid by exact P. reflexivity.
Qed.

(** C90: on a grid of spacing [step] that the rounding function leaves alone, with bounds on the grid, the neighbours of a grid cell are
    exactly the valid cells inside the bounds that touch it, each once; there are at most 8 of them. *)
Theorem C90_neighbours2_partial round valid step c lo hi :
  0 < step -> (forall p, round (at2 step p) = at2 step p) ->
  let l := neighbours2 round valid (at2 step c) (IZR (fst lo) * step) (IZR (fst hi) * step) (IZR (snd lo) * step) (IZR (snd hi) * step) step in
  (forall n, In n l <-> exists p, n = at2 step p /\ touch2 p c /\ inside2 lo hi p /\ valid n = true) /\ NoDup l /\ (length l <= 8)%nat.
Proof.
  intros P Rd l. unfold l. rewrite neighbours2_grid by assumption. clear l. split; [|split].
  - intros n. rewrite in_map_iff. split.
    + intros ([a b] & <- & H). apply filter_In in H as [Hn H]. cbn [fst snd] in H. rewrite !andb_true_iff, orb_true_iff, !negb_true_iff, !Z.leb_le, !Z.eqb_neq in H.
      exists (fst c + a, snd c + b)%Z. split; [reflexivity|]. unfold touch2, inside2. cbn [fst snd]. destruct H as (H & V). repeat split; try lia; [|exact V].
      intros E. destruct c as [ci cj]. cbn [fst snd] in *. injection E as E1 E2. lia.
    + intros ([i j] & -> & (A & B & N) & (I1 & I2) & V). cbn [fst snd] in *. exists (i - fst c, j - snd c)%Z. cbn [fst snd].
      replace (fst c + (i - fst c))%Z with i by lia. replace (snd c + (j - snd c))%Z with j by lia. split; [reflexivity|].
      apply filter_In. split; [apply in_nine; lia|]. cbn [fst snd]. replace (fst c + (i - fst c))%Z with i by lia. replace (snd c + (j - snd c))%Z with j by lia.
      rewrite V, andb_true_r. rewrite !andb_true_iff, orb_true_iff, !negb_true_iff, !Z.leb_le, !Z.eqb_neq. repeat split; try lia.
      destruct (Z.eq_dec i (fst c)); [right | left; assumption]. intros ->. apply N. destruct c; cbn in *; congruence.
  - apply NoDup_map_inj'; [|apply NoDup_filter, nine_NoDup]. intros [a b] [a' b'] E. unfold at2 in E. cbn [fst snd] in E. injection E as E1 E2.
    apply (IZR_mul_inj step) in E1; [|exact P]. apply (IZR_mul_inj step) in E2; [|exact P]. f_equal; lia.
  - rewrite map_length. match goal with |- (length (filter ?p _) <= _)%nat => pose proof (filter_len_lt p nine (0, 0)%Z) as H end.
    assert (L : length nine = 9%nat) by reflexivity. rewrite L in H. apply Nat.lt_succ_r, H; [apply in_nine; lia|]. cbn [fst snd].
    rewrite !Z.add_0_r, !Z.eqb_refl. cbn [negb orb]. rewrite andb_false_r. reflexivity.
Qed.
Print Assumptions C90_neighbours2_partial.

(** The same in three dimensions, at most 26. *)
Theorem C90_neighbours3_partial round valid step ci cj ck li lj lk hi hj hk :
  0 < step -> (forall p, round (at3 step p) = at3 step p) ->
  let l := neighbours3 round valid (at3 step (ci, cj, ck)) (IZR li * step) (IZR hi * step) (IZR lj * step) (IZR hj * step) (IZR lk * step) (IZR hk * step) step in
  (forall n, In n l <-> exists p, n = at3 step p /\ touch3 p (ci, cj, ck) /\ inside3 (li, lj, lk) (hi, hj, hk) p /\ valid n = true) /\ NoDup l /\ (length l <= 26)%nat.
Proof.
  intros P Rd l. unfold l. rewrite neighbours3_grid by assumption. clear l. split; [|split].
  - intros n. rewrite in_map_iff. split.
    + intros ([[a b] d] & <- & H). apply filter_In in H as [Hn H]. rewrite !andb_true_iff, !orb_true_iff, !negb_true_iff, !Z.leb_le, !Z.eqb_neq in H.
      exists (ci + a, cj + b, ck + d)%Z. split; [reflexivity|]. unfold touch3, inside3. destruct H as (H & V). repeat split; try lia; [|exact V].
      intros E. injection E as E1 E2 E3. lia.
    + intros ([[i j] k] & -> & (A & N) & I1 & V). cbn in A, I1. exists (i - ci, j - cj, k - ck)%Z.
      replace (ci + (i - ci))%Z with i by lia. replace (cj + (j - cj))%Z with j by lia. replace (ck + (k - ck))%Z with k by lia. split; [reflexivity|].
      apply filter_In. split; [apply in_27; lia|]. replace (ci + (i - ci))%Z with i by lia. replace (cj + (j - cj))%Z with j by lia. replace (ck + (k - ck))%Z with k by lia.
      rewrite V, andb_true_r. rewrite !andb_true_iff, !orb_true_iff, !negb_true_iff, !Z.leb_le, !Z.eqb_neq. repeat split; try lia.
      destruct (Z.eq_dec i ci) as [E1|]; [|tauto]. destruct (Z.eq_dec j cj) as [E2|]; [|tauto]. right. intros E3. apply N. congruence.
  - apply NoDup_map_inj'; [|apply NoDup_filter, NoDup_27]. intros [[a b] d] [[a' b'] d'] E. unfold at3 in E. injection E as E1 E2 E3.
    apply (IZR_mul_inj step) in E1; [|exact P]. apply (IZR_mul_inj step) in E2; [|exact P]. apply (IZR_mul_inj step) in E3; [|exact P].
    assert (a = a') by lia. assert (b = b') by lia. assert (d = d') by lia. congruence.
  - rewrite map_length. match goal with |- (length (filter ?p _) <= _)%nat => pose proof (filter_len_lt p twenty_seven (0, 0, 0)%Z) as H end.
    assert (L : length twenty_seven = 27%nat) by reflexivity. rewrite L in H. apply Nat.lt_succ_r, H; [apply in_27; lia|].
    rewrite !Z.add_0_r, !Z.eqb_refl. cbn [negb orb]. rewrite andb_false_r. reflexivity.
Qed.
Print Assumptions C90_neighbours3_partial.

(** Being a neighbour is symmetric between valid cells inside the bounds. *)
Theorem C90_symmetric_partial round valid step p q lo hi :
  0 < step -> (forall p, round (at2 step p) = at2 step p) ->
  inside2 lo hi p -> inside2 lo hi q -> valid (at2 step p) = true -> valid (at2 step q) = true ->
  In (at2 step q) (neighbours2 round valid (at2 step p) (IZR (fst lo) * step) (IZR (fst hi) * step) (IZR (snd lo) * step) (IZR (snd hi) * step) step) <->
  In (at2 step p) (neighbours2 round valid (at2 step q) (IZR (fst lo) * step) (IZR (fst hi) * step) (IZR (snd lo) * step) (IZR (snd hi) * step) step).
Proof.
  intros P Rd Ip Iq Vp Vq.
  assert (Inj : forall a b, at2 step a = at2 step b -> a = b).
  { intros [a a'] [b b'] E. unfold at2 in E. cbn in E. injection E as E1 E2. apply (IZR_mul_inj step) in E1; [|exact P]. apply (IZR_mul_inj step) in E2; [|exact P]. congruence. }
  destruct (C90_neighbours2_partial round valid step p lo hi P Rd) as [A _]. destruct (C90_neighbours2_partial round valid step q lo hi P Rd) as [B _]. rewrite A, B.
  assert (Sy : forall a b, touch2 a b -> touch2 b a) by (intros a b (H1 & H2 & N); unfold touch2; repeat split; try lia; congruence).
  split; intros (x & E & T & _); apply Inj in E; subst x; eexists; (split; [reflexivity|]); split; [apply Sy; exact T | auto | apply Sy; exact T | auto].
Qed.
Print Assumptions C90_symmetric_partial.

(** Rounding to the nearest integer in each coordinate. *)
Definition nearest (p : R * R) : R * R := (IZR (Int_part (fst p + / 2)), IZR (Int_part (snd p + / 2))).
Lemma int_part_eq r z : IZR z <= r -> r < IZR z + 1 -> Int_part r = z.
Proof.
  intros A B. pose proof (base_Int_part r) as [C D]. apply Z.le_antisymm.
  - apply Zlt_succ_le. apply lt_IZR. unfold Z.succ. rewrite plus_IZR. lra.
  - apply Zlt_succ_le. apply lt_IZR. unfold Z.succ. rewrite plus_IZR. lra.
Qed.
Lemma nearest_fixes p : nearest (at2 1 p) = at2 1 p.
Proof. unfold nearest, at2. cbn [fst snd]. rewrite !Rmult_1_r. f_equal; f_equal; apply int_part_eq; lra. Qed.

(** Refuted: that every neighbour lies inside the bounds.  The bounds are rounded too: with an upper bound of 3/5 the cell at 1 is returned. *)
Theorem C90_past_bound_refuted :
  (forall p, nearest (at2 1 p) = at2 1 p) /\
  exists n, In n (neighbours2 nearest (fun _ => true) (0, 0) 0 (3 / 5) 0 (3 / 5) 1) /\ fst n > 3 / 5.
Proof.
  split; [exact nearest_fixes|]. exists (1, 0). split; [|cbn; lra].
  unfold neighbours2. rewrite (Rmax_left 0) by lra. rewrite (Rmin_left (3 / 5)) by lra. rewrite offsets_eq, flat_map_map. apply in_flat_map. exists 1%Z. split; [cbn; auto|].
  rewrite flat_map_map. apply in_flat_map. exists 0%Z. split; [cbn; auto|].
  assert (E1 : nearest (0, 0) = (0, 0)). { unfold nearest; cbn [fst snd]. rewrite (int_part_eq _ 0) by lra. reflexivity. }
  assert (E2 : nearest (3 / 5, 3 / 5) = (1, 1)). { unfold nearest; cbn [fst snd]. rewrite (int_part_eq _ 1) by lra. reflexivity. }
  assert (E3 : nearest (0 + 1 * 1, 0 + 1 * 0) = (1, 0)). { unfold nearest; cbn [fst snd]. rewrite (int_part_eq _ 1) by lra. rewrite (int_part_eq _ 0) by lra. reflexivity. }
  rewrite E1, E2, E3. cbn [fst snd]. unfold Rleb, Reqb.
  repeat match goal with |- context [Rle_dec ?a ?b] => destruct (Rle_dec a b); [|lra] end. destruct (Req_EM_T 1 0); [lra|]. cbn. auto.
Qed.
Print Assumptions C90_past_bound_refuted.

(** Refuted: that the neighbours of a configuration are other cells.  A configuration off the grid has its own cell as a neighbour. *)
Theorem C90_own_cell_refuted :
  exists c, In (nearest c) (neighbours2 nearest (fun _ => true) c (-5) 5 (-5) 5 1).
Proof.
  exists (2 / 5, 0). unfold neighbours2. rewrite !Rmax_right, !Rmin_right by lra. rewrite offsets_eq, flat_map_map. apply in_flat_map. exists 0%Z. split; [cbn; auto|].
  rewrite flat_map_map. apply in_flat_map. exists 0%Z. split; [cbn; auto|].
  assert (E0 : nearest (2 / 5, 0) = (0, 0)). { unfold nearest; cbn [fst snd]. rewrite !(int_part_eq _ 0) by lra. reflexivity. }
  assert (E1 : nearest (2 / 5 - 1, 0 - 1) = (-1, -1)). { unfold nearest; cbn [fst snd]. rewrite !(int_part_eq _ (-1)) by lra. reflexivity. }
  assert (E2 : nearest (2 / 5 + 1, 0 + 1) = (1, 1)). { unfold nearest; cbn [fst snd]. rewrite !(int_part_eq _ 1) by lra. reflexivity. }
  rewrite E0, E1, E2. replace (2 / 5 + 1 * 0) with (2 / 5) by lra. replace (0 + 1 * 0) with 0 by lra. rewrite E0. cbn [fst snd]. unfold Rleb, Reqb.
  repeat match goal with |- context [Rle_dec ?a ?b] => destruct (Rle_dec a b); [|lra] end. destruct (Req_EM_T 0 (2 / 5)); [lra|]. cbn. auto.
Qed.
Print Assumptions C90_own_cell_refuted.

(** A case that meets the hypotheses: the corner cell (0, 0) of a 3 x 3 grid has (1, 1) as a neighbour. *)
Example corner_case : In (at2 1 (1, 1)%Z) (neighbours2 nearest (fun _ => true) (at2 1 (0, 0)%Z) (IZR 0 * 1) (IZR 2 * 1) (IZR 0 * 1) (IZR 2 * 1) 1).
Proof.
  apply (C90_neighbours2_partial nearest (fun _ => true) 1 (0, 0)%Z (0, 0)%Z (2, 2)%Z); [lra | exact nearest_fixes |].
  exists (1, 1)%Z. repeat split; cbn; try lia. congruence.
Qed.
