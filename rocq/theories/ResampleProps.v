(** C46: resampling paths, over the real numbers. *)
From Coq Require Import Reals Lra.
From Flocq Require Import Core.Raux.
From Verif Require Import Base PathModel PathProps.
Open Scope nat_scope.

(** ** Specification *)
(** [r] passes through the states [ws] one after the other; it may stay where it is for equal ones. *)
Inductive visits {V} : list V -> list V -> Prop :=
| v_done r : visits [] r
| v_here x ws r : visits ws (x :: r) -> visits (x :: ws) (x :: r)
| v_on ws y r : visits ws r -> visits ws (y :: r).
(** A distance and its interpolation: distances are not negative and 0 only between equal states; the interpolation runs from x to y
    and the distance between two of its states is their share of the whole. *)
Record geodesic {V} (dist : V -> V -> R) (interp : V -> V -> R -> V) : Prop := {
  ge_pos : forall x y, (0 <= dist x y)%R;
  ge_zero : forall x y, dist x y = 0%R <-> x = y;
  ge_0 : forall x y, interp x y 0%R = x;
  ge_1 : forall x y, interp x y 1%R = y;
  ge_share : forall x y s t, (0 <= s <= 1)%R -> (0 <= t <= 1)%R -> dist (interp x y s) (interp x y t) = (Rabs (t - s) * dist x y)%R
}.

Section P.
Context {V : Type}.
Variable dist : V -> V -> R.
Variable interp : V -> V -> R -> V.
Hypothesis G : geodesic dist interp.
Variable res : R.
Hypothesis Hres : (0 < res)%R.

Definition spaced (l : list V) : Prop := forall x y, adjacent l x y -> (dist x y <= res)%R.
Definition on_segments (path : list V) (z : V) : Prop := In z path \/ exists x y t, adjacent path x y /\ (0 <= t <= 1)%R /\ z = interp x y t.

Lemma num_segments_spec d : (0 <= d)%R -> (d / res <= IZR (2 ^ 32 - 1))%R ->
  exists n, num_segments res d = Ok n /\ (d / res <= INR n < d / res + 1)%R.
Proof.
  intros D H. unfold num_segments. destruct (Req_EM_T res 0); [lra|]. assert (P : (0 <= d / res)%R) by (apply Rmult_le_pos; [auto|left; apply Rinv_0_lt_compat; auto]).
  pose proof (Zceil_ub (d / res)) as U. assert (Lb : (0 <= Zceil (d / res))%Z) by (apply le_IZR; lra).
  assert (Ub : (Zceil (d / res) <= 2 ^ 32 - 1)%Z) by (apply Zceil_glb; auto).
  replace (0 <=? _)%Z with true by (symmetry; apply Z.leb_le; auto). replace (_ <? 2 ^ 32)%Z with true by (symmetry; apply Z.ltb_lt; lia). cbn [andb].
  exists (Z.to_nat (Zceil (d / res))). split; auto. rewrite INR_IZR_INZ, Z2Nat.id by auto. split; auto.
  destruct (Rlt_le_dec (IZR (Zceil (d / res))) (d / res + 1)) as [X|X]; auto. exfalso.
  assert (Y : (Zceil (d / res) <= Zceil (d / res) - 1)%Z). { apply Zceil_glb. rewrite minus_IZR. lra. } lia.
Qed.
Lemma adjacent_app (l1 l2 : list V) x y : adjacent (l1 ++ l2) x y ->
  adjacent l1 x y \/ adjacent l2 x y \/ (nth_error l1 (length l1 - 1) = Some x /\ nth_error l2 0 = Some y /\ l1 <> []).
Proof.
  intros (i & A & B). destruct (Nat.lt_ge_cases (S i) (length l1)) as [H|H].
  - left. exists i. rewrite nth_error_app1 in A, B by lia. auto.
  - destruct (Nat.eq_dec (S i) (length l1)) as [E|E].
    + right. right. rewrite nth_error_app1 in A by lia. rewrite nth_error_app2 in B by lia. replace (S i - length l1) with 0 in B by lia. replace (length l1 - 1) with i by lia.
      split; auto. split; auto. intros ->. cbn in E. lia.
    + right. left. exists (i - length l1). rewrite nth_error_app2 in A, B by lia. split; auto. rewrite <- B. f_equal. lia.
Qed.

(** The states added for one segment, after its first state. *)
Lemma segment_spec x y n : (dist x y / res <= INR n)%R -> (n = 0 -> x = y) ->
  let l := x :: segment_states interp x y n in
  ends_with l y /\ spaced l /\ (forall z, In z l -> z = x \/ z = y \/ exists t, (0 <= t <= 1)%R /\ z = interp x y t).
Proof.
  intros H H0. assert (D : (dist x y <= INR n * res)%R). { apply (Rmult_le_compat_r res) in H; [|lra]. unfold Rdiv in H. rewrite Rmult_assoc, Rinv_l, Rmult_1_r in H by lra. auto. }
  destruct n as [|[|n]]; cbn [segment_states].
  - rewrite <- H0 by auto. split; [reflexivity|]. split; [intros a b ([|i] & A & B); cbn in B; [discriminate|destruct i; discriminate]|]. intros z [<-|[]]; auto.
  - split; [reflexivity|]. split; [|intros z [<-|[<-|[]]]; auto]. intros a b ([|i] & A & B); cbn in A, B; [injection A as <-; injection B as <-; cbn in D; lra|]. destruct i; discriminate.
  - set (m := S (S n)) in *. assert (Pm : (0 < INR m)%R) by (apply lt_0_INR; unfold m; lia).
    set (f := fun k => interp x y (INR k / INR m)). assert (F0 : f 0 = x). { unfold f. unfold Rdiv. cbn [INR]. rewrite Rmult_0_l. apply (ge_0 _ _ G). }
    replace (x :: map _ (seq 1 m)) with (map f (seq 0 (S m))) by (cbn [seq map]; rewrite F0; reflexivity).
    assert (N : forall k, nth_error (map f (seq 0 (S m))) k = if k <? S m then Some (f k) else None).
    { intros k. destruct (Nat.ltb_spec k (S m)) as [X|X].
      - rewrite nth_error_map. rewrite (nth_error_nth' _ 0) by (rewrite seq_length; auto). rewrite seq_nth by auto. reflexivity.
      - apply nth_error_None. rewrite map_length, seq_length. auto. }
    assert (RG : forall k, k <= m -> (0 <= INR k / INR m <= 1)%R).
    { intros k K. apply le_INR in K. pose proof (pos_INR k). unfold Rdiv. split; [apply Rmult_le_pos; auto; left; apply Rinv_0_lt_compat; auto|].
      apply (Rmult_le_reg_r (INR m)); auto. rewrite Rmult_assoc, Rinv_l by lra. lra. }
    split; [|split].
    + unfold ends_with. rewrite map_length, seq_length, N. replace (S m - 1) with m by lia. replace (m <? S m) with true by (symmetry; apply Nat.ltb_lt; lia).
      unfold f. f_equal. unfold Rdiv. rewrite Rinv_r by lra. apply (ge_1 _ _ G).
    + intros a b (i & A & B). rewrite N in A, B. destruct (Nat.ltb_spec i (S m)); [|discriminate]. destruct (Nat.ltb_spec (S i) (S m)); [|discriminate]. injection A as <-. injection B as <-.
      unfold f. rewrite (ge_share _ _ G) by (apply RG; lia). replace (INR (S i) / INR m - INR i / INR m)%R with (/ INR m)%R by (rewrite S_INR; field; lra).
      rewrite Rabs_pos_eq by (left; apply Rinv_0_lt_compat; auto). apply (Rmult_le_reg_l (INR m)); auto. rewrite <- Rmult_assoc, Rinv_r, Rmult_1_l by lra. auto.
    + intros z I. apply in_map_iff in I as (k & <- & K). apply in_seq in K. right. right. exists (INR k / INR m)%R. split; [apply RG; lia|reflexivity].
Qed.
Lemma visits_app ws (l r : list V) : visits ws r -> visits ws (l ++ r).
Proof. intros H. induction l; cbn; auto. constructor. auto. Qed.
Lemma visits_end x y ws (l r : list V) : ends_with (x :: l) y -> visits (y :: ws) (y :: r) -> visits (y :: ws) (x :: l ++ r).
Proof.
  revert x. induction l as [|z l IH]; intros x E H.
  - cbn in E. unfold ends_with in E. cbn in E. injection E as ->. auto.
  - cbn [app]. constructor. apply IH; auto. unfold ends_with in *. cbn [length] in *. replace (S (S (length l)) - 1) with (S (length l)) in E by lia. cbn [nth_error] in E.
    replace (S (length l) - 1) with (length l) by lia. exact E.
Qed.

Lemma resample_loop_spec : forall rest x, (forall a b, adjacent (x :: rest) a b -> (dist a b / res <= IZR (2 ^ 32 - 1))%R) ->
  exists more, resample_loop dist interp res x rest = Ok more /\ visits (x :: rest) (x :: more) /\ spaced (x :: more) /\
    (forall z, ends_with (x :: rest) z -> ends_with (x :: more) z) /\ (forall z, In z more -> on_segments (x :: rest) z).
Proof.
  induction rest as [|y rest IH]; intros x H; cbn [resample_loop].
  - exists []. split; auto. split; [constructor; constructor|]. split; [intros a b ([|i] & A & B); cbn in B; [discriminate|destruct i; discriminate]|]. split; auto. intros z [].
  - assert (A0 : adjacent (x :: y :: rest) x y) by (exists 0; auto).
    destruct (num_segments_spec (dist x y) (ge_pos _ _ G x y) (H x y A0)) as (n & En & Nn). rewrite En. cbn [obind].
    destruct (IH y) as (more & Em & M1 & M2 & M3 & M4). { intros a b (i & A & B). apply H. exists (S i). auto. }
    rewrite Em. cbn [obind]. exists (segment_states interp x y n ++ more). split; auto.
    destruct (segment_spec x y n) as (S1 & S2 & S3).
    { apply Nn. }
    { intros ->. apply (ge_zero _ _ G). cbn in Nn. destruct Nn as [N1 _]. pose proof (ge_pos _ _ G x y) as P. apply Rle_antisym; auto.
      apply (Rmult_le_compat_r res) in N1; [|lra]. unfold Rdiv in N1. rewrite Rmult_assoc, Rinv_l in N1 by lra. lra. }
    split; [|split; [|split]].
    + constructor. apply (visits_end x y rest); auto.
    + intros a b A. change (x :: segment_states interp x y n ++ more) with ((x :: segment_states interp x y n) ++ more) in A. apply adjacent_app in A as [A|[A|(A & B & _)]].
      * apply S2; auto.
      * apply M2. destruct A as (i & A & B). exists (S i). auto.
      * unfold ends_with in S1. rewrite S1 in A. injection A as <-. apply M2. exists 0. auto.
    + intros z E. unfold ends_with in E. cbn [length] in E. replace (S (S (length rest)) - 1) with (S (length rest)) in E by lia. cbn [nth_error] in E.
      assert (E' : ends_with (y :: more) z). { apply M3. unfold ends_with. cbn [length]. replace (S (length rest) - 1) with (length rest) by lia. exact E. }
      clear -E' S1. unfold ends_with in *. cbn [length] in *. rewrite app_length. destruct more as [|m more].
      * cbn in E'. injection E' as <-. rewrite app_nil_r. cbn [length]. replace (S (length (segment_states interp x y n) + 0) - 1) with (S (length (segment_states interp x y n)) - 1) by lia. exact S1.
      * cbn [length] in *. replace (S (length (segment_states interp x y n) + S (length more)) - 1) with (S (length (segment_states interp x y n) + length more)) by lia. cbn [nth_error].
        rewrite nth_error_app2 by lia. replace (length (segment_states interp x y n) + length more - length (segment_states interp x y n)) with (length more) by lia.
        replace (S (S (length more)) - 1) with (S (length more)) in E' by lia. exact E'.
    + intros z I. apply in_app_iff in I as [I|I].
      * destruct (S3 z (or_intror I)) as [ -> |[ -> |(t & T & ->)]]; [left; left; auto|left; right; left; auto|]. right. exists x, y, t. auto.
      * apply M4 in I as [I|(a & b & t & (i & A & B) & T & E)]; [left; right; auto|]. right. exists a, b, t. split; auto. exists (S i). auto.
Qed.
End P.

(** C46: for a distance and a geodesic interpolation, a resolution that is positive and not absurdly small, the resampled
    portion [s, e) of a path starts and ends where the portion does, passes through its waypoints in order, stays on its
    segments, and has steps no longer than the resolution. *)
Theorem C46_resample : forall (V : Type) dist (interp : V -> V -> R -> V) path s e res, geodesic dist interp -> (0 < res)%R ->
  s < e -> e <= length path -> (forall x y, adjacent path x y -> (dist x y / res <= IZR (2 ^ 32 - 1))%R) ->
  let portion := firstn (e - s) (skipn s path) in
  exists r, resample_partial dist interp path s e res = Ok r /\
    nth_error r 0 = nth_error path s /\ (forall z, nth_error path (e - 1) = Some z -> ends_with r z) /\
    visits portion r /\ spaced dist res r /\ (forall z, In z r -> on_segments interp portion z).
Proof.
  intros V dist interp path s e res G Hres H1 H2 H3 portion. unfold resample_partial. replace (e <=? s) with false by (symmetry; apply Nat.leb_gt; auto).
  replace (length path <? e) with false by (symmetry; apply Nat.ltb_ge; auto). cbn [orb]. fold portion.
  assert (LP : length portion = e - s) by (unfold portion; rewrite firstn_length, skipn_length; lia).
  assert (NP : forall i, i < e - s -> nth_error portion i = nth_error path (s + i)). { intros i I. unfold portion. rewrite nth_firstn, nth_skipn by auto. reflexivity. }
  assert (N0 : nth_error portion 0 = nth_error path s) by (rewrite NP by lia; f_equal; lia).
  assert (NE : forall z, nth_error path (e - 1) = Some z -> ends_with portion z). { intros z Z. unfold ends_with. rewrite LP, NP by lia. rewrite <- Z. f_equal. lia. }
  assert (AD : forall x y, adjacent portion x y -> adjacent path x y).
  { intros x y (i & A & B). assert (S i < length portion) by (apply nth_error_Some; congruence). rewrite NP in A, B by lia. exists (s + i). split; auto. rewrite <- B. f_equal. lia. }
  destruct portion as [|x rest]; [cbn in LP; lia|]. destruct (resample_loop_spec dist interp G res Hres rest x) as (more & E & R1 & R2 & R3 & R4); [intros a b A; apply H3, AD, A|].
  destruct rest as [|y rest].
  - cbn in E. injection E as <-. exists [x]. split; auto. split; auto. split; auto. split; auto. split; auto. intros z I. left. auto.
  - rewrite E. cbn [obind]. exists (x :: more). split; auto. split; auto. split; auto. split; auto. split; auto. intros z [<-|I]; auto. left. left. auto.
Qed.
Print Assumptions C46_resample.

(** Bad ranges are rejected, whatever the functions. *)
Theorem C46_bad_range : forall (V : Type) dist (interp : V -> V -> R -> V) path s e res, e <= s \/ length path < e ->
  resample_partial dist interp path s e res = Throw InvalidArgument.
Proof.
  intros V dist interp path s e res H. unfold resample_partial. replace ((e <=? s) || (length path <? e)) with true; auto. symmetry. apply orb_true_iff. rewrite Nat.leb_le, Nat.ltb_lt. auto.
Qed.
Print Assumptions C46_bad_range.

(** The line is such a space. *)
Lemma line_geodesic : geodesic (fun x y => Rabs (y - x)) (fun x y t => (x + t * (y - x))%R).
Proof.
  split; intros.
  - apply Rabs_pos.
  - split; [|intros ->; rewrite Rminus_diag_eq by auto; apply Rabs_R0]. intros H. destruct (Req_dec (y - x) 0) as [E|E]; [lra|]. apply Rabs_no_R0 in E. congruence.
  - lra.
  - lra.
  - rewrite <- Rabs_mult. f_equal. lra.
Qed.
Example C46_example : resample (fun x y => Rabs (y - x)) (fun x y t => (x + t * (y - x))%R) [0%R; 3%R; 3%R; 4%R] 2%R = Ok [0; 0 + (INR 1 / INR 2) * (3 - 0); 0 + (INR 2 / INR 2) * (3 - 0); 4]%R.
Proof.
  assert (NS : forall d n, (INR n - 1 < d / 2 <= INR n)%R -> n < 10 -> num_segments 2 d = Ok n).
  { intros d n H S. unfold num_segments. destruct (Req_EM_T 2 0); [lra|]. replace (Zceil (d / 2)) with (Z.of_nat n).
    - replace (0 <=? Z.of_nat n)%Z with true by lia. replace (Z.of_nat n <? 2 ^ 32)%Z with true by lia. cbn [andb]. rewrite Nat2Z.id. reflexivity.
    - symmetry. apply Zceil_imp. rewrite minus_IZR, <- INR_IZR_INZ. lra. }
  unfold resample, resample_partial. cbn [length Nat.leb Nat.ltb orb Nat.sub firstn skipn resample_loop].
  rewrite (NS _ 2) by (try lia; cbn [INR]; rewrite Rabs_pos_eq; lra). rewrite (NS _ 0) by (try lia; cbn [INR]; rewrite Rabs_pos_eq; lra). rewrite (NS _ 1) by (try lia; cbn [INR]; rewrite Rabs_pos_eq; lra).
  cbn [obind segment_states app seq map]. reflexivity.
Qed.

(** C46 is false when the distance only looks at part of the state: a last state at distance 0 is dropped. *)
Theorem C46_distance_zero_refuted : exists (path : list (R * nat)) r, resample (fun x y => Rabs (fst y - fst x)) (fun x y t => (fst x + t * (fst y - fst x), snd y)%R) path 2%R = Ok r /\
  ends_with path (0%R, 7) /\ ends_with r (0%R, 3).
Proof.
  exists [(0%R, 3); (0%R, 7)], [(0%R, 3)]. split; [|split; reflexivity]. unfold resample, resample_partial. cbn [length Nat.leb Nat.ltb orb Nat.sub firstn skipn resample_loop fst].
  unfold num_segments. destruct (Req_EM_T 2 0); [lra|]. replace (Zceil _) with 0%Z; [reflexivity|]. symmetry. apply Zceil_imp. rewrite minus_IZR, Rabs_pos_eq by lra. lra.
Qed.
Print Assumptions C46_distance_zero_refuted.
