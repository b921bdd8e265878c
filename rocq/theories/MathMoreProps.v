(** C158: closeness, interpolation and distances of numbers and vectors, over the real numbers. *)
From Coq Require Import Reals Lra Psatz.
From Verif Require Import Base MathModel MathMoreModel MathProps.
Open Scope R_scope.

(** ** Closeness *)
Lemma close_spec a b t : close_enough a b t = true <-> Rabs (b - a) <= Rabs t. Proof. unfold close_enough. apply Rleb_spec. Qed.
Theorem C158_close : forall a b t, (close_enough a b t = true <-> Rabs (b - a) <= Rabs t) /\ close_enough a b t = close_enough b a t /\ close_enough a a t = true /\ close_enough a b (- t) = close_enough a b t.
Proof.
  intros a b t. split; [apply close_spec|]. split; [|split].
  - unfold close_enough. rewrite Rabs_minus_sym. reflexivity.
  - apply close_spec. rewrite Rminus_eq_0, Rabs_R0. apply Rabs_pos.
  - unfold close_enough. rewrite Rabs_Ropp. reflexivity.
Qed.
Print Assumptions C158_close.
Theorem C158_close_vectors : forall v w t, close_enough_vec v w t = true <-> length v = length w /\ forall i a b, nth_error v i = Some a -> nth_error w i = Some b -> Rabs (b - a) <= Rabs t.
Proof.
  intros v w t. unfold close_enough_vec. destruct (Nat.eqb_spec (length v) (length w)) as [L|L]; cbn [negb]; [|split; [discriminate|tauto]].
  transitivity (forall i a b, nth_error v i = Some a -> nth_error w i = Some b -> Rabs (b - a) <= Rabs t); [|tauto].
  revert w L. induction v as [|x v IH]; intros [|y w] L; try discriminate.
  - split; [intros _ [|i]; discriminate|reflexivity].
  - injection L as L. cbn [close_all]. destruct (close_enough x y t) eqn:C.
    + rewrite (IH w L). apply close_spec in C. split.
      * intros H [|i] a b A B; [injection A as <-; injection B as <-; exact C|exact (H i a b A B)].
      * intros H i. exact (H (S i)).
    + split; [discriminate|]. intros H. exfalso. specialize (H 0%nat x y eq_refl eq_refl). apply close_spec in H. congruence.
Qed.
Print Assumptions C158_close_vectors.
(** IsApprox compares with the smaller of the two: nothing but zero is approximately zero. *)
Theorem C158_approx : forall a b e, (is_approx a b e = true <-> Rabs (b - a) <= Rabs e * Rabs a /\ Rabs (b - a) <= Rabs e * Rabs b) /\ is_approx a b e = is_approx b a e /\
  (is_approx a 0 e = true <-> a = 0).
Proof.
  intros a b e. assert (G : forall a b, is_approx a b e = true <-> Rabs (b - a) <= Rabs e * Rabs a /\ Rabs (b - a) <= Rabs e * Rabs b).
  { intros x y. unfold is_approx. rewrite close_spec, Rabs_mult. rewrite (Rabs_right (Rmin _ _)) by (apply Rle_ge, Rmin_glb; apply Rabs_pos). pose proof (Rabs_pos e) as E.
    unfold Rmin. destruct (Rle_dec (Rabs x) (Rabs y)) as [C|C]; split; intros H; try tauto; split; try assumption.
    - assert (Rabs e * Rabs x <= Rabs e * Rabs y) by (apply Rmult_le_compat_l; lra). lra.
    - assert (Rabs e * Rabs y <= Rabs e * Rabs x) by (apply Rmult_le_compat_l; lra). lra. }
  split; [apply G|]. split.
  - unfold is_approx. rewrite (proj1 (proj2 (C158_close a b _))), Rmin_comm. reflexivity.
  - rewrite G, Rabs_R0. split.
    + intros (_ & H). replace (0 - a) with (- a) in H by ring. rewrite Rabs_Ropp in H. destruct (Req_dec a 0) as [Z|N]; [exact Z|]. apply Rabs_pos_lt in N. lra.
    + intros ->. rewrite Rminus_0_r, Rabs_R0. lra.
Qed.
Print Assumptions C158_approx.
Theorem C158_sign : forall x, (0 < x -> sgn x = 1%Z) /\ (x = 0 -> sgn x = 0%Z) /\ (x < 0 -> sgn x = (-1)%Z).
Proof. intros x. unfold sgn. repeat split; intros H; cases; reflexivity. Qed.
Print Assumptions C158_sign.
Example C158_close_case : close_enough_vec [1; 2] [3 / 2; 1] (-1) = true /\ close_enough_vec [1; 2] [1] 5 = false /\ is_approx 2 3 (1 / 2) = true /\ is_approx 2 3 (1 / 3) = false.
Proof.
  repeat split.
  - apply C158_close_vectors. split; [reflexivity|]. intros [|[|[|i]]] a b A B; cbn in A, B; try discriminate; try (injection A as <-; injection B as <-; rewrite (Rabs_left (-1)) by lra; apply Rabs_le; lra).
  - apply C158_approx. rewrite !Rabs_right by lra. lra.
  - destruct (is_approx 2 3 (1 / 3)) eqn:E; [|reflexivity]. apply C158_approx in E. rewrite !Rabs_right in E by lra. lra.
Qed.

(** ** Interpolation *)
Definition clamped (r : R) : R := Rmax 0 (Rmin 1 r).
Lemma unit_clamped r : unit_interval r = clamped r.
Proof. unfold unit_interval, clamped, Rmax, Rmin. cases; repeat (destruct (Rle_dec _ _)); lra. Qed.
(** [between a b r c]: c is the share r of the way from a to b, r limited to 0 to 1; so it is a or b at the ends and never outside. *)
Definition between (a b r c : R) : Prop :=
  c = a + clamped r * (b - a) /\ Rmin a b <= c <= Rmax a b /\ (r <= 0 -> c = a) /\ (1 <= r -> c = b).
Lemma between_intro a b r : between a b r (a * (1 - clamped r) + b * clamped r).
Proof.
  assert (B : 0 <= clamped r <= 1) by (unfold clamped, Rmax, Rmin; repeat (destruct (Rle_dec _ _)); lra).
  assert (B0 : r <= 0 -> clamped r = 0) by (unfold clamped, Rmax, Rmin; repeat (destruct (Rle_dec _ _)); lra). assert (B1 : 1 <= r -> clamped r = 1) by (unfold clamped, Rmax, Rmin; repeat (destruct (Rle_dec _ _)); lra).
  unfold between. set (c := clamped r) in *. split; [ring|]. split; [|split; intros H; [rewrite (B0 H)|rewrite (B1 H)]; ring].
  unfold Rmin, Rmax. destruct (Rle_dec a b) as [L|L]; nra.
Qed.
Theorem C158_interpolate : forall a b a' b' r, between a b r (interpolate a b r) /\
  between a b r (fst (interpolate_pair (a, a') (b, b') r)) /\ between a' b' r (snd (interpolate_pair (a, a') (b, b') r)).
Proof. intros a b a' b' r. unfold interpolate, interpolate_pair. cbn [fst snd]. rewrite unit_clamped. auto using between_intro. Qed.
Print Assumptions C158_interpolate.
Theorem C158_interpolate_vectors : forall v w r, (length v <> length w -> interpolate_vec v w r = []) /\
  (length v = length w -> length (interpolate_vec v w r) = length v /\
     (forall i a b, nth_error v i = Some a -> nth_error w i = Some b -> exists c, nth_error (interpolate_vec v w r) i = Some c /\ between a b r c) /\
     (r <= 0 -> interpolate_vec v w r = v) /\ (1 <= r -> interpolate_vec v w r = w)).
Proof.
  intros v w r. unfold interpolate_vec. cbv zeta. rewrite unit_clamped. split.
  - intros N. apply Nat.eqb_neq in N. rewrite N. reflexivity.
  - intros L. rewrite (proj2 (Nat.eqb_eq _ _) L). rewrite map_length, combine_length, <- L, Nat.min_id. split; [reflexivity|].
    assert (G : forall i a b, nth_error v i = Some a -> nth_error w i = Some b -> exists c, nth_error (map (fun c => fst c * (1 - clamped r) + snd c * clamped r) (combine v w)) i = Some c /\ between a b r c).
    { clear L. revert w. induction v as [|x v IH]; intros [|y w] [|i] a b A B; try discriminate; cbn [combine map nth_error] in *; [|exact (IH w i a b A B)].
      injection A as <-. injection B as <-. eexists. split; [reflexivity|apply between_intro]. }
    split; [exact G|]. split; intros H; clear G; revert w L; induction v as [|x v IH]; intros [|y w] L; try discriminate; try reflexivity; injection L as L; cbn [combine map fst snd]; rewrite (IH w L); f_equal; apply (between_intro x y r); exact H.
Qed.
Print Assumptions C158_interpolate_vectors.
Example C158_interpolate_case : interpolate_vec [0; 4] [2; 0] (1 / 2) = [1; 2] /\ interpolate_vec [0; 4] [2; 0] 7 = [2; 0].
Proof. split; [|apply (C158_interpolate_vectors [0; 4] [2; 0] 7); [reflexivity|lra]]. unfold interpolate_vec, unit_interval. cases. cbn [length Nat.eqb combine map fst snd]. f_equal; [lra|f_equal; lra]. Qed.

(** ** Distances *)
(** The sum of the squares of the differences. *)
Fixpoint square_sum (v w : list R) : R := match v, w with a :: v, b :: w => (a - b) * (a - b) + square_sum v w | _, _ => 0 end.
Lemma squared_value v w : length v = length w -> squared_distance v w = Some (square_sum v w).
Proof.
  intros L. unfold squared_distance. rewrite (proj2 (Nat.eqb_eq _ _) L). f_equal.
  enough (G : forall s, fold_left (fun d c => d + (snd c - fst c) * (snd c - fst c)) (combine v w) s = s + square_sum v w) by (rewrite G; ring).
  revert w L. induction v as [|a v IH]; intros [|b w] L s; try discriminate; cbn [combine fold_left square_sum]; [lra|]. injection L as L. rewrite (IH w L). cbn [fst snd]. ring.
Qed.
Lemma distance_root v w : length v = length w -> vec_distance v w = Some (sqrt (square_sum v w)).
Proof. intros L. unfold vec_distance. rewrite (squared_value v w L), (proj2 (Nat.eqb_eq _ _) L). reflexivity. Qed.
Lemma square_nonneg v : forall w, 0 <= square_sum v w. Proof. induction v as [|a v IH]; intros [|b w]; cbn [square_sum]; try lra. specialize (IH w). pose proof (Rle_0_sqr (a - b)) as Q. unfold Rsqr in Q. lra. Qed.
Lemma two_triangle a b s t u : 0 <= s -> 0 <= t -> 0 <= u -> u <= s + t -> sqrt ((a + b) * (a + b) + u * u) <= sqrt (a * a + s * s) + sqrt (b * b + t * t).
Proof.
  intros S T U H. assert (P : 0 <= a * a + s * s) by nra. assert (Q : 0 <= b * b + t * t) by nra. apply Rsqr_incr_0_var; [|pose proof (sqrt_pos (a * a + s * s)); pose proof (sqrt_pos (b * b + t * t)); lra].
  unfold Rsqr. pose proof (Rle_0_sqr (a + b)) as AB. pose proof (Rle_0_sqr u) as UQ. unfold Rsqr in AB, UQ. rewrite sqrt_sqrt by lra. pose proof (sqrt_sqrt _ P) as E1. pose proof (sqrt_sqrt _ Q) as E2. set (m := sqrt (a * a + s * s)) in *. set (n := sqrt (b * b + t * t)) in *. assert (M : 0 <= m) by apply sqrt_pos. assert (N : 0 <= n) by apply sqrt_pos.
  assert (C : a * b + s * t <= m * n). { apply Rsqr_incr_0_var; [|nra]. unfold Rsqr. replace (m * n * (m * n)) with ((m * m) * (n * n)) by ring. rewrite E1, E2. pose proof (Rle_0_sqr (a * t - b * s)) as K. unfold Rsqr in K. nra. }
  assert (UU : u * u <= (s + t) * (s + t)) by (apply Rmult_le_compat; lra). nra.
Qed.
Lemma square_triangle x : forall y z, length x = length y -> length y = length z -> sqrt (square_sum x z) <= sqrt (square_sum x y) + sqrt (square_sum y z).
Proof.
  induction x as [|a x IH]; intros [|b y] [|c z] L M; try discriminate; cbn [square_sum]; [rewrite sqrt_0; lra|]. injection L as L. injection M as M. specialize (IH y z L M).
  rewrite <- (sqrt_sqrt (square_sum x z) (square_nonneg _ _)), <- (sqrt_sqrt (square_sum x y) (square_nonneg _ _)), <- (sqrt_sqrt (square_sum y z) (square_nonneg _ _)).
  replace (a - c) with ((a - b) + (b - c)) by ring. apply two_triangle; try apply sqrt_pos. exact IH.
Qed.
Lemma square_zero v : forall w, length v = length w -> (square_sum v w = 0 <-> v = w).
Proof.
  induction v as [|a v IH]; intros [|b w] L; try discriminate; [tauto|]. injection L as L. cbn [square_sum]. pose proof (square_nonneg v w) as N. pose proof (Rle_0_sqr (a - b)) as Q. unfold Rsqr in Q. split.
  - intros E. assert (Z : (a - b) * (a - b) = 0) by lra. apply Rmult_integral in Z. assert (a = b) by (destruct Z; lra). subst. f_equal. apply IH; [exact L|]. lra.
  - intros E. injection E as -> ->. rewrite (proj2 (IH w L) eq_refl). ring.
Qed.
(** Distance is the Euclidean distance, a metric on vectors of one length, and infinite between vectors of different lengths. *)
Theorem C158_distance : forall x y z, (length x <> length y -> squared_distance x y = None /\ vec_distance x y = None) /\
  (length x = length y -> squared_distance x y = Some (square_sum x y) /\
     exists d, vec_distance x y = Some d /\ 0 <= d /\ d * d = square_sum x y /\ vec_distance y x = Some d /\ (d = 0 <-> x = y) /\
       (length y = length z -> exists e f, vec_distance y z = Some e /\ vec_distance x z = Some f /\ f <= d + e)).
Proof.
  intros x y z. split.
  - intros N. apply Nat.eqb_neq in N. unfold vec_distance, squared_distance. rewrite N. auto.
  - intros L. split; [apply squared_value; exact L|]. exists (sqrt (square_sum x y)). split; [apply distance_root; exact L|]. split; [apply sqrt_pos|]. split; [apply sqrt_sqrt, square_nonneg|].
    assert (SY : forall v w, square_sum v w = square_sum w v) by (intros v; induction v as [|a v IH]; intros [|b w]; cbn [square_sum]; try reflexivity; rewrite IH; ring).
    split; [rewrite distance_root by auto; rewrite SY; reflexivity|]. split.
    + rewrite <- (square_zero x y L). split; [intros E; apply sqrt_eq_0; [apply square_nonneg|exact E]|intros ->; apply sqrt_0].
    + intros M. exists (sqrt (square_sum y z)), (sqrt (square_sum x z)). rewrite !distance_root by congruence. split; [reflexivity|]. split; [reflexivity|]. apply square_triangle; assumption.
Qed.
Print Assumptions C158_distance.
Example C158_distance_case : vec_distance [1; 2] [4; 6] = Some 5 /\ vec_distance [1] [] = None.
Proof. split; [|reflexivity]. rewrite distance_root by reflexivity. f_equal. replace (square_sum [1; 2] [4; 6]) with (5 * 5) by (cbn; ring). apply sqrt_square. lra. Qed.

(** CalculateTotalDistance: the sum over consecutive states. *)
Definition hops {T} (path : list T) : list (T * T) := combine path (tl path).
Lemma total_from {T} (dist : T -> T -> R) path : forall s, total_distance_from dist s path = s + fold_right Rplus 0 (map (fun c => dist (fst c) (snd c)) (hops path)).
Proof.
  unfold hops. induction path as [|x path IH]; intros s; [cbn; ring|]. destruct path as [|y path]; [cbn; ring|].
  change (total_distance_from dist s (x :: y :: path)) with (total_distance_from dist (s + dist x y) (y :: path)). rewrite IH. cbn [tl combine map fold_right fst snd]. ring.
Qed.
Theorem C158_total : forall T (dist : T -> T -> R) path, total_distance dist path = fold_right Rplus 0 (map (fun c => dist (fst c) (snd c)) (hops path)).
Proof. intros T dist path. unfold total_distance. rewrite total_from. ring. Qed.
Print Assumptions C158_total.
Lemma total_cons {T} (dist : T -> T -> R) x y l : total_distance dist (x :: y :: l) = dist x y + total_distance dist (y :: l).
Proof. unfold total_distance. change (total_distance_from dist 0 (x :: y :: l)) with (total_distance_from dist (0 + dist x y) (y :: l)). rewrite !(total_from dist (y :: l)). ring. Qed.
(** No path is shorter than the distance of its ends; the parts of a path add up. *)
Theorem C158_total_least : forall T (dist : T -> T -> R) a path b, (forall x y z, dist x z <= dist x y + dist y z) -> dist a b <= total_distance dist (a :: path ++ [b]).
Proof.
  intros T dist a path b TR. revert a. induction path as [|x path IH]; intros a.
  - unfold total_distance. cbn. lra.
  - cbn [app]. rewrite total_cons. specialize (IH x). specialize (TR a x b). lra.
Qed.
Print Assumptions C158_total_least.
Theorem C158_total_parts : forall T (dist : T -> T -> R) p x q, total_distance dist (p ++ x :: q) = total_distance dist (p ++ [x]) + total_distance dist (x :: q).
Proof.
  intros T dist p x q. induction p as [|a p IH]; [unfold total_distance; cbn [app]; rewrite (total_from dist [x]); cbn; ring|].
  destruct p as [|b p]; cbn [app] in *; rewrite !total_cons; [unfold total_distance at 2; cbn; ring|]. rewrite IH. ring.
Qed.
Print Assumptions C158_total_parts.
Example C158_total_case : total_distance (fun x y => Rabs (y - x)) [1; 3; 2] = 3.
Proof. rewrite C158_total. unfold hops. cbn [tl combine map fold_right fst snd]. rewrite (Rabs_right (3 - 1)), (Rabs_left (2 - 3)) by lra. lra. Qed.
