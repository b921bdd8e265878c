(** C110: the pyramid of ConvertConeToPyramid, over the real numbers. *)
From Coq Require Import Reals List Lra Lia Bool Psatz.
From Verif Require Import Base MathModel TotpModel TotpVec EVecModel EVecProps EAngleProps.
Import ListNotations.
Open Scope R_scope.

Lemma dot_neg_l n u v : dot n (vneg u) v = - dot n u v.
Proof. induction n as [|n IH]; cbn [dot]; [ring|]. rewrite IH. unfold vneg. ring. Qed.
Lemma dot_neg_r n u v : dot n u (vneg v) = - dot n u v.
Proof. rewrite dot_comm, dot_neg_l, dot_comm. ring. Qed.
Lemma veq3 u v : u 0%nat = v 0%nat -> u 1%nat = v 1%nat -> u 2%nat = v 2%nat -> veq 3 u v.
Proof. intros A B C [|[|[|i]]] H; auto. lia. Qed.
Lemma cross_ext a b c d : veq 3 a c -> veq 3 b d -> veq 3 (cross a b) (cross c d).
Proof. intros A B. apply veq3; unfold cross; rewrite ?(A 0%nat), ?(A 1%nat), ?(A 2%nat), ?(B 0%nat), ?(B 1%nat), ?(B 2%nat) by lia; reflexivity. Qed.
(** [d] and [a] orthonormal: with the cross product they are a right-handed frame. *)
Record frame (d a : vec) : Prop := mkF { f_d : dot 3 d d = 1; f_a : dot 3 a a = 1; f_da : dot 3 d a = 0 }.
Lemma cross_cross d a : frame d a -> veq 3 (cross d (cross d a)) (vneg a) /\ veq 3 (cross a (cross d a)) d /\ frame d (cross d a).
Proof.
  intros [D A DA].
  assert (X : veq 3 (cross d (cross d a)) (fun i => d i * dot 3 d a - a i * dot 3 d d)) by (apply veq3; unfold cross, dot; ring).
  assert (Y : veq 3 (cross a (cross d a)) (fun i => d i * dot 3 a a - a i * dot 3 d a)) by (apply veq3; unfold cross, dot; ring).
  split; [|split].
  - intros i Hi. rewrite (X i Hi), D, DA. unfold vneg. ring.
  - intros i Hi. rewrite (Y i Hi), A, DA. ring.
  - destruct (cross_dots d a) as (C1 & C2 & C3). split; [exact D | rewrite C3, D, A, DA; ring | rewrite dot_comm; exact C1].
Qed.
Lemma frame_neg d a : frame d a -> frame d (vneg a).
Proof. intros [D A DA]. split; [exact D | rewrite dot_neg_l, dot_neg_r; lra | rewrite dot_neg_r; lra]. Qed.
Lemma frame_ext d a b : veq 3 a b -> frame d a -> frame d b.
Proof.
  intros E [D A DA]. assert (E' : veq 3 b a) by (apply veq_sym; exact E). split; [exact D | rewrite (dot_ext 3 _ _ _ _ E' E'); exact A | rewrite (dot_ext 3 _ _ _ _ (veq_refl 3 d) E'); exact DA].
Qed.
Lemma parseval d a r : frame d a -> dot 3 r r = dot 3 d r * dot 3 d r + dot 3 a r * dot 3 a r + dot 3 (cross d a) r * dot 3 (cross d a) r.
Proof.
  intros [D A DA].
  assert (G : dot 3 (cross d a) r * dot 3 (cross d a) r =
    dot 3 d d * (dot 3 a a * dot 3 r r - dot 3 a r * dot 3 a r) - dot 3 d a * (dot 3 d a * dot 3 r r - dot 3 a r * dot 3 d r) + dot 3 d r * (dot 3 d a * dot 3 a r - dot 3 a a * dot 3 d r))
    by (unfold dot, cross; ring).
  rewrite G, D, A, DA. ring.
Qed.
(** One of the four normals: [a] then [b], a quarter turn on, of the four directions across the cone. *)
Lemma normal_of d a b t : frame d a -> veq 3 b (cross d a) -> 0 < t ->
  let nv := vneg (normalized 3 (cross (vadd d (vscale t a)) (vadd d (vscale t b)))) in
  dot 3 nv nv = 1 /\ forall r, dot 3 nv r * sqrt (2 + t * t) = dot 3 a r + dot 3 b r - t * dot 3 d r.
Proof.
  intros F B T. destruct (cross_cross d a F) as (X & Y & F'). cbv zeta. set (c := cross _ _).
  assert (C : veq 3 c (vscale t (vsub (vscale t d) (vadd a b)))).
  { intros i Hi. assert (L : c i = t * cross d b i - t * cross d a i + t * t * cross a b i).
    { unfold c. destruct i as [|[|[|i]]]; [..|lia]; unfold cross, vadd, vscale; ring. }
    rewrite L, (cross_ext d b d (cross d a) (veq_refl 3 d) B i Hi), (cross_ext a b a (cross d a) (veq_refl 3 a) B i Hi), (X i Hi), (Y i Hi), <- (B i Hi). unfold vscale, vsub, vadd, vneg. ring. }
  destruct F as [D A DA]. destruct F' as [_ A' DA'].
  assert (BB : dot 3 b b = 1) by (rewrite (dot_ext 3 _ _ _ _ B B); exact A'). assert (DB : dot 3 d b = 0) by (rewrite (dot_ext 3 _ _ _ _ (veq_refl 3 d) B); exact DA').
  assert (AB : dot 3 a b = 0) by (rewrite (dot_ext 3 _ _ _ _ (veq_refl 3 a) B), dot_comm; apply cross_dots).
  assert (CC : dot 3 c c = t * t * (2 + t * t)). { rewrite (dot_ext 3 _ _ _ _ C C). dots. rewrite (dot_comm 3 a d), (dot_comm 3 b d), (dot_comm 3 b a), D, DA, A, BB, DB, AB. ring. }
  assert (T2 : 0 < t * t) by (apply Rmult_lt_0_compat; exact T). set (q := sqrt (2 + t * t)). assert (Q : 0 < q) by (apply sqrt_lt_R0; lra). assert (QQ : q * q = 2 + t * t) by (apply sqrt_sqrt; lra).
  assert (N : norm 3 c = t * q). { apply norm_unique; [apply Rmult_le_pos; lra|]. rewrite CC, <- QQ. ring. }
  assert (P : 0 < norm 3 c) by (rewrite N; apply Rmult_lt_0_compat; assumption). split.
  - rewrite dot_neg_l, dot_neg_r. rewrite <- norm_sq, normalized_unit by exact P. ring.
  - intros r. rewrite dot_neg_l, (normalized_pos 3 c P), N.
    assert (E : dot 3 (fun i => c i / (t * q)) r = dot 3 c r / (t * q)) by (unfold dot; field; lra). rewrite E, (dot_ext 3 c _ r r C (veq_refl 3 r)). dots. field. lra.
Qed.
Lemma tan_acos m : 0 < m < 1 -> let t := tan (acos m) in 0 < t /\ m * m * (1 + t * t) = 1.
Proof.
  intros M. cbv zeta. assert (C : cos (acos m) = m) by (apply cos_acos; lra). pose proof (acos_bound m) as B. pose proof (trig2 (acos m)) as S. rewrite C in S.
  assert (P : 0 < sin (acos m)). { destruct (sin_ge_0 (acos m) (proj1 B) (proj2 B)) as [H|H]; [exact H|]. rewrite <- H in S. assert (m * m < 1 * 1) by (apply Rmult_le_0_lt_compat; lra). lra. }
  unfold tan. rewrite C. split; [apply Rdiv_lt_0_compat; lra|]. apply (Rmult_eq_reg_r 1); [|lra]. transitivity (m * m + sin (acos m) * sin (acos m)); [field; lra | lra].
Qed.
(** The sum of the entries. *)
Definition total (d : vec) : R := d 0%nat + d 1%nat + d 2%nat.
Lemma seed_dots d : dot 3 d d = 1 -> let tmp := vadd (vadd (rejection 3 d (basis 0)) (rejection 3 d (basis 1))) (rejection 3 d (basis 2)) in
  (forall i, (i < 3)%nat -> tmp i = 1 - total d * d i) /\ dot 3 d tmp = 0 /\ dot 3 tmp tmp = 3 - total d * total d.
Proof.
  intros D. cbv zeta. set (tmp := vadd _ _).
  assert (E : forall i, (i < 3)%nat -> tmp i = 1 - total d * d i).
  { assert (B : forall k, (k < 3)%nat -> dot 3 d (basis k) = d k) by (intros [|[|[|k]]] K; try lia; unfold dot, basis; cbn [Nat.eqb]; ring).
    intros i Hi. unfold tmp, vadd, rejection, vsub, projection. rewrite D, (proj2 (Rltb_true 0 1) ltac:(lra)). unfold vscale. rewrite !B by lia. unfold total.
    destruct i as [|[|[|i]]]; [..|lia]; unfold basis; cbn [Nat.eqb]; field. }
  split; [exact E|]. assert (V : veq 3 tmp (fun i => 1 - total d * d i)) by (intros i Hi; apply E; exact Hi). split.
  - rewrite (dot_ext 3 _ _ _ _ (veq_refl 3 d) V). transitivity (total d * (1 - dot 3 d d)); [unfold dot, total; ring | rewrite D; ring].
  - rewrite (dot_ext 3 _ _ _ _ V V). transitivity (3 - 2 * (total d * total d) + total d * total d * dot 3 d d); [unfold dot, total; ring | rewrite D; ring].
Qed.
Definition inside (normals : list vec) (r : vec) : Prop := forall nv, In nv normals -> dot 3 nv r <= 0.
(** C110, for a unit direction away from (1,1,1) and an angle strictly between 0 and a right angle: four unit normals; the pyramid lies within the cone;
    it holds the axis and touches the cone along four rays a quarter turn apart: it is the inscribed pyramid [|x| + |y| <= tan(angle) z]. *)
Theorem C110_pyramid_partial dbg d m : dot 3 d d = 1 -> 1 / 10 ^ 12 < 3 - total d * total d -> 0 < m < 1 ->
  exists normals, cone_pyramid dbg d m = Ok normals /\ length normals = 4%nat /\ (forall nv, In nv normals -> norm 3 nv = 1) /\
    (forall r, inside normals r -> m * norm 3 r <= dot 3 d r) /\
    inside normals d /\
    exists p1 p2, dot 3 p1 p1 = 1 /\ dot 3 p2 p2 = 1 /\ dot 3 d p1 = 0 /\ dot 3 d p2 = 0 /\ dot 3 p1 p2 = 0 /\
      (forall r, inside normals r <-> Rabs (dot 3 p1 r) + Rabs (dot 3 p2 r) <= tan (acos m) * dot 3 d r) /\
      (forall p, In p [p1; p2; vneg p1; vneg p2] -> let r := vscale m (vadd d (vscale (tan (acos m)) p)) in norm 3 r = 1 /\ dot 3 d r = m /\ inside normals r).
Proof.
  intros D T M. destruct (seed_dots d D) as (_ & S1 & S2). unfold cone_pyramid, cassert. set (tmp := vadd (vadd _ _) _) in *.
  assert (NT : 1 / 10 ^ 6 < norm 3 tmp). { destruct (Rlt_le_dec (1 / 10 ^ 6) (norm 3 tmp)) as [L|L]; [exact L|]. exfalso. pose proof (norm_nonneg 3 tmp) as P. pose proof (norm_sq 3 tmp) as Q. rewrite S2 in Q.
    assert (norm 3 tmp * norm 3 tmp <= 1 / 10 ^ 6 * (1 / 10 ^ 6)) by (apply Rmult_le_compat; lra). lra. }
  rewrite (proj2 (Rltb_true _ _) NT). cbn [negb]. rewrite andb_false_r. assert (PT : 0 < norm 3 tmp) by lra.
  set (p1 := normalized 3 tmp). assert (F1 : frame d p1).
  { split; [exact D | rewrite <- norm_sq; unfold p1; rewrite normalized_unit by exact PT; ring |]. unfold p1. rewrite (normalized_pos 3 tmp PT). transitivity (dot 3 d tmp / norm 3 tmp); [unfold dot; field; lra | rewrite S1; field; lra]. }
  destruct (cross_cross d p1 F1) as (X & Y & F2). set (p2 := normalized 3 (cross d p1)).
  assert (N2 : norm 3 (cross d p1) = 1) by (apply norm_unique; [lra | rewrite (f_a _ _ F2); ring]).
  assert (E2 : veq 3 p2 (cross d p1)). { intros i Hi. unfold p2. rewrite normalized_pos by lra. rewrite N2. field. }
  assert (F2' : frame d p2) by (apply (frame_ext d (cross d p1)); [apply veq_sym; exact E2 | exact F2]).
  destruct (tan_acos m M) as [T0 T1]. set (t := tan (acos m)) in *.
  assert (E3 : veq 3 (vneg p1) (cross d p2)). { intros i Hi. rewrite (cross_ext d p2 d (cross d p1) (veq_refl 3 d) E2 i Hi), (X i Hi). reflexivity. }
  assert (E4 : veq 3 (vneg p2) (cross d (vneg p1))). { intros i Hi. unfold vneg at 1. rewrite (E2 i Hi). destruct i as [|[|[|i]]]; [..|lia]; unfold cross, vneg; ring. }
  assert (E1 : veq 3 p1 (cross d (vneg p2))). { intros i Hi. assert (Z : cross d (vneg p2) i = - cross d p2 i) by (destruct i as [|[|[|i]]]; [..|lia]; unfold cross, vneg; ring). rewrite Z, <- (E3 i Hi). unfold vneg. ring. }
  destruct (normal_of d p1 p2 t F1 E2 T0) as [U1 V1]. destruct (normal_of d p2 (vneg p1) t F2' E3 T0) as [U2 V2].
  destruct (normal_of d (vneg p1) (vneg p2) t (frame_neg d p1 F1) E4 T0) as [U3 V3]. destruct (normal_of d (vneg p2) p1 t (frame_neg d p2 F2') E1 T0) as [U4 V4].
  cbv zeta in *. set (n1 := vneg _) in U1, V1 |- *. set (n2 := vneg (normalized 3 (cross _ (vadd d (vscale t (vneg p1)))))) in U2, V2 |- *. set (n3 := vneg (normalized 3 (cross _ (vadd d (vscale t (vneg p2)))))) in U3, V3 |- *.
  set (n4 := vneg (normalized 3 _)) in U4, V4 |- *.
  set (q := sqrt (2 + t * t)) in *. assert (Q : 0 < q) by (apply sqrt_lt_R0; pose proof (Rmult_lt_0_compat _ _ T0 T0); lra).
  assert (LE : forall x y, x * q = y -> (x <= 0 <-> y <= 0)). { intros x y <-. split; intros H; [|destruct (Rle_lt_dec x 0) as [K|K]; [exact K|pose proof (Rmult_lt_0_compat _ _ K Q); lra]]. pose proof (Rmult_le_compat_r q x 0 ltac:(lra) H). lra. }
  assert (IN : forall r, inside [n1; n2; n3; n4] r <-> Rabs (dot 3 p1 r) + Rabs (dot 3 p2 r) <= t * dot 3 d r).
  { intros r. pose proof (LE _ _ (V1 r)) as L1. pose proof (LE _ _ (V2 r)) as L2. pose proof (LE _ _ (V3 r)) as L3. pose proof (LE _ _ (V4 r)) as L4. rewrite !dot_neg_l in *.
    unfold inside. split.
    - intros H. apply proj1 in L1. specialize (L1 (H n1 ltac:(cbn; tauto))). apply proj1 in L2. specialize (L2 (H n2 ltac:(cbn; tauto))). apply proj1 in L3. specialize (L3 (H n3 ltac:(cbn; tauto))). apply proj1 in L4. specialize (L4 (H n4 ltac:(cbn; tauto))). unfold Rabs. destruct (Rcase_abs (dot 3 p1 r)), (Rcase_abs (dot 3 p2 r)); lra.
    - intros H nv [<-|[<-|[<-|[<-|[]]]]]; [apply L1 | apply L2 | apply L3 | apply L4]; revert H; unfold Rabs; destruct (Rcase_abs (dot 3 p1 r)), (Rcase_abs (dot 3 p2 r)); lra. }
  exists [n1; n2; n3; n4]. split; [reflexivity|]. split; [reflexivity|]. split; [intros nv [<-|[<-|[<-|[<-|[]]]]]; apply norm_unique; lra|]. split; [|split; [apply IN|]].
  - intros r H. apply IN in H. pose proof (parseval d p1 r F1) as P. rewrite (dot_ext 3 (cross d p1) p2 r r (veq_sym _ _ _ E2) (veq_refl 3 r)) in P.
    set (x := dot 3 p1 r) in *. set (y := dot 3 p2 r) in *. set (z := dot 3 d r) in *.
    assert (Z : 0 <= z). { destruct (Rle_lt_dec 0 z) as [K|K]; [exact K|]. exfalso. pose proof (Rabs_pos x). pose proof (Rabs_pos y). assert (t * z < 0) by (rewrite <- (Rmult_0_r t); apply Rmult_lt_compat_l; assumption). lra. }
    assert (B : x * x + y * y <= t * z * (t * z)). { pose proof (Rabs_pos x) as X1. pose proof (Rabs_pos y) as Y1. assert (K : (Rabs x + Rabs y) * (Rabs x + Rabs y) <= t * z * (t * z)) by (apply Rmult_le_compat; lra).
      pose proof (Rmult_le_pos _ _ X1 Y1). assert (XX : Rabs x * Rabs x = x * x) by (unfold Rabs; destruct (Rcase_abs x); ring). assert (YY : Rabs y * Rabs y = y * y) by (unfold Rabs; destruct (Rcase_abs y); ring). lra. }
    apply sq_le; [exact Z|]. apply Rle_trans with (m * m * (norm 3 r * norm 3 r)); [right; ring|]. rewrite norm_sq, P.
    apply Rle_trans with (m * m * (1 + t * t) * (z * z)); [|rewrite T1; lra]. assert (MM : 0 <= m * m) by (apply Rmult_le_pos; lra).
    apply Rle_trans with (m * m * (z * z + t * z * (t * z))); [apply Rmult_le_compat_l; lra | right; ring].
  - rewrite (dot_comm 3 p1 d), (dot_comm 3 p2 d), (f_da _ _ F1), (f_da _ _ F2'), D, Rabs_R0. lra.
  - exists p1, p2. destruct F1 as [_ A1 DA1]. destruct F2' as [_ A2 DA2]. assert (A12 : dot 3 p1 p2 = 0) by (rewrite (dot_ext 3 _ _ _ _ (veq_refl 3 p1) E2), dot_comm; apply cross_dots).
    split; [exact A1|]. split; [exact A2|]. split; [exact DA1|]. split; [exact DA2|]. split; [exact A12|]. split; [exact IN|].
    intros p Hp. cbv zeta.
    assert (G : forall p, dot 3 p p = 1 -> dot 3 d p = 0 -> Rabs (dot 3 p1 p) + Rabs (dot 3 p2 p) = 1 -> norm 3 (vscale m (vadd d (vscale t p))) = 1 /\ dot 3 d (vscale m (vadd d (vscale t p))) = m /\ inside [n1; n2; n3; n4] (vscale m (vadd d (vscale t p)))).
    { clear p Hp. intros p P1 P2 P3. split; [|split].
      - apply norm_unique; [lra|]. dots. rewrite (dot_comm 3 p d), P1, P2, D. lra.
      - dots. rewrite D, P2. ring.
      - apply IN. dots. rewrite (dot_comm 3 p1 d), (dot_comm 3 p2 d), DA1, DA2, D, P2. rewrite !Rplus_0_l. rewrite !Rabs_mult, (Rabs_right m), (Rabs_right t) by lra.
        right. transitivity (m * t * (Rabs (dot 3 p1 p) + Rabs (dot 3 p2 p))); [ring | rewrite P3; ring]. }
    destruct Hp as [<-|[<-|[<-|[<-|[]]]]]; apply G; rewrite ?dot_neg_l, ?dot_neg_r, ?(dot_comm 3 p2 p1), ?A1, ?A2, ?DA1, ?DA2, ?A12, ?Rabs_Ropp, ?Rabs_R0, ?Rabs_R1; lra.
Qed.
Print Assumptions C110_pyramid_partial.

Example pyramid_case : dot 3 (basis 0) (basis 0) = 1 /\ 1 / 10 ^ 12 < 3 - total (basis 0) * total (basis 0) /\ 0 < 1 / 2 < 1.
Proof. unfold dot, total, basis; cbn [Nat.eqb]. lra. Qed.
Lemma dot_neg_zero u r : veq 3 u vzero -> dot 3 (vneg (normalized 3 u)) r = 0.
Proof.
  intros Z. rewrite dot_neg_l. assert (U : veq 3 (normalized 3 u) vzero).
  { intros i Hi. unfold normalized. rewrite (dot_ext 3 _ _ _ _ Z Z), dot_zero_l. rewrite (proj2 (Rltb_false 0 0) ltac:(lra)). apply Z. exact Hi. }
  rewrite (dot_ext 3 _ _ _ _ U (veq_refl 3 r)), dot_zero_l. ring.
Qed.
(** "A vector that is guaranteed to be perpendicular to cone_direction, and non-zero" is not: along the diagonal it is zero.  The debug build stops; the
    release build returns four zero vectors, a pyramid that contains every vector, the opposite of the axis too. *)
Theorem C110_diagonal_refuted : exists d m, dot 3 d d = 1 /\ 0 < m < 1 /\ cone_pyramid true d m = AssertFail /\
  exists normals, cone_pyramid false d m = Ok normals /\ forall r, inside normals r.
Proof.
  set (s := / sqrt 3). assert (S3 : 0 < sqrt 3) by (apply sqrt_lt_R0; lra). assert (SS : s * s = / 3). { unfold s. rewrite <- Rinv_mult, sqrt_sqrt by lra. reflexivity. }
  exists (fun _ => s), (1 / 2). assert (D : dot 3 (fun _ => s) (fun _ => s) = 1) by (unfold dot; lra). split; [exact D|]. split; [lra|].
  destruct (seed_dots _ D) as (TE & _ & TT). cbv zeta in *. unfold cone_pyramid, cassert. set (tmp := vadd (vadd _ _) _) in *.
  assert (TZ : veq 3 tmp vzero). { intros i Hi. rewrite (TE i Hi). unfold total, vzero. lra. }
  assert (NZ : norm 3 tmp = 0) by (apply norm_zero; exact TZ). rewrite NZ, (proj2 (Rltb_false (1 / 10 ^ 6) 0) ltac:(lra)). cbn [negb andb]. split; [reflexivity|].
  eexists. split; [reflexivity|].
  assert (P1 : veq 3 (normalized 3 tmp) vzero). { intros i Hi. unfold normalized. rewrite (dot_ext 3 _ _ _ _ TZ TZ), dot_zero_l, (proj2 (Rltb_false 0 0) ltac:(lra)). apply TZ. exact Hi. }
  set (p1 := normalized 3 tmp) in *. set (d := fun _ : nat => s) in *. set (p2 := normalized 3 (cross d p1)).
  assert (P2 : veq 3 p2 vzero). { assert (C : veq 3 (cross d p1) vzero) by (intros i Hi; rewrite (cross_ext d p1 d vzero (veq_refl 3 d) P1 i Hi); destruct i as [|[|[|i]]]; [..|lia]; unfold cross, vzero; ring).
    intros i Hi. unfold p2, normalized. rewrite (dot_ext 3 _ _ _ _ C C), dot_zero_l, (proj2 (Rltb_false 0 0) ltac:(lra)). apply C. exact Hi. }
  assert (R : forall t p, veq 3 p vzero -> veq 3 (vadd d (vscale t p)) d) by (intros t p Hp i Hi; unfold vadd, vscale; rewrite (Hp i Hi); unfold vzero; ring).
  assert (NG : forall p, veq 3 p vzero -> veq 3 (vneg p) vzero) by (intros p Hp i Hi; unfold vneg; rewrite (Hp i Hi); unfold vzero; ring).
  assert (CZ : forall t a b, veq 3 a vzero -> veq 3 b vzero -> veq 3 (cross (vadd d (vscale t a)) (vadd d (vscale t b))) vzero).
  { intros t a b A B i Hi. rewrite (cross_ext _ _ d d (R t a A) (R t b B) i Hi). destruct i as [|[|[|i]]]; [..|lia]; unfold cross, vzero; ring. }
  intros r nv [<-|[<-|[<-|[<-|[]]]]]; right; apply dot_neg_zero, CZ; auto.
Qed.
Print Assumptions C110_diagonal_refuted.
(** A cone of angle zero (only the axis): four zero vectors again, the pyramid contains every vector. *)
Theorem C110_ray_refuted : exists d, dot 3 d d = 1 /\ forall dbg, 1 / 10 ^ 12 < 3 - total d * total d /\
  exists normals, cone_pyramid dbg d 1 = Ok normals /\ (forall r, inside normals r) /\ exists r, ~ 1 * norm 3 r <= dot 3 d r.
Proof.
  exists (basis 0). assert (D : dot 3 (basis 0) (basis 0) = 1) by (unfold dot, basis; cbn [Nat.eqb]; ring). split; [exact D|]. intros dbg.
  assert (T : total (basis 0) = 1) by (unfold total, basis; cbn [Nat.eqb]; ring). rewrite T. split; [lra|].
  destruct (seed_dots _ D) as (_ & _ & TT). cbv zeta in TT. unfold cone_pyramid, cassert. set (tmp := vadd (vadd _ _) _) in *. rewrite T in TT.
  assert (N : 1 / 10 ^ 6 < norm 3 tmp). { pose proof (norm_sq 3 tmp) as Q. pose proof (norm_nonneg 3 tmp). destruct (Rlt_le_dec (1 / 10 ^ 6) (norm 3 tmp)) as [L|L]; [exact L|]. assert (norm 3 tmp * norm 3 tmp <= 1 / 10 ^ 6 * (1 / 10 ^ 6)) by (apply Rmult_le_compat; lra). lra. }
  rewrite (proj2 (Rltb_true _ _) N). cbn [negb]. rewrite andb_false_r. eexists. split; [reflexivity|]. rewrite acos_1, tan_0. split.
  - assert (CZ : forall a b, veq 3 (cross (vadd (basis 0) (vscale 0 a)) (vadd (basis 0) (vscale 0 b))) vzero) by (intros a b; apply veq3; unfold cross, vadd, vscale, vzero; ring).
    intros r nv [<-|[<-|[<-|[<-|[]]]]]; right; apply dot_neg_zero, CZ.
  - exists (vneg (basis 0)). rewrite dot_neg_r, D. pose proof (norm_nonneg 3 (vneg (basis 0))). lra.
Qed.
Print Assumptions C110_ray_refuted.
