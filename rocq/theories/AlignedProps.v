(** C137: Aligned4Vector3 computes with 3D vectors. *)
From Coq Require Import Reals Lra Psatz.
From Flocq Require Import IEEE754.Bits IEEE754.Binary.
From Verif Require Import CostFloat.
From Verif Require Import Base MathModel GeoModel AlignedModel.
Open Scope R_scope.

(** The real numbers as scalars; over them the order of a sum does not matter. *)
Definition RS : scalar :=
  {| sc := R; s0 := 0; s1 := 1; sadd := Rplus; ssub := Rminus; smul := Rmult; sdiv := Rdiv; ssqrt := sqrt;
     sis1 := fun x => if Req_EM_T x 1 then true else false; ssum4 := fun x y z w => x + y + z + w |}.

(** What the user sees of an object: its three coordinates. *)
Definition view (a : A4 RS) : V3 := mkV (ax a) (ay a) (az a).

(** The same statements on plain 3D vectors. *)
Definition ref_step (m : nat -> V3) (c : stmt RS) : nat -> V3 :=
  match c with
  | SSet i x y z => put m i (mkV x y z)
  | SCopy i j => put m i (m j)
  | SAdd i j k => put m i (vadd (m j) (m k))
  | SSub i j k => put m i (vsub (m j) (m k))
  | SMul i j s => put m i (vscale s (m j))
  | SMulLeft i s j => put m i (vscale s (m j))
  | SDiv i j s => put m i (vdivs (m j) s)
  | SFrom3 i x y z => put m i (mkV x y z)
  | SCross i j k => put m i (vcross (m j) (m k))
  | SNormalized i j => put m i (vdivs (m j) (vnorm (m j)))
  | SAddAssign i j => put m i (vadd (m i) (m j))
  | SSubAssign i j => put m i (vsub (m i) (m j))
  | SMulAssign i s => put m i (vscale s (m i))
  | SDivAssign i s => put m i (vdivs (m i) s)
  | SNormalize i => put m i (vdivs (m i) (vnorm (m i)))
  end.
Definition ref_exec (m : nat -> V3) (p : list (stmt RS)) : nat -> V3 := fold_left ref_step p m.

(** Statements that make a new vector, and statements that change one in place. *)
Definition fresh (c : stmt RS) : bool :=
  match c with SAddAssign _ _ | SSubAssign _ _ | SMulAssign _ _ | SDivAssign _ _ | SNormalize _ => false | _ => true end.
(** Statements that read a length. *)
Definition measures (c : stmt RS) : bool := match c with SNormalized _ _ | SNormalize _ => true | _ => false end.

(** Variables not yet assigned are the zero vector. *)
Definition start : nat -> A4 RS := fun _ => a_default RS.
Definition ref_start : nat -> V3 := fun _ => vzero.

Ltac v3 := unfold view; cbn; unfold vadd, vsub, vscale, vdivs, vcross; cbn; f_equal; try ring; try (unfold Rdiv; ring).

Lemma put_view m i v j : view (put m i v j) = put (fun n => view (m n)) i (view v) j.
Proof. unfold put. destruct (j =? i)%nat; reflexivity. Qed.

Lemma put_ext {T} (m m' : nat -> T) i v v' : (forall j, m j = m' j) -> v = v' -> forall j, put m i v j = put m' i v' j.
Proof. intros H -> j. unfold put. destruct (j =? i)%nat; auto. Qed.

Lemma sis1_1 : sis1 RS 1 = true.
Proof. cbn. destruct (Req_EM_T 1 1); lra. Qed.

Lemma dot_ok dbg (a b : A4 RS) : aw a = 1 -> aw b = 1 -> a_dot dbg a b = Ok (vdot (view a) (view b)).
Proof.
  intros A B. unfold a_dot, cassert. rewrite A, B, sis1_1, !Bool.andb_false_r. f_equal. unfold vdot. cbn. ring.
Qed.

Lemma sq_ok dbg (a : A4 RS) : aw a = 1 -> a_squared_norm dbg a = Ok (vdot (view a) (view a)).
Proof.
  intros A. unfold a_squared_norm, cassert. rewrite A, sis1_1, !Bool.andb_false_r. f_equal. unfold vdot. cbn. ring.
Qed.

Lemma norm_ok dbg (a : A4 RS) : aw a = 1 -> a_norm dbg a = Ok (vnorm (view a)).
Proof. intros A. unfold a_norm. rewrite sq_ok by auto. reflexivity. Qed.

Definition good (m : nat -> A4 RS) : Prop := forall i, aw (m i) = 1.

Lemma good_put m i (v : A4 RS) : good m -> aw v = 1 -> good (put m i v).
Proof. intros H V j. unfold put. destruct (j =? i)%nat; auto. Qed.

Lemma step_fresh dbg m r c : good m -> (forall i, view (m i) = r i) -> fresh c = true ->
  exists m', step dbg m c = Ok m' /\ good m' /\ forall i, view (m' i) = ref_step r c i.
Proof.
  intros G V F.
  assert (OK : forall i (v : A4 RS) u, aw v = 1 -> view v = u ->
    exists m', Ok (put m i v) = Ok m' /\ good m' /\ forall j, view (m' j) = put r i u j).
  { intros i v u W VU. eexists. split; [reflexivity|]. split; [apply good_put; auto|]. intros j. rewrite put_view. apply put_ext; auto. }
  destruct c; try discriminate; cbn [step ref_step]; try (apply OK; [try reflexivity; try apply G|rewrite <- ?V; try (v3; fail)]).
  unfold a_normalized. rewrite norm_ok by auto. cbn [obind]. apply OK; [reflexivity|]. rewrite <- V. v3.
Qed.

(** Programs made of constructors, copies, binary operators, cross products and normalized copies: no assertion fails, the coordinates are
    those of the same program on 3D vectors, and so are dot products, sums of entries, squared lengths and lengths. *)
Theorem C137_values_partial dbg p : forallb fresh p = true ->
  exists m, exec dbg start p = Ok m /\
    (forall i, view (m i) = ref_exec ref_start p i) /\
    (forall i j, a_dot dbg (m i) (m j) = Ok (vdot (ref_exec ref_start p i) (ref_exec ref_start p j))) /\
    (forall i, let v := ref_exec ref_start p i in
       a_sum dbg (m i) = Ok (vx v + vy v + vz v) /\ a_squared_norm dbg (m i) = Ok (vdot v v) /\ a_norm dbg (m i) = Ok (vnorm v)).
Proof.
  intros F.
  assert (GEN : forall p m r, good m -> (forall i, view (m i) = r i) -> forallb fresh p = true ->
    exists m', exec dbg m p = Ok m' /\ good m' /\ forall i, view (m' i) = ref_exec r p i).
  { clear. induction p as [|c p IH]; intros m r G V F; cbn in *; [eauto|].
    apply andb_true_iff in F as [Fc F]. destruct (step_fresh dbg m r c G V Fc) as (m' & -> & G' & V'). cbn. apply IH; auto. }
  destruct (GEN p start ref_start) as (m & E & G & V); auto.
  { intros i. reflexivity. }
  exists m. split; [auto|]. split; [auto|]. split.
  - intros i j. rewrite dot_ok by auto. rewrite !V. reflexivity.
  - intros i v. subst v. rewrite <- V. split; [|split; [apply sq_ok; auto|apply norm_ok; auto]].
    unfold a_sum, cassert. rewrite (G i), sis1_1, Bool.andb_false_r. f_equal. cbn. ring.
Qed.
Print Assumptions C137_values_partial.

(** With the statements that change a vector in place too, but no normalization, the coordinates are still right. *)
Theorem C137_coordinates_partial dbg p : forallb (fun c => negb (measures c)) p = true ->
  exists m, exec dbg start p = Ok m /\ forall i, view (m i) = ref_exec ref_start p i.
Proof.
  intros F.
  assert (GEN : forall p m r, (forall i, view (m i) = r i) -> forallb (fun c => negb (measures c)) p = true ->
    exists m', exec dbg m p = Ok m' /\ forall i, view (m' i) = ref_exec r p i).
  { clear. induction p as [|c p IH]; intros m r V F; cbn [forallb exec ref_exec fold_left] in *; [eauto|].
    apply andb_true_iff in F as [Fc F].
    assert (exists m', step dbg m c = Ok m' /\ forall i, view (m' i) = ref_step r c i) as (m' & -> & V').
    { assert (OK : forall i v u, view v = u -> exists m', Ok (put m i v) = Ok m' /\ forall j, view (m' j) = put r i u j).
      { intros i v u VU. eexists. split; [reflexivity|]. intros j. rewrite put_view. apply put_ext; auto. }
      destruct c; try discriminate; cbn [step ref_step]; apply OK; rewrite <- ?V; v3. }
    cbn [obind]. apply IH; auto. }
  apply GEN; auto.
Qed.
Print Assumptions C137_coordinates_partial.

(** After any change in place of well formed vectors, reading a length stops a build with assertions, unless the change was by the factor 1;
    a build without assertions gets a wrong length. *)
Theorem C137_in_place_refuted : forall a b : A4 RS, aw a = 1 -> aw b = 1 ->
  a_norm true (a_add_assign a b) = AssertFail /\ a_squared_norm false (a_add_assign a b) = Ok (vdot (vadd (view a) (view b)) (vadd (view a) (view b)) + 3) /\
  a_norm true (a_sub_assign a b) = AssertFail /\ a_squared_norm false (a_sub_assign a b) = Ok (vdot (vsub (view a) (view b)) (vsub (view a) (view b)) - 1) /\
  (forall s, s <> 1 -> a_norm true (a_mul_assign a s) = AssertFail) /\
  (forall s, a_squared_norm false (a_mul_assign a s) = Ok (vdot (vscale s (view a)) (vscale s (view a)) + (s * s - 1))) /\
  (forall s, s <> 0 -> s <> 1 -> a_norm true (a_div_assign a s) = AssertFail).
Proof.
  intros a b A B.
  assert (NA : forall v : A4 RS, aw v <> 1 -> a_norm true v = AssertFail).
  { intros v V. unfold a_norm, a_squared_norm, cassert. cbn. destruct (Req_EM_T (aw v) 1); [contradiction|reflexivity]. }
  unfold a_add_assign, a_sub_assign, a_mul_assign, a_div_assign.
  split; [apply NA; cbn; lra|]. split; [unfold a_squared_norm, cassert; cbn; rewrite A, B; unfold vdot; cbn; f_equal; ring|].
  split; [apply NA; cbn; lra|]. split; [unfold a_squared_norm, cassert; cbn; rewrite A, B; unfold vdot; cbn; f_equal; ring|].
  split; [intros s S1; apply NA; cbn; rewrite A; lra|]. split.
  - intros s. unfold a_squared_norm, cassert. cbn. rewrite A. unfold vdot. cbn. f_equal. ring.
  - intros s S0 S1. apply NA. cbn. rewrite A. intros E. apply S1. unfold Rdiv in E. rewrite Rmult_1_l in E.
    rewrite <- (Rinv_inv s). rewrite E. lra.
Qed.
Print Assumptions C137_in_place_refuted.

(** normalize() of a vector whose length is neither 0 nor 1: the coordinates are right, but a second normalize() stops a build with
    assertions, and makes a vector that is not of length 1 in a build without. *)
Theorem C137_normalize_refuted : forall a : A4 RS, aw a = 1 -> vnorm (view a) <> 0 -> vnorm (view a) <> 1 ->
  exists u, a_normalize true a = Ok u /\ a_normalize false a = Ok u /\ vnorm (view u) = 1 /\
    a_norm true u = AssertFail /\ a_normalize true u = AssertFail /\
    a_norm false u = Ok (/ vnorm (view a)) /\
    exists u', a_normalize false u = Ok u' /\ vnorm (view u') = vnorm (view a).
Proof.
  intros a A N0 N1. set (n := vnorm (view a)) in *.
  assert (P : 0 < n). { pose proof (sqrt_pos (vdot (view a) (view a))). unfold n, vnorm in *. lra. }
  assert (SQ : n * n = vdot (view a) (view a)).
  { unfold n, vnorm. apply sqrt_sqrt. unfold vdot. pose proof (Rle_0_sqr (vx (view a))). pose proof (Rle_0_sqr (vy (view a))).
    pose proof (Rle_0_sqr (vz (view a))). unfold Rsqr in *. lra. }
  set (u := map1 (fun x => sdiv RS x n) a).
  assert (EU : forall dbg, a_normalize dbg a = Ok u). { intros dbg. unfold a_normalize. rewrite norm_ok by auto. reflexivity. }
  assert (W : aw u <> 1).
  { unfold u. cbn. rewrite A. unfold Rdiv. rewrite Rmult_1_l. intros E. apply N1. rewrite <- (Rinv_inv n). rewrite E. lra. }
  assert (NU : vdot (view u) (view u) = 1).
  { assert (IN : n * / n = 1) by (apply Rinv_r; lra). transitivity (vdot (view a) (view a) * (/ n * / n)).
    - unfold vdot, u. cbn. unfold Rdiv. ring.
    - rewrite <- SQ. transitivity ((n * / n) * (n * / n)); [ring|rewrite IN; ring]. }
  assert (AF : a_norm true u = AssertFail).
  { unfold a_norm, a_squared_norm, cassert. cbn [negb andb]. replace (sis1 RS (aw u)) with false; [reflexivity|].
    cbn. destruct (Req_EM_T _ 1); [contradiction|reflexivity]. }
  assert (NF : a_norm false u = Ok (/ n)).
  { unfold a_norm. assert (a_squared_norm false u = Ok (vdot (view u) (view u) + (aw u * aw u - 1))) as ->.
    { unfold a_squared_norm, cassert. cbn [andb]. f_equal. unfold vdot. cbn. ring. }
    cbn [obind]. f_equal. rewrite NU. change (ssqrt RS) with sqrt. replace (1 + (aw u * aw u - 1)) with (/ n * / n).
    - apply sqrt_square. left. apply Rinv_0_lt_compat. auto.
    - unfold u. cbn. rewrite A. unfold Rdiv. ring. }
  exists u. split; [auto|]. split; [auto|]. split; [unfold vnorm; rewrite NU; apply sqrt_1|]. split; [auto|]. split.
  { unfold a_normalize. rewrite AF. reflexivity. }
  split; [auto|]. exists (map1 (fun x => sdiv RS x (/ n)) u). split; [unfold a_normalize; rewrite NF; reflexivity|].
  unfold vnorm at 1. transitivity (sqrt (n * n)); [f_equal|apply sqrt_square; lra].
  transitivity (vdot (view u) (view u) * (n * n)); [|rewrite NU; ring].
  unfold vdot. cbn. unfold Rdiv. rewrite !Rinv_inv. ring.
Qed.
Print Assumptions C137_normalize_refuted.

(** The machine's doubles, with the two orders in which Eigen adds up four products: without vectorization ((x + y) + z) + w, with packets
    of two (x + z) + (y + w). *)
Definition b64_sum_plain (x y z w : binary64) : binary64 :=
  let p := b64_plus BinarySingleNaN.mode_NE in p (p (p x y) z) w.
Definition b64_sum_packets (x y z w : binary64) : binary64 :=
  let p := b64_plus BinarySingleNaN.mode_NE in p (p x z) (p y w).
Definition DS (sum4 : binary64 -> binary64 -> binary64 -> binary64 -> binary64) : scalar :=
  {| sc := binary64; s0 := b64_zero; s1 := d64 0x3ff0000000000000;
     sadd := b64_plus BinarySingleNaN.mode_NE; ssub := b64_minus BinarySingleNaN.mode_NE; smul := b64_mult BinarySingleNaN.mode_NE;
     sdiv := b64_div BinarySingleNaN.mode_NE; ssqrt := b64_sqrt BinarySingleNaN.mode_NE;
     sis1 := fun x => match b64_compare x (d64 0x3ff0000000000000) with Some Eq => true | _ => false end; ssum4 := sum4 |}.

Definition is_zero64 (x : binary64) : bool := match x with B754_zero _ _ _ => true | _ => false end.
Definition is_inf64 (x : binary64) : bool := match x with B754_infinity _ _ s => negb s | _ => false end.
Lemma ok_test {A} (o : outcome A) (f : A -> bool) : match o with Ok a => f a | _ => false end = true -> exists a, o = Ok a /\ f a = true.
Proof. destruct o; try discriminate. eauto. Qed.

(** In doubles even a freshly made vector (1e-9, 0, 0) has length 0, as the 1 in the fourth entry swallows the squares: its normalized copy
    has an infinite coordinate. *)
Theorem C137_short_vector_refuted : forall sum4, sum4 = b64_sum_plain \/ sum4 = b64_sum_packets ->
  exists x : binary64, b64_compare x b64_zero = Some Gt /\
    (exists n, a_norm true (@a_make (DS sum4) x b64_zero b64_zero) = Ok n /\ b64_compare n b64_zero = Some Eq) /\
    (exists u, a_normalized true (@a_make (DS sum4) x b64_zero b64_zero) = Ok u /\ ax u = b64_inf).
Proof.
  intros sum4 H. exists (d64 0x3e112e0be826d695). split; [vm_compute; reflexivity|]. split.
  - destruct (ok_test (a_norm true (@a_make (DS sum4) (d64 0x3e112e0be826d695) b64_zero b64_zero)) is_zero64) as (n & E & Z).
    + destruct H as [-> | ->]; vm_compute; reflexivity.
    + exists n. split; [exact E|]. destruct n; try discriminate. reflexivity.
  - destruct (ok_test (a_normalized true (@a_make (DS sum4) (d64 0x3e112e0be826d695) b64_zero b64_zero)) (fun u => is_inf64 (ax u)))
      as (u & E & Z).
    + destruct H as [-> | ->]; vm_compute; reflexivity.
    + exists u. split; [exact E|]. destruct (ax u) as [|[]| |]; try discriminate. reflexivity.
Qed.
Print Assumptions C137_short_vector_refuted.

Definition aligned_prog : list (stmt RS) :=
  [@SSet RS 1 3 0 0; @SSet RS 2 0 4 0; SAdd 3 1 2; SCross 4 1 2; @SDiv RS 5 4 12].
Example aligned_case :
  exists m, exec true start aligned_prog = Ok m /\ view (m 5%nat) = mkV 0 0 1 /\ a_squared_norm true (m 3%nat) = Ok (25 : sc RS).
Proof.
  destruct (C137_values_partial true aligned_prog eq_refl) as (m & E & V & _ & N).
  exists m. split; [exact E|]. split.
  - rewrite V. cbn. unfold vdivs. cbn. f_equal; field.
  - destruct (N 3%nat) as (_ & -> & _). cbn. unfold vdot. cbn. f_equal. ring.
Qed.
