(** C140: the trajectories of trajectory_planning.py meet their boundary conditions, and their velocities and accelerations are the derivatives
    of their positions.  Stated with the derivative of the standard library. *)
From Coq Require Import Reals Lra.
From Verif Require Import TotpModel PyPlanModel.
Open Scope R_scope.

Definition pos (s : state) (i : nat) : R := fst (fst s) i.
Definition vel (s : state) (i : nat) : R := snd (fst s) i.
Definition acc (s : state) (i : nat) : R := snd s i.

(** [f] moves as it says: in every coordinate and at every time the velocity is the rate of change of the position and the acceleration that of
    the velocity. *)
Definition consistent (f : R -> state) : Prop :=
  forall i t, derivable_pt_lim (fun s => pos (f s) i) t (vel (f t) i) /\ derivable_pt_lim (fun s => vel (f s) i) t (acc (f t) i).

Lemma poly_deriv a b c d t : derivable_pt_lim (fun s => a + b * s + c * s ^ 2 + d * s ^ 3) t (b + 2 * c * t + 3 * d * t ^ 2).
Proof.
  replace (b + 2 * c * t + 3 * d * t ^ 2) with (0 + b * 1 + c * (INR 2 * t ^ 1) + d * (INR 3 * t ^ 2)) by (cbn; ring).
  apply (derivable_pt_lim_plus (fun s => a + b * s + c * s ^ 2) (fun s => d * s ^ 3)).
  - apply (derivable_pt_lim_plus (fun s => a + b * s) (fun s => c * s ^ 2)).
    + apply (derivable_pt_lim_plus (fun _ => a) (fun s => b * s)); [apply derivable_pt_lim_const|].
      apply (derivable_pt_lim_scal (fun s => s)). apply derivable_pt_lim_id.
    + apply (derivable_pt_lim_scal (fun s => s ^ 2)). apply derivable_pt_lim_pow.
  - apply (derivable_pt_lim_scal (fun s => s ^ 3)). apply derivable_pt_lim_pow.
Qed.
Lemma deriv_ext f g t l : (forall s, f s = g s) -> derivable_pt_lim f t l -> derivable_pt_lim g t l.
Proof. intros E D eps P. destruct (D eps P) as (dl & H). exists dl. intros h. rewrite <- !E. apply H. Qed.

Lemma fn_consistent a b c d : consistent (get_trajectory_fn a b c d).
Proof.
  intros i t. unfold pos, vel, acc, get_trajectory_fn. cbn [fst snd]. split; [apply poly_deriv|].
  pose proof (poly_deriv (b i) (2 * c i) (3 * d i) 0 t) as H.
  replace (2 * c i + 6 * d i * t) with (2 * c i + 2 * (3 * d i) * t + 3 * 0 * t ^ 2) by ring.
  eapply deriv_ext; [|exact H]. intros s. cbn beta. ring.
Qed.

(** For all coefficients. *)
Theorem C140_consistent a_0 a_1 a_2 a_3 : consistent (get_trajectory_fn a_0 a_1 a_2 a_3).
Proof. apply fn_consistent. Qed.
Print Assumptions C140_consistent.

(** The linear trajectory starts at the position asked for and always has the velocity asked for, without acceleration. *)
Theorem C140_linear x_0 v_0 i t :
  let f := get_linear_trajectory x_0 v_0 in
  consistent f /\ pos (f 0) i = x_0 i /\ pos (f t) i = x_0 i + t * v_0 i /\ vel (f t) i = v_0 i /\ acc (f t) i = 0.
Proof.
  intros f. split; [apply fn_consistent|]. unfold f, pos, vel, acc, get_linear_trajectory, get_trajectory_fn. cbn [fst snd].
  repeat split; ring.
Qed.
Print Assumptions C140_linear.

(** The quadratic one starts with position and velocity as asked, is at the goal at the time asked for, and its acceleration is constant. *)
Theorem C140_quadratic x_0 v_0 x_t T i : T <> 0 ->
  let f := get_quadratic_trajectory x_0 v_0 x_t T in
  consistent f /\ pos (f 0) i = x_0 i /\ vel (f 0) i = v_0 i /\ pos (f T) i = x_t i /\ forall s t, acc (f s) i = acc (f t) i.
Proof.
  intros NZ f. split; [apply fn_consistent|]. unfold f, pos, vel, acc, get_quadratic_trajectory, get_trajectory_fn. cbn [fst snd].
  repeat split; intros; field; auto.
Qed.
Print Assumptions C140_quadratic.

(** The cubic one has position and velocity as asked at both ends. *)
Theorem C140_cubic x_0 v_0 x_t v_t T i : T <> 0 ->
  let f := get_cubic_trajectory x_0 v_0 x_t v_t T in
  consistent f /\ pos (f 0) i = x_0 i /\ vel (f 0) i = v_0 i /\ pos (f T) i = x_t i /\ vel (f T) i = v_t i.
Proof.
  intros NZ f. split; [apply fn_consistent|]. unfold f, pos, vel, get_cubic_trajectory, get_trajectory_fn. cbn [fst snd].
  repeat split; field; auto.
Qed.
Print Assumptions C140_cubic.

(** No other cubic polynomial meets the four conditions, so the result is the one a user asks for. *)
Theorem C140_cubic_unique x_0 v_0 x_t v_t T i a b c d : T <> 0 ->
  let g := get_trajectory_fn a b c d in
  pos (g 0) i = x_0 i -> vel (g 0) i = v_0 i -> pos (g T) i = x_t i -> vel (g T) i = v_t i ->
  forall t, pos (g t) i = pos (get_cubic_trajectory x_0 v_0 x_t v_t T t) i.
Proof.
  intros NZ g. unfold g, pos, vel, get_cubic_trajectory, get_trajectory_fn. cbn [fst snd]. intros A B C D t.
  assert (a i = x_0 i) as EA by (rewrite <- A; ring). assert (b i = v_0 i) as EB by (rewrite <- B; ring).
  rewrite <- C, <- D, <- EA, <- EB. field. auto.
Qed.
Print Assumptions C140_cubic_unique.

(** A case: from rest at 0 to rest at 1 in time 2, half way at time 1. *)
Example cubic_case : pos (get_cubic_trajectory (fun _ => 0) (fun _ => 0) (fun _ => 1) (fun _ => 0) 2 1) O = 1 / 2.
Proof. unfold pos, get_cubic_trajectory, get_trajectory_fn. cbn [fst snd]. field. Qed.
