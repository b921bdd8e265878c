(** TruncatedNormalDistribution (arc_helpers.hpp 1007-1151): where the samples lie (C88) and what the acceptance tests accept. *)
From Coq Require Import Reals Lra List Bool Lia.
From Coquelicot Require Import Coquelicot.
From Verif Require Import Base MathModel TotpVec GaussModel.
Import ListNotations.
Open Scope R_scope.

(** A value between two bounds, either of which may be infinite. *)
Definition between (lower upper : bound) (x : R) : Prop := ble lower (Fin x) /\ ble (Fin x) upper.
(** Bounds that describe an interval with a point in it. *)
Definition interval_ok (lower upper : bound) : Prop := exists x, between lower upper x.

Lemma cassert_true {A} dbg c (a : A) : c = true -> cassert dbg c (Ok a) = Ok a.
Proof. intros ->. unfold cassert. rewrite ?andb_false_r. reflexivity. Qed.
Lemma bleb_true x y : bleb x y = true <-> ble x y.
Proof. destruct x, y; cbn; try (split; intros; try discriminate; tauto || exact I || reflexivity). split; [apply Rleb_true|].
  intros H. unfold Rleb. destruct (Rle_dec r r0); [reflexivity | contradiction]. Qed.
Lemma bleb_false x y : bleb x y = false <-> ~ ble x y.
Proof. rewrite <- bleb_true. destruct (bleb x y); split; intros; congruence. Qed.
Lemma root_pos l : 0 < l + sqrt (l * l + 4).
Proof.
  assert (H : 0 <= l * l) by apply Rle_0_sqr.
  assert (Rabs l < sqrt (l * l + 4)). { rewrite <- sqrt_Rsqr_abs. apply sqrt_lt_1; unfold Rsqr; lra. }
  pose proof (Rle_abs (- l)). rewrite Rabs_Ropp in *. lra.
Qed.
Lemma std_le mean sd x r : 0 < sd -> ble (standardize mean sd x) (Fin r) -> ble x (Fin (mean + sd * r)).
Proof.
  intros P H. assert (Q : Rltb 0 sd = true) by (unfold Rltb; destruct (Rlt_dec 0 sd); [reflexivity | contradiction]).
  destruct x; cbn in *; rewrite ?Q in *; cbn in *; try tauto.
  apply (Rmult_le_compat_l sd) in H; [|lra]. unfold Rdiv in H. rewrite (Rmult_comm _ (/ sd)), <- Rmult_assoc, Rinv_r in H; lra.
Qed.
Lemma std_ge mean sd x r : 0 < sd -> ble (Fin r) (standardize mean sd x) -> ble (Fin (mean + sd * r)) x.
Proof.
  intros P H. assert (Q : Rltb 0 sd = true) by (unfold Rltb; destruct (Rlt_dec 0 sd); [reflexivity | contradiction]).
  destruct x; cbn in *; rewrite ?Q in *; cbn in *; try tauto.
  apply (Rmult_le_compat_l sd) in H; [|lra]. unfold Rdiv in H. rewrite (Rmult_comm _ (/ sd)), <- Rmult_assoc, Rinv_r in H; lra.
Qed.
Lemma naive_in lo hi ds x ds' : naive lo hi ds = Ok (x, ds') -> ble lo (Fin x) /\ ble (Fin x) hi.
Proof.
  induction ds as [|[n|e|u|z] ds IH]; cbn [naive]; try discriminate.
  destruct (bleb (Fin n) hi) eqn:A, (bleb lo (Fin n)) eqn:B; cbn [andb]; try exact IH.
  intros E. injection E as <- <-. split; apply bleb_true; assumption.
Qed.
Lemma simple_in t l ds x ds' : Forall (draw_ok t) ds -> simple l ds = Ok (x, ds') -> l <= x /\ Forall (draw_ok t) ds' /\ (length ds' < length ds)%nat.
Proof.
  intros F. remember (length ds) as n eqn:L. assert (Ln : (length ds <= n)%nat) by lia. clear L. revert ds Ln F.
  induction n as [|n IH]; intros ds Ln F.
  { destruct ds; [discriminate | cbn in Ln; lia]. }
  destruct ds as [|[?|e|?|?] [|[?|?|u|?] ds]]; cbn [simple]; try discriminate.
  inversion F as [|? ? He F1]; subst. inversion F1 as [|? ? Hu F2]; subst.
  destruct (Rleb u _).
  - intros E. injection E as <- <-. split; [|split; [exact F2 | cbn in Ln; lia]].
    cbn in He. pose proof (root_pos l) as P. assert (0 <= e / ((l + sqrt (l * l + 4)) / 2)) by (apply div_nonneg; lra). lra.
  - intros E. cbn in Ln. destruct (IH ds) as (A & B & C); [lia | exact F2 | exact E |]. split; [exact A | split; [exact B | lia]].
Qed.
Lemma simple_below_in t k l hi ds x ds' :
  Forall (draw_ok t) ds -> simple_below k l hi ds = Ok (x, ds') -> l <= x /\ ble (Fin x) hi.
Proof.
  revert ds. induction k as [|k IH]; intros ds F; cbn [simple_below]; [discriminate|].
  destruct (simple l ds) as [[z ds1]| | | |] eqn:E; cbn [obind]; try discriminate.
  destruct (simple_in t _ _ _ _ F E) as (A & B & _).
  destruct (bleb (Fin z) hi) eqn:H; [|exact (IH ds1 B)].
  intros E1. injection E1 as <- <-. split; [exact A | apply bleb_true; exact H].
Qed.
Lemma complex_in t l h ds x ds' :
  Forall (draw_ok t) ds -> complex l h ds = Ok (x, ds') -> ble (r_lo t) (Fin x) /\ ble (Fin x) (r_hi t).
Proof.
  intros F. remember (length ds) as n eqn:L. assert (Ln : (length ds <= n)%nat) by lia. clear L. revert ds Ln F.
  induction n as [|n IH]; intros ds Ln F.
  { destruct ds; [discriminate | cbn in Ln; lia]. }
  destruct ds as [|[?|?|?|z] [|[?|?|u|?] ds]]; cbn [complex]; try discriminate.
  inversion F as [|? ? Hz F1]; subst. inversion F1 as [|? ? Hu F2]; subst.
  destruct (Rleb u _).
  - intros E. injection E as <- <-. destruct Hz as [A B]. split; [exact A|]. unfold bltb in B. apply negb_true_iff in B. apply bleb_false in B.
    destruct (r_hi t); cbn in *; try tauto. lra.
  - intros E. cbn in Ln. apply (IH ds); [lia | exact F2 | exact E].
Qed.
Lemma std_ok mean sd lower upper : 0 < sd -> interval_ok lower upper ->
  exists y, between (standardize mean sd lower) (standardize mean sd upper) y.
Proof.
  intros P (x & A & B). exists ((x - mean) / sd).
  assert (Q : Rltb 0 sd = true) by (unfold Rltb; destruct (Rlt_dec 0 sd); [reflexivity | contradiction]).
  assert (I : 0 < / sd) by (apply Rinv_0_lt_compat; exact P).
  split; [destruct lower | destruct upper]; cbn in *; rewrite ?Q; cbn; try tauto; unfold Rdiv; apply Rmult_le_compat_r; lra.
Qed.
Lemma std_shape mean sd x : 0 < sd -> match standardize mean sd x with Fin _ => exists r, x = Fin r | PInf => x = PInf | NInf => x = NInf end.
Proof.
  intros P. assert (Q : Rltb 0 sd = true) by (unfold Rltb; destruct (Rlt_dec 0 sd); [reflexivity | contradiction]).
  destruct x; cbn; rewrite ?Q; eauto.
Qed.

(** What the constructor leaves behind for a positive standard deviation and bounds with a point between them. *)
Definition made (mean sd : R) (lower upper : bound) (t : trunc) : Prop :=
  t_mean t = mean /\ r_lo t = lower /\ r_hi t = upper /\
  ((t_case t <> NoCase /\ t_sd t = sd /\ t_lo t = standardize mean sd lower /\ t_hi t = standardize mean sd upper /\
    (t_case t = Type2 -> exists l, t_lo t = Fin l /\ upper = PInf) /\ (t_case t = Type3 \/ t_case t = Type4 -> exists l h, t_lo t = Fin l /\ t_hi t = Fin h)) \/
   (t_case t = Type2 /\ t_sd t = - sd /\ lower = NInf /\ exists l, t_lo t = Fin l /\ standardize mean sd upper = Fin (- l))).
Lemma trunc_make_made dbg mean sd lower upper : 0 < sd -> interval_ok lower upper ->
  exists t, trunc_make dbg mean sd lower upper = Ok t /\ made mean sd lower upper t.
Proof.
  intros P I. destruct (std_ok mean sd _ _ P I) as (y & Y1 & Y2). unfold trunc_make.
  replace (Reqb (Rabs sd) 0) with false by (symmetry; unfold Reqb; destruct (Req_EM_T (Rabs sd) 0) as [E|]; [rewrite Rabs_right in E; lra | reflexivity]).
  pose proof (std_shape mean sd upper P) as SU. pose proof (std_shape mean sd lower P) as SL.
  remember (standardize mean sd lower) as lo eqn:EL. remember (standardize mean sd upper) as hi eqn:EH.
  destruct lo as [l| |]; cbn in Y1; try tauto; destruct hi as [h| |]; cbn in Y2; try tauto; cbn [bleb bltb bneg negb andb orb].
  - unfold bltb; cbn [bleb negb]. rewrite !andb_false_r. destruct (Rleb 0 h) eqn:A; destruct (Rleb l 0) eqn:B; cbn -[check_simple Rleb cassert]; rewrite ?A; rewrite ?B; cbn -[check_simple Rleb cassert].
    + eexists; split; [apply cassert_true; reflexivity|]. unfold made; cbn. repeat split; left. repeat split; try assumption; try congruence; try discriminate. intros [K|K]; discriminate.
    + destruct (check_simple l h); (eexists; split; [apply cassert_true; reflexivity|]; unfold made; cbn; repeat split; left;
        repeat split; try assumption; try congruence; try discriminate; intros _; exists l, h; split; congruence).
    + destruct (check_simple l h); (eexists; split; [apply cassert_true; reflexivity|]; unfold made; cbn; repeat split; left;
        repeat split; try assumption; try congruence; try discriminate; intros _; exists l, h; split; congruence).
    + apply Rleb_false in A, B. lra.
  - unfold bltb; cbn [bleb negb]. rewrite !andb_true_r. destruct (Rleb l 0) eqn:B; cbn -[check_simple Rleb cassert]; rewrite ?A; rewrite ?B; cbn -[check_simple Rleb cassert].
    + eexists; split; [apply cassert_true; reflexivity|]. unfold made; cbn. repeat split; left. repeat split; try assumption; try congruence; try discriminate. intros [K|K]; discriminate.
    + eexists; split; [apply cassert_true; reflexivity|]. unfold made; cbn. repeat split; left. repeat split; try assumption; try congruence; try discriminate.
      { intros _. exists l. split; congruence. } intros [K|K]; discriminate.
  - unfold bltb; cbn [bleb negb]. rewrite !andb_true_r. destruct (Rleb 0 h) eqn:A; cbn -[check_simple Rleb cassert]; rewrite ?A; cbn -[check_simple Rleb cassert].
    + eexists; split; [apply cassert_true; reflexivity|]. unfold made; cbn. repeat split; left. repeat split; try assumption; try congruence; try discriminate. intros [K|K]; discriminate.
    + replace (Rleb (- h) 0) with false by (symmetry; unfold Rleb; apply Rleb_false in A; destruct (Rle_dec (- h) 0); [lra | reflexivity]).
      cbn [negb orb]. eexists; split; [apply cassert_true; reflexivity|]. unfold made; cbn. repeat split; right. repeat split; try assumption.
      exists (- h). split; [reflexivity | rewrite <- EH; f_equal; lra].
  - unfold bltb; cbn [bleb negb andb orb]. eexists; split; [apply cassert_true; reflexivity|]. unfold made; cbn. repeat split; left. repeat split; try assumption; try congruence; try discriminate. intros [K|K]; discriminate.
Qed.

(** C88: with a positive standard deviation and bounds with a point between them, the constructor succeeds, no sample reads an infinite
    or unset bound, and whatever the generator draws the sample lies within the bounds if the mean lies within them, or one bound is
    infinite, or the simple algorithm is chosen for the standardized bounds. *)
Theorem C88_bounds_partial dbg mean sd lower upper :
  0 < sd -> interval_ok lower upper ->
  exists t, trunc_make dbg mean sd lower upper = Ok t /\
  forall ds, Forall (draw_ok t) ds ->
    (sample t ds = NoFuel \/ exists x ds', sample t ds = Ok (x, ds')) /\
    forall x ds', sample t ds = Ok (x, ds') ->
      (between lower upper mean \/ lower = NInf \/ upper = PInf \/
       (exists l h, lower = Fin l /\ upper = Fin h /\ check_simple ((l - mean) / sd) ((h - mean) / sd) = true)) ->
      between lower upper x.
Proof.
  intros P I. destruct (trunc_make_made dbg mean sd _ _ P I) as (t & E & Em & Erl & Erh & M). exists t. split; [exact E|].
  intros ds F. split.
  - assert (N : forall lo hi ds, naive lo hi ds = NoFuel \/ exists r, naive lo hi ds = Ok r).
    { clear. intros lo hi ds. induction ds as [|[n|e|u|z] ds IH]; cbn [naive]; try (left; reflexivity).
      destruct (_ && _); [right; eexists; reflexivity | exact IH]. }
    assert (Sm : forall l ds, simple l ds = NoFuel \/ exists r, simple l ds = Ok r).
    { clear. intros l ds. remember (length ds) as n eqn:L. assert (Ln : (length ds <= n)%nat) by lia. clear L. revert ds Ln.
      induction n as [|n IH]; intros ds Ln; [destruct ds; [left; reflexivity | cbn in Ln; lia]|].
      destruct ds as [|[?|e|?|?] [|[?|?|u|?] ds]]; cbn [simple]; try (left; reflexivity).
      destruct (Rleb u _); [right; eexists; reflexivity | apply IH; cbn in Ln; lia]. }
    assert (Sb : forall k l hi ds, simple_below k l hi ds = NoFuel \/ exists r, simple_below k l hi ds = Ok r).
    { intros k l hi. clear - Sm. induction k as [|k IH]; intros ds; cbn [simple_below]; [left; reflexivity|].
      destruct (Sm l ds) as [-> | ([z ds1] & ->)]; cbn [obind]; [left; reflexivity|].
      destruct (bleb _ _); [right; eexists; reflexivity | apply IH]. }
    assert (Cx : forall l h ds, complex l h ds = NoFuel \/ exists r, complex l h ds = Ok r).
    { clear. intros l h ds. remember (length ds) as n eqn:L. assert (Ln : (length ds <= n)%nat) by lia. clear L. revert ds Ln.
      induction n as [|n IH]; intros ds Ln; [destruct ds; [left; reflexivity | cbn in Ln; lia]|].
      destruct ds as [|[?|?|?|z] [|[?|?|u|?] ds]]; cbn [complex]; try (left; reflexivity).
      destruct (Rleb u _); [right; eexists; reflexivity | apply IH; cbn in Ln; lia]. }
    unfold sample. destruct M as [(C & Es & El & Eh & M2 & M3)|(C & Es & -> & l & El & Eh)].
    + destruct (t_case t).
      * destruct (N (t_lo t) (t_hi t) ds) as [-> | (r & ->)]; cbn; eauto.
      * destruct (M2 eq_refl) as (l & -> & _). destruct (Sm l ds) as [-> | (r & ->)]; cbn; eauto.
      * destruct (M3 (or_introl eq_refl)) as (l & h & -> & Hh). destruct (Sb (length ds) l (t_hi t) ds) as [-> | (r & ->)]; cbn; eauto.
      * destruct (M3 (or_intror eq_refl)) as (l & h & -> & ->). destruct (Cx l h ds) as [-> | (r & ->)]; cbn; eauto.
      * congruence.
    + rewrite C, El. destruct (Sm l ds) as [-> | (r & ->)]; cbn; eauto.
  - intros x ds' Sx Cond. unfold sample in Sx. destruct M as [(C & Es & El & Eh & M2 & M3)|(C & Es & -> & l & El & Eh)].
    + destruct (t_case t) eqn:K.
      * apply obind_ok in Sx as ([y ds1] & Sy & Ex). cbn in Ex. injection Ex as <- <-. apply naive_in in Sy as [A B].
        rewrite El in A. rewrite Eh in B. rewrite Em, Es. split; [apply std_le | apply std_ge]; assumption.
      * destruct (M2 eq_refl) as (l & Hl & ->). rewrite Hl in Sx. apply obind_ok in Sx as ([y ds1] & Sy & Ex). cbn in Ex. injection Ex as <- <-.
        apply (simple_in t) in Sy as (A & _); [|exact F]. rewrite Em, Es. split; [|exact Logic.I]. apply std_le; [exact P|]. rewrite <- El, Hl. exact A.
      * destruct (M3 (or_introl eq_refl)) as (l & h & Hl & Hh). rewrite Hl in Sx. apply obind_ok in Sx as ([y ds1] & Sy & Ex). cbn in Ex. injection Ex as <- <-.
        apply (simple_below_in t) in Sy as (A & B); [|exact F]. rewrite Em, Es. split; [apply std_le; [exact P|]; rewrite <- El, Hl; exact A | apply std_ge; [exact P|]; rewrite <- Eh; exact B].
      * exfalso. destruct (M3 (or_intror eq_refl)) as (l & h & Hl & Hh). rewrite Hl in El. rewrite Hh in Eh.
        pose proof (std_shape mean sd lower P) as SL. rewrite <- El in SL. pose proof (std_shape mean sd upper P) as SU. rewrite <- Eh in SU.
        destruct SL as (a & ->), SU as (b & ->). cbn in El, Eh. injection El as El. injection Eh as Eh.
        assert (Q : Rltb 0 sd = true) by (unfold Rltb; destruct (Rlt_dec 0 sd); [reflexivity | contradiction]).
        unfold trunc_make in E.
        replace (Reqb (Rabs sd) 0) with false in E by (symmetry; unfold Reqb; destruct (Req_EM_T (Rabs sd) 0) as [E'|]; [rewrite Rabs_right in E'; lra | reflexivity]).
        cbn -[check_simple Rleb cassert] in E. rewrite <- El, <- Eh in *. unfold bltb in E. cbn -[check_simple Rleb cassert] in E.
        rewrite !andb_false_r in E. unfold cassert in E.
        destruct Cond as [[A B]|[?|[?|(a' & b' & Ea & Eb & Ck)]]]; try discriminate.
        -- cbn in A, B. assert (l <= 0). { rewrite El. apply Rmult_le_reg_r with sd; [exact P|]. unfold Rdiv. rewrite Rmult_assoc, Rinv_l; lra. }
           assert (0 <= h). { rewrite Eh. apply Rmult_le_reg_r with sd; [exact P|]. unfold Rdiv. rewrite Rmult_assoc, Rinv_l; lra. }
           assert (R1 : Rleb 0 h = true) by (unfold Rleb; destruct (Rle_dec 0 h); [reflexivity | contradiction]).
           assert (R2 : Rleb l 0 = true) by (unfold Rleb; destruct (Rle_dec l 0); [reflexivity | contradiction]).
           rewrite R1, R2 in E. cbn -[check_simple Rleb] in E. rewrite R2 in E. cbn -[check_simple Rleb] in E. rewrite andb_false_r in E. injection E as <-. discriminate.
        -- injection Ea as <-. injection Eb as <-. rewrite <- El, <- Eh in Ck. rewrite Ck in E.
           destruct (Rleb 0 h) eqn:R1; destruct (Rleb l 0) eqn:R2; cbn -[check_simple Rleb] in E; rewrite ?R2 in E; rewrite ?Ck in E; cbn -[check_simple Rleb] in E;
             rewrite ?andb_false_r in E; injection E as <-; cbn in K; discriminate.
      * congruence.
    + rewrite C, El in Sx. apply obind_ok in Sx as ([y ds1] & Sy & Ex). cbn in Ex. injection Ex as <- <-.
      apply (simple_in t) in Sy as (A & _); [|exact F]. rewrite Em, Es. split; [exact Logic.I|].
      replace (mean + - sd * y) with (mean + sd * (- y)) by ring. apply std_ge; [exact P|]. rewrite Eh. cbn. lra.
Qed.
Print Assumptions C88_bounds_partial.

(** In every case, with a positive standard deviation, a sample is either within the bounds or the unstandardized uniform draw scaled and
    shifted once more: mean + sd * z with z within the bounds. *)
Theorem C88_tail_partial dbg mean sd lower upper t ds x ds' :
  0 < sd -> interval_ok lower upper -> trunc_make dbg mean sd lower upper = Ok t -> Forall (draw_ok t) ds -> sample t ds = Ok (x, ds') ->
  between lower upper x \/ exists z, between lower upper z /\ x = mean + sd * z.
Proof.
  intros P I E F Sx. pose proof (trunc_make_made dbg mean sd lower upper P I) as (t' & E' & M). rewrite E in E'. injection E' as <-.
  pose proof M as (Em & Erl & Erh & M'). destruct M' as [(C & Es & El & Eh & M2 & M3)|(C & Es & -> & l & El & Eh)]; unfold sample in Sx.
  - destruct (t_case t) eqn:K.
    + apply obind_ok in Sx as ([y ds1] & Sy & Ex). cbn in Ex. injection Ex as <- <-. apply naive_in in Sy as [A B].
      rewrite El in A. rewrite Eh in B. rewrite Em, Es. left. split; [apply std_le | apply std_ge]; assumption.
    + destruct (M2 eq_refl) as (l & Hl & ->). rewrite Hl in Sx. apply obind_ok in Sx as ([y ds1] & Sy & Ex). cbn in Ex. injection Ex as <- <-.
      apply (simple_in t) in Sy as (A & _); [|exact F]. rewrite Em, Es. left. split; [|exact Logic.I]. apply std_le; [exact P|]. rewrite <- El, Hl. exact A.
    + destruct (M3 (or_introl eq_refl)) as (l & h & Hl & Hh). rewrite Hl in Sx. apply obind_ok in Sx as ([y ds1] & Sy & Ex). cbn in Ex. injection Ex as <- <-.
      apply (simple_below_in t) in Sy as (A & B); [|exact F]. rewrite Em, Es. left. split; [apply std_le; [exact P|]; rewrite <- El, Hl; exact A | apply std_ge; [exact P|]; rewrite <- Eh; exact B].
    + destruct (M3 (or_intror eq_refl)) as (l & h & Hl & Hh). rewrite Hl, Hh in Sx. apply obind_ok in Sx as ([y ds1] & Sy & Ex). cbn in Ex. injection Ex as <- <-.
      apply (complex_in t) in Sy as (A & B); [|exact F]. rewrite Erl in A. rewrite Erh in B. rewrite Em, Es. right. exists y. repeat split; assumption.
    + congruence.
  - rewrite C, El in Sx. apply obind_ok in Sx as ([y ds1] & Sy & Ex). cbn in Ex. injection Ex as <- <-.
    apply (simple_in t) in Sy as (A & _); [|exact F]. rewrite Em, Es. left. split; [exact Logic.I|].
    replace (mean + - sd * y) with (mean + sd * (- y)) by ring. apply std_ge; [exact P|]. rewrite Eh. cbn. lra.
Qed.
Print Assumptions C88_tail_partial.

(** When the mean lies within the bounds, the sample is made from the first normal draw that lands within them: no draw is accepted
    or rejected for any other reason. *)
Theorem C88_first_accepted dbg mean sd lower upper t pre n ds :
  0 < sd -> between lower upper mean -> trunc_make dbg mean sd lower upper = Ok t ->
  Forall (fun d => exists y, d = Normal y /\ ~ between lower upper (mean + sd * y)) pre -> between lower upper (mean + sd * n) ->
  sample t (pre ++ Normal n :: ds) = Ok (mean + sd * n, ds).
Proof.
  intros P [B1 B2] E Fp [N1 N2].
  assert (I : 0 < / sd) by (apply Rinv_0_lt_compat; exact P).
  assert (Q : Rltb 0 sd = true) by (unfold Rltb; destruct (Rlt_dec 0 sd); [reflexivity | contradiction]).
  assert (Lo : forall y, ble lower (Fin (mean + sd * y)) -> ble (standardize mean sd lower) (Fin y)).
  { intros y. destruct lower; cbn; rewrite ?Q; cbn; try tauto. intros H. apply Rmult_le_reg_l with sd; [exact P|]. unfold Rdiv. rewrite (Rmult_comm (r - mean)), <- Rmult_assoc, Rinv_r; lra. }
  assert (Hi : forall y, ble (Fin (mean + sd * y)) upper -> ble (Fin y) (standardize mean sd upper)).
  { intros y. destruct upper; cbn; rewrite ?Q; cbn; try tauto. intros H. apply Rmult_le_reg_l with sd; [exact P|]. unfold Rdiv. rewrite (Rmult_comm (r - mean)), <- Rmult_assoc, Rinv_r; lra. }
  assert (L0 : ble (standardize mean sd lower) (Fin 0)) by (apply Lo; rewrite Rmult_0_r, Rplus_0_r; exact B1).
  assert (H0 : ble (Fin 0) (standardize mean sd upper)) by (apply Hi; rewrite Rmult_0_r, Rplus_0_r; exact B2).
  assert (Et : t = Trunc mean sd (standardize mean sd lower) (standardize mean sd upper) Type1 lower upper).
  { unfold trunc_make in E.
    replace (Reqb (Rabs sd) 0) with false in E by (symmetry; unfold Reqb; destruct (Req_EM_T (Rabs sd) 0) as [E'|]; [rewrite Rabs_right in E'; lra | reflexivity]).
    apply bleb_true in L0, H0. unfold bltb in E. rewrite L0, H0 in E. cbn [negb andb orb] in E. rewrite L0, H0 in E. cbn [negb andb orb] in E.
    unfold cassert in E. rewrite andb_false_r in E. congruence. }
  subst t. unfold sample. cbn [t_case t_mean t_sd t_lo t_hi].
  assert (En : naive (standardize mean sd lower) (standardize mean sd upper) (pre ++ Normal n :: ds) = Ok (n, ds)).
  { induction Fp as [|d pre (y & -> & Ny) Fp IH]; cbn [app naive].
    - rewrite (proj2 (bleb_true _ _) (Hi n N2)), (proj2 (bleb_true _ _) (Lo n N1)). reflexivity.
    - destruct (bleb (Fin y) _) eqn:A; [|exact IH]. destruct (bleb _ (Fin y)) eqn:B; [|exact IH]. exfalso. apply Ny.
      apply bleb_true in A, B. split; [apply std_le | apply std_ge]; assumption. }
  rewrite En. reflexivity.
Qed.
Print Assumptions C88_first_accepted.

(** The simple algorithm is rejection sampling from the normal distribution above the bound: it accepts the proposal z made from an
    exponential draw e (density exp(-e)) exactly when u times the proposal's density is at most a constant multiple of the normal
    density at z, the multiple never exceeds the proposal's density, and it is the largest such multiple. *)
Theorem C88_acceptance lo :
  exists K step, 0 < K /\ 0 < step /\
  (forall e, K * exp (- ((lo + e / step) * (lo + e / step)) / 2) <= exp (- e)) /\
  (exists e, 0 <= e /\ K * exp (- ((lo + e / step) * (lo + e / step)) / 2) = exp (- e)) /\
  forall e u ds, simple lo (Expo e :: Unit u :: ds) =
    if Rle_dec (u * exp (- e)) (K * exp (- ((lo + e / step) * (lo + e / step)) / 2)) then Ok (lo + e / step, ds) else simple lo ds.
Proof.
  set (a := (lo + sqrt (lo * lo + 4)) / 2). pose proof (root_pos lo) as P. assert (Pa : 0 < a) by (unfold a; lra).
  assert (Al : lo <= a).
  { unfold a. assert (0 <= lo * lo) by apply Rle_0_sqr. assert (Rabs lo <= sqrt (lo * lo + 4)). { rewrite <- sqrt_Rsqr_abs. apply sqrt_le_1; unfold Rsqr; lra. }
    pose proof (Rle_abs lo). lra. }
  assert (Eq : forall e, exp (- (a * a) / 2 + a * lo) * exp (- ((lo + e / a) * (lo + e / a)) / 2) = exp (- ((a - (lo + e / a)) * (a - (lo + e / a))) / 2) * exp (- e)).
  { intros e. rewrite <- !exp_plus. f_equal. field. lra. }
  exists (exp (- (a * a) / 2 + a * lo)), a. split; [apply exp_pos|]. split; [exact Pa|]. split; [|split].
  - intros e. rewrite Eq. rewrite <- (Rmult_1_l (exp (- e))) at 2. apply Rmult_le_compat_r; [left; apply exp_pos|].
    rewrite <- exp_0. assert (H : 0 <= (a - (lo + e / a)) * (a - (lo + e / a))) by apply Rle_0_sqr.
    destruct (Req_dec ((a - (lo + e / a)) * (a - (lo + e / a))) 0) as [-> | Ne]; [right; f_equal; lra | left; apply exp_increasing; lra].
  - exists (a * (a - lo)). split; [apply Rmult_le_pos; lra|]. rewrite Eq. replace (lo + a * (a - lo) / a) with a by (field; lra).
    replace (- ((a - a) * (a - a)) / 2) with 0 by lra. rewrite exp_0. lra.
  - intros e u ds. cbn [simple]. fold a. unfold Rleb. rewrite Eq. pose proof (exp_pos (- e)) as Pe.
    destruct (Rle_dec u _) as [H|H], (Rle_dec (u * _) _) as [G|G]; try reflexivity; exfalso.
    + apply G. apply Rmult_le_compat_r; lra.
    + apply H. apply Rmult_le_reg_r in G; assumption.
Qed.
Print Assumptions C88_acceptance.

(** The general algorithm is rejection sampling too: it accepts the proposal z made with equal density everywhere between the bounds exactly when u is at
    most a constant multiple of the normal density at z; the multiple is at most 1 between the bounds, and 1 somewhere there. *)
Theorem C88_complex_acceptance lo hi : lo < hi -> lo <> 0 -> hi <> 0 ->
  exists K, 0 < K /\ (forall z, lo <= z <= hi -> K * exp (- (z * z) / 2) <= 1) /\ (exists z, lo <= z <= hi /\ K * exp (- (z * z) / 2) = 1) /\
  forall z u ds, complex lo hi (Range z :: Unit u :: ds) = if Rle_dec u (K * exp (- (z * z) / 2)) then Ok (z, ds) else complex lo hi ds.
Proof.
  intros L L0 H0.
  assert (G : forall m, lo <= m <= hi -> (forall z, lo <= z <= hi -> m * m <= z * z) -> 
    (forall z, (if Rltb 0 lo then exp ((lo * lo - z * z) / 2) else if Rltb hi 0 then exp ((hi * hi - z * z) / 2) else if Rltb 0 hi && Rltb lo 0 then exp (- (z * z) / 2) else 0) = exp ((m * m - z * z) / 2)) ->
    exists K, 0 < K /\ (forall z, lo <= z <= hi -> K * exp (- (z * z) / 2) <= 1) /\ (exists z, lo <= z <= hi /\ K * exp (- (z * z) / 2) = 1) /\
    forall z u ds, complex lo hi (Range z :: Unit u :: ds) = if Rle_dec u (K * exp (- (z * z) / 2)) then Ok (z, ds) else complex lo hi ds).
  { intros m Im Mm E. assert (P : forall z, exp (m * m / 2) * exp (- (z * z) / 2) = exp ((m * m - z * z) / 2)) by (intros z; rewrite <- exp_plus; f_equal; field).
    exists (exp (m * m / 2)). split; [apply exp_pos|]. split; [|split].
    - intros z Iz. rewrite P. specialize (Mm z Iz). rewrite <- exp_0. destruct (Req_dec (m * m) (z * z)) as [-> | Ne]; [right; f_equal; lra | left; apply exp_increasing; lra].
    - exists m. split; [exact Im|]. rewrite P, <- exp_0. f_equal. lra.
    - intros z u ds. cbn [complex]. cbv zeta. rewrite E, P. unfold Rleb. destruct (Rle_dec u _); reflexivity. }
  destruct (Rlt_dec 0 lo) as [A|A].
  { apply (G lo); [lra | intros; nra|]. intros z. rewrite (proj2 (Rltb_true _ _) A). reflexivity. }
  assert (A' : Rltb 0 lo = false) by (apply Rltb_false; lra).
  destruct (Rlt_dec hi 0) as [B|B].
  { apply (G hi); [lra | intros; nra|]. intros z. rewrite A', (proj2 (Rltb_true _ _) B). reflexivity. }
  assert (B' : Rltb hi 0 = false) by (apply Rltb_false; lra).
  apply (G 0); [lra | intros; nra|]. intros z. rewrite A', B', (proj2 (Rltb_true 0 hi)), (proj2 (Rltb_true lo 0)) by lra. cbn [andb]. f_equal. lra.
Qed.
Print Assumptions C88_complex_acceptance.

(** Refuted: a sample can lie outside the bounds.  The uniform proposals are drawn from the bounds as given and not from the
    standardized ones: mean 0, standard deviation 1/2, bounds 1 and 11/10 can give 1/2. *)
Lemma witness_check : check_simple 2 (11 / 5) = false.
Proof.
  unfold check_simple, Rltb. destruct (Rlt_dec _ (11 / 5)) as [H|]; [|reflexivity]. exfalso.
  assert (E1 : 1 <= exp 1) by (pose proof (exp_ineq1 1 ltac:(lra)); lra).
  assert (S1 : 1 <= sqrt (exp 1)) by (rewrite <- sqrt_1 at 1; apply sqrt_le_1; lra).
  set (q := sqrt (2 * 2 + 4)) in *. assert (Q2 : q * q = 8) by (unfold q; rewrite sqrt_sqrt; lra).
  assert (Qp : 0 <= q) by apply sqrt_pos. assert (Qb : 14 / 5 <= q <= 283 / 100) by (split; nra).
  set (w := exp ((2 * 2 - 2 * q) / 4)) in *. assert (W : 1 / 2 <= w).
  { unfold w. pose proof (exp_ineq1_le ((2 * 2 - 2 * q) / 4)). lra. }
  set (v := 2 * sqrt (exp 1) / (2 + q)) in *. assert (V : 2 / 5 <= v).
  { unfold v. apply Rmult_le_reg_r with (2 + q); [lra|]. unfold Rdiv at 2. rewrite Rmult_assoc, Rinv_l; lra. }
  nra.
Qed.
Theorem C88_outside_refuted :
  exists mean sd l h t ds x, 0 < sd /\ l < h /\ trunc_make true mean sd (Fin l) (Fin h) = Ok t /\ Forall (draw_ok t) ds /\
  sample t ds = Ok (x, []) /\ x < l.
Proof.
  exists 0, (1 / 2), 1, (11 / 10), (Trunc 0 (1 / 2) (Fin 2) (Fin (11 / 5)) Type4 (Fin 1) (Fin (11 / 10))), [Range 1; Unit 0], (1 / 2).
  split; [lra|]. split; [lra|]. split; [|split; [|split; [|lra]]].
  - unfold trunc_make, standardize. replace (Reqb (Rabs (1 / 2)) 0) with false by (symmetry; unfold Reqb; destruct (Req_EM_T _ 0) as [E|]; [rewrite Rabs_right in E; lra | reflexivity]).
    replace ((1 - 0) / (1 / 2)) with 2 by field. replace ((11 / 10 - 0) / (1 / 2)) with (11 / 5) by field.
    cbn -[check_simple Rleb]. unfold bltb. cbn -[check_simple Rleb].
    assert (R1 : Rleb 2 0 = false) by (unfold Rleb; destruct (Rle_dec 2 0); [lra | reflexivity]).
    assert (R2 : Rleb 0 (11 / 5) = true) by (unfold Rleb; destruct (Rle_dec 0 (11 / 5)); [reflexivity | lra]).
    rewrite ?R1, ?R2. cbn -[check_simple Rleb]. rewrite ?R1, ?R2. cbn -[check_simple Rleb]. rewrite witness_check. reflexivity.
  - apply Forall_cons; [|apply Forall_cons; [cbn; lra | apply Forall_nil]]. cbn. split; [lra|]. unfold bltb; cbn. unfold Rleb. destruct (Rle_dec (11 / 10) 1); [lra | reflexivity].
  - unfold sample. cbn [t_case t_lo t_hi t_mean t_sd complex]. unfold Rleb. destruct (Rle_dec 0 _) as [|N].
    + cbn. f_equal. f_equal. lra.
    + exfalso. apply N. destruct (Rltb 0 2); [left; apply exp_pos|]. destruct (Rltb _ 0); [left; apply exp_pos|]. destruct (_ && _); [left; apply exp_pos | lra].
Qed.
Print Assumptions C88_outside_refuted.

(** Refuted: with a standard deviation of zero the sample is the mean, even when it lies outside the bounds. *)
Theorem C88_zero_deviation_refuted :
  (forall dbg mean lower upper t ds, trunc_make dbg mean 0 lower upper = Ok t -> sample t ds = Ok (mean, ds)) /\
  exists mean l h t, l < h /\ trunc_make true mean 0 (Fin l) (Fin h) = Ok t /\ sample t [] = Ok (mean, []) /\ ~ between (Fin l) (Fin h) mean.
Proof.
  assert (Z : Reqb (Rabs 0) 0 = true) by (rewrite Rabs_R0; unfold Reqb; destruct (Req_EM_T 0 0); [reflexivity | lra]).
  split.
  - intros dbg mean lower upper t ds E. unfold trunc_make in E. rewrite Z in E. injection E as <-. reflexivity.
  - exists 0, 1, 2, (Trunc 0 0 (Fin 0) (Fin 0) NoCase (Fin 1) (Fin 2)). split; [lra|]. split; [unfold trunc_make; rewrite Z; reflexivity|].
    split; [reflexivity|]. intros [H _]. cbn in H. lra.
Qed.
Print Assumptions C88_zero_deviation_refuted.

(** A case that meets the hypotheses of C88_bounds_partial: mean 0, standard deviation 1, the half line above 1. *)
Example half_line_case :
  interval_ok (Fin 1) PInf /\ exists t, trunc_make true 0 1 (Fin 1) PInf = Ok t /\ Forall (draw_ok t) [Expo 0; Unit 0] /\ sample t [Expo 0; Unit 0] = Ok (1, []).
Proof.
  split; [exists 1; split; cbn; [lra | exact Logic.I]|].
  destruct (trunc_make_made true 0 1 (Fin 1) PInf) as (t & E & M); [lra | exists 1; split; cbn; [lra | exact Logic.I] |]. exists t. split; [exact E|].
  split; [apply Forall_cons; [|apply Forall_cons; [|apply Forall_nil]]; cbn; lra|].
  assert (K : t = Trunc 0 1 (Fin ((1 - 0) / 1)) PInf Type2 (Fin 1) PInf).
  { unfold trunc_make in E. replace (Reqb (Rabs 1) 0) with false in E by (symmetry; unfold Reqb; destruct (Req_EM_T _ 0) as [E'|]; [rewrite Rabs_right in E'; lra | reflexivity]).
    assert (Q1 : Rltb 0 1 = true) by (unfold Rltb; destruct (Rlt_dec 0 1); [reflexivity | lra]). cbn [standardize] in E. rewrite Q1 in E. unfold bltb in E. cbn -[Rleb] in E.
    assert (R1 : Rleb ((1 - 0) / 1) 0 = false) by (unfold Rleb; destruct (Rle_dec _ 0); [lra | reflexivity]). rewrite R1 in E. cbn -[Rleb] in E. rewrite ?R1 in E. cbn -[Rleb] in E. congruence. }
  subst t. unfold sample. cbn [t_case t_lo t_mean t_sd simple]. unfold Rleb. destruct (Rle_dec 0 _) as [|N]; [|exfalso; apply N; left; apply exp_pos].
  cbn. f_equal. f_equal. pose proof (root_pos ((1 - 0) / 1)). field. lra.
Qed.
