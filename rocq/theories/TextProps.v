(** C165: short texts, version tests, rounding of dicts. *)
From Coq Require Import String Ascii Reals Lra Decimal DecimalString DecimalZ DecimalFacts.
From Verif Require Import Base VoxelFloat PrintModel FloatPrintModel FloatPrintProofs FloatPrintProps TextModel.
From Verif Require Import InterpFloatModel InterpFloatProps.
From Verif Require LinkModel PrintProps MathProps.
From Flocq Require Import IEEE754.Bits IEEE754.Binary Core.
Open Scope string_scope.

(** ** Exceptions *)
Lemma uint_free c u : ~ In c (list_ascii_of_string "0123456789") -> free c (NilEmpty.string_of_uint u).
Proof. intros H. unfold free. induction u; cbn; try (intros [E|E]; [subst c; apply H; cbn; tauto|exact (IHu E)]); auto. Qed.
Lemma decimal_free c z : ~ In c (list_ascii_of_string "-0123456789") -> free c (decimal z).
Proof.
  intros H. assert (H' : ~ In c (list_ascii_of_string "0123456789")) by (intros Q; apply H; right; exact Q). unfold decimal, NilZero.string_of_int, NilZero.string_of_uint.
  destruct (Z.to_int z) as [u|u]; [destruct u eqn:E; rewrite <- ?E; try (apply uint_free; exact H')|].
  - cbn. unfold free. cbn. intros [Q|[]]. subst c. apply H'. cbn. tauto.
  - unfold free. cbn [list_ascii_of_string]. intros [Q|Q]; [subst c; apply H; cbn; tauto|]. revert Q. change (free c (match u with Nil => "0" | _ => NilEmpty.string_of_uint u end)).
    destruct u eqn:E; rewrite <- ?E; try (apply uint_free; exact H'). unfold free. cbn. intros [Q|[]]. subst c. apply H'. cbn. tauto.
Qed.
Lemma free_mid c a s : ~ free c (a ++ String c s).
Proof. intros H. apply H. induction a as [|x a IH]; [left; reflexivity|right; apply IH; intros Q; apply H; right; exact Q]. Qed.
Lemma free_last c s s' : free c s -> free c s' -> forall a b, (a ++ String c s = b ++ String c s')%string -> a = b /\ s = s'.
Proof.
  intros F F'. induction a as [|x a IH]; intros [|y b] E; cbn [append] in E.
  - injection E as ->. auto.
  - exfalso. injection E as E1 E2. rewrite E2 in F. exact (free_mid _ _ _ F).
  - exfalso. injection E as E1 E2. rewrite <- E2 in F'. exact (free_mid _ _ _ F').
  - injection E as E1 E2. subst y. destruct (IH b E2) as [-> ->]. auto.
Qed.
Ltac no_member := unfold other; cbn; intuition discriminate.

(** A call of ArcException never returns: it throws the type asked for, and the text tells message, file and line apart when names of
    files have no colon, whatever the message. *)
Theorem C165_exception {T} (t t' : T) file file' line line' message message' :
  (exists what, arc_exception t file line message = Thrown t what) /\
  (free ":" file -> free ":" file' -> arc_exception t file line message = arc_exception t' file' line' message' ->
   t = t' /\ message = message' /\ file = file' /\ line = line').
Proof.
  split; [eexists; reflexivity|]. intros F F' E. unfold arc_exception in E. injection E as -> E. split; [reflexivity|].
  cbn [append] in E.
  assert (A : forall m f l, (m ++ String ":" (String " " (f ++ String ":" (String " " (decimal l)))) = (m ++ String ":" (String " " f)) ++ String ":" (String " " (decimal l)))%string).
  { intros m f l. rewrite append_assoc. reflexivity. }
  assert (G : forall f, free ":" f -> free ":" (String " " f)) by (intros f H [Q|Q]; [discriminate|exact (H Q)]).
  assert (D : forall l, free ":" (String " " (decimal l))) by (intros l; apply G, decimal_free; no_member).
  rewrite !A in E. apply free_last in E; [|apply D|apply D]. destruct E as [E L]. injection L as L. apply PrintProps.decimal_inj in L.
  apply free_last in E; [|apply G, F|apply G, F']. destruct E as [-> E]. injection E as ->. auto.
Qed.
Print Assumptions C165_exception.
(** With a colon in the name of a file the text does not tell them apart. *)
Theorem C165_colon_refuted : exists m m' f f', (m, f) <> (m', f') /\ forall t : unit, arc_exception t f 1 m = arc_exception t f' 1 m'.
Proof. exists "a", "a: b", "b: c", "c". split; [discriminate|reflexivity]. Qed.
Print Assumptions C165_colon_refuted.

(** ** Versions *)
(** The version (a, b, c) is (x, y, z) or a later one. *)
Definition later_or_same (a b c x y z : Z) : Prop := (x < a \/ x = a /\ (y < b \/ y = b /\ z <= c))%Z.
Theorem C165_version a b c x y z :
  (version_at_least a b c x y z = true <-> later_or_same a b c x y z) /\
  (pose_of a b c = Isometry3d <-> later_or_same a b c 1 0 1) /\
  (version_at_least a b c x y z = false -> version_at_least x y z a b c = true) /\
  (version_at_least a b c x y z = true -> version_at_least x y z a b c = true -> (a, b, c) = (x, y, z)).
Proof.
  assert (S : forall a b c x y z, version_at_least a b c x y z = true <-> later_or_same a b c x y z).
  { intros. unfold version_at_least, later_or_same. rewrite !orb_true_iff, !andb_true_iff, !orb_true_iff, !andb_true_iff, !Z.ltb_lt, !Z.leb_le. lia. }
  split; [apply S|]. split; [|split].
  - rewrite <- S. unfold pose_of. destruct (version_at_least a b c 1 0 1); split; auto; discriminate.
  - intros N. apply S. assert (Q : ~ later_or_same a b c x y z) by (rewrite <- S; congruence). unfold later_or_same in *. lia.
  - intros H1 H2. apply S in H1. apply S in H2. unfold later_or_same in *. assert (a = x /\ b = y /\ c = z) as (-> & -> & ->) by lia. reflexivity.
Qed.
Print Assumptions C165_version.

(** ** Joints *)
Lemma joint_peel a b c s s' : clean a -> clean b -> other c -> (a ++ String c s = b ++ String c s')%string -> a = b /\ s = s'.
Proof. intros A B C E. destruct (clean_peel a b c c s s' A B C C E) as (X & _ & Y). auto. Qed.
(** The text of a joint gives its value and its limits to as many digits as the stream shows, in a form that is read in one way. *)
Theorem C165_joint P v lo hi v' lo' hi' : (1 <= P)%Z ->
  (joint_text P v lo hi = joint_text P v' lo' hi' -> alike P v v' /\ alike P lo lo' /\ alike P hi hi') /\
  (Forall (fun x => is_finite 53 1024 x = true) [v; lo; hi] -> exists a b c r s t, joint_text P v lo hi = a ++ "[" ++ b ++ "," ++ c ++ ")" /\
     denotes a r /\ denotes b s /\ denotes c t /\
     (Rabs (r - val v) <= / 2 * bpow ten (1 - P) * Rabs (val v))%R /\ (Rabs (s - val lo) <= / 2 * bpow ten (1 - P) * Rabs (val lo))%R /\ (Rabs (t - val hi) <= / 2 * bpow ten (1 - P) * Rabs (val hi))%R).
Proof.
  intros HP. split.
  - intros E. unfold joint_text in E. apply joint_peel in E; [|apply clean_print|apply clean_print|no_member]. destruct E as [E1 E].
    apply joint_peel in E; [|apply clean_print|apply clean_print|no_member]. destruct E as [E2 E]. apply joint_peel in E; [|apply clean_print|apply clean_print|no_member]. destruct E as [E3 _].
    split; [|split]; apply C157_alike; assumption.
  - intros F. inversion_clear F as [|? ? F1 F']. inversion_clear F' as [|? ? F2 F'']. inversion_clear F'' as [|? ? F3 _].
    destruct (C157_number P v HP F1) as (r & D1 & _ & R1). destruct (C157_number P lo HP F2) as (s & D2 & _ & R2). destruct (C157_number P hi HP F3) as (t & D3 & _ & R3).
    exists (print P v), (print P lo), (print P hi), r, s, t. repeat split; assumption.
Qed.
Print Assumptions C165_joint.
(** The interval is shown as half open, but the upper limit is within the limits: a joint that stands there shows a value that its own interval leaves out. *)
Definition shown_interval (text : string) (x : R) : Prop :=
  exists a b c s t, text = a ++ "[" ++ b ++ "," ++ c ++ ")" /\ clean a /\ clean b /\ clean c /\ denotes b s /\ denotes c t /\ (s <= x < t)%R.
Theorem C165_interval_refuted : exists v lo hi : fl, val v = 1%R /\ val lo = 0%R /\ val hi = 1%R /\ joint_text 6 v lo hi = "1[0,1)" /\
  (exists j, LinkModel.make_joint (LinkModel.Fin 0, LinkModel.Fin 1) (LinkModel.Fin 1) LinkModel.REVOLUTE = Ok j /\ LinkModel.in_limits j (LinkModel.Fin 1) = true /\ LinkModel.j_value j = LinkModel.Fin 1) /\
  ~ shown_interval (joint_text 6 v lo hi) (val v).
Proof.
  assert (E1 : val f_one = 1%R) by apply one_val. assert (E0 : val f_0 = 0%R) by apply zero_val. assert (T : joint_text 6 f_one f_0 f_one = "1[0,1)") by (vm_compute; reflexivity).
  exists f_one, f_0, f_one. rewrite T. split; [exact E1|]. split; [exact E0|]. split; [exact E1|]. split; [reflexivity|]. split.
  - assert (A : LinkModel.eltb (LinkModel.Fin 1) (LinkModel.Fin 0) = false) by (cbn; apply MathProps.Rltb_false; lra). assert (A' : LinkModel.eltb (LinkModel.Fin 1) (LinkModel.Fin 1) = false) by (cbn; apply MathProps.Rltb_false; lra).
    exists (LinkModel.mkJ (LinkModel.Fin 0, LinkModel.Fin 1) (LinkModel.Fin 1) LinkModel.REVOLUTE). unfold LinkModel.make_joint, LinkModel.set_value, LinkModel.enforce_limits, LinkModel.in_limits, LinkModel.is_continuous.
    cbn [LinkModel.j_limits LinkModel.j_type LinkModel.j_value fst snd]. rewrite A, A'. change (LinkModel.REVOLUTE =? LinkModel.CONTINUOUS)%N with false. cbn [orb]. split; [reflexivity|split; reflexivity].
  - intros (a & b & c & s & t & E & A & B & C & D1 & D2 & L). rewrite <- T in E. unfold joint_text in E.
    apply joint_peel in E; [|apply clean_print|exact A|no_member]. destruct E as [_ E]. apply joint_peel in E; [|apply clean_print|exact B|no_member]. destruct E as [_ E]. apply joint_peel in E; [|apply clean_print|exact C|no_member]. destruct E as [E _].
    assert (D : denotes (print 6 f_one) (val f_one)) by (apply (C157_exact 6 f_one 1 0); [lia|reflexivity|reflexivity|rewrite E1; cbn; lra]).
    rewrite E in D. rewrite (C157_unambiguous _ _ _ D2 D) in L. lra.
Qed.
Print Assumptions C165_interval_refuted.

(** ** dict_round *)
(** The keys stay, in their order, each with its value rounded; if rounding a value raises then so does dict_round, with what the first such value raises. *)
Theorem C165_dict {K V W} (round : V -> Z -> outcome W) (d : list (K * V)) places :
  (forall r, dict_round round d places = Ok r <-> Forall2 (fun kv kw => fst kw = fst kv /\ round (snd kv) places = Ok (snd kw)) d r) /\
  ((forall k v, In (k, v) d -> exists w, round v places = Ok w) -> exists r, dict_round round d places = Ok r) /\
  (forall d1 k v d2 e, d = d1 ++ (k, v) :: d2 -> (forall k v, In (k, v) d1 -> exists w, round v places = Ok w) -> round v places = Throw e -> dict_round round d places = Throw e)%list.
Proof.
  split; [|split].
  - induction d as [|[k v] d IH]; intros r; cbn [dict_round].
    + split; [intros E; injection E as <-; constructor|intros H; inversion H; reflexivity].
    + split.
      * destruct (round v places) eqn:E; cbn [obind]; try discriminate. destruct (dict_round round d places) eqn:E2; cbn [obind]; try discriminate. intros Q. injection Q as <-. constructor; [auto|]. apply IH. reflexivity.
      * intros H. inversion H as [|? [k' w] ? r' [A B] F]; subst. cbn [fst snd] in *. subst k'. rewrite B. cbn [obind]. apply IH in F. rewrite F. reflexivity.
  - intros H. induction d as [|[k v] d IH]; cbn [dict_round]; [eexists; reflexivity|]. destruct (H k v (or_introl eq_refl)) as [w ->]. cbn [obind]. destruct IH as [r ->]; [intros k' v' Q; apply (H k' v'); right; exact Q|]. eexists. reflexivity.
  - intros d1 k v d2 e -> H E. induction d1 as [|[k' v'] d1 IH]; cbn [app dict_round]; [rewrite E; reflexivity|]. destruct (H k' v' (or_introl eq_refl)) as [w ->]. cbn [obind]. rewrite IH; [reflexivity|]. intros k'' v'' Q. apply (H k'' v''). right. exact Q.
Qed.
Print Assumptions C165_dict.

(** Hypotheses are met: a name without a colon, a joint with finite limits, a dict that is rounded. *)
Example C165_hyp : free ":" "arc.hpp" /\ arc_exception tt "arc.hpp" 12 "bad: x" = Thrown tt "bad: x: arc.hpp: 12" /\
  forallb (fun x => is_finite 53 1024 x) [f_one; f_0; f_one] = true /\
  dict_round (fun v p => if (0 <=? p)%Z then Ok (v / 10 * 10)%Z else Throw InvalidArgument) [("a", 17%Z); ("b", 23%Z)] 2 = Ok [("a", 10%Z); ("b", 20%Z)].
Proof. split; [unfold free; cbn; intuition discriminate|]. repeat split; vm_compute; reflexivity. Qed.
