(** C136: what PrettyPrint says about what it was given. *)
From Coq Require Import String Ascii Decimal DecimalString DecimalZ DecimalFacts.
From Verif Require Import Base PrintModel.
Open Scope string_scope.

(** ** The specification *)
(** Whole numbers and booleans, and pairs and containers of them. *)
Fixpoint plain (t : ty) : Prop :=
  match t with TInt | TBool => True | TChar | TString => False | TPair a b => plain a /\ plain b | TSeq _ t => plain t end.
(** A single value: no container in it. *)
Fixpoint single (t : ty) : Prop :=
  match t with TPair a b => single a /\ single b | TSeq _ _ => False | _ => True end.
(** A separator that does not begin with a letter, a digit, a minus sign or a bracket; what follows is free. *)
Definition word_char (c : ascii) : bool :=
  let n := nat_of_ascii c in
  ((48 <=? n)%nat && (n <=? 57)%nat) || ((97 <=? n)%nat && (n <=? 122)%nat) || Ascii.eqb c "-".
Definition bracket (c : ascii) : bool := existsb (Ascii.eqb c) ["["; "]"; "("; ")"; "{"; "}"; "<"; ">"]%char.
Definition good_separator (s : string) : Prop :=
  match s with "" => False | String c _ => word_char c = false /\ bracket c = false end.

(** ** Proofs *)
Lemma app_assoc_s : forall a b c : string, (a ++ b) ++ c = a ++ (b ++ c).
Proof. induction a as [|x a IH]; intros; cbn; [reflexivity|now rewrite IH]. Qed.
Lemma app_nil_s : forall a, a ++ "" = a.
Proof. induction a as [|x a IH]; cbn; [reflexivity|now rewrite IH]. Qed.
Fixpoint all_word (s : string) : bool := match s with "" => true | String c s => word_char c && all_word s end.
(** What may follow a value. *)
Definition stops (r : string) : Prop :=
  match r with "" => True | String c _ => word_char c = false /\ existsb (Ascii.eqb c) ["["; "("; "{"; "<"]%char = false end.
Definition unique (add : bool) (sep : string) (t : ty) : Prop :=
  forall x y r1 r2, stops r1 -> stops r2 -> pretty add sep t x ++ r1 = pretty add sep t y ++ r2 -> x = y /\ r1 = r2.

Lemma word_prefix : forall a b r1 r2, all_word a = true -> all_word b = true -> stops r1 -> stops r2 -> a ++ r1 = b ++ r2 -> a = b /\ r1 = r2.
Proof.
  induction a as [|c a IH]; intros [|c' b] r1 r2 A B S1 S2 E; cbn in *.
  - auto.
  - subst r1. cbn in S1. apply Bool.andb_true_iff in B as [B _]. destruct S1 as [S1 _]. congruence.
  - subst r2. cbn in S2. apply Bool.andb_true_iff in A as [A _]. destruct S2 as [S2 _]. congruence.
  - injection E as <- E. apply Bool.andb_true_iff in A as [_ A], B as [_ B].
    destruct (IH b r1 r2 A B S1 S2 E) as [-> ->]. auto.
Qed.

Lemma uint_word : forall d, all_word (NilEmpty.string_of_uint d) = true.
Proof. induction d; cbn; auto. Qed.
Lemma decimal_word z : all_word (decimal z) = true.
Proof.
  unfold decimal. destruct (Z.to_int z) as [d|d]; cbn.
  - destruct d; cbn; try apply uint_word; reflexivity.
  - destruct d; cbn; try apply uint_word; reflexivity.
Qed.
Lemma decimal_inj : forall a b, decimal a = decimal b -> a = b.
Proof.
  assert (N : forall z, Z.to_int z <> Pos Nil /\ Z.to_int z <> Neg Nil).
  { intros z. split; intros E; pose proof (DecimalZ.of_to z) as F; rewrite E in F; cbn in F; subst z; discriminate E. }
  intros a b E. unfold decimal in E. apply (f_equal NilZero.int_of_string) in E.
  rewrite !NilZero.isi in E by apply N. injection E as E.
  now rewrite <- (DecimalZ.of_to a), E, DecimalZ.of_to.
Qed.
Lemma bool_word (b : bool) : all_word (if b then "true" else "false") = true.
Proof. destruct b; reflexivity. Qed.

(** The elements, one after the other. *)
Fixpoint joined (sep : string) (l : list string) : string :=
  match l with [] => "" | x :: l => sep ++ (x ++ joined sep l) end.
Lemma elements_joined sep l : forall x, elements sep (x :: l) = x ++ joined sep l.
Proof.
  cbn. induction l as [|y l IH]; intros x; cbn; [now rewrite app_nil_s|].
  rewrite IH, !app_assoc_s. reflexivity.
Qed.
Lemma app_inv_s : forall a r1 r2, a ++ r1 = a ++ r2 -> r1 = r2.
Proof. induction a as [|c a IH]; intros r1 r2 E; cbn in E; [exact E|injection E as E; auto]. Qed.

Section Unique.
Variables (add : bool) (sep : string).
Hypothesis Sep : good_separator sep.
Lemma sep_stops r : stops (sep ++ r).
Proof.
  destruct sep as [|c s]; [easy|]. cbn in Sep |- *. destruct Sep as [W B]. split; [exact W|].
  unfold bracket in B. cbn [existsb] in B |- *. repeat (apply Bool.orb_false_iff in B as [? B]).
  repeat (apply Bool.orb_false_iff; split); assumption.
Qed.
(** The elements of two containers, up to the end. *)
Lemma joined_unique t (U : unique add sep t) (stop : string -> Prop) :
  (forall r, stop r -> stops r) -> (forall r r', stop r -> sep ++ r' <> r) ->
  forall l1 l2 r1 r2, stop r1 -> stop r2 ->
  joined sep (map (pretty add sep t) l1) ++ r1 = joined sep (map (pretty add sep t) l2) ++ r2 -> l1 = l2 /\ r1 = r2.
Proof.
  intros S D. assert (SS : forall l r, stop r -> stops (joined sep (map (pretty add sep t) l) ++ r)).
  { intros [|x l] r H; cbn; [auto|]. rewrite app_assoc_s. apply sep_stops. }
  induction l1 as [|x l1 IH]; intros [|y l2] r1 r2 H1 H2 E; cbn in E.
  - auto.
  - rewrite !app_assoc_s in E. exfalso. now apply (D r1 (pretty add sep t y ++ (joined sep (map (pretty add sep t) l2) ++ r2)) H1).
  - rewrite !app_assoc_s in E. exfalso. now apply (D r2 (pretty add sep t x ++ (joined sep (map (pretty add sep t) l1) ++ r1)) H2).
  - rewrite !app_assoc_s in E. apply app_inv_s in E. apply U in E as [-> E]; [|now apply SS|now apply SS].
    apply IH in E as [-> E]; auto.
Qed.
Lemma list_unique t (U : unique add sep t) (stop : string -> Prop) :
  (forall r, stop r -> stops r) -> (forall r r', stop r -> sep ++ r' <> r) ->
  forall x l1 y l2 r1 r2, stop r1 -> stop r2 ->
  elements sep (map (pretty add sep t) (x :: l1)) ++ r1 = elements sep (map (pretty add sep t) (y :: l2)) ++ r2 ->
  x :: l1 = y :: l2 /\ r1 = r2.
Proof.
  intros S D x l1 y l2 r1 r2 H1 H2 E. cbn [map] in E. rewrite !elements_joined, !app_assoc_s in E.
  assert (SS : forall l r, stop r -> stops (joined sep (map (pretty add sep t) l) ++ r)).
  { intros [|z l] r H; cbn; [auto|]. rewrite app_assoc_s. apply sep_stops. }
  apply U in E as [-> E]; [|now apply SS|now apply SS].
  apply (joined_unique t U stop S D) in E as [-> E]; auto.
Qed.
Lemma pair_unique a b : unique add sep a -> unique add sep b -> unique add sep (TPair a b).
Proof.
  intros A B [x1 x2] [y1 y2] r1 r2 S1 S2 E. cbn [pretty fst snd] in E.
  destruct add.
  - cbn in E. injection E as E. rewrite !app_assoc_s in E. apply A in E as [-> E]; [|easy|easy].
    cbn in E. injection E as E. rewrite !app_assoc_s in E. apply B in E as [-> E]; [|easy|easy].
    cbn in E. injection E as ->. auto.
  - rewrite !app_assoc_s in E. apply A in E as [-> E]; [|easy|easy].
    cbn in E. injection E as E. apply B in E as [-> E]; auto.
Qed.
Lemma int_unique : unique add sep TInt.
Proof. intros x y r1 r2 S1 S2 E. apply word_prefix in E as [E ->]; auto using decimal_word, decimal_inj. Qed.
Lemma bool_unique : unique add sep TBool.
Proof. intros x y r1 r2 S1 S2 E. apply (word_prefix _ _ _ _ (bool_word x) (bool_word y) S1 S2) in E as [E ->]. destruct x, y; easy. Qed.
End Unique.

Lemma seq_unique sep (Sep : good_separator sep) k t : unique true sep t -> unique true sep (TSeq k t).
Proof.
  intros U l1 l2 r1 r2 S1 S2 E.
  set (stop r := exists r', r = right_bracket k ++ r').
  assert (St : forall r, stop r -> stops r) by (intros r [r' ->]; destruct k; easy).
  assert (Df : forall r r', stop r -> sep ++ r' <> r).
  { intros r r' [r'' ->] F. destruct sep as [|c s]; [easy|]. destruct Sep as [_ B]. destruct k; cbn in F; injection F as -> _; discriminate B. }
  assert (L : forall l r, l <> [] -> pretty true sep (TSeq k t) l ++ r =
    left_bracket k ++ (elements sep (map (pretty true sep t) l) ++ (right_bracket k ++ r))).
  { intros [|x l] r H; [easy|]. cbn [pretty]. now rewrite !app_assoc_s. }
  destruct l1 as [|x l1], l2 as [|y l2].
  - auto.
  - rewrite (L (y :: l2)) in E by easy. cbn in E. subst r1. destruct k; destruct S1 as [_ S1]; discriminate S1.
  - rewrite (L (x :: l1)) in E by easy. cbn in E. subst r2. destruct k; destruct S2 as [_ S2]; discriminate S2.
  - rewrite (L (x :: l1)), (L (y :: l2)) in E by easy. apply app_inv_s in E.
    apply (list_unique true sep Sep t U stop St Df) in E as [E F]; [|now eexists|now eexists].
    apply app_inv_s in F. auto.
Qed.
Lemma plain_unique sep (Sep : good_separator sep) : forall t, plain t -> unique true sep t.
Proof.
  induction t as [| | | |a IA b IB|k t IH]; intros P; cbn in P; try easy.
  - apply int_unique.
  - apply bool_unique.
  - apply pair_unique; tauto.
  - apply seq_unique; auto.
Qed.
Lemma single_unique sep : forall t, plain t -> single t -> unique false sep t.
Proof.
  induction t as [| | | |a IA b IB|k t IH]; intros P S; cbn in P, S; try easy.
  - apply int_unique.
  - apply bool_unique.
  - apply pair_unique; tauto.
Qed.

(** C136, with delimiters: nested containers of whole numbers and booleans are told apart by their text, whatever the nesting. *)
Theorem C136_unambiguous : forall separator t, good_separator separator -> plain t ->
  forall x y : value t, pretty true separator t x = pretty true separator t y -> x = y.
Proof.
  intros separator t G P x y E. apply (plain_unique separator G t P x y "" ""); [easy|easy|].
  now rewrite !app_nil_s.
Qed.
(** C136, without: a container of single values is told apart too. *)
Lemma single_nonempty sep : forall t, plain t -> single t -> forall x, pretty false sep t x <> "".
Proof.
  intros [| | | |a b|k t] P S x E; try easy.
  - change (decimal x = "") in E. unfold decimal in E. destruct (Z.to_int x) as [[]|[]]; discriminate E.
  - destruct x; discriminate E.
  - cbn in E. destruct (pretty false sep a (fst x)); discriminate E.
Qed.
Theorem C136_flat : forall separator k t, good_separator separator -> plain t -> single t ->
  forall x y : value (TSeq k t), pretty false separator (TSeq k t) x = pretty false separator (TSeq k t) y -> x = y.
Proof.
  intros separator k t G P S. assert (N : forall x l, pretty false separator (TSeq k t) (x :: l) <> "").
  { intros x l E. cbn [pretty map] in E. rewrite elements_joined in E.
    destruct (pretty false separator t x) eqn:F; [now apply single_nonempty in F|discriminate E]. }
  intros [|x l1] [|y l2] E; try easy.
  - symmetry in E. now apply N in E.
  - now apply N in E.
  - assert (R : forall r, r = "" -> stops r) by now intros r ->.
    assert (D : forall r r', r = "" -> separator ++ r' <> r) by (intros r r' -> F; destruct separator; easy).
    destruct (list_unique false separator G t (single_unique separator t P S) (fun r => r = "") R D x l1 y l2 "" "" eq_refl eq_refl) as [F _];
      [|exact F].
    rewrite !app_nil_s. exact E.
Qed.

(** C136: the text of a container that is not empty, in terms of the texts of the elements. *)
Lemma joined_concat sep l : forall x, x ++ joined sep l = String.concat sep (x :: l).
Proof.
  induction l as [|y l IH]; intros x; [cbn; now rewrite app_nil_s|].
  cbn [joined]. rewrite IH. reflexivity.
Qed.
Theorem C136_text : forall add_delimiters separator k t (l : value (TSeq k t)), l <> [] ->
  let inside := String.concat separator (map (pretty add_delimiters separator t) l) in
  pretty add_delimiters separator (TSeq k t) l = if add_delimiters then left_bracket k ++ inside ++ right_bracket k else inside.
Proof.
  intros add sep k t [|x l] H; [easy|]. cbn zeta. cbn [map]. rewrite <- joined_concat, <- elements_joined. reflexivity.
Qed.

(** What one might expect and is not so: an empty container has no brackets, and so [[]] is printed as an empty container would be expected to be. *)
Theorem C136_empty_refuted : forall add_delimiters separator k t,
  pretty add_delimiters separator (TSeq k t) [] = "" /\
  pretty true separator (TSeq k (TSeq k t)) [[]] = left_bracket k ++ right_bracket k.
Proof. intros add sep k t. split; reflexivity. Qed.
(** Without delimiters nested containers are not told apart. *)
Theorem C136_nested_refuted : exists x y : value (TSeq Square (TSeq Square TInt)),
  x <> y /\ pretty false ", " _ x = pretty false ", " _ y /\ pretty true ", " _ x <> pretty true ", " _ y.
Proof. exists [[1; 2]; [3]]%Z, [[1]; [2; 3]]%Z. split; [|split]; [discriminate|reflexivity|discriminate]. Qed.
(** Strings are not quoted. *)
Theorem C136_strings_refuted : exists x y : value (TSeq Square TString), x <> y /\ pretty true ", " _ x = pretty true ", " _ y.
Proof. exists ["a, b"], ["a"; "b"]. split; [discriminate|reflexivity]. Qed.
(** Bytes are printed as characters, not as numbers: the bytes 49 and 50 as the ints 1 and 2 are. *)
Theorem C136_bytes_refuted :
  pretty true ", " (TSeq Square TChar) [ascii_of_nat 49; ascii_of_nat 50] = pretty true ", " (TSeq Square TInt) [1; 2]%Z /\
  pretty true ", " (TSeq Square TInt) [49; 50]%Z = "[49, 50]".
Proof. split; reflexivity. Qed.
(** A separator like a digit, or none at all. *)
Theorem C136_separator_refuted : forall separator, separator = "" \/ separator = "1" ->
  exists x y : value (TSeq Square TInt), x <> y /\ pretty true separator _ x = pretty true separator _ y.
Proof. intros s [-> | ->]; [exists [1; 1]%Z, [11]%Z|exists [1; 1]%Z, [111]%Z]; split; (discriminate || reflexivity). Qed.

Print Assumptions C136_unambiguous. Print Assumptions C136_flat. Print Assumptions C136_text.
Print Assumptions C136_empty_refuted. Print Assumptions C136_nested_refuted. Print Assumptions C136_strings_refuted.
Print Assumptions C136_separator_refuted. Print Assumptions C136_bytes_refuted.

(** A map from pairs to sets. *)
Example print_case :
  let t := TSeq Curly (TPair (TPair TInt TBool) (TSeq Round TInt)) in
  let m : value t := [((-5, true), [1; 2]); ((10, false), [])]%Z in
  plain t /\ good_separator ", " /\ good_separator " ; " /\ ~ good_separator "" /\
  pretty true ", " t m = "{<<-5: true>: (1, 2)>, <<10: false>: >}" /\
  pretty false " ; " (TSeq Square (TPair TInt TInt)) [(1, 2); (0, -4)]%Z = "1: 2 ; 0: -4".
Proof. vm_compute. repeat split; easy. Qed.
