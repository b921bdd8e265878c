(** C161: the stream operators for vectors and collision results. *)
From Coq Require Import String Ascii Lia.
From Verif Require Import Base PrintModel PrintProps StreamModel.
Open Scope string_scope.

(** Reading back: a program that reads words separated by blanks gets them from the text. *)
Fixpoint words (cur : string) (s : string) : list string :=
  match s with
  | "" => if cur =? "" then [] else [cur]
  | String c s => if (c =? " ")%char then (if cur =? "" then words "" s else cur :: words "" s) else words (cur ++ String c "") s
  end.
(** Lines, each ended by a newline. *)
Fixpoint lines (cur : string) (s : string) : list string :=
  match s with
  | "" => []
  | String c s => if (c =? ascii_of_nat 10)%char then cur :: lines "" s else lines (cur ++ String c "") s
  end.
Fixpoint has (c : ascii) (s : string) : bool := match s with "" => false | String d s => (d =? c)%char || has c s end.

Lemma app_nil_s s : s ++ "" = s.
Proof. induction s; cbn; congruence. Qed.
Lemma words_token t : forall cur s, has " " t = false -> words cur (t ++ s) = words (cur ++ t) s.
Proof.
  induction t as [|c t IH]; intros cur s H; cbn [append]; [rewrite app_nil_s; reflexivity|]. cbn [has] in H. apply Bool.orb_false_iff in H as [H1 H2]. cbn [words]. rewrite H1, IH by exact H2. rewrite app_assoc_s. reflexivity.
Qed.
Lemma lines_token t : forall cur s, has (ascii_of_nat 10) t = false -> lines cur (t ++ s) = lines (cur ++ t) s.
Proof.
  induction t as [|c t IH]; intros cur s H; cbn [append]; [rewrite app_nil_s; reflexivity|]. cbn [has] in H. apply Bool.orb_false_iff in H as [H1 H2]. cbn [lines]. rewrite H1, IH by exact H2. rewrite app_assoc_s. reflexivity.
Qed.
Lemma word_no_blank s : all_word s = true -> has " " s = false.
Proof.
  induction s as [|c s IH]; intros H; [reflexivity|]. cbn in H. apply Bool.andb_true_iff in H as [H1 H2]. cbn [has]. rewrite IH by exact H2. rewrite Bool.orb_false_r.
  destruct (Ascii.eqb_spec c " ") as [->|N]; [vm_compute in H1; discriminate|reflexivity].
Qed.
Lemma decimal_nonempty z : decimal z <> "".
Proof. unfold decimal. destruct (Z.to_int z) as [[]|[]]; discriminate. Qed.

(** A vector of whole numbers: the words of the text are the numbers, in order. *)
Theorem C161_integers : forall l : list Z, words "" (stream (SVector SInt) l) = map decimal l.
Proof.
  induction l as [|z l IH]; [reflexivity|].
  change (words "" (decimal z ++ String " " (stream (SVector SInt) l)) = decimal z :: map decimal l). rewrite words_token by (apply word_no_blank, decimal_word). rewrite <- IH.
  cbn [append]. pose proof (decimal_nonempty z) as N. destruct (decimal z) as [|c s]; [exfalso; apply N; reflexivity|]. reflexivity.
Qed.
(** So the text tells which vector it was. *)
Theorem C161_integers_unambiguous : forall l1 l2 : list Z, stream (SVector SInt) l1 = stream (SVector SInt) l2 -> l1 = l2.
Proof.
  intros l1 l2 E. apply (f_equal (words "")) in E. rewrite !C161_integers in E. revert l2 E. induction l1 as [|a l1 IH]; intros [|c l2] E; try discriminate; [reflexivity|].
  injection E as E1 E2. apply decimal_inj in E1. rewrite E1, (IH _ E2). reflexivity.
Qed.
(** A vector of strings without newlines: the lines of the text are the strings. *)
Theorem C161_strings : forall l : list string, Forall (fun s => has (ascii_of_nat 10) s = false) l -> lines "" (stream (SVector SString) l) = l.
Proof.
  induction 1 as [|s l H F IH]; [reflexivity|]. cbn [stream after]. rewrite lines_token by exact H. unfold newline. cbn [append lines]. rewrite Ascii.eqb_refl. f_equal. exact IH.
Qed.

(** Two levels: vectors of vectors of whole numbers. *)
Lemma inner_unique : forall (x y : list Z) r1 r2, stream (SVector SInt) x ++ String " " r1 = stream (SVector SInt) y ++ String " " r2 -> x = y /\ r1 = r2.
Proof.
  assert (NB : forall z r, exists c s, decimal z ++ r = String c s /\ c <> " "%char).
  { intros z r. pose proof (word_no_blank _ (decimal_word z)) as W. destruct (decimal z) as [|c s] eqn:E; [exfalso; exact (decimal_nonempty z E)|]. exists c, (s ++ r). split; [reflexivity|].
    intros ->. cbn [has] in W. rewrite Ascii.eqb_refl in W. discriminate. }
  assert (ST : forall z l r, stream (SVector SInt) (z :: l) ++ r = decimal z ++ String " " (stream (SVector SInt) l ++ r)).
  { intros z l r. change (stream (SVector SInt) (z :: l)) with (decimal z ++ String " " (stream (SVector SInt) l)). rewrite app_assoc_s. reflexivity. }
  induction x as [|a x IH]; intros [|b y] r1 r2 E; rewrite ?ST in E.
  - injection E as ->. auto.
  - exfalso. destruct (NB b (String " " (stream (SVector SInt) y ++ String " " r2))) as (c & s & E2 & N). rewrite E2 in E. injection E as <- _. contradiction.
  - exfalso. destruct (NB a (String " " (stream (SVector SInt) x ++ String " " r1))) as (c & s & E2 & N). rewrite E2 in E. injection E as -> _. contradiction.
  - apply word_prefix in E as [E1 E2]; [|apply decimal_word..| |]; [|repeat split; vm_compute; try reflexivity; discriminate..].
    apply decimal_inj in E1. injection E2 as E2. apply (IH y r1 r2) in E2 as [-> ->]. subst. auto.
Qed.
Theorem C161_nested_unambiguous : forall l1 l2 : list (list Z), stream (SVector (SVector SInt)) l1 = stream (SVector (SVector SInt)) l2 -> l1 = l2.
Proof.
  induction l1 as [|x l1 IH]; intros [|y l2] E; [reflexivity| | |].
  - exfalso. cbn [stream after] in E. destruct y as [|z y]; [discriminate|]. cbn [append] in E. destruct (decimal z) as [|c s] eqn:D; [exact (decimal_nonempty z D)|discriminate].
  - exfalso. cbn [stream after] in E. destruct x as [|z x]; [discriminate|]. cbn [append] in E. destruct (decimal z) as [|c s] eqn:D; [exact (decimal_nonempty z D)|discriminate].
  - change (stream (SVector SInt) x ++ String " " (stream (SVector (SVector SInt)) l1) = stream (SVector SInt) y ++ String " " (stream (SVector (SVector SInt)) l2)) in E.
    apply inner_unique in E as [-> E]. rewrite (IH _ E). reflexivity.
Qed.

(** Not with a third level, nor with characters below, nor with newlines in strings. *)
Theorem C161_deep_refuted : exists x y : svalue (SVector (SVector (SVector SInt))), x <> y /\ stream _ x = stream _ y.
Proof. exists [[[]]], [[]; []]. split; [discriminate|reflexivity]. Qed.
Theorem C161_characters_refuted : exists x y : svalue (SVector (SVector SChar)), x <> y /\ stream _ x = stream _ y.
Proof. exists [[" "%char]], [[]; []; []]. split; [discriminate|reflexivity]. Qed.
Theorem C161_strings_refuted : exists x y : svalue (SVector SString), x <> y /\ stream _ x = stream _ y.
Proof. exists ["a" ++ newline ++ "b"], ["a"; "b"]. split; [discriminate|reflexivity]. Qed.

(** ** Collision results *)
(** Without a collision nothing else is looked at; with one, the first contact of the first pair is named, and that there are others exactly when
    another contact of that pair or another pair is in the map. *)
Theorem C161_collision : forall cr,
  (collision cr = false -> collision_text cr = "no collision") /\
  (collision cr = true -> contacts cr = [] -> collision_text cr = "collision found but no contacts reported") /\
  (forall k c cs rest, collision cr = true -> contacts cr = (k, c :: cs) :: rest ->
     (cs = [] /\ rest = [] -> collision_text cr = "collision between " ++ fst c ++ " and " ++ snd c) /\
     (cs <> [] \/ rest <> [] -> collision_text cr = "collision between " ++ fst c ++ " and " ++ snd c ++ " among others..." ++ newline)).
Proof.
  intros [co cts]. unfold collision_text. cbn [collision contacts]. split; [intros ->; reflexivity|]. split; [intros -> ->; reflexivity|]. intros k c cs rest -> ->. cbn [negb]. split.
  - intros [-> ->]. cbn. rewrite app_nil_s. reflexivity.
  - intros H. destruct rest as [|r rest]; [|reflexivity]. destruct cs as [|c2 cs]; [exfalso; destruct H; contradiction|]. reflexivity.
Qed.
(** A collision whose first pair has no contacts is printed as nothing, even when another pair has one. *)
Theorem C161_silent_refuted : exists cr k c, collision cr = true /\ In (k, [c]) (contacts cr) /\ collision_text cr = "".
Proof. exists (mkC true [(("a", "b"), []); (("c", "d"), [("c", "d")])]), ("c", "d"), ("c", "d"). split; [reflexivity|]. split; [right; left; reflexivity|reflexivity]. Qed.
(** A triangle has its three vertices in order. *)
Theorem C161_triangle : forall v1 v2 v3, length (mesh_triangle v1 v2 v3) = 3 /\ nth_error (mesh_triangle v1 v2 v3) 0 = Some v1 /\
  nth_error (mesh_triangle v1 v2 v3) 1 = Some v2 /\ nth_error (mesh_triangle v1 v2 v3) 2 = Some v3.
Proof. repeat split. Qed.

Print Assumptions C161_integers. Print Assumptions C161_integers_unambiguous. Print Assumptions C161_strings. Print Assumptions C161_nested_unambiguous.
Print Assumptions C161_deep_refuted. Print Assumptions C161_characters_refuted. Print Assumptions C161_strings_refuted. Print Assumptions C161_collision. Print Assumptions C161_silent_refuted.
Print Assumptions C161_triangle.
Example stream_case : stream (SVector (SVector SInt)) [[1; -20]; []; [3]]%Z = "1 -20   3  " /\ stream (SVector SString) ["a b"; ""] = "a b" ++ newline ++ newline.
Proof. split; reflexivity. Qed.
Example collision_case : collision_text (mkC true [(("arm", "table"), [("arm", "table"); ("arm", "table")])]) = "collision between arm and table among others..." ++ newline.
Proof. reflexivity. Qed.
