(** Round trip of Eigen serialization. *)
From Verif Require Import Base SerModel SerSpec SerProofs EigenSerModel GraphSerProofs.
From Coq Require Import Strings.Byte.

Section E.
Variables (dbg le : bool) (maxr : N) (sc : nat) (sr sl : option N).

Definition static_ok (s : option N) (v : N) : Prop := match s with Some w => v = w | None => (v < 2 ^ 63)%N end.

(** A matrix of the type: the dimensions agree with the template arguments, the coefficients are there, and
    the machine can hold it. *)
Definition matrix_ok (m : ematrix) : Prop :=
  static_ok sr (em_rows m) /\ static_ok sl (em_cols m) /\
  (em_rows m < 2 ^ 63)%N /\ (em_cols m < 2 ^ 63)%N /\ (em_rows m * em_cols m <= maxr)%N /\
  length (em_data m) = N.to_nat (em_rows m * em_cols m) /\
  Forall (fun x => (x < 256 ^ N.of_nat sc)%N) (em_data m).

Lemma scalars_flat l post : Forall (fun x => (x < 256 ^ N.of_nat sc)%N) l ->
  scalars le sc (length l) (flat_map (mem_of le sc) l ++ post) = l.
Proof.
  induction 1 as [|x l Hx _ IH]; auto. cbn [flat_map length scalars]. rewrite <- app_assoc.
  rewrite firstn_app, mem_of_length, Nat.sub_diag, firstn_O, app_nil_r.
  rewrite firstn_all2 by (rewrite mem_of_length; lia). rewrite of_mem_of by auto.
  rewrite skipn_app, mem_of_length, Nat.sub_diag. rewrite skipn_all2 by (rewrite mem_of_length; lia).
  cbn [app skipn]. rewrite IH. reflexivity.
Qed.

Lemma flat_length l : length (flat_map (mem_of le sc) l) = length l * sc.
Proof. induction l; simpl; auto. rewrite app_length, mem_of_length. lia. Qed.

Lemma header_length r c : length (dyn_header le sr r ++ dyn_header le sl c) = header_size sr sl.
Proof. rewrite app_length. unfold dyn_header, header_size. destruct sr, sl; rewrite ?mem_of_length; reflexivity. Qed.

Lemma read_dim_ok s v pre post :
  static_ok s v -> (v < 2 ^ 63)%N ->
  read_dim le s (pre ++ dyn_header le s v ++ post) (length pre) = Ok (v, length (dyn_header le s v)).
Proof.
  intros H Hv. destruct s as [w|]; cbn [read_dim dyn_header].
  - cbn in H. subst. reflexivity.
  - rewrite mem_of_length.
    pose proof (read_bytes_middle pre (mem_of le 8 v) post) as E. rewrite mem_of_length in E. rewrite E. cbn [obind].
    rewrite of_mem_of; [reflexivity|]. rewrite u64_pow. lia.
Qed.

Definition eigen_bytes (m : ematrix) : list byte :=
  dyn_header le sr (em_rows m) ++ dyn_header le sl (em_cols m) ++ flat_map (mem_of le sc) (em_data m).

Lemma eigen_bytes_length m : length (eigen_bytes m) = eigen_size sc sr sl m.
Proof.
  unfold eigen_bytes, eigen_size. rewrite app_assoc, app_length, header_length, flat_length. reflexivity.
Qed.

Lemma ser_eigen_writes m : writes (ser_eigen le sc sr sl) m (eigen_bytes m).
Proof. intros buf. unfold ser_eigen. rewrite eigen_bytes_length. reflexivity. Qed.

Hypothesis Hsc : sc <> 0.
Lemma de_eigen_reads m pre post :
  matrix_ok m -> em_data m <> [] \/ (post <> [] /\ eigen_bytes m <> []) ->
  de_eigen dbg le maxr sc sr sl (pre ++ eigen_bytes m ++ post) (length pre) = Ok (m, length (eigen_bytes m)).
Proof.
  intros (S1 & S2 & R & C & A & L & F) NE. unfold de_eigen.
  pose proof (eigen_bytes_length m) as EL. unfold eigen_size in EL.
  pose proof (flat_length (em_data m)) as FL.
  assert (SZ : header_size sr sl + N.to_nat (em_rows m * em_cols m) * sc = length (eigen_bytes m)) by (rewrite EL, L; reflexivity).
  assert (NB : 0 < length (eigen_bytes m)).
  { destruct NE as [NE|[_ NE]].
    - rewrite EL. destruct (em_data m); [congruence|]. cbn [length]. destruct sc; [congruence|]. simpl. lia.
    - destruct (eigen_bytes m); [congruence|simpl; lia]. }
  assert (NH : header_size sr sl < length (eigen_bytes m) + length post).
  { rewrite EL. destruct NE as [NE|[NE _]].
    - destruct (em_data m); [congruence|]. cbn [length]. destruct sc; [congruence|]. simpl. lia.
    - destruct post; [congruence|simpl; lia]. }
  rewrite cassert_true by (apply Nat.ltb_lt; rewrite !app_length; lia).
  rewrite cassert_true by (apply Nat.leb_le; rewrite !app_length; lia).
  unfold eigen_bytes at 1. rewrite <- !app_assoc. rewrite read_dim_ok by auto. cbn [obind fst snd].
  unfold eigen_bytes at 1.
  replace (pre ++ (dyn_header le sr (em_rows m) ++ dyn_header le sl (em_cols m) ++ flat_map (mem_of le sc) (em_data m)) ++ post)
    with ((pre ++ dyn_header le sr (em_rows m)) ++ dyn_header le sl (em_cols m) ++ (flat_map (mem_of le sc) (em_data m) ++ post))
    by (rewrite <- !app_assoc; reflexivity).
  rewrite <- app_length. rewrite read_dim_ok by auto. cbn [obind fst snd].
  unfold alloc_zero.
  destruct (N.ltb_spec (em_rows m) (2 ^ 63)); [|lia]. destruct (N.ltb_spec (em_cols m) (2 ^ 63)); [|lia]. cbn [andb].
  destruct (N.leb_spec (em_rows m * em_cols m) maxr); [|lia].
  rewrite SZ.
  rewrite cassert_true by (apply Nat.leb_le; rewrite !app_length; lia).
  destruct (Nat.ltb_spec (length pre + header_size sr sl) (length (pre ++ eigen_bytes m ++ post))) as [_|X];
    [|exfalso; rewrite !app_length in X; lia].
  rewrite <- (header_length (em_rows m) (em_cols m)), <- app_length.
  replace (pre ++ eigen_bytes m ++ post)
    with ((pre ++ dyn_header le sr (em_rows m) ++ dyn_header le sl (em_cols m)) ++ flat_map (mem_of le sc) (em_data m) ++ post)
    by (unfold eigen_bytes; rewrite <- !app_assoc; reflexivity).
  rewrite <- L, <- FL, read_bytes_middle. cbn [obind].
  rewrite <- (app_nil_r (flat_map _ _)), scalars_flat by auto.
  destruct m; reflexivity.
Qed.
End E.

(** Fixed-size types with at least one coefficient round-trip anywhere. *)
Lemma fixed_round_trips dbg le maxr sc r c :
  sc <> 0 -> (0 < r * c)%N ->
  round_trips (matrix_ok maxr sc (Some r) (Some c))
    (ser_eigen le sc (Some r) (Some c)) (de_eigen dbg le maxr sc (Some r) (Some c)).
Proof.
  intros Hsc P m H.
  assert (N : em_data m <> []).
  { destruct H as (E1 & E2 & _ & _ & _ & L & _). cbn in E1, E2. intros E. rewrite E, E1, E2 in L. simpl in L. lia. }
  exists (eigen_bytes le sc (Some r) (Some c) m). split; [|split].
  - intros E. apply (f_equal (@length _)) in E. rewrite eigen_bytes_length in E. unfold eigen_size, header_size in E.
    destruct (em_data m); [congruence|]. cbn [length] in E. destruct sc; [congruence|]. simpl in E. lia.
  - intros buf. apply ser_eigen_writes.
  - intros pre post. apply de_eigen_reads; auto.
Qed.
