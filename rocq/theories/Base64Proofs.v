(** Proofs about the base64 model. *)
From Coq Require Import Strings.Byte Strings.String.
From Verif Require Import Base Base64Model.

(** ** Bit arithmetic *)

Lemma lor_add a k b : (b < 2 ^ k)%N -> N.lor (N.shiftl a k) b = (a * 2 ^ k + b)%N.
Proof.
  intros H. rewrite <- N.shiftl_mul_pow2.
  rewrite N.add_nocarry_lxor, N.lxor_lor; try reflexivity;
  apply N.bits_inj_iff; intros i; rewrite N.land_spec, N.bits_0;
  (destruct (N.ltb_spec i k) as [L|L];
   [ rewrite N.shiftl_spec_low by exact L; reflexivity
   | assert (E : N.testbit b i = false);
     [ destruct (N.eq_dec b 0) as [->|Z]; [apply N.bits_0|];
       apply N.bits_above_log2, N.log2_lt_pow2; [lia|];
       eapply N.lt_le_trans; [exact H|]; apply N.pow_le_mono_r; lia
     | rewrite E, andb_false_r; reflexivity ] ]).
Qed.

Definition byte_forall (p : byte -> bool) : bool :=
  forallb (fun n => p (byte_of_N (N.of_nat n))) (seq 0 256).

Lemma byte_sweep p : byte_forall p = true -> forall b, p b = true.
Proof.
  unfold byte_forall. rewrite forallb_forall. intros H b.
  pose proof (byte_to_N_bound b) as B.
  specialize (H (N.to_nat (Byte.to_N b))).
  rewrite N2Nat.id, byte_of_to_N in H. apply H. apply in_seq. lia.
Qed.

(** The table entry for a character. *)
Definition idx (c : byte) : N := nth (N.to_nat (Byte.to_N c)) B64IndexTable 0%N.
Definition chr (v : N) : byte := nth (N.to_nat v) B64ValueTable x00.

Lemma idx_lt c : (idx c < 64)%N.
Proof.
  apply N.ltb_lt. revert c. apply (byte_sweep (fun c => (idx c <? 64)%N)). vm_compute. reflexivity.
Qed.

Lemma idx_ok c : nth_error B64IndexTable (N.to_nat (Byte.to_N c)) = Some (idx c).
Proof.
  unfold idx. apply nth_error_nth'. change (length B64IndexTable) with 256.
  pose proof (byte_to_N_bound c). lia.
Qed.

Lemma value_ok v : (v < 64)%N -> value_at v = Ok (chr v).
Proof.
  intros H. unfold value_at, chr. rewrite (nth_error_nth' _ x00); [reflexivity|].
  change (length B64ValueTable) with 64. lia.
Qed.

Lemma n64_sweep (p : N -> bool) :
  forallb (fun n => p (N.of_nat n)) (seq 0 64) = true -> forall v, (v < 64)%N -> p v = true.
Proof.
  rewrite forallb_forall. intros H v L. specialize (H (N.to_nat v)). rewrite N2Nat.id in H.
  apply H, in_seq. lia.
Qed.

Lemma idx_chr v : (v < 64)%N -> idx (chr v) = v.
Proof.
  intros H. apply N.eqb_eq. revert v H.
  apply (n64_sweep (fun v => (idx (chr v) =? v)%N)). vm_compute. reflexivity.
Qed.

Lemma chr_small v : (v < 64)%N -> (Byte.to_N (chr v) < 128)%N.
Proof.
  intros H. apply N.ltb_lt. revert v H.
  apply (n64_sweep (fun v => (Byte.to_N (chr v) <? 128)%N)). vm_compute. reflexivity.
Qed.

Lemma chr_not_eq v : (v < 64)%N -> Byte.eqb (chr v) c_eq = false.
Proof.
  intros H. apply negb_true_iff. revert v H.
  apply (n64_sweep (fun v => negb (Byte.eqb (chr v) c_eq))). vm_compute. reflexivity.
Qed.

(** ** Encoding *)

Definition sx0 (a : N) : N := (a / 4)%N.
Definition sx1 (a b : N) : N := (a mod 4 * 16 + b / 16)%N.
Definition sx2 (b c : N) : N := (b mod 16 * 4 + c / 64)%N.
Definition sx3 (c : N) : N := (c mod 64)%N.

Lemma land_low a k : N.land a (N.ones k) = (a mod 2 ^ k)%N.
Proof. apply N.land_ones. Qed.

Lemma e0 a : N.shiftr a 2 = sx0 a.
Proof. rewrite N.shiftr_div_pow2. reflexivity. Qed.
Lemma e1 a b : (b < 256)%N -> N.lor (N.shiftl (N.land a 3) 4) (N.shiftr b 4) = sx1 a b.
Proof.
  intros H. rewrite lor_add; rewrite N.shiftr_div_pow2; change 3%N with (N.ones 2); rewrite ?land_low.
  - reflexivity.
  - change (2 ^ 4)%N with 16%N. lia.
Qed.
Lemma e1' a : N.shiftl (N.land a 3) 4 = sx1 a 0.
Proof. rewrite N.shiftl_mul_pow2. change 3%N with (N.ones 2). rewrite land_low. unfold sx1.
  rewrite N.add_0_r. reflexivity. Qed.
Lemma e2 b c : (c < 256)%N -> N.lor (N.shiftl (N.land b 15) 2) (N.shiftr c 6) = sx2 b c.
Proof.
  intros H. rewrite lor_add; rewrite N.shiftr_div_pow2; change 15%N with (N.ones 4); rewrite ?land_low.
  - reflexivity.
  - change (2 ^ 6)%N with 64%N. change (2 ^ 2)%N with 4%N. lia.
Qed.
Lemma e2' b : N.shiftl (N.land b 15) 2 = sx2 b 0.
Proof. rewrite N.shiftl_mul_pow2. change 15%N with (N.ones 4). rewrite land_low. unfold sx2.
  rewrite N.add_0_r. reflexivity. Qed.
Lemma e3 c : N.land c 63 = sx3 c.
Proof. change 63%N with (N.ones 6). rewrite land_low. reflexivity. Qed.

Lemma sx0_lt a : (a < 256)%N -> (sx0 a < 64)%N.
Proof. unfold sx0. lia. Qed.
Lemma sx1_lt a b : (a < 256)%N -> (b < 256)%N -> (sx1 a b < 64)%N.
Proof. unfold sx1. lia. Qed.
Lemma sx2_lt b c : (b < 256)%N -> (c < 256)%N -> (sx2 b c < 64)%N.
Proof. unfold sx2. lia. Qed.
Lemma sx3_lt c : (sx3 c < 64)%N.
Proof. unfold sx3. lia. Qed.

(** Groups of three. *)
Fixpoint enc_groups (b : list byte) : list byte :=
  match b with
  | [] => []
  | [a] => let a := Byte.to_N a in [chr (sx0 a); chr (sx1 a 0); c_eq; c_eq]
  | [a; b] => let a := Byte.to_N a in let b := Byte.to_N b in
              [chr (sx0 a); chr (sx1 a b); chr (sx2 b 0); c_eq]
  | a :: b :: c :: r => let a := Byte.to_N a in let b := Byte.to_N b in let c := Byte.to_N c in
              chr (sx0 a) :: chr (sx1 a b) :: chr (sx2 b c) :: chr (sx3 c) :: enc_groups r
  end.

Lemma list_ind3 {A} (P : list A -> Prop) :
  P [] -> (forall a, P [a]) -> (forall a b, P [a; b]) ->
  (forall a b c r, P r -> P (a :: b :: c :: r)) -> forall l, P l.
Proof.
  intros H0 H1 H2 H3. fix F 1. intros [|a [|b [|c r]]].
  - exact H0.
  - apply H1.
  - apply H2.
  - apply H3, F.
Qed.

Lemma nth_app_k {A} (pre r : list A) k : nth_error (pre ++ r) (length pre + k) = nth_error r k.
Proof. rewrite nth_error_app2 by lia. f_equal. lia. Qed.

Lemma put_app_k l r k v : k < length r -> put (l ++ r) (length l + k) v = Ok (l ++ upd r k v).
Proof.
  intros H. unfold put. rewrite app_length.
  destruct (Nat.ltb_spec (length l + k) (length l + length r)); [|lia].
  f_equal. induction l as [|a l IH]; simpl; auto. f_equal. apply IH; simpl in *; lia.
Qed.

Lemma bin_at_app pre r k : bin_at (pre ++ r) (length pre + k) = bin_at r k.
Proof. unfold bin_at. rewrite nth_app_k. reflexivity. Qed.

Lemma add_sub_l n m : n + m - n = m.
Proof. lia. Qed.

Definition encode_tail (b : list byte) (r : nat * nat * list byte) : outcome (list byte) :=
  let n := length b in
  let '(ip, op, out) := r in
    if ip <? n then
      let! x0 := bin_at b ip in
      let! c0 := value_at (N.shiftr x0 2) in
      let! out := put out op c0 in
      if n - ip =? 1 then
        let! c1 := value_at (N.shiftl (N.land x0 3) 4) in
        let! out := put out (op + 1) c1 in
        let! out := put out (op + 2) c_eq in
        put out (op + 3) c_eq
      else
        let! x1 := bin_at b (ip + 1) in
        let! c1 := value_at (N.lor (N.shiftl (N.land x0 3) 4) (N.shiftr x1 4)) in
        let! out := put out (op + 1) c1 in
        let! c2 := value_at (N.shiftl (N.land x1 15) 2) in
        let! out := put out (op + 2) c2 in
        put out (op + 3) c_eq
    else Ok out.

Ltac bounds :=
  repeat match goal with
  | b : byte |- _ => lazymatch goal with
      | _ : (Byte.to_N b < 256)%N |- _ => fail
      | _ => pose proof (byte_to_N_bound b)
      end
  end.

Lemma groups_len_S n : 4 * ((S (S (S n)) + 2) / 3) = 4 + 4 * ((n + 2) / 3).
Proof. replace (S (S (S n)) + 2) with (n + 2 + 1 * 3) by lia. rewrite Nat.div_add by lia. lia. Qed.

Lemma encode_groups_spec : forall b pre done fuel,
  length b < fuel ->
  (let! r := encode_groups fuel (pre ++ b) (length pre) (length done)
              (done ++ repeat x00 (4 * ((length b + 2) / 3))) in
   encode_tail (pre ++ b) r) = Ok (done ++ enc_groups b).
Proof.
  induction b as [|a|a b|a b c r IH] using list_ind3; intros pre done fuel HF;
    (destruct fuel as [|fuel]; [simpl in HF; lia|]); cbn [encode_groups]; rewrite app_length, add_sub_l.
  - simpl. rewrite app_length. simpl.
    destruct (Nat.ltb_spec (length pre) (length pre + 0)); [lia|]. reflexivity.
  - change (3 <=? length [a]) with false. cbn iota. cbn [obind encode_tail].
    rewrite app_length. change (length [a]) with 1.
    destruct (Nat.ltb_spec (length pre) (length pre + 1)); [|lia].
    replace (length pre + 1 - length pre) with 1 by lia. change (1 =? 1) with true. cbn iota.
    rewrite <- (Nat.add_0_r (length pre)) at 1. rewrite bin_at_app. cbn [bin_at nth_error obind].
    bounds.
    rewrite e0, e1'.
    rewrite (value_ok (sx0 _)) by (apply sx0_lt; lia).
    rewrite (value_ok (sx1 _ _)) by (apply sx1_lt; lia). cbn [obind].
    change (4 * ((1 + 2) / 3)) with 4.
    rewrite <- (Nat.add_0_r (length done)) at 1.
    repeat (rewrite put_app_k by (rewrite ?upd_length; simpl; lia); cbn [obind]). reflexivity.
  - change (3 <=? length [a; b]) with false. cbn iota. cbn [obind encode_tail].
    rewrite app_length. change (length [a; b]) with 2.
    destruct (Nat.ltb_spec (length pre) (length pre + 2)); [|lia].
    replace (length pre + 2 - length pre) with 2 by lia. change (2 =? 1) with false. cbn iota.
    rewrite <- (Nat.add_0_r (length pre)) at 1. rewrite !bin_at_app. cbn [bin_at nth_error obind].
    bounds.
    rewrite e0, e1, e2' by lia.
    rewrite (value_ok (sx0 _)) by (apply sx0_lt; lia).
    rewrite (value_ok (sx1 _ _)) by (apply sx1_lt; lia).
    rewrite (value_ok (sx2 _ _)) by (apply sx2_lt; lia).
    change (4 * ((2 + 2) / 3)) with 4. cbn [obind].
    rewrite <- (Nat.add_0_r (length done)) at 1.
    repeat (rewrite put_app_k by (rewrite ?upd_length; simpl; lia); cbn [obind]). reflexivity.
  - change (3 <=? length (a :: b :: c :: r)) with true. cbn iota.
    rewrite <- (Nat.add_0_r (length pre)) at 1. rewrite !bin_at_app. cbn [bin_at nth_error obind].
    bounds.
    rewrite e0, e1, e2, e3 by lia.
    rewrite (value_ok (sx0 _)) by (apply sx0_lt; lia).
    rewrite (value_ok (sx1 _ _)) by (apply sx1_lt; lia).
    rewrite (value_ok (sx2 _ _)) by (apply sx2_lt; lia).
    rewrite (value_ok (sx3 _)) by (apply sx3_lt; lia). cbn [obind].
    cbn [length]. rewrite groups_len_S.
    set (m := 4 * ((length r + 2) / 3)).
    rewrite <- (Nat.add_0_r (length done)) at 1.
    repeat (rewrite put_app_k by (rewrite ?upd_length, repeat_length; lia); cbn [obind]).
    specialize (IH (pre ++ [a; b; c])
                   (done ++ [chr (sx0 (Byte.to_N a)); chr (sx1 (Byte.to_N a) (Byte.to_N b));
                             chr (sx2 (Byte.to_N b) (Byte.to_N c)); chr (sx3 (Byte.to_N c))]) fuel).
    rewrite !app_length in IH. cbn [length] in IH. rewrite <- !app_assoc in IH. cbn [app] in IH.
    cbn [repeat upd Nat.add]. apply IH. cbn [length] in HF. lia.
Qed.

Lemma encode_eq b :
  (4 * ((N.of_nat (length b) + 2) / 3) < 2 ^ 64)%N -> encode b = Ok (enc_groups b).
Proof.
  intros H. unfold encode.
  assert (E : (N.of_nat (4 * ((length b + 2) / 3)) = 4 * ((N.of_nat (length b) + 2) / 3))%N) by lia.
  rewrite E, N.mod_small by exact H.
  destruct (N.ltb_spec (4 * ((N.of_nat (length b) + 2) / 3)) (N.of_nat (length b))); [lia|].
  exact (encode_groups_spec b [] [] (S (length b)) ltac:(lia)).
Qed.

(** ** Decoding *)

Definition big (sg : bool) (c : byte) : bool := sg && (128 <=? Byte.to_N c)%N.

Lemma index_at_app sg pre r k c :
  nth_error (r ++ [x00]) k = Some c ->
  index_at sg (pre ++ r) (length pre + k) = if big sg c then UB else Ok (idx c).
Proof.
  intros H. unfold index_at, str_at. rewrite nth_app_k, app_length.
  assert (HE : (match nth_error r k with
          | Some c => Ok c
          | None => if length pre + k =? length pre + length r then Ok x00 else UB
          end) = Ok c).
  { destruct (nth_error r k) eqn:E.
    - rewrite nth_error_app1 in H by (apply nth_error_Some; congruence). congruence.
    - apply nth_error_None in E.
      assert (k = length r). { assert (k < length (r ++ [x00])) by (apply nth_error_Some; congruence).
        rewrite app_length in *; simpl in *; lia. }
      subst k. rewrite Nat.eqb_refl. rewrite nth_error_app2, Nat.sub_diag in H by lia. simpl in H. congruence. }
  rewrite HE. cbn [obind]. unfold big. rewrite idx_ok. reflexivity.
Qed.

Definition d0 (a b : N) : byte := byte_of_N (a * 4 + b / 16)%N.
Definition d1 (b c : N) : byte := byte_of_N ((b mod 16) * 16 + c / 4)%N.
Definition d2 (c d : N) : byte := byte_of_N ((c mod 4) * 64 + d)%N.

Lemma word4 a b c d : (a < 64)%N -> (b < 64)%N -> (c < 64)%N -> (d < 64)%N ->
  N.lor (N.lor (N.lor (N.shiftl a 18) (N.shiftl b 12)) (N.shiftl c 6)) d
  = (a * 262144 + b * 4096 + c * 64 + d)%N.
Proof.
  intros A B C D. rewrite <- !N.lor_assoc.
  rewrite (lor_add c 6) by (change (2 ^ 6)%N with 64%N; lia).
  rewrite (lor_add b 12) by (change (2 ^ 6)%N with 64%N; change (2 ^ 12)%N with 4096%N; lia).
  rewrite (lor_add a 18); change (2 ^ 6)%N with 64%N; change (2 ^ 12)%N with 4096%N;
    change (2 ^ 18)%N with 262144%N; lia.
Qed.

Lemma shr16 n : N.shiftr n 16 = (n / 65536)%N.
Proof. rewrite N.shiftr_div_pow2. reflexivity. Qed.
Lemma shr8 n : N.shiftr n 8 = (n / 256)%N.
Proof. rewrite N.shiftr_div_pow2. reflexivity. Qed.
Lemma and255 n : N.land n 255 = (n mod 256)%N.
Proof. change 255%N with (N.ones 8). rewrite land_low. reflexivity. Qed.

Lemma w0 a b c d : (a < 64)%N -> (b < 64)%N -> (c < 64)%N -> (d < 64)%N ->
  byte_of_N (N.shiftr (a * 262144 + b * 4096 + c * 64 + d) 16 mod 256) = d0 a b.
Proof. intros. unfold d0. f_equal. rewrite shr16. lia. Qed.
Lemma w1 a b c d : (a < 64)%N -> (b < 64)%N -> (c < 64)%N -> (d < 64)%N ->
  byte_of_N (N.land (N.shiftr (a * 262144 + b * 4096 + c * 64 + d) 8) 255) = d1 b c.
Proof. intros. unfold d1. f_equal. rewrite and255, shr8. lia. Qed.
Lemma w2 a b c d : (a < 64)%N -> (b < 64)%N -> (c < 64)%N -> (d < 64)%N ->
  byte_of_N (N.land (a * 262144 + b * 4096 + c * 64 + d) 255) = d2 c d.
Proof. intros. unfold d2. f_equal. rewrite and255. lia. Qed.

(** The last, padded, group: its second, and possibly third, character. *)
Definition dec_tail (a b : byte) (oc : option byte) : list byte :=
  match oc with
  | Some c => if Byte.eqb c c_eq then [d0 (idx a) (idx b)] else [d0 (idx a) (idx b); d1 (idx b) (idx c)]
  | None => [d0 (idx a) (idx b)]
  end.

Fixpoint dec_groups (s : list byte) : list byte :=
  match s with
  | [] => []
  | [a] => dec_tail a x00 None
  | [a; b] => dec_tail a b None
  | [a; b; c] => dec_tail a b (Some c)
  | a :: b :: c :: d :: r =>
      match r with
      | [] => if Byte.eqb d c_eq then dec_tail a b (Some c)
              else [d0 (idx a) (idx b); d1 (idx b) (idx c); d2 (idx c) (idx d)]
      | _ => d0 (idx a) (idx b) :: d1 (idx b) (idx c) :: d2 (idx c) (idx d) :: dec_groups r
      end
  end.

Definition padn (s : list byte) : nat :=
  let len := length s in
    if (0 <? len) && (negb (len mod 4 =? 0) ||
        match nth_error s (len - 1) with Some c => Byte.eqb c c_eq | None => false end)
    then 1 else 0.
Definition ngroups (s : list byte) : nat := (length s + 3) / 4 - padn s.

Definition decode_tail (sg : bool) (s : list byte) (L pad : nat) (buf : list byte) : outcome (list byte) :=
  let len := length s in
  if 0 <? pad then
    let! t0 := index_at sg s L in
    let! t1 := index_at sg s (L + 1) in
    let n := N.lor (N.shiftl t0 18) (N.shiftl t1 12) in
    let! buf := put buf (length buf - 1) (byte_of_N (N.shiftr n 16 mod 256)) in
    let more := (L + 2 <? len) && match nth_error s (L + 2) with Some c => negb (Byte.eqb c c_eq) | None => false end in
    if more then
      let! t2 := index_at sg s (L + 2) in
      let n := N.lor n (N.shiftl t2 6) in
      Ok (buf ++ [byte_of_N (N.land (N.shiftr n 8) 255)])
    else Ok buf
  else Ok buf.

Lemma decode_unfold sg s :
  decode sg s = let! buf := decode_groups sg s (ngroups s) 0 (repeat x00 (ngroups s * 3 + padn s)) in
                decode_tail sg s (ngroups s * 4) (padn s) buf.
Proof.
  unfold decode. fold (padn s). unfold ngroups. rewrite Nat.div_mul by lia. reflexivity.
Qed.

Lemma padn_S4 a b c d e r : padn (a :: b :: c :: d :: e :: r) = padn (e :: r).
Proof.
  unfold padn. cbn [length].
  replace (S (S (S (S (S (length r)))))) with (S (length r) + 1 * 4) by lia.
  rewrite Nat.mod_add by lia.
  replace (0 <? S (length r) + 1 * 4) with true by (symmetry; apply Nat.ltb_lt; lia).
  replace (0 <? S (length r)) with true by (symmetry; apply Nat.ltb_lt; lia).
  replace (S (length r) + 1 * 4 - 1) with (4 + length r) by lia.
  replace (S (length r) - 1) with (length r) by lia. reflexivity.
Qed.

Lemma padn_le s : padn s <= 1.
Proof. unfold padn. destruct (_ && _); lia. Qed.

Lemma padn_pos_len s : padn s <= (length s + 3) / 4.
Proof.
  unfold padn. destruct (Nat.ltb_spec 0 (length s)); cbn [andb]; [|lia].
  assert (1 <= (length s + 3) / 4) by lia. destruct (_ || _); lia.
Qed.

Lemma ngroups_S4 a b c d e r : ngroups (a :: b :: c :: d :: e :: r) = S (ngroups (e :: r)).
Proof.
  unfold ngroups. rewrite padn_S4. pose proof (padn_pos_len (e :: r)) as P. revert P.
  generalize (padn (e :: r)). intros p. cbn [length].
  replace (S (S (S (S (S (length r))))) + 3) with (S (length r) + 3 + 1 * 4) by lia.
  rewrite Nat.div_add by lia. lia.
Qed.

Ltac idxs :=
  repeat match goal with
  | |- context [idx ?b] => lazymatch goal with
      | _ : (idx b < 64)%N |- _ => fail
      | _ => pose proof (idx_lt b)
      end
  end.

(** One full group. *)
Lemma decode_group_step sg pre a b c d r g done k x :
  length pre = 4 * g -> length done = 3 * g -> 3 <= x ->
  decode_groups sg (pre ++ a :: b :: c :: d :: r) (S k) g (done ++ repeat x00 x)
  = if existsb (big sg) [a; b; c; d] then UB
    else decode_groups sg ((pre ++ [a; b; c; d]) ++ r) k (S g)
           ((done ++ [d0 (idx a) (idx b); d1 (idx b) (idx c); d2 (idx c) (idx d)]) ++ repeat x00 (x - 3)).
Proof.
  intros HP HD HX. cbn [decode_groups]. rewrite <- HP, <- HD.
  rewrite <- (Nat.add_0_r (length pre)) at 1.
  rewrite (index_at_app sg pre _ 0 a), (index_at_app sg pre _ 1 b), (index_at_app sg pre _ 2 c),
    (index_at_app sg pre _ 3 d) by reflexivity.
  cbn [existsb].
  destruct (big sg a); [reflexivity|]. cbn [obind orb].
  destruct (big sg b); [reflexivity|]. cbn [obind orb].
  destruct (big sg c); [reflexivity|]. cbn [obind orb].
  destruct (big sg d); [reflexivity|]. cbn [obind orb].
  idxs. rewrite word4, w0, w1, w2 by assumption.
  rewrite <- (Nat.add_0_r (length done)) at 1.
  repeat (rewrite put_app_k by (rewrite ?upd_length, repeat_length; lia); cbn [obind]).
  rewrite <- !app_assoc. cbn [app]. f_equal. f_equal.
  destruct x as [|[|[|x]]]; try lia. cbn [repeat upd]. rewrite Nat.sub_succ, Nat.sub_succ, Nat.sub_succ, Nat.sub_0_r.
  reflexivity.
Qed.

Lemma word2 a b : (a < 64)%N -> (b < 64)%N ->
  byte_of_N (N.shiftr (N.lor (N.shiftl a 18) (N.shiftl b 12)) 16 mod 256) = d0 a b.
Proof.
  intros A B. rewrite <- (w0 a b 0 0) by lia. do 3 f_equal.
  rewrite <- (word4 a b 0 0) by lia. rewrite N.shiftl_0_l, !N.lor_0_r. reflexivity.
Qed.

Lemma word3 a b c : (a < 64)%N -> (b < 64)%N -> (c < 64)%N ->
  byte_of_N (N.land (N.shiftr (N.lor (N.lor (N.shiftl a 18) (N.shiftl b 12)) (N.shiftl c 6)) 8) 255) = d1 b c.
Proof.
  intros A B C. rewrite <- (w1 a b c 0) by lia. do 3 f_equal.
  rewrite <- (word4 a b c 0) by lia. rewrite N.lor_0_r. reflexivity.
Qed.

Lemma put_last done k v : length done = k -> put (done ++ [x00]) (length (done ++ [x00]) - 1) v = Ok (done ++ [v]).
Proof.
  intros H. rewrite app_length. cbn [length].
  replace (length done + 1 - 1) with (length done + 0) by lia.
  rewrite put_app_k by (simpl; lia). reflexivity.
Qed.

Lemma eq_not_big sg c : Byte.eqb c c_eq = true -> big sg c = false.
Proof.
  intros H. apply Byte.byte_dec_bl in H. subst c. unfold big. destruct sg; reflexivity.
Qed.

(** The padded tail. *)
Lemma decode_tail_step sg pre a b oc r done :
  nth_error (a :: r ++ [x00]) 1 = Some b ->
  nth_error (a :: r) 2 = oc ->
  decode_tail sg (pre ++ a :: r) (length pre) 1 (done ++ [x00])
  = if existsb (big sg) (a :: b :: match oc with Some c => [c] | None => [] end) then UB
    else Ok (done ++ dec_tail a b oc).
Proof.
  intros HB HC. unfold decode_tail. change (0 <? 1) with true. cbn iota.
  rewrite <- (Nat.add_0_r (length pre)) at 1.
  rewrite (index_at_app sg pre _ 0 a) by reflexivity.
  rewrite (index_at_app sg pre _ 1 b) by exact HB.
  cbn [existsb].
  destruct (big sg a); [reflexivity|]. cbn [obind orb].
  destruct (big sg b); [reflexivity|]. cbn [obind orb].
  rewrite (put_last done (length done)) by reflexivity. cbn [obind].
  idxs. rewrite word2 by assumption.
  rewrite nth_app_k, HC, app_length.
  destruct oc as [c|].
  - assert (2 < length (a :: r)) by (apply nth_error_Some; congruence).
    destruct (Nat.ltb_spec (length pre + 2) (length pre + length (a :: r))); [|lia].
    cbn [andb existsb]. rewrite orb_false_r. unfold dec_tail.
    destruct (Byte.eqb c c_eq) eqn:E; cbn [negb].
    + rewrite (eq_not_big sg c E). reflexivity.
    + rewrite (index_at_app sg pre _ 2 c).
      2:{ change (a :: r) with ([a] ++ r) in *. rewrite <- HC. apply nth_error_app1. exact H1. }
      destruct (big sg c); [reflexivity|]. cbn [obind]. idxs. rewrite word3 by assumption.
      rewrite <- app_assoc. reflexivity.
  - rewrite andb_false_r. reflexivity.
Qed.

Lemma decode_spec_gen sg : forall n s pre g done,
  length s <= n -> length pre = 4 * g -> length done = 3 * g ->
  (let! buf := decode_groups sg (pre ++ s) (ngroups s) g (done ++ repeat x00 (ngroups s * 3 + padn s)) in
   decode_tail sg (pre ++ s) (length pre + ngroups s * 4) (padn s) buf)
  = if existsb (big sg) s then UB else Ok (done ++ dec_groups s).
Proof.
  induction n as [n IH] using lt_wf_ind. intros s pre g done HN HP HD.
  destruct s as [|a [|b [|c [|d [|e r]]]]].
  - cbn. rewrite !app_nil_r. reflexivity.
  - cbn [decode_groups ngroups padn length]. change (ngroups [a]) with 0. change (padn [a]) with 1.
    cbn [decode_groups obind]. cbn [Nat.mul Nat.add repeat].
    rewrite Nat.add_0_r, (decode_tail_step sg pre a x00 None []) by reflexivity.
    cbn [existsb]. rewrite !orb_false_r. replace (big sg x00) with false by (destruct sg; reflexivity).
    rewrite orb_false_r. reflexivity.
  - change (ngroups [a; b]) with 0. change (padn [a; b]) with 1.
    cbn [decode_groups obind]. cbn [Nat.mul Nat.add repeat].
    rewrite Nat.add_0_r, (decode_tail_step sg pre a b None [b]) by reflexivity.
    reflexivity.
  - change (ngroups [a; b; c]) with 0. change (padn [a; b; c]) with 1.
    cbn [decode_groups obind]. cbn [Nat.mul Nat.add repeat].
    rewrite Nat.add_0_r, (decode_tail_step sg pre a b (Some c) [b; c]) by reflexivity.
    reflexivity.
  - destruct (Byte.eqb d c_eq) eqn:E.
    + assert (P : padn [a; b; c; d] = 1) by (unfold padn; cbn; rewrite E; reflexivity).
      unfold ngroups. rewrite P. change ((length [a; b; c; d] + 3) / 4 - 1) with 0.
      cbn [decode_groups obind]. cbn [Nat.mul Nat.add repeat].
      rewrite Nat.add_0_r, (decode_tail_step sg pre a b (Some c) [b; c; d]) by reflexivity.
      cbn [existsb dec_groups]. rewrite E, (eq_not_big sg d E). reflexivity.
    + assert (P : padn [a; b; c; d] = 0) by (unfold padn; cbn; rewrite E; reflexivity).
      unfold ngroups. rewrite P. change ((length [a; b; c; d] + 3) / 4 - 0) with 1.
      rewrite decode_group_step by (assumption || lia).
      destruct (existsb _ _); [reflexivity|].
      cbn [decode_groups obind]. unfold decode_tail. cbn [Nat.ltb Nat.leb]. cbn [dec_groups].
      rewrite E. cbn. rewrite <- !app_assoc. reflexivity.
  - rewrite ngroups_S4, padn_S4.
    rewrite decode_group_step by (assumption || lia).
    replace (existsb (big sg) (a :: b :: c :: d :: e :: r))
      with (existsb (big sg) [a; b; c; d] || existsb (big sg) (e :: r))
      by (rewrite <- existsb_app; reflexivity).
    destruct (existsb (big sg) [a; b; c; d]); [reflexivity|]. cbn [orb].
    replace (S (ngroups (e :: r)) * 3 + padn (e :: r) - 3) with (ngroups (e :: r) * 3 + padn (e :: r)) by lia.
    replace (length pre + S (ngroups (e :: r)) * 4) with (length (pre ++ [a; b; c; d]) + ngroups (e :: r) * 4)
      by (rewrite app_length; simpl; lia).
    change (a :: b :: c :: d :: e :: r) with ([a; b; c; d] ++ e :: r).
    rewrite app_assoc. cbn [length] in HN.
    rewrite (IH (S (length r))).
    + destruct (existsb _ _); [reflexivity|]. rewrite <- app_assoc. reflexivity.
    + lia.
    + simpl. lia.
    + rewrite app_length. simpl. lia.
    + rewrite app_length. simpl. lia.
Qed.

Lemma decode_eq sg s :
  decode sg s = if existsb (big sg) s then UB else Ok (dec_groups s).
Proof.
  rewrite decode_unfold. exact (decode_spec_gen sg (length s) s [] 0 [] ltac:(lia) eq_refl eq_refl).
Qed.

(** ** Round trip *)

Lemma d0_sx a b : (b < 256)%N -> d0 (sx0 (Byte.to_N a)) (sx1 (Byte.to_N a) b) = a.
Proof.
  intros H. unfold d0, sx0, sx1. rewrite <- (byte_of_to_N a) at 3. f_equal. bounds. lia.
Qed.
Lemma d1_sx a b c : (a < 256)%N -> (c < 256)%N -> d1 (sx1 a (Byte.to_N b)) (sx2 (Byte.to_N b) c) = b.
Proof.
  intros H H'. unfold d1, sx1, sx2. rewrite <- (byte_of_to_N b) at 3. f_equal. bounds. lia.
Qed.
Lemma d2_sx b c : (b < 256)%N -> d2 (sx2 b (Byte.to_N c)) (sx3 (Byte.to_N c)) = c.
Proof.
  intros H. unfold d2, sx2, sx3. rewrite <- (byte_of_to_N c) at 3. f_equal. bounds. lia.
Qed.

Lemma enc_groups_nil b : enc_groups b = [] -> b = [].
Proof. destruct b as [|a [|c [|d r]]]; simpl; auto; discriminate. Qed.

Lemma dec_enc b : dec_groups (enc_groups b) = b.
Proof.
  induction b as [|a|a b|a b c r IH] using list_ind3.
  - reflexivity.
  - bounds. cbn [enc_groups dec_groups]. change (Byte.eqb c_eq c_eq) with true. cbn [dec_tail].
    change (Byte.eqb c_eq c_eq) with true. cbn iota.
    rewrite !idx_chr by (apply sx0_lt || apply sx1_lt; lia).
    rewrite d0_sx by lia. reflexivity.
  - bounds. cbn [enc_groups dec_groups]. change (Byte.eqb c_eq c_eq) with true. cbn [dec_tail].
    rewrite chr_not_eq by (apply sx2_lt; lia).
    rewrite !idx_chr by (apply sx0_lt || apply sx1_lt || apply sx2_lt; lia).
    rewrite d0_sx, d1_sx by lia. reflexivity.
  - bounds. cbn [enc_groups dec_groups]. rewrite chr_not_eq by apply sx3_lt.
    rewrite !idx_chr by (apply sx0_lt || apply sx1_lt || apply sx2_lt || apply sx3_lt; lia).
    rewrite d0_sx, d1_sx, d2_sx by lia.
    destruct (enc_groups r) eqn:E.
    + apply enc_groups_nil in E. subst r. reflexivity.
    + rewrite IH. reflexivity.
Qed.

Lemma enc_not_big sg b : existsb (big sg) (enc_groups b) = false.
Proof.
  assert (C : forall v, (v < 64)%N -> big sg (chr v) = false).
  { intros v H. unfold big. pose proof (chr_small v H).
    destruct (N.leb_spec 128 (Byte.to_N (chr v))); [lia|]. apply andb_false_r. }
  assert (E : big sg c_eq = false) by (destruct sg; reflexivity).
  induction b as [|a|a b|a b c r IH] using list_ind3; bounds; cbn [enc_groups existsb];
    rewrite ?C, ?E by (apply sx0_lt || apply sx1_lt || apply sx2_lt || apply sx3_lt; lia); auto.
Qed.

Lemma round_trip sg b e : encode b = Ok e ->
  (4 * ((N.of_nat (length b) + 2) / 3) < 2 ^ 64)%N -> decode sg e = Ok b.
Proof.
  intros H L. rewrite encode_eq in H by exact L. injection H as <-.
  rewrite decode_eq, enc_not_big, dec_enc. reflexivity.
Qed.
