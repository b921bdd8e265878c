(** C55, C73: compression and compressed files. *)
From Verif Require Import Base ZlibModel.

Lemma firstn_plus {A} : forall n m (l : list A), firstn (n + m) l = firstn n l ++ firstn m (skipn n l).
Proof. induction n; intros m l; [reflexivity|]. destruct l; [cbn; rewrite firstn_nil; auto|]. cbn [Nat.add firstn skipn app]. rewrite IHn. auto. Qed.

Section P.
Context {B : Type}.
Variable buf max_bytes : nat.
Hypothesis Hbuf : 0 < buf.

(** ** zlib's contract *)
(** [decodes c d]: [c] is a complete compressed stream of [d]. *)
Variable decodes : list B -> list B -> Prop.
(** deflate consumes input and writes output in pieces of its choice; with input and room it makes progress; when finishing
    it fills the buffer or ends, and then all it wrote is a stream of all it consumed. *)
Record deflate_ok (Z : deflater B) : Type := {
  d_in : d_state B Z -> list B; d_out : d_state B Z -> list B; d_pot : d_state B Z -> nat; d_open : d_state B Z -> Prop;
  d_start : exists st, d_init B Z = Some st /\ d_in st = [] /\ d_out st = [] /\ d_open st;
  d_feed : forall st input avail st' n out ret, d_open st -> 0 < avail -> input <> [] -> d_step B Z st false input avail = (st', n, out, ret) ->
    ret = ZOk /\ d_open st' /\ n <= length input /\ length out <= avail /\ d_in st' = d_in st ++ firstn n input /\ d_out st' = d_out st ++ out /\ (n = 0 -> d_pot st' < d_pot st);
  d_finish : forall st avail st' n out ret, 0 < avail -> d_step B Z st true [] avail = (st', n, out, ret) ->
    d_in st' = d_in st /\ d_out st' = d_out st ++ out /\ length out <= avail /\
    (ret = ZOk /\ length out = avail /\ d_pot st' < d_pot st \/ ret = ZStreamEnd /\ decodes (d_out st') (d_in st')) }.
(** inflate, given a complete stream, writes what it stands for in pieces, makes progress, and says when it has written all. *)
Record inflate_ok (Z : inflater B) : Prop := {
  i_law : forall c d, decodes c d -> exists (I : i_state B Z -> list B -> list B -> Prop) (pot : i_state B Z -> list B -> nat) st0,
    i_init B Z = Some st0 /\ I st0 c [] /\
    forall st rest done, I st rest done -> forall st' n out ret, i_step B Z st rest buf = (st', n, out, ret) ->
      ret = ZOk /\ I st' (skipn n rest) (done ++ out) /\ pot st' (skipn n rest) < pot st rest \/ ret = ZStreamEnd /\ done ++ out = d }.

Lemma feed_spec (Z : deflater B) (OK : deflate_ok Z) : forall m p input st temp compressed, length input = m -> d_pot _ OK st = p -> d_open _ OK st -> length temp < buf -> compressed ++ temp = d_out _ OK st ->
  exists k st' temp' compressed', (forall f, k <= f -> feed B buf Z f st input temp compressed = Ok (st', temp', compressed')) /\
    d_in _ OK st' = d_in _ OK st ++ input /\ length temp' < buf /\ compressed' ++ temp' = d_out _ OK st'.
Proof.
  induction m as [m IHm] using lt_wf_ind. induction p as [p IHp] using lt_wf_ind. intros input st temp compressed Hm Hp HO Ht Ho. destruct input as [|b input].
  - exists 0, st, temp, compressed. split; [intros [|f] _; reflexivity|]. rewrite app_nil_r. auto.
  - destruct (d_step B Z st false (b :: input) (buf - length temp)) as [[[st1 n] out] ret] eqn:E.
    assert (AV : 0 < buf - length temp) by lia. assert (NE : b :: input <> []) by discriminate. destruct (d_feed _ OK _ _ _ _ _ _ _ HO AV NE E) as (-> & HO1 & L1 & L2 & L3 & L4 & PR).
    set (full := (buf - length (temp ++ out) =? 0)).
    assert (R : exists k st' temp' compressed', (forall f, k <= f -> feed B buf Z f st1 (skipn n (b :: input)) (if full then [] else temp ++ out) (if full then compressed ++ temp ++ out else compressed) = Ok (st', temp', compressed')) /\
      d_in _ OK st' = d_in _ OK st1 ++ skipn n (b :: input) /\ length temp' < buf /\ compressed' ++ temp' = d_out _ OK st').
    { assert (T1 : length (if full then [] else temp ++ out) < buf). { unfold full. destruct (Nat.eqb_spec (buf - length (temp ++ out)) 0); [cbn; lia|]. lia. }
      assert (T2 : (if full then compressed ++ temp ++ out else compressed) ++ (if full then [] else temp ++ out) = d_out _ OK st1). { rewrite L4, <- Ho. destruct full; rewrite ?app_nil_r, <- ?app_assoc; auto. }
      destruct n as [|n].
      - cbn [skipn]. apply (IHp (d_pot _ OK st1)); auto. subst p. auto.
      - eapply (IHm (length (skipn (S n) (b :: input)))); [rewrite skipn_length; cbn [length] in *; lia|reflexivity|reflexivity|auto|auto|auto]. }
    destruct R as (k & st' & temp' & compressed' & R1 & R2 & R3 & R4). exists (S k), st', temp', compressed'. split.
    + intros [|f] F; [lia|]. cbn [feed]. rewrite E. fold full. specialize (R1 f ltac:(lia)). destruct full; auto.
    + split; auto. rewrite R2, L3, <- app_assoc, firstn_skipn. auto.
Qed.
Lemma finish_spec (Z : deflater B) (OK : deflate_ok Z) : forall p st temp compressed, d_pot _ OK st = p -> length temp <= buf -> compressed ++ temp = d_out _ OK st ->
  exists k c, (forall f, k <= f -> finish B buf Z f st temp compressed = Ok c) /\ decodes c (d_in _ OK st).
Proof.
  induction p as [p IH] using lt_wf_ind. intros st temp compressed Hp Ht Ho.
  set (t1 := if (buf - length temp =? 0) then [] else temp). set (c1 := if (buf - length temp =? 0) then compressed ++ temp else compressed).
  assert (T : length t1 < buf /\ c1 ++ t1 = compressed ++ temp). { unfold t1, c1. destruct (Nat.eqb_spec (buf - length temp) 0); cbn [length]; split; try lia; auto. apply app_nil_r. }
  destruct T as [T1 T2]. destruct (d_step B Z st true [] (buf - length t1)) as [[[st1 n] out] ret] eqn:E.
  assert (AV : 0 < buf - length t1) by lia. destruct (d_finish _ OK _ _ _ _ _ _ AV E) as (L3 & L4 & L2 & DF).
  assert (O1 : (c1 ++ t1) ++ out = d_out _ OK st1) by (rewrite T2, Ho; auto).
  assert (U : forall f, finish B buf Z (S f) st temp compressed = match ret with ZOk => finish B buf Z f st1 (t1 ++ out) c1 | ZStreamEnd => Ok (c1 ++ t1 ++ out) | ZError => Throw InvalidArgument end).
  { intros f. cbn [finish]. replace (if buf - length temp =? 0 then ([], compressed ++ temp) else (temp, compressed)) with (t1, c1) by (unfold t1, c1; destruct (_ =? 0); auto). rewrite E. auto. }
  destruct DF as [(-> & F1 & F2)|(-> & F)].
  - destruct (IH (d_pot _ OK st1) ltac:(lia) st1 (t1 ++ out) c1 eq_refl) as (k & c & K & D); [rewrite app_length; lia|rewrite app_assoc; auto|]. exists (S k), c. split; [intros [|f] H; [lia|]; rewrite U; apply K; lia|]. rewrite <- L3. auto.
  - exists 1, (c1 ++ t1 ++ out). split; [intros [|f] H; [lia|]; rewrite U; auto|]. rewrite app_assoc, O1, <- L3. auto.
Qed.
Lemma compress_spec (Z : deflater B) (OK : deflate_ok Z) data : length data <= max_bytes -> exists k c, (forall f, k <= f -> compress_bytes B buf max_bytes Z f data = Ok c) /\ decodes c data.
Proof.
  intros L. destruct (d_start _ OK) as (st & E & I & O & OP). destruct (feed_spec Z OK _ _ data st [] [] eq_refl eq_refl OP ltac:(cbn; lia) (eq_sym O)) as (k1 & st' & temp & comp & F & FI & FT & FO).
  destruct (finish_spec Z OK _ st' temp comp eq_refl ltac:(lia) FO) as (k2 & c & G & D). exists (k1 + k2), c. split.
  - intros f H. unfold compress_bytes. destruct (Nat.ltb_spec max_bytes (length data)); [lia|]. rewrite E, (F f) by lia. cbn [obind]. apply G. lia.
  - rewrite FI, I in D. auto.
Qed.
Lemma decompress_spec (Z : inflater B) : inflate_ok Z -> forall c d, decodes c d -> length c <= max_bytes -> exists k, forall f, k <= f -> decompress_bytes B buf max_bytes Z f c = Ok d.
Proof.
  intros OK c d D L. destruct (i_law _ OK c d D) as (I & pot & st0 & E & I0 & STEP).
  assert (LOOP : forall p st rest done, pot st rest = p -> I st rest done -> exists k, forall f, k <= f -> inflate_loop B buf Z f st rest (length done) done = Ok d).
  { induction p as [p IH] using lt_wf_ind. intros st rest done Hp Hi. destruct (i_step B Z st rest buf) as [[[st1 n] out] ret] eqn:ES.
    assert (U : forall f, inflate_loop B buf Z (S f) st rest (length done) done = match ret with ZOk => inflate_loop B buf Z f st1 (skipn n rest) (length (done ++ out)) (done ++ out) | ZStreamEnd => Ok (done ++ out) | ZError => Throw InvalidArgument end).
    { intros f. cbn [inflate_loop]. rewrite ES. replace (if length done <? length done + length out then done ++ out else done) with (done ++ out); [rewrite app_length; auto|].
      destruct (Nat.ltb_spec (length done) (length done + length out)); auto. destruct out; [apply app_nil_r|cbn [length] in *; lia]. }
    destruct (STEP st rest done Hi _ _ _ _ ES) as [(-> & I1 & P1)|(-> & F)].
    - destruct (IH (pot st1 (skipn n rest)) ltac:(lia) st1 _ _ eq_refl I1) as (k & K). exists (S k). intros [|f] H; [lia|]. rewrite U. apply K. lia.
    - exists 1. intros [|f] H; [lia|]. rewrite U, F. auto. }
  destruct (LOOP _ st0 c [] eq_refl I0) as (k & K). exists k. intros f H. unfold decompress_bytes. destruct (Nat.ltb_spec max_bytes (length c)); [lia|]. rewrite E. apply K. auto.
Qed.
(** C73: the round trip in memory, for every way zlib splits its work; both loops end.  Data of up to the greatest length
    compresses; what it compresses to is only decompressed if it, too, is not longer than that. *)
Theorem C73_round_trip_partial : forall (ZD : deflater B) (ZI : inflater B), deflate_ok ZD -> inflate_ok ZI -> forall data, length data <= max_bytes ->
  exists k c, (forall f, k <= f -> compress_bytes B buf max_bytes ZD f data = Ok c) /\
    (length c <= max_bytes -> exists k', forall f, k' <= f -> decompress_bytes B buf max_bytes ZI f c = Ok data).
Proof.
  intros ZD ZI OD OI data L. destruct (compress_spec ZD OD data L) as (k & c & K & D). exists k, c. split; auto. intros LC. apply (decompress_spec ZI OI); auto.
Qed.
(** Too much data is rejected by both. *)
Theorem C73_too_long : forall (ZD : deflater B) (ZI : inflater B) f data, max_bytes < length data -> compress_bytes B buf max_bytes ZD f data = Throw InvalidArgument /\ decompress_bytes B buf max_bytes ZI f data = Throw InvalidArgument.
Proof. intros ZD ZI f data L. unfold compress_bytes, decompress_bytes. destruct (Nat.ltb_spec max_bytes (length data)); [auto|lia]. Qed.
End P.
Print Assumptions C73_round_trip_partial.
Print Assumptions C73_too_long.

(** ** A codec that meets the contract: the data followed by one trailer byte, all written at the end *)
Definition copy_deflater : deflater nat :=
  {| d_state := list nat * nat;      (* consumed, number of bytes written *)
     d_init := Some ([], 0);
     d_step := fun st fin input avail =>
       let '(i, w) := st in
       if fin then
         let out := firstn avail (skipn w (i ++ [0])) in
         ((i, w + length out), 0, out, if length (skipn w (i ++ [0])) <=? avail then ZStreamEnd else ZOk)
       else ((i ++ firstn 1 input, w), length (firstn 1 input), [], ZOk) |}.
Definition copy_inflater : inflater nat :=
  {| i_state := unit; i_init := Some tt;
     i_step := fun st input avail => if length input <=? avail then (tt, length input, removelast input, ZStreamEnd) else (tt, avail, firstn avail input, ZOk) |}.
Definition copy_decodes (c d : list nat) : Prop := c = d ++ [0].
Definition copy_deflate_ok : deflate_ok copy_decodes copy_deflater.
Proof.
  refine {| d_in := fun st : d_state nat copy_deflater => fst st : list nat; d_out := fun st : d_state nat copy_deflater => firstn (snd st) (fst st ++ [0]); d_pot := fun st : d_state nat copy_deflater => length (fst st) + 1 - snd st; d_open := fun st : d_state nat copy_deflater => snd st = 0 |}.
  - exists ([], 0). auto.
  - intros [i w] input avail st' n out ret O A N H. cbn in O. subst w. destruct input as [|b input]; [congruence|]. cbn in H. injection H as <- <- <- <-. cbn. repeat split; auto; lia.
  - intros [i w] avail st' n out ret A H. cbn in H. injection H as <- <- <- <-. cbn [fst snd]. rewrite firstn_length, skipn_length.
    assert (X : firstn (w + Nat.min avail (length (i ++ [0]) - w)) (i ++ [0]) = firstn w (i ++ [0]) ++ firstn avail (skipn w (i ++ [0]))).
    { rewrite firstn_plus. f_equal. rewrite <- (skipn_length w (i ++ [0])). destruct (Nat.le_gt_cases avail (length (skipn w (i ++ [0])))); [rewrite Nat.min_l by lia; auto|]. rewrite Nat.min_r by lia. rewrite !firstn_all2; auto; lia. }
    split; auto. split; auto. split; [lia|]. rewrite app_length in *. cbn [length] in *. destruct (Nat.leb_spec (length i + 1 - w) avail); [right|left].
    + split; auto. unfold copy_decodes. apply firstn_all2. rewrite app_length. cbn. lia.
    + rewrite Nat.min_l by lia. split; auto. split; auto. lia.
Defined.
Lemma copy_inflate_ok buf : 0 < buf -> inflate_ok buf copy_decodes copy_inflater.
Proof.
  intros Hb. constructor. intros c d ->. exists (fun _ rest done => done ++ rest = d ++ [0] /\ rest <> []), (fun _ rest => length rest), tt. split; auto. split; [split; auto; destruct d; discriminate|].
  intros st rest done [E N] st' n out ret H. cbn in H. destruct (Nat.leb_spec (length rest) buf); injection H as <- <- <- <-; [right|left; split; auto; split; [split|]].
  - split; auto. destruct rest as [|a rest] using rev_ind; [congruence|]. rewrite removelast_last. rewrite app_assoc in E. apply app_inj_tail in E. apply E.
  - rewrite <- app_assoc, firstn_skipn. auto.
  - intros X. apply (f_equal (@length nat)) in X. rewrite skipn_length in X. cbn in X. lia.
  - rewrite skipn_length. lia.
Qed.
Example C73_example : compress_bytes nat 2 9 copy_deflater 20 [5; 6; 7] = Ok [5; 6; 7; 0] /\ decompress_bytes nat 2 9 copy_inflater 20 [5; 6; 7; 0] = Ok [5; 6; 7].
Proof. split; vm_compute; reflexivity. Qed.
(** C73 is false near the limit: data that does not shrink compresses to more than can be decompressed. *)
Theorem C73_limit_refuted : exists buf max_bytes data c f, 0 < buf /\ length data <= max_bytes /\ compress_bytes nat buf max_bytes copy_deflater f data = Ok c /\ decompress_bytes nat buf max_bytes copy_inflater f c = Throw InvalidArgument.
Proof. exists 2, 3, [5; 6; 7], [5; 6; 7; 0], 20. repeat split; try (cbn; lia); vm_compute; reflexivity. Qed.
Print Assumptions C73_limit_refuted.

(** ** Files *)
Section F.
Context {B path : Type} (path_eqb : path -> path -> bool).
Hypothesis E : forall a b, reflect (a = b) (path_eqb a b).
Variable slice_path : path -> nat -> path.
(** Appending ".i" gives different names for different i, and never the name itself. *)
Hypothesis slice_inj : forall p i j, slice_path p i = slice_path p j -> i = j.
Hypothesis slice_other : forall p i, slice_path p i <> p.
Variable max_bytes : nat.
Hypothesis Hmax : 0 < max_bytes.
Variable compress decompress : list B -> outcome (list B).
(** The disk takes all that is written. *)
Definition healthy (store : path -> list B -> option (list B * bool)) : Prop := forall p c, store p c = Some (c, false).
(** In-memory round trip of a piece of data. *)
Definition round_trips (d : list B) : Prop := exists c, compress d = Ok c /\ decompress c = Ok d.
Variable store : path -> list B -> option (list B * bool).
Hypothesis ST : healthy store.
Notation write := (compress_and_write B max_bytes path path_eqb slice_path compress store).
Notation load := (load B path slice_path decompress).

Lemma put_same fs p c : put B path path_eqb fs p c p = Some c.
Proof. unfold put. destruct (E p p); congruence. Qed.
Lemma put_other fs p c q : q <> p -> put B path path_eqb fs p c q = fs q.
Proof. unfold put. destruct (E q p); congruence. Qed.
(** C55 (partial): data that fits into a single file is read back, whatever the files were before. *)
Theorem C55_single_partial : forall fs data p, length data <= max_bytes -> round_trips data -> forall f f',
  exists fs', write f fs data p = (fs', Ok tt) /\ load f' fs' p = Ok data /\ forall q, q <> p -> fs' q = fs q.
Proof.
  intros fs data p L (c & C & D) f f'. unfold compress_and_write. destruct (Nat.ltb_spec max_bytes (length data)); [lia|]. unfold write_single. rewrite C, ST.
  eexists. split; [reflexivity|]. unfold ZlibModel.load. rewrite put_same. split; auto. intros q N. apply put_other. auto.
Qed.
(** The pieces data is split into. *)
Definition piece (data : list B) (i : nat) : list B := firstn max_bytes (skipn (i * max_bytes) data).
Definition pieces (data : list B) : nat := (length data + max_bytes - 1) / max_bytes.
Lemma piece_code data i : firstn (Nat.min ((i + 1) * max_bytes) (length data) - i * max_bytes) (skipn (i * max_bytes) data) = piece data i.
Proof.
  unfold piece. destruct (Nat.le_gt_cases ((i + 1) * max_bytes) (length data)); [f_equal; lia|]. rewrite !firstn_all2; auto; rewrite skipn_length; lia.
Qed.
Lemma write_slices_spec data p : (forall i, round_trips (piece data i)) -> forall m f i fs, i < pieces data -> m = pieces data - i -> m <= f ->
  exists fs', write_slices B max_bytes path path_eqb slice_path compress store f i fs data p = (fs', Ok tt) /\
    (forall j, i <= j < pieces data -> exists c, fs' (slice_path p j) = Some c /\ decompress c = Ok (piece data j)) /\
    (forall q, (forall j, i <= j < pieces data -> q <> slice_path p j) -> fs' q = fs q).
Proof.
  intros RT. assert (PL : forall i, S i < pieces data <-> (i + 1) * max_bytes < length data).
  { intros i. unfold pieces. split; intros H.
    - assert (X : (i + 2) * max_bytes <= length data + max_bytes - 1); [|lia]. etransitivity; [|apply (Nat.mul_div_le (length data + max_bytes - 1) max_bytes); lia]. rewrite Nat.mul_comm. apply Nat.mul_le_mono_l. lia.
    - apply Nat.div_le_lower_bound; lia. }
  induction m as [|m IH]; intros f i fs Hi Hm Hf; [lia|]. destruct f as [|f]; [lia|]. cbn [write_slices]. rewrite piece_code. destruct (RT i) as (c & C & D). unfold write_single. rewrite C, ST. cbn zeta.
  destruct (Nat.ltb_spec ((i + 1) * max_bytes) (length data)) as [LT|GE].
  - apply PL in LT. destruct (IH f (i + 1) (put B path path_eqb fs (slice_path p i) c)) as (fs' & W & S & O); try lia. exists fs'. split; auto. split.
    + intros j J. destruct (Nat.eq_dec j i) as [ -> |NE]; [|apply S; lia]. exists c. split; auto. rewrite O; [apply put_same|]. intros k K X. apply slice_inj in X. lia.
    + intros q Q. rewrite O by (intros j J; apply Q; lia). apply put_other. apply Q. lia.
  - assert (LAST : pieces data = S i). { destruct (Nat.eq_dec (pieces data) (S i)); auto. assert (S i < pieces data) by lia. apply PL in H. lia. }
    eexists. split; [reflexivity|]. split.
    + intros j J. replace j with i by lia. exists c. split; auto. apply put_same.
    + intros q Q. apply put_other. apply Q. lia.
Qed.
Lemma pieces_concat data : forall n, firstn (n * max_bytes) data = flat_map (piece data) (seq 0 n).
Proof.
  induction n; [reflexivity|]. rewrite seq_S, flat_map_app, <- IHn. cbn [flat_map]. rewrite app_nil_r. unfold piece. cbn [Nat.add]. replace (S n * max_bytes) with (n * max_bytes + max_bytes) by lia.
  apply firstn_plus.
Qed.
Lemma load_slices_spec data p fs n : (forall j, j < n -> exists c, fs (slice_path p j) = Some c /\ decompress c = Ok (piece data j)) -> fs (slice_path p n) = None ->
  forall m f i acc, i <= n -> m = n - i -> m < f -> load_slices B path slice_path decompress f i fs p acc = Ok (acc ++ flat_map (piece data) (seq i m)).
Proof.
  intros S0 SN. induction m as [|m IH]; intros f i acc Hi Hm Hf; (destruct f as [|f]; [lia|]); cbn [load_slices].
  - replace i with n by lia. rewrite SN. cbn. rewrite app_nil_r. auto.
  - destruct (S0 i ltac:(lia)) as (c & -> & D). unfold load_single. rewrite D. cbn [obind]. rewrite IH by lia. cbn [seq flat_map]. rewrite <- app_assoc. rewrite Nat.add_1_r. auto.
Qed.
(** Data that has to be split is read back if there is no plain file of that name and no slice left over after the last. *)
Theorem C55_slices_partial : forall fs data p, max_bytes < length data -> (forall i, round_trips (piece data i)) -> fs p = None -> fs (slice_path p (pieces data)) = None ->
  forall f f', pieces data < f -> pieces data < f' -> exists fs', write f fs data p = (fs', Ok tt) /\ load f' fs' p = Ok data.
Proof.
  intros fs data p L RT NP NS f f' F F'. unfold compress_and_write. destruct (Nat.ltb_spec max_bytes (length data)); [|lia].
  assert (P0 : 0 < pieces data). { unfold pieces. apply Nat.div_str_pos. lia. }
  destruct (write_slices_spec data p RT (pieces data) f 0 fs P0 ltac:(lia) ltac:(lia)) as (fs' & W & S & O). exists fs'. split; auto.
  unfold ZlibModel.load. rewrite O by (intros j J X; apply (slice_other p j); auto). rewrite NP. destruct (S 0 ltac:(lia)) as (c0 & C0 & _). rewrite C0.
  rewrite (load_slices_spec data p fs' (pieces data)) with (m := pieces data); try lia.
  - cbn [app]. rewrite <- pieces_concat. f_equal. apply firstn_all2. unfold pieces. pose proof (Nat.mul_succ_div_gt (length data + max_bytes - 1) max_bytes ltac:(lia)). nia.
  - intros j J. apply S. lia.
  - rewrite O; auto. intros j J X. apply slice_inj in X. lia.
Qed.

End F.
(** Whatever the disk does: when writing reports success, the file, or every one of the slices, was opened, the stream
    was not bad after closing, and what the disk kept is the file's content. *)
Section Reported.
Variable B : Type.
Variable max_bytes : nat.
Hypothesis Hm : 0 < max_bytes.
Variable path : Type.
Variable path_eqb : path -> path -> bool.
Hypothesis peq : forall a b, path_eqb a b = true <-> a = b.
Variable slice_path : path -> nat -> path.
Hypothesis slice_inj : forall p i j, slice_path p i = slice_path p j -> i = j.
Variable compress : list B -> outcome (list B).
Variable store : path -> list B -> option (list B * bool).
Definition kept (fs : files B path) (q : path) (data : list B) : Prop :=
  exists c stored, compress data = Ok c /\ store q c = Some (stored, false) /\ fs q = Some stored.
Lemma write_single_reported fs data p fs' : write_single B path path_eqb compress store fs data p = (fs', Ok tt) -> kept fs' p data /\ forall q, q <> p -> fs' q = fs q.
Proof.
  unfold write_single, kept. destruct (compress data) as [c| | | |]; try discriminate. destruct (store p c) as [[stored [|]]|] eqn:E; try discriminate. intros H. injection H as <-.
  split.
  - exists c, stored. repeat split; auto. unfold put. rewrite (proj2 (peq p p) eq_refl). reflexivity.
  - intros q N. unfold put. destruct (path_eqb q p) eqn:Q; auto. apply peq in Q. contradiction.
Qed.
Theorem C55_reported : forall f fs data p fs', compress_and_write B max_bytes path path_eqb slice_path compress store f fs data p = (fs', Ok tt) ->
  (length data <= max_bytes -> kept fs' p data) /\
  (max_bytes < length data -> forall i, i * max_bytes < length data -> kept fs' (slice_path p i) (firstn max_bytes (skipn (i * max_bytes) data))).
Proof.
  intros f fs data p fs' H. unfold compress_and_write in H. destruct (Nat.ltb_spec max_bytes (length data)) as [L|L].
  2:{ split; [intros _; eapply write_single_reported; eauto|lia]. }
  split; [lia|]. intros _.
  enough (X : forall f i fs, write_slices B max_bytes path path_eqb slice_path compress store f i fs data p = (fs', Ok tt) ->
    (forall j, i <= j -> j * max_bytes < length data -> kept fs' (slice_path p j) (firstn max_bytes (skipn (j * max_bytes) data))) /\
    forall j, j < i -> fs' (slice_path p j) = fs (slice_path p j)) by (intros j J; eapply X; eauto; lia).
  clear -Hm peq slice_inj. induction f as [|f IH]; intros i fs H; cbn [write_slices] in H; [discriminate|]. cbv zeta in H.
  destruct (write_single B path path_eqb compress store fs _ (slice_path p i)) as [fs1 r] eqn:W.
  destruct r as [[]| | | |]; try discriminate. apply write_single_reported in W. destruct W as [K O].
  assert (PC : firstn (Nat.min ((i + 1) * max_bytes) (length data) - i * max_bytes) (skipn (i * max_bytes) data) = firstn max_bytes (skipn (i * max_bytes) data)).
  { destruct (Nat.le_gt_cases ((i + 1) * max_bytes) (length data)); [f_equal; lia|]. rewrite !firstn_all2; auto; rewrite skipn_length; lia. }
  rewrite PC in K. clear PC.
  destruct (Nat.ltb_spec ((i + 1) * max_bytes) (length data)).
  - apply IH in H. destruct H as [I1 I2]. split.
    + intros j J1 J2. destruct (Nat.eq_dec j i) as [->|]; [|apply I1; auto; lia]. destruct K as (c & st & K1 & K2 & K3). exists c, st. rewrite I2 by lia. auto.
    + intros j J. rewrite I2 by lia. apply O. intros X. apply slice_inj in X. lia.
  - injection H as <-. split.
    + intros j J1 J2. assert (j = i) by nia. subst j. auto.
    + intros j J. apply O. intros X. apply slice_inj in X. lia.
Qed.
End Reported.
Print Assumptions C55_reported.
Print Assumptions C55_single_partial.
Print Assumptions C55_slices_partial.

(** ** Concrete files: names are pairs of a name and a slice number + 1; two bytes fit into a file *)
Definition fpath := (nat * nat)%type.
Definition fpath_eqb (a b : fpath) : bool := Nat.eqb (fst a) (fst b) && Nat.eqb (snd a) (snd b).
Definition fslice (p : fpath) (i : nat) : fpath := (fst p, snd p + S i).
Definition fcompress (d : list nat) : outcome (list nat) := Ok (7 :: d).
Definition fdecompress (c : list nat) : outcome (list nat) := match c with _ :: d => Ok d | [] => Throw InvalidArgument end.
Definition fstore (p : fpath) (c : list nat) : option (list nat * bool) := Some (c, false).
Definition no_files : files nat fpath := fun _ => None.
Notation fwrite fs d := (compress_and_write nat 2 fpath fpath_eqb fslice fcompress fstore 20 fs d (1, 0)).
Notation fload fs := (load nat fpath fslice fdecompress 20 fs (1, 0)).
Example C55_example : snd (fwrite no_files [1; 2; 3; 4; 5]) = Ok tt /\ fload (fst (fwrite no_files [1; 2; 3; 4; 5])) = Ok [1; 2; 3; 4; 5].
Proof. split; vm_compute; reflexivity. Qed.
Example C55_hypotheses : healthy fstore /\ (forall p i j, fslice p i = fslice p j -> i = j) /\ (forall p i, fslice p i <> p) /\ forall d, round_trips fcompress fdecompress d.
Proof.
  split; [intros p c; reflexivity|]. split; [intros [a b] i j H; injection H; intros; lia|]. split; [intros [a b] i H; injection H; intros; lia|]. intros d. exists (7 :: d). auto.
Qed.
(** C55 is false after other writes to the same path: a plain file written before hides the slices, and slices of a longer
    earlier write are read too; and a disk that fails only when closing goes unnoticed. *)
Theorem C55_stale_file_refuted : exists d1 d2, let fs := fst (fwrite no_files d1) in snd (fwrite fs d2) = Ok tt /\ fload (fst (fwrite fs d2)) = Ok d1 /\ d1 <> d2.
Proof. exists [9], [1; 2; 3]. cbn zeta. split; [vm_compute; reflexivity|]. split; [vm_compute; reflexivity|discriminate]. Qed.
Print Assumptions C55_stale_file_refuted.
Theorem C55_stale_slices_refuted : exists d1 d2, let fs := fst (fwrite no_files d1) in snd (fwrite fs d2) = Ok tt /\ fload (fst (fwrite fs d2)) <> Ok d2.
Proof. exists [1; 2; 3; 4; 5], [6; 7; 8]. cbn zeta. split; [vm_compute; reflexivity|]. vm_compute. discriminate. Qed.
Print Assumptions C55_stale_slices_refuted.
(** [store] as of a full disk: a part arrives, close() sets the fail bit but not the bad bit. *)
Theorem C55_full_disk_refuted : exists store d, let r := compress_and_write nat 2 fpath fpath_eqb fslice fcompress store 20 no_files d (1, 0) in snd r = Ok tt /\ fload (fst r) <> Ok d.
Proof. exists (fun _ c => Some (firstn 1 c, false)), [1; 2]. cbn zeta. split; [vm_compute; reflexivity|]. vm_compute. discriminate. Qed.
Print Assumptions C55_full_disk_refuted.

(** Success reported by a disk that keeps only the first two bytes of every file: two slices, both kept so. *)
Example C55_reported_example : let st := fun (_ : fpath) c => Some (firstn 2 c, false) in
  exists fs', compress_and_write nat 2 fpath fpath_eqb fslice fcompress st 20 no_files [1; 2; 3] (1, 0) = (fs', Ok tt) /\ fs' (1, 1) = Some [7; 1] /\ fs' (1, 2) = Some [7; 3].
Proof. eexists. split; [reflexivity|]. split; reflexivity. Qed.
