(** C167: the bytes of serialized graphs, matrices, grids and planner states. *)
From Coq Require Import Strings.Byte.
From Verif Require Import Base SerModel SerSpec SerProofs SerTypes GraphModel EigenSerModel EigenSerProofs VoxelModel VoxelSer RrtModel.

(** Big-endian numbers with as many bytes are equal only if the bytes are. *)
Lemma be_value_bound l : (be_value l < 256 ^ N.of_nat (length l))%N.
Proof.
  induction l as [|b l IH]; [reflexivity|]. cbn [be_value length]. rewrite Nat2N.inj_succ, N.pow_succ_r by lia. pose proof (Byte.to_N_bounded b). nia.
Qed.
Lemma be_value_inj l : forall l', length l = length l' -> be_value l = be_value l' -> l = l'.
Proof.
  induction l as [|b l IH]; intros [|b' l'] L E; try discriminate; [reflexivity|]. cbn [length] in L. injection L as L. cbn [be_value] in E. rewrite L in E.
  pose proof (be_value_bound l) as B. pose proof (be_value_bound l') as B'. rewrite L in B. set (k := (256 ^ N.of_nat (length l'))%N) in *.
  assert (T : Byte.to_N b = Byte.to_N b').
  { rewrite (N.div_unique (Byte.to_N b * k + be_value l) k (Byte.to_N b) (be_value l) B) by lia. symmetry. apply (N.div_unique _ k _ (be_value l') B'). lia. }
  f_equal; [|apply IH; [exact L|lia]]. assert (O : Byte.of_N (Byte.to_N b) = Byte.of_N (Byte.to_N b')) by (rewrite T; reflexivity). rewrite !Byte.of_to_N in O. congruence.
Qed.

Section Layout.
(** The host, and its way to hold a number of [k] bytes: the bytes of the number in base 256, lowest first on a little-endian host. *)
Variables (le : bool) (word : nat -> N -> list byte).
Hypothesis WORD : forall k x, (x < 256 ^ N.of_nat k)%N -> length (word k x) = k /\ be_value (if le then rev (word k x) else word k x) = x.
(** Two's complement in eight bytes. *)
Definition int64 (z : Z) : list byte := word 8 (Z.to_N (if z <? 0 then z + 2 ^ 64 else z)%Z).
Definition u64 (x : N) : Prop := (x < 2 ^ 64)%N.
Definition i64 (z : Z) : Prop := (- 2 ^ 63 <= z < 2 ^ 63)%Z.
Definition count {A} (l : list A) : list byte := word 8 (N.of_nat (length l)).

Lemma mem_word k x : (x < 256 ^ N.of_nat k)%N -> mem_of le k x = word k x.
Proof.
  intros H. destruct (WORD k x H) as (L & V). unfold mem_of. pose proof (le_value_bytes k x H) as LV. rewrite <- be_value_rev in LV.
  destruct le.
  - rewrite <- (rev_involutive (word k x)), <- (rev_involutive (le_bytes k x)). f_equal. apply be_value_inj; [|congruence]. rewrite !rev_length, le_bytes_length. auto.
  - apply be_value_inj; [|congruence]. rewrite rev_length, le_bytes_length. auto.
Qed.
Lemma u64_word x : u64 x -> mem_of le 8 x = word 8 x.
Proof. intros H. apply mem_word. exact H. Qed.
Lemma i64_word z : i64 z -> mem_of le 8 (sint_bits 8 z) = int64 z.
Proof.
  intros [L H]. unfold int64, sint_bits. change (2 ^ (8 * Z.of_nat 8))%Z with (2 ^ 64)%Z.
  assert (E : (z mod 2 ^ 64 = if z <? 0 then z + 2 ^ 64 else z)%Z).
  { destruct (Z.ltb_spec z 0); [|apply Z.mod_small; lia]. symmetry. apply (Z.mod_unique z (2 ^ 64) (-1)); lia. }
  rewrite E. apply mem_word. change (256 ^ N.of_nat 8)%N with (2 ^ 64)%N. destruct (Z.ltb_spec z 0); lia.
Qed.
Lemma w_pod {T} (p : pod T) x b : pod_rep p x = b -> writes (ser_pod p) x b.
Proof. intros <-. apply ser_pod_writes. Qed.
Lemma w_vector {A} (s : serializer A) enc l : u64 (N.of_nat (length l)) -> (forall a, In a l -> writes s a (enc a)) ->
  writes (ser_vector (ser_u64 le) s) l (count l ++ concat (map enc l)).
Proof. intros H W. apply vector_wire; [exact H|apply w_pod, u64_word, H|apply Forall_forall, W]. Qed.

(** *** Graphs *)
Definition edge_bytes (e : edge N) : list byte :=
  int64 (e_from e) ++ int64 (e_to e) ++ word 8 (e_weight e) ++ word 4 (match e_valid e with VALID => 0 | INVALID => 1 | UNKNOWN => 2 end)%N.
Definition edge_fits (e : edge N) : Prop := i64 (e_from e) /\ i64 (e_to e) /\ u64 (e_weight e).
Definition node_bytes {V} (value_bytes : V -> list byte) (n : node V N) : list byte :=
  value_bytes (n_value n) ++ word 8 (n_dist n) ++ count (n_in n) ++ concat (map edge_bytes (n_in n)) ++ count (n_out n) ++ concat (map edge_bytes (n_out n)).
Definition node_fits {V} (n : node V N) : Prop :=
  u64 (n_dist n) /\ u64 (N.of_nat (length (n_in n))) /\ u64 (N.of_nat (length (n_out n))) /\ forall e, In e (n_in n) \/ In e (n_out n) -> edge_fits e.

Lemma w_edge e : edge_fits e -> writes (ser_edge le) e (edge_bytes e).
Proof.
  intros (F & T & W) buf. unfold ser_edge.
  rewrite (w_pod (i64_pod le) (e_from e) _ (i64_word _ F)). cbn [obind fst]. rewrite (w_pod (i64_pod le) (e_to e) _ (i64_word _ T)). cbn [obind fst].
  rewrite (w_pod (f64_pod le) (e_weight e) _ (u64_word _ W)). cbn [obind fst].
  assert (C : pod_rep (validity_pod le) (e_valid e) = word 4 (match e_valid e with VALID => 0 | INVALID => 1 | UNKNOWN => 2 end)%N) by (apply mem_word; destruct (e_valid e); reflexivity).
  rewrite (w_pod (validity_pod le) (e_valid e) _ C). cbn [obind fst]. rewrite <- !app_assoc, app_sub_length. reflexivity.
Qed.
Lemma w_node {V} (sv : serializer V) ev n : node_fits n -> writes sv (n_value n) (ev (n_value n)) -> writes (ser_node le sv) n (node_bytes ev n).
Proof.
  intros (D & I & O & E) W buf. unfold ser_node. rewrite W. cbn [obind fst]. rewrite (w_pod (f64_pod le) (n_dist n) _ (u64_word _ D)). cbn [obind fst].
  rewrite (w_vector (ser_edge le) edge_bytes (n_in n) I) by (intros; apply w_edge; auto). cbn [obind fst].
  rewrite (w_vector (ser_edge le) edge_bytes (n_out n) O) by (intros; apply w_edge; auto). cbn [obind fst]. rewrite <- !app_assoc, app_sub_length. reflexivity.
Qed.
Theorem C167_graph {V} (sv : serializer V) value_bytes (g : graph V N) : u64 (N.of_nat (length g)) ->
  (forall n, In n g -> node_fits n /\ writes sv (n_value n) (value_bytes (n_value n))) ->
  writes (ser_graph le sv) g (count g ++ concat (map (node_bytes value_bytes) g)).
Proof.
  intros L H buf. unfold ser_graph. rewrite (w_vector (ser_node le sv) (node_bytes value_bytes) g L) by (intros n I; destruct (H n I); apply w_node; auto).
  cbn [obind fst]. rewrite app_sub_length. reflexivity.
Qed.

(** *** Matrices: the sizes that are not fixed, then the entries, column by column *)
Definition size_bytes (fixed : option N) (n : N) : list byte := match fixed with Some _ => [] | None => word 8 n end.
Theorem C167_matrix scalar rows cols m : u64 (em_rows m) -> u64 (em_cols m) -> Forall (fun x => (x < 256 ^ N.of_nat scalar)%N) (em_data m) ->
  writes (ser_eigen le scalar rows cols) m (size_bytes rows (em_rows m) ++ size_bytes cols (em_cols m) ++ concat (map (word scalar) (em_data m))).
Proof.
  intros R C D. assert (E : eigen_bytes le scalar rows cols m = size_bytes rows (em_rows m) ++ size_bytes cols (em_cols m) ++ concat (map (word scalar) (em_data m))).
  { unfold eigen_bytes. f_equal; [destruct rows; [reflexivity|apply u64_word, R]|]. f_equal; [destruct cols; [reflexivity|apply u64_word, C]|].
    rewrite flat_map_concat_map. f_equal. apply map_ext_in. intros x I. apply mem_word. revert x I. apply Forall_forall, D. }
  rewrite <- E. apply ser_eigen_writes.
Qed.

(** *** Voxel grids *)
Definition three (p : N * N * N) : list byte := word 8 (fst (fst p)) ++ word 8 (snd (fst p)) ++ word 8 (snd p).
Definition three_fit (p : N * N * N) : Prop := u64 (fst (fst p)) /\ u64 (snd (fst p)) /\ u64 (snd p).
Definition grid_bytes {T} (value_bytes : T -> list byte) (g : vgrid T) : list byte :=
  word 1 (if vg_init g then 1 else 0)%N ++ concat (map (word 8) (geo_origin (vg_geo g))) ++ concat (map (word 8) (geo_inverse (vg_geo g))) ++
  count (vg_data g) ++ concat (map value_bytes (vg_data g)) ++ three (geo_cell (vg_geo g)) ++ three (geo_inv_cell (vg_geo g)) ++ three (geo_size (vg_geo g)) ++
  int64 (vg_s1 g) ++ int64 (vg_s2 g) ++ int64 (vg_nx g) ++ int64 (vg_ny g) ++ int64 (vg_nz g) ++ value_bytes (vg_default g) ++ value_bytes (vg_oob g).
Definition grid_fits {T} (g : vgrid T) : Prop :=
  Forall u64 (geo_origin (vg_geo g)) /\ Forall u64 (geo_inverse (vg_geo g)) /\ u64 (N.of_nat (length (vg_data g))) /\
  three_fit (geo_cell (vg_geo g)) /\ three_fit (geo_inv_cell (vg_geo g)) /\ three_fit (geo_size (vg_geo g)) /\
  i64 (vg_s1 g) /\ i64 (vg_s2 g) /\ i64 (vg_nx g) /\ i64 (vg_ny g) /\ i64 (vg_nz g).

Lemma w_then {A B} (s1 : serializer A) (s2 : serializer B) a b ba bb : writes s1 a ba -> writes s2 b bb -> writes (ser_then s1 s2) (a, b) (ba ++ bb).
Proof. intros H1 H2 buf. unfold ser_then. cbn [fst snd]. rewrite H1. cbn [obind fst]. rewrite H2. cbn [obind fst]. rewrite <- app_assoc, app_sub_length. reflexivity. Qed.
Lemma w_three p : three_fit p -> writes (ser_3 le) p (three p).
Proof.
  destruct p as [[a b] c]. intros (A & B & C). unfold three. rewrite app_assoc. apply w_then; [apply w_then|]; apply w_pod, u64_word; assumption.
Qed.
Lemma w_iso l : Forall u64 l -> writes (ser_iso le) l (concat (map (word 8) l)).
Proof. intros F. apply (C167_matrix 8 (Some 4%N) (Some 4%N) (iso_of l)); [reflexivity|reflexivity|exact F]. Qed.
Theorem C167_grid {T} (sv : serializer T) value_bytes (g : vgrid T) : grid_fits g ->
  (forall v, In v (vg_data g) \/ v = vg_default g \/ v = vg_oob g -> writes sv v (value_bytes v)) ->
  writes (ser_vgrid le sv) g (grid_bytes value_bytes g).
Proof.
  intros (O & I & L & C & IC & S & S1 & S2 & NX & NY & NZ) V. unfold ser_vgrid, fields, grid_bytes. intros buf. revert buf.
  match goal with |- forall buf, ?s ?f buf = _ => change (writes s f (grid_bytes value_bytes g)) end. unfold grid_bytes.
  apply w_then; [intros buf; unfold ser_flag; rewrite (w_pod (uint_pod le 1) _ (word 1 (if vg_init g then 1 else 0)%N)); [reflexivity|apply mem_word; destruct (vg_init g); reflexivity]|].
  apply w_then; [apply w_iso, O|]. apply w_then; [apply w_iso, I|]. rewrite (app_assoc (count _)).
  apply w_then; [apply w_vector; auto|]. do 3 (apply w_then; [apply w_three; assumption|]). do 5 (apply w_then; [apply w_pod, i64_word; assumption|]). apply w_then; apply V; auto.
Qed.

(** *** States of the planners *)
Definition state_bytes {V} (value_bytes : V -> list byte) (s : pstate V) : list byte :=
  word 1 (if p_init s then 1 else 0)%N ++ int64 (p_parent s) ++ count (p_children s) ++ concat (map int64 (p_children s)) ++ value_bytes (p_value s).
Theorem C167_state {V} (sv : serializer V) value_bytes (s : pstate V) : i64 (p_parent s) -> Forall i64 (p_children s) -> u64 (N.of_nat (length (p_children s))) ->
  writes sv (p_value s) (value_bytes (p_value s)) -> writes (ser_state le sv) s (state_bytes value_bytes s).
Proof.
  intros P C L W buf. unfold ser_state. rewrite (w_pod (uint_pod le 1) _ (word 1 (if p_init s then 1 else 0)%N)) by (apply mem_word; destruct (p_init s); reflexivity).
  cbn [obind fst]. rewrite (w_pod (sint_pod le 8) (p_parent s) _ (i64_word _ P)). cbn [obind fst].
  rewrite (w_vector (ser_pod (sint_pod le 8)) int64 (p_children s) L) by (intros z I; apply w_pod, i64_word; revert z I; apply Forall_forall, C). cbn [obind fst].
  rewrite W. cbn [obind fst]. rewrite <- !app_assoc, app_sub_length. reflexivity.
Qed.
End Layout.
Print Assumptions C167_graph.
Print Assumptions C167_matrix.
Print Assumptions C167_grid.
Print Assumptions C167_state.

(** *** Reading a flag: every byte but 0 is true *)
Lemma read_flag dbg le before b rest : de_pod dbg (uint_pod le 1) (before ++ b :: rest) (length before) = Ok (Byte.to_N b, 1).
Proof.
  unfold de_pod. cbn [pod_size pod_abs uint_pod]. rewrite app_length. cbn [length].
  replace (length before <=? length before + S (length rest)) with true by (symmetry; apply Nat.leb_le; lia).
  replace (length before + 1 <=? length before + S (length rest)) with true by (symmetry; apply Nat.leb_le; lia).
  unfold cassert. cbn [negb]. rewrite !Bool.andb_false_r. pose proof (read_bytes_middle before [b] rest) as R. cbn [app length] in R. rewrite R. cbn [obind]. f_equal. f_equal.
  unfold of_mem. destruct le; cbn; lia.
Qed.
Lemma byte_zero b : (Byte.to_N b =? 0)%N = true <-> b = x00.
Proof. destruct b; cbn; split; intros H; congruence || discriminate H. Qed.
Theorem C167_flag_read {T} dbg le maxr (dv : deserializer T) before b rest : let buf := before ++ b :: rest in
  (forall g n, de_vgrid dbg le maxr dv buf (length before) = Ok (g, n) -> (vg_init g = true <-> b <> x00)) /\
  (forall s n, de_state dbg le maxr dv buf (length before) = Ok (s, n) -> (p_init s = true <-> b <> x00)).
Proof.
  cbv zeta. pose proof (byte_zero b) as Z. split.
  - intros g n H. unfold de_vgrid in H. unfold de_then at 1 in H. unfold de_flag in H. rewrite read_flag in H. cbn [obind fst snd] in H.
    match type of H with context [obind (obind ?d _) _] => destruct d as [r| | | |] end; cbn [obind fst snd] in H; try discriminate H. injection H as <- _.
    unfold unfields. repeat match goal with |- context [let '(_, _) := ?p in _] => destruct p end. cbn [vg_init]. destruct (_ =? 0)%N; cbn; intuition congruence.
  - intros s n H. unfold de_state in H. rewrite read_flag in H. cbn [obind] in H.
    repeat match type of H with obind ?d _ = _ => destruct d as [[? ?]| | | |]; cbn [obind] in H; try discriminate H end. injection H as <- _. cbn [p_init].
    destruct (_ =? 0)%N; cbn; intuition congruence.
Qed.
Print Assumptions C167_flag_read.

(** There is such a way to hold numbers, on both kinds of hosts. *)
Lemma words_exist le : forall k x, (x < 256 ^ N.of_nat k)%N -> length (mem_of le k x) = k /\ be_value (if le then rev (mem_of le k x) else mem_of le k x) = x.
Proof.
  intros k x H. unfold mem_of. destruct le; rewrite ?rev_length, le_bytes_length, be_value_rev; auto using le_value_bytes.
Qed.
(** A graph of one node with one edge to itself, on a big-endian host. *)
Example ex_graph : let e := mkEdge 0 (-1) 5%N INVALID in let g := [mkNode 7%N 0%N [] [e]] in
  ser_graph false (ser_u64 false) g [] = Ok (count (mem_of false) g ++ concat (map (node_bytes (mem_of false) (mem_of false 8)) g), 68) /\
  skipn 32 (count (mem_of false) g ++ concat (map (node_bytes (mem_of false) (mem_of false 8)) g)) =
    [x00; x00; x00; x00; x00; x00; x00; x01; x00; x00; x00; x00; x00; x00; x00; x00; xff; xff; xff; xff; xff; xff; xff; xff; x00; x00; x00; x00; x00; x00; x00; x05; x00; x00; x00; x01]%byte.
Proof.
  cbv zeta. split; [|vm_compute; reflexivity].
  rewrite (C167_graph false (mem_of false) (words_exist false) (ser_u64 false) (mem_of false 8)); [reflexivity|reflexivity|].
  intros n [<-|[]]. split; [|apply ser_pod_writes]. split; [reflexivity|]. split; [reflexivity|]. split; [reflexivity|]. intros e [[]|[<-|[]]]. repeat split; reflexivity || discriminate.
Qed.
(** A flag byte 2 before a state without children. *)
Example ex_flag : de_state true true 100 (de_u64 true true) ([] ++ x02 :: repeat x00 24)%list 0 = Ok (mkP 0%N [] 0%Z true, 25).
Proof. vm_compute. reflexivity. Qed.
