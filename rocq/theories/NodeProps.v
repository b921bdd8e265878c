(** C170: conversion of a vector of Eigen to one of the standard library, and starting a node from Python. *)
From Coq Require Import String Strings.Byte.
From Verif Require Import Base NodeModel.
Open Scope Z_scope.

(** ** ConvertTo *)
(** What a user expects: the entries.  It holds for the empty vector only; every other call reads outside of the vector. *)
Theorem C170_convert {A} (vec : list A) : Z.of_nat (length vec) < 2 ^ 60 -> convert_to vec = Ok vec <-> vec = [].
Proof.
  intros H. split.
  - destruct vec as [|a vec]; [reflexivity|]. unfold convert_to, from_range, sizeof_double.
    rewrite Z.mod_small by lia.
    destruct (_ && _) eqn:E; [|discriminate]. exfalso. cbn [length] in E. lia.
  - intros ->. reflexivity.
Qed.
Theorem C170_convert_refuted {A} (vec : list A) : vec <> [] -> Z.of_nat (length vec) < 2 ^ 60 -> convert_to vec = UB.
Proof.
  intros N H. destruct vec as [|a vec]; [contradiction|]. unfold convert_to, from_range, sizeof_double.
  rewrite Z.mod_small by lia.
  destruct (_ && _) eqn:E; [|reflexivity]. exfalso. cbn [length] in E. lia.
Qed.
Example C170_convert_example : convert_to [1; 2; 3] = UB /\ convert_to (@nil Z) = Ok [].
Proof. split; reflexivity. Qed.

(** ** Arguments *)
(** The text a program reads at a pointer: the bytes before the first NUL; [None] when it would read bytes never written or leave the array. *)
Fixpoint c_string (buf : list (option byte)) : option (list byte) :=
  match buf with
  | Some c :: r => if Byte.eqb c x00 then Some [] else match c_string r with Some s => Some (c :: s) | None => None end
  | _ => None
  end.
(** [t] is the part of [s] before the first NUL. *)
Definition before_nul (s t : list byte) : Prop := ~ In x00 t /\ (s = t \/ exists r, s = t ++ x00 :: r).

Lemma eqb_nul c : Byte.eqb c x00 = true <-> c = x00.
Proof. split; [intros H; destruct c; try discriminate; reflexivity | intros ->; reflexivity]. Qed.
Lemma strcpy_spec s : forall buf, (length s < length buf)%nat -> exists b t, strcpy buf s = Some b /\ length b = length buf /\ c_string b = Some t /\ before_nul s t.
Proof.
  induction s as [|c s IH]; intros [|x buf] L; cbn [length] in L; try lia; cbn [strcpy].
  - exists (Some x00 :: buf), []. repeat split; [intros [] | left; reflexivity].
  - destruct (Byte.eqb c x00) eqn:E.
    + apply eqb_nul in E. subst c. exists (Some x00 :: buf), []. repeat split; [intros [] | right; exists s; reflexivity].
    + destruct (IH buf ltac:(lia)) as (b & t & -> & Lb & Ct & NI & H). exists (Some c :: b), (c :: t).
      cbn [length c_string]. rewrite E, Ct, Lb. repeat split.
      * intros [-> | I]; [discriminate E | exact (NI I)].
      * destruct H as [-> | [r ->]]; [left; reflexivity | right; exists r; reflexivity].
Qed.
Lemma convert_spec s : exists b t, convert s = Ok b /\ length b = S (length s) /\ c_string b = Some t /\ before_nul s t.
Proof.
  unfold convert. destruct (strcpy_spec s (repeat None (S (length s)))) as (b & t & -> & L & C & B).
  { rewrite repeat_length. lia. }
  exists b, t. rewrite repeat_length in L. repeat split; trivial; apply B.
Qed.
Lemma convert_all_spec argv : exists ps, convert_all argv = Ok ps /\
  Forall2 (fun s p => exists t, c_string p = Some t /\ before_nul s t) argv ps.
Proof.
  induction argv as [|s r (ps & E & F)]; [exists []; split; [reflexivity | constructor]|].
  destruct (convert_spec s) as (b & t & Eb & _ & Ct & B). cbn [convert_all]. rewrite Eb. cbn [obind]. rewrite E. cbn [obind].
  exists (b :: ps). split; [reflexivity | constructor; [exists t; split; assumption | exact F]].
Qed.

(** ** init_node *)
(** The levels in the order of their numbers. *)
Definition levels : list level := [Debug; Info; Warn; Error; Fatal].
Lemma level_of_spec z : level_of z = if (0 <=? z) && (z <=? 4) then nth_error levels (Z.to_nat z) else None.
Proof.
  destruct (_ && _) eqn:E.
  - assert (z = 0 \/ z = 1 \/ z = 2 \/ z = 3 \/ z = 4) as [->|[->|[->|[->| ->]]]] by lia; reflexivity.
  - unfold level_of. repeat match goal with |- context [match ?x with _ => _ end] => destruct x; try reflexivity; try (cbv in E; discriminate) end.
Qed.

(** A level outside 0..4 is refused before anything happens. *)
Theorem C170_level_refused refused name argv l a r s w : ~ (0 <= l <= 4) -> init_node refused name argv l a r s w = (w, Throw InvalidArgument).
Proof.
  intros H. unfold init_node. rewrite level_of_spec. destruct (_ && _) eqn:E; [lia | reflexivity].
Qed.
(** With a level in 0..4: the level of the logger of the node's name, then one ros::init with as many arguments as given, each readable as its text
    before its first NUL; if the name is refused nothing else; otherwise a new spinner with one thread, the end of the old one, and the start of the
    new one. *)
Theorem C170_init refused name argv l a r s w lv : nth_error levels (Z.to_nat l) = Some lv -> 0 <= l -> Z.of_nat (length argv) < 2 ^ 31 ->
  exists ps, Forall2 (fun s p => exists t, c_string p = Some t /\ before_nul s t) argv ps /\
    let said := [SetLevel name lv; RosInit (Z.of_nat (length argv)) ps name 0] in
    init_node refused name argv l a r s w =
      if refused name then (mkW (spinner w) (next w) (trace w ++ said), Throw RuntimeError)
      else (mkW (Some (next w)) (S (next w)) (trace w ++ said ++ SpinNew (next w) 1 ::
                  match spinner w with Some old => [SpinDel old] | None => [] end ++ [SpinStart (next w)]), Ok tt).
Proof.
  intros Hl Hp La. destruct (convert_all_spec argv) as (ps & E & F). exists ps. split; [exact F|].
  assert (l <= 4) by (assert (nth_error levels (Z.to_nat l) <> None) as N by (rewrite Hl; discriminate); apply nth_error_Some in N; cbn [levels length] in N; lia).
  unfold init_node. rewrite level_of_spec. replace ((0 <=? l) && (l <=? 4)) with true by lia. rewrite Hl, E.
  replace (to_int (Z.of_nat (length argv))) with (Z.of_nat (length argv)) by (unfold to_int; lia).
  cbv zeta. destruct (refused name).
  - unfold emit. cbn [spinner next trace]. rewrite <- app_assoc. reflexivity.
  - unfold replace_spinner, emit. cbn [spinner next trace].
    destruct (spinner w); unfold start_spinner, emit; cbn [spinner next trace]; rewrite <- !app_assoc; reflexivity.
Qed.
(** An argument without NUL is passed as it is. *)
Theorem C170_argument s p t : ~ In x00 s -> c_string p = Some t -> before_nul s t -> t = s.
Proof.
  intros N _ [_ [-> | [r ->]]]; [reflexivity|]. exfalso. apply N. apply in_or_app. right. left. reflexivity.
Qed.
(** What a user of the three switches expects: that they change something.  Nothing depends on them; ros_init.py gives disable_signals (21), and still
    ros::init installs its handler of SIGINT. *)
Theorem C170_options_refuted refused name argv l a r s a' r' s' w :
  init_node refused name argv l a r s w = init_node refused name argv l a' r' s' w.
Proof. reflexivity. Qed.

(** ** Spinners of a program *)
(** A spinner is alive after [tr] if it was made and not destroyed, and turns if it was started. *)
Definition alive (tr : list ev) (id : nat) : Prop := (exists k, In (SpinNew id k) tr) /\ ~ In (SpinDel id) tr.
(** Calls that reach the end of init_node. *)
Definition succeeds (refused : string -> bool) (c : call) : bool :=
  match c with Init n _ l _ _ _ => (0 <=? l) && (l <=? 4) && negb (refused n) | Shutdown => false end.
Definition small (c : call) : Prop := match c with Init _ a _ _ _ _ => Z.of_nat (length a) < 2 ^ 31 | Shutdown => True end.

Definition inv (w : world) (k : nat) : Prop :=
  next w = k /\ spinner w = match k with O => None | S n => Some n end /\
  (forall id, (exists t, In (SpinNew id t) (trace w)) <-> (id < k)%nat) /\
  (forall id, In (SpinDel id) (trace w) <-> (S id < k)%nat) /\
  (forall id, In (SpinStart id) (trace w) <-> (id < k)%nat).
Lemma inv_emit e w k : inv w k -> match e with SpinNew _ _ | SpinDel _ | SpinStart _ => False | _ => True end -> inv (emit e w) k.
Proof.
  intros (A & B & C & D & E) H. unfold inv, emit. cbn [next spinner trace].
  split; [exact A|]. split; [exact B|].
  assert (forall x, In x (trace w ++ [e]) <-> In x (trace w) \/ e = x) as I.
  { intros x. rewrite in_app_iff. cbn [In]. tauto. }
  repeat split; intros X.
  - destruct X as [t X]. apply I in X. destruct X as [X| ->]; [|contradiction]. apply C. exists t. exact X.
  - apply C in X. destruct X as [t X]. exists t. apply I. left. exact X.
  - apply I in X. destruct X as [X| ->]; [|contradiction]. apply D. exact X.
  - apply I. left. apply D. exact X.
  - apply I in X. destruct X as [X| ->]; [|contradiction]. apply E. exact X.
  - apply I. left. apply E. exact X.
Qed.
Lemma inv_step refused c w k : small c -> inv w k -> inv (run1 refused c w) (if succeeds refused c then S k else k).
Proof.
  intros Sm I. destruct c as [n a l x y z|]; cbn [run1 succeeds small] in *; [|apply inv_emit; trivial].
  destruct ((0 <=? l) && (l <=? 4)) eqn:El; [|rewrite C170_level_refused by lia; exact I].
  destruct (nth_error levels (Z.to_nat l)) as [lv|] eqn:En; [|apply nth_error_None in En; cbn [levels length] in En; lia].
  destruct (C170_init refused n a l x y z w lv En ltac:(lia) Sm) as (ps & _ & ->). cbn [andb].
  pose proof (inv_emit (RosInit (Z.of_nat (length a)) ps n 0) _ k (inv_emit (SetLevel n lv) w k I Logic.I) Logic.I) as J.
  unfold emit in J. cbn [spinner next trace] in J. rewrite <- app_assoc in J. cbn [app] in J.
  destruct (refused n); cbn [negb fst]; [exact J|].
  rewrite app_assoc. destruct J as (A & B & C & D & E). cbn [spinner next trace] in *. rewrite A.
  set (tr := trace w ++ [SetLevel n lv; RosInit (Z.of_nat (length a)) ps n 0]) in *. clearbody tr.
  unfold inv. cbn [spinner next trace]. split; [reflexivity|]. split; [reflexivity|].
  rewrite B. split; [|split]; intros id.
  - split.
    + intros [t H]. apply in_app_or in H. destruct H as [H|[H|H]].
      * assert (id < k)%nat by (apply C; exists t; exact H). lia.
      * injection H as <- <-. lia.
      * apply in_app_or in H. destruct H as [H|[H|[]]]; [|discriminate]. destruct k; [destruct H | destruct H as [H|[]]; discriminate].
    + intros H. destruct (Nat.eq_dec id k) as [->|N].
      * exists 1. apply in_or_app. right. left. reflexivity.
      * assert (id < k)%nat as H' by lia. apply C in H'. destruct H' as [t H']. exists t. apply in_or_app. left. exact H'.
  - split.
    + intros H. apply in_app_or in H. destruct H as [H|[H|H]]; [|discriminate|].
      * apply D in H. lia.
      * apply in_app_or in H. destruct H as [H|[H|[]]]; [|discriminate]. destruct k; [destruct H|]. destruct H as [H|[]]. injection H as <-. lia.
    + intros H. apply in_or_app. destruct (Nat.eq_dec (S id) k) as [<-|N].
      * right. right. left. reflexivity.
      * left. apply D. lia.
  - split.
    + intros H. apply in_app_or in H. destruct H as [H|[H|H]]; [|discriminate|].
      * apply E in H. lia.
      * apply in_app_or in H. destruct H as [H|[H|[]]]; [destruct k; [destruct H | destruct H as [H|[]]; discriminate]|]. injection H as <-. lia.
    + intros H. apply in_or_app. destruct (Nat.eq_dec id k) as [->|N].
      * right. right. apply in_or_app. right. left. reflexivity.
      * left. apply E. lia.
Qed.
Lemma inv_run refused cs : forall w k, Forall small cs -> inv w k -> inv (run refused cs w) (k + length (filter (succeeds refused) cs)).
Proof.
  induction cs as [|c cs IH]; intros w k F I; cbn [run fold_left filter].
  - rewrite Nat.add_0_r. exact I.
  - inversion_clear F as [|? ? S F'].
    pose proof (IH _ _ F' (inv_step refused c w k S I)) as H. unfold run in H.
    destruct (succeeds refused c); cbn [length]; [rewrite Nat.add_succ_r|]; exact H.
Qed.
(** Whatever a program calls, and whatever is refused: each successful init_node makes one spinner and starts it; exactly the last one is alive, and
    shutdown leaves it so. *)
Theorem C170_spinners refused cs : Forall small cs ->
  let k := length (filter (succeeds refused) cs) in
  let tr := trace (run refused cs start_world) in
  (forall id, alive tr id <-> S id = k) /\ (forall id, In (SpinStart id) tr <-> (id < k)%nat).
Proof.
  intros F k tr. assert (inv start_world 0) as I0.
  { unfold inv, start_world. cbn [spinner next trace]. repeat split; intros H; first [exfalso; lia | destruct H as [t []] | destruct H]. }
  pose proof (inv_run refused cs start_world 0 F I0) as (A & B & C & D & E). cbn [Nat.add] in *. fold k in A, B, C, D, E. fold tr in C, D, E.
  split; [|exact E]. intros id. unfold alive. rewrite C, D. lia.
Qed.

Example C170_program : let hello := map (fun n => byte_of_N n) [104; 105]%N in
  trace (run (fun n => (n =? "")%string) [Init "a" [hello; x00 :: hello] 1 true false true; Init "" [] 2 false false false; Init "b" [] 9 false false false;
    Init "b" [] 4 false false false; Shutdown] start_world)
  = [SetLevel "a" Info; RosInit 2 [[Some x68; Some x69; Some x00]; [Some x00; None; None; None]] "a" 0; SpinNew 0 1; SpinStart 0;
     SetLevel "" Warn; RosInit 0 [] "" 0;
     SetLevel "b" Fatal; RosInit 0 [] "b" 0; SpinNew 1 1; SpinDel 0; SpinStart 1; RosShutdown].
Proof. vm_compute. reflexivity. Qed.
Example C170_cut : before_nul [x61; x00; x62] [x61] /\ ~ In x00 [x61; x62].
Proof.
  split; [split|].
  - intros [H|[]]. discriminate.
  - right. exists [x62]. reflexivity.
  - intros [H|[H|[]]]; discriminate.
Qed.

Print Assumptions C170_convert. Print Assumptions C170_convert_refuted. Print Assumptions C170_level_refused. Print Assumptions C170_init.
Print Assumptions C170_argument. Print Assumptions C170_options_refuted. Print Assumptions C170_spinners.
