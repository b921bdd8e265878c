(** Common vocabulary of the model: outcomes of C++ code, bytes, list helpers. *)
From Coq Require Export List Arith NArith ZArith Lia Bool.
From Coq Require Import Strings.Byte.
From Coq Require Export ZifyBool ZifyNat ZifyN.
Export ListNotations.
Ltac Zify.zify_post_hook ::= Z.div_mod_to_equations.

(** Exceptions thrown by the library (the C++ exception classes that matter). *)
Inductive exn := InvalidArgument | OutOfRange | RuntimeError | LogicError | LengthError | BadAlloc.

(** What running a piece of C++ can do.  [AssertFail] is a failed [assert] in a build with assertions,
    [UB] is undefined behaviour, [NoFuel] is a loop still running when the model's fuel ran out. *)
Inductive outcome (A : Type) : Type :=
| Ok (a : A)
| Throw (e : exn)
| AssertFail
| UB
| NoFuel.
Arguments Ok {A} a.
Arguments Throw {A} e.
Arguments AssertFail {A}.
Arguments UB {A}.
Arguments NoFuel {A}.

Definition obind {A B} (x : outcome A) (f : A -> outcome B) : outcome B :=
  match x with
  | Ok a => f a
  | Throw e => Throw e
  | AssertFail => AssertFail
  | UB => UB
  | NoFuel => NoFuel
  end.

Notation "'let!' x ':=' e 'in' k" := (obind e (fun x => k))
  (at level 200, x pattern, e at level 200, k at level 200, right associativity).

(** [assert(c)]: when assertions are compiled in ([dbg = true]) a false condition stops the program,
    otherwise execution continues. *)
Definition cassert {A} (dbg : bool) (c : bool) (k : outcome A) : outcome A :=
  if dbg && negb c then AssertFail else k.

Lemma obind_ok {A B} (x : outcome A) (f : A -> outcome B) b :
  obind x f = Ok b -> exists a, x = Ok a /\ f a = Ok b.
Proof. destruct x; simpl; intros H; try discriminate; eauto. Qed.

(** ** Bytes *)

Definition byte_of_N (x : N) : byte :=
  match Byte.of_N x with Some b => b | None => x00 end.

Lemma byte_of_to_N b : byte_of_N (Byte.to_N b) = b.
Proof. unfold byte_of_N. rewrite Byte.of_to_N. reflexivity. Qed.

Lemma byte_to_N_bound b : (Byte.to_N b < 256)%N.
Proof. destruct b; vm_compute; reflexivity. Qed.

Lemma byte_to_of_N x : (x < 256)%N -> Byte.to_N (byte_of_N x) = x.
Proof.
  intros H. unfold byte_of_N. destruct (Byte.of_N x) eqn:E.
  - apply Byte.to_of_N in E. exact E.
  - apply Byte.of_N_None_iff in E. lia.
Qed.

Lemma byte_to_N_inj a b : Byte.to_N a = Byte.to_N b -> a = b.
Proof. intros H. rewrite <- (byte_of_to_N a), <- (byte_of_to_N b), H. reflexivity. Qed.

(** ** Lists *)

(** Replace position [i]; out of range leaves the list alone (every model guards the index first). *)
Fixpoint upd {A} (l : list A) (i : nat) (a : A) : list A :=
  match l, i with
  | [], _ => []
  | _ :: l', O => a :: l'
  | x :: l', S i' => x :: upd l' i' a
  end.

Lemma upd_length {A} (l : list A) i a : length (upd l i a) = length l.
Proof. revert i; induction l as [|x l IH]; intros [|i]; simpl; auto. Qed.

Lemma upd_same {A} (l : list A) i a : i < length l -> nth_error (upd l i a) i = Some a.
Proof.
  revert i; induction l as [|x l IH]; intros [|i]; simpl; intros H; try lia; auto.
  apply IH; lia.
Qed.

Lemma upd_other {A} (l : list A) i j a : i <> j -> nth_error (upd l i a) j = nth_error l j.
Proof.
  revert i j; induction l as [|x l IH]; intros [|i] [|j]; simpl; intros H; auto; try lia.
Qed.

Lemma nth_error_upd {A} (l : list A) i j a :
  nth_error (upd l i a) j = if Nat.eqb i j then (if Nat.ltb i (length l) then Some a else None) else nth_error l j.
Proof.
  destruct (Nat.eqb_spec i j) as [->|H].
  - destruct (Nat.ltb_spec j (length l)).
    + apply upd_same; auto.
    + apply nth_error_None. rewrite upd_length. lia.
  - apply upd_other; auto.
Qed.

Lemma nth_error_ext {A} (l1 l2 : list A) :
  (forall i, nth_error l1 i = nth_error l2 i) -> l1 = l2.
Proof.
  revert l2; induction l1 as [|x l1 IH]; intros [|y l2] H; auto.
  - specialize (H 0); discriminate.
  - specialize (H 0); discriminate.
  - f_equal.
    + specialize (H 0); simpl in H; congruence.
    + apply IH; intros i; exact (H (S i)).
Qed.

Lemma nth_error_repeat {A} (a : A) n i : i < n -> nth_error (repeat a n) i = Some a.
Proof.
  revert i; induction n as [|n IH]; intros [|i] H; simpl; try lia; auto. apply IH; lia.
Qed.
