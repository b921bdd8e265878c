(** Specification vocabulary for serialization (independent of how the library does it). *)
From Verif Require Import Base SerModel.
From Coq Require Import Strings.Byte.

(** Serializing any acceptable [a] appends some non-empty [bytes] to whatever is in the buffer and returns
    their number; deserializing at the place where they start gives back [a] and the same number, whatever
    surrounds them. *)
Definition round_trips {A} (ok : A -> Prop) (ser : serializer A) (de : deserializer A) : Prop :=
  forall a, ok a ->
  exists bytes, bytes <> [] /\
    (forall buf, ser a buf = Ok (buf ++ bytes, length bytes)) /\
    (forall pre post, de (pre ++ bytes ++ post) (length pre) = Ok (a, length bytes)).

(** Serializing [a] appends exactly [bytes]. *)
Definition writes {A} (ser : serializer A) (a : A) (bytes : list byte) : Prop :=
  forall buf, ser a buf = Ok (buf ++ bytes, length bytes).

(** Deserialization never leaves the buffer and never hangs, whatever the bytes and the position. *)
Definition in_bounds {A} (de : deserializer A) : Prop :=
  forall buf cur, de buf cur <> UB /\ de buf cur <> NoFuel /\
    (forall a n, de buf cur = Ok (a, n) -> cur + n <= length buf).

(** A successful deserialization depends only on the bytes it reports as read, of which there is at least one. *)
Definition reads_only_reported {A} (de : deserializer A) : Prop :=
  forall pre mid post a n, de (pre ++ mid ++ post) (length pre) = Ok (a, n) -> n = length mid ->
    n <> 0 /\ forall pre' post', de (pre' ++ mid ++ post') (length pre') = Ok (a, n).

(** A memory representation of [T] that can be read back. *)
Definition pod_faithful {T} (ok : T -> Prop) (p : pod T) : Prop :=
  pod_size p <> 0 /\
  (forall x, length (pod_rep p x) = pod_size p) /\
  (forall x, ok x -> pod_abs p (pod_rep p x) = x).

(** Big-endian bytes of a number: the most significant byte first, as positional notation in base 256. *)
Fixpoint be_value (l : list byte) : N :=
  match l with
  | [] => 0
  | b :: l' => Byte.to_N b * 256 ^ N.of_nat (length l') + be_value l'
  end.

(** A list sorted strictly by key: the contents of a std::map. *)
Fixpoint key_sorted {K V} (ltb : K -> K -> bool) (m : list (K * V)) : Prop :=
  match m with
  | [] => True
  | x :: m' => (forall y, In y m' -> ltb (fst x) (fst y) = true) /\ key_sorted ltb m'
  end.

Definition strict_order {K} (ltb : K -> K -> bool) : Prop :=
  (forall x, ltb x x = false) /\
  (forall x y z, ltb x y = true -> ltb y z = true -> ltb x z = true).
