(** Model of include/arc_utilities/serialization.hpp.

    A buffer is a list of bytes.  A serializer takes a value and the buffer and gives the new buffer and the
    returned byte count; a deserializer takes the buffer and a position and gives the value and the count.
    [dbg] says whether assertions are compiled in; [host_le] is the byte order of the machine.
    Positions and lengths are natural numbers: the library uses uint64_t, and no position inside a buffer can
    reach 2^64; reading at or past the end is [UB] whatever the position, so wrap-around of an already
    out-of-range position adds nothing. *)
From Verif Require Import Base.
From Coq Require Import Strings.Byte.

Definition buffer := list byte.
Definition serializer (A : Type) := A -> buffer -> outcome (buffer * nat).
Definition deserializer (A : Type) := buffer -> nat -> outcome (A * nat).

(** ** Scalars as bytes in memory *)

(** Bytes of [x], least significant first, [n] bytes (memory image of an unsigned integer on a little-endian
    machine). *)
Fixpoint le_bytes (n : nat) (x : N) : list byte :=
  match n with
  | O => []
  | S n' => byte_of_N (x mod 256) :: le_bytes n' (x / 256)
  end.

Fixpoint le_value (l : list byte) : N :=
  match l with
  | [] => 0
  | b :: l' => Byte.to_N b + 256 * le_value l'
  end.

(** Memory image of an [n]-byte unsigned integer on the host, and its inverse: what the [memcpy]s in
    serialization.hpp:123, 137 (and 361-376, 398-413) transfer. *)
Definition mem_of (host_le : bool) (n : nat) (x : N) : list byte :=
  if host_le then le_bytes n x else rev (le_bytes n x).
Definition of_mem (host_le : bool) (l : list byte) : N :=
  if host_le then le_value l else le_value (rev l).

(** glibc [htobe16/32/64], [be16/32/64toh] (called at serialization.hpp:365-376, 402-413): swap the bytes of
    an [n]-byte integer on a little-endian host, identity on a big-endian host. *)
Definition hto_be (host_le : bool) (n : nat) (x : N) : N :=
  if host_le then le_value (rev (le_bytes n x)) else x.

(** ** Plain-old-data *)

(** A type [T] with [sizeof(T) = pod_size] and its object representation.  [pod_rep]/[pod_abs] are the two
    [memcpy]s. *)
Record pod (T : Type) := {
  pod_size : nat;
  pod_rep : T -> list byte;
  pod_abs : list byte -> T
}.
Arguments pod_size {T} _.
Arguments pod_rep {T} _.
Arguments pod_abs {T} _.

(** Unsigned integers of [n] bytes. *)
Definition uint_pod (host_le : bool) (n : nat) : pod N :=
  {| pod_size := n; pod_rep := mem_of host_le n; pod_abs := of_mem host_le |}.

(** Two's complement signed integers of [n] bytes. *)
Definition sint_wrap (n : nat) (x : N) : Z :=
  let m := (2 ^ (8 * Z.of_nat n))%Z in
  if (2 * Z.of_N x <? m)%Z then Z.of_N x else (Z.of_N x - m)%Z.
Definition sint_bits (n : nat) (z : Z) : N := Z.to_N (z mod 2 ^ (8 * Z.of_nat n))%Z.
Definition sint_pod (host_le : bool) (n : nat) : pod Z :=
  {| pod_size := n;
     pod_rep := fun z => mem_of host_le n (sint_bits n z);
     pod_abs := fun l => sint_wrap n (of_mem host_le l) |}.

(** serialization.hpp:118-130 SerializeFixedSizePOD. *)
Definition ser_pod {T} (p : pod T) : serializer T :=
  fun x buf =>
    let buf' := buf ++ pod_rep p x in
    Ok (buf', length buf' - length buf).

(** serialization.hpp:132-139 DeserializeFixedSizePOD.  The [memcpy] of [sizeof] bytes starting at [current]
    is undefined when it leaves the buffer. *)
Definition read_bytes (buf : buffer) (cur n : nat) : outcome (list byte) :=
  if cur + n <=? length buf then Ok (firstn n (skipn cur buf)) else UB.

Definition de_pod {T} (dbg : bool) (p : pod T) : deserializer T :=
  fun buf cur =>
    cassert dbg (cur <=? length buf)
   (cassert dbg (cur + pod_size p <=? length buf)
   (let! l := read_bytes buf cur (pod_size p) in
    Ok (pod_abs p l, pod_size p))).

(** serialization.hpp:349-384 SerializeNetworkFixedSizePOD: the object representation is reinterpreted as an
    unsigned integer of the same size, passed through htobe, and copied out.  For one byte the swap is the
    identity (360-361), as [hto_be] is. *)
Definition ser_net_pod {T} (host_le : bool) (p : pod T) : serializer T :=
  fun x buf =>
    let swap_temp := of_mem host_le (pod_rep p x) in
    let swapped := hto_be host_le (pod_size p) swap_temp in
    let buf' := buf ++ mem_of host_le (pod_size p) swapped in
    Ok (buf', length buf' - length buf).

(** serialization.hpp:386-416 DeserializeNetworkFixedSizePOD. *)
Definition de_net_pod {T} (dbg host_le : bool) (p : pod T) : deserializer T :=
  fun buf cur =>
    cassert dbg (cur <=? length buf)
   (cassert dbg (cur + pod_size p <=? length buf)
   (let! l := read_bytes buf cur (pod_size p) in
    let swap_temp := of_mem host_le l in
    let swapped := hto_be host_le (pod_size p) swap_temp in
    Ok (pod_abs p (mem_of host_le (pod_size p) swapped), pod_size p))).

(** ** Containers

    The host-order and network-order containers (141-347 and 418-589) are the same text except for the
    function used for the size header (and, for strings, for the characters), so that function is a
    parameter here. *)

(** The loop "for idx < size: item_serializer(vec[idx], buffer)" (148-151, 190-193, 233-236, 426-429,
    471-474); the items' returned counts are ignored by the code. *)
Fixpoint ser_items {A} (ser : serializer A) (l : list A) (buf : buffer) : outcome buffer :=
  match l with
  | [] => Ok buf
  | a :: l' => let! r := ser a buf in ser_items ser l' (fst r)
  end.

(** The loop "for idx < size: item_deserializer(buffer, current_position)" (171-175, 214-218, 257-261,
    450-455, 496-500), returning the items and the final position. *)
Fixpoint de_items {A} (de : deserializer A) (buf : buffer) (n : nat) (pos : nat) : outcome (list A * nat) :=
  match n with
  | O => Ok ([], pos)
  | S n' =>
      let! r := de buf pos in
      let! rest := de_items de buf n' (pos + snd r) in
      Ok (fst r :: fst rest, snd rest)
  end.

(** [reserve(size)] (170, 213, 256, 449, 495) throws when the requested size cannot be allocated;
    [max_reserve] is the largest request the allocator grants (environment parameter). *)
Definition reserve {A} (max_reserve : N) (size : N) (k : outcome A) : outcome A :=
  if (size <=? max_reserve)%N then k else Throw LengthError.

(** serialization.hpp:182-198 SerializeVector, 225-241 SerializeVectorLike, 462-479 SerializeNetworkVector,
    and with [ser] the character serializer 141-156 SerializeString, 418-434 SerializeNetworkString. *)
Definition ser_vector {A} (ser_size : serializer N) (ser : serializer A) : serializer (list A) :=
  fun l buf =>
    let! r := ser_size (N.of_nat (length l) mod 2 ^ 64)%N buf in
    let! buf' := ser_items ser l (fst r) in
    Ok (buf', length buf' - length buf).

(** serialization.hpp:200-223 DeserializeVector, 243-266 DeserializeVectorLike, 481-505
    DeserializeNetworkVector, 158-180 DeserializeString, 436-460 DeserializeNetworkString. *)
Definition de_vector {A} (dbg : bool) (max_reserve : N) (de_size : deserializer N) (de : deserializer A)
  : deserializer (list A) :=
  fun buf cur =>
    cassert dbg (cur <? length buf)
   (let! sz := de_size buf cur in
    reserve max_reserve (fst sz)
   (let! r := de_items de buf (N.to_nat (fst sz)) (cur + snd sz) in
    Ok (fst r, snd r - cur))).

(** serialization.hpp:312-326 SerializePair, 553-568 SerializeNetworkPair. *)
Definition ser_pair {A B} (dbg : bool) (ser1 : serializer A) (ser2 : serializer B) : serializer (A * B) :=
  fun ab buf =>
    let! r1 := ser1 (fst ab) buf in
    let! r2 := ser2 (snd ab) (fst r1) in
    let bytes_written := length (fst r2) - length buf in
    cassert dbg (bytes_written =? snd r1 + snd r2)
    (Ok (fst r2, bytes_written)).

(** serialization.hpp:328-347 DeserializePair, 570-589 DeserializeNetworkPair. *)
Definition de_pair {A B} (dbg : bool) (de1 : deserializer A) (de2 : deserializer B) : deserializer (A * B) :=
  fun buf cur =>
    cassert dbg (cur <? length buf)
   (let! r1 := de1 buf cur in
    let! r2 := de2 buf (cur + snd r1) in
    Ok ((fst r1, fst r2), cur + snd r1 + snd r2 - cur)).

(** [std::map] as an association list sorted by a strict order [ltb] on keys, without duplicates.
    [map_insert] is [std::map::insert]: an equivalent key already present wins. *)
Fixpoint map_insert {K V} (ltb : K -> K -> bool) (kv : K * V) (m : list (K * V)) : list (K * V) :=
  match m with
  | [] => [kv]
  | x :: m' =>
      if ltb (fst kv) (fst x) then kv :: x :: m'
      else if ltb (fst x) (fst kv) then x :: map_insert ltb kv m'
      else x :: m'
  end.

(** serialization.hpp:268-285 SerializeMap, 507-525 SerializeNetworkMap: the pairs in key order. *)
Definition ser_map {K V} (dbg : bool) (ser_size : serializer N) (serk : serializer K) (serv : serializer V)
  : serializer (list (K * V)) :=
  fun m buf =>
    let! r := ser_size (N.of_nat (length m) mod 2 ^ 64)%N buf in
    let! buf' := ser_items (ser_pair dbg serk serv) m (fst r) in
    Ok (buf', length buf' - length buf).

(** serialization.hpp:287-310 DeserializeMap, 527-551 DeserializeNetworkMap: no [reserve]; pairs are
    inserted one by one, in order. *)
Definition de_map {K V} (dbg : bool) (ltb : K -> K -> bool) (de_size : deserializer N)
  (dek : deserializer K) (dev : deserializer V) : deserializer (list (K * V)) :=
  fun buf cur =>
    cassert dbg (cur <? length buf)
   (let! sz := de_size buf cur in
    let! r := de_items (de_pair dbg dek dev) buf (N.to_nat (fst sz)) (cur + snd sz) in
    Ok (fold_left (fun m kv => map_insert ltb kv m) (fst r) [], snd r - cur)).

(** The size header used by host-order containers (146, 188, 231, 275) and network containers (424, 469, 515). *)
Definition ser_u64 (host_le : bool) : serializer N := ser_pod (uint_pod host_le 8).
Definition de_u64 (dbg host_le : bool) : deserializer N := de_pod dbg (uint_pod host_le 8).
Definition ser_net_u64 (host_le : bool) : serializer N := ser_net_pod host_le (uint_pod host_le 8).
Definition de_net_u64 (dbg host_le : bool) : deserializer N := de_net_pod dbg host_le (uint_pod host_le 8).
