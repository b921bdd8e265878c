(** Vocabulary for the base64 properties, independent of the model. *)
From Coq Require Import Strings.Byte.
From Verif Require Import Base.

(** The character of a 6-bit value, by ranges (RFC 4648, table 1). *)
Definition alphabet_code (v : N) : N :=
  (if v <? 26 then 65 + v
   else if v <? 52 then 97 + (v - 26)
   else if v <? 62 then 48 + (v - 52)
   else if v =? 62 then 43 else 47)%N.
Definition alphabet (v : N) : byte := byte_of_N (alphabet_code v).

(** The [k] low bits of a number, most significant first. *)
Definition bits (k : nat) (x : N) : list bool :=
  map (fun i => N.testbit_nat x (k - 1 - i)) (seq 0 k).

(** [s] is the padded base64 text of [b]: the 6-bit digits spell the bits of [b] followed by zero fill, and
    '=' pads to a multiple of four characters. *)
Definition is_base64_of (b s : list byte) : Prop :=
  exists digits : list N,
    let pad := (3 - length b mod 3) mod 3 in
    Forall (fun v => (v < 64)%N) digits /\
    s = map alphabet digits ++ repeat "="%byte pad /\
    length s = 4 * ((length b + 2) / 3) /\
    flat_map (bits 6) digits = flat_map (fun c => bits 8 (Byte.to_N c)) b ++ repeat false (2 * pad).

(** Sizes whose text fits in a size_t. *)
Definition text_size_fits (b : list byte) : Prop := (N.of_nat (length b) <= 3 * 2 ^ 62 - 3)%N.
