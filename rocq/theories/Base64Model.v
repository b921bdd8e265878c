(** Model of src/arc_utilities/base64_helpers.cpp.  Characters and bytes are [byte]s. *)
From Coq Require Import Strings.Byte Strings.String.
From Verif Require Import Base.

(** base64_helpers.cpp:20-25 B64IndexTable: 123 listed entries, the remaining ones of the 256 are zero. *)
Definition B64IndexTable : list N := (
  [ 0;  0;  0;  0;  0;  0;  0;  0;  0;  0;  0;  0;  0;  0;  0;  0;  0;  0;  0;  0;  0;  0;  0;  0;  0;
    0;  0;  0;  0;  0;  0;  0;  0;  0;  0;  0;  0;  0;  0;  0;  0;  0;  0;  62; 63; 62; 62; 63; 52; 53;
    54; 55; 56; 57; 58; 59; 60; 61; 0;  0;  0;  0;  0;  0;  0;  0;  1;  2;  3;  4;  5;  6;  7;  8;  9;
    10; 11; 12; 13; 14; 15; 16; 17; 18; 19; 20; 21; 22; 23; 24; 25; 0;  0;  0;  0;  63; 0;  26; 27; 28;
    29; 30; 31; 32; 33; 34; 35; 36; 37; 38; 39; 40; 41; 42; 43; 44; 45; 46; 47; 48; 49; 50; 51]
  ++ repeat 0 133)%N.

(** base64_helpers.cpp:50-53 B64ValueTable, as character codes. *)
Definition B64ValueTable : list byte :=
  list_byte_of_string "ABCDEFGHIJKLMNOPQRSTUVWXYZabcdefghijklmnopqrstuvwxyz0123456789+/"%string.

Definition c_eq : byte := "="%byte.

(** [encoded[i]] on a const std::string: the terminating '\0' at [size()], undefined beyond. *)
Definition str_at (s : list byte) (i : nat) : outcome byte :=
  match nth_error s i with
  | Some c => Ok c
  | None => if i =? length s then Ok x00 else UB
  end.

(** [B64IndexTable[encoded[i]]]: the char is converted to size_t; if char is signed (as on x86) a character
    above 127 becomes a huge index, outside the array. *)
Definition index_at (char_signed : bool) (s : list byte) (i : nat) : outcome N :=
  let! c := str_at s i in
  if char_signed && (128 <=? Byte.to_N c)%N then UB
  else match nth_error B64IndexTable (N.to_nat (Byte.to_N c)) with Some v => Ok v | None => UB end.

(** [buffer[j] = v] *)
Definition put (buf : list byte) (j : nat) (v : byte) : outcome (list byte) :=
  if j <? length buf then Ok (upd buf j v) else UB.

(** base64_helpers.cpp:32-38, the loop over groups of four characters; [k] groups remain, [g] done, so
    i = 4 g and j = 3 g. *)
Fixpoint decode_groups (char_signed : bool) (s : list byte) (k g : nat) (buf : list byte) : outcome (list byte) :=
  match k with
  | O => Ok buf
  | S k' =>
      let i := 4 * g in
      let j := 3 * g in
      let! t0 := index_at char_signed s i in
      let! t1 := index_at char_signed s (i + 1) in
      let! t2 := index_at char_signed s (i + 2) in
      let! t3 := index_at char_signed s (i + 3) in
      let n := N.lor (N.lor (N.lor (N.shiftl t0 18) (N.shiftl t1 12)) (N.shiftl t2 6)) t3 in
      let! buf := put buf j (byte_of_N (N.shiftr n 16 mod 256)) in
      let! buf := put buf (j + 1) (byte_of_N (N.land (N.shiftr n 8) 255)) in
      let! buf := put buf (j + 2) (byte_of_N (N.land n 255)) in
      decode_groups char_signed s k' (S g) buf
  end.

(** base64_helpers.cpp:27-48 Decode. *)
Definition decode (char_signed : bool) (s : list byte) : outcome (list byte) :=
  let len := length s in
  let pad :=
    if (0 <? len) && (negb (len mod 4 =? 0) ||
        match nth_error s (len - 1) with Some c => Byte.eqb c c_eq | None => false end)
    then 1 else 0 in
  let L := ((len + 3) / 4 - pad) * 4 in
  let buf0 := repeat x00 (L / 4 * 3 + pad) in
  let! buf := decode_groups char_signed s (L / 4) 0 buf0 in
  if 0 <? pad then
    let! t0 := index_at char_signed s L in
    let! t1 := index_at char_signed s (L + 1) in
    let n := N.lor (N.shiftl t0 18) (N.shiftl t1 12) in
    let! buf := put buf (length buf - 1) (byte_of_N (N.shiftr n 16 mod 256)) in
    let more := (L + 2 <? len) && match nth_error s (L + 2) with Some c => negb (Byte.eqb c c_eq) | None => false end in
    if more then
      let! t2 := index_at char_signed s (L + 2) in
      let n := N.lor n (N.shiftl t2 6) in
      Ok (buf ++ [byte_of_N (N.land (N.shiftr n 8) 255)])
    else Ok buf
  else Ok buf.

(** [B64ValueTable[v]] *)
Definition value_at (v : N) : outcome byte :=
  match nth_error B64ValueTable (N.to_nat v) with Some c => Ok c | None => UB end.

(** [binary[i]] *)
Definition bin_at (b : list byte) (i : nat) : outcome N :=
  match nth_error b i with Some x => Ok (Byte.to_N x) | None => UB end.

(** base64_helpers.cpp:65-73, the loop over groups of three bytes: [ip] and [op] are the positions. *)
Fixpoint encode_groups (fuel : nat) (b : list byte) (ip op : nat) (out : list byte)
  : outcome (nat * nat * list byte) :=
  match fuel with
  | O => NoFuel
  | S fuel' =>
      if 3 <=? length b - ip then
        let! x0 := bin_at b ip in
        let! x1 := bin_at b (ip + 1) in
        let! x2 := bin_at b (ip + 2) in
        let! c0 := value_at (N.shiftr x0 2) in
        let! out := put out op c0 in
        let! c1 := value_at (N.lor (N.shiftl (N.land x0 3) 4) (N.shiftr x1 4)) in
        let! out := put out (op + 1) c1 in
        let! c2 := value_at (N.lor (N.shiftl (N.land x1 15) 2) (N.shiftr x2 6)) in
        let! out := put out (op + 2) c2 in
        let! c3 := value_at (N.land x2 63) in
        let! out := put out (op + 3) c3 in
        encode_groups fuel' b (ip + 3) (op + 4) out
      else Ok (ip, op, out)
  end.

(** base64_helpers.cpp:55-87 Encode. *)
Definition encode (b : list byte) : outcome (list byte) :=
  let n := length b in
  let encoded_length := 4 * ((n + 2) / 3) in
  if (N.of_nat encoded_length mod 2 ^ 64 <? N.of_nat n)%N then Ok []
  else
    let! r := encode_groups (S n) b 0 0 (repeat x00 encoded_length) in
    let '(ip, op, out) := r in
    if ip <? n then
      let! x0 := bin_at b ip in
      let! c0 := value_at (N.shiftr x0 2) in
      let! out := put out op c0 in
      if n - ip =? 1 then
        let! c1 := value_at (N.shiftl (N.land x0 3) 4) in
        let! out := put out (op + 1) c1 in
        let! out := put out (op + 2) c_eq in
        put out (op + 3) c_eq
      else
        let! x1 := bin_at b (ip + 1) in
        let! c1 := value_at (N.lor (N.shiftl (N.land x0 3) 4) (N.shiftr x1 4)) in
        let! out := put out (op + 1) c1 in
        let! c2 := value_at (N.shiftl (N.land x1 15) 2) in
        let! out := put out (op + 2) c2 in
        put out (op + 3) c_eq
    else Ok out.
