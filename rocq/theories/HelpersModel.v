(** Model of small functions of include/arc_utilities/arc_helpers.hpp: bits, clamping, colours. *)
From Verif Require Import Base VoxelFloat.
From Flocq Require Import IEEE754.Bits IEEE754.Binary.

(** ** Bits *)

(** arc_helpers.hpp:155-170 SetBit<T> for an unsigned T of [w] bits (8, 16, 32 or 64).  The shift is done in T
    after integer promotion, that is in max(w, 32) bits, and is undefined from there on; the mask is then
    converted back to T. *)
Definition set_bit (w : N) (current : N) (pos : N) (v : bool) : outcome N :=
  if (N.max w 32 <=? pos)%N then UB
  else
    let mask := ((N.shiftl 1 pos) mod 2 ^ w)%N in
    Ok (if v then N.lor current mask else N.land current (N.lxor (2 ^ w - 1) mask))%N.

(** :172-177 GetBit<T>: the mask is held in a uint32_t. *)
Definition get_bit (w : N) (current : N) (pos : N) : outcome bool :=
  let! m := set_bit w 0 pos true in
  let mask := (m mod 2 ^ 32)%N in
  Ok (0 <? N.land mask current)%N.

(** ** Clamping *)
Section Clamp.
Context {T : Type}.
Variable ltb leb : T -> T -> bool.   (* operator<, operator<= *)

(** std::max(a, b), std::min(a, b) *)
Definition std_max (a b : T) : T := if ltb a b then b else a.
Definition std_min (a b : T) : T := if ltb b a then b else a.

(** :201-205 ClampValue. *)
Definition clamp_value (dbg : bool) (v mn mx : T) : outcome T :=
  cassert dbg (leb mn mx) (Ok (std_min mx (std_max mn v))).

(** :207-220 ClampValueAndWarn; the message printed is not modelled. *)
Definition clamp_value_warn (dbg : bool) (v mn mx : T) : outcome T :=
  cassert dbg (leb mn mx) (Ok (if ltb v mn then mn else if ltb mx v then mx else v)).

(** :224-234 SpreadValue (and 238-254 SpreadValueAndWarn up to messages). *)
Definition spread_value (dbg : bool) (v low mid high : T) : outcome T :=
  cassert dbg (leb low mid) (cassert dbg (leb mid high)
    (Ok (if leb mid v && ltb v high then high else if ltb v mid && ltb low v then low else v))).
End Clamp.

(** ** Colours, with float channels *)
Notation f32 := (binary_float 24 128).
Definition f32_of_Z (z : Z) : f32 := binary_normalize 24 128 eq_refl eq_refl NE z 0 false.
Definition f32_lt (a b : f32) : bool := match b32_compare a b with Some Lt => true | _ => false end.

(** :258 ColorChannelFromHex. *)
Definition channel_from_hex (h : Z) : f32 := b32_div NE (f32_of_Z h) (f32_of_Z 255).
(** :260 TrimColorValue. *)
Definition trim_color (v : f32) : f32 := std_min f32_lt (f32_of_Z 1) (std_max f32_lt (f32_of_Z 0) v).
(** :262 ColorChannelToHex: round (half away from zero), then conversion to uint8_t (the value is in 0..255). *)
Definition channel_to_hex (v : f32) : Z :=
  Btrunc 24 128 (Bnearbyint 24 128 eq_refl unop_nan_pl32 BinarySingleNaN.mode_NA (b32_mult NE (trim_color v) (f32_of_Z 255))).

Record color := { c_r : f32; c_g : f32; c_b : f32; c_a : f32 }.
(** :333-340 MakeFromFloatColors, 347-350 MakeFromMixedColors. *)
Definition make_float (r g b a : f32) : color :=
  {| c_r := trim_color r; c_g := trim_color g; c_b := trim_color b; c_a := trim_color a |}.
Definition make_mixed (r g b : Z) (a : f32) : color :=
  make_float (channel_from_hex r) (channel_from_hex g) (channel_from_hex b) (trim_color a).

(** :396-401 the colour table of GenerateUniqueColor. *)
Definition color_table : list (Z * (Z * Z * Z)) :=
  [(1, (255, 0, 179)); (2, (128, 117, 62)); (3, (255, 0, 104)); (4, (166, 215, 189)); (5, (193, 32, 0)); (6, (206, 98, 162));
   (7, (129, 102, 112)); (8, (0, 52, 125)); (9, (246, 142, 118)); (10, (0, 138, 83)); (11, (255, 92, 122));
   (12, (83, 122, 55)); (13, (255, 0, 142)); (14, (179, 81, 40)); (15, (244, 0, 200)); (16, (127, 13, 24));
   (17, (147, 0, 170)); (18, (89, 21, 51)); (19, (241, 19, 58)); (20, (35, 22, 44))]%Z.

Definition table_find (code : N) : option (Z * Z * Z) :=
  match find (fun p => fst p =? Z.of_N code)%Z color_table with Some (_, c) => Some c | None => None end.

(** :389-409 GenerateUniqueColor. *)
Definition unique_color (code : N) (alpha : f32) : color :=
  if (code =? 0)%N then make_float (f32_of_Z 1) (f32_of_Z 1) (f32_of_Z 1) (f32_of_Z 0)
  else match table_find code with
       | None => make_float (f32_of_Z 0) (f32_of_Z 0) (f32_of_Z 0) alpha
       | Some (r, g, b) => make_mixed r g b alpha
       end.

(** :415-424 UniqueColorGenerator: counter i starts at 1 and is a uint32_t. *)
Fixpoint generator (i : N) (alpha : f32) (n : nat) : list color :=
  match n with O => [] | S n' => unique_color i alpha :: generator ((i + 1) mod 2 ^ 32)%N alpha n' end.
