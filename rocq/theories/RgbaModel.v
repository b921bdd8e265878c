(** Model of class RGBAColor and of the operations on colours of include/arc_utilities/arc_helpers.hpp (263-332, 379-388, 425-469) in IEEE arithmetic,
    without contraction of products and sums to one operation. *)
From Verif Require Import Base VoxelFloat HelpersModel.
From Flocq Require Import IEEE754.Bits IEEE754.Binary Core.

(** ** Class RGBAColor; [color] are its four fields *)
Definition one : f32 := f32_of_Z 1.
Definition zero : f32 := f32_of_Z 0.
(** 271-292: the constructors, from floats, bytes, or both; 0 to 255 for bytes.  The one of four floats is make_float. *)
Definition rgb_floats (r g b : f32) : color := {| c_r := trim_color r; c_g := trim_color g; c_b := trim_color b; c_a := one |}.
Definition rgba_bytes (r g b a : Z) : color := {| c_r := channel_from_hex r; c_g := channel_from_hex g; c_b := channel_from_hex b; c_a := channel_from_hex a |}.
Definition rgb_bytes_float (r g b : Z) (a : f32) : color := {| c_r := channel_from_hex r; c_g := channel_from_hex g; c_b := channel_from_hex b; c_a := trim_color a |}.
Definition rgb_bytes (r g b : Z) : color := {| c_r := channel_from_hex r; c_g := channel_from_hex g; c_b := channel_from_hex b; c_a := one |}.
Definition rgba_default : color := {| c_r := zero; c_g := zero; c_b := zero; c_a := zero |}.

Inductive channel := ChR | ChG | ChB | ChA.
(** 294-300: GetR, GetG, GetB, GetA. *)
Definition get (c : color) (k : channel) : f32 := match k with ChR => c_r c | ChG => c_g c | ChB => c_b c | ChA => c_a c end.
Definition put (c : color) (k : channel) (v : f32) : color :=
  match k with
  | ChR => {| c_r := v; c_g := c_g c; c_b := c_b c; c_a := c_a c |}
  | ChG => {| c_r := c_r c; c_g := v; c_b := c_b c; c_a := c_a c |}
  | ChB => {| c_r := c_r c; c_g := c_g c; c_b := v; c_a := c_a c |}
  | ChA => {| c_r := c_r c; c_g := c_g c; c_b := c_b c; c_a := v |}
  end.
(** 302-308: SetR, SetG, SetB, SetA. *)
Definition set (c : color) (k : channel) (v : f32) : color := put c k (trim_color v).
(** 310-316: GetRHex and so on. *)
Definition get_hex (c : color) (k : channel) : Z := channel_to_hex (get c k).
(** 318-324: SetRHex and so on. *)
Definition set_hex (c : color) (k : channel) (h : Z) : color := put c k (channel_from_hex h).
(** A call that changes an object. *)
Inductive change := SetFloat (k : channel) (v : f32) | SetByte (k : channel) (h : Z).
Definition apply1 (c : color) (o : change) : color := match o with SetFloat k v => set c k v | SetByte k h => set_hex c k h end.

(** 379-387: ConvertColor. *)
Definition convert_color (c : color) : color := make_float (c_r c) (c_g c) (c_b c) (c_a c).
(** 430-438: Multiply. *)
Definition multiply (c : color) (factor : f32) : color :=
  {| c_r := trim_color (b32_mult NE factor (c_r c)); c_g := trim_color (b32_mult NE factor (c_g c)); c_b := trim_color (b32_mult NE factor (c_b c)); c_a := c_a c |}.

(** Conversion of float to double, which is exact, and of double to float, which rounds. *)
Definition widen (x : f32) : fl :=
  match x with
  | B754_zero _ _ s => B754_zero _ _ s
  | B754_infinity _ _ s => B754_infinity _ _ s
  | B754_nan _ _ s _ _ => B754_nan 53 1024 s 1 eq_refl
  | B754_finite _ _ s m e _ => binary_normalize 53 1024 eq_refl eq_refl NE (cond_Zopp s (Zpos m)) e s
  end.
Definition narrow (x : fl) : f32 :=
  match x with
  | B754_zero _ _ s => B754_zero _ _ s
  | B754_infinity _ _ s => B754_infinity _ _ s
  | B754_nan _ _ s _ _ => B754_nan 24 128 s 1 eq_refl
  | B754_finite _ _ s m e _ => binary_normalize 24 128 eq_refl eq_refl NE (cond_Zopp s (Zpos m)) e s
  end.
(** 464-467: one channel.  1.0 is a double, so that the first product is one of doubles; the second is one of floats. *)
Definition mix (a b t : f32) : f32 :=
  trim_color (narrow (b64_plus NE (b64_mult NE (widen a) (b64_minus NE f_one (widen t))) (widen (b32_mult NE b t)))).
(** 449-468: InterpolateColor without its warnings. *)
Definition interpolate_color (c1 c2 : color) (ratio : f32) : color :=
  let t := if f32_lt ratio zero then zero else if f32_lt one ratio then one else ratio in
  {| c_r := mix (c_r c1) (c_r c2) t; c_g := mix (c_g c1) (c_g c2) t; c_b := mix (c_b c1) (c_b c2) t; c_a := mix (c_a c1) (c_a c2) t |}.
