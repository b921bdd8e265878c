(** Model of src/arc_utilities/normalize_point_msg.py in IEEE double arithmetic: make_unit_point and normalize_point, for coordinates that are Python floats. *)
From Verif Require Import Base VoxelFloat DynGridFloat VoxelMakeModel AvgFloatModel EigenFloatModel PyBase.
From Flocq Require Import IEEE754.Bits IEEE754.Binary.

Section Unit.
Variable pow2 : fl -> fl.      (* pow(x, 2.0) of the C library, which float ** int calls *)
Variable debug : bool.         (* __debug__: assertions are on *)
(** x ** 2 of a float: an infinite power of a finite number is an OverflowError. *)
Definition py_square (x : fl) : py fl :=
  let p := pow2 x in
  match p with B754_infinity _ _ _ => if is_finite 53 1024 x then Raise OverflowError else Ret p | _ => Ret p end.
(** x / y of floats. *)
Definition py_div (x y : fl) : py fl := if f_eqb y f_zero then Raise ZeroDivisionError else Ret (b64_div NE x y).
(** normalize_point_msg.py 6-13: make_unit_point.  math.sqrt is the rounded root (the argument is not negative). *)
Definition make_unit_point (x y z : fl) : py (t3 fl) :=
  let? xx := py_square x in let? yy := py_square y in let? zz := py_square z in
  let mag := b64_sqrt NE (b64_plus NE (b64_plus NE xx yy) zz) in
  if debug && negb (f_gt mag f_zero) then Raise PyAssertionError
  else let? a := py_div x mag in let? b := py_div y mag in let? c := py_div z mag in Ret (T3 a b c).
(** 16-17: normalize_point. *)
Definition normalize_point (p : t3 fl) : py (t3 fl) := make_unit_point (ax p) (ay p) (az p).
End Unit.
