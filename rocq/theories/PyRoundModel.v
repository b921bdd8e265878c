(** Model of src/arc_utilities/dict_tools.py 4-5 (dict_round) for dicts of int and float, with what Python's round does to them
    (the language reference, and float.__round__ of CPython 3: the decimal of the exact value, correctly rounded, ties to even, read back as a double). *)
From Verif Require Import Base VoxelFloat PyBase.
From Flocq Require Import IEEE754.Bits IEEE754.Binary Core Calc.Div.
Local Open Scope Z_scope.

Inductive number := PInt (z : Z) | PFloat (x : fl).

(** The integer nearest n / d, the even one of two (d > 0). *)
Definition half_even (n d : Z) : Z :=
  let q := n / d in
  match 2 * (n mod d) ?= d with Lt => q | Gt => q + 1 | Eq => if Z.even q then q else q + 1 end.

(** Reading back the decimal a / b (a, b > 0) with a sign: the nearest double, or infinity. *)
Definition read_back (s : bool) (a b : Z) : fl :=
  let '(m, e, l) := Fdiv (SpecFloat.fexp 53 1024) (Defs.Float radix2 a 0) (Defs.Float radix2 b 0) in
  let z := binary_round_aux 53 1024 NE s m e l in
  match Bool.bool_dec (valid_binary 53 1024 z) true with left H => FF2B 53 1024 z H | right _ => B754_infinity 53 1024 s end.

(** float.__round__: 323 and -308 are NDIGITS_MAX and NDIGITS_MIN of CPython; beyond them the answers are the value itself and a zero. *)
Definition round_float (x : fl) (places : Z) : py fl :=
  match x with
  | B754_finite _ _ s m e _ =>
    if 323 <? places then Ret x
    else if places <? -308 then Ret (B754_zero 53 1024 s)
    else
      let up := 10 ^ Z.max places 0 in
      let down := 10 ^ Z.max (- places) 0 in
      let k := half_even (Zpos m * 2 ^ Z.max e 0 * up) (2 ^ Z.max (- e) 0 * down) in
      if k =? 0 then Ret (B754_zero 53 1024 s)
      else let r := read_back s (k * down) up in
           if is_finite 53 1024 r then Ret r else Raise OverflowError
  | _ => Ret x
  end.

(** int.__round__: unchanged if places is not negative, otherwise the nearest multiple of 10^-places, ties to the even one. *)
Definition round_int (z places : Z) : Z :=
  if 0 <=? places then z else half_even z (10 ^ (- places)) * 10 ^ (- places).

Definition round_number (v : number) (places : Z) : py number :=
  match v with
  | PInt z => Ret (PInt (round_int z places))
  | PFloat x => let? r := round_float x places in Ret (PFloat r)
  end.

(** 4-5: dict_round; a dict is its items in order of insertion, keys all different. *)
Fixpoint round_dict {K} (d : list (K * number)) (places : Z) : py (list (K * number)) :=
  match d with
  | [] => Ret []
  | (k, v) :: d' => let? w := round_number v places in let? r := round_dict d' places in Ret ((k, w) :: r)
  end.
