(** Models of include/arc_utilities/maybe.hpp, enumerate.h, stl_wrappers.hpp, hash.hpp and of the time strings of arc_helpers.hpp
    (1350-1374). *)
From Coq Require Import List Bool ZArith NArith Lia.
From Verif Require Import Base.
Import ListNotations.

(** ** Maybe *)
Section Maybe.
Context {T : Type}.
(** 25-27: the members maybe_ and value_; [None] for the value a default constructed object starts with, which is not determined. *)
Record maybe := Maybe { m_valid : bool; m_value : option T }.
(** 30: Maybe(). *)
Definition maybe_none : maybe := Maybe false None.
(** 32, 34: Maybe(value). *)
Definition maybe_some (v : T) : maybe := Maybe true (Some v).
(** 36: Valid. *)
Definition maybe_is_valid (m : maybe) : bool := m_valid m.
(** 38-50: Get and GetImmutable; reading a value never set would be [UB]. *)
Definition maybe_get (m : maybe) : outcome T :=
  if negb (m_valid m) then Throw InvalidArgument else match m_value m with Some v => Ok v | None => UB end.
(** 52-72: Set and operator=. *)
Definition maybe_set (m : maybe) (v : T) : maybe := Maybe true (Some v).
(** 38-43: writing through the reference returned by Get. *)
Definition maybe_write (m : maybe) (v : T) : outcome maybe := let! _ := maybe_get m in Ok (Maybe (m_valid m) (Some v)).
Inductive maybe_op := OSet (v : T) | OWrite (v : T).
Definition maybe_step (m : maybe) (o : maybe_op) : outcome maybe :=
  match o with OSet v => Ok (maybe_set m v) | OWrite v => maybe_write m v end.
Fixpoint maybe_run (m : maybe) (os : list maybe_op) : outcome maybe :=
  match os with [] => Ok m | o :: os' => let! m' := maybe_step m o in maybe_run m' os' end.
End Maybe.
Arguments maybe : clear implicits.
Arguments maybe_op : clear implicits.

(** ** enumerate.h 7-15: the counter is an int; passing its largest value is undefined.  std::transform is taken to apply the function in order,
    as every implementation for these iterators does (the standard does not promise it). *)
Definition int_max : Z := 2 ^ 31 - 1.
Fixpoint enumerate_from {T} (i : Z) (l : list T) : outcome (list (Z * T)) :=
  match l with
  | [] => Ok []
  | x :: l' => if (i =? int_max)%Z then UB else let! r := enumerate_from (i + 1) l' in Ok ((i, x) :: r)
  end.
Definition enumerate {T} (l : list T) : outcome (list (Z * T)) := enumerate_from 0 l.

(** ** stl_wrappers.hpp 14-20: find.  The distance is converted to int, modulo 2^32. *)
Definition to_int (z : Z) : Z := (z + 2 ^ 31) mod 2 ^ 32 - 2 ^ 31.
Fixpoint find_from {T} (eqb : T -> T -> bool) (i : Z) (l : list T) (x : T) : option Z :=
  match l with [] => None | y :: l' => if eqb y x then Some i else find_from eqb (i + 1) l' x end.
Definition find {T} (eqb : T -> T -> bool) (l : list T) (x : T) : Z :=
  match find_from eqb 0 l x with None => -1 | Some d => to_int d end.

(** ** hash.hpp, with std::size_t of 64 bits; [h] stands for the value of std::hash. *)
Definition word : Z := 2 ^ 64.
(** 5-9: hash_combine. *)
Definition hash_combine (seed h : Z) : Z := Z.lxor seed ((h + 0x9e3779b9 + Z.shiftl seed 6 mod word + Z.shiftr seed 2) mod word).
(** 13-18: hash of a complex number. *)
Definition hash_complex (re im : Z) : Z := Z.lxor re (Z.shiftr (Z.shiftl im 1 mod word) 1).
(** 20-26: hash of a Vector3d. *)
Definition hash_vector3 (x y z : Z) : Z := Z.lxor (Z.lxor x (Z.shiftr (Z.shiftl y 1 mod word) 1)) (Z.shiftl z 1 mod word).
(** 30-39: hash of a vector of any length. *)
Definition hash_vector (hs : list Z) : Z := fold_left hash_combine hs 0%Z.
(** 41-49: hash of a pair. *)
Definition hash_pair (a b : Z) : Z := hash_combine (hash_combine 0 a) b.

(** ** Time strings, 1350-1374.  The broken-down local time is an argument; std::put_time writes the year in decimal, the other fields with two
    digits; the milliseconds are written in decimal without padding. *)
Record tm := TM { t_year : N; t_mon : N; t_day : N; t_hour : N; t_min : N; t_sec : N }.
Definition char0 : N := 48.
Definition dash : N := 45.
Definition underscore : N := 95.
(** Decimal digits, most significant first; enough fuel for the values used here. *)
Fixpoint digits_fuel (fuel : nat) (n : N) : list N :=
  match fuel with
  | O => []
  | S k => if (n <? 10)%N then [(char0 + n)%N] else digits_fuel k (n / 10)%N ++ [(char0 + n mod 10)%N]
  end.
Definition decimal (n : N) : list N := digits_fuel 20 n.
Definition two_digits (n : N) : list N := [(char0 + n / 10)%N; (char0 + n mod 10)%N].
(** 1352-1359: GetCurrentTimeAsString. *)
Definition time_string (t : tm) : list N :=
  decimal (t_year t) ++ dash :: two_digits (t_mon t) ++ dash :: two_digits (t_day t) ++ underscore :: underscore ::
  two_digits (t_hour t) ++ dash :: two_digits (t_min t) ++ dash :: two_digits (t_sec t).
(** 1363-1373: GetCurrentTimeAsStringWithMilliseconds. *)
Definition time_string_ms (t : tm) (ms : N) : list N := time_string t ++ dash :: decimal ms.
