(** Model of the printing of doubles and Eigen types in pretty_print.hpp. *)
From Coq Require Import String Ascii.
From Verif Require Import Base VoxelFloat.
From Flocq Require Import IEEE754.Bits IEEE754.Binary.
Open Scope string_scope.
Local Open Scope Z_scope.

(** ** std::ostream << double with precision P, which is the %g of printf in the C standard, and in the C locale *)
Definition digit_char (d : Z) : ascii := ascii_of_nat (48 + Z.to_nat d).
Definition text (l : list Z) : string := string_of_list_ascii (map digit_char l).
(** The last n decimal digits. *)
Fixpoint digits (n : nat) (d : Z) : list Z := match n with O => [] | S n' => digits n' (d / 10) ++ [d mod 10] end.
(** The value is N/D.  10^X <= N/D. *)
Definition at_least (N D X : Z) : bool := if 0 <=? X then 10 ^ X * D <=? N else D <=? N * 10 ^ (- X).
(** The power of ten of the first digit: the largest X with 10^X <= N/D. *)
Fixpoint exponent (fuel : nat) (N D X : Z) : Z :=
  match fuel with O => X | S f => if at_least N D X then X else exponent f N D (X - 1) end.
(** The nearest whole number, the even one of two. *)
Definition nearest (N D : Z) : Z :=
  let q := N / D in let r := 2 * (N mod D) in
  if r <? D then q else if D <? r then q + 1 else if Z.even q then q else q + 1.
Definition scaled (N D k : Z) : Z := if 0 <=? k then nearest (N * 10 ^ k) D else nearest N (D * 10 ^ (- k)).
(** P significant digits, as a whole number, and the power of ten of the first one. *)
Definition significant (P N D : Z) : Z * Z :=
  let X := exponent 700 N D (Z.max 0 (Z.log2 N + 1 - Z.log2 D) / 3) in
  let d := scaled N D (P - 1 - X) in
  if d =? 10 ^ P then (10 ^ (P - 1), X + 1) else (d, X).
(** %g removes trailing zeros, and the point if nothing follows it. *)
Fixpoint strip (l : list Z) : list Z :=
  match l with [] => [] | d :: l' => match strip l' with [] => if d =? 0 then [] else [d] | l'' => d :: l'' end end.
Definition fraction (l : list Z) : string := match l with [] => "" | _ => "." ++ text l end.
Definition layout (P : Z) (d X : Z) : string :=
  let ds := digits (Z.to_nat P) d in
  if (-4 <=? X) && (X <? P) then
    if 0 <=? X then text (firstn (Z.to_nat (X + 1)) ds) ++ fraction (strip (skipn (Z.to_nat (X + 1)) ds))
    else "0" ++ fraction (repeat 0 (Z.to_nat (- X - 1)) ++ strip ds)
  else text (firstn 1 ds) ++ fraction (strip (skipn 1 ds)) ++ "e" ++ (if X <? 0 then "-" else "+") ++
       text (digits (if Z.abs X <? 100 then 2 else 3) (Z.abs X)).
Definition sign (s : bool) : string := if s then "-" else "".
Definition print (P : Z) (x : fl) : string :=
  match x with
  | B754_zero _ _ s => sign s ++ "0"
  | B754_infinity _ _ s => sign s ++ "inf"
  | B754_nan _ _ s _ _ => sign s ++ "nan"
  | B754_finite _ _ s m e _ =>
      let '(d, X) := significant P (Zpos m * 2 ^ Z.max e 0) (2 ^ Z.max (- e) 0) in sign s ++ layout P d X
  end.

(** ** pretty_print.hpp *)
(** 21-30: the base template for a double: a new std::ostringstream has the precision 6. *)
Definition pretty_double (x : fl) : string := print 6 x.
(** setprecision(12) in what follows. *)
Definition c12 (x : fl) : string := print 12 x.
(** 145-157: Vector2d. *)
Definition pretty_2 (add_delimiters : bool) (x y : fl) : string :=
  if add_delimiters then "Vector2d: <x: " ++ c12 x ++ " y: " ++ c12 y ++ ">" else c12 x ++ ", " ++ c12 y.
(** 159-173: Vector3d. *)
Definition pretty_3 (add_delimiters : bool) (x y z : fl) : string :=
  if add_delimiters then "Vector3d: <x: " ++ c12 x ++ " y: " ++ c12 y ++ " z: " ++ c12 z ++ ">" else c12 x ++ ", " ++ c12 y ++ ", " ++ c12 z.
(** 175-189: Vector4d. *)
Definition pretty_4 (add_delimiters : bool) (x y z w : fl) : string :=
  if add_delimiters then "Vector4d: <x: " ++ c12 x ++ " y: " ++ c12 y ++ " z: " ++ c12 z ++ " w: " ++ c12 w ++ ">"
  else c12 x ++ ", " ++ c12 y ++ ", " ++ c12 z ++ ", " ++ c12 w.
(** 221-235: Quaterniond. *)
Definition pretty_q (add_delimiters : bool) (x y z w : fl) : string :=
  if add_delimiters then "Quaterniond <x: " ++ c12 x ++ " y: " ++ c12 y ++ " z: " ++ c12 z ++ " w: " ++ c12 w ++ ">"
  else c12 x ++ ", " ++ c12 y ++ ", " ++ c12 z ++ ", " ++ c12 w.
(** 237-256: Isometry3d: its translation and the quaternion made from its rotation. *)
Definition pretty_t (add_delimiters : bool) (x y z qx qy qz qw : fl) : string :=
  if add_delimiters then "Isometry3d <x: " ++ c12 x ++ " y: " ++ c12 y ++ " z: " ++ c12 z ++ ">, <x: " ++ c12 qx ++ " y: " ++ c12 qy ++ " z: " ++ c12 qz ++ " w: " ++ c12 qw ++ ">"
  else c12 x ++ ", " ++ c12 y ++ ", " ++ c12 z ++ " : " ++ c12 qx ++ ", " ++ c12 qy ++ ", " ++ c12 qz ++ ", " ++ c12 qw.

(** Eigen's print_matrix with the flags 0: every coefficient is padded on the left to the width of the widest; [spacer] blanks before each row but the first
    (Eigen's rowSpacer, which depends on its version).  A matrix without coefficients has the prefix and suffix only; no coefficient has an empty text. *)
Definition blanks (n : nat) : string := string_of_list_ascii (repeat " "%char n).
Definition pad (width : nat) (s : string) : string := blanks (width - String.length s) ++ s.
Definition widest (l : list string) : nat := fold_right (fun s n => Nat.max (String.length s) n) 0%nat l.
Fixpoint join (separator : string) (l : list string) : string :=
  match l with [] => "" | [x] => x | x :: l' => x ++ separator ++ join separator l' end.
Definition print_matrix (spacer : nat) (row_separator prefix suffix : string) (rows : list (list fl)) : string :=
  let texts := map (map c12) rows in
  let width := widest (concat texts) in
  let row l := join ", " (map (pad width) l) in
  prefix ++ match texts with [] => "" | r :: rs => if (width =? 0)%nat then "" else join row_separator (row r :: map (fun r => blanks spacer ++ row r) rs) end ++ suffix.
(** 191-204: VectorXd, a matrix of one column. *)
Definition pretty_vector (spacer : nat) (add_delimiters : bool) (v : list fl) : string :=
  let rows := map (fun x => [x]) v in
  if add_delimiters then print_matrix spacer ", " "VectorXd: <" ">" rows else print_matrix 0 ", " "" "" rows.
Definition newline : string := String "010" "".
(** 206-219: MatrixXd. *)
Definition pretty_matrix (spacer : nat) (add_delimiters : bool) (rows : list (list fl)) : string :=
  if add_delimiters then print_matrix spacer newline ("MatrixXd:" ++ newline ++ "[") "]" rows else print_matrix 0 newline "" "" rows.
