(** Model of pretty_print.hpp: whole numbers, bool, characters, strings, pairs and containers of them.  Eigen types, floating point numbers and the
    state of the streams (locale) are not modelled. *)
From Coq Require Import String Ascii Decimal DecimalString.
From Verif Require Import Base.
Open Scope string_scope.

(** The brackets of a container: vector, array, list and deque; set and multiset; map and multimap (the unordered ones likewise). *)
Inductive kind := Square | Round | Curly.
Definition left_bracket (k : kind) : string := match k with Square => "[" | Round => "(" | Curly => "{" end.
Definition right_bracket (k : kind) : string := match k with Square => "]" | Round => ")" | Curly => "}" end.
(** Types: a whole number (int, long, size_t ...), bool, char (also int8_t and uint8_t), std::string, a pair, a container of T in the order of its
    iterators.  A map is a Curly container of pairs. *)
Inductive ty := TInt | TBool | TChar | TString | TPair (a b : ty) | TSeq (k : kind) (t : ty).
Fixpoint value (t : ty) : Type :=
  match t with
  | TInt => Z | TBool => bool | TChar => ascii | TString => string
  | TPair a b => value a * value b
  | TSeq _ t => list (value t)
  end.
(** std::ostream << of an integer: decimal, a minus sign when negative. *)
Definition decimal (z : Z) : string := NilZero.string_of_int (Z.to_int z).
(** 283-296 and the other containers: the elements, the separator before all but the first. *)
Definition elements (separator : string) (texts : list string) : string :=
  match texts with
  | [] => ""
  | x :: texts => fold_left (fun strm y => strm ++ (separator ++ y)) texts x
  end.
(** pretty_print.hpp:21-30 (base template), 135-144 (bool), 258-270 (pair), 272-631 (containers, except std::forward_list, for which size() does not
    compile): PrettyPrint(x, add_delimiters, separator). *)
Fixpoint pretty (add_delimiters : bool) (separator : string) (t : ty) : value t -> string :=
  match t with
  | TInt => decimal
  | TBool => fun b => if b then "true" else "false"
  | TChar => fun c => String c ""
  | TString => fun s => s
  | TPair a b => fun p =>
      if add_delimiters then "<" ++ pretty add_delimiters separator a (fst p) ++ ": " ++ pretty add_delimiters separator b (snd p) ++ ">"
      else pretty add_delimiters separator a (fst p) ++ ": " ++ pretty add_delimiters separator b (snd p)
  | TSeq k t => fun l =>
      match l with
      | [] => ""
      | _ => if add_delimiters then left_bracket k ++ elements separator (map (pretty add_delimiters separator t) l) ++ right_bracket k
             else elements separator (map (pretty add_delimiters separator t) l)
      end
  end.
